(** Scripts for arithmetic in the 31-bit field.

    The repository calls [u31_add], [u31_sub], [u31_double], [u31_mul] of the
    external crate rust_bitcoin_u31_or_u30 (/repo/scripts/src/lib.rs:29-34).
    That crate is not part of the repository; its scripts are modelled from the
    copy kept (but not compiled) in /repo/scripts/src/u31/mod.rs. *)
From Coq Require Import ZArith List Bool.
From Verif Require Import ScriptNum ScriptVM U32Model.
Import ListNotations.
Open Scope Z_scope.

(** /repo/scripts/src/u31/babybear.rs:11-13: 15 * (1 << 27) + 1 *)
Definition MOD : Z := 2013265921.

(** u31/mod.rs:18-24 *)
Definition u31_adjust : script := [OP_DUP; PUSHN 0; OP_LESSTHAN; OP_IF; PUSHN MOD; OP_ADD; OP_ENDIF].
(** u31/mod.rs:26-32 *)
Definition u31_add : script := [PUSHN MOD; OP_SUB; OP_ADD] ++ u31_adjust.
(** u31/mod.rs:34-39 *)
Definition u31_double : script := [OP_DUP] ++ u31_add.
(** u31/mod.rs:41-46 *)
Definition u31_sub : script := [OP_SUB] ++ u31_adjust.

(** u31/mod.rs:56-68, one round, [a] = 1 << (30 - i) *)
Definition u31_bit_round (a : Z) : script :=
  [OP_DUP; PUSHN (a - 1); OP_GREATERTHAN; OP_SWAP; OP_OVER; OP_IF; PUSHN a; OP_SUB; OP_ENDIF].
(** rounds for a = 2^k, ..., 2^1 *)
(** scripts/src/u31/mod.rs 54-70 *)
Fixpoint u31_to_bits_from (k : nat) : script :=
  match k with
  | O => []
  | S k' => u31_bit_round (2 ^ Z.of_nat k) ++ u31_to_bits_from k'
  end.
(** u31/mod.rs:54-70 *)
Definition u31_to_bits : script := u31_to_bits_from 30.

(** u31/mod.rs:97-99: add the selected multiple *)
Definition u31_mul_select : script :=
  [OP_FROMALTSTACK; OP_FROMALTSTACK; OP_SWAP; OP_DUP; OP_ADD; OP_ADD;
   PUSHN 4; OP_SWAP; OP_SUB; OP_PICK] ++ u31_add.

(** u31/mod.rs:72-113 *)
Definition u31_mul : script :=
  u31_to_bits ++ repeat_script 31 [OP_TOALTSTACK] ++
  [PUSHN 0; OP_SWAP; OP_DUP] ++ u31_double ++ [OP_2DUP] ++ u31_add ++
  [PUSHN 0; OP_FROMALTSTACK; OP_IF; PUSHN 3; OP_PICK] ++ u31_add ++ [OP_ENDIF] ++
  u31_double ++ u31_double ++
  repeat_script 14 (u31_mul_select ++ u31_double ++ u31_double) ++
  u31_mul_select ++
  [OP_TOALTSTACK; OP_2DROP; OP_2DROP; OP_FROMALTSTACK].

(** /repo/scripts/src/lib.rs:38-43 *)
Definition u31_square : script := [OP_DUP] ++ u31_mul.

(** /repo/scripts/src/lib.rs:58-71 *)
Definition u32_to_u31 : script :=
  [OP_DUP; PUSHN 0; OP_LESSTHAN; OP_IF; OP_ABS; PUSHN MOD] ++ u31_sub ++
  [PUSHN (2147483648 - 2013265921); OP_ADD; OP_ENDIF; PUSHN MOD] ++ u31_sub.
