(** Script generators of the [scripts] crate: stack macros and 32-bit words.
    Every definition mirrors one Rust function that returns a script.  Rust
    functions that can panic while generating the script return [option script];
    [None] is the panic. Word positions are natural numbers (the Rust code uses
    u32; overflow of positions is not modelled). *)
From Coq Require Import ZArith List Bool.
From Verif Require Import ScriptNum ScriptVM.
Import ListNotations.
Open Scope Z_scope.

Fixpoint repeat_script (n : nat) (p : script) : script :=
  match n with O => [] | S n' => p ++ repeat_script n' p end.

(** [{n}] inside script! with an unsigned integer n. *)
(** used in every script! of scripts/src/u32, for instance u32_std.rs *)
Definition pushnat (n : nat) : op := PUSHN (Z.of_nat n).

(* ------------------------------------------------------------------ *)
(** ** /repo/scripts/src/pseudo.rs *)

(** pseudo.rs:12-20 *)
Definition OP_4PICK : script :=
  [PUSHN 4; OP_ADD;
   OP_DUP; OP_PICK; OP_SWAP;
   OP_DUP; OP_PICK; OP_SWAP;
   OP_DUP; OP_PICK; OP_SWAP;
   OP_1SUB; OP_PICK].

(** pseudo.rs:24-32 *)
Definition OP_4ROLL : script :=
  [PUSHN 4; OP_ADD;
   OP_DUP; OP_ROLL; OP_SWAP;
   OP_DUP; OP_ROLL; OP_SWAP;
   OP_DUP; OP_ROLL; OP_SWAP;
   OP_1SUB; OP_ROLL].

(** pseudo.rs:35-39 *)
Definition OP_4DUP : script := [OP_2OVER; OP_2OVER].
(** pseudo.rs:42-46 *)
Definition OP_4DROP : script := [OP_2DROP; OP_2DROP].
(** pseudo.rs:49-54 *)
Definition OP_4SWAP : script :=
  [PUSHN 7; OP_ROLL; PUSHN 7; OP_ROLL; PUSHN 7; OP_ROLL; PUSHN 7; OP_ROLL].
(** pseudo.rs:57-61 *)
Definition OP_4TOALTSTACK : script := [OP_TOALTSTACK; OP_TOALTSTACK; OP_TOALTSTACK; OP_TOALTSTACK].
(** pseudo.rs:64-68 *)
Definition OP_4FROMALTSTACK : script :=
  [OP_FROMALTSTACK; OP_FROMALTSTACK; OP_FROMALTSTACK; OP_FROMALTSTACK].

(** pseudo.rs:75-79 *)
Definition OP_2MUL : script := [OP_DUP; OP_ADD].
(** pseudo.rs:82-86 *)
Definition OP_4MUL : script := [OP_DUP; OP_ADD; OP_DUP; OP_ADD].
(** pseudo.rs:89-95 *)
Definition op_2k_mul (k : nat) : script := repeat_script k OP_2MUL.
(** pseudo.rs:98-103 *)
Definition OP_16MUL : script :=
  [OP_DUP; OP_ADD; OP_DUP; OP_ADD; OP_DUP; OP_ADD; OP_DUP; OP_ADD].
(** pseudo.rs:106-113 *)
Definition OP_256MUL : script :=
  [OP_DUP; OP_ADD; OP_DUP; OP_ADD; OP_DUP; OP_ADD; OP_DUP; OP_ADD;
   OP_DUP; OP_ADD; OP_DUP; OP_ADD; OP_DUP; OP_ADD; OP_DUP; OP_ADD].

(** pseudo.rs:115-146 *)
Definition OP_NDUP (n : nat) : script :=
  let times_3_dup := if (3 <? n)%nat then ((n - 3) / 3)%nat else O in
  let remaining := if (3 <? n)%nat then ((n - 3) mod 3)%nat else O in
  (if (1 <=? n)%nat then [OP_DUP] else []) ++
  (if (3 <=? n)%nat then [OP_2DUP] else if (2 <=? n)%nat then [OP_DUP] else []) ++
  repeat_script times_3_dup [OP_3DUP] ++
  (if (remaining =? 2)%nat then [OP_2DUP] else if (remaining =? 1)%nat then [OP_DUP] else []).

(** pseudo.rs:148-154 *)
Definition push_to_stack (element : nat) (n : nat) : script :=
  if (1 <=? n)%nat then pushnat element :: OP_NDUP (n - 1) else [].

(* ------------------------------------------------------------------ *)
(** ** /repo/scripts/src/u32/u32_std.rs *)

(** u32_std.rs:7-14; [value] is a u32. *)
Definition u32_push (value : Z) : script :=
  [PUSHN (Z.land (Z.shiftr value 24) 255);
   PUSHN (Z.land (Z.shiftr value 16) 255);
   PUSHN (Z.land (Z.shiftr value 8) 255);
   PUSHN (Z.land value 255)].

(** u32_std.rs:17-29 *)
Definition u32_equalverify : script :=
  [PUSHN 4; OP_ROLL; OP_EQUALVERIFY;
   PUSHN 3; OP_ROLL; OP_EQUALVERIFY;
   OP_ROT; OP_EQUALVERIFY; OP_EQUALVERIFY].

(** u32_std.rs:31-46 *)
Definition u32_equal : script :=
  [PUSHN 4; OP_ROLL; OP_EQUAL; OP_TOALTSTACK;
   PUSHN 3; OP_ROLL; OP_EQUAL; OP_TOALTSTACK;
   OP_ROT; OP_EQUAL; OP_TOALTSTACK;
   OP_EQUAL;
   OP_FROMALTSTACK; OP_BOOLAND; OP_FROMALTSTACK; OP_BOOLAND; OP_FROMALTSTACK; OP_BOOLAND].

(** u32_std.rs:49-64 *)
Definition u32_notequal : script :=
  [PUSHN 4; OP_ROLL; OP_NUMNOTEQUAL; OP_TOALTSTACK;
   PUSHN 3; OP_ROLL; OP_NUMNOTEQUAL; OP_TOALTSTACK;
   OP_ROT; OP_NUMNOTEQUAL; OP_TOALTSTACK;
   OP_NUMNOTEQUAL;
   OP_FROMALTSTACK; OP_BOOLOR; OP_FROMALTSTACK; OP_BOOLOR; OP_FROMALTSTACK; OP_BOOLOR].

(** u32_std.rs:67-74 *)
Definition u32_toaltstack : script := [OP_TOALTSTACK; OP_TOALTSTACK; OP_TOALTSTACK; OP_TOALTSTACK].
(** u32_std.rs:77-84 *)
Definition u32_fromaltstack : script :=
  [OP_FROMALTSTACK; OP_FROMALTSTACK; OP_FROMALTSTACK; OP_FROMALTSTACK].
(** u32_std.rs:87-89 *)
Definition u32_dup : script := OP_4DUP.
(** u32_std.rs:92-97 *)
Definition u32_drop : script := [OP_2DROP; OP_2DROP].
(** u32_std.rs:100-108 *)
Definition u32_roll (n : nat) : script :=
  let n' := ((n + 1) * 4 - 1)%nat in
  [pushnat n'; OP_ROLL; pushnat n'; OP_ROLL; pushnat n'; OP_ROLL; pushnat n'; OP_ROLL].
(** u32_std.rs:111-119 *)
Definition u32_pick (n : nat) : script :=
  let n' := ((n + 1) * 4 - 1)%nat in
  [pushnat n'; OP_PICK; pushnat n'; OP_PICK; pushnat n'; OP_PICK; pushnat n'; OP_PICK].

(** u32_std.rs:122-175 *)
Definition u32_compress : script :=
  [OP_SWAP; OP_ROT; PUSHN 3; OP_ROLL;
   OP_DUP; PUSHN 127; OP_GREATERTHAN;
   OP_IF; PUSHN 128; OP_SUB; PUSHN 1; OP_ELSE; PUSHN 0; OP_ENDIF;
   OP_TOALTSTACK] ++
  OP_256MUL ++ [OP_ADD] ++ OP_256MUL ++ [OP_ADD] ++ OP_256MUL ++ [OP_ADD] ++
  [OP_FROMALTSTACK; OP_IF; OP_NEGATE; OP_ENDIF].

(* ------------------------------------------------------------------ *)
(** ** /repo/scripts/src/u32/u32_zip.rs *)

(** u32_zip.rs:7-21 *)
Definition u32_zip (a0 b0 : nat) : script :=
  let '(a, b) := if (b0 <? a0)%nat then (b0, a0) else (a0, b0) in
  let a := ((a + 1) * 4 - 1)%nat in
  let b := ((b + 1) * 4 - 1)%nat in
  [pushnat a; OP_ROLL; pushnat b; OP_ROLL;
   pushnat (a + 1); OP_ROLL; pushnat b; OP_ROLL;
   pushnat (a + 2); OP_ROLL; pushnat b; OP_ROLL;
   pushnat (a + 3); OP_ROLL; pushnat b; OP_ROLL].

(** u32_zip.rs:34-46 (the assertion a < b is guaranteed by the only caller) *)
Definition u32_copy_zip_lt (a0 b0 : nat) : script :=
  let a := ((a0 + 1) * 4 - 1)%nat in
  let b := ((b0 + 1) * 4 - 1)%nat in
  [pushnat a; OP_PICK; pushnat (b + 1); OP_ROLL;
   pushnat (a + 1); OP_PICK; pushnat (b + 2); OP_ROLL;
   pushnat (a + 2); OP_PICK; pushnat (b + 3); OP_ROLL;
   pushnat (a + 3); OP_PICK; pushnat (b + 4); OP_ROLL].

(** u32_zip.rs:48-59 *)
Definition u32_zip_copy_lt (a0 b0 : nat) : script :=
  let a := ((a0 + 1) * 4 - 1)%nat in
  let b := ((b0 + 1) * 4 - 1)%nat in
  [pushnat a; OP_ROLL; pushnat b; OP_PICK;
   pushnat (a + 1); OP_ROLL; pushnat b; OP_PICK;
   pushnat (a + 2); OP_ROLL; pushnat b; OP_PICK;
   pushnat (a + 3); OP_ROLL; pushnat b; OP_PICK].

(** u32_zip.rs:26-32; with a = b the callee's assertion a < b fails (None). *)
Definition u32_copy_zip (a b : nat) : option script :=
  if (a <? b)%nat then Some (u32_copy_zip_lt a b)
  else if (b <? a)%nat then Some (u32_zip_copy_lt b a)
  else None.

(* ------------------------------------------------------------------ *)
(** ** /repo/scripts/src/u32/u32_add.rs *)

(** u32_add.rs:4-18 *)
Definition u8_add_carry : script :=
  [OP_ADD; OP_DUP; PUSHN 255; OP_GREATERTHAN;
   OP_IF; PUSHN 256; OP_SUB; PUSHN 1; OP_ELSE; PUSHN 0; OP_ENDIF].

(** u32_add.rs:20-31 *)
Definition u8_add : script :=
  [OP_ADD; OP_DUP; PUSHN 255; OP_GREATERTHAN; OP_IF; PUSHN 256; OP_SUB; OP_ENDIF].

(** The part shared by u32_add.rs:40-63 and u32_add.rs:76-99. *)
Definition u32_add_body : script :=
  u8_add_carry ++ [OP_SWAP; OP_TOALTSTACK; OP_ADD] ++
  u8_add_carry ++ [OP_SWAP; OP_TOALTSTACK; OP_ADD] ++
  u8_add_carry ++ [OP_SWAP; OP_TOALTSTACK; OP_ADD] ++
  u8_add ++ [OP_FROMALTSTACK; OP_FROMALTSTACK; OP_FROMALTSTACK].

(** u32_add.rs:35-67 *)
Definition u32_add (a b : nat) : option script :=
  if (a =? b)%nat then None
  else match u32_copy_zip a b with
       | Some z => Some (z ++ u32_add_body)
       | None => None
       end.

(** u32_add.rs:71-103 *)
Definition u32_add_drop (a b : nat) : option script :=
  if (a =? b)%nat then None else Some (u32_zip a b ++ u32_add_body).

(* ------------------------------------------------------------------ *)
(** ** /repo/scripts/src/u32/u32_xor.rs *)

(** u32_xor.rs:11-81 *)
Definition u8_xor (i : nat) : script :=
  [OP_DUP; pushnat i; OP_ADD; OP_PICK;
   OP_DUP; OP_DUP; OP_ADD;
   OP_ROT; OP_SWAP; OP_SUB;
   OP_ROT; OP_DUP; pushnat (i + 1); OP_ADD; OP_PICK;
   OP_DUP; OP_DUP; OP_ADD;
   OP_ROT; OP_SWAP; OP_SUB;
   OP_SWAP; PUSHN 3; OP_ROLL; OP_ADD;
   OP_DUP; pushnat (i + 1); OP_ADD; OP_PICK; OP_DUP; OP_ADD; OP_SUB;
   OP_SWAP; OP_ROT; OP_ADD;
   OP_DUP; pushnat i; OP_ADD; OP_PICK; OP_DUP; OP_ADD; OP_SUB;
   OP_SWAP; OP_DUP; OP_ADD; OP_ADD].

(** u32_xor.rs:95-112 *)
Definition u32_xor_body (stack_size : nat) : script :=
  u8_xor (8 + (stack_size - 2) * 4) ++ [OP_TOALTSTACK] ++
  u8_xor (6 + (stack_size - 2) * 4) ++ [OP_TOALTSTACK] ++
  u8_xor (4 + (stack_size - 2) * 4) ++ [OP_TOALTSTACK] ++
  u8_xor (2 + (stack_size - 2) * 4) ++
  [OP_FROMALTSTACK; OP_FROMALTSTACK; OP_FROMALTSTACK].

(** u32_xor.rs:86-114; [stack_size - 2] on u32 panics below 2 (debug build). *)
Definition u32_xor (a b stack_size : nat) : option script :=
  if (a =? b)%nat then None
  else if (stack_size <? 2)%nat then None
  else match u32_copy_zip a b with
       | Some z => Some (z ++ u32_xor_body stack_size)
       | None => None
       end.

(** u32_xor.rs:119-329 *)
Definition u8_push_xor_table : script :=
  [PUSHN 85; OP_DUP; PUSHN 84; OP_DUP; OP_2OVER; OP_2OVER; PUSHN 81; OP_DUP; PUSHN 80;
OP_DUP; OP_2OVER; OP_2OVER; PUSHN 85; OP_DUP; PUSHN 84; OP_DUP; OP_2OVER; OP_2OVER; PUSHN
81; OP_DUP; PUSHN 80; OP_DUP; OP_2OVER; OP_2OVER; PUSHN 69; OP_DUP; PUSHN 68; OP_DUP;
OP_2OVER; OP_2OVER; PUSHN 65; OP_DUP; PUSHN 64; OP_DUP; OP_2OVER; OP_2OVER; PUSHN 69;
OP_DUP; PUSHN 68; OP_DUP; OP_2OVER; OP_2OVER; PUSHN 65; OP_DUP; PUSHN 64; OP_DUP;
OP_2OVER; OP_2OVER; PUSHN 85; OP_DUP; PUSHN 84; OP_DUP; OP_2OVER; OP_2OVER; PUSHN 81;
OP_DUP; PUSHN 80; OP_DUP; OP_2OVER; OP_2OVER; PUSHN 85; OP_DUP; PUSHN 84; OP_DUP;
OP_2OVER; OP_2OVER; PUSHN 81; OP_DUP; PUSHN 80; OP_DUP; OP_2OVER; OP_2OVER; PUSHN 69;
OP_DUP; PUSHN 68; OP_DUP; OP_2OVER; OP_2OVER; PUSHN 65; OP_DUP; PUSHN 64; OP_DUP;
OP_2OVER; OP_2OVER; PUSHN 69; OP_DUP; PUSHN 68; OP_DUP; OP_2OVER; OP_2OVER; PUSHN 65;
OP_DUP; PUSHN 64; OP_DUP; OP_2OVER; OP_2OVER; PUSHN 21; OP_DUP; PUSHN 20; OP_DUP;
OP_2OVER; OP_2OVER; PUSHN 17; OP_DUP; PUSHN 16; OP_DUP; OP_2OVER; OP_2OVER; PUSHN 21;
OP_DUP; PUSHN 20; OP_DUP; OP_2OVER; OP_2OVER; PUSHN 17; OP_DUP; PUSHN 16; OP_DUP;
OP_2OVER; OP_2OVER; PUSHN 5; OP_DUP; PUSHN 4; OP_DUP; OP_2OVER; OP_2OVER; PUSHN 1; OP_DUP;
PUSHN 0; OP_DUP; OP_2OVER; OP_2OVER; PUSHN 5; OP_DUP; PUSHN 4; OP_DUP; OP_2OVER; OP_2OVER;
PUSHN 1; OP_DUP; PUSHN 0; OP_DUP; OP_2OVER; OP_2OVER; PUSHN 21; OP_DUP; PUSHN 20; OP_DUP;
OP_2OVER; OP_2OVER; PUSHN 17; OP_DUP; PUSHN 16; OP_DUP; OP_2OVER; OP_2OVER; PUSHN 21;
OP_DUP; PUSHN 20; OP_DUP; OP_2OVER; OP_2OVER; PUSHN 17; OP_DUP; PUSHN 16; OP_DUP;
OP_2OVER; OP_2OVER; PUSHN 5; OP_DUP; PUSHN 4; OP_DUP; OP_2OVER; OP_2OVER; PUSHN 1; OP_DUP;
PUSHN 0; OP_DUP; OP_2OVER; OP_2OVER; PUSHN 5; OP_DUP; PUSHN 4; OP_DUP; OP_2OVER; OP_2OVER;
PUSHN 1; OP_DUP; PUSHN 0; OP_DUP; OP_2OVER; OP_2OVER].

(** u32_xor.rs:332-338 *)
Definition u8_drop_xor_table : script := repeat_script 128 [OP_2DROP].

(* ------------------------------------------------------------------ *)
(** ** /repo/scripts/src/u32/u32_rrot.rs *)

(** u32_rrot.rs:8-12 *)
Definition u32_rrot16 : script := [OP_2SWAP].
(** u32_rrot.rs:15-20 *)
Definition u32_rrot8 : script := [OP_2SWAP; PUSHN 3; OP_ROLL].

(** u32_rrot.rs:23-43 *)
Definition u8_rrot7 (i : nat) : script :=
  (match i with
   | O => []
   | 1%nat => [OP_SWAP]
   | 2%nat => [OP_ROT]
   | _ => [pushnat i; OP_ROLL]
   end) ++
  [PUSHN 128; OP_2DUP; OP_GREATERTHANOREQUAL;
   OP_IF; OP_SUB; PUSHN 1; OP_ELSE; OP_DROP; PUSHN 0; OP_ENDIF].

(** u32_rrot.rs:46-88 *)
Definition u32_rrot7 : script :=
  u8_rrot7 0 ++ u8_rrot7 2 ++
  [OP_TOALTSTACK; OP_DUP; OP_ADD; OP_ADD; OP_FROMALTSTACK] ++
  u8_rrot7 3 ++
  [OP_TOALTSTACK; OP_DUP; OP_ADD; OP_ADD; OP_FROMALTSTACK] ++
  u8_rrot7 4 ++
  [OP_TOALTSTACK; OP_DUP; OP_ADD; OP_ADD; OP_FROMALTSTACK] ++
  [PUSHN 4; OP_ROLL; OP_DUP; OP_ADD; OP_ADD; OP_SWAP; OP_2SWAP; OP_SWAP].

(** u32_rrot.rs:90-105 *)
Definition u8_extract_1bit : script :=
  [OP_DUP; OP_ADD; PUSHN 256; OP_2DUP; OP_GREATERTHANOREQUAL;
   OP_IF; OP_SUB; PUSHN 1; OP_ELSE; OP_DROP; PUSHN 0; OP_ENDIF].

(** u32_rrot.rs:118-134: iterations i, i+1, ..., i+n-1 of the loop, [x] = 2^(hbit-1) *)
Fixpoint extract_loop (n : nat) (x : Z) (i : Z) : script :=
  match n with
  | O => []
  | S n' =>
      [OP_DUP; PUSHN 127; OP_GREATERTHAN;
       OP_IF; PUSHN 128; OP_SUB; OP_FROMALTSTACK; PUSHN (Z.shiftr x i); OP_ADD; OP_TOALTSTACK;
       OP_ENDIF; OP_DUP; OP_ADD] ++ extract_loop n' x (i + 1)
  end.

(** u32_rrot.rs:107-138 *)
Definition u8_extract_hbit (hbit : nat) : option script :=
  if ((hbit <? 8) && negb (hbit =? 0))%nat then
    if (hbit =? 1)%nat then Some u8_extract_1bit
    else Some ([PUSHN 0; OP_TOALTSTACK] ++ extract_loop hbit (2 ^ Z.of_nat (hbit - 1)) 0 ++
               [OP_FROMALTSTACK])
  else None.

(** u32_rrot.rs:140-172 *)
Definition byte_reorder (offset : nat) : option script :=
  match offset with
  | 0 => Some [OP_SWAP; OP_2SWAP; OP_SWAP]
  | 1 => Some [OP_SWAP; OP_ROT]
  | 2 => Some [OP_SWAP; OP_2SWAP; OP_SWAP; OP_2SWAP]
  | 3 => Some [OP_SWAP; OP_ROT; OP_2SWAP]
  | _ => None
  end%nat.

(** u32_rrot.rs:174-185 *)
Definition specific_optimize (rot_num : nat) : option script :=
  match rot_num with
  | 0 => Some []
  | 7 => Some u32_rrot7
  | 8 => Some u32_rrot8
  | 16 => Some u32_rrot16
  | 23 => Some (u32_rrot16 ++ u32_rrot7)
  | 24 => Some [PUSHN 3; OP_ROLL]
  | _ => None
  end%nat.

(** u32_rrot.rs:192-221, the generic path *)
Definition u32_rrot_generic (rot_num : nat) : option script :=
  let remainder := (rot_num mod 8)%nat in
  let hbit := (8 - remainder)%nat in
  let offset := ((rot_num - remainder) / 8)%nat in
  match u8_extract_hbit hbit, byte_reorder offset with
  | Some e, Some r =>
      Some (e ++ [OP_ROT] ++ e ++ [PUSHN 4; OP_ROLL] ++ e ++ [PUSHN 6; OP_ROLL] ++ e ++
            [PUSHN 7; OP_ROLL; OP_ADD; OP_TOALTSTACK;
             OP_ADD; OP_TOALTSTACK; OP_ADD; OP_TOALTSTACK; OP_ADD; OP_TOALTSTACK;
             OP_FROMALTSTACK; OP_FROMALTSTACK; OP_FROMALTSTACK; OP_FROMALTSTACK] ++ r)
  | _, _ => None
  end.

(** u32_rrot.rs:187-222 *)
Definition u32_rrot (rot_num : nat) : option script :=
  if (rot_num <? 32)%nat then
    match specific_optimize rot_num with
    | Some res => Some res
    | None => u32_rrot_generic rot_num
    end
  else None.

(* ------------------------------------------------------------------ *)
(** ** Specification vocabulary (independent of the scripts) *)

(** The four stack elements of a 32-bit word, top of the stack first: low byte
    on top, high byte deepest. *)
Definition wbytes (w : Z) : list Z :=
  [w mod 256; (w / 2^8) mod 256; (w / 2^16) mod 256; (w / 2^24) mod 256].
Definition word (w : Z) : list val := map I (wbytes w).
(** A sequence of words, first word on top. *)
(** specification, not code of /repo *)
Definition words (ws : list Z) : list val := flat_map word ws.
(** specification, not code of /repo *)
Definition is_u32 (w : Z) : Prop := 0 <= w < 2 ^ 32.
(** specification, not code of /repo; compared with scripts/src/u32/u32_rrot.rs *)
Definition rotr32 (w n : Z) : Z := w / 2 ^ n + (w mod 2 ^ n) * 2 ^ (32 - n).
