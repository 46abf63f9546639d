(** scripts/src/hashes/blake3.rs, function by function.  Panics are [None]. *)
From Coq Require Import ZArith List Bool Lia.
From Verif Require Import ScriptNum ScriptVM U32Model.
Import ListNotations.
Open Scope Z_scope.

Notation "'let?' x ':=' e 'in' k" := (match e with Some x => k | None => None end)
  (at level 200, x pattern, e at level 100, k at level 200).

(** blake3.rs 20-32 *)
Inductive ptr := St (i : nat) | Ms (i : nat).
Definition ptr_eqb (p q : ptr) : bool :=
  match p, q with
  | St i, St j => (i =? j)%nat
  | Ms i, Ms j => (i =? j)%nat
  | _, _ => false
  end.
(** blake3.rs 35: a HashMap; here the lookup function. *)
Definition env : Type := ptr -> option nat.

(** blake3.rs 37-47 *)
Definition ptr_init : env := fun p =>
  match p with
  | St i => if (i <? 16)%nat then Some i else None
  | Ms i => if (i <? 16)%nat then Some (i + 16 + 256 / 4)%nat else None
  end.
(** blake3.rs 49-66 *)
Definition ptr_init_160 : env := fun p =>
  match p with
  | St i => if (i <? 16)%nat then Some i else None
  | Ms i => if (i <? 16)%nat
            then Some (if (i <? 10)%nat then i + 16 + 256 / 4 + 6 else i + 16 + 256 / 4 - 10)%nat
            else None
  end.
(** blake3.rs 80-85 *)
Definition ptr_insert (e : env) (p : ptr) : env :=
  fun q => if ptr_eqb q p then Some O else option_map S (e q).
(** blake3.rs 87-99 *)
Definition ptr_extract (e : env) (p : ptr) : option (nat * env) :=
  match e p with
  | None => None
  | Some index =>
      Some (index, fun q => if ptr_eqb q p then None
                            else option_map (fun v => if (index <? v)%nat then (v - 1)%nat else v) (e q))
  end.

(** blake3.rs 110-114 *)
Definition IV : list Z :=
  [0x6A09E667; 0xBB67AE85; 0x3C6EF372; 0xA54FF53A; 0x510E527F; 0x9B05688C; 0x1F83D9AB; 0x5BE0CD19].
Definition MSG_PERMUTATION : list nat := [2; 6; 3; 10; 7; 0; 4; 13; 1; 11; 12; 5; 9; 14; 15; 8]%nat.

(** blake3.rs 116-123 *)
Definition initial_state (block_len : Z) : script :=
  flat_map u32_push (rev (IV ++ firstn 4 IV ++ [0; 0; block_len; 11])).

(** blake3.rs 125-173; arguments are evaluated left to right. *)
Definition G (e : env) (ap : nat) (a b c d m0 m1 : ptr) : option (script * env) :=
  let? pb := e b in
  let? (pa, e) := ptr_extract e a in
  let? s1 := u32_add pb pa in
  let? pm0 := e m0 in
  let? s2 := u32_add (pm0 + 1) 0 in
  let? (pd, e) := ptr_extract e d in
  let? s3 := u32_xor 0 (pd + 1) (ap + 1) in
  let? s4 := u32_rrot 16 in
  let? (pc, e) := ptr_extract e c in
  let? s5 := u32_add 0 (pc + 2) in
  let? (pb, e) := ptr_extract e b in
  let? s6 := u32_xor 0 (pb + 3) (ap + 1) in
  let? s7 := u32_rrot 12 in
  let? s8 := u32_add 0 3 in
  let? pm1 := e m1 in
  let? s9 := u32_add (pm1 + 4) 0 in
  let? s10 := u32_xor 0 3 (ap + 1) in
  let? s11 := u32_rrot 8 in
  let? s12 := u32_add 0 3 in
  let? s13 := u32_xor 0 3 (ap + 1) in
  let? s14 := u32_rrot 7 in
  let e := ptr_insert (ptr_insert (ptr_insert (ptr_insert e a) d) c) b in
  Some (s1 ++ s2 ++ s3 ++ s4 ++ s5 ++ s6 ++ s7 ++ s8 ++ s9 ++ s10 ++ s11 ++ s12 ++ s13 ++ s14, e).

(** blake3.rs 175-187 *)
Definition round (e : env) (ap : nat) : option (script * env) :=
  let? (s0, e) := G e ap (St 0) (St 4) (St 8) (St 12) (Ms 0) (Ms 1) in
  let? (s1, e) := G e ap (St 1) (St 5) (St 9) (St 13) (Ms 2) (Ms 3) in
  let? (s2, e) := G e ap (St 2) (St 6) (St 10) (St 14) (Ms 4) (Ms 5) in
  let? (s3, e) := G e ap (St 3) (St 7) (St 11) (St 15) (Ms 6) (Ms 7) in
  let? (s4, e) := G e ap (St 0) (St 5) (St 10) (St 15) (Ms 8) (Ms 9) in
  let? (s5, e) := G e ap (St 1) (St 6) (St 11) (St 12) (Ms 10) (Ms 11) in
  let? (s6, e) := G e ap (St 2) (St 7) (St 8) (St 13) (Ms 12) (Ms 13) in
  let? (s7, e) := G e ap (St 3) (St 4) (St 9) (St 14) (Ms 14) (Ms 15) in
  Some (s0 ++ s1 ++ s2 ++ s3 ++ s4 ++ s5 ++ s6 ++ s7, e).

(** blake3.rs 190-201; pushes nothing. *)
Definition permute (e : env) : env := fun p =>
  match p with
  | Ms i => if (i <? 16)%nat then e (Ms (nth i MSG_PERMUTATION O)) else e p
  | St _ => e p
  end.

Fixpoint permute_round (n : nat) (e : env) (ap : nat) : option (script * env) :=
  match n with
  | O => Some ([], e)
  | S n => let? (s, e) := round (permute e) ap in
           let? (t, e) := permute_round n e ap in Some (s ++ t, e)
  end.

(** The closing XORs of [compress] and [compress_160]: [for i in 0..n]. *)
(** scripts/src/hashes/blake3.rs 214-218 and 231-235 *)
Fixpoint final_xor (i n : nat) (e : env) (ap : nat) : option (script * env) :=
  match n with
  | O => Some ([], e)
  | S n => let? p := e (St i) in
           let? (q, e) := ptr_extract e (St (i + 8)) in
           let? s := u32_xor (p + i) (q + i) (ap + 1) in
           let? (t, e) := final_xor (S i) n e ap in Some (s ++ t, e)
  end.

(** blake3.rs 203-219 *)
Definition compress (e : env) (ap : nat) : option (script * env) :=
  let? (s, e) := round e ap in
  let? (t, e) := permute_round 6 e ap in
  let? (u, e) := final_xor 0 8 e ap in
  Some (s ++ t ++ u, e).
(** blake3.rs 221-236 *)
Definition compress_160 (e : env) (ap : nat) : option (script * env) :=
  let? (s, e) := round e ap in
  let? (t, e) := permute_round 6 e ap in
  let? (u, e) := final_xor 0 5 e ap in
  Some (s ++ t ++ u, e).

(** blake3.rs 239-270 *)
Definition blake3 : option script :=
  let? (c, _) := compress ptr_init 16 in
  Some (u8_push_xor_table ++ initial_state 64 ++ c ++
        repeat_script 8 u32_toaltstack ++ repeat_script 24 u32_drop ++
        u8_drop_xor_table ++ repeat_script 8 u32_fromaltstack).

(** blake3.rs 340-359: the compression script reused for every block. *)
Definition compression_script : option script :=
  let? (c, _) := compress ptr_init 16 in
  Some (c ++ [PUSHN 321] ++ repeat_script 63 [OP_DUP; OP_ROLL; OP_DROP] ++
        [OP_1SUB; OP_ROLL; OP_DROP] ++
        repeat_script 8 u32_toaltstack ++ repeat_script 8 u32_drop).

(** blake3.rs 364-399: blocks [i] .. [num_blocks - 1], [num_bytes] still to hash before. *)
Fixpoint more_blocks (k i num_blocks num_bytes : nat) (cs : script) : script :=
  match k with
  | O => []
  | S k =>
      let num_bytes := (num_bytes - 64)%nat in
      let block_flag := if (i =? num_blocks - 1)%nat then 10 else 0 in
      flat_map u32_push (rev (firstn 4 IV ++ [0; 0; Z.of_nat (Nat.min num_bytes 64); block_flag])) ++
      repeat_script 8 u32_fromaltstack ++
      flat_map u32_roll (seq 1 7) ++
      cs ++ more_blocks k (S i) num_blocks num_bytes cs
  end.

(** blake3.rs 272-412 *)
Definition blake3_var_length (num_bytes : nat) : option script :=
  if (num_bytes <=? 512)%nat then
    let num_blocks := ((num_bytes + 64 - 1) / 64)%nat in
    let num_padding_bytes := (num_blocks * 64 - num_bytes)%nat in
    let? cs := compression_script in
    let first_block_flag := if (num_bytes <=? 64)%nat then 11 else 1 in
    Some (push_to_stack 0 num_padding_bytes ++
          (if (num_padding_bytes =? 0)%nat then []
           else repeat_script num_bytes [pushnat (num_bytes + num_padding_bytes - 1); OP_ROLL]) ++
          u8_push_xor_table ++
          flat_map u32_push (rev (IV ++ firstn 4 IV ++
            [0; 0; Z.of_nat (Nat.min num_bytes 64); first_block_flag])) ++
          cs ++
          more_blocks (num_blocks - 1) 1 num_blocks num_bytes cs ++
          u8_drop_xor_table ++ repeat_script 8 u32_fromaltstack)
  else None.

(** blake3.rs 415-452 *)
Definition blake3_160 : option script :=
  let? (c, _) := compress_160 ptr_init_160 16 in
  Some (push_to_stack 0 24 ++ u8_push_xor_table ++ initial_state 40 ++ c ++
        repeat_script 5 u32_toaltstack ++ repeat_script 27 u32_drop ++
        u8_drop_xor_table ++ repeat_script 5 u32_fromaltstack).

(** blake3.rs 454-470: [bytes] are the decoded bytes of the hex string. *)
Definition push_bytes (bytes : list Z) : script := map PUSHN (rev bytes).

(** blake3.rs 472-483 *)
Definition blake3_hash_equalverify : script :=
  repeat_script 28 [OP_TOALTSTACK] ++ u32_equalverify ++
  repeat_script 7 ([OP_FROMALTSTACK; OP_FROMALTSTACK; OP_FROMALTSTACK; OP_FROMALTSTACK] ++ u32_equalverify).
(** blake3.rs 485-496 *)
Definition blake3_160_hash_equalverify : script :=
  repeat_script 16 [OP_TOALTSTACK] ++ u32_equalverify ++
  repeat_script 4 ([OP_FROMALTSTACK; OP_FROMALTSTACK; OP_FROMALTSTACK; OP_FROMALTSTACK] ++ u32_equalverify).
