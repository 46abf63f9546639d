(** Properties C01-C08 and C17: stack macros, 32-bit words and 31-bit field
    scripts, stated on the byte machine.

    Stacks are lists with the top first; [exec] and [fails] are in Lift.v. *)
From Coq Require Import ZArith List Bool Lia.
From Verif Require Import ScriptNum ScriptVM VMLemmas U32Model U32Proofs U32Proofs2 U32Rot
  Macros U31Model U31Proofs Lift.
Import ListNotations.
Open Scope Z_scope.

(** A hash function for the examples; the theorems hold for every [H]. *)
Definition H0 (b : bytes) : bytes := b.

(* ------------------------------------------------------------------ *)
(** ** C01 *)
Theorem C01_op_4pick : forall H g w0 w1 w2 w3 rest alt,
  Z.of_nat (length g) < 2 ^ 30 ->
  exec H OP_4PICK (enc (Z.of_nat (length g)) :: g ++ [w0; w1; w2; w3] ++ rest) alt
                  ([w0; w1; w2; w3] ++ g ++ [w0; w1; w2; w3] ++ rest) alt.
Proof.
  intros H g w0 w1 w2 w3 rest al L.
  pose proof (OP_4PICK_ok H (map B g) (B w0) (B w1) (B w2) (B w3) (map B rest) (map B al)) as E.
  rewrite map_length in E. specialize (E L). tobytes E. exact E.
Qed.

Theorem C01_op_4roll : forall H g w0 w1 w2 w3 rest alt,
  Z.of_nat (length g) < 2 ^ 30 ->
  exec H OP_4ROLL (enc (Z.of_nat (length g)) :: g ++ [w0; w1; w2; w3] ++ rest) alt
                  ([w0; w1; w2; w3] ++ g ++ rest) alt.
Proof.
  intros H g w0 w1 w2 w3 rest al L.
  pose proof (OP_4ROLL_ok H (map B g) (B w0) (B w1) (B w2) (B w3) (map B rest) (map B al)) as E.
  rewrite map_length in E. specialize (E L). tobytes E. exact E.
Qed.

Theorem C01_op_4dup : forall H w0 w1 w2 w3 rest alt,
  exec H OP_4DUP ([w0; w1; w2; w3] ++ rest) alt ([w0; w1; w2; w3] ++ [w0; w1; w2; w3] ++ rest) alt.
Proof. reflexivity. Qed.

Theorem C01_op_4drop : forall H w0 w1 w2 w3 rest alt,
  exec H OP_4DROP ([w0; w1; w2; w3] ++ rest) alt rest alt.
Proof. reflexivity. Qed.

Theorem C01_op_4swap : forall H v0 v1 v2 v3 w0 w1 w2 w3 rest alt,
  exec H OP_4SWAP ([v0; v1; v2; v3] ++ [w0; w1; w2; w3] ++ rest) alt
                  ([w0; w1; w2; w3] ++ [v0; v1; v2; v3] ++ rest) alt.
Proof. reflexivity. Qed.

(** To the alt stack and back: the four items return in their order, whatever
    is put on the main stack meanwhile. *)
Theorem C01_op_4alt : forall H w0 w1 w2 w3 rest alt,
  exec H OP_4TOALTSTACK ([w0; w1; w2; w3] ++ rest) alt rest ([w3; w2; w1; w0] ++ alt) /\
  (forall rest', exec H OP_4FROMALTSTACK rest' ([w3; w2; w1; w0] ++ alt)
                                         ([w0; w1; w2; w3] ++ rest') alt).
Proof. split; reflexivity. Qed.

(** u32_pick / u32_roll address 4-element words by index: [g] has [n] words. *)
Theorem C01_u32_pick : forall H n g w0 w1 w2 w3 rest alt,
  length g = (4 * n)%nat -> Z.of_nat n < 2 ^ 28 ->
  exec H (u32_pick n) (g ++ [w0; w1; w2; w3] ++ rest) alt
                      ([w0; w1; w2; w3] ++ g ++ [w0; w1; w2; w3] ++ rest) alt.
Proof.
  intros H n g w0 w1 w2 w3 rest al L P.
  assert (L' : length (map B g) = (4 * n)%nat) by now rewrite map_length.
  pose proof (u32_pick_ok H n (map B g) (B w0) (B w1) (B w2) (B w3) (map B rest) (map B al) []
                L' P eq_refl) as E.
  tobytes E. exact E.
Qed.

Theorem C01_u32_roll : forall H n g w0 w1 w2 w3 rest alt,
  length g = (4 * n)%nat -> Z.of_nat n < 2 ^ 28 ->
  exec H (u32_roll n) (g ++ [w0; w1; w2; w3] ++ rest) alt ([w0; w1; w2; w3] ++ g ++ rest) alt.
Proof.
  intros H n g w0 w1 w2 w3 rest al L P.
  assert (L' : length (map B g) = (4 * n)%nat) by now rewrite map_length.
  pose proof (u32_roll_ok H n (map B g) (B w0) (B w1) (B w2) (B w3) (map B rest) (map B al) []
                L' P eq_refl) as E.
  tobytes E. exact E.
Qed.

Theorem C01_u32_std : forall H w0 w1 w2 w3 rest alt,
  exec H u32_dup ([w0; w1; w2; w3] ++ rest) alt ([w0; w1; w2; w3] ++ [w0; w1; w2; w3] ++ rest) alt /\
  exec H u32_drop ([w0; w1; w2; w3] ++ rest) alt rest alt /\
  exec H u32_toaltstack ([w0; w1; w2; w3] ++ rest) alt rest ([w3; w2; w1; w0] ++ alt) /\
  exec H u32_fromaltstack rest ([w3; w2; w1; w0] ++ alt) ([w0; w1; w2; w3] ++ rest) alt.
Proof. repeat split. Qed.

(** A case with five elements above the word. *)
Example C01_example :
  exec H0 OP_4PICK (enc 5 :: [[1];[2];[3];[4];[5]] ++ [[10];[11];[12];[13]] ++ [[7]]) [[9]]
    ([[10];[11];[12];[13]] ++ [[1];[2];[3];[4];[5]] ++ [[10];[11];[12];[13]] ++ [[7]]) [[9]].
Proof. vm_compute. reflexivity. Qed.
Example C01_example2 :
  exec H0 (u32_roll 1) ([[1];[2];[3];[4]] ++ [[10];[11];[12];[13]] ++ [[7]]) []
    ([[10];[11];[12];[13]] ++ [[1];[2];[3];[4]] ++ [[7]]) [].
Proof. vm_compute. reflexivity. Qed.

(* ------------------------------------------------------------------ *)
(** ** C02 *)
Theorem C02_op_ndup : forall H n x rest alt,
  exec H (OP_NDUP n) (x :: rest) alt (repeat x (S n) ++ rest) alt.
Proof.
  intros H n x rest al. pose proof (OP_NDUP_ok H n (B x) (map B rest) (map B al)) as E.
  tobytes E. rewrite repeat_snoc in E. exact E.
Qed.

Theorem C02_push_to_stack : forall H e n rest alt,
  exec H (push_to_stack e n) rest alt (repeat (enc (Z.of_nat e)) n ++ rest) alt.
Proof.
  intros H e n rest al. pose proof (push_to_stack_ok H e n (map B rest) (map B al)) as E.
  tobytes E. exact E.
Qed.

Theorem C02_op_2k_mul : forall H k x rest alt,
  (k = 0%nat \/ Z.abs x * 2 ^ (Z.of_nat k - 1) < 2 ^ 31) ->
  exec H (op_2k_mul k) (enc x :: rest) alt (enc (x * 2 ^ Z.of_nat k) :: rest) alt.
Proof.
  intros H k x rest al C. pose proof (op_2k_mul_ok H k x (map B rest) (map B al) C) as E.
  tobytes E. exact E.
Qed.

(** OP_2MUL, OP_4MUL, OP_16MUL and OP_256MUL, as long as the last doubling starts from an operand. *)
Theorem C02_fixed_multiples : forall H x rest alt,
  (Z.abs x < 2 ^ 31 -> exec H OP_2MUL (enc x :: rest) alt (enc (2 * x) :: rest) alt) /\
  (Z.abs x * 2 < 2 ^ 31 -> exec H OP_4MUL (enc x :: rest) alt (enc (4 * x) :: rest) alt) /\
  (Z.abs x * 8 < 2 ^ 31 -> exec H OP_16MUL (enc x :: rest) alt (enc (16 * x) :: rest) alt) /\
  (Z.abs x * 128 < 2 ^ 31 -> exec H OP_256MUL (enc x :: rest) alt (enc (256 * x) :: rest) alt).
Proof.
  intros H x rest al.
  change OP_2MUL with (op_2k_mul 1). change OP_4MUL with (op_2k_mul 2). change OP_16MUL with (op_2k_mul 4). change OP_256MUL with (op_2k_mul 8).
  rewrite (Z.mul_comm 2 x), (Z.mul_comm 4 x), (Z.mul_comm 16 x), (Z.mul_comm 256 x).
  repeat split; intros L.
  - apply (C02_op_2k_mul H 1). right. change (2 ^ (Z.of_nat 1 - 1)) with 1. lia.
  - apply (C02_op_2k_mul H 2). right. exact L.
  - apply (C02_op_2k_mul H 4). right. exact L.
  - apply (C02_op_2k_mul H 8). right. exact L.
Qed.

Example C02_example : exec H0 (op_2k_mul 30) [enc (-1)] [] [enc (- 2 ^ 30)] [].
Proof. vm_compute. reflexivity. Qed.
Example C02_example2 : exec H0 (OP_NDUP 8) [[42]] [] (repeat [42] 9) [].
Proof. vm_compute. reflexivity. Qed.

(* ------------------------------------------------------------------ *)
(** ** C03 *)
Theorem C03_u32_add : forall H a b x y ws rest alt,
  a <> b -> is_u32 x -> is_u32 y ->
  nth_error ws a = Some x -> nth_error ws b = Some y ->
  Z.of_nat a < 2 ^ 28 -> Z.of_nat b < 2 ^ 28 ->
  exists p, u32_add a b = Some p /\
    exec H p (bwords ws ++ rest) alt
             (bword ((x + y) mod 2 ^ 32) ++ bwords (remove_nth b ws) ++ rest) alt.
Proof.
  intros H a b x y ws rest al N X Y Na Nb Pa Pb.
  destruct (u32_add_ok H a b x y ws (map B rest) (map B al) N X Y Na Nb Pa Pb) as (p & Ep & E).
  exists p. split; [exact Ep|]. tobytes E. cbn [bwords flat_map] in E.
  rewrite <- app_assoc in E. exact E.
Qed.

Theorem C03_u32_add_drop : forall H a b x y ws rest alt,
  a <> b -> is_u32 x -> is_u32 y ->
  nth_error ws a = Some x -> nth_error ws b = Some y ->
  Z.of_nat a < 2 ^ 28 -> Z.of_nat b < 2 ^ 28 ->
  exists p, u32_add_drop a b = Some p /\
    exec H p (bwords ws ++ rest) alt
      (bword ((x + y) mod 2 ^ 32) ++
       bwords (remove_nth (Nat.min a b) (remove_nth (Nat.max a b) ws)) ++ rest) alt.
Proof.
  intros H a b x y ws rest al N X Y Na Nb Pa Pb.
  destruct (u32_add_drop_ok H a b x y ws (map B rest) (map B al) N X Y Na Nb Pa Pb) as (p & Ep & E).
  exists p. split; [exact Ep|]. tobytes E. cbn [bwords flat_map] in E.
  rewrite <- app_assoc in E. exact E.
Qed.

Theorem C03_equal_positions_rejected : forall a,
  u32_add a a = None /\ u32_add_drop a a = None.
Proof. intros a. unfold u32_add, u32_add_drop. rewrite Nat.eqb_refl. split; reflexivity. Qed.

(** Carry through all four bytes, with a word in between. *)
Example C03_example : exists p, u32_add 2 0 = Some p /\
  exec H0 p (bwords [4294967295; 7; 2]) [] (bwords [1; 7; 2]) [].
Proof. eexists. split; [reflexivity|]. vm_compute. reflexivity. Qed.

(* ------------------------------------------------------------------ *)
(** ** C04 *)
(** What the table must contain: entry [v] is [v] with the odd bits kept and
    moved down by one. *)
Definition xor_table_spec : list Z := map (fun n => Z.land (Z.of_nat n) 170 / 2) (seq 0 256).

Theorem C04_push_table : forall H rest alt,
  exec H u8_push_xor_table rest alt (nums xor_table_spec ++ rest) alt.
Proof.
  intros H rest al. pose proof (push_table_ok H (map B rest) (map B al)) as E.
  tobytes E. exact E.
Qed.

Theorem C04_drop_table : forall H t rest alt, length t = length xor_table_spec ->
  exec H u8_drop_xor_table (t ++ rest) alt rest alt.
Proof.
  intros H t rest al L.
  assert (L' : length (map B t) = 256%nat) by (rewrite map_length; exact L).
  pose proof (drop_table_ok H (map B t) (map B rest) (map B al) L') as E.
  tobytes E. exact E.
Qed.

Theorem C04_u32_xor : forall H a b x y ws rest alt,
  a <> b -> is_u32 x -> is_u32 y ->
  nth_error ws a = Some x -> nth_error ws b = Some y ->
  Z.of_nat (length ws) < 2 ^ 28 ->
  exists p, u32_xor a b (length ws + 1) = Some p /\
    exec H p (bwords ws ++ nums xor_table_spec ++ rest) alt
             (bword (Z.lxor x y) ++ bwords (remove_nth b ws) ++ nums xor_table_spec ++ rest) alt.
Proof.
  intros H a b x y ws rest al N X Y Na Nb P.
  destruct (u32_xor_ok H a b x y ws (map B rest) (map B al) N X Y Na Nb P) as (p & Ep & E).
  exists p. split; [exact Ep|]. tobytes E. cbn [bwords flat_map] in E.
  rewrite <- app_assoc in E. exact E.
Qed.

Example C04_example : exists p, u32_xor 0 1 3 = Some p /\
  exec H0 (u8_push_xor_table ++ u32_push 305419896 ++ u32_push 4042322160 ++ p ++
           u32_toaltstack ++ u32_drop ++ u8_drop_xor_table) [] []
       [] (rev (bword (Z.lxor 305419896 4042322160))).
Proof. eexists. split; [reflexivity|]. vm_compute. reflexivity. Qed.

(* ------------------------------------------------------------------ *)
(** ** C05 *)
(** Bitwise description of the right rotation. *)
Definition is_rotr (w : Z) (n : nat) (v : Z) : Prop :=
  is_u32 v /\
  forall i, 0 <= i < 32 -> Z.testbit v i = Z.testbit w ((i + Z.of_nat n) mod 32).

Lemma rotr32_spec : forall w n, is_u32 w -> (n < 32)%nat -> is_rotr w n (rotr32 w (Z.of_nat n)).
Proof.
  intros w n W L. unfold is_u32 in W.
  assert (Hk : exists k, k = Z.of_nat n /\ 0 <= k < 32) by (exists (Z.of_nat n); lia).
  destruct Hk as (k & Ek & Hk). unfold rotr32. rewrite <- Ek.
  assert (P1 : 0 < 2 ^ k) by (apply Z.pow_pos_nonneg; lia).
  assert (P2 : 0 < 2 ^ (32 - k)) by (apply Z.pow_pos_nonneg; lia).
  assert (PP : 2 ^ k * 2 ^ (32 - k) = 2 ^ 32)
    by (rewrite <- Z.pow_add_r by lia; f_equal; lia).
  assert (Hd : 0 <= w / 2 ^ k < 2 ^ (32 - k)).
  { split; [apply Z.div_pos; lia|]. apply Z.div_lt_upper_bound; lia. }
  assert (Hm : 0 <= w mod 2 ^ k < 2 ^ k) by (apply Z.mod_pos_bound; lia).
  assert (Hlow : (w / 2 ^ k + w mod 2 ^ k * 2 ^ (32 - k)) mod 2 ^ (32 - k) = w / 2 ^ k)
    by (rewrite Z.mod_add by lia; apply Z.mod_small; lia).
  assert (Hhigh : (w / 2 ^ k + w mod 2 ^ k * 2 ^ (32 - k)) / 2 ^ (32 - k) = w mod 2 ^ k)
    by (rewrite Z.div_add, Z.div_small by lia; lia).
  set (v := w / 2 ^ k + w mod 2 ^ k * 2 ^ (32 - k)) in *.
  split.
  - unfold is_u32. subst v. split; [nia|]. rewrite <- PP. nia.
  - intros i Hi. rewrite <- Ek. destruct (Z.ltb_spec i (32 - k)).
    + rewrite Z.mod_small by lia.
      rewrite <- (Z.mod_pow2_bits_low v (32 - k) i) by lia. rewrite Hlow.
      rewrite <- Z.shiftr_div_pow2 by lia. apply Z.shiftr_spec. lia.
    + replace ((i + k) mod 32) with (i + k - 32)
        by (apply (Z.mod_unique _ _ 1); lia).
      replace i with ((i - (32 - k)) + (32 - k)) at 1 by lia.
      rewrite <- Z.shiftr_spec, Z.shiftr_div_pow2 by lia. rewrite Hhigh.
      rewrite Z.mod_pow2_bits_low by lia. f_equal. lia.
Qed.

Theorem C05_u32_rrot : forall H n w rest alt, is_u32 w -> (n < 32)%nat ->
  exists p v, u32_rrot n = Some p /\ is_rotr w n v /\
    exec H p (bword w ++ rest) alt (bword v ++ rest) alt.
Proof.
  intros H n w rest al W L.
  destruct (u32_rrot_ok H n w (map B rest) (map B al) W L) as (p & Ep & E).
  exists p, (rotr32 w (Z.of_nat n)). split; [exact Ep|]. split; [now apply rotr32_spec|].
  tobytes E. exact E.
Qed.

Theorem C05_domain : forall n, u32_rrot n = None <-> (32 <= n)%nat.
Proof.
  intros n. split.
  - intros E. destruct (Nat.ltb_spec n 32); [|assumption].
    destruct (u32_rrot_ok H0 n 0 [] [] ltac:(easy) H) as (p & Ep & _). congruence.
  - intros L. unfold u32_rrot. destruct (Nat.ltb_spec n 32); [lia|reflexivity].
Qed.

(** The optimised scripts for 7 and 23 leave the same stacks as the generic
    construction would. *)
Theorem C05_special_cases : forall H n w rest alt, is_u32 w -> In n [7; 23]%nat ->
  exists p q m, u32_rrot n = Some p /\ u32_rrot_generic n = Some q /\ p <> q /\
    exec H p (bword w ++ rest) alt m alt /\ exec H q (bword w ++ rest) alt m alt.
Proof.
  intros H n w rest al W I.
  assert (L : (n < 32)%nat /\ (n mod 8 <> 0)%nat)
    by (destruct I as [<- | [<- | []]]; cbn; lia).
  destruct (u32_rrot_ok H n w (map B rest) (map B al) W (proj1 L)) as (p & Ep & E).
  destruct (generic_ok H n w (map B rest) (map B al) W (proj1 L) (proj2 L)) as (q & Eq & F).
  tobytes E. tobytes F. exists p, q, (bword (rotr32 w (Z.of_nat n)) ++ rest).
  split; [exact Ep|]. split; [exact Eq|]. split; [|now split].
  intros ->. destruct I as [<- | [<- | []]]; rewrite <- Ep in Eq; vm_compute in Eq; discriminate Eq.
Qed.

(** For rotations by whole bytes the generic construction would not exist. *)
Theorem C05_generic_whole_bytes : forall n, (n mod 8 = 0)%nat -> u32_rrot_generic n = None.
Proof. intros n E. unfold u32_rrot_generic. rewrite E. reflexivity. Qed.

Example C05_example : exists p, u32_rrot 12 = Some p /\
  exec H0 p (bword 305419896 ++ [[5]]) [[6]] (bword 1736516421 ++ [[5]]) [[6]].
Proof. eexists. split; [reflexivity|]. vm_compute. reflexivity. Qed.

(* ------------------------------------------------------------------ *)
(** ** C06 *)
Theorem C06_equalverify_equal : forall H x rest alt, is_u32 x ->
  exec H u32_equalverify (bword x ++ bword x ++ rest) alt rest alt.
Proof.
  intros H x rest al X.
  pose proof (u32_equalverify_ok H x x (map B rest) (map B al) X X) as E.
  rewrite Z.eqb_refl in E. tobytes E. exact E.
Qed.

Theorem C06_equalverify_different : forall H x y rest alt, is_u32 x -> is_u32 y -> x <> y ->
  fails H u32_equalverify (bword x ++ bword y ++ rest) alt.
Proof.
  intros H x y rest al X Y N.
  pose proof (u32_equalverify_ok H x y (map B rest) (map B al) X Y) as E.
  rewrite (proj2 (Z.eqb_neq x y) N) in E. tobytes E. exact E.
Qed.

Theorem C06_equal : forall H x y rest alt, is_u32 x -> is_u32 y ->
  exec H u32_equal (bword x ++ bword y ++ rest) alt
    (enc (if Z.eq_dec x y then 1 else 0) :: rest) alt.
Proof.
  intros H x y rest al X Y.
  pose proof (u32_equal_ok H x y (map B rest) (map B al) X Y) as E. tobytes E.
  destruct (Z.eq_dec x y) as [->|N]; [rewrite Z.eqb_refl in E|rewrite (proj2 (Z.eqb_neq x y) N) in E];
    exact E.
Qed.

Theorem C06_notequal : forall H x y rest alt, is_u32 x -> is_u32 y ->
  exec H u32_notequal (bword x ++ bword y ++ rest) alt
    (enc (if Z.eq_dec x y then 0 else 1) :: rest) alt.
Proof.
  intros H x y rest al X Y.
  pose proof (u32_notequal_ok H x y (map B rest) (map B al) X Y) as E. tobytes E.
  destruct (Z.eq_dec x y) as [->|N]; [rewrite Z.eqb_refl in E|rewrite (proj2 (Z.eqb_neq x y) N) in E];
    exact E.
Qed.

Example C06_example :
  exec H0 u32_equal (bword 16777216 ++ bword 16777217 ++ [[5]]) [[6]] [[]; [5]] [[6]] /\
  exec H0 u32_notequal (bword 16777216 ++ bword 16777217 ++ [[5]]) [[6]] [[1]; [5]] [[6]] /\
  fails H0 u32_equalverify (bword 16777216 ++ bword 33554432) [].
Proof. vm_compute. repeat split. Qed.

(* ------------------------------------------------------------------ *)
(** ** C07 *)
Theorem C07_push : forall H w rest alt, is_u32 w -> exec H (u32_push w) rest alt (bword w ++ rest) alt.
Proof.
  intros H w rest al W. pose proof (u32_push_ok H w (map B rest) (map B al) W) as E.
  tobytes E. exact E.
Qed.

Theorem C07_compress : forall H w rest alt, is_u32 w ->
  exec H u32_compress (bword w ++ rest) alt
    (enc (if w <? 2 ^ 31 then w else - (w - 2 ^ 31)) :: rest) alt.
Proof.
  intros H w rest al W. pose proof (u32_compress_ok H w (map B rest) (map B al) W) as E.
  tobytes E. exact E.
Qed.

(** Two words give the same compressed element exactly when they are equal or
    are the pair 0, 0x80000000. *)
Theorem C07_compress_collisions : forall H v w, is_u32 v -> is_u32 w ->
  ((exists e, exec H (u32_push v ++ u32_compress) [] [] [e] [] /\
              exec H (u32_push w ++ u32_compress) [] [] [e] []) <->
   v = w \/ (v = 0 /\ w = 2 ^ 31) \/ (v = 2 ^ 31 /\ w = 0)).
Proof.
  intros H v w V W. rewrite <- (packed_collision v w V W).
  assert (C : forall u, is_u32 u -> exec H (u32_push u ++ u32_compress) [] [] [enc (packed u)] []).
  { intros u U. pose proof (C07_push H u [] [] U) as E1. pose proof (C07_compress H u [] [] U) as E2.
    rewrite app_nil_r in E1, E2. exact (exec_seq H _ _ _ _ _ _ _ _ E1 E2). }
  split.
  - intros (e & E1 & E2). pose proof (C v V) as F1. pose proof (C w W) as F2.
    unfold exec in *. rewrite F1 in E1. rewrite F2 in E2. apply enc_inj. congruence.
  - intros E. exists (enc (packed v)). split; [now apply C|]. rewrite E. now apply C.
Qed.

Example C07_example :
  exec H0 (u32_push 4294967295 ++ u32_compress) [] [] [enc (- 2147483647)] [] /\
  exec H0 (u32_push 2147483648 ++ u32_compress) [] [] [enc 0] [].
Proof. vm_compute. repeat split. Qed.

(* ------------------------------------------------------------------ *)
(** ** C08 *)
(** basic/src/challenger/chan_field.rs:32-36: BabyBear::from_pf reads the word as a
    little-endian u32 and reduces it modulo the field order. *)
Definition from_pf (w : Z) : Z := w mod 2013265921.

Theorem C08_conversion_agrees : forall H w rest alt, is_u32 w -> w <> 2 ^ 31 ->
  exec H (u32_compress ++ u32_to_u31) (bword w ++ rest) alt (enc (from_pf w) :: rest) alt.
Proof.
  intros H w rest al W N. eapply exec_seq; [apply C07_compress; exact W|].
  pose proof (u32_to_u31_ok H w (map B rest) (map B al) W N) as E. tobytes E. exact E.
Qed.

(** Finding: at 0x80000000 the script and the native code disagree. *)
Theorem C08_conversion_refuted : exists w, is_u32 w /\
  exists z, (forall H rest alt, exec H (u32_compress ++ u32_to_u31) (bword w ++ rest) alt
                                     (enc z :: rest) alt) /\ z <> from_pf w.
Proof.
  exists (2 ^ 31). split; [unfold is_u32; lia|]. exists 0. split; [|vm_compute; discriminate].
  intros H rest al. eapply exec_seq; [apply C07_compress; unfold is_u32; lia|].
  assert (Hx : 0 <= 0 < 2147483648) by lia.
  pose proof (u32_to_u31_nonneg_ok H 0 (map B rest) (map B al) Hx) as E. tobytes E. exact E.
Qed.

Example C08_example :
  exec H0 (u32_compress ++ u32_to_u31) (bword 4294967295) [] [enc 268435453] [].
Proof. vm_compute. reflexivity. Qed.

(* ------------------------------------------------------------------ *)
(** ** C17 *)
Definition P31 : Z := 2013265921.
Definition canonical (x : Z) : Prop := 0 <= x < P31.

Theorem C17_u31_add : forall H x y rest alt, canonical x -> canonical y ->
  exec H u31_add (enc y :: enc x :: rest) alt (enc ((x + y) mod P31) :: rest) alt.
Proof.
  intros H x y rest al X Y. pose proof (u31_add_ok H x y (map B rest) (map B al) X Y) as E.
  tobytes E. exact E.
Qed.
Theorem C17_u31_sub : forall H x y rest alt, canonical x -> canonical y ->
  exec H u31_sub (enc y :: enc x :: rest) alt (enc ((x - y) mod P31) :: rest) alt.
Proof.
  intros H x y rest al X Y. pose proof (u31_sub_ok H x y (map B rest) (map B al) X Y) as E.
  tobytes E. exact E.
Qed.
Theorem C17_u31_double : forall H x rest alt, canonical x ->
  exec H u31_double (enc x :: rest) alt (enc ((2 * x) mod P31) :: rest) alt.
Proof.
  intros H x rest al X. pose proof (u31_double_ok H x (map B rest) (map B al) X) as E.
  tobytes E. exact E.
Qed.
Theorem C17_u31_mul : forall H x y rest alt, canonical x -> canonical y ->
  exec H u31_mul (enc y :: enc x :: rest) alt (enc ((x * y) mod P31) :: rest) alt.
Proof.
  intros H x y rest al X Y. pose proof (u31_mul_ok H x y (map B rest) (map B al) X Y) as E.
  tobytes E. exact E.
Qed.
Theorem C17_u31_square : forall H x rest alt, canonical x ->
  exec H u31_square (enc x :: rest) alt (enc ((x * x) mod P31) :: rest) alt.
Proof.
  intros H x rest al X. unfold u31_square. eapply (exec_seq H [OP_DUP]); [reflexivity|].
  now apply C17_u31_mul.
Qed.
(** The least significant bit ends on top. *)
Theorem C17_u31_to_bits : forall H x rest alt, 0 <= x < 2 ^ 31 ->
  exec H u31_to_bits (enc x :: rest) alt
    (map (fun i => enc ((x / 2 ^ Z.of_nat i) mod 2)) (seq 0 31) ++ rest) alt.
Proof.
  intros H x rest al X.
  pose proof (to_bits_ok H 30 x (map B rest) (map B al) ltac:(lia) X) as E.
  tobytes E. unfold nums in E. rewrite map_map in E. exact E.
Qed.

Example C17_example :
  exec H0 u31_mul [enc 2013265920; enc 2013265920; [9]] [[8]] [enc 1; [9]] [[8]] /\
  exec H0 u31_add [enc 2013265920; enc 2013265920] [] [enc 2013265919] [] /\
  exec H0 u31_sub [enc 2013265920; enc 0] [] [enc 1] [].
Proof. vm_compute. repeat split. Qed.
