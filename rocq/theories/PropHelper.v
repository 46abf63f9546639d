(** Properties C15, C16, C54, C55: bit manipulation, roots of unity, extension
    field scripts, stated on the byte machine. *)
From Coq Require Import ZArith List Bool Lia.
From Coq Require Import ZifyBool ZifyNat.
From Verif Require Import ScriptNum ScriptVM VMLemmas U32Model U32Proofs U32Proofs2 Macros
  U31Model U31Proofs HelperModel HelperProofs HelperRou SubGroup Lift PropWords.
Import ListNotations.
Open Scope Z_scope.

Ltac Zify.zify_post_hook ::= Z.div_mod_to_equations.

(** The [k] low bits of [v], most significant first, as numbers 0 or 1. *)
Definition bits_msb (k : nat) (v : Z) : list Z :=
  map (fun i => Z.b2z (Z.testbit v (Z.of_nat (k - 1 - i)))) (seq 0 k).

Lemma bit_testbit : forall v i, bit v i = Z.b2z (Z.testbit v (Z.of_nat i)).
Proof. intros v i. unfold bit. rewrite Z.testbit_spec' by lia. reflexivity. Qed.

Lemma msb_bits : forall k v, msb k v = bits_msb k v.
Proof.
  intros k v. apply nth_ext with (d := 0) (d' := 0).
  - unfold bits_msb. rewrite msb_len, map_length, seq_length. reflexivity.
  - intros i Hi. rewrite msb_len in Hi. rewrite msb_nth by exact Hi. rewrite bit_testbit.
    unfold bits_msb.
    set (f := fun i => Z.b2z (Z.testbit v (Z.of_nat (k - 1 - i)))).
    rewrite (nth_indep _ 0 (f 0%nat)) by (rewrite map_length, seq_length; exact Hi).
    rewrite map_nth, seq_nth by exact Hi. reflexivity.
Qed.

(* ------------------------------------------------------------------ *)
(** ** C15 *)
Theorem C15_value_to_bits : forall H k v rest alt, (k <= 31)%nat -> 0 <= v < 2 ^ Z.of_nat k ->
  exists p, value_to_bits_format k = Some p /\
    exec H p (enc v :: rest) alt (nums (bits_msb k v) ++ rest) alt.
Proof.
  intros H k v rest al Hk Hv.
  assert (Bd : -2147483648 < v < 2147483648).
  { assert (2 ^ Z.of_nat k <= 2 ^ 31) by (apply Z.pow_le_mono_r; lia).
    change (2 ^ 31) with 2147483648 in *. lia. }
  destruct (value_to_bits_ok H k v (map B rest) (map B al) Hk Bd) as (p & Ep & E).
  exists p. split; [exact Ep|]. rewrite clamp_small in E by exact Hv.
  tobytes E. rewrite msb_bits in E. exact E.
Qed.

(** Finding: a number that does not fit is not rejected.  Too large is read as
    all ones, negative as all zeros. *)
Theorem C15_value_to_bits_saturates : forall H k v rest alt, (k <= 31)%nat ->
  (2 ^ Z.of_nat k <= v < 2 ^ 31 ->
   exists p, value_to_bits_format k = Some p /\
     exec H p (enc v :: rest) alt (nums (bits_msb k (2 ^ Z.of_nat k - 1)) ++ rest) alt) /\
  (- 2 ^ 31 < v < 0 ->
   exists p, value_to_bits_format k = Some p /\
     exec H p (enc v :: rest) alt (nums (bits_msb k 0) ++ rest) alt).
Proof.
  intros H k v rest al Hk. change (2 ^ 31) with 2147483648. pose proof (pow2_pos k) as P.
  split; intros Hv;
    destruct (value_to_bits_ok H k v (map B rest) (map B al) Hk ltac:(lia)) as (p & Ep & E);
    exists p; (split; [exact Ep|]); unfold clamp in E.
  - replace (Z.min (Z.max v 0) (2 ^ Z.of_nat k - 1)) with (2 ^ Z.of_nat k - 1) in E by lia.
    tobytes E. rewrite msb_bits in E. exact E.
  - replace (Z.min (Z.max v 0) (2 ^ Z.of_nat k - 1)) with 0 in E by lia.
    tobytes E. rewrite msb_bits in E. exact E.
Qed.

Theorem C15_value_to_bits_rejects_refuted : exists k v p, 2 ^ Z.of_nat k <= v /\
  value_to_bits_format k = Some p /\
  forall H, exec H p [enc v] [] (nums (bits_msb k (2 ^ Z.of_nat k - 1))) [].
Proof.
  exists 3%nat, 9. eexists. split; [vm_compute; discriminate|]. split; [reflexivity|].
  intros H. vm_compute. reflexivity.
Qed.

Theorem C15_compress_bits : forall H k v rest alt, (1 <= k <= 31)%nat -> 0 <= v < 2 ^ Z.of_nat k ->
  exists p, compress_bits k = Some p /\
    exec H p (nums (bits_msb k v) ++ rest) alt (enc v :: rest) alt.
Proof.
  intros H k v rest al Hk Hv.
  destruct (compress_bits_ok H k v (map B rest) (map B al) Hk) as (p & Ep & E).
  exists p. split; [exact Ep|]. rewrite Z.mod_small in E by exact Hv.
  tobytes E. rewrite msb_bits in E. exact E.
Qed.

Theorem C15_domain : forall k,
  (value_to_bits_format k = None <-> (31 < k)%nat) /\
  (compress_bits k = None <-> (k = 0 \/ 31 < k)%nat).
Proof.
  intros k. unfold value_to_bits_format, compress_bits. split.
  - destruct (Nat.leb_spec k 31); split; intros; try discriminate; try reflexivity; lia.
  - destruct (Nat.leb_spec 1 k), (Nat.leb_spec k 31); cbn [andb]; split; intros;
      try discriminate; try reflexivity; lia.
Qed.

(** Native decompress: pushing its output in order puts the same bits on the
    stack as value_to_bits_format. *)
Theorem C15_decompress : forall H k v rest alt, 0 <= v ->
  exec H (map PUSHN (decompress v k)) rest alt (nums (bits_msb k v) ++ rest) alt.
Proof.
  intros H k v rest al Hv.
  pose proof (push_list H (decompress v k) (map B rest) (map B al)) as E. tobytes E.
  replace (bits_msb k v) with (rev (decompress v k)); [exact E|].
  rewrite <- msb_bits, <- msb_rev. f_equal. unfold decompress. apply map_ext.
  intros i. unfold bit. rewrite Z.shiftr_div_pow2 by lia.
  change 1 with (Z.ones 1) at 1. rewrite Z.land_ones by lia. reflexivity.
Qed.

(** [u] is the reversal of the [k] bits of [v]. *)
Definition is_reversal (k : nat) (v u : Z) : Prop :=
  0 <= u < 2 ^ Z.of_nat k /\
  forall i, (i < k)%nat -> Z.testbit u (Z.of_nat i) = Z.testbit v (Z.of_nat (k - 1 - i)).

Lemma brev_reversal : forall k v, is_reversal k v (brev k v).
Proof.
  intros k v. split; [apply brev_range|]. intros i Hi.
  pose proof (brev_bit k v i Hi) as E. rewrite !bit_testbit in E.
  destruct (Z.testbit (brev k v) _), (Z.testbit v _); easy.
Qed.

Theorem C15_index_to_reverse_index : forall H k v rest alt,
  (1 <= k <= 31)%nat -> 0 <= v < 2 ^ Z.of_nat k ->
  exists p u, index_to_reverse_index k = Some p /\ is_reversal k v u /\
    exec H p (enc v :: rest) alt (enc u :: rest) alt.
Proof.
  intros H k v rest al Hk Hv.
  assert (Bd : -2147483648 < v < 2147483648).
  { assert (2 ^ Z.of_nat k <= 2 ^ 31) by (apply Z.pow_le_mono_r; lia).
    change (2 ^ 31) with 2147483648 in *. lia. }
  destruct (index_to_reverse_ok H k v (map B rest) (map B al) Hk Bd) as (p & Ep & E).
  rewrite clamp_small in E by exact Hv.
  exists p, (brev k v). split; [exact Ep|]. split; [apply brev_reversal|]. tobytes E. exact E.
Qed.

Theorem C15_reverse_bits_len : forall H k idx v rest alt,
  (1 <= k <= 31)%nat -> 0 <= v < 2 ^ Z.of_nat k ->
  exists p u, reverse_bits_len_script k = Some p /\ is_reversal k v u /\
    (idx = v -> exec H p (nums (bits_msb k v) ++ enc idx :: rest) alt (enc u :: rest) alt) /\
    (idx <> v -> fails H p (nums (bits_msb k v) ++ enc idx :: rest) alt).
Proof.
  intros H k idx v rest al Hk Hv.
  destruct (reverse_script_ok H k idx v (map B rest) (map B al) Hk Hv) as (p & Ep & E).
  exists p, (brev k v). split; [exact Ep|]. split; [apply brev_reversal|].
  split; intros N.
  - rewrite (proj2 (Z.eqb_eq _ _) N) in E. tobytes E. rewrite msb_bits in E. exact E.
  - rewrite (proj2 (Z.eqb_neq _ _) N) in E. tobytes E. rewrite msb_bits in E. exact E.
Qed.

Theorem C15_extract_high_bits : forall H n v rest alt,
  (1 <= n <= 31)%nat -> 0 <= v < 2 ^ 31 ->
  exists p, extract_high_bits n = Some p /\
    exec H p (enc v :: rest) alt (enc (Z.shiftr v (32 - Z.of_nat n)) :: rest) alt.
Proof.
  intros H n v rest al Hn Hv. change (2 ^ 31) with 2147483648 in Hv.
  destruct (extract_high_ok H n v (map B rest) (map B al) Hn ltac:(lia)) as (p & Ep & E).
  exists p. split; [exact Ep|].
  rewrite (Z.mod_small v) in E by (change (2 ^ 32) with 4294967296; lia).
  rewrite <- Z.shiftr_div_pow2 in E by lia. tobytes E. exact E.
Qed.

(** Negative numbers are read in two's complement. *)
Theorem C15_extract_high_bits_negative : forall H n v rest alt,
  (1 <= n <= 31)%nat -> - 2 ^ 31 < v < 0 ->
  exists p, extract_high_bits n = Some p /\
    exec H p (enc v :: rest) alt (enc (Z.shiftr (v + 2 ^ 32) (32 - Z.of_nat n)) :: rest) alt.
Proof.
  intros H n v rest al Hn Hv. change (2 ^ 31) with 2147483648 in Hv.
  destruct (extract_high_ok H n v (map B rest) (map B al) Hn ltac:(lia)) as (p & Ep & E).
  exists p. split; [exact Ep|].
  replace (v mod 2 ^ 32) with (v + 2 ^ 32) in E by (change (2 ^ 32) with 4294967296; lia).
  rewrite <- Z.shiftr_div_pow2 in E by lia. tobytes E. exact E.
Qed.

(** Finding: a word compressed by u32_compress is sign-magnitude, so extracting
    its high bits gives the high bits of the word only when the top bit is clear.
    Here the word 0xC0000001, top 4 bits 12, yields 11 in the script. *)
Theorem C15_compress_then_extract_refuted : exists w n p, is_u32 w /\
  extract_high_bits n = Some p /\
  exists z, z <> Z.shiftr w (32 - Z.of_nat n) /\
  forall H, exec H (u32_compress ++ p) (bword w) [] [enc z] [].
Proof.
  exists 3221225473, 4%nat. eexists. split; [unfold is_u32; lia|]. split; [reflexivity|].
  exists 11. split; [vm_compute; discriminate|]. intros H. vm_compute. reflexivity.
Qed.

Example C15_example : exists p q, index_to_reverse_index 5 = Some p /\ extract_high_bits 3 = Some q /\
  exec H0 p [enc 6; [9]] [[8]] [enc 12; [9]] [[8]] /\
  exec H0 q [enc 2013265920] [] [enc 3] [] /\ exec H0 q [enc (-1)] [] [enc 7] [].
Proof. do 2 eexists. split; [reflexivity|]. split; [reflexivity|]. vm_compute. repeat split. Qed.
Example C15_example2 : exists p, reverse_bits_len_script_with_input 6 5 = Some p /\
  exec H0 p [enc 6] [] [enc 12] [] /\ fails H0 p [enc 7] [].
Proof. eexists. split; [reflexivity|]. vm_compute. repeat split. Qed.

(* ------------------------------------------------------------------ *)
(** ** C16 *)
(** Base field: the script multiplies with u31_mul. *)
Theorem C16_index_to_rou : forall H s v rest alt, (s <= 27)%nat -> 0 <= v < 2 ^ Z.of_nat s ->
  exists p, index_to_rou false u31_mul s = Some p /\
    exec H p (enc v :: rest) alt (enc ((two_adic_generator s ^ v) mod P31) :: rest) alt.
Proof.
  intros H s v rest al Hs Hv.
  destruct (index_to_rou_ok H false u31_mul (u31_mul_contract H) s v (map B rest) (map B al) Hs Hv)
    as (p & Ep & E).
  exists p. split; [exact Ep|]. tobytes E. exact E.
Qed.

(** An index outside the subgroup is refused in both fields, whatever the
    multiplication script does: the script fails before it multiplies. *)
Theorem C16_index_to_rou_out_of_range : forall H ext mul s v rest alt, (s <= 27)%nat ->
  - 2 ^ 31 < v < 2 ^ 31 -> v < 0 \/ 2 ^ Z.of_nat s <= v ->
  exists p, index_to_rou ext mul s = Some p /\ fails H p (enc v :: rest) alt.
Proof.
  intros H ext mul s v rest al Hs Bd Hv. change (2 ^ 31) with 2147483648 in Bd.
  destruct (index_to_rou_fails H ext mul s v (map B rest) (map B al) Hs ltac:(lia) ltac:(lia))
    as (p & Ep & E).
  exists p. split; [exact Ep|]. tobytes E. exact E.
Qed.

(** Extension field: u31ext_mul is external; the statement holds for every
    script that multiplies embedded base elements and is skipped as a whole when
    it stands in a branch that is not taken. *)
Theorem C16_index_to_rou_ext : forall H mul s v rest alt,
  mul_contract H true mul -> (s <= 27)%nat -> 0 <= v < 2 ^ Z.of_nat s ->
  exists p, index_to_rou true mul s = Some p /\
    exec H p (enc v :: rest) alt
      (nums [(two_adic_generator s ^ v) mod P31; 0; 0; 0] ++ rest) alt.
Proof.
  intros H mul s v rest al C Hs Hv.
  destruct (index_to_rou_ok H true mul C s v (map B rest) (map B al) Hs Hv) as (p & Ep & E).
  exists p. split; [exact Ep|]. tobytes E. exact E.
Qed.

(** The contract can be met. *)
Definition embedded_mul : script := [OP_NIP; OP_NIP; OP_NIP] ++ u31_mul.
Example C16_contract_satisfiable : forall H, mul_contract H true embedded_mul.
Proof.
  intros H. split; [|reflexivity]. intros x y r a Hx Hy. unfold embedded_mul.
  eapply run_seq; [reflexivity|]. cbn [main alt cond].
  pose proof (u31_mul_ok H x y (I 0 :: I 0 :: I 0 :: r) a Hx Hy) as E. exact E.
Qed.

Theorem C16_domain : forall ext mul s, index_to_rou ext mul s = None <-> (27 < s)%nat.
Proof.
  intros ext mul s. unfold index_to_rou. destruct (Nat.leb_spec s 27); split; intros;
    try discriminate; try reflexivity; lia.
Qed.

(** value_exp_n(log_n) raises to the power 2^log_n. *)
Theorem C16_value_exp_n : forall H n x rest alt, canonical x ->
  exec H (value_exp_n n) (enc x :: rest) alt (enc ((x ^ (2 ^ Z.of_nat n)) mod P31) :: rest) alt.
Proof.
  intros H n x rest al Hx. pose proof (value_exp_n_ok H n x (map B rest) (map B al) Hx) as E.
  tobytes E. exact E.
Qed.

Example C16_example : exists p, index_to_rou false u31_mul 3 = Some p /\
  exec H0 p [enc 5; [9]] [[8]] [enc ((two_adic_generator 3 ^ 5) mod P31); [9]] [[8]] /\
  (two_adic_generator 3 ^ 5) mod P31 = P31 - two_adic_generator 3 /\
  fails H0 p [enc 8] [].
Proof. eexists. split; [reflexivity|]. vm_compute. repeat split. Qed.

(* ------------------------------------------------------------------ *)
(** ** C54 *)
Definition canonical4 (x : list Z) : Prop := length x = 4%nat /\ Forall canonical x.
Definition zip2 (f : Z -> Z -> Z) (x y : list Z) : list Z := map (fun p => f (fst p) (snd p)) (combine x y).

Lemma canonical4_inv : forall x, canonical4 x -> exists x0 x1 x2 x3, x = [x0; x1; x2; x3] /\
  canonical x0 /\ canonical x1 /\ canonical x2 /\ canonical x3.
Proof.
  intros [|x0 [|x1 [|x2 [|x3 [|x4 x]]]]] [L F]; try discriminate L.
  exists x0, x1, x2, x3. split; [reflexivity|].
  inversion F as [|? ? C0 F0]; subst. inversion F0 as [|? ? C1 F1]; subst.
  inversion F1 as [|? ? C2 F2]; subst. inversion F2 as [|? ? C3 F3]; subst. auto.
Qed.

Theorem C54_u31ext_add : forall H x y rest alt, canonical4 x -> canonical4 y ->
  exec H u31ext_add (nums y ++ nums x ++ rest) alt
    (nums (zip2 (fun a b => (a + b) mod P31) x y) ++ rest) alt.
Proof.
  intros H x y rest al X Y.
  destruct (canonical4_inv x X) as (x0 & x1 & x2 & x3 & -> & ? & ? & ? & ?).
  destruct (canonical4_inv y Y) as (y0 & y1 & y2 & y3 & -> & ? & ? & ? & ?).
  pose proof (u31ext_add_ok H x0 x1 x2 x3 y0 y1 y2 y3 (map B rest) (map B al)
    ltac:(assumption) ltac:(assumption) ltac:(assumption) ltac:(assumption)
    ltac:(assumption) ltac:(assumption) ltac:(assumption) ltac:(assumption)) as E.
  tobytes E. exact E.
Qed.

Theorem C54_u31ext_sub : forall H x y rest alt, canonical4 x -> canonical4 y ->
  exec H u31ext_sub (nums y ++ nums x ++ rest) alt
    (nums (zip2 (fun a b => (a - b) mod P31) x y) ++ rest) alt.
Proof.
  intros H x y rest al X Y.
  destruct (canonical4_inv x X) as (x0 & x1 & x2 & x3 & -> & ? & ? & ? & ?).
  destruct (canonical4_inv y Y) as (y0 & y1 & y2 & y3 & -> & ? & ? & ? & ?).
  pose proof (u31ext_sub_ok H x0 x1 x2 x3 y0 y1 y2 y3 (map B rest) (map B al)
    ltac:(assumption) ltac:(assumption) ltac:(assumption) ltac:(assumption)
    ltac:(assumption) ltac:(assumption) ltac:(assumption) ltac:(assumption)) as E.
  tobytes E. exact E.
Qed.

Theorem C54_u31ext_double : forall H x rest alt, canonical4 x ->
  exec H u31ext_double (nums x ++ rest) alt (nums (map (fun a => (2 * a) mod P31) x) ++ rest) alt.
Proof.
  intros H x rest al X.
  destruct (canonical4_inv x X) as (x0 & x1 & x2 & x3 & -> & ? & ? & ? & ?).
  pose proof (u31ext_double_ok H x0 x1 x2 x3 (map B rest) (map B al)
    ltac:(assumption) ltac:(assumption) ltac:(assumption) ltac:(assumption)) as E.
  tobytes E. exact E.
Qed.

Theorem C54_u31ext_equalverify : forall H x y rest alt, length x = 4%nat -> length y = 4%nat ->
  (x = y -> exec H u31ext_equalverify (nums y ++ nums x ++ rest) alt rest alt) /\
  (x <> y -> fails H u31ext_equalverify (nums y ++ nums x ++ rest) alt).
Proof.
  intros H x y rest al X Y.
  destruct x as [|x0 [|x1 [|x2 [|x3 [|x4 x]]]]]; try discriminate X.
  destruct y as [|y0 [|y1 [|y2 [|y3 [|y4 y]]]]]; try discriminate Y.
  pose proof (u31ext_equalverify_ok H x0 x1 x2 x3 y0 y1 y2 y3 (map B rest) (map B al)) as E.
  destruct ((x0 =? y0) && (x1 =? y1) && (x2 =? y2) && (x3 =? y3)) eqn:C.
  - assert (x0 = y0 /\ x1 = y1 /\ x2 = y2 /\ x3 = y3) as (-> & -> & -> & ->) by lia.
    split; [intros _|congruence]. tobytes E. exact E.
  - split; [intros Ex; exfalso; injection Ex; lia|]. intros _. tobytes E. exact E.
Qed.

Example C54_example :
  exec H0 u31ext_sub (nums [1; 2; 3; 4] ++ nums [1; 1; 1; 1] ++ [[9]]) [[8]]
    (nums [0; 2013265920; 2013265919; 2013265918] ++ [[9]]) [[8]] /\
  fails H0 u31ext_equalverify (nums [1; 2; 3; 4] ++ nums [1; 2; 3; 5]) [].
Proof. vm_compute. repeat split. Qed.

(* ------------------------------------------------------------------ *)
(** ** C55 *)
(** sub_group(s) lists the 2^s different powers of the generator, in order,
    starting with 1; the generator has order exactly 2^s. *)
Theorem C55_sub_group : forall s, (s <= 27)%nat ->
  length (sub_group s) = (2 ^ s)%nat /\
  (forall i, (i < 2 ^ s)%nat ->
     nth_error (sub_group s) i = Some ((group_genreator s ^ Z.of_nat i) mod P31)) /\
  NoDup (sub_group s).
Proof.
  intros s Hs. split; [|split].
  - rewrite sub_group_spec, map_length. apply seq_length.
  - intros i Hi. rewrite sub_group_spec.
    rewrite nth_error_map, (nth_error_nth' _ 0%nat) by (rewrite seq_length; exact Hi).
    rewrite seq_nth by exact Hi. reflexivity.
  - apply sub_group_nodup. exact Hs.
Qed.

Theorem C55_generator_order : forall s, (s <= 27)%nat ->
  (group_genreator s ^ (2 ^ Z.of_nat s)) mod P31 = 1 /\
  (forall d, 0 < d < 2 ^ Z.of_nat s -> (group_genreator s ^ d) mod P31 <> 1).
Proof.
  intros s Hs. split; [now apply gen_order|]. intros d Hd. now apply gen_exact_order.
Qed.

(** The second half of the subgroup is the negated first half. *)
Theorem C55_sub_group_halves : forall s i, (1 <= s <= 27)%nat -> 0 <= i ->
  (group_genreator s ^ (i + 2 ^ Z.of_nat (s - 1))) mod P31 =
  (- (group_genreator s ^ i)) mod P31.
Proof.
  intros s i Hs Hi. unfold group_genreator, P31. change 2013265921 with MOD.
  rewrite Z.pow_add_r by (try exact Hi; apply Z.lt_le_incl, pow2_pos).
  rewrite <- powmod_mul, gen_half by exact Hs.
  rewrite Zmult_mod_idemp_l. replace (two_adic_generator s ^ i * (MOD - 1)) with
    (- two_adic_generator s ^ i + two_adic_generator s ^ i * MOD) by ring.
  apply Z_mod_plus_full.
Qed.

Example C55_example : sub_group 2 = [1; 1728404513; 2013265920; 284861408].
Proof. vm_compute. reflexivity. Qed.
