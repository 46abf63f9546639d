(** The two-adic subgroups of BabyBear: /repo/basic/src/field/mod.rs:13-30. *)
From Coq Require Import ZArith List Bool Lia.
From Coq Require Import ZifyBool ZifyNat.
From Verif Require Import U31Model U31Proofs HelperModel HelperProofs HelperRou.
Import ListNotations.
Open Scope Z_scope.

Ltac Zify.zify_post_hook ::= Z.div_mod_to_equations.

(** field/mod.rs:13-15 *)
Definition group_genreator (group_bit_size : nat) : Z := two_adic_generator group_bit_size.

(** field/mod.rs:24-27: n iterations of [push(acc); acc *= generator] *)
Fixpoint sub_group_loop (n : nat) (g acc : Z) : list Z :=
  match n with O => [] | S n' => acc :: sub_group_loop n' g ((acc * g) mod MOD) end.

(** field/mod.rs:17-30 *)
Definition sub_group (group_bit_size : nat) : list Z :=
  let generator := group_genreator group_bit_size in
  let group_size := (2 ^ group_bit_size)%nat in
  1 :: sub_group_loop (group_size - 1) generator generator.

Lemma sub_group_loop_spec : forall n g k, 0 <= k ->
  sub_group_loop n g ((g ^ k) mod MOD) = map (fun i => (g ^ (k + Z.of_nat i)) mod MOD) (seq 0 n).
Proof.
  induction n as [|n IH]; intros g k Hk; [reflexivity|].
  cbn [sub_group_loop seq map]. rewrite Z.add_0_r. f_equal.
  rewrite Zmult_mod_idemp_l, Z.mul_comm, <- Z.pow_succ_r by exact Hk.
  rewrite IH by lia. rewrite <- seq_shift, map_map. apply map_ext. intros i. do 2 f_equal. lia.
Qed.

Lemma sub_group_spec : forall s,
  sub_group s = map (fun i => (two_adic_generator s ^ Z.of_nat i) mod MOD) (seq 0 (2 ^ s)).
Proof.
  intros s. unfold sub_group, group_genreator. set (g := two_adic_generator s).
  assert (Hg : g = (g ^ 1) mod MOD).
  { rewrite Z.pow_1_r, Z.mod_small by apply gen_canon. reflexivity. }
  assert (P : (0 < 2 ^ s)%nat) by (pose proof (Nat.pow_nonzero 2 s); lia).
  rewrite Hg at 2. rewrite sub_group_loop_spec by lia.
  destruct (2 ^ s)%nat as [|n]; [lia|]. replace (S n - 1)%nat with n by lia.
  cbn [seq map]. f_equal. rewrite <- seq_shift, map_map. apply map_ext. intros i. do 2 f_equal. lia.
Qed.

(** *** Order of the generators *)
Lemma gen_pow2 : forall s i, (i <= s)%nat -> (s <= 27)%nat ->
  (two_adic_generator s ^ (2 ^ Z.of_nat i)) mod MOD = two_adic_generator (s - i).
Proof. intros. symmetry. apply gen_sub; assumption. Qed.

Lemma gen0 : two_adic_generator 0 = 1.
Proof. vm_compute. reflexivity. Qed.
Lemma gen1 : two_adic_generator 1 = MOD - 1.
Proof. vm_compute. reflexivity. Qed.

Lemma pow_mod_base : forall x e, 0 <= e -> ((x mod MOD) ^ e) mod MOD = (x ^ e) mod MOD.
Proof.
  intros x. apply natlike_ind; [reflexivity|]. intros m Hm E.
  rewrite !Z.pow_succ_r by exact Hm.
  rewrite <- powmod_mul, Z.mod_mod by discriminate. rewrite E, powmod_mul. reflexivity.
Qed.

Theorem gen_order : forall s, (s <= 27)%nat ->
  (two_adic_generator s ^ (2 ^ Z.of_nat s)) mod MOD = 1.
Proof. intros s Hs. rewrite gen_pow2, Nat.sub_diag by lia. apply gen0. Qed.

Theorem gen_half : forall s, (1 <= s <= 27)%nat ->
  (two_adic_generator s ^ (2 ^ Z.of_nat (s - 1))) mod MOD = MOD - 1.
Proof.
  intros s Hs. rewrite gen_pow2 by lia. replace (s - (s - 1))%nat with 1%nat by lia. apply gen1.
Qed.

(** Every positive number is a power of two times an odd number. *)
Lemma two_odd_pos : forall p : positive,
  exists t m, Z.pos p = 2 ^ Z.of_nat t * (2 * m + 1) /\ 0 <= m.
Proof.
  induction p as [p _|p IH|].
  - exists 0%nat, (Z.pos p). cbn. lia.
  - destruct IH as (t & m & E & Hm). exists (S t), m. split; [|exact Hm].
    rewrite pow2_S. lia.
  - exists 0%nat, 0. cbn. lia.
Qed.

Lemma neg_one_odd : forall m, 0 <= m -> ((MOD - 1) ^ (2 * m + 1)) mod MOD = MOD - 1.
Proof.
  intros m Hm. rewrite Z.pow_add_r, Z.pow_1_r, Z.pow_mul_r by lia.
  rewrite <- powmod_mul. rewrite <- pow_mod_base by exact Hm.
  replace (((MOD - 1) ^ 2) mod MOD) with 1 by reflexivity.
  rewrite Z.pow_1_l by exact Hm. reflexivity.
Qed.

Theorem gen_exact_order : forall s d, (s <= 27)%nat -> 0 < d < 2 ^ Z.of_nat s ->
  (two_adic_generator s ^ d) mod MOD <> 1.
Proof.
  intros s d Hs Hd E.
  destruct d as [|d|d]; try lia.
  destruct (two_odd_pos d) as (t & m & Ed & Hm).
  assert (Ht : (t < s)%nat).
  { destruct (Nat.ltb_spec t s); [assumption|].
    assert (2 ^ Z.of_nat s <= 2 ^ Z.of_nat t) by (apply Z.pow_le_mono_r; lia).
    pose proof (pow2_pos s). nia. }
  (* raise to the power 2^(s-1-t) *)
  assert (E2 : ((two_adic_generator s ^ Z.pos d) ^ (2 ^ Z.of_nat (s - 1 - t))) mod MOD = 1).
  { rewrite <- pow_mod_base by (apply Z.lt_le_incl, pow2_pos). rewrite E.
    rewrite Z.pow_1_l by (apply Z.lt_le_incl, pow2_pos). reflexivity. }
  rewrite <- Z.pow_mul_r in E2 by (try lia; apply Z.lt_le_incl, pow2_pos).
  assert (Ee : Z.pos d * 2 ^ Z.of_nat (s - 1 - t) = 2 ^ Z.of_nat (s - 1) * (2 * m + 1)).
  { rewrite Ed. replace (Z.of_nat (s - 1)) with (Z.of_nat t + Z.of_nat (s - 1 - t)) by lia.
    rewrite Z.pow_add_r by lia. ring. }
  rewrite Ee in E2. rewrite Z.pow_mul_r in E2 by (try lia; apply Z.lt_le_incl, pow2_pos).
  rewrite <- pow_mod_base in E2 by lia. rewrite gen_half in E2 by lia.
  rewrite neg_one_odd in E2 by exact Hm. unfold MOD in E2. lia.
Qed.

(** Powers below the order are pairwise different. *)
Theorem gen_powers_distinct : forall s i j, (s <= 27)%nat ->
  0 <= i < 2 ^ Z.of_nat s -> 0 <= j < 2 ^ Z.of_nat s ->
  (two_adic_generator s ^ i) mod MOD = (two_adic_generator s ^ j) mod MOD -> i = j.
Proof.
  intros s.
  assert (W : forall i j, (s <= 27)%nat -> 0 <= i < 2 ^ Z.of_nat s -> 0 <= j < 2 ^ Z.of_nat s ->
    i < j -> (two_adic_generator s ^ i) mod MOD = (two_adic_generator s ^ j) mod MOD -> False).
  { intros i j Hs Hi Hj L E.
    apply (gen_exact_order s (j - i) Hs ltac:(lia)).
    set (g := two_adic_generator s) in *. set (n := 2 ^ Z.of_nat s) in *.
    assert (O : (g ^ n) mod MOD = 1) by (apply gen_order; exact Hs).
    assert (E1 : ((g ^ i) * (g ^ (n - i))) mod MOD = ((g ^ j) * (g ^ (n - i))) mod MOD).
    { rewrite <- powmod_mul, E, powmod_mul. reflexivity. }
    rewrite <- !Z.pow_add_r in E1 by lia.
    replace (i + (n - i)) with n in E1 by lia.
    replace (j + (n - i)) with (n + (j - i)) in E1 by lia.
    assert (M : MOD <> 0) by discriminate.
    clearbody n g. rewrite Z.pow_add_r in E1 by lia.
    rewrite <- powmod_mul, O, Z.mul_1_l, (Z.mod_mod _ _ M) in E1. symmetry. exact E1. }
  intros i j Hs Hi Hj E. destruct (Z.lt_trichotomy i j) as [L|[->|L]]; [|reflexivity|];
    exfalso; eauto.
Qed.

Theorem sub_group_nodup : forall s, (s <= 27)%nat -> NoDup (sub_group s).
Proof.
  intros s Hs. rewrite sub_group_spec.
  assert (G : forall l, (forall i, In i l -> (i < 2 ^ s)%nat) -> NoDup l ->
    NoDup (map (fun i => (two_adic_generator s ^ Z.of_nat i) mod MOD) l)).
  { induction l as [|i l IH]; intros Hl N; cbn [map]; constructor.
    - intros Hin. apply in_map_iff in Hin as (j & E & Hj). inversion N as [|? ? N1 N2]; subst.
      apply N1. apply gen_powers_distinct in E; [|assumption| |].
      + apply Nat2Z.inj in E. subst. exact Hj.
      + specialize (Hl j (or_intror Hj)). apply inj_lt in Hl.
        rewrite Nat2Z.inj_pow in Hl. lia.
      + specialize (Hl i (or_introl eq_refl)). apply inj_lt in Hl.
        rewrite Nat2Z.inj_pow in Hl. lia.
    - apply IH; [intros; apply Hl; now right|]. now inversion N. }
  apply G; [|apply seq_NoDup]. intros i Hi. apply in_seq in Hi. lia.
Qed.
