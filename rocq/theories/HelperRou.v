(** Correctness of index_to_rou, value_exp_n and the extension-field scripts. *)
From Coq Require Import ZArith List Bool Lia.
From Coq Require Import ZifyBool ZifyNat.
From Verif Require Import ScriptNum ScriptVM VMLemmas U32Model U32Proofs U32Proofs2 Macros
  U31Model U31Proofs HelperModel HelperProofs.
Import ListNotations.
Open Scope Z_scope.

Ltac Zify.zify_post_hook ::= Z.div_mod_to_equations.

(** *** Powers modulo the field order *)
Lemma powmod_mul : forall a b, (a mod MOD * (b mod MOD)) mod MOD = (a * b) mod MOD.
Proof. intros. symmetry. apply Z.mul_mod. discriminate. Qed.

Lemma sqn_pow : forall n x, canon x -> sqn n x = (x ^ (2 ^ Z.of_nat n)) mod MOD.
Proof.
  induction n as [|n IH]; intros x Hx.
  - cbn [sqn]. change (2 ^ Z.of_nat 0) with 1. rewrite Z.pow_1_r, Z.mod_small by exact Hx. reflexivity.
  - cbn [sqn]. rewrite IH by apply canon_mod. rewrite pow2_S.
    rewrite Z.pow_mul_r by (pose proof (pow2_pos n); lia).
    rewrite Z.pow_2_r. set (e := 2 ^ Z.of_nat n).
    assert (He : 0 <= e) by (subst e; apply Z.lt_le_incl, pow2_pos).
    clearbody e. revert He. generalize e. apply natlike_ind; [reflexivity|].
    intros m Hm E. rewrite !Z.pow_succ_r by exact Hm.
    rewrite <- powmod_mul, Z.mod_mod by discriminate. rewrite E, powmod_mul. reflexivity.
Qed.

Lemma sqn_canon : forall n x, canon x -> canon (sqn n x).
Proof. intros n x Hx. rewrite sqn_pow by exact Hx. apply canon_mod. Qed.

Lemma sqn_add : forall m n x, sqn (m + n) x = sqn n (sqn m x).
Proof. induction m as [|m IH]; intros; [reflexivity|]. cbn [Nat.add sqn]. apply IH. Qed.

Lemma gen_canon : forall s, canon (two_adic_generator s).
Proof. intros s. apply sqn_canon. unfold canon, MOD. lia. Qed.

Lemma gen_sub : forall s i, (i <= s)%nat -> (s <= 27)%nat ->
  two_adic_generator (s - i) = (two_adic_generator s ^ (2 ^ Z.of_nat i)) mod MOD.
Proof.
  intros s i Hi Hs. rewrite <- sqn_pow by apply gen_canon. unfold two_adic_generator.
  rewrite <- sqn_add. f_equal. lia.
Qed.

(** The accumulator after processing bits [i ..] of [c]. *)
Definition rou_acc (s : nat) (c : Z) (l : list nat) (acc : Z) : Z :=
  fold_left (fun acc i => if bit c i =? 1 then (acc * two_adic_generator (s - i)) mod MOD else acc) l acc.

Lemma rou_acc_pow : forall s c n, (s <= 27)%nat -> (n <= s)%nat -> 0 <= c ->
  rou_acc s c (seq 0 n) 1 = (two_adic_generator s ^ (c mod 2 ^ Z.of_nat n)) mod MOD.
Proof.
  intros s c n Hs. induction n as [|n IH]; intros Hn Hc.
  - cbn. rewrite Z.mod_1_r. reflexivity.
  - unfold rou_acc in *. rewrite seq_S, fold_left_app. cbn [fold_left Nat.add].
    rewrite IH by lia.
    assert (Ec : c mod 2 ^ Z.of_nat (S n) = c mod 2 ^ Z.of_nat n + 2 ^ Z.of_nat n * bit c n).
    { rewrite pow2_S, (Z.mul_comm 2), Z.rem_mul_r by (pose proof (pow2_pos n); lia). reflexivity. }
    pose proof (pow2_pos n) as P.
    assert (0 <= c mod 2 ^ Z.of_nat n) by (apply Z.mod_pos_bound; lia).
    rewrite Ec. destruct (bit01 c n) as [-> | ->]; cbn [Z.eqb].
    + rewrite Z.mul_0_r, Z.add_0_r. reflexivity.
    + rewrite Z.mul_1_r. change (1 =? 1) with true. cbv iota.
      rewrite gen_sub by lia. rewrite powmod_mul. rewrite Z.pow_add_r by lia. reflexivity.
Qed.

Lemma rou_acc_canon : forall s c l acc, canon acc -> canon (rou_acc s c l acc).
Proof.
  intros s c l. unfold rou_acc. induction l as [|i l IH]; intros acc Ha; [exact Ha|].
  cbn [fold_left]. apply IH. destruct (bit c i =? 1); [apply canon_mod|exact Ha].
Qed.

Section Proofs.
  Variable H : bytes -> bytes.
  Notation run := (run H).

  Lemma push_list : forall l r a,
    run (map PUSHN l) (mk r a []) = Some (mk (map I (rev l) ++ r) a []).
  Proof.
    induction l as [|x l IH]; intros r a; [reflexivity|].
    cbn [map]. eapply (run_seq H [PUSHN x]); [reflexivity|]. cbn [main alt cond].
    cbn [rev]. rewrite map_app, <- app_assoc. exact (IH (I x :: r) a).
  Qed.

  Lemma push_vec_ok : forall l r a,
    run (push_vec l) (mk r a []) = Some (mk (map I l ++ r) a []).
  Proof. intros. unfold push_vec. rewrite push_list, rev_involutive. reflexivity. Qed.

  Definition gen_table (ext : bool) : list Z :=
    flat_map (fun i => as_u32_vec ext (two_adic_generator i)) (seq 0 28).

  Lemma rev_flat_map : forall {A C} (f : A -> list C) l,
    rev (flat_map f l) = flat_map (fun x => rev (f x)) (rev l).
  Proof.
    intros A C f. induction l as [|x l IH]; [reflexivity|].
    cbn [flat_map rev]. rewrite rev_app_distr, IH, flat_map_app. cbn [flat_map].
    rewrite app_nil_r. reflexivity.
  Qed.

  Lemma push_table : forall ext r a,
    run (push_two_adic_generator_table ext) (mk r a []) =
    Some (mk (map I (gen_table ext) ++ r) a []).
  Proof.
    intros ext r a.
    replace (push_two_adic_generator_table ext) with (push_vec (gen_table ext)).
    - apply push_vec_ok.
    - unfold push_vec, gen_table, push_two_adic_generator_table.
      rewrite rev_flat_map, flat_map_concat_map, concat_map, map_map, <- flat_map_concat_map.
      reflexivity.
  Qed.

  Lemma flat_len : forall {A} (f : nat -> list A) m l, (forall i, length (f i) = m) ->
    length (flat_map f l) = (m * length l)%nat.
  Proof.
    intros A f m l Hf. induction l as [|i l IH]; [cbn; lia|].
    cbn [flat_map length]. rewrite app_length, Hf, IH. lia.
  Qed.

  Lemma vec_len : forall ext x, length (as_u32_vec ext x) = if ext then 4%nat else 1%nat.
  Proof. intros []; reflexivity. Qed.

  Lemma table_len : forall ext, length (gen_table ext) = (28 * length (as_u32_vec ext 0))%nat.
  Proof. intros []; reflexivity. Qed.

  Lemma table_split : forall ext n, (n <= 27)%nat ->
    exists l1 l2, gen_table ext = l1 ++ as_u32_vec ext (two_adic_generator n) ++ l2 /\
      length l1 = (length (as_u32_vec ext 0) * n)%nat.
  Proof.
    intros ext n Hn. unfold gen_table.
    exists (flat_map (fun i => as_u32_vec ext (two_adic_generator i)) (seq 0 n)),
           (flat_map (fun i => as_u32_vec ext (two_adic_generator i)) (seq (S n) (27 - n))).
    split.
    - replace 28%nat with (n + S (27 - n))%nat by lia. rewrite seq_app, flat_map_app.
      cbn [seq flat_map Nat.add]. reflexivity.
    - rewrite flat_len with (m := length (as_u32_vec ext 0)).
      + rewrite seq_length. reflexivity.
      + intros. rewrite !vec_len. reflexivity.
  Qed.

  Lemma get_generator_ok : forall ext n r a, (n <= 27)%nat ->
    run (get_generator ext) (mk (I (Z.of_nat n) :: r) a []) =
    Some (mk (map I (as_u32_vec ext (two_adic_generator n)) ++ r) a []).
  Proof.
    intros ext n r a Hn. unfold get_generator.
    eapply (run_seq H [OP_TOALTSTACK]); [reflexivity|]; cbn [main alt cond].
    rewrite run_app, push_table.
    eapply (run_seq H [OP_FROMALTSTACK]); [reflexivity|]; cbn [main alt cond].
    destruct (table_split ext n Hn) as (l1 & l2 & Et & L).
    pose proof (table_len ext) as TL. destruct ext; cbn [as_u32_vec length] in *.
    - assert (C : Z.abs (Z.of_nat n) * 2 ^ (Z.of_nat 2 - 1) < 2 ^ 31)
        by (change (2 ^ (Z.of_nat 2 - 1)) with 2; change (2 ^ 31) with 2147483648; lia).
      eapply run_seq.
      + eapply run_seq; [exact (op_2k_mul_ok H 2 (Z.of_nat n) _ _ (or_intror C))|].
        change (2 ^ Z.of_nat 2) with 4.
        replace (Z.of_nat n * 4) with (Z.of_nat (length (map I l1))) by (rewrite map_length; lia).
        rewrite Et, map_app, <- app_assoc. cbn [map app].
        eapply run_seq; [apply OP_4PICK_ok; rewrite map_length; lia|].
        apply OP_4TOALT_ok.
      + assert (E : map I l1 ++ I (two_adic_generator n) :: I 0 :: I 0 :: I 0 :: map I l2 ++ r =
                    map I (gen_table true) ++ r).
        { rewrite Et, map_app, <- app_assoc. reflexivity. }
        rewrite E. unfold pop_two_adic_generator_table. cbn [as_u32_vec length].
        rewrite run_app, drop_n by (rewrite map_length; exact TL).
        apply OP_4FROMALT_ok.
    - eapply (run_seq H [OP_PICK; OP_TOALTSTACK]).
      + rewrite Et, map_app, <- app_assoc. cbn [map app].
        rewrite vpick_mid; [|rewrite map_length; lia|lia]. reflexivity.
      + cbn [main alt cond].
        assert (E : map I l1 ++ I (two_adic_generator n) :: map I l2 ++ r =
                    map I (gen_table false) ++ r).
        { rewrite Et, map_app, <- app_assoc. reflexivity. }
        rewrite E. unfold pop_two_adic_generator_table. cbn [as_u32_vec length].
        rewrite run_app, drop_n by (rewrite map_length; exact TL). reflexivity.
  Qed.

  (** *** Skipping a branch *)
  Lemma skip_get : forall ext m a,
    run (get_generator ext) (mk m a [false]) = Some (mk m a [false]).
  Proof. intros [] m a; reflexivity. Qed.
  Lemma skip_mul : forall m a, run u31_mul (mk m a [false]) = Some (mk m a [false]).
  Proof. reflexivity. Qed.

  (** What is required of the multiplication script: correct on embedded base
      elements, and skipped as a whole when not executed. *)
  Definition mul_contract (ext : bool) (mul : script) : Prop :=
    (forall x y r a, canon x -> canon y ->
      run mul (mk (map I (as_u32_vec ext y) ++ map I (as_u32_vec ext x) ++ r) a []) =
      Some (mk (map I (as_u32_vec ext ((x * y) mod MOD)) ++ r) a [])) /\
    (forall m a, run mul (mk m a [false]) = Some (mk m a [false])).

  Lemma u31_mul_contract : mul_contract false u31_mul.
  Proof.
    split; [|apply skip_mul]. intros x y r a Hx Hy. exact (u31_mul_ok H x y r a Hx Hy).
  Qed.

  Section Rou.
    Variable ext : bool.
    Variable mul : script.
    Hypothesis mul_ok : mul_contract ext mul.

    Definition entry (s : nat) (c : Z) (i : nat) : Z :=
      if bit c i =? 1 then Z.of_nat (s - i) else 33.

    Lemma gen_bit_ok : forall k s v r a, (k <= 30)%nat -> -2147483648 < v < 2147483648 ->
      run (value_to_generator_bit_altstack k s) (mk (I v :: r) a []) =
      Some (if 2 ^ Z.of_nat k - 1 <? v
            then mk (I (v - 2 ^ Z.of_nat k) :: r) (I (Z.of_nat (s - k)) :: a) []
            else mk (I v :: r) (I 33 :: a) []).
    Proof.
      intros k s v r a Hk Hv. unfold value_to_generator_bit_altstack, pushnat.
      pose proof (pow2_pos k) as P. pose proof (pow2_le30 k Hk) as Q.
      set (q := 2 ^ Z.of_nat k) in *. clearbody q. vmgo.
      destruct (q - 1 <? v) eqn:E; cbn [b2z]; vmgo; reflexivity.
    Qed.

    Lemma generator_bits_ok : forall k s v r a, (k <= 31)%nat -> -2147483648 < v < 2147483648 ->
      run (generator_bits k s) (mk (I v :: r) a []) =
      Some (mk (I (v - clamp k v) :: r) (map I (map (entry s (clamp k v)) (seq 0 k)) ++ a) []).
    Proof.
      induction k as [|k IH]; intros s v r a Hk Hv.
      - cbn [generator_bits seq map app]. unfold clamp. change (2 ^ Z.of_nat 0) with 1.
        replace (v - Z.min (Z.max v 0) (1 - 1)) with v by lia. reflexivity.
      - cbn [generator_bits]. rewrite run_app, gen_bit_ok by (assumption || lia).
        rewrite clamp_S. pose proof (pow2_pos k) as P. pose proof (pow2_le30 k ltac:(lia)) as Q.
        assert (Hs : forall b c, b = 0 \/ b = 1 -> 0 <= c < 2 ^ Z.of_nat k ->
          map (entry s (b * 2 ^ Z.of_nat k + c)) (seq 0 (S k)) =
          map (entry s c) (seq 0 k) ++ [if b =? 1 then Z.of_nat (s - k) else 33]).
        { intros b c Hb Hc. rewrite seq_S, map_app. cbn [map Nat.add].
          unfold entry at 2. rewrite bit_top by assumption. f_equal.
          apply map_ext_in. intros i Hi. apply in_seq in Hi. unfold entry.
          rewrite bit_low by (assumption || lia). reflexivity. }
        destruct (2 ^ Z.of_nat k - 1 <? v) eqn:E; rewrite IH by lia;
          rewrite Hs by (try apply clamp_range; lia); rewrite map_app, <- app_assoc; cbn [map app];
          do 4 f_equal; lia.
    Qed.

    Lemma rou_round_ok : forall s c i acc r a, canon acc -> (1 <= s - i)%nat -> (s <= 27)%nat ->
      run (rou_round ext mul)
        (mk (map I (as_u32_vec ext acc) ++ r) (I (entry s c i) :: a) []) =
      Some (mk (map I (as_u32_vec ext
              (if bit c i =? 1 then (acc * two_adic_generator (s - i)) mod MOD else acc)) ++ r) a []).
    Proof.
      intros s c i acc r a Ha Hi Hs. unfold rou_round, entry.
      set (R := map I (as_u32_vec ext acc) ++ r).
      destruct (bit c i =? 1) eqn:E.
      - eapply run_seq.
        { vmgo. replace (Z.of_nat (s - i) =? 33) with false by lia. cbn [b2z]. vmgo. reflexivity. }
        cbn [negb]. rewrite run_app.
        rewrite (run_cond H (get_generator ext) _ _ _ _ [true] eq_refl
                   (get_generator_ok ext (s - i) R a ltac:(lia))).
        rewrite run_app. subst R.
        rewrite (run_cond H mul _ _ _ _ [true] eq_refl
                   (proj1 mul_ok acc (two_adic_generator (s - i)) r a Ha (gen_canon _))).
        reflexivity.
      - eapply run_seq; [vmgo; reflexivity|]. cbn [negb].
        rewrite run_app, skip_get. rewrite run_app, (proj2 mul_ok). reflexivity.
    Qed.

    Lemma rou_loop_ok : forall n i s c acc r a, canon acc -> (i + n <= s)%nat -> (s <= 27)%nat ->
      run (repeat_script n (rou_round ext mul))
        (mk (map I (as_u32_vec ext acc) ++ r) (map I (map (entry s c) (seq i n)) ++ a) []) =
      Some (mk (map I (as_u32_vec ext (rou_acc s c (seq i n) acc)) ++ r) a []).
    Proof.
      induction n as [|n IH]; intros i s c acc r a Ha Hi Hs; [reflexivity|].
      cbn [repeat_script seq map app]. rewrite run_app, rou_round_ok by (assumption || lia).
      rewrite IH; [reflexivity| |lia|lia].
      destruct (bit c i =? 1); [apply canon_mod|exact Ha].
    Qed.

    Theorem index_to_rou_ok : forall s v r a, (s <= 27)%nat -> 0 <= v < 2 ^ Z.of_nat s ->
      exists p, index_to_rou ext mul s = Some p /\
        run p (mk (I v :: r) a []) =
        Some (mk (map I (as_u32_vec ext ((two_adic_generator s ^ v) mod MOD)) ++ r) a []).
    Proof.
      intros s v r a Hs Hv. unfold index_to_rou.
      destruct (Nat.leb_spec s 27); [|lia]. eexists. split; [reflexivity|].
      assert (B : -2147483648 < v < 2147483648) by (pose proof (pow2_le30 s ltac:(lia)); lia).
      rewrite run_app, generator_bits_ok by (assumption || lia).
      rewrite clamp_small by exact Hv. rewrite Z.sub_diag.
      eapply (run_seq H [PUSHN 0; OP_EQUALVERIFY]); [reflexivity|]; cbn [main alt cond].
      rewrite run_app, push_vec_ok.
      rewrite rou_loop_ok by (try lia; unfold canon, MOD; lia).
      rewrite rou_acc_pow by lia. rewrite (Z.mod_small v) by exact Hv. reflexivity.
    Qed.

    Theorem index_to_rou_fails : forall s v r a, (s <= 27)%nat ->
      -2147483648 < v < 2147483648 -> ~ (0 <= v < 2 ^ Z.of_nat s) ->
      exists p, index_to_rou ext mul s = Some p /\ run p (mk (I v :: r) a []) = None.
    Proof.
      intros s v r a Hs B Hv. unfold index_to_rou.
      destruct (Nat.leb_spec s 27); [|lia]. eexists. split; [reflexivity|].
      rewrite run_app, generator_bits_ok by (assumption || lia).
      assert (N : v - clamp s v =? 0 = false).
      { unfold clamp. pose proof (pow2_pos s). lia. }
      rewrite run_app. vmred. rewrite N. reflexivity.
    Qed.
  End Rou.

  (** *** Exponentiation by a power of two *)
  Theorem value_exp_n_ok : forall n x r a, canon x ->
    run (value_exp_n n) (mk (I x :: r) a []) = Some (mk (I ((x ^ (2 ^ Z.of_nat n)) mod MOD) :: r) a []).
  Proof.
    intros n x r a Hx. rewrite <- sqn_pow by exact Hx. revert x Hx.
    induction n as [|n IH]; intros x Hx; [reflexivity|].
    cbn [value_exp_n repeat_script]. unfold value_exp_n. cbn [repeat_script].
    unfold value_square_with_input at 1. rewrite <- app_assoc.
    eapply (run_seq H [OP_DUP]); [reflexivity|]; cbn [main alt cond].
    rewrite run_app, u31_mul_ok by assumption. apply IH. apply canon_mod.
  Qed.

  (** *** Coefficientwise operations of the extension field *)
  Ltac roll3 := eapply run_seq; [vmgo; reflexivity|]; cbn [main alt cond].
  Ltac atalt := eapply (run_seq H [OP_TOALTSTACK]); [reflexivity|]; cbn [main alt cond].

  Theorem u31ext_add_ok : forall x0 x1 x2 x3 y0 y1 y2 y3 r a,
    canon x0 -> canon x1 -> canon x2 -> canon x3 -> canon y0 -> canon y1 -> canon y2 -> canon y3 ->
    run u31ext_add (mk (map I [y0; y1; y2; y3] ++ map I [x0; x1; x2; x3] ++ r) a []) =
    Some (mk (map I [(x0 + y0) mod MOD; (x1 + y1) mod MOD; (x2 + y2) mod MOD; (x3 + y3) mod MOD] ++ r) a []).
  Proof.
    intros. cbn [map app]. unfold u31ext_add.
    roll3. rewrite run_app, u31_add_ok by assumption. atalt.
    roll3. rewrite run_app, u31_add_ok by assumption. atalt.
    roll3. rewrite run_app, u31_add_ok by assumption. atalt.
    rewrite run_app, u31_add_ok by assumption.
    rewrite (Z.add_comm x0), (Z.add_comm x1), (Z.add_comm x2). reflexivity.
  Qed.

  Theorem u31ext_sub_ok : forall x0 x1 x2 x3 y0 y1 y2 y3 r a,
    canon x0 -> canon x1 -> canon x2 -> canon x3 -> canon y0 -> canon y1 -> canon y2 -> canon y3 ->
    run u31ext_sub (mk (map I [y0; y1; y2; y3] ++ map I [x0; x1; x2; x3] ++ r) a []) =
    Some (mk (map I [(x0 - y0) mod MOD; (x1 - y1) mod MOD; (x2 - y2) mod MOD; (x3 - y3) mod MOD] ++ r) a []).
  Proof.
    intros. cbn [map app]. unfold u31ext_sub.
    roll3. rewrite run_app, u31_sub_ok by assumption. atalt.
    roll3. rewrite run_app, u31_sub_ok by assumption. atalt.
    roll3. rewrite run_app, u31_sub_ok by assumption. atalt.
    rewrite run_app, u31_sub_ok by assumption. reflexivity.
  Qed.

  Theorem u31ext_double_ok : forall x0 x1 x2 x3 r a,
    canon x0 -> canon x1 -> canon x2 -> canon x3 ->
    run u31ext_double (mk (map I [x0; x1; x2; x3] ++ r) a []) =
    Some (mk (map I [(2 * x0) mod MOD; (2 * x1) mod MOD; (2 * x2) mod MOD; (2 * x3) mod MOD] ++ r) a []).
  Proof.
    intros. cbn [map app]. unfold u31ext_double.
    rewrite run_app, u31_double_ok by assumption. atalt.
    rewrite run_app, u31_double_ok by assumption. atalt.
    rewrite run_app, u31_double_ok by assumption. atalt.
    rewrite run_app, u31_double_ok by assumption. reflexivity.
  Qed.

  Theorem u31ext_equalverify_ok : forall x0 x1 x2 x3 y0 y1 y2 y3 r a,
    run u31ext_equalverify (mk (map I [y0; y1; y2; y3] ++ map I [x0; x1; x2; x3] ++ r) a []) =
    if (x0 =? y0) && (x1 =? y1) && (x2 =? y2) && (x3 =? y3) then Some (mk r a []) else None.
  Proof.
    intros. cbn [map app]. unfold u31ext_equalverify. vmgo.
    rewrite (Z.eqb_sym x0), (Z.eqb_sym x1), (Z.eqb_sym x2), (Z.eqb_sym x3).
    destruct (y0 =? x0) eqn:E0; vmgo; rewrite ?E0; [|reflexivity].
    destruct (y1 =? x1) eqn:E1; vmgo; rewrite ?(Z.eqb_sym x1), ?E1; [|reflexivity].
    destruct (y2 =? x2) eqn:E2; vmgo; rewrite ?(Z.eqb_sym x2), ?E2; [|reflexivity].
    destruct (y3 =? x3) eqn:E3; vmgo; rewrite ?(Z.eqb_sym x3), ?E3; reflexivity.
  Qed.
End Proofs.
