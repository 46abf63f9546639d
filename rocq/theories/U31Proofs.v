(** Correctness of the 31-bit field scripts. *)
From Coq Require Import ZArith List Bool Lia.
From Coq Require Import ZifyBool ZifyNat.
From Verif Require Import ScriptNum ScriptVM VMLemmas U32Model U32Proofs U32Proofs2 Macros U31Model.
Import ListNotations.
Open Scope Z_scope.

Ltac Zify.zify_post_hook ::= Z.div_mod_to_equations.

Lemma pow2_pos : forall n : nat, 0 < 2 ^ Z.of_nat n.
Proof. intros. apply Z.pow_pos_nonneg; [reflexivity|apply Nat2Z.is_nonneg]. Qed.

Definition canon (x : Z) : Prop := 0 <= x < MOD.

Section Proofs.
  Variable H : bytes -> bytes.
  Notation run := (run H).

  Lemma adjust_ok : forall x r a, - MOD <= x < MOD ->
    run u31_adjust (mk (I x :: r) a []) = Some (mk (I (x mod MOD) :: r) a []).
  Proof.
    unfold u31_adjust, MOD. intros x r a Hx. vmgo.
    destruct (x <? 0) eqn:E; cbn [b2z]; vmgo; do 4 f_equal; unfold MOD; lia.
  Qed.

  Theorem u31_add_ok : forall x y r a, canon x -> canon y ->
    run u31_add (mk (I y :: I x :: r) a []) = Some (mk (I ((x + y) mod MOD) :: r) a []).
  Proof.
    unfold canon. intros x y r a Hx Hy. unfold u31_add.
    eapply run_seq.
    - unfold MOD in *. vmgo. reflexivity.
    - rewrite adjust_ok by (unfold MOD in *; lia). do 4 f_equal. unfold MOD in *. lia.
  Qed.

  Theorem u31_sub_ok : forall x y r a, canon x -> canon y ->
    run u31_sub (mk (I y :: I x :: r) a []) = Some (mk (I ((x - y) mod MOD) :: r) a []).
  Proof.
    unfold canon. intros x y r a Hx Hy. unfold u31_sub.
    eapply run_seq.
    - unfold MOD in *. vmgo. reflexivity.
    - rewrite adjust_ok by (unfold MOD in *; lia). reflexivity.
  Qed.

  Theorem u31_double_ok : forall x r a, canon x ->
    run u31_double (mk (I x :: r) a []) = Some (mk (I ((2 * x) mod MOD) :: r) a []).
  Proof.
    intros x r a Hx. unfold u31_double. eapply (run_seq H [OP_DUP]); [reflexivity|].
    rewrite u31_add_ok by assumption. do 4 f_equal. f_equal. lia.
  Qed.

  (** *** Bits *)
  Definition bit (v : Z) (i : nat) : Z := (v / 2 ^ Z.of_nat i) mod 2.

  Lemma bit_round_ok : forall k v r a, (k < 31)%nat -> 0 <= v < 2 ^ (Z.of_nat k + 1) ->
    run (u31_bit_round (2 ^ Z.of_nat k)) (mk (I v :: r) a []) =
    Some (mk (I (v mod 2 ^ Z.of_nat k) :: I (bit v k) :: r) a []).
  Proof.
    intros k v r a Hk Hv. unfold u31_bit_round, bit.
    assert (P : 1 <= 2 ^ Z.of_nat k <= 2 ^ 30).
    { split; [apply (Z.pow_le_mono_r 2 0)|apply Z.pow_le_mono_r]; lia. }
    change (2 ^ 30) with 1073741824 in P.
    rewrite Z.pow_add_r in Hv by lia. change (2 ^ 1) with 2 in Hv.
    set (q := 2 ^ Z.of_nat k) in *. clearbody q. vmgo.
    destruct (q - 1 <? v) eqn:E; cbn [b2z]; vmgo.
    - replace (v / q) with 1 by (apply (Z.div_unique v q 1 (v - q)); lia).
      replace (v mod q) with (v - q) by (apply (Z.mod_unique v q 1 (v - q)); lia). reflexivity.
    - replace (v / q) with 0 by (symmetry; apply Z.div_small; lia).
      replace (v mod q) with v by (symmetry; apply Z.mod_small; lia). reflexivity.
  Qed.

  Lemma bit_mod : forall v k i, (i < k)%nat -> bit (v mod 2 ^ Z.of_nat k) i = bit v i.
  Proof.
    intros v k i L. unfold bit.
    rewrite <- !Z.bit0_mod, <- !Z.shiftr_div_pow2 by lia.
    rewrite !Z.shiftr_spec by lia. rewrite Z.mod_pow2_bits_low by lia. reflexivity.
  Qed.

  Lemma to_bits_ok : forall k v r a, (k < 31)%nat -> 0 <= v < 2 ^ (Z.of_nat k + 1) ->
    run (u31_to_bits_from k) (mk (I v :: r) a []) =
    Some (mk (map I (map (bit v) (seq 0 (k + 1))) ++ r) a []).
  Proof.
    induction k as [|k IH]; intros v r a Hk Hv.
    - cbn [u31_to_bits_from]. change (run [] (mk (I v :: r) a [])) with (Some (mk (I v :: r) a [])).
      cbn. unfold bit. cbn. do 4 f_equal. change (2 ^ (Z.of_nat 0 + 1)) with 2 in Hv. lia.
    - cbn [u31_to_bits_from]. rewrite run_app, bit_round_ok by (assumption || lia).
      rewrite IH.
      + do 2 f_equal. replace (S k + 1)%nat with (S (k + 1)) by lia.
        rewrite (seq_S (k + 1)), !map_app, <- app_assoc. cbn [map app]. f_equal.
        * f_equal. apply map_ext_in. intros i Hi. apply in_seq in Hi. apply bit_mod. lia.
        * f_equal. f_equal. f_equal. lia.
      + lia.
      + replace (Z.of_nat k + 1) with (Z.of_nat (S k)) by lia.
        apply Z.mod_pos_bound. apply pow2_pos.
  Qed.

  Lemma toalt_rep : forall l r a,
    run (repeat_script (length l) [OP_TOALTSTACK]) (mk (l ++ r) a []) = Some (mk r (rev l ++ a) []).
  Proof.
    induction l as [|x l IH]; intros r a; [reflexivity|].
    cbn [length repeat_script]. eapply (run_seq H [OP_TOALTSTACK]); [reflexivity|].
    rewrite IH. cbn [rev]. rewrite <- app_assoc. reflexivity.
  Qed.

  Lemma fromalt_rep : forall l r a,
    run (repeat_script (length l) [OP_FROMALTSTACK]) (mk r (l ++ a) []) = Some (mk (rev l ++ r) a []).
  Proof.
    induction l as [|x l IH]; intros r a; [reflexivity|].
    cbn [length repeat_script]. eapply (run_seq H [OP_FROMALTSTACK]); [reflexivity|].
    rewrite IH. cbn [rev]. rewrite <- app_assoc. reflexivity.
  Qed.

  (** The low [k] bits of [v], most significant first. *)
  Fixpoint msb (k : nat) (v : Z) : list Z :=
    match k with O => [] | S k' => bit v k' :: msb k' v end.

  Lemma msb_rev : forall k v, rev (map (bit v) (seq 0 k)) = msb k v.
  Proof.
    induction k as [|k IH]; intros v; [reflexivity|].
    rewrite seq_S, map_app, rev_app_distr, IH. reflexivity.
  Qed.

  Lemma bit01 : forall v i, bit v i = 0 \/ bit v i = 1.
  Proof. intros. unfold bit. lia. Qed.

  (** *** Multiplication *)
  Lemma select_ok : forall acc x h l r a,
    canon acc -> canon x -> 0 <= h <= 1 -> 0 <= l <= 1 ->
    run u31_mul_select
      (mk (I acc :: I ((3 * x) mod MOD) :: I ((2 * x) mod MOD) :: I x :: I 0 :: r) (I h :: I l :: a) []) =
    Some (mk (I ((acc + (2 * h + l) * x) mod MOD) ::
              I ((3 * x) mod MOD) :: I ((2 * x) mod MOD) :: I x :: I 0 :: r) a []).
  Proof.
    intros acc x h l r a Ha Hx Hh Hl. unfold u31_mul_select.
    assert (C0 : canon 0) by (unfold canon, MOD; lia).
    assert (C2 : canon ((2 * x) mod MOD)) by (unfold canon; apply Z.mod_pos_bound; reflexivity).
    assert (C3 : canon ((3 * x) mod MOD)) by (unfold canon; apply Z.mod_pos_bound; reflexivity).
    assert (Kh : h = 0 \/ h = 1) by lia. assert (Kl : l = 0 \/ l = 1) by lia.
    set (x2 := (2 * x) mod MOD) in *. set (x3 := (3 * x) mod MOD) in *.
    destruct Kh as [-> | ->], Kl as [-> | ->];
      (eapply run_seq; [vmgo; reflexivity|]); rewrite u31_add_ok by assumption; do 4 f_equal;
      subst x2 x3; rewrite ?Zplus_mod_idemp_r; f_equal; lia.
  Qed.

  Lemma canon_mod : forall x, canon (x mod MOD).
  Proof. intros. unfold canon. apply Z.mod_pos_bound. reflexivity. Qed.
  Lemma canon0 : canon 0. Proof. unfold canon, MOD. lia. Qed.

  Lemma bit_split : forall v k, 0 <= v < 2 ^ (Z.of_nat k + 1) ->
    v = bit v k * 2 ^ Z.of_nat k + v mod 2 ^ Z.of_nat k.
  Proof.
    intros v k Hv. unfold bit.
    assert (P : 1 <= 2 ^ Z.of_nat k) by (apply (Z.pow_le_mono_r 2 0); lia).
    rewrite Z.pow_add_r in Hv by lia. change (2 ^ 1) with 2 in Hv.
    rewrite (Z.mod_small (v / _) 2).
    - rewrite Z.mul_comm. apply Z.div_mod. lia.
    - split; [apply Z.div_pos; lia|]. apply Z.div_lt_upper_bound; lia.
  Qed.

  Lemma msb_mod : forall k v m, (k <= m)%nat -> msb k (v mod 2 ^ Z.of_nat m) = msb k v.
  Proof.
    induction k as [|k IH]; intros v m L; [reflexivity|].
    cbn [msb]. rewrite IH by lia. rewrite bit_mod by lia. reflexivity.
  Qed.

  Lemma msb_split : forall k j v, msb (k + j) v = msb k (v / 2 ^ Z.of_nat j) ++ msb j v.
  Proof.
    induction k as [|k IH]; intros j v; [reflexivity|].
    cbn [Nat.add msb app]. rewrite IH. f_equal. unfold bit.
    rewrite Zdiv_Zdiv by (apply Z.lt_le_incl, pow2_pos).
    rewrite <- Z.pow_add_r by lia. do 3 f_equal. lia.
  Qed.

  Lemma two_bits : forall n v, 0 <= v < 2 ^ (2 * Z.of_nat (S n)) ->
    v = (2 * bit v (S (2 * n)) + bit v (2 * n)) * 4 ^ Z.of_nat n + v mod 2 ^ Z.of_nat (2 * n).
  Proof.
    intros n v Hv.
    replace (2 * Z.of_nat (S n)) with (Z.of_nat (S (2 * n)) + 1) in Hv by (clear; lia).
    assert (E1 := bit_split v (S (2 * n)) Hv).
    set (u := v mod 2 ^ Z.of_nat (S (2 * n))) in *.
    assert (Hu : 0 <= u < 2 ^ (Z.of_nat (2 * n) + 1)).
    { subst u. replace (Z.of_nat (2 * n) + 1) with (Z.of_nat (S (2 * n))) by (clear; lia).
      apply Z.mod_pos_bound. apply pow2_pos. }
    assert (E0 := bit_split u (2 * n) Hu).
    assert (Eb : bit u (2 * n) = bit v (2 * n)) by (apply bit_mod; clear; lia).
    assert (Em : u mod 2 ^ Z.of_nat (2 * n) = v mod 2 ^ Z.of_nat (2 * n)).
    { subst u. clear. apply Z.bits_inj'. intros i Hi.
      destruct (Z.ltb_spec i (Z.of_nat (2 * n))).
      - rewrite !Z.mod_pow2_bits_low by lia. reflexivity.
      - rewrite !Z.mod_pow2_bits_high by lia. reflexivity. }
    rewrite Eb, Em in E0. rewrite E0 in E1.
    replace (4 ^ Z.of_nat n) with (2 ^ Z.of_nat (2 * n)).
    2:{ change 4 with (2 ^ 2). rewrite <- Z.pow_mul_r by (clear; lia). f_equal. clear; lia. }
    replace (Z.of_nat (S (2 * n))) with (Z.of_nat (2 * n) + 1) in E1 by (clear; lia).
    rewrite Z.pow_add_r in E1 by (clear; lia). change (2 ^ 1) with 2 in E1.
    set (P := 2 ^ Z.of_nat (2 * n)) in *. clearbody P. rewrite E1 at 1. ring.
  Qed.

  Lemma mul_loop_ok : forall n acc x v r a,
    canon acc -> canon x -> 0 <= v < 2 ^ (2 * Z.of_nat n) ->
    run (repeat_script n (u31_mul_select ++ u31_double ++ u31_double))
      (mk (I acc :: I ((3 * x) mod MOD) :: I ((2 * x) mod MOD) :: I x :: I 0 :: r)
          (map I (msb (2 * n) v) ++ a) []) =
    Some (mk (I ((acc * 4 ^ Z.of_nat n + 4 * x * v) mod MOD) ::
              I ((3 * x) mod MOD) :: I ((2 * x) mod MOD) :: I x :: I 0 :: r) a []).
  Proof.
    induction n as [|n IH]; intros acc x v r a Ha Hx Hv.
    - cbn -[Z.mul MOD]. change (2 ^ (2 * Z.of_nat 0)) with 1 in Hv.
      do 4 f_equal. assert (v = 0) as -> by lia.
      replace (acc * 1 + 4 * x * 0) with acc by lia.
      symmetry. apply Z.mod_small. exact Ha.
    - replace (2 * S n)%nat with (S (S (2 * n))) by lia. cbn [msb map app repeat_script].
      rewrite run_app.
      assert (B1 := bit01 v (S (2 * n))). assert (B0 := bit01 v (2 * n)).
      rewrite run_app, select_ok by (assumption || lia).
      rewrite run_app, u31_double_ok by apply canon_mod.
      rewrite u31_double_ok by apply canon_mod.
      set (w := v mod 2 ^ Z.of_nat (2 * n)).
      assert (Hw : 0 <= w < 2 ^ (2 * Z.of_nat n)).
      { subst w. replace (2 * Z.of_nat n) with (Z.of_nat (2 * n)) by lia.
        apply Z.mod_pos_bound. apply pow2_pos. }
      replace (msb (2 * n) v) with (msb (2 * n) w) by (apply msb_mod; lia).
      rewrite IH by (assumption || apply canon_mod).
      do 4 f_equal.
      assert (Ev := two_bits n v Hv). fold w in Ev.
      rewrite Ev at 3. set (d := 2 * bit v (S (2 * n)) + bit v (2 * n)).
      replace (Z.of_nat (S n)) with (Z.of_nat n + 1) by lia.
      rewrite Z.pow_add_r by lia. change (4 ^ 1) with 4.
      set (P := 4 ^ Z.of_nat n).
      rewrite Zmult_mod_idemp_r, Z.mul_assoc, Zmult_mod_idemp_r.
      rewrite <- Zplus_mod_idemp_l, Zmult_mod_idemp_l, Zplus_mod_idemp_l.
      f_equal. ring.
  Qed.

  Theorem u31_mul_ok : forall x y r a, canon x -> canon y ->
    run u31_mul (mk (I y :: I x :: r) a []) = Some (mk (I ((x * y) mod MOD) :: r) a []).
  Proof.
    intros x y r a Hx Hy. unfold u31_mul.
    assert (Hy' : 0 <= y < 2 ^ (Z.of_nat 30 + 1)).
    { unfold canon, MOD in Hy. change (2 ^ (Z.of_nat 30 + 1)) with 2147483648. lia. }
    rewrite run_app. unfold u31_to_bits. rewrite to_bits_ok by (assumption || lia).
    rewrite run_app.
    change 31%nat with (30 + 1)%nat at 1.
    replace (30 + 1)%nat with (length (map I (map (bit y) (seq 0 (30 + 1))))) at 1 by reflexivity.
    rewrite toalt_rep, <- map_rev, msb_rev. change (30 + 1)%nat with 31%nat.
    eapply run_seq; [vmgo; reflexivity|].
    rewrite run_app, u31_double_ok by assumption.
    eapply run_seq; [vmgo; reflexivity|].
    rewrite run_app, u31_add_ok by (assumption || apply canon_mod).
    rewrite Zplus_mod_idemp_r. replace (x + 2 * x) with (3 * x) by lia.
    set (w := y mod 2 ^ Z.of_nat 30).
    assert (Hw : 0 <= w < 2 ^ Z.of_nat 30) by (subst w; apply Z.mod_pos_bound; reflexivity).
    assert (Ey := bit_split y 30 Hy'). fold w in Ey.
    change (msb 31 y) with (bit y 30 :: msb 30 y).
    rewrite <- (msb_mod 30 y 30) by lia. fold w. cbn [map].
    cbn [app] in *.
    (* the top bit *)
    assert (E : run ([PUSHN 0; OP_FROMALTSTACK; OP_IF; PUSHN 3; OP_PICK] ++ u31_add ++ [OP_ENDIF])
       (mk (I ((3 * x) mod MOD) :: I ((2 * x) mod MOD) :: I x :: I 0 :: r)
           (I (bit y 30) :: map I (msb 30 w) ++ a) []) =
       Some (mk (I ((x * bit y 30) mod MOD) :: I ((3 * x) mod MOD) :: I ((2 * x) mod MOD) :: I x :: I 0 :: r)
           (map I (msb 30 w) ++ a) [])).
    { destruct (bit01 y 30) as [-> | ->].
      - rewrite Z.mul_0_r. reflexivity.
      - rewrite Z.mul_1_r, (Z.mod_small x) by exact Hx.
        eapply run_seq; [vmgo; reflexivity|].
        rewrite run_app.
        rewrite (run_cond H u31_add _ _ _ _ [true] eq_refl (u31_add_ok 0 x _ _ canon0 Hx)).
        cbn [Z.add]. rewrite (Z.mod_small x) by exact Hx. reflexivity. }
    match goal with |- run ?p _ = _ =>
      change p with (([PUSHN 0; OP_FROMALTSTACK; OP_IF; PUSHN 3; OP_PICK] ++ u31_add ++ [OP_ENDIF]) ++
        (u31_double ++ u31_double ++
         repeat_script 14 (u31_mul_select ++ u31_double ++ u31_double) ++
         u31_mul_select ++ [OP_TOALTSTACK; OP_2DROP; OP_2DROP; OP_FROMALTSTACK]))
    end.
    eapply run_seq; [exact E|]. clear E.
    rewrite run_app, u31_double_ok by apply canon_mod.
    rewrite run_app, u31_double_ok by apply canon_mod.
    (* split the 30 low bits into 28 + 2 *)
    set (acc := (2 * ((2 * ((x * bit y 30) mod MOD)) mod MOD)) mod MOD).
    change 30%nat with (2 * 14 + 2)%nat at 1. rewrite msb_split, map_app, <- app_assoc.
    rewrite run_app, mul_loop_ok.
    2: apply canon_mod. 2: exact Hx.
    2:{ change (2 ^ Z.of_nat 30) with 1073741824 in Hw.
        change (2 ^ Z.of_nat 2) with 4. change (2 ^ (2 * Z.of_nat 14)) with 268435456.
        clear - Hw. lia. }
    change (msb 2 w) with [bit w 1; bit w 0]. cbn [map app].
    assert (B1 := bit01 w 1). assert (B0 := bit01 w 0).
    rewrite run_app, select_ok; [|apply canon_mod|exact Hx|clear - B1; lia|clear - B0; lia].
    vmred. do 4 f_equal.
    rewrite Zplus_mod_idemp_l.
    subst acc. rewrite Zmult_mod_idemp_r, Z.mul_assoc, Zmult_mod_idemp_r.
    rewrite <- Z.add_assoc, <- Zplus_mod_idemp_l, Zmult_mod_idemp_l, Zplus_mod_idemp_l.
    f_equal.
    change (2 ^ Z.of_nat 30) with 1073741824 in *.
    change (2 ^ Z.of_nat 2) with 4. change (4 ^ Z.of_nat 14) with 268435456.
    set (b30 := bit y 30) in *. clearbody b30. clear - Ey. clearbody w. rewrite Ey. unfold bit.
    change (2 ^ Z.of_nat 1) with 2 in *. change (2 ^ Z.of_nat 0) with 1 in *.
    assert (Ew : w = 4 * (w / 4) + (2 * ((w / 2) mod 2) + (w / 1) mod 2)) by (clear; lia).
    set (d := 2 * ((w / 2) mod 2) + (w / 1) mod 2) in *. set (q := w / 4) in *.
    clearbody d q. rewrite Ew. ring.
  Qed.

  (** The script conversion of a compressed word (/repo/scripts/src/lib.rs:58-71). *)
  Lemma reduce_ok : forall x r a, 0 <= x < 2 * MOD -> x < 2147483648 ->
    run ([PUSHN MOD] ++ u31_sub) (mk (I x :: r) a []) = Some (mk (I (x mod MOD) :: r) a []).
  Proof.
    intros x r a Hx Hx'. unfold u31_sub.
    change ([PUSHN MOD] ++ [OP_SUB] ++ u31_adjust) with ([PUSHN MOD; OP_SUB] ++ u31_adjust).
    eapply run_seq.
    - unfold MOD in *. vmgo. reflexivity.
    - rewrite adjust_ok by (unfold MOD in *; lia). do 4 f_equal. unfold MOD in *. lia.
  Qed.

  Theorem u32_to_u31_neg_ok : forall x r a, 0 < x < 2147483648 ->
    run u32_to_u31 (mk (I (- x) :: r) a []) =
    Some (mk (I ((x + 2147483648) mod MOD) :: r) a []).
  Proof.
    intros x r a Hx. unfold u32_to_u31.
    change (run ([OP_DUP; PUSHN 0; OP_LESSTHAN; OP_IF; OP_ABS] ++ ([PUSHN MOD] ++ u31_sub) ++
      [PUSHN (2147483648 - 2013265921); OP_ADD; OP_ENDIF] ++ ([PUSHN MOD] ++ u31_sub))
      (mk (I (- x) :: r) a []) = Some (mk (I ((x + 2147483648) mod MOD) :: r) a [])).
    eapply run_seq.
    { vmgo. replace (- x <? 0) with true by lia. cbn [b2z]. vmgo.
      replace (Z.abs (- x)) with x by lia. reflexivity. }
    eapply run_seq.
    { refine (run_cond H _ _ _ _ _ [true] eq_refl (reduce_ok x r a _ _)); unfold MOD; lia. }
    eapply (run_seq H _ _ _ (mk (I (x mod MOD + (2147483648 - 2013265921)) :: r) a [])).
    { assert (0 <= x mod MOD < MOD) by (apply Z.mod_pos_bound; reflexivity).
      set (m := x mod MOD) in *. clearbody m. unfold MOD in *. vmgo. reflexivity. }
    rewrite reduce_ok by (unfold MOD in *; lia). do 4 f_equal. unfold MOD in *. lia.
  Qed.

  Theorem u32_to_u31_nonneg_ok : forall x r a, 0 <= x < 2147483648 ->
    run u32_to_u31 (mk (I x :: r) a []) = Some (mk (I (x mod MOD) :: r) a []).
  Proof.
    intros x r a Hx. unfold u32_to_u31.
    change (run (([OP_DUP; PUSHN 0; OP_LESSTHAN; OP_IF; OP_ABS] ++ ([PUSHN MOD] ++ u31_sub) ++
      [PUSHN (2147483648 - 2013265921); OP_ADD; OP_ENDIF]) ++ ([PUSHN MOD] ++ u31_sub))
      (mk (I x :: r) a []) = Some (mk (I (x mod MOD) :: r) a [])).
    eapply run_seq.
    { unfold u31_sub, u31_adjust, MOD. vmgo. replace (x <? 0) with false by lia.
      cbn [b2z]. vmgo. reflexivity. }
    rewrite reduce_ok by (unfold MOD in *; lia). reflexivity.
  Qed.

  Theorem u32_to_u31_ok : forall w r a, is_u32 w -> w <> 2147483648 ->
    run u32_to_u31 (mk (I (packed w) :: r) a []) = Some (mk (I (w mod MOD) :: r) a []).
  Proof.
    unfold is_u32, packed. intros w r a Hw Hn.
    change (2 ^ 31) with 2147483648 in *. change (2 ^ 32) with 4294967296 in *.
    destruct (w <? 2147483648) eqn:E.
    - apply u32_to_u31_nonneg_ok. lia.
    - rewrite u32_to_u31_neg_ok by lia. do 5 f_equal. lia.
  Qed.
End Proofs.
