(** C44 and C73: the quotient and the selectors as expressions. *)
From Coq Require Import ZArith List Bool Arith Lia Field.
From Verif Require Import ScriptNum ScriptVM HelperModel PropHelper Field BabyBear TcsModel FriModel FriProofs StarkModel DslModel DslSpec DslOpSpec DslMain DslOps DslGadgets DslBuild DslIds DslDenote
  DslManager DslSession PropManager DslWork DslAccept FriExprModel FriExprProofs StarkExprModel.
Import ListNotations.
Local Open Scope nat_scope.

(** ** C44 *)

(** Two or more chunks: building panics, whatever the arguments. *)
Lemma numerators_panic : forall deg n table z k, 2 <= n -> numerators deg n table z (seq 0 n) k = None.
Proof.
  intros deg n table z k Ln. destruct n as [|[|n]]; [lia|lia|]. cbn [seq numerators numerator_loop Nat.eqb].
  unfold bind at 1. destruct (const_f bf_ext4 1%F k) as [[one k0]|]; [|reflexivity]. unfold bind at 1.
  match goal with |- match ?x with _ => _ end = None => assert (E : x = None) end; [|now rewrite E].
  unfold bind. repeat match goal with |- match ?x with _ => _ end = None =>
    lazymatch x with binary_ext Sub true true _ _ _ => reflexivity | _ => destruct x as [[? ?]|]; [|reflexivity] end end.
Qed.
Theorem C44_more_chunks_panics : forall zeta deg g n vs hs res m k, 2 <= n -> compute_quotient_expr zeta deg g n vs hs res m k = None.
Proof.
  intros zeta deg g n vs hs res m k Ln. unfold compute_quotient_expr, bind.
  repeat match goal with |- match ?x with _ => _ end = None => lazymatch x with numerators _ _ _ _ _ _ => rewrite numerators_panic by exact Ln; reflexivity | _ => destruct x as [[? ?]|]; [|reflexivity] end end.
Qed.

(** The opened values and the denominators are one per chunk; anything else panics. *)
Theorem C44_wrong_lengths : forall zeta deg g n vs hs res m k, length vs <> n \/ length hs <> n -> compute_quotient_expr zeta deg g n vs hs res m k = None.
Proof.
  intros zeta deg g n vs hs res m k L. unfold compute_quotient_expr, bind, check.
  destruct (Nat.eqb_spec (length vs) n); [|reflexivity]. destruct (Nat.eqb_spec (length hs) n); [|reflexivity]. destruct L; contradiction.
Qed.

Section Steps.
  Variable G : gadgets.
  Context {A : Type} (R : A -> manager -> list expr -> Prop).
  Lemma step_node : forall o sz ops k all m, incl ops all -> input_of o = None ->
    (forall e all', incl all all' -> In e all' -> e_op e = o -> e_ops e = ops -> works (k e) all' m R) -> works (bind (node o sz ops) k) all m R.
  Proof.
    intros o sz ops k all m Io No K. eapply works_pure.
    - apply growsq_node; assumption.
    - intros _ n. pose proof (whenever_node o sz ops) as W. destruct (node o sz ops n) as [[e n']|] eqn:E; [|discriminate E].
      exists e, n'. split; [reflexivity|exact (W _ _ _ E)].
    - intros e all' C Ie [E1 E2]. now apply K.
  Qed.
  Lemma step_ext : forall o f a b k all m y z, bin_op o = Some f -> In a all -> In b all -> val G m a 1 y -> val G m b 4 z ->
    (forall e all', incl all all' -> In e all' -> val G m e 4 (f y z) -> e_op e = o -> e_ops e = [a; b] -> works (k e) all' m R) ->
    works (bind (binary_ext o false true a b) k) all m R.
  Proof.
    intros o f a b k all m y z Eo Ia Ib Va Vb K.
    eapply (works_pure _ _ _ _ _ (fun e => val G m e 4 (f y z) /\ e_op e = o /\ e_ops e = [a; b])).
    - apply (growsq_node all o 4 [a; b]); [intros x [<-|[<-|[]]]; assumption|]. destruct o; try discriminate Eo; reflexivity.
    - intros N. apply yields_and; [|apply (whenever_node o 4 [a; b])]. apply yields_all; [exact N|]. intros gt env Fg. apply denotes_ext; auto.
    - intros e all' C Ie (V & E1 & E2). now apply K.
  Qed.
  Lemma step_base : forall o f a b k all m y z, bin_op o = Some f -> In a all -> In b all -> val G m a 4 y -> val G m b 1 z ->
    (forall e all', incl all all' -> In e all' -> val G m e 4 (f y z) -> e_op e = o -> e_ops e = [a; b] -> works (k e) all' m R) ->
    works (bind (binary_base o true false a b) k) all m R.
  Proof.
    intros o f a b k all m y z Eo Ia Ib Va Vb K.
    eapply (works_pure _ _ _ _ _ (fun e => val G m e 4 (f y z) /\ e_op e = o /\ e_ops e = [a; b])).
    - apply (growsq_node all o 4 [a; b]); [intros x [<-|[<-|[]]]; assumption|]. destruct o; try discriminate Eo; reflexivity.
    - intros N. apply yields_and; [|apply (whenever_node o 4 [a; b])]. apply yields_all; [exact N|]. intros gt env Fg. apply denotes_base; auto.
    - intros e all' C Ie (V & E1 & E2). now apply K.
  Qed.
End Steps.

Section Chunk.
  Variable T : two_adic.
  Add Field FT44 : (fth T).
  Lemma chunk_four : forall (mono : nat -> T) (zp v0 v1 v2 v3 : T), chunk_value T mono zp [v0; v1; v2; v3] =
    fadd f0 (fmul (fadd (fadd (fadd (fadd f0 (fmul v0 (mono 0))) (fmul v1 (mono 1))) (fmul v2 (mono 2))) (fmul v3 (mono 3))) (fmul zp f1)).
  Proof. intros. unfold chunk_value. cbn [seq length List.combine map StarkModel.sum fst snd]. ring. Qed.
  Lemma add0_r : forall x : T, fadd x f0 = x. Proof. intros. ring. Qed.
  Lemma one_l : forall x : T, fmul f1 x = x. Proof. intros. ring. Qed.
End Chunk.
Section One.
  Variable H : bytes -> bytes.
  Variable G : gadgets.
  Hypothesis OK : gadgets_ok H G.
  Let LB := bf_base_laws.
  Let LE := bf_ext4_laws.
  Add Field FE44 : (fth ExtT).

  Lemma works_assoc : forall A B C (a : builder A) (f : A -> builder B) (g : B -> builder (C * manager)) all m R,
    works (bind a (fun x => bind (f x) g)) all m R -> works (bind (bind a f) g) all m R.
  Proof.
    intros A B C a f g all m R W n Iv. destruct (W n Iv) as (c & m' & n' & all' & E & Rest). exists c, m', n', all'. split; [|exact Rest].
    rewrite <- E. unfold bind. now destruct (a n) as [[x n1]|].
  Qed.
  Lemma works_ret_bind : forall A C (a : A) (g : A -> builder (C * manager)) all m R, works (g a) all m R -> works (bind (ret a) g) all m R.
  Proof. intros A C a g all m R W n Iv. exact (W n Iv). Qed.

  Definition chunk_ok (v0 v1 v2 v3 res : BB4) (h : BabyBear) (u : unit) (m' : manager) (all' : list expr) : Prop :=
    exists e c, mn_exec m' = Some e /\ mn_checks m' = [c] /\ judges G m' e 4 (chunk_value ExtT monomial (from_base h) [v0; v1; v2; v3] = res) /\
      judges G m' c 1 (h = f1) /\ covered m' [e; c] /\ plain e /\ plain c.
  Ltac nrm := cbn [fst snd]; repeat (first [simple apply works_assoc | simple apply works_ret_bind]; cbn [fst snd]).
  Ltac inc := first [apply incl_refl | eassumption | (eapply incl_tran; [|eassumption]); inc].
  Ltac inn := match goal with |- In ?e ?all => match goal with Ie : In e ?all0 |- _ => apply (fun C : incl all0 all => C e Ie); clear Ie; inc end end.
  Lemma one_chunk_works : forall zeta deg g v0 v1 v2 v3 h res m all, given m = [] -> mn_checks m = [] -> In zeta all ->
    works (compute_quotient_expr zeta deg g 1 [[v0; v1; v2; v3]] [h] res m) all m (chunk_ok v0 v1 v2 v3 res h).
  Proof.
    intros zeta deg g v0 v1 v2 v3 h res m all Gm Km Iz. unfold compute_quotient_expr.
    cbn [length Nat.eqb assign_rows assign_all map seq numerators numerator_loop denominators denominator_loop quotient_loop nth_error].
    change (check true) with (ret tt). nrm.
    apply (stepF_input bf_ext4 LE G). intros i0 all1 C1 I1 V1 O1 P1. nrm.
    apply (stepF_input bf_ext4 LE G). intros i1 all2 C2 I2 V2 O2 P2. nrm.
    apply (stepF_input bf_ext4 LE G). intros i2 all3 C3 I3 V3 O3 P3. nrm.
    apply (stepF_input bf_ext4 LE G). intros i3 all4 C4 I4 V4 O4 P4. nrm.
    apply (stepF_hint bf_base LB G). intros ih all5 C5 I5 V5 O5 P5. nrm.
    match type of V5 with valF _ _ ?mm _ _ => set (m5 := mm) in * end.
    assert (Inc : forall m', incl (given m') (given m5) -> forall e z, valF bf_ext4 G m' e z -> valF bf_ext4 G m5 e z) by (intros m' J e z V; exact (valF_mono bf_ext4 G _ _ _ _ J V)).
    assert (W1 : valF bf_ext4 G m5 i0 v0).
    { revert V1. apply Inc. intros p Ip. unfold m5. rewrite given_hint, !given_input. rewrite given_input in Ip. tauto. }
    assert (W2 : valF bf_ext4 G m5 i1 v1).
    { revert V2. apply Inc. intros p Ip. unfold m5. rewrite given_hint, !given_input. rewrite !given_input in Ip. tauto. }
    assert (W3 : valF bf_ext4 G m5 i2 v2).
    { revert V3. apply Inc. intros p Ip. unfold m5. rewrite given_hint, !given_input. rewrite !given_input in Ip. tauto. }
    assert (W4 : valF bf_ext4 G m5 i3 v3).
    { revert V4. apply Inc. intros p Ip. unfold m5. rewrite given_hint, !given_input. rewrite !given_input in Ip. tauto. }
    apply (stepF_const bf_base LB G). intros ia all6 C6 I6 V6 O6 P6. nrm.
    apply step_node; [intros x [<-|[<-|[]]]; inn|reflexivity|]. intros zd all7 C7 I7 O7 P7. nrm.
    eapply step_get; [reflexivity|]. nrm.
    apply step_node; [intros x []|reflexivity|]. intros tb all8 C8 I8 O8 P8. nrm.
    apply (stepF_const bf_ext4 LE G). intros nm all9 C9 I9 V9 O9 P9. nrm.
    apply (stepF_const bf_base LB G). intros dn all10 C10 I10 V10 O10 P10. nrm.
    eapply step_get; [reflexivity|]. nrm.
    eapply (stepF_mul bf_base LB G); [inn|inn|exact V10|exact V5|]. intros di all11 C11 I11 V11 O11 P11. nrm.
    apply (stepF_const bf_base LB G). intros o1 all12 C12 I12 V12 O12 P12. nrm.
    eapply (stepF_equal bf_base LB G); [inn|inn|exact V11|exact V12|]. intros c all13 C13 I13 J13 O13 P13. nrm.
    apply (step_check _ _ c); [exact I13|]. 
    apply (stepF_const bf_ext4 LE G). intros z0 all14 C14 I14 V14 O14 P14. nrm.
    eapply step_get; [reflexivity|]. nrm. eapply step_get; [reflexivity|]. nrm.
    set (m6 := add_hint_verify c m5) in *.
    assert (V5' : val G m6 ih 1 (from_base h)) by exact V5. assert (V9' : val G m6 nm 4 f1) by exact V9.
    assert (X1 : valF bf_ext4 G m6 i0 v0) by exact W1. assert (X2 : valF bf_ext4 G m6 i1 v1) by exact W2.
    assert (X3 : valF bf_ext4 G m6 i2 v2) by exact W3. assert (X4 : valF bf_ext4 G m6 i3 v3) by exact W4.
    eapply (step_ext G _ Mul); [reflexivity|inn|inn|exact V5'|exact V9'|]. intros zp all15 C15 I15 V15 O15 P15. nrm.
    apply (stepF_const bf_ext4 LE G). intros a0 all16 C16 I16 V16 O16 P16. nrm.
    eapply step_get; [reflexivity|]. nrm. cbn [chunk_loop nth_error]. nrm.
    eapply step_get; [reflexivity|]. nrm. apply (stepF_const bf_ext4 LE G). intros k0 all17 C17 I17 V17 O17 P17. nrm.
    eapply (stepF_mul bf_ext4 LE G); [inn|inn|exact X1|exact V17|]. intros p0 all18 C18 I18 V18 O18 P18. nrm.
    eapply (stepF_add bf_ext4 LE G); [inn|inn|exact V16|exact V18|]. intros s0 all19 C19 I19 V19 O19 P19. nrm.
    eapply step_get; [reflexivity|]. nrm. apply (stepF_const bf_ext4 LE G). intros k1 all20 C20 I20 V20 O20 P20. nrm.
    eapply (stepF_mul bf_ext4 LE G); [inn|inn|exact X2|exact V20|]. intros p1 all21 C21 I21 V21 O21 P21. nrm.
    eapply (stepF_add bf_ext4 LE G); [inn|inn|exact V19|exact V21|]. intros s1 all22 C22 I22 V22 O22 P22. nrm.
    eapply step_get; [reflexivity|]. nrm. apply (stepF_const bf_ext4 LE G). intros k2 all23 C23 I23 V23 O23 P23. nrm.
    eapply (stepF_mul bf_ext4 LE G); [inn|inn|exact X3|exact V23|]. intros p2 all24 C24 I24 V24 O24 P24. nrm.
    eapply (stepF_add bf_ext4 LE G); [inn|inn|exact V22|exact V24|]. intros s2 all25 C25 I25 V25 O25 P25. nrm.
    eapply step_get; [reflexivity|]. nrm. apply (stepF_const bf_ext4 LE G). intros k3 all26 C26 I26 V26 O26 P26. nrm.
    eapply (stepF_mul bf_ext4 LE G); [inn|inn|exact X4|exact V26|]. intros p3 all27 C27 I27 V27 O27 P27. nrm.
    eapply (stepF_add bf_ext4 LE G); [inn|inn|exact V25|exact V27|]. intros s3 all28 C28 I28 V28 O28 P28. nrm.
    eapply (stepF_mul bf_ext4 LE G); [inn|inn|exact V28|exact V15|]. intros p4 all29 C29 I29 V29 O29 P29. nrm.
    eapply (stepF_add bf_ext4 LE G); [inn|inn|exact V14|exact V29|]. intros q all30 C30 I30 V30 O30 P30. nrm.
    apply (stepF_const bf_ext4 LE G). intros rs all31 C31 I31 V31 O31 P31. nrm.
    eapply (stepF_equal bf_ext4 LE G); [inn|inn|exact V30|exact V31|]. intros e all32 C32 I32 J32 O32 P32. nrm.
    apply (step_exec _ _ e); [exact I32|]. apply works_ret.
    exists e, c. split; [reflexivity|]. split; [cbn; now rewrite Km|].
    split; [|split; [|split; [|split]]].
    - rewrite (chunk_four ExtT monomial). intros gt env Fg. exact (J32 gt env Fg).
    - intros gt env Fg. apply (eq_rect (@fmul BabyBearT f1 h) (fun x => verdict G gt env c 1 (x = f1)) (J13 gt env Fg) h (one_l BabyBearT h)).
    - assert (Sq : forall d, sub d s3 -> sub d e).
      { intros d D. apply (sub_trans _ _ _ D), (sub_trans _ p4); [apply sub_op; rewrite P29; now left|].
        apply (sub_trans _ q); [apply sub_op; rewrite P30; right; now left|apply sub_op; rewrite P32; now left]. }
      assert (S3 : sub p3 s3) by (apply sub_op; rewrite P28; right; now left).
      assert (S2 : sub s2 s3) by (apply sub_op; rewrite P28; now left).
      assert (S1 : sub s1 s3) by (apply (sub_trans _ s2); [apply sub_op; rewrite P25; now left|exact S2]).
      assert (S0 : sub s0 s3) by (apply (sub_trans _ s1); [apply sub_op; rewrite P22; now left|exact S1]).
      assert (D0 : sub i0 e).
      { apply Sq. apply (sub_trans _ s0); [|exact S0]. apply (sub_trans _ p0); apply sub_op; [rewrite P18; now left|rewrite P19; right; now left]. }
      assert (D1 : sub i1 e).
      { apply Sq. apply (sub_trans _ s1); [|exact S1]. apply (sub_trans _ p1); apply sub_op; [rewrite P21; now left|rewrite P22; right; now left]. }
      assert (D2 : sub i2 e).
      { apply Sq. apply (sub_trans _ s2); [|exact S2]. apply (sub_trans _ p2); apply sub_op; [rewrite P24; now left|rewrite P25; right; now left]. }
      assert (D3 : sub i3 e).
      { apply Sq. apply (sub_trans _ p3); [|exact S3]. apply sub_op. rewrite P27. now left. }
      assert (Dh : sub ih c) by (apply (sub_trans _ di); apply sub_op; [rewrite P11; right; now left|rewrite P13; now left]).
      intros x Ix. change (given (set_exec_dsl e m6)) with (given m5) in Ix. apply in_map_iff in Ix as (y & <- & Iy).
      unfold m5 in Iy. rewrite given_hint, !given_input, Gm in Iy. destruct Iy as [[[[[[]| ->]| ->]| ->]| ->]| ->]; cbn [fst].
      + exists e. split; [now left|]. exists i0. auto.
      + exists e. split; [now left|]. exists i1. auto.
      + exists e. split; [now left|]. exists i2. auto.
      + exists e. split; [now left|]. exists i3. auto.
      + exists c. split; [right; now left|]. exists ih. auto.
    - assert (L0 : forall x, e_ops x = [] -> single (e_op x) = true -> plain x) by (intros x E1 E2; apply plain_node; [exact E2|rewrite E1; constructor]).
      assert (L2 : forall x a b, e_ops x = [a; b] -> single (e_op x) = true -> plain a -> plain b -> plain x)
        by (intros x a b E1 E2 A1 A2; apply plain_node; [exact E2|rewrite E1; auto]).
      assert (plain i0 /\ plain i1 /\ plain i2 /\ plain i3 /\ plain ih) as (Q0 & Q1 & Q2 & Q3 & Qh).
      { repeat split; apply L0; auto; match goal with Q : e_op ?x = _ |- single (e_op ?x) = true => rewrite Q; reflexivity end. }
      assert (plain k0 /\ plain k1 /\ plain k2 /\ plain k3 /\ plain a0 /\ plain nm /\ plain z0 /\ plain rs) as (? & ? & ? & ? & ? & ? & ? & ?) by (repeat split; now apply L0).
      assert (plain p0) by (apply (L2 _ _ _ P18); auto; now rewrite O18). assert (plain s0) by (apply (L2 _ _ _ P19); auto; now rewrite O19).
      assert (plain p1) by (apply (L2 _ _ _ P21); auto; now rewrite O21). assert (plain s1) by (apply (L2 _ _ _ P22); auto; now rewrite O22).
      assert (plain p2) by (apply (L2 _ _ _ P24); auto; now rewrite O24). assert (plain s2) by (apply (L2 _ _ _ P25); auto; now rewrite O25).
      assert (plain p3) by (apply (L2 _ _ _ P27); auto; now rewrite O27). assert (plain s3) by (apply (L2 _ _ _ P28); auto; now rewrite O28).
      assert (plain zp) by (apply (L2 _ _ _ P15); auto; now rewrite O15). assert (plain p4) by (apply (L2 _ _ _ P29); auto; now rewrite O29).
      assert (plain q) by (apply (L2 _ _ _ P30); auto; now rewrite O30). apply (L2 _ _ _ P32); auto; now rewrite O32.
    - assert (plain ih) by (apply plain_node; [now rewrite O5|rewrite P5; constructor]).
      assert (plain dn) by (apply plain_node; [exact O10|rewrite P10; constructor]). assert (plain o1) by (apply plain_node; [exact O12|rewrite P12; constructor]).
      assert (plain di) by (apply plain_node; [now rewrite O11|rewrite P11; auto]). apply plain_node; [now rewrite O13|rewrite P13; auto].
  Qed.

  Lemma sinv_after : forall n n' all m, sinv n all m -> n <= n' -> sinv n' all m.
  Proof. intros n n' all m [A B C D E I1 I2] Ln. constructor; auto. eapply made_mono; eauto. Qed.

  (** One chunk of 4 values, on a new manager: accepted exactly when the hint is 1 and the
      given result is the quotient the native verifier computes. *)
  Theorem C44_one_chunk : forall zeta trace_degree generator d v0 v1 v2 v3 h res zs q n all,
    sinv n all manager_new -> In zeta all ->
    forall z, zps BabyBearT ExtT from_base z [d] = Some zs -> quotient_at ExtT monomial zs [[v0; v1; v2; v3]] = Some q ->
    exists m n', compute_quotient_expr zeta trace_degree generator 1 [[v0; v1; v2; v3]] [h] res manager_new n = Some (tt, m, n') /\
      forall n1, n' <= n1 -> exists m' n2, embed_hint_verify m n1 = Some (m', n2) /\
        (room G m' -> (run_manager H G m' = true <-> h = f1 /\ q = res)).
  Proof.
    intros zeta deg g d v0 v1 v2 v3 h res zs q n all Iv Iz z Zs Eq.
    destruct (one_chunk_works zeta deg g v0 v1 v2 v3 h res manager_new all eq_refl eq_refl Iz n Iv) as ([] & m & n' & all' & E & Iv' & _ & _ & (e & c & Ee & Ec & Je & Jc & Cv & Pe & Pc)).
    exists m, n'. split; [exact E|]. intros n1 Ln.
    destruct (manager_accepts_one H G OK n1 all' m e c _ _ (sinv_after _ _ _ _ Iv' Ln) Ee Je Ec Jc) as (m' & n2 & Em & _ & Rn).
    - now rewrite Ec.
    - rewrite Ec. auto.
    - destruct (feqb_spec ExtT (chunk_value ExtT monomial (from_base h) [v0; v1; v2; v3]) res); auto.
    - destruct (feqb_spec BabyBearT h f1); auto.
    - exists m', n2. split; [exact Em|]. intros Rm. rewrite (Rn Rm).
      assert (Eqv : q = chunk_value ExtT monomial f1 [v0; v1; v2; v3]).
      { cbn in Zs. apply some_inj in Zs. subst zs. cbn [quotient_at option_map] in Eq. apply some_inj in Eq. subst q. exact (add0_r ExtT _). }
      rewrite Eqv. split; [intros [A B]; subst h; auto|intros [A B]; subst h; auto].
  Qed.
End One.

(** chunks [3; 5; 7; 11] + ..., hint 1: the right quotient is accepted, another one and another hint are not *)
Definition toy_quotient (H : bytes -> bytes) (h : BabyBear) (vs : list BB4) (res : BB4) : option bool :=
  match const_f bf_ext4 (ext (of_Z 9) (of_Z 8) (of_Z 7) (of_Z 6)) 0 with
  | None => None
  | Some (zeta, n) =>
      match compute_quotient_expr zeta 8 (of_Z 3) 1 [vs] [h] res manager_new n with
      | Some (_, m, n) => match embed_hint_verify m n with Some (m', _) => Some (run_manager H my_gadgets m') | None => None end
      | None => None
      end
  end.
Definition toy_chunk : list BB4 := map (fun k => ext (of_Z k) (of_Z (k + 1)) (of_Z 0) (of_Z (k * k))) [3; 5; 7; 11]%Z.
Definition toy_quotient_value : BB4 := ext (of_Z 410) (of_Z 548) (of_Z 1344) (of_Z 28).
Example C44_example : 
  (exists zs, zps BabyBearT ExtT from_base (ext (of_Z 9) (of_Z 8) (of_Z 7) (of_Z 6)) [PcsModel.Build_coset BabyBearT 3 (of_Z 31)] = Some zs /\
    quotient_at ExtT monomial zs [toy_chunk] = Some toy_quotient_value) /\
  forall H, toy_quotient H f1 toy_chunk toy_quotient_value = Some true /\ toy_quotient H f1 toy_chunk f1 = Some false /\ toy_quotient H (of_Z 2) toy_chunk toy_quotient_value = Some false.
Proof.
  split.
  - exists [f1]. split; [reflexivity|]. apply (f_equal Some). apply bb4_eqb. vm_compute. reflexivity.
  - intros H. vm_compute. auto.
Qed.

(** ** C73: the selectors *)
Section Selectors.
  Variable G : gadgets.
  Definition value (e : expr) (k : nat) (z : BB4) : Prop := forall gt env, denotes G gt env e k z.
  Lemma value_yields : forall (b : builder expr) k z, (forall gt env, yields b (fun e => denotes G gt env e k z)) -> yields b (fun e => value e k z).
  Proof.
    intros b k z Y n. destruct (Y (fun _ => None) (fun _ => None) n) as (e & n' & E & _). exists e, n'. split; [exact E|].
    intros gt env. destruct (Y gt env n) as (e' & n1 & E' & D). rewrite E in E'. apply some_inj in E'. injection E' as <- <-. exact D.
  Qed.
  Lemma value_const : forall (F : bf_field) (L : bf_laws F) (z : F), yields (const_f F z) (fun e => value e (f_size F) (bf_emb z)).
  Proof. intros F L z. apply value_yields. intros gt env. apply denotes_constant. apply (bl_elt F L). Qed.
  Lemma value_base : forall o f a b y z, bin_op o = Some f -> value a 4 y -> value b 1 z -> yields (binary_base o true false a b) (fun e => value e 4 (f y z)).
  Proof. intros o f a b y z Eo Va Vb. apply value_yields. intros gt env. now apply denotes_base. Qed.
  Lemma exp_builds : forall a y p, value a 4 y -> yields (exp_constant true a p) (fun e => forall k, p = 2 ^ k -> value e 4 (fpow y (2 ^ k))).
  Proof.
    intros a y p Va n. destruct (Va (fun _ => None) (fun _ => None)) as [Ey [_ _ Za]]. unfold exp_constant, bind, get. rewrite Za. cbn [ret].
    exists (Node (S n) (ExpConst true p) (length (limbs 4 y)) [a]), (S n). split; [reflexivity|]. intros k -> gt env.
    destruct (denotes_exp G gt env true a y k (Va gt env) n) as (e & n' & E & D). unfold exp_constant, bind, get in E. rewrite Za in E. cbn [ret] in E.
    apply some_inj in E. injection E as -> ->. exact D.
  Qed.

  (** What the native verifier computes, the expressions have as values; [z_h] is the point
      to the power 2 XOR log_n (when that is a power of two). *)
  Theorem C73_selectors : forall d point s si n, selectors_at_point BabyBearT ExtT from_base d point = Some s -> inverse (PcsModel.shift d) = Some si ->
    exists e n', selectors_at_point_expr (PcsModel.shift d) point (PcsModel.log_n d) n = Some (e, n') /\
      value (se_first e) 4 (is_first_row ExtT s) /\ value (se_last e) 4 (is_last_row ExtT s) /\ value (se_transition e) 4 (is_transition ExtT s) /\
      (forall k, Nat.lxor 2 (PcsModel.log_n d) = 2 ^ k -> value (se_zh e) 4 (fpow (fmul point (from_base si) : ExtT) (2 ^ k))).
  Proof.
    intros d point s si n. destruct d as [ln sh]. cbn [PcsModel.shift PcsModel.log_n]. unfold selectors_at_point, coset_gen. cbn [PcsModel.shift PcsModel.log_n].
    intros Es Ei. rewrite Ei in Es.
    destruct (two_adic_generator BabyBearT ln) as [g|] eqn:Eg; [|discriminate Es].
    destruct (inverse g) as [gi|] eqn:Egi; [|discriminate Es]. cbv zeta in Es.
    set (u := fmul point (from_base si) : ExtT) in *.
    destruct (checked_div (fsub (fpow u (2 ^ ln)) f1) (fsub u f1)) as [a|] eqn:Ea; [|discriminate Es].
    destruct (checked_div (fsub (fpow u (2 ^ ln)) f1) (fsub u (from_base gi))) as [b|] eqn:Eb; [|discriminate Es].
    destruct (inverse (fsub (fpow u (2 ^ ln)) f1)) as [c|] eqn:Ec; [|discriminate Es]. apply some_inj in Es. subst s.
    cbn [is_first_row is_last_row is_transition]. unfold selectors_at_point_expr. assert (Ei' : @inverse BabyBear sh = Some si) by exact Ei. unfold bind at 1. rewrite Ei'. cbn [get ret]. cbv zeta. fold u.
    unfold bind at 1. destruct (value_const bf_ext4 bf_ext4_laws f0 n) as (d0 & n0 & E0 & _). rewrite E0.
    match goal with |- context [if ?c then ?x else ?y] => assert (Yu : yields (if c then x else y) (fun e => value e 4 u)); [destruct c|] end.
    { exact (value_const bf_ext4 bf_ext4_laws u). }
    { eapply yields_bind; [exact (value_const bf_ext4 bf_ext4_laws point)|]. intros p Vp.
      change (yields (do c <- const_f bf_base si; binary_base Mul true false p c) (fun e => value e 4 u)).
      eapply yields_bind; [exact (value_const bf_base bf_base_laws si)|]. intros q Vq. exact (value_base Mul fmul p q point (from_base si) eq_refl Vp Vq). }
    unfold bind at 1. destruct (Yu n0) as (ue & n1 & E1 & Vu). rewrite E1.
    unfold bind at 1. destruct (exp_builds ue u (Nat.lxor 2 ln) Vu n1) as (ze & n2 & E2 & Vz). rewrite E2.
    unfold bind at 1. match goal with |- context [get (checked_div ?x ?y)] => replace (checked_div x y) with (Some a) by (symmetry; exact Ea) end. cbn [get ret]. unfold bind at 1. destruct (value_const bf_ext4 bf_ext4_laws a n2) as (fe & n3 & E3 & Vf). rewrite E3.
    unfold bind at 1. rewrite Eg. cbn [get ret]. unfold bind at 1. match goal with |- context [get (inverse ?x)] => replace (inverse x) with (Some gi) by (symmetry; exact Egi) end. cbn [get ret]. unfold bind at 1. match goal with |- context [get (checked_div ?x ?y)] => replace (checked_div x y) with (Some b) by (symmetry; exact Eb) end. cbn [get ret].
    unfold bind at 1. destruct (value_const bf_ext4 bf_ext4_laws b n3) as (le & n4 & E4 & Vl). rewrite E4.
    unfold bind at 1. destruct (value_const bf_base bf_base_laws gi n4) as (ge & n5 & E5 & Vg). rewrite E5.
    unfold bind at 1. destruct (value_base Sub fsub ue ge u (from_base gi) eq_refl Vu Vg n5) as (te & n6 & E6 & Vt). rewrite E6.
    eexists; eexists; split; [reflexivity|]. cbn [se_first se_last se_transition se_zh]. auto.
  Qed.
End Selectors.

(** Claim: [z_h] is the vanishing polynomial of the domain at the point.  It does not hold: at
    2 and for the subgroup of size 8 it is 2 and not 2^8 - 1. *)
Definition toy_domain : PcsModel.coset BabyBearT := PcsModel.Build_coset BabyBearT 3 f1.
Definition toy_point : BB4 := from_base (of_Z 2).
Theorem C73_vanishing_refuted : forall G, exists d point s e n', selectors_at_point BabyBearT ExtT from_base d point = Some s /\
  selectors_at_point_expr (PcsModel.shift d) point (PcsModel.log_n d) 0 = Some (e, n') /\
  exists z, value G (se_zh e) 4 z /\ fmul z (inv_zeroifier ExtT s) <> f1 /\ zp_at_point BabyBearT ExtT from_base d point <> Some z.
Proof.
  intros G. destruct (selectors_at_point BabyBearT ExtT from_base toy_domain toy_point) as [s|] eqn:Es.
  2: { assert (Q : match selectors_at_point BabyBearT ExtT from_base toy_domain toy_point with Some _ => true | None => false end = true) by (vm_compute; reflexivity).
       rewrite Es in Q. discriminate Q. }
  destruct (C73_selectors G toy_domain toy_point s (finv f1) 0 Es) as (e & n' & E & _ & _ & _ & Vz); [apply inverse_nz; intros Q; apply (f_equal (fun x => as_canonical x)) in Q; discriminate Q|].
  exists toy_domain, toy_point, s, e, n'. split; [exact Es|]. split; [exact E|]. exists (fpow (fmul toy_point (from_base (finv f1)) : ExtT) (2 ^ 0)).
  split; [now apply Vz|]. split.
  - assert (Q : match selectors_at_point BabyBearT ExtT from_base toy_domain toy_point with Some s => feqb (fmul (fpow (fmul toy_point (from_base (finv f1)) : ExtT) (2 ^ 0)) (inv_zeroifier ExtT s)) f1 | None => true end = false) by (vm_compute; reflexivity).
    rewrite Es in Q. intros Q'. apply Bool.diff_true_false. rewrite <- Q. symmetry. apply (feqb_ok ExtT), Q'.
  - intros Q. assert (Q' : match zp_at_point BabyBearT ExtT from_base toy_domain toy_point with Some z => feqb z (fpow (fmul toy_point (from_base (finv f1)) : ExtT) (2 ^ 0)) | None => true end = false) by (vm_compute; reflexivity).
    rewrite Q in Q'. now rewrite feqb_refl in Q'.
Qed.
(** a shifted domain of size 8 and a point outside *)
Example C73_example : exists s, selectors_at_point BabyBearT ExtT from_base (PcsModel.Build_coset BabyBearT 3 (of_Z 31)) (ext (of_Z 9) (of_Z 8) (of_Z 7) (of_Z 6)) = Some s /\
  inverse (of_Z 31 : BabyBear) = Some (of_Z 64944062).
Proof.
  assert (Q : match selectors_at_point BabyBearT ExtT from_base (PcsModel.Build_coset BabyBearT 3 (of_Z 31)) (ext (of_Z 9) (of_Z 8) (of_Z 7) (of_Z 6)) with Some _ => true | None => false end = true) by (vm_compute; reflexivity).
  destruct (selectors_at_point BabyBearT ExtT from_base (PcsModel.Build_coset BabyBearT 3 (of_Z 31)) (ext (of_Z 9) (of_Z 8) (of_Z 7) (of_Z 6))) as [s|]; [|discriminate Q].
  exists s. split; [reflexivity|]. apply (f_equal Some), bb_eq. vm_compute. reflexivity.
Qed.
