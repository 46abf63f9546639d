(** C75: the constraint script accepts exactly the accumulator of the native verifier. *)
From Coq Require Import ZArith List Bool Arith Lia.
From Verif Require Import ScriptNum ScriptVM HelperModel Field BabyBear TcsModel DslModel DslSpec DslOpSpec DslOps DslGadgets
  DslBuild DslIds DslDenote DslManager DslSession DslWork FriExprModel FriExprProofs StarkExprModel ConsExprModel ConsExprProofs.
From Verif Require StarkModel PcsModel.
Import ListNotations.
Local Open Scope nat_scope.

(** the view of the native folder, uni-stark/src/verifier.rs 135-147 *)
Definition the_window (local next : list BB4) (pubs : list BabyBear) (s : StarkModel.selectors ExtT) : StarkModel.window BabyBearT ExtT :=
  {| StarkModel.w_local := local : list ExtT; StarkModel.w_next := next : list ExtT; StarkModel.w_public := pubs : list BabyBearT;
     StarkModel.w_first := StarkModel.is_first_row ExtT s; StarkModel.w_last := StarkModel.is_last_row ExtT s;
     StarkModel.w_transition := StarkModel.is_transition ExtT s |}.
(** what the native verifier accumulates *)
Definition native_accumulator (p : list stmt) (local next : list BB4) (pubs : list BabyBear) (s : StarkModel.selectors ExtT) (alpha : BB4) : option ExtT :=
  eval_native (the_window local next pubs s) alpha p [] f0.

(** It is the folding of the assertions in order. *)
Theorem C75_native : forall p local next pubs s alpha acc, native_accumulator p local next pubs s alpha = Some acc ->
  exists l, assertions p [] = Some l /\
    StarkModel.fold_constraints (from_base : BabyBearT -> ExtT) (fun x : ExtT => x) (alpha : ExtT) (the_window local next pubs s) f0 l = Some acc /\
    (existsb is_assert p = true <-> l <> []).
Proof. intros p local next pubs s alpha acc E. apply (native_trees _ _ p [] []); [constructor|exact E]. Qed.

Section Script.
  Variable H : bytes -> bytes.
  Variable G : gadgets.
  Hypothesis OK : gadgets_ok H G.
  Variable public_row : nat.

  Lemma gets_selectors : forall gt env vs n0 all ln point s, StarkModel.selectors_at_point BabyBearT ExtT from_base (PcsModel.Build_coset BabyBearT ln f1) point = Some s ->
    gets G gt vs n0 (selectors_at_point_expr f1 point ln) all 7 (fun e all' =>
      isz G gt env 4 (StarkModel.is_first_row ExtT s) (se_first e) all' /\ isz G gt env 4 (StarkModel.is_last_row ExtT s) (se_last e) all' /\
      isz G gt env 4 (StarkModel.is_transition ExtT s) (se_transition e) all').
  Proof.
    intros gt env vs n0 all ln point s. unfold StarkModel.selectors_at_point, StarkModel.coset_gen. cbn [PcsModel.shift PcsModel.log_n]. intros Es.
    destruct (inverse (f1 : BabyBearT)) as [si|] eqn:Ei; [|discriminate Es].
    destruct (two_adic_generator BabyBearT ln) as [g|] eqn:Eg; [|discriminate Es].
    destruct (inverse g) as [gi|] eqn:Egi; [|discriminate Es]. cbv zeta in Es.
    set (u := fmul point (from_base si) : ExtT) in *.
    destruct (checked_div (fsub (fpow u (2 ^ ln)) f1) (fsub u f1)) as [a|] eqn:Ea; [|discriminate Es].
    destruct (checked_div (fsub (fpow u (2 ^ ln)) f1) (fsub u (from_base gi))) as [b|] eqn:Eb; [|discriminate Es].
    destruct (inverse (fsub (fpow u (2 ^ ln)) f1)) as [c|] eqn:Ec; [|discriminate Es]. injection Es as <-.
    cbn [StarkModel.is_first_row StarkModel.is_last_row StarkModel.is_transition]. unfold selectors_at_point_expr.
    assert (Ei' : @inverse BabyBear f1 = Some si) by exact Ei. eapply gets_get; [exact Ei'|]. cbv zeta.
    assert (E1 : @feqb BabyBear f1 f1 = true) by (destruct (feqb_spec BabyBear f1 f1); congruence). rewrite E1.
    apply (gets_bind G gt vs n0 _ _ _ _ all 1 6 (isz G gt env 4 f0)); [apply gets_const4|]. intros e0 all0 C0 _.
    apply (gets_bind G gt vs n0 _ _ _ _ all0 1 5 (isz G gt env 4 u)); [apply (gets_const4 G gt env vs n0 u)|]. intros ue all1 C1 Du.
    apply (gets_bind G gt vs n0 _ _ _ _ all1 1 4 (fun e all' => In e all')); [eapply gets_exp; exact Du|]. intros ze all2 C2 _.
    eapply gets_get; [exact Ea|].
    apply (gets_bind G gt vs n0 _ _ _ _ all2 1 3 (isz G gt env 4 a)); [apply (gets_const4 G gt env vs n0 a)|]. intros fe all3 C3 Df.
    eapply gets_get; [exact Eg|]. eapply gets_get; [exact Egi|]. eapply gets_get; [exact Eb|].
    apply (gets_bind G gt vs n0 _ _ _ _ all3 1 2 (isz G gt env 4 b)); [apply (gets_const4 G gt env vs n0 b)|]. intros le all4 C4 Dl.
    apply (gets_bind G gt vs n0 _ _ _ _ all4 1 1 (isz G gt env 1 (from_base gi))); [apply (gets_const1 G gt env vs n0 gi)|]. intros ge all5 C5 Dg.
    assert (Du' : isz G gt env 4 u ue all5) by (eapply isz_mono; [|exact Du]; repeat (eapply incl_tran; [eassumption|]); apply incl_refl).
    apply (gets_bind G gt vs n0 _ _ _ _ all5 1 0 (isz G gt env 4 (fsub u (from_base gi)))); [exact (gets_base G gt env vs n0 Sub fsub ue ge u (from_base gi) all5 eq_refl Du' Dg)|].
    intros te all6 C6 Dt. apply gets_ret. cbn [se_first se_last se_transition]. split; [|split; [|exact Dt]]; (eapply isz_mono; [|eassumption]);
      repeat (eapply incl_tran; [eassumption|]); apply incl_refl.
  Qed.

  (** room for the words on the stack *)
  Definition fits_stack (p : list stmt) (local : list BB4) (pubs : list BabyBear) : Prop :=
    (Z.of_nat (4 * (length pubs + 2 * length local + 3 * length p + 10)) < 2 ^ 31)%Z.

  Lemma run_whole : forall p local next pubs zeta alpha ln s accumulator n,
    length next = length local -> fits_stack p local pubs ->
    StarkModel.selectors_at_point BabyBearT ExtT from_base (PcsModel.Build_coset BabyBearT ln f1) zeta = Some s ->
    match native_accumulator p local next pubs s alpha with
    | None => run_constraints public_row H G p local next pubs zeta alpha ln accumulator n = None
    | Some acc =>
        if existsb is_assert p then
          exists n', run_constraints public_row H G p local next pubs zeta alpha ln accumulator n = Some (feqb acc (accumulator : ExtT), n')
        else run_constraints public_row H G p local next pubs zeta alpha ln accumulator n = None
    end.
  Proof.
    intros p local next pubs zeta alpha ln s accumulator n Wd Rm Es. set (w := the_window local next pubs s).
    set (gt := gt0 public_row w). set (env := env_L (cons_inputs public_row w)). set (vs := rev (svars (cons_inputs public_row w))).
    assert (S0 : st G gt vs n n []) by (constructor; [apply made_nil|lia|constructor]).
    destruct (gets_selectors gt env vs n [] ln zeta s Es n S0) as (sels & n1 & all1 & E1 & S1 & C1 & L1 & Df & Dl & Dt).
    destruct (gets_const4 G gt env vs n alpha all1 n1 S1) as (ae & n2 & all2 & E2 & S2 & C2 & L2 & Da).
    assert (Wd' : length (StarkModel.w_next w) = length (StarkModel.w_local w)) by exact Wd.
    pose proof (run_script public_row H G OK w alpha Wd' n n2 all2 8 (se_first sels) (se_last sels) (se_transition sels) ae p accumulator S2) as R.
    unfold native_accumulator. fold w.
    assert (Er : run_constraints public_row H G p local next pubs zeta alpha ln accumulator n =
      (do s <- constraint_script public_row G p local next pubs (se_first sels) (se_last sels) (se_transition sels) ae accumulator;
       ret (bsucceeds (brun H s (mk [] [] [])))) n2).
    { unfold run_constraints. unfold bind at 1. rewrite E1. unfold bind at 1. now rewrite E2. }
    rewrite Er. unfold bind.
    assert (R' := R ltac:(lia) (isz_mono _ _ _ _ _ _ _ _ C2 Df) (isz_mono _ _ _ _ _ _ _ _ C2 Dl) (isz_mono _ _ _ _ _ _ _ _ C2 Dt) Da).
    assert (Rm' : (Z.of_nat (4 * (length (StarkModel.w_public w) + 2 * length (StarkModel.w_local w) + (8 + 3 * length p + 1) + 1)) < 2 ^ 31)%Z).
    { eapply Z.le_lt_trans; [|exact Rm]. change (length (StarkModel.w_public w)) with (length pubs). change (length (StarkModel.w_local w)) with (length local). lia. }
    specialize (R' Rm'). destruct (eval_native w alpha p [] f0) as [acc|].
    - destruct (existsb is_assert p).
      + destruct R' as (sc & n' & E' & Q). exists n'.
        match goal with |- match ?x with _ => _ end = _ => replace x with (Some (sc, n')) by (symmetry; exact E') end. unfold ret. now rewrite Q.
      + match goal with |- match ?x with _ => _ end = _ => replace x with (@None (script * nat)) by (symmetry; exact R') end. reflexivity.
    - match goal with |- match ?x with _ => _ end = _ => replace x with (@None (script * nat)) by (symmetry; exact R') end. reflexivity.
  Qed.

  (** For any Air::eval, any opened rows, public values and challenges on which the native
      verifier computes an accumulator: when there is a constraint, the script is built, and the
      interpreter accepts it exactly when it was built with that accumulator. *)
  Theorem C75_script_checks_accumulator : forall p local next pubs zeta alpha ln s acc accumulator n,
    length next = length local -> fits_stack p local pubs ->
    StarkModel.selectors_at_point BabyBearT ExtT from_base (PcsModel.Build_coset BabyBearT ln f1) zeta = Some s ->
    native_accumulator p local next pubs s alpha = Some acc -> existsb is_assert p = true ->
    exists ok n', run_constraints public_row H G p local next pubs zeta alpha ln accumulator n = Some (ok, n') /\
      (ok = true <-> accumulator = acc).
  Proof.
    intros p local next pubs zeta alpha ln s acc accumulator n Wd Rm Es Ea Ex. pose proof (run_whole p local next pubs zeta alpha ln s accumulator n Wd Rm Es) as R.
    rewrite Ea, Ex in R. destruct R as (n' & E). eexists; exists n'. split; [exact E|]. destruct (feqb_spec ExtT acc accumulator) as [Q|Q]; split; intros; try congruence; easy.
  Qed.
  (** Where the native verifier panics (a row or public value that is not there), so does the script. *)
  Theorem C75_panics_together : forall p local next pubs zeta alpha ln s accumulator n,
    length next = length local -> fits_stack p local pubs ->
    StarkModel.selectors_at_point BabyBearT ExtT from_base (PcsModel.Build_coset BabyBearT ln f1) zeta = Some s ->
    native_accumulator p local next pubs s alpha = None ->
    run_constraints public_row H G p local next pubs zeta alpha ln accumulator n = None.
  Proof.
    intros p local next pubs zeta alpha ln s accumulator n Wd Rm Es Ea. pose proof (run_whole p local next pubs zeta alpha ln s accumulator n Wd Rm Es) as R.
    now rewrite Ea in R.
  Qed.
  (** Without constraints, the native verifier accumulates zero but the script panics. *)
  Theorem C75_no_constraints : forall p local next pubs zeta alpha ln s acc accumulator n,
    length next = length local -> fits_stack p local pubs ->
    StarkModel.selectors_at_point BabyBearT ExtT from_base (PcsModel.Build_coset BabyBearT ln f1) zeta = Some s ->
    native_accumulator p local next pubs s alpha = Some acc -> existsb is_assert p = false ->
    acc = f0 /\ run_constraints public_row H G p local next pubs zeta alpha ln accumulator n = None.
  Proof.
    intros p local next pubs zeta alpha ln s acc accumulator n Wd Rm Es Ea Ex. pose proof (run_whole p local next pubs zeta alpha ln s accumulator n Wd Rm Es) as R.
    rewrite Ea, Ex in R. split; [|exact R]. destruct (C75_native _ _ _ _ _ _ _ Ea) as (l & _ & Fl & Ne).
    destruct l as [|a l]; [assert (Q : Some (f0 : ExtT) = Some acc) by exact Fl; now injection Q as <-|]. assert (Q : a :: l <> []) by discriminate. apply Ne in Q. congruence.
  Qed.
End Script.

(** uni-stark/tests/fib_air.rs 29-57, with the FilteredAirBuilder of when_first_row() and the like
    multiplying the condition in front *)
Definition fib_air : list stmt :=
  [SLocal 0; SLocal 1; SNext 0; SNext 1; SPub 0; SPub 1; SPub 2; SFirst; STransition; SLast;
   SSub 0 4; SMul 7 10; SAssertZero 11;
   SSub 1 5; SMul 7 12; SAssertZero 13;
   SSub 1 2; SMul 8 14; SAssertZero 15;
   SAdd 0 1; SSub 16 3; SMul 8 17; SAssertZero 18;
   SSub 1 6; SMul 9 19; SAssertZero 20].
Definition fib_local : list BB4 := [ext (of_Z 3) (of_Z 1) (of_Z 4) (of_Z 1); ext (of_Z 5) (of_Z 9) (of_Z 2) (of_Z 6)].
Definition fib_next : list BB4 := [ext (of_Z 2) (of_Z 7) (of_Z 1) (of_Z 8); ext (of_Z 2) (of_Z 8) (of_Z 1) (of_Z 8)].
Definition fib_pubs : list BabyBear := [of_Z 0; of_Z 1; of_Z 21].
Definition fib_zeta : BB4 := ext (of_Z 9) (of_Z 8) (of_Z 7) (of_Z 6).
Definition fib_alpha : BB4 := ext (of_Z 1) (of_Z 2) (of_Z 3) (of_Z 5).
Definition fib_native (p : list stmt) (pubs : list BabyBear) : option ExtT :=
  match StarkModel.selectors_at_point BabyBearT ExtT from_base (PcsModel.Build_coset BabyBearT 3 f1) fib_zeta with
  | Some s => native_accumulator p fib_local fib_next pubs s fib_alpha
  | None => None
  end.
(** The Fibonacci table: the script accepts the native accumulator and no other one; too few public
    values are a panic on both sides, and so is a table without constraints for the script only. *)
Example C75_example : forall H,
  (exists s acc, StarkModel.selectors_at_point BabyBearT ExtT from_base (PcsModel.Build_coset BabyBearT 3 f1) fib_zeta = Some s /\
    native_accumulator fib_air fib_local fib_next fib_pubs s fib_alpha = Some acc /\
    exists n', run_constraints 0 H my_gadgets fib_air fib_local fib_next fib_pubs fib_zeta fib_alpha 3 acc 0 = Some (true, n')) /\
  match fib_native fib_air [of_Z 0] with None => true | _ => false end = true /\
  match fib_native [SLocal 0] fib_pubs with Some acc => feqb acc f0 | _ => false end = true.
Proof.
  intros H. refine (conj _ (conj _ _)); [|vm_compute; reflexivity|vm_compute; reflexivity].
  assert (Q : match fib_native fib_air fib_pubs with Some _ => true | None => false end = true) by (vm_compute; reflexivity). unfold fib_native in Q.
  destruct (StarkModel.selectors_at_point BabyBearT ExtT from_base (PcsModel.Build_coset BabyBearT 3 f1) fib_zeta) as [s|] eqn:Es; [|discriminate Q].
  destruct (native_accumulator fib_air fib_local fib_next fib_pubs s fib_alpha) as [acc|] eqn:Ea; [|discriminate Q].
  exists s, acc. split; [reflexivity|]. split; [exact Ea|].
  assert (Rm : fits_stack fib_air fib_local fib_pubs) by (unfold fits_stack; cbn [length fib_air fib_local fib_pubs]; lia).
  destruct (C75_script_checks_accumulator H my_gadgets (gadgets_satisfiable H) 0 fib_air fib_local fib_next fib_pubs fib_zeta fib_alpha 3 s acc acc 0 eq_refl Rm Es Ea eq_refl) as (ok & n' & E & Q').
  exists n'. rewrite E. now rewrite (proj2 Q' eq_refl).
Qed.
