(** C75 for a builder that is given the values of the selectors: ScriptConstraintBuilder::new,
    script_expr/src/script_builder.rs 25-43. *)
From Coq Require Import ZArith List Bool Arith Lia.
From Verif Require Import ScriptNum ScriptVM HelperModel Field BabyBear TcsModel DslModel DslSpec DslOpSpec DslOps DslGadgets
  DslBuild DslIds DslDenote DslManager DslSession DslWork FriExprModel FriExprProofs StarkExprModel ConsExprModel ConsExprProofs PropConsExpr.
From Verif Require StarkModel PcsModel.
Import ListNotations.
Local Open Scope nat_scope.

Section New.
  Variable H : bytes -> bytes.
  Variable G : gadgets.
  Hypothesis OK : gadgets_ok H G.
  Variable public_row : nat.

  (** uni-stark/src/script_verifier.rs 283-297, from a builder: Air::eval, set_variable_values,
      get_accumulator_expr, equal_verify, drop_variable_values, op_true and the run *)
  Definition run_builder (p : list stmt) (pubs : list BabyBear) (accumulator : BB4) (cb : cbuilder) : builder bool :=
    do cb <- eval_script p [] cb;
    do s <- get (set_variable_values pubs cb);
    do acc <- get_accumulator_expr cb;
    do c <- const_f bf_ext4 accumulator;
    do e <- equal_verify acc c;
    do r <- get (express G (snd s) true e (fst s));
    do T <- get (drop_variable_values (snd s) cb (fst (fst r)));
    ret (bsucceeds (brun H (t_script T ++ [PUSHN 1]) (mk [] [] []))).
  (** [new] on the values of a native folder, script_builder.rs 25-43 *)
  Definition run_new (p : list stmt) (w : StarkModel.window BabyBearT ExtT) (alpha accumulator : BB4) : builder bool :=
    do cb <- new_builder public_row (StarkModel.w_local w) (StarkModel.w_next w) (length (StarkModel.w_public w))
               (StarkModel.w_first w) (StarkModel.w_last w) (StarkModel.w_transition w) alpha;
    run_builder p (StarkModel.w_public w) accumulator cb.

  (** Whatever the values of the selectors, a builder made with [new] from the values of a native folder gives a script
      that accepts exactly the accumulator of that folder, and panics where the folder does. *)
  Theorem C75_new : forall p (w : StarkModel.window BabyBearT ExtT) alpha accumulator n,
    length (StarkModel.w_next w) = length (StarkModel.w_local w) -> fits_stack p (StarkModel.w_local w) (StarkModel.w_public w) ->
    match eval_native w alpha p [] f0 with
    | None => run_new p w alpha accumulator n = None
    | Some acc =>
        if existsb is_assert p then exists n', run_new p w alpha accumulator n = Some (feqb acc (accumulator : ExtT), n')
        else run_new p w alpha accumulator n = None
    end.
  Proof.
    intros p w alpha accumulator n Wd Rm.
    set (gt := gt0 public_row w). set (env := env_L (cons_inputs public_row w)). set (vs := rev (svars (cons_inputs public_row w))).
    assert (S0 : st G gt vs n n []) by (constructor; [apply made_nil|lia|constructor]).
    destruct (gets_const4 G gt env vs n (StarkModel.w_first w) [] n S0) as (fe & n1 & all1 & E1 & S1 & C1 & L1 & Df).
    destruct (gets_const4 G gt env vs n (StarkModel.w_last w) all1 n1 S1) as (le & n2 & all2 & E2 & S2 & C2 & L2 & Dl).
    destruct (gets_const4 G gt env vs n (StarkModel.w_transition w) all2 n2 S2) as (te & n3 & all3 & E3 & S3 & C3 & L3 & Dt).
    destruct (gets_const4 G gt env vs n alpha all3 n3 S3) as (ae & n4 & all4 & E4 & S4 & C4 & L4 & Da).
    assert (Er : run_new p w alpha accumulator n =
      (do s <- constraint_script public_row G p (StarkModel.w_local w) (StarkModel.w_next w) (StarkModel.w_public w) fe le te ae accumulator;
       ret (bsucceeds (brun H s (mk [] [] [])))) n4).
    { unfold run_new, new_builder, constraint_script, run_builder, bind. rewrite E1, E2, E3, E4.
      unfold get, ret, panic. destruct (new_with_expr _ _ _ _ _ _ _ _) as [cb|]; [|reflexivity]. cbv beta iota.
      destruct (eval_script p [] cb n4) as [[cb1 m1]|]; [|reflexivity]. destruct (set_variable_values _ cb1) as [s|]; [|reflexivity]. cbv beta iota.
      destruct (get_accumulator_expr cb1 m1) as [[acc m2]|]; [|reflexivity]. destruct (const_f bf_ext4 accumulator m2) as [[c m3]|]; [|reflexivity].
      destruct (equal_verify acc c m3) as [[e m4]|]; [|reflexivity]. destruct (express _ _ _ _ _) as [r|]; [|reflexivity]. cbv beta iota.
      destruct (drop_variable_values _ _ _) as [T|]; reflexivity. }
    rewrite Er. unfold bind.
    pose proof (run_script public_row H G OK w alpha Wd n n4 all4 8 fe le te ae p accumulator S4 ltac:(lia)
      (isz_mono _ _ _ _ _ _ _ _ (incl_tran (incl_tran C2 C3) C4) Df) (isz_mono _ _ _ _ _ _ _ _ (incl_tran C3 C4) Dl) (isz_mono _ _ _ _ _ _ _ _ C4 Dt) Da) as R.
    assert (Rm' : (Z.of_nat (4 * (length (StarkModel.w_public w) + 2 * length (StarkModel.w_local w) + (8 + 3 * length p + 1) + 1)) < 2 ^ 31)%Z).
    { eapply Z.le_lt_trans; [|exact Rm]. apply inj_le. match goal with |- _ * (?a + 2 * ?b + _ + _) <= _ * (?c + 2 * ?d + _ + _) => change c with a; change d with b end. lia. }
    specialize (R Rm'). destruct (eval_native w alpha p [] f0) as [acc|].
    - destruct (existsb is_assert p).
      + destruct R as (sc & n' & E' & Q). exists n'. rewrite E'. unfold ret. now rewrite Q.
      + now rewrite R.
    - now rewrite R.
  Qed.
End New.

(** Three constraints, one for each selector, with selector values that no domain has: accepted is what the native folder
    accumulates. *)
Definition new_air : list stmt := [SLocal 0; SFirst; SMul 1 0; SAssertZero 2; SLast; SNext 0; SMul 3 4; SAssertZero 5; STransition; SPub 0; SMul 6 7; SAssertZero 8].
Definition new_window : StarkModel.window BabyBearT ExtT :=
  {| StarkModel.w_local := [from_base (of_Z 3)] : list ExtT; StarkModel.w_next := [from_base (of_Z 4)] : list ExtT; StarkModel.w_public := [of_Z 5] : list BabyBearT;
     StarkModel.w_first := (from_base (of_Z 1) : ExtT); StarkModel.w_last := (from_base (of_Z 2) : ExtT); StarkModel.w_transition := (from_base (of_Z 6) : ExtT) |}.
Example C75_example_new : forall H, exists acc n', eval_native new_window (from_base (of_Z 10)) new_air [] f0 = Some acc /\
  feqb acc (from_base (of_Z 410) : ExtT) = true /\ run_new H my_gadgets 7 new_air new_window (from_base (of_Z 10)) acc 0 = Some (true, n').
Proof.
  intros H. set (alpha := from_base (of_Z 10)).
  assert (Q : match eval_native new_window alpha new_air [] f0 with Some a => feqb a (from_base (of_Z 410) : ExtT) | None => false end = true) by (vm_compute; reflexivity).
  assert (R := fun acc => C75_new H my_gadgets (gadgets_satisfiable H) 7 new_air new_window alpha acc 0 eq_refl). clearbody alpha.
  assert (F : fits_stack new_air (StarkModel.w_local new_window) (StarkModel.w_public new_window)).
  { unfold fits_stack. change (Z.of_nat (4 * (1 + 2 * 1 + 3 * 12 + 10)) < 2 ^ 31)%Z. lia. }
  destruct (eval_native new_window alpha new_air [] f0) as [acc|]; [|discriminate Q].
  exists acc. specialize (R acc F). change (existsb is_assert new_air) with true in R. cbv iota in R. destruct R as (n' & E). exists n'. split; [exact eq_refl|]. split; [exact Q|].
  rewrite E. destruct (feqb_spec ExtT acc acc) as [_|N]; [exact eq_refl|destruct (N eq_refl)].
Qed.
