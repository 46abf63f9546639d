(** Property C80: what run_dsl and assert_dsl tell about an expression. *)
From Coq Require Import ZArith List Bool Lia Arith.
From Verif Require Import ScriptNum ScriptVM U32Model Lift PropWords.
From Verif Require Import Field BabyBear DslModel DslStack DslSpec DslOpSpec DslProofs DslDag DslMain DslOps DslGadgets DslBuild DslIds DslDenote PropDsl RunDslModel.
Import ListNotations.
Local Open Scope nat_scope.

(** No input variables. *)
Definition no_inputs : getter := fun _ => None.
Definition no_values : environment := fun _ => None.

(** An expression without inputs that passes the assertions of generation and has one
    output of the size of the field; no node with several outputs is shared, and the
    stack does not get near 2^31 items. *)
Record closed_expr (G : gadgets) (ext : bool) (e : expr) : Prop := mkclosed {
  ce_shape : shape G no_inputs e = Some [u32_size ext];
  ce_size : var_size e = Some (u32_size ext);
  ce_shared : shared_single e;
  ce_room : (Z.of_nat (need G no_inputs e + 8) < 2 ^ 31)%Z
}.

Section Run.
  Variable H : bytes -> bytes.
  Variable G : gadgets.
  Hypothesis OK : gadgets_ok H G.
  Variable ext : bool.
  Variable value : BB4.
  Notation sz := (u32_size ext).

  Lemma sz_le : sz = 1 \/ sz = 4.
  Proof. destruct ext; cbn; auto. Qed.
  Lemma limbs_sz : length (limbs sz value) = sz.
  Proof. apply limbs_length. destruct sz_le; lia. Qed.

  (** the comparison run_dsl builds, when the counter is at [n] *)
  Definition comparison (n : nat) (e : expr) : expr :=
    Node (S (S n)) Equal 1 [e; Node (S n) (Constant (limbs sz value)) (length (limbs sz value)) []].

  Lemma run_dsl_unfold : forall e n, run_dsl H G ext e value n =
    match express G no_inputs true (comparison n e) tracker_new with
    | Some r => Some (bsucceeds (brun H (t_script (fst (fst r))) (mk [] [] [])), S (S n))
    | None => None
    end.
  Proof.
    intros e n. unfold run_dsl, equal_for_f, constant_f, constant, equal, node, get_opid, bind, ret, get.
    fold (comparison n e). change (fun _ : variable => @None svar) with no_inputs.
    destruct (express G no_inputs true (comparison n e) tracker_new); reflexivity.
  Qed.

  Lemma refs_comparison : forall n all e d, made n all -> In e all -> sub d e ->
    refs (comparison n e) (e_id d) = refs e (e_id d).
  Proof.
    intros n all e d M Ie Sd. assert (L : e_id d <= n) by (eapply md_le; [exact M|]; eapply made_sub; eauto).
    unfold refs, comparison. rewrite visit_unfold. cbn [Nat.eqb]. unfold upd at 1.
    destruct (Nat.eqb_spec (e_id d) (S (S n))) as [E|_]; [lia|]. cbn [visits fold_left].
    rewrite visit_other; [reflexivity|]. intros x Sx. inversion Sx as [|? y ? Iy]; subst; [cbn; lia|destruct Iy].
  Qed.

  Lemma comparison_runs : forall n all e, made n all -> In e all -> closed_expr G ext e ->
    forall r, eval op_sem no_values e = Some r ->
    (forall outs, r = Leaves outs -> exists l, outs = [l] /\ length l = sz) ->
    run_dsl H G ext e value n = Some (match r with Leaves [l] => list_eqb l (limbs sz value) | _ => false end, S (S n)).
  Proof.
    intros n all e M Ie [Sh Vs SS Rm] r Er Ro. rewrite run_dsl_unfold. set (R := comparison n e).
    set (c := Node (S n) (Constant (limbs sz value)) (length (limbs sz value)) []).
    assert (Lc : length (limbs sz value) = sz) by apply limbs_sz.
    assert (Shc : shape G no_inputs c = Some [sz]).
    { cbn [c shape map all_some input_of]. cbn. rewrite Lc. destruct sz_le as [-> | ->]; reflexivity. }
    assert (ShR : shape G no_inputs R = Some [1]).
    { unfold R, comparison. fold c. cbn [shape map all_some]. rewrite Sh, Shc, Vs.
      unfold c. cbn [var_size]. rewrite Lc. destruct sz_le as [-> | ->]; reflexivity. }
    assert (M' : made (S (S n)) (R :: c :: all)).
    { apply made_cons.
      - eapply made_mono; [apply made_cons|].
        + eapply made_mono; [exact M|]. apply le_S, le_n.
        + eapply made_fresh; [exact M|lia].
        + apply le_n.
        + intros x [].
        + lia.
      - cbn [map In]. intros [E|I0]; [cbn in E; lia|]. revert I0. eapply made_fresh; [exact M|lia].
      - lia.
      - intros x [<-|[<-|[]]]; [now right|now left]. }
    assert (Sub : forall d, sub d R -> d = R \/ d = c \/ sub d e).
    { intros d Sd. inversion Sd as [|? x ? Ix Sx]; subst; [now left|right]. destruct Ix as [<-|[<-|[]]]; [now right|left].
      inversion Sx as [|? y ? Iy]; subst; [reflexivity|destruct Iy]. }
    assert (NI : forall d b x, sub d R -> input_of (e_op d) = Some (b, x) -> False).
    { intros d b x Sd Ei. destruct (Sub d Sd) as [->|[->|Se]]; try discriminate Ei.
      assert (C : shape G no_inputs e <> None) by (rewrite Sh; discriminate).
      destruct (shape_inputs G no_inputs e d b x C Se Ei) as (v & Q & _). discriminate Q. }
    destruct (C48_optimised_generation H G no_inputs R tracker_new OK) as (T' & m' & vars & q & sh & Ex & _ & _ & _ & _ & Et & Mean).
    - constructor.
      + repeat split; cbn; try lia; repeat constructor; intros [].
      + intros x v Q. discriminate Q.
      + rewrite ShR. discriminate.
      + assert (Or : outsize G no_inputs R = 1) by (unfold outsize; now rewrite ShR).
        assert (Oe : outsize G no_inputs e = sz) by (unfold outsize; rewrite Sh; cbn; lia).
        assert (Oc : outsize G no_inputs c = sz) by (unfold outsize; rewrite Shc; cbn; lia).
        assert (Nc : need G no_inputs c = sz) by (unfold c in *; cbn [need map needs]; rewrite Oc; lia).
        assert (Nd : need G no_inputs R <= need G no_inputs e + 8); [|cbn [items t_main tracker_new map list_sum fold_right]; lia].
        unfold R, comparison in *. fold c. cbn [need map needs]. fold c in Or. rewrite Or, Oe, Oc, Nc. destruct sz_le; lia.
    - intros a b Sa Sb E. eapply (made_unique _ _ R R); eauto; now left.
    - intros d b x Sd Ei. exfalso. eapply NI; eauto.
    - intros d d' x b x' v v' Sd _ Ei. exfalso. eapply NI; eauto.
    - intros d x d' Sd Ms Rf. exfalso. destruct (Sub d Sd) as [->|[->|Se]]; try discriminate Ms.
      change (refs R) with (refs (comparison n e)) in Rf. rewrite (refs_comparison n all e d M Ie Se) in Rf. rewrite (SS d Se Rf) in Ms. discriminate Ms.
    - rewrite Ex. cbn [fst]. cbn in Et. subst q.
      specialize (Mean (fun _ => []) no_values). cbn [t_main t_alt tracker_new app] in Mean.
      specialize (Mean (Forall_nil _)). assert (Eo : env_ok no_inputs no_values (fun _ => [])) by (intros x v Q; discriminate Q).
      specialize (Mean Eo).
      assert (ER : eval op_sem no_values R = match r with
        | Leaves [l] => if sz =? 1 then Some (Leaves [[if list_eqb l (limbs sz value) then 1%Z else 0%Z]])
                        else Some (if list_eqb l (limbs sz value) then Leaves [[1%Z]] else Fails)
        | _ => Some Fails end).
      { unfold R, comparison. fold c. cbn [eval map]. rewrite Er. assert (Ec : eval op_sem no_values c = Some (Leaves [limbs sz value])).
        { cbn. destruct sz_le as [E|E]; rewrite E in *; reflexivity. }
        rewrite Ec. destruct r as [outs|]; [|reflexivity]. destruct (Ro outs eq_refl) as (l & -> & Ll).
        cbn [collect fold_right seq_res app then_res node_sem op_sem]. rewrite (size_of _ _ Vs). cbn [c e_size]. rewrite Ll, Lc, Nat.eqb_refl.
        cbn [andb]. destruct sz_le as [-> | ->]; reflexivity. }
      rewrite ER in Mean. destruct r as [outs|].
      + destruct (Ro outs eq_refl) as (l & -> & Ll). destruct (list_eqb l (limbs sz value)), (sz =? 1); cbn [meaning_of] in Mean; specialize (Mean [] []);
          cbn in Mean; unfold exec, fails in Mean; rewrite Mean; reflexivity.
      + cbn [meaning_of] in Mean. specialize (Mean [] []). cbn in Mean. unfold fails in Mean. rewrite Mean. reflexivity.
  Qed.

  (** usage counting keeps no variables *)
  Definition no_copies (m : idmap) : Prop := forall i c, m i = Some c -> stack_var c = None.
  Lemma simulate_no_copies : forall e m, no_copies m -> no_copies (simulate_express e m).
  Proof.
    apply (expr_ind' (fun e => forall m, no_copies m -> no_copies (simulate_express e m))).
    intros id o s ops F m Nm. cbn [simulate_express].
    assert (Ins : forall c m', no_copies m' -> stack_var c = None -> no_copies (map_insert id c m')).
    { intros c m' N' Ec i c'. unfold map_insert. destruct (i =? id); [|apply N']. intros Q. injection Q as <-. exact Ec. }
    destruct (m id) as [c|] eqn:E; [apply Ins; [exact Nm|cbn; eapply Nm; exact E]|].
    assert (N1 : no_copies (map_insert id (mkic 1 0 None) m)) by (now apply Ins).
    revert N1. generalize (map_insert id (mkic 1 0 None) m). clear - F.
    induction F as [|x ops Fx F IH]; intros m N1; [exact N1|]. cbn [fold_left]. apply IH. now apply Fx.
  Qed.

  (** When the declared size of the expression is not that of the field, or is that
      of several items, generation panics. *)
  Lemma comparison_panics : forall e n, var_size e <> Some sz -> run_dsl H G ext e value n = None.
  Proof.
    intros e n N. rewrite run_dsl_unfold. unfold express.
    assert (Nc : no_copies (simulate_express (comparison n e) map_empty)) by (apply simulate_no_copies; intros i c Q; discriminate Q).
    revert Nc. generalize (simulate_express (comparison n e) map_empty). intros m Nc.
    assert (K : express_to_script G no_inputs true (comparison n e) tracker_new m = None); [|now rewrite K].
    unfold comparison. set (c := Node (S n) _ _ []).
    assert (Vc : var_size c = Some sz). { unfold c. cbn [var_size]. rewrite limbs_sz. destruct sz_le as [-> | ->]; reflexivity. }
    assert (Rn : reuse (S (S n)) tracker_new m = Some None \/ reuse (S (S n)) tracker_new m = None).
    { unfold reuse. destruct (m (S (S n))) as [k|] eqn:E; [|now left]. rewrite (Nc _ _ E). now right. }
    rewrite express_unfold. cbn [andb single output_number]. destruct Rn as [-> | ->]; [reflexivity|]. cbn [number_ok input_number length Nat.eqb operands].
    destruct (express_to_script G no_inputs true e tracker_new m) as [[[T1 m1] v1]|]; [|reflexivity].
    destruct (var_size e) as [k|]; [|reflexivity].
    destruct (express_to_script G no_inputs true c T1 m1) as [[[T2 m2] v2]|]; [|reflexivity].
    rewrite Vc. cbn [run_generator generate]. destruct (Nat.eqb_spec k sz) as [->|]; [now destruct N|reflexivity].
  Qed.
End Run.

(** ** C80 *)
(** For every client program: the result is that of comparing the value of the
    expression, limb by limb, with the value given. *)
Theorem C80_run_dsl : forall H G ext cs n pool n' e value l,
  gadgets_ok H G -> history cs [] n = Some (pool, n') -> In e pool -> closed_expr G ext e ->
  eval op_sem no_values e = Some (Leaves [l]) -> length l = u32_size ext ->
  exists b, run_dsl H G ext e value n' = Some (b, S (S n')) /\
    (b = true <-> l = limbs (u32_size ext) value).
Proof.
  intros H G ext cs n pool n' e value l OK E I0 Cl Ev Ll.
  destruct (history_made cs [] [] n pool n') as (all & M & C); auto using made_nil, incl_refl.
  exists (list_eqb l (limbs (u32_size ext) value)). split; [|apply list_eqb_ok].
  rewrite (comparison_runs H G OK ext value n' all e M (C _ I0) Cl _ Ev); [reflexivity|].
  intros outs Q. injection Q as <-. eauto.
Qed.

(** In terms of field elements; [assert_dsl] passes exactly when they are equal. *)
Theorem C80_assert_dsl : forall H G ext cs n pool n' e value z,
  gadgets_ok H G -> history cs [] n = Some (pool, n') -> In e pool -> closed_expr G ext e ->
  elt_of (u32_size ext) z -> elt_of (u32_size ext) value ->
  eval op_sem no_values e = Some (Leaves [limbs (u32_size ext) z]) ->
  (z = value -> run_dsl H G ext e value n' = Some (true, S (S n')) /\ assert_dsl H G ext e value n' = Some (tt, S (S n'))) /\
  (z <> value -> run_dsl H G ext e value n' = Some (false, S (S n')) /\ assert_dsl H G ext e value n' = None).
Proof.
  intros H G ext cs n pool n' e value z OK E I0 Cl Ez Ev' Ev.
  destruct (C80_run_dsl H G ext cs n pool n' e value _ OK E I0 Cl Ev) as ([] & Er & Eb);
    [apply elt_of_len; exact Ez| |]; (split; intros Q; [|]); unfold assert_dsl, bind; rewrite Er; cbn [check ret panic]; auto.
  - destruct Q. eapply elt_of_inj; eauto. now apply Eb.
  - subst. assert (X : false = true) by now apply Eb. discriminate X.
Qed.

(** An expression whose script fails (a failing check inside it) never passes. *)
Theorem C80_failing : forall H G ext cs n pool n' e value,
  gadgets_ok H G -> history cs [] n = Some (pool, n') -> In e pool -> closed_expr G ext e ->
  eval op_sem no_values e = Some Fails ->
  run_dsl H G ext e value n' = Some (false, S (S n')) /\ assert_dsl H G ext e value n' = None.
Proof.
  intros H G ext cs n pool n' e value OK E I0 Cl Ev.
  destruct (history_made cs [] [] n pool n') as (all & M & C); auto using made_nil, incl_refl.
  assert (Er : run_dsl H G ext e value n' = Some (false, S (S n'))).
  { rewrite (comparison_runs H G OK ext value n' all e M (C _ I0) Cl _ Ev); [reflexivity|]. intros outs Q. discriminate Q. }
  split; [exact Er|]. unfold assert_dsl, bind. now rewrite Er.
Qed.

(** An expression of another size than the field panics, whatever its value. *)
Theorem C80_wrong_size : forall H G ext e value n, var_size e <> Some (u32_size ext) ->
  run_dsl H G ext e value n = None /\ assert_dsl H G ext e value n = None.
Proof.
  intros H G ext e value n N. pose proof (comparison_panics H G ext value e n N) as E.
  split; [exact E|]. unfold assert_dsl, bind. now rewrite E.
Qed.

(** Example: (3 + 4)^2, the sum shared. *)
Definition rd_calls : list call := [CConstant [3%Z]; CConstant [4%Z]; CAdd 0 1; CMul 2 2].
Definition rd_expr : expr := last_of (history rd_calls [] 0).
Lemma rd_closed : closed_expr my_gadgets false rd_expr.
Proof.
  constructor; [vm_compute; reflexivity|vm_compute; reflexivity| |vm_compute; reflexivity].
  intros d Sd _. apply nodes_sub in Sd. vm_compute in Sd.
  repeat (destruct Sd as [<-|Sd]; [reflexivity|]). destruct Sd.
Qed.
Lemma rd_value : eval op_sem no_values rd_expr = Some (Leaves [[49%Z]]). Proof. vm_compute. reflexivity. Qed.
Lemma rd_limbs : limbs 1 (felt [49%Z]) = [49%Z] /\ limbs 1 (felt [48%Z]) = [48%Z]. Proof. vm_compute. auto. Qed.
Lemma rd_size : var_size rd_expr = Some 1. Proof. reflexivity. Qed.
Lemma rd_history : exists pool, history rd_calls [] 0 = Some (pool, 4) /\ In rd_expr pool.
Proof. eexists. split; [reflexivity|]. cbn. tauto. Qed.
Example C80_example : forall H,
  run_dsl H my_gadgets false rd_expr (felt [49%Z]) 4 = Some (true, 6) /\
  run_dsl H my_gadgets false rd_expr (felt [48%Z]) 4 = Some (false, 6) /\
  run_dsl H my_gadgets true rd_expr (felt [49%Z]) 4 = None.
Proof.
  intros H. destruct rd_history as (pool & Eh & Ip). destruct rd_limbs as [L49 L48].
  split; [|split].
  - destruct (C80_run_dsl H my_gadgets false rd_calls 0 pool 4 rd_expr (felt [49%Z]) _ (gadgets_satisfiable H) Eh Ip rd_closed rd_value eq_refl) as (b & -> & Eb).
    cbn [u32_size] in Eb. rewrite L49 in Eb. rewrite (proj2 Eb eq_refl). reflexivity.
  - destruct (C80_run_dsl H my_gadgets false rd_calls 0 pool 4 rd_expr (felt [48%Z]) _ (gadgets_satisfiable H) Eh Ip rd_closed rd_value eq_refl) as (b & -> & Eb).
    cbn [u32_size] in Eb. rewrite L48 in Eb. destruct b; [|reflexivity]. assert (X := proj1 Eb eq_refl). discriminate X.
  - apply C80_wrong_size. rewrite rd_size. discriminate.
Qed.
(** A check that fails inside: (1,0,0,0) = (2,0,0,0), an expression of one item. *)
Definition rf_calls : list call := [CConstant [1; 0; 0; 0]%Z; CConstant [2; 0; 0; 0]%Z; CEqual 0 1].
Definition rf_expr : expr := last_of (history rf_calls [] 0).
Example C80_example_failing : forall H v, run_dsl H my_gadgets false rf_expr v 3 = Some (false, 5).
Proof.
  intros H v. assert (X : exists pool, history rf_calls [] 0 = Some (pool, 3) /\ In rf_expr pool) by (eexists; split; [reflexivity|cbn; tauto]).
  destruct X as (pool & Eh & Ip). apply (C80_failing H my_gadgets false rf_calls 0 pool 3 rf_expr v (gadgets_satisfiable H) Eh Ip).
  - constructor; [vm_compute; reflexivity|vm_compute; reflexivity| |vm_compute; reflexivity].
    intros d Sd _. apply nodes_sub in Sd. vm_compute in Sd. repeat (destruct Sd as [<-|Sd]; [reflexivity|]). destruct Sd.
  - vm_compute. reflexivity.
Qed.
