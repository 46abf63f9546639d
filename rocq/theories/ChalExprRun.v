(** Running a manager made of comparisons without inputs. *)
From Coq Require Import ZArith List Bool Arith Lia Permutation.
From Verif Require Import ScriptNum ScriptVM Lift U32Model Field BabyBear HelperModel PropWords DslModel DslSpec DslProofs DslDag DslMain DslOpSpec DslOps DslGadgets
  DslBuild DslIds DslDenote DslManager DslSession PropDsl PropManager ChalExprModel ChalExprGraph ChalExprProofs.
Import ListNotations.
Local Open Scope nat_scope.

(** uni-stark/src/script_verifier.rs:212-230: the last comparison is the execution,
    the others are checks; [len() - 1] panics for the empty list *)
Definition manager_of (es : list expr) : option manager :=
  match rev es with
  | [] => None
  | e :: r => Some (set_exec_dsl e (fold_left (fun m c => add_hint_verify c m) (rev r) manager_new))
  end.

Lemma fold_checks : forall cs m, fold_left (fun m c => add_hint_verify c m) cs m =
  mkman (mn_counter m) (mn_inputs m) (mn_hints m) (mn_exec m) (mn_checks m ++ cs).
Proof.
  induction cs as [|c cs IH]; intros m; cbn [fold_left]; [now rewrite app_nil_r; destruct m|].
  rewrite IH. cbn. now rewrite <- app_assoc.
Qed.
Lemma manager_of_snoc : forall es e, manager_of (es ++ [e]) = Some (mkman 0 [] [] (Some e) es).
Proof. intros es e. unfold manager_of. rewrite rev_app_distr. cbn [rev app]. now rewrite rev_involutive, fold_checks. Qed.

(** ** Verdict of a list of comparisons: (size, equal?) *)
Definition fatal (v : nat * bool) : bool := negb (fst v =? 1) && negb (snd v).
Definition wrong (v : nat * bool) : bool := (fst v =? 1) && negb (snd v).
Definition verdict_of (vs : list (nat * bool)) : bool :=
  negb (existsb fatal vs) && Nat.even (length (filter wrong vs)).

Section Run.
  Variable H : bytes -> bytes.
  Variable G : gadgets.
  Hypothesis OK : gadgets_ok H G.

  Definition outcome_of (v : nat * bool) : option bool := if fatal v then None else Some (negb (wrong v)).
  Definition step_of (a b : option bool) : option bool :=
    match a, b with Some a, Some b => Some (Bool.eqb a b) | _, _ => None end.
  Definition bitz (b : bool) : Z := if b then 1%Z else 0%Z.
  Record acc (e : expr) (r : option bool) : Prop := mkacc {
    a_eval : forall env, eval op_sem env e = Some (match r with Some b => Leaves [[bitz b]] | None => Fails end);
    a_shape : forall gt, shape G gt e = Some [1];
    a_size : var_size e = Some 1;
    a_need : forall gt, need G gt e <= 65 }.
  Lemma checks_acc : forall e v, checks G e (fst v) (snd v) -> acc e (outcome_of v).
  Proof.
    intros e [k ok] [A B C D]. cbn [fst snd] in *. constructor; [|exact B|exact C|intros gt; specialize (D gt); lia].
    intros env. rewrite A. unfold outcome_of, fatal, wrong. cbn [fst snd]. destruct ok, (k =? 1); reflexivity.
  Qed.
  Lemma acc_equal : forall i a c r v, acc a r -> checks G c (fst v) (snd v) -> acc (Node i Equal 1 [a; c]) (step_of r (outcome_of v)).
  Proof.
    intros i a c r v Aa Kc. pose proof (checks_acc c v Kc) as Ac.
    assert (Sh : forall gt, shape G gt (Node i Equal 1 [a; c]) = Some [1]).
    { intros gt. cbn [shape map all_some]. now rewrite (a_shape _ _ Aa), (a_shape _ _ Ac), (a_size _ _ Aa), (a_size _ _ Ac). }
    constructor; [|exact Sh|reflexivity|].
    - intros env. cbn [eval map]. rewrite (a_eval _ _ Aa), (a_eval _ _ Ac), (size_of _ _ (a_size _ _ Aa)), (size_of _ _ (a_size _ _ Ac)).
      destruct r as [b|], (outcome_of v) as [b'|]; cbn; try reflexivity. destruct b, b'; reflexivity.
    - intros gt. cbn [need map needs].
      assert (Oe : outsize G gt (Node i Equal 1 [a; c]) = 1) by (unfold outsize; now rewrite Sh).
      assert (Oa : outsize G gt a = 1) by (unfold outsize; now rewrite (a_shape _ _ Aa)).
      assert (Oc : outsize G gt c = 1) by (unfold outsize; now rewrite (a_shape _ _ Ac)).
      rewrite Oe, Oa, Oc. pose proof (a_need _ _ Aa gt). pose proof (k_need _ _ _ _ Kc gt). lia.
  Qed.

  (** in a world, and not a constant *)
  Definition placed (all : list expr) (e : expr) : Prop := In e all /\ forall v, e_op e <> Constant v.

  Lemma goes_embed : forall cs vs e0 r all l, Forall2 (fun c v => checks G c (fst v) (snd v)) cs vs -> Forall (placed all) cs ->
    acc e0 r -> placed all e0 ->
    goes (embed (Some e0) cs) all l (fun o all' l' => exists e, o = Some e /\ In e all' /\ acc e (fold_left step_of (map outcome_of vs) r)).
  Proof.
    induction cs as [|c cs IH]; intros vs e0 r all l F P A P0; inversion F as [|? v ? vs' Kc F']; subst; cbn [embed map fold_left].
    - apply goes_ret. exists e0. destruct P0. auto.
    - inversion_clear P as [|? ? [Ic Nc] P']. destruct P0 as [I0 N0]. cbn [get].
      eapply goes_bind; [apply goes_ret with (Q := fun b all' l' => b = e0 /\ all' = all /\ l' = l); auto|]. intros ? ? ? _ (-> & -> & ->).
      eapply goes_bind.
      { unfold equal. apply goes_world. intros n W. eapply goes_node with (l' := l); [|reflexivity| |discriminate|apply (sp_nodup _ _ (w_spare _ _ _ W))|apply incl_refl|].
        - intros z [<-|[<-|[]]]; auto.
        - intros z [<-|[<-|[]]] [w E]; [now elim (N0 w)|now elim (Nc w)].
        - intros z Iz [<-|[<-|[]]]; destruct (sp_const _ _ (w_spare _ _ _ W) _ Iz) as [[w E] _]; [now elim (N0 w)|now elim (Nc w)]. }
      intros q all1 l1 I1 (-> & Iq & i & Eq). apply IH; [exact F'| | |].
      + eapply Forall_impl; [|exact P']. intros d [Id Nd]. split; auto.
      + rewrite Eq. now apply acc_equal.
      + split; [exact Iq|]. rewrite Eq. discriminate.
  Qed.

  Lemma fold_none : forall l, fold_left step_of l None = None.
  Proof. induction l as [|x l IH]; [reflexivity|exact IH]. Qed.
  Lemma fold_verdict : forall vs b, fold_left step_of (map outcome_of vs) (Some b) =
    if existsb fatal vs then None else Some (if Nat.even (length (filter wrong vs)) then b else negb b).
  Proof.
    induction vs as [|v vs IH]; intros b; [reflexivity|]. cbn [map fold_left existsb filter]. rewrite (eq_refl : outcome_of v = if fatal v then None else Some (negb (wrong v))).
    destruct (fatal v) eqn:Ef; cbn [orb]; [apply fold_none|]. cbn [step_of]. rewrite IH. destruct (existsb fatal vs); [reflexivity|].
    f_equal. destruct (wrong v); cbn [length]; rewrite ?Nat.even_succ, <- ?Nat.negb_even; destruct b, (Nat.even (length (filter wrong vs))); reflexivity.
  Qed.
  Lemma fold_all : forall vs v, fold_left step_of (map outcome_of vs) (outcome_of v) =
    if existsb fatal (vs ++ [v]) then None else Some (Nat.even (length (filter wrong (vs ++ [v])))).
  Proof.
    intros vs v. rewrite existsb_app, filter_app, app_length. cbn [existsb filter]. rewrite (eq_refl : outcome_of v = if fatal v then None else Some (negb (wrong v))).
    destruct (fatal v); [rewrite fold_none; cbn; now rewrite orb_true_r|]. rewrite fold_verdict. cbn [orb]. rewrite orb_false_r.
    destruct (existsb fatal vs); [reflexivity|]. f_equal. destruct (wrong v); cbn [length negb].
    - rewrite Nat.add_1_r, Nat.even_succ, <- Nat.negb_even. now destruct (Nat.even (length (filter wrong vs))).
    - rewrite Nat.add_0_r. now destruct (Nat.even (length (filter wrong vs))).
  Qed.

  Lemma run_checks : forall n all l es vs, world n all l -> Forall2 (fun c v => checks G c (fst v) (snd v)) es vs -> Forall (placed all) es -> es <> [] ->
    exists m m' n', manager_of es = Some m /\ embed_hint_verify m n = Some (m', n') /\ run_manager H G m' = verdict_of vs.
  Proof.
    intros n all l es vs W F P Ne. destruct (exists_last Ne) as (cs & e0 & Ees). subst es.
    apply Forall2_app_inv_l in F as (vs' & w & F & F0 & ->). inversion F0 as [|? v ? ? K0 F1]; subst. inversion F1; subst.
    apply Forall_app in P as [P P0]. inversion_clear P0 as [|? ? P0' _].
    exists (mkman 0 [] [] (Some e0) cs).
    destruct (goes_embed cs vs' e0 (outcome_of v) all l F P (checks_acc e0 v K0) P0' n W) as (o & n' & all' & l' & E & W' & I' & e & -> & Ie & A).
    exists (mkman 0 [] [] (Some e) cs), n'. split; [apply manager_of_snoc|]. split; [unfold embed_hint_verify, bind; cbn [mn_exec mn_checks]; now rewrite E|].
    set (m' := mkman 0 [] [] (Some e) cs).
    assert (Iv : sinv n' all' m').
    { constructor; cbn [mn_exec mn_checks mn_counter m' given mn_inputs mn_hints].
      - apply W'.
      - intros d Q. injection Q as <-. exact Ie.
      - intros d Id. apply I'. rewrite Forall_forall in P. now apply P.
      - constructor.
      - intros d [].
      - intros d b x Id Q. rewrite (w_silent _ _ _ W' d Id) in Q. discriminate Q.
      - intros d d' x Id _ Q. rewrite (w_silent _ _ _ W' d Id) in Q. discriminate Q. }
    assert (Rd : ready G m' e).
    { constructor.
      - rewrite (a_shape _ _ A). discriminate.
      - eapply tidy_multi; [apply W'|apply W'|apply W'|exact Ie].
      - pose proof (a_need _ _ A (snd (simulate_input m'))) as Nd. cbn [given m' mn_inputs mn_hints app flat_map length]. lia. }
    assert (Un : unused m' e = []) by reflexivity.
    rewrite fold_all in A. unfold verdict_of. apply eq_true_iff_eq. split.
    - intros Q. apply (manager_run H G OK _ _ _ _ _ Iv eq_refl Rd (a_eval _ _ A _)) in Q as (outs & b & Q & Ec & Nb). rewrite Un, app_nil_r in Ec.
      destruct (existsb fatal (vs' ++ [v])); [discriminate Q|]. injection Q as <-. cbn in Ec. injection Ec as <-.
      destruct (Nat.even _); [reflexivity|now elim Nb].
    - intros Q. apply andb_true_iff in Q as [Q1 Q2]. apply negb_true_iff in Q1. rewrite Q1, Q2 in A.
      apply (manager_run H G OK _ _ _ _ _ Iv eq_refl Rd (a_eval _ _ A _)). exists [[1%Z]], 1%Z. rewrite Un. repeat split; discriminate.
  Qed.
End Run.
