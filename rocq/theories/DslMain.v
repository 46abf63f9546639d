(** Correctness of script generation with caching. *)
From Coq Require Import ZArith List Bool Arith Lia.
From Verif Require Import ScriptNum ScriptVM VMLemmas Lift U32Model HelperModel DslModel DslStack DslSpec DslProofs DslDag.
Import ListNotations.
Local Open Scope nat_scope.

(** Conditions on the use of input variables and of shared multi-output nodes. *)
Section Conditions.
  Variable gt : getter.

  (** Every input variable is on the main stack. *)
  Definition inputs_present (r : expr) (vs : list svar) : Prop :=
    forall e b x, sub e r -> input_of (e_op e) = Some (b, x) -> exists v, gt x = Some v /\ In v vs.
  (** A moved variable is used by one node only. *)
  Definition moves_exclusive (r : expr) : Prop :=
    forall e e' x b x' v v', sub e r -> sub e' r ->
      input_of (e_op e) = Some (true, x) -> input_of (e_op e') = Some (b, x') ->
      gt x = Some v -> gt x' = Some v' -> fst v = fst v' -> e_id e = e_id e'.
  (** Below a node with several references that has not exactly one output, nothing
      is shared except such nodes, and nothing is moved. *)
  Definition multi_plain (r : expr) : Prop :=
    forall e x d, sub e r -> single (e_op e) = false -> 1 < refs r (e_id e) -> In x (e_ops e) -> sub d x ->
      (single (e_op d) = true -> refs r (e_id d) <= 1) /\ (forall y, input_of (e_op d) <> Some (true, y)).
End Conditions.

Section Main.
  Variable H : bytes -> bytes.
  Variable G : gadgets.
  Variable gt : getter.
  Variable op_sem : opcode -> list nat -> list (list Z) -> option res.
  Hypothesis ops_ok : op_contract H G op_sem.
  Variable N0 : nat.
  Hypothesis gt_old : forall x v, gt x = Some v -> fst v < N0.
  Variable R : expr.
  Hypothesis uniq : unique_ids R.
  Notation M := (refs R).
  Hypothesis excl : moves_exclusive gt R.
  Hypothesis plain : multi_plain R.
  Variable A0 : list svar.
  Hypothesis A0_old : Forall (fun v => fst v < N0) A0.

  Record CI (V : nat -> nat) (T : tracker) (m : idmap) : Prop := mkCI {
    ci_wf : twf T;
    ci_n0 : N0 <= t_next T;
    ci_map : forall e, sub e R -> exists c, m (e_id e) = Some c /\ count c = M (e_id e) /\
               (V (e_id e) = 0 -> stack_var c = None /\ copied c = 0);
    ci_kept : forall e c, sub e R -> single (e_op e) = true -> 1 <= V (e_id e) -> V (e_id e) < M (e_id e) ->
               m (e_id e) = Some c ->
               exists v, stack_var c = Some v /\ In v (t_alt T) /\ copied c = V (e_id e) - 1 /\ shape G gt e = Some [snd v];
    ci_alt : exists live, t_alt T = live ++ A0 /\ forall v, In v live ->
               exists e c, sub e R /\ single (e_op e) = true /\ 1 <= V (e_id e) /\ V (e_id e) < M (e_id e) /\
                           m (e_id e) = Some c /\ stack_var c = Some v;
    ci_var : forall i c v, m i = Some c -> stack_var c = Some v -> N0 <= fst v /\ fst v < t_next T;
    ci_inj : forall i i' c c' v v', m i = Some c -> m i' = Some c' -> stack_var c = Some v -> stack_var c' = Some v' ->
               fst v = fst v' -> i = i';
    ci_in : forall e b x, sub e R -> input_of (e_op e) = Some (b, x) ->
               exists v, gt x = Some v /\ (b = false \/ V (e_id e) = 0 -> In v (t_main T)) }.

  Definition cache_ok (V : nat -> nat) (m : idmap) (env : environment) (val : values) : Prop :=
    forall e c v, sub e R -> single (e_op e) = true -> 1 <= V (e_id e) -> V (e_id e) < M (e_id e) ->
      m (e_id e) = Some c -> stack_var c = Some v -> eval op_sem env e = Some (Leaves [val (fst v)]).

  Lemma cache_agree : forall V T m env val val', CI V T m -> agree (t_next T) val val' -> cache_ok V m env val -> cache_ok V m env val'.
  Proof.
    intros V T m env val val' C A K e c v Se So L1 L2 Em Ev. rewrite A by (eapply ci_var; eauto). eapply K; eauto.
  Qed.

  Definition dag_at (e : expr) : Prop := sub e R -> forall V T m sh,
    shape G gt e = Some sh -> CI V T m -> (forall i, visit e V i <= M i) ->
    (Z.of_nat (items (t_main T) + need G gt e) < 2 ^ 31)%Z ->
    exists T' m' vars p, express_to_script G gt true e T m = Some (T', m', vars) /\ map snd (rev vars) = sh /\
      stepped T T' (rev vars) (without (vmoves gt e V) (t_main T)) (t_alt T') p /\
      CI (visit e V) T' m' /\
      forall val env, sized val (t_main T ++ t_alt T) -> env_ok gt env val -> cache_ok V m env val ->
        runs H (cache_ok (visit e V) m' env) (eval op_sem env e) T T' (rev vars) p val.

  Lemma vmoves_old : forall e, sub e R -> forall V, Forall (fun i => i < N0) (vmoves gt e V).
  Proof.
    intros e Se V. rewrite Forall_forall. intros i I0. destruct (vmoves_in R uniq gt e Se V i I0) as (d & _ & (x & v & _ & E & <-) & _).
    eapply gt_old; eauto.
  Qed.
  Lemma vmoves_l_old : forall l, (forall x, In x l -> sub x R) -> forall V, Forall (fun i => i < N0) (vmoves_l gt l V).
  Proof.
    intros l Sl V. rewrite Forall_forall. intros i I0. destruct (vmoves_l_in R uniq gt l Sl V i I0) as (y & d & _ & _ & (x & v & _ & E & <-) & _).
    eapply gt_old; eauto.
  Qed.

  Lemma dag_ops : forall ops, Forall dag_at ops -> (forall x, In x ops -> sub x R) -> forall V T m ss sizes,
    all_some (map (shape G gt) ops) = Some ss -> all_some (map var_size ops) = Some sizes ->
    CI V T m -> (forall i, visits ops V i <= M i) ->
    (Z.of_nat (items (t_main T) + needs (map (fun x => (need G gt x, outsize G gt x)) ops)) < 2 ^ 31)%Z ->
    exists T' m' iv p, operands G gt true ops T m = Some (T', m', sizes) /\ length iv = length (concat ss) /\
      stepped T T' iv (without (vmoves_l gt ops V) (t_main T)) (t_alt T') p /\
      CI (visits ops V) T' m' /\
      forall val env, sized val (t_main T ++ t_alt T) -> env_ok gt env val -> cache_ok V m env val ->
        runs H (cache_ok (visits ops V) m' env) (collect (map (eval op_sem env) ops)) T T' iv p val.
  Proof.
    intros ops F. induction F as [|x ops Fx F IH]; intros Sub V T m ss sizes Ess Esz C LM Ln.
    - cbn in Ess, Esz. inversion Ess; inversion Esz; subst. exists T, m, [], []. split; [reflexivity|]. split; [reflexivity|]. split; [|split].
      + constructor; auto; [cbn; now rewrite without_nil|apply C|symmetry; apply app_nil_r].
      + exact C.
      + intros val env Z _ K. cbn. exists val. repeat split; auto.
    - cbn [map all_some] in Ess, Esz. destruct (shape G gt x) as [sh|] eqn:Esh; [|discriminate].
      destruct (all_some (map (shape G gt) ops)) as [ss'|] eqn:Ess'; [|discriminate].
      destruct (var_size x) as [s|] eqn:Es; [|discriminate].
      destruct (all_some (map var_size ops)) as [sz'|] eqn:Esz'; [|discriminate].
      inversion Ess; inversion Esz; subst. clear Ess Esz.
      cbn [map needs] in Ln. cbn [visits fold_left] in LM |- *. fold (visits ops (visit x V)) in *.
      assert (Sx : sub x R) by (apply Sub; now left).
      destruct (Fx Sx V T m sh Esh C) as (T1 & m1 & vars & p1 & E1 & Sh1 & S1 & C1 & R1).
      { intros i. specialize (LM i). pose proof (visits_mono ops (visit x V) i). lia. }
      { lia. }
      destruct (IH (fun y Iy => Sub y (or_intror Iy)) (visit x V) T1 m1 ss' sz' eq_refl eq_refl C1 LM) as (T2 & m2 & iv & p2 & E2 & L2 & S2 & C2 & R2).
      { rewrite (st_main _ _ _ _ _ _ S1), items_app, (items_sizes _ _ Sh1).
        assert (Eo : outsize G gt x = list_sum sh) by (unfold outsize; now rewrite Esh).
        pose proof (items_without (vmoves gt x V) (t_main T)). rewrite Eo in Ln. lia. }
      exists T2, m2, (iv ++ rev vars), (p1 ++ p2). split; [|split; [|split; [|split]]].
      + cbn [operands]. rewrite E1, Es. fold (operands G gt true). rewrite E2. reflexivity.
      + assert (X : length (rev vars) = length sh) by (rewrite <- Sh1; symmetry; apply map_length).
        rewrite app_length, concat_cons, app_length, L2, X. lia.
      + eapply stepped_seq; [exact S1|exact S2|].
        rewrite (st_main _ _ _ _ _ _ S1), without_app_l, without_without. f_equal.
        eapply without_fresh; [apply vmoves_l_old; intros y Iy; apply Sub; now right|].
        eapply Forall_impl; [|apply (st_fresh _ _ _ _ _ _ S1)]. pose proof (ci_n0 _ _ _ C). cbn. intros; lia.
      + exact C2.
      + intros val env Z Ev K. cbn [map collect fold_right]. eapply runs_seq; [exact S1|exact S2|apply R1; auto|].
        intros val1 outs _ A1 Z1 K1. cbn beta in K1 |- *. apply R2; [exact Z1| |exact K1].
        eapply env_ok_agree; [exact gt_old| |exact A1|exact Ev]. apply C.
  Qed.

  (** *** First visit: the node is generated *)
  (** the input variables still needed are below the new ones *)
  Definition inputs_kept (V : nat -> nat) (T1 : tracker) (base : list svar) : Prop :=
    forall e b x v, sub e R -> input_of (e_op e) = Some (b, x) -> gt x = Some v ->
      b = false \/ V (e_id e) = 0 -> In v (t_main T1) -> In v base.

  Lemma ci_gen : forall e V T1 T2 m ov base p, sub e R -> CI V T1 m -> V (e_id e) = 0 ->
    stepped T1 T2 ov base (t_alt T1) p -> inputs_kept (upd V (e_id e) 1) T1 base ->
    (single (e_op e) = true -> M (e_id e) <= 1) ->
    CI (upd V (e_id e) 1) T2 m.
  Proof.
    intros e V T1 T2 m ov base p Se C V0 S IK HM. set (id := e_id e) in *.
    assert (Vo : forall d, sub d R -> single (e_op d) = true -> upd V id 1 (e_id d) < M (e_id d) -> e_id d <> id).
    { intros d Sd Sg L E. assert (d = e) by (apply uniq; auto). subst d. specialize (HM Sg). rewrite E in L. rewrite upd_same in L. fold id in HM. lia. }
    constructor.
    - apply (st_wf _ _ _ _ _ _ S).
    - pose proof (st_next _ _ _ _ _ _ S). pose proof (ci_n0 _ _ _ C). lia.
    - intros d Sd. destruct (ci_map _ _ _ C d Sd) as (c & E1 & E2 & E3). exists c. repeat split; auto;
        destruct (Nat.eq_dec (e_id d) id) as [Ed|Nd]; try (rewrite Ed, upd_same in *; lia);
        rewrite upd_other in * by exact Nd; apply E3; assumption.
    - intros d c Sd Sg L1 L2 Ec. pose proof (Vo d Sd Sg L2) as Nd. rewrite upd_other in * by exact Nd.
      destruct (ci_kept _ _ _ C d c Sd Sg L1 L2 Ec) as (v & K1 & K2 & K3 & K4). exists v. rewrite (st_alt _ _ _ _ _ _ S). auto.
    - destruct (ci_alt _ _ _ C) as (live & El & Hl). exists live. rewrite (st_alt _ _ _ _ _ _ S). split; [exact El|].
      intros v Iv. destruct (Hl v Iv) as (d & c & K1 & K2 & K3 & K4 & K5 & K6). exists d, c.
      assert (Nd : e_id d <> id) by (intros E; rewrite E in K3; lia). rewrite !upd_other by exact Nd. repeat split; auto.
    - intros i c v E1 E2. destruct (ci_var _ _ _ C i c v E1 E2). pose proof (st_next _ _ _ _ _ _ S). lia.
    - exact (ci_inj _ _ _ C).
    - intros d b x Sd Ei. destruct (ci_in _ _ _ C d b x Sd Ei) as (v & Eg & Iv). exists v. split; [exact Eg|].
      intros Hb. rewrite (st_main _ _ _ _ _ _ S). apply in_or_app. right. eapply IK; eauto. apply Iv.
      destruct Hb as [Hb|Hb]; [now left|right]. destruct (Nat.eq_dec (e_id d) id) as [Ed|Nd]; [congruence|].
      rewrite upd_other in Hb by exact Nd. exact Hb.
  Qed.

  (** keeping a copy of the value on the alt stack *)
  Lemma ci_keep : forall e V T1 T2 T3 m c ov base p s, sub e R -> CI V T1 m -> V (e_id e) = 0 ->
    stepped T1 T2 ov base (t_alt T1) p -> inputs_kept (upd V (e_id e) 1) T1 base ->
    m (e_id e) = Some c -> shape G gt e = Some [s] ->
    t_main T3 = t_main T2 -> t_alt T3 = (t_next T2, s) :: t_alt T2 -> twf T3 -> t_next T3 = S (t_next T2) ->
    1 < M (e_id e) -> single (e_op e) = true ->
    CI (upd V (e_id e) 1) T3 (map_insert (e_id e) (mkic (count c) (copied c) (Some (t_next T2, s))) m).
  Proof.
    intros e V T1 T2 T3 m c ov base p s Se C V0 S IK Ec Esh M3 A3 W3 N3 HM Sg. set (id := e_id e) in *.
    pose proof (st_next _ _ _ _ _ _ S) as SN. pose proof (ci_n0 _ _ _ C) as CN.
    destruct (ci_map _ _ _ C e Se) as (c0 & F1 & F2 & F3). fold id in F1, F2, F3. rewrite Ec in F1. inversion F1; subst c0. clear F1.
    destruct (F3 V0) as [F4 F5].
    constructor.
    - exact W3.
    - lia.
    - intros d Sd. destruct (Nat.eq_dec (e_id d) id) as [Ed|Nd].
      + rewrite Ed, insert_same, upd_same. eexists. split; [reflexivity|]. cbn. split; [exact F2|lia].
      + rewrite insert_other, upd_other by exact Nd. apply (ci_map _ _ _ C d Sd).
    - intros d c' Sd Sd1 L1 L2 Ed'. rewrite A3, (st_alt _ _ _ _ _ _ S). destruct (Nat.eq_dec (e_id d) id) as [Ed|Nd].
      + assert (d = e) by (apply uniq; auto). subst d. rewrite Ed in *. rewrite insert_same in Ed'. inversion Ed'; subst c'.
        exists (t_next T2, s). cbn. rewrite upd_same. repeat split; auto.
      + rewrite insert_other in Ed' by exact Nd. rewrite upd_other in * by exact Nd.
        destruct (ci_kept _ _ _ C d c' Sd Sd1 L1 L2 Ed') as (v & K1 & K2 & K3 & K4). exists v. repeat split; auto. now right.
    - destruct (ci_alt _ _ _ C) as (live & El & Hl). exists ((t_next T2, s) :: live).
      rewrite A3, (st_alt _ _ _ _ _ _ S), El. split; [reflexivity|]. intros v [<-|Iv].
      + exists e. eexists. fold id. rewrite insert_same, upd_same. repeat split; auto.
      + destruct (Hl v Iv) as (d & c' & K1 & K2 & K3 & K4 & K5 & K6). exists d, c'.
        assert (Nd : e_id d <> id) by (intros E; rewrite E in K3; lia). rewrite insert_other, !upd_other by exact Nd. repeat split; auto.
    - intros i c' v E1 E2. destruct (Nat.eq_dec i id) as [->|Ni].
      + rewrite insert_same in E1. inversion E1; subst c'. cbn in E2. inversion E2; subst v. cbn. lia.
      + rewrite insert_other in E1 by exact Ni. destruct (ci_var _ _ _ C i c' v E1 E2). lia.
    - intros i i' c1 c2 v1 v2 E1 E2 E3 E4 E5.
      destruct (Nat.eq_dec i id) as [->|Ni]; destruct (Nat.eq_dec i' id) as [->|Ni']; auto.
      + exfalso. rewrite insert_same in E1. inversion E1; subst c1. cbn in E3. inversion E3; subst v1. cbn in E5.
        rewrite insert_other in E2 by exact Ni'. destruct (ci_var _ _ _ C _ _ _ E2 E4). lia.
      + exfalso. rewrite insert_same in E2. inversion E2; subst c2. cbn in E4. inversion E4; subst v2. cbn in E5.
        rewrite insert_other in E1 by exact Ni. destruct (ci_var _ _ _ C _ _ _ E1 E3). lia.
      + rewrite insert_other in E1, E2 by assumption. eapply (ci_inj _ _ _ C); eauto.
    - intros d b x Sd Ei. destruct (ci_in _ _ _ C d b x Sd Ei) as (v & Eg & Iv). exists v. split; [exact Eg|].
      intros Hb. rewrite M3, (st_main _ _ _ _ _ _ S). apply in_or_app. right. eapply IK; eauto. apply Iv.
      destruct Hb as [Hb|Hb]; [now left|right]. destruct (Nat.eq_dec (e_id d) id) as [Ed|Nd]; [congruence|].
      rewrite upd_other in Hb by exact Nd. exact Hb.
  Qed.

  Lemma keep_runs : forall (Q1 Q2 : values -> Prop) r T T2 T3 v n p p3 val,
    n = t_next T2 -> t_next T <= n -> Forall (fun w => fst w < n) (t_main T2 ++ t_alt T2) -> In v (t_main T2) ->
    runs H Q1 r T T2 [v] p val ->
    (forall val2, sized val2 (t_main T2 ++ t_alt T2) ->
      exists val3, agree n val2 val3 /\ sized val3 (t_main T3 ++ t_alt T3) /\ val3 n = val2 (fst v) /\ sim H val2 val3 T2 T3 p3) ->
    (forall val2 val3, r = Some (Leaves [val2 (fst v)]) -> Q1 val2 -> agree n val2 val3 -> val3 n = val2 (fst v) -> Q2 val3) ->
    runs H Q2 r T T3 [v] (p ++ p3) val.
  Proof.
    intros Q1 Q2 r T T2 T3 v n p p3 val En LN F Iv R1 K HQ. destruct r as [[outs|]|]; cbn [runs] in *; auto.
    - destruct R1 as (v2 & A2 & Z2 & E2 & q2 & si2). destruct (K v2 Z2) as (v3 & A3 & Z3 & E3 & si3).
      assert (Fv : fst v < n) by (rewrite Forall_forall in F; apply F, in_or_app; now left).
      exists v3. repeat split; auto.
      + eapply agree_trans; [exact LN|exact A2|exact A3].
      + cbn in *. rewrite A3 by exact Fv. exact E2.
      + eapply HQ; [|exact q2|exact A3|exact E3]. rewrite <- E2. reflexivity.
      + eapply sim_seq; eauto.
    - intros rest arest. apply fails_app, R1.
  Qed.

  Lemma dag_gen : forall e, dag_at e.
  Proof.
    apply expr_ind'. intros id o sz ops F Se V T m sh Esh C LM Ln. set (e := Node id o sz ops) in *.
    destruct (ci_map _ _ _ C e Se) as (c & Ec & Cc & C0). change (e_id e) with id in *.
    assert (Hsub : forall x, In x ops -> sub x R) by (intros x Ix; eapply sub_trans; [apply (sub_op x e), Ix|exact Se]).
    destruct (Nat.eq_dec (V id) 0) as [V0|V1].
    - (* first visit *)
      destruct (C0 V0) as [Csv Ccp].
      assert (LM' : forall i, visits ops V i <= M i).
      { intros i. specialize (LM i). unfold e in LM. rewrite visit_unfold in LM. rewrite V0 in LM. cbn [Nat.eqb] in LM.
        destruct (Nat.eq_dec i id) as [->|Ni]; [|rewrite upd_other in LM by exact Ni; exact LM].
        rewrite (visits_self R uniq id o sz ops V Se). lia. }
      pose proof (dag_ops ops F Hsub V T m) as K. pose proof Esh as Esh0. unfold e in Esh. cbn [shape] in Esh.
      destruct (all_some (map (shape G gt) ops)) as [ss|]; [|discriminate].
      destruct (all_some (map var_size ops)) as [sizes|] eqn:Esz; [|discriminate].
      destruct (number_ok (input_number o) (length ops)) eqn:Hin; [|discriminate].
      unfold e in Ln. cbn [need] in Ln. fold e in Ln.
      destruct (K ss sizes eq_refl eq_refl C LM') as (T1 & m1 & iv & p1 & E1 & L1 & S1 & C1 & R1). { lia. }
      clear K.
      assert (W1 := st_wf _ _ _ _ _ _ S1).
      assert (Vid : visits ops V id = 0) by (rewrite (visits_self R uniq id o sz ops V Se); exact V0).
      assert (Vis : visit e V = upd (visits ops V) id 1) by (unfold e; rewrite visit_unfold, V0; reflexivity).
      assert (Osz : outsize G gt e = list_sum sh) by (unfold outsize; now rewrite Esh0).
      assert (GEN : exists T2 vars p2 base, run_generator G gt o sizes T1 = Some (T2, vars) /\
        map snd (rev vars) = sh /\ number_ok (output_number o) (length vars) = true /\
        stepped T1 T2 (rev vars) base (t_alt T1) p2 /\ base = without (vmoves gt e V) (t_main T) /\
        inputs_kept (upd (visits ops V) id 1) T1 base /\
        forall val env, sized val (t_main T1 ++ t_alt T1) -> env_ok gt env val ->
          runs H (fun _ => True) (node_sem op_sem env o sizes (vals_of val iv)) T1 T2 (rev vars) p2 val).
      { destruct (input_of o) as [[b x]|] eqn:Eio.
        - destruct (gt x) as [v|] eqn:Eg; [|discriminate]. inversion Esh; subst sh.
          assert (Eops : ops = []) by (destruct o; try discriminate Eio; destruct ops; auto; discriminate Hin).
          subst ops. cbn in Esz. inversion Esz; subst sizes. cbn [visits fold_left] in *.
          cbn [operands] in E1. inversion E1; subst T1 m1. clear E1.
          assert (Iv : In v (t_main T)).
          { destruct (ci_in _ _ _ C e b x Se Eio) as (v' & Eg' & Iv'). rewrite Eg in Eg'. inversion Eg'; subst v'. apply Iv'. now right. }
          destruct (gen_input H G gt o b x v T Eio Eg W1 Iv) as (T2 & p2 & E2 & S2 & R2). { lia. }
          exists T2, [(t_next T, snd v)], p2. eexists. split; [exact E2|]. split; [reflexivity|].
          split; [destruct o; try discriminate Eio; reflexivity|]. split; [exact S2|]. split; [|split].
          + unfold e. rewrite vmoves_unfold, V0. cbn [Nat.eqb]. rewrite Eio, Eg. destruct b; reflexivity.
          + intros d b' x' v' Sd Ei' Eg' Hb Iv'. unfold without. apply filter_In. split; [exact Iv'|].
            destruct b; [|reflexivity]. cbn [memb existsb]. rewrite orb_false_r.
            destruct (Nat.eqb_spec (fst v') (fst v)) as [Ef|Nf]; [exfalso|reflexivity].
            pose proof (excl e d x b' x' v v' Se Sd Eio Ei' Eg Eg' (eq_sym Ef)) as Eid. change (e_id e) with id in Eid.
            destruct Hb as [Hb|Hb]; [|rewrite <- Eid, upd_same in Hb; lia].
            assert (d = e) by (apply uniq; auto). subst d. unfold e in Ei'. cbn in Ei'. rewrite Eio in Ei'. inversion Ei'. congruence.
          + intros val env Z Ev.
            assert (En : node_sem op_sem env o [] (vals_of val iv) = Some (Leaves [val (fst v)])).
            { destruct o; try discriminate Eio; cbn in Eio |- *; inversion Eio; subst; rewrite (Ev _ _ Eg); reflexivity. }
            rewrite En. apply R2; assumption.
        - destruct (generate G o sizes) as [em|] eqn:Eg; [|discriminate].
          destruct ((em_consumes em =? length (concat ss)) && number_ok (output_number o) (length (em_outs em))) eqn:Ecs; [|discriminate].
          apply andb_true_iff in Ecs as [Ecs Eo]. apply Nat.eqb_eq in Ecs. inversion Esh; subst sh. clear Esh.
          destruct (gen_op H G gt op_sem ops_ok o sizes em T1 iv _ Eio Eg W1 (st_main _ _ _ _ _ _ S1)) as (T2 & vars & p2 & E2 & Sh2 & S2 & R2).
          { congruence. }
          assert (Lv : length vars = length (em_outs em)).
          { apply (f_equal (@length nat)) in Sh2. rewrite map_length, !rev_length in Sh2. exact Sh2. }
          exists T2, vars, p2. eexists. split; [exact E2|]. split; [exact Sh2|]. split; [rewrite Lv; exact Eo|].
          split; [exact S2|]. split; [|split].
          + unfold e. rewrite vmoves_unfold, V0. cbn [Nat.eqb]. rewrite Eio. reflexivity.
          + intros d b' x' v' Sd Ei' Eg' Hb Iv'. rewrite (st_main _ _ _ _ _ _ S1) in Iv'. apply in_app_or in Iv' as [Iv'|Iv']; [exfalso|exact Iv'].
            pose proof (st_fresh _ _ _ _ _ _ S1) as Fr. rewrite Forall_forall in Fr. apply Fr in Iv'. apply gt_old in Eg'.
            pose proof (ci_n0 _ _ _ C). lia.
          + intros val env Z Ev.
            assert (En : node_sem op_sem env o sizes (vals_of val iv) = op_sem o sizes (vals_of val iv)).
            { destruct o; try discriminate Eio; reflexivity. }
            rewrite En. apply R2. exact Z. }
      destruct GEN as (T2 & vars & p2 & base & E2 & Sh2 & No2 & S2 & Eb & IK & R2).
      assert (Evar : eval op_sem = eval op_sem) by reflexivity. clear Evar.
      assert (S12 : stepped T T2 (rev vars) base (t_alt T1) (p1 ++ p2)) by (eapply stepped_then; [exact S1|exact S2]).
      assert (RUN : forall val env, sized val (t_main T ++ t_alt T) -> env_ok gt env val -> cache_ok V m env val ->
        runs H (cache_ok (visits ops V) m1 env) (eval op_sem env e) T T2 (rev vars) (p1 ++ p2) val).
      { intros val env Z Ev Kc. unfold e. cbn [eval]. eapply runs_then; [exact S1|apply R1; auto|].
        intros val1 A1 Z1 K1 _. cbn beta in K1. rewrite <- (sizes_eq _ _ Esz).
        eapply runs_weaken; [|apply R2; [exact Z1|eapply env_ok_agree; [exact gt_old| |exact A1|exact Ev]; apply C]].
        intros val2 A2 _ _. eapply cache_agree; [exact C1|exact A2|exact K1]. }
      assert (Hreuse : (if single o then reuse id T m else None) = None).
      { destruct (single o); [|reflexivity]. unfold reuse. rewrite Ec, Csv. reflexivity. }
      unfold e. rewrite express_unfold. fold e. cbn [andb]. rewrite Hreuse, Hin, E1, E2, No2.
      destruct (ci_map _ _ _ C1 e Se) as (c1 & Ec1 & Cc1 & C01). change (e_id e) with id in *.
      destruct (C01 Vid) as [Csv1 Ccp1].
      destruct (single o) eqn:So.
      + unfold keep_copy. rewrite Ec1, Csv1, Ccp1, Cc1. cbn [Nat.eqb]. rewrite andb_true_r.
        destruct (Nat.ltb_spec 1 (M id)) as [HM|HM].
        * (* keep a copy *)
          assert (Lv : exists v, vars = [v]).
          { unfold single in So. destruct (output_number o) as [[|[|n]]|]; try discriminate So.
            cbn in No2. apply Nat.eqb_eq in No2. destruct vars as [|v [|]]; try discriminate No2. now exists v. }
          destruct Lv as [v ->]. cbn [rev app] in *.
          cbn [map] in Sh2. subst sh.
          destruct (keep_step H T2 v base (st_wf _ _ _ _ _ _ S2) (st_main _ _ _ _ _ _ S2)) as (Tx & T3 & p3 & X1 & X2 & X3 & X4 & X5 & X6 & X7 & X8).
          rewrite X1, X2. cbn [list_sum fold_right] in Osz.
          assert (Lsz : (Z.of_nat (snd v) < 2 ^ 31)%Z) by (cbn in Osz; rewrite Nat.add_0_r in Osz; lia).
          exists T3. eexists. exists [v], ((p1 ++ p2) ++ p3). split; [reflexivity|]. split; [reflexivity|]. split; [|split].
          -- rewrite <- Eb. constructor.
             ++ rewrite X3. apply (st_main _ _ _ _ _ _ S12).
             ++ reflexivity.
             ++ exact X5.
             ++ pose proof (st_next _ _ _ _ _ _ S12). lia.
             ++ apply (st_fresh _ _ _ _ _ _ S12).
             ++ rewrite X7, (st_script _ _ _ _ _ _ S12). symmetry. apply app_assoc.
          -- rewrite Vis. pose proof (ci_keep e (visits ops V) T1 T2 T3 m1 c1 _ _ _ (snd v) Se C1 Vid S2 IK Ec1 Esh0 X3 X4 X5 X6 HM So) as CK.
             change (e_id e) with id in CK. rewrite Cc1, Ccp1 in CK. exact CK.
          -- intros val env Z Ev Kc. eapply keep_runs with (n := t_next T2); [reflexivity|apply (st_next _ _ _ _ _ _ S12)|apply S2|rewrite (st_main _ _ _ _ _ _ S2); now left|apply RUN; auto| |].
             ++ intros val2 Z2. apply X8; [exact Lsz|exact Z2].
             ++ intros val2 val3 Er K2 A3 E3. rewrite Vis.
                intros d cd vd Sd Sgd Ld1 Ld2 Ecd Evd. destruct (Nat.eq_dec (e_id d) id) as [Ed|Nd].
                ** assert (d = e) by (apply uniq; auto). subst d. rewrite Ed, insert_same in Ecd. inversion Ecd; subst cd. cbn in Evd. inversion Evd; subst vd.
                   cbn [fst]. rewrite E3. exact Er.
                ** rewrite upd_other in Ld1, Ld2 by exact Nd. rewrite insert_other in Ecd by exact Nd.
                   rewrite A3; [eapply K2; eauto|]. destruct (ci_var _ _ _ C1 _ _ _ Ecd Evd) as [_ L].
                   pose proof (st_next _ _ _ _ _ _ S2). lia.
        * exists T2, m1, vars, (p1 ++ p2). split; [reflexivity|]. split; [exact Sh2|]. split; [|split].
          -- rewrite <- Eb, (st_alt _ _ _ _ _ _ S2). exact S12.
          -- rewrite Vis. eapply (ci_gen e); eauto.
          -- intros val env Z Ev Kc. eapply runs_weaken; [|apply RUN; auto].
             intros v2 _ _ K2 d cd vd Sd Sgd Ld1 Ld2 Ecd Evd. rewrite Vis in Ld1, Ld2.
             destruct (Nat.eq_dec (e_id d) id) as [Ed|Nd]; [rewrite Ed, upd_same in Ld2; lia|].
             rewrite upd_other in Ld1, Ld2 by exact Nd. eapply K2; eauto.
      + exists T2, m1, vars, (p1 ++ p2). split; [reflexivity|]. split; [exact Sh2|]. split; [|split].
        * rewrite <- Eb, (st_alt _ _ _ _ _ _ S2). exact S12.
        * rewrite Vis. eapply (ci_gen e); eauto. intros X. cbn in X. congruence.
        * intros val env Z Ev Kc. eapply runs_weaken; [|apply RUN; auto].
          intros v2 _ _ K2 d cd vd Sd Sgd Ld1 Ld2 Ecd Evd. rewrite Vis in Ld1, Ld2.
          destruct (Nat.eq_dec (e_id d) id) as [Ed|Nd].
          -- assert (d = e) by (apply uniq; auto). subst d. cbn in Sgd. congruence.
          -- rewrite upd_other in Ld1, Ld2 by exact Nd. eapply K2; eauto.
    - (* later visit *)
      assert (Vis : visit e V = upd V id (S (V id))).
      { unfold e. rewrite visit_unfold. apply Nat.eqb_neq in V1. rewrite V1. reflexivity. }
      assert (VM : V id < M id). { specialize (LM id). rewrite Vis, upd_same in LM. lia. }
      assert (Vm0 : vmoves gt e V = []). { unfold e. rewrite vmoves_unfold. apply Nat.eqb_neq in V1. rewrite V1. reflexivity. }
      rewrite Vm0, without_nil.
      assert (Lsh : outsize G gt e <= need G gt e) by (unfold e; cbn [need]; lia).
      destruct (single o) eqn:So.
      + (* reuse of the kept copy *)
        destruct (ci_kept _ _ _ C e c Se So) as (v & K1 & K2 & K3 & K4); try (change (e_id e) with id); auto; [lia|].
        change (e_id e) with id in K3. rewrite Esh in K4. inversion K4; subst sh. clear K4.
        assert (Lsz : (Z.of_nat (snd v) < 2 ^ 31)%Z).
        { assert (Eo : outsize G gt e = snd v) by (unfold outsize; rewrite Esh; apply Nat.add_0_r). lia. }
        unfold e. rewrite express_unfold. fold e. cbn [andb]. rewrite So. unfold reuse. rewrite Ec, K1, Cc.
        replace (1 <? M id) with true by (symmetry; apply Nat.ltb_lt; lia).
        destruct (Nat.eqb_spec (copied c) (M id - 2)) as [El|El].
        * destruct (alt_move_step H T v (ci_wf _ _ _ C) K2) as (T' & p & E & S & Rn). rewrite E.
          exists T', m, [(t_next T, snd v)], p. split; [reflexivity|]. split; [reflexivity|]. cbn [rev app].
          assert (VE : V id + 1 = M id) by lia.
          assert (Nid : forall d, sub d R -> single (e_op d) = true -> visit e V (e_id d) < M (e_id d) -> e_id d <> id).
          { intros d Sd Sg L Ed. rewrite Ed, Vis, upd_same in L. lia. }
          split; [rewrite (st_alt _ _ _ _ _ _ S); exact S|]. split.
          -- constructor.
             ++ apply (st_wf _ _ _ _ _ _ S).
             ++ pose proof (st_next _ _ _ _ _ _ S). pose proof (ci_n0 _ _ _ C). lia.
             ++ intros d Sd. destruct (ci_map _ _ _ C d Sd) as (c' & G1 & G2 & G3). exists c'. split; [exact G1|]. split; [exact G2|].
                rewrite Vis. destruct (Nat.eq_dec (e_id d) id) as [Ed|Nd]; [rewrite Ed, upd_same; lia|rewrite upd_other by exact Nd; exact G3].
             ++ intros d c' Sd Sg L1 L2 Ec'. pose proof (Nid d Sd Sg L2) as Nd. rewrite Vis, upd_other in * by exact Nd.
                destruct (ci_kept _ _ _ C d c' Sd Sg L1 L2 Ec') as (v' & J1 & J2 & J3 & J4). exists v'. repeat split; auto.
                rewrite (st_alt _ _ _ _ _ _ S). apply filter_In. split; [exact J2|].
                destruct (Nat.eqb_spec (fst v') (fst v)) as [Ef|Nf]; [exfalso|reflexivity].
                apply Nd. eapply (ci_inj _ _ _ C); eauto.
             ++ destruct (ci_alt _ _ _ C) as (live & El2 & Hl). exists (filter (fun w => negb (fst w =? fst v)) live). split.
                ** rewrite (st_alt _ _ _ _ _ _ S), El2, filter_app. f_equal.
                   assert (Lv : N0 <= fst v) by (eapply (ci_var _ _ _ C); eauto).
                   clear -A0_old Lv. induction A0_old as [|w l Hw Hl IH]; [reflexivity|]. cbn [filter].
                   destruct (Nat.eqb_spec (fst w) (fst v)); [lia|]. cbn. f_equal. exact (IH Hl).
                ** intros w Iw. apply filter_In in Iw as [Iw Fw]. destruct (Hl w Iw) as (d & c' & J1 & J2 & J3 & J4 & J5 & J6).
                   exists d, c'. assert (Nd : e_id d <> id).
                   { intros Ed. rewrite Ed, Ec in J5. inversion J5; subst c'. rewrite K1 in J6. inversion J6; subst w. rewrite Nat.eqb_refl in Fw. discriminate. }
                   rewrite Vis, !upd_other by exact Nd. repeat split; auto.
             ++ intros i c' v' G1 G2. destruct (ci_var _ _ _ C i c' v' G1 G2). pose proof (st_next _ _ _ _ _ _ S). lia.
             ++ exact (ci_inj _ _ _ C).
             ++ intros d b x Sd Ei. destruct (ci_in _ _ _ C d b x Sd Ei) as (v' & Eg & Iv). exists v'. split; [exact Eg|].
                intros Hb. rewrite (st_main _ _ _ _ _ _ S). apply in_or_app. right. apply Iv.
                destruct Hb as [Hb|Hb]; [now left|right]. rewrite Vis in Hb. destruct (Nat.eq_dec (e_id d) id) as [Ed|Nd]; [rewrite Ed, upd_same in Hb; lia|].
                rewrite upd_other in Hb by exact Nd. exact Hb.
          -- intros val env Z Ev Kc.
             rewrite (Kc e c v Se So) by (try (change (e_id e) with id); auto; lia).
             eapply runs_weaken; [|apply Rn; auto]. intros v2 A2 _ _ d cd vd Sd Sgd Ld1 Ld2 Ecd Evd.
             pose proof (Nid d Sd Sgd Ld2) as Nd. rewrite Vis, upd_other in * by exact Nd.
             eapply (cache_agree V T m env val v2 C A2 Kc); eauto.
        * destruct (alt_copy_step H T v (ci_wf _ _ _ C) K2) as (T' & p & E & S & Rn). rewrite E.
          exists T'. eexists. exists [(t_next T, snd v)], p. split; [reflexivity|]. split; [reflexivity|]. cbn [rev app].
          split; [rewrite (st_alt _ _ _ _ _ _ S); exact S|]. split.
          -- constructor.
             ++ apply (st_wf _ _ _ _ _ _ S).
             ++ pose proof (st_next _ _ _ _ _ _ S). pose proof (ci_n0 _ _ _ C). lia.
             ++ intros d Sd. rewrite Vis. destruct (Nat.eq_dec (e_id d) id) as [Ed|Nd].
                ** rewrite Ed, insert_same, upd_same. eexists. split; [reflexivity|]. cbn. split; [reflexivity|lia].
                ** rewrite insert_other, upd_other by exact Nd. apply (ci_map _ _ _ C d Sd).
             ++ intros d c' Sd Sg L1 L2 Ec'. rewrite Vis in *. rewrite (st_alt _ _ _ _ _ _ S). destruct (Nat.eq_dec (e_id d) id) as [Ed|Nd].
                ** assert (d = e) by (apply uniq; auto). subst d. rewrite Ed in *. rewrite insert_same in Ec'. inversion Ec'; subst c'.
                   rewrite upd_same in *. exists v. cbn. repeat split; auto. lia.
                ** rewrite insert_other in Ec' by exact Nd. rewrite upd_other in * by exact Nd. apply (ci_kept _ _ _ C d c' Sd Sg L1 L2 Ec').
             ++ destruct (ci_alt _ _ _ C) as (live & El2 & Hl). exists live. rewrite (st_alt _ _ _ _ _ _ S). split; [exact El2|].
                intros w Iw. destruct (Hl w Iw) as (d & c' & J1 & J2 & J3 & J4 & J5 & J6).
                rewrite Vis. destruct (Nat.eq_dec (e_id d) id) as [Ed|Nd].
                ** exists d. eexists. rewrite Ed, insert_same, upd_same. rewrite Ed, Ec in J5. inversion J5; subst c'. rewrite K1 in J6. inversion J6; subst w.
                   split; [exact J1|]. split; [exact J2|]. split; [lia|]. split; [lia|]. split; [reflexivity|reflexivity].
                ** exists d, c'. rewrite insert_other, !upd_other by exact Nd. repeat split; auto.
             ++ intros i c' v' G1 G2. pose proof (st_next _ _ _ _ _ _ S). destruct (Nat.eq_dec i id) as [->|Ni].
                ** rewrite insert_same in G1. inversion G1; subst c'. cbn in G2. inversion G2; subst v'.
                   destruct (ci_var _ _ _ C id c v Ec K1). lia.
                ** rewrite insert_other in G1 by exact Ni. destruct (ci_var _ _ _ C i c' v' G1 G2). lia.
             ++ assert (X : forall i c', map_insert id {| count := M id; copied := Datatypes.S (copied c); stack_var := Some v |} m i = Some c' ->
                  exists c2, m i = Some c2 /\ stack_var c2 = stack_var c').
                { intros i c' Ei. destruct (Nat.eq_dec i id) as [->|Ni].
                  - rewrite insert_same in Ei. inversion Ei; subst c'. exists c. split; [exact Ec|exact K1].
                  - rewrite insert_other in Ei by exact Ni. now exists c'. }
                intros i i' c1 c2 v1 v2 E1 E2 E3 E4 E5.
                destruct (X _ _ E1) as (d1 & Y1 & Y2). destruct (X _ _ E2) as (d2 & Y3 & Y4).
                eapply (ci_inj _ _ _ C i i' d1 d2 v1 v2); auto; congruence.
             ++ intros d b x Sd Ei. destruct (ci_in _ _ _ C d b x Sd Ei) as (v' & Eg & Iv). exists v'. split; [exact Eg|].
                intros Hb. rewrite (st_main _ _ _ _ _ _ S). apply in_or_app. right. apply Iv.
                destruct Hb as [Hb|Hb]; [now left|right]. rewrite Vis in Hb. destruct (Nat.eq_dec (e_id d) id) as [Ed|Nd]; [rewrite Ed, upd_same in Hb; lia|].
                rewrite upd_other in Hb by exact Nd. exact Hb.
          -- intros val env Z Ev Kc.
             rewrite (Kc e c v Se So) by (try (change (e_id e) with id); auto; lia).
             eapply runs_weaken; [|apply Rn; auto]. intros v2 A2 _ _ d cd vd Sd Sgd Ld1 Ld2 Ecd Evd.
             pose proof (cache_agree V T m env val v2 C A2 Kc) as Kc2. rewrite Vis in *. destruct (Nat.eq_dec (e_id d) id) as [Ed|Nd].
             ++ rewrite Ed, insert_same in Ecd. inversion Ecd; subst cd. cbn in Evd. inversion Evd; subst vd.
                assert (d = e) by (apply uniq; auto). subst d. eapply Kc2; try (change (e_id e) with id); eauto. lia.
             ++ rewrite insert_other in Ecd by exact Nd. rewrite upd_other in * by exact Nd. eapply Kc2; eauto.
      + (* shared node without a cached copy *)
        assert (PL : forall x d, In x ops -> sub d x -> (single (e_op d) = true -> M (e_id d) <= 1) /\ (forall y, input_of (e_op d) <> Some (true, y))).
        { intros x d Ix Sd. apply (plain e x d Se So); auto. change (e_id e) with id. lia. }
        assert (NI : input_of o = None) by (destruct o; try discriminate So; reflexivity).
        assert (Eq : express_to_script G gt true e T m = express_to_script G gt false e T m).
        { apply noopt. intros d Sd Sg. unfold e in Sd. apply sub_inv in Sd as [->|(x & Ix & Sd)]; [cbn in Sg; congruence|].
          destruct (ci_map _ _ _ C d) as (cd & J1 & J2 & _); [eapply sub_trans; [exact Sd|apply Hsub, Ix]|].
          exists cd. split; [exact J1|]. rewrite J2. apply (PL x d Ix Sd), Sg. }
        assert (INP : forall d b v, sub d e -> In (b, v) (inputs gt d) -> b = false /\ In v (t_main T)).
        { apply (expr_ind' (fun d => forall b v, sub d e -> In (b, v) (inputs gt d) -> b = false /\ In v (t_main T))).
          intros id' o' s' ops' F' b v Sd Iv. cbn [inputs] in Iv. apply in_app_or in Iv as [Iv|Iv].
          - destruct (input_of o') as [[b' x']|] eqn:Ei'; [|easy]. destruct (gt x') as [v'|] eqn:Eg'; [|easy].
            destruct Iv as [Iv|[]]. inversion Iv; subst b' v'.
            assert (Sd' := Sd). unfold e in Sd'. apply sub_inv in Sd' as [Ed|(x & Ix & Sd')]; [inversion Ed; subst; congruence|].
            assert (b = false).
            { destruct b; [|reflexivity]. exfalso. eapply (proj2 (PL x _ Ix Sd')). exact Ei'. }
            split; [assumption|]. subst b.
            destruct (ci_in _ _ _ C (Node id' o' s' ops') false x') as (v' & Eg2 & Iv2); [eapply sub_trans; [exact Sd|exact Se]|exact Ei'|].
            rewrite Eg' in Eg2. inversion Eg2; subst v'. apply Iv2. now left.
          - apply in_flat_map in Iv as (y & Iy & Iv). rewrite Forall_forall in F'. eapply F'; [exact Iy| |exact Iv].
            eapply sub_trans; [apply (sub_op y (Node id' o' s' ops') Iy)|exact Sd]. }
        assert (MV : moved gt e = []).
        { unfold moved. pose proof (fun b v => INP e b v (sub_refl e)) as X. induction (inputs gt e) as [|[b v] l IH]; [reflexivity|].
          destruct (X b v (or_introl eq_refl)) as [-> _]. cbn. apply IH. intros b' v' Iv'. apply X. now right. }
        destruct (tree_gen H G gt op_sem ops_ok N0 gt_old e T m sh Esh (ci_wf _ _ _ C) (ci_n0 _ _ _ C)) as (T' & vars & p & E & Sh & S & Rn).
        { split; [|split].
          - rewrite Forall_forall. intros [b v] Iv. apply (INP e b v (sub_refl e) Iv).
          - change (moved_of (inputs gt e)) with (moved gt e). rewrite MV. constructor.
          - intros v Iv. change (moved_of (inputs gt e)) with (moved gt e). rewrite MV. easy. }
        { exact Ln. }
        rewrite MV, without_nil in S. rewrite Eq, E. exists T', m, vars, p. split; [reflexivity|]. split; [exact Sh|].
        split; [rewrite (st_alt _ _ _ _ _ _ S); exact S|].
        assert (Nid : forall d, sub d R -> single (e_op d) = true -> e_id d <> id).
        { intros d Sd Sg Ed. assert (d = e) by (apply uniq; auto). subst d. cbn in Sg. congruence. }
        split.
        * constructor.
          -- apply (st_wf _ _ _ _ _ _ S).
          -- pose proof (st_next _ _ _ _ _ _ S). pose proof (ci_n0 _ _ _ C). lia.
          -- intros d Sd. destruct (ci_map _ _ _ C d Sd) as (c' & G1 & G2 & G3). exists c'. split; [exact G1|]. split; [exact G2|].
             rewrite Vis. destruct (Nat.eq_dec (e_id d) id) as [Ed|Nd]; [rewrite Ed, upd_same; lia|rewrite upd_other by exact Nd; exact G3].
          -- intros d c' Sd Sg L1 L2 Ec'. pose proof (Nid d Sd Sg) as Nd. rewrite Vis, upd_other in * by exact Nd.
             rewrite (st_alt _ _ _ _ _ _ S). apply (ci_kept _ _ _ C d c' Sd Sg L1 L2 Ec').
          -- destruct (ci_alt _ _ _ C) as (live & El2 & Hl). exists live. rewrite (st_alt _ _ _ _ _ _ S). split; [exact El2|].
             intros w Iw. destruct (Hl w Iw) as (d & c' & J1 & J2 & J3 & J4 & J5 & J6). exists d, c'.
             rewrite Vis, !upd_other by (apply Nid; auto). repeat split; auto.
          -- intros i c' v' G1 G2. destruct (ci_var _ _ _ C i c' v' G1 G2). pose proof (st_next _ _ _ _ _ _ S). lia.
          -- exact (ci_inj _ _ _ C).
          -- intros d b x Sd Ei. destruct (ci_in _ _ _ C d b x Sd Ei) as (v' & Eg & Iv). exists v'. split; [exact Eg|].
             intros Hb. rewrite (st_main _ _ _ _ _ _ S). apply in_or_app. right. apply Iv.
             destruct Hb as [Hb|Hb]; [now left|right]. rewrite Vis in Hb. destruct (Nat.eq_dec (e_id d) id) as [Ed|Nd]; [rewrite Ed, upd_same in Hb; lia|].
             rewrite upd_other in Hb by exact Nd. exact Hb.
        * intros val env Z Ev Kc. eapply runs_weaken; [|apply Rn; auto].
          intros v2 A2 _ _ d cd vd Sd Sgd Ld1 Ld2 Ecd Evd. pose proof (Nid d Sd Sgd) as Nd. rewrite Vis, upd_other in * by exact Nd.
          eapply (cache_agree V T m env val v2 C A2 Kc); eauto.
  Qed.
End Main.

(** ** The generated script as a whole *)
Definition meaning_of (H : bytes -> bytes) (r : option res) (val : values) (main kept alt : list svar) (p : script) : Prop :=
  match r with
  | Some (Leaves outs) => forall rest arest,
      exec H p (img val main ++ rest) (aimg val alt ++ arest)
             (nums (concat outs) ++ img val kept ++ rest) (aimg val alt ++ arest)
  | Some Fails => forall rest arest, fails H p (img val main ++ rest) (aimg val alt ++ arest)
  | None => True
  end.

(** Generation succeeds; the emitted script replaces the moved inputs by the value
    of the expression, whatever the values of the variables. *)
Definition generates (H : bytes -> bytes) (G : gadgets) (gt : getter)
  (op_sem : opcode -> list nat -> list (list Z) -> option res) (optimize : bool) (e : expr) (T : tracker) : Prop :=
  exists T' m' vars p sh,
    express G gt optimize e T = Some (T', m', vars) /\
    shape G gt e = Some sh /\ map snd (rev vars) = sh /\
    t_main T' = rev vars ++ without (moved gt e) (t_main T) /\ t_alt T' = t_alt T /\ t_script T' = t_script T ++ p /\
    forall val env, sized val (t_main T ++ t_alt T) -> env_ok gt env val ->
      meaning_of H (eval op_sem env e) val (t_main T) (without (moved gt e) (t_main T)) (t_alt T) p.

Lemma moved_move_node : forall gt e i, In i (moved gt e) <-> exists d, sub d e /\ move_node gt d i.
Proof.
  intros gt e i. unfold moved. split.
  - intros I0. apply in_map_iff in I0 as ([b v] & <- & Iv). apply filter_In in Iv as [Iv Hb]. cbn in Hb. subst b. cbn [snd].
    revert v Iv. apply (expr_ind' (fun e => forall v, In (true, v) (inputs gt e) -> exists d, sub d e /\ move_node gt d (fst v))).
    intros id o s ops F v Iv. cbn [inputs] in Iv. apply in_app_or in Iv as [Iv|Iv].
    + destruct (input_of o) as [[b x]|] eqn:Eo; [|easy]. destruct (gt x) as [w|] eqn:Eg; [|easy]. destruct Iv as [Iv|[]]. inversion Iv; subst.
      exists (Node id o s ops). split; [apply sub_refl|]. exists x, v. cbn. auto.
    + apply in_flat_map in Iv as (y & Iy & Iv). rewrite Forall_forall in F. destruct (F y Iy v Iv) as (d & Sd & Md).
      exists d. split; [eapply sub_step; [exact Iy|exact Sd]|exact Md].
  - intros (d & Sd & x & v & Ei & Eg & <-). change (fst v) with ((fun p : bool * svar => fst (snd p)) (true, v)).
    apply in_map. apply filter_In. split; [|reflexivity]. induction Sd as [[id o s ops]|d y [id o s ops] Iy Sd IH].
    + cbn in Ei |- *. rewrite Ei, Eg. now left.
    + cbn [inputs]. apply in_or_app. right. apply in_flat_map. exists y. split; [exact Iy|]. apply IH. exact Ei.
Qed.

Lemma without_ext : forall a b l, (forall i, In i a <-> In i b) -> without a l = without b l.
Proof.
  intros a b l E. unfold without. apply filter_ext. intros v. f_equal.
  destruct (memb (fst v) a) eqn:Ea; destruct (memb (fst v) b) eqn:Eb; auto.
  - apply memb_In in Ea. apply E in Ea. apply memb_In in Ea. congruence.
  - apply memb_In in Eb. apply E in Eb. apply memb_In in Eb. congruence.
Qed.

Lemma meaning_from_runs : forall H Q r T T' ov kept p val, twf T ->
  (forall v, In v kept -> In v (t_main T)) -> stepped T T' ov kept (t_alt T) p ->
  runs H Q r T T' ov p val -> meaning_of H r val (t_main T) kept (t_alt T) p.
Proof.
  intros H Q r T T' ov kept p val W Sk S Rn. destruct r as [[outs|]|]; cbn [runs meaning_of] in *; auto.
  destruct Rn as (val' & A & Zv & E & _ & si). intros rest arest. specialize (si rest arest).
  rewrite (st_main _ _ _ _ _ _ S), (st_alt _ _ _ _ _ _ S), img_app in si. unfold img in si at 2. rewrite E in si.
  rewrite (agree_img _ _ _ kept A) in si by (eapply Forall_sub; [exact Sk|apply twf_main, W]).
  rewrite (agree_aimg _ _ _ _ A (twf_alt T W)) in si. rewrite <- app_assoc in si. exact si.
Qed.

Section Final.
  Variable H : bytes -> bytes.
  Variable G : gadgets.
  Variable gt : getter.
  Variable op_sem : opcode -> list nat -> list (list Z) -> option res.
  Hypothesis ops_ok : op_contract H G op_sem.
  Variable R : expr.
  Variable T : tracker.
  Hypothesis W : twf T.
  Hypothesis gt_old : forall x v, gt x = Some v -> fst v < t_next T.
  Hypothesis compiles : shape G gt R <> None.
  Hypothesis room : (Z.of_nat (items (t_main T) + need G gt R) < 2 ^ 31)%Z.

  Lemma without_sub : forall l v vs, In v (without l vs) -> In v vs.
  Proof. intros l v vs I0. apply filter_In in I0. apply I0. Qed.

  Lemma generates_plain : ins_ok (t_main T) (inputs gt R) -> generates H G gt op_sem false R T.
  Proof.
    intros I0. destruct (shape G gt R) as [sh|] eqn:Esh; [|contradiction].
    destruct (tree_gen H G gt op_sem ops_ok (t_next T) gt_old R T (simulate_express R map_empty) sh Esh W (le_n _) I0 room) as (T' & vars & p & E & Sh & S & Rn).
    exists T', (simulate_express R map_empty), vars, p, sh. split; [exact E|]. split; [exact Esh|]. split; [exact Sh|].
    split; [apply S|]. split; [apply S|]. split; [apply S|].
    intros val env Zv Ev. eapply meaning_from_runs; [exact W| |exact S|apply Rn; auto]. intros v. apply without_sub.
  Qed.

  Lemma generates_cached : unique_ids R -> inputs_present gt R (t_main T) -> moves_exclusive gt R -> multi_plain R ->
    generates H G gt op_sem true R T.
  Proof.
    intros U IP EX PL. destruct (shape G gt R) as [sh|] eqn:Esh; [|contradiction].
    set (m0 := simulate_express R map_empty).
    destruct (simulate_refs R U) as [Fm Cm]. fold m0 in Fm, Cm.
    assert (C : CI G gt (t_next T) R (t_alt T) (fun _ => 0) T m0).
    { constructor; auto; try lia.
      - intros e Se. pose proof (refs_pos R U e Se) as P. specialize (Cm (e_id e)). unfold cnt in Cm.
        destruct (m0 (e_id e)) as [c|] eqn:Ec; [|lia]. exists c. destruct (Fm _ _ Ec) as (F1 & F2 & _). auto.
      - exists []. split; [reflexivity|easy].
      - intros i c v Ei Ev. destruct (Fm _ _ Ei) as (_ & F2 & _). congruence.
      - intros i i' c c' v v' Ei _ Ev. destruct (Fm _ _ Ei) as (_ & F2 & _). congruence.
      - intros e b x Se Ei. destruct (IP e b x Se Ei) as (v & Eg & Iv). exists v. auto. }
    destruct (dag_gen H G gt op_sem ops_ok (t_next T) gt_old R U EX PL (t_alt T) (twf_alt T W) R (sub_refl R) (fun _ => 0) T m0 sh Esh C (fun i => le_n _) room)
      as (T' & m' & vars & p & E & Sh & S & C' & Rn).
    assert (Ealt : t_alt T' = t_alt T).
    { destruct (ci_alt _ _ _ _ _ _ _ _ C') as (live & El & Hl). destruct live as [|v live]; [exact El|exfalso].
      destruct (Hl v (or_introl eq_refl)) as (d & c & _ & _ & _ & L & _). unfold refs in L. lia. }
    rewrite Ealt in S.
    assert (Ew : without (vmoves gt R (fun _ => 0)) (t_main T) = without (moved gt R) (t_main T)).
    { apply without_ext. intros i. rewrite moved_move_node. split.
      - intros I0. destruct (vmoves_in R U gt R (sub_refl R) _ i I0) as (d & Sd & Md & _). exists d. auto.
      - intros (d & Sd & Md). eapply (in_vmoves R U gt R (sub_refl R)); eauto. apply (refs_pos R U d Sd). }
    rewrite Ew in S. exists T', m', vars, p, sh. split; [exact E|]. split; [exact Esh|]. split; [exact Sh|].
    split; [apply S|]. split; [apply S|]. split; [apply S|].
    intros val env Zv Ev. eapply meaning_from_runs; [exact W| |exact S|apply Rn; auto].
    - intros v. apply without_sub.
    - intros e c v Se Sg L. lia.
  Qed.
End Final.
