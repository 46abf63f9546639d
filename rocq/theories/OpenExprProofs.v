(** The expressions of OpenExprModel have the values the native verifier computes. *)
From Coq Require Import ZArith List Bool Arith Lia Field.
From Verif Require Import ScriptNum ScriptVM HelperModel PropHelper Field BabyBear TcsModel FriModel FriProofs StarkModel PcsModel DslModel DslSpec DslOpSpec DslMain DslOps DslGadgets DslBuild DslIds DslDenote
  DslManager DslSession PropManager DslWork DslAccept FriExprModel FriExprProofs FriExprQuery PropFriExpr PropStarkExpr OpenExprModel.
Import ListNotations.
Local Open Scope nat_scope.

(** ** Values *)
Section Values.
  Variable inv : ExtT -> option ExtT.
  Variable M0 : mmcs BabyBearT.
  Variable config : fri_config.
  Variable alpha : ExtT.
  Notation zmap := (list (nat * (ExtT * ExtT))).
  Notation acc_values := (PcsModel.acc_values BabyBearT ExtT from_base).

  (** the native verifier's loops with [inv] for the inverse of x - z *)
  Fixpoint points_with (x : BabyBearT) (at_x : list BabyBearT) (pts : list (ExtT * list ExtT)) (e : ExtT * ExtT) : option (ExtT * ExtT) :=
    match pts with
    | [] => Some e
    | (z, at_z) :: pts =>
        match inv (fadd (fopp z) (from_base x)) with
        | None => None
        | Some i => let a := acc_values alpha (fst e) (@f0 ExtT) at_x at_z in points_with x at_x pts (fst a, fadd (snd e) (fmul (snd a) i))
        end
    end.
  Fixpoint mats_with (log_global index : nat) (opened : list (list BabyBearT)) (mats : list (coset BabyBearT * list (ExtT * list ExtT))) (l : zmap) : option zmap :=
    match opened, mats with
    | at_x :: opened, (domain, pts) :: mats =>
        let log_height := log_n domain + log_blowup config in
        if log_global <? log_height then None else
        match two_adic_generator BabyBearT log_height with
        | None => None
        | Some g =>
            match points_with (fmul (of_Z 31 : BabyBearT) (fpow g (Field.reverse_bits_len (index / 2 ^ (log_global - log_height)) log_height))) at_x pts (entry ExtT log_height l) with
            | None => None
            | Some e => mats_with log_global index opened mats (put ExtT log_height e l)
            end
        end
    | _, _ => Some l
    end.
  Fixpoint batches_with (log_global query_times_index index : nat) (input_proof : list (list (list BabyBearT) * m_proof M0))
    (rounds : list (m_comm M0 * list (coset BabyBearT * list (ExtT * list ExtT)))) (l : zmap) : outcome (m_err M0) zmap :=
    match input_proof, rounds with
    | (opened_values, opening_proof) :: input_proof, (commit, mats) :: rounds =>
        match mats with
        | [] => Panic
        | _ =>
            if log_global <? fold_left (fun a (d : coset BabyBearT * list (ExtT * list ExtT)) => Nat.max a (log_n (fst d))) mats 0 + log_blowup config
            then Panic else
            match m_verify_batch M0 query_times_index opened_values opening_proof commit with
            | Panic => Panic
            | Err e => Err e
            | Ok _ =>
                match mats_with log_global index opened_values mats l with
                | None => Panic
                | Some l => batches_with log_global query_times_index index input_proof rounds l
                end
            end
        end
    | _, _ => Ok l
    end.
  Definition reduced_with (log_global : nat) (rounds : list (m_comm M0 * list (coset BabyBearT * list (ExtT * list ExtT))))
    (query_times_index index : nat) (input_proof : list (list (list BabyBearT) * m_proof M0)) : outcome (m_err M0) (list (nat * ExtT)) :=
    match batches_with log_global query_times_index index input_proof rounds [] with
    | Ok l => Ok (map (fun p => (fst p, snd (snd p))) (rev l))
    | Err e => Err e
    | Panic => Panic
    end.
End Values.

(** With the inverse these are the native verifier's. *)
Section Native.
  Variable M0 : mmcs BabyBearT.
  Variable config : fri_config.
  Variable alpha : ExtT.
  Lemma points_native : forall x at_x pts e, points_with inverse alpha x at_x pts e = reduce_points BabyBearT ExtT from_base alpha x at_x pts e.
  Proof.
    intros x at_x pts. induction pts as [|[z at_z] pts IH]; intros e; [reflexivity|]. cbn [points_with reduce_points].
    match goal with |- _ = (let (_, _) := ?y in _) => destruct y as [ap acc] eqn:Ea end.
    clear Ea. unfold checked_div. cbn [fst snd].
    match goal with |- match ?x with _ => _ end = match option_map _ ?y with _ => _ end => change y with x; destruct x as [i|] end; [|reflexivity]. cbn [option_map]. apply IH.
  Qed.
  Lemma mats_native : forall lg index mats opened l, mats_with inverse config alpha lg index opened mats l =
    reduce_mats BabyBearT ExtT from_base (of_Z 31) config alpha lg index opened mats l.
  Proof.
    intros lg index mats. induction mats as [|[domain pts] mats IH]; intros [|at_x opened] l; try reflexivity. cbn [mats_with reduce_mats].
    destruct (lg <? log_n domain + log_blowup config); [reflexivity|]. destruct (two_adic_generator BabyBearT (log_n domain + log_blowup config)); [|reflexivity].
    rewrite points_native. match goal with |- match ?x with _ => _ end = match ?y with _ => _ end => change y with x; destruct x end; [|reflexivity]. apply IH.
  Qed.
  Lemma batches_native : forall lg t index rounds ip l, batches_with inverse M0 config alpha lg t index ip rounds l =
    reduce_batches BabyBearT ExtT from_base (of_Z 31) M0 config alpha lg t index ip rounds l.
  Proof.
    intros lg t index rounds. induction rounds as [|[commit mats] rounds IH]; intros [|[ov pf] ip] l; try reflexivity. cbn [batches_with reduce_batches].
    destruct mats as [|d mats]; [reflexivity|].
    match goal with |- (if ?b then _ else _) = _ => destruct b end; [reflexivity|].
    match goal with |- match ?b with _ => _ end = _ => destruct b end; try reflexivity. rewrite mats_native.
    match goal with |- match ?b with _ => _ end = _ => destruct b end; [|reflexivity]. apply IH.
  Qed.
  Lemma reduced_native : forall lg rounds t index ip, reduced_with inverse M0 config alpha lg rounds t index ip =
    pcs_open_input BabyBearT ExtT from_base (of_Z 31) M0 config alpha lg rounds t index ip.
  Proof. intros. unfold reduced_with, pcs_open_input. now rewrite batches_native. Qed.
End Native.

(** ** The expressions *)
Section Works.
  Variable G : gadgets.
  Let LB := bf_base_laws.
  Let LE := bf_ext4_laws.
  Notation F := bf_ext4.
  Definition has (all : list expr) (m : manager) (e : expr) (z : ExtT) : Prop := In e all /\ valF F G m e z /\ plain e.
  Lemma has_mono : forall all all' m m' e z, incl all all' -> incl (given m) (given m') -> has all m e z -> has all' m' e z.
  Proof. intros all all' m m' e z C I (A & V & P). split; [now apply C|]. split; [eapply valF_mono; eauto|exact P]. Qed.
  (** nothing but inputs is added to the manager, and each is moved by [e] *)
  Record fed (m : manager) (e : expr) (m' : manager) : Prop := mk_fed {
    fed_vars : forall x, In x (map fst (given m')) -> In x (map fst (given m)) \/ moves x e;
    fed_checks : mn_checks m' = mn_checks m;
    fed_exec : mn_exec m' = mn_exec m }.
  Lemma fed_refl : forall m e, fed m e m.
  Proof. intros. constructor; auto. Qed.
  Lemma fed_trans : forall m1 e1 m2 e m3, fed m1 e1 m2 -> sub e1 e -> fed m2 e m3 -> fed m1 e m3.
  Proof.
    intros m1 e1 m2 e m3 [A B C] S0 [A' B' C']. constructor; try congruence. intros x Ix. destruct (A' x Ix) as [Ix'|Mx]; [|now right].
    destruct (A x Ix') as [Ix''|Mx]; [now left|right]. eapply moves_sub; eauto.
  Qed.
  Lemma fed_sub : forall m e e' m', fed m e m' -> sub e e' -> fed m e' m'.
  Proof. intros m e e' m' [A B C] S0. constructor; auto. intros x Ix. destruct (A x Ix); [now left|right]. eapply moves_sub; eauto. Qed.
  Lemma fed_input : forall v m e, moves (input_var (mn_counter m)) e -> fed m e (with_input v m).
  Proof.
    intros v m e Mx. constructor; auto. intros x Ix. apply in_map_iff in Ix as (p & <- & Ip). apply given_input in Ip as [Ip| ->].
    - left. now apply in_map.
    - now right.
  Qed.
  Lemma more_input : forall v m, incl (given m) (given (with_input v m)).
  Proof. intros v m y Iy. apply given_input. now left. Qed.
  Lemma plain_input : forall e x, e_op e = InputVarMove x -> e_ops e = [] -> plain e.
  Proof. intros e x O1 O2. apply plain_node; [now rewrite O1|]. rewrite O2. constructor. Qed.
  Lemma moves_self : forall e x, e_op e = InputVarMove x -> moves x e.
  Proof. intros e x O1. exists e. split; [constructor|exact O1]. Qed.

  Variable inv : ExtT -> option ExtT.
  Variable M0 : mmcs BabyBearT.
  Variable config : fri_config.
  Variable alpha : ExtT.
  Notation acc_values := (PcsModel.acc_values BabyBearT ExtT from_base alpha).

  Lemma acc_loop_works : forall at_x at_z all m ap acc zap zacc, has all m ap zap -> has all m acc zacc ->
    works (acc_loop alpha ap acc at_x at_z m) all m (fun r m' all' =>
      has all' m' (fst r) (fst (acc_values zap zacc at_x at_z)) /\ has all' m' (snd r) (snd (acc_values zap zacc at_x at_z)) /\
      sub acc (snd r) /\ fed m (snd r) m').
  Proof.
    induction at_x as [|p at_x IH]; intros at_z all m ap acc zap zacc Ha Hc.
    { apply works_ret. cbn. split; [exact Ha|]. split; [exact Hc|]. split; [constructor|apply fed_refl]. }
    destruct at_z as [|y at_z]; [apply works_ret; cbn; split; [exact Ha|]; split; [exact Hc|]; split; [constructor|apply fed_refl]|].
    cbn [acc_loop PcsModel.acc_values].
    apply (stepF_input F LE G). intros a all1 C1 Ia Va Oa Pa. cbn [fst snd]. set (m1 := with_input _ m) in *.
    apply (stepF_input bf_base LB G). intros b all2 C2 Ib Vb Ob Pb. cbn [fst snd]. set (m2 := with_input _ m1) in *.
    assert (M1 : incl (given m) (given m1)) by apply more_input. assert (M2 : incl (given m1) (given m2)) by apply more_input.
    eapply (step_base G _ Add fadd); [reflexivity|exact (C2 _ Ia)|exact Ib|exact (val_mono G _ _ _ _ _ M2 Va)|exact Vb|].
    intros s all3 C3 Is Vs Os Ps.
    pose proof (has_mono all all3 m m2 ap zap ltac:(eapply incl_tran; [|exact C3]; eapply incl_tran; eauto) ltac:(eapply incl_tran; eauto) Ha) as (Iap & Vap & Pap).
    eapply (stepF_mul F LE G); [exact Iap|exact Is|exact Vap|exact Vs|]. intros t all4 C4 It Vt Ot Pt.
    pose proof (has_mono all all4 m m2 acc zacc ltac:(eapply incl_tran; [|exact C4]; eapply incl_tran; [|exact C3]; eapply incl_tran; eauto) ltac:(eapply incl_tran; eauto) Hc) as (Iac & Vac & Pac).
    eapply (stepF_add F LE G); [exact Iac|exact It|exact Vac|exact Vt|]. intros acc' all5 C5 Iacc' Vacc' Oacc' Pacc'.
    eapply (stepF_mulf F LE G); [exact (C5 _ (C4 _ Iap))|exact Vap|]. intros ap' c all6 C6 Iap' Vap' Oap' Pap' Pc.
    assert (Ps' : plain s). { eapply plain_ops; [exact Os|exact Ps|reflexivity|]. repeat constructor; [eapply plain_input; eauto|eapply plain_input; eauto]. }
    assert (Pt' : plain t). { eapply plain_ops; [exact Ot|exact Pt|reflexivity|]. repeat constructor; assumption. }
    assert (Sa : sub a acc'). { eapply sub_trans; [|apply sub_op; rewrite Pacc'; right; left; reflexivity]. eapply sub_trans; [|apply sub_op; rewrite Pt; right; left; reflexivity].
      apply sub_op. rewrite Ps. now left. }
    assert (Sb : sub b acc'). { eapply sub_trans; [|apply sub_op; rewrite Pacc'; right; left; reflexivity]. eapply sub_trans; [|apply sub_op; rewrite Pt; right; left; reflexivity].
      apply sub_op. rewrite Ps. right. now left. }
    assert (Fd : fed m acc' m2).
    { eapply fed_trans with (e1 := acc') (m2 := m1); [|constructor|].
      - apply fed_input. eapply moves_sub; [exact Sa|]. now apply moves_self.
      - apply fed_input. eapply moves_sub; [exact Sb|]. now apply moves_self. }
    eapply works_weaken; [eapply IH|].
    - split; [exact Iap'|]. split; [exact Vap'|]. eapply plain_ops; [exact Oap'|exact Pap'|reflexivity|]. repeat constructor; assumption.
    - split; [exact (C6 _ Iacc')|]. split; [exact Vacc'|]. eapply plain_ops; [exact Oacc'|exact Pacc'|reflexivity|]. repeat constructor; assumption.
    - intros r m' all' (H1 & H2 & S1 & F1). split; [exact H1|]. split; [exact H2|]. split.
      + eapply sub_trans; [|exact S1]. apply sub_op. rewrite Pacc'. now left.
      + eapply fed_trans; [exact Fd|exact S1|exact F1].
  Qed.

  Lemma points_loop_works : forall x at_x pts all m e z z', has all m (fst e) (fst z) -> has all m (snd e) (snd z) ->
    points_with inv alpha x at_x pts z = Some z' ->
    works (points_loop inv alpha x at_x pts e m) all m (fun r m' all' =>
      has all' m' (fst r) (fst z') /\ has all' m' (snd r) (snd z') /\ sub (snd e) (snd r) /\ fed m (snd r) m').
  Proof.
    intros x at_x. induction pts as [|[z0 at_z] pts IH]; intros all m e z z' Ha Hc Ez.
    { injection Ez as <-. apply works_ret. split; [exact Ha|]. split; [exact Hc|]. split; [constructor|apply fed_refl]. }
    cbn [points_with points_loop] in *. destruct (inv (fadd (fopp z0) (from_base x))) as [i|] eqn:Ei; [|discriminate Ez].
    apply (stepF_const F LE G). intros acc all1 C1 Iacc Vacc Oacc Pacc.
    eapply works_bind.
    { eapply acc_loop_works; [eapply has_mono; [exact C1|apply incl_refl|exact Ha]|]. split; [exact Iacc|]. split; [exact Vacc|].
      apply plain_node; [exact Oacc|]. rewrite Pacc. constructor. }
    intros r m1 all2 C2 M1 (H1 & H2 & S1 & F1). cbn [fst snd].
    eapply step_get; [reflexivity|].
    apply (stepF_input F LE G). intros h all3 C3 Ih Vh Oh Ph. cbn [fst snd]. set (m2 := with_input _ m1) in *.
    assert (M2 : incl (given m1) (given m2)) by apply more_input.
    destruct (has_mono all2 all3 m1 m2 _ _ C3 M2 H2) as (I2 & V2 & P2).
    eapply (stepF_mul F LE G); [exact I2|exact Ih|exact V2|exact Vh|]. intros p all4 C4 Ip Vp Op Pp.
    destruct (has_mono all all4 m m2 _ _ ltac:(eapply incl_tran; [|exact C4]; eapply incl_tran; [|exact C3]; eapply incl_tran; eauto) ltac:(eapply incl_tran; eauto) Hc) as (I3 & V3 & P3).
    eapply (stepF_add F LE G); [exact I3|exact Ip|exact V3|exact Vp|]. intros ro all5 C5 Iro Vro Oro Pro.
    assert (Sh : sub h ro). { eapply sub_trans; [|apply sub_op; rewrite Pro; right; left; reflexivity]. apply sub_op. rewrite Pp. right. now left. }
    assert (Sr : sub (snd r) ro). { eapply sub_trans; [|apply sub_op; rewrite Pro; right; left; reflexivity]. apply sub_op. rewrite Pp. now left. }
    assert (Fd : fed m ro m2).
    { eapply fed_trans; [exact F1|exact Sr|]. apply fed_input. eapply moves_sub; [exact Sh|]. now apply moves_self. }
    eapply works_weaken; [eapply (IH all5 m2 (fst r, ro)); [| |exact Ez]|]; cbn [fst snd].
    - eapply has_mono; [| |exact H1]; [eapply incl_tran; [|exact C5]; eapply incl_tran; eauto|exact M2].
    - split; [exact Iro|]. split; [exact Vro|]. eapply plain_ops; [exact Oro|exact Pro|reflexivity|]. repeat constructor; [exact P3|].
      eapply plain_ops; [exact Op|exact Pp|reflexivity|]. repeat constructor; [exact P2|eapply plain_input; eauto].
    - intros r' m' all' (A1 & A2 & A3 & A4). split; [exact A1|]. split; [exact A2|]. split.
      + eapply sub_trans; [|exact A3]. apply sub_op. rewrite Pro. now left.
      + eapply fed_trans; [exact Fd|exact A3|exact A4].
  Qed.

  (** *** The map *)
  Definition entry_ok all m (p : nat * (expr * expr)) (z : nat * (ExtT * ExtT)) : Prop :=
    fst p = fst z /\ has all m (fst (snd p)) (fst (snd z)) /\ has all m (snd (snd p)) (snd (snd z)).
  Definition map_ok all m (l : ro_emap) (zl : list (nat * (ExtT * ExtT))) : Prop := Forall2 (entry_ok all m) l zl.
  Definition roots (l : ro_emap) : list expr := map (fun p => snd (snd p)) l.
  Lemma map_mono : forall all all' m m' l zl, incl all all' -> incl (given m) (given m') -> map_ok all m l zl -> map_ok all' m' l zl.
  Proof.
    intros all all' m m' l zl C I Q. induction Q as [|p z l zl (E & A & B) Q IH]; constructor; auto.
    split; [exact E|]. split; eapply has_mono; eauto.
  Qed.
  Lemma entry_ok_get : forall all m l zl k one zero, map_ok all m l zl -> has all m one f1 -> has all m zero f0 ->
    let e := match entry_expr k l with Some e => e | None => (one, zero) end in
    has all m (fst e) (fst (entry ExtT k zl)) /\ has all m (snd e) (snd (entry ExtT k zl)).
  Proof.
    intros all m l zl k one zero Q H1 H0. cbv zeta. induction Q as [|[k1 e1] [k2 z2] l zl (E & A & B) Q IH]; [now split|].
    cbn in E, A, B. subst k2. cbn [entry_expr entry]. destruct (k =? k1); [now split|exact IH].
  Qed.
  Lemma map_ok_put : forall all m l zl k e z, map_ok all m l zl -> has all m (fst e) (fst z) -> has all m (snd e) (snd z) ->
    map_ok all m (put_expr k e l) (put ExtT k z zl).
  Proof.
    intros all m l zl k e z Q H1 H0. induction Q as [|[k1 e1] [k2 z2] l zl (E & A & B) Q IH].
    - constructor; [|constructor]. now split.
    - cbn in E, A, B. subst k2. cbn [put_expr put]. destruct (k <? k1).
      + constructor; [now split|]. constructor; [now split|exact Q].
      + destruct (k =? k1); (constructor; [now split|]); [exact Q|exact IH].
  Qed.
  (** the old value of the entry is part of the new one *)
  Lemma roots_put : forall k e l, In (snd e) (roots (put_expr k e l)) /\
    (forall r, In r (roots l) -> In r (roots (put_expr k e l)) \/ exists e0, entry_expr k l = Some e0 /\ r = snd e0).
  Proof.
    intros k e l. induction l as [|[k1 e1] l [IH1 IH2]].
    - split; [now left|]. intros r [].
    - cbn [put_expr entry_expr]. destruct (k <? k1) eqn:Q1; [split; [now left|]; intros r Ir; left; now right|].
      destruct (k =? k1) eqn:Q2.
      + split; [now left|]. intros r [<-|Ir]; [right; eauto|left; now right].
      + split; [now right|]. intros r [<-|Ir]; [left; now left|]. destruct (IH2 r Ir) as [I1|R1]; [left; now right|right; exact R1].
  Qed.
  Record opened (m0 : manager) (l : ro_emap) (zl : list (nat * (ExtT * ExtT))) (m : manager) (all : list expr) : Prop := mk_opened {
    op_map : map_ok all m l zl;
    op_covered : forall x, In x (map fst (given m)) -> In x (map fst (given m0)) \/ exists r, In r (roots l) /\ moves x r;
    op_checks : mn_checks m = mn_checks m0;
    op_exec : mn_exec m = mn_exec m0 }.

  Lemma mats_loop_works : forall m0 lg index mats ops l zl zl' m all, opened m0 l zl m all ->
    mats_with inv config alpha lg index ops mats zl = Some zl' ->
    works (mats_loop inv config alpha lg index ops mats l m) all m (fun l' m' all' => opened m0 l' zl' m' all').
  Proof.
    intros m0 lg index mats. induction mats as [|[domain pts] mats IH]; intros ops l zl zl' m all O Ez.
    { destruct ops; injection Ez as <-; now apply works_ret. }
    destruct ops as [|at_x ops]; [injection Ez as <-; now apply works_ret|]. cbn [mats_with mats_loop] in *. set (lh := log_n domain + log_blowup config) in *.
    destruct (lg <? lh); [discriminate Ez|]. destruct (two_adic_generator BabyBearT lh) as [g|] eqn:Eg; [|discriminate Ez].
    destruct (points_with inv alpha _ at_x pts _) as [z|] eqn:Ep; [|discriminate Ez].
    eapply step_get; [reflexivity|].
    apply (stepF_const F LE G). intros one all1 C1 I1 V1 O1 P1. apply (stepF_const F LE G). intros zero all2 C2 I0 V0 O0 P0.
    destruct O as [Om Oc Ok1 Oe].
    pose proof (entry_ok_get all2 m l zl lh one zero (map_mono _ _ _ _ _ _ (incl_tran C1 C2) (incl_refl _) Om)) as Ge.
    specialize (Ge (conj (C2 _ I1) (conj V1 (plain_node _ O1 ltac:(rewrite P1; constructor)))) (conj I0 (conj V0 (plain_node _ O0 ltac:(rewrite P0; constructor))))).
    cbv zeta in Ge. set (e := match entry_expr lh l with Some e => e | None => (one, zero) end) in *. destruct Ge as [Ge1 Ge2].
    eapply works_bind; [eapply points_loop_works; [exact Ge1|exact Ge2|exact Ep]|].
    intros r m1 all3 C3 M1 (H1 & H2 & S1 & F1). cbn [fst snd]. eapply IH; [|exact Ez].
    destruct (roots_put lh r l) as [Rn Ro]. constructor.
    - apply map_ok_put; [|exact H1|exact H2]. eapply map_mono; [|exact M1|exact Om]. eapply incl_tran; [|exact C3]. eapply incl_tran; eauto.
    - intros x Ix. destruct (fed_vars _ _ _ F1 x Ix) as [Ix'|Mx]; [|right; eauto].
      destruct (Oc x Ix') as [Ix''|(r0 & Ir & Mr)]; [now left|right]. destruct (Ro r0 Ir) as [Ir'|(e0 & Ee & ->)]; [eauto|].
      exists (snd r). split; [exact Rn|]. eapply moves_sub; [|exact Mr]. unfold e in S1. rewrite Ee in S1. exact S1.
    - rewrite (fed_checks _ _ _ F1). exact Ok1.
    - rewrite (fed_exec _ _ _ F1). exact Oe.
  Qed.

  Lemma batches_loop_works : forall m0 lg t index rounds ip l zl m all, opened m0 l zl m all ->
    match batches_with inv M0 config alpha lg t index ip rounds zl with
    | Ok zl' => works (batches_loop inv M0 config alpha lg t index ip rounds l m) all m (fun r m' all' => exists l', r = Ok l' /\ opened m0 l' zl' m' all')
    | Err e => works (batches_loop inv M0 config alpha lg t index ip rounds l m) all m (fun r _ _ => r = Err e)
    | Panic => True
    end.
  Proof.
    intros m0 lg t index rounds. induction rounds as [|[commit mats] rounds IH]; intros ip l zl m all O.
    { destruct ip as [|[? ?] ?]; apply works_ret; eauto. }
    destruct ip as [|[ov pf] ip]; [apply works_ret; eauto|]. cbn [batches_with batches_loop].
    destruct mats as [|d mats]; [exact Logic.I|].
    match goal with |- context [if ?b then _ else _] => destruct b end; [exact Logic.I|].
    destruct (m_verify_batch M0 t ov pf commit) as [u|e|]; [|now apply works_ret|exact Logic.I].
    destruct (mats_with inv config alpha lg index ov (d :: mats) zl) as [zl1|] eqn:Em; [|exact Logic.I].
    pose proof (mats_loop_works m0 lg index (d :: mats) ov l zl zl1 m all O Em) as W.
    destruct (batches_with inv M0 config alpha lg t index ip rounds zl1) as [zl'|e|] eqn:Eb; [| |exact Logic.I];
      (eapply works_bind; [exact W|]; intros l1 m1 all1 _ _ O1; cbn [fst snd]; specialize (IH ip l1 zl1 m1 all1 O1); rewrite Eb in IH; exact IH).
  Qed.

  Lemma map_rev_ok : forall all m l zl, map_ok all m l zl ->
    ros_ok F G all m (map (fun p => (fst p, snd (snd p))) (rev l)) (map (fun p => (fst p, snd (snd p))) (rev zl)).
  Proof.
    intros all m l zl Q. induction Q as [|p z l zl (E & A & B) Q IH]; [constructor|]. cbn [rev]. rewrite !map_app. apply Forall2_app; [exact IH|].
    constructor; [|constructor]. cbn. split; [exact E|exact B].
  Qed.
  Lemma later_acc : forall at_x at_z ap acc m, later (acc_loop alpha ap acc at_x at_z m).
  Proof.
    induction at_x as [|p at_x IH]; intros [|y at_z] ap acc m; try apply later_ret. cbn [acc_loop]. unfold mul_f, mul, add, binary_base. later_all. apply IH.
  Qed.
  Lemma later_points : forall x at_x pts e m, later (points_loop inv alpha x at_x pts e m).
  Proof.
    intros x at_x. induction pts as [|[z at_z] pts IH]; intros e m; [apply later_ret|]. cbn [points_loop]. unfold mul, add. later_all; [apply later_acc|apply IH].
  Qed.
  Lemma later_mats : forall lg index mats ops l m, later (mats_loop inv config alpha lg index ops mats l m).
  Proof.
    intros lg index. induction mats as [|[d pts] mats IH]; intros [|o ops] l m; try apply later_ret. cbn [mats_loop]. cbv zeta.
    destruct (lg <? log_n d + log_blowup config); [apply later_panic|]. apply later_bind; [apply later_get|intros g]. apply later_bind; [apply later_const|intros one].
    apply later_bind; [apply later_const|intros zero]. apply later_bind; [apply later_points|intros r]. apply IH.
  Qed.
  Lemma later_batches : forall lg t index rounds ip l m, later (batches_loop inv M0 config alpha lg t index ip rounds l m).
  Proof.
    intros lg t index. induction rounds as [|[c mats] rounds IH]; intros [|[ov pf] ip] l m; try apply later_ret. cbn [batches_loop].
    destruct mats; [apply later_panic|]. match goal with |- context [if ?b then _ else _] => destruct b end; [apply later_panic|].
    destruct (m_verify_batch M0 t ov pf c); [|apply later_ret|apply later_panic]. apply later_bind; [apply later_mats|intros r]. apply IH.
  Qed.

  Lemma opens_with : forall lg rounds, opens_ok G F _ (m_err M0) (open_input_with inv M0 config alpha lg rounds) (reduced_with inv M0 config alpha lg rounds).
  Proof.
    intros lg rounds t q ip. split; [unfold open_input_with; later_all; apply later_batches|].
    pose proof (batches_loop_works manager_new lg t q rounds ip [] [] manager_new []) as W.
    unfold reduced_with, open_input_with. destruct (batches_with inv M0 config alpha lg t q ip rounds []) as [zl|e|]; [| |exact Logic.I].
    - eapply works_bind; [apply W|].
      { constructor; auto. constructor. }
      intros r m1 all1 _ _ (l & -> & [Om Oc Ock Oe]). cbn [fst snd]. apply works_ret. eexists. split; [reflexivity|]. split; [now apply map_rev_ok|].
      rewrite Ock. split; [|split; [constructor|exact Oe]]. intros x Ix. destruct (Oc x Ix) as [[]|(r & Ir & Mr)]. exists r. split; [|exact Mr].
      rewrite app_nil_r, map_map, map_rev, <- in_rev. exact Ir.
    - eapply works_bind; [apply W|].
      { constructor; auto. constructor. }
      intros r m1 all1 _ _ ->. now apply works_ret.
  Qed.
End Works.
