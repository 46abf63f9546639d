(** Script generation with caching of shared nodes. *)
From Coq Require Import ZArith List Bool Arith Lia.
From Verif Require Import ScriptNum ScriptVM VMLemmas Lift U32Model HelperModel DslModel DslStack DslSpec DslProofs.
Import ListNotations.
Local Open Scope nat_scope.

(** ** Subterms and visits *)
Fixpoint esize (e : expr) : nat := let 'Node _ _ _ ops := e in S (list_sum (map esize ops)).
Lemma esize_op : forall x e, In x (e_ops e) -> esize x < esize e.
Proof.
  intros x [id o s ops] I0. cbn [e_ops] in I0. cbn [esize]. apply le_n_S.
  induction ops as [|y ops IH]; [easy|]. change (list_sum (map esize (y :: ops))) with (esize y + list_sum (map esize ops)).
  destruct I0 as [->|I0]; [|specialize (IH I0)]; lia.
Qed.
Lemma sub_size : forall d e, sub d e -> esize d <= esize e.
Proof. intros d e S. induction S as [|d x f I0 S IH]; [apply le_n|]. apply esize_op in I0. lia. Qed.
Lemma sub_trans : forall a b c, sub a b -> sub b c -> sub a c.
Proof. intros a b c S1 S2. revert S1. induction S2 as [|b x f I0 S IH]; intros S1; [exact S1|]. eapply sub_step; [exact I0|auto]. Qed.
Lemma sub_op : forall x e, In x (e_ops e) -> sub x e.
Proof. intros x e I0. eapply sub_step; [exact I0|apply sub_refl]. Qed.
Lemma sub_inv : forall d id o s ops, sub d (Node id o s ops) -> d = Node id o s ops \/ exists x, In x ops /\ sub d x.
Proof. intros d id o s ops S. inversion S as [e|e x f I0 S']; subst; [now left|right]. exists x. split; [exact I0|exact S']. Qed.

Definition visits (l : list expr) (V : nat -> nat) : nat -> nat := fold_left (fun V o => visit o V) l V.
Lemma visit_unfold : forall id o s ops V, visit (Node id o s ops) V =
  if V id =? 0 then upd (visits ops V) id 1 else upd V id (S (V id)).
Proof. reflexivity. Qed.

Lemma upd_same : forall V i n, upd V i n i = n. Proof. intros. unfold upd. now rewrite Nat.eqb_refl. Qed.
Lemma upd_other : forall V i n j, j <> i -> upd V i n j = V j.
Proof. intros. unfold upd. apply Nat.eqb_neq in H. now rewrite H. Qed.

Lemma visits_ind : forall (R : (nat -> nat) -> (nat -> nat) -> Prop) ops,
  (forall V, R V V) -> (forall a b c, R a b -> R b c -> R a c) ->
  Forall (fun x => forall V, R V (visit x V)) ops -> forall V, R V (visits ops V).
Proof.
  intros R ops Rr Rt F. induction F as [|x ops Fx F IH]; intros V; [apply Rr|].
  cbn. eapply Rt; [apply Fx|apply IH].
Qed.

Lemma visit_mono : forall e V i, V i <= visit e V i.
Proof.
  apply (expr_ind' (fun e => forall V i, V i <= visit e V i)). intros id o s ops F V i. rewrite visit_unfold.
  assert (K : forall i, V i <= visits ops V i).
  { apply (visits_ind (fun a b => forall i, a i <= b i) ops); [intros; apply le_n|intros a b c A B j; specialize (A j); specialize (B j); lia|exact F]. }
  destruct (Nat.eqb_spec (V id) 0) as [E|E]; destruct (Nat.eq_dec i id) as [->|Ni];
    rewrite ?upd_same, ?upd_other by assumption; try lia. apply K.
Qed.
Lemma visits_mono : forall ops V i, V i <= visits ops V i.
Proof.
  intros ops V i. revert i. apply (visits_ind (fun a b => forall i, a i <= b i) ops); [intros; apply le_n|intros a b c A B j; specialize (A j); specialize (B j); lia|].
  rewrite Forall_forall. intros x _ W. apply visit_mono.
Qed.

Lemma visit_other : forall e V i, (forall d, sub d e -> e_id d <> i) -> visit e V i = V i.
Proof.
  apply (expr_ind' (fun e => forall V i, (forall d, sub d e -> e_id d <> i) -> visit e V i = V i)).
  intros id o s ops F V i Hn. rewrite visit_unfold.
  assert (Ni : i <> id) by (intros E; apply (Hn _ (sub_refl _)); symmetry; exact E).
  assert (K : visits ops V i = V i).
  { assert (Hc : forall x, In x ops -> forall d, sub d x -> e_id d <> i).
    { intros x Ix d Sd. apply Hn. eapply sub_step; [exact Ix|exact Sd]. }
    clear Hn Ni. revert V. induction F as [|x ops Fx F IH]; intros V; [reflexivity|]. cbn.
    change (visits ops (visit x V) i = V i). rewrite IH by (intros y Iy; apply Hc; now right). apply Fx. apply Hc. now left. }
  destruct (V id =? 0); rewrite upd_other by exact Ni; auto.
Qed.
Lemma visits_other : forall ops V i, (forall x d, In x ops -> sub d x -> e_id d <> i) -> visits ops V i = V i.
Proof.
  induction ops as [|x ops IH]; intros V i Hn; [reflexivity|]. cbn. change (visits ops (visit x V) i = V i).
  rewrite IH by (intros y d Iy; apply Hn; now right). apply visit_other. intros d. apply Hn. now left.
Qed.

(** Variables moved by the traversal. *)
Fixpoint vmoves (gt : getter) (e : expr) (V : nat -> nat) : list nat :=
  let 'Node id o _ ops := e in
  if V id =? 0 then
    (match input_of o with
     | Some (true, x) => match gt x with Some v => [fst v] | None => [] end
     | _ => []
     end) ++
    (fix go l V := match l with [] => [] | x :: r => vmoves gt x V ++ go r (visit x V) end) ops V
  else [].
Definition vmoves_l (gt : getter) : list expr -> (nat -> nat) -> list nat :=
  fix go l V := match l with [] => [] | x :: r => vmoves gt x V ++ go r (visit x V) end.

Section Dag.
  Variable R : expr.
  Hypothesis uniq : unique_ids R.
  Notation M := (refs R).

  Lemma no_self : forall e x d, sub e R -> In x (e_ops e) -> sub d x -> e_id d <> e_id e.
  Proof.
    intros e x d Se Ix Sd E. assert (d = e).
    { apply uniq; [|exact Se|exact E]. eapply sub_trans; [exact Sd|]. eapply sub_trans; [apply sub_op, Ix|exact Se]. }
    subst d. apply sub_size in Sd. apply esize_op in Ix. lia.
  Qed.

  Lemma visits_self : forall id o s ops V, sub (Node id o s ops) R -> visits ops V id = V id.
  Proof. intros id o s ops V S. apply visits_other. intros x d Ix Sd. apply (no_self (Node id o s ops) x d S Ix Sd). Qed.

  (** every node is reached *)
  Definition closed (V : nat -> nat) : Prop :=
    forall d x, sub d R -> 1 <= V (e_id d) -> In x (e_ops d) -> 1 <= V (e_id x).
  Lemma visit_closed : forall e, sub e R -> forall V, closed V -> closed (visit e V) /\ 1 <= visit e V (e_id e).
  Proof.
    apply (expr_ind' (fun e => sub e R -> forall V, closed V -> closed (visit e V) /\ 1 <= visit e V (e_id e))).
    intros id o s ops F Se V C. rewrite visit_unfold. cbn [e_id].
    destruct (Nat.eqb_spec (V id) 0) as [E|E].
    - assert (K : closed (visits ops V) /\ forall x, In x ops -> 1 <= visits ops V (e_id x)).
      { assert (Sc : forall x, In x ops -> sub x R) by (intros x Ix; eapply sub_trans; [apply (sub_op x (Node id o s ops)), Ix|exact Se]).
        clear E Se. revert V C. induction F as [|x ops Fx F IH]; intros V C; [split; [exact C|easy]|].
        cbn. change (closed (visits ops (visit x V)) /\ forall y, x = y \/ In y ops -> 1 <= visits ops (visit x V) (e_id y)).
        destruct (Fx (Sc x (or_introl eq_refl)) V C) as [C1 P1].
        destruct (IH (fun y Iy => Sc y (or_intror Iy)) _ C1) as [C2 P2]. split; [exact C2|].
        intros y [<-|Iy]; [|apply P2, Iy]. pose proof (visits_mono ops (visit x V) (e_id x)). lia. }
      destruct K as [K1 K2]. rewrite upd_same. split; [|lia].
      intros d x Sd Pd Ix. assert (P : forall i, 1 <= visits ops V i -> 1 <= upd (visits ops V) id 1 i).
      { intros i Pi. destruct (Nat.eq_dec i id) as [->|Ni]; [rewrite upd_same; lia|rewrite upd_other; auto]. }
      apply P. destruct (Nat.eq_dec (e_id d) id) as [Ed|Nd].
      + assert (d = Node id o s ops) by (apply uniq; auto). subst d. apply K2. exact Ix.
      + rewrite upd_other in Pd by exact Nd. eapply K1; eauto.
    - rewrite upd_same. split; [|lia]. intros d x Sd Pd Ix.
      assert (P : 1 <= V (e_id x)).
      { apply (C d x Sd); [|exact Ix]. destruct (Nat.eq_dec (e_id d) id) as [->|Nd]; [lia|]. rewrite upd_other in Pd by exact Nd. exact Pd. }
      destruct (Nat.eq_dec (e_id x) id) as [->|Nx]; [rewrite upd_same; lia|rewrite upd_other; auto].
  Qed.
  Lemma closed_sub : forall V, closed V -> forall d e, sub d e -> sub e R -> 1 <= V (e_id e) -> 1 <= V (e_id d).
  Proof.
    intros V C d e S. induction S as [|d x f I0 S IH]; intros Se P; [exact P|].
    apply IH; [eapply sub_trans; [apply sub_op, I0|exact Se]|]. eapply C; eauto.
  Qed.
  Lemma refs_pos : forall e, sub e R -> 1 <= M (e_id e).
  Proof.
    intros e Se. destruct (visit_closed R (sub_refl R) (fun _ => 0)) as [C P]. { intros d x _ X. lia. }
    eapply closed_sub; eauto. apply sub_refl.
  Qed.

  (** [simulate_express] counts the references *)
  Definition cnt (m : idmap) (i : nat) : nat := match m i with Some c => count c | None => 0 end.
  Definition fresh_map (m : idmap) : Prop := forall i c, m i = Some c -> copied c = 0 /\ stack_var c = None /\ 1 <= count c.
  Definition sims (l : list expr) (m : idmap) : idmap := fold_left (fun m o => simulate_express o m) l m.
  Lemma simulate_unfold : forall id o s ops m, simulate_express (Node id o s ops) m =
    match m id with
    | Some c => map_insert id (mkic (S (count c)) (copied c) (stack_var c)) m
    | None => sims ops (map_insert id (mkic 1 0 None) m)
    end.
  Proof. reflexivity. Qed.
  Lemma insert_same : forall i c m, map_insert i c m i = Some c.
  Proof. intros. unfold map_insert. now rewrite Nat.eqb_refl. Qed.
  Lemma insert_other : forall i c m j, j <> i -> map_insert i c m j = m j.
  Proof. intros. unfold map_insert. apply Nat.eqb_neq in H. now rewrite H. Qed.

  Definition sim_at (e : expr) : Prop := sub e R -> forall m V (P : nat -> Prop),
    fresh_map m -> (forall i, ~ P i -> cnt m i = V i) -> (forall d, sub d e -> ~ P (e_id d)) ->
    fresh_map (simulate_express e m) /\ (forall i, ~ P i -> cnt (simulate_express e m) i = visit e V i) /\
    (forall i, P i -> simulate_express e m i = m i).
  Lemma sim_visit : forall e, sim_at e.
  Proof.
    apply expr_ind'. intros id o s ops F Se m V P Fm Cm Dm. rewrite simulate_unfold, visit_unfold.
    assert (NP : ~ P id) by (apply (Dm _ (sub_refl _))).
    pose proof (Cm id NP) as Cid. unfold cnt in Cid.
    destruct (m id) as [c|] eqn:Em.
    - destruct (Fm _ _ Em) as (F1 & F2 & F3).
      destruct (Nat.eqb_spec (V id) 0) as [E|E]; [lia|]. split; [|split].
      + intros i c' Ei. destruct (Nat.eq_dec i id) as [->|Ni].
        * rewrite insert_same in Ei. inversion Ei; subst. cbn. repeat split; auto; lia.
        * rewrite insert_other in Ei by exact Ni. eapply Fm; eauto.
      + intros i Pi. unfold cnt. destruct (Nat.eq_dec i id) as [->|Ni].
        * rewrite insert_same, upd_same. cbn. lia.
        * rewrite insert_other, upd_other by exact Ni. apply Cm, Pi.
      + intros i Pi. apply insert_other. intros ->. contradiction.
    - rewrite <- Cid. cbn [Nat.eqb].
      assert (K : forall l, Forall sim_at l -> (forall x, In x l -> In x ops) -> forall m V,
        fresh_map m -> (forall i, ~ (P i \/ i = id) -> cnt m i = V i) ->
        fresh_map (sims l m) /\ (forall i, ~ (P i \/ i = id) -> cnt (sims l m) i = visits l V i) /\
        (forall i, P i \/ i = id -> sims l m i = m i)).
      { clear m V Fm Cm Cid Em. intros l Fl. induction Fl as [|x l Fx Fl IH]; intros Sl m V Fm Cm; [repeat split; auto; eapply Fm; eauto|].
        assert (Ix : In x ops) by (apply Sl; now left).
        destruct (Fx (sub_trans _ _ _ (sub_op x (Node id o s ops) Ix) Se) m V (fun i => P i \/ i = id) Fm Cm) as (A1 & A2 & A3).
        { intros d Sd [Pd|Pd]; [eapply Dm; [|exact Pd]; eapply sub_step; [exact Ix|exact Sd]|].
          eapply (no_self (Node id o s ops)); eauto. }
        destruct (IH (fun y Iy => Sl y (or_intror Iy)) _ _ A1 A2) as (B1 & B2 & B3).
        cbn. split; [exact B1|]. split; [exact B2|]. intros i Pi. etransitivity; [apply B3, Pi|apply A3, Pi]. }
      destruct (K ops F (fun x Ix => Ix) (map_insert id (mkic 1 0 None) m) V) as (A1 & A2 & A3).
      + intros i c' Ei. destruct (Nat.eq_dec i id) as [->|Ni].
        * rewrite insert_same in Ei. inversion Ei; subst. cbn. auto.
        * rewrite insert_other in Ei by exact Ni. eapply Fm; eauto.
      + intros i Pi. unfold cnt. rewrite insert_other by (intros ->; tauto). apply Cm. tauto.
      + split; [exact A1|]. split.
        * intros i Pi. destruct (Nat.eq_dec i id) as [->|Ni].
          -- unfold cnt. rewrite A3 by tauto. rewrite insert_same, upd_same. reflexivity.
          -- rewrite upd_other by exact Ni. apply A2. tauto.
        * intros i Pi. rewrite A3 by tauto. apply insert_other. intros ->. contradiction.
  Qed.
  Lemma simulate_refs : fresh_map (simulate_express R map_empty) /\ forall i, cnt (simulate_express R map_empty) i = M i.
  Proof.
    destruct (sim_visit R (sub_refl R) map_empty (fun _ => 0) (fun _ => False)) as (A & B & _).
    - intros i c E. discriminate.
    - reflexivity.
    - tauto.
    - split; [exact A|]. intros i. apply B. tauto.
  Qed.

  (** *** Variables moved *)
  Variable gt : getter.
  Lemma vmoves_unfold : forall id o s ops V, vmoves gt (Node id o s ops) V =
    if V id =? 0 then
      (match input_of o with
       | Some (true, x) => match gt x with Some v => [fst v] | None => [] end
       | _ => []
       end) ++ vmoves_l gt ops V
    else [].
  Proof. reflexivity. Qed.

  Definition move_node (e : expr) (i : nat) : Prop :=
    exists x v, input_of (e_op e) = Some (true, x) /\ gt x = Some v /\ fst v = i.
  Lemma vmoves_in : forall e, sub e R -> forall V i, In i (vmoves gt e V) ->
    exists d, sub d e /\ move_node d i /\ V (e_id d) = 0 /\ 1 <= visit e V (e_id d).
  Proof.
    apply (expr_ind' (fun e => sub e R -> forall V i, In i (vmoves gt e V) ->
      exists d, sub d e /\ move_node d i /\ V (e_id d) = 0 /\ 1 <= visit e V (e_id d))).
    intros id o s ops F Se V i I0. rewrite vmoves_unfold in I0. rewrite visit_unfold.
    destruct (Nat.eqb_spec (V id) 0) as [E|E]; [|easy]. apply in_app_or in I0 as [I0|I0].
    - destruct (input_of o) as [[[|] x]|] eqn:Eo; [|easy|easy]. destruct (gt x) as [v|] eqn:Eg; [|easy].
      destruct I0 as [I0|[]]. exists (Node id o s ops). split; [apply sub_refl|]. split; [exists x, v; cbn; auto|].
      cbn [e_id]. rewrite upd_same. lia.
    - assert (K : exists x d, In x ops /\ sub d x /\ move_node d i /\ V (e_id d) = 0 /\ 1 <= visits ops V (e_id d)).
      { assert (Sc : forall x, In x ops -> sub x R) by (intros x Ix; eapply sub_trans; [apply (sub_op x (Node id o s ops)), Ix|exact Se]).
        clear E Se. revert V I0. induction F as [|x ops Fx F IH]; intros V I0; [easy|].
        cbn in I0. apply in_app_or in I0 as [I0|I0].
        - destruct (Fx (Sc x (or_introl eq_refl)) V i I0) as (d & A & B & C & D). exists x, d.
          split; [now left|]. repeat split; auto. cbn. change (1 <= visits ops (visit x V) (e_id d)).
          pose proof (visits_mono ops (visit x V) (e_id d)). lia.
        - destruct (IH (fun y Iy => Sc y (or_intror Iy)) (visit x V) I0) as (y & d & Iy & A & B & C & D). exists y, d.
          split; [now right|]. repeat split; auto. pose proof (visit_mono x V (e_id d)). lia. }
      destruct K as (x & d & Ix & A & B & C & D). exists d.
      split; [eapply sub_step; [exact Ix|exact A]|]. repeat split; auto.
      rewrite upd_other by (eapply (no_self (Node id o s ops)); eauto). exact D.
  Qed.
  Lemma vmoves_l_in : forall l, (forall x, In x l -> sub x R) -> forall V i, In i (vmoves_l gt l V) ->
    exists x d, In x l /\ sub d x /\ move_node d i /\ V (e_id d) = 0 /\ 1 <= visits l V (e_id d).
  Proof.
    induction l as [|x l IH]; intros Sc V i I0; [easy|]. cbn in I0. apply in_app_or in I0 as [I0|I0].
    - destruct (vmoves_in x (Sc x (or_introl eq_refl)) V i I0) as (d & A & B & C & D). exists x, d.
      split; [now left|]. repeat split; auto. cbn. change (1 <= visits l (visit x V) (e_id d)).
      pose proof (visits_mono l (visit x V) (e_id d)). lia.
    - destruct (IH (fun y Iy => Sc y (or_intror Iy)) (visit x V) i I0) as (y & d & Iy & A & B & C & D). exists y, d.
      split; [now right|]. repeat split; auto. pose proof (visit_mono x V (e_id d)). lia.
  Qed.
  (** a move node newly visited contributes its variable *)
  Lemma in_vmoves : forall e, sub e R -> forall V d i, sub d R -> move_node d i -> V (e_id d) = 0 ->
    1 <= visit e V (e_id d) -> In i (vmoves gt e V).
  Proof.
    apply (expr_ind' (fun e => sub e R -> forall V d i, sub d R -> move_node d i -> V (e_id d) = 0 ->
      1 <= visit e V (e_id d) -> In i (vmoves gt e V))).
    intros id o s ops F Se V d i Sd Md Vd P. rewrite vmoves_unfold. rewrite visit_unfold in P.
    destruct (Nat.eqb_spec (V id) 0) as [E|E].
    - apply in_or_app. destruct (Nat.eq_dec (e_id d) id) as [Ed|Nd].
      + left. assert (d = Node id o s ops) by (apply uniq; auto). subst d. destruct Md as (x & v & A & B & C).
        cbn in A. rewrite A, B. left. exact C.
      + right. rewrite upd_other in P by exact Nd.
        assert (Sc : forall x, In x ops -> sub x R) by (intros x Ix; eapply sub_trans; [apply (sub_op x (Node id o s ops)), Ix|exact Se]).
        clear E Se Nd. revert V Vd P. induction F as [|x ops Fx F IH]; intros V Vd P; [cbn in P; lia|].
        cbn. apply in_or_app. destruct (Nat.eq_dec (visit x V (e_id d)) 0) as [Z|NZ].
        * right. apply IH; auto. intros y Iy. apply Sc. now right.
        * left. eapply Fx; eauto; [apply Sc; now left|lia].
    - destruct (Nat.eq_dec (e_id d) id) as [Ed|Nd]; [rewrite Ed in Vd; lia|].
      rewrite upd_other in P by exact Nd. lia.
  Qed.
End Dag.

(** ** Counts at most one: caching is never used *)
Section NoOpt.
  Variable G : gadgets.
  Variable gt : getter.
  Lemma false_map : forall e T m T' m' vars, express_to_script G gt false e T m = Some (T', m', vars) -> m' = m.
  Proof.
    apply (expr_ind' (fun e => forall T m T' m' vars, express_to_script G gt false e T m = Some (T', m', vars) -> m' = m)).
    intros id o s ops F T m T' m' vars. rewrite express_unfold. cbn [andb].
    destruct (number_ok (input_number o) (length ops)); [|discriminate].
    assert (K : forall T T1 m1 ss, operands G gt false ops T m = Some (T1, m1, ss) -> m1 = m).
    { clear T. induction F as [|x ops Fx F IH]; intros T T1 m1 ss E; cbn in E; [inversion E; reflexivity|].
      destruct (express_to_script G gt false x T m) as [[[Tx mx] vx]|] eqn:Ex; [|discriminate].
      apply Fx in Ex. subst mx. destruct (var_size x); [|discriminate].
      change (match operands G gt false ops Tx m with Some (T2, m2, ss) => Some (T2, m2, n :: ss) | None => None end = Some (T1, m1, ss)) in E.
      destruct (operands G gt false ops Tx m) as [[[T2 m2] s2]|] eqn:E2; [|discriminate].
      apply IH in E2. inversion E; subst. reflexivity. }
    destruct (operands G gt false ops T m) as [[[T1 m1] ss]|] eqn:E1; [|discriminate].
    apply K in E1. subst m1. destruct (run_generator G gt o ss T1) as [[T2 vs]|]; [|discriminate].
    destruct (number_ok (output_number o) (length vs)); [|discriminate]. intros E. inversion E; reflexivity.
  Qed.

  Lemma noopt : forall e m,
    (forall d, sub d e -> single (e_op d) = true -> exists c, m (e_id d) = Some c /\ count c <= 1) ->
    forall T, express_to_script G gt true e T m = express_to_script G gt false e T m.
  Proof.
    apply (expr_ind' (fun e => forall m,
      (forall d, sub d e -> single (e_op d) = true -> exists c, m (e_id d) = Some c /\ count c <= 1) ->
      forall T, express_to_script G gt true e T m = express_to_script G gt false e T m)).
    intros id o s ops F m Hm T. rewrite !express_unfold. cbn [andb].
    assert (Hr : (if single o then reuse id T m else None) = None).
    { destruct (single o) eqn:Es; [|reflexivity]. destruct (Hm _ (sub_refl _) Es) as (c & Ec & Lc). cbn in Ec.
      unfold reuse. rewrite Ec. destruct (stack_var c); [|reflexivity].
      destruct (Nat.ltb_spec 1 (count c)); [lia|reflexivity]. }
    rewrite Hr. destruct (number_ok (input_number o) (length ops)); [|reflexivity].
    assert (K : forall T, operands G gt true ops T m = operands G gt false ops T m).
    { assert (Hc : forall x, In x ops -> forall d, sub d x -> single (e_op d) = true -> exists c, m (e_id d) = Some c /\ count c <= 1).
      { intros x Ix d Sd. apply Hm. eapply sub_step; [exact Ix|exact Sd]. }
      clear Hm Hr T. induction F as [|x ops Fx F IH]; intros T; [reflexivity|]. cbn.
      rewrite (Fx m (Hc x (or_introl eq_refl)) T).
      destruct (express_to_script G gt false x T m) as [[[Tx mx] vx]|] eqn:Ex; [|reflexivity].
      apply false_map in Ex. subst mx. destruct (var_size x); [|reflexivity].
      change (match operands G gt true ops Tx m with Some (T2, m2, ss) => Some (T2, m2, n :: ss) | None => None end =
              match operands G gt false ops Tx m with Some (T2, m2, ss) => Some (T2, m2, n :: ss) | None => None end).
      rewrite IH; [reflexivity|]. intros y Iy. apply Hc. now right. }
    rewrite K. destruct (operands G gt false ops T m) as [[[T1 m1] ss]|] eqn:E1; [|reflexivity].
    assert (m1 = m).
    { clear K Hr Hm F. revert T T1 m1 ss E1. induction ops as [|x l IH]; intros T T1 m1 ss E; cbn in E; [inversion E; reflexivity|].
      destruct (express_to_script G gt false x T m) as [[[Tx mx] vx]|] eqn:Ex; [|discriminate].
      apply false_map in Ex. subst mx. destruct (var_size x); [|discriminate].
      change (match operands G gt false l Tx m with Some (T2, m2, ss) => Some (T2, m2, n :: ss) | None => None end = Some (T1, m1, ss)) in E.
      destruct (operands G gt false l Tx m) as [[[T2 m2] s2]|] eqn:E2; [|discriminate].
      apply IH in E2. inversion E; subst. reflexivity. }
    subst m1. destruct (run_generator G gt o ss T1) as [[T2 vs]|]; [|reflexivity].
    destruct (number_ok (output_number o) (length vs)); [|reflexivity].
    destruct (single o) eqn:Es; [|reflexivity]. destruct (Hm _ (sub_refl _) Es) as (c & Ec & Lc). cbn in Ec.
    unfold keep_copy. rewrite Ec. destruct (stack_var c); [reflexivity|].
    destruct (Nat.ltb_spec 1 (count c)); [lia|reflexivity].
  Qed.
End NoOpt.
