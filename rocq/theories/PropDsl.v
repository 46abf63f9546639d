(** Properties C48, C49 and C70: script generation from expressions. *)
From Coq Require Import ZArith List Bool Lia Arith.
From Verif Require Import ScriptNum ScriptVM U32Model Lift PropWords.
From Verif Require Import Field BabyBear DslModel DslStack DslSpec DslOpSpec DslProofs DslDag DslMain DslOps DslGadgets DslBuild DslIds DslDenote.
Import ListNotations.
Local Open Scope nat_scope.

(** Every node of an expression. *)
Fixpoint nodes (e : expr) : list expr := let 'Node _ _ _ ops := e in e :: flat_map nodes ops.
Lemma nodes_sub : forall e d, In d (nodes e) <-> sub d e.
Proof.
  apply (expr_ind' (fun e => forall d, In d (nodes e) <-> sub d e)). intros id o s ops F d. cbn [nodes In]. split.
  - intros [<-|I0]; [apply sub_refl|]. apply in_flat_map in I0 as (x & Ix & Id). rewrite Forall_forall in F.
    eapply sub_step; [exact Ix|]. now apply F.
  - intros S. inversion S as [|? x ? Ix Sx]; subst; [now left|right]. apply in_flat_map. exists x. split; [exact Ix|].
    rewrite Forall_forall in F. now apply F.
Qed.

Definition node_inputs (gt : getter) (e : expr) : list (bool * svar) :=
  match input_of (e_op e) with
  | Some (b, x) => match gt x with Some v => [(b, v)] | None => [] end
  | None => []
  end.
Lemma inputs_nodes : forall gt e, inputs gt e = flat_map (node_inputs gt) (nodes e).
Proof.
  intros gt. apply (expr_ind' (fun e => inputs gt e = flat_map (node_inputs gt) (nodes e))). intros id o s ops F.
  cbn [inputs nodes flat_map node_inputs e_op]. f_equal. induction F as [|x ops Fx F IH]; [reflexivity|].
  cbn [flat_map]. rewrite flat_map_app, Fx, IH. reflexivity.
Qed.
Lemma nodup_flat_map : forall A (f : A -> list nat) l a b x,
  NoDup (flat_map f l) -> In a l -> In b l -> In x (f a) -> In x (f b) -> a = b.
Proof.
  induction l as [|c l IH]; intros a b x N Ia Ib Xa Xb; [easy|]. cbn [flat_map] in N.
  assert (D : forall d, In d l -> In x (f c) -> In x (f d) -> False).
  { intros d Id Xc Xd. revert N. generalize (f c) Xc. intros k Xk. induction k as [|y k IHk]; [easy|].
    cbn [app]. intros N. inversion N as [|? ? Ny N']; subst. destruct Xk as [->|Xk].
    - apply Ny. apply in_or_app. right. apply in_flat_map. eauto.
    - now apply IHk. }
  assert (N' : NoDup (flat_map f l)).
  { clear - N. induction (f c) as [|y k IHk]; [exact N|]. apply IHk. now inversion N. }
  destruct Ia as [<-|Ia], Ib as [<-|Ib]; auto.
  - exfalso. eapply D; eauto.
  - exfalso. eapply D; eauto.
  - eapply IH; eauto.
Qed.
Definition node_moves (gt : getter) (e : expr) : list nat := moved_of (node_inputs gt e).
Lemma moved_nodes : forall gt e, moved_of (inputs gt e) = flat_map (node_moves gt) (nodes e).
Proof.
  intros gt e. rewrite inputs_nodes. unfold node_moves. induction (nodes e) as [|d l IH]; [reflexivity|].
  cbn [flat_map]. rewrite <- IH. unfold moved_of. now rewrite filter_app, map_app.
Qed.

(** An expression whose inputs are fine when it is read as a tree has its moves in
    distinct nodes. *)
Lemma ins_ok_exclusive : forall gt e vs, ins_ok vs (inputs gt e) -> moves_exclusive gt e.
Proof.
  intros gt e vs (_ & N & C) d d' x b x' v v' Sd Sd' Ei Ei' Eg Eg' Ev.
  apply nodes_sub in Sd, Sd'. destruct b.
  - f_equal. eapply (nodup_flat_map _ (node_moves gt) (nodes e) d d' (fst v)); auto.
    + rewrite <- moved_nodes. exact N.
    + unfold node_moves, node_inputs. rewrite Ei, Eg. now left.
    + unfold node_moves, node_inputs. rewrite Ei', Eg'. left. now symmetry.
  - exfalso. apply (C v').
    + rewrite inputs_nodes. apply in_flat_map. exists d'. split; [exact Sd'|]. unfold node_inputs. rewrite Ei', Eg'. now left.
    + rewrite <- Ev. rewrite moved_nodes. apply in_flat_map. exists d. split; [exact Sd|].
      unfold node_moves, node_inputs. rewrite Ei, Eg. now left.
Qed.
Lemma shape_inputs : forall G gt e d b x, shape G gt e <> None -> sub d e -> input_of (e_op d) = Some (b, x) ->
  exists v, gt x = Some v /\ In (b, v) (inputs gt e).
Proof.
  intros G gt e d b x C Sd Ei. destruct (gt x) as [v|] eqn:Eg.
  - exists v. split; [reflexivity|]. rewrite inputs_nodes. apply in_flat_map. exists d. split; [now apply nodes_sub|].
    unfold node_inputs. rewrite Ei, Eg. now left.
  - exfalso. apply C. clear C.
    induction Sd as [[id o s ops]|d y [id o s ops] Iy Sd IH].
    + cbn in Ei |- *. rewrite Ei, Eg. destruct (all_some (map (shape G gt) ops)); [|reflexivity].
      destruct (all_some (map var_size ops)); [|reflexivity]. destruct (number_ok _ _); reflexivity.
    + cbn [shape]. assert (E : all_some (map (shape G gt) ops) = None); [|now rewrite E].
      cbn [e_ops] in Iy. clear - IH Iy Ei. specialize (IH Ei). induction ops as [|z ops IHo]; [easy|]. cbn.
      destruct Iy as [->|Iy]; [now rewrite IH|]. rewrite (IHo Iy). now destruct (shape G gt z).
Qed.

(** What the caller of [express] has to provide: the tracker is well formed, the
    input variables are on its main stack, and no stack gets 2^31 items. *)
Record usable (G : gadgets) (gt : getter) (e : expr) (T : tracker) : Prop := mkusable {
  us_tracker : twf T;
  us_getter : forall x v, gt x = Some v -> fst v < t_next T;
  us_shape : shape G gt e <> None;
  us_room : (Z.of_nat (items (t_main T) + need G gt e) < 2 ^ 31)%Z
}.

(** ** C48 *)
Theorem C48_optimised_generation : forall H G gt e T,
  gadgets_ok H G -> usable G gt e T ->
  unique_ids e -> inputs_present gt e (t_main T) -> moves_exclusive gt e -> multi_plain e ->
  generates H G gt op_sem true e T.
Proof.
  intros H G gt e T OK [W Gt C R] U IP EX PL. apply generates_cached; auto. now apply all_ops.
Qed.

Theorem C48_plain_generation : forall H G gt e T,
  gadgets_ok H G -> usable G gt e T -> ins_ok (t_main T) (inputs gt e) ->
  generates H G gt op_sem false e T.
Proof.
  intros H G gt e T OK [W Gt C R] I0. apply generates_plain; auto. now apply all_ops.
Qed.

(** All nodes that are referenced several times have one output. *)
Definition shared_single (e : expr) : Prop := forall d, sub d e -> 1 < refs e (e_id d) -> single (e_op d) = true.

(** The two scripts started on the same stacks: both leave the same main stack and
    the same alt stack, or both fail. *)
Theorem C48_caching_preserves_meaning : forall H G gt e T val env r,
  gadgets_ok H G -> usable G gt e T ->
  unique_ids e -> ins_ok (t_main T) (inputs gt e) -> shared_single e ->
  sized val (t_main T ++ t_alt T) -> env_ok gt env val -> eval op_sem env e = Some r ->
  exists T1 m1 v1 p1 T2 m2 v2 p2,
    express G gt true e T = Some (T1, m1, v1) /\ t_script T1 = t_script T ++ p1 /\
    express G gt false e T = Some (T2, m2, v2) /\ t_script T2 = t_script T ++ p2 /\
    map snd v1 = map snd v2 /\ t_alt T1 = t_alt T /\ t_alt T2 = t_alt T /\
    forall rest arest,
      let m := img val (t_main T) ++ rest in
      let a := aimg val (t_alt T) ++ arest in
      brun H p1 (mk m a []) = brun H p2 (mk m a []) /\
      match r with
      | Leaves outs => exec H p1 m a (nums (concat outs) ++ img val (without (moved gt e) (t_main T)) ++ rest) a
      | Fails => fails H p1 m a
      end.
Proof.
  intros H G gt e T val env r OK US U IO SS Zv Ev Er.
  assert (IP : inputs_present gt e (t_main T)).
  { intros d b x Sd Ei. destruct (shape_inputs G gt e d b x (us_shape _ _ _ _ US) Sd Ei) as (v & Eg & I0).
    exists v. split; [exact Eg|]. destruct IO as [F _]. rewrite Forall_forall in F. exact (F _ I0). }
  assert (PL : multi_plain e).
  { intros d x d' Sd Ms Rf _ _. rewrite (SS d Sd Rf) in Ms. discriminate Ms. }
  destruct (C48_optimised_generation H G gt e T OK US U IP (ins_ok_exclusive _ _ _ IO) PL)
    as (T1 & m1 & v1 & p1 & sh & E1 & Es & Ez1 & _ & A1 & P1 & M1).
  destruct (C48_plain_generation H G gt e T OK US IO) as (T2 & m2 & v2 & p2 & sh' & E2 & Es' & Ez2 & _ & A2 & P2 & M2).
  rewrite Es in Es'. apply some_inj in Es'. subst sh'.
  exists T1, m1, v1, p1, T2, m2, v2, p2. repeat (split; [assumption|]).
  split. { transitivity (rev sh); [rewrite <- Ez1|rewrite <- Ez2; symmetry]; now rewrite map_rev, rev_involutive. }
  split; [exact A1|]. split; [exact A2|]. intros rest arest. cbn zeta.
  specialize (M1 val env Zv Ev). specialize (M2 val env Zv Ev). rewrite Er in M1, M2. unfold meaning_of in M1, M2.
  destruct r as [outs|]; specialize (M1 rest arest); specialize (M2 rest arest).
  - split; [|exact M1]. unfold exec in *. congruence.
  - split; [|exact M1]. unfold fails in *. congruence.
Qed.

(** ** C70 *)
(** Whatever a client builds with the functions of the expression language, from any
    counter value: two nodes reachable from any of its handles that have the same
    identifier are the same node. *)
Theorem C70_ids_unique : forall cs n pool n', history cs [] n = Some (pool, n') ->
  forall r1 r2 a b, In r1 pool -> In r2 pool -> sub a r1 -> sub b r2 -> e_id a = e_id b -> a = b.
Proof.
  intros cs n pool n' E r1 r2 a b I1 I2 S1 S2 Ei.
  destruct (history_made cs [] [] n pool n') as (all & M & C); auto using made_nil, incl_refl.
  exact (made_unique n' all r1 r2 a b M (C _ I1) (C _ I2) S1 S2 Ei).
Qed.
Theorem C70_expressions_have_unique_ids : forall cs n pool n' e,
  history cs [] n = Some (pool, n') -> In e pool -> unique_ids e.
Proof. intros cs n pool n' e E I0 a b S1 S2 Ei. eapply C70_ids_unique; eauto. Qed.

Definition last_of (r : option (list expr * nat)) : expr :=
  match r with Some (pool, _) => last pool (Node 0 Add 0 []) | None => Node 0 Add 0 [] end.
Lemma last_of_in : forall cs n pool n', history cs [] n = Some (pool, n') -> pool <> [] -> In (last_of (history cs [] n)) pool.
Proof. intros cs n pool n' E N. rewrite E. cbn. destruct (exists_last N) as (l & a & ->). rewrite last_last. apply in_or_app. right. now left. Qed.

Definition is_some {A} (o : option A) : bool := match o with Some _ => true | None => false end.
Lemma is_some_ex : forall A (o : option A), is_some o = true -> exists r, o = Some r.
Proof. intros A [a|] E; [eauto|discriminate E]. Qed.
Lemma is_some_not : forall A (o : option A), is_some o = false -> o = None.
Proof. intros A [a|] E; [discriminate E|reflexivity]. Qed.

Lemma last_unique : forall cs n, is_some (history cs [] n) = true -> unique_ids (last_of (history cs [] n)).
Proof.
  intros cs n E. apply is_some_ex in E as [[pool n'] E]. destruct pool as [|x pool].
  - rewrite E. intros a b Sa Sb _. inversion Sa; subst; [|easy]. inversion Sb; subst; easy.
  - eapply C70_expressions_have_unique_ids; [exact E|]. now apply (last_of_in _ _ _ _ E).
Qed.

(** Example: (x + 5) * (x + 5) + x, with x an input and x + 5 shared. *)
Definition ex_var : variable := mkvar 0 0 (Some 1).
Definition ex_calls : list call := [CInputCopy ex_var 1; CConstant [5%Z]; CAdd 0 1; CMul 2 2; CAdd 3 0].
Definition ex_expr : expr := last_of (history ex_calls [] 0).
Definition ex_getter : getter := fun x => if variable_eqb x ex_var then Some (0, 1) else None.
Definition ex_tracker : tracker := mktracker 1 [(0, 1)] [] [].
Example C70_example : unique_ids ex_expr /\ length (nodes ex_expr) = 9 /\ refs ex_expr (e_id (nth 0 (e_ops (nth 0 (e_ops ex_expr) ex_expr)) ex_expr)) = 2.
Proof.
  split; [|vm_compute; auto]. apply last_unique. reflexivity.
Qed.

Lemma ex_usable : usable my_gadgets ex_getter ex_expr ex_tracker.
Proof.
  constructor.
  - repeat split; cbn; try lia; repeat constructor; intros []; lia.
  - intros x v. unfold ex_getter. destruct (variable_eqb x ex_var); [|discriminate]. intros E. injection E as <-. cbn. lia.
  - vm_compute. discriminate.
  - vm_compute. reflexivity.
Qed.
Lemma ex_single : shared_single ex_expr.
Proof.
  intros d Sd _. apply nodes_sub in Sd. vm_compute in Sd.
  repeat (destruct Sd as [<-|Sd]; [reflexivity|]). destruct Sd.
Qed.
Lemma ex_ins : ins_ok (t_main ex_tracker) (inputs ex_getter ex_expr).
Proof.
  split; [|split].
  - vm_compute. repeat constructor.
  - vm_compute. constructor.
  - vm_compute. intros v _ [].
Qed.
Example C48_example : forall H x, canonical x = true ->
  exists T1 m1 v1 p1 T2 m2 v2 p2,
    express my_gadgets ex_getter true ex_expr ex_tracker = Some (T1, m1, v1) /\ t_script T1 = p1 /\
    express my_gadgets ex_getter false ex_expr ex_tracker = Some (T2, m2, v2) /\ t_script T2 = p2 /\
    length p1 < length p2 /\
    forall rest arest,
      brun H p1 (mk (nums [x] ++ rest) arest []) = brun H p2 (mk (nums [x] ++ rest) arest []) /\
      exec H p1 (nums [x] ++ rest) arest
        (nums (limbs 1 ((felt [x] + felt [5%Z]) * (felt [x] + felt [5%Z]) + felt [x])%F) ++ nums [x] ++ rest) arest.
Proof.
  intros H x Cx.
  set (val := fun i : nat => if i =? 0 then [x] else []).
  set (env := fun y : variable => if variable_eqb y ex_var then Some [x] else None).
  assert (E1 : is_elt 1 [x] = true) by (unfold is_elt; cbn [length forallb Nat.eqb orb andb]; now rewrite Cx).
  assert (Ev : eval op_sem env ex_expr =
    Some (Leaves [limbs 1 ((felt [x] + felt [5%Z]) * (felt [x] + felt [5%Z]) + felt [x])%F])).
  { set (e1 := Node 1 (InputVarCopy ex_var) 1 []). set (e2 := Node 2 (Constant [5%Z]) 1 []).
    set (e3 := Node 3 Add 1 [e1; e2]). set (e4 := Node 4 Mul 1 [e3; e3]).
    change ex_expr with (Node 5 Add 1 [e4; e1]).
    assert (L1 : limbs 1 (felt [x]) = [x]).
    { rewrite felt_1, limbs_1_base. f_equal. cbn. apply Z.mod_small. unfold canonical in Cx. lia. }
    assert (D1 : denotes my_gadgets ex_getter env e1 1 (felt [x])).
    { split; [rewrite felt_1; apply elt_of_base|]. rewrite L1. constructor; reflexivity. }
    assert (D2 : denotes my_gadgets ex_getter env e2 1 (felt [5%Z])).
    { split; [rewrite felt_1; apply elt_of_base|]. constructor; reflexivity. }
    pose proof (denotes_bin_node my_gadgets ex_getter env Add _ e1 e2 1 1 _ _ 3 eq_refl D1 D2) as D3.
    pose proof (denotes_bin_node my_gadgets ex_getter env Mul _ e3 e3 1 1 _ _ 4 eq_refl D3 D3) as D4.
    pose proof (denotes_bin_node my_gadgets ex_getter env Add _ e4 e1 1 1 _ _ 5 eq_refl D4 D1) as D5.
    exact (h_eval _ _ _ _ _ (proj2 D5)). }
  assert (Zv : sized val (t_main ex_tracker ++ t_alt ex_tracker)) by repeat constructor.
  assert (Eo : env_ok ex_getter env val).
  { intros y v. unfold ex_getter, env. destruct (variable_eqb y ex_var); [|discriminate]. intros E. injection E as <-. reflexivity. }
  destruct (C48_caching_preserves_meaning H my_gadgets ex_getter ex_expr ex_tracker val env _
              (gadgets_satisfiable H) ex_usable (proj1 C70_example) ex_ins ex_single Zv Eo Ev)
    as (T1 & m1 & v1 & p1 & T2 & m2 & v2 & p2 & E1' & P1 & E2 & P2 & _ & _ & _ & M).
  exists T1, m1, v1, p1, T2, m2, v2, p2. cbn in P1, P2. repeat (split; [assumption|]).
    split.
    { assert (L : match express my_gadgets ex_getter true ex_expr ex_tracker, express my_gadgets ex_getter false ex_expr ex_tracker with
                  | Some r1, Some r2 => length (t_script (fst (fst r1))) <? length (t_script (fst (fst r2)))
                  | _, _ => false
                  end = true) by (vm_compute; reflexivity).
      rewrite E1', E2 in L. cbn [fst] in L. rewrite P1, P2 in L. now apply Nat.ltb_lt in L. }
    intros rest arest. destruct (M rest arest) as [Q1 Q2]. split; [exact Q1|]. exact Q2.
Qed.

(** ** C49 *)
(** 31 constants, the first of them at two places of the block; the hash is used by
    two [to_sample] nodes.  Generation without caching succeeds; with caching it
    panics: the constant is cached for the two uses the counting pass saw, but the
    hash is expanded twice. *)
Definition c49_calls : list call :=
  map (fun _ => CConstant [0%Z]) (seq 0 31) ++
  [CSponge; CBlake3 false (0 :: seq 0 32); CToSample false 32; CToSample false 32; CSampleBase 33; CSampleBase 34; CAdd 35 36].
Definition c49_expr : expr := last_of (history c49_calls [] 0).
Definition none_getter : getter := fun _ => None.

Theorem C49_caching_panics_refuted :
  exists cs pool n e, history cs [] 0 = Some (pool, n) /\ In e pool /\
    usable my_gadgets none_getter e tracker_new /\ inputs none_getter e = [] /\
    (exists r, express my_gadgets none_getter false e tracker_new = Some r) /\
    express my_gadgets none_getter true e tracker_new = None.
Proof.
  assert (E0 : is_some (history c49_calls [] 0) = true) by (vm_compute; reflexivity).
  apply is_some_ex in E0 as [[pool n] E].
  exists c49_calls, pool, n, c49_expr. split; [exact E|].
  split.
  { apply (last_of_in _ _ _ _ E). intros ->.
    assert (L : option_map (fun r => length (fst r)) (history c49_calls [] 0) = Some 38%nat) by (vm_compute; reflexivity).
    rewrite E in L. discriminate L. }
  split.
  { constructor; [repeat split; cbn; try lia; constructor|discriminate| |].
    - assert (S1 : is_some (shape my_gadgets none_getter c49_expr) = true) by (vm_compute; reflexivity).
      intros S2. rewrite S2 in S1. discriminate S1.
    - change (t_main tracker_new) with (@nil svar). change (items []) with 0. cbn [Nat.add].
      assert (S1 : need my_gadgets none_getter c49_expr = 65) by (vm_compute; reflexivity). rewrite S1. reflexivity. }
  split; [vm_compute; reflexivity|]. split.
  - apply is_some_ex. vm_compute. reflexivity.
  - apply is_some_not. vm_compute. reflexivity.
Qed.
