(** Shape of the graphs built by the script-side challenger: the constants below a
    multi-output node occur once, so such nodes may be shared. *)
From Coq Require Import ZArith List Bool Arith Lia.
From Verif Require Import DslModel DslSpec DslProofs DslDag DslMain DslOpSpec DslBuild DslIds.
Import ListNotations.
Local Open Scope nat_scope.

(** ** References to a node that occurs once *)
Definition occ (i : nat) (l : list expr) : nat := length (filter (fun x => e_id x =? i) l).
Definition seen (V : nat -> nat) (i : nat) : nat := if V i =? 0 then 0 else 1.

Lemma seen_mono : forall (V W : nat -> nat) j, V j <= W j -> seen V j <= seen W j.
Proof. intros V W j L. unfold seen. destruct (Nat.eqb_spec (V j) 0), (Nat.eqb_spec (W j) 0); lia. Qed.

Section Once.
  Variable R : expr.
  Hypothesis uniq : unique_ids R.
  Variable p : expr.
  Hypothesis Sp : sub p R.
  Variable i : nat.
  Hypothesis Ni : i <> e_id p.
  (** [i] is an operand of [p] only, once *)
  Hypothesis once : occ i (e_ops p) = 1.
  Hypothesis only : forall q, sub q R -> e_id q <> e_id p -> occ i (e_ops q) = 0.

  Lemma visit_once : forall e, sub e R -> forall V,
    visit e V i + seen V (e_id p) <= V i + seen (visit e V) (e_id p) + (if e_id e =? i then 1 else 0).
  Proof.
    apply (expr_ind' (fun e => sub e R -> forall V,
      visit e V i + seen V (e_id p) <= V i + seen (visit e V) (e_id p) + (if e_id e =? i then 1 else 0))).
    intros id o s ops F Se V. rewrite visit_unfold. cbn [e_id].
    assert (K : forall V, visits ops V i + seen V (e_id p) <= V i + seen (visits ops V) (e_id p) + occ i ops).
    { assert (Sc : forall x, In x ops -> sub x R) by (intros x Ix; eapply sub_trans; [apply (sub_op x (Node id o s ops)), Ix|exact Se]).
      clear Se V. induction F as [|x ops Fx F IH]; intros V; [cbn; lia|].
      change (visits (x :: ops) V) with (visits ops (visit x V)).
      specialize (Fx (Sc x (or_introl eq_refl)) V). specialize (IH (fun y Iy => Sc y (or_intror Iy)) (visit x V)).
      unfold occ in *. cbn [filter]. destruct (e_id x =? i); cbn [length]; lia. }
    specialize (K V). destruct (Nat.eqb_spec (V id) 0) as [E|E].
    - pose proof (visits_self R uniq id o s ops V Se) as Sf.
      destruct (Nat.eq_dec id (e_id p)) as [Ep|Np].
      + assert (Q : Node id o s ops = p) by (apply uniq; auto). rewrite <- Q in once. cbn [e_ops] in once.
        rewrite once in K. rewrite upd_other by congruence. rewrite <- Ep in K |- *.
        unfold seen in *. rewrite upd_same. rewrite Sf, E in *. cbn in *. lia.
      + pose proof (only _ Se Np) as O. cbn [e_ops] in O. rewrite O in K.
        assert (S1 : seen (upd (visits ops V) id 1) (e_id p) = seen (visits ops V) (e_id p)) by (unfold seen; now rewrite upd_other by congruence).
        rewrite S1. destruct (Nat.eqb_spec id i) as [<-|Nd].
        * rewrite upd_same, E. pose proof (seen_mono _ _ (e_id p) (visits_mono ops V (e_id p))). lia.
        * rewrite upd_other by congruence. lia.
    - assert (S1 : seen V (e_id p) <= seen (upd V id (S (V id))) (e_id p)).
      { apply seen_mono. destruct (Nat.eq_dec (e_id p) id) as [->|Np]; [rewrite upd_same; lia|rewrite upd_other by exact Np; lia]. }
      destruct (Nat.eqb_spec id i) as [<-|Nd]; [rewrite upd_same|rewrite upd_other by congruence]; lia.
  Qed.

  Lemma refs_once : e_id R <> i -> refs R i <= 1.
  Proof.
    intros Nr. pose proof (visit_once R (sub_refl R) (fun _ => 0)) as V. apply Nat.eqb_neq in Nr. rewrite Nr in V.
    change (visit R (fun _ => 0)) with (refs R) in V. unfold seen in V. cbn in V. destruct (refs R (e_id p) =? 0); lia.
  Qed.
End Once.

(** ** Graphs in which a multi-output node owns its constants *)
Definition is_const (e : expr) : Prop := (exists v, e_op e = Constant v) /\ e_ops e = [].
Definition tidy (all : list expr) : Prop :=
  forall e x, In e all -> single (e_op e) = false -> In x (e_ops e) ->
    single (e_op x) = false \/
    (is_const x /\ occ (e_id x) (e_ops e) = 1 /\ forall q, In q all -> In x (e_ops q) -> q = e).
(** no input nodes *)
Definition silent (all : list expr) : Prop := forall e, In e all -> input_of (e_op e) = None.

Lemma occ_none : forall i l, (forall x, In x l -> e_id x <> i) -> occ i l = 0.
Proof.
  intros i l N. unfold occ. induction l as [|x l IH]; [reflexivity|]. cbn.
  assert (Q : e_id x <> i) by (apply N; now left). apply Nat.eqb_neq in Q. rewrite Q. apply IH. intros y Iy. apply N. now right.
Qed.

Lemma tidy_multi : forall n all r, made n all -> tidy all -> silent all -> In r all -> multi_plain r.
Proof.
  intros n all r M T Q Ir e x d Se Si _ Ix Sd.
  assert (U : unique_ids r) by (intros a b Sa Sb E; exact (made_unique n all r r a b M Ir Ir Sa Sb E)).
  split; [|intros y E]; cycle 1.
  { rewrite (Q d) in E; [discriminate E|]. eapply made_sub; [exact M|exact Ir|].
    eapply sub_trans; [exact Sd|]. eapply sub_trans; [apply sub_op, Ix|exact Se]. }
  revert e Se Si Ix. induction Sd as [x|d y x Iy Sd IH]; intros e Se Si Ix Sx.
  - destruct (T e x (made_sub n all r e M Ir Se) Si Ix) as [N|(_ & O & W)]; [congruence|].
    apply (refs_once r U e Se (e_id x)); [exact (no_self r U e x x Se Ix (sub_refl _))|exact O| |].
    + intros q Sq Nq. apply occ_none. intros z Iz E. apply Nq.
      assert (z = x).
      { apply U; [| |exact E].
        - eapply sub_trans; [apply sub_op, Iz|exact Sq].
        - eapply sub_trans; [apply sub_op, Ix|exact Se]. }
      subst z. now rewrite (W q (made_sub n all r q M Ir Sq) Iz).
    + intros E. assert (r = x).
      { apply U; [apply sub_refl| |exact E]. eapply sub_trans; [apply sub_op, Ix|exact Se]. }
      subst x. apply esize_op in Ix. apply sub_size in Se. lia.
  - assert (Sx' : sub x r) by (eapply sub_trans; [apply sub_op, Ix|exact Se]).
    destruct (T e x (made_sub n all r e M Ir Se) Si Ix) as [N|([_ C] & _)]; [|rewrite C in Iy; easy].
    exact (IH x Sx' N Iy Sx).
Qed.

(** ** Unused constants *)
Record spare (all l : list expr) : Prop := mkspare {
  sp_nodup : NoDup l;
  sp_in : incl l all;
  sp_const : forall x, In x l -> is_const x;
  sp_free : forall x q, In x l -> In q all -> ~ In x (e_ops q) }.
Record world (n : nat) (all l : list expr) : Prop := mkworld {
  w_made : made n all; w_tidy : tidy all; w_silent : silent all; w_spare : spare all l }.

Lemma world_nil : forall n, world n [] [].
Proof. intros n. constructor; [apply made_nil|easy|easy|]. constructor; [constructor|easy|easy|easy]. Qed.

Lemma spare_less : forall all l l', spare all l -> NoDup l' -> incl l' l -> spare all l'.
Proof.
  intros all l l' [N S0 C F] N' I'. constructor; auto.
  eapply incl_tran; eauto.
Qed.
Lemma world_less : forall n all l l', world n all l -> NoDup l' -> incl l' l -> world n all l'.
Proof. intros n all l l' [M T Q S0] N I'. constructor; auto. eapply spare_less; eauto. Qed.

Lemma world_const : forall n all l v, world n all l ->
  world (S n) (Node (S n) (Constant v) (length v) [] :: all) (Node (S n) (Constant v) (length v) [] :: l).
Proof.
  intros n all l v [M T Q [N S0 C F]]. set (c := Node (S n) (Constant v) (length v) []).
  assert (Fr : ~ In c all) by (intros I0; apply (md_le _ _ M) in I0; cbn in I0; lia).
  assert (Nc : forall q, In q all -> ~ In c (e_ops q)) by (intros q Iq I0; apply Fr; eapply md_ops; eauto).
  constructor.
  - apply made_cons; [eapply made_mono; eauto|eapply made_fresh; eauto|lia|easy].
  - intros e x [<-|Ie] Si Ix; [easy|]. destruct (T e x Ie Si Ix) as [A|(A & B & W)]; [now left|right].
    split; [exact A|]. split; [exact B|]. intros q [<-|Iq] Jx; [easy|]. now apply W.
  - intros e [<-|Ie]; [reflexivity|]. now apply Q.
  - constructor.
    + constructor; [|exact N]. intros I0. apply Fr, S0, I0.
    + intros x [<-|Ix]; [now left|right; auto].
    + intros x [<-|Ix]; [split; [now exists v|reflexivity]|auto].
    + intros x q [<-|Ix] [<-|Iq]; cbn; auto.
Qed.

(** A node whose constant operands were unused. *)
Lemma world_node_at : forall n all l i o sz ops l', world n all l -> ~ In i (map e_id all) -> i <= n -> incl ops all -> input_of o = None ->
  (forall x, In x ops -> (exists v, e_op x = Constant v) -> In x l) ->
  (single o = false -> forall x, In x ops -> single (e_op x) = false \/ (is_const x /\ occ (e_id x) ops = 1)) ->
  NoDup l' -> incl l' l -> (forall x, In x l' -> ~ In x ops) ->
  world n (Node i o sz ops :: all) l'.
Proof.
  intros n all l i o sz ops l' [M T Q S0] Fi Li Io Ip Cl Ow N' I' D. set (r := Node i o sz ops).
  assert (Fr : ~ In r all) by (intros I0; apply Fi; change i with (e_id r); now apply in_map).
  constructor.
  - now apply made_cons.
  - intros e x [<-|Ie] Si Ix.
    + cbn [e_op e_ops r] in *. destruct (Ow Si x Ix) as [A|[A B]]; [now left|right]. split; [exact A|]. split; [exact B|].
      intros q [<-|Iq] Jx; [reflexivity|]. exfalso. apply (sp_free _ _ S0 x q); auto. apply Cl; [exact Ix|]. apply A.
    + destruct (T e x Ie Si Ix) as [A|(A & B & W)]; [now left|right]. split; [exact A|]. split; [exact B|].
      intros q [<-|Iq] Jx; [|now apply W]. exfalso. cbn [e_ops r] in Jx. apply (sp_free _ _ S0 x e); auto. apply Cl; [exact Jx|]. apply A.
  - intros e [<-|Ie]; [exact Ip|]. now apply Q.
  - pose proof (spare_less _ _ _ S0 N' I') as [A B C F]. constructor; auto.
    + intros x Ix. right. auto.
    + intros x q Ix [<-|Iq]; [now apply D|]. apply F; auto.
Qed.
Lemma world_mono : forall n n' all l, world n all l -> n <= n' -> world n' all l.
Proof. intros n n' all l [M T Q S0] L. constructor; auto. eapply made_mono; eauto. Qed.
Lemma world_node : forall n all l o sz ops l', world n all l -> incl ops all -> input_of o = None ->
  (forall x, In x ops -> (exists v, e_op x = Constant v) -> In x l) ->
  (single o = false -> forall x, In x ops -> single (e_op x) = false \/ (is_const x /\ occ (e_id x) ops = 1)) ->
  NoDup l' -> incl l' l -> (forall x, In x l' -> ~ In x ops) ->
  world (S n) (Node (S n) o sz ops :: all) l'.
Proof.
  intros n all l o sz ops l' W. apply world_node_at; [apply (world_mono n); [exact W|lia]|apply (made_fresh n); [apply W|lia]|lia].
Qed.

(** ** Builders *)
(** [b] succeeds, keeps the world in order, turns the unused constants [l] into [l']. *)
Definition goes {A} (b : builder A) (all l : list expr) (Q : A -> list expr -> list expr -> Prop) : Prop :=
  forall n, world n all l -> exists a n' all' l', b n = Some (a, n') /\ world n' all' l' /\ incl all all' /\ Q a all' l'.

Lemma goes_ret : forall A (a : A) all l (Q : A -> list expr -> list expr -> Prop), Q a all l -> goes (ret a) all l Q.
Proof. intros A a all l Q q n W. exists a, n, all, l. split; [reflexivity|]. split; [exact W|]. split; [apply incl_refl|exact q]. Qed.
Lemma goes_bind : forall A B (b : builder A) (f : A -> builder B) all l P Q, goes b all l P ->
  (forall a all' l', incl all all' -> P a all' l' -> goes (f a) all' l' Q) -> goes (bind b f) all l Q.
Proof.
  intros A B b f all l P Q Gb Gf n W. destruct (Gb n W) as (a & n1 & all1 & l1 & E1 & W1 & I1 & P1).
  destruct (Gf a all1 l1 I1 P1 n1 W1) as (c & n2 & all2 & l2 & E2 & W2 & I2 & Q2).
  exists c, n2, all2, l2. split; [unfold bind; now rewrite E1|]. split; [exact W2|]. split; [eapply incl_tran; eauto|exact Q2].
Qed.
Lemma goes_weaken : forall A (b : builder A) all l (P Q : A -> list expr -> list expr -> Prop), goes b all l P ->
  (forall a all' l', incl all all' -> P a all' l' -> Q a all' l') -> goes b all l Q.
Proof.
  intros A b all l P Q Gb W n Wn. destruct (Gb n Wn) as (a & n1 & all1 & l1 & E1 & W1 & I1 & P1).
  exists a, n1, all1, l1. auto.
Qed.
Lemma goes_get : forall A (a : A) o all l, o = Some a -> goes (get o) all l (fun b all' l' => b = a /\ all' = all /\ l' = l).
Proof. intros A a o all l -> . apply goes_ret. auto. Qed.
Lemma goes_less : forall A (b : builder A) all l l' Q, NoDup l' -> incl l' l -> goes b all l' Q -> goes b all l Q.
Proof. intros A b all l l' Q N I0 G n W. apply G. eapply world_less; eauto. Qed.
(** what holds of the world may be used *)
Lemma goes_world : forall A (b : builder A) all l Q, (forall n, world n all l -> goes b all l Q) -> goes b all l Q.
Proof. intros A b all l Q G n W. exact (G n W n W). Qed.

Lemma goes_constant : forall v all l, goes (constant v) all l
  (fun e all' l' => l' = e :: l /\ e_op e = Constant v /\ e_ops e = [] /\ In e all' /\ exists i, e = Node i (Constant v) (length v) []).
Proof.
  intros v all l n W. exists (Node (S n) (Constant v) (length v) []), (S n), (Node (S n) (Constant v) (length v) [] :: all), (Node (S n) (Constant v) (length v) [] :: l).
  split; [reflexivity|]. split; [now apply world_const|]. split; [apply incl_tl, incl_refl|]. repeat split; eauto. now left.
Qed.
Lemma goes_node : forall o sz ops all l l', incl ops all -> input_of o = None ->
  (forall x, In x ops -> (exists v, e_op x = Constant v) -> In x l) ->
  (single o = false -> forall x, In x ops -> single (e_op x) = false \/ (is_const x /\ occ (e_id x) ops = 1)) ->
  NoDup l' -> incl l' l -> (forall x, In x l' -> ~ In x ops) ->
  goes (node o sz ops) all l (fun e all' k => k = l' /\ In e all' /\ exists i, e = Node i o sz ops).
Proof.
  intros o sz ops all l l' Io Ip Cl Ow N' I' D n W.
  exists (Node (S n) o sz ops), (S n), (Node (S n) o sz ops :: all), l'.
  split; [reflexivity|]. split; [eapply world_node; eauto|]. split; [apply incl_tl, incl_refl|]. repeat split; eauto. now left.
Qed.
(** no constant operand *)
Lemma goes_unary : forall o sz a all l, In a all -> input_of o = None -> (forall v, e_op a <> Constant v) -> (single o = false -> single (e_op a) = false) ->
  NoDup l -> goes (node o sz [a]) all l (fun e all' k => k = l /\ In e all' /\ exists i, e = Node i o sz [a]).
Proof.
  intros o sz a all l Ia Ip Na Sa N. apply goes_world. intros n W. apply goes_node; auto.
  - intros x [<-|[]]; auto.
  - intros x [<-|[]] [v E]. now elim (Na v).
  - intros S0 x [<-|[]]. left. auto.
  - apply incl_refl.
  - intros x Ix [<-|[]]. destruct (sp_const _ _ (w_spare _ _ _ W) _ Ix) as [[v E] _]. now elim (Na v).
Qed.

(** a constant whose user was numbered first: index_to_rou *)
Lemma goes_rou : forall (v : Z) bits all l, goes (index_to_rou false v bits) all l
  (fun e all' k => k = l /\ In e all' /\ exists i j, e = Node i (IndexToRou false bits) 1 [Node j (Constant [v]) 1 []]).
Proof.
  intros v bits all l n W. set (c := Node (S (S n)) (Constant [v]) 1 []). set (r := Node (S n) (IndexToRou false bits) 1 [c]).
  assert (Wc : world (S (S n)) (c :: all) (c :: l)) by (apply (world_const (S n) all l [v]), (world_mono n); [exact W|lia]).
  exists r, (S (S n)), (r :: c :: all), l. split; [reflexivity|]. split.
  - pose proof (sp_nodup _ _ (w_spare _ _ _ Wc)) as N. inversion N as [|? ? Nc N']; subst.
    eapply world_node_at with (l := c :: l); [exact Wc| |lia| |reflexivity| |discriminate|exact N'|apply incl_tl, incl_refl|].
    + cbn [map e_id c]. intros [E|I0]; [lia|]. revert I0. apply (made_fresh n); [apply W|lia].
    + intros x [<-|[]]. now left.
    + intros x [<-|[]] _. now left.
    + intros x Ix [<-|[]]. now apply Nc.
  - split; [apply incl_tl, incl_tl, incl_refl|]. split; [reflexivity|]. split; [now left|]. now exists (S n), (S (S n)).
Qed.
