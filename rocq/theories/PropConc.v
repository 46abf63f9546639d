(** C90: scripts do not depend on the identifiers, so neither on the value of the global counter
    nor on how threads interleave. *)
From Coq Require Import ZArith List Bool Arith Lia Sorted.
From Verif Require Import Field BabyBear DslModel DslSpec DslOpSpec DslProofs DslDag DslBuild DslIds DslGadgets DslConc PropDsl.
Import ListNotations.
Local Open Scope nat_scope.

(** ** Renaming of identifiers *)
Fixpoint rename (f : nat -> nat) (e : expr) : expr :=
  let 'Node i o s ops := e in Node (f i) o s (map (rename f) ops).
Lemma rename_var_size : forall f e, var_size (rename f e) = var_size e.
Proof. intros f [i o s ops]. reflexivity. Qed.
Lemma rename_id : forall f e, e_id (rename f e) = f (e_id e).
Proof. intros f [i o s ops]. reflexivity. Qed.
Lemma rename_ext : forall f g e, (forall d, sub d e -> f (e_id d) = g (e_id d)) -> rename f e = rename g e.
Proof.
  intros f g. apply (expr_ind' (fun e => (forall d, sub d e -> f (e_id d) = g (e_id d)) -> rename f e = rename g e)).
  intros i o s ops F H. cbn. f_equal; [exact (H _ (sub_refl _))|]. rewrite Forall_forall in F. apply map_ext_in.
  intros x Ix. apply F; auto. intros d Sd. apply H. eapply sub_step; eauto.
Qed.
Lemma rename_same : forall e, rename (fun i => i) e = e.
Proof.
  apply expr_ind'. intros i o s ops F. cbn. f_equal. rewrite Forall_forall in F. rewrite <- (map_id ops) at 2.
  apply map_ext_in. exact F.
Qed.
Lemma sub_rename : forall f e d, sub d (rename f e) -> exists c, sub c e /\ d = rename f c.
Proof.
  intros f. apply (expr_ind' (fun e => forall d, sub d (rename f e) -> exists c, sub c e /\ d = rename f c)).
  intros i o s ops F d Sd. inversion Sd as [|? x ? Ix Sx]; subst; [exists (Node i o s ops); split; [constructor|reflexivity]|].
  cbn in Ix. apply in_map_iff in Ix as (y & <- & Iy). rewrite Forall_forall in F. destruct (F y Iy d Sx) as (c & Sc & ->).
  exists c. split; auto. eapply sub_step; eauto.
Qed.

(** *** Generation *)
Section Rename.
  Variable G : gadgets.
  Variable gt : getter.
  Variable f : nat -> nat.
  Hypothesis inj : forall i j, f i = f j -> i = j.
  Definition same_map (m m' : idmap) : Prop := forall i, m' (f i) = m i.
  Lemma same_insert : forall m m' i c, same_map m m' -> same_map (map_insert i c m) (map_insert (f i) c m').
  Proof.
    intros m m' i c S j. unfold map_insert. destruct (Nat.eqb_spec j i) as [->|N]; [now rewrite Nat.eqb_refl|].
    destruct (Nat.eqb_spec (f j) (f i)) as [E|]; [|apply S]. now apply inj in E.
  Qed.
  Lemma same_simulate : forall e m m', same_map m m' -> same_map (simulate_express e m) (simulate_express (rename f e) m').
  Proof.
    apply (expr_ind' (fun e => forall m m', same_map m m' -> same_map (simulate_express e m) (simulate_express (rename f e) m'))).
    intros i o s ops F m m' S. cbn [rename]. rewrite !simulate_unfold. rewrite (S i).
    destruct (m i) as [c|]; [now apply same_insert|].
    assert (S1 : same_map (map_insert i (mkic 1 0 None) m) (map_insert (f i) (mkic 1 0 None) m')) by now apply same_insert.
    revert S1. generalize (map_insert i (mkic 1 0 None) m) (map_insert (f i) (mkic 1 0 None) m').
    clear S m m'. induction F as [|x ops Fx F IH]; intros m m' S; cbn; [exact S|]. apply IH, Fx, S.
  Qed.
  Definition same_result (r r' : option (tracker * idmap * list svar)) : Prop :=
    match r, r' with
    | Some (T, m, vs), Some (T', m', vs') => T' = T /\ vs' = vs /\ same_map m m'
    | None, None => True
    | _, _ => False
    end.
  Lemma same_keep : forall i vs T m m', same_map m m' -> same_result (keep_copy i vs T m) (keep_copy (f i) vs T m').
  Proof.
    intros i vs T m m' S. unfold keep_copy. rewrite (S i). destruct (m i) as [c|]; [|exact Logic.I].
    destruct (stack_var c); [cbn; auto|]. destruct ((1 <? count c) && (copied c =? 0)); [|cbn; auto].
    destruct vs as [|v vs]; [exact Logic.I|]. destruct (copy_var v T) as [[T1 w]|]; [|exact Logic.I].
    destruct (to_altstack T1) as [[T2 cv]|]; [|exact Logic.I]. cbn. split; [|split]; auto. now apply same_insert.
  Qed.
  Lemma same_reuse : forall i T m m', same_map m m' ->
    match reuse i T m, reuse (f i) T m' with
    | Some r, Some r' => same_result r r'
    | None, None => True
    | _, _ => False
    end.
  Proof.
    intros i T m m' S. unfold reuse. rewrite (S i). destruct (m i) as [c|]; [|exact Logic.I].
    destruct (stack_var c) as [v|]; [|exact Logic.I]. destruct (1 <? count c); [|exact Logic.I].
    destruct (copied c =? count c - 2).
    - destruct (move_var_from_altstack v T) as [[T' n]|]; [|exact Logic.I]. cbn. auto.
    - destruct (copy_var_from_altstack v T) as [[T' n]|]; [|exact Logic.I]. cbn. split; [|split]; auto. now apply same_insert.
  Qed.
  Lemma same_express : forall optimize e T m m', same_map m m' ->
    same_result (express_to_script G gt optimize e T m) (express_to_script G gt optimize (rename f e) T m').
  Proof.
    intros optimize. apply (expr_ind' (fun e => forall T m m', same_map m m' ->
      same_result (express_to_script G gt optimize e T m) (express_to_script G gt optimize (rename f e) T m'))).
    intros i o s ops F T m m' S. cbn [rename]. rewrite !express_unfold.
    assert (R : match (if optimize && single o then reuse i T m else None), (if optimize && single o then reuse (f i) T m' else None) with
                | Some r, Some r' => same_result r r' | None, None => True | _, _ => False end).
    { destruct (optimize && single o); [now apply same_reuse|exact Logic.I]. }
    destruct (if optimize && single o then reuse i T m else None) as [r|], (if optimize && single o then reuse (f i) T m' else None) as [r'|];
      try contradiction; auto. clear R.
    rewrite map_length. destruct (number_ok (input_number o) (length ops)); [|exact Logic.I].
    assert (K : match operands G gt optimize ops T m, operands G gt optimize (map (rename f) ops) T m' with
                | Some (T1, m1, ss), Some (T1', m1', ss') => T1' = T1 /\ ss' = ss /\ same_map m1 m1'
                | None, None => True | _, _ => False end).
    { revert T m m' S. induction F as [|x ops Fx F IH]; intros T m m' S; cbn; [auto|].
      specialize (Fx T m m' S). destruct (express_to_script G gt optimize x T m) as [[[Tx mx] vx]|],
        (express_to_script G gt optimize (rename f x) T m') as [[[Tx' mx'] vx']|]; try contradiction; auto.
      destruct Fx as (-> & -> & Sx). rewrite rename_var_size. destruct (var_size x) as [sz|]; [|exact Logic.I].
      specialize (IH Tx mx mx' Sx).
      change (match match operands G gt optimize ops Tx mx with Some (T2, m2, ss) => Some (T2, m2, sz :: ss) | None => None end,
                    match operands G gt optimize (map (rename f) ops) Tx mx' with Some (T2, m2, ss) => Some (T2, m2, sz :: ss) | None => None end with
              | Some (T1, m1, ss), Some (T1', m1', ss') => T1' = T1 /\ ss' = ss /\ same_map m1 m1'
              | None, None => True | _, _ => False end).
      destruct (operands G gt optimize ops Tx mx) as [[[T2 m2] s2]|], (operands G gt optimize (map (rename f) ops) Tx mx') as [[[T2' m2'] s2']|];
        try contradiction; auto. destruct IH as (-> & -> & S2). auto. }
    destruct (operands G gt optimize ops T m) as [[[T1 m1] ss]|], (operands G gt optimize (map (rename f) ops) T m') as [[[T1' m1'] ss']|];
      try contradiction; auto.
    destruct K as (-> & -> & S1). destruct (run_generator G gt o ss T1) as [[T2 vs]|]; [|exact Logic.I].
    destruct (number_ok (output_number o) (length vs)); [|exact Logic.I].
    destruct (optimize && single o); [now apply same_keep|cbn; auto].
  Qed.
End Rename.

(** What a client sees of generation: the tracker with the script, and the variables. *)
Definition generated (G : gadgets) (gt : getter) (optimize : bool) (e : expr) (T : tracker) : option (tracker * list svar) :=
  match express G gt optimize e T with Some (T', _, vs) => Some (T', vs) | None => None end.
Lemma generated_rename : forall f G gt optimize e T, (forall i j, f i = f j -> i = j) ->
  generated G gt optimize (rename f e) T = generated G gt optimize e T.
Proof.
  intros f G gt optimize e T inj. unfold generated, express.
  pose proof (same_express G gt f inj optimize e T (simulate_express e map_empty) (simulate_express (rename f e) map_empty)
    (same_simulate f inj e map_empty map_empty (fun _ => eq_refl))) as K. unfold same_result in K.
  destruct (express_to_script G gt optimize e T (simulate_express e map_empty)) as [[[T1 m1] vs]|],
    (express_to_script G gt optimize (rename f e) T (simulate_express (rename f e) map_empty)) as [[[T1' m1'] vs']|]; try contradiction; auto.
  destruct K as (-> & -> & _). reflexivity.
Qed.

(** ** A thread alone *)
Fixpoint alone {A} (p : proc A) (n : nat) : option (A * nat) :=
  match p with Done a => Some (a, n) | Take k => alone (k (S n)) (S n) | Stuck => None end.
Lemma alone_bind : forall A B (p : proc A) (f : A -> proc B) n,
  alone (pbind p f) n = match alone p n with Some (a, n') => alone (f a) n' | None => None end.
Proof. induction p as [a|k IH|]; intros f n; cbn; auto. Qed.
Lemma alone_perform : forall pool c n, alone (pperform pool c) n = perform pool c n.
Proof.
  intros pool c n. assert (W : forall A (x : option A) (f : A -> proc expr) (g : A -> builder expr) n,
    (forall a n, alone (f a) n = g a n) -> alone (pbind (pget x) f) n = bind (get x) g n) by (intros A [a|] f g m E; cbn; auto).
  assert (V : forall b (p : proc expr) (g : builder expr) n, (forall n, alone p n = g n) ->
    alone (pbind (pcheck b) (fun _ => p)) n = bind (check b) (fun _ => g) n) by (intros [|] p g m E; cbn; auto).
  destruct c; cbn [pperform perform]; try reflexivity;
    repeat (first [apply W; intros | apply V; intros | reflexivity]).
Qed.
Lemma alone_thread : forall cs pool n, alone (pthread cs pool) n = history cs pool n.
Proof.
  induction cs as [|c cs IH]; intros pool n; cbn; [reflexivity|]. rewrite alone_bind, alone_perform. unfold bind.
  destruct (perform pool c n) as [[e n']|]; auto.
Qed.

(** ** Feeding identifiers *)
Inductive fed {A} : proc A -> list nat -> proc A -> Prop :=
| fed_nil : forall p, fed p [] p
| fed_take : forall k i r q, fed (k i) r q -> fed (Take k) (i :: r) q.
Lemma fed_snoc : forall A (p : proc A) ids k i, fed p ids (Take k) -> fed p (ids ++ [i]) (k i).
Proof.
  intros A p ids k i H. remember (Take k) as q eqn:E. induction H as [p|k' j r q H IH]; subst; cbn; repeat constructor. auto.
Qed.
Lemma fed_alone : forall A m n (p q : proc A), fed p (seq (S n) m) q -> alone p n = alone q (n + m).
Proof.
  induction m as [|m IH]; intros n p q H; cbn in H; inversion H; subst; [now rewrite Nat.add_0_r|].
  cbn. rewrite <- Nat.add_succ_comm. now apply IH.
Qed.

Section Related.
  Variable f : nat -> nat.
  Inductive rel {A} (g : A -> A) : proc A -> proc A -> Prop :=
  | rel_done : forall a, rel g (Done a) (Done (g a))
  | rel_take : forall k k', (forall i, rel g (k i) (k' (f i))) -> rel g (Take k) (Take k')
  | rel_stuck : rel g Stuck Stuck.
  Lemma rel_bind : forall A B (gA : A -> A) (gB : B -> B) p p' (h h' : A -> proc B), rel gA p p' ->
    (forall a, rel gB (h a) (h' (gA a))) -> rel gB (pbind p h) (pbind p' h').
  Proof. intros A B gA gB p p' h h' R Hh. induction R as [a|k k' R IH|]; cbn; auto; constructor; auto. Qed.
  Lemma rel_get : forall A (g : A -> A) o, rel g (pget o) (pget (option_map g o)).
  Proof. intros A g [a|]; cbn; constructor. Qed.
  Lemma rel_get_size : forall x, rel (fun s : nat => s) (pget (var_size x)) (pget (var_size (rename f x))).
  Proof. intros x. rewrite rename_var_size. destruct (var_size x) as [s|]; cbn; [exact (rel_done (fun s => s) s)|constructor]. Qed.
  Lemma rel_check : forall c, rel (fun u : unit => u) (pcheck c) (pcheck c).
  Proof. intros [|]; cbn; [exact (rel_done (fun u => u) tt)|constructor]. Qed.
  Lemma rel_node : forall o s ops, rel (rename f) (pnode o s ops) (pnode o s (map (rename f) ops)).
  Proof. intros o s ops. constructor. intros i. exact (rel_done (rename f) (Node i o s ops)). Qed.
  Lemma rel_own_first : forall o s v, rel (rename f) (pown_first o s v) (pown_first o s v).
  Proof.
    intros o s v. constructor. intros i. cbn. constructor. intros j. cbn.
    exact (rel_done (rename f) (Node i o s [Node j (Constant [v]) 1 []])).
  Qed.
  Lemma nth_rename : forall pool a, nth_error (map (rename f) pool) a = option_map (rename f) (nth_error pool a).
  Proof. intros pool a. apply nth_error_map. Qed.
  Lemma handles_rename : forall pool l, handles (map (rename f) pool) l = option_map (map (rename f)) (handles pool l).
  Proof.
    intros pool l. induction l as [|a l IH]; cbn; [reflexivity|]. rewrite nth_rename, IH.
    destruct (nth_error pool a); cbn; [|reflexivity]. destruct (handles pool l); reflexivity.
  Qed.
  Lemma rel_unary : forall o x, rel (rename f) (punary o x) (punary o (rename f x)).
  Proof. intros o x. eapply rel_bind; [apply rel_get_size|]. intros s. apply rel_node. Qed.
  Lemma rel_binary : forall o x y, rel (rename f) (pbinary o x y) (pbinary o (rename f x) (rename f y)).
  Proof.
    intros o x y. eapply rel_bind; [apply rel_get_size|]. intros s. eapply rel_bind; [apply rel_get_size|]. intros t.
    apply (rel_node o (Nat.max s t) [x; y]).
  Qed.
  Lemma rel_binary_ext : forall o a b x y, rel (rename f) (pbinary_ext o a b x y) (pbinary_ext o a b (rename f x) (rename f y)).
  Proof.
    intros o a b x y. eapply rel_bind; [apply rel_check|]. intros _. eapply rel_bind; [apply rel_check|]. intros _.
    apply (rel_node o _ [x; y]).
  Qed.
  Lemma rel_binary_base : forall o a b x y, rel (rename f) (pbinary_base o a b x y) (pbinary_base o a b (rename f x) (rename f y)).
  Proof.
    intros o a b x y. eapply rel_bind; [apply rel_check|]. intros _. eapply rel_bind; [apply rel_check|]. intros _.
    apply (rel_node o _ [x; y]).
  Qed.
  Lemma rel_perform : forall pool c, rel (rename f) (pperform pool c) (pperform (map (rename f) pool) c).
  Proof.
    intros pool c. destruct c; cbn [pperform]; rewrite ?nth_rename, ?handles_rename;
      repeat first
      [ apply (rel_node _ _ []) | apply rel_own_first | apply rel_unary | apply rel_binary | apply rel_binary_ext | apply rel_binary_base
      | (eapply rel_bind; [apply rel_get_size|]; intros) | (eapply rel_bind; [apply rel_check|]; intros)
      | (eapply rel_bind; [apply rel_get|]; intros) ];
      try (match goal with |- rel _ (pnode ?o ?s [?x; ?y]) _ => apply (rel_node o s [x; y]) | |- rel _ (pnode ?o ?s [?x]) _ => apply (rel_node o s [x])
           | |- rel _ (pnode ?o ?s ?l) _ => apply (rel_node o s l) end).
    eapply rel_bind; [exact (rel_node (Constant [index]) 1 [])|]. intros c. apply (rel_node (Lookup ext len) _ [a0; c]).
  Qed.
  Lemma rel_thread : forall cs pool, rel (map (rename f)) (pthread cs pool) (pthread cs (map (rename f) pool)).
  Proof.
    induction cs as [|c cs IH]; intros pool; cbn [pthread]; [constructor|].
    eapply rel_bind; [apply rel_perform|]. intros e.
    assert (E : map (rename f) pool ++ [rename f e] = map (rename f) (pool ++ [e])) by now rewrite map_app.
    rewrite E. apply IH.
  Qed.
  Lemma rel_fed : forall A (g : A -> A) s p p' q', rel g p p' -> fed p' (map f s) q' -> exists q, fed p s q /\ rel g q q'.
  Proof.
    intros A g. induction s as [|i s IH]; intros p p' q' R H; cbn in H; inversion H; subst; [exists p; split; [constructor|exact R]|].
    inversion R as [|k1 k1' Rk|]; subst. destruct (IH _ _ _ (Rk i) H4) as (q & Fq & Rq). exists q. split; [now constructor|exact Rq].
  Qed.
End Related.

(** ** Identifiers taken by the threads *)
Section Machine.
  Variables (n0 : nat) (pool : list expr) (css : list (list call)).
  Definition taken_ok (N : nat) (ids : list nat) : Prop := StronglySorted lt ids /\ Forall (fun i => n0 < i <= N) ids.
  Definition inv (cnt : nat -> nat) (M : machine) (idss : list (list nat)) : Prop :=
    (forall t k ids, nth_error (threads M) t = Some (Take k) -> nth_error idss t = Some ids -> length ids = cnt t) /\
    n0 <= opid M /\ length (threads M) = length css /\ length idss = length css /\
    (forall t cs q ids, nth_error css t = Some cs -> nth_error (threads M) t = Some q -> nth_error idss t = Some ids ->
       fed (pthread cs pool) ids q /\ taken_ok (opid M) ids) /\
    (forall t t' ids ids' i, nth_error idss t = Some ids -> nth_error idss t' = Some ids' -> In i ids -> In i ids' -> t = t').
  Lemma replace_length : forall A (l : list A) t x, length (replace l t x) = length l.
  Proof. induction l as [|y l IH]; intros [|t] x; cbn; auto. Qed.
  Lemma replace_same : forall A (l : list A) t x y, nth_error l t = Some y -> nth_error (replace l t x) t = Some x.
  Proof. induction l as [|z l IH]; intros [|t] x y E; cbn in *; try easy. eapply IH; eauto. Qed.
  Lemma replace_other : forall A (l : list A) t t' x, t <> t' -> nth_error (replace l t x) t' = nth_error l t'.
  Proof. induction l as [|z l IH]; intros [|t] [|t'] x N; cbn; try easy. apply IH. congruence. Qed.
  Lemma sorted_snoc : forall l i, StronglySorted lt l -> Forall (fun j => j < i) l -> StronglySorted lt (l ++ [i]).
  Proof.
    induction l as [|j l IH]; intros i S F; cbn; [repeat constructor|].
    inversion S as [|? ? S' Fj]; inversion F; subst. constructor; [auto|]. apply Forall_app. split; auto.
  Qed.
  Lemma taken_mono : forall N N' ids, N <= N' -> taken_ok N ids -> taken_ok N' ids.
  Proof. intros N N' ids L [S F]. split; [exact S|]. eapply Forall_impl; [|exact F]. cbn. lia. Qed.
  Lemma inv_start : inv (fun _ => 0) (start n0 pool css) (map (fun _ => []) css).
  Proof.
    unfold inv, start. cbn. rewrite !map_length. split.
    { intros t k ids _ Ei. rewrite nth_error_map in Ei. destruct (nth_error css t); [|discriminate]. injection Ei as <-. reflexivity. }
    split; [lia|]. split; [reflexivity|]. split; [reflexivity|]. split.
    - intros t cs q ids Ec Eq Ei. rewrite nth_error_map, Ec in Eq, Ei. injection Eq as <-. injection Ei as <-.
      split; [constructor|]. split; constructor.
    - intros t t' ids ids' i Ei _ I0 _. rewrite nth_error_map in Ei. destruct (nth_error css t); [|discriminate]. injection Ei as <-. destruct I0.
  Qed.
  Definition bump (t : nat) (cnt : nat -> nat) (u : nat) : nat := cnt u + (if t =? u then 1 else 0).
  Lemma inv_turn : forall cnt t M idss, inv cnt M idss -> exists idss', inv (bump t cnt) (turn t M) idss'.
  Proof.
    intros cnt t M idss (Cn & L & L1 & L2 & F & D). unfold turn.
    assert (Cn' : (forall k, nth_error (threads M) t <> Some (Take k)) -> forall u k ids, nth_error (threads M) u = Some (Take k) -> nth_error idss u = Some ids -> length ids = bump t cnt u).
    { intros Nt u k ids Eu Ei. unfold bump. destruct (Nat.eqb_spec t u) as [<-|]; [now apply Nt in Eu|]. rewrite (Cn u k ids Eu Ei). lia. }
    destruct (nth_error (threads M) t) as [[a|k|]|] eqn:Et; [|clear Cn'| |]; try (exists idss; unfold inv; rewrite ?Et; split; [apply Cn'; discriminate|tauto]).
    assert (B : t < length css) by (rewrite <- L1; apply nth_error_Some; congruence).
    destruct (nth_error idss t) as [ids|] eqn:Ei; [|apply nth_error_None in Ei; lia].
    destruct (nth_error css t) as [cs|] eqn:Ec; [|apply nth_error_None in Ec; lia].
    destruct (F t cs _ ids Ec Et Ei) as [Fd [So Fb]].
    exists (replace idss t (ids ++ [S (opid M)])). unfold inv. cbn [opid threads]. rewrite !replace_length.
    split.
    { intros u k' us Eu Ei'. unfold bump. destruct (Nat.eqb_spec t u) as [<-|N].
      - rewrite (replace_same _ _ _ _ _ Ei) in Ei'. injection Ei' as <-. rewrite app_length, (Cn _ _ _ Et Ei). reflexivity.
      - rewrite replace_other in Eu, Ei' by exact N. rewrite (Cn _ _ _ Eu Ei'). lia. }
    split; [lia|]. split; [exact L1|]. split; [exact L2|]. split.
    - intros t' cs' q ids' Ec' Eq Ei'. destruct (Nat.eq_dec t t') as [<-|N].
      + rewrite (replace_same _ _ _ _ _ Et) in Eq. rewrite (replace_same _ _ _ _ _ Ei) in Ei'. injection Eq as <-. injection Ei' as <-.
        rewrite Ec in Ec'. injection Ec' as <-. split; [now apply fed_snoc|]. split.
        * apply sorted_snoc; auto. eapply Forall_impl; [|exact Fb]. cbn. lia.
        * apply Forall_app. split; [eapply Forall_impl; [|exact Fb]; cbn; lia|]. constructor; [lia|constructor].
      + rewrite replace_other in Eq, Ei' by exact N. destruct (F t' cs' q ids' Ec' Eq Ei') as [Fd' T']. split; auto.
        eapply taken_mono; [|exact T']. lia.
    - assert (New : forall u us, nth_error idss u = Some us -> ~ In (S (opid M)) us).
      { intros u us Eu I0. destruct (nth_error css u) as [cu|] eqn:Ecu.
        - destruct (nth_error (threads M) u) as [qu|] eqn:Equ.
          + destruct (F u cu qu us Ecu Equ Eu) as [_ [_ Fu]]. rewrite Forall_forall in Fu. specialize (Fu _ I0). lia.
          + apply nth_error_None in Equ. assert (u < length css) by (apply nth_error_Some; congruence). lia.
        - apply nth_error_None in Ecu. assert (u < length idss) by (apply nth_error_Some; congruence). lia. }
      assert (X : forall u us i, nth_error (replace idss t (ids ++ [S (opid M)])) u = Some us -> In i us ->
        (u = t /\ i = S (opid M)) \/ (exists us', nth_error idss u = Some us' /\ In i us')).
      { intros u us i Eu I0. destruct (Nat.eq_dec t u) as [<-|N].
        - rewrite (replace_same _ _ _ _ _ Ei) in Eu. injection Eu as <-. apply in_app_iff in I0 as [I0|[<-|[]]]; [right; eauto|left; auto].
        - rewrite replace_other in Eu by exact N. right. eauto. }
      intros u u' us us' i Eu Eu' I0 I1. apply (X _ _ _ Eu) in I0. apply (X _ _ _ Eu') in I1.
      destruct I0 as [[-> ->]|(vs & Ev & Iv)], I1 as [[-> E1]|(vs' & Ev' & Iv')]; auto.
      + exfalso. eapply New; eauto.
      + subst i. exfalso. eapply New; eauto.
      + eapply D; eauto.
  Qed.
  Lemma inv_schedule : forall ts cnt M idss, inv cnt M idss ->
    exists idss', inv (fun u => cnt u + count_occ Nat.eq_dec ts u) (schedule ts M) idss'.
  Proof.
    assert (Ext : forall c c' M idss, (forall u, c u = c' u) -> inv c M idss -> inv c' M idss).
    { intros c c' M idss E (Cn & R). split; [|exact R]. intros t k ids Et Ei. rewrite <- E. eauto. }
    induction ts as [|t ts IH]; intros cnt M idss I0; cbn [schedule fold_left]; [exists idss; eapply Ext; [|exact I0]; intros u; cbn; lia|].
    destruct (inv_turn cnt t M idss I0) as [idss' I1]. destruct (IH _ _ _ I1) as [idss2 I2]. exists idss2.
    eapply Ext; [|exact I2]. intros u. unfold bump. cbn [count_occ]. destruct (Nat.eq_dec t u) as [->|N]; [rewrite Nat.eqb_refl; lia|].
    apply Nat.eqb_neq in N. rewrite N. lia.
  Qed.

  (** The renaming: the j-th identifier a thread takes. *)
  Definition ranks (N : nat) (ids : list nat) (i : nat) : nat :=
    if i <=? n0 then i else match nth_error ids (i - S n0) with Some j => j | None => i + N end.
  Lemma ranks_mono : forall N ids i j, taken_ok N ids -> i < j -> ranks N ids i < ranks N ids j.
  Proof.
    intros N ids i j [So F] L. unfold ranks. rewrite Forall_forall in F.
    assert (Nth : forall l a b x y, StronglySorted lt l -> a < b -> nth_error l a = Some x -> nth_error l b = Some y -> x < y).
    { clear. induction l as [|z l IH]; intros a b x y S L Ea Eb; [destruct a; discriminate|].
      inversion S as [|? ? S' Fz]; subst. destruct b as [|b]; [lia|]. cbn in Eb. destruct a as [|a]; cbn in Ea.
      - injection Ea as <-. rewrite Forall_forall in Fz. apply Fz. eapply nth_error_In; eauto.
      - eapply (IH a b); eauto. lia. }
    destruct (Nat.leb_spec i n0), (Nat.leb_spec j n0); try lia.
    - destruct (nth_error ids (j - S n0)) as [y|] eqn:Ey; [|lia]. apply nth_error_In in Ey. specialize (F _ Ey). lia.
    - destruct (nth_error ids (i - S n0)) as [x|] eqn:Ex, (nth_error ids (j - S n0)) as [y|] eqn:Ey; try lia.
      + eapply (Nth ids (i - S n0) (j - S n0)); eauto. lia.
      + apply nth_error_In in Ex. specialize (F _ Ex). lia.
      + apply nth_error_None in Ex. assert (j - S n0 < length ids) by (apply nth_error_Some; congruence). lia.
  Qed.
  Lemma ranks_seq : forall N ids, map (ranks N ids) (seq (S n0) (length ids)) = ids.
  Proof.
    intros N ids. apply nth_ext with (d := 0) (d' := 0); [now rewrite map_length, seq_length|].
    intros k L. rewrite map_length, seq_length in L. rewrite (nth_indep _ 0 (ranks N ids 0)) by now rewrite map_length, seq_length.
    rewrite map_nth, seq_nth by exact L. unfold ranks. destruct (Nat.leb_spec (S n0 + k) n0); [lia|].
    replace (S n0 + k - S n0) with k by lia. now rewrite (nth_error_nth' ids 0 L).
  Qed.
  Hypothesis old : forall e d, In e pool -> sub d e -> e_id d <= n0.
  Lemma ranks_pool : forall N ids, map (rename (ranks N ids)) pool = pool.
  Proof.
    intros N ids. rewrite <- (map_id pool) at 2. apply map_ext_in. intros e Ie. rewrite <- (rename_same e) at 2.
    apply rename_ext. intros d Sd. unfold ranks. destruct (Nat.leb_spec (e_id d) n0); [reflexivity|]. specialize (old e d Ie Sd). lia.
  Qed.

  (** A thread does what it would do alone, with other identifiers. *)
  Lemma thread_alone : forall N cs ids q, fed (pthread cs pool) ids q ->
    exists q0, fed (pthread cs pool) (seq (S n0) (length ids)) q0 /\ rel (ranks N ids) (map (rename (ranks N ids))) q0 q.
  Proof.
    intros N cs ids q Fq. pose proof (rel_thread (ranks N ids) cs pool) as R. rewrite ranks_pool in R.
    apply (rel_fed _ _ _ _ _ _ q R). now rewrite ranks_seq.
  Qed.
End Machine.

(** What a computation with given identifiers can make: nodes it was given, or nodes with them. *)
Section Origin.
  Variable ok : nat -> Prop.
  Variable P : expr -> Prop.
  Definition from_here (e : expr) : Prop := forall d, sub d e -> P d \/ ok (e_id d).
  Inductive makes {A} (g : A -> Prop) : proc A -> Prop :=
  | makes_done : forall a, g a -> makes g (Done a)
  | makes_take : forall k, (forall i, ok i -> makes g (k i)) -> makes g (Take k)
  | makes_stuck : makes g Stuck.
  Lemma makes_bind : forall A B (g : A -> Prop) (h : B -> Prop) p (k : A -> proc B), makes g p -> (forall a, g a -> makes h (k a)) ->
    makes h (pbind p k).
  Proof. intros A B g h p k M K. induction M as [a Ha|q Mq IH|]; cbn; auto; constructor; auto. Qed.
  Lemma makes_pget : forall A (g : A -> Prop) o, (forall a, o = Some a -> g a) -> makes g (pget o).
  Proof. intros A g [a|] H; cbn; constructor. now apply H. Qed.
  Lemma makes_pcheck : forall c, makes (fun _ => True) (pcheck c).
  Proof. intros [|]; cbn; constructor. exact Logic.I. Qed.
  Lemma here_node : forall i o s ops, ok i -> Forall from_here ops -> from_here (Node i o s ops).
  Proof.
    intros i o s ops Hi F d Sd. inversion Sd as [|? x ? Ix Sx]; subst; [now right|]. rewrite Forall_forall in F. exact (F x Ix d Sx).
  Qed.
  Lemma makes_node : forall o s ops, Forall from_here ops -> makes from_here (pnode o s ops).
  Proof. intros o s ops F. constructor. intros i Hi. constructor. now apply here_node. Qed.
  Lemma makes_own_first : forall o s v, makes from_here (pown_first o s v).
  Proof.
    intros o s v. constructor. intros i Hi. cbn. constructor. intros j Hj. cbn. constructor. apply here_node; auto.
    constructor; [|constructor]. apply here_node; auto.
  Qed.
  Lemma handles_all : forall (Q : expr -> Prop) pool l xs, Forall Q pool -> handles pool l = Some xs -> Forall Q xs.
  Proof.
    intros Q pool. induction l as [|a l IH]; intros xs F E; cbn in E; [injection E as <-; constructor|].
    destruct (nth_error pool a) as [x|] eqn:Ex; [|discriminate]. destruct (handles pool l) as [ys|]; [|discriminate]. injection E as <-.
    constructor; [|now apply IH]. rewrite Forall_forall in F. apply F. eapply nth_error_In; eauto.
  Qed.
  Lemma makes_perform : forall pool c, Forall from_here pool -> makes from_here (pperform pool c).
  Proof.
    intros pool c F.
    assert (One : forall a (k : expr -> proc expr), (forall x, from_here x -> makes from_here (k x)) -> makes from_here (pbind (pget (nth_error pool a)) k)).
    { intros a k K. eapply makes_bind; [|exact K]. apply makes_pget. intros x E. rewrite Forall_forall in F. apply F. eapply nth_error_In; eauto. }
    assert (Sz : forall x (k : nat -> proc expr), (forall s, makes from_here (k s)) -> makes from_here (pbind (pget (var_size x)) k)).
    { intros x k K. eapply (makes_bind _ _ (fun _ => True)); [|intros; apply K]. apply makes_pget. auto. }
    assert (Ck : forall b (k : unit -> proc expr), (forall s, makes from_here (k s)) -> makes from_here (pbind (pcheck b) k)).
    { intros b k K. eapply makes_bind; [apply makes_pcheck|]. intros; apply K. }
    destruct c; cbn [pperform]; unfold punary, pbinary, pbinary_ext, pbinary_base;
      repeat first [ apply makes_own_first | (apply One; intros) | (apply Sz; intros) | (apply Ck; intros) ];
      try (apply makes_node; auto; fail).
    - eapply makes_bind; [apply (makes_node (Constant [index]) 1 []); constructor|]. intros c Hc. apply makes_node. auto.
    - eapply makes_bind; [apply makes_pget; intros xs E; exact (handles_all from_here pool state xs F E)|]. intros xs Fx. now apply makes_node.
  Qed.
  Lemma makes_thread : forall cs pool, Forall from_here pool -> makes (Forall from_here) (pthread cs pool).
  Proof.
    induction cs as [|c cs IH]; intros pool F; cbn [pthread]; [now constructor|].
    eapply makes_bind; [now apply makes_perform|]. intros e He. apply IH. apply Forall_app. auto.
  Qed.
  Lemma makes_fed : forall A (g : A -> Prop) p ids a, makes g p -> Forall ok ids -> fed p ids (Done a) -> g a.
  Proof.
    intros A g p ids a M Fo H. remember (Done a) as q eqn:E. induction H as [p|k i r q H IH]; subst; [now inversion M|].
    inversion M as [|k' Mk|]; inversion Fo; subst. apply IH; auto.
  Qed.
End Origin.

(** ** Nodes reachable from handles *)
Fixpoint nodes (e : expr) : list expr := let 'Node i o s ops := e in e :: flat_map nodes ops.
Lemma nodes_sub : forall e d, In d (nodes e) <-> sub d e.
Proof.
  apply (expr_ind' (fun e => forall d, In d (nodes e) <-> sub d e)). intros i o s ops F d. cbn. rewrite Forall_forall in F. split.
  - intros [<-|I0]; [constructor|]. apply in_flat_map in I0 as (x & Ix & Id). apply F in Id; auto. eapply sub_step; eauto.
  - intros Sd. inversion Sd as [|? x ? Ix Sx]; subst; [now left|]. right. apply in_flat_map. exists x. split; auto. now apply F.
Qed.
Lemma sub_trans : forall a b c, sub a b -> sub b c -> sub a c.
Proof. intros a b c Sa Sb. induction Sb as [e|e x f Ix Sb IH]; auto. eapply sub_step; eauto. Qed.
(** keep one node per identifier *)
Fixpoint by_id (l : list expr) : list expr :=
  match l with [] => [] | e :: r => if in_dec Nat.eq_dec (e_id e) (map e_id r) then by_id r else e :: by_id r end.
Lemma by_id_ids : forall l i, In i (map e_id (by_id l)) <-> In i (map e_id l).
Proof.
  induction l as [|e l IH]; intros i; cbn; [tauto|]. destruct (in_dec Nat.eq_dec (e_id e) (map e_id l)) as [I0|N]; cbn; rewrite IH; [|tauto].
  split; [auto|]. intros [<-|H]; auto.
Qed.
Lemma by_id_nodup : forall l, NoDup (map e_id (by_id l)).
Proof.
  induction l as [|e l IH]; cbn; [constructor|]. destruct (in_dec Nat.eq_dec (e_id e) (map e_id l)) as [I0|N]; [exact IH|].
  cbn. constructor; auto. now rewrite by_id_ids.
Qed.
Lemma by_id_incl : forall l, incl (by_id l) l.
Proof.
  induction l as [|e l IH]; cbn; [easy|]. destruct (in_dec Nat.eq_dec (e_id e) (map e_id l)) as [I0|N]; [now apply incl_tl|].
  intros x [<-|Ix]; [now left|right; auto].
Qed.
Lemma made_of_unique : forall n pool, (forall e d, In e pool -> sub d e -> e_id d <= n) ->
  (forall e e' d d', In e pool -> In e' pool -> sub d e -> sub d' e' -> e_id d = e_id d' -> d = d') ->
  exists all, made n all /\ incl pool all.
Proof.
  intros n pool Le Un.
  assert (Full : forall e d, In e pool -> sub d e -> In d (by_id (flat_map nodes pool))).
  { intros e d Ie Sd. assert (Id : In d (flat_map nodes pool)) by (apply in_flat_map; exists e; split; auto; now apply nodes_sub).
    assert (I1 : In (e_id d) (map e_id (by_id (flat_map nodes pool)))) by (apply by_id_ids; now apply in_map).
    apply in_map_iff in I1 as (d' & Ed & Id'). apply by_id_incl in Id' as Id2. apply in_flat_map in Id2 as (e' & Ie' & Sd').
    apply nodes_sub in Sd'. rewrite <- (Un e' e d' d); auto. }
  assert (Orig : forall d, In d (by_id (flat_map nodes pool)) -> exists e, In e pool /\ sub d e).
  { intros d Id. apply by_id_incl in Id. apply in_flat_map in Id as (e & Ie & Sd). exists e. split; auto. now apply nodes_sub. }
  exists (by_id (flat_map nodes pool)). split; [constructor|].
  - apply by_id_nodup.
  - intros d Id. destruct (Orig d Id) as (e & Ie & Sd). eauto.
  - intros d Id x Ix. destruct (Orig d Id) as (e & Ie & Sd). apply (Full e); auto. eapply sub_trans; [|exact Sd].
    eapply sub_step; [exact Ix|constructor].
  - intros e Ie. eapply Full; eauto. constructor.
Qed.

(** ** Programs that build expressions, start threads and join them
    [reachable n pool]: OPID is [n] and the client has the handles [pool].  Threads are started with
    all handles of the client, and the client goes on with the handles of all of them. *)
Inductive reachable : nat -> list expr -> Prop :=
| reach_start : forall n, reachable n []
| reach_calls : forall n pool cs pool' n', reachable n pool -> history cs pool n = Some (pool', n') -> reachable n' pool'
| reach_join : forall n pool css ts pools, reachable n pool ->
    threads (schedule ts (start n pool css)) = map Done pools -> reachable (opid (schedule ts (start n pool css))) (concat pools).

Section Threads.
  Variables (n0 : nat) (pool : list expr) (css : list (list call)).
  Variable all : list expr.
  Hypothesis Mall : made n0 all.
  Hypothesis Call : incl pool all.
  Lemma pool_old : forall e d, In e pool -> sub d e -> e_id d <= n0.
  Proof. intros e d Ie Sd. apply (md_le _ _ Mall). eapply made_sub; eauto. Qed.
  (** what is known of a thread in any state of the machine *)
  Lemma thread_state : forall ts t cs q, nth_error css t = Some cs -> nth_error (threads (schedule ts (start n0 pool css))) t = Some q ->
    exists ids f q0, Forall (fun i => n0 < i <= opid (schedule ts (start n0 pool css))) ids /\ (forall i j, i < j -> f i < f j) /\
      fed (pthread cs pool) ids q /\ fed (pthread cs pool) (seq (S n0) (length ids)) q0 /\ rel f (map (rename f)) q0 q /\
      ((exists k, q = Take k) -> length ids = count_occ Nat.eq_dec ts t).
  Proof.
    intros ts t cs q Ec Eq. destruct (inv_schedule n0 pool css ts _ _ _ (inv_start n0 pool css)) as [idss (Cn & L & L1 & L2 & F & D)].
    destruct (nth_error idss t) as [ids|] eqn:Ei; [|apply nth_error_None in Ei; assert (t < length css) by (apply nth_error_Some; congruence); lia].
    destruct (F t cs q ids Ec Eq Ei) as [Fd [So Fb]].
    destruct (thread_alone n0 pool pool_old (opid (schedule ts (start n0 pool css))) cs ids q Fd) as (q0 & F0 & R0).
    exists ids, (ranks n0 (opid (schedule ts (start n0 pool css))) ids), q0. split; [exact Fb|]. split; [intros i j Lij; apply ranks_mono; auto; split; auto|].
    split; [exact Fd|]. split; [exact F0|]. split; [exact R0|]. intros (k & ->). exact (Cn t k ids Eq Ei).
  Qed.
  Lemma thread_done : forall ts t cs pool', nth_error css t = Some cs -> nth_error (threads (schedule ts (start n0 pool css))) t = Some (Done pool') ->
    exists f pool0 n1, (forall i j, i < j -> f i < f j) /\ history cs pool n0 = Some (pool0, n1) /\ pool' = map (rename f) pool0 /\
      (exists ids, Forall (fun i => n0 < i <= opid (schedule ts (start n0 pool css))) ids /\ fed (pthread cs pool) ids (Done pool')).
  Proof.
    intros ts t cs pool' Ec Eq. destruct (thread_state ts t cs _ Ec Eq) as (ids & f & q0 & Fb & Mf & Fd & F0 & R0 & _).
    inversion R0 as [a E1 E2| |]; subst. exists f, a, (n0 + length ids). split; [exact Mf|]. split.
    - rewrite <- alone_thread. rewrite (fed_alone _ _ _ _ _ F0). reflexivity.
    - split; [reflexivity|]. exists ids. auto.
  Qed.
  Lemma mono_inj : forall f : nat -> nat, (forall i j, i < j -> f i < f j) -> forall i j, f i = f j -> i = j.
  Proof. clear. intros f Mf i j E. destruct (Nat.lt_trichotomy i j) as [L|[L|L]]; auto; apply Mf in L; lia. Qed.
  Lemma threads_unique : forall ts t t' cs cs' p p', nth_error css t = Some cs -> nth_error css t' = Some cs' ->
    nth_error (threads (schedule ts (start n0 pool css))) t = Some (Done p) ->
    nth_error (threads (schedule ts (start n0 pool css))) t' = Some (Done p') ->
    forall e e' a b, In e p -> In e' p' -> sub a e -> sub b e' -> e_id a = e_id b -> a = b.
  Proof.
    intros ts t t' cs cs' p p' Ec Ec' Eq Eq' e e' a b Ie Ie' Sa Sb Eid. destruct (Nat.eq_dec t t') as [<-|N].
    - rewrite Eq in Eq'. injection Eq' as <-. destruct (thread_done ts t cs p Ec Eq) as (f & p0 & n1 & Mf & Eh & -> & _).
      apply in_map_iff in Ie as (e0 & <- & Ie). apply in_map_iff in Ie' as (e0' & <- & Ie').
      apply sub_rename in Sa as (a0 & Sa & ->). apply sub_rename in Sb as (b0 & Sb & ->). rewrite !rename_id in Eid. apply (mono_inj f Mf) in Eid.
      f_equal. destruct (history_made cs pool all n0 p0 n1 Call Mall Eh) as (all' & M' & C').
      eapply (made_unique n1 all' e0 e0'); eauto.
    - destruct (inv_schedule n0 pool css ts _ _ _ (inv_start n0 pool css)) as [idss (Cn & L & L1 & L2 & F & D)].
      assert (W : forall u cu pu eu d, nth_error css u = Some cu -> nth_error (threads (schedule ts (start n0 pool css))) u = Some (Done pu) -> In eu pu -> sub d eu ->
        exists ids, nth_error idss u = Some ids /\ Forall (fun i => n0 < i) ids /\ ((exists r, In r pool /\ sub d r) \/ In (e_id d) ids)).
      { intros u cu pu eu d Ecu Equ Ieu Sd. destruct (nth_error idss u) as [ids|] eqn:Ei; [|apply nth_error_None in Ei; assert (u < length css) by (apply nth_error_Some; congruence); lia].
        exists ids. split; [reflexivity|]. destruct (F u cu _ ids Ecu Equ Ei) as [Fd [So Fb]]. split; [eapply Forall_impl; [|exact Fb]; cbn; lia|].
        assert (Mk : makes (fun i => In i ids) (Forall (from_here (fun i => In i ids) (fun d => exists r, In r pool /\ sub d r))) (pthread cu pool)).
        { apply makes_thread. apply Forall_forall. intros r Ir x Sx. left. eauto. }
        assert (Al : Forall (fun i => In i ids) ids) by now apply Forall_forall.
        pose proof (makes_fed _ _ _ _ _ _ Mk Al Fd) as Fp. rewrite Forall_forall in Fp. exact (Fp eu Ieu d Sd). }
      destruct (W t cs p e a Ec Eq Ie Sa) as (ids & Ei & Fi & Ca). destruct (W t' cs' p' e' b Ec' Eq' Ie' Sb) as (ids' & Ei' & Fi' & Cb).
      rewrite Forall_forall in Fi, Fi'. destruct Ca as [(r & Ir & Sr)|Ia], Cb as [(r' & Ir' & Sr')|Ib].
      + eapply (made_unique n0 all r r'); eauto.
      + apply Fi' in Ib. pose proof (pool_old r a Ir Sr). lia.
      + apply Fi in Ia. pose proof (pool_old r' b Ir' Sr'). lia.
      + exfalso. apply N. eapply D; [exact Ei|exact Ei'|exact Ia|]. now rewrite Eid.
  Qed.
End Threads.
Lemma schedule_threads : forall ts M, length (threads (schedule ts M)) = length (threads M) /\ opid M <= opid (schedule ts M).
Proof.
  induction ts as [|t ts IH]; intros M; cbn [schedule fold_left]; [split; lia|]. destruct (IH (turn t M)) as [E L]. unfold schedule in *. rewrite E.
  unfold turn in *. destruct (nth_error (threads M) t) as [[a|k|]|]; cbn in *; auto. rewrite replace_length. split; [reflexivity|]. lia.
Qed.
Lemma reachable_made : forall n pool, reachable n pool -> exists all, made n all /\ incl pool all.
Proof.
  intros n pool R. induction R as [n|n pool cs pool' n' R (all & M & C) Eh|n pool css ts pools R (all & M & C) Et].
  - exists []. split; [apply made_nil|easy].
  - eapply history_made; eauto.
  - set (S := schedule ts (start n pool css)) in *.
    assert (Th : forall e, In e (concat pools) -> exists t cs p, nth_error css t = Some cs /\ nth_error (threads S) t = Some (Done p) /\ In e p).
    { intros e Ie. apply in_concat in Ie as (p & Ip & Ie). apply In_nth_error in Ip as (t & Ep). exists t.
      assert (Eq : nth_error (threads S) t = Some (Done p)) by (rewrite Et; now apply map_nth_error).
      destruct (nth_error css t) as [cs|] eqn:Ec; [eauto|]. exfalso. apply nth_error_None in Ec.
      assert (t < length (threads S)) by (apply nth_error_Some; congruence).
      unfold S in H. rewrite (proj1 (schedule_threads _ _)) in H. cbn in H. rewrite map_length in H. lia. }
    apply made_of_unique.
    + intros e d Ie Sd. destruct (Th e Ie) as (t & cs & p & Ec & Eq & Ip).
      destruct (thread_done n pool css all M C ts t cs p Ec Eq) as (f & p0 & n1 & Mf & Eh & Ep & ids & Fb & Fd).
      assert (Mk : makes (fun i => In i ids) (Forall (from_here (fun i => In i ids) (fun d => exists r, In r pool /\ sub d r))) (pthread cs pool)).
      { apply makes_thread. apply Forall_forall. intros r Ir x Sx. left. eauto. }
      assert (Al : Forall (fun i => In i ids) ids) by now apply Forall_forall.
      pose proof (makes_fed _ _ _ _ _ _ Mk Al Fd) as Fp. rewrite Forall_forall in Fp. rewrite Forall_forall in Fb.
      destruct (Fp e Ip d Sd) as [(r & Ir & Sr)|Id].
      * pose proof (pool_old n pool all M C r d Ir Sr). pose proof (proj2 (schedule_threads ts (start n pool css))) as Lo. cbn in Lo. fold S in Lo. lia.
      * apply Fb in Id. fold S in Id. lia.
    + intros e e' d d' Ie Ie' Sd Sd' Ed. destruct (Th e Ie) as (t & cs & p & Ec & Eq & Ip). destruct (Th e' Ie') as (t' & cs' & p' & Ec' & Eq' & Ip').
      eapply (threads_unique n pool css all M C ts t t'); eauto.
Qed.

(** ** C90 *)
(** The expression without its identifiers. *)
Definition shape (e : expr) : expr := rename (fun _ => 0) e.
Lemma shape_rename : forall f e, shape (rename f e) = shape e.
Proof.
  intros f. apply expr_ind'. intros i o s ops F. unfold shape. cbn. f_equal. rewrite map_map. rewrite Forall_forall in F.
  apply map_ext_in. exact F.
Qed.

(** One thread alone on the machine is the sequential program. *)
Theorem C90_one_thread : forall cs pool n,
  match history cs pool n with
  | Some (pool', n') => n <= n' /\ schedule (repeat 0 (n' - n)) (start n pool [cs]) = mkmachine n' [Done pool']
  | None => exists k n', schedule (repeat 0 k) (start n pool [cs]) = mkmachine n' [Stuck]
  end.
Proof.
  intros cs pool n. rewrite <- alone_thread. unfold start. cbn [map]. generalize (pthread cs pool). intros p. revert n.
  induction p as [a|k IH|]; intros n; cbn [alone].
  - split; [lia|]. now rewrite Nat.sub_diag.
  - specialize (IH (S n) (S n)). destruct (alone (k (S n)) (S n)) as [[a n']|].
    + destruct IH as [L E]. split; [lia|]. replace (n' - n) with (S (n' - S n)) by lia. exact E.
    + destruct IH as (m & n' & E). exists (S m), n'. exact E.
  - exists 0, n. reflexivity.
Qed.

(** A thread that has finished made the expressions it would have made alone, up to identifiers, and
    generation gives the same stacks, script and variables for them. *)
Theorem C90_same_scripts : forall n pool css ts t cs pool', reachable n pool -> nth_error css t = Some cs ->
  nth_error (threads (schedule ts (start n pool css))) t = Some (Done pool') ->
  exists pool0 n', history cs pool n = Some (pool0, n') /\ map shape pool' = map shape pool0 /\
    forall h e e', nth_error pool0 h = Some e -> nth_error pool' h = Some e' ->
      forall G gt optimize T, generated G gt optimize e' T = generated G gt optimize e T.
Proof.
  intros n pool css ts t cs pool' R Ec Eq. destruct (reachable_made n pool R) as (all & M & C).
  destruct (thread_done n pool css all M C ts t cs pool' Ec Eq) as (f & pool0 & n1 & Mf & Eh & -> & _).
  exists pool0, n1. split; [exact Eh|]. split; [rewrite map_map; apply map_ext; intros e; apply shape_rename|].
  intros h e e' E0 E1 G gt optimize T. rewrite nth_error_map, E0 in E1. injection E1 as <-. apply generated_rename. now apply mono_inj.
Qed.

(** A thread panics only if it would panic alone, and gets to its end when it has had enough turns. *)
Theorem C90_panics : forall n pool css ts t cs, reachable n pool -> nth_error css t = Some cs ->
  nth_error (threads (schedule ts (start n pool css))) t = Some Stuck -> history cs pool n = None.
Proof.
  intros n pool css ts t cs R Ec Eq. destruct (reachable_made n pool R) as (all & M & C).
  destruct (thread_state n pool css all M C ts t cs _ Ec Eq) as (ids & f & q0 & Fb & Mf & Fd & F0 & R0 & _).
  inversion R0; subst. rewrite <- alone_thread. rewrite (fed_alone _ _ _ _ _ F0). reflexivity.
Qed.
Theorem C90_finishes : forall n pool css ts t cs pool0 n', reachable n pool -> nth_error css t = Some cs ->
  history cs pool n = Some (pool0, n') -> n' - n <= count_occ Nat.eq_dec ts t ->
  exists pool', nth_error (threads (schedule ts (start n pool css))) t = Some (Done pool').
Proof.
  intros n pool css ts t cs pool0 n' R Ec Eh L. destruct (reachable_made n pool R) as (all & M & C).
  destruct (nth_error (threads (schedule ts (start n pool css))) t) as [q|] eqn:Eq.
  - destruct (thread_state n pool css all M C ts t cs q Ec Eq) as (ids & f & q0 & Fb & Mf & Fd & F0 & R0 & Tk).
    apply fed_alone in F0. rewrite alone_thread, Eh in F0.
    destruct q as [p|k|]; [eauto| |].
    + inversion R0 as [|k0 k' Rk|]; subst. cbn in F0. specialize (Tk (ex_intro _ k eq_refl)).
      assert (Up : forall A (p : proc A) m a m', alone p m = Some (a, m') -> m <= m').
      { clear. induction p as [a0|k IH|]; intros m a m' E; cbn in E; [injection E as <- <-; lia| |discriminate]. apply IH in E. lia. }
      symmetry in F0. apply Up in F0. lia.
    + inversion R0; subst. discriminate F0.
  - exfalso. apply nth_error_None in Eq. assert (t < length css) by (apply nth_error_Some; congruence).
    rewrite (proj1 (schedule_threads _ _)) in Eq. cbn in Eq. rewrite map_length in Eq. lia.
Qed.

(** Whatever was built where, a node is identified by its identifier. *)
Theorem C90_ids_unique : forall n pool, reachable n pool -> forall e e' a b, In e pool -> In e' pool -> sub a e -> sub b e' ->
  e_id a = e_id b -> a = b.
Proof.
  intros n pool R e e' a b Ie Ie' Sa Sb E. destruct (reachable_made n pool R) as (all & M & C).
  eapply (made_unique n all e e'); eauto.
Qed.
(** So the identifiers of an expression are as script generation needs them (C48). *)
Corollary reachable_unique : forall n pool e, reachable n pool -> In e pool -> unique_ids e.
Proof. intros n pool e R Ie a b Sa Sb E. eapply (C90_ids_unique n pool R e e); eauto. Qed.

(** The same program, whatever the counter was when it started: same scripts.  (A script decides a
    taproot address.) *)
Theorem C90_counter : forall cs n m, match history cs [] n, history cs [] m with
  | Some (p, _), Some (p', _) => map shape p' = map shape p /\
      forall h e e', nth_error p h = Some e -> nth_error p' h = Some e' ->
        forall G gt optimize T, generated G gt optimize e' T = generated G gt optimize e T
  | None, None => True
  | _, _ => False
  end.
Proof.
  assert (W : forall cs n m p n', n <= m -> history cs [] n = Some (p, n') ->
    exists f n'', (forall i j, f i = f j -> i = j) /\ history cs [] m = Some (map (rename f) p, n'')).
  { intros cs n m p n' L E. set (f := fun i => i + (m - n)). exists f, (n' + (m - n)). split; [unfold f; lia|].
    pose proof (rel_thread f cs []) as Rr. cbn [map] in Rr. rewrite <- alone_thread in E |- *.
    assert (K : forall A (g : A -> A) q q', rel f g q q' -> forall i j a, alone q i = Some (a, j) -> alone q' (i + (m - n)) = Some (g a, j + (m - n))).
    { clear. intros A g q q' Rq. induction Rq as [a|k k' Rk IH|]; intros i j b Ea; cbn in Ea |- *; [injection Ea as <- <-; reflexivity| |discriminate].
      apply (IH (S i)) in Ea. exact Ea. }
    specialize (K _ _ _ _ Rr n n' p E). replace (n + (m - n)) with m in K by lia. exact K. }
  assert (V : forall cs n m, n <= m -> history cs [] n = None -> history cs [] m = None).
  { intros cs n m L E. set (f := fun i => i + (m - n)). pose proof (rel_thread f cs []) as Rr. cbn [map] in Rr. rewrite <- alone_thread in E |- *.
    assert (K : forall A (g : A -> A) q q', rel f g q q' -> forall i, alone q i = None -> alone q' (i + (m - n)) = None).
    { clear. intros A g q q' Rq. induction Rq as [a|k k' Rk IH|]; intros i Ea; cbn in Ea |- *; [discriminate| |reflexivity].
      apply (IH (S i)) in Ea. exact Ea. }
    specialize (K _ _ _ _ Rr n E). replace (n + (m - n)) with m in K by lia. exact K. }
  assert (U : forall cs n m, n <= m -> match history cs [] n, history cs [] m with
    | Some (p, _), Some (p', _) => exists f, (forall i j, f i = f j -> i = j) /\ p' = map (rename f) p
    | None, None => True | _, _ => False end).
  { intros cs n m L. destruct (history cs [] n) as [[p n']|] eqn:E.
    - destruct (W cs n m p n' L E) as (f & n'' & If & ->). exists f. auto.
    - now rewrite (V cs n m L E). }
  intros cs n m. destruct (Nat.le_ge_cases n m) as [L|L].
  - specialize (U cs n m L). destruct (history cs [] n) as [[p n']|], (history cs [] m) as [[p' m']|]; auto.
    destruct U as (f & If & ->). split; [rewrite map_map; apply map_ext; intros e; apply shape_rename|].
    intros h e e' E0 E1 G gt optimize T. rewrite nth_error_map, E0 in E1. injection E1 as <-. now apply generated_rename.
  - specialize (U cs m n L). destruct (history cs [] n) as [[p n']|], (history cs [] m) as [[p' m']|]; auto.
    destruct U as (f & If & ->). split; [rewrite map_map; apply map_ext; intros e; symmetry; apply shape_rename|].
    intros h e e' E0 E1 G gt optimize T. rewrite nth_error_map, E1 in E0. injection E0 as <-. symmetry. now apply generated_rename.
Qed.

(** Two threads on a common handle; thread 1 takes an identifier between the two of a reverse_bits_len
    of thread 0.  Both finish, the identifiers differ from those of the threads alone, and the client
    compares a result of one with a result of the other. *)
Definition ex_css : list (list call) := [[CReverse 3 4; CEqual 0 1]; [CDouble 0; CMul 0 1]].
Definition ex_ts : list nat := [0; 1; 0; 1; 1; 0].
Definition ex_machine : machine := schedule ex_ts (start 1 [Node 1 (Constant [5%Z]) 1 []] ex_css).
Definition ex_common : list expr := [Node 1 (Constant [5%Z]) 1 []].
Lemma ex_common_reachable : reachable 1 ex_common.
Proof. apply (reach_calls 0 [] [CConstant [5%Z]]); [constructor|reflexivity]. Qed.
Definition ex_p : list expr := ex_common ++ [Node 2 (ReverseBitslen 4) 1 [Node 4 (Constant [3%Z]) 1 []];
  Node 6 Equal 1 [Node 1 (Constant [5%Z]) 1 []; Node 2 (ReverseBitslen 4) 1 [Node 4 (Constant [3%Z]) 1 []]]].
Definition ex_q : list expr := ex_common ++ [Node 3 Double 1 ex_common; Node 5 Mul 1 (ex_common ++ [Node 3 Double 1 ex_common])].
Example C90_example : threads ex_machine = map Done [ex_p; ex_q] /\ opid ex_machine = 6 /\
  exists r, history [CEqual 2 5] (ex_p ++ ex_q) 6 = Some (r, 7) /\ reachable 7 r /\ length r = 7.
Proof.
  split; [reflexivity|]. split; [reflexivity|]. eexists. split; [reflexivity|]. split; [|reflexivity].
  apply (reach_calls 6 (ex_p ++ ex_q) [CEqual 2 5]); [|reflexivity].
  exact (reach_join 1 ex_common ex_css ex_ts [ex_p; ex_q] ex_common_reachable eq_refl).
Qed.
(** alone, thread 0 would have had the identifiers 2, 3 and 4; generation succeeds *)
Example C90_example_alone : exists p0 n', history [CReverse 3 4; CEqual 0 1] ex_common 1 = Some (p0, n') /\ map e_id p0 = [1; 2; 4] /\
  map e_id (flat_map e_ops p0) = [3; 1; 2] /\
  match generated (DslGadgets.my_gadgets) (fun _ => None) true (nth 2 p0 (Node 0 Add 0 [])) tracker_new with Some (T, _) => t_main T <> [] | None => False end.
Proof. do 2 eexists. split; [reflexivity|]. split; [reflexivity|]. split; [reflexivity|]. vm_compute. discriminate. Qed.
