(** Identifiers handed out by the builders are unique. *)
From Coq Require Import ZArith List Bool Arith Lia.
From Verif Require Import Field BabyBear DslModel DslSpec DslOpSpec DslBuild.
Import ListNotations.
Local Open Scope nat_scope.

(** Every node made so far, closed under operands, with distinct identifiers not
    above the counter. *)
Record made (n : nat) (all : list expr) : Prop := mkmade {
  md_nodup : NoDup (map e_id all);
  md_le : forall x, In x all -> e_id x <= n;
  md_ops : forall x, In x all -> incl (e_ops x) all }.

Lemma made_nil : forall n, made n [].
Proof. intros n. constructor; [constructor|easy|easy]. Qed.
Lemma made_mono : forall n n' all, made n all -> n <= n' -> made n' all.
Proof. intros n n' all [N L O] E. constructor; auto. intros x I0. specialize (L x I0). lia. Qed.
Lemma made_cons : forall n all i o sz ops, made n all -> ~ In i (map e_id all) -> i <= n -> incl ops all ->
  made n (Node i o sz ops :: all).
Proof.
  intros n all i o sz ops [N L O] F E C. constructor.
  - cbn. now constructor.
  - intros x [<-|I0]; auto.
  - intros x [<-|I0]; [cbn; now apply incl_tl|]. apply incl_tl. auto.
Qed.
Lemma made_fresh : forall n all i, made n all -> n < i -> ~ In i (map e_id all).
Proof. intros n all i [N L O] E I0. apply in_map_iff in I0 as (x & <- & I0). specialize (L x I0). lia. Qed.

Lemma nodup_ids : forall all a b, NoDup (map e_id all) -> In a all -> In b all -> e_id a = e_id b -> a = b.
Proof.
  induction all as [|c all IH]; intros a b N Ia Ib E; [easy|]. cbn in N. inversion N as [|? ? F N']; subst.
  destruct Ia as [<-|Ia], Ib as [<-|Ib]; auto.
  - exfalso. apply F. rewrite E. now apply in_map.
  - exfalso. apply F. rewrite <- E. now apply in_map.
Qed.
Lemma made_sub : forall n all a d, made n all -> In a all -> sub d a -> In d all.
Proof. intros n all a d M I0 Sd. induction Sd as [e|e x f Ix Sd IH]; auto. apply IH. eapply md_ops; eauto. Qed.
Lemma made_unique : forall n all a b d d', made n all -> In a all -> In b all -> sub d a -> sub d' b ->
  e_id d = e_id d' -> d = d'.
Proof.
  intros n all a b d d' M Ia Ib Sd Sd' E. apply (nodup_ids all); auto; [exact (md_nodup _ _ M)|exact (made_sub n all a d M Ia Sd)|exact (made_sub n all b d' M Ib Sd')].
Qed.

(** What a builder does to the nodes made so far, given operands among them. *)
Definition grows (all : list expr) (b : builder expr) : Prop :=
  forall n e n', made n all -> b n = Some (e, n') ->
    n <= n' /\ exists all', made n' all' /\ incl all all' /\ In e all'.

Lemma grows_node : forall all o sz ops, incl ops all -> grows all (node o sz ops).
Proof.
  intros all o sz ops C n e n' M E. unfold node, bind, get_opid, ret in E. injection E as <- <-. split; [lia|].
  exists (Node (S n) o sz ops :: all). split; [|split; [apply incl_tl, incl_refl|now left]].
  apply made_cons; auto. { eapply made_mono; eauto. } eapply made_fresh; eauto.
Qed.
Lemma grows_get : forall A all (x : option A) f, (forall a, x = Some a -> grows all (f a)) -> grows all (do a <- get x; f a).
Proof. intros A all [a|] f F n e n' M E; [|discriminate E]. exact (F a eq_refl n e n' M E). Qed.
Lemma grows_check : forall all c f, grows all f -> grows all (run check c; f).
Proof. intros all [|] f F n e n' M E; [|discriminate E]. exact (F n e n' M E). Qed.
Lemma grows_bind : forall all b f, grows all b -> (forall x all', incl all all' -> In x all' -> grows all' (f x)) ->
  grows all (do x <- b; f x).
Proof.
  intros all b f Gb Gf n e n' M E. unfold bind in E. destruct (b n) as [[x n1]|] eqn:Eb; [|discriminate E].
  destruct (Gb n x n1 M Eb) as (L1 & all1 & M1 & C1 & I1). destruct (Gf x all1 C1 I1 n1 e n' M1 E) as (L2 & all2 & M2 & C2 & I2).
  split; [lia|]. exists all2. split; [exact M2|]. split; [eapply incl_tran; eauto|exact I2].
Qed.
(** the three functions that take their own identifier before building a constant *)
Lemma grows_own_first : forall all o sz v, grows all (do i <- get_opid; do c <- constant_u32 v; ret (Node i o sz [c])).
Proof.
  intros all o sz v n e n' M E. unfold constant_u32, constant, node, bind, get_opid, ret in E. injection E as <- <-. split; [lia|].
  exists (Node (S n) o sz [Node (S (S n)) (Constant [v]) (length [v]) []] :: Node (S (S n)) (Constant [v]) (length [v]) [] :: all).
  split; [|split; [apply incl_tl, incl_tl, incl_refl|now left]].
  apply made_cons.
  - apply made_cons; [eapply made_mono; eauto|eapply made_fresh; eauto|lia|easy].
  - cbn. intros [H|H]; [lia|]. revert H. eapply made_fresh; eauto.
  - lia.
  - intros x [<-|[]]. now left.
Qed.

Lemma handles_incl : forall pool l xs, handles pool l = Some xs -> incl xs pool.
Proof.
  intros pool. induction l as [|a l IH]; intros xs E; cbn in E; [injection E as <-; easy|].
  destruct (nth_error pool a) as [x|] eqn:Ex; [|discriminate E]. destruct (handles pool l) as [ys|]; [|discriminate E].
  injection E as <-. intros y [<-|I0]; [now apply nth_error_In in Ex|]. now apply (IH ys).
Qed.

Lemma grows_perform : forall pool all c, incl pool all -> grows all (perform pool c).
Proof.
  intros pool all c C.
  assert (N1 : forall a x, nth_error pool a = Some x -> In x all) by (intros a x E; apply C; eapply nth_error_In; eauto).
  assert (I1 : forall x, In x all -> incl [x] all) by (intros x I0 y [<-|[]]; auto).
  assert (I2 : forall x y, In x all -> In y all -> incl [x; y] all) by (intros x y Ix Iy z [<-|[<-|[]]]; auto).
  destruct c; cbn [perform]; unfold square, double, neg, add, subtract, mul, unary, binary, binary_ext, binary_base, constant,
    equal, equal_verify, extract_bits, exp_constant, index_to_rou, index_to_rou_ext, index_to_rou_dsl, reverse_bits_len,
    num_to_field, field_to_num, four_u32_to_u32, from_table, sponge_state_init, blake3, to_sample, sample_base, sample_ext,
    assign_input, copy_input;
    repeat (first [apply grows_get; intros|apply grows_check|apply grows_own_first]);
    try (apply grows_node; first [apply I2; eauto|apply I1; eauto|easy]).
  - unfold lookup, constant_u32, constant. apply grows_bind; [apply grows_node; easy|].
    intros y all' C' Iy. apply grows_node. intros z [<-|[<-|[]]]; [|exact Iy]. apply C'. eauto.
  - apply grows_node. eapply incl_tran; [eapply handles_incl; eauto|exact C].
Qed.

Lemma history_made : forall cs pool all n pool' n', incl pool all -> made n all -> history cs pool n = Some (pool', n') ->
  exists all', made n' all' /\ incl pool' all'.
Proof.
  induction cs as [|c cs IH]; intros pool all n pool' n' C M E; cbn [history] in E.
  - unfold ret in E. injection E as <- <-. eauto.
  - unfold bind in E. destruct (perform pool c n) as [[e n1]|] eqn:Ep; [|discriminate E].
    destruct (grows_perform pool all c C n e n1 M Ep) as (L1 & all1 & M1 & C1 & I1).
    apply (IH (pool ++ [e]) all1 n1 pool' n'); auto. apply incl_app; [eapply incl_tran; eauto|]. intros x [<-|[]]; auto.
Qed.
