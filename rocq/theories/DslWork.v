(** Reasoning about functions that build expressions and take inputs from a manager. *)
From Coq Require Import ZArith List Bool Arith Lia.
From Verif Require Import ScriptNum ScriptVM Field BabyBear HelperModel DslModel DslSpec DslOpSpec DslMain DslOps DslBuild DslIds DslDenote
  DslManager DslSession.
Import ListNotations.
Local Open Scope nat_scope.

(** The environment and the getter hold the inputs of the manager. *)
Definition fits (gt : getter) (env : environment) (m : manager) : Prop :=
  forall x v, In (x, v) (given m) -> env x = Some v /\ exists j, gt x = Some (j, length v).
Lemma fits_mono : forall gt env m m', incl (given m) (given m') -> fits gt env m' -> fits gt env m.
Proof. intros gt env m m' I F x v Ix. apply F, I, Ix. Qed.
Definition some_getter (m : manager) : getter := fun x => option_map (fun v => (0, length v)) (env_of m x).
Lemma fits_exists : forall m, NoDup (map fst (given m)) -> fits (some_getter m) (env_of m) m.
Proof.
  intros m N x v Ix. assert (E : env_of m x = Some v) by (now apply lookup_given). split; [exact E|]. exists 0. unfold some_getter. now rewrite E.
Qed.

(** What a builder makes when it does not panic. *)
Definition whenever (b : builder expr) (Q : expr -> Prop) : Prop := forall n e n', b n = Some (e, n') -> Q e.
Lemma yields_and : forall (b : builder expr) (P Q : expr -> Prop), yields b P -> whenever b Q -> yields b (fun e => P e /\ Q e).
Proof. intros b P Q Y W n. destruct (Y n) as (a & n' & E & Pa). exists a, n'. split; [exact E|]. split; [exact Pa|eapply W; eauto]. Qed.
Lemma yields_all : forall m (b : builder expr) (Q : getter -> environment -> expr -> Prop), NoDup (map fst (given m)) ->
  (forall gt env, fits gt env m -> yields b (Q gt env)) -> yields b (fun e => forall gt env, fits gt env m -> Q gt env e).
Proof.
  intros m b Q N F n. destruct (F _ _ (fits_exists m N) n) as (e & n' & E & _). exists e, n'. split; [exact E|].
  intros gt env Fg. destruct (F gt env Fg n) as (e' & n'' & E' & Qe). rewrite E in E'. injection E' as <- <-. exact Qe.
Qed.
Lemma whenever_node : forall o sz ops, whenever (node o sz ops) (fun e => e_op e = o /\ e_ops e = ops).
Proof. intros o sz ops n e n' E. unfold node, bind, get_opid, ret in E. injection E as <- <-. auto. Qed.
Lemma whenever_get : forall A (x : option A) f Q, (forall a, whenever (f a) Q) -> whenever (do a <- get x; f a) Q.
Proof. intros A [a|] f Q F n e n' E; [|discriminate E]. eapply F. exact E. Qed.
Lemma whenever_check : forall c f Q, whenever f Q -> whenever (run check c; f) Q.
Proof. intros [|] f Q F n e n' E; [|discriminate E]. eapply F. exact E. Qed.
Lemma whenever_binary : forall o a b, whenever (binary o a b) (fun e => e_op e = o /\ e_ops e = [a; b]).
Proof. intros. apply whenever_get. intros. apply whenever_get. intros. apply whenever_node. Qed.
Lemma whenever_unary : forall o a, whenever (unary o a) (fun e => e_op e = o /\ e_ops e = [a]).
Proof. intros. apply whenever_get. intros. apply whenever_node. Qed.
Lemma growsq_binary : forall all o a b, input_of o = None -> In a all -> In b all -> growsq all (binary o a b).
Proof.
  intros all o a b Io Ia Ib. apply growsq_get. intros s _. apply growsq_get. intros t _. apply growsq_node; [|exact Io].
  intros z [<-|[<-|[]]]; auto.
Qed.
Lemma growsq_unary : forall all o a, input_of o = None -> In a all -> growsq all (unary o a).
Proof. intros all o a Io Ia. apply growsq_get. intros s _. apply growsq_node; [|exact Io]. intros z [<-|[]]; auto. Qed.
Lemma growsq_equal : forall all a b, In a all -> In b all -> growsq all (equal a b).
Proof. intros all a b Ia Ib. apply growsq_node; [|reflexivity]. intros z [<-|[<-|[]]]; auto. Qed.
Lemma growsq_constant : forall all v, growsq all (constant v).
Proof. intros all v. apply growsq_node; easy. Qed.

(** Expressions without multi-output nodes. *)
Definition plain (e : expr) : Prop := forall d, sub d e -> single (e_op d) = true.
Lemma sub_cases : forall d e, sub d e -> d = e \/ exists x, In x (e_ops e) /\ sub d x.
Proof. intros d e S0. destruct S0 as [|d x e I0 S0]; [now left|right; eauto]. Qed.
Lemma sub_op : forall x e, In x (e_ops e) -> sub x e.
Proof. intros x e I0. eapply sub_step; [exact I0|apply sub_refl]. Qed.
Lemma sub_trans : forall a b c, sub a b -> sub b c -> sub a c.
Proof. intros a b c S1 S2. induction S2 as [|d x e I0 S2 IH]; [exact S1|]. eapply sub_step; [exact I0|]. now apply IH. Qed.
Lemma plain_node : forall e, single (e_op e) = true -> Forall plain (e_ops e) -> plain e.
Proof.
  intros e So F d Sd. destruct (sub_cases d e Sd) as [->|(x & Ix & Sx)]; [exact So|]. rewrite Forall_forall in F. now apply (F x Ix).
Qed.
Lemma plain_multi : forall e, plain e -> multi_plain e.
Proof. intros e P d x y Sd Sg. rewrite (P d Sd) in Sg. discriminate Sg. Qed.

(** Every input of the manager is moved by one of the expressions. *)
Definition moves (x : variable) (e : expr) : Prop := exists d, sub d e /\ e_op d = InputVarMove x.
Definition covered (m : manager) (roots : list expr) : Prop :=
  forall x, In x (map fst (given m)) -> exists r, In r roots /\ moves x r.
Lemma moves_sub : forall x a b, sub a b -> moves x a -> moves x b.
Proof. intros x a b S0 (d & Sd & E). exists d. split; [eapply sub_trans; eauto|exact E]. Qed.
Lemma covered_weaken : forall m roots roots', covered m roots ->
  (forall r, In r roots -> exists r', In r' roots' /\ sub r r') -> covered m roots'.
Proof.
  intros m roots roots' C W x Ix. destruct (C x Ix) as (r & Ir & Mr). destruct (W r Ir) as (r' & Ir' & Sr). exists r'. split; [exact Ir'|].
  eapply moves_sub; eauto.
Qed.

(** ** Functions on a manager *)
Definition works {A} (b : builder (A * manager)) (all : list expr) (m : manager) (R : A -> manager -> list expr -> Prop) : Prop :=
  forall n, sinv n all m -> exists a m' n' all', b n = Some ((a, m'), n') /\ sinv n' all' m' /\ incl all all' /\ incl (given m) (given m') /\
    R a m' all'.

Lemma works_ret : forall A (a : A) all m (R : A -> manager -> list expr -> Prop), R a m all -> works (ret (a, m)) all m R.
Proof. intros A a all m R r n Iv. exists a, m, n, all. split; [reflexivity|]. split; [exact Iv|]. split; [apply incl_refl|].
  split; [apply incl_refl|exact r]. Qed.
Lemma works_bind : forall A B (b : builder (A * manager)) (k : A * manager -> builder (B * manager)) all m P R,
  works b all m P ->
  (forall a m' all', incl all all' -> incl (given m) (given m') -> P a m' all' -> works (k (a, m')) all' m' R) ->
  works (bind b k) all m R.
Proof.
  intros A B b k all m P R Wb Wk n Iv. destruct (Wb n Iv) as (a & m1 & n1 & all1 & E & Iv1 & C1 & G1 & Pa).
  destruct (Wk a m1 all1 C1 G1 Pa n1 Iv1) as (c & m2 & n2 & all2 & E2 & Iv2 & C2 & G2 & Rc).
  exists c, m2, n2, all2. split; [unfold bind; now rewrite E|]. split; [exact Iv2|].
  split; [eapply incl_tran; eauto|]. split; [eapply incl_tran; eauto|exact Rc].
Qed.
Lemma works_weaken : forall A (b : builder (A * manager)) all m (P R : A -> manager -> list expr -> Prop), works b all m P -> (forall a m' all', P a m' all' -> R a m' all') -> works b all m R.
Proof.
  intros A b all m P R W I n Iv. destruct (W n Iv) as (a & m1 & n1 & all1 & E & Iv1 & C1 & G1 & Pa). exists a, m1, n1, all1.
  split; [exact E|]. split; [exact Iv1|]. split; [exact C1|]. split; [exact G1|]. now apply I.
Qed.
Lemma works_pure : forall A (b : builder expr) (k : expr -> builder (A * manager)) all m P R,
  growsq all b -> (NoDup (map fst (given m)) -> yields b P) ->
  (forall e all', incl all all' -> In e all' -> P e -> works (k e) all' m R) ->
  works (bind b k) all m R.
Proof.
  intros A b k all m P R Gb Yb Wk n Iv. destruct (Yb (si_vars _ _ _ Iv) n) as (e & n1 & E & Pe).
  destruct (Gb n e n1 (si_made _ _ _ Iv) E) as (all1 & M1 & C1 & I1 & Q1).
  destruct (Wk e all1 C1 I1 Pe n1 (sinv_quiet _ _ _ _ _ Iv M1 C1 Q1)) as (c & m2 & n2 & all2 & E2 & Iv2 & C2 & G2 & Rc).
  exists c, m2, n2, all2. split; [unfold bind; now rewrite E|]. split; [exact Iv2|]. split; [eapply incl_tran; eauto|]. split; [exact G2|exact Rc].
Qed.

Section Work.
  Variable G : gadgets.

  (** Value of an expression whatever the positions of the inputs on the stack. *)
  Definition val (m : manager) (e : expr) (n : nat) (z : BB4) : Prop := forall gt env, fits gt env m -> denotes G gt env e n z.
  Definition says (m : manager) (e : expr) (l : list Z) : Prop := forall gt env, fits gt env m -> holds G gt env e l.
  Definition judges (m : manager) (e : expr) (n : nat) (ok : Prop) : Prop := forall gt env, fits gt env m -> verdict G gt env e n ok.
  Lemma val_mono : forall m m' e n z, incl (given m) (given m') -> val m e n z -> val m' e n z.
  Proof. intros m m' e n z I V gt env F. apply V. eapply fits_mono; eauto. Qed.
  Lemma says_mono : forall m m' e l, incl (given m) (given m') -> says m e l -> says m' e l.
  Proof. intros m m' e l I V gt env F. apply V. eapply fits_mono; eauto. Qed.
  Lemma judges_mono : forall m m' e n ok, incl (given m) (given m') -> judges m e n ok -> judges m' e n ok.
  Proof. intros m m' e n ok I V gt env F. apply V. eapply fits_mono; eauto. Qed.

  Lemma val_binary : forall o f m a b n k y z, NoDup (map fst (given m)) -> bin_op o = Some f -> val m a n y -> val m b k z ->
    yields (binary o a b) (fun e => val m e (Nat.max n k) (f y z) /\ e_op e = o /\ e_ops e = [a; b]).
  Proof.
    intros o f m a b n k y z N Eo Va Vb. apply yields_and; [|apply whenever_binary]. apply yields_all; [exact N|].
    intros gt env F. apply denotes_binary; auto.
  Qed.
  Lemma val_unary : forall o f m a n y, NoDup (map fst (given m)) -> una_op o = Some f -> val m a n y ->
    yields (unary o a) (fun e => val m e n (f y) /\ e_op e = o /\ e_ops e = [a]).
  Proof.
    intros o f m a n y N Eo Va. apply yields_and; [|apply whenever_unary]. apply yields_all; [exact N|].
    intros gt env F. apply denotes_unary; auto.
  Qed.
  Lemma val_constant : forall ext m z, NoDup (map fst (given m)) -> elt_of (u32_size ext) z ->
    yields (constant_f ext z) (fun e => val m e (u32_size ext) z /\ e_op e = Constant (limbs (u32_size ext) z) /\ e_ops e = []).
  Proof.
    intros ext m z N El. apply yields_and; [|apply whenever_node]. apply yields_all; [exact N|]. intros gt env F. now apply denotes_constant.
  Qed.
  Lemma val_equal : forall m a b n y z, NoDup (map fst (given m)) -> val m a n y -> val m b n z ->
    yields (equal a b) (fun e => judges m e n (y = z) /\ e_op e = Equal /\ e_ops e = [a; b]).
  Proof.
    intros m a b n y z N Va Vb. apply yields_and; [|apply whenever_node]. apply yields_all; [exact N|]. intros gt env F. apply denotes_equal; auto.
  Qed.

  (** Steps of a function on a manager *)
  Section Steps.
    Variable A : Type.
    Variable R : A -> manager -> list expr -> Prop.
    Lemma step_binary : forall o f a b k all m n j y z, bin_op o = Some f -> In a all -> In b all -> val m a n y -> val m b j z ->
      (forall e all', incl all all' -> In e all' -> val m e (Nat.max n j) (f y z) -> e_op e = o -> e_ops e = [a; b] -> works (k e) all' m R) ->
      works (bind (binary o a b) k) all m R.
    Proof.
      intros o f a b k all m n j y z Eo Ia Ib Va Vb K. eapply works_pure; [|intros N; eapply val_binary; eauto|].
      - apply growsq_binary; auto. destruct o; try discriminate Eo; reflexivity.
      - intros e all' C I0 (V & O1 & O2). now apply K.
    Qed.
    Lemma step_unary : forall o f a k all m n y, una_op o = Some f -> In a all -> val m a n y ->
      (forall e all', incl all all' -> In e all' -> val m e n (f y) -> e_op e = o -> e_ops e = [a] -> works (k e) all' m R) ->
      works (bind (unary o a) k) all m R.
    Proof.
      intros o f a k all m n y Eo Ia Va K. eapply works_pure; [|intros N; eapply val_unary; eauto|].
      - apply growsq_unary; auto. destruct o; try discriminate Eo; reflexivity.
      - intros e all' C I0 (V & O1 & O2). now apply K.
    Qed.
    Lemma step_constant : forall ext z k all m, elt_of (u32_size ext) z ->
      (forall e all', incl all all' -> In e all' -> val m e (u32_size ext) z -> e_op e = Constant (limbs (u32_size ext) z) -> e_ops e = [] -> works (k e) all' m R) ->
      works (bind (constant_f ext z) k) all m R.
    Proof.
      intros ext z k all m El K. eapply works_pure; [apply growsq_constant|intros N; exact (val_constant ext m z N El)|].
      intros e all' C I0 (V & O1 & O2). now apply K.
    Qed.
    Lemma step_equal : forall a b k all m n y z, In a all -> In b all -> val m a n y -> val m b n z ->
      (forall e all', incl all all' -> In e all' -> judges m e n (y = z) -> e_op e = Equal -> e_ops e = [a; b] -> works (k e) all' m R) ->
      works (bind (equal a b) k) all m R.
    Proof.
      intros a b k all m n y z Ia Ib Va Vb K. eapply works_pure; [now apply growsq_equal|intros N; eapply val_equal; eauto|].
      intros e all' C I0 (V & O1 & O2). now apply K.
    Qed.

    Definition with_input (v : list Z) (m : manager) : manager :=
      mkman (S (mn_counter m)) (mn_inputs m ++ [(input_var (mn_counter m), v)]) (mn_hints m) (mn_exec m) (mn_checks m).
    Definition with_hint (v : list Z) (m : manager) : manager :=
      mkman (S (mn_counter m)) (mn_inputs m) (mn_hints m ++ [(input_var (mn_counter m), v)]) (mn_exec m) (mn_checks m).
    Lemma given_input : forall v m p, In p (given (with_input v m)) <-> In p (given m) \/ p = (input_var (mn_counter m), v).
    Proof. intros v m p. unfold given. cbn. rewrite !in_app_iff. cbn. intuition. Qed.
    Lemma given_hint : forall v m p, In p (given (with_hint v m)) <-> In p (given m) \/ p = (input_var (mn_counter m), v).
    Proof. intros v m p. unfold given. cbn. rewrite !in_app_iff. cbn. intuition. Qed.
    Lemma says_input : forall v m i, length v = 1 \/ length v = 4 -> In (input_var (mn_counter m), v) (given m) ->
      forall c, c = mn_counter m -> says m (Node i (InputVarMove (input_var c)) (length v) []) v.
    Proof.
      intros v m i L I0 c -> gt env F. destruct (F _ _ I0) as [Ee [j Eg]]. constructor.
      - cbn. now rewrite Ee.
      - cbn. now rewrite Eg.
      - now apply size_known.
    Qed.
    Lemma says_given : forall v m i c, length v = 1 \/ length v = 4 -> In (input_var c, v) (given m) ->
      says m (Node i (InputVarMove (input_var c)) (length v) []) v.
    Proof.
      intros v m i c L I0 gt env F. destruct (F _ _ I0) as [Ee [j Eg]]. constructor.
      - cbn. now rewrite Ee.
      - cbn. now rewrite Eg.
      - now apply size_known.
    Qed.
    Lemma step_input : forall v k all m, length v = 1 \/ length v = 4 ->
      (forall e all', incl all all' -> In e all' -> says (with_input v m) e v -> e_op e = InputVarMove (input_var (mn_counter m)) -> e_ops e = [] ->
         works (k (e, with_input v m)) all' (with_input v m) R) ->
      works (bind (assign_input_var v m) k) all m R.
    Proof.
      intros v k all m L K n Iv.
      set (e := Node (S n) (InputVarMove (input_var (mn_counter m))) (length v) []).
      assert (Iv' : sinv (S n) (e :: all) (with_input v m)).
      { eapply (sinv_input n all m _ (S n) v); eauto; unfold given; cbn [with_input mn_inputs mn_hints].
        - rewrite !map_app. cbn. pose proof (si_vars _ _ _ Iv) as N. unfold given in N. rewrite map_app in N.
          apply nodup_perm; [exact N|]. rewrite <- map_app. intros Q. destruct (si_counter _ _ _ Iv _ Q) as (c & Ec & Lc). injection Ec as Ec. lia.
        - intros x. rewrite !map_app, !in_app_iff. cbn. intuition. }
      destruct (K e (e :: all)) with (n := S n) as (a & m2 & n2 & all2 & E2 & Iv2 & C2 & G2 & Ra); auto using incl_tl, incl_refl.
      - now left.
      - apply says_given; [exact L|]. apply given_input. now right.
      - exists a, m2, n2, all2. split; [exact E2|]. split; [exact Iv2|]. split; [eapply incl_tran; [apply incl_tl, incl_refl|exact C2]|].
        split; [|exact Ra]. eapply incl_tran; [|exact G2]. intros p Ip. apply given_input. now left.
    Qed.
    Lemma step_hint : forall v k all m, length v = 1 \/ length v = 4 ->
      (forall e all', incl all all' -> In e all' -> says (with_hint v m) e v -> e_op e = InputVarMove (input_var (mn_counter m)) -> e_ops e = [] ->
         works (k (e, with_hint v m)) all' (with_hint v m) R) ->
      works (bind (assign_input_hint v m) k) all m R.
    Proof.
      intros v k all m L K n Iv.
      set (e := Node (S n) (InputVarMove (input_var (mn_counter m))) (length v) []).
      assert (Iv' : sinv (S n) (e :: all) (with_hint v m)).
      { eapply (sinv_input n all m _ (S n) v); eauto; unfold given; cbn [with_hint mn_inputs mn_hints].
        - rewrite !map_app. cbn. pose proof (si_vars _ _ _ Iv) as N. unfold given in N. rewrite map_app in N.
          apply nodup_perm; [exact N|]. rewrite <- map_app. intros Q. destruct (si_counter _ _ _ Iv _ Q) as (c & Ec & Lc). injection Ec as Ec. lia.
        - intros x. rewrite !map_app, !in_app_iff. cbn. intuition. }
      destruct (K e (e :: all)) with (n := S n) as (a & m2 & n2 & all2 & E2 & Iv2 & C2 & G2 & Ra); auto using incl_tl, incl_refl.
      - now left.
      - apply says_given; [exact L|]. apply given_hint. now right.
      - exists a, m2, n2, all2. split; [exact E2|]. split; [exact Iv2|]. split; [eapply incl_tran; [apply incl_tl, incl_refl|exact C2]|].
        split; [|exact Ra]. eapply incl_tran; [|exact G2]. intros p Ip. apply given_hint. now left.
    Qed.
    Lemma step_check : forall c k all m, In c all -> works k all (add_hint_verify c m) R -> works k all m R.
    Proof.
      intros c k all m Ic W n Iv. apply (W n). destruct Iv as [M Ee C V K I1 O1]. constructor; auto.
      cbn. apply incl_app; [exact C|]. intros x [<-|[]]. exact Ic.
    Qed.
    Lemma step_exec : forall e k all m, In e all -> works k all (set_exec_dsl e m) R -> works k all m R.
    Proof.
      intros e k all m Ie W n Iv. apply (W n). destruct Iv as [M Ee C V K I1 O1]. constructor; auto.
      cbn. intros x Q. injection Q as <-. exact Ie.
    Qed.
  End Steps.

  (** inputs that are field elements *)
  Lemma says_val : forall m e n z, elt_of n z -> says m e (limbs n z) -> val m e n z.
  Proof. intros m e n z El S0 gt env F. split; [exact El|]. now apply S0. Qed.
End Work.
