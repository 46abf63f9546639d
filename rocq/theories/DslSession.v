(** Sessions with an input manager: a client builds expressions, takes inputs and
    hints from the manager, registers the expression to execute and the checks. *)
From Coq Require Import ZArith List Bool Arith Lia.
From Verif Require Import ScriptNum ScriptVM U32Model Lift PropWords HelperModel HelperRou.
From Verif Require Import Field BabyBear DslModel DslStack DslSpec DslOpSpec DslProofs DslDag DslMain DslOps DslBuild DslIds DslManager.
Import ListNotations.
Local Open Scope nat_scope.

(** the functions of script_expr/src/alias.rs and of input_manager.rs 163-218 a client can call *)
Inductive scall :=
| SBuild (c : call)        (* any builder except the inputs, which the manager makes *)
| SInput (v : list Z) | SHint (v : list Z)
| SExec (a : nat) | SCheck (a : nat)
| SEmbed.

(** see script_expr/src/input_manager.rs 163-218 *)
Definition plain_call (c : call) : bool :=
  match c with CInputMove _ _ | CInputCopy _ _ => false | _ => true end.
(** one call of script_expr/src/alias.rs or input_manager.rs 163-218 *)
Definition sstep (s : list expr * manager) (c : scall) : builder (list expr * manager) :=
  let '(pool, m) := s in
  match c with
  | SBuild c => run check (plain_call c); do e <- perform pool c; ret (pool ++ [e], m)
  | SInput v => do r <- assign_input_var v m; ret (pool ++ [fst r], snd r)
  | SHint v => do r <- assign_input_hint v m; ret (pool ++ [fst r], snd r)
  | SExec a => do e <- get (nth_error pool a); ret (pool, set_exec_dsl e m)
  | SCheck a => do e <- get (nth_error pool a); ret (pool, add_hint_verify e m)
  | SEmbed => do m' <- embed_hint_verify m; ret (pool, m')
  end.
(** any sequence of such calls, script_expr/src/input_manager.rs 163-228 *)
Fixpoint session (cs : list scall) (s : list expr * manager) : builder (list expr * manager) :=
  match cs with
  | [] => ret s
  | c :: r => do s' <- sstep s c; session r s'
  end.

Definition given (m : manager) : list (variable * list Z) := mn_inputs m ++ mn_hints m.
(** Values of the inputs of a manager. *)
Fixpoint lookup_var (x : variable) (l : list (variable * list Z)) : option (list Z) :=
  match l with
  | [] => None
  | (y, v) :: r => if variable_eqb x y then Some v else lookup_var x r
  end.
Definition env_of (m : manager) : environment := fun x => lookup_var x (given m).

Lemma variable_eqb_eq : forall x y, variable_eqb x y = true <-> x = y.
Proof.
  intros [a b c] [a' b' c']. unfold variable_eqb. cbn. rewrite !andb_true_iff, !Nat.eqb_eq. split.
  - intros [[-> ->] E]. f_equal. destruct c, c'; cbn in E; try discriminate E; [|reflexivity]. apply Nat.eqb_eq in E. now f_equal.
  - intros E. injection E as -> -> ->. repeat split. destruct c'; cbn; [apply Nat.eqb_refl|reflexivity].
Qed.

(** ** Invariant *)
Record sinv (n : nat) (all : list expr) (m : manager) : Prop := mksinv {
  si_made : made n all;
  si_exec : forall e, mn_exec m = Some e -> In e all;
  si_checks : incl (mn_checks m) all;
  si_vars : NoDup (map fst (given m));
  si_counter : forall x, In x (map fst (given m)) -> exists c, x = input_var c /\ c < mn_counter m;
  si_input : forall d b x, In d all -> input_of (e_op d) = Some (b, x) -> b = true /\ In x (map fst (given m));
  si_one : forall d d' x, In d all -> In d' all -> input_of (e_op d) = Some (true, x) -> input_of (e_op d') = Some (true, x) -> d = d' }.

(** No new input nodes. *)
Definition quiet (all all' : list expr) : Prop := forall d, In d all' -> In d all \/ input_of (e_op d) = None.

Lemma sinv_quiet : forall n n' all all' m, sinv n all m -> made n' all' -> incl all all' -> quiet all all' -> sinv n' all' m.
Proof.
  intros n n' all all' m [M E C V K I1 O1] M' L Q. constructor; [exact M'|intros e Ee; apply L; auto|eapply incl_tran; eauto|exact V|exact K| |].
  - intros d b x Id Ei. destruct (Q d Id) as [J|J]; [eauto|congruence].
  - intros d d' x Id Id' Ei Ei'. destruct (Q d Id) as [J|J]; [|congruence]. destruct (Q d' Id') as [J'|J']; [eauto|congruence].
Qed.

Definition growsq (all : list expr) (b : builder expr) : Prop :=
  forall n e n', made n all -> b n = Some (e, n') ->
    exists all', made n' all' /\ incl all all' /\ In e all' /\ quiet all all'.
Lemma growsq_node : forall all o sz ops, incl ops all -> input_of o = None -> growsq all (node o sz ops).
Proof.
  intros all o sz ops C Io n e n' M E. unfold node, bind, get_opid, ret in E. injection E as <- <-.
  exists (Node (S n) o sz ops :: all). split; [|split; [apply incl_tl, incl_refl|split; [now left|]]].
  - apply made_cons; auto. { eapply made_mono; eauto. } eapply made_fresh; eauto.
  - intros d [<-|Id]; auto.
Qed.
Lemma growsq_get : forall A all (x : option A) f, (forall a, x = Some a -> growsq all (f a)) -> growsq all (do a <- get x; f a).
Proof. intros A all [a|] f F n e n' M E; [|discriminate E]. exact (F a eq_refl n e n' M E). Qed.
Lemma growsq_check : forall all c f, growsq all f -> growsq all (run check c; f).
Proof. intros all [|] f F n e n' M E; [|discriminate E]. exact (F n e n' M E). Qed.
Lemma growsq_own_first : forall all o sz v, input_of o = None ->
  growsq all (do i <- get_opid; do c <- constant_u32 v; ret (Node i o sz [c])).
Proof.
  intros all o sz v Io n e n' M E. unfold constant_u32, constant, node, bind, get_opid, ret in E. injection E as <- <-.
  exists (Node (S n) o sz [Node (S (S n)) (Constant [v]) (length [v]) []] :: Node (S (S n)) (Constant [v]) (length [v]) [] :: all).
  split; [|split; [apply incl_tl, incl_tl, incl_refl|split; [now left|]]].
  - apply made_cons.
    + apply made_cons; [eapply made_mono; eauto|eapply made_fresh; eauto|lia|easy].
    + cbn. intros [H|H]; [lia|]. revert H. eapply made_fresh; eauto.
    + lia.
    + intros x [<-|[]]. now left.
  - intros d [<-|[<-|Id]]; auto.
Qed.
Lemma growsq_bind : forall all b f, growsq all b -> (forall x all', incl all all' -> In x all' -> growsq all' (f x)) ->
  growsq all (do x <- b; f x).
Proof.
  intros all b f Gb Gf n e n' M E. unfold bind in E. destruct (b n) as [[x n1]|] eqn:Eb; [|discriminate E].
  destruct (Gb n x n1 M Eb) as (all1 & M1 & C1 & I1 & Q1). destruct (Gf x all1 C1 I1 n1 e n' M1 E) as (all2 & M2 & C2 & I2 & Q2).
  exists all2. split; [exact M2|]. split; [eapply incl_tran; eauto|]. split; [exact I2|].
  intros d Id. destruct (Q2 d Id) as [J|J]; [now apply Q1|now right].
Qed.
Lemma growsq_perform : forall pool all c, incl pool all -> plain_call c = true -> growsq all (perform pool c).
Proof.
  intros pool all c C Pc.
  assert (N1 : forall a x, nth_error pool a = Some x -> In x all) by (intros a x E; apply C; eapply nth_error_In; eauto).
  assert (I1 : forall x, In x all -> incl [x] all) by (intros x I0 y [<-|[]]; auto).
  assert (I2 : forall x y, In x all -> In y all -> incl [x; y] all) by (intros x y Ix Iy z [<-|[<-|[]]]; auto).
  destruct c; try discriminate Pc; cbn [perform]; unfold square, double, neg, add, subtract, mul, unary, binary, binary_ext, binary_base, constant,
    equal, equal_verify, extract_bits, exp_constant, index_to_rou, index_to_rou_ext, index_to_rou_dsl, reverse_bits_len,
    num_to_field, field_to_num, four_u32_to_u32, from_table, sponge_state_init, blake3, to_sample, sample_base, sample_ext;
    repeat (first [apply growsq_get; intros|apply growsq_check|apply growsq_own_first; reflexivity]);
    try (apply growsq_node; [first [apply I2; eauto|apply I1; eauto|easy]|reflexivity]).
  - unfold lookup, constant_u32, constant. apply growsq_bind; [apply growsq_node; easy|].
    intros y all' C' Iy. apply growsq_node; [|reflexivity]. intros z [<-|[<-|[]]]; [|exact Iy]. apply C'. eauto.
  - apply growsq_node; [|reflexivity]. eapply incl_tran; [eapply handles_incl; eauto|exact C].
Qed.

Lemma embed_inv : forall cs all e n e' n', made n all -> (forall x, e = Some x -> In x all) -> incl cs all ->
  embed e cs n = Some (e', n') ->
  exists all', made n' all' /\ incl all all' /\ quiet all all' /\ (forall x, e' = Some x -> In x all').
Proof.
  induction cs as [|c cs IH]; intros all e n e' n' M Ie Ic E; cbn [embed] in E.
  - unfold ret in E. injection E as <- <-. exists all. split; [exact M|]. split; [apply incl_refl|]. split; [|exact Ie]. intros d Id. now left.
  - unfold bind, get in E. destruct e as [x|]; [|discriminate E]. unfold ret at 1 in E.
    destruct (equal x c n) as [[q n1]|] eqn:Eq; [|discriminate E].
    assert (Gq : growsq all (equal x c)).
    { apply growsq_node; [|reflexivity]. intros z [<-|[<-|[]]]; [now apply Ie|apply Ic; now left]. }
    destruct (Gq n q n1 M Eq) as (all1 & M1 & C1 & I1 & Q1).
    destruct (IH all1 (Some q) n1 e' n' M1) as (all2 & M2 & C2 & Q2 & I2); auto.
    + intros y Ey. injection Ey as <-. exact I1.
    + intros y Iy. apply C1, Ic. now right.
    + exists all2. split; [exact M2|]. split; [eapply incl_tran; eauto|]. split; [|exact I2].
      intros d Id. destruct (Q2 d Id) as [J|J]; [now apply Q1|now right].
Qed.

Lemma nodup_perm : forall A (a b : list A) x, NoDup (a ++ b) -> ~ In x (a ++ b) -> NoDup ((a ++ [x]) ++ b) /\ NoDup (a ++ b ++ [x]).
Proof.
  intros A a b x N F. split.
  - rewrite <- app_assoc. cbn. apply NoDup_Add with (a := x) (l := a ++ b); [|auto]. apply Add_app.
  - rewrite app_assoc. apply NoDup_Add with (a := x) (l := a ++ b); [|auto].
    pose proof (Add_app x (a ++ b) []) as Q. now rewrite app_nil_r in Q.
Qed.

Lemma sinv_input : forall n all m m' i (v : list Z),
  sinv n all m -> n < i ->
  mn_counter m' = S (mn_counter m) -> mn_exec m' = mn_exec m -> mn_checks m' = mn_checks m ->
  NoDup (map fst (given m')) ->
  (forall x, In x (map fst (given m')) <-> x = input_var (mn_counter m) \/ In x (map fst (given m))) ->
  sinv i (Node i (InputVarMove (input_var (mn_counter m))) (length v) [] :: all) m'.
Proof.
  intros n all m m' i v [M E C V K I1 O1] L Ec Ee Ek N P. constructor.
  - apply made_cons; [eapply made_mono; [exact M|lia]|eapply made_fresh; eauto|lia|easy].
  - rewrite Ee. intros e Hx. right. auto.
  - rewrite Ek. apply incl_tl. exact C.
  - exact N.
  - intros x Ix. apply P in Ix as [->|Ix].
    + exists (mn_counter m). split; [reflexivity|lia].
    + destruct (K x Ix) as (c & -> & Lc). exists c. split; [reflexivity|lia].
  - intros d b x [<-|Id] Ei.
    + cbn in Ei. injection Ei as <- <-. split; [reflexivity|]. apply P. now left.
    + destruct (I1 d b x Id Ei) as [-> Ix]. split; [reflexivity|]. apply P. now right.
  - assert (F : forall d, In d all -> input_of (e_op d) <> Some (true, input_var (mn_counter m))).
    { intros d Id Ei. destruct (I1 d _ _ Id Ei) as [_ Ix]. destruct (K _ Ix) as (c & Q & Lc). injection Q as Q. lia. }
    intros d d' x [<-|Id] [<-|Id'] Ei Ei'; auto.
    + exfalso. cbn in Ei. injection Ei as <-. now apply (F d').
    + exfalso. cbn in Ei'. injection Ei' as <-. now apply (F d).
    + eauto.
Qed.

Lemma sstep_inv : forall s c n s' n' all, sinv n all (snd s) -> incl (fst s) all -> sstep s c n = Some (s', n') ->
  exists all', sinv n' all' (snd s') /\ incl (fst s') all'.
Proof.
  intros [pool m] c n [pool' m'] n' all Iv Ip E. cbn [fst snd] in *. destruct c; cbn [sstep] in E; unfold bind, check, get, ret in E.
  - destruct (plain_call c) eqn:Pc; [|discriminate E]. destruct (perform pool c n) as [[e n1]|] eqn:Ep; [|discriminate E].
    injection E as <- <- <-. destruct (growsq_perform pool all c Ip Pc n e n1 (si_made _ _ _ Iv) Ep) as (all1 & M1 & C1 & I1 & Q1).
    exists all1. split; [eapply sinv_quiet; eauto|]. apply incl_app; [eapply incl_tran; eauto|]. intros y [<-|[]]. exact I1.
  - unfold assign_input_var, assign_input, node, get_opid, bind, ret in E. cbn [fst snd] in E. injection E as <- <- <-.
    eexists. split.
    + eapply (sinv_input n all m _ (S n) v); eauto; unfold given; cbn [mn_inputs mn_hints].
      * rewrite !map_app. cbn. pose proof (si_vars _ _ _ Iv) as N. unfold given in N. rewrite map_app in N.
        apply nodup_perm; [exact N|]. rewrite <- map_app. intros Q. destruct (si_counter _ _ _ Iv _ Q) as (c & Ec & Lc). injection Ec as Ec. lia.
      * intros x. rewrite !map_app, !in_app_iff. cbn. intuition.
    + cbn [fst]. apply incl_app; [apply incl_tl, Ip|]. intros y [<-|[]]. now left.
  - unfold assign_input_hint, assign_input, node, get_opid, bind, ret in E. cbn [fst snd] in E. injection E as <- <- <-.
    eexists. split.
    + eapply (sinv_input n all m _ (S n) v); eauto; unfold given; cbn [mn_inputs mn_hints].
      * rewrite !map_app. cbn. pose proof (si_vars _ _ _ Iv) as N. unfold given in N. rewrite map_app in N.
        apply nodup_perm; [exact N|]. rewrite <- map_app. intros Q. destruct (si_counter _ _ _ Iv _ Q) as (c & Ec & Lc). injection Ec as Ec. lia.
      * intros x. rewrite !map_app, !in_app_iff. cbn. intuition.
    + cbn [fst]. apply incl_app; [apply incl_tl, Ip|]. intros y [<-|[]]. now left.
  - destruct (nth_error pool a) as [e|] eqn:Ea; [|discriminate E]. injection E as <- <- <-. exists all. split; [|exact Ip].
    destruct Iv as [M Ee C V K I1 O1]. constructor; auto. cbn. intros x Q. injection Q as <-. apply Ip. eapply nth_error_In; eauto.
  - destruct (nth_error pool a) as [e|] eqn:Ea; [|discriminate E]. injection E as <- <- <-. exists all. split; [|exact Ip].
    destruct Iv as [M Ee C V K I1 O1]. constructor; auto. cbn. apply incl_app; [exact C|]. intros x [<-|[]]. apply Ip. eapply nth_error_In; eauto.
  - unfold embed_hint_verify, bind, ret in E. destruct (embed (mn_exec m) (mn_checks m) n) as [[e n1]|] eqn:Ee; [|discriminate E].
    injection E as <- <- <-.
    destruct (embed_inv _ all _ _ _ _ (si_made _ _ _ Iv) (si_exec _ _ _ Iv) (si_checks _ _ _ Iv) Ee) as (all1 & M1 & C1 & Q1 & I1).
    exists all1. split; [|eapply incl_tran; eauto]. pose proof (sinv_quiet _ _ _ _ _ Iv M1 C1 Q1) as [M' Ee' C' V' K' I1' O1']. constructor; auto.
Qed.
Lemma session_inv : forall cs s n s' n' all, sinv n all (snd s) -> incl (fst s) all -> session cs s n = Some (s', n') ->
  exists all', sinv n' all' (snd s') /\ incl (fst s') all'.
Proof.
  induction cs as [|c cs IH]; intros s n s' n' all Iv Ip E; cbn [session] in E.
  - unfold ret in E. injection E as <- <-. eauto.
  - unfold bind in E. destruct (sstep s c n) as [[s1 n1]|] eqn:Es; [|discriminate E].
    destruct (sstep_inv _ _ _ _ _ _ Iv Ip Es) as (all1 & Iv1 & Ip1). eauto.
Qed.
Lemma sinv_new : forall n, sinv n [] manager_new.
Proof. intros n. constructor; try easy; [apply made_nil|constructor]. Qed.

(** ** The stack made by simulate_input *)
Definition pushed (m : manager) : list (variable * list Z) := rev (mn_inputs m) ++ rev (mn_hints m).
Lemma simulate_pushed : forall m, simulate_input m = fold_left push_input (pushed m) (tracker_new, fun _ => None).
Proof. intros m. unfold simulate_input, pushed. now rewrite fold_left_app. Qed.

Definition svars (L : list (variable * list Z)) : list (nat * nat) := combine (seq 0 (length L)) (map (fun p => length (snd p)) L).
Lemma svars_snoc : forall L p, svars (L ++ [p]) = svars L ++ [(length L, length (snd p))].
Proof.
  intros L p. unfold svars. rewrite app_length, seq_app, map_app. cbn [length seq map Nat.add].
  assert (Q : forall (a : list nat) (b : list nat) x y, length a = length b -> combine (a ++ [x]) (b ++ [y]) = combine a b ++ [(x, y)]).
  { induction a as [|z a IH]; intros [|w b] x y E; try discriminate E; [reflexivity|]. cbn. f_equal. apply IH. now injection E. }
  apply Q. now rewrite seq_length, map_length.
Qed.
Lemma svars_fst : forall L, map fst (svars L) = seq 0 (length L).
Proof.
  induction L as [|p L IH] using rev_ind; [reflexivity|]. rewrite svars_snoc, map_app, IH, app_length. cbn.
  now rewrite seq_app.
Qed.
Lemma svars_in : forall L k s, In (k, s) (svars L) <-> exists x v, nth_error L k = Some (x, v) /\ s = length v.
Proof.
  induction L as [|[x v] L IH] using rev_ind; intros k s.
  - cbn. split; [easy|]. intros (x & v & E & _). now destruct k.
  - rewrite svars_snoc, in_app_iff, IH. cbn [In]. split.
    + intros [(y & w & E & ->)|[E|[]]].
      * exists y, w. split; [|reflexivity]. rewrite nth_error_app1; [exact E|]. apply nth_error_Some. congruence.
      * injection E as <- <-. exists x, v. rewrite nth_error_app2, Nat.sub_diag by lia. split; reflexivity.
    + intros (y & w & E & ->). destruct (Nat.lt_ge_cases k (length L)) as [Lk|Lk].
      * left. rewrite nth_error_app1 in E by exact Lk. eauto.
      * right. left. rewrite nth_error_app2 in E by exact Lk. destruct (k - length L) as [|j] eqn:Ej; [|now destruct j].
        cbn in E. injection E as -> ->. f_equal. lia.
Qed.

Definition vals_given (L : list (variable * list Z)) : values := fun i => snd (nth i L (mkvar 0 0 None, [])).
Lemma push_inputs_ok : forall L T gt, fold_left push_input L (tracker_new, fun _ => None) = (T, gt) ->
  t_next T = length L /\ t_main T = rev (svars L) /\ t_alt T = [] /\ t_script T = flat_map push_vec (map snd L) /\
  (forall x k s, gt x = Some (k, s) -> In (k, s) (svars L) /\ exists v, nth_error L k = Some (x, v)) /\
  (forall x, In x (map fst L) -> gt x <> None).
Proof.
  induction L as [|[x v] L IH] using rev_ind; intros T gt E.
  - cbn in E. injection E as <- <-. repeat split; try easy.
  - rewrite fold_left_app in E. cbn [fold_left] in E.
    destruct (fold_left push_input L (tracker_new, fun _ => None)) as [T0 gt0] eqn:E0.
    destruct (IH T0 gt0 eq_refl) as (N & Mn & Al & Sc & Gt & Pr).
    cbn [push_input bignumber snd fst] in E. injection E as <- <-. cbn [t_next t_main t_alt t_script].
    rewrite app_length, svars_snoc, rev_app_distr, map_app, flat_map_app. cbn [length rev app map flat_map snd fst].
    rewrite app_nil_r, Sc, N, Mn. split; [lia|]. split; [reflexivity|]. split; [exact Al|]. split; [reflexivity|]. split.
    + intros y k s H. destruct (variable_eqb y x) eqn:Ex.
      * injection H as <- <-. apply variable_eqb_eq in Ex as ->. split; [apply in_or_app; right; now left|].
        exists v. now rewrite nth_error_app2, Nat.sub_diag by lia.
      * destruct (Gt _ _ _ H) as [I0 (w & Ew)]. split; [apply in_or_app; now left|]. exists w. rewrite nth_error_app1; [exact Ew|].
        apply nth_error_Some. congruence.
    + intros y. rewrite map_app, in_app_iff. cbn [In map fst]. intros Iy. destruct (variable_eqb y x) eqn:Ex; [easy|].
      destruct Iy as [Iy|[->|[]]]; [now apply Pr|]. exfalso. rewrite (proj2 (variable_eqb_eq y y) eq_refl) in Ex. discriminate Ex.
Qed.

Lemma vals_svars : forall L, map (fun v => vals_given L (fst v)) (svars L) = map snd L.
Proof.
  intros L. rewrite <- (map_map fst (vals_given L)), svars_fst. unfold vals_given.
  induction L as [|p L IH]; [reflexivity|]. cbn [length seq map]. f_equal. rewrite <- seq_shift, map_map. exact IH.
Qed.
Lemma exec_pushes : forall H L r a, exec H (flat_map push_vec L) r a (nums (concat (rev L)) ++ r) a.
Proof.
  intros H L. induction L as [|v L IH]; intros r a; [reflexivity|]. cbn [flat_map rev].
  eapply exec_seq; [apply exec_push_vec|]. rewrite concat_app, nums_app. cbn [concat]. rewrite app_nil_r, <- app_assoc. apply IH.
Qed.
Lemma pushes_img : forall H L, exec H (flat_map push_vec (map snd L)) [] [] (img (vals_given L) (rev (svars L))) [].
Proof.
  intros H L. unfold img, vals_of. rewrite map_rev, vals_svars. pose proof (exec_pushes H (map snd L) [] []) as E.
  now rewrite app_nil_r in E.
Qed.

Lemma lookup_given : forall L x v, NoDup (map fst L) -> In (x, v) L -> lookup_var x L = Some v.
Proof.
  induction L as [|[y w] L IH]; intros x v N I0; [easy|]. cbn in N |- *. inversion N as [|? ? F N']; subst.
  destruct I0 as [Q|I0].
  - injection Q as -> ->. now rewrite (proj2 (variable_eqb_eq x x) eq_refl).
  - destruct (variable_eqb x y) eqn:E; [|auto]. apply variable_eqb_eq in E as ->. exfalso. apply F. now apply (in_map fst) in I0.
Qed.
Lemma pushed_given : forall m p, In p (pushed m) <-> In p (given m).
Proof. intros m p. unfold pushed, given. rewrite !in_app_iff, <- !in_rev. reflexivity. Qed.
Lemma pushed_nodup : forall m, NoDup (map fst (given m)) -> NoDup (map fst (pushed m)).
Proof.
  intros m N. unfold pushed, given in *. apply (Permutation.Permutation_NoDup (l := map fst (mn_inputs m ++ mn_hints m))); [|exact N].
  apply Permutation.Permutation_map, Permutation.Permutation_app; apply Permutation.Permutation_rev.
Qed.
