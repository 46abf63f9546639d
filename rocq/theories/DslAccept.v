(** Running a manager whose checks hold. *)
From Coq Require Import ZArith List Bool Arith Lia.
From Verif Require Import ScriptNum ScriptVM Lift Field BabyBear HelperModel DslModel DslStack DslSpec DslOpSpec DslProofs DslDag DslMain DslOps DslGadgets
  DslBuild DslIds DslDenote DslManager DslSession DslWork PropDsl PropManager.
Import ListNotations.
Local Open Scope nat_scope.

Lemma fits_simulate : forall n all m, sinv n all m -> fits (snd (simulate_input m)) (env_of m) m.
Proof.
  intros n all m Iv x v Ix. split; [apply lookup_given; [exact (si_vars _ _ _ Iv)|exact Ix]|].
  destruct (simulate_input m) as [T gt] eqn:Es. cbn [snd]. rewrite simulate_pushed in Es.
  destruct (push_inputs_ok _ _ _ Es) as (_ & _ & _ & _ & Gt & Pr).
  pose proof (pushed_nodup m (si_vars _ _ _ Iv)) as Nd.
  assert (Jx : In (x, v) (pushed m)) by now apply pushed_given.
  destruct (gt x) as [[k s]|] eqn:Eg; [|exfalso; apply (Pr x); [now apply (in_map fst) in Jx|exact Eg]].
  exists k. f_equal. f_equal. destruct (Gt _ _ _ Eg) as [I0 (w & Ew)]. apply svars_in in I0 as (y & w' & Ew' & ->).
  rewrite Ew in Ew'. injection Ew' as <- <-. apply nth_error_In in Ew.
  pose proof (lookup_given _ _ _ Nd Ew) as E1. pose proof (lookup_given _ _ _ Nd Jx) as E2. congruence.
Qed.

Lemma embed_total : forall cs e0 n, exists e n', embed (Some e0) cs n = Some (Some e, n') /\
  (forall d, In d (e0 :: cs) -> sub d e) /\ (plain e0 -> Forall plain cs -> plain e).
Proof.
  induction cs as [|c cs IH]; intros e0 n; cbn [embed].
  - exists e0, n. split; [reflexivity|]. split; [intros d [<-|[]]; apply sub_refl|auto].
  - unfold bind, get, equal, node, get_opid, ret, bind.
    destruct (IH (Node (S n) Equal 1 [e0; c]) (S n)) as (e & n' & E & S0 & P0). exists e, n'. split; [exact E|]. split.
    + assert (Sq : sub (Node (S n) Equal 1 [e0; c]) e) by (apply S0; now left).
      intros d [<-|[<-|Id]]; [| |apply S0; now right].
      * eapply sub_trans; [|exact Sq]. apply sub_op. now left.
      * eapply sub_trans; [|exact Sq]. apply sub_op. right. now left.
    + intros P1 P2. inversion P2; subst. apply P0; auto. apply plain_node; [reflexivity|]. cbn. auto.
Qed.

Section Accept.
  Variable H : bytes -> bytes.
  Variable G : gadgets.
  Hypothesis OK : gadgets_ok H G.

  Lemma equal_one : forall gt env a c z, is_bool z -> holds G gt env a [z] -> holds G gt env c [1%Z] ->
    yields (equal a c) (fun e => holds G gt env e [z]).
  Proof.
    intros gt env a c z B Ha Hc. eapply yields_weaken; [eapply (holds_equal G gt env a c 1); eauto|].
    intros e He. cbv beta in He. destruct B as [-> | ->]; exact He.
  Qed.
  Lemma equal_break : forall gt env a c y, breaks G gt env a 1 -> holds G gt env c [y] ->
    yields (equal a c) (fun e => breaks G gt env e 1).
  Proof.
    intros gt env a c y [Va Sa Za] [Vc Sc Zc]. apply yields_node. intros i. constructor; [| |reflexivity].
    - cbn [eval map]. rewrite Va, Vc. reflexivity.
    - cbn [shape map all_some]. rewrite Sa, Sc, Za, Zc. reflexivity.
  Qed.
  Lemma embed_holds : forall gt env cs e0 n e n' z, embed (Some e0) cs n = Some (Some e, n') -> is_bool z ->
    holds G gt env e0 [z] -> Forall (fun c => holds G gt env c [1%Z]) cs -> holds G gt env e [z].
  Proof.
    intros gt env. induction cs as [|c cs IH]; intros e0 n e n' z E B H0 Fc; cbn [embed] in E.
    - unfold ret in E. injection E as <- <-. exact H0.
    - unfold bind, get in E. unfold ret at 1 in E. inversion Fc; subst.
      destruct (equal_one gt env e0 c z B H0 H3 n) as (q & n1 & Eq & Hq). rewrite Eq in E. eapply IH; eauto.
  Qed.
  Lemma embed_breaks : forall gt env cs e0 n e n', embed (Some e0) cs n = Some (Some e, n') ->
    breaks G gt env e0 1 -> Forall (fun c => holds G gt env c [1%Z]) cs -> breaks G gt env e 1.
  Proof.
    intros gt env. induction cs as [|c cs IH]; intros e0 n e n' E H0 Fc; cbn [embed] in E.
    - unfold ret in E. injection E as <- <-. exact H0.
    - unfold bind, get in E. unfold ret at 1 in E. inversion Fc; subst.
      destruct (equal_break gt env e0 c _ H0 H3 n) as (q & n1 & Eq & Hq). rewrite Eq in E. eapply IH; eauto.
  Qed.

  (** room for the words on the stack, see [ready] *)
  Definition room (m : manager) : Prop :=
    forall e, mn_exec m = Some e -> (Z.of_nat (length (flat_map snd (given m)) + need G (snd (simulate_input m)) e) < 2 ^ 31)%Z.

  Lemma unused_none : forall m e, (forall x, In x (map fst (given m)) -> moves x e) -> unused m e = [].
  Proof.
    intros m e C. unfold unused. rewrite flat_map_concat_map.
    assert (Q : filter (fun p : variable * list Z => negb (uses e (fst p))) (mn_hints m ++ mn_inputs m) = []); [|now rewrite Q].
    assert (U : forall p, In p (mn_hints m ++ mn_inputs m) -> uses e (fst p) = true).
    { intros p Ip. destruct (C (fst p)) as (d & Sd & Ed).
      { apply in_map. unfold given. apply in_app_iff. apply in_app_iff in Ip. tauto. }
      unfold uses. apply existsb_exists. exists d. split; [now apply nodes_sub|]. rewrite Ed. now apply variable_eqb_eq. }
    induction (mn_hints m ++ mn_inputs m) as [|p l IH]; [reflexivity|]. cbn. rewrite U by now left. cbn. apply IH. intros q Iq. apply U. now right.
  Qed.

  Lemma manager_verdict : forall n all m e0, sinv n all m -> mn_exec m = Some e0 ->
    covered m (e0 :: mn_checks m) -> Forall plain (e0 :: mn_checks m) ->
    exists m' n' e, embed_hint_verify m n = Some (m', n') /\ given m' = given m /\ embed (Some e0) (mn_checks m) n = Some (Some e, n') /\
      (room m' -> exists gt, fits gt (env_of m') m /\
        (forall z, holds G gt (env_of m') e [z] -> (run_manager H G m' = true <-> z <> 0%Z)) /\
        (breaks G gt (env_of m') e 1 -> run_manager H G m' = false)).
  Proof.
    intros n all m e0 Iv E0 Cv Pl. inversion Pl as [|? ? P0 Pc]; subst.
    destruct (embed_total (mn_checks m) e0 n) as (e & n' & Ee & S0 & Pe).
    set (m' := mkman (mn_counter m) (mn_inputs m) (mn_hints m) (Some e) (mn_checks m)).
    exists m', n', e. split; [unfold embed_hint_verify, bind; now rewrite E0, Ee|]. split; [reflexivity|]. split; [exact Ee|]. intros Rm.
    assert (Iv' : exists all', sinv n' all' m').
    { destruct (embed_inv _ all _ _ _ _ (si_made _ _ _ Iv) (fun x Q => si_exec _ _ _ Iv x (eq_trans E0 Q)) (si_checks _ _ _ Iv) Ee)
        as (all1 & M1 & C1 & Q1 & I1).
      exists all1. pose proof (sinv_quiet _ _ _ _ _ Iv M1 C1 Q1) as [M' Ee' C' V' K' I1' O1']. constructor; auto. }
    destruct Iv' as [all' Iv'].
    assert (Un : unused m' e = []).
    { apply unused_none. intros x Ix. destruct (Cv x Ix) as (r & Ir & Mr). eapply moves_sub; [|exact Mr]. now apply S0. }
    pose proof (fits_simulate _ _ _ Iv') as Fg. exists (snd (simulate_input m')). set (gt := snd (simulate_input m')) in *.
    split; [exact Fg|].
    assert (Rd : shape G gt e <> None -> ready G m' e).
    { intros Sh. constructor; [exact Sh|apply plain_multi; auto|now apply Rm]. }
    split.
    - intros z Hz. rewrite (manager_run H G OK _ _ _ _ (Leaves [[z]]) Iv' eq_refl); [| |exact (h_eval _ _ _ _ _ Hz)].
      + rewrite Un. split.
        * intros (outs & b & Q & Ec & Nb). injection Q as <-. cbn in Ec. injection Ec as <-. exact Nb.
        * intros Nb. exists [[z]], z. auto.
      + apply Rd. rewrite (h_shape _ _ _ _ _ Hz). discriminate.
    - intros Hb. apply not_true_is_false. intros Q.
      apply (manager_run H G OK _ _ _ _ Fails Iv' eq_refl) in Q as (? & ? & Q & _); [discriminate Q| |exact (b_eval _ _ _ _ _ Hb)].
      apply Rd. rewrite (b_shape _ _ _ _ _ Hb). discriminate.
  Qed.

  Lemma manager_accepts : forall n all m e0 k ok, sinv n all m -> mn_exec m = Some e0 -> judges G m e0 k ok -> k = 1 \/ k = 4 ->
    Forall (fun c => says G m c [1%Z]) (mn_checks m) -> covered m (e0 :: mn_checks m) -> Forall plain (e0 :: mn_checks m) ->
    exists m' n', embed_hint_verify m n = Some (m', n') /\ given m' = given m /\
      (room m' -> (ok -> run_manager H G m' = true) /\ (~ ok -> run_manager H G m' = false)).
  Proof.
    intros n all m e0 k ok Iv E0 J Kk Fc Cv Pl. destruct (manager_verdict n all m e0 Iv E0 Cv Pl) as (m' & n' & e & Em & Gm & Ee & V).
    exists m', n'. split; [exact Em|]. split; [exact Gm|]. intros Rm. destruct (V Rm) as (gt & Fm & W1 & W0).
    assert (Hc : Forall (fun c => holds G gt (env_of m') c [1%Z]) (mn_checks m)).
    { eapply Forall_impl; [|exact Fc]. intros c Sc. now apply Sc. }
    destruct (J gt (env_of m') Fm) as (J1 & J2 & J3). split.
    - intros Ho. apply (W1 1%Z); [|discriminate]. eapply embed_holds; eauto. now right.
    - intros No. destruct Kk as [-> | ->].
      + apply not_true_is_false. intros Q. apply (W1 0%Z) in Q; [now apply Q|]. eapply embed_holds; eauto. now left.
      + apply W0. eapply embed_breaks; eauto.
  Qed.

  Lemma embed_single : forall e0 c n e n', embed (Some e0) [c] n = Some (Some e, n') -> equal e0 c n = Some (e, n').
  Proof. intros e0 c n e n' E. cbn [embed] in E. unfold bind, get, ret in E. destruct (equal e0 c n) as [[q n1]|]; [|discriminate E]. congruence. Qed.
  (** an execution over the extension field and one check over the base field *)
  Lemma manager_accepts_one : forall n all m e0 c ok okc, sinv n all m -> mn_exec m = Some e0 -> judges G m e0 4 ok ->
    mn_checks m = [c] -> judges G m c 1 okc -> covered m (e0 :: mn_checks m) -> Forall plain (e0 :: mn_checks m) -> (ok \/ ~ ok) -> (okc \/ ~ okc) ->
    exists m' n', embed_hint_verify m n = Some (m', n') /\ given m' = given m /\
      (room m' -> (run_manager H G m' = true <-> ok /\ okc)).
  Proof.
    intros n all m e0 c ok okc Iv E0 J Ec Jc Cv Pl Dk Dc. destruct (manager_verdict n all m e0 Iv E0 Cv Pl) as (m' & n' & e & Em & Gm & Ee & V).
    exists m', n'. split; [exact Em|]. split; [exact Gm|]. intros Rm. destruct (V Rm) as (gt & Fm & W1 & W0).
    destruct (J gt (env_of m') Fm) as (J1 & J2 & J3). destruct (Jc gt (env_of m') Fm) as (K1 & K2 & K3). rewrite Ec in Ee.
    destruct Dk as [Ho|No].
    - specialize (J1 Ho). destruct Dc as [Hc|Nc].
      + split; [auto|]. intros _. apply (W1 1%Z); [|discriminate]. eapply embed_holds; eauto. now right.
      + split; [|intros [_ Q]; now elim Nc]. specialize (K2 Nc eq_refl). intros Q. exfalso. revert Q. rewrite (W1 0%Z); [congruence|].
        apply embed_single in Ee.
        destruct (holds_equal G gt (env_of m') e0 c 1 [1%Z] [0%Z] eq_refl J1 K2 eq_refl eq_refl n) as (e2 & n2 & E2 & He).
        rewrite Ee in E2. injection E2 as <- <-. exact He.
    - split; [|intros [Q _]; now elim No]. intros Q. rewrite W0 in Q; [discriminate Q|].
      specialize (J3 No eq_refl).
      apply embed_single in Ee. assert (Hy : exists y, holds G gt (env_of m') c [y]) by (destruct Dc as [Hc|Nc]; [exists 1%Z; auto|exists 0%Z; auto]).
      destruct Hy as [y Hy]. destruct (equal_break gt (env_of m') e0 c y J3 Hy n) as (e2 & n2 & E2 & He). rewrite Ee in E2. injection E2 as <- <-. exact He.
  Qed.
End Accept.
