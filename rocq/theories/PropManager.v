(** Properties C50, C52, C53: input managers, embedded checks, value counting. *)
From Coq Require Import ZArith List Bool Arith Lia.
From Verif Require Import ScriptNum ScriptVM U32Model Lift PropWords HelperModel HelperRou.
From Verif Require Import Field BabyBear DslModel DslStack DslSpec DslOpSpec DslProofs DslDag DslMain DslOps DslGadgets
  DslBuild DslIds DslManager DslSession PropDsl.
Import ListNotations.
Local Open Scope nat_scope.

(** ** C50 *)
(** Words of the inputs and hints that do not occur in an expression. *)
Definition uses (e : expr) (x : variable) : bool :=
  existsb (fun d => match e_op d with InputVarMove y => variable_eqb x y | _ => false end) (nodes e).
Definition unused (m : manager) (e : expr) : list Z :=
  flat_map snd (filter (fun p => negb (uses e (fst p))) (mn_hints m ++ mn_inputs m)).

(** Conditions under which an expression is generated (see C48): the assertions of
    the builders' sizes hold, no stack gets 2^31 items, multi-output nodes are shared
    plainly. *)
Record ready (G : gadgets) (m : manager) (e : expr) : Prop := mkready {
  rd_shape : shape G (snd (simulate_input m)) e <> None;
  rd_plain : multi_plain e;
  rd_room : (Z.of_nat (length (flat_map snd (given m)) + need G (snd (simulate_input m)) e) < 2 ^ 31)%Z }.

Lemma svars_forall2 : forall (P : nat * nat -> variable * list Z -> Prop) L,
  (forall k x v, nth_error L k = Some (x, v) -> P (k, length v) (x, v)) -> Forall2 P (svars L) L.
Proof.
  intros P L F. unfold svars.
  assert (W : forall M a, (forall k x v, nth_error M k = Some (x, v) -> P (a + k, length v) (x, v)) ->
    Forall2 P (combine (seq a (length M)) (map (fun p => length (snd p)) M)) M).
  { induction M as [|[x v] M IH]; intros a FM; cbn; constructor.
    - pose proof (FM 0 x v eq_refl) as Q. now rewrite Nat.add_0_r in Q.
    - apply IH. intros k y w E. replace (S a + k) with (a + S k) by lia. now apply FM. }
  apply W. intros k x v E. now apply F.
Qed.
Lemma forall2_filter : forall A B (P : A -> B -> Prop) (f : A -> bool) (g : B -> bool) l k,
  Forall2 P l k -> (forall a b, P a b -> f a = g b) -> Forall2 P (filter f l) (filter g k).
Proof.
  intros A B P f g l k F W. induction F as [|a b l k Pab F IH]; [constructor|]. cbn. rewrite (W a b Pab). now destruct (g b); [constructor|].
Qed.
Lemma forall2_rev : forall A B (P : A -> B -> Prop) l k, Forall2 P l k -> Forall2 P (rev l) (rev k).
Proof.
  intros A B P l k F. induction F as [|a b l k Pab F IH]; [constructor|]. cbn. apply Forall2_app; [exact IH|]. now repeat constructor.
Qed.

Lemma list_sum_rev : forall l, list_sum (rev l) = list_sum l.
Proof.
  induction l as [|z l IH]; [reflexivity|]. cbn [rev]. rewrite list_sum_app, IH.
  change (list_sum [z]) with (z + 0). change (list_sum (z :: l)) with (z + list_sum l). lia.
Qed.
Lemma list_sum_lengths : forall (L : list (variable * list Z)),
  list_sum (map (fun p => length (snd p)) L) = length (flat_map snd L).
Proof.
  induction L as [|p L IH]; [reflexivity|]. cbn [map flat_map]. rewrite app_length, <- IH. reflexivity.
Qed.
Lemma length_flat_rev : forall (L : list (variable * list Z)), length (flat_map snd (rev L)) = length (flat_map snd L).
Proof.
  intros L. rewrite <- !list_sum_lengths, map_rev. apply list_sum_rev.
Qed.
Lemma items_svars : forall m, items (rev (svars (pushed m))) = length (flat_map snd (given m)).
Proof.
  intros m. unfold items. rewrite map_rev, list_sum_rev.
  assert (W : forall (l : list nat) a, map snd (combine (seq a (length l)) l) = l).
  { induction l as [|z l IH]; intros a; [reflexivity|]. cbn. now rewrite IH. }
  transitivity (list_sum (map (fun p => length (snd p)) (pushed m))).
  { f_equal. unfold svars. rewrite <- (W (map (fun p : variable * list Z => length (snd p)) (pushed m)) 0) at 2. now rewrite map_length. }
  rewrite list_sum_lengths. unfold pushed, given. rewrite !flat_map_app, !app_length, !length_flat_rev. reflexivity.
Qed.

Section Run.
  Variable H : bytes -> bytes.
  Variable G : gadgets.
  Hypothesis OK : gadgets_ok H G.

  Lemma manager_generates : forall n all m e, sinv n all m -> mn_exec m = Some e -> ready G m e ->
    let T := fst (simulate_input m) in
    let gt := snd (simulate_input m) in
    generates H G gt op_sem true e T /\
    sized (vals_given (pushed m)) (t_main T ++ t_alt T) /\ env_ok gt (env_of m) (vals_given (pushed m)) /\
    t_main T = rev (svars (pushed m)) /\ t_alt T = [] /\ t_script T = flat_map push_vec (map snd (pushed m)) /\
    img (vals_given (pushed m)) (without (moved gt e) (t_main T)) = nums (unused m e).
  Proof.
    intros n all m e Iv Ee [Rs Rp Rr] T gt. destruct (simulate_input m) as [T0 gt0] eqn:Es. cbn [fst snd] in T, gt, Rs, Rr. subst T gt.
    rewrite simulate_pushed in Es. destruct (push_inputs_ok _ _ _ Es) as (Nx & Mn & Al & Sc & Gt & Pr).
    pose proof (pushed_nodup m (si_vars _ _ _ Iv)) as Nd.
    assert (Ie : In e all) by (exact (si_exec _ _ _ Iv e Ee)).
    assert (Sb : forall d, sub d e -> In d all) by (intros d Sd; exact (made_sub _ _ _ _ (si_made _ _ _ Iv) Ie Sd)).
    assert (Kx : forall k x v x' v', nth_error (pushed m) k = Some (x, v) -> nth_error (pushed m) k = Some (x', v') -> x = x' /\ v = v').
    { intros k x v x' v' E1 E2. rewrite E1 in E2. now injection E2. }
    assert (Gx : forall x, In x (map fst (given m)) -> exists k v, gt0 x = Some (k, length v) /\ nth_error (pushed m) k = Some (x, v)).
    { intros x Ix. destruct (gt0 x) as [[k s]|] eqn:Eg.
      - destruct (Gt _ _ _ Eg) as [I0 (v & Ev)]. apply svars_in in I0 as (y & w & Ew & ->). destruct (Kx _ _ _ _ _ Ev Ew) as [<- <-]. eauto.
      - exfalso. revert Eg. apply Pr. apply in_map_iff in Ix as (p & <- & Ip). apply in_map. now apply pushed_given. }
    assert (IP : inputs_present gt0 e (t_main T0)).
    { intros d b x Sd Ei. destruct (si_input _ _ _ Iv d b x (Sb d Sd) Ei) as [_ Ix]. destruct (Gx x Ix) as (k & v & Eg & Ev).
      exists (k, length v). split; [exact Eg|]. rewrite Mn. apply -> (in_rev (svars (pushed m))). apply svars_in. eauto. }
    assert (EX : moves_exclusive gt0 e).
    { intros d d' x b x' v v' Sd Sd' Ei Ei' Eg Eg' Ef.
      destruct (si_input _ _ _ Iv d' b x' (Sb d' Sd') Ei') as [-> Ix'].
      destruct v as [k s], v' as [k' s']. cbn in Ef. subst k'.
      destruct (Gt _ _ _ Eg) as [_ (w & Ew)], (Gt _ _ _ Eg') as [_ (w' & Ew')]. destruct (Kx _ _ _ _ _ Ew Ew') as [-> _].
      f_equal. exact (si_one _ _ _ Iv d d' x' (Sb d Sd) (Sb d' Sd') Ei Ei'). }
    assert (Zv : sized (vals_given (pushed m)) (t_main T0 ++ t_alt T0)).
    { rewrite Al, app_nil_r, Mn. apply Forall_rev. apply Forall_forall. intros [k s] I0.
      apply svars_in in I0 as (x & v & Ev & ->). unfold vals_given. cbn. now rewrite (nth_error_nth _ _ _ Ev). }
    assert (Eo : env_ok gt0 (env_of m) (vals_given (pushed m))).
    { intros x [k s] Eg. destruct (Gt _ _ _ Eg) as [_ (v & Ev)]. cbn. unfold vals_given. rewrite (nth_error_nth _ _ _ Ev).
      apply lookup_given; [exact (si_vars _ _ _ Iv)|]. apply pushed_given. eapply nth_error_In; eauto. }
    split; [|split; [exact Zv|split; [exact Eo|split; [exact Mn|split; [exact Al|split; [exact Sc|]]]]]].
    - apply C48_optimised_generation; auto.
      + constructor.
        * split; rewrite Al, app_nil_r, Mn.
          { rewrite map_rev. apply NoDup_rev. rewrite (svars_fst (pushed m)). apply seq_NoDup. }
          { apply Forall_rev. apply Forall_forall. intros [k s] I0. apply svars_in in I0 as (x & v & Ev & ->). cbn. rewrite Nx.
            apply nth_error_Some. congruence. }
        * intros x [k s] Eg. destruct (Gt _ _ _ Eg) as [_ (v & Ev)]. cbn. rewrite Nx. apply nth_error_Some. congruence.
        * exact Rs.
        * assert (Q : items (t_main T0) = length (flat_map snd (given m))); [|rewrite Q; exact Rr].
          rewrite Mn. apply items_svars.
      + exact (fun a b Sa Sb' E => made_unique _ _ _ _ _ _ (si_made _ _ _ Iv) Ie Ie Sa Sb' E).
    - rewrite Mn. unfold without, unused.
      assert (F2 : Forall2 (fun v p => vals_given (pushed m) (fst v) = snd p /\ memb (fst v) (moved gt0 e) = uses e (fst p))
                     (rev (svars (pushed m))) (rev (pushed m))).
      { apply forall2_rev. apply svars_forall2. intros k x v Ev. cbn [fst snd].
        split; [unfold vals_given; now rewrite (nth_error_nth _ _ _ Ev)|].
        apply eq_true_iff_eq. unfold uses. rewrite memb_In, moved_move_node, existsb_exists. split.
        - intros (d & Sd & y & w & Ei & Eg & Ek). exists d. split; [now apply nodes_sub|].
          destruct (e_op d); try discriminate Ei. injection Ei as ->. apply variable_eqb_eq.
          destruct w as [k' s']. cbn in Ek. subst k'. destruct (Gt _ _ _ Eg) as [_ (w & Ew)]. now destruct (Kx _ _ _ _ _ Ev Ew).
        - intros (d & Id & Q). apply nodes_sub in Id. exists d. split; [exact Id|]. destruct (e_op d) eqn:Eop; try discriminate Q.
          apply variable_eqb_eq in Q. subst v0.
          assert (Ix : In x (map fst (given m))) by (apply (si_input _ _ _ Iv d true x (Sb d Id)); now rewrite Eop).
          destruct (Gx x Ix) as (k' & w & Eg & Ew). exists x, (k', length w). split; [now rewrite Eop|]. split; [exact Eg|]. cbn.
          apply (proj1 (NoDup_nth_error _) Nd); [rewrite map_length; apply nth_error_Some; congruence|].
          now rewrite !nth_error_map, Ev, Ew. }
      assert (Rv : rev (pushed m) = mn_hints m ++ mn_inputs m) by (unfold pushed; now rewrite rev_app_distr, !rev_involutive).
      rewrite <- Rv. unfold img, vals_of. f_equal. rewrite flat_map_concat_map. f_equal.
      apply (forall2_filter _ _ _ (fun v => negb (memb (fst v) (moved gt0 e))) (fun p => negb (uses e (fst p)))) in F2.
      2:{ intros a b [_ Q]. now rewrite Q. }
      induction F2 as [|a b l k [Q _] F2 IH]; [reflexivity|]. cbn [map]. f_equal; assumption.
  Qed.

  (** Running a manager: accepted exactly when the value of its expression together
      with the words of the unused inputs is one word different from zero. *)
  Lemma manager_run : forall n all m e r, sinv n all m -> mn_exec m = Some e -> ready G m e ->
    eval op_sem (env_of m) e = Some r ->
    (run_manager H G m = true <->
     exists outs b, r = Leaves outs /\ concat outs ++ unused m e = [b] /\ b <> 0%Z).
  Proof.
    intros n all m e r Iv Ee Rd Ev.
    destruct (manager_generates _ _ _ _ Iv Ee Rd) as (Gn & Zv & Eo & Mn & Al & Sc & Un). unfold run_manager. rewrite Ee.
    destruct (simulate_input m) as [T gt]. cbn [fst snd] in *.
    destruct Gn as (T' & m' & vars & p & sh & Ex & _ & _ & _ & _ & Sp & Mean). rewrite Ex, Sp, Sc.
    specialize (Mean _ _ Zv Eo). rewrite Ev in Mean. pose proof (pushes_img H (pushed m)) as P. rewrite <- Mn in P.
    destruct r as [outs|]; cbn [meaning_of] in Mean; specialize (Mean [] []); rewrite Al in Mean; cbn [aimg vals_of map concat app] in Mean;
      rewrite app_nil_r in Mean.
    - assert (Q : exec H (flat_map push_vec (map snd (pushed m)) ++ p) [] [] (nums (concat outs ++ unused m e)) []).
      { eapply exec_seq; [exact P|]. rewrite nums_app, <- Un, <- (app_nil_r (img _ (without _ _))). exact Mean. }
      unfold exec in Q. rewrite Q. unfold bsucceeds, succeeds. split.
      + intros Tr. destruct (concat outs ++ unused m e) as [|b [|]] eqn:Ec; try discriminate Tr. exists outs, b. split; [reflexivity|].
        split; [exact Ec|]. cbn [nums map] in Tr. intros ->. now vm_compute in Tr.
      + intros (outs' & b & Eq & Ec & Nb). injection Eq as <-. rewrite Ec. cbn [nums map].
        change (enc b) with (vbytes (I b)). rewrite vtruthy_ok. cbn. now apply negb_true_iff, Z.eqb_neq.
    - assert (Q : fails H (flat_map push_vec (map snd (pushed m)) ++ p) [] []).
      { eapply fails_seq; [exact P|exact Mean]. }
      unfold fails in Q. rewrite Q. cbn. split; [discriminate|]. intros (outs & b & Eq & _). discriminate Eq.
  Qed.
  (** The same for a manager that came out of any session. *)
  Theorem C50_run : forall cs n pool m n' e r,
    session cs ([], manager_new) n = Some ((pool, m), n') -> mn_exec m = Some e -> ready G m e ->
    eval op_sem (env_of m) e = Some r ->
    (run_manager H G m = true <->
     exists outs b, r = Leaves outs /\ concat outs ++ unused m e = [b] /\ b <> 0%Z).
  Proof.
    intros cs n pool m n' e r Es Ee Rd Ev.
    destruct (session_inv cs ([], manager_new) n (pool, m) n' [] (sinv_new n)) as (all & Iv & _); [easy|exact Es|].
    exact (manager_run _ _ _ _ _ Iv Ee Rd Ev).
  Qed.

  (** *** Embedded checks *)
  (** The results of the execution and of the checks, chained by equality. *)
  Definition chained (r : Z) (hs : list Z) : Z := fold_left (fun a h => if (a =? h)%Z then 1%Z else 0%Z) hs r.

  Lemma embed_eval : forall env cs e0 n e n' r0 hs,
    embed (Some e0) cs n = Some (Some e, n') -> eval op_sem env e0 = Some (Leaves [[r0]]) -> e_size e0 = 1 ->
    Forall2 (fun c h => eval op_sem env c = Some (Leaves [[h]]) /\ e_size c = 1) cs hs ->
    eval op_sem env e = Some (Leaves [[chained r0 hs]]) /\ e_size e = 1.
  Proof.
    intros env cs. induction cs as [|c cs IH]; intros e0 n e n' r0 hs E V Z0 F; inversion F as [|c' h cs' hs' [Vc Zc] F']; subst; cbn [embed] in E.
    - unfold ret in E. injection E as <- <-. auto.
    - unfold bind, get, equal, node in E. eapply (IH _ _ _ _ (if (r0 =? h)%Z then 1%Z else 0%Z)); [exact E| |reflexivity|exact F'].
      cbn [eval map]. rewrite V, Vc. cbn [collect fold_right seq_res app then_res node_sem op_sem]. rewrite Z0, Zc. cbn. now rewrite andb_true_r.
  Qed.
  Lemma embed_defined : forall env cs e0 n e n',
    embed (Some e0) cs n = Some (Some e, n') -> eval op_sem env e0 = Some Fails -> eval op_sem env e = Some Fails.
  Proof.
    intros env cs. induction cs as [|c cs IH]; intros e0 n e n' E V; cbn [embed] in E.
    - unfold ret in E. injection E as <- <-. auto.
    - unfold bind, get, equal, node in E. eapply IH; [exact E|]. cbn [eval map]. rewrite V. cbn. reflexivity.
  Qed.
  Lemma embed_fails : forall env cs e0 n e n',
    embed (Some e0) cs n = Some (Some e, n') -> e_size e0 = 1 ->
    (exists l, eval op_sem env e0 = Some (Leaves [[l]])) ->
    Forall (fun c => e_size c = 1 /\ (eval op_sem env c = Some Fails \/ exists h, eval op_sem env c = Some (Leaves [[h]]))) cs ->
    Exists (fun c => eval op_sem env c = Some Fails) cs ->
    eval op_sem env e = Some Fails.
  Proof.
    intros env cs. induction cs as [|c cs IH]; intros e0 n e n' E Z0 [l V] F X; [inversion X|]. cbn [embed] in E.
    unfold bind, get, equal, node in E. inversion F as [|c' cs' [Zc Vc] F']; subst. destruct Vc as [Vc|[h Vc]].
    - eapply embed_defined; [exact E|]. cbn [eval map]. rewrite V, Vc. reflexivity.
    - eapply (IH _ _ _ _ E); [reflexivity| |exact F'|].
      + exists (if (l =? h)%Z then 1%Z else 0%Z). cbn [eval map]. rewrite V, Vc.
        cbn [collect fold_right seq_res app then_res node_sem op_sem]. rewrite Z0, Zc. cbn. now rewrite andb_true_r.
      + inversion X; subst; [congruence|assumption].
  Qed.

  Definition zeros (l : list Z) : nat := length (filter (fun z => Z.eqb z 0) l).
  Definition is_bool (z : Z) : Prop := z = 0%Z \/ z = 1%Z.

  Lemma chained_parity : forall hs r, is_bool r -> Forall is_bool hs ->
    is_bool (chained r hs) /\ (chained r hs <> 0%Z <-> Nat.even (zeros (r :: hs)) = true).
  Proof.
    induction hs as [|h hs IH]; intros r Br F.
    - split; [exact Br|]. destruct Br as [-> | ->]; cbn; split; intro Q; easy.
    - inversion F as [|? ? Bh F']; subst. cbn [chained fold_left].
      assert (Bn : is_bool (if (r =? h)%Z then 1 else 0)%Z) by (destruct (r =? h)%Z; unfold is_bool; auto).
      destruct (IH _ Bn F') as [B1 P1]. split; [exact B1|]. rewrite P1. unfold zeros.
      destruct Br as [-> | ->], Bh as [-> | ->]; cbn [filter Z.eqb length Nat.even]; reflexivity.
  Qed.

  Lemma session_app : forall cs ds s n,
    session (cs ++ ds) s n = match session cs s n with Some (s', n') => session ds s' n' | None => None end.
  Proof.
    induction cs as [|c cs IH]; intros ds s n; [reflexivity|]. cbn [app session]. unfold bind.
    destruct (sstep s c n) as [[s1 n1]|]; [apply IH|reflexivity].
  Qed.
  Lemma embed_session : forall cs n pool m n1 m' n2,
    session cs ([], manager_new) n = Some ((pool, m), n1) -> embed_hint_verify m n1 = Some (m', n2) ->
    session (cs ++ [SEmbed]) ([], manager_new) n = Some ((pool, m'), n2).
  Proof. intros cs n pool m n1 m' n2 Es Em. rewrite session_app, Es. cbn [session sstep]. unfold bind, ret. now rewrite Em. Qed.
  Lemma embed_env : forall m n1 m' n2, embed_hint_verify m n1 = Some (m', n2) ->
    env_of m' = env_of m /\ exists n3, embed (mn_exec m) (mn_checks m) n1 = Some (mn_exec m', n3).
  Proof.
    intros m n1 m' n2 E. unfold embed_hint_verify, bind, ret in E. destruct (embed _ _ n1) as [[o n3]|]; [|discriminate E].
    injection E as <- <-. split; [reflexivity|]. eauto.
  Qed.

  (** Boolean results: the manager accepts exactly when an even number of them,
      among the execution and the checks, is 0. *)
  Theorem C50_embedded_parity : forall cs n pool m n1 m' n2 e0 e r0 hs,
    session cs ([], manager_new) n = Some ((pool, m), n1) -> embed_hint_verify m n1 = Some (m', n2) ->
    mn_exec m = Some e0 -> mn_exec m' = Some e -> ready G m' e ->
    eval op_sem (env_of m) e0 = Some (Leaves [[r0]]) -> e_size e0 = 1 ->
    Forall2 (fun c h => eval op_sem (env_of m) c = Some (Leaves [[h]]) /\ e_size c = 1) (mn_checks m) hs ->
    Forall is_bool (r0 :: hs) ->
    (run_manager H G m' = true <-> unused m' e = [] /\ Nat.even (zeros (r0 :: hs)) = true).
  Proof.
    intros cs n pool m n1 m' n2 e0 e r0 hs Es Em E0 E1 Rd V0 Z0 Fc Fb.
    destruct (embed_env _ _ _ _ Em) as [Ee (n3 & Eb)]. rewrite E0, E1 in Eb.
    destruct (embed_eval _ _ _ _ _ _ _ _ Eb V0 Z0 Fc) as [Ve _]. rewrite <- Ee in Ve. inversion Fb as [|? ? B0 Fb']; subst.
    rewrite (C50_run _ _ _ _ _ _ _ (embed_session _ _ _ _ _ _ _ Es Em) E1 Rd Ve).
    destruct (chained_parity hs r0 B0 Fb') as [_ Pp]. rewrite <- Pp. split.
    - intros (outs & b & Q & Ec & Nb). injection Q as <-. cbn [concat app] in Ec. injection Ec as <- Eu. auto.
    - intros [Eu Nb]. exists [[chained r0 hs]], (chained r0 hs). rewrite Eu. auto.
  Qed.

  (** All true: accepted. Exactly one false: rejected. *)
  Theorem C50_all_true_accepted : forall cs n pool m n1 m' n2 e0 e,
    session cs ([], manager_new) n = Some ((pool, m), n1) -> embed_hint_verify m n1 = Some (m', n2) ->
    mn_exec m = Some e0 -> mn_exec m' = Some e -> ready G m' e -> unused m' e = [] ->
    Forall (fun c => eval op_sem (env_of m) c = Some (Leaves [[1%Z]]) /\ e_size c = 1) (e0 :: mn_checks m) ->
    run_manager H G m' = true.
  Proof.
    intros cs n pool m n1 m' n2 e0 e Es Em E0 E1 Rd Un F. inversion F as [|? ? [V0 Z0] Fc]; subst.
    apply (C50_embedded_parity _ _ _ _ _ _ _ _ _ 1%Z (map (fun _ => 1%Z) (mn_checks m)) Es Em E0 E1 Rd V0 Z0).
    - clear -Fc. induction Fc as [|c l Q Fc IH]; cbn [map]; constructor; auto.
    - constructor; [now right|]. apply Forall_forall. intros z Iz. apply in_map_iff in Iz as (? & <- & _). now right.
    - split; [exact Un|]. unfold zeros. cbn. clear. induction (mn_checks m) as [|c l IH]; [reflexivity|exact IH].
  Qed.
  Theorem C50_one_false_rejected : forall cs n pool m n1 m' n2 e0 e r0 hs,
    session cs ([], manager_new) n = Some ((pool, m), n1) -> embed_hint_verify m n1 = Some (m', n2) ->
    mn_exec m = Some e0 -> mn_exec m' = Some e -> ready G m' e ->
    eval op_sem (env_of m) e0 = Some (Leaves [[r0]]) -> e_size e0 = 1 ->
    Forall2 (fun c h => eval op_sem (env_of m) c = Some (Leaves [[h]]) /\ e_size c = 1) (mn_checks m) hs ->
    Forall is_bool (r0 :: hs) -> zeros (r0 :: hs) = 1 ->
    run_manager H G m' = false.
  Proof.
    intros cs n pool m n1 m' n2 e0 e r0 hs Es Em E0 E1 Rd V0 Z0 Fc Fb Zz. apply not_true_is_false. intros Q.
    apply (C50_embedded_parity _ _ _ _ _ _ _ _ _ _ _ Es Em E0 E1 Rd V0 Z0 Fc Fb) in Q. rewrite Zz in Q. now destruct Q.
  Qed.
  (** A check over the extension field that fails aborts the script, whatever the
      other checks are. *)
  Theorem C50_failing_check_rejected : forall cs n pool m n1 m' n2 e0 e,
    session cs ([], manager_new) n = Some ((pool, m), n1) -> embed_hint_verify m n1 = Some (m', n2) ->
    mn_exec m = Some e0 -> mn_exec m' = Some e -> ready G m' e -> e_size e0 = 1 ->
    (eval op_sem (env_of m) e0 = Some Fails \/
     (exists r, eval op_sem (env_of m) e0 = Some (Leaves [[r]])) /\
     Forall (fun c => e_size c = 1 /\ (eval op_sem (env_of m) c = Some Fails \/ exists h, eval op_sem (env_of m) c = Some (Leaves [[h]]))) (mn_checks m) /\
     Exists (fun c => eval op_sem (env_of m) c = Some Fails) (mn_checks m)) ->
    run_manager H G m' = false.
  Proof.
    intros cs n pool m n1 m' n2 e0 e Es Em E0 E1 Rd Z0 D. destruct (embed_env _ _ _ _ Em) as [Ee (n3 & Eb)]. rewrite E0, E1 in Eb.
    assert (Ve : eval op_sem (env_of m') e = Some Fails).
    { rewrite Ee. destruct D as [V0|(V0 & F & X)]; [eapply embed_defined; eauto|eapply embed_fails; eauto]. }
    apply not_true_is_false. intros Q.
    apply (C50_run _ _ _ _ _ _ _ (embed_session _ _ _ _ _ _ _ Es Em) E1 Rd Ve) in Q as (? & ? & Q & _). discriminate Q.
  Qed.
End Run.

(** *** A concrete session *)
(** Inputs 3, 4 and hint 7; execution 3 + 4 == 7; checks [c1 == c1'] and [c2 == c2'] on
    constants. *)
Definition ex_session (a b c d : Z) : list scall :=
  [SInput [3%Z]; SInput [4%Z]; SHint [7%Z]; SBuild (CAdd 0 1); SBuild (CEqual 3 2); SExec 4;
   SBuild (CConstant [a]); SBuild (CConstant [b]); SBuild (CEqual 5 6); SCheck 7;
   SBuild (CConstant [c]); SBuild (CConstant [d]); SBuild (CEqual 8 9); SCheck 10; SEmbed].
Definition ex_run (H : bytes -> bytes) (a b c d : Z) : option bool :=
  match session (ex_session a b c d) ([], manager_new) 0 with
  | Some ((_, m), _) => Some (run_manager H my_gadgets m)
  | None => None
  end.

(** Claim: with the checks embedded, a manager that is accepted has no check that
    evaluates to false. It does not hold: two false checks cancel. *)
Theorem C50_accepted_checks_hold_refuted : forall H,
  exists cs pool m n1 m' n2 e0,
    session cs ([], manager_new) 0 = Some ((pool, m), n1) /\ embed_hint_verify m n1 = Some (m', n2) /\
    mn_exec m = Some e0 /\ eval op_sem (env_of m) e0 = Some (Leaves [[1%Z]]) /\
    Forall (fun c => eval op_sem (env_of m) c = Some (Leaves [[0%Z]]) /\ e_size c = 1) (mn_checks m) /\
    length (mn_checks m) = 2 /\
    run_manager H my_gadgets m' = true.
Proof.
  intros H. exists (removelast (ex_session 0 1 2 5)).
  destruct (session (removelast (ex_session 0 1 2 5)) ([], manager_new) 0) as [[[pool m] n1]|] eqn:Es; [|vm_compute in Es; discriminate Es].
  vm_compute in Es. injection Es as <- <- <-.
  eexists _, _, _.
  eexists _, _, _. split; [reflexivity|]. split; [vm_compute; reflexivity|]. split; [reflexivity|]. split; [vm_compute; reflexivity|].
  split; [|split; [reflexivity|vm_compute; reflexivity]].
  repeat constructor; vm_compute; reflexivity.
Qed.

(** With the same session: no false check, one false check, two false checks, and a
    false check next to a true one. *)
Example C50_example : forall H,
  ex_run H 5 5 6 6 = Some true /\ ex_run H 5 4 6 6 = Some false /\
  ex_run H 5 5 6 7 = Some false /\ ex_run H 5 4 6 7 = Some true.
Proof. intros H. repeat split; vm_compute; reflexivity. Qed.
(** The hypotheses of the theorems hold for it. *)
Example C50_example_ready :
  exists pool m n1 m' n2 e0 e,
    session (removelast (ex_session 5 4 6 6)) ([], manager_new) 0 = Some ((pool, m), n1) /\ embed_hint_verify m n1 = Some (m', n2) /\
    mn_exec m = Some e0 /\ mn_exec m' = Some e /\ ready my_gadgets m' e /\ unused m' e = [] /\ e_size e0 = 1 /\
    eval op_sem (env_of m) e0 = Some (Leaves [[1%Z]]) /\
    Forall2 (fun c h => eval op_sem (env_of m) c = Some (Leaves [[h]]) /\ e_size c = 1) (mn_checks m) [0%Z; 1%Z].
Proof.
  eexists _, _, _, _, _, _, _. split; [vm_compute; reflexivity|]. split; [vm_compute; reflexivity|]. split; [reflexivity|]. split; [reflexivity|].
  split; [|split; [vm_compute; reflexivity|split; [reflexivity|split; [vm_compute; reflexivity|]]]].
  - constructor; [vm_compute; discriminate| |vm_compute; reflexivity].
    intros d x y Sd Sg. exfalso. apply nodes_sub in Sd. vm_compute in Sd.
    repeat (destruct Sd as [<-|Sd]; [discriminate Sg|]). easy.
  - repeat constructor; vm_compute; reflexivity.
Qed.

(** ** C52 *)
Definition registered (vs : list Z) (c : value_counter) : Prop :=
  vc_num c = length (nodup Z.eq_dec vs) /\ (forall v, vc_register c v = if in_dec Z.eq_dec v vs then Some true else None).

Lemma nodup_snoc_len : forall v vs,
  length (nodup Z.eq_dec (vs ++ [v])) = length (nodup Z.eq_dec vs) + (if in_dec Z.eq_dec v vs then 0 else 1).
Proof.
  intros v vs. induction vs as [|w vs IH]; [reflexivity|]. cbn [app nodup].
  destruct (in_dec Z.eq_dec w (vs ++ [v])) as [I1|N1], (in_dec Z.eq_dec w vs) as [I2|N2].
  - rewrite IH. destruct (in_dec Z.eq_dec v vs) as [I3|N3], (in_dec Z.eq_dec v (w :: vs)) as [I4|N4]; try lia.
    + exfalso. apply N4. now right.
    + exfalso. destruct I4 as [<-|I4]; auto.
  - apply in_app_or in I1 as [I1|[<-|[]]]; [contradiction|]. rewrite IH.
    destruct (in_dec Z.eq_dec v vs); [contradiction|]. destruct (in_dec Z.eq_dec v (v :: vs)) as [_|N4]; [cbn; lia|]. exfalso. apply N4. now left.
  - exfalso. apply N1, in_or_app. now left.
  - cbn [length]. rewrite IH. destruct (in_dec Z.eq_dec v vs) as [I3|N3], (in_dec Z.eq_dec v (w :: vs)) as [I4|N4]; try lia.
    + exfalso. apply N4. now right.
    + exfalso. destruct I4 as [<-|I4]; [|auto]. apply N1, in_or_app. right. now left.
Qed.

Lemma get_or_set_ok : forall vs c v, registered vs c ->
  exists c', get_or_set v c = Some (true, c') /\ registered (vs ++ [v]) c'.
Proof.
  intros vs c v [N R]. unfold get_or_set, set_value_bitcomm. rewrite R. destruct (in_dec Z.eq_dec v vs) as [Iv|Nv].
  - exists c. split; [reflexivity|]. split.
    + rewrite nodup_snoc_len. destruct (in_dec Z.eq_dec v vs); [lia|contradiction].
    + intros w. rewrite R. destruct (in_dec Z.eq_dec w vs) as [I1|N1], (in_dec Z.eq_dec w (vs ++ [v])) as [I2|N2]; auto.
      * exfalso. apply N2, in_or_app. now left.
      * exfalso. apply in_app_or in I2 as [I2|[<-|[]]]; auto.
  - eexists. split; [reflexivity|]. split; cbn [vc_num vc_register].
    + rewrite nodup_snoc_len. destruct (in_dec Z.eq_dec v vs); [contradiction|lia].
    + intros w. destruct (Z.eqb_spec w v) as [->|Nw].
      * destruct (in_dec Z.eq_dec v (vs ++ [v])) as [_|N2]; [reflexivity|]. exfalso. apply N2, in_or_app. right. now left.
      * rewrite R. destruct (in_dec Z.eq_dec w vs) as [I1|N1], (in_dec Z.eq_dec w (vs ++ [v])) as [I2|N2]; auto.
        -- exfalso. apply N2, in_or_app. now left.
        -- exfalso. apply in_app_or in I2 as [I2|[<-|[]]]; auto.
Qed.
Lemma register_all_ok : forall ws vs c, registered vs c ->
  exists c', register_all ws c = Some (repeat true (length ws), c') /\ registered (vs ++ ws) c'.
Proof.
  induction ws as [|w ws IH]; intros vs c R; cbn [register_all length repeat].
  - exists c. now rewrite app_nil_r.
  - destruct (get_or_set_ok vs c w R) as (c1 & E1 & R1). rewrite E1. destruct (IH _ _ R1) as (c2 & E2 & R2). rewrite E2.
    exists c2. split; [reflexivity|]. now rewrite <- app_assoc in R2.
Qed.
Lemma registered_new : registered [] vc_new.
Proof. split; reflexivity. Qed.

(** Registering any values never panics, answers "fresh" for each, and counts the
    distinct ones; the register holds exactly those. *)
Theorem C52_distinct_values : forall vs, exists c,
  register_all vs vc_new = Some (repeat true (length vs), c) /\
  vc_num c = length (nodup Z.eq_dec vs) /\
  (forall v, vc_register c v <> None <-> In v vs).
Proof.
  intros vs. destruct (register_all_ok vs [] vc_new registered_new) as (c & E & N & R). exists c. split; [exact E|]. split; [exact N|].
  intros v. rewrite R. cbn [app]. destruct (in_dec Z.eq_dec v vs); split; intro Q; try easy.
Qed.
(** Setting a value directly panics exactly when it is registered already. *)
Theorem C52_set_twice_panics : forall vs v, exists bs c,
  register_all vs vc_new = Some (bs, c) /\ (set_value_bitcomm v c = None <-> In v vs).
Proof.
  intros vs v. destruct (register_all_ok vs [] vc_new registered_new) as (c & E & N & R). exists (repeat true (length vs)), c.
  split; [exact E|]. unfold set_value_bitcomm. rewrite R. cbn [app]. destruct (in_dec Z.eq_dec v vs); split; intro Q; try easy.
Qed.
(** The number reported for a list of managers: the distinct words of their inputs;
    the hints do not count. *)
Theorem C52_managers : forall a, exists bs c,
  set_value_count a vc_new = Some (bs, c) /\
  vc_num c = length (nodup Z.eq_dec (flat_map (fun m => flat_map snd (mn_inputs m)) (as_managers a))).
Proof.
  intros a. destruct (C52_distinct_values (flat_map (fun m => flat_map snd (mn_inputs m)) (as_managers a))) as (c & E & N & _).
  exists (repeat true (length (flat_map (fun m => flat_map snd (mn_inputs m)) (as_managers a)))), c. split; [exact E|exact N].
Qed.
Example C52_example : exists bs c,
  register_all [5; 7; 5; 9; 7; 5]%Z vc_new = Some (bs, c) /\ vc_num c = 3 /\ bs = repeat true 6 /\
  set_value_bitcomm 7 c = None /\ set_value_bitcomm 8 c <> None.
Proof. eexists _, _. split; [vm_compute; reflexivity|]. repeat split; vm_compute; try reflexivity; discriminate. Qed.

(** ** C53 *)
Inductive acall := AClear | AAdd | ANext | AMove (i : nat) | AInput (v : list Z).
(** One call; the result is the handle returned, if any. *)
Definition astep (c : acall) (a : assigner) : builder (assigner * option nat) :=
  match c with
  | AClear => ret (clear a, None)
  | AAdd => ret (fst (add_manager a), Some (snd (add_manager a)))
  | ANext => ret (fst (next_manager a), Some (snd (next_manager a)))
  | AMove i => do r <- get (move_current_index i a); ret (fst r, Some (snd r))
  | AInput v => do r <- assigner_input v a; ret (snd r, None)
  end.
Fixpoint asteps (cs : list acall) (a : assigner) : builder assigner :=
  match cs with
  | [] => ret a
  | c :: r => do x <- astep c a; asteps r (fst x)
  end.

Lemma set_nth_len : forall A (l : list A) i x, length (set_nth l i x) = length l.
Proof. induction l as [|y l IH]; intros [|i] x; cbn; auto. Qed.
Lemma assigner_input_len : forall v a n e a' n', assigner_input v a n = Some ((e, a'), n') ->
  length (as_managers a') = length (as_managers a) /\ as_current a' = as_current a.
Proof.
  intros v a n e a' n' E. unfold assigner_input, bind, get, ret in E. destruct (current_manager a) as [i|]; [|discriminate E].
  destruct (nth_error (as_managers a) i) as [m|]; [|discriminate E]. destruct (assign_input_var v m n) as [[r n1]|]; [|discriminate E].
  injection E as <- <- <-. cbn. now rewrite set_nth_len.
Qed.

(** The cursor points at a manager or is unset. *)
Definition cursor_ok (a : assigner) : Prop := match as_current a with Some i => i < length (as_managers a) | None => True end.
Lemma cursor_step : forall c a n a' r n', cursor_ok a -> astep c a n = Some ((a', r), n') -> cursor_ok a'.
Proof.
  intros c a n a' r n' C E. unfold cursor_ok in *. destruct c; cbn [astep] in E; unfold ret, bind, get in E.
  - injection E as <- <- <-. exact Logic.I.
  - injection E as <- <- <-. cbn. rewrite app_length. cbn. destruct (as_current a); [lia|exact Logic.I].
  - injection E as <- <- <-. cbn. rewrite app_length. cbn. destruct (as_current a); lia.
  - unfold move_current_index in E. destruct (Nat.ltb_spec i (length (as_managers a))) as [L|L]; [|discriminate E].
    injection E as <- <- <-. exact L.
  - destruct (assigner_input v a n) as [[[e a1] n1]|] eqn:Ei; [|discriminate E]. injection E as <- <- <-. cbn [snd].
    destruct (assigner_input_len _ _ _ _ _ _ Ei) as [-> ->]. exact C.
Qed.
Lemma cursor_steps : forall cs a n a' n', cursor_ok a -> asteps cs a n = Some (a', n') -> cursor_ok a'.
Proof.
  induction cs as [|c cs IH]; intros a n a' n' C E; cbn [asteps] in E; unfold ret, bind in E.
  - now injection E as <- <-.
  - destruct (astep c a n) as [[[a1 r1] n1]|] eqn:Es; [|discriminate E]. eapply IH; [eapply cursor_step; eauto|exact E].
Qed.

(** After any calls, [next_manager] appends one manager, returns the new one and makes
    current the one after the previous cursor (the first if there was none); that is
    the returned one exactly when the cursor was on the last manager. *)
Theorem C53_next : forall cs n a n', asteps cs assigner_new n = Some (a, n') ->
  let '(a', h) := next_manager a in
  as_managers a' = as_managers a ++ [manager_new] /\ h = length (as_managers a) /\
  current_manager a' = Some (match as_current a with Some c => c + 1 | None => 0 end) /\
  (current_manager a' = Some h <-> match as_current a with Some c => c + 1 = length (as_managers a) | None => as_managers a = [] end).
Proof.
  intros cs n a n' E. assert (C : cursor_ok a) by (eapply cursor_steps; [|exact E]; exact Logic.I). unfold cursor_ok in C.
  unfold next_manager, add_manager. cbn [as_managers as_current]. split; [reflexivity|]. split; [reflexivity|].
  assert (Q : forall i, i <= length (as_managers a) -> current_manager (mkassign (as_managers a ++ [manager_new]) (Some i)) = Some i).
  { intros i L. unfold current_manager. cbn [as_current as_managers]. destruct (nth_error (as_managers a ++ [manager_new]) i) eqn:En; [reflexivity|].
    apply nth_error_None in En. rewrite app_length in En. cbn in En. lia. }
  destruct (as_current a) as [c|].
  - rewrite Q by lia. split; [reflexivity|]. split; [intros X; now injection X|now intros ->].
  - rewrite Q by lia. split; [reflexivity|]. split.
    + intros X. injection X as X. now destruct (as_managers a).
    + now intros ->.
Qed.
(** Without [add_manager] and [move_current_index] the current manager is the one
    returned last. *)
Definition cursor_call (c : acall) : bool := match c with AAdd | AMove _ => true | _ => false end.
Theorem C53_current_is_last_returned : forall cs n a n', asteps cs assigner_new n = Some (a, n') ->
  forallb (fun c => negb (cursor_call c)) cs = true ->
  let '(a', h) := next_manager a in current_manager a' = Some h.
Proof.
  intros cs n a n' E F.
  assert (W : forall cs b n, match as_current b with Some c => c + 1 = length (as_managers b) | None => as_managers b = [] end ->
    asteps cs b n = Some (a, n') -> forallb (fun c => negb (cursor_call c)) cs = true ->
    match as_current a with Some c => c + 1 = length (as_managers a) | None => as_managers a = [] end).
  { clear. induction cs as [|c cs IH]; intros b n V E F; cbn [asteps forallb] in *; unfold ret, bind in E.
    - now injection E as <- <-.
    - apply andb_true_iff in F as [F1 F2]. destruct (astep c b n) as [[[b1 r1] n1]|] eqn:Es; [|discriminate E].
      apply (IH b1 n1); [|exact E|exact F2]. destruct c; cbn [astep cursor_call negb] in *; try discriminate F1; unfold ret, bind, get in Es.
      + now injection Es as <- <- <-.
      + injection Es as <- <- <-. cbn. rewrite app_length. cbn. destruct (as_current b); [lia|]. now rewrite V.
      + destruct (assigner_input v b n) as [[[e b2] n2]|] eqn:Ei; [|discriminate Es]. injection Es as <- <- <-. cbn [snd].
        destruct (assigner_input_len _ _ _ _ _ _ Ei) as [L ->]. destruct (as_current b); [now rewrite L|].
        rewrite V in L. now destruct (as_managers b2). }
  pose proof (C53_next cs n a n' E) as Q. destruct (next_manager a) as [a' h]. destruct Q as (_ & _ & _ & Q). apply Q.
  apply (W cs assigner_new n); [reflexivity|exact E|exact F].
Qed.
(** Inputs taken through the assigner go to the current manager; the others are
    unchanged. *)
Theorem C53_inputs_go_to_current : forall v a n e a' n', assigner_input v a n = Some ((e, a'), n') ->
  exists i m, current_manager a = Some i /\ nth_error (as_managers a) i = Some m /\
    as_current a' = as_current a /\
    (exists m', nth_error (as_managers a') i = Some m' /\ mn_inputs m' = mn_inputs m ++ [(input_var (mn_counter m), v)] /\
       mn_hints m' = mn_hints m /\ mn_exec m' = mn_exec m /\ mn_checks m' = mn_checks m) /\
    e_op e = InputVarMove (input_var (mn_counter m)) /\
    forall j, j <> i -> nth_error (as_managers a') j = nth_error (as_managers a) j.
Proof.
  intros v a n e a' n' E. unfold assigner_input, bind, get, ret in E. destruct (current_manager a) as [i|]; [|discriminate E].
  destruct (nth_error (as_managers a) i) as [m|] eqn:Em; [|discriminate E]. destruct (assign_input_var v m n) as [[[x m1] n1]|] eqn:Ea; [|discriminate E].
  injection E as <- <- <-. exists i, m. split; [reflexivity|]. split; [exact Em|]. cbn [as_managers as_current fst snd]. split; [reflexivity|].
  unfold assign_input_var, bind, ret, assign_input, node in Ea. injection Ea as <- <- <-.
  assert (S1 : forall A (l : list A) i x y, nth_error l i = Some y -> nth_error (set_nth l i x) i = Some x).
  { induction l as [|z l IH]; intros [|k] w y Q; cbn in *; try discriminate Q; [reflexivity|eauto]. }
  assert (S2 : forall A (l : list A) i x j, j <> i -> nth_error (set_nth l i x) j = nth_error l j).
  { induction l as [|z l IH]; intros [|k] w [|j] Q; cbn in *; try easy. apply IH. congruence. }
  split; [|split; [reflexivity|intros j Nj; now apply S2]].
  eexists. split; [now apply (S1 _ _ _ _ _ Em)|]. repeat split; reflexivity.
Qed.

(** Claim: [next_manager] always makes the manager it returns current. It does not
    hold after [move_current_index] to another than the last manager, nor after an
    [add_manager]. *)
Theorem C53_next_is_current_refuted :
  (exists a n', asteps [ANext; ANext; AMove 0] assigner_new 0 = Some (a, n') /\
     let '(a', h) := next_manager a in h = 2 /\ current_manager a' = Some 1) /\
  (exists a n', asteps [AAdd] assigner_new 0 = Some (a, n') /\
     let '(a', h) := next_manager a in h = 1 /\ current_manager a' = Some 0).
Proof. split; eexists _, _; (split; [vm_compute; reflexivity|]); vm_compute; auto. Qed.
Example C53_example : exists a n',
  asteps [ANext; AInput [1%Z]; ANext; AInput [2%Z]; AInput [3%Z]; AClear; ANext; AInput [4%Z]; ANext] assigner_new 0 = Some (a, n') /\
  (let '(a', h) := next_manager a in h = 2 /\ current_manager a' = Some 2) /\
  map (fun m => length (mn_inputs m)) (as_managers a) = [1; 0].
Proof. eexists _, _. split; [vm_compute; reflexivity|]. vm_compute. auto. Qed.

(** A manager without an expression is accepted. *)
Theorem C50_no_expression : forall H G m, mn_exec m = None -> run_manager H G m = true.
Proof. intros H G m E. unfold run_manager. now rewrite E. Qed.
(** get_manager gives the manager of that position, and panics when there is none. *)
Theorem C53_get_manager : forall i a j, get_manager i a = Some j <-> j = i /\ i < length (as_managers a).
Proof.
  intros i a j. unfold get_manager. destruct (i <? length (as_managers a)) eqn:E.
  - apply Nat.ltb_lt in E. split; [intros [= <-]; auto|intros [-> _]; reflexivity].
  - apply Nat.ltb_ge in E. split; [discriminate|intros [_ L]; lia].
Qed.
