(** C87: the scripts of the expression language on an interpreter that keeps at most a given
    number of elements on its stacks (1000 on chain).  The words of a manager are all pushed
    before anything is computed, so their number alone decides that a script is refused. *)
From Coq Require Import ZArith List Bool Arith Lia.
From Verif Require Import ScriptNum ScriptVM VMLemmas U32Model Lift PropWords HelperModel HelperRou Field BabyBear DslModel DslStack DslSpec DslOpSpec DslOps DslProofs DslDag DslMain
  DslBuild DslManager DslSession FriModel PcsModel FriExprModel StarkExprModel OpenExprModel ConsExprModel ConsExprProofs StackModel StackProofs DslLimitModel
  FriInst Blake3Spec ChallengerModel ChalExprModel GenModel GenProofs DslGadgets PropGen.
From Verif Require StarkModel.
Import ListNotations.
Local Open Scope nat_scope.

(** Generation only appends to the script. *)
Definition appends (T T' : tracker) : Prop := exists q, t_script T' = t_script T ++ q.
Lemma appends_refl : forall T, appends T T. Proof. intros T. exists []. now rewrite app_nil_r. Qed.
Lemma appends_trans : forall A B C, appends A B -> appends B C -> appends A C.
Proof. intros A B C [p E] [q F]. exists (p ++ q). now rewrite F, E, app_assoc. Qed.

Ltac one_step := repeat match goal with
  | E : Some _ = Some _ |- _ => injection E as; subst
  | E : None = Some _ |- _ => discriminate E
  | E : match ?x with _ => _ end = Some _ |- _ => destruct x eqn:?
  end.

Lemma custom_appends : forall p k outs T T' vs, custom p k outs T = Some (T', vs) -> appends T T'.
Proof. intros p k outs T T' vs E. unfold custom in E. one_step. eexists; reflexivity. Qed.
Lemma copy_appends : forall v T T' n, copy_var v T = Some (T', n) -> appends T T'.
Proof. intros v T T' n E. unfold copy_var in E. one_step. eexists; reflexivity. Qed.
Lemma move_appends : forall v T T' n, move_var v T = Some (T', n) -> appends T T'.
Proof. intros v T T' n E. unfold move_var in E. one_step. eexists; reflexivity. Qed.
Lemma alt_appends : forall T T' n, to_altstack T = Some (T', n) -> appends T T'.
Proof. intros T T' n E. unfold to_altstack in E. one_step. eexists; reflexivity. Qed.
Lemma copy_alt_appends : forall v T T' n, copy_var_from_altstack v T = Some (T', n) -> appends T T'.
Proof. intros v T T' n E. unfold copy_var_from_altstack in E. one_step. eexists; reflexivity. Qed.
Lemma move_alt_appends : forall v T T' n, move_var_from_altstack v T = Some (T', n) -> appends T T'.
Proof. intros v T T' n E. unfold move_var_from_altstack in E. one_step. eexists; reflexivity. Qed.

Lemma generator_appends : forall G gt o sizes T T' vs, run_generator G gt o sizes T = Some (T', vs) -> appends T T'.
Proof.
  intros G gt o sizes T T' vs E.
  assert (C : match generate G o sizes with Some em => custom (em_script em) (em_consumes em) (em_outs em) T | None => None end = Some (T', vs) -> appends T T').
  { intros Q. destruct (generate G o sizes) as [em|]; [eapply custom_appends; exact Q|discriminate Q]. }
  destruct o; try exact (C E); clear C; cbn [run_generator] in E; one_step; eauto using copy_appends, move_appends.
Qed.
Lemma express_appends : forall G gt opt e T m T' m' vs, express_to_script G gt opt e T m = Some (T', m', vs) -> appends T T'.
Proof.
  intros G gt opt. apply (expr_ind' (fun e => forall T m T' m' vs, express_to_script G gt opt e T m = Some (T', m', vs) -> appends T T')).
  intros id o sz ops F T m T' m' vs E. rewrite express_unfold in E.
  assert (Ops : forall T m T' m' ss, operands G gt opt ops T m = Some (T', m', ss) -> appends T T').
  { clear E T m T' m' vs. induction F as [|x ops Fx F IH]; intros T m T' m' ss E; cbn [operands] in E; [injection E as <- _ _; apply appends_refl|].
    destruct (express_to_script G gt opt x T m) as [[[T1 m1] v1]|] eqn:E1; [|discriminate E]. destruct (var_size x); [|discriminate E].
    fold (operands G gt opt) in E. destruct (operands G gt opt ops T1 m1) as [[[T2 m2] s2]|] eqn:E2; [|discriminate E]. injection E as <- _ _.
    eapply appends_trans; eauto. }
  destruct (if opt && single o then reuse id T m else None) as [r|] eqn:Er.
  - subst r. destruct (opt && single o); [|discriminate Er]. unfold reuse in Er. one_step; eauto using move_alt_appends, copy_alt_appends.
  - clear Er. destruct (number_ok (input_number o) (length ops)); [|discriminate E].
    destruct (operands G gt opt ops T m) as [[[T1 m1] ss]|] eqn:E1; [|discriminate E]. apply Ops in E1.
    destruct (run_generator G gt o ss T1) as [[T2 v2]|] eqn:E2; [|discriminate E]. apply generator_appends in E2.
    eapply appends_trans; [exact E1|]. eapply appends_trans; [exact E2|].
    destruct (number_ok (output_number o) (length v2)); [|discriminate E]. destruct (opt && single o); [|injection E as <- _ _; apply appends_refl].
    unfold keep_copy in E. one_step; try apply appends_refl. eapply appends_trans; [eapply copy_appends|eapply alt_appends]; eassumption.
Qed.

Local Open Scope Z_scope.
Lemma pushn_heights : forall l, heights (map PUSHN l) (Z.of_nat (length l)) (Z.of_nat (length l)) (Z.of_nat (length l)).
Proof.
  induction l as [|z l IH]; [exact heights_nil|]. change (map PUSHN (z :: l)) with ([PUSHN z] ++ map PUSHN l).
  assert (P : heights [PUSHN z] 1 1 1) by (apply profile_heights; reflexivity).
  eapply heights_weaken; [exact (heights_app _ _ _ _ _ _ _ _ P IH)| | |]; cbn [length]; lia.
Qed.
Lemma pushes_heights : forall L, let n := Z.of_nat (length (concat L)) in heights (flat_map push_vec L) n n n.
Proof.
  induction L as [|v L IH]; [exact heights_nil|]. cbn [flat_map concat]. cbv zeta in *. rewrite app_length.
  pose proof (pushn_heights (rev v)) as P. rewrite rev_length in P. fold (push_vec v) in P.
  eapply heights_weaken; [exact (heights_app _ _ _ _ _ _ _ _ P IH)| | |]; lia.
Qed.
(** A script that starts with more pushes than the limit does not finish. *)
Lemma pushes_overflow : forall L H ws q, L < Z.of_nat (length (concat ws)) -> lrun L H (flat_map push_vec ws ++ q) (mk [] [] []) = None.
Proof.
  intros L H ws q Lt. rewrite lrun_app. pose proof (exec_pushes H ws [] []) as E.
  destruct (pushes_heights ws H (mk [] [] []) _ eq_refl E) as (_ & _ & _ & N). rewrite N; [reflexivity|]. unfold sheight. cbn [main alt length]. lia.
Qed.
Lemma limited_less : forall L H p s, bsucceeds (lrun L H p s) = true -> bsucceeds (brun H p s) = true.
Proof. intros L H p s E. destruct (lrun L H p s) as [s'|] eqn:El; [|discriminate E]. now rewrite (lrun_run _ _ _ _ _ El). Qed.

(** The words of all inputs and hints of a manager. *)
Definition manager_words (m : manager) : nat := length (flat_map snd (mn_inputs m)) + length (flat_map snd (mn_hints m)).

Lemma simulate_script : forall m, exists gt T, simulate_input m = (T, gt) /\ t_script T = flat_map push_vec (map snd (pushed m)) /\ length (concat (map snd (pushed m))) = manager_words m.
Proof.
  intros m. destruct (simulate_input m) as [T gt] eqn:E. exists gt, T. split; [reflexivity|]. rewrite simulate_pushed in E.
  destruct (push_inputs_ok _ _ _ E) as (_ & _ & _ & Sc & _). split; [exact Sc|]. unfold pushed, manager_words.
  assert (R : forall l : list (variable * list Z), length (concat (map snd (rev l))) = length (flat_map snd l)).
  { induction l as [|x l IH]; [reflexivity|]. cbn [rev flat_map]. rewrite map_app, concat_app, !app_length, IH. cbn. rewrite app_nil_r. lia. }
  rewrite map_app, concat_app, app_length, !R. lia.
Qed.

(** ** Managers *)
Theorem C87_limited_is_run : forall L H G m, run_manager_limited L H G m = true -> run_manager H G m = true.
Proof.
  intros L H G m E. unfold run_manager_limited, run_manager in *. destruct (mn_exec m) as [e|]; [|reflexivity]. destruct (simulate_input m) as [T gt].
  destruct (express G gt true e T) as [[[T' m'] vs]|]; [|discriminate E]. exact (limited_less _ _ _ _ E).
Qed.
Theorem C87_too_many_inputs : forall L H G m, mn_exec m <> None -> L < Z.of_nat (manager_words m) -> run_manager_limited L H G m = false.
Proof.
  intros L H G m Ne Lt. unfold run_manager_limited. destruct (mn_exec m) as [e|]; [|congruence].
  destruct (simulate_script m) as (gt & T & -> & Sc & Ln). rewrite <- Ln in Lt.
  destruct (express G gt true e T) as [[[T' m'] vs]|] eqn:Ex; [|reflexivity]. destruct (express_appends _ _ _ _ _ _ _ _ _ Ex) as [q ->].
  rewrite Sc, pushes_overflow by exact Lt. reflexivity.
Qed.
(** The verifier stops with a panic at a manager with too many inputs. *)
Theorem C87_managers_refused : forall L H G ms n, Exists (fun m => mn_exec m <> None /\ L < Z.of_nat (manager_words m)) ms ->
  run_managers_limited L H G ms n = None.
Proof.
  intros L H G ms n X. revert n. induction X as [m ms [Ne Lt]|m ms X IH]; intros n; cbn [run_managers_limited]; unfold bind at 1;
    destruct (embed_hint_verify m n) as [[m' n']|] eqn:Em; try reflexivity.
  - assert (Q : mn_exec m' <> None /\ manager_words m' = manager_words m).
    { unfold embed_hint_verify, bind in Em. destruct (embed (mn_exec m) (mn_checks m) n) as [[e n1]|] eqn:Ee; [|discriminate Em].
      unfold ret in Em. injection Em as <- <-. split; [|reflexivity]. cbn [mn_exec]. clear Lt.
      revert Ee Ne. generalize (mn_exec m) n. induction (mn_checks m) as [|c cs IHc]; intros e0 k Ee Ne.
      + cbn in Ee. unfold ret in Ee. injection Ee as <- _. exact Ne.
      + cbn [embed] in Ee. unfold bind at 1 in Ee. destruct e0 as [x|]; [|congruence]. cbn [get ret] in Ee. unfold bind in Ee.
        destruct (equal x c k) as [[y k']|]; [|discriminate Ee]. eapply IHc; [exact Ee|discriminate]. }
    destruct Q as [Q1 Q2]. unfold bind. rewrite C87_too_many_inputs; [reflexivity|exact Q1|rewrite Q2; exact Lt].
  - unfold bind at 1. destruct (check (run_manager_limited L H G m') n') as [[u n2]|]; [apply IH|reflexivity].
Qed.

(** ** The query scripts *)
Local Open Scope nat_scope.
(** Words read by one query: for every opened row of a matrix and every point, five for each
    column (p(x) and minus the claimed value) and four for 1/(x - z). *)
Definition point_words (at_x at_z : nat) : nat := 5 * Nat.min at_x at_z + 4.
Definition opening_words {C D V Z P : Type} (input_proof : list (list (list V) * P)) (rounds : list (C * list (D * list (Z * list Z)))) : nat :=
  list_sum (map (fun br =>
    list_sum (map (fun od => list_sum (map (fun zy => point_words (length (fst od)) (length (snd zy))) (snd (snd od))))
                  (List.combine (fst (fst br)) (snd (snd br)))))
    (List.combine input_proof rounds)).

Lemma input_words : forall v m n e m' n', assign_input_var v m n = Some ((e, m'), n') ->
  manager_words m' = manager_words m + length v /\ mn_exec m' = mn_exec m.
Proof.
  intros v m n e m' n' E. unfold assign_input_var, assign_input, node, get_opid, bind, ret in E. injection E as _ <- _.
  unfold manager_words. cbn [mn_inputs mn_hints mn_exec]. rewrite flat_map_app, app_length. cbn [flat_map snd]. rewrite app_nil_r. split; [lia|reflexivity].
Qed.
Lemma hint_words : forall v m n e m' n', assign_input_hint v m n = Some ((e, m'), n') ->
  manager_words m' = manager_words m + length v /\ mn_exec m' = mn_exec m.
Proof.
  intros v m n e m' n' E. unfold assign_input_hint, assign_input, node, get_opid, bind, ret in E. injection E as _ <- _.
  unfold manager_words. cbn [mn_inputs mn_hints mn_exec]. rewrite flat_map_app, app_length. cbn [flat_map snd]. rewrite app_nil_r. split; [lia|reflexivity].
Qed.
Lemma bind_some : forall A B (b : builder A) (f : A -> builder B) n r, bind b f n = Some r -> exists a n', b n = Some (a, n') /\ f a n' = Some r.
Proof. intros A B b f n r E. unfold bind in E. destruct (b n) as [[a n']|]; [eauto|discriminate E]. Qed.
Lemma get_some : forall A (o : option A) n a n', get o n = Some (a, n') -> o = Some a /\ n' = n.
Proof. intros A [x|] n a n' E; [|discriminate E]. cbn in E. unfold ret in E. injection E as <- <-. auto. Qed.
Lemma f_words_len : forall F (z : bf_t F), length (f_words F z) = f_size F.
Proof. intros F z. unfold f_words. apply limbs_length. unfold f_size, u32_size. destruct (bf_ext F); lia. Qed.
Ltac next E := let a := fresh "a" in let n := fresh "n" in let E1 := fresh "E" in apply bind_some in E as (a & n & E1 & E).

Section Query.
  Variable inv : ExtT -> option ExtT.
  Variable M0 : mmcs BabyBearT.
  Variable config : fri_config.
  Variable alpha : ExtT.

  Lemma acc_words : forall at_x at_z ap acc m n r m' n', acc_loop alpha ap acc at_x at_z m n = Some ((r, m'), n') ->
    manager_words m' = manager_words m + 5 * Nat.min (length at_x) (length at_z) /\ mn_exec m' = mn_exec m.
  Proof.
    induction at_x as [|p at_x IH]; intros [|y at_z] ap acc m n r m' n' E; cbn [acc_loop] in E; try (unfold ret in E; injection E as _ <- _; cbn; split; [lia|reflexivity]).
    next E. next E. next E. next E. next E. next E. destruct a as [ea ma], a0 as [eb mb]. cbn [fst snd] in *.
    apply input_words in E0, E1. rewrite f_words_len in E0, E1. change (f_size bf_ext4) with 4 in E0. change (f_size bf_base) with 1 in E1. apply IH in E. cbn [length Nat.min]. split; [lia|].
    destruct E0, E1, E. congruence.
  Qed.
  Lemma points_words : forall x at_x pts e m n r m' n', points_loop inv alpha x at_x pts e m n = Some ((r, m'), n') ->
    manager_words m' = manager_words m + list_sum (map (fun zy => point_words (length at_x) (length (snd zy))) pts) /\ mn_exec m' = mn_exec m.
  Proof.
    intros x at_x. induction pts as [|[z at_z] pts IH]; intros e m n r m' n' E; cbn [points_loop] in E; [unfold ret in E; injection E as _ <- _; cbn; split; [lia|reflexivity]|].
    next E. next E. next E. next E. next E. next E. destruct a0 as [ea ma], a2 as [eb mb]. cbn [fst snd] in *.
    apply acc_words in E1. apply input_words in E3. rewrite f_words_len in E3. change (f_size bf_ext4) with 4 in E3. apply IH in E. cbn [map snd]. destruct E1, E3, E. unfold list_sum at 1. cbn [fold_right]. fold (list_sum (map (fun zy : ExtT * list ExtT => point_words (length at_x) (length (snd zy))) pts)). unfold point_words at 1. split; [lia|congruence].
  Qed.

  Lemma mats_words : forall lg index opened (mats : list (coset BabyBearT * list (ExtT * list ExtT))) l m n r m' n', mats_loop inv config alpha lg index opened mats l m n = Some ((r, m'), n') ->
    manager_words m' = manager_words m + list_sum (map (fun od => list_sum (map (fun zy => point_words (length (fst od)) (length (snd zy))) (snd (snd od)))) (List.combine opened mats)) /\
    mn_exec m' = mn_exec m.
  Proof.
    intros lg index. induction opened as [|at_x opened IH]; intros [|[d pts] mats] l m n r m' n' E; cbn [mats_loop] in E;
      try (unfold ret in E; injection E as _ <- _; cbn; split; [lia|reflexivity]).
    destruct (lg <? log_n d + log_blowup config); [discriminate E|]. next E. next E. next E. next E. destruct a2 as [e1 m1]. cbn [fst snd] in *.
    apply points_words in E3. apply IH in E. cbn [List.combine map fst snd]. destruct E3, E. unfold list_sum at 1. cbn [fold_right].
    match goal with |- context [fold_right Nat.add 0 ?l] => fold (list_sum l) end. split; [lia|congruence].
  Qed.
  Lemma batches_words : forall lg t q ip rounds l m n r m' n', batches_loop inv M0 config alpha lg t q ip rounds l m n = Some ((r, m'), n') ->
    (forall e, r <> Err e) -> manager_words m' = manager_words m + opening_words ip rounds /\ mn_exec m' = mn_exec m.
  Proof.
    intros lg t q. induction ip as [|[opened pf] ip IH]; intros [|[commit mats] rounds] l m n r m' n' E Ne; cbn [batches_loop] in E;
      try (unfold ret in E; injection E as _ <- _; unfold opening_words; cbn; split; [lia|reflexivity]).
    destruct mats as [|d mats]; [discriminate E|]. remember (d :: mats) as mts. match type of E with (if ?c then _ else _) _ = _ => destruct c; [discriminate E|] end.
    destruct (m_verify_batch M0 t opened pf commit) as [u|er|]; [|unfold ret in E; injection E as <- _ _; exfalso; exact (Ne er eq_refl)|discriminate E].
    next E. destruct a as [l1 m1]. cbn [fst snd] in *. apply mats_words in E0. apply IH in E; [|exact Ne]. unfold opening_words in *. cbn [List.combine map fst snd].
    destruct E0, E. unfold list_sum at 1. cbn [fold_right]. match goal with |- context [fold_right Nat.add 0 ?l] => fold (list_sum l) end. split; [lia|congruence].
  Qed.
End Query.

Section Fri.
  Variable F : bf_field.
  Variable M : mmcs F.
  Variables (IP IE : Type).
  Variable config : fri_config.
  Variable debug : bool.

  Lemma fold_words : forall a b x xh i beta m n e m' n', fold_row_with_expr F a b x xh i beta m n = Some ((e, m'), n') ->
    manager_words m' = manager_words m + f_size F /\ mn_exec m' = mn_exec m.
  Proof.
    intros a b x xh i beta m n e m' n' E. unfold fold_row_with_expr in E. cbv zeta in E.
    do 13 (next E). apply bind_some in E as ([eh mh] & ? & Eh & E). next E. next E. next E. unfold ret in E. injection E as _ <- _.
    cbn [fst snd] in *. match goal with X : assign_input_hint _ _ _ = _ |- _ => apply hint_words in X; rewrite f_words_len in X; exact X end.
  Qed.
  Lemma loop_words : forall t ls q fe x xh ros m n r m' n', query_loop_expr F M IE t ls q fe x xh ros m n = Some ((Ok r, m'), n') ->
    manager_words m' = manager_words m + 3 * f_size F * length ls /\ mn_exec m' = mn_exec m.
  Proof.
    intros t. induction ls as [|[[[lfh commit] [vals pf]] beta] ls IH]; intros q fe x xh ros m n r m' n' E; cbn [query_loop_expr] in E.
    { unfold ret in E. injection E as _ <- _. cbn. split; [lia|reflexivity]. }
    next E. destruct vals as [|row [|? ?]]; try discriminate E. destruct (m_verify_batch M t [row] pf commit); try discriminate E.
    next E. next E. next E. next E. next E. destruct a2 as [e1 m1], a3 as [e2 m2], a4 as [e3 m3]. cbn [fst snd] in *.
    apply input_words in E2, E3. rewrite f_words_len in E2, E3. apply fold_words in E4. apply IH in E. cbn [length]. destruct E2, E3, E4, E. split; [lia|congruence].
  Qed.
  Variable open_input : nat -> nat -> IP -> manager -> builder (outcome IE (list (nat * expr)) * manager).
  Lemma query_words_of : forall commits final bs lmh t q ip openings n m n' w,
    (forall m0 n r m' n', open_input t q ip m0 n = Some ((Ok r, m'), n') -> manager_words m' = manager_words m0 + w) ->
    query_manager F M IP IE config debug open_input commits final bs lmh t q ip openings n = Some (Ok m, n') ->
    manager_words m = w + 3 * f_size F * length (layers F M lmh commits openings bs) + f_size F /\ mn_exec m <> None.
  Proof.
    intros commits final bs lmh t q ip openings n m n' w Ow E. unfold query_manager in E. next E. destruct a as [[ros|e|] m0]; cbn [fst snd] in *; [|unfold ret in E; discriminate E|discriminate E].
    apply Ow in E0. change (manager_words manager_new) with 0 in E0. next E. destruct a as [[fe|e|] m1]; cbn [fst snd] in *; [|unfold ret in E; discriminate E|discriminate E].
    next E. destruct a as [ef mf]. cbn [fst snd] in *. next E. unfold ret in E. injection E as <- _. apply input_words in E2. rewrite f_words_len in E2.
    split; [|discriminate]. change (manager_words (set_exec_dsl a mf)) with (manager_words mf).
    unfold verify_query_expr in E1. next E1. next E1. next E1. next E1. next E1. destruct a4 as [[[ee qq]|e|] m4]; cbn [fst snd] in *; [|unfold ret in E1; discriminate E1|discriminate E1].
    destruct (debug && negb (qq <? blowup config)); [discriminate E1|]. unfold ret in E1. injection E1 as _ <- _. match goal with X : query_loop_expr _ _ _ _ _ _ _ _ _ _ _ _ = _ |- _ => apply loop_words in X end. lia.
  Qed.
End Fri.

(** The query manager of generate_verify_expr holds exactly these words. *)
Section Words.
  Variable M0 : mmcs BabyBearT.
  Variable M : mmcs ExtT.
  Variable config : fri_config.
  Variable debug : bool.
  Variable alpha : ExtT.
  Notation open_proof := (list (list (list BabyBearT) * m_proof M0)).


  Theorem C87_query_words : forall lg rounds commits final bs lmh t q ip openings n m n',
    query_manager bf_ext4 M open_proof (m_err M0) config debug (open_input_expr M0 config alpha lg rounds) commits final bs lmh t q ip openings n = Some (Ok m, n') ->
    manager_words m = opening_words ip rounds + 12 * length (layers ExtT M lmh commits openings bs) + 4 /\ mn_exec m <> None.
  Proof.
    intros lg rounds commits final bs lmh t q ip openings n m n' E.
    apply (query_words_of bf_ext4 M open_proof (m_err M0) config debug _ commits final bs lmh t q ip openings n m n' (opening_words ip rounds)) in E; [exact E|].
    intros m0 k r m' k' Eo. unfold open_input_expr, open_input_with in Eo. next Eo. destruct a as [[l|e|] m1]; cbn [fst snd] in *; try discriminate Eo.
    unfold ret in Eo. injection Eo as _ <- _. apply batches_words in E0; [apply E0|discriminate].
  Qed.
End Words.

(** ** The constraint script *)
Section Constraints.
  Variable public_row : nat.
  Variable G : gadgets.

  Lemma eval_keeps : forall p pool cb n cb' n', eval_script p pool cb n = Some (cb', n') -> cb_values cb' = cb_values cb /\ cb_public cb' = cb_public cb.
  Proof.
    induction p as [|s p IH]; intros pool cb n cb' n' E; cbn [eval_script] in E; [unfold ret in E; injection E as <- _; auto|].
    destruct s; cbv zeta in E; repeat next E; try (apply IH in E; exact E).
    all: apply IH in E; exact E.
  Qed.
  Lemma drop_vars_appends : forall gt l T T', drop_vars gt l T = Some T' -> appends T T'.
  Proof.
    intros gt. induction l as [|x l IH]; intros T T' E; cbn [drop_vars] in E; [injection E as <-; apply appends_refl|].
    destruct (gt x) as [v|]; [|discriminate E]. destruct (drop_var v T) as [T1|] eqn:Ed; [|discriminate E]. apply IH in E. eapply appends_trans; [|exact E].
    unfold drop_var in Ed. one_step. eexists; reflexivity.
  Qed.
  Lemma four_each : forall (xs : list variable) (vs : list (list Z)), length xs <= length vs -> Forall (fun v => length v = 4) vs ->
    length (concat (map snd (List.combine xs vs))) = 4 * length xs.
  Proof.
    induction xs as [|x xs IH]; intros [|v vs] Ln Fv; cbn [length List.combine map concat snd] in *; try lia. inversion Fv; subst. rewrite app_length, IH by (auto; lia). lia.
  Qed.
  Lemma script_words : forall p local next pubs first last transition alpha acc n s n',
    constraint_script public_row G p local next pubs first last transition alpha acc n = Some (s, n') ->
    exists ws q, s = flat_map push_vec ws ++ q /\ length (concat ws) = 4 * (length pubs + 2 * length local).
  Proof.
    intros p local next pubs first last transition alpha acc n s n' E. unfold constraint_script in E.
    next E. next E. next E. destruct a1 as [T gt]. next E. next E. next E. next E. destruct a4 as [[T1 m1] v1]. cbn [fst snd] in *. next E. unfold ret in E. injection E as <- _.
    apply get_some in E0 as [Eb _]. apply eval_keeps in E1 as [Ev Ep]. apply get_some in E2 as [Es _]. apply get_some in E6 as [Ex _]. apply get_some in E7 as [Ed _].
    assert (A : appends T a4).
    { unfold express in Ex. apply express_appends in Ex. unfold drop_variable_values in Ed. destruct (drop_vars gt _ T1) as [T2|] eqn:Ed1; [|discriminate Ed].
      apply drop_vars_appends in Ed, Ed1. eapply appends_trans; [exact Ex|]. eapply appends_trans; eauto. }
    destruct A as [q Eq]. unfold set_variable_values in Es. rewrite Ev, Ep in Es. unfold new_with_expr in Eb.
    destruct (length local <=? length next) eqn:Le; [|discriminate Eb]. apply Nat.leb_le in Le. injection Eb as <-. cbn [cb_values cb_public] in Es.
    match type of Es with (if ?c then _ else _) = _ => destruct c; [|discriminate Es] end. rewrite <- fold_left_app in Es. injection Es as Es.
    destruct (push_inputs_ok _ _ _ Es) as (_ & _ & _ & Sc & _). rewrite Eq, Sc, <- app_assoc. eexists _, _. split; [reflexivity|].
    assert (F4 : forall (A : Type) (f : A -> BB4) l, Forall (fun v : list Z => length v = 4) (map (fun x => limbs 4 (f x)) l)).
    { intros A f l. apply Forall_forall. intros v Iv. apply in_map_iff in Iv as (x & <- & _). apply limbs_length. lia. }
    rewrite !map_app, !concat_app, !app_length, !four_each; unfold row_vars, public_vars; rewrite ?map_length, ?seq_length; try apply F4; try apply (F4 BB4 (fun z => z)); try lia; try exact Le.
    match goal with |- 4 * ?a + (4 * ?b + 4 * _) = _ => change (4 * a + (4 * b + 4 * b) = 4 * (a + 2 * b)) end. lia.
  Qed.
  (** Two rows and the public values: more words than the limit, and the script is refused. *)
  Theorem C87_constraints_too_wide : forall L H p local next pubs zeta alpha ln acc n ok n',
    (L < Z.of_nat (8 * length local + 4 * length pubs))%Z ->
    run_constraints_limited L H G public_row p local next pubs zeta alpha ln acc n = Some (ok, n') -> ok = false.
  Proof.
    intros L H p local next pubs zeta alpha ln acc n ok n' Lt E. unfold run_constraints_limited in E. next E. next E. next E. unfold ret in E. injection E as <- _.
    apply script_words in E2 as (ws & q & -> & Lw). rewrite pushes_overflow; [reflexivity|]. rewrite Lw. lia.
  Qed.
  Theorem C87_limited_constraints : forall L H p local next pubs zeta alpha ln acc n n',
    run_constraints_limited L H G public_row p local next pubs zeta alpha ln acc n = Some (true, n') ->
    run_constraints public_row H G p local next pubs zeta alpha ln acc n = Some (true, n').
  Proof.
    intros L H p local next pubs zeta alpha ln acc n n' E. unfold run_constraints_limited, run_constraints in *. unfold bind in *.
    destruct (selectors_at_point_expr f1 zeta ln n) as [[s n1]|]; [|discriminate E]. destruct (const_f bf_ext4 alpha n1) as [[a n2]|]; [|discriminate E].
    destruct (constraint_script public_row G p local next pubs (se_first s) (se_last s) (se_transition s) a acc n2) as [[sc n3]|]; [|discriminate E].
    unfold ret in *. injection E as Q <-. now rewrite (limited_less _ _ _ _ Q).
  Qed.
End Constraints.

(** ** The script verifier of a STARK proof *)
Local Open Scope nat_scope.
Section Stark.
  Variable H : bytes -> bytes.
  Variable G : gadgets.
  Variable M0 : mmcs BabyBearT.
  Variable M : mmcs ExtT.
  Variable words0 : m_comm M0 -> list word4.
  Variable words : m_comm M -> list word4.
  Variable config : fri_config.
  Variable debug : bool.

  Lemma managers_each : forall IP IE oi commits final bs lmh qs n ms n',
    query_managers bf_ext4 M IP IE config debug oi commits final bs lmh qs n = Some (Ok ms, n') ->
    Forall2 (fun q m => exists k k', query_manager bf_ext4 M IP IE config debug oi commits final bs lmh (fst (fst q)) (snd (fst q)) (fst (snd q)) (snd (snd q)) k = Some (Ok m, k')) qs ms.
  Proof.
    intros IP IE oi commits final bs lmh. induction qs as [|[[t q] [ip op]] qs IH]; intros n ms n' E; cbn [query_managers] in E.
    - unfold ret in E. injection E as <- _. constructor.
    - next E. destruct a as [m|e|]; try discriminate E. next E. destruct a as [ms'|e|]; try discriminate E. unfold ret in E. injection E as <- _.
      constructor; [eauto|]. eapply IH; eauto.
  Qed.
  (** A trace of [w] columns, opened in a query at a row of that width: ten words for each column, and at least twelve
      more, are pushed by the script of the query. *)
  Theorem C87_wide_trace : forall L pf degree lqd td qds c x n p n1 j m qp row rows pr rest k,
    prepare M0 M words0 words config debug pf degree lqd td qds c x n = Some (p, n1) ->
    nth_error (g_queries p) j = Some m -> nth_error (query_proofs ExtT M (stark_ch M words) _ (StarkModel.p_opening BabyBearT ExtT M0 M (stark_ch M words) pf)) j = Some qp ->
    input_proof ExtT M _ qp = ((row :: rows, pr) :: rest) ->
    length (StarkModel.p_local BabyBearT ExtT M0 M (stark_ch M words) pf) = length row ->
    length (StarkModel.p_next BabyBearT ExtT M0 M (stark_ch M words) pf) = length row ->
    (L < Z.of_nat (10 * length row + 12))%Z ->
    run_managers_limited L H G (managers p) k = None.
  Proof.
    intros L pf degree lqd td qds c x n p n1 j m qp row rows pr rest k E Em Eq Ei Wl Wn Lt. unfold prepare in E. next E. next E. destruct a0 as [ms|e|]; try discriminate E.
    next E. next E. next E. next E. next E. next E. unfold ret in E. injection E as <- _. cbn [g_queries managers] in *.
    apply C87_managers_refused. unfold managers. cbn [g_queries]. apply Exists_exists. exists m. split; [apply in_or_app; left; eapply nth_error_In; eauto|].
    apply managers_each in E1.
    assert (Q : exists q k k', query_manager bf_ext4 M (list (batch_opening BabyBearT M0)) (m_err M0) config debug
      (open_input_expr M0 config (felt (ch_batch a)) (length (commit_phase_commits ExtT M (stark_ch M words) (list (batch_opening BabyBearT M0)) (StarkModel.p_opening BabyBearT ExtT M0 M (stark_ch M words) pf)) + log_blowup config)
        (StarkModel.pcs_rounds BabyBearT ExtT M0 M (stark_ch M words) pf td qds (felt (ch_zeta a)) (ch_zeta_next a : ExtT)))
      (commit_phase_commits ExtT M (stark_ch M words) (list (batch_opening BabyBearT M0)) (StarkModel.p_opening BabyBearT ExtT M0 M (stark_ch M words) pf))
      (final_poly ExtT M (stark_ch M words) (list (batch_opening BabyBearT M0)) (StarkModel.p_opening BabyBearT ExtT M0 M (stark_ch M words) pf)) (map felt (ch_betas a))
      (length (commit_phase_commits ExtT M (stark_ch M words) (list (batch_opening BabyBearT M0)) (StarkModel.p_opening BabyBearT ExtT M0 M (stark_ch M words) pf)) + log_blowup config)
      (fst q) (snd q) (input_proof ExtT M _ qp) (commit_phase_openings ExtT M _ qp) k = Some (Ok m, k')).
    { clear - E1 Em Eq. revert E1 Em Eq.
      generalize (query_proofs ExtT M (stark_ch M words) (list (batch_opening BabyBearT M0)) (StarkModel.p_opening BabyBearT ExtT M0 M (stark_ch M words) pf)) as qps.
      generalize (List.combine (seq 0 (num_queries config)) (map Z.to_nat (ch_indices a))) as is.
      intros is qps E1 Em Eq. revert j is qps E1 Em Eq. induction ms as [|m1 ms IH]; intros [|j] [|i is] [|q qps] E1 Em Eq; cbn [List.combine map] in E1; inversion E1; subst; try discriminate Em; try discriminate Eq.
      - cbn in Em, Eq. injection Em as ->. injection Eq as ->. match goal with Hq : exists _ _, _ = Some (Ok m, _) |- _ => destruct Hq as (k & k' & Q) end. exists i, k, k'. exact Q.
      - cbn in Em, Eq. eapply IH; eauto. }
    destruct Q as (q & k1 & k2 & Q). apply C87_query_words in Q as [Ew Ne]. split; [exact Ne|]. rewrite Ew.
    assert (Ow : 2 * point_words (length row) (length row) <= opening_words (input_proof ExtT M _ qp) (StarkModel.pcs_rounds BabyBearT ExtT M0 M (stark_ch M words) pf td qds (felt (ch_zeta a)) (ch_zeta_next a : ExtT))).
    { rewrite Ei. unfold opening_words, StarkModel.pcs_rounds. cbn [List.combine map fst snd]. unfold list_sum. cbn [fold_right List.combine map fst snd]. rewrite Wl, Wn. lia. }
    unfold point_words in Ow. rewrite Nat.min_id in Ow. lia.
  Qed.
  Variable public_row : nat.
  Lemma managers_limited : forall L ms n u n', run_managers_limited L H G ms n = Some (u, n') -> run_managers H G ms n = Some (u, n').
  Proof.
    intros L. induction ms as [|m ms IH]; intros n u n' E; cbn [run_managers_limited run_managers] in *; [exact E|].
    unfold bind in *. destruct (embed_hint_verify m n) as [[m' k]|]; [|discriminate E].
    destruct (run_manager_limited L H G m') eqn:Q; cbn [check] in E; [|discriminate E]. apply C87_limited_is_run in Q. rewrite Q. unfold check, ret in *. now apply IH.
  Qed.
  Lemma prepare_queries : forall pf degree lqd td qds c x n p n1, prepare M0 M words0 words config debug pf degree lqd td qds c x n = Some (p, n1) ->
    length (g_queries p) = length (query_proofs ExtT M (stark_ch M words) _ (StarkModel.p_opening BabyBearT ExtT M0 M (stark_ch M words) pf)).
  Proof.
    intros pf degree lqd td qds c x n p n1 E. unfold prepare in E. next E. next E. destruct a0 as [ms|e|]; try discriminate E.
    next E. next E. next E. next E. next E. next E. unfold ret in E. injection E as <- _. cbn [g_queries].
    apply managers_each in E1. apply challenges_native in E0 as (_ & Li & Lq & _).
    assert (Lm : forall A B (R : A -> B -> Prop) l l', Forall2 R l l' -> length l' = length l) by (induction 1; cbn; congruence).
    apply Lm in E1. rewrite E1, !combine_length, !map_length, seq_length. lia.
  Qed.
  (** What is accepted with a limit is accepted without one, and is not too wide. *)
  Theorem C87_accepted : forall L a c x pf pubs n n',
    generate_limited L H G public_row M0 M words0 words config debug a c x pf pubs n = Some (Ok tt, n') ->
    generate_script_verifier H G public_row M0 M words0 words config debug a c x pf pubs n = Some (Ok tt, n') /\
    (Z.of_nat (8 * sa_width a + 4 * length pubs) <= L)%Z /\
    forall qp row rows pr rest, In qp (query_proofs ExtT M (stark_ch M words) _ (StarkModel.p_opening BabyBearT ExtT M0 M (stark_ch M words) pf)) ->
      input_proof ExtT M _ qp = ((row :: rows, pr) :: rest) -> length row = sa_width a -> (Z.of_nat (10 * sa_width a + 12) <= L)%Z.
  Proof.
    intros L a c x pf pubs n n' E. unfold generate_limited in E. unfold generate_script_verifier. cbv zeta in *.
    destruct (tree_air a) as [t|] eqn:Et; [|discriminate E]. cbn [get] in *.
    unfold ret at 1 in E. unfold bind at 1 in E. unfold ret at 1. unfold bind at 1.
    destruct (indexed (sa_width a) (length pubs) (sa_eval a)); [|discriminate E]. cbn [check] in *.
    unfold ret at 1 in E. unfold bind at 1 in E. unfold ret at 1. unfold bind at 1.
    Ltac one E := match type of E with bind (get ?o) _ _ = _ => destruct o eqn:?; [|discriminate E]; cbn [get] in *; unfold ret at 1 in E; unfold bind at 1 in E; unfold ret at 1; unfold bind at 1 end.
    one E. one E. one E. one E. one E. one E.
    destruct (StarkModel.valid_shape BabyBearT ExtT 4 M0 M (stark_ch M words) t n2 pf) eqn:Vs; cbn [negb] in *; [|discriminate E].
    unfold bind at 1 in E. unfold bind at 1.
    match type of E with match ?o with _ => _ end = _ => destruct o as [[p k1]|] eqn:Ep; [|discriminate E] end.
    unfold bind at 1 in E. unfold bind at 1.
    destruct (run_managers_limited L H G (managers p) k1) as [[[] k2]|] eqn:Em; [|discriminate E]. rewrite (managers_limited _ _ _ _ _ Em).
    one E. one E.
    match type of E with (if ?b then _ else _) _ = _ => destruct b; [discriminate E|] end.
    unfold bind at 1 in E. unfold bind at 1.
    match type of E with match ?o with _ => _ end = _ => destruct o as [[[|] k3]|] eqn:Ec; [| |discriminate E] end.
    2: { discriminate E. }
    pose proof (C87_limited_constraints _ _ _ _ _ _ _ _ _ _ _ _ _ _ Ec) as Ec'. rewrite Ec'. split; [exact E|].
    assert (Tw : StarkModel.air_width t = sa_width a).
    { unfold tree_air in Et. destruct (assertions (sa_eval a) []); [|discriminate Et]. injection Et as <-. reflexivity. }
    unfold StarkModel.valid_shape in Vs. rewrite !andb_true_iff, !Nat.eqb_eq in Vs. destruct Vs as [[[Wl Wn] _] _]. rewrite Tw in Wl, Wn.
    split.
    - destruct (Z.le_gt_cases (Z.of_nat (8 * sa_width a + 4 * length pubs)) L) as [?|Lt]; [assumption|]. exfalso. rewrite <- Wl in Lt.
      pose proof (C87_constraints_too_wide _ _ _ _ _ _ _ _ _ _ _ _ _ _ _ Lt Ec). discriminate.
    - intros qp row rows pr rest I Ei Wr. destruct (Z.le_gt_cases (Z.of_nat (10 * sa_width a + 12)) L) as [?|Lt]; [assumption|]. exfalso.
      apply In_nth_error in I as [j Ej]. pose proof (prepare_queries _ _ _ _ _ _ _ _ _ _ Ep) as Lq.
      destruct (nth_error (g_queries p) j) as [m|] eqn:Ejm; [|apply nth_error_None in Ejm; assert (nth_error (query_proofs ExtT M (stark_ch M words) _ (StarkModel.p_opening BabyBearT ExtT M0 M (stark_ch M words) pf)) j <> None) as Nn by congruence; apply nth_error_Some in Nn; lia].
      rewrite (C87_wide_trace L _ _ _ _ _ _ _ _ _ _ _ _ _ _ _ _ _ k1 Ep Ejm Ej Ei) in Em; [discriminate Em|congruence|congruence|congruence].
  Qed.
End Stark.

(** *** Examples *)
(** [n] inputs of four words, the field element 1 each, added up and compared with [n]. *)
Definition ex_sum (n : nat) : list scall :=
  repeat (SInput [1; 0; 0; 0]%Z) n ++ map (fun i => SBuild (CAdd (if i =? 0 then 0 else n + i - 1) (S i))) (seq 0 (n - 1))
   ++ [SBuild (CConstant [Z.of_nat n; 0; 0; 0]%Z); SBuild (CEqual (2 * n - 2) (2 * n - 1)); SExec (2 * n)].
Definition ex_manager (n : nat) : manager := match session (ex_sum n) ([], manager_new) 0 with Some ((_, m), _) => m | None => manager_new end.
(** 251 inputs are 1004 words: refused on chain, whatever the gadgets. *)
Example C87_example_refused : forall H G, mn_exec (ex_manager 251) <> None /\ manager_words (ex_manager 251) = 1004 /\ run_manager_limited 1000 H G (ex_manager 251) = false.
Proof.
  intros H G. assert (A : match mn_exec (ex_manager 251) with Some _ => true | None => false end && (manager_words (ex_manager 251) =? 1004) = true) by (vm_compute; reflexivity).
  apply andb_true_iff in A as [A B]. apply Nat.eqb_eq in B. assert (C : mn_exec (ex_manager 251) <> None) by (destruct (mn_exec (ex_manager 251)); congruence).
  split; [exact C|]. split; [exact B|]. apply C87_too_many_inputs; [exact C|]. rewrite B. reflexivity.
Qed.
(** Three inputs are accepted on chain.  With a limit of 11 elements they are not, though
    they are without a limit. *)
Example C87_example : forall H, run_manager_limited 1000 H my_gadgets (ex_manager 3) = true /\ run_manager_limited 11 H my_gadgets (ex_manager 3) = false /\
  run_manager H my_gadgets (ex_manager 3) = true /\ manager_words (ex_manager 3) = 12.
Proof. intros H. repeat split; vm_compute; reflexivity. Qed.
(** A trace of 97 columns (and one quotient chunk): 1002 words for the openings, 4 for the final value,
    without those of the folding layers.  The constraint script of 125 columns: 1000 words, and 4 for each public value. *)
Example C87_example_words : 2 * point_words 97 97 + point_words 4 4 + 4 = 1006 /\ 2 * point_words 96 96 + point_words 4 4 + 4 = 996 /\ 8 * 125 = 1000.
Proof. repeat split; reflexivity. Qed.
(** A proof that the script verifier accepts (C76_example, one column), and does not accept with
    21 elements. *)
Example C87_example_verifier : forall H, exists n', script_verify H my_gadgets 0 ex_mmcs0 ex_mmcs ex_words ex_words (ex_config 2) true ex_air (ex_proof 2) [] 0 = Some (Ok tt, n') /\
  forall c x n k, generate_limited 21 H my_gadgets 0 ex_mmcs0 ex_mmcs ex_words ex_words (ex_config 2) true ex_air c x (ex_proof 2) [] n <> Some (Ok tt, k).
Proof.
  intros H. destruct (C76_example H) as (_ & _ & _ & _ & n' & E). exists n'. split; [exact E|]. intros c x n k E'.
  apply C87_accepted in E' as (_ & _ & Q).
  assert (B : (Z.of_nat (10 * sa_width ex_air + 12) <= 21)%Z); [|vm_compute in B; congruence].
  eapply (Q ex_query); [left; reflexivity|reflexivity|reflexivity].
Qed.
