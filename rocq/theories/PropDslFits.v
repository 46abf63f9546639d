(** C88: when the scripts of the expression language fit.  The words of the inputs, the values
    that wait while an expression is computed ([need]), the values used more than once and the
    scratch space of one opcode: if these are within the limit of the stacks, the limit changes
    no verdict. *)
From Coq Require Import ZArith List Bool Arith Lia.
From Verif Require Import ScriptNum ScriptVM VMLemmas U32Model Lift PropWords HelperModel HelperRou Field BabyBear DslModel DslStack DslSpec DslOpSpec DslOps DslProofs DslDag DslMain
  DslBuild DslIds DslManager DslSession FriModel PcsModel FriExprModel StarkExprModel OpenExprModel ConsExprModel ConsExprProofs StackModel StackProofs DslLimitModel
  FriInst Blake3Spec ChallengerModel ChalExprModel GenModel GenProofs DslGadgets PropDsl PropGen DslPeak PropDslLimit.
From Verif Require StarkModel.
Import ListNotations.
Local Open Scope nat_scope.

(** ** What is required of an expression *)
(** Stack elements above the inputs: [K] is the scratch space of any single opcode. *)
Definition peak_words (G : gadgets) (gt : getter) (K : nat) (e : expr) : nat := need G gt e + shared_words G gt e + K.
(** Every opcode of the expression runs within [K] elements above its operands. *)
Definition scratch (G : gadgets) (gt : getter) (K : nat) (e : expr) : Prop := 1 <= K /\ forall d, sub d e -> node_fits G gt K d.
Definition expr_fits (L : Z) (G : gadgets) (gt : getter) (words : nat) (e : expr) : Prop :=
  unique_ids e /\ shape G gt e <> None /\ exists K, scratch G gt K e /\ (Z.of_nat (words + peak_words G gt K e) <= L)%Z.
Definition manager_fits (L : Z) (G : gadgets) (m : manager) : Prop :=
  forall e, mn_exec m = Some e -> expr_fits L G (snd (simulate_input m)) (manager_words m) e.

(** *** The stack made of the inputs *)
Lemma pushed_facts : forall l T gt, fold_left push_input l (tracker_new, fun _ => None) = (T, gt) ->
  (forall x v, gt x = Some v -> fst v < t_next T) /\ (forall x v w, gt x = Some v -> In w (t_main T) -> fst w = fst v -> snd w = snd v) /\
  t_alt T = [] /\ t_script T = flat_map push_vec (map snd l) /\ tot T = length (concat (map snd l)).
Proof.
  intros l T gt E. destruct (push_inputs_ok _ _ _ E) as (Nx & Mn & Al & Sc & Gt & _). split; [|split; [|split; [exact Al|split; [exact Sc|]]]].
  - intros x [k s] Eg. destruct (Gt _ _ _ Eg) as [I0 _]. apply (in_map fst) in I0. rewrite svars_fst in I0. apply in_seq in I0. cbn [fst] in *. lia.
  - intros x [k s] [k' s'] Eg Iw Ek. cbn [fst snd] in *. subst k'. destruct (Gt _ _ _ Eg) as [I0 _]. rewrite Mn in Iw. apply in_rev in Iw.
    apply svars_in in I0 as (y & u & E1 & ->). apply svars_in in Iw as (y' & u' & E2 & ->). congruence.
  - unfold tot. rewrite Al, Mn. unfold items at 2, list_sum. cbn [map fold_right]. rewrite Nat.add_0_r. unfold items. rewrite map_rev, list_sum_rev.
    assert (W : forall (l : list nat) a, map snd (combine (seq a (length l)) l) = l).
    { induction l0 as [|z l0 IH]; intros a; [reflexivity|]. cbn. now rewrite IH. }
    unfold svars. rewrite <- (map_length (fun p : variable * list Z => length (snd p)) l), W.
    clear. induction l as [|p l IH]; [reflexivity|]. cbn [map concat]. rewrite app_length, <- IH. reflexivity.
Qed.
(** The script of an expression after its inputs. *)
Lemma script_fits : forall G l T gt K e T' m' vars, fold_left push_input l (tracker_new, fun _ => None) = (T, gt) ->
  unique_ids e -> shape G gt e <> None -> scratch G gt K e -> express G gt true e T = Some (T', m', vars) ->
  tot T' <= length (concat (map snd l)) + need G gt e + shared_words G gt e /\
  heights (t_script T') (Z.of_nat (tot T')) 0 (Z.of_nat (length (concat (map snd l)) + peak_words G gt K e)).
Proof.
  intros G l T gt K e T' m' vars E U Sh [K1 Sc] Ex. destruct (pushed_facts _ _ _ E) as (Go & Gs & Al & Ps & Tt).
  destruct (express_peak G gt e K T T' m' vars U Go Gs Al K1 Sc Sh Ex) as (Tl & p & -> & Hp). split; [lia|]. rewrite Ps. pose proof (pushes_heights (map snd l)) as Pp. cbv zeta in Pp.
  eapply heights_weaken; [exact (heights_app _ _ _ _ _ _ _ _ Pp Hp)|lia|lia|unfold peak_words; lia].
Qed.
(** Within its heights a script has the verdict it has without a limit. *)
Lemma heights_verdict : forall L H p d lo hi, heights p d lo hi -> (hi <= L)%Z -> bsucceeds (lrun L H p (mk [] [] [])) = bsucceeds (brun H p (mk [] [] [])).
Proof.
  intros L H p d lo hi Hp Le. destruct (brun H p (mk [] [] [])) as [s|] eqn:E.
  - destruct (Hp H (mk [] [] []) s eq_refl E) as (_ & _ & Up & _). rewrite Up; [reflexivity|]. unfold sheight. cbn [main alt length]. lia.
  - destruct (lrun L H p (mk [] [] [])) as [s|] eqn:El; [|reflexivity]. apply lrun_run in El. congruence.
Qed.

(** ** Managers *)
Theorem C88_manager_fits : forall L H G m, manager_fits L G m -> run_manager_limited L H G m = run_manager H G m.
Proof.
  intros L H G m F. unfold run_manager_limited, run_manager. destruct (mn_exec m) as [e|] eqn:Ee; [|reflexivity]. destruct (F e Ee) as (U & Sh & K & Sc & Le).
  destruct (simulate_script m) as (gt & T & Es & _ & Ln). rewrite Es in *. cbn [snd] in *. rewrite simulate_pushed in Es.
  destruct (express G gt true e T) as [[[T' m'] vs]|] eqn:Ex; [|reflexivity]. pose proof (script_fits _ _ _ _ _ _ _ _ _ Es U Sh Sc Ex) as [_ Hp].
  eapply heights_verdict; [exact Hp|]. rewrite Ln. exact Le.
Qed.
(** In a session the identifiers are unique. *)
Lemma session_unique : forall cs n pool m n' e, session cs ([], manager_new) n = Some ((pool, m), n') -> mn_exec m = Some e -> unique_ids e.
Proof.
  intros cs n pool m n' e Es Ee. destruct (session_inv cs ([], manager_new) n (pool, m) n' [] (sinv_new n)) as (all & Iv & _); [easy|exact Es|].
  pose proof (si_exec _ _ _ Iv e Ee) as Ie. intros a b Sa Sb E. exact (made_unique _ _ _ _ _ _ (si_made _ _ _ Iv) Ie Ie Sa Sb E).
Qed.
Theorem C88_session_fits : forall L H G cs n pool m n' e K, session cs ([], manager_new) n = Some ((pool, m), n') -> mn_exec m = Some e ->
  shape G (snd (simulate_input m)) e <> None -> scratch G (snd (simulate_input m)) K e ->
  (Z.of_nat (manager_words m + peak_words G (snd (simulate_input m)) K e) <= L)%Z ->
  run_manager_limited L H G m = run_manager H G m.
Proof.
  intros L H G cs n pool m n' e K Es Ee Sh Sc Le. apply C88_manager_fits. intros e' Ee'. assert (e' = e) by congruence. subst e'.
  split; [exact (session_unique _ _ _ _ _ _ Es Ee)|]. split; [exact Sh|exists K; auto].
Qed.

(** *** A check of the scratch space by the static analysis of StackModel *)
Definition node_check (G : gadgets) (gt : getter) (K : nat) (d : expr) : bool :=
  match DslSpec.all_some (map var_size (e_ops d)) with
  | Some sizes =>
      match generate G (e_op d) sizes with
      | Some em =>
          match profile (em_script em) with
          | Some (h, lo, hi) => (h =? Z.of_nat (list_sum (em_outs em)) - Z.of_nat (list_sum (map (outsize G gt) (e_ops d))))%Z && (0 <=? lo)%Z && (hi <=? Z.of_nat K)%Z
          | None => false
          end
      | None => true
      end
  | None => true
  end.
Lemma node_check_fits : forall G gt K d, node_check G gt K d = true -> node_fits G gt K d.
Proof.
  intros G gt K d C sizes em Es Eg. unfold node_check in C. rewrite Es, Eg in C. destruct (profile (em_script em)) as [[[h lo] hi]|] eqn:P; [|discriminate C].
  apply andb_true_iff in C as [C C3]. apply andb_true_iff in C as [C1 C2]. apply Z.eqb_eq in C1. apply Z.leb_le in C2, C3.
  eapply heights_weaken; [exact (profile_heights _ _ _ _ P)|exact C1|exact C2|exact C3].
Qed.
Theorem C88_check : forall G gt K e, 1 <= K -> forallb (node_check G gt K) (nodes e) = true -> scratch G gt K e.
Proof.
  intros G gt K e K1 F. split; [exact K1|]. intros d Sd. apply node_check_fits. rewrite forallb_forall in F. apply F. now apply nodes_sub.
Qed.

(** ** The constraint script *)
Section Constraints.
  Variable public_row : nat.
  Variable G : gadgets.
  (** The inputs of the constraint script and the expression it computes: the steps of
      uni-stark/src/script_verifier.rs 273-288 (constraint_script) before the generation. *)
  Definition constraint_expr (p : list stmt) (local next : list BB4) (public_values : list BabyBear)
    (first last transition alpha : expr) (accumulator : BB4) : builder (getter * expr) :=
    do cb <- get (new_with_expr public_row local next (length public_values) first last transition alpha);
    do cb <- eval_script p [] cb;
    do s <- get (set_variable_values public_values cb);
    do acc <- get_accumulator_expr cb;
    do c <- const_f bf_ext4 accumulator;
    do e <- equal_verify acc c;
    ret (snd s, e).

  Lemma drops_heights : forall gt l T T', drop_vars gt l T = Some T' ->
    tot T' <= tot T /\ exists q, t_script T' = t_script T ++ q /\ heights q (Z.of_nat (tot T') - Z.of_nat (tot T)) 0 0.
  Proof.
    intros gt. induction l as [|x l IH]; intros T T' E; cbn [drop_vars] in E.
    - injection E as <-. split; [lia|]. exists []. split; [now rewrite app_nil_r|]. eapply heights_weaken; [apply heights_nil|lia|lia|lia].
    - destruct (gt x) as [v|]; [|discriminate E]. unfold drop_var in E. destruct (t_main T) as [|w r] eqn:Em; [discriminate E|].
      destruct (fst w =? fst v); [|discriminate E]. destruct (IH _ _ E) as (Tl & q & Q & Hq). cbn [t_script] in Q. rewrite <- app_assoc in Q.
      assert (Tw : tot T = snd w + tot (mktracker (t_next T) r (t_alt T) (t_script T ++ repeat_script (snd w) [OP_DROP]))) by (unfold tot; cbn [t_main t_alt]; rewrite Em; change (items (w :: r)) with (snd w + items r); lia).
      split; [lia|].
      eexists. split; [exact Q|].
      assert (D : heights (repeat_script (snd w) [OP_DROP]) (- Z.of_nat (snd w)) 0 0).
      { assert (P : forall k, heights (repeat_script k [OP_DROP]) (- Z.of_nat k) 0 0).
        { induction k as [|k IHk]; [exact heights_nil|]. assert (P1 : heights [OP_DROP] (-1) 0 0) by (apply profile_heights; reflexivity).
          change (repeat_script (S k) [OP_DROP]) with ([OP_DROP] ++ repeat_script k [OP_DROP]).
          eapply heights_weaken; [exact (heights_app _ _ _ _ _ _ _ _ P1 IHk)| | |]; lia. }
        apply P. }
      eapply heights_weaken; [exact (heights_app _ _ _ _ _ _ _ _ D Hq)|lia|lia|lia].
  Qed.
  Lemma set_words : forall local next np first last transition alpha cb cb' pubs T gt,
    new_with_expr public_row local next np first last transition alpha = Some cb -> np = length pubs ->
    cb_values cb' = cb_values cb -> cb_public cb' = cb_public cb -> set_variable_values pubs cb' = Some (T, gt) ->
    exists l, fold_left push_input l (tracker_new, fun _ => None) = (T, gt) /\ length (concat (map snd l)) = 8 * length local + 4 * length pubs.
  Proof.
    intros local next np first last transition alpha cb cb' pubs T gt Eb -> Ev Ep Es. unfold set_variable_values in Es. rewrite Ev, Ep in Es. unfold new_with_expr in Eb.
    destruct (length local <=? length next) eqn:Le; [|discriminate Eb]. apply Nat.leb_le in Le. injection Eb as <-. cbn [cb_values cb_public] in Es.
    match type of Es with (if ?c then _ else _) = _ => destruct c; [|discriminate Es] end. rewrite <- fold_left_app in Es. injection Es as Es. eexists. split; [exact Es|].
    assert (F4 : forall (A : Type) (f : A -> BB4) l, Forall (fun v : list Z => length v = 4) (map (fun x => limbs 4 (f x)) l)).
    { intros A f l. apply Forall_forall. intros v Iv. apply in_map_iff in Iv as (x & <- & _). apply limbs_length. lia. }
    rewrite !map_app, !concat_app, !app_length, !four_each; unfold row_vars, public_vars; rewrite ?map_length, ?seq_length; try apply F4; try apply (F4 BB4 (fun z => z)); try lia; try exact Le.
    match goal with |- 4 * ?a + (4 * ?b + 4 * _) = _ => change (4 * a + (4 * b + 4 * b) = 8 * b + 4 * a) end. lia.
  Qed.
  Lemma bind_go : forall A B (f : builder A) (g : A -> builder B) n a k, f n = Some (a, k) -> bind f g n = g a k.
  Proof. intros A B f g n a k E. unfold bind. now rewrite E. Qed.
  Lemma constraint_heights : forall p local next pubs first last transition alpha acc n s n',
    constraint_script public_row G p local next pubs first last transition alpha acc n = Some (s, n') ->
    exists gt e, constraint_expr p local next pubs first last transition alpha acc n = Some ((gt, e), n') /\
      forall K, unique_ids e -> shape G gt e <> None -> scratch G gt K e ->
        exists d, heights s d 0 (Z.of_nat (8 * length local + 4 * length pubs + peak_words G gt K e)).
  Proof.
    intros p local next pubs first last transition alpha acc n s n' E. unfold constraint_script in E. unfold constraint_expr.
    next E. next E. next E. destruct a1 as [T gt]. next E. next E. next E. next E. destruct a4 as [[T1 m1] v1]. cbn [fst snd] in *. next E. unfold ret in E. injection E as <- <-.
    rewrite (bind_go _ _ _ _ _ _ _ E0), (bind_go _ _ _ _ _ _ _ E1), (bind_go _ _ _ _ _ _ _ E2), (bind_go _ _ _ _ _ _ _ E3), (bind_go _ _ _ _ _ _ _ E4), (bind_go _ _ _ _ _ _ _ E5).
    apply get_some in E0 as [Eb _]. apply eval_keeps in E1 as [Ev Ep]. apply get_some in E2 as [Es ?]. apply get_some in E6 as [Ex ?]. apply get_some in E7 as [Ed ?]. subst.
    exists gt, a3. split; [reflexivity|]. intros K U Sh Sc.
    destruct (set_words _ _ _ _ _ _ _ _ _ _ _ _ Eb eq_refl Ev Ep Es) as (l & El & Ll). pose proof (script_fits _ _ _ _ _ _ _ _ _ El U Sh Sc Ex) as [Tl Hp]. rewrite Ll in Hp, Tl.
    unfold drop_variable_values in Ed. destruct (drop_vars gt _ T1) as [T2|] eqn:Ed1; [|discriminate Ed].
    destruct (drops_heights _ _ _ _ Ed1) as (D1 & q1 & Q1 & H1), (drops_heights _ _ _ _ Ed) as (D2 & q2 & Q2 & H2). rewrite Q2, Q1, <- !app_assoc.
    assert (P1 : heights [PUSHN 1] 1 0 1) by (eapply heights_weaken; [exact (profile_heights [PUSHN 1] 1 1 1 eq_refl)|lia|lia|lia]).
    pose proof (heights_app _ _ _ _ _ _ _ _ Hp (heights_app _ _ _ _ _ _ _ _ H1 (heights_app _ _ _ _ _ _ _ _ H2 P1))) as Hall.
    eexists. eapply heights_weaken; [exact Hall|reflexivity|lia|]. destruct Sc as [K1 _]. unfold peak_words. lia.
  Qed.
End Constraints.

Section ConstraintsFit.
  Variable public_row : nat.
  Variable G : gadgets.
  (** The constraint script of a STARK proof: the words of two rows and of the public values. *)
  Definition constraints_fit (L : Z) (p : list stmt) (local next : list BB4) (pubs : list BabyBear) (zeta alpha : BB4) (ln : nat) (acc : BB4) (n : nat) : Prop :=
    forall sels a gt e n1 n2 n3, selectors_at_point_expr f1 zeta ln n = Some (sels, n1) -> const_f bf_ext4 alpha n1 = Some (a, n2) ->
      constraint_expr public_row p local next pubs (se_first sels) (se_last sels) (se_transition sels) a acc n2 = Some ((gt, e), n3) ->
      expr_fits L G gt (8 * length local + 4 * length pubs) e.
  Theorem C88_constraints_fit : forall L H p local next pubs zeta alpha ln acc n, constraints_fit L p local next pubs zeta alpha ln acc n ->
    run_constraints_limited L H G public_row p local next pubs zeta alpha ln acc n = run_constraints public_row H G p local next pubs zeta alpha ln acc n.
  Proof.
    intros L H p local next pubs zeta alpha ln acc n F. unfold run_constraints_limited, run_constraints. unfold bind.
    destruct (selectors_at_point_expr f1 zeta ln n) as [[s n1]|] eqn:E1; [|reflexivity]. destruct (const_f bf_ext4 alpha n1) as [[a n2]|] eqn:E2; [|reflexivity].
    destruct (constraint_script public_row G p local next pubs (se_first s) (se_last s) (se_transition s) a acc n2) as [[sc n3]|] eqn:E3; [|reflexivity].
    destruct (constraint_heights _ _ _ _ _ _ _ _ _ _ _ _ _ _ E3) as (gt & e & Ee & Hs). destruct (F _ _ _ _ _ _ _ E1 E2 Ee) as (U & Sh & K & Sc & Le).
    destruct (Hs K U Sh Sc) as (d & Hd). unfold ret. now rewrite (heights_verdict _ H _ _ _ _ Hd Le).
  Qed.

  Fixpoint managers_fit (L : Z) (ms : list manager) (n : nat) : Prop :=
    match ms with
    | [] => True
    | m :: ms => forall m' n', embed_hint_verify m n = Some (m', n') -> manager_fits L G m' /\ managers_fit L ms n'
    end.
  Theorem C88_managers_fit : forall L H ms n, managers_fit L ms n -> run_managers_limited L H G ms n = run_managers H G ms n.
  Proof.
    intros L H. induction ms as [|m ms IH]; intros n F; [reflexivity|]. cbn [run_managers_limited run_managers managers_fit] in *. unfold bind.
    destruct (embed_hint_verify m n) as [[m' n']|]; [|reflexivity]. destruct (F m' n' eq_refl) as [Fm Fs]. rewrite (C88_manager_fits L H G m' Fm).
    destruct (run_manager H G m'); cbn [check]; [|reflexivity]. unfold ret. now apply IH.
  Qed.
End ConstraintsFit.

(** *** Some limit is always enough, and a higher one never refuses more *)
Lemma lrun_up : forall L L' H p s s', (L <= L')%Z -> lrun L H p s = Some s' -> lrun L' H p s = Some s'.
Proof.
  intros L L' H p. induction p as [|o p IH]; intros s s' Le E; cbn [lrun] in *; destruct (Z.leb_spec (sheight s) L); try discriminate E; destruct (Z.leb_spec (sheight s) L'); try lia; [exact E|].
  destruct (bstep H o s) as [s1|]; [|discriminate E]. now apply IH.
Qed.
Lemma lrun_enough : forall H p s s', brun H p s = Some s' -> exists L0, lrun L0 H p s = Some s'.
Proof.
  intros H p. induction p as [|o p IH]; intros s s' E.
  - exists (sheight s). cbn [lrun]. now rewrite Z.leb_refl.
  - unfold brun in E. cbn [runM] in E. fold (bstep H) in E. destruct (bstep H o s) as [s1|] eqn:S1; [|discriminate E]. fold (brun H) in E.
    destruct (IH _ _ E) as [L0 E0]. exists (Z.max (sheight s) L0). cbn [lrun]. destruct (Z.leb_spec (sheight s) (Z.max (sheight s) L0)); [|lia].
    rewrite S1. eapply lrun_up; [|exact E0]. lia.
Qed.
Lemma verdict_enough : forall H p, exists L0, forall L, (L0 <= L)%Z -> bsucceeds (lrun L H p (mk [] [] [])) = bsucceeds (brun H p (mk [] [] [])).
Proof.
  intros H p. destruct (brun H p (mk [] [] [])) as [s|] eqn:E.
  - destruct (lrun_enough _ _ _ _ E) as [L0 E0]. exists L0. intros L Le. now rewrite (lrun_up _ _ _ _ _ _ Le E0).
  - exists 0%Z. intros L _. destruct (lrun L H p (mk [] [] [])) as [s|] eqn:El; [|reflexivity]. apply lrun_run in El. congruence.
Qed.
Theorem C88_monotone : forall L L' H G m, (L <= L')%Z -> run_manager_limited L H G m = true -> run_manager_limited L' H G m = true.
Proof.
  intros L L' H G m Le E. unfold run_manager_limited in *. destruct (mn_exec m) as [e|]; [|reflexivity]. destruct (simulate_input m) as [T gt].
  destruct (express G gt true e T) as [[[T' m'] vs]|]; [|discriminate E]. destruct (lrun L H (t_script T') (mk [] [] [])) as [s|] eqn:El; [|discriminate E].
  now rewrite (lrun_up _ _ _ _ _ _ Le El).
Qed.
Lemma manager_enough : forall H G m, exists L0, forall L, (L0 <= L)%Z -> run_manager_limited L H G m = run_manager H G m.
Proof.
  intros H G m. unfold run_manager_limited, run_manager. destruct (mn_exec m) as [e|]; [|now exists 0%Z]. destruct (simulate_input m) as [T gt].
  destruct (express G gt true e T) as [[[T' m'] vs]|]; [|now exists 0%Z]. apply verdict_enough.
Qed.
Lemma managers_enough : forall H G ms n, exists L0, forall L, (L0 <= L)%Z -> run_managers_limited L H G ms n = run_managers H G ms n.
Proof.
  intros H G. induction ms as [|m ms IH]; intros n; [now exists 0%Z|]. cbn [run_managers_limited run_managers]. unfold bind.
  destruct (embed_hint_verify m n) as [[m' n']|]; [|now exists 0%Z]. destruct (manager_enough H G m') as [L1 E1], (IH n') as [L2 E2].
  exists (Z.max L1 L2). intros L Le. rewrite E1 by lia. destruct (run_manager H G m'); cbn [check]; [|reflexivity]. unfold ret. apply E2. lia.
Qed.
Lemma constraints_enough : forall H G row p local next pubs zeta alpha ln acc n, exists L0, forall L, (L0 <= L)%Z ->
  run_constraints_limited L H G row p local next pubs zeta alpha ln acc n = run_constraints row H G p local next pubs zeta alpha ln acc n.
Proof.
  intros H G row p local next pubs zeta alpha ln acc n. unfold run_constraints_limited, run_constraints. unfold bind.
  destruct (selectors_at_point_expr f1 zeta ln n) as [[s n1]|]; [|now exists 0%Z]. destruct (const_f bf_ext4 alpha n1) as [[a n2]|]; [|now exists 0%Z].
  destruct (constraint_script row G p local next pubs (se_first s) (se_last s) (se_transition s) a acc n2) as [[sc n3]|]; [|now exists 0%Z].
  destruct (verdict_enough H sc) as [L0 E]. exists L0. intros L Le. unfold ret. now rewrite (E L Le).
Qed.

(** ** The script verifier of a STARK proof *)
Section Stark.
  Variable H : bytes -> bytes.
  Variable G : gadgets.
  Variable public_row : nat.
  Variable M0 : mmcs BabyBearT.
  Variable M : mmcs ExtT.
  Variable words0 : m_comm M0 -> list word4.
  Variable words : m_comm M -> list word4.
  Variable config : fri_config.
  Variable debug : bool.
  Notation limited L := (generate_limited L H G public_row M0 M words0 words config debug).
  Notation unlimited := (generate_script_verifier H G public_row M0 M words0 words config debug).

  Notation sproof := (StarkModel.proof BabyBearT ExtT M0 M (stark_ch M words)).
  Notation p_local pf := (StarkModel.p_local BabyBearT ExtT M0 M (stark_ch M words) pf).
  Notation p_next pf := (StarkModel.p_next BabyBearT ExtT M0 M (stark_ch M words) pf).
  Notation p_bits pf := (StarkModel.p_degree_bits BabyBearT ExtT M0 M (stark_ch M words) pf).
  (** The managers of a proof and its trace domain (uni-stark/src/script_verifier.rs 25-230, as
      in [generate_script_verifier]). *)
  Definition reaches (a : script_air) (c : chal) (x : chal_expr) (pf : sproof) (pubs : list BabyBearT) (n : nat) (td : coset BabyBearT) (p : prepared) (k : nat) : Prop :=
    exists t degree lqd qd qs qds, tree_air a = Some t /\ StarkModel.shl1 debug (p_bits pf) = Some degree /\
      StarkModel.get_log_quotient_degree BabyBearT t (length pubs) = Some lqd /\ StarkModel.shl1 debug lqd = Some qd /\
      natural_domain_for_degree BabyBearT degree = Some td /\ StarkModel.shl1 debug (p_bits pf + lqd) = Some qs /\
      StarkModel.split_domains BabyBearT (StarkModel.create_disjoint_domain BabyBearT (of_Z 31) td qs) qd = Some qds /\
      prepare M0 M words0 words config debug pf degree lqd td qds c x n = Some (p, k).
  Lemma bind_ext : forall A B (f : builder A) (g g' : A -> builder B) n, (forall a k, f n = Some (a, k) -> g a k = g' a k) -> bind f g n = bind f g' n.
  Proof. intros A B f g g' n E. unfold bind. destruct (f n) as [[a k]|]; [now apply E|reflexivity]. Qed.
  Lemma bind_congr : forall A B (f f' : builder A) (g : A -> builder B) n, f n = f' n -> bind f g n = bind f' g n.
  Proof. intros A B f f' g n E. unfold bind. now rewrite E. Qed.
  (** The two kinds of scripts are the only places of the limit. *)
  Lemma limited_agree : forall L a c x pf pubs n,
    (forall td p k, reaches a c x pf pubs n td p k ->
       run_managers_limited L H G (managers p) k = run_managers H G (managers p) k /\
       forall k2 acc, run_managers H G (managers p) k = Some (tt, k2) ->
         run_constraints_limited L H G public_row (sa_eval a) (p_local pf) (p_next pf) pubs (g_zeta p) (g_alpha p) (log_n td) acc k2 =
         run_constraints public_row H G (sa_eval a) (p_local pf) (p_next pf) pubs (g_zeta p) (g_alpha p) (log_n td) acc k2) ->
    limited L a c x pf pubs n = unlimited a c x pf pubs n.
  Proof.
    intros L a c x pf pubs n Q. unfold generate_limited, generate_script_verifier. cbv zeta.
    apply bind_ext. intros t k1 E1. apply get_some in E1 as [E1 ?]. apply bind_ext. intros [] k2 E2.
    assert (k2 = k1) by (unfold check in E2; destruct (indexed _ _ _); [now injection E2|discriminate E2]).
    do 6 (apply bind_ext; let h := fresh "Y" in intros ? ? h; apply get_some in h as [h ?]). subst.
    match goal with |- (if ?b then _ else _) _ = _ => destruct b; [reflexivity|] end.
    apply bind_ext. intros p k Ep. edestruct Q as [Qm Qc].
    { unfold reaches. do 6 eexists. repeat split; eassumption. }
    rewrite (bind_congr _ _ _ _ _ _ Qm). apply bind_ext. intros [] k2 Em.
    do 2 (apply bind_ext; let h := fresh "Y" in intros ? ? h; apply get_some in h as [h ?]). subst. match goal with |- (if ?b then _ else _) _ = _ => destruct b; [reflexivity|] end.
    apply bind_congr. now apply Qc.
  Qed.
  Definition verifier_fits (L : Z) (a : script_air) (c : chal) (x : chal_expr) (pf : sproof) (pubs : list BabyBearT) (n : nat) : Prop :=
    forall td p k, reaches a c x pf pubs n td p k -> managers_fit G L (managers p) k /\
      forall k2 acc, run_managers H G (managers p) k = Some (tt, k2) ->
        constraints_fit public_row G L (sa_eval a) (p_local pf) (p_next pf) pubs (g_zeta p) (g_alpha p) (log_n td) acc k2.
  Theorem C88_verifier_fits : forall L a c x pf pubs n, verifier_fits L a c x pf pubs n -> limited L a c x pf pubs n = unlimited a c x pf pubs n.
  Proof.
    intros L a c x pf pubs n F. apply limited_agree. intros td p k R. destruct (F td p k R) as [Fm Fc]. split; [now apply C88_managers_fit|].
    intros k2 acc E. apply C88_constraints_fit. now apply Fc.
  Qed.
  (** Some limit is always enough. *)
  Lemma bind_enough : forall A B (f : Z -> builder A) (f' : builder A) (g : Z -> A -> builder B) (g' : A -> builder B) n,
    (exists L0, forall L, (L0 <= L)%Z -> f L n = f' n) -> (forall a k, f' n = Some (a, k) -> exists L0, forall L, (L0 <= L)%Z -> g L a k = g' a k) ->
    exists L0, forall L, (L0 <= L)%Z -> bind (f L) (g L) n = bind f' g' n.
  Proof.
    intros A B f f' g g' n [L1 E1] Q. unfold bind. destruct (f' n) as [[a k]|].
    - destruct (Q a k eq_refl) as [L2 E2]. exists (Z.max L1 L2). intros L Le. rewrite E1 by lia. apply E2. lia.
    - exists L1. intros L Le. now rewrite E1.
  Qed.
  Theorem C88_some_limit : forall a c x pf pubs n, exists L0, forall L, (L0 <= L)%Z -> limited L a c x pf pubs n = unlimited a c x pf pubs n.
  Proof.
    intros a c x pf pubs n. unfold generate_limited, generate_script_verifier. cbv zeta.
    do 8 (apply (bind_enough _ _ (fun _ => _)); [now exists 0%Z|]; let h := fresh "Y" in intros ? ? h).
    match goal with |- context [if ?b then _ else _] => destruct b; [now exists 0%Z|] end.
    apply (bind_enough _ _ (fun _ => _)); [now exists 0%Z|]. intros p kp Ep. apply (bind_enough _ _ (fun L => run_managers_limited L H G (managers p))); [apply managers_enough|]. intros [] kq _.
    do 2 (apply (bind_enough _ _ (fun _ => _)); [now exists 0%Z|]; let h := fresh "Y" in intros ? ? h).
    match goal with |- context [if ?b then _ else _] => destruct b; [now exists 0%Z|] end.
    eapply (bind_enough _ _ (fun L => run_constraints_limited L H G public_row _ _ _ _ _ _ _ _)); [apply constraints_enough|]. intros ok kr _. now exists 0%Z.
  Qed.
End Stark.

(** *** Examples *)
Definition exec_of (m : manager) : expr := match mn_exec m with Some e => e | None => Node 0 (Constant []) 0 [] end.
Definition gt_of (m : manager) : getter := snd (simulate_input m).
(** Three inputs of four words, added up: 12 words, 8 wait, nothing is kept, an opcode needs 4
    more.  24 elements are enough.  13 are needed, and 12 are not enough. *)
Example C88_example : forall H, peak_words my_gadgets (gt_of (ex_manager 3)) 4 (exec_of (ex_manager 3)) = 12 /\ manager_words (ex_manager 3) = 12 /\
  manager_fits 24 my_gadgets (ex_manager 3) /\ run_manager_limited 24 H my_gadgets (ex_manager 3) = run_manager H my_gadgets (ex_manager 3) /\
  run_manager_limited 13 H my_gadgets (ex_manager 3) = true /\ run_manager_limited 12 H my_gadgets (ex_manager 3) = false.
Proof.
  intros H. assert (Pw : peak_words my_gadgets (gt_of (ex_manager 3)) 4 (exec_of (ex_manager 3)) = 12) by (vm_compute; reflexivity).
  assert (Mw : manager_words (ex_manager 3) = 12) by (vm_compute; reflexivity).
  assert (F : manager_fits 24 my_gadgets (ex_manager 3)).
  { intros e Ee. assert (Ex : e = exec_of (ex_manager 3)) by (unfold exec_of; now rewrite Ee). subst e. fold (gt_of (ex_manager 3)). split; [|split].
    - assert (Es : exists pool n', session (ex_sum 3) ([], manager_new) 0 = Some ((pool, ex_manager 3), n')).
      { unfold ex_manager. destruct (session (ex_sum 3) ([], manager_new) 0) as [[[pool m] n']|] eqn:E; [eauto|vm_compute in E; discriminate E]. }
      destruct Es as (pool & n' & Es). exact (session_unique _ _ _ _ _ _ Es Ee).
    - vm_compute. discriminate.
    - exists 4. split; [|rewrite Pw, Mw; reflexivity]. apply C88_check; [lia|]. vm_compute. reflexivity. }
  split; [exact Pw|]. split; [exact Mw|]. split; [exact F|]. split; [now apply C88_manager_fits|]. split; vm_compute; reflexivity.
Qed.
(** A product used twice: (a * b) * (a * b) = 1; its four words are kept on the alternative stack. *)
Definition ex_square : list scall :=
  [SInput [1; 0; 0; 0]%Z; SInput [1; 0; 0; 0]%Z; SBuild (CMul 0 1); SBuild (CAdd 2 2); SBuild (CConstant [2; 0; 0; 0]%Z); SBuild (CEqual 3 4); SExec 5].
Definition ex_shared : manager := match session ex_square ([], manager_new) 0 with Some ((_, m), _) => m | None => manager_new end.
Example C88_example_shared : forall H, shared_words my_gadgets (gt_of ex_shared) (exec_of ex_shared) = 4 /\
  manager_words ex_shared + peak_words my_gadgets (gt_of ex_shared) 41 (exec_of ex_shared) = 65 /\ scratch my_gadgets (gt_of ex_shared) 41 (exec_of ex_shared) /\
  run_manager_limited 65 H my_gadgets ex_shared = run_manager H my_gadgets ex_shared.
Proof.
  intros H. assert (Pw : manager_words ex_shared + peak_words my_gadgets (gt_of ex_shared) 41 (exec_of ex_shared) = 65) by (vm_compute; reflexivity).
  assert (Sc : scratch my_gadgets (gt_of ex_shared) 41 (exec_of ex_shared)) by (apply C88_check; [lia|vm_compute; reflexivity]).
  split; [vm_compute; reflexivity|]. split; [exact Pw|]. split; [exact Sc|].
  assert (Es : exists pool n', session ex_square ([], manager_new) 0 = Some ((pool, ex_shared), n')).
  { unfold ex_shared. destruct (session ex_square ([], manager_new) 0) as [[[pool m] n']|] eqn:E; [eauto|vm_compute in E; discriminate E]. }
  assert (Ee : mn_exec ex_shared = Some (exec_of ex_shared)).
  { unfold exec_of. destruct (mn_exec ex_shared) eqn:E; [reflexivity|vm_compute in E; discriminate E]. }
  destruct Es as (pool & n' & Es). eapply C88_session_fits; [exact Es|exact Ee| |exact Sc|fold (gt_of ex_shared); rewrite Pw; reflexivity]. vm_compute. discriminate.
Qed.
(** A constraint script: the column is constant and zero.  16 words of the two rows (columns 0 and 1). *)
Definition ex_stmts : list stmt := [SLocal 0; SNext 0; SSub 1 0; SAssertZero 2; SLocal 1; SAssertZero 3].
Definition ex_row : list BB4 := [f0; f0].
Definition ex_zeta : BB4 := from_base (of_Z 5).
Lemma tree_unique : forall e, NoDup (map e_id (nodes e)) -> unique_ids e.
Proof.
  intros e N a b Sa Sb E. apply nodes_sub in Sa, Sb. revert N Sa Sb. induction (nodes e) as [|x l IH]; intros N Sa Sb; [easy|].
  cbn [map] in N. inversion_clear N as [|? ? Ni N']. destruct Sa as [->|Sa], Sb as [->|Sb]; auto.
  - exfalso. apply Ni. rewrite E. now apply in_map.
  - exfalso. apply Ni. rewrite <- E. now apply in_map.
Qed.
Definition ex_constraint : option (getter * expr * nat) :=
  match selectors_at_point_expr f1 ex_zeta 1 0 with
  | Some (s, n1) => match const_f bf_ext4 ex_zeta n1 with
      | Some (a, n2) => constraint_expr 2 ex_stmts ex_row ex_row [] (se_first s) (se_last s) (se_transition s) a f0 n2
      | None => None end
  | None => None end.
Fixpoint nodup_b (l : list nat) : bool := match l with [] => true | x :: r => negb (existsb (Nat.eqb x) r) && nodup_b r end.
Lemma nodup_b_ok : forall l, nodup_b l = true -> NoDup l.
Proof.
  induction l as [|x l IH]; intros E; [constructor|]. cbn [nodup_b] in E. apply andb_true_iff in E as [E1 E2]. constructor; [|auto].
  intros I. apply negb_true_iff in E1. assert (X : existsb (Nat.eqb x) l = true) by (apply existsb_exists; exists x; split; [exact I|apply Nat.eqb_refl]). congruence.
Qed.
Example C88_example_constraints : forall H, constraints_fit 2 my_gadgets 100 ex_stmts ex_row ex_row [] ex_zeta ex_zeta 1 f0 0 /\
  run_constraints_limited 100 H my_gadgets 2 ex_stmts ex_row ex_row [] ex_zeta ex_zeta 1 f0 0 = run_constraints 2 H my_gadgets ex_stmts ex_row ex_row [] ex_zeta ex_zeta 1 f0 0.
Proof.
  intros H. assert (F : constraints_fit 2 my_gadgets 100 ex_stmts ex_row ex_row [] ex_zeta ex_zeta 1 f0 0).
  { intros s a gt e n1 n2 n3 E1 E2 E3.
    assert (Q : ex_constraint = Some (gt, e, n3)) by (unfold ex_constraint; now rewrite E1, E2).
    assert (B : match ex_constraint with Some (gt, e, _) => nodup_b (map e_id (nodes e)) && match shape my_gadgets gt e with Some _ => true | None => false end &&
       forallb (node_check my_gadgets gt 45) (nodes e) && (Z.of_nat (16 + peak_words my_gadgets gt 45 e) <=? 100)%Z | None => false end = true) by (vm_compute; reflexivity).
    rewrite Q in B. rewrite !andb_true_iff in B. destruct B as [[[B1 B2] B3] B4]. split; [now apply tree_unique, nodup_b_ok|]. split; [destruct (shape my_gadgets gt e); congruence|].
    exists 45. split; [apply C88_check; [lia|exact B3]|]. apply Z.leb_le in B4. exact B4. }
  split; [exact F|now apply C88_constraints_fit].
Qed.
(** Two managers, one after the other. *)
Example C88_example_managers : forall H n, managers_fit my_gadgets 24 [ex_manager 3; ex_manager 3] n /\
  run_managers_limited 24 H my_gadgets [ex_manager 3; ex_manager 3] n = run_managers H my_gadgets [ex_manager 3; ex_manager 3] n.
Proof.
  intros H n. assert (F : managers_fit my_gadgets 24 [ex_manager 3; ex_manager 3] n).
  { destruct (C88_example H) as (_ & _ & Fm & _).
    assert (S : forall m k m' k', mn_checks m = [] -> embed_hint_verify m k = Some (m', k') -> mn_exec m' = mn_exec m /\ mn_inputs m' = mn_inputs m /\ mn_hints m' = mn_hints m).
    { intros m k m' k' Ec E. unfold embed_hint_verify, bind in E. rewrite Ec in E. cbn [embed] in E. unfold ret in E. injection E as <- _. auto. }
    assert (T : forall k m' k', embed_hint_verify (ex_manager 3) k = Some (m', k') -> manager_fits 24 my_gadgets m').
    { intros k m' k' E. apply S in E as (E1 & E2 & E3); [|vm_compute; reflexivity]. unfold manager_fits, manager_words, simulate_input, given in *. rewrite E1, E2, E3. exact Fm. }
    cbn [managers_fit]. intros m1 k1 E1. split; [exact (T _ _ _ E1)|]. intros m2 k2 E2. split; [exact (T _ _ _ E2)|exact Logic.I]. }
  split; [exact F|now apply C88_managers_fit].
Qed.
