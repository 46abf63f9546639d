(** Properties C77 and C78: the scripts against the limit of 1000 stack elements. *)
From Coq Require Import ZArith List Bool Lia.
From Verif Require Import ScriptNum ScriptVM VMLemmas U32Model U32Proofs Lift HelperModel WinternitzModel
  WinternitzSpec PropSign Blake3Spec Blake3Model PropBlake TaptreeModel TaptreeProofs PropTaptree
  TcsModel TcsProofs TcsProofs2 PropTcs StackModel StackProofs StackScripts.
Import ListNotations.
Open Scope Z_scope.

(** [within L H p m a m' a']: the interpreter with a limit of [L] elements runs [p] to the end, from
    main stack [m] and alt stack [a] to [m'] and [a'].  [overflows L H p m a]: it does not finish. *)
Definition within (L : Z) (H : bytes -> bytes) (p : script) (m a m' a' : list bytes) : Prop :=
  lrun L H p (mk m a []) = Some (mk m' a' []).
Definition overflows (L : Z) (H : bytes -> bytes) (p : script) (m a : list bytes) : Prop :=
  lrun L H p (mk m a []) = None.

Definition size (l : list bytes) : Z := Z.of_nat (length l).

(** A run of the unlimited machine decides the run of the limited one. *)
Lemma heights_decide : forall p d k H m a m' a' L, heights p d k k -> exec H p m a m' a' ->
  (size m + size a + k <= L -> within L H p m a m' a') /\
  (L < size m + size a + k -> overflows L H p m a).
Proof.
  intros p d k H m a m' a' L P E. destruct (P H (mk m a []) _ eq_refl E) as (_ & _ & U & N).
  split; intros HL; [apply U|apply N]; unfold sheight; cbn [main alt]; exact HL.
Qed.

Lemma size_app : forall x y, size (x ++ y) = size x + size y.
Proof. intros. unfold size. rewrite app_length. lia. Qed.
Lemma size_nums : forall l, size (nums l) = Z.of_nat (length l).
Proof. intros. unfold size, nums. now rewrite map_length. Qed.

(* ------------------------------------------------------------------ *)
(** ** C77 *)

(** The limited machine never does anything else than the unlimited one. *)
Theorem C77_limited_is_run : forall L H p m a m' a', within L H p m a m' a' -> exec H p m a m' a'.
Proof. intros L H p m a m' a' W. exact (lrun_run _ _ _ _ _ W). Qed.

(** blake3_var_length(n) needs room for the message padded to whole blocks and 328 elements. *)
Theorem C77_var_length : forall n, (1 <= n <= 512)%nat ->
  exists q, blake3_var_length n = Some q /\
  forall H msg rest alt L, length msg = n -> Forall is_byte msg ->
    let need := 64 * ((Z.of_nat n + 63) / 64) + 328 + size rest + size alt in
    (need <= L -> within L H q (nums msg ++ rest) alt (bwords (rev (b3_hash_words msg)) ++ rest) alt) /\
    (L < need -> overflows L H q (nums msg ++ rest) alt).
Proof.
  intros n Ln. destruct (C14_var_length n Ln) as (q & Eq & K). exists q. split; [exact Eq|].
  intros H msg rest al L Lm Fm need. specialize (K H msg rest al Lm Fm).
  pose proof (var_heights n q Ln Eq) as P.
  destruct (heights_decide _ _ _ _ _ _ _ _ L P K) as [U N]. rewrite size_app, size_nums, Lm in U, N.
  assert (Eb : Z.of_nat (blocks n) = (Z.of_nat n + 63) / 64).
  { unfold blocks. rewrite Nat2Z.inj_div, Nat2Z.inj_add. reflexivity. }
  rewrite Eb in U, N. subst need. split; intros HL; [apply U|apply N]; lia.
Qed.

(** So with 160 other elements every supported length fits into the 1000 elements, with 161 the
    longest does not. *)
Theorem C77_all_lengths_fit : forall n, (1 <= n <= 512)%nat ->
  exists q, blake3_var_length n = Some q /\
  forall H msg rest alt, length msg = n -> Forall is_byte msg -> size rest + size alt <= 160 ->
    within stack_limit H q (nums msg ++ rest) alt (bwords (rev (b3_hash_words msg)) ++ rest) alt.
Proof.
  intros n Ln. destruct (C77_var_length n Ln) as (q & Eq & K). exists q. split; [exact Eq|].
  intros H msg rest al Lm Fm Hr. apply (K H msg rest al stack_limit Lm Fm).
  assert ((Z.of_nat n + 63) / 64 < 9) by (apply Z.div_lt_upper_bound; lia). unfold stack_limit. lia.
Qed.

Theorem C77_blake3 : exists q, blake3 = Some q /\
  forall H msg rest alt L, length msg = 64%nat -> Forall is_byte msg ->
    (392 + size rest + size alt <= L ->
       within L H q (nums msg ++ rest) alt (bwords (rev (b3_hash_words msg)) ++ rest) alt) /\
    (L < 392 + size rest + size alt -> overflows L H q (nums msg ++ rest) alt).
Proof.
  destruct C13_blake3 as (q & Eq & K). exists q. split; [exact Eq|].
  intros H msg rest al L Lm Fm. specialize (K H msg rest al Lm Fm).
  destruct (heights_decide _ _ _ _ _ _ _ _ L (blake3_heights q Eq) K) as [U N].
  rewrite size_app, size_nums, Lm in U, N. split; intros HL; [apply U|apply N]; lia.
Qed.

Theorem C77_blake3_160 : exists q, blake3_160 = Some q /\
  forall H msg rest alt L, length msg = 40%nat -> Forall is_byte msg ->
    (392 + size rest + size alt <= L ->
       within L H q (nums msg ++ rest) alt (bwords (rev (firstn 5 (b3_hash_words msg))) ++ rest) alt) /\
    (L < 392 + size rest + size alt -> overflows L H q (nums msg ++ rest) alt).
Proof.
  destruct C14_blake3_160 as (q & Eq & K). exists q. split; [exact Eq|].
  intros H msg rest al L Lm Fm. specialize (K H msg rest al Lm Fm).
  destruct (heights_decide _ _ _ _ _ _ _ _ L (blake3_160_heights q Eq) K) as [U N].
  rewrite size_app, size_nums, Lm in U, N. split; intros HL; [apply U|apply N]; lia.
Qed.

Example C77_example : forall H, exists q, blake3_var_length 512 = Some q /\
  (forall msg alt, length msg = 512%nat -> Forall is_byte msg -> size alt = 160 ->
     within stack_limit H q (nums msg) alt (bwords (rev (b3_hash_words msg))) alt) /\
  (forall msg alt, length msg = 512%nat -> Forall is_byte msg -> size alt = 161 ->
     overflows stack_limit H q (nums msg) alt).
Proof.
  intros H. destruct (C77_var_length 512 ltac:(lia)) as (q & Eq & K). exists q. split; [exact Eq|].
  split; intros msg al Lm Fm Sa; specialize (K H msg [] al stack_limit Lm Fm); cbv zeta in K;
    change (64 * ((Z.of_nat 512 + 63) / 64)) with 512 in K; rewrite !app_nil_r in K;
    unfold stack_limit in *; change (size []) with 0 in K; apply K; lia.
Qed.
Example C77_example_message : length (repeat 7 512) = 512%nat /\ Forall is_byte (repeat 7 512).
Proof.
  split; [apply repeat_length|]. apply Forall_forall. intros x Hx. apply repeat_spec in Hx. subst. unfold is_byte. lia.
Qed.

(* ------------------------------------------------------------------ *)
(** ** C78 *)

(** *** Heights of the leaf scripts *)
Lemma recover_heights : forall H c, heights (recover_message_at_stack H c ++ [OP_TOALTSTACK]) (-19) 17 17.
Proof.
  intros H c. unfold recover_message_at_stack, checksig_verify_script, checksig_verify_self_pubkey.
  generalize (pub_key H (bc_secret c)). intros pks. apply profile_heights. lazy. reflexivity.
Qed.

Lemma recover_all_heights : forall H cs, heights (recover_message_at_altstack H cs)
  (-19 * Z.of_nat (length cs)) (match cs with [] => 0 | _ => 17 end) (match cs with [] => 0 | _ => 17 end).
Proof.
  intros H. induction cs as [|c cs IH]; [exact heights_nil|].
  unfold recover_message_at_altstack in *. cbn [flat_map].
  eapply heights_weaken; [exact (heights_app _ _ _ _ _ _ _ _ (recover_heights H c) IH)|..];
    cbn [length]; destruct cs; lia.
Qed.

Lemma lock_heights : forall H b, (0 < length b)%nat -> heights (w_lock H b) (-19 * Z.of_nat (length b)) 17 17.
Proof.
  intros H b Lb. unfold w_lock, check_and_recover.
  set (cs := bcs_new (rev b) (repeat 0 (length b))).
  assert (Lc : length cs = length b).
  { subst cs. unfold bcs_new. rewrite map_length, combine_length, rev_length, repeat_length. lia. }
  clearbody cs. pose proof (recover_all_heights H cs) as R. rewrite Lc in R.
  assert (T : heights [OP_FROMALTSTACK] 0 0 0) by (apply profile_heights; reflexivity).
  pose proof (heights_repeat _ _ _ _ T ltac:(lia) (length cs)) as M.
  unfold message_from_altstack.
  eapply heights_weaken; [exact (heights_app _ _ _ _ _ _ _ _ R M)|..];
    destruct cs; cbn [length] in *; lia.
Qed.

Lemma check_heights : forall vs, heights (check_values vs) (- Z.of_nat (length vs)) 0 1.
Proof.
  intros vs. unfold check_values. rewrite <- rev_length. induction (rev vs) as [|v l IH].
  - eapply heights_weaken; [exact heights_nil|cbn [length]; lia..].
  - cbn [flat_map]. assert (T : heights [PUSHN v; OP_EQUALVERIFY] (-1) 1 1) by (apply profile_heights; reflexivity).
    eapply heights_weaken; [exact (heights_app _ _ _ _ _ _ _ _ T IH)|cbn [length]; lia..].
Qed.

Section Leaf.
  Variable H : bytes -> bytes.
  Variable F : Type.
  Variable as_u32_vec : F -> list Z.
  Variable u32_size : nat.
  Variable leaf_hash : script -> hash.
  Variable branch_hash : hash -> hash -> hash.
  Variable feqb : F -> F -> bool.

  (** The setting of C31 with the Winternitz commitments of this repository. *)
  Definition w_setting : Prop :=
    setting H F (list bytes) as_u32_vec u32_size w_new (w_lock H) (w_witness H) (w_opens H) (@length bytes) feqb /\
    (forall x, H x <> [0]).
  Hypothesis S0 : w_setting.

  Notation w_commit := (t_commit F (list bytes) as_u32_vec u32_size w_new (w_lock H) leaf_hash branch_hash).
  Notation w_open_batch := (t_open_batch F (list bytes) feqb).
  Notation w_verify_batch := (t_verify_batch H F (list bytes) as_u32_vec (w_witness H) leaf_hash branch_hash).
  (** verify_batch on an interpreter with at most [L] stack elements *)
  Notation w_verify_limited L := (verify_batch_limited L H F (list bytes) as_u32_vec (w_witness H) leaf_hash branch_hash).

  Lemma evals_heights : forall bvs : list (list bytes * list Z),
    Forall (fun p => length (fst p) = u32_size /\ length (snd p) = u32_size) bvs ->
    heights (flat_map (fun p => w_lock H (fst p) ++ check_values (snd p)) bvs)
      (-20 * Z.of_nat u32_size * Z.of_nat (length bvs)) 0 17.
  Proof.
    destruct S0 as [(_ & So & _) _].
    induction 1 as [|[b vs] bvs [Lb Lv] _ IH].
    - cbn [flat_map length]. eapply heights_weaken; [exact heights_nil|lia..].
    - cbn [flat_map length fst snd] in *.
      pose proof (lock_heights H b ltac:(lia)) as Hl. pose proof (check_heights vs) as Hc.
      rewrite Lb in Hl. rewrite Lv in Hc.
      eapply heights_weaken; [exact (heights_app _ _ _ _ _ _ _ _ (heights_app _ _ _ _ _ _ _ _ Hl Hc) IH)|lia..].
  Qed.

  Lemma witness_length : forall b vs, length vs = length b -> Forall is_u32 vs ->
    length (w_witness H b vs) = (20 * length b)%nat.
  Proof.
    intros b vs L Fv. destruct S0 as [_ NZ].
    destruct (C12_vector_honest H (rev b) (rev vs) [] [] NZ ltac:(rewrite !rev_length; lia) (Forall_rev Fv)) as (sig & Es & _).
    unfold w_witness. rewrite Es.
    assert (G : forall cs sig, bcs_signature H cs = Some sig -> length sig = (20 * length cs)%nat).
    { clear. induction cs as [|c cs IH]; intros sig E; cbn [bcs_signature] in E; [injection E as <-; reflexivity|].
      destruct (bcs_signature H cs) as [s1|]; [|discriminate E].
      destruct (u32_signature H c) as [s2|] eqn:E2; [|discriminate E]. injection E as <-.
      rewrite app_length, (IH s1 eq_refl). unfold u32_signature, sign in E2.
      destruct (checksum_digits (bc_message c)) as [cd|]; [|discriminate E2]. injection E2 as <-.
      cbn [length]. lia. }
    rewrite (G _ _ Es). unfold bcs_new. rewrite map_length, combine_length, !rev_length, L. lia.
  Qed.

  Lemma bc_values_sizes : forall bcs ys bvs, bc_values F (list bytes) as_u32_vec bcs ys = Some bvs ->
    Forall (fun b => length b = u32_size) bcs ->
    length bvs = length bcs /\
    Forall (fun p => length (fst p) = u32_size /\ length (snd p) = u32_size /\ Forall is_u32 (snd p)) bvs.
  Proof.
    destruct S0 as [(_ & So & Vo & _) _].
    induction bcs as [|b bcs IH]; intros [|y ys] bvs E Fb; cbn [bc_values] in E; try discriminate E;
      try (injection E as <-; split; [reflexivity|constructor]).
    destruct (bc_values F (list bytes) as_u32_vec bcs ys) as [r|] eqn:Er; [|discriminate E].
    injection E as <-. inversion Fb as [|? ? Lb Fb']; subst. destruct (IH ys r Er Fb') as [Lr Fr].
    cbn [length]. split; [lia|]. constructor; [|exact Fr]. cbn [fst snd]. destruct (Vo y) as [Ly Fy].
    repeat split; [exact Lb|exact Ly|]. eapply Forall_impl; [|exact Fy]. unfold u31, is_u32. intros z Hz.
    change (2 ^ 31) with 2147483648 in Hz. change (2 ^ 32) with 4294967296. lia.
  Qed.

  (** Elements needed to verify a leaf of [w] evaluations. *)
  Definition leaf_need (w : nat) : Z := 20 * (1 + Z.of_nat u32_size * Z.of_nat w) + 17.

  Lemma leaf_limited : forall L u index ys s index' ys' wit,
    good_bcs (list bytes) u32_size (@length bytes) u ->
    generate_script F (list bytes) as_u32_vec (w_lock H)
      {| cl_bcs := u; cl_index := index; cl_evaluations := ys |} = Some s ->
    generate_witness F (list bytes) as_u32_vec (w_witness H)
      {| cl_bcs := u; cl_index := index'; cl_evaluations := ys' |} = Some wit ->
    execute_success H s wit = true ->
    execute_success_limited L H s wit = (leaf_need (length (evaluations_bc (list bytes) u)) <=? L).
  Proof.
    intros L u index ys s index' ys' wit [Gi Ge] Es Ew Ex.
    unfold generate_script in Es. unfold generate_witness in Ew. cbn [cl_bcs cl_evaluations cl_index] in *.
    destruct (bc_values F (list bytes) as_u32_vec (evaluations_bc (list bytes) u) ys) as [bvs|] eqn:E1; [|discriminate Es].
    destruct (bc_values F (list bytes) as_u32_vec (evaluations_bc (list bytes) u) ys') as [bvs'|] eqn:E2; [|discriminate Ew].
    apply some_inj in Es, Ew.
    destruct (bc_values_sizes _ _ _ E1 Ge) as [L1 F1]. destruct (bc_values_sizes _ _ _ E2 Ge) as [L2 F2].
    set (w := length (evaluations_bc (list bytes) u)) in *.
    assert (Hs : heights s (-20 * (1 + Z.of_nat u32_size * Z.of_nat w) + 1) 17 17).
    { subst s. pose proof (lock_heights H (index_bc (list bytes) u) ltac:(lia)) as Hl. rewrite Gi in Hl.
      assert (He : heights (flat_map (fun p => w_lock H (fst p) ++ check_values (snd p)) bvs)
        (-20 * Z.of_nat u32_size * Z.of_nat (length bvs)) 0 17).
      { apply evals_heights. eapply Forall_impl; [|exact F1]. intros p (A & B & _). auto. }
      rewrite L1 in He.
      assert (Hc : heights [PUSHN (Z.of_nat index); OP_EQUALVERIFY] (-1) 1 1) by (apply profile_heights; reflexivity).
      assert (H1 : heights [PUSHN 1] 1 1 1) by (apply profile_heights; reflexivity).
      eapply heights_weaken; [exact (heights_app _ _ _ _ _ _ _ _ Hl (heights_app _ _ _ _ _ _ _ _ Hc
        (heights_app _ _ _ _ _ _ _ _ He H1)))|lia..]. }
    assert (Lw : Z.of_nat (length wit) = 20 * (1 + Z.of_nat u32_size * Z.of_nat w)).
    { subst wit. rewrite app_length.
      rewrite (witness_length (index_bc (list bytes) u) [as_u32 index']).
      - rewrite Gi. rewrite <- L2. clear E1 E2 F1 L1 L2 Hs Ex.
        rewrite <- (rev_length bvs'). apply Forall_rev in F2. induction F2 as [|[b vs] l (A & B & C) _ IH]; [cbn [flat_map length]; lia|].
        cbn [flat_map fst snd length] in *. rewrite app_length, (witness_length b vs) by (try exact C; lia). lia.
      - now rewrite Gi.
      - repeat constructor; unfold as_u32; apply Z.mod_pos_bound; reflexivity. }
    unfold execute_success in Ex. unfold execute_success_limited.
    destruct (brun H s (mk (rev wit) [] [])) as [s'|] eqn:Er; [|discriminate Ex].
    destruct (Hs H (mk (rev wit) [] []) _ eq_refl Er) as (_ & _ & U & N). unfold sheight in U, N. cbn [main alt length] in U, N.
    rewrite rev_length in U, N. unfold leaf_need.
    destruct (Z.leb_spec (20 * (1 + Z.of_nat u32_size * Z.of_nat w) + 17) L).
    - rewrite U by lia. exact Ex.
    - rewrite N by lia. reflexivity.
  Qed.

  (** Whatever open_batch returns is accepted exactly when the limit leaves room for 20 elements per
      32-bit word of the row and of the index, and 17 more. *)
  Theorem C78_opened_limited : forall L ms K nq next roots ds next' qt q openings p,
    (0 < K <= 30)%nat -> batch ms K -> (q < 2 ^ K)%nat -> (qt < nq)%nat ->
    w_commit nq next ms = Some (roots, ds, next') ->
    w_open_batch nq qt q ds = Some (openings, p) ->
    w_verify_limited L qt openings p roots =
      Some (20 * (1 + Z.of_nat u32_size * Z.of_nat (list_sum (map (width F) ms))) + 17 <=? L).
  Proof.
    intros L ms K nq next roots ds next' qt q openings p HK Bm Hq Hqt E Eo.
    destruct S0 as [St NZ].
    pose proof (C31_opened_accepted H F (list bytes) as_u32_vec u32_size w_new (w_lock H) (w_witness H) leaf_hash
      branch_hash (w_opens H) (@length bytes) feqb St ms K nq next roots ds next' qt q openings p HK Bm Hq Hqt E Eo) as V.
    destruct (commit_all H F (list bytes) as_u32_vec u32_size w_new (w_lock H) (w_witness H) leaf_hash
      branch_hash (w_opens H) (@length bytes) feqb St ms K ltac:(lia) Bm nq next) as (roots' & ds' & n' & E' & Ln & Er & Fd).
    assert (roots' = roots /\ ds' = ds) as [-> ->] by (split; congruence).
    destruct (open_batch_iff F (list bytes) as_u32_vec u32_size (w_lock H) leaf_hash
      branch_hash (@length bytes) feqb ms K nq ds qt q Bm Hq Ln Hqt Fd) as (d & l & Ed & Gl & Eo').
    rewrite Eo' in Eo. destruct (list_eqb F feqb _ _) eqn:El; [|discriminate Eo]. injection Eo as <- <-.
    assert (C : commits F (list bytes) as_u32_vec u32_size (w_lock H) leaf_hash branch_hash (@length bytes) d K ms)
      by (rewrite Forall_forall in Fd; apply Fd; eapply nth_error_In; eassumption).
    destruct (commits_leaf F (list bytes) as_u32_vec u32_size (w_lock H) leaf_hash branch_hash (@length bytes) d K ms q C Hq)
      as (l' & s & Gl' & Els & Gs).
    assert (l' = l) as -> by congruence. pose proof C as (_ & G & Lu & _).
    unfold t_verify_batch, verify_batch, verify_batch_limited in *.
    destruct (nth_error roots qt) as [root|]; [|discriminate V].
    unfold verify, verify_limited in *. cbn [cp_bcs cp_query_index cp_leaf] in *.
    destruct (generate_witness _ _ _ _ _) as [wit|] eqn:Ew; [|discriminate V].
    unfold verify_proof, verify_proof_limited in *.
    destruct (verify_inclusion script leaf_hash branch_hash root l) as [[|]|]; [|discriminate V..].
    cbn [option_map andb] in *. injection V as V. f_equal. rewrite Els in *.
    rewrite (leaf_limited L _ _ _ _ _ _ _ G Gs Ew V), Lu. unfold leaf_need.
    assert (Et : forall l0, total_width F l0 = list_sum (map (width F) l0)).
    { clear. induction l0 as [|m l0 IH]; [reflexivity|]. cbn [total_width fold_right map list_sum]. unfold total_width, list_sum in IH.
      now rewrite IH. }
    now rewrite Et.
  Qed.

  (** Within Bitcoin's limit: at most 48 words per leaf. *)
  Theorem C78_capacity : forall ms K nq next roots ds next' qt q openings p,
    (0 < K <= 30)%nat -> batch ms K -> (q < 2 ^ K)%nat -> (qt < nq)%nat ->
    w_commit nq next ms = Some (roots, ds, next') ->
    w_open_batch nq qt q ds = Some (openings, p) ->
    w_verify_batch qt openings p roots = Some true /\
    ((u32_size * list_sum (map (width F) ms) <= 48)%nat ->
       w_verify_limited stack_limit qt openings p roots = Some true) /\
    ((48 < u32_size * list_sum (map (width F) ms))%nat ->
       w_verify_limited stack_limit qt openings p roots = Some false).
  Proof.
    intros ms K nq next roots ds next' qt q openings p HK Bm Hq Hqt E Eo.
    rewrite (C78_opened_limited stack_limit ms K nq next roots ds next' qt q openings p HK Bm Hq Hqt E Eo).
    split.
    - eapply (C31_opened_accepted H F (list bytes) as_u32_vec u32_size w_new (w_lock H) (w_witness H) leaf_hash
        branch_hash (w_opens H) (@length bytes) feqb (proj1 S0)); eassumption.
    - unfold stack_limit. split; intros Hw; f_equal; [apply Z.leb_le|apply Z.leb_gt]; nia.
  Qed.

  (** Acceptance with a limit is acceptance without: the soundness statements (C60) carry over. *)
  Theorem C78_limited_sound : forall L qt openings p roots,
    w_verify_limited L qt openings p roots = Some true -> w_verify_batch qt openings p roots = Some true.
  Proof.
    intros L qt openings p roots V. unfold t_verify_batch, verify_batch, verify_batch_limited in *.
    destruct (nth_error roots qt) as [root|]; [|discriminate V].
    unfold verify, verify_limited in *. destruct (generate_witness _ _ _ _ _) as [wit|]; [|discriminate V].
    unfold verify_proof, verify_proof_limited in *.
    destruct (verify_inclusion script leaf_hash branch_hash root (cp_leaf (list bytes) p)) as [[|]|]; try exact V.
    cbn [option_map andb] in *. injection V as V. f_equal. unfold execute_success, execute_success_limited in *.
    destruct (lrun L H (leaf_script script (cp_leaf (list bytes) p)) (mk (rev wit) [] [])) as [s|] eqn:E; [|discriminate V].
    rewrite (lrun_run _ _ _ _ _ E). exact V.
  Qed.
End Leaf.

(** A batch of two rows with 49 columns: committed, opened, accepted without the limit, rejected
    with it. *)
Definition wide49 : matrix bb := {| width := 49; values := repeat bb1 98 |}.
Theorem C78_wide_row_refuted : exists roots ds next' openings p,
  t_commit bb (list bytes) bb_vec 1 w_new (w_lock (fun b => 7 :: b)) (fun _ => 0) (fun a b => a + b + 1)
    1 0 [wide49] = Some (roots, ds, next') /\
  t_open_batch bb (list bytes) bb_eqb 1 0 1 ds = Some (openings, p) /\
  t_verify_batch (fun b => 7 :: b) bb (list bytes) bb_vec (w_witness (fun b => 7 :: b)) (fun _ => 0)
    (fun a b => a + b + 1) 0 openings p roots = Some true /\
  verify_batch_limited stack_limit (fun b => 7 :: b) bb (list bytes) bb_vec (w_witness (fun b => 7 :: b)) (fun _ => 0)
    (fun a b => a + b + 1) 0 openings p roots = Some false.
Proof.
  assert (S0 : w_setting (fun b => 7 :: b) bb bb_vec 1 bb_eqb) by (split; [exact C31_example_setting|discriminate]).
  assert (Bm : batch [wide49] 1).
  { assert (R : has_rows wide49 1) by (split; [cbn [wide49 width]; lia|reflexivity]).
    split; [repeat constructor; exists 1%nat; split; [exact R|lia]|left; exact R]. }
  destruct (C30_open_batch _ _ _ _ _ _ _ _ (fun _ => 0) (fun a b => a + b + 1) _ _ _ (proj1 S0)
    [wide49] 1 1 0 0 1 ltac:(lia) Bm ltac:(repeat constructor) ltac:(cbn; lia) ltac:(lia)) as (roots & ds & n' & p & E & Eo).
  exists roots, ds, n'. do 2 eexists. split; [exact E|]. split; [exact Eo|].
  destruct (C78_capacity _ _ _ _ (fun _ => 0) (fun a b => a + b + 1) _ S0 _ 1 1 0 _ _ _ 0 1 _ _
    ltac:(lia) Bm ltac:(cbn; lia) ltac:(lia) E Eo) as (V & _ & R).
  split; [exact V|]. apply R. cbn. lia.
Qed.

(** A narrow batch fits. *)
Example C78_example : exists roots ds next' openings p,
  t_commit bb (list bytes) bb_vec 1 w_new (w_lock (fun b => 7 :: b)) (fun _ => 0) (fun a b => a + b + 1)
    1 0 [{| width := 1; values := [bb1; bb2] |}] = Some (roots, ds, next') /\
  t_open_batch bb (list bytes) bb_eqb 1 0 1 ds = Some (openings, p) /\
  verify_batch_limited stack_limit (fun b => 7 :: b) bb (list bytes) bb_vec (w_witness (fun b => 7 :: b)) (fun _ => 0)
    (fun a b => a + b + 1) 0 openings p roots = Some true.
Proof.
  assert (S0 : w_setting (fun b => 7 :: b) bb bb_vec 1 bb_eqb) by (split; [exact C31_example_setting|discriminate]).
  destruct C31_example as (Bm & Ss & _).
  destruct (C30_open_batch _ _ _ _ _ _ _ _ (fun _ => 0) (fun a b => a + b + 1) _ _ _ (proj1 S0)
    _ 1 1 0 0 1 ltac:(lia) Bm Ss ltac:(cbn; lia) ltac:(lia)) as (roots & ds & n' & p & E & Eo).
  exists roots, ds, n'. do 2 eexists. split; [exact E|]. split; [exact Eo|].
  eapply (C78_capacity _ _ _ _ (fun _ => 0) (fun a b => a + b + 1) _ S0 _ 1 1 0 _ _ _ 0 1 _ _);
    try eassumption; cbn; lia.
Qed.
