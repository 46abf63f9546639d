(** The script verifier against the native transcript. *)
From Coq Require Import ZArith List Bool Arith Lia.
From Verif Require Import ScriptNum ScriptVM HelperModel Field BabyBear TcsModel FriModel PcsModel FriInst Blake3Spec ChallengerModel
  DslModel DslSpec DslOpSpec DslOps DslBuild DslIds DslManager DslSession DslWork DslAccept FriExprModel StarkExprModel OpenExprModel ChalExprModel ConsExprModel GenModel
  ChalExprGraph ChalExprProofs ChalExprState ChalExprRun ChalExprSync ChalExprFri ChalExprStark.
From Verif Require StarkModel.
Import ListNotations.
Local Open Scope nat_scope.
Local Opaque b3_hash.

Lemma bind_inv : forall A B (b : builder A) (f : A -> builder B) n r n', bind b f n = Some (r, n') -> exists a n1, b n = Some (a, n1) /\ f a n1 = Some (r, n').
Proof. intros A B b f n r n' E. unfold bind in E. destruct (b n) as [[a n1]|]; [|discriminate E]. eauto. Qed.
Lemma get_inv : forall A (o : option A) n a n', get o n = Some (a, n') -> o = Some a /\ n' = n.
Proof. intros A [o|] n a n' E; [|discriminate E]. unfold get, ret in E. injection E as <- <-. auto. Qed.
Lemma check_inv : forall b n u n', check b n = Some (u, n') -> b = true /\ n' = n.
Proof. intros [|] n u n' E; [|discriminate E]. unfold check, ret in E. injection E as <- <-. auto. Qed.
Ltac inv_bind E := let a := fresh "v" in let n1 := fresh "k" in let E1 := fresh "Eb" in
  apply bind_inv in E as (a & n1 & E1 & E).
Ltac inv_get E := let a := fresh "v" in let n1 := fresh "k" in let E1 := fresh "Eg" in
  apply bind_inv in E as (a & n1 & E1 & E); apply get_inv in E1 as (E1 & ->).

Section Native.
  Variable M0 : mmcs BabyBearT.
  Variable M : mmcs ExtT.
  Variable words0 : m_comm M0 -> list word4.
  Variable words : m_comm M -> list word4.
  Notation Ch := (stark_ch M words).
  Notation observe := (observe0 M0 words0).

  Lemma betas_native : forall commits c x n bs es c' x' n',
    ChalExprModel.sample_betas true 64 16 native (map words commits) c x n = Some ((bs, es, c', x'), n') ->
    FriModel.sample_betas ExtT M Ch c commits = Some (map felt bs, c').
  Proof.
    induction commits as [|k commits IH]; intros c x n bs es c' x' n' E; cbn [map ChalExprModel.sample_betas FriModel.sample_betas] in *.
    - unfold ret in E. injection E as <- <- <- <- <-. reflexivity.
    - inv_get E. inv_get E. inv_bind E. inv_bind E. inv_bind E. inv_bind E. destruct v4 as [[[bs0 es0] c0] x0]. unfold ret in E. injection E as <- <- <- <- <-.
      cbn [stark_ch bf_challenger c_observe c_sample]. rewrite Eg. cbn [u32_size] in Eg0. rewrite Eg0. cbn [option_map].
      apply IH in Eb2. cbn [map]. rewrite Eb2. reflexivity.
  Qed.
  Lemma indices_native : forall k bits t c x n is_ es c' x' n',
    ChalExprModel.sample_indices true 64 16 native k bits c x n = Some ((is_, es, c', x'), n') ->
    FriModel.sample_indices ExtT M Ch k t c bits = Some (combine (seq t k) (map Z.to_nat is_), c') /\ length is_ = k.
  Proof.
    induction k as [|k IH]; intros bits t c x n is_ es c' x' n' E; cbn [seq ChalExprModel.sample_indices FriModel.sample_indices] in *.
    - unfold ret in E. injection E as <- <- <- <- <-. auto.
    - inv_get E. inv_bind E. inv_bind E. inv_bind E. destruct v2 as [[[is0 es0] c0] x0]. unfold ret in E. injection E as <- <- <- <- <-.
      cbn [stark_ch bf_challenger c_sample_bits]. cbn [u32_size] in Eg. rewrite Eg. cbn [option_map].
      apply (IH _ (S t)) in Eb1 as [Eb1 L]. rewrite Eb1. cbn [map combine length]. auto.
  Qed.

  Variable config : fri_config.
  Notation open_proof := (list (batch_opening BabyBearT M0)).
  (** the native part of the challenges is the transcript of the native verifier *)
  Definition native_transcript (trace quotient : m_comm M0) (proof : fri_proof ExtT M Ch open_proof) (c : chal) (alpha zeta batch : ExtT) (fc : fri_challenges ExtT) (c' : chal) : Prop :=
    exists c4 c5, StarkModel.transcript BabyBearT ExtT M0 M Ch observe c trace quotient alpha zeta c4 /\ c_sample Ch c4 = Some (batch, c5) /\
      verify_shape_and_sample_challenges ExtT M Ch open_proof (m_err M0) config proof c5 = Ok (fc, c').
  Lemma transcript_det : forall trace quotient proof c a z b f k a' z' b' f' k',
    native_transcript trace quotient proof c a z b f k -> native_transcript trace quotient proof c a' z' b' f' k' -> a = a' /\ z = z' /\ b = b' /\ f = f' /\ k = k'.
  Proof.
    intros trace quotient proof c a z b f k a' z' b' f' k' (c4 & c5 & (c1 & c2 & c3 & A1 & A2 & A3 & A4) & A5 & A6) (d4 & d5 & (d1 & d2 & d3 & B1 & B2 & B3 & B4) & B5 & B6).
    rewrite A1 in B1. injection B1 as <-. rewrite A2 in B2. injection B2 as <- <-. rewrite A3 in B3. injection B3 as <-. rewrite A4 in B4. injection B4 as <- <-.
    rewrite A5 in B5. injection B5 as <- <-. rewrite A6 in B6. injection B6 as <- <-. auto.
  Qed.
  Lemma challenges_native : forall db trace quotient (proof : fri_proof ExtT M Ch open_proof) c x n r n',
    stark_challenges 16 native (num_queries config) (proof_of_work_bits config) (log_blowup config) db (words0 trace) (words0 quotient)
      (map words (commit_phase_commits ExtT M Ch open_proof proof)) (length (query_proofs ExtT M Ch open_proof proof)) (pow_witness ExtT M Ch open_proof proof) c x n = Some (r, n') ->
    native_transcript trace quotient proof c (felt (ch_alpha r)) (felt (ch_zeta r)) (felt (ch_batch r))
      {| query_indices := combine (seq 0 (num_queries config)) (map Z.to_nat (ch_indices r)); betas := map (felt : list Z -> ExtT) (ch_betas r) |} (ch_native r) /\
    length (ch_indices r) = num_queries config /\ length (query_proofs ExtT M Ch open_proof proof) = num_queries config /\
    db <= 27 /\ StarkModel.next_point BabyBearT ExtT from_base {| log_n := db; shift := f1 |} (felt (ch_zeta r)) = Some (ch_zeta_next r).
  Proof.
    intros db trace quotient proof c x n r n' E. unfold stark_challenges in E.
    inv_get E. inv_bind E. inv_get E. inv_bind E. inv_bind E. inv_get E. inv_bind E. inv_get E. inv_bind E. inv_bind E. inv_bind E. apply check_inv in Eb5 as [Ed ->].
    cbv zeta in E. inv_bind E. inv_bind E. inv_bind E. inv_get E. inv_bind E. apply Nat.leb_le in Ed.
    unfold bf_sample_challenges in Eb8. inv_bind Eb8. destruct v15 as [[[bs es] c1] x1].
    destruct (Nat.eqb_spec (length (query_proofs ExtT M Ch open_proof proof)) (num_queries config)) as [En|En]; cbn [negb] in Eb8.
    2: { unfold ret in Eb8. injection Eb8 as <- <-. discriminate E. }
    inv_get Eb8. destruct v15 as [[|] c2]; cbn [fst snd negb] in Eb8.
    2: { unfold ret in Eb8. injection Eb8 as <- <-. discriminate E. }
    inv_bind Eb8. cbv zeta in Eb8. inv_bind Eb8. destruct v16 as [[[is_ es'] c3] x3]. unfold ret in Eb8. injection Eb8 as <- <-.
    unfold ret in E. injection E as <- <-. cbn [ch_alpha ch_zeta ch_batch ch_indices ch_betas ch_native ch_zeta_next].
    apply betas_native in Eb9. apply (indices_native _ _ 0) in Eb11 as [Eb11 Li]. rewrite map_length in Eb11.
    split; [|split; [exact Li|split; [exact En|split; [exact Ed|]]]].
    - do 2 eexists. split; [|split].
      + do 3 eexists. split; [exact Eg|]. split; [cbn [stark_ch bf_challenger c_sample]; rewrite Eg0; reflexivity|].
        split; [exact Eg1|]. cbn [stark_ch bf_challenger c_sample]. rewrite Eg2. reflexivity.
      + cbn [stark_ch bf_challenger c_sample]. rewrite Eg3. reflexivity.
      + unfold verify_shape_and_sample_challenges. rewrite Eb9. rewrite En, Nat.eqb_refl. cbn [negb].
        cbn [stark_ch bf_challenger c_check_witness]. cbn [u32_size] in Eg4. rewrite Eg4. cbv zeta. rewrite Eb11. reflexivity.
    - unfold StarkModel.next_point, StarkModel.coset_gen. cbn [log_n]. rewrite tag_some by exact Ed. reflexivity.
  Qed.

  (** the native proof-of-work check, from the hash *)
  Notation any := (any : chal -> machine -> Prop).
  Lemma betas_any : forall commits c p bs c', any c p -> Forall commit_ok (map words commits) -> FriModel.sample_betas ExtT M Ch c commits = Some (bs, c') ->
    any c' (fold_left (absorb true) (map words commits) p).
  Proof.
    induction commits as [|k commits IH]; intros c p bs c' A Fk E; cbn [map fold_left FriModel.sample_betas] in *; [injection E as <- <-; exact A|].
    inversion_clear Fk as [|? ? Wk Fk']. destruct (round_native true c p (words k) A Wk) as (c1 & f & c2 & E1 & E2 & B2 & _). cbn [u32_size] in E2.
    cbn [stark_ch bf_challenger c_observe c_sample] in E. rewrite E1, E2 in E. cbn [option_map fst snd] in E.
    match type of E with match ?z with _ => _ end = _ => destruct z as [[bs0 c3]|] eqn:E3; [|discriminate E] end. injection E as <- <-.
    eapply IH; [apply (behind_is_any true _ _ B2)|exact Fk'|exact E3].
  Qed.
  Lemma transcript_pow : forall trace quotient (proof : fri_proof ExtT M Ch open_proof) alpha zeta batch fc c',
    commit_ok (words0 trace) -> commit_ok (words0 quotient) -> Forall commit_ok (map words (commit_phase_commits ExtT M Ch open_proof proof)) ->
    word_ok (pow_witness ExtT M Ch open_proof proof) -> proof_of_work_bits config <= 32 ->
    native_transcript trace quotient proof (new 16 4) alpha zeta batch fc c' ->
    length (query_proofs ExtT M Ch open_proof proof) = num_queries config /\
    pow_ok (query_hash (words0 trace) (words0 quotient) (map words (commit_phase_commits ExtT M Ch open_proof proof)) (proof_of_work_bits config) (pow_witness ExtT M Ch open_proof proof)) (proof_of_work_bits config).
  Proof.
    intros trace quotient proof alpha zeta batch fc c' Wt Wq Wc Ww Bp (d4 & d5 & (d1 & d2 & d3 & A1 & A2 & A3 & A4) & A5 & A6).
    assert (A0 : any (new 16 4) h_new) by (destruct (synced_new true) as [Gd N]; split; eauto).
    destruct (round_native true _ h_new _ A0 Wt) as (c1 & fa & c2 & E1 & E2 & B2 & _). cbn [u32_size] in E2.
    unfold observe0 in A1. rewrite E1 in A1. injection A1 as <-. cbn [stark_ch bf_challenger c_sample] in A2. rewrite E2 in A2. cbn [option_map fst snd] in A2. injection A2 as <- <-.
    destruct (round_native true c2 _ _ (behind_is_any true _ _ B2) Wq) as (c3 & fz & c4 & E3 & E4 & B4 & _). cbn [u32_size] in E4.
    unfold observe0 in A3. rewrite E3 in A3. injection A3 as <-. cbn [stark_ch bf_challenger c_sample] in A4. rewrite E4 in A4. cbn [option_map fst snd] in A4. injection A4 as <- <-.
    destruct B4 as (Gd4 & Nr4 & Eb4 & N4). cbn [u32_size Nat.sub] in N4.
    destruct (sample_rest true c4 _ _ N4) as (c5 & E5 & N5 & M5); [reflexivity|]. cbn [u32_size] in E5.
    cbn [stark_ch bf_challenger c_sample] in A5. rewrite E5 in A5. cbn [option_map fst snd] in A5. injection A5 as <- <-.
    assert (An : any c5 (after_zeta (words0 trace) (words0 quotient))).
    { split; [exact Gd4|]. assert (Eb4' : h_buf (after_zeta (words0 trace) (words0 quotient)) = []) by exact Eb4. rewrite Eb4'. eexists. exact N5. }
    unfold verify_shape_and_sample_challenges in A6.
    destruct (FriModel.sample_betas ExtT M Ch c5 (commit_phase_commits ExtT M Ch open_proof proof)) as [[bs c6]|] eqn:E6; [|discriminate A6].
    destruct (Nat.eqb_spec (length (query_proofs ExtT M Ch open_proof proof)) (num_queries config)) as [En|En]; [|discriminate A6]. split; [exact En|]. cbn [negb] in A6.
    destruct (betas_any _ _ _ _ _ An Wc E6) as [Gd [out N]].
    destruct (witness_native true c6 _ out (proof_of_work_bits config) _ Gd N Bp Ww) as (c7 & E7). cbn [u32_size] in E7.
    cbn [stark_ch bf_challenger c_check_witness] in A6. rewrite E7 in A6.
    unfold pow_ok, query_hash, top. destruct (Z.eqb_spec (Z.shiftr (from_pf (nth 7 (ChalExprSync.words (h_last (snd (h_check_witness true (fold_left (absorb true) (map words (commit_phase_commits ExtT M Ch open_proof proof)) (after_zeta (words0 trace) (words0 quotient))) (proof_of_work_bits config) (pow_witness ExtT M Ch open_proof proof))))) [])) (Z.of_nat (32 - proof_of_work_bits config))) 0%Z) as [Q|Q]; [exact Q|discriminate A6].
  Qed.
End Native.

(** ** Running the managers *)
Lemma embed_later : forall cs e n r n', embed e cs n = Some (r, n') -> n <= n'.
Proof.
  induction cs as [|c cs IH]; intros e n r n' E; cbn [embed] in E; [unfold ret in E; injection E as <- <-; lia|].
  inv_get E. inv_bind E. apply IH in E. unfold equal, node, get_opid, ret, bind in Eb. injection Eb as <- <-. lia.
Qed.
Lemma embed_hint_later : forall m n r n', embed_hint_verify m n = Some (r, n') -> n <= n'.
Proof. intros m n r n' E. unfold embed_hint_verify in E. inv_bind E. unfold ret in E. injection E as <- <-. eapply embed_later; exact Eb. Qed.

Fixpoint embed_all (ms : list manager) : builder (list manager) :=
  match ms with
  | [] => ret []
  | m :: ms => do m' <- embed_hint_verify m; do r <- embed_all ms; ret (m' :: r)
  end.

Section Run.
  Variable H : bytes -> bytes.
  Variable G : gadgets.
  Lemma run_app : forall ms ms' n, run_managers H G (ms ++ ms') n = match run_managers H G ms n with Some (_, n') => run_managers H G ms' n' | None => None end.
  Proof.
    induction ms as [|m ms IH]; intros ms' n; cbn [app run_managers]; [reflexivity|]. unfold bind.
    destruct (embed_hint_verify m n) as [[m' n1]|]; [|reflexivity]. destruct (check (run_manager H G m') n1) as [[u n2]|]; [|reflexivity]. apply IH.
  Qed.
  (** managers that are accepted whenever their checks are embedded *)
  Definition good_manager (n0 : nat) (m : manager) : Prop := forall n1, n0 <= n1 ->
    exists m' n2, embed_hint_verify m n1 = Some (m', n2) /\ (room G m' -> run_manager H G m' = true).
  Lemma run_good : forall n0 ms n1, Forall (good_manager n0) ms -> n0 <= n1 -> exists ems n2, embed_all ms n1 = Some (ems, n2) /\ n1 <= n2 /\
    (Forall (room G) ems -> run_managers H G ms n1 = Some (tt, n2)).
  Proof.
    intros n0. induction ms as [|m ms IH]; intros n1 F L; cbn [embed_all run_managers].
    - exists [], n1. split; [reflexivity|]. split; [lia|]. reflexivity.
    - inversion_clear F as [|? ? Gm F']. destruct (Gm n1 L) as (m' & n2 & E & R). pose proof (embed_hint_later _ _ _ _ E) as L2.
      destruct (IH n2 F') as (ems & n3 & E3 & L3 & R3); [lia|]. exists (m' :: ems), n3. unfold bind. rewrite E, E3. split; [reflexivity|]. split; [lia|].
      intros Fr. inversion_clear Fr as [|? ? Fm Fs]. rewrite (R Fm). cbn [check]. exact (R3 Fs).
  Qed.
End Run.

Lemma world_later : forall n n' all l, world n all l -> n <= n' -> world n' all l.
Proof. intros n n' all l [A B C D] L. constructor; auto. eapply made_mono; eauto. Qed.
Lemma world_sinv : forall n all l, world n all l -> sinv n all manager_new.
Proof.
  intros n all l W. constructor; cbn.
  - apply W.
  - discriminate.
  - intros d [].
  - constructor.
  - intros d [].
  - intros d b x Id Q. rewrite (w_silent _ _ _ W d Id) in Q. discriminate Q.
  - intros d d' x Id _ Q. rewrite (w_silent _ _ _ W d Id) in Q. discriminate Q.
Qed.
Lemma challenger_manager_of : forall es, challenger_manager es = manager_of es.
Proof. reflexivity. Qed.

(** ** Air::eval on the native builder *)
Lemma eval_total : forall w alpha width p trees pool l acc, length trees = length pool -> assertions p trees = Some l ->
  length (StarkModel.w_local w) = width -> length (StarkModel.w_next w) = width -> indexed width (length (StarkModel.w_public w)) p = true ->
  exists v, eval_native w alpha p pool acc = Some v.
Proof.
  intros w alpha width. induction p as [|s p IH]; intros trees pool l acc Lp A Ll Ln X; [eexists; reflexivity|].
  cbn [indexed forallb] in X. apply andb_true_iff in X as [Xs X]. fold (indexed width (length (StarkModel.w_public w)) p) in X.
  assert (P : forall e (v : ExtT), assertions p (trees ++ [e]) = Some l -> exists z, eval_native w alpha p (pool ++ [v]) acc = Some z).
  { intros e v A'. apply (IH (trees ++ [e]) (pool ++ [v]) l); auto. rewrite !app_length. cbn [length]. now rewrite Lp. }
  assert (N : forall i t, nth_error trees i = Some t -> exists v, nth_error pool i = Some v).
  { intros i t E. destruct (nth_error pool i) as [v|] eqn:Ev; [eauto|]. apply nth_error_None in Ev. rewrite <- Lp in Ev. apply nth_error_None in Ev. congruence. }
  assert (Nl : forall A (r : list A) i, (i <? length r) = true -> exists v, nth_error r i = Some v).
  { intros B r i Q. apply Nat.ltb_lt in Q. destruct (nth_error r i) eqn:Ev; [eauto|]. apply nth_error_None in Ev. lia. }
  destruct s; cbn [assertions eval_native] in *;
    repeat match type of A with match nth_error trees ?i with _ => _ end = _ => let t := fresh "t" in let E := fresh "E" in let v := fresh "v" in let Ev := fresh "Ev" in
      destruct (nth_error trees i) as [t|] eqn:E; [|discriminate A]; destruct (N _ _ E) as [v Ev]; rewrite Ev end; eauto.
  - rewrite <- Ll in Xs. destruct (Nl _ _ _ Xs) as [v Ev]. rewrite Ev. eauto.
  - rewrite <- Ln in Xs. destruct (Nl _ _ _ Xs) as [v Ev]. rewrite Ev. eauto.
  - destruct (Nl _ _ _ Xs) as [v Ev]. rewrite Ev. eauto.
  - destruct (assertions p trees) as [l0|] eqn:A'; [|discriminate A]. eapply IH; eauto.
  - destruct (assertions p trees) as [l0|] eqn:A'; [|discriminate A]. eapply IH; eauto.
Qed.
