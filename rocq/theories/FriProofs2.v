(** FRI completeness: what the prover produces, the verifier accepts. *)
From Coq Require Import List Arith Bool Lia Field Sorted.
From Verif Require Import Field TcsModel PropTcs FriModel FriProofs.
Import ListNotations.

(** What is needed of a matrix commitment scheme, for batches of matrices tallest first whose
    tallest has 2^K rows, lo <= K <= hi. *)
Definition mmcs_contract {A} (M : mmcs A) (nq lo hi : nat) : Prop :=
  forall st ms K, lo <= K <= hi -> batch ms K -> StronglySorted (fun a b => nrows b <= nrows a) ms ->
    exists c d st', m_commit M st ms = Some (c, d, st') /\ m_get_matrices M d = Some ms /\
      forall qt q, qt < nq -> q < 2 ^ K ->
        exists pf, m_open_batch M qt q d = Some (map (row_for K q) ms, pf) /\
          m_verify_batch M qt (map (row_for K q) ms) pf c = Ok tt.

(** What is needed of a challenger: [sync] relates states with the same future answers, and a
    witness that grind returns passes check_witness and leaves related states. *)
Record chal_contract {C A} (Ch : challenger C A) (sync : c_state Ch -> c_state Ch -> Prop) : Prop := {
  cc_observe : forall c d x c', sync c d -> c_observe Ch c x = Some c' ->
    exists d', c_observe Ch d x = Some d' /\ sync c' d';
  cc_sample : forall c d a c', sync c d -> c_sample Ch c = Some (a, c') ->
    exists d', c_sample Ch d = Some (a, d') /\ sync c' d';
  cc_bits : forall c d n i c', sync c d -> c_sample_bits Ch c n = Some (i, c') ->
    exists d', c_sample_bits Ch d n = Some (i, d') /\ sync c' d';
  cc_grind : forall c d b w c', sync c d -> c_grind Ch c b w c' ->
    exists d', c_check_witness Ch d b w = Some (true, d') /\ sync c' d';
  cc_range : forall c n i c', c_sample_bits Ch c n = Some (i, c') -> i < 2 ^ n }.

Section Fri.
  Variable T : two_adic.
  Variable M : mmcs T.
  Variable Ch : challenger (m_comm M) T.
  Variables (IP IE : Type).
  Variable config : fri_config.
  Add Field TF : (fth T).
  Notation lb := (log_blowup config).
  Notation "0" := (@f0 T).

  (** Inputs of lengths 2^kv, lb < kv <= k, strictly shorter and shorter. *)
  Fixpoint ins_ok (k : nat) (inputs : list (list T)) : Prop :=
    match inputs with
    | [] => True
    | v :: rest => exists kv, lb < kv <= k /\ length v = 2 ^ kv /\ ins_ok (kv - 1) rest
    end.
  (** The values of the inputs at index q of a domain of size 2^k, as the verifier receives them. *)
  Definition ros (q k : nat) (inputs : list (list T)) : list (nat * T) :=
    map (fun v => (Nat.log2 (length v), nth (q / 2 ^ (k - Nat.log2 (length v))) v 0)) inputs.

  Lemma add_into_length (a b : list T) : length (add_into T a b) = length a.
  Proof. revert b. induction a as [|x a IH]; intros [|y b]; cbn; auto. Qed.
  Lemma add_into_nth (a b : list T) q : length b = length a -> q < length a ->
    nth q (add_into T a b) 0 = fadd (nth q a 0) (nth q b 0).
  Proof.
    revert b q. induction a as [|x a IH]; intros [|y b] q L Hq; cbn in *; try lia.
    destruct q as [|q]; [reflexivity|]. apply IH; lia.
  Qed.
  Lemma ins_ok_weaken k k' inputs : k <= k' -> ins_ok k inputs -> ins_ok k' inputs.
  Proof. intros L. destruct inputs as [|v rest]; [easy|]. intros (kv & B & R). exists kv. split; [lia|exact R]. Qed.
  Lemma ros_half q k inputs : ins_ok k inputs -> ros (q / 2) k inputs = ros q (S k) inputs.
  Proof.
    revert k. induction inputs as [|v rest IH]; intros k I; [reflexivity|].
    destruct I as (kv & B & L & I). unfold ros in *. cbn [map]. f_equal.
    - rewrite L, Nat.log2_pow2 by lia. f_equal. f_equal.
      replace (S k - kv) with (S (k - kv)) by lia. now rewrite div_half_pow.
    - apply (IH k). eapply ins_ok_weaken; [|exact I]. lia.
  Qed.
  Lemma take_next k F inputs folded rest : lb < S k -> length F = 2 ^ S k -> ins_ok (S k) inputs ->
    take_input T F inputs = (folded, rest) ->
    length folded = 2 ^ S k /\ ins_ok k rest /\
    forall q, q < 2 ^ S k ->
      next_opening T k (nth q F 0) (ros q (S k) inputs) = (nth q folded 0, ros (q / 2) k rest).
  Proof.
    intros Lk LF I E. destruct inputs as [|v inputs].
    - cbn in E. injection E as <- <-. repeat split; auto.
    - destruct I as (kv & B & L & I). cbn [take_input] in E. rewrite L, LF in E.
      destruct (Nat.eqb_spec (2 ^ kv) (2 ^ S k)) as [Ek|Ek].
      + apply Nat.pow_inj_r in Ek; [|lia]. subst kv. injection E as <- <-.
        rewrite add_into_length. split; [exact LF|]. replace (S k - 1) with k in I by lia. split; [exact I|].
        intros q Hq. cbn [ros map next_opening]. rewrite L, Nat.log2_pow2 by lia.
        rewrite Nat.add_1_r, Nat.eqb_refl, Nat.sub_diag, Nat.pow_0_r, Nat.div_1_r.
        rewrite add_into_nth by lia. f_equal. symmetry. now apply ros_half.
      + injection E as <- <-. split; [exact LF|].
        assert (kv <> S k) by congruence.
        split; [exists kv; repeat split; [lia|lia|exact L|exact I]|].
        intros q Hq. rewrite (ros_half q k (v :: inputs)) by (exists kv; repeat split; [lia|lia|exact L|exact I]).
        unfold ros. cbn [map next_opening]. rewrite L, Nat.log2_pow2 by lia.
        rewrite Nat.add_1_r. destruct (Nat.eqb_spec kv (S k)); [contradiction|]. reflexivity.
  Qed.

  Hypothesis mm : mmcs_contract M (num_queries config) 1 (two_adicity T).
  Hypothesis lb1 : 1 <= lb.
  Variable sync : c_state Ch -> c_state Ch -> Prop.
  Hypothesis cc : chal_contract Ch sync.

  Lemma batch2 (v : list T) k : length v = 2 ^ S k -> batch [{| width := 2; values := v |}] k.
  Proof.
    intros L. assert (has_rows {| width := 2; values := v |} k) as R by (split; cbn; [lia|rewrite L, Nat.pow_succ_r'; lia]).
    split; [constructor; [exists k; split; [exact R|lia]|constructor]|constructor; exact R].
  Qed.
  Lemma commit2 st (v : list T) k : 1 <= k <= two_adicity T -> length v = 2 ^ S k ->
    exists c d st', m_commit M st [{| width := 2; values := v |}] = Some (c, d, st') /\
      m_get_matrices M d = Some [{| width := 2; values := v |}] /\
      forall qt q, qt < num_queries config -> q < 2 ^ k ->
        exists pf, m_open_batch M qt q d = Some ([[nth (2 * q) v 0; nth (2 * q + 1) v 0]], pf) /\
          m_verify_batch M qt [[nth (2 * q) v 0; nth (2 * q + 1) v 0]] pf c = Ok tt.
  Proof.
    intros Hk L. destruct (mm st [{| width := 2; values := v |}] k Hk (batch2 v k L)) as (c & d & st' & E & G & O).
    { repeat constructor. }
    exists c, d, st'. split; [exact E|]. split; [exact G|]. intros qt q Hqt Hq.
    destruct (O qt q Hqt Hq) as (pf & Eo & Ev).
    assert (map (row_for k q) [{| width := 2; values := v |}] = [[nth (2 * q) v 0; nth (2 * q + 1) v 0]]) as R.
    { cbn [map]. f_equal. unfold row_for. cbn [values width]. rewrite L, Nat.pow_succ_r', (Nat.mul_comm 2), Nat.div_mul by lia.
      rewrite Nat.log2_pow2, Nat.sub_diag by lia. rewrite Nat.pow_0_r, Nat.div_1_r.
      apply row_of2. rewrite L, Nat.pow_succ_r'. lia. }
    rewrite R in *. exists pf. auto.
  Qed.
  Lemma new2_ok (v : list T) k : length v = 2 ^ S k -> new2 T v = Some {| width := 2; values := v |}.
  Proof.
    intros L. unfold new2. rewrite (proj2 (Nat.eqb_eq _ _)); [reflexivity|].
    rewrite L, Nat.pow_succ_r', Nat.mul_comm. apply Nat.mod_mul. lia.
  Qed.
  Lemma pow_le_blowup k : 2 ^ k <= blowup config <-> k <= lb.
  Proof. unfold blowup. symmetry. apply Nat.pow_le_mono_r_iff. lia. Qed.
  Lemma ins_ok_lb inputs : ins_ok lb inputs -> inputs = [].
  Proof. destruct inputs as [|v rest]; [easy|]. intros (kv & B & _). lia. Qed.

  (** What one run of the commit loop provides for every query. *)
  Definition chain (k : nat) (F : list T) (inputs : list (list T)) (ch : c_state Ch) (s : commit_state T M Ch) : Prop :=
    length (cs_commits T M Ch s) = k - lb /\ length (cs_folded T M Ch s) = 2 ^ lb /\
    exists bs, sample_betas T M Ch ch (cs_commits T M Ch s) = Some (bs, cs_chal T M Ch s) /\ length bs = k - lb /\
    forall qt q0 i, qt < num_queries config -> q0 / 2 ^ i < 2 ^ k ->
      exists os, answer_query T M i (cs_data T M Ch s) q0 qt = Some os /\ length os = k - lb /\
      forall log_max,
        query_loop T M IE log_max qt (layers T M k (cs_commits T M Ch s) os bs) (q0 / 2 ^ i) (nth (q0 / 2 ^ i) F 0)
          (ros (q0 / 2 ^ i) k inputs) =
        Ok (nth (q0 / 2 ^ i / 2 ^ (k - lb)) (cs_folded T M Ch s) 0, q0 / 2 ^ i / 2 ^ (k - lb)).

  Lemma nth_pair (r0 r1 : T) q (v : list T) :
    nth_error [nth (2 * (q / 2)) v 0; nth (2 * (q / 2) + 1) v 0] (q mod 2) = Some (nth q v 0).
  Proof.
    pose proof (Nat.div_mod q 2 ltac:(lia)) as D. pose proof (Nat.mod_upper_bound q 2 ltac:(lia)) as B.
    destruct (q mod 2) as [|[|x]] eqn:E; [| |lia]; cbn [nth_error]; f_equal; f_equal; lia.
  Qed.

  Lemma loop_chain : forall k fuel F inputs folded rest st ch s,
    lb <= k <= two_adicity T -> length F = 2 ^ k -> ins_ok k inputs ->
    take_input T F inputs = (folded, rest) ->
    commit_loop T M Ch config fuel st ch folded rest = Some s -> chain k F inputs ch s.
  Proof.
    induction k as [|k IH]; intros fuel F inputs folded rest st ch s Hk LF I Et E; [lia|].
    destruct (Nat.eq_dec (S k) lb) as [Ek|Nk].
    - rewrite Ek in *. apply ins_ok_lb in I. subst inputs. cbn in Et. injection Et as <- <-.
      assert (s = {| cs_commits := []; cs_data := []; cs_folded := F; cs_mmcs := st; cs_chal := ch |}) as ->.
      { destruct fuel; cbn [commit_loop] in E; rewrite (proj2 (Nat.leb_le _ _)) in E
          by (rewrite LF; apply pow_le_blowup; lia); congruence. }
      unfold chain. cbn [cs_commits cs_folded cs_data cs_chal]. rewrite Nat.sub_diag.
      split; [reflexivity|]. split; [exact LF|]. exists []. split; [reflexivity|]. split; [reflexivity|].
      intros qt q0 i Hqt Hq. exists []. split; [reflexivity|]. split; [reflexivity|]. intros log_max.
      rewrite Nat.pow_0_r, !Nat.div_1_r. destruct lb; reflexivity.
    - destruct (take_next k F inputs folded rest ltac:(lia) LF I Et) as (Lf & Ir & N).
      assert (blowup config < 2 ^ S k) as Gt by (apply Nat.nle_gt; rewrite pow_le_blowup; lia).
      destruct fuel as [|fuel]; cbn [commit_loop] in E; destruct (Nat.leb_spec (length folded) (blowup config)) as [Bd|_];
        try (exfalso; lia); [discriminate|].
      rewrite (new2_ok folded k Lf) in E.
      destruct (commit2 st folded k ltac:(lia) Lf) as (c & d & st' & Ec & Gm & O). rewrite Ec in E.
      destruct (c_observe Ch ch c) as [ch1|] eqn:Eo; [|discriminate].
      destruct (c_sample Ch ch1) as [[beta ch2]|] eqn:Es; [|discriminate].
      rewrite Gm in E. cbn [rev app] in E.
      rewrite (fold_matrix_ok T folded k beta ltac:(lia) Lf) in E.
      set (F1 := map _ (seq 0%nat (2 ^ k))) in E.
      destruct (take_input T F1 rest) as [folded1 rest1] eqn:Et1.
      destruct (commit_loop T M Ch config fuel st' ch2 folded1 rest1) as [s1|] eqn:El; [|discriminate].
      injection E as <-.
      assert (length F1 = 2 ^ k) as LF1 by (unfold F1; now rewrite map_length, seq_length).
      destruct (IH fuel F1 rest folded1 rest1 st' ch2 s1 ltac:(lia) LF1 Ir Et1 El) as (Lc & Lf1 & bs & Eb & Lbs & Q).
      unfold chain. cbn [cs_commits cs_folded cs_data cs_chal length]. rewrite Lc.
      split; [lia|]. split; [exact Lf1|]. exists (beta :: bs). cbn [sample_betas]. rewrite Eo, Es, Eb.
      split; [reflexivity|]. split; [cbn [length]; lia|]. intros qt q0 i Hqt Hq.
      assert (q0 / 2 ^ i / 2 < 2 ^ k) as Hq2 by (rewrite Nat.pow_succ_r' in Hq; apply Nat.div_lt_upper_bound; lia).
      assert (q0 / 2 ^ S i = q0 / 2 ^ i / 2) as Ei.
      { rewrite Nat.pow_succ_r', (Nat.mul_comm 2), Nat.div_div; [reflexivity|apply Nat.pow_nonzero; lia|lia]. }
      destruct (O qt (q0 / 2 ^ i / 2) Hqt Hq2) as (pf & Eopen & Ever).
      destruct (Q qt q0 (S i) Hqt ltac:(rewrite Ei; exact Hq2)) as (os & Ea & Los & Ql).
      cbn [answer_query]. rewrite Eopen, Ea. eexists. split; [reflexivity|]. split; [cbn [length]; lia|]. intros log_max.
      cbn [layers query_loop]. rewrite (N _ Hq).
      rewrite (nth_pair 0 0). rewrite feqb_refl. cbn [negb]. rewrite andb_false_r.
      rewrite Ever, fold_row_ok by lia.
      assert (folded_pair T beta (point T k (q0 / 2 ^ i / 2)) (nth (2 * (q0 / 2 ^ i / 2)) folded 0)
                (nth (2 * (q0 / 2 ^ i / 2) + 1) folded 0) = nth (q0 / 2 ^ i / 2) F1 0) as ->
        by (unfold F1; now rewrite nth_map_seq).
      rewrite Ei in Ql. rewrite Ql. replace (S k - lb) with (S (k - lb)) by lia.
      now rewrite <- div_half_pow.
  Qed.

  (** betas, witness and indices are the same on both sides *)
  Lemma betas_sync commits : forall c d bs c', sync c d -> sample_betas T M Ch c commits = Some (bs, c') ->
    exists d', sample_betas T M Ch d commits = Some (bs, d') /\ sync c' d'.
  Proof.
    induction commits as [|x commits IH]; intros c d bs c' S E; cbn in *.
    - injection E as <- <-. eauto.
    - destruct (c_observe Ch c x) as [c1|] eqn:E1; [|discriminate].
      destruct (cc_observe _ _ cc _ _ _ _ S E1) as (d1 & -> & S1).
      destruct (c_sample Ch c1) as [[b c2]|] eqn:E2; [|discriminate].
      destruct (cc_sample _ _ cc _ _ _ _ S1 E2) as (d2 & -> & S2).
      destruct (sample_betas T M Ch c2 commits) as [[bs1 c3]|] eqn:E3; [|discriminate].
      destruct (IH _ _ _ _ S2 E3) as (d3 & -> & S3). injection E as <- <-. eauto.
  Qed.

  Variable open_input_p : nat -> nat -> option IP.
  Variable open_input : nat -> nat -> IP -> outcome IE (list (nat * T)).
  Variable debug : bool.

  Lemma queries_ok commits data final inputs k0 bs :
    (forall qt q ip, qt < num_queries config -> open_input_p qt q = Some ip -> q < 2 ^ k0 -> open_input qt q ip = Ok (ros q k0 inputs)) ->
    lb < k0 ->
    (forall qt q0, qt < num_queries config -> q0 < 2 ^ k0 ->
      exists os, answer_query T M 0 data q0 qt = Some os /\
        forall log_max, query_loop T M IE log_max qt (layers T M k0 commits os bs) q0 0 (ros q0 k0 inputs) =
          Ok (final, q0 / 2 ^ (k0 - lb))) ->
    forall n qt c d qs c', sync c d -> qt + n <= num_queries config ->
    query_phase T M Ch IP open_input_p n qt c k0 data = Some (qs, c') ->
    length qs = n /\ exists l d', sample_indices T M Ch n qt d k0 = Some (l, d') /\ sync c' d' /\ length l = n /\
      forall proof, commit_phase_commits T M Ch IP proof = commits -> final_poly T M Ch IP proof = final ->
        verify_queries T M Ch IP IE config debug open_input proof bs k0 (List.combine l qs) = Ok tt.
  Proof.
    intros Oi Lk Qo. induction n as [|n IH]; intros qt c d qs c' S Hn E; cbn [query_phase sample_indices] in *.
    - injection E as <- <-. split; [reflexivity|]. exists [], d. repeat split; auto.
    - destruct (c_sample_bits Ch c k0) as [[q c1]|] eqn:E1; [|discriminate].
      destruct (cc_bits _ _ cc _ _ _ _ _ S E1) as (d1 & -> & S1).
      pose proof (cc_range _ _ cc _ _ _ _ E1) as Hq.
      destruct (open_input_p qt q) as [ip|] eqn:Ei; [|discriminate].
      destruct (Qo qt q ltac:(lia) Hq) as (os & Ea & Ql). rewrite Ea in E.
      destruct (query_phase T M Ch IP open_input_p n (Datatypes.S qt) c1 k0 data) as [[qs1 c2]|] eqn:E2; [|discriminate].
      injection E as <- <-.
      destruct (IH (Datatypes.S qt) c1 d1 qs1 c2 S1 ltac:(lia) E2) as (Lq & l & d2 & -> & S2 & Ll & V).
      split; [cbn [length]; lia|]. do 2 eexists. split; [reflexivity|]. split; [exact S2|]. split; [cbn [length]; lia|].
      intros proof Ec Ef. cbn [List.combine verify_queries input_proof]. rewrite (Oi qt q ip ltac:(lia) Ei Hq).
      unfold verify_query. cbn [commit_phase_openings]. rewrite Ec, Ql.
      assert (q / 2 ^ (k0 - lb) < blowup config) as Hb
        by (unfold blowup; apply div_lt_pow; replace (k0 - lb + lb) with k0 by lia; exact Hq).
      rewrite (proj2 (Nat.ltb_lt _ _) Hb). cbn [negb]. rewrite andb_false_r, Ef, feqb_refl. now apply V.
  Qed.

  Lemma firstn_ros_zero q k0 (v : list T) rest : length v = 2 ^ k0 -> ros q k0 (v :: rest) = (k0, nth q v 0) :: ros q k0 rest.
  Proof. intros L. unfold ros. cbn [map]. rewrite L, Nat.log2_pow2, Nat.sub_diag, Nat.pow_0_r, Nat.div_1_r by lia. reflexivity. Qed.

  Theorem complete : forall st ch d inputs proof st' ch' k0,
    length (hd [] inputs) = 2 ^ k0 -> lb < k0 <= two_adicity T -> ins_ok k0 inputs -> inputs <> [] ->
    (forall qt q ip, qt < num_queries config -> open_input_p qt q = Some ip -> q < 2 ^ k0 -> open_input qt q ip = Ok (ros q k0 inputs)) ->
    sync ch d ->
    bf_prove T M Ch IP config open_input_p st ch inputs proof st' ch' ->
    exists challenges d', verify_shape_and_sample_challenges T M Ch IP IE config proof d = Ok (challenges, d') /\
      sync ch' d' /\ verify_challenges T M Ch IP IE config debug open_input proof challenges = Ok tt.
  Proof.
    intros st ch d inputs proof st' ch' k0 L0 Hk I Ne Oi S (_ & lm & data & ch1 & ch2 & El & Ec & Eg & Eq).
    destruct inputs as [|v rest]; [contradiction|]. cbn [hd] in *.
    rewrite L0, log2_strict_pow in El. injection El as <-.
    unfold commit_phase in Ec. destruct (commit_loop T M Ch config (length v) st ch v rest) as [s|] eqn:E; [|discriminate].
    (* the first input is added to a vector of zeros *)
    assert (take_input T (repeat 0 (2 ^ k0)) (v :: rest) = (v, rest)) as Et.
    { cbn [take_input]. rewrite repeat_length, L0, Nat.eqb_refl. f_equal. rewrite <- L0. clear.
      induction v as [|x v IH]; [reflexivity|]. cbn. rewrite IH. f_equal. ring. }
    destruct (loop_chain k0 (length v) (repeat 0 (2 ^ k0)) (v :: rest) v rest st ch s ltac:(lia) (repeat_length _ _) I Et E)
      as (Lc & Lf & bs & Eb & Lbs & Q).
    destruct (length (cs_folded T M Ch s) =? blowup config); [|discriminate].
    destruct (cs_folded T M Ch s) as [|x xs] eqn:Ex; [discriminate|].
    destruct (forallb (fun y => feqb y x) (x :: xs)) eqn:Ea; [|discriminate].
    injection Ec as E1 E2 E3 E4 E5. subst data. rewrite E1 in *. rewrite <- E5 in *.
    destruct (betas_sync _ _ _ _ _ S Eb) as (d1 & Bd & S1).
    destruct (cc_grind _ _ cc _ _ _ _ _ S1 Eg) as (d2 & Wd & S2).
    destruct (queries_ok (commit_phase_commits T M Ch IP proof) (cs_data T M Ch s) (final_poly T M Ch IP proof) (v :: rest) k0 bs Oi
                ltac:(lia)) with (n := num_queries config) (qt := 0%nat) (c := ch2) (d := d2) (qs := query_proofs T M Ch IP proof) (c' := ch')
      as (Lq & l & d3 & Ed & S3 & Ll & V).
    - intros qt q0 Hqt Hq. destruct (Q qt q0 0%nat Hqt) as (os & Eo & _ & Ql); [rewrite Nat.pow_0_r, Nat.div_1_r; exact Hq|].
      exists os. split; [exact Eo|]. intros log_max. specialize (Ql log_max). rewrite Nat.pow_0_r, Nat.div_1_r in Ql.
      rewrite nth_repeat in Ql. rewrite Ql. f_equal. f_equal.
      rewrite <- E3.
      assert (forall y, In y (x :: xs) -> y = x) as Al.
      { intros y Hy. rewrite forallb_forall in Ea. apply Ea in Hy. now apply feqb_ok in Hy. }
      apply Al, nth_In. rewrite Lf. apply div_lt_pow. replace (k0 - lb + lb) with k0 by lia. exact Hq.
    - exact S2.
    - lia.
    - exact Eq.
    - exists {| query_indices := l; betas := bs |}, d3. unfold verify_shape_and_sample_challenges.
      rewrite Bd, Lq, Nat.eqb_refl. cbn [negb]. rewrite Wd.
      replace (length (commit_phase_commits T M Ch IP proof) + lb) with k0 by lia. rewrite Ed.
      split; [reflexivity|]. split; [exact S3|].
      unfold verify_challenges. cbn [betas query_indices].
      replace (length (commit_phase_commits T M Ch IP proof) + lb) with k0 by lia. now apply V.
  Qed.

  (** ** The prover does not panic on codewords of the proper degree *)
  Fixpoint low_degree (k : nat) (inputs : list (list T)) : Prop :=
    match inputs with
    | [] => True
    | v :: rest => exists kv p, lb < kv <= k /\ v = codeword T kv p /\ length p <= 2 ^ (kv - lb) /\ low_degree (kv - 1) rest
    end.
  Lemma low_degree_ins k inputs : low_degree k inputs -> ins_ok k inputs.
  Proof.
    revert k. induction inputs as [|v rest IH]; intros k; [easy|]. intros (kv & p & B & -> & Lp & R).
    exists kv. split; [exact B|]. split; [apply codeword_length|now apply IH].
  Qed.
  Lemma add_codeword k p p' : add_into T (codeword T k p) (codeword T k p') = codeword T k (padd p p').
  Proof.
    unfold codeword. induction (seq 0%nat (2 ^ k)) as [|i l IH]; [reflexivity|]. cbn. rewrite IH, peval_padd. reflexivity.
  Qed.
  Lemma take_low k p inputs : lb < k -> length p <= 2 ^ (k - lb) -> low_degree k inputs ->
    exists p' rest, take_input T (codeword T k p) inputs = (codeword T k p', rest) /\ length p' <= 2 ^ (k - lb) /\
      low_degree (k - 1) rest.
  Proof.
    intros Lk Lp I. destruct inputs as [|v rest]; [cbn; eauto|]. destruct I as (kv & p1 & B & -> & Lp1 & R).
    cbn [take_input]. rewrite !codeword_length. destruct (Nat.eqb_spec (2 ^ kv) (2 ^ k)) as [E|E].
    - apply Nat.pow_inj_r in E; [|lia]. subst kv. rewrite add_codeword.
      do 2 eexists. split; [reflexivity|]. split; [rewrite padd_length; lia|exact R].
    - do 2 eexists. split; [reflexivity|]. split; [exact Lp|]. exists kv, p1. assert (kv <> k) by congruence.
      repeat split; auto; lia.
  Qed.
  Lemma codeword_const k p x : length p <= 1 -> In x (codeword T k p) -> x = nth 0%nat p 0.
  Proof.
    intros L H. apply in_map_iff in H as (i & <- & _). destruct p as [|c [|c' p]]; cbn in *; [reflexivity|ring|lia].
  Qed.

  (** totality of the challenger, in a form a concrete one satisfies from well-formed states *)
  Variable okst : c_state Ch -> Prop.
  Hypothesis ob_total : forall c x, okst c -> exists c', c_observe Ch c x = Some c' /\ okst c'.
  Hypothesis sa_total : forall c, okst c -> exists a c', c_sample Ch c = Some (a, c') /\ okst c'.

  Lemma loop_total : forall k fuel p rest st ch, lb <= k <= two_adicity T -> k - lb <= fuel -> length p <= 2 ^ (k - lb) ->
    (lb < k -> low_degree (k - 1) rest) -> okst ch ->
    exists s, commit_loop T M Ch config fuel st ch (codeword T k p) rest = Some s /\ okst (cs_chal T M Ch s) /\
      exists pf, cs_folded T M Ch s = codeword T lb pf /\ length pf <= 1.
  Proof.
    induction k as [|k IH]; intros fuel p rest st ch Hk Hf Lp I Oc; [lia|].
    destruct (Nat.eq_dec (S k) lb) as [Ek|Nk].
    - exists {| cs_commits := []; cs_data := []; cs_folded := codeword T (S k) p; cs_mmcs := st; cs_chal := ch |}.
      rewrite Ek, Nat.sub_diag in Lp. split; [|split; [exact Oc|exists p; split; [now rewrite <- Ek|exact Lp]]].
      destruct fuel; cbn [commit_loop]; rewrite (proj2 (Nat.leb_le _ _)) by (rewrite codeword_length; apply pow_le_blowup; lia); reflexivity.
    - assert (blowup config < 2 ^ S k) as Gt by (apply Nat.nle_gt; rewrite pow_le_blowup; lia).
      destruct fuel as [|fuel]; [lia|]. cbn [commit_loop]. rewrite codeword_length.
      destruct (Nat.leb_spec (2 ^ S k) (blowup config)) as [Bd|_]; [lia|].
      pose proof (codeword_length T (S k) p) as Lw.
      rewrite (new2_ok _ k Lw).
      destruct (commit2 st _ k ltac:(lia) Lw) as (c & d & st' & -> & Gm & _).
      destruct (ob_total ch c Oc) as (ch1 & -> & O1). destruct (sa_total ch1 O1) as (beta & ch2 & -> & O2).
      rewrite Gm. cbn [rev app]. rewrite (fold_matrix_ok T _ k beta ltac:(lia) Lw), folded_codeword by lia.
      assert (length (pfold T beta p) <= 2 ^ (k - lb)) as Lq.
      { apply pfold_length. replace (S k - lb) with (S (k - lb)) in Lp by lia. rewrite Nat.pow_succ_r' in Lp. lia. }
      destruct (Nat.eq_dec k lb) as [Ekl|Nkl].
      + specialize (I ltac:(lia)). replace (S k - 1) with k in I by lia. destruct rest as [|v rest].
        * cbn [take_input]. destruct (IH fuel (pfold T beta p) [] st' ch2 ltac:(lia) ltac:(lia) Lq ltac:(lia) O2) as (s & -> & Os & R).
          eexists. split; [reflexivity|]. split; [exact Os|exact R].
        * destruct I as (kv & ? & B & _). lia.
      + specialize (I ltac:(lia)). replace (S k - 1) with k in I by lia.
        destruct (take_low k (pfold T beta p) rest ltac:(lia) Lq I) as (p' & rest' & -> & Lp' & I').
        destruct (IH fuel p' rest' st' ch2 ltac:(lia) ltac:(lia) Lp' (fun _ => I') O2) as (s & -> & Os & R).
        eexists. split; [reflexivity|]. split; [exact Os|exact R].
  Qed.
  Lemma commit_phase_total st ch inputs k0 : lb < k0 <= two_adicity T -> low_degree k0 inputs ->
    length (hd [] inputs) = 2 ^ k0 -> inputs <> [] -> okst ch ->
    exists commits data final st' ch', commit_phase T M Ch config st ch inputs = Some (commits, data, final, st', ch') /\ okst ch'.
  Proof.
    intros Hk I L0 Ne Oc. destruct inputs as [|v rest]; [contradiction|]. destruct I as (kv & p & B & -> & Lp & R).
    cbn [hd] in L0. rewrite codeword_length in L0. apply Nat.pow_inj_r in L0; [|lia]. subst kv.
    unfold commit_phase.
    destruct (loop_total k0 (length (codeword T k0 p)) p rest st ch ltac:(lia)
                ltac:(rewrite codeword_length; pose proof (Nat.pow_gt_lin_r 2 k0); lia) Lp (fun _ => R) Oc)
      as (s & -> & Os & pf & Ef & Lpf).
    rewrite Ef, codeword_length. unfold blowup. rewrite Nat.eqb_refl.
    destruct (codeword T lb pf) as [|x xs] eqn:Ex.
    - pose proof (codeword_length T lb pf) as L. rewrite Ex in L. cbn in L. pose proof (Nat.pow_nonzero 2 lb). lia.
    - assert (forallb (fun y => feqb y x) (x :: xs) = true) as ->.
      { apply forallb_forall. intros y Hy. apply feqb_ok. rewrite <- Ex in Hy.
        rewrite (codeword_const lb pf y Lpf Hy). symmetry. apply (codeword_const lb pf x Lpf). rewrite Ex. now left. }
      do 5 eexists. split; [reflexivity|exact Os].
  Qed.

  Hypothesis bits_total : forall c n, okst c -> n <= two_adicity T -> exists i c', c_sample_bits Ch c n = Some (i, c') /\ okst c'.
  Lemma query_total k0 data : k0 <= two_adicity T ->
    (forall qt q, qt < num_queries config -> q < 2 ^ k0 -> open_input_p qt q <> None) ->
    (forall qt q, qt < num_queries config -> q < 2 ^ k0 -> exists os, answer_query T M 0 data q qt = Some os) ->
    forall n qt c, okst c -> qt + n <= num_queries config ->
    exists qs c', query_phase T M Ch IP open_input_p n qt c k0 data = Some (qs, c').
  Proof.
    intros Lk Oi Qa. induction n as [|n IH]; intros qt c Oc Hn; cbn [query_phase]; [eauto|].
    destruct (bits_total c k0 Oc Lk) as (q & c1 & E & O1). rewrite E.
    pose proof (cc_range _ _ cc _ _ _ _ E) as Hq.
    destruct (open_input_p qt q) as [ip|] eqn:Ei; [|destruct (Oi qt q ltac:(lia) Hq Ei)].
    destruct (Qa qt q ltac:(lia) Hq) as (os & ->).
    destruct (IH (S qt) c1 O1 ltac:(lia)) as (qs & c2 & ->). eauto.
  Qed.
  Lemma low_sorted inputs : forall k, low_degree k inputs -> sorted_descending T inputs = true.
  Proof.
    induction inputs as [|v [|v' rest] IH]; intros k; [reflexivity|reflexivity|].
    intros (kv & p & B & -> & Lp & R). cbn [sorted_descending]. apply andb_true_intro. split; [|eapply IH; exact R].
    destruct R as (kv' & p' & B' & -> & _). rewrite !codeword_length. apply Nat.leb_le, Nat.pow_le_mono_r; lia.
  Qed.
  Theorem prove_total : forall st ch inputs k0, lb < k0 <= two_adicity T -> low_degree k0 inputs ->
    length (hd [] inputs) = 2 ^ k0 -> inputs <> [] -> okst ch ->
    (forall c, okst c -> exists w c', c_grind Ch c (proof_of_work_bits config) w c' /\ okst c') ->
    (forall qt q, qt < num_queries config -> q < 2 ^ k0 -> open_input_p qt q <> None) ->
    exists proof st' ch', bf_prove T M Ch IP config open_input_p st ch inputs proof st' ch'.
  Proof.
    intros st ch inputs k0 Hk I L0 Ne Oc Gr Oi.
    destruct (commit_phase_total st ch inputs k0 Hk I L0 Ne Oc) as (commits & data & final & st' & ch1 & Ec & O1).
    destruct (Gr ch1 O1) as (w & ch2 & Eg & O2).
    assert (forall qt q, qt < num_queries config -> q < 2 ^ k0 -> exists os, answer_query T M 0 data q qt = Some os) as Qa.
    { unfold commit_phase in Ec. destruct inputs as [|v rest]; [contradiction|]. cbn [hd] in L0.
      destruct (commit_loop T M Ch config (length v) st ch v rest) as [s|] eqn:E; [|discriminate].
      assert (take_input T (repeat 0 (2 ^ k0)) (v :: rest) = (v, rest)) as Et.
      { cbn [take_input]. rewrite repeat_length, L0, Nat.eqb_refl. f_equal. rewrite <- L0. clear.
        induction v as [|x v IH]; [reflexivity|]. cbn. rewrite IH. f_equal. ring. }
      destruct (loop_chain k0 (length v) (repeat 0 (2 ^ k0)) (v :: rest) v rest st ch s ltac:(lia) (repeat_length _ _)
                  (low_degree_ins _ _ I) Et E) as (Lc & Lf & bs & Eb & Lbs & Q).
      assert (cs_data T M Ch s = data) as <-.
      { destruct (length (cs_folded T M Ch s) =? blowup config); [|discriminate].
        destruct (cs_folded T M Ch s) as [|x xs]; [discriminate|].
        destruct (forallb (fun y => feqb y x) (x :: xs)); [congruence|discriminate]. }
      intros qt q Hqt Hq. destruct (Q qt q 0%nat Hqt) as (os & Eo & _); [rewrite Nat.pow_0_r, Nat.div_1_r; exact Hq|]. eauto. }
    destruct (query_total k0 data ltac:(lia) Oi Qa (num_queries config) 0%nat ch2 O2 ltac:(lia)) as (qs & ch3 & Eq).
    exists {| commit_phase_commits := commits; query_proofs := qs; final_poly := final; pow_witness := w |}, st', ch3.
    split; [eapply low_sorted; exact I|]. exists k0, data, ch1, ch2. cbn [commit_phase_commits query_proofs final_poly pow_witness].
    rewrite L0, log2_strict_pow. auto.
  Qed.
End Fri.
