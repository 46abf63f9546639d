(** Property C97: what an accepted STARK proof says about what was committed, provided that the first layer of
    FRI is the word of the reduced openings (uni-stark/src/verifier.rs, fri/src/two_adic_pcs.rs verify,
    fri/src/verifier.rs). *)
From Coq Require Import ZArith List Arith Bool Lia Field Sorted.
From Verif Require Import ScriptNum ScriptVM TaptreeModel TcsModel TcsProofs PropTcs ChallengerModel ChallengerProofs PropChallenger
  Field BabyBear FriModel FriProofs FriProofs2 FriInst PropFri PcsModel PolyExt PcsProofs PcsProofs2 PcsInst PropPcs
  StarkModel StarkPoly StarkProofs StarkProofs2 PropStark PropFold PropSound PropDeep PropQuery.
Import ListNotations.
Open Scope nat_scope.

(** ** Words of low degree are recognisable *)
Section Dec.
  Variable T : two_adic.
  Add Field TFE : (fth T).
  Lemma firstn_peval : forall d (p : list T), (forall i, d <= i -> nth i p f0 = f0) -> forall x, peval (firstn d p) x = peval p x.
  Proof.
    intros d p. revert d. induction p as [|c p IH]; intros d H x; [now rewrite firstn_nil|]. destruct d as [|d].
    - cbn [firstn peval]. pose proof (H 0 (le_n 0)) as H0. cbn in H0. subst c. rewrite <- (IH 0) by (intros i Hi; apply (H (S i)); lia). cbn. ring.
    - cbn [firstn peval]. f_equal. f_equal. apply IH. intros i Hi. apply (H (S i)). lia.
  Qed.
  Lemma coeffs_dec d (p : list T) : {forall i, d <= i -> nth i p f0 = f0} + {exists i, d <= i /\ nth i p f0 <> f0}.
  Proof.
    revert d. induction p as [|c p IH]; intros d; [left; intros [|i] _; reflexivity|]. destruct d as [|d].
    - destruct (f_dec T c f0) as [->|N]; [|right; exists 0; auto]. destruct (IH 0) as [H|H]; [left|right].
      + intros [|i] _; [reflexivity|apply H; lia].
      + destruct H as (i & _ & N). exists (S i). split; [lia|exact N].
    - destruct (IH d) as [H|H]; [left|right].
      + intros [|i] Hi; [lia|]. apply H. lia.
      + destruct H as (i & Hi & N). exists (S i). split; [lia|exact N].
  Qed.
  Lemma low_dec k d (w : list T) : k <= two_adicity T -> length w = 2 ^ k -> low T k d w \/ ~ low T k d w.
  Proof.
    intros L Lw. destruct (every_codeword T k w L Lw) as (p & Lp & E). destruct (coeffs_dec d p) as [H|(i & Hi & N)].
    - left. apply low_iff. exists (firstn d p). split; [rewrite firstn_length; lia|]. rewrite E.
      apply nth_ext with (d := f0) (d' := f0); [now rewrite !codeword_length|]. intros j Hj. rewrite codeword_length in Hj.
      rewrite !codeword_nth by exact Hj. symmetry. now apply firstn_peval.
    - right. intros Lo. apply low_iff in Lo as (q & Lq & Eq). apply N.
      destruct (Nat.le_gt_cases (2 ^ k) i) as [Hk|Hk]; [apply nth_overflow; lia|].
      destruct (Nat.le_gt_cases (2 ^ k) d) as [Hd|Hd]; [lia|].
      pose proof (peval_all_zero T (padd p (pscale (fopp f1) q)) (subgroup T k) (subgroup_nodup T k L)) as Z.
      assert (fadd (nth i p f0) (fmul (fopp f1) (nth i q f0)) = f0) as Zi.
      { rewrite <- nth_pscale, <- nth_padd. apply Z.
        - rewrite padd_length, pscale_length. unfold subgroup. rewrite map_length, seq_length. lia.
        - intros r Ir. unfold subgroup in Ir. apply in_map_iff in Ir as (j & <- & Ij). apply in_seq in Ij.
          rewrite psub_eval. pose proof (f_equal (fun l => nth (reverse_bits_len j k) l f0) (eq_trans (eq_sym E) Eq)) as X. cbv beta in X.
          rewrite !codeword_nth in X by apply rbl_lt. rewrite rbl_invol in X by lia. rewrite X. ring. }
      rewrite (nth_overflow q) in Zi by lia. transitivity (fadd (nth i p f0) (fmul (fopp f1) f0)); [ring|exact Zi].
  Qed.
End Dec.

(** ** C94 with one coefficient more *)
Section Slack.
  Variables V T : two_adic.
  Variable emb : V -> T.
  Variable D : nat.
  Variable monomial : nat -> T.
  Variable generator : V.
  Variable M0 : mmcs V.
  Variable M : mmcs T.
  Variable Ch : challenger (m_comm M) T.
  Variable observe : c_state Ch -> m_comm M0 -> option (c_state Ch).
  Variable config : fri_config.
  Variable debug : bool.
  Hypothesis E : embedding V T emb.
  Hypothesis Ng : generator <> f0.
  Add Field VFE : (fth V).
  Add Field TFE2 : (fth T).
  Notation recombined := (recombined V T emb monomial generator).
  Local Open Scope F_scope.
  Lemma cpoly_slack k ps pv : Forall (fun p : list V => (length p <= 2 ^ k + 1)%nat) ps ->
    forall w np e s, symbolic_of V w np e = Some s -> (length (cpoly V k ps pv e) <= degree_multiple V s * 2 ^ k + transitions V e + 1)%nat.
  Proof.
    intros F w np. set (n := (2 ^ k)%nat) in *. assert (1 <= n)%nat as L1 by (pose proof (Nat.pow_nonzero 2 k); unfold n; lia).
    assert (forall i, (length (nth i ps []) <= n + 1)%nat) as Ln.
    { intros i. destruct (Nat.lt_ge_cases i (length ps)) as [L|L]; [|rewrite nth_overflow by exact L; cbn; lia].
      rewrite Forall_forall in F. apply F, nth_In, L. }
    induction e as [i|i|i| | | |c|x IHx y IHy|x IHx y IHy|x IHx|x IHx y IHy]; intros s Es; cbn [symbolic_of] in Es.
    1,2,3: match type of Es with (if ?b then _ else _) = _ => destruct b end; [|discriminate]; injection Es as <-;
      cbn [cpoly degree_multiple var_degree_multiple transitions].
    - specialize (Ln i). lia.
    - rewrite pcomp_length. specialize (Ln i). lia.
    - cbn. lia.
    - injection Es as <-. cbn [cpoly degree_multiple transitions]. rewrite pfirst_length. fold n. lia.
    - injection Es as <-. cbn [cpoly degree_multiple transitions]. rewrite plast_length. fold n. lia.
    - injection Es as <-. cbn. lia.
    - injection Es as <-. cbn. lia.
    - destruct (symbolic_of V w np x) as [sx|], (symbolic_of V w np y) as [sy|]; try discriminate. injection Es as <-.
      cbn [cpoly s_add degree_multiple transitions]. rewrite padd_length. specialize (IHx _ eq_refl). specialize (IHy _ eq_refl). nia.
    - destruct (symbolic_of V w np x) as [sx|], (symbolic_of V w np y) as [sy|]; try discriminate. injection Es as <-.
      cbn [cpoly s_sub degree_multiple transitions]. rewrite padd_length, pscale_length. specialize (IHx _ eq_refl). specialize (IHy _ eq_refl). nia.
    - destruct (symbolic_of V w np x) as [sx|]; try discriminate. injection Es as <-.
      cbn [cpoly s_neg degree_multiple transitions]. rewrite pscale_length. now apply IHx.
    - destruct (symbolic_of V w np x) as [sx|], (symbolic_of V w np y) as [sy|]; try discriminate. injection Es as <-.
      cbn [cpoly s_mul degree_multiple transitions]. specialize (IHx _ eq_refl). specialize (IHy _ eq_refl).
      pose proof (pmul_length V (cpoly V k ps pv x) (cpoly V k ps pv y) (degree_multiple V sx * n + transitions V x) (degree_multiple V sy * n + transitions V y)
        ltac:(lia) ltac:(lia)). nia.
  Qed.
  Lemma lengths_slack k ps pv (ar : air V) d : get_max_constraint_degree V ar (length pv) = Some d ->
    Forall (fun p => (length p <= 2 ^ k + 1)%nat) ps -> Forall (fun c => (transitions V (as_zero c) < Nat.max 2 d)%nat) (air_eval ar) ->
    Forall (fun c => (length (cpoly V k ps pv (as_zero c)) <= Nat.max 2 d * (2 ^ k + 1))%nat) (air_eval ar).
  Proof.
    intros Ed F Ft. pose proof (symbolic_each V ar _ d Ed) as Fs. rewrite Forall_forall in *. intros c I.
    destruct (Fs c I) as (s & Es & Ld). specialize (Ft c I). pose proof (cpoly_slack k ps pv (proj2 (Forall_forall _ _) F) _ _ _ _ Es) as L.
    assert (1 <= 2 ^ k)%nat by (pose proof (Nat.pow_nonzero 2 k); lia). nia.
  Qed.
  (** the recombined quotient is a polynomial *)
  Lemma recombined_slack k a (pss : list (list (list V))) : (k + a <= two_adicity V)%nat -> Forall (Forall (fun p => (length p <= 2 ^ k + 1)%nat)) pss ->
    exists R, (length R <= 2 ^ a * 2 ^ k + 1)%nat /\ forall x, recombined k a (map (map (fun p => peval (map emb p) x)) pss) x = peval R x.
  Proof.
    intros L F. set (n := (2 ^ k)%nat). set (m := (2 ^ a)%nat).
    assert (1 <= n)%nat as Ln by (pose proof (Nat.pow_nonzero 2 k); unfold n; lia).
    assert (1 <= m)%nat as Lm by (pose proof (Nat.pow_nonzero 2 a); unfold m; lia).
    set (P := fun c => psums (map (fun e => pscale (monomial e) (map emb (nth e (nth c pss []) []))) (seq 0 (length (nth c pss []))))).
    assert (forall c x, peval (P c) x = from_coordinates T monomial (nth c (map (map (fun p => peval (map emb p) x)) pss) [])) as EP.
    { intros c x. change [] with (map (fun p : list V => peval (map emb p) x) []) at 1. rewrite map_nth.
      unfold P, from_coordinates. rewrite peval_psums, map_map, map_length. f_equal. apply map_ext_in. intros e I. apply in_seq in I.
      rewrite peval_pscale. f_equal. set (h := fun p : list V => peval (map emb p) x).
      rewrite (nth_indep (map h (nth c pss [])) 0 (h [])) by (rewrite map_length; lia). now rewrite (map_nth h). }
    assert (forall c, (length (P c) <= n + 1)%nat) as LP.
    { intros c. apply psums_length. apply Forall_forall. intros q I. apply in_map_iff in I as (e & <- & I). rewrite pscale_length, map_length. apply in_seq in I.
      destruct (Nat.lt_ge_cases c (length pss)) as [Lc|Lc]; [|rewrite nth_overflow in I by exact Lc; cbn in I; lia].
      rewrite Forall_forall in F. specialize (F _ (nth_In pss [] Lc)). rewrite Forall_forall in F. apply F, nth_In. lia. }
    exists (psums (map (fun c => pmul (wpoly V T emb k a generator c (seq 0 m)) (P c)) (seq 0 m))). split.
    - apply psums_length. apply Forall_forall. intros p Hp. apply in_map_iff in Hp as (i & <- & Hi). apply in_seq in Hi.
      pose proof (wpoly_length V T emb k a generator L i (seq 0 m)) as X. rewrite (filter_ne V k a L) in X by (try apply seq_NoDup; apply in_seq; lia).
      rewrite seq_length in X. pose proof (pmul_length T (wpoly V T emb k a generator i (seq 0 m)) (P i) ((m - 1) * n) n X (LP i)). nia.
    - intros x. rewrite peval_psums, map_map. unfold PropStark.recombined. f_equal. apply map_ext_in. intros c Hc. apply in_seq in Hc.
      rewrite peval_pmul, wpoly_ok, EP. f_equal. symmetry. apply (weight_eq V T emb monomial generator E Ng k a c x L). fold m. lia.
  Qed.
  Lemma violations_slack : forall k a (ar : air V) trace pv ps alphas, (k + a < 64)%nat -> (k + a <= two_adicity V)%nat ->
    has_rows trace k -> width V trace = air_width ar -> get_log_quotient_degree V ar (length pv) = Some a ->
    simple_selectors V ar (length pv) ->
    Forall (fun p => (length p <= 2 ^ k + 1)%nat) ps -> tabulates trace (2 ^ k) (fun i => gen k ^ i) ps ->
    check_constraints V ar trace pv = false ->
    NoDup alphas ->
    (forall alpha, In alpha alphas -> exists pss zetas, Forall (Forall (fun p => (length p <= 2 ^ k + 1)%nat)) pss /\
       NoDup zetas /\ ((2 ^ a + 1) * (2 ^ k + 1) <= length zetas)%nat /\
       forall zeta, In zeta zetas -> PropSound.accepted_at V T emb D monomial generator M0 M Ch observe config debug k ar pv ps pss alpha zeta) ->
    (length alphas < length (air_eval ar))%nat.
  Proof.
    intros k a ar trace pv ps alphas L64 L Hr Hw Hq (Hs & Htr) Fp Tp Ck ND A. assert (k <= two_adicity V)%nat as Lk by lia.
    assert (length ps = air_width ar) as Lp by (rewrite <- Hw; symmetry; exact (proj1 Tp)).
    destruct (get_max_constraint_degree V ar (length pv)) as [d|] eqn:Ed; [|unfold get_log_quotient_degree in Hq; rewrite Ed in Hq; discriminate].
    specialize (Htr d eq_refl).
    assert (indices_ok V ps pv (air_eval ar)) as Io.
    { unfold indices_ok. rewrite Lp. eapply Forall_impl; [|exact (symbolic_each V ar _ d Ed)]. intros c (s & Es & _). now exists s. }
    pose proof (lengths_slack k ps pv ar d Ed Fp Htr) as FL.
    destruct (violated V T monomial k ar trace pv ps Lk Hr Tp Ck Hs Io) as (i & c & Hi & Ic & Nc).
    set (n := (2 ^ k)%nat) in *. set (m := (2 ^ a)%nat) in *.
    assert (1 <= n)%nat as Ln by (pose proof (Nat.pow_nonzero 2 k); unfold n; lia).
    assert (1 <= m)%nat as Lm by (pose proof (Nat.pow_nonzero 2 a); unfold m; lia).
    assert (Nat.max 2 d * (n + 1) <= (m + 1) * (n + 1))%nat as Ld.
    { pose proof (log2_up_cover d) as Lc. unfold get_log_quotient_degree in Hq. rewrite Ed in Hq. injection Hq as Ea. rewrite Ea in Lc. fold m in Lc.
      apply Nat.mul_le_mono_r. lia. }
    set (vals := map (fun c => hpeval V T emb (cpoly V k ps pv (as_zero c)) (emb (gen k ^ i))) (air_eval ar)).
    replace (length (air_eval ar)) with (length vals) by apply map_length.
    apply (C41_few_bad_alphas T vals alphas); [|exact ND|].
    - apply Exists_exists. exists (hpeval V T emb (cpoly V k ps pv (as_zero c)) (emb (gen k ^ i))). split.
      + apply in_map_iff. eauto.
      + unfold hpeval. rewrite <- (emb_peval _ _ _ E). intros Z. apply Nc. apply (emb_inj _ _ _ E). now rewrite Z, (emb_0 _ _ _ E).
    - intros alpha Ia. destruct (A alpha Ia) as (pss & zetas & Fs & NDz & Lz & Acc).
      destruct (recombined_slack k a pss L Fs) as (R & LR & ER). fold n m in LR.
      rewrite combined_horner. unfold vals. rewrite <- folded_ok.
      set (Fo := folded V T emb k ps pv alpha (air_eval ar)).
      pose proof (folded_length V T emb k Lk ps pv alpha (air_eval ar) _ FL) as LF. fold Fo in LF.
      (* folded - (X^n - 1) R *)
      set (Z := padd (xpow T n) [- (1)]). 
      assert (forall x, peval Z x = x ^ n - 1) as EZ by (intros x; unfold Z; rewrite peval_padd, xpow_ok; cbn [peval]; ring).
      assert (length Z <= n + 1)%nat as LZ by (unfold Z, xpow; rewrite padd_length, app_length, repeat_length; cbn; lia).
      assert (forall x, peval (padd Fo (pscale (- (1)) (pmul Z R))) x = 0) as Zero.
      { apply (poly_roots T zetas); [exact NDz| |].
        - rewrite padd_length, pscale_length. assert (length (pmul Z R) <= (m + 1) * (n + 1))%nat; [|lia].
          pose proof (pmul_length T Z R n (m * n) LZ LR). nia.
        - intros zeta Iz. destruct (Acc zeta Iz) as (ch & ch1 & ch' & pf & Ek & Tr & (O1 & O2 & O3) & Vf).
          apply (C46_accepts_iff V T emb D monomial generator M0 M Ch observe config debug E Ng k a ar ch pf pv ch' Ek Hq L64 L) in Vf
            as (Gs & alpha' & zeta' & ch2 & vs & Tr' & _ & Nz & Cv & Eq).
          destruct (transcript_fun V T M0 M Ch observe _ _ _ _ _ _ _ _ _ Tr Tr') as (<- & <-).
          assert (opened_window V T emb M0 M Ch k pf pv zeta = window_at V T emb k ps pv zeta) as Ew.
          { unfold opened_window, window_at. rewrite O1, O2. f_equal. apply map_ext. intros p. f_equal. ring. }
          rewrite Ew, (window_poly V T emb k ps pv zeta E Lk Nz) in Cv.
          pose proof (C41_folding V T T emb (fun y => y) alpha _ (air_eval ar) vs Cv) as Ef. rewrite (StarkProofs.fold_at V T emb E k ps pv alpha (air_eval ar) zeta Io) in Ef.
          injection Ef as Ef. rewrite map_id in Ef. fold Fo in Ef. rewrite <- Ef, O3, ER in Eq.
          rewrite peval_padd, peval_pscale, peval_pmul, EZ, <- Eq. fold n. field. now apply fsub_nz. }
      specialize (Zero (emb (gen k ^ i))). rewrite peval_padd, peval_pscale, peval_pmul, EZ in Zero.
      rewrite <- (emb_pow _ _ _ E) in Zero. unfold n in Zero. rewrite (g_pow_n V k Lk), (emb_1 _ _ _ E) in Zero. rewrite <- Zero. ring.
  Qed.
End Slack.

(** ** The commitment scheme *)
Section Pcs.
  Variables V T : two_adic.
  Variable emb : V -> T.
  Variable generator : V.
  Variable M0 : mmcs V.
  Variable M : mmcs T.
  Variable Ch : challenger (m_comm M) T.
  Variable config : fri_config.
  Variable debug : bool.
  Notation lb := (log_blowup config).
  Notation mat := (coset V * matrix V * list T)%type.
  Notation IP := (list (batch_opening V M0)).
  Notation fproof := (fri_proof T M Ch IP).

  (** ** Specification *)
  (** All matrices have 2^K rows. *)
  Definition one_height (K : nat) (rs : list (list mat)) : Prop := rs <> [] /\ Forall (fun r => r <> [] /\ Forall (fun x => log_n (dom V T x) + lb = K) r) rs.
  (** The reduced openings of the matrices of height 2^K with the challenge fa, over all positions: the sums of
      the (p(x) - y) / (x - z) with the powers of fa (C39 shows that the verifier computes them, C95 what they say). *)
  Definition reduced_word (K : nat) (rs : list (list mat)) (opened : list (list (list (list T)))) (fa : T) : list T :=
    map (fun j => peval (summands V T emb generator config K j rs opened) fa) (seq 0 (2 ^ K)).
  (** All openings of the proof read the committed matrices and the words of the layers. *)
  Definition reads (K : nat) (rs : list (list mat)) (comms : list (m_comm M0)) (words : list (list T)) (opening : fproof) (challenges : fri_challenges T) : Prop :=
    Forall2 (fun tq qp => snd tq < 2 ^ K /\
        opened T M (fst tq) (snd tq) words (commit_phase_commits T M Ch IP opening) (commit_phase_openings T M IP qp) /\
        exists proofs, length proofs = length rs /\
          input_proof T M IP qp = List.combine (map (queried V T config K (snd tq)) rs) proofs /\
          Forall (fun rcp => m_verify_batch M0 (fst tq) (queried V T config K (snd tq) (fst (fst rcp))) (snd rcp) (snd (fst rcp)) = Ok tt)
            (List.combine (List.combine rs comms) proofs))
      (query_indices T challenges) (query_proofs T M Ch IP opening).
  (** No challenge is the unlucky one of its layer (C93: there is at most one for each layer). *)
  Definition all_lucky (K : nat) (words : list (list T)) (bs : list T) : Prop :=
    forall i b w, nth_error bs i = Some b -> nth_error words i = Some w -> ~ unlucky T lb (K - S i) w b.
  (** The claimed values survive the batching challenge fa: with some layers, the first one being the word of the
      reduced openings, and lucky challenges bs, more than (2^K - 2)^n lists of n query positions are accepted. *)
  Definition survives (K : nat) (rs : list (list mat)) (comms : list (m_comm M0)) (opened : list (list (list (list T)))) (fa : T) : Prop :=
    exists words (cs : list (m_comm M)) bs n qss,
      let layers := reduced_word K rs opened fa :: words in
      length cs + lb = K /\ length bs = length cs /\ length layers = length bs /\ halving T K layers /\ all_lucky K layers bs /\
      NoDup qss /\ (2 ^ K - 2) ^ n < length qss /\
      exists final, forall qs, In qs qss -> length qs = n /\ exists opening challenges,
        commit_phase_commits T M Ch IP opening = cs /\ final_poly T M Ch IP opening = final /\ betas T challenges = bs /\ map snd (query_indices T challenges) = qs /\
        reads K rs comms layers opening challenges /\
        verify_challenges T M Ch IP (m_err M0) config debug (pcs_open_input V T emb generator M0 config fa K (told_all V T M0 rs comms opened)) opening challenges = Ok tt.

  (** ** Proof *)
  Lemma f2_impl {A B} (P Q : A -> B -> Prop) : (forall a b, P a b -> Q a b) -> forall l m, Forall2 P l m -> Forall2 Q l m.
  Proof. intros H l m F. induction F; constructor; auto. Qed.
  Lemma only_height K rs : one_height K rs -> forall k, has_height V T config k rs = (k =? K).
  Proof.
    intros (N & F) k. unfold has_height. destruct (Nat.eqb_spec k K) as [->|Nk].
    - destruct rs as [|r rs]; [contradiction|]. inversion_clear F as [|? ? (Nr & Fr) _]. destruct r as [|x r]; [contradiction|]. inversion_clear Fr as [|? ? Ex _].
      cbn [existsb]. rewrite Ex, Nat.eqb_refl. reflexivity.
    - clear N. induction F as [|r rs (_ & Fr) F IH]; [reflexivity|]. cbn [existsb]. rewrite IH, orb_false_r. clear F IH.
      induction Fr as [|x r Ex Fr IH]; [reflexivity|]. cbn [existsb]. rewrite IH, orb_false_r, Ex. apply Nat.eqb_neq. congruence.
  Qed.
  Lemma desc_only {A} (v : A) K : desc (S K) (fun k => if k =? K then Some v else None) = [v].
  Proof.
    cbn [desc]. rewrite Nat.eqb_refl. f_equal. assert (forall n, n <= K -> desc n (fun k => if k =? K then Some v else None) = []) as G; [|now apply G].
    induction n as [|n IH]; intros L; [reflexivity|]. cbn [desc]. destruct (Nat.eqb_spec n K) as [X|_]; [lia|]. apply IH. lia.
  Qed.
  Lemma reduced_length K rs opened fa : length (reduced_word K rs opened fa) = 2 ^ K.
  Proof. unfold reduced_word. now rewrite map_length, seq_length. Qed.
  Lemma input_read K rs comms opened fa qt q proofs : deep_setting V T emb generator M0 config K K rs comms opened -> one_height K rs -> q < 2 ^ K -> length proofs = length rs ->
    Forall (fun rcp => m_verify_batch M0 qt (queried V T config K q (fst (fst rcp))) (snd rcp) (snd (fst rcp)) = Ok tt) (List.combine (List.combine rs comms) proofs) ->
    pcs_open_input V T emb generator M0 config fa K (told_all V T M0 rs comms opened) qt q (List.combine (map (queried V T config K q) rs) proofs) =
    Ok (ros T q K [reduced_word K rs opened fa]).
  Proof.
    intros (E & Ng & L & Lk & F & Lc & Fo) OH Hq Lp Vb.
    rewrite (C39_verifier V T emb generator M0 config (fun _ _ _ => None) fa K qt q rs comms proofs opened L Hq F Lc Lp Fo Vb). f_equal.
    rewrite (desc_ext (S K) _ (fun k => if k =? K then Some (K, nth q (reduced_word K rs opened fa) f0) else None)).
    - rewrite desc_only. unfold ros. cbn [map]. now rewrite reduced_length, Nat.log2_pow2, Nat.sub_diag, Nat.div_1_r by lia.
    - intros k Hk. rewrite (only_height K rs OH). destruct (Nat.eqb_spec k K) as [->|_]; [|reflexivity]. do 2 f_equal.
      rewrite Nat.sub_diag, Nat.div_1_r. unfold reduced_word. now rewrite nth_map_seq.
  Qed.
  Lemma survives_low K rs comms opened fa : deep_setting V T emb generator M0 config K K rs comms opened -> one_height K rs -> survives K rs comms opened fa ->
    codeword_of T lb K (reduced_word K rs opened fa).
  Proof.
    intros DS OH (words & cs & bs & n & qss & Ec & Lb & Ll & Hh & Lu & Nq & Lq & final & A). pose proof DS as (E & Ng & L & _).
    assert (K <= two_adicity T) as Lt by (pose proof (emb_adicity _ _ _ E); lia). cbn [length] in Ll.
    destruct (low_dec T K (2 ^ (K - lb)) (reduced_word K rs opened fa) Lt (reduced_length _ _ _ _)) as [Y|N]; [exact Y|exfalso].
    pose proof (C96_not_a_codeword T config words (reduced_word K rs opened fa) K [] bs final n qss ltac:(lia) ltac:(lia) Lt Ll Hh Logic.I N Lu Nq) as B.
    enough (length qss <= (2 ^ K - 2) ^ n) by lia. apply B. apply Forall_forall. intros qs Iq. destruct (A qs Iq) as (Ln & opening & challenges & C1 & C2 & C3 & C4 & Rd & Ok1).
    split; [exact Ln|].
    apply (C96_verify_iff T config M Ch IP (m_err M0) debug _ opening challenges (reduced_word K rs opened fa) (reduced_word K rs opened fa) words [] K) in Ok1.
    - rewrite <- C4. apply Forall_map. rewrite Forall_forall in Ok1 |- *. intros tq It. split.
      + clear - Rd It. induction Rd as [|t p ts ps (H & _) Rd IH]; [contradiction|]. destruct It as [->|It]; [exact H|now apply IH].
      + rewrite <- C2, <- C3. now apply Ok1.
    - rewrite C1. lia.
    - exact Lt.
    - exact Hh.
    - now rewrite C1, C3.
    - apply reduced_length.
    - exact Logic.I.
    - revert Rd. unfold reads. apply f2_impl. intros tq qp (Hq & Ho & proofs & Lp & Ei & Vb). split; [exact Hq|]. split; [exact Ho|]. rewrite Ei. now apply (input_read K rs comms opened fa _ _ proofs).
  Qed.

  (** ** Theorem *)
  (** If the claimed values survive as many batching challenges as there are claimed values, they are right. *)
  Theorem C97_openings : forall K rs comms opened fas, deep_setting V T emb generator M0 config K K rs comms opened -> one_height K rs ->
    NoDup fas -> length (claims V T config K rs opened) <= length fas -> (forall fa, In fa fas -> survives K rs comms opened fa) ->
    Forall (right V T emb generator K (2 ^ (K - lb))) (claims V T config K rs opened).
  Proof.
    intros K rs comms opened fas DS OH ND Lf A. pose proof DS as (E & Ng & L & Lk & F & Lc & Fo).
    assert (Forall (good T (2 ^ K) (2 ^ (K - lb)) (at_point V T emb generator K)) (map (term V T emb generator K) (claims V T config K rs opened))) as G.
    { apply (all_good T (2 ^ K) (2 ^ (K - lb)) (at_point V T emb generator K) (length (claims V T config K rs opened)) _ fas); [apply map_length|exact Lf|exact ND|].
      intros fa Ia. pose proof (survives_low K rs comms opened fa DS OH (A fa Ia)) as Cw.
      apply (codeword_good V T emb generator) in Cw; [|exact E|exact Ng|lia|apply reduced_length].
      apply (good_ext _ _ _ _ _ _ Cw). intros j Hj. unfold reduced_word. rewrite nth_map_seq by exact Hj.
      rewrite (summands_claims V T emb generator config K K rs opened j F Hj). unfold comb. now rewrite map_map. }
    rewrite Forall_forall in G |- *. intros c Ic. apply (term_right V T emb generator M0 config K K _ rs comms opened c DS Ic). apply G. now apply in_map.
  Qed.
End Pcs.

(** ** Columns of low degree *)
Section Columns.
  Variables V T : two_adic.
  Variable emb : V -> T.
  Variable generator : V.
  Hypothesis E : embedding V T emb.
  Hypothesis Ng : generator <> f0.
  Add Field VFC : (fth V).
  Add Field TFC : (fth T).
  Definition at_row (K j : nat) : V := fmul generator (fpow (gen K) (reverse_bits_len j K)).
  Lemma choose {A} (d : A) (R : nat -> A -> Prop) : forall w, (forall c, c < w -> exists p, R c p) -> exists ps, length ps = w /\ forall c, c < w -> R c (nth c ps d).
  Proof.
    induction w as [|w IH]; intros H; [exists []; split; [reflexivity|lia]|]. destruct IH as (ps & L & Hp); [intros; apply H; lia|]. destruct (H w ltac:(lia)) as (p & Rp).
    exists (ps ++ [p]). split; [rewrite app_length; cbn; lia|]. intros c Hc. destruct (Nat.eq_dec c w) as [->|N].
    - rewrite <- L at 2. now rewrite nth_middle.
    - rewrite app_nth1 by lia. apply Hp. lia.
  Qed.
  (** a column of values of V that agrees with a short polynomial over T agrees with one over V *)
  Lemma descend K d (v : nat -> V) (P : list T) : K <= two_adicity V -> length P <= d -> d <= 2 ^ K ->
    (forall j, j < 2 ^ K -> peval P (at_point V T emb generator K j) = emb (v j)) ->
    exists p, length p <= d /\ (forall j, j < 2 ^ K -> peval p (at_row K j) = v j) /\ forall z, peval (map emb p) z = peval P z.
  Proof.
    intros L LP Ld H. destruct (interpolant V K generator (fun i => v (reverse_bits_len i K)) L Ng) as (p0 & L0 & E0).
    assert (forall j, j < 2 ^ K -> peval p0 (at_row K j) = v j) as E1.
    { intros j Hj. unfold at_row. rewrite E0 by apply rbl_lt. now rewrite rbl_invol. }
    assert (forall i, nth i (padd (map emb p0) (pscale (fopp f1) P)) f0 = f0) as Z.
    { apply (peval_all_zero T) with (rs := map (at_point V T emb generator K) (seq 0 (2 ^ K))).
      - exact (domain_nodup V T emb generator K E Ng L).
      - rewrite padd_length, pscale_length, !map_length, seq_length. lia.
      - intros r Ir. apply in_map_iff in Ir as (j & <- & Ij). apply in_seq in Ij. rewrite psub_eval, H by lia. unfold at_point.
        rewrite <- (emb_peval V T emb E). fold (at_row K j). rewrite E1 by lia. ring. }
    assert (forall i, nth i (map emb p0) f0 = nth i P f0) as C.
    { intros i. specialize (Z i). rewrite nth_padd, nth_pscale in Z. transitivity (fadd (fadd (nth i (map emb p0) f0) (fmul (fopp f1) (nth i P f0))) (nth i P f0)); [ring|]. rewrite Z. ring. }
    assert (forall i, d <= i -> nth i p0 f0 = f0) as Hi.
    { intros i Hi. specialize (C i). rewrite (nth_overflow P) in C by lia. rewrite <- (emb_0 _ _ _ E), map_nth in C. now apply (emb_inj V T emb E) in C. }
    exists (firstn d p0). split; [rewrite firstn_length; lia|]. split; [intros j Hj; now rewrite firstn_peval, E1|].
    intros z. rewrite <- firstn_map, firstn_peval.
    - pose proof (firstn_peval T (2 ^ K)) as _. apply (fsub_0 T). rewrite <- psub_eval.
      assert (forall q : list T, (forall i, nth i q f0 = f0) -> peval q z = f0) as Q.
      { induction q as [|c q IH]; intros Hq; [reflexivity|]. cbn [peval]. rewrite IH by (intros i; apply (Hq (S i))). pose proof (Hq 0) as X. cbn in X. rewrite X. ring. }
      apply Q, Z.
    - intros i Hd. rewrite C. apply nth_overflow. lia.
  Qed.
  (** the same for all columns of a matrix *)
  Lemma columns K d (m : matrix V) : K <= two_adicity V -> d <= 2 ^ K -> has_rows m K ->
    (forall c, c < width V m -> exists P : list T, length P <= d /\ forall j, j < 2 ^ K -> peval P (at_point V T emb generator K j) = emb (nth c (row_of m j) f0)) ->
    exists ps, Forall (fun p => length p <= d) ps /\ tabulates m (2 ^ K) (at_row K) ps.
  Proof.
    intros L Ld Hr H.
    destruct (choose [] (fun c p => length p <= d /\ forall j, j < 2 ^ K -> peval p (at_row K j) = nth c (row_of m j) f0) (width V m)) as (ps & Lp & Hp).
    { intros c Hc. destruct (H c Hc) as (P & LP & EP). destruct (descend K d (fun j => nth c (row_of m j) f0) P L LP Ld EP) as (p & X & Y & _). exists p. auto. }
    exists ps. split.
    - apply Forall_forall. intros p Ip. apply (In_nth _ _ []) in Ip as (c & Hc & <-). apply Hp. lia.
    - apply tab_intro; [now symmetry|rewrite Lp; apply Hr|]. intros j Hj.
      pose proof (row_length V T generator (fun _ _ _ => None) f0 m K j Hr Hj) as Lr.
      apply nth_ext with (d := f0) (d' := f0); [now rewrite map_length, Lp|]. intros c Hc. rewrite Lr in Hc.
      rewrite (nth_indep (map _ ps) f0 ((fun p => peval p (at_row K j)) [])) by (rewrite map_length; lia). rewrite (map_nth (fun p => peval p (at_row K j))). symmetry. now apply Hp.
  Qed.
  (** and a right claim about such a column is the value of its polynomial *)
  Lemma right_value K d (m : matrix V) ps c (x : coset V * matrix V * list T) y z : K <= two_adicity V -> d + 1 <= 2 ^ K -> evals V T x = m -> Forall (fun p => length p <= d + 1) ps -> tabulates m (2 ^ K) (at_row K) ps ->
    c < width V m -> right V T emb generator K d (x, c, y, z) -> y = peval (map emb (nth c ps [])) z.
  Proof.
    intros L Ld Ex Fp Tb Hc (P & LP & EP & <-). rewrite Ex in EP. apply (fsub_0 T). rewrite <- psub_eval.
    assert (c < length ps) as Hc' by (rewrite <- (proj1 Tb); exact Hc).
    assert (length (nth c ps []) <= d + 1) as Lc by (rewrite Forall_forall in Fp; apply Fp, nth_In, Hc').
    apply (poly_roots T (map (at_point V T emb generator K) (seq 0 (2 ^ K)))).
    - exact (domain_nodup V T emb generator K E Ng L).
    - rewrite padd_length, pscale_length, !map_length, seq_length. lia.
    - intros r Ir. apply in_map_iff in Ir as (j & <- & Ij). apply in_seq in Ij. rewrite psub_eval, EP by lia. unfold at_point. rewrite <- (emb_peval V T emb E). fold (at_row K j).
      rewrite (tab_row V _ _ _ _ j Tb) by lia.
      rewrite (nth_indep (map _ ps) f0 ((fun p => peval p (at_row K j)) [])) by (rewrite map_length; lia). rewrite (map_nth (fun p => peval p (at_row K j))). ring.
  Qed.
End Columns.

(** ** The STARK *)
Section Stark.
  Variables V T : two_adic.
  Variable emb : V -> T.
  Variable D : nat.
  Variable monomial : nat -> T.
  Variable generator : V.
  Variable M0 : mmcs V.
  Variable M : mmcs T.
  Variable Ch : challenger (m_comm M) T.
  Variable observe : c_state Ch -> m_comm M0 -> option (c_state Ch).
  Variable config : fri_config.
  Variable debug : bool.
  Hypothesis E : embedding V T emb.
  Hypothesis Ng : generator <> f0.
  Notation lb := (log_blowup config).
  Notation IP := (list (batch_opening V M0)).
  Notation proof := (StarkModel.proof V T M0 M Ch).
  Notation verify := (StarkModel.verify V T emb D monomial generator M0 M Ch observe config debug).
  Notation transcript := (StarkModel.transcript V T M0 M Ch observe).
  Notation p_trace := (p_trace V T M0 M Ch). Notation p_quotient := (p_quotient V T M0 M Ch).
  Notation p_local := (p_local V T M0 M Ch). Notation p_next := (p_next V T M0 M Ch). Notation p_chunks := (p_chunks V T M0 M Ch).
  Notation p_opening := (p_opening V T M0 M Ch). Notation p_degree_bits := (p_degree_bits V T M0 M Ch).

  (** ** Specification *)
  (** What is committed: the matrix tm of the trace and the matrices qm of the quotient chunks, and where they
      are opened. *)
  Definition stark_rounds (k a : nat) (tm : matrix V) (qm : nat -> matrix V) (zeta : T) : list (list (coset V * matrix V * list T)) :=
    [[(trace_domain V k, tm, [zeta; fmul zeta (emb (gen k))])];
     map (fun c => (chunk_domain V generator k a c, qm c, [zeta])) (seq 0 (2 ^ a))].
  Definition stark_opened (a : nat) (local next : list T) (chunks : list (list T)) : list (list (list (list T))) :=
    [[[local; next]]; map (fun c => [nth c chunks []]) (seq 0 (2 ^ a))].
  (** After the commitments, alpha, zeta, the claimed values and the batching challenge fa are fixed, there are
      layers - the first one being the word of the reduced openings - and lucky folding challenges bs such that
      verify accepts for more than (2^K - 2)^n lists of n query positions. *)
  Definition stark_survives (k a : nat) (ar : air V) (pv : list V) (tm : matrix V) (tc : m_comm M0) (qm : nat -> matrix V) (qc : m_comm M0)
    (alpha zeta : T) (local next : list T) (chunks : list (list T)) (fa : T) : Prop :=
    let K := k + lb in let rs := stark_rounds k a tm qm zeta in
    exists words (cs : list (m_comm M)) bs n qss final,
      let layers := reduced_word V T emb generator config K rs (stark_opened a local next chunks) fa :: words in
      length cs = k /\ length bs = k /\ length layers = k /\ halving T K layers /\ all_lucky T config K layers bs /\
      NoDup qss /\ (2 ^ K - 2) ^ n < length qss /\
      forall qs, In qs qss -> length qs = n /\ exists pf ch ch1 ch2 ch3 challenges,
        p_degree_bits pf = k /\ p_trace pf = tc /\ p_quotient pf = qc /\ p_local pf = local /\ p_next pf = next /\ p_chunks pf = chunks /\
        commit_phase_commits T M Ch IP (p_opening pf) = cs /\ final_poly T M Ch IP (p_opening pf) = final /\
        transcript ch tc qc alpha zeta ch1 /\ c_sample Ch ch1 = Some (fa, ch2) /\
        verify_shape_and_sample_challenges T M Ch IP (m_err M0) config (p_opening pf) ch2 = Ok (challenges, ch3) /\
        betas T challenges = bs /\ map snd (query_indices T challenges) = qs /\
        reads V T M0 M Ch config K rs [tc; qc] layers (p_opening pf) challenges /\
        verify ar ch pf pv = Ok ch3.

  (** ** Proof *)
  Lemma combine_maps {A B C} (f : A -> B) (g : A -> C) l : List.combine (map f l) (map g l) = map (fun x => (f x, g x)) l.
  Proof. induction l; cbn; [reflexivity|]. now f_equal. Qed.
  Lemma told_stark k a tm qm zeta pf : told_all V T M0 (stark_rounds k a tm qm zeta) [p_trace pf; p_quotient pf] (stark_opened a (p_local pf) (p_next pf) (p_chunks pf)) =
    PropStark.claims V T emb generator M0 M Ch k a pf zeta.
  Proof.
    unfold told_all, stark_rounds, stark_opened, PropStark.claims. cbn [List.combine map fst snd]. unfold told, dom, points. cbn [fst snd List.combine].
    f_equal. f_equal. f_equal. rewrite combine_maps, map_map. reflexivity.
  Qed.
  Lemma stark_deep k a tm tc qm qc zeta local next chunks : k + lb <= two_adicity V -> has_rows tm (k + lb) -> (forall c, c < 2 ^ a -> has_rows (qm c) (k + lb)) ->
    outside V T emb generator (k + lb) zeta -> outside V T emb generator (k + lb) (fmul zeta (emb (gen k))) ->
    deep_setting V T emb generator M0 config (k + lb) (k + lb) (stark_rounds k a tm qm zeta) [tc; qc] (stark_opened a local next chunks) /\
    one_height V T config (k + lb) (stark_rounds k a tm qm zeta).
  Proof.
    intros L Ht Hq O1 O2. assert (2 ^ a <> 0) as Na by (apply Nat.pow_nonzero; lia).
    assert (forall A (f : nat -> A), map f (seq 0 (2 ^ a)) <> []) as Nm by (intros A f; destruct (2 ^ a); [lia|discriminate]).
    split.
    - split; [exact E|]. split; [exact Ng|]. split; [exact L|]. split; [lia|]. split; [|split; [reflexivity|]].
      + constructor; [|constructor; [|constructor]]; (split; [try discriminate; try apply Nm|]).
        * constructor; [|constructor]. split; [exact Ht|]. split; [cbn; lia|]. intros z [<-|[<-|[]]]; assumption.
        * apply Forall_forall. intros x I. apply in_map_iff in I as (c & <- & Ic). apply in_seq in Ic.
          split; [apply (Hq c); lia|]. split; [cbn; lia|]. intros z [<-|[]]; assumption.
      + constructor; [reflexivity|]. constructor; [now rewrite !map_length|constructor].
    - split; [discriminate|]. constructor; [|constructor; [|constructor]]; (split; [try discriminate; try apply Nm|]).
      + constructor; [reflexivity|constructor].
      + apply Forall_forall. intros x I. apply in_map_iff in I as (c & <- & _). reflexivity.
  Qed.
  Lemma stark_to_pcs k a ar pv tm tc qm qc alpha zeta local next chunks fa : k + a < 64 -> k + a <= two_adicity V ->
    get_log_quotient_degree V ar (length pv) = Some a ->
    stark_survives k a ar pv tm tc qm qc alpha zeta local next chunks fa ->
    survives V T emb generator M0 M Ch config debug (k + lb) (stark_rounds k a tm qm zeta) [tc; qc] (stark_opened a local next chunks) fa.
  Proof.
    intros L64 La Hq (words & cs & bs & n & qss & final & Lc & Lb & Ll & Hh & Lu & Nq & Lq & A). exists words, cs, bs, n, qss.
    split; [lia|]. split; [congruence|]. split; [congruence|]. split; [exact Hh|]. split; [exact Lu|]. split; [exact Nq|]. split; [exact Lq|]. exists final.
    intros qs Iq. destruct (A qs Iq) as (Ln & pf & ch & ch1 & ch2 & ch3 & challenges & Ek & E1 & E2 & E3 & E4 & E5 & E6 & E7 & Tr & Sa & Vs & Eb & Em & Rd & Vf).
    split; [exact Ln|]. exists (p_opening pf), challenges. split; [exact E6|]. split; [exact E7|]. split; [exact Eb|]. split; [exact Em|]. split; [exact Rd|].
    apply (C46_accepts_iff V T emb D monomial generator M0 M Ch observe config debug E Ng k a ar ch pf pv ch3 Ek Hq L64 La) in Vf
      as (Gs & alpha' & zeta' & ch1' & vs & Tr' & Pv & _).
    rewrite <- E1, <- E2 in Tr.
    assert (zeta' = zeta /\ ch1' = ch1) as (-> & ->).
    { clear - Tr Tr'. destruct Tr as (a1 & a2 & a3 & A1 & A2 & A3 & A4), Tr' as (b1 & b2 & b3 & B1 & B2 & B3 & B4).
      rewrite A1 in B1. injection B1 as <-. rewrite A2 in B2. injection B2 as <- <-. rewrite A3 in B3. injection B3 as <-. rewrite A4 in B4. injection B4 as <- <-. auto. }
    rewrite <- told_stark with (tm := tm) (qm := qm), E1, E2, E3, E4, E5 in Pv.
    unfold pcs_verify in Pv. rewrite Sa, Vs, E6, Lc in Pv. destruct (verify_challenges _ _ _ _ _ _ _ _ _ _) as [[]| |]; [reflexivity|discriminate|discriminate].
  Qed.
  (** the claims *)
  Lemma claims_stark k a tm qm zeta local next chunks : claims V T config (k + lb) (stark_rounds k a tm qm zeta) (stark_opened a local next chunks) =
    (let x := (trace_domain V k, tm, [zeta; fmul zeta (emb (gen k))]) in
     map (fun cy => (x, fst cy, snd cy, zeta)) (List.combine (seq 0 (width V tm)) local) ++
     map (fun cy => (x, fst cy, snd cy, fmul zeta (emb (gen k)))) (List.combine (seq 0 (width V tm)) next)) ++
    flat_map (fun c => map (fun cy => ((chunk_domain V generator k a c, qm c, [zeta]), fst cy, snd cy, zeta)) (List.combine (seq 0 (width V (qm c))) (nth c chunks [])))
      (seq 0 (2 ^ a)).
  Proof.
    unfold claims, stark_rounds, stark_opened. cbn [List.combine flat_map fst snd]. unfold dom, evals, points. cbn [fst snd trace_domain log_n List.combine flat_map].
    rewrite Nat.eqb_refl. cbn [flat_map fst snd]. rewrite !app_nil_r. f_equal. rewrite combine_maps.
    induction (seq 0 (2 ^ a)) as [|c l IH]; [reflexivity|]. cbn [map flat_map fst snd]. rewrite IH. f_equal. cbn [chunk_domain log_n]. rewrite Nat.eqb_refl.
    cbn [List.combine flat_map fst snd]. apply app_nil_r.
  Qed.
  Lemma claims_count k a tm qm zeta local next chunks : (forall c, c < 2 ^ a -> width V (qm c) = D) ->
    length (claims V T config (k + lb) (stark_rounds k a tm qm zeta) (stark_opened a local next chunks)) <= 2 * width V tm + 2 ^ a * D.
  Proof.
    intros Hq. rewrite claims_stark. cbv zeta. rewrite !app_length, !map_length, !combine_length, !seq_length.
    enough (forall l, (forall c, In c l -> c < 2 ^ a) -> length (flat_map (fun c => map (fun cy : nat * T => ((chunk_domain V generator k a c, qm c, [zeta]), fst cy, snd cy, zeta))
      (List.combine (seq 0 (width V (qm c))) (nth c chunks []))) l) <= length l * D) as G.
    { specialize (G (seq 0 (2 ^ a)) ltac:(intros c I; apply in_seq in I; lia)). rewrite seq_length in G. lia. }
    induction l as [|c l IH]; intros H; [cbn; lia|]. cbn [flat_map length]. rewrite app_length, map_length, combine_length, seq_length, Hq by (apply H; now left).
    specialize (IH ltac:(intros; apply H; now right)). lia.
  Qed.
  Lemma in_row {A} (d : A) (ys : list A) w c : length ys = w -> c < w -> In (c, nth c ys d) (List.combine (seq 0 w) ys).
  Proof.
    intros L Hc. replace (c, nth c ys d) with (nth c (List.combine (seq 0 w) ys) (0, d)); [apply nth_In; rewrite combine_length, seq_length; lia|].
    rewrite combine_nth by (now rewrite seq_length). now rewrite seq_nth.
  Qed.
  (** one zeta *)
  Lemma one_zeta k a ar pv tm tc qm qc alpha zeta local next chunks fas : 1 <= lb -> k + a < 64 -> k + a <= two_adicity V -> k + lb <= two_adicity V ->
    get_log_quotient_degree V ar (length pv) = Some a -> has_rows tm (k + lb) -> width V tm = air_width ar ->
    (forall c, c < 2 ^ a -> has_rows (qm c) (k + lb) /\ width V (qm c) = D) ->
    outside V T emb generator (k + lb) zeta -> outside V T emb generator (k + lb) (fmul zeta (emb (gen k))) ->
    NoDup fas -> 2 * air_width ar + 2 ^ a * D <= length fas ->
    (forall fa, In fa fas -> stark_survives k a ar pv tm tc qm qc alpha zeta local next chunks fa) ->
    (exists pf ch ch1 ch', p_degree_bits pf = k /\ p_local pf = local /\ p_next pf = next /\ p_chunks pf = chunks /\
       transcript ch (p_trace pf) (p_quotient pf) alpha zeta ch1 /\ verify ar ch pf pv = Ok ch') /\
    length local = width V tm /\ length next = width V tm /\ length chunks = 2 ^ a /\ Forall (fun c => length c = D) chunks /\
    (forall c, c < width V tm -> right V T emb generator (k + lb) (2 ^ k) ((trace_domain V k, tm, [zeta; fmul zeta (emb (gen k))]), c, nth c local f0, zeta) /\
       right V T emb generator (k + lb) (2 ^ k) ((trace_domain V k, tm, [zeta; fmul zeta (emb (gen k))]), c, nth c next f0, fmul zeta (emb (gen k)))) /\
    (forall i c, i < 2 ^ a -> c < D -> right V T emb generator (k + lb) (2 ^ k) ((chunk_domain V generator k a i, qm i, [zeta]), c, nth c (nth i chunks []) f0, zeta)).
  Proof.
    intros Hlb L64 La L Hq Ht Hw Hm O1 O2 ND Lf A.
    destruct (stark_deep k a tm tc qm qc zeta local next chunks L Ht (fun c Hc => proj1 (Hm c Hc)) O1 O2) as (DS & OH).
    pose proof (claims_count k a tm qm zeta local next chunks (fun c Hc => proj2 (Hm c Hc))) as Lc.
    assert (Forall (right V T emb generator (k + lb) (2 ^ (k + lb - lb))) (claims V T config (k + lb) (stark_rounds k a tm qm zeta) (stark_opened a local next chunks))) as R.
    { apply (C97_openings V T emb generator M0 M Ch config debug (k + lb) _ [tc; qc] _ fas DS OH ND); [rewrite <- Hw in Lf; lia|].
      intros fa Ia. exact (stark_to_pcs k a ar pv tm tc qm qc alpha zeta local next chunks fa L64 La Hq (A fa Ia)). }
    replace (k + lb - lb) with k in R by lia. rewrite claims_stark in R. cbv zeta in R. rewrite Forall_forall in R.
    assert (exists pf ch ch1 ch', p_degree_bits pf = k /\ p_local pf = local /\ p_next pf = next /\ p_chunks pf = chunks /\
       transcript ch (p_trace pf) (p_quotient pf) alpha zeta ch1 /\ verify ar ch pf pv = Ok ch') as Acc.
    { destruct fas as [|fa fas]; [destruct Ht as (Pw & _); cbn [length] in Lf; rewrite <- Hw in Lf; lia|]. destruct (A fa (or_introl eq_refl)) as (words & cs & bs & n & qss & final & _ & _ & _ & _ & _ & _ & Lq & Q).
      destruct qss as [|qs qss]; [cbn [length] in Lq; lia|]. destruct (Q qs (or_introl eq_refl)) as (_ & pf & ch & ch1 & ch2 & ch3 & challenges & Ek & E1 & E2 & E3 & E4 & E5 & _ & _ & Tr & _ & _ & _ & _ & _ & Vf).
      exists pf, ch, ch1, ch3. rewrite E1, E2. auto 10. }
    split; [exact Acc|]. destruct Acc as (pf & ch & ch1 & ch' & Ek & E3 & E4 & E5 & Tr & Vf).
    apply (C46_accepts_iff V T emb D monomial generator M0 M Ch observe config debug E Ng k a ar ch pf pv ch' Ek Hq L64 La) in Vf as ((S1 & S2 & S3 & S4) & _).
    rewrite E3, <- Hw in S1. rewrite E4, <- Hw in S2. rewrite E5 in S3, S4. split; [exact S1|]. split; [exact S2|]. split; [exact S3|]. split; [exact S4|]. split.
    - intros c Hc. split; apply R; apply in_or_app; left; apply in_or_app; [left|right]; apply in_map_iff.
      + exists (c, nth c local f0). split; [reflexivity|]. now apply in_row.
      + exists (c, nth c next f0). split; [reflexivity|]. now apply in_row.
    - intros i c Hi Hc. apply R, in_or_app. right. apply in_flat_map. exists i. split; [apply in_seq; lia|]. apply in_map_iff. exists (c, nth c (nth i chunks []) f0). split; [reflexivity|].
      rewrite (proj2 (Hm i Hi)). apply in_row; [|exact Hc]. rewrite Forall_forall in S4. apply S4, nth_In. lia.
  Qed.
  Lemma values_eq (ys : list T) (ps : list (list V)) z w : length ys = w -> length ps = w -> (forall c, c < w -> nth c ys f0 = peval (map emb (nth c ps [])) z) ->
    ys = map (fun p => peval (map emb p) z) ps.
  Proof.
    intros Ly Lp H. apply nth_ext with (d := f0) (d' := f0); [rewrite map_length; lia|]. intros c Hc. rewrite H by lia.
    rewrite (nth_indep (map _ ps) f0 ((fun p => peval (map emb p) z) [])) by (rewrite map_length; lia). now rewrite (map_nth (fun p => peval (map emb p) z)).
  Qed.

  (** ** Theorem *)
  (** Whatever is committed as the trace: if for as many alphas as there are constraints some quotient chunks can be
      committed such that for (2^a + 1)(2^k + 1) zetas some values can be claimed that survive as many batching
      challenges as there are values, then the columns of the committed trace have low degree, and the trace of
      their values on the trace domain satisfies the AIR. *)
  Theorem C97_sound : forall k a (ar : air V) pv tm tc alphas, 1 <= lb -> k + a < 64 -> k + a <= two_adicity V -> k + lb <= two_adicity V ->
    get_log_quotient_degree V ar (length pv) = Some a -> simple_selectors V ar (length pv) ->
    has_rows tm (k + lb) -> width V tm = air_width ar ->
    NoDup alphas -> alphas <> [] -> length (air_eval ar) <= length alphas ->
    (forall alpha, In alpha alphas -> exists qm qc zetas,
       (forall c, c < 2 ^ a -> has_rows (qm c) (k + lb) /\ width V (qm c) = D) /\
       NoDup zetas /\ (2 ^ a + 1) * (2 ^ k + 1) <= length zetas /\
       forall zeta, In zeta zetas ->
         outside V T emb generator (k + lb) zeta /\ outside V T emb generator (k + lb) (fmul zeta (emb (gen k))) /\
         exists local next chunks fas, NoDup fas /\ 2 * air_width ar + 2 ^ a * D <= length fas /\
           forall fa, In fa fas -> stark_survives k a ar pv tm tc qm qc alpha zeta local next chunks fa) ->
    exists ps trace, Forall (fun p => length p <= 2 ^ k + 1) ps /\
      tabulates tm (2 ^ (k + lb)) (fun j => fmul generator (fpow (gen (k + lb)) (reverse_bits_len j (k + lb)))) ps /\
      has_rows trace k /\ tabulates trace (2 ^ k) (fun i => fpow (gen k) i) ps /\ check_constraints V ar trace pv = true.
  Proof.
    intros k a ar pv tm tc alphas Hlb L64 La L Hq Hs Ht Hw ND Na Lal A.
    assert (2 ^ k + 1 <= 2 ^ (k + lb)) as Lk.
    { pose proof (Nat.pow_le_mono_r 2 (S k) (k + lb) ltac:(lia) ltac:(lia)) as X. rewrite Nat.pow_succ_r' in X. pose proof (Nat.pow_nonzero 2 k). lia. }
    assert (exists ps, Forall (fun p => length p <= 2 ^ k + 1) ps /\ tabulates tm (2 ^ (k + lb)) (at_row V generator (k + lb)) ps) as (ps & Fp & Tp).
    { destruct alphas as [|alpha alphas]; [contradiction|]. destruct (A alpha (or_introl eq_refl)) as (qm & qc & zetas & Hm & _ & Lz & Z).
      destruct zetas as [|zeta zetas]; [cbn [length] in Lz; lia|]. destruct (Z zeta (or_introl eq_refl)) as (O1 & O2 & local & next & chunks & fas & NDf & Lf & Sf).
      destruct (one_zeta k a ar pv tm tc qm qc alpha zeta local next chunks fas Hlb L64 La L Hq Ht Hw Hm O1 O2 NDf Lf Sf) as (_ & _ & _ & _ & _ & R & _).
      apply (columns V T emb generator E Ng (k + lb) (2 ^ k + 1) tm L Lk Ht). intros c Hc. destruct (R c Hc) as ((P & LP & EP & _) & _). exists P. auto. }
    assert (ps <> []) as Np by (intros ->; destruct Tp as (W & _); destruct Ht as (P & _); rewrite W in P; cbn in P; lia).
    set (trace := {| width := length ps; values := flat_map (fun i => map (fun p => peval p (fpow (gen k) i)) ps) (seq 0 (2 ^ k)) |} : matrix V).
    assert (tabulates trace (2 ^ k) (fun i => fpow (gen k) i) ps) as Tt by (split; reflexivity).
    pose proof (tab_rows V trace k _ ps Np Tt) as Hr. exists ps, trace. split; [exact Fp|]. split; [exact Tp|]. split; [exact Hr|]. split; [exact Tt|].
    destruct (check_constraints V ar trace pv) eqn:Ck; [reflexivity|exfalso].
    assert (width V trace = air_width ar) as Hwt by (rewrite <- Hw; symmetry; exact (proj1 Tp)).
    enough (length alphas < length (air_eval ar)) by lia.
    apply (violations_slack V T emb D monomial generator M0 M Ch observe config debug E Ng k a ar trace pv ps alphas L64 La Hr Hwt Hq Hs Fp Tt Ck ND).
    intros alpha Ia. destruct (A alpha Ia) as (qm & qc & zetas & Hm & NDz & Lz & Z).
    assert (exists pss : list (list (list V)), length pss = 2 ^ a /\ forall i, i < 2 ^ a -> Forall (fun p => length p <= 2 ^ k + 1) (nth i pss []) /\
      tabulates (qm i) (2 ^ (k + lb)) (at_row V generator (k + lb)) (nth i pss [])) as (pss & Lp & Hp).
    { destruct zetas as [|zeta zetas]; [cbn [length] in Lz; lia|]. destruct (Z zeta (or_introl eq_refl)) as (O1 & O2 & local & next & chunks & fas & NDf & Lf & Sf).
      destruct (one_zeta k a ar pv tm tc qm qc alpha zeta local next chunks fas Hlb L64 La L Hq Ht Hw Hm O1 O2 NDf Lf Sf) as (_ & _ & _ & _ & _ & _ & R).
      apply (choose [] (fun i ps => Forall (fun p => length p <= 2 ^ k + 1) ps /\ tabulates (qm i) (2 ^ (k + lb)) (at_row V generator (k + lb)) ps)).
      intros i Hi. destruct (Hm i Hi) as (Hri & Hwi). apply (columns V T emb generator E Ng (k + lb) (2 ^ k + 1) (qm i) L Lk Hri).
      intros c Hc. rewrite Hwi in Hc. destruct (R i c Hi Hc) as (P & LP & EP & _). exists P. auto. }
    exists pss, zetas. split.
    { apply Forall_forall. intros l Il. apply (In_nth _ _ []) in Il as (i & Hi & <-). apply Hp. lia. }
    split; [exact NDz|]. split; [exact Lz|]. intros zeta Iz. destruct (Z zeta Iz) as (O1 & O2 & local & next & chunks & fas & NDf & Lf & Sf).
    destruct (one_zeta k a ar pv tm tc qm qc alpha zeta local next chunks fas Hlb L64 La L Hq Ht Hw Hm O1 O2 NDf Lf Sf)
      as ((pf & ch & ch1 & ch' & Ek & E3 & E4 & E5 & Tr & Vf) & S1 & S2 & S3 & S4 & R1 & R2).
    exists ch, ch1, ch', pf. split; [exact Ek|]. split; [exact Tr|]. split; [|exact Vf].
    assert (length ps = width V tm) as Lps by (symmetry; exact (proj1 Tp)).
    split; [|split].
    - rewrite E3. apply (values_eq local ps zeta (width V tm) S1 Lps). intros c Hc.
      refine (right_value V T emb generator E Ng (k + lb) (2 ^ k) tm ps c _ _ _ L Lk _ Fp Tp Hc (proj1 (R1 c Hc))). reflexivity.
    - rewrite E4. apply (values_eq next ps _ (width V tm) S2 Lps). intros c Hc.
      refine (right_value V T emb generator E Ng (k + lb) (2 ^ k) tm ps c _ _ _ L Lk _ Fp Tp Hc (proj2 (R1 c Hc))). reflexivity.
    - rewrite E5. apply nth_ext with (d := []) (d' := []); [rewrite map_length; lia|]. intros i Hi. rewrite S3 in Hi.
      change (@nil T) with (map (fun p : list V => peval (map emb p) zeta) []) at 2. rewrite map_nth.
      destruct (Hp i Hi) as (Fi & Ti). destruct (Hm i Hi) as (Hri & Hwi).
      apply (values_eq (nth i chunks []) (nth i pss []) zeta D); [rewrite Forall_forall in S4; apply S4, nth_In; lia|rewrite <- Hwi; symmetry; exact (proj1 Ti)|].
      intros c Hc. refine (right_value V T emb generator E Ng (k + lb) (2 ^ k) (qm i) (nth i pss []) c _ _ _ L Lk _ Fi Ti _ (R2 i c Hi Hc)); [reflexivity|now rewrite Hwi].
  Qed.
End Stark.

(** ** Example *)
(** A challenger that answers as it is told. *)
Definition told_challenger (C : Type) : challenger C BabyBearT :=
  mk_challenger C BabyBearT (list BabyBearT * list nat) unit
    (fun s _ => Some s) (fun s => match fst s with a :: l => Some (a, (l, snd s)) | [] => None end)
    (fun s b => match snd s with i :: l => Some (i mod 2 ^ b, (fst s, l)) | [] => None end)
    (fun s _ _ => Some (true, s)) (fun s _ _ s' => s' = s).
Definition endC : challenger (m_comm exM) BabyBearT := told_challenger (m_comm exM).
Definition endO : c_state endC -> m_comm exM -> option (c_state endC) := c_observe endC.
Definition cfg1 : fri_config := {| log_blowup := 1; num_queries := 1; proof_of_work_bits := 0 |}.
(** One column that keeps the public value; the committed trace is constant, the quotient is zero. *)
Definition keep : air BabyBearT := {| air_width := 1; air_eval := [AssertEq (Local 0) (Pub 0); AssertEq (Next 0) (Local 0)] |}.
Definition seven : BabyBearT := of_Z 7.
Definition const_mat (c : BabyBearT) : matrix BabyBearT := {| width := 1; values := repeat c 4 |}.
Definition zeros : list BabyBearT := repeat f0 4.
Notation end_survives := (stark_survives BabyBearT BabyBearT exE 1 exMono exG exM exM endC endO cfg1 true 1 0 keep [seven]
  (const_mat seven) [const_mat seven] (fun _ => const_mat f0) [const_mat f0]).
Definition end_query (q : nat) : query_proof BabyBearT exM (list (batch_opening BabyBearT exM)) :=
  {| input_proof := [([[seven]], q : m_proof exM); ([[f0]], q : m_proof exM)]; commit_phase_openings := [([[f0; f0]], q / 2 : m_proof exM)] |}.
Definition end_opening (q : nat) : fri_proof BabyBearT exM endC (list (batch_opening BabyBearT exM)) :=
  {| commit_phase_commits := [[{| width := 2; values := zeros |}]] : list (m_comm exM); query_proofs := [end_query q]; final_poly := f0; pow_witness := tt : c_wit endC |}.
Definition end_proof (q : nat) : StarkModel.proof BabyBearT BabyBearT exM exM endC :=
  {| p_trace := [const_mat seven] : m_comm exM; p_quotient := [const_mat f0] : m_comm exM; p_local := [seven]; p_next := [seven]; p_chunks := [[f0]];
     p_opening := end_opening q; p_degree_bits := 1 |}.
Section Zero.
  Variable K : two_adic.
  Add Field KFZ : (fth K).
  Lemma fdiv_same (a b : K) : fdiv (fsub a a) b = f0.
  Proof. rewrite (Fdiv_def (fth K)). ring. Qed.
  Lemma three_zeros (a : K) : peval (f0 :: f0 :: f0 :: nil : list K) a = f0.
  Proof. cbn [peval]. ring. Qed.
  Lemma sub_same (a : K) : fsub a a = f0.
  Proof. ring. Qed.
  Lemma no_quotient (a b c d : K) : fmul (combined K a [f0; f0]) b = fadd (fmul c (fadd (fmul d f0) f0)) f0.
  Proof. unfold combined. cbn [length seq map nth Nat.sub fpow StarkModel.sum]. ring. Qed.
End Zero.
Notation end_rounds := (stark_rounds BabyBearT BabyBearT exE exG 1 0 (const_mat seven) (fun _ => const_mat f0)).
Lemma end_deep zeta : outside BabyBearT BabyBearT exE exG 2 zeta -> outside BabyBearT BabyBearT exE exG 2 (fmul zeta (exE (gen 1))) ->
  deep_setting BabyBearT BabyBearT exE exG exM cfg1 2 2 (end_rounds zeta) [[const_mat seven]; [const_mat f0]] (stark_opened BabyBearT 0 [seven] [seven] [[f0]]) /\
  one_height BabyBearT BabyBearT cfg1 2 (end_rounds zeta).
Proof.
  intros O1 O2. assert (forall c, has_rows (const_mat c) 2) as Hr by (intros c; split; [cbn; lia|reflexivity]).
  apply (stark_deep BabyBearT BabyBearT exE exMono exG exM exM endC endO cfg1 ex_embedding exG_nz 1 0 (const_mat seven) [const_mat seven] (fun _ => const_mat f0) [const_mat f0] zeta [seven] [seven] [[f0]]);
    [cbn; lia|apply Hr|intros; apply Hr|exact O1|exact O2].
Qed.
Lemma end_word zeta fa : outside BabyBearT BabyBearT exE exG 2 zeta -> outside BabyBearT BabyBearT exE exG 2 (fmul zeta (exE (gen 1))) ->
  reduced_word BabyBearT BabyBearT exE exG cfg1 2 (end_rounds zeta) (stark_opened BabyBearT 0 [seven] [seven] [[f0]]) fa = zeros.
Proof.
  intros O1 O2. destruct (end_deep zeta O1 O2) as ((_ & _ & _ & _ & F & _) & _).
  unfold reduced_word. change zeros with (map (fun _ => f0 : BabyBearT) (seq 0 (2 ^ 2))). apply map_ext_in. intros j Ij. apply in_seq in Ij.
  rewrite (summands_claims BabyBearT BabyBearT exE exG cfg1 2 2 (end_rounds zeta) _ j F) by lia.
  change 2 with (1 + log_blowup cfg1) at 2. rewrite claims_stark. cbn [const_mat width seq List.combine map app flat_map Nat.pow fst snd]. unfold term. cbn [evals fst snd].
  assert (forall c, nth 0 (row_of (const_mat c) j) f0 = c) as R.
  { intros c. cbn in Ij. destruct j as [|[|[|[|j]]]]; [reflexivity..|lia]. }
  unfold evals; cbn [fst snd nth map app]. rewrite !R. unfold exE. rewrite !(fdiv_same BabyBearT). apply (three_zeros BabyBearT).
Qed.
Lemma zeros_low : codeword_of BabyBearT 1 2 zeros.
Proof. apply low_iff. exists []. split; [cbn; lia|]. reflexivity. Qed.
Lemma end_reads q zeta : q < 4 -> reads BabyBearT BabyBearT exM exM endC cfg1 2 (end_rounds zeta) [[const_mat seven]; [const_mat f0]] [zeros] (end_opening q) {| query_indices := [(0, q)]; betas := [f1] |}.
Proof.
  intros Hq. constructor; [|constructor]. cbn [fst snd]. split; [cbn; lia|].
  split; [destruct q as [|[|[|[|q]]]]; [cbn; repeat split..|lia]|].
  exists [q : m_proof exM; q : m_proof exM]. split; [reflexivity|].
  destruct q as [|[|[|[|q]]]]; [..|lia]; (split; [reflexivity|repeat constructor]).
Qed.
Lemma end_verify alpha zeta fa q : outside BabyBearT BabyBearT exE exG 2 zeta -> outside BabyBearT BabyBearT exE exG 2 (fmul zeta (exE (gen 1))) -> fpow zeta 2 <> f1 -> q < 4 ->
  verify BabyBearT BabyBearT exE 1 exMono exG exM exM endC endO cfg1 true keep ([alpha; zeta; fa; f1], [q]) (end_proof q) [seven] = Ok ([], []).
Proof.
  intros O1 O2 Nz Hq. destruct (end_deep zeta O1 O2) as (DS & OH).
  apply (C46_accepts_iff BabyBearT BabyBearT exE 1 exMono exG exM exM endC endO cfg1 true ex_embedding exG_nz 1 0 keep ([alpha; zeta; fa; f1], [q]) (end_proof q) [seven] ([], []));
    [reflexivity|vm_compute; reflexivity|lia|cbn; lia|].
  split; [repeat split; repeat constructor|]. exists alpha, zeta, ([fa; f1], [q]), [f0; f0].
  split; [exists ([alpha; zeta; fa; f1], [q]), ([zeta; fa; f1], [q]), ([zeta; fa; f1], [q]); repeat split|]. split; [|split; [exact Nz|split]].
  - rewrite <- (told_stark BabyBearT BabyBearT exE exG exM exM endC 1 0 (const_mat seven) (fun _ => const_mat f0) zeta (end_proof q)).
    unfold pcs_verify. cbn [c_sample endC told_challenger fst snd].
    assert (verify_shape_and_sample_challenges BabyBearT exM endC (list (batch_opening BabyBearT exM)) (m_err exM) cfg1 (p_opening BabyBearT BabyBearT exM exM endC (end_proof q)) ([f1], [q]) =
      Ok ({| query_indices := [(0, q)]; betas := [f1] |}, ([], []))) as Vs.
    { destruct q as [|[|[|[|q]]]]; [reflexivity..|lia]. }
    rewrite Vs. clear Vs.
    assert (verify_challenges BabyBearT exM endC (list (batch_opening BabyBearT exM)) (m_err exM) cfg1 true
      (pcs_open_input BabyBearT BabyBearT exE exG exM cfg1 fa 2 (told_all BabyBearT BabyBearT exM (end_rounds zeta) [[const_mat seven]; [const_mat f0]] (stark_opened BabyBearT 0 [seven] [seven] [[f0]])))
      (end_opening q) {| query_indices := [(0, q)]; betas := [f1] |} = Ok tt) as Vc.
    { apply (C96_verify_iff BabyBearT cfg1 exM endC (list (batch_opening BabyBearT exM)) (m_err exM) true _ (end_opening q) {| query_indices := [(0, q)]; betas := [f1] |} zeros zeros [] [] 2);
        [reflexivity|cbn; lia|split; [reflexivity|exact Logic.I]|reflexivity|reflexivity|exact Logic.I| |].
      - generalize (end_reads q zeta Hq). apply f2_impl. intros tq qp (H1 & H2 & proofs & H3 & H4 & H5). split; [exact H1|]. split; [exact H2|]. rewrite H4.
        rewrite (input_read BabyBearT BabyBearT exE exG exM cfg1 2 (end_rounds zeta) _ _ fa (fst tq) (snd tq) proofs DS OH H1 H3 H5). now rewrite end_word.
      - constructor; [|constructor]. cbn [snd]. apply (zero_path BabyBearT 0 2 zeros q [f1]); [lia|cbn; lia|reflexivity|reflexivity|exact Hq| |];
          destruct q as [|[|[|[|q]]]]; first [reflexivity|lia]. }
    exact (f_equal (fun o => match o with Ok _ => Ok ([], []) | _ => Panic end) Vc).
  - constructor; [|constructor; [|constructor]]; cbn -[fsub seven f0]; f_equal; apply (sub_same BabyBearT).
  - exact (no_quotient BabyBearT alpha _ _ _).
Qed.
(** Six points off the coset and off the trace domain. *)
Definition end_zetas : list BabyBearT := map (fun i => of_Z (Z.of_nat i + 100)) (seq 0 6).
Definition end_fas : list BabyBearT := map (fun i => of_Z (Z.of_nat i)) (seq 0 3).
Lemma end_outside (z : BabyBearT) : forallb (fun i => negb (feqb (fmul exG (fpow (gen 2) i)) z)) (seq 0 4) = true -> outside BabyBearT BabyBearT exE exG 2 z.
Proof.
  intros H i Hi X. rewrite forallb_forall in H. specialize (H i ltac:(apply in_seq; cbn in Hi; lia)). unfold exE in X. rewrite X, feqb_refl in H. discriminate.
Qed.
Lemma end_off zeta : In zeta end_zetas -> outside BabyBearT BabyBearT exE exG 2 zeta /\ outside BabyBearT BabyBearT exE exG 2 (fmul zeta (exE (gen 1))) /\ fpow zeta 2 <> f1.
Proof.
  intros I. assert (forallb (fun z : BabyBearT => forallb (fun i => negb (feqb (fmul exG (fpow (gen 2) i)) z)) (seq 0 4) &&
    forallb (fun i => negb (feqb (fmul exG (fpow (gen 2) i)) (fmul z (gen 1)))) (seq 0 4) && negb (feqb (fpow z 2) f1)) end_zetas = true) as C by (vm_compute; reflexivity).
  rewrite forallb_forall in C. specialize (C zeta I). apply andb_prop in C as (C & C3). apply andb_prop in C as (C1 & C2).
  split; [now apply end_outside|]. split; [now apply end_outside|]. intros X. rewrite X, feqb_refl in C3. discriminate.
Qed.
Lemma end_alive alpha zeta fa : In zeta end_zetas -> end_survives alpha zeta [seven] [seven] [[f0]] fa.
Proof.
  intros I. destruct (end_off zeta I) as (O1 & O2 & Nz). exists [], [[{| width := 2; values := zeros |}]], [f1], 1, [[0]; [1]; [2]; [3]], f0.
  change (1 + log_blowup cfg1) with 2. rewrite (end_word zeta fa O1 O2).
  split; [reflexivity|]. split; [reflexivity|]. split; [reflexivity|]. split; [split; [reflexivity|exact Logic.I]|]. split; [|split; [|split; [cbn; lia|]]].
  - intros [|i] b w Eb Ew (_ & N & _); [|destruct i; discriminate]. apply (f_equal (fun o => match o with Some l => l | None => [] end)) in Ew. cbv beta iota in Ew. cbn [nth_error] in Ew. rewrite <- Ew in N. exact (N zeros_low).
  - apply (nodup_map_in (fun q => [q]) [0; 1; 2; 3]); [apply (seq_NoDup 4 0)|]. intros a b _ _ X. now injection X.
  - intros qs Iq. assert (exists q, q < 4 /\ qs = [q]) as (q & Hq & ->) by (cbn in Iq; destruct Iq as [<-|[<-|[<-|[<-|[]]]]]; eexists; (split; [|reflexivity]); lia).
    split; [reflexivity|]. exists (end_proof q), ([alpha; zeta; fa; f1], [q]), ([fa; f1], [q]), ([f1], [q]), ([], []), {| query_indices := [(0, q)]; betas := [f1] |}.
    do 8 (split; [reflexivity|]). split; [exists ([alpha; zeta; fa; f1], [q]), ([zeta; fa; f1], [q]), ([zeta; fa; f1], [q]); repeat split|].
    split; [reflexivity|]. split; [destruct q as [|[|[|[|q]]]]; [reflexivity..|lia]|]. do 2 (split; [reflexivity|]). split; [exact (end_reads q zeta Hq)|].
    now apply end_verify.
Qed.
(** The theorem applies, with two alphas, six zetas, three batching challenges and all four query positions. *)
Example C97_example : exists ps trace, Forall (fun p => length p <= 3) ps /\
  tabulates (const_mat seven) 4 (fun j => fmul exG (fpow (gen 2) (reverse_bits_len j 2))) ps /\
  has_rows trace 1 /\ tabulates trace 2 (fun i => fpow (gen 1) i) ps /\ check_constraints BabyBearT keep trace [seven] = true.
Proof.
  assert (forall c, has_rows (const_mat c) 2) as Hr by (intros c; split; [cbn; lia|reflexivity]).
  apply (C97_sound BabyBearT BabyBearT exE 1 exMono exG exM exM endC endO cfg1 true ex_embedding exG_nz 1 0 keep [seven] (const_mat seven) [const_mat seven] [f0; f1]).
  - cbn; lia.
  - lia.
  - cbn; lia.
  - cbn; lia.
  - vm_compute; reflexivity.
  - split; [repeat (constructor; [eexists; vm_compute; reflexivity|]); constructor|]. intros d Ed. vm_compute in Ed. injection Ed as <-.
    repeat (constructor; [apply Nat.ltb_lt; vm_compute; reflexivity|]). constructor.
  - apply Hr.
  - reflexivity.
  - constructor; [|constructor; [intros []|constructor]]. intros [X|[]]. exact (f1_nz BabyBearT X).
  - discriminate.
  - cbn; lia.
  - intros alpha _. exists (fun _ => const_mat f0), [const_mat f0], end_zetas. split; [intros c _; split; [apply Hr|reflexivity]|].
    split; [|split; [cbn; lia|]].
    { apply (NoDup_map_inv (fun z => proj1_sig z)). vm_compute. repeat (constructor; [intros X; repeat (destruct X as [X|X]; [discriminate|]); exact X|]). constructor. }
    intros zeta I. destruct (end_off zeta I) as (O1 & O2 & _). split; [exact O1|]. split; [exact O2|]. exists [seven], [seven], [[f0]], end_fas. split; [|split; [cbn; lia|]].
    { apply (NoDup_map_inv (fun z => proj1_sig z)). vm_compute. repeat (constructor; [intros X; repeat (destruct X as [X|X]; [discriminate|]); exact X|]). constructor. }
    intros fa _. now apply end_alive.
Qed.
