(** Properties C39 and C63 to C66: the polynomial commitment scheme TwoAdicFriPcs. *)
From Coq Require Import ZArith List Arith Bool Lia Field Sorted.
From Verif Require Import ScriptNum ScriptVM TaptreeModel TcsModel TcsProofs PropTcs ChallengerModel ChallengerProofs PropChallenger
  Field BabyBear FriModel FriProofs FriProofs2 FriInst PropFri PcsModel PolyExt PcsProofs PcsProofs2 PcsInst.
Import ListNotations.
Open Scope nat_scope.

(** ** Specification *)
Section Spec.
  Variables V T : two_adic.
  Variable emb : V -> T.
  Variable generator : V.
  Variable config : fri_config.
  Notation lb := (log_blowup config).
  (** [z] is not on the coset generator <g_lg> on which everything is committed. *)
  Definition outside (lg : nat) (z : T) : Prop := forall i, i < 2 ^ lg -> emb (fmul generator (fpow (gen lg) i)) <> z.
  (** A matrix to commit to: its domain, its evaluations and the points at which it is opened. *)
  Definition dom (x : coset V * matrix V * list T) : coset V := fst (fst x).
  Definition evals (x : coset V * matrix V * list T) : matrix V := snd (fst x).
  Definition points (x : coset V * matrix V * list T) : list T := snd x.
  (** It has one row per element of the domain, at least two, and is opened outside the coset. *)
  Definition openable (lg : nat) (x : coset V * matrix V * list T) : Prop :=
    1 <= log_n (dom x) /\ has_rows (evals x) (log_n (dom x)) /\ log_n (dom x) + lb <= lg /\ shift (dom x) <> f0 /\
    forall z, In z (points x) -> outside lg z.
  (** Batches, tallest matrix first; 2^lg is the size of the largest committed matrix; some point is opened. *)
  Definition batches (lg : nat) (rs : list (list (coset V * matrix V * list T))) : Prop :=
    Forall (fun r => r <> [] /\ Forall (openable lg) r /\ StronglySorted (fun a b => log_n (dom b) <= log_n (dom a)) r) rs /\
    (exists r x, In r rs /\ In x r /\ log_n (dom x) + lb = lg) /\
    (exists r x z, In r rs /\ In x r /\ In z (points x)).
  (** The columns of the matrix are the values of the polynomials [ps] on its domain. *)
  Definition columns (x : coset V * matrix V * list T) (ps : list (list V)) : Prop :=
    Forall (fun p => length p <= 2 ^ log_n (dom x)) ps /\
    tabulates (evals x) (2 ^ log_n (dom x)) (fun i => fmul (shift (dom x)) (fpow (gen (log_n (dom x))) i)) ps.
  (** Their values at the points. *)
  Definition opens_to (x : coset V * matrix V * list T) (ov : list (list T)) : Prop :=
    forall ps, columns x ps -> ov = map (fun z => map (fun p => peval (map emb p) z) ps) (points x).

  Lemma outside_off lg z : outside lg z -> off_coset V T emb generator lg z.
  Proof. intros O j _. apply O. apply rbl_lt. Qed.
  Lemma off_outside lg z : off_coset V T emb generator lg z -> outside lg z.
  Proof.
    intros O i Hi. pose proof (O (reverse_bits_len i lg) (rbl_lt _ _)) as X. unfold cpoint in X. now rewrite rbl_invol in X by exact Hi.
  Qed.
  Lemma openable_ok lg x : openable lg x -> item_ok V T emb generator config lg x.
  Proof.
    intros (L1 & Hm & Lk & Ns & O). repeat (split; [assumption|]). intros z I. apply outside_off. now apply O.
  Qed.
  Lemma batches_ok lg rs : batches lg rs -> rounds_ok V T emb generator config lg rs.
  Proof.
    intros (F & Ex & Ez). split; [|split; assumption]. eapply Forall_impl; [|exact F]. intros r (N & Fo & So).
    split; [exact N|]. split; [|exact So]. eapply Forall_impl; [|exact Fo]. apply openable_ok.
  Qed.
End Spec.

(** ** C63: completeness *)
Section C63.
  Variables V T : two_adic.
  Variable emb : V -> T.
  Variable generator : V.
  Variable M0 : mmcs V.
  Variable M : mmcs T.
  Variable Ch : challenger (m_comm M) T.
  Variable config : fri_config.
  Variable coset_lde_batch : matrix V -> nat -> V -> option (matrix V).
  Variable interpolate_coset : matrix V -> V -> T -> option (list T).
  Variable sync : c_state Ch -> c_state Ch -> Prop.
  (** What is assumed of the parts outside the model. *)
  Definition pcs_setting (lg : nat) : Prop :=
    embedding V T emb /\ generator <> f0 /\ lde_contract V coset_lde_batch /\ interp_contract V T emb interpolate_coset /\
    lg <= two_adicity V /\ lg < 32 /\ 1 <= log_blowup config /\
    mmcs_contract M0 (num_queries config) 1 (two_adicity V) /\ mmcs_contract M (num_queries config) 1 (two_adicity T) /\
    chal_contract Ch sync.
  Notation commit := (pcs_commit V generator M0 config coset_lde_batch).
  Notation open := (pcs_open V T emb generator M0 M Ch config interpolate_coset).
  Notation verify := (pcs_verify V T emb generator M0 M Ch config).

  (** commit returns. *)
  Theorem C63_commit : forall lg r st, pcs_setting lg ->
    r <> [] -> Forall (openable V T emb generator config lg) r ->
    StronglySorted (fun a b : item V T => log_n (dom V T b) <= log_n (dom V T a)) r ->
    exists c d st', commit st (map fst r) = Some (c, d, st').
  Proof.
    intros lg r st (E & gnz & lc & ic & Ls & L32 & L1 & mm0 & mm & cc) N F So.
    apply (commit_ok V T emb generator M0 config coset_lde_batch gnz lc lg Ls L32 (num_queries config) 1 ltac:(lia) mm0 r st).
    split; [exact N|]. split; [|exact So]. eapply Forall_impl; [|exact F]. apply openable_ok.
  Qed.
  (** open returns, for every challenger whose operations return. *)
  Theorem C63_open : forall lg rs cds st ch (okst : c_state Ch -> Prop), pcs_setting lg -> batches V T emb generator config lg rs ->
    Forall2 (fun r cd => exists s s', commit s (map fst r) = Some (fst cd, snd cd, s')) rs cds ->
    (forall c x, okst c -> exists c', c_observe Ch c x = Some c' /\ okst c') ->
    (forall c, okst c -> exists a c', c_sample Ch c = Some (a, c') /\ okst c') ->
    (forall c n, okst c -> n <= two_adicity T -> exists i c', c_sample_bits Ch c n = Some (i, c') /\ okst c') ->
    (forall c, okst c -> exists w c', c_grind Ch c (proof_of_work_bits config) w c' /\ okst c') -> okst ch ->
    exists opened proof st' ch', open (List.combine (map snd cds) (map (map snd) rs)) st ch opened proof st' ch'.
  Proof.
    intros lg rs cds st ch okst (E & gnz & lc & ic & Ls & L32 & L1 & mm0 & mm & cc) B C T1 T2 T3 T4 O.
    exact (open_total V T emb generator M0 M Ch config coset_lde_batch interpolate_coset E gnz lc ic lg Ls L32 (num_queries config) 1 ltac:(lia)
      mm0 eq_refl mm L1 sync cc rs cds st ch okst (batches_ok V T emb generator config lg rs B) C T1 T2 T3 T4 O).
  Qed.
  (** The opened values are the values of the committed polynomials. *)
  Theorem C63_opened : forall lg rs cds st ch opened proof st' ch', pcs_setting lg -> batches V T emb generator config lg rs ->
    Forall2 (fun r cd => exists s s', commit s (map fst r) = Some (fst cd, snd cd, s')) rs cds ->
    open (List.combine (map snd cds) (map (map snd) rs)) st ch opened proof st' ch' ->
    Forall2 (Forall2 (opens_to V T emb)) rs opened.
  Proof.
    intros lg rs cds st ch opened proof st' ch' (E & gnz & lc & ic & Ls & L32 & L1 & mm0 & mm & cc) B C P.
    pose proof (batches_ok V T emb generator config lg rs B) as R.
    destruct (committed_all V T emb generator M0 config coset_lde_batch gnz lc lg Ls L32 (num_queries config) 1 ltac:(lia) mm0 rs (proj1 R) cds C)
      as (crs & <- & <- & F).
    destruct (open_inv V T emb generator M0 M Ch config coset_lde_batch interpolate_coset gnz ic lg Ls L32 (num_queries config) 1 ltac:(lia)
      crs st ch opened proof st' ch' F R P) as (alpha & ch1 & _ & -> & _).
    exact (opened_polys V T emb generator M0 config coset_lde_batch interpolate_coset gnz ic lg Ls L32 (num_queries config) crs F).
  Qed.
  (** The verifier, started on a transcript in the same state, accepts what open produced. *)
  Theorem C63_accepted : forall lg debug rs cds st ch d opened proof st' ch', pcs_setting lg -> batches V T emb generator config lg rs ->
    Forall2 (fun r cd => exists s s', commit s (map fst r) = Some (fst cd, snd cd, s')) rs cds -> sync ch d ->
    open (List.combine (map snd cds) (map (map snd) rs)) st ch opened proof st' ch' ->
    exists d', verify debug (all_claims V T M0 rs cds opened) proof d = Ok d' /\ sync ch' d' /\
      length (commit_phase_commits T M Ch (list (batch_opening V M0)) proof) + log_blowup config = lg.
  Proof.
    intros lg debug rs cds st ch d opened proof st' ch' (E & gnz & lc & ic & Ls & L32 & L1 & mm0 & mm & cc) B C S P.
    exact (open_accepted V T emb generator M0 M Ch config coset_lde_batch interpolate_coset E gnz lc ic lg Ls L32 (num_queries config) 1 ltac:(lia)
      mm0 eq_refl mm L1 sync cc debug rs cds st ch d opened proof st' ch' (batches_ok V T emb generator config lg rs B) C S P).
  Qed.
End C63.

(** ** C39: prover and verifier agree on the reduced openings *)
Section C39.
  Variables V T : two_adic.
  Variable emb : V -> T.
  Variable generator : V.
  Variable M0 : mmcs V.
  Variable config : fri_config.
  Variable interpolate_coset : matrix V -> V -> T -> option (list T).
  Notation lb := (log_blowup config).
  Notation mat := (coset V * matrix V * list T)%type.

  (** A committed matrix (any contents): 2^(log_n + log_blowup) rows, opened outside the coset. *)
  Definition committed_matrix (lg : nat) (x : mat) : Prop :=
    has_rows (evals V T x) (log_n (dom V T x) + lb) /\ log_n (dom V T x) + lb <= lg /\
    forall z, In z (points V T x) -> outside V T emb generator lg z.
  (** What the verifier is told about a matrix: its domain, its points, the values. *)
  Definition told (x : mat) (ov : list (list T)) : coset V * list (T * list T) := (dom V T x, List.combine (points V T x) ov).
  Definition told_all (rs : list (list mat)) (comms : list (m_comm M0)) (opened : list (list (list (list T)))) :=
    map (fun rco => (snd (fst rco), map (fun xo => told (fst xo) (snd xo)) (List.combine (fst (fst rco)) (snd rco))))
      (List.combine (List.combine rs comms) opened).
  (** The rows of a batch that belong to query index q. *)
  Definition queried (lg q : nat) (r : list mat) : list (list V) :=
    map (fun x => row_of (evals V T x) (q / 2 ^ (lg - (log_n (dom V T x) + lb)))) r.
  (** Point j of the coset of size 2^k, in the order of the committed rows (r is the bit reversal). *)
  Definition at_point (k j : nat) : T := emb (fmul generator (fpow (gen k) (reverse_bits_len j k))).
  (** The summands (p(x) - y) / (x - z) for the matrices with 2^k rows: batches, matrices, points and
      columns in order. *)
  Definition summands (k j : nat) (rs : list (list mat)) (opened : list (list (list (list T)))) : list T :=
    flat_map (fun ro => flat_map (fun xo =>
      if log_n (dom V T (fst xo)) + lb =? k
      then flat_map (fun zy => map (fun vy => fdiv (fsub (emb (fst vy)) (snd vy)) (fsub (at_point k j) (fst zy)))
                                 (List.combine (row_of (evals V T (fst xo)) j) (snd zy)))
             (List.combine (points V T (fst xo)) (snd xo))
      else []) (List.combine (fst ro) (snd ro))) (List.combine rs opened).
  Definition has_height (k : nat) (rs : list (list mat)) : bool := existsb (existsb (fun x => log_n (dom V T x) + lb =? k)) rs.

  Definition entry_of (xo : mat * list (list T)) : ent V T :=
    {| e_k := log_n (dom V T (fst xo)) + lb; e_row := row_of (evals V T (fst xo)); e_pts := List.combine (points V T (fst xo)) (snd xo) |}.
  Definition entries (rs : list (list mat)) (opened : list (list (list (list T)))) : list (ent V T) :=
    flat_map (fun ro => map entry_of (List.combine (fst ro) (snd ro))) (List.combine rs opened).
  Lemma summands_terms k j rs opened : summands k j rs opened = terms V T emb generator (entries rs opened) k j.
  Proof.
    unfold summands, terms, entries. induction (List.combine rs opened) as [|[r o] l IH]; [reflexivity|]. cbn [flat_map fst snd].
    unfold at_k in *. rewrite filter_app, flat_map_app, <- IH. f_equal. clear.
    induction (List.combine r o) as [|xo l IH]; [reflexivity|]. cbn [flat_map map filter]. unfold entry_of at 1. cbn [e_k].
    destruct (log_n (dom V T (fst xo)) + lb =? k); cbn [flat_map]; [|exact IH]. f_equal. exact IH.
  Qed.
  Lemma height_entries k : forall rs opened, Forall2 (fun r o => length r = length o) rs opened ->
    match at_k V T k (entries rs opened) with [] => false | _ => true end = has_height k rs.
  Proof.
    induction 1 as [|r o rs opened L F IH]; [reflexivity|]. unfold entries in *. cbn [List.combine flat_map fst snd has_height existsb].
    unfold at_k in *. rewrite filter_app. fold (has_height k rs). rewrite <- IH.
    assert (forall A (a b : list A), match a ++ b with [] => false | _ => true end = match a with [] => false | _ => true end || match b with [] => false | _ => true end) as O
      by (intros A [|] b; reflexivity).
    rewrite O. f_equal. clear - L. revert o L. induction r as [|x r IH]; intros [|ov o] L; try discriminate; [reflexivity|].
    cbn [List.combine map filter existsb]. unfold entry_of at 1. cbn [e_k fst]. destruct (log_n (dom V T x) + lb =? k); [reflexivity|]. apply IH. cbn in L. lia.
  Qed.

  (** The verifier, for arbitrary claimed values: for every height that occurs, the sum of the
      summands with powers of alpha, at the row of the query. *)
  Theorem C39_verifier : forall alpha lg qt q rs comms proofs opened, lg <= two_adicity V -> q < 2 ^ lg ->
    Forall (fun r => r <> [] /\ Forall (committed_matrix lg) r) rs ->
    length comms = length rs -> length proofs = length rs -> Forall2 (fun r o => length r = length o) rs opened ->
    Forall (fun rcp => m_verify_batch M0 qt (queried lg q (fst (fst rcp))) (snd rcp) (snd (fst rcp)) = Ok tt) (List.combine (List.combine rs comms) proofs) ->
    pcs_open_input V T emb generator M0 config alpha lg (told_all rs comms opened) qt q (List.combine (map (queried lg q) rs) proofs) =
    Ok (desc (S lg) (fun k => if has_height k rs then Some (k, peval (summands k (q / 2 ^ (lg - k)) rs opened) alpha) else None)).
  Proof.
    intros alpha lg qt q rs comms proofs opened Ls Hq F Lc Lp Fo Vb.
    set (vr := map (fun x : list mat * m_comm M0 * m_proof M0 * list (list (list T)) =>
      (snd (fst (fst x)), snd (fst x), map (fun xo => (dom V T (fst xo), entry_of xo)) (List.combine (fst (fst (fst x))) (snd x))))
      (List.combine (List.combine (List.combine rs comms) proofs) opened)).
    assert (told_all rs comms opened = map (vbatch V T M0) vr /\ List.combine (map (queried lg q) rs) proofs = map (vopening V T lg q M0) vr /\
      flat_map (fun r : vround V T M0 => map snd (snd r)) vr = entries rs opened /\ Forall (vround_ok V T emb generator config lg q M0 qt) vr) as (-> & -> & Ee & Fv).
    { unfold vr. clear vr. revert comms proofs Lc Lp Vb F. unfold told_all, entries. induction Fo as [|r o rs opened L Fo IH]; intros [|c comms] [|pf proofs] Lc Lp Vb F;
        try discriminate; [repeat split; constructor|].
      cbn [List.combine] in Vb. inversion_clear Vb as [|? ? V1 Vb']. inversion_clear F as [|? ? [Nr Fr] F']. cbn [fst snd] in V1.
      destruct (IH comms proofs ltac:(cbn in Lc; lia) ltac:(cbn in Lp; lia) Vb' F') as (E1 & E2 & E3 & F4).
      cbn [List.combine map flat_map fst snd]. split; [|split; [|split]].
      - f_equal; [|exact E1]. unfold vbatch. cbn [fst snd]. f_equal. rewrite map_map. reflexivity.
      - f_equal; [|exact E2]. unfold vopening. cbn [fst snd]. f_equal. rewrite map_map. unfold queried, vrow. cbn [snd].
        clear - L. revert o L. induction r as [|x r IH]; intros [|ov o] L; try discriminate; [reflexivity|]. cbn [map List.combine]. f_equal. apply IH. cbn in L. lia.
      - f_equal; [|exact E3]. rewrite map_map. reflexivity.
      - constructor; [|exact F4]. unfold vround_ok. cbn [fst snd]. split; [|split].
        + destruct r, o; cbn in *; try discriminate; contradiction.
        + apply Forall_forall. intros de I. apply in_map_iff in I as ([x1 ov] & <- & I). apply in_combine_l in I as Ix. rewrite Forall_forall in Fr.
          destruct (Fr _ Ix) as (Hm & Lk & O). unfold vok, entry_of. cbn [fst snd e_k e_pts]. split; [reflexivity|]. split; [exact Lk|]. split; [lia|].
          intros [z y] Iz. apply in_combine_l in Iz. cbn [fst].
          apply (off_coset_le V T emb generator lg Ls z _ _ (outside_off V T emb generator lg z (O z Iz)) Lk).
          apply div_lt_pow. now replace (lg - (log_n (dom V T x1) + lb) + (log_n (dom V T x1) + lb)) with lg by lia.
        + rewrite <- V1. f_equal. rewrite map_map. unfold queried, vrow. cbn [snd].
          clear - L. revert o L. induction r as [|x r IH]; intros [|ov o] L; try discriminate; [reflexivity|]. cbn [map List.combine]. f_equal. apply IH. cbn in L. lia. }
    rewrite (open_input_ok V T emb generator config alpha lg q M0 qt vr Fv). f_equal. apply desc_ext. intros k _.
    unfold vround in Ee. rewrite Ee. rewrite summands_terms, <- (height_entries k rs opened Fo). unfold oterms. now destruct (at_k V T k (entries rs opened)).
  Qed.

  (** The prover: for every height that occurs, in descending order, the vector of these sums over
      all points; and the verifier computes from the rows of a query exactly the entries that belong
      to it. *)
  Theorem C39_agree : forall alpha lg rs, lg <= two_adicity V -> lg < 32 ->
    (forall m k s z, has_rows m k -> exists ys, interpolate_coset m s z = Some ys /\ length ys = width V m) ->
    Forall (fun r => r <> [] /\ Forall (committed_matrix lg) r) rs ->
    (exists r x z, In r rs /\ In x r /\ In z (points V T x)) ->
    exists opened inputs,
      open_reduce V T emb generator config interpolate_coset alpha (map (fun r => (map (evals V T) r, map (points V T) r)) rs) = Some (opened, inputs) /\
      inputs = desc (S lg) (fun k => if has_height k rs then Some (map (fun j => peval (summands k j rs opened) alpha) (seq 0 (2 ^ k))) else None) /\
      Forall2 (fun r o => length r = length o) rs opened /\
      forall qt q comms proofs, q < 2 ^ lg -> length comms = length rs -> length proofs = length rs ->
        Forall (fun rcp => m_verify_batch M0 qt (queried lg q (fst (fst rcp))) (snd rcp) (snd (fst rcp)) = Ok tt) (List.combine (List.combine rs comms) proofs) ->
        pcs_open_input V T emb generator M0 config alpha lg (told_all rs comms opened) qt q (List.combine (map (queried lg q) rs) proofs) =
        Ok (ros T q lg inputs).
  Proof.
    intros alpha lg rs Ls L32 It F (r0 & x0 & z0 & Ir0 & Ix0 & Iz0).
    set (dm := fun x : mat => (dom V T x, (evals V T x, log_n (dom V T x) + lb, points V T x)) : coset V * pmat V T).
    set (ysa := ys_at V T generator config interpolate_coset).
    assert (forall x z, committed_matrix lg x -> In z (points V T x) -> interp_ok V T generator config interpolate_coset ysa (evals V T x) z) as Hi.
    { intros x z (Hm & Lk & O) Iz. unfold interp_ok, low.
      assert (has_rows (top_rows V (height V (evals V T x) / 2 ^ lb) (evals V T x)) (log_n (dom V T x))) as Ht.
      { rewrite (rect_height V _ _ Hm), Nat.pow_add_r, Nat.div_mul by (apply Nat.pow_nonzero; lia). destruct Hm as [W L]. split; [exact W|].
        cbn [values width top_rows]. rewrite firstn_length, L, Nat.pow_add_r.
        assert (1 <= 2 ^ lb) as X by (clear; induction lb; cbn; lia). revert X. generalize (2 ^ lb), (2 ^ log_n (dom V T x)), (width V (evals V T x)). intros a b w X.
        rewrite Nat.min_l; [lia|]. rewrite (Nat.mul_comm w), <- Nat.mul_assoc. apply Nat.mul_le_mono_l. nia. }
      assert (exists lo, bit_reverse_rows V (top_rows V (height V (evals V T x) / 2 ^ lb) (evals V T x)) = Some lo /\ has_rows lo (log_n (dom V T x)) /\ width V lo = width V (evals V T x)) as (lo & El & Hl & Wl).
      { unfold bit_reverse_rows. rewrite (rect_height V _ _ Ht), log2_strict_pow. eexists. split; [reflexivity|]. split; [|reflexivity]. split; [exact (proj1 Ht)|].
        cbn [values width]. set (m := top_rows V _ _) in *. rewrite (proj1 (flat_map_rows (fun i => row_of m (reverse_bits_len i (log_n (dom V T x)))) (width V m) (seq 0 (2 ^ log_n (dom V T x)))
          (fun i _ => row_length V T generator interpolate_coset alpha m _ _ Ht (rbl_lt _ _)))). now rewrite seq_length. }
      rewrite El. destruct (It lo _ generator z Hl) as (ys & Ey & Ly). exists lo. split; [reflexivity|].
      assert (ysa (evals V T x) z = ys) as Eys by (unfold ysa, ys_at, low; now rewrite El, Ey). rewrite Eys. split; [exact Ey|]. congruence. }
    assert (Forall (Forall (mat_ok V T emb generator config interpolate_coset lg)) (map (map dm) rs)) as Fm.
    { apply Forall_forall. intros l I. apply in_map_iff in I as (r & <- & Ir). apply Forall_forall. intros d I. apply in_map_iff in I as (x & <- & Ix).
      rewrite Forall_forall in F. destruct (F _ Ir) as [_ Fr]. rewrite Forall_forall in Fr. pose proof (Fr _ Ix) as C. pose proof C as (Hm & Lk & O).
      unfold mat_ok, dm. cbn [fst snd]. split; [exact Hm|]. split; [reflexivity|]. split; [exact Lk|]. intros z Iz. split; [now apply outside_off, O|now apply Hi]. }
    pose proof (prover_inputs V T emb generator config (fun _ _ _ => None) interpolate_coset alpha lg Ls L32 (map (map dm) rs) Fm) as P.
    assert (mp_of V T (map (map snd) (map (map dm) rs)) = map (fun r => (map (evals V T) r, map (points V T) r)) rs) as Emp.
    { unfold mp_of. rewrite !map_map. apply map_ext. intros r. rewrite !map_map. reflexivity. }
    rewrite Emp in P.
    set (opened := map (map (fun x => map (ysa (evals V T x)) (points V T x))) rs).
    assert (opened_of V T ysa (map (map snd) (map (map dm) rs)) = opened) as Eo.
    { unfold opened_of, opened. rewrite !map_map. apply map_ext. intros r. rewrite !map_map. reflexivity. }
    fold ysa in P. rewrite Eo in P.
    assert (Forall2 (fun (r : list mat) o => length r = length o) rs opened) as Fl.
    { unfold opened. clear. induction rs as [|r rs IH]; cbn [map]; constructor; [now rewrite map_length|exact IH]. }
    assert (map (ent_of V T ysa) (concat (map (map snd) (map (map dm) rs))) = entries rs opened) as Ee.
    { unfold entries, opened. clear. induction rs as [|r rs IH]; [reflexivity|]. cbn [map concat List.combine flat_map fst snd]. rewrite map_app, IH. f_equal.
      clear. induction r as [|x r IH]; [reflexivity|]. cbn [map List.combine]. rewrite IH. f_equal. unfold ent_of, entry_of, dm. cbn [fst snd]. f_equal.
      unfold pts_of. generalize (points V T x). clear. induction l as [|z l IH]; [reflexivity|]. cbn. now rewrite IH. }
    set (inputs := desc (S lg) (fun k => if has_height k rs then Some (map (fun j => peval (summands k j rs opened) alpha) (seq 0 (2 ^ k))) else None)).
    exists opened, inputs. split; [|split; [reflexivity|split; [exact Fl|]]].
    - rewrite P.
      + f_equal. f_equal. unfold inputs_of, inputs. fold ysa. rewrite Ee. apply desc_ext. intros k _. rewrite <- (height_entries k rs opened Fl).
        destruct (at_k V T k (entries rs opened)) as [|e es]; [reflexivity|]. f_equal. apply map_ext. intros j. now rewrite summands_terms.
      + exists (snd (dm x0)), z0. split; [|exact Iz0]. apply in_concat. exists (map snd (map dm r0)). split; [now apply in_map, in_map|now apply in_map, in_map].
    - intros qt q comms proofs Hq Lc Lp Vb. rewrite (C39_verifier alpha lg qt q rs comms proofs opened Ls Hq F Lc Lp Fl Vb). f_equal.
      unfold inputs, ros. rewrite desc_map. apply desc_ext. intros k Hk. destruct (has_height k rs); [|reflexivity]. cbn [option_map]. f_equal.
      rewrite map_length, seq_length, Nat.log2_pow2 by lia. f_equal. symmetry. apply (nth_map_seq (fun j => peval (summands k j rs opened) alpha)). apply div_lt_pow. now replace (lg - k + k) with lg by lia.
  Qed.
End C39.

(** ** C64: get_evaluations_on_domain *)
Section C64.
  Variables V T : two_adic.
  Variable emb : V -> T.
  Variable generator : V.
  Variable M0 : mmcs V.
  Variable config : fri_config.
  Variable coset_lde_batch : matrix V -> nat -> V -> option (matrix V).
  (** On every coset generator <g_k> up to the size of the committed matrix: the values of the
      committed polynomials, in natural order. *)
  Theorem C64_evaluations : forall lg nq r st c d st' idx x k,
    generator <> f0 -> lde_contract V coset_lde_batch -> lg <= two_adicity V -> lg < 32 -> mmcs_contract M0 nq 1 (two_adicity V) ->
    r <> [] -> Forall (openable V T emb generator config lg) r ->
    StronglySorted (fun a b : item V T => log_n (dom V T b) <= log_n (dom V T a)) r ->
    pcs_commit V generator M0 config coset_lde_batch st (map fst r) = Some (c, d, st') ->
    nth_error r idx = Some x -> k <= log_n (dom V T x) + log_blowup config ->
    exists m, get_evaluations_on_domain V generator M0 d idx {| log_n := k; shift := generator |} = Some m /\
      forall ps, columns V T x ps -> tabulates m (2 ^ k) (fun i => fmul generator (fpow (gen k) i)) ps.
  Proof.
    intros lg nq r st c d st' idx x k gnz lc Ls L32 mm0 N F So C Hx Hk.
    assert (round_ok V T emb generator config lg r) as R.
    { split; [exact N|]. split; [|exact So]. eapply Forall_impl; [|exact F]. apply openable_ok. }
    destruct (committed_cround V T emb generator M0 config coset_lde_batch gnz lc lg Ls L32 nq 1 ltac:(lia) mm0 r (c, d) R) as (dms & Hc);
      [exists st, st'; exact C|].
    destruct Hc as (_ & F2 & Gm & _). unfold c_mats in Gm. cbn [c_com c_dms c_items snd] in *.
    unfold get_evaluations_on_domain. cbn [shift]. rewrite feqb_refl. cbn [negb]. rewrite Gm.
    assert (exists dm, nth_error (map (fun dm : coset V * pmat V T => fst (fst (snd dm))) dms) idx = Some (fst (fst (snd dm))) /\
      lde_of V T emb generator config coset_lde_batch lg x dm) as (dm & En & Hd).
    { clear - F2 Hx. revert idx Hx. induction F2 as [|y dm r dms H F2 IH]; intros [|idx] Hx; try discriminate.
      - injection Hx as <-. exists dm. split; [reflexivity|exact H].
      - exact (IH idx Hx). }
    destruct Hd as (Ed & _ & G & _ & Gw). pose proof G as (L1 & Ek & Lk & _ & ps0 & G0).
    pose proof (good_rows V T emb generator config lg dm G) as Hr. destruct dm as [dd [[mm kk] zs]]. cbn [fst snd] in *.
    match goal with |- context [nth_error ?l idx] => replace (nth_error l idx) with (Some mm) by (symmetry; exact En) end.
    rewrite (rect_height V _ _ Hr). unfold coset_size. cbn [log_n].
    unfold dom in Hk. rewrite <- Ed in Hk. rewrite (proj2 (Nat.leb_le (2 ^ k) (2 ^ kk))) by (apply Nat.pow_le_mono_r; lia).
    destruct G0 as (N0 & _ & T0). cbn [fst snd] in T0. destruct (low_tab V generator mm kk k ps0 N0 ltac:(lia) ltac:(lia) T0) as (m & Em & _).
    exists m. split; [exact Em|]. intros ps Hp. destruct (Gw ps Hp) as (N1 & _ & T1). cbn [fst snd] in T1.
    destruct (low_tab V generator mm kk k ps N1 ltac:(lia) ltac:(lia) T1) as (m' & Em' & Tm). congruence.
  Qed.
  (** Any other shift panics. *)
  Theorem C64_other_shift : forall d idx domain, shift domain <> generator -> get_evaluations_on_domain V generator M0 d idx domain = None.
  Proof.
    intros d idx domain N. unfold get_evaluations_on_domain. now rewrite (proj2 (feqb_neq V _ _) N).
  Qed.
End C64.

(** ** C65 and C66: the verdict *)
Section Verdict.
  Variables V T : two_adic.
  Variable emb : V -> T.
  Variable generator : V.
  Variable M0 : mmcs V.
  Variable M : mmcs T.
  Variable Ch : challenger (m_comm M) T.
  Variable config : fri_config.
  Notation IP := (list (batch_opening V M0)).
  Notation verify := (pcs_verify V T emb generator M0 M Ch config).
  Notation lb := (log_blowup config).

  (** verify returns a Result but never returns an error: every rejection is a panic. *)
  Theorem C65_rejects_by_panic : forall debug rounds proof ch e, verify debug rounds proof ch <> Err e.
  Proof.
    intros debug rounds proof ch e. unfold pcs_verify. destruct (c_sample Ch ch) as [[alpha ch1]|]; [|discriminate].
    destruct (verify_shape_and_sample_challenges T M Ch IP (m_err M0) config proof ch1) as [[chs ch2]| |]; try discriminate.
    destruct (verify_challenges T M Ch IP (m_err M0) config debug _ proof chs); discriminate.
  Qed.
  (** It returns Ok exactly when both steps of FRI do. *)
  Theorem C65_ok_iff : forall debug rounds proof ch ch', verify debug rounds proof ch = Ok ch' <->
    exists alpha ch1 challenges, c_sample Ch ch = Some (alpha, ch1) /\
      verify_shape_and_sample_challenges T M Ch IP (m_err M0) config proof ch1 = Ok (challenges, ch') /\
      verify_challenges T M Ch IP (m_err M0) config debug
        (pcs_open_input V T emb generator M0 config alpha (length (commit_phase_commits T M Ch IP proof) + lb) rounds) proof challenges = Ok tt.
  Proof.
    intros debug rounds proof ch ch'. unfold pcs_verify. destruct (c_sample Ch ch) as [[alpha ch1]|]; [|split; [discriminate|intros (? & ? & ? & X & _); discriminate]].
    destruct (verify_shape_and_sample_challenges T M Ch IP (m_err M0) config proof ch1) as [[chs ch2]| |] eqn:E1;
      try (split; [discriminate|intros (a & c & x & [= <- <-] & X & _); rewrite E1 in X; discriminate]).
    destruct (verify_challenges T M Ch IP (m_err M0) config debug _ proof chs) as [[]| |] eqn:E2.
    - split.
      + intros [= <-]. exists alpha, ch1, chs. auto.
      + intros (a & c & x & [= <- <-] & X & _). rewrite E1 in X. injection X as <- <-. reflexivity.
    - split; [discriminate|]. intros (a & c & x & [= <- <-] & X & Y). rewrite E1 in X. injection X as <- <-. rewrite E2 in Y. discriminate.
    - split; [discriminate|]. intros (a & c & x & [= <- <-] & X & Y). rewrite E1 in X. injection X as <- <-. rewrite E2 in Y. discriminate.
  Qed.

  (** Two lists of claims that differ only in the values claimed for matrices of the maximal height. *)
  Definition same_but_top (lg : nat) (m m' : coset V * list (T * list T)) : Prop :=
    fst m = fst m' /\ map fst (snd m) = map fst (snd m') /\ (log_n (fst m) + lb <> lg -> snd m = snd m').
  Definition same_claims (lg : nat) (r r' : m_comm M0 * list (coset V * list (T * list T))) : Prop :=
    fst r = fst r' /\ Forall2 (same_but_top lg) (snd r) (snd r').

  Definition below (lg : nat) (l : ro_map T) : ro_map T := filter (fun p => negb (fst p =? lg)) l.
  Definition tidy (lg : nat) (l : ro_map T) : Prop := StronglySorted (fun a b => fst a < fst b) l /\ Forall (fun p => fst p <= lg) l.
  Lemma tidy_put lg k e l : k <= lg -> tidy lg l -> tidy lg (put T k e l).
  Proof.
    intros L [So F]. destruct (put_sorted T k e l So) as [S1 I1]. split; [exact S1|]. rewrite Forall_forall in *. intros [k' e'] I.
    apply I1 in I as [[-> ->]|[_ I]]; [exact L|exact (F _ I)].
  Qed.
  Lemma below_put_top lg e l : below lg (put T lg e l) = below lg l.
  Proof.
    unfold below. induction l as [|[k' e'] l IH]; cbn [put filter fst].
    - now rewrite Nat.eqb_refl.
    - destruct (lg <? k'); [cbn [filter fst]; now rewrite Nat.eqb_refl|]. destruct (Nat.eqb_spec lg k') as [<-|N]; cbn [filter fst].
      + rewrite Nat.eqb_refl. reflexivity.
      + now rewrite IH.
  Qed.
  Lemma below_put lg k e l : k < lg -> tidy lg l -> below lg (put T k e l) = put T k e (below lg l).
  Proof.
    intros L [So F]. unfold below. induction So as [|[k' e'] l So IH Fl]; cbn [put filter fst].
    - destruct (Nat.eqb_spec k lg); [lia|reflexivity].
    - inversion_clear F as [|? ? Lk F']. cbn [fst] in Lk. destruct (Nat.eqb_spec k' lg) as [Ek|Nk]; cbn [negb].
      + subst k'. assert (l = []) as ->. { destruct l as [|[k2 e2] l2]; [reflexivity|]. inversion_clear Fl as [|? ? X _]. inversion_clear F' as [|? ? Y _]. cbn in *. lia. }
        destruct (Nat.ltb_spec k lg); [|lia]. cbn [filter fst negb put]. destruct (Nat.eqb_spec k lg); [lia|]. cbn [negb]. now rewrite Nat.eqb_refl.
      + cbn [put]. destruct (Nat.ltb_spec k k'); [|destruct (Nat.eqb_spec k k') as [->|]]; cbn [filter fst].
        * destruct (Nat.eqb_spec k lg); [lia|]. destruct (Nat.eqb_spec k' lg); [lia|]. reflexivity.
        * destruct (Nat.eqb_spec k' lg); [lia|]. reflexivity.
        * destruct (Nat.eqb_spec k' lg); [lia|]. cbn [negb]. f_equal. now apply IH.
  Qed.
  Lemma entry_below lg k (l : ro_map T) : k <> lg -> entry T k l = entry T k (below lg l).
  Proof.
    intros N. unfold below. induction l as [|[k' e'] l IH]; [reflexivity|]. cbn [entry filter fst].
    destruct (Nat.eqb_spec k' lg) as [->|Nk]; cbn [negb].
    - destruct (Nat.eqb_spec k lg); [lia|exact IH].
    - cbn [entry]. now rewrite IH.
  Qed.
  Lemma points_total alpha x at_x pts pts' e e' : map fst pts = map fst pts' ->
    reduce_points V T emb alpha x at_x pts e = None <-> reduce_points V T emb alpha x at_x pts' e' = None.
  Proof.
    revert pts' e e'. induction pts as [|[z y] pts IH]; intros [|[z' y'] pts'] e e' Em; try discriminate; [now split|].
    cbn [map fst] in Em. injection Em as <- Em. cbn [reduce_points].
    destruct (acc_values V T emb alpha (fst e) f0 at_x y) as [ap ac]. destruct (acc_values V T emb alpha (fst e') f0 at_x y') as [ap' ac'].
    unfold checked_div. destruct (inverse (fadd (fopp z) (emb x))) as [iv|]; cbn [option_map]; [now apply IH|now split].
  Qed.
  Lemma mats_top alpha lg q opened ms ms' : Forall2 (same_but_top lg) ms ms' -> forall l l', tidy lg l -> tidy lg l' -> below lg l = below lg l' ->
    match reduce_mats V T emb generator config alpha lg q opened ms l, reduce_mats V T emb generator config alpha lg q opened ms' l' with
    | Some r, Some r' => tidy lg r /\ tidy lg r' /\ below lg r = below lg r'
    | None, None => True
    | _, _ => False
    end.
  Proof.
    intros F. revert opened. induction F as [|[d pts] [d' pts'] ms ms' (Ed & Ep & Es) F IH]; intros [|at_x opened] l l' Tl Tl' B; cbn [reduce_mats]; auto.
    cbn [fst snd] in *. subst d'. destruct (Nat.ltb_spec lg (log_n d + lb)) as [|L]; [exact Logic.I|].
    destruct (two_adic_generator V (log_n d + lb)) as [g|]; [|exact Logic.I].
    set (x := fmul generator _).
    pose proof (points_total alpha x at_x pts pts' (entry T (log_n d + lb) l) (entry T (log_n d + lb) l') Ep) as Pt.
    destruct (Nat.eq_dec (log_n d + lb) lg) as [Et|Nt].
    - destruct (reduce_points V T emb alpha x at_x pts (entry T (log_n d + lb) l)) as [e|] eqn:E1;
        destruct (reduce_points V T emb alpha x at_x pts' (entry T (log_n d + lb) l')) as [e'|] eqn:E2;
        [|discriminate (proj2 Pt eq_refl)|discriminate (proj1 Pt eq_refl)|exact Logic.I].
      apply IH; [now apply tidy_put|now apply tidy_put|]. rewrite Et, !below_put_top. exact B.
    - rewrite <- (Es Nt) in *. rewrite (entry_below lg (log_n d + lb) l), (entry_below lg (log_n d + lb) l'), B by exact Nt.
      destruct (reduce_points V T emb alpha x at_x pts (entry T (log_n d + lb) (below lg l'))) as [e|]; [|exact Logic.I].
      apply IH; [now apply tidy_put|now apply tidy_put|]. rewrite !below_put by (assumption || lia). now rewrite B.
  Qed.
  Lemma batches_top alpha lg qt q rounds rounds' : Forall2 (same_claims lg) rounds rounds' -> forall ip l l', tidy lg l -> tidy lg l' -> below lg l = below lg l' ->
    match reduce_batches V T emb generator M0 config alpha lg qt q ip rounds l, reduce_batches V T emb generator M0 config alpha lg qt q ip rounds' l' with
    | Ok r, Ok r' => tidy lg r /\ tidy lg r' /\ below lg r = below lg r'
    | Err e, Err e' => e = e'
    | Panic, Panic => True
    | _, _ => False
    end.
  Proof.
    induction 1 as [|[c ms] [c' ms'] rounds rounds' (Ec & Fm) F IH]; intros [|[opened pf] ip] l l' Tl Tl' B; cbn [reduce_batches]; auto.
    cbn [fst snd] in *. subst c'.
    assert (fold_left (fun a (d : coset V * list (T * list T)) => Nat.max a (log_n (fst d))) ms 0 = fold_left (fun a (d : coset V * list (T * list T)) => Nat.max a (log_n (fst d))) ms' 0) as Ef.
    { generalize 0. clear - Fm. induction Fm as [|m m' ms ms' (Ed & _) Fm IH]; intros a; [reflexivity|]. cbn [fold_left]. rewrite Ed. apply IH. }
    pose proof (mats_top alpha lg q opened ms ms' Fm l l' Tl Tl' B) as Mt.
    destruct ms as [|m0 ms0]; inversion Fm as [|? m0' ? ms0' Hm0 Fm0]; subst; [exact Logic.I|].
    rewrite <- Ef. destruct (lg <? _ + lb); [exact Logic.I|].
    destruct (m_verify_batch M0 qt opened pf c) as [u|e|]; [|reflexivity|exact Logic.I].
    destruct (reduce_mats V T emb generator config alpha lg q opened (m0 :: ms0) l) as [r|],
      (reduce_mats V T emb generator config alpha lg q opened (m0' :: ms0') l') as [r'|]; try contradiction; [|exact Logic.I].
    destruct Mt as (T1 & T2 & B1). now apply IH.
  Qed.
  Lemma sorted_below_top lg (l : ro_map T) : tidy lg l ->
    below_top lg (map (fun p => (fst p, snd (snd p))) (rev l)) = map (fun p => (fst p, snd (snd p))) (rev (below lg l)).
  Proof.
    intros [So F]. unfold below. destruct l as [|p l _] using rev_ind; [reflexivity|]. rewrite rev_app_distr, filter_app, rev_app_distr. cbn [rev app map filter fst below_top].
    assert (forall p', In p' l -> fst p' < fst p) as Lt.
    { intros p' I. clear F. induction l as [|a l IH]; [destruct I|]. cbn in So. inversion_clear So as [|? ? S' Fa]. destruct I as [<-|I]; [|now apply IH].
      rewrite Forall_forall in Fa. apply Fa. apply in_or_app. right. now left. }
    assert (filter (fun p => negb (fst p =? lg)) l = l) as ->.
    { apply Forall_app in F as [_ Fp]. inversion_clear Fp as [|? ? Lp _]. clear - Lt Lp. induction l as [|a l IH]; [reflexivity|]. cbn [filter].
      pose proof (Lt a (or_introl eq_refl)). destruct (Nat.eqb_spec (fst a) lg); [lia|]. cbn [negb]. f_equal. apply IH. intros; apply Lt; now right. }
    destruct (fst p =? lg); reflexivity.
  Qed.
  (** Finding: the values claimed for the matrices of maximal height have no influence on the verdict. *)
  Theorem C66_top_values_ignored : forall debug rounds rounds' proof ch,
    Forall2 (same_claims (length (commit_phase_commits T M Ch IP proof) + lb)) rounds rounds' ->
    verify debug rounds proof ch = verify debug rounds' proof ch.
  Proof.
    intros debug rounds rounds' proof ch F. unfold pcs_verify. destruct (c_sample Ch ch) as [[alpha ch1]|]; [|reflexivity].
    set (lg := length _ + lb) in *.
    destruct (verify_shape_and_sample_challenges T M Ch IP (m_err M0) config proof ch1) as [[chs ch2]| |]; try reflexivity.
    rewrite (C36_top_opening_ignored T M Ch IP (m_err M0) config debug proof chs (pcs_open_input V T emb generator M0 config alpha lg rounds)
      (pcs_open_input V T emb generator M0 config alpha lg rounds')); [reflexivity|].
    intros qt q ip. fold lg. unfold pcs_open_input.
    pose proof (batches_top alpha lg qt q rounds rounds' F ip [] []) as Bt.
    destruct (reduce_batches V T emb generator M0 config alpha lg qt q ip rounds []) as [l|e|],
      (reduce_batches V T emb generator M0 config alpha lg qt q ip rounds' []) as [l'|e'|];
      try (destruct Bt; [split; constructor|split; constructor|reflexivity]; fail); [|left|now left].
    - destruct Bt as (T1 & T2 & B); [split; constructor|split; constructor|reflexivity|]. right. do 2 eexists. split; [reflexivity|]. split; [reflexivity|].
      now rewrite !sorted_below_top, B.
    - f_equal. apply Bt; [split; constructor|split; constructor|reflexivity].
  Qed.
End Verdict.

(** Hence honest commitments can be opened to anything at the maximal height: after an honest run the
    verifier also accepts every other value in place of the opened ones there. *)
Section Forge.
  Variables V T : two_adic.
  Variable emb : V -> T.
  Variable generator : V.
  Variable M0 : mmcs V.
  Variable M : mmcs T.
  Variable Ch : challenger (m_comm M) T.
  Variable config : fri_config.
  Variable coset_lde_batch : matrix V -> nat -> V -> option (matrix V).
  Variable interpolate_coset : matrix V -> V -> T -> option (list T).
  Variable sync : c_state Ch -> c_state Ch -> Prop.
  Theorem C66_any_value_accepted : forall lg debug rs cds st ch d opened proof st' ch' rounds,
    pcs_setting V T emb generator M0 M Ch config coset_lde_batch interpolate_coset sync lg -> batches V T emb generator config lg rs ->
    Forall2 (fun r cd => exists s s', pcs_commit V generator M0 config coset_lde_batch s (map fst r) = Some (fst cd, snd cd, s')) rs cds -> sync ch d ->
    pcs_open V T emb generator M0 M Ch config interpolate_coset (List.combine (map snd cds) (map (map snd) rs)) st ch opened proof st' ch' ->
    Forall2 (same_claims V T M0 config lg) (all_claims V T M0 rs cds opened) rounds ->
    exists d', pcs_verify V T emb generator M0 M Ch config debug rounds proof d = Ok d' /\ sync ch' d'.
  Proof.
    intros lg debug rs cds st ch d opened proof st' ch' rounds P B C S O F.
    destruct (C63_accepted V T emb generator M0 M Ch config coset_lde_batch interpolate_coset sync lg debug rs cds st ch d opened proof st' ch' P B C S O)
      as (d' & Ev & S' & El).
    exists d'. split; [|exact S']. rewrite <- Ev. symmetry. apply C66_top_values_ignored. now rewrite El.
  Qed.
End Forge.

(** ** The instances of the repository *)
(** BabyBear and its extension of degree 4. *)
Add Field BBF : (fth BabyBear).
Lemma bb4_ext (a0 a1 a2 a3 b0 b1 b2 b3 : BabyBear) : a0 = b0 -> a1 = b1 -> a2 = b2 -> a3 = b3 -> ext a0 a1 a2 a3 = ext b0 b1 b2 b3.
Proof. now intros -> -> -> ->. Qed.
Lemma from_base_mul (a b : BabyBear) : from_base (fmul a b) = fmul (from_base a) (from_base b).
Proof.
  change (fmul (from_base a) (from_base b)) with
    (ext (fadd (fadd (fmul a b) (fmul (of_Z 11 : BabyBear) (fmul f0 f0))) (fst (fmul BB2_y (fmul ((f0, f0) : BB2) (f0, f0)))))
         (fadd (fadd (fmul a f0) (fmul (of_Z 11 : BabyBear) (fmul f0 f0))) (fadd (fmul f0 b) (fmul (of_Z 11 : BabyBear) (fmul f0 f0))))
         (fadd (fadd (fmul a f0) (fmul f0 b)) (snd (fmul BB2_y (fmul ((f0, f0) : BB2) (f0, f0)))))
         (fadd (fadd (fmul a f0) (fmul f0 f0)) (fadd (fmul f0 f0) (fmul f0 b)))).
  replace (fmul BB2_y (fmul ((f0, f0) : BB2) (f0, f0))) with ((f0, f0) : BB2) by (symmetry; apply feqb_ok; vm_compute; reflexivity).
  unfold from_base. apply bb4_ext; cbn [fst snd]; ring.
Qed.
Lemma bb_embedding : embedding BabyBearT ExtT from_base.
Proof.
  constructor.
  - apply bb4_eqb. vm_compute. reflexivity.
  - apply bb4_eqb. vm_compute. reflexivity.
  - exact from_base_add.
  - exact from_base_mul.
  - cbn. lia.
  - cbn [two_adicity BabyBearT]. intros k L. do 28 (destruct k as [|k]; [reflexivity|]). lia.
Qed.

(** C63 for the commitment schemes and the challenger of the repository, over BabyBear and its
    extension; any implementation of the two interpolations will do. *)
Theorem C63_concrete : forall (H : bytes -> bytes) bc0 as_u32_vec0 u32_size0 new_bc0 lock0 bc_witness0 leaf_hash branch_hash opens0 words_of0
    bc as_u32_vec u32_size new_bc lock bc_witness opens words_of WIDTH perm deg words elem config generator coset_lde_batch interpolate_coset lg,
  setting H BabyBear bc0 as_u32_vec0 u32_size0 new_bc0 lock0 bc_witness0 opens0 words_of0 feqb ->
  setting H BB4 bc as_u32_vec u32_size new_bc lock bc_witness opens words_of feqb ->
  generator <> f0 -> lde_contract BabyBearT coset_lde_batch -> interp_contract BabyBearT ExtT from_base interpolate_coset ->
  lg <= 27 -> 1 <= log_blowup config -> 0 < num_queries config ->
  let M0 : mmcs BabyBearT := taptree_mmcs H BabyBear bc0 as_u32_vec0 u32_size0 new_bc0 lock0 bc_witness0 leaf_hash branch_hash feqb (num_queries config) in
  let M : mmcs ExtT := taptree_mmcs H BB4 bc as_u32_vec u32_size new_bc lock bc_witness leaf_hash branch_hash feqb (num_queries config) in
  let Ch : challenger (m_comm M) ExtT := bf_challenger WIDTH perm deg (list hash) BB4 words elem in
  forall debug rs cds st ch d opened proof st' ch', batches BabyBearT ExtT from_base generator config lg rs ->
    Forall2 (fun r cd => exists s s', pcs_commit BabyBearT generator M0 config coset_lde_batch s (map fst r) = Some (fst cd, snd cd, s')) rs cds ->
    in_sync ch d ->
    pcs_open BabyBearT ExtT from_base generator M0 M Ch config interpolate_coset (List.combine (map snd cds) (map (map snd) rs)) st ch opened proof st' ch' ->
    Forall2 (Forall2 (opens_to BabyBearT ExtT from_base)) rs opened /\
    exists d', pcs_verify BabyBearT ExtT from_base generator M0 M Ch config debug (all_claims BabyBearT ExtT M0 rs cds opened) proof d = Ok d' /\ in_sync ch' d'.
Proof.
  intros H bc0 as_u32_vec0 u32_size0 new_bc0 lock0 bc_witness0 leaf_hash branch_hash opens0 words_of0
    bc as_u32_vec u32_size new_bc lock bc_witness opens words_of WIDTH perm deg words elem config generator coset_lde_batch interpolate_coset lg
    S0 S1 Ng Lc Ic Lg Lb Nq M0 M Ch debug rs cds st ch d opened proof st' ch' B C Sy O.
  assert (pcs_setting BabyBearT ExtT from_base generator M0 M Ch config coset_lde_batch interpolate_coset in_sync lg) as Ps.
  { unfold pcs_setting. split; [exact bb_embedding|]. split; [exact Ng|]. split; [exact Lc|]. split; [exact Ic|]. split; [exact Lg|]. split; [lia|]. split; [exact Lb|].
    split; [eapply taptree_contract; [exact Nq|exact S0|cbn; lia]|]. split; [eapply taptree_contract; [exact Nq|exact S1|cbn; lia]|]. apply bf_contract. }
  split.
  - eapply C63_opened; eassumption.
  - edestruct C63_accepted as (d' & E & Sd & _); try eassumption. eauto.
Qed.

(** ** Examples *)
(** Two matrices over BabyBear, committed in two batches: two columns and four rows on the subgroup of
    order 4, opened at two points, and one column and two rows on the coset 3 <-1>, opened at one. *)
Definition exZ : BabyBearT := of_Z 12345.
Definition exZ2 : BabyBearT := of_Z 777.
Definition exA : coset BabyBearT * matrix BabyBearT * list BabyBearT :=
  ({| log_n := 2; shift := f1 |}, {| width := 2; values := ints [1; 2; 3; 4; 5; 6; 7; 9]%Z |}, [exZ; exZ2]).
Definition exB : coset BabyBearT * matrix BabyBearT * list BabyBearT :=
  ({| log_n := 1; shift := (of_Z 3 : BabyBearT) |}, {| width := 1; values := ints [10; 20]%Z |}, [exZ]).
Definition ex_rounds := [[exA]; [exB]].
Definition exG : BabyBearT := of_Z 31.
Definition exM : mmcs BabyBearT := plain_mmcs BabyBear.
Definition exC : challenger (m_comm exM) BabyBearT := count_challenger (m_comm exM).
Definition exE (x : BabyBearT) : BabyBearT := x.
Lemma ex_embedding : embedding BabyBearT BabyBearT exE.
Proof. constructor; unfold exE; try reflexivity. Qed.
Definition ex_lde := naive_lde BabyBearT.
Definition ex_interp := naive_interp BabyBearT BabyBearT exE.
Lemma ex_setting : pcs_setting BabyBearT BabyBearT exE exG exM exM exC cfg2 ex_lde ex_interp eq 3.
Proof.
  unfold pcs_setting. split; [exact ex_embedding|]. split; [intros E; apply feqb_ok in E; vm_compute in E; discriminate|].
  split; [apply naive_lde_ok|]. split; [apply naive_interp_ok, ex_embedding|]. split; [cbn; lia|]. split; [lia|]. split; [cbn; lia|].
  split; [apply plain_contract|]. split; [apply plain_contract|apply count_contract].
Qed.
Lemma ex_outside (z : BabyBearT) : forallb (fun i => negb (feqb (fmul exG (fpow (gen 3) i)) z)) (seq 0 8) = true -> outside BabyBearT BabyBearT exE exG 3 z.
Proof.
  intros F i Hi E. rewrite forallb_forall in F. change (2 ^ 3) with 8 in Hi. specialize (F i). rewrite in_seq in F. specialize (F ltac:(lia)).
  unfold exE in E. rewrite E, feqb_refl in F. discriminate.
Qed.
Lemma ex_batches : batches BabyBearT BabyBearT exE exG cfg2 3 ex_rounds.
Proof.
  assert (outside BabyBearT BabyBearT exE exG 3 exZ) as O1 by (apply ex_outside; vm_compute; reflexivity).
  assert (outside BabyBearT BabyBearT exE exG 3 exZ2) as O2 by (apply ex_outside; vm_compute; reflexivity).
  split; [|split].
  - assert (openable BabyBearT BabyBearT exE exG cfg2 3 exA) as HA.
    { split; [cbn; lia|]. split; [split; [cbn; lia|reflexivity]|]. split; [cbn; lia|].
      split; [intros E; apply feqb_ok in E; vm_compute in E; discriminate|]. intros z [<-|[<-|[]]]; assumption. }
    assert (openable BabyBearT BabyBearT exE exG cfg2 3 exB) as HB.
    { split; [cbn; lia|]. split; [split; [cbn; lia|reflexivity]|]. split; [cbn; lia|].
      split; [intros E; apply feqb_ok in E; vm_compute in E; discriminate|]. intros z [<-|[]]; assumption. }
    constructor; [|constructor; [|constructor]]; (split; [discriminate|split; [constructor; [assumption|constructor]|constructor; constructor]]).
  - exists [exA], exA. split; [now left|]. split; [now left|reflexivity].
  - exists [exA], exA, exZ. split; [now left|]. split; [now left|now left].
Qed.

(** C63: both batches are committed, opened and accepted. *)
Example C63_example : exists cds opened proof st' ch',
  Forall2 (fun r cd => exists s s', pcs_commit BabyBearT exG exM cfg2 ex_lde s (map fst r) = Some (fst cd, snd cd, s')) ex_rounds cds /\
  pcs_open BabyBearT BabyBearT exE exG exM exM exC cfg2 ex_interp (List.combine (map snd cds) (map (map snd) ex_rounds)) tt 0 opened proof st' ch' /\
  Forall2 (Forall2 (opens_to BabyBearT BabyBearT exE)) ex_rounds opened /\
  pcs_verify BabyBearT BabyBearT exE exG exM exM exC cfg2 true (all_claims BabyBearT BabyBearT exM ex_rounds cds opened) proof 0 = Ok ch'.
Proof.
  pose proof ex_batches as B. pose proof (proj1 B) as F. inversion_clear F as [|? ? (N1 & O1 & S1) F']. inversion_clear F' as [|? ? (N2 & O2 & S2) _].
  destruct (C63_commit BabyBearT BabyBearT exE exG exM exM exC cfg2 ex_lde ex_interp eq 3 [exA] tt ex_setting N1 O1 S1) as (c1 & d1 & s1 & E1).
  destruct (C63_commit BabyBearT BabyBearT exE exG exM exM exC cfg2 ex_lde ex_interp eq 3 [exB] tt ex_setting N2 O2 S2) as (c2 & d2 & s2 & E2).
  set (cds := [(c1, d1); (c2, d2)]).
  assert (Forall2 (fun r cd => exists s s', pcs_commit BabyBearT exG exM cfg2 ex_lde s (map fst r) = Some (fst cd, snd cd, s')) ex_rounds cds) as C
    by (constructor; [eexists _, _; exact E1|constructor; [eexists _, _; exact E2|constructor]]).
  destruct (C63_open BabyBearT BabyBearT exE exG exM exM exC cfg2 ex_lde ex_interp eq 3 ex_rounds cds tt 0 (fun _ => True) ex_setting B C)
    as (opened & proof & st' & ch' & P); [cbn; eauto|cbn; eauto|cbn; eauto|cbn; eauto|exact Logic.I|].
  exists cds, opened, proof, st', ch'. split; [exact C|]. split; [exact P|]. split; [eapply C63_opened; first [exact ex_setting|eassumption]|].
  destruct (C63_accepted BabyBearT BabyBearT exE exG exM exM exC cfg2 ex_lde ex_interp eq 3 true ex_rounds cds tt 0 0 opened proof st' ch' ex_setting B C eq_refl P)
    as (d' & E & -> & _). exact E.
Qed.
Lemma ints_eq (l l' : list BabyBearT) : map as_canonical l = map as_canonical l' -> l = l'.
Proof.
  revert l'. induction l as [|a l IH]; intros [|b l'] E; try discriminate; [reflexivity|]. cbn in E. injection E as E1 E2. f_equal; [now apply bb_eq|now apply IH].
Qed.
(** The opened values of the second batch: the line through (3, 10) and (-3, 20) at 12345. *)
Example C63_values : forall ov, opens_to BabyBearT BabyBearT exE exB ov ->
  map (map as_canonical) ov = [[as_canonical (fadd (of_Z 15 : BabyBearT) (fmul (fmul (fopp (of_Z 5 : BabyBearT)) (finv (of_Z 3 : BabyBearT))) exZ))]].
Proof.
  intros ov O. rewrite (O [[(of_Z 15 : BabyBearT); fmul (fopp (of_Z 5 : BabyBearT)) (finv (of_Z 3 : BabyBearT))]]).
  - vm_compute. reflexivity.
  - split; [constructor; [cbn; lia|constructor]|].
    split; [reflexivity|]. apply ints_eq. vm_compute. reflexivity.
Qed.

(** C39: two committed matrices with arbitrary contents (8 rows and 4 rows), in one batch. *)
Definition exCA : coset BabyBearT * matrix BabyBearT * list BabyBearT :=
  ({| log_n := 2; shift := f1 |}, {| width := 2; values := ints (map Z.of_nat (seq 5 16)) |}, [exZ; exZ2]).
Definition exCB : coset BabyBearT * matrix BabyBearT * list BabyBearT :=
  ({| log_n := 1; shift := f1 |}, {| width := 1; values := ints [10; 20; 77; 3]%Z |}, [exZ]).
Lemma ex_interp_total (m : matrix BabyBearT) k s z : has_rows m k -> exists ys, ex_interp m s z = Some ys /\ length ys = width BabyBearT m.
Proof.
  intros Hm. unfold ex_interp, naive_interp. rewrite (rect_height BabyBearT _ _ Hm), log2_strict_pow. eexists. split; [reflexivity|].
  unfold column_polys. now rewrite !map_length, seq_length.
Qed.
Lemma ros_pair (T : two_adic) (v0 v1 : list T) : length v0 = 8 -> length v1 = 4 -> ros T 5 3 [v0; v1] = [(3, nth 5 v0 f0); (2, nth 2 v1 f0)].
Proof. intros L0 L1. unfold ros. cbn [map]. rewrite L0, L1. reflexivity. Qed.
Example C39_example : exists opened inputs,
  open_reduce BabyBearT BabyBearT exE exG cfg2 ex_interp exZ2 [([evals _ _ exCA; evals _ _ exCB], [[exZ; exZ2]; [exZ]])] = Some (opened, inputs) /\
  map (@length BabyBearT) inputs = [8; 4] /\
  pcs_open_input BabyBearT BabyBearT exE exG exM cfg2 exZ2 3 (told_all BabyBearT BabyBearT exM [[exCA; exCB]] [[evals _ _ exCA; evals _ _ exCB]] opened) 0 5
    [(queried BabyBearT BabyBearT cfg2 3 5 [exCA; exCB], 5)] = Ok [(3, nth 5 (nth 0 inputs []) f0); (2, nth 2 (nth 1 inputs []) f0)].
Proof.
  destruct (C39_agree BabyBearT BabyBearT exE exG exM cfg2 ex_interp exZ2 3 [[exCA; exCB]]) as (opened & inputs & E & Ei & _ & V).
  - cbn; lia.
  - lia.
  - apply ex_interp_total.
  - assert (outside BabyBearT BabyBearT exE exG 3 exZ) as O1 by (apply ex_outside; vm_compute; reflexivity).
    assert (outside BabyBearT BabyBearT exE exG 3 exZ2) as O2 by (apply ex_outside; vm_compute; reflexivity).
    constructor; [|constructor]. split; [discriminate|]. constructor; [|constructor; [|constructor]].
    + split; [split; [cbn; lia|reflexivity]|]. split; [cbn; lia|]. intros z [<-|[<-|[]]]; assumption.
    + split; [split; [cbn; lia|reflexivity]|]. split; [cbn; lia|]. intros z [<-|[]]; assumption.
  - exists [exCA; exCB], exCA, exZ. cbn. auto.
  - exists opened, inputs. split; [exact E|].
    assert (map (@length BabyBearT) inputs = [8; 4]) as L by (rewrite Ei; reflexivity).
    split; [exact L|]. specialize (V 0 5 [[evals _ _ exCA; evals _ _ exCB]] [5]). etransitivity; [apply V|].
    + cbn; lia.
    + reflexivity.
    + reflexivity.
    + constructor; [|constructor]. vm_compute. reflexivity.
    + clear - L. destruct inputs as [|v0 [|v1 [|v2 vs]]]; [discriminate L|discriminate L| |discriminate L]. cbn [map] in L. injection L as L0 L1. f_equal. exact (ros_pair BabyBearT v0 v1 L0 L1).
Qed.

(** C64: the four-row matrix of C63 on the coset of order 8. *)
Example C64_example : exists c d s' m, pcs_commit BabyBearT exG exM cfg2 ex_lde tt (map fst [exA]) = Some (c, d, s') /\
  get_evaluations_on_domain BabyBearT exG exM d 0 {| log_n := 3; shift := exG |} = Some m /\
  forall ps, columns BabyBearT BabyBearT exA ps -> tabulates m 8 (fun i => fmul exG (fpow (gen 3) i)) ps.
Proof.
  pose proof ex_batches as B. pose proof (proj1 B) as F. inversion_clear F as [|? ? (N1 & O1 & S1) F'].
  destruct ex_setting as (E & gnz & lc & ic & Ls & L32 & L1 & mm0 & mm & cc).
  destruct (C63_commit BabyBearT BabyBearT exE exG exM exM exC cfg2 ex_lde ex_interp eq 3 [exA] tt ex_setting N1 O1 S1) as (c1 & d1 & s1 & E1).
  destruct (C64_evaluations BabyBearT BabyBearT exE exG exM cfg2 ex_lde 3 2 [exA] tt c1 d1 s1 0 exA 3 gnz lc Ls L32 mm0 N1 O1 S1 E1 eq_refl) as (m & Em & Tm); [cbn; lia|].
  exists c1, d1, s1, m. auto.
Qed.

(** C65: a proof without queries is refused, by a panic. *)
Example C65_example :
  pcs_verify BabyBearT BabyBearT exE exG exM exM exC cfg2 true [] {| commit_phase_commits := []; query_proofs := []; final_poly := exZ; pow_witness := 0 : c_wit exC |} 0 = Panic.
Proof. vm_compute. reflexivity. Qed.

(** C66: after the honest run of C63 the verifier accepts 1, 2, 3, 4 for the four opened values of the
    first matrix. *)
Example C66_example : exists c1 c2 ov proof ch',
  pcs_verify BabyBearT BabyBearT exE exG exM exM exC cfg2 true
    [(c1, [(dom _ _ exA, [(exZ, ints [1; 2]%Z); (exZ2, ints [3; 4]%Z)])]); (c2, [(dom _ _ exB, [(exZ, ov)])])] proof 0 = Ok ch' /\
  ~ opens_to BabyBearT BabyBearT exE exA [ints [1; 2]%Z; ints [3; 4]%Z].
Proof.
  destruct C63_example as (cds & opened & proof & st' & ch' & C & P & O & _).
  assert (exists c1 d1 c2 d2, cds = [(c1, d1); (c2, d2)]) as (c1 & d1 & c2 & d2 & ->).
  { inversion_clear C as [|? [c1 d1] ? ? _ C']. inversion_clear C' as [|? [c2 d2] ? ? _ C'']. inversion_clear C''. eauto. }
  assert (exists oA oB, opened = [[oA]; [oB]] /\ opens_to BabyBearT BabyBearT exE exA oA /\ opens_to BabyBearT BabyBearT exE exB oB) as (oA & oB & -> & HA & HB).
  { inversion_clear O as [|? x1 ? ? H1 O1]. inversion_clear O1 as [|? x2 ? ? H2 O2]. inversion_clear O2. inversion_clear H1 as [|? oA ? ? HA F1]. inversion_clear F1.
    inversion_clear H2 as [|? oB ? ? HB F2]. inversion_clear F2. eauto 10. }
  destruct (tab_exists BabyBearT (evals _ _ exA) 2 f1) as (psA & FA & TA); [cbn; lia|intros E; apply feqb_ok in E; vm_compute in E; discriminate|split; [cbn; lia|reflexivity]|].
  assert (columns BabyBearT BabyBearT exA psA) as CA by (split; [exact FA|exact TA]).
  destruct (tab_exists BabyBearT (evals _ _ exB) 1 (of_Z 3 : BabyBearT)) as (psB & FB & TB); [cbn; lia|intros E; apply feqb_ok in E; vm_compute in E; discriminate|split; [cbn; lia|reflexivity]|].
  assert (columns BabyBearT BabyBearT exB psB) as CB by (split; [exact FB|exact TB]).
  pose proof (HA psA CA) as EA. pose proof (HB psB CB) as EB. cbn [points exA exB snd map] in EA, EB.
  destruct (C66_any_value_accepted BabyBearT BabyBearT exE exG exM exM exC cfg2 ex_lde ex_interp eq 3 true ex_rounds [(c1, d1); (c2, d2)] tt 0 0 [[oA]; [oB]] proof st' ch'
    [(c1, [(dom _ _ exA, [(exZ, ints [1; 2]%Z); (exZ2, ints [3; 4]%Z)])]); (c2, [(dom _ _ exB, [(exZ, map (fun p => peval (map exE p) exZ) psB)])])]
    ex_setting ex_batches C eq_refl P) as (d' & V & <-).
  - subst oA oB. constructor; [|constructor; [|constructor]]; (split; [reflexivity|]); (constructor; [|constructor]); (split; [reflexivity|]); (split; [reflexivity|]).
    + cbn. lia.
    + reflexivity.
  - do 5 eexists. split; [exact V|]. intros Bad.
    (* the first column holds 1, 3, 5, 7: it is not 1 at 12345 *)
    assert (length psA = 2) as L by (symmetry; exact (proj1 TA)).
    specialize (Bad (column_polys BabyBearT (evals _ _ exA) 2 f1)).
    assert (columns BabyBearT BabyBearT exA (column_polys BabyBearT (evals _ _ exA) 2 f1)) as CC.
    { split; [|split; [reflexivity|apply ints_eq; vm_compute; reflexivity]]. apply Forall_forall. intros p I.
      change (In p [nth 0 (column_polys BabyBearT (evals _ _ exA) 2 f1) []; nth 1 (column_polys BabyBearT (evals _ _ exA) 2 f1) []]) in I.
      destruct I as [<-|[<-|[]]]; apply Nat.leb_le; vm_compute; reflexivity. }
    specialize (Bad CC). apply (f_equal (map (map as_canonical))) in Bad. vm_compute in Bad. discriminate.
Qed.
