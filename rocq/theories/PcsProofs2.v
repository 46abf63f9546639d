(** TwoAdicFriPcs: what the prover commits to and opens, the verifier accepts. *)
From Coq Require Import List Arith Bool Lia Field Sorted.
From Verif Require Import Field TcsModel TcsProofs PropTcs FriModel FriProofs FriProofs2 PcsModel PolyExt PcsProofs.
Import ListNotations.

Lemma desc_nonnil {A} (f : nat -> option A) n k a : k < n -> f k = Some a -> desc n f <> [].
Proof.
  intros L E. induction n as [|n IH]; [lia|]. cbn. destruct (f n) as [b|] eqn:En; [discriminate|].
  apply IH. destruct (Nat.eq_dec k n) as [->|]; [congruence|lia].
Qed.
Lemma max_fold {A} (f : A -> nat) l b : (forall x, In x l -> f x <= b) -> (exists x, In x l /\ f x = b) ->
  fold_left (fun a x => Nat.max a (f x)) l 0 = b.
Proof.
  intros H (x & I & E). apply Nat.le_antisymm; [apply fold_max_le; [exact H|lia]|]. rewrite <- E. exact (proj2 (fold_max_ge f l 0) x I).
Qed.

Section Rev.
  Variable V : two_adic.
  Variable generator : V.
  Lemma bit_reverse_tab (m : matrix V) k pt ps : ps <> [] -> tabulates m (2 ^ k) pt ps ->
    exists m', bit_reverse_rows V m = Some m' /\ tabulates m' (2 ^ k) (fun i => pt (reverse_bits_len i k)) ps.
  Proof.
    intros N Tb. unfold bit_reverse_rows. rewrite (rect_height V m k (tab_rows _ m k pt ps N Tb)), log2_strict_pow.
    eexists. split; [reflexivity|]. split; [exact (proj1 Tb)|]. cbn [values]. rewrite !flat_map_concat_map. f_equal.
    apply map_ext_in. intros i Hi. apply in_seq in Hi. apply (tab_row V m (2 ^ k) pt ps _ Tb). apply rbl_lt.
  Qed.
  Lemma top_rows_tab (m : matrix V) n n' pt ps : n' <= n -> tabulates m n pt ps -> tabulates (top_rows V n' m) n' pt ps.
  Proof.
    intros L [W E]. split; [exact W|]. cbn [values top_rows]. rewrite W, E.
    replace n with (n' + (n - n')) by lia. rewrite seq_app, flat_map_app.
    pose proof (proj1 (flat_map_rows (fun i => map (fun p => peval p (pt i)) ps) (length ps) (seq 0 n') (fun i _ => map_length _ _))) as L1.
    rewrite seq_length in L1. rewrite firstn_app, L1. replace (n' * length ps - length ps * n') with 0 by lia.
    rewrite firstn_O, app_nil_r. apply firstn_all2. lia.
  Qed.
  (** the first 2^n rows of a committed matrix, in natural order *)
  Lemma low_tab (m : matrix V) k n ps : ps <> [] -> n <= k -> k <= two_adicity V -> tabulates m (2 ^ k) (cpoint V generator k) ps ->
    exists m', bit_reverse_rows V (top_rows V (2 ^ n) m) = Some m' /\ tabulates m' (2 ^ n) (fun i => fmul generator (fpow (gen n) i)) ps.
  Proof.
    intros N L La Tb. assert (2 ^ n <= 2 ^ k) as Lp by (apply Nat.pow_le_mono_r; lia).
    destruct (bit_reverse_tab (top_rows V (2 ^ n) m) n (cpoint V generator n) ps N) as (m' & E & Tm).
    { apply (tab_ext _ _ _ (cpoint V generator k)); [intros i Hi; apply cpoint_prefix; lia|]. now apply (top_rows_tab m (2 ^ k)). }
    exists m'. split; [exact E|]. apply (tab_ext _ _ _ _ _ ps) with (2 := Tm). intros i Hi. unfold cpoint. now rewrite rbl_invol.
  Qed.
End Rev.

(** What is needed of p3_dft's coset_lde_batch: from the values of polynomials on <g_n>, in order,
    their values on shift <g_(n+b)>, in order. *)
Definition lde_contract (V : two_adic) (coset_lde_batch : matrix V -> nat -> V -> option (matrix V)) : Prop :=
  forall m n b s ps, ps <> [] -> Forall (fun p => length p <= 2 ^ n) ps -> n + b <= two_adicity V -> s <> f0 ->
    tabulates m (2 ^ n) (fun i => fpow (gen n) i) ps ->
    exists m', coset_lde_batch m b s = Some m' /\ tabulates m' (2 ^ (n + b)) (fun i => fmul s (fpow (gen (n + b)) i)) ps.
(** What is needed of p3_interpolation's interpolate_coset: from the values of polynomials on
    shift <g_n>, in order, their values at a point outside it. *)
Definition interp_contract (V T : two_adic) (emb : V -> T) (interpolate_coset : matrix V -> V -> T -> option (list T)) : Prop :=
  forall m n s z ps, ps <> [] -> Forall (fun p => length p <= 2 ^ n) ps -> n <= two_adicity V -> s <> f0 ->
    tabulates m (2 ^ n) (fun i => fmul s (fpow (gen n) i)) ps -> (forall i, i < 2 ^ n -> emb (fmul s (fpow (gen n) i)) <> z) ->
    interpolate_coset m s z = Some (map (fun p => peval (map emb p) z) ps).

Section Pcs.
  Variables V T : two_adic.
  Variable emb : V -> T.
  Variable generator : V.
  Variable M0 : mmcs V.
  Variable M : mmcs T.
  Variable Ch : challenger (m_comm M) T.
  Variable config : fri_config.
  Variable coset_lde_batch : matrix V -> nat -> V -> option (matrix V).
  Variable interpolate_coset : matrix V -> V -> T -> option (list T).
  Hypothesis E : embedding V T emb.
  Add Field VF2 : (fth V).
  Add Field TF2 : (fth T).
  Notation lb := (log_blowup config).
  Notation cpt := (cpoint V generator).

  (** the values interpolate_coset gives for a matrix at a point *)
  Definition ys_at (m : matrix V) (z : T) : list T :=
    match low V config m with
    | None => []
    | Some lo => match interpolate_coset lo generator z with Some ys => ys | None => [] end
    end.
  Notation ent := (ent V T).
  Notation ent_at := (ent_of V T ys_at).
  Notation pmat := (pmat V T).

  (** *** C39: the prover's vectors and the verifier's reduced openings *)
  (** a round: what was committed, its commitment, the opening of the rows for the query *)
  Record round := { rd_comm : m_comm M0; rd_proof : m_proof M0; rd_mats : list (coset V * pmat) }.
  Definition rd_pms (r : round) : list pmat := map snd (rd_mats r).
  Section Agree.
    Variables (alpha : T) (lg : nat).
    Hypothesis lg_small : lg <= two_adicity V.
    Hypothesis lg32 : lg < 32.
    Definition mat_ok (dm : coset V * pmat) : Prop :=
      has_rows (fst (fst (snd dm))) (snd (fst (snd dm))) /\ snd (fst (snd dm)) = log_n (fst dm) + lb /\ snd (fst (snd dm)) <= lg /\
      forall z, In z (snd (snd dm)) -> off_coset V T emb generator lg z /\ interp_ok V T generator config interpolate_coset ys_at (fst (fst (snd dm))) z.
    Definition inputs_of (pms : list pmat) : list (list T) :=
      desc (S lg) (fun k => match at_k V T k (map ent_at pms) with [] => None
        | _ => Some (map (fun j => peval (terms V T emb generator (map ent_at pms) k j) alpha) (seq 0 (2 ^ k))) end).
    Lemma at_k_high pms k : (forall pm, In pm pms -> snd (fst pm) <= lg) -> lg < k -> at_k V T k (map ent_at pms) = [].
    Proof.
      intros B L. unfold at_k. induction pms as [|pm pms IH]; [reflexivity|]. cbn [map filter].
      rewrite IH by (intros; apply B; now right). pose proof (B pm (or_introl eq_refl)).
      unfold ent_of at 1. cbn [e_k]. destruct (Nat.eqb_spec (snd (fst pm)) k); [lia|reflexivity].
    Qed.
    Lemma prover_inputs (rounds : list (list (coset V * pmat))) : Forall (Forall mat_ok) rounds ->
      (exists pm z, In pm (concat (map (map snd) rounds)) /\ In z (snd pm)) ->
      open_reduce V T emb generator config interpolate_coset alpha (mp_of V T (map (map snd) rounds)) =
      Some (opened_of V T ys_at (map (map snd) rounds), inputs_of (concat (map (map snd) rounds))).
    Proof.
      intros F Ex.
      assert (forall pm, In pm (concat (map (map snd) rounds)) -> exists dm, snd dm = pm /\ mat_ok dm) as Hp.
      { intros pm I. apply in_concat in I as (pms & Ip & I). apply in_map_iff in Ip as (r & <- & Ir).
        apply in_map_iff in I as (dm & <- & I). rewrite Forall_forall in F. specialize (F _ Ir). rewrite Forall_forall in F. eauto. }
      rewrite (open_reduce_ok V T emb generator config interpolate_coset alpha ys_at lg lg_small (map (map snd) rounds) lg32).
      - f_equal. f_equal. unfold inputs_of. apply desc_bound.
        + intros k Hk. rewrite at_k_high; [reflexivity| |lia].
          intros pm I. destruct (Hp pm I) as ([d ?] & <- & (_ & _ & L & _)). exact L.
        + intros k Hk. rewrite at_k_high; [reflexivity| |lia].
          intros pm I. destruct (Hp pm I) as ([d ?] & <- & (_ & _ & L & _)). exact L.
      - apply Forall_forall. intros pms Ip. apply Forall_forall. intros pm I.
        destruct (Hp pm) as (dm & <- & (Hm & _ & L & Z)); [apply in_concat; eauto|].
        split; [exact Hm|]. split; [exact L|]. intros z Iz. apply (Z z Iz).
      - exact Ex.
      - intros pm z I Iz. destruct (Hp pm I) as (dm & <- & (_ & _ & _ & Z)). apply (Z z Iz).
    Qed.
    Variables (qt q : nat).
    Hypothesis q_lt : q < 2 ^ lg.
    Definition rows_at (r : round) : list (list V) := map (fun dm => row_of (fst (fst (snd dm))) (q / 2 ^ (lg - snd (fst (snd dm))))) (rd_mats r).
    Definition claims (r : round) : m_comm M0 * list (coset V * list (T * list T)) :=
      (rd_comm r, map (fun dm => (fst dm, pts_of V T ys_at (fst (fst (snd dm))) (snd (snd dm)))) (rd_mats r)).
    Definition opening (r : round) : batch_opening V M0 := (rows_at r, rd_proof r).
    Definition vround_of (r : round) : vround V T M0 := (rd_comm r, rd_proof r, map (fun dm => (fst dm, ent_at (snd dm))) (rd_mats r)).
    Lemma ros_desc (f : nat -> option (nat -> T)) n : lg < n ->
      ros T q lg (desc n (fun k => option_map (fun g => map g (seq 0 (2 ^ k))) (if k <=? lg then f k else None))) =
      desc n (fun k => option_map (fun g => (k, g (q / 2 ^ (lg - k)))) (if k <=? lg then f k else None)).
    Proof.
      intros _. unfold ros. rewrite desc_map. apply desc_ext. intros k _. destruct (Nat.leb_spec k lg) as [L|]; [|reflexivity].
      destruct (f k) as [g|]; [|reflexivity]. cbn [option_map]. f_equal. rewrite map_length, seq_length, Nat.log2_pow2 by lia. f_equal.
      apply nth_map_seq. apply div_lt_pow. now replace (lg - k + k) with lg by lia.
    Qed.
    Lemma verifier_ros rounds : Forall (fun r => Forall mat_ok (rd_mats r)) rounds ->
      Forall (fun r => rd_mats r <> [] /\ m_verify_batch M0 qt (rows_at r) (rd_proof r) (rd_comm r) = Ok tt) rounds ->
      pcs_open_input V T emb generator M0 config alpha lg (map claims rounds) qt q (map opening rounds) =
      Ok (ros T q lg (inputs_of (concat (map rd_pms rounds)))).
    Proof.
      intros F G.
      assert (map claims rounds = map (vbatch V T M0) (map vround_of rounds)) as ->.
      { rewrite map_map. apply map_ext. intros r. unfold claims, vbatch, vround_of. cbn [fst snd]. f_equal. rewrite map_map. reflexivity. }
      assert (map opening rounds = map (vopening V T lg q M0) (map vround_of rounds)) as ->.
      { rewrite map_map. apply map_ext. intros r. unfold opening, vopening, vround_of. cbn [fst snd]. f_equal. rewrite map_map. reflexivity. }
      rewrite open_input_ok.
      - f_equal. match goal with |- context [flat_map ?f ?l] => assert (flat_map f l = map ent_at (concat (map rd_pms rounds))) as -> end.
        { clear. induction rounds as [|r rounds IH]; [reflexivity|]. cbn [map flat_map concat]. rewrite IH, map_app. f_equal.
          unfold vround_of, rd_pms. cbn [snd]. now rewrite !map_map. }
        set (es := map ent_at _). unfold inputs_of. fold es.
        pose proof (ros_desc (fun k => match at_k V T k es with [] => None | _ => Some (fun j => peval (terms V T emb generator es k j) alpha) end) (S lg) ltac:(lia)) as R.
        etransitivity; [|etransitivity; [symmetry; exact R|f_equal]]; apply desc_ext; intros k Hk;
          rewrite (proj2 (Nat.leb_le k lg)) by lia; unfold oterms; destruct (at_k V T k es); reflexivity.
      - apply Forall_forall. intros v I. apply in_map_iff in I as (r & <- & I). rewrite Forall_forall in F, G.
        destruct (G _ I) as [N Vb]. specialize (F _ I). rewrite Forall_forall in F. unfold vround_ok, vround_of. cbn [fst snd].
        split; [destruct (rd_mats r); [contradiction|discriminate]|]. split.
        + apply Forall_forall. intros de Id. apply in_map_iff in Id as (dm & <- & Id). destruct (F _ Id) as (Hm & Ek & L & Z).
          unfold vok, ent_of. cbn [fst snd e_k e_pts]. split; [exact Ek|]. split; [exact L|]. split; [lia|].
          intros pt Ip. unfold pts_of in Ip. apply in_map_iff in Ip as (z & <- & Iz). cbn [fst]. destruct (Z z Iz) as [O _].
          apply (off_coset_le V T emb generator lg lg_small z _ _ O L). apply div_lt_pow. now replace (lg - snd (fst (snd dm)) + snd (fst (snd dm))) with lg by lia.
        + rewrite map_map. exact Vb.
    Qed.
  End Agree.

  (** *** Completeness *)
  Section Complete.
    Hypothesis gnz : generator <> f0.
    Hypothesis lc : lde_contract V coset_lde_batch.
    Hypothesis ic : interp_contract V T emb interpolate_coset.

    Lemma lde_ok d (m : matrix V) ps : ps <> [] -> Forall (fun p => length p <= 2 ^ log_n d) ps -> log_n d + lb <= two_adicity V ->
      shift d <> f0 -> tabulates m (2 ^ log_n d) (fun i => fmul (shift d) (fpow (gen (log_n d)) i)) ps ->
      exists m', lde V generator config coset_lde_batch (d, m) = Some m' /\ tabulates m' (2 ^ (log_n d + lb)) (cpt (log_n d + lb)) ps.
    Proof.
      clear ic E interpolate_coset. intros N F L Ns Tb. unfold lde. unfold coset_size.
      rewrite (rect_height V m (log_n d) (tab_rows _ m _ _ ps N Tb)), Nat.eqb_refl. cbn [negb]. rewrite checked_div_nz by exact Ns.
      assert (fdiv generator (shift d) <> f0) as Nd.
      { rewrite (Fdiv_def (fth V)). apply fmul_nz; [exact gnz|now apply finv_nz]. }
      destruct (lc m (log_n d) lb (fdiv generator (shift d)) (map (pcomp V (shift d)) ps)) as (m1 & -> & T1).
      - destruct ps; [contradiction|discriminate].
      - apply Forall_forall. intros p I. apply in_map_iff in I as (p' & <- & I). rewrite pcomp_length. rewrite Forall_forall in F. now apply F.
      - exact L.
      - exact Nd.
      - destruct Tb as [W Ev]. split; [now rewrite map_length|]. rewrite Ev, !flat_map_concat_map. f_equal. apply map_ext. intros i.
        rewrite map_map. apply map_ext. intros p. now rewrite pcomp_ok.
      - apply (bit_reverse_tab V m1 (log_n d + lb) (fun i => fmul generator (fpow (gen (log_n d + lb)) i)) ps N). destruct T1 as [W Ev]. rewrite map_length in W. split; [exact W|].
        rewrite Ev, !flat_map_concat_map. f_equal. apply map_ext. intros i. rewrite map_map. apply map_ext. intros p.
        rewrite pcomp_ok. f_equal. field. exact Ns.
    Qed.

    Variable lg : nat.
    Hypothesis lg_small : lg <= two_adicity V.
    Hypothesis lg32 : lg < 32.
    Notation off z := (off_coset V T emb generator lg z).

    (** a committed matrix that comes from polynomials of the proper degree *)
    Definition good_with (dm : coset V * pmat) (ps : list (list V)) : Prop :=
      ps <> [] /\ Forall (fun p => length p <= 2 ^ log_n (fst dm)) ps /\
      tabulates (fst (fst (snd dm))) (2 ^ snd (fst (snd dm))) (cpt (snd (fst (snd dm)))) ps.
    Definition good (dm : coset V * pmat) : Prop :=
      1 <= log_n (fst dm) /\ snd (fst (snd dm)) = log_n (fst dm) + lb /\ snd (fst (snd dm)) <= lg /\
      (forall z, In z (snd (snd dm)) -> off z) /\ exists ps, good_with dm ps.
    Lemma ys_ok dm ps z : 1 <= log_n (fst dm) -> snd (fst (snd dm)) = log_n (fst dm) + lb -> snd (fst (snd dm)) <= lg -> off z -> good_with dm ps ->
      ys_at (fst (fst (snd dm))) z = map (fun p => peval (map emb p) z) ps /\
      interp_ok V T generator config interpolate_coset ys_at (fst (fst (snd dm))) z.
    Proof.
      destruct dm as [d [[m k] zs]]. unfold good_with. cbn [fst snd]. intros L1 -> Lk O (N & F & Tb).
      assert (low V config m = bit_reverse_rows V (top_rows V (2 ^ log_n d) m)) as El.
      { unfold low. rewrite (rect_height V m _ (tab_rows _ m _ _ ps N Tb)), Nat.pow_add_r, Nat.div_mul by (apply Nat.pow_nonzero; lia). reflexivity. }
      destruct (low_tab V generator m (log_n d + lb) (log_n d) ps N) as (lo & Elo & Tlo); [lia|lia|exact Tb|].
      assert (interpolate_coset lo generator z = Some (map (fun p => peval (map emb p) z) ps)) as Ei.
      { apply (ic lo (log_n d) generator z ps N F); [lia|exact gnz|exact Tlo|]. intros i Hi.
        pose proof (off_coset_le V T emb generator lg lg_small z (log_n d) (reverse_bits_len i (log_n d)) O ltac:(lia) (rbl_lt _ _)) as X.
        unfold cpoint in X. now rewrite rbl_invol in X by exact Hi. }
      assert (ys_at m z = map (fun p => peval (map emb p) z) ps) as Ey by (unfold ys_at; now rewrite El, Elo, Ei).
      split; [exact Ey|]. exists lo. rewrite El, Ey. split; [exact Elo|]. split; [exact Ei|]. rewrite map_length. symmetry. apply Tb.
    Qed.
    Lemma good_mat_ok dm : good dm -> mat_ok lg dm.
    Proof.
      intros (L1 & Ek & Lk & O & ps & G). split; [|split; [exact Ek|split; [exact Lk|]]].
      - destruct G as (N & _ & Tb). exact (tab_rows _ _ _ _ ps N Tb).
      - intros z Iz. split; [now apply O|]. exact (proj2 (ys_ok dm ps z L1 Ek Lk (O z Iz) G)).
    Qed.

    (** the quotient polynomials *)
    Lemma quotients_poly dm ps j : 1 <= log_n (fst dm) -> snd (fst (snd dm)) = log_n (fst dm) + lb -> snd (fst (snd dm)) <= lg ->
      good_with dm ps -> j < 2 ^ snd (fst (snd dm)) -> forall zs, (forall z, In z zs -> off z) ->
      quotients V T emb (cpt (snd (fst (snd dm))) j) (row_of (fst (fst (snd dm))) j) (pts_of V T ys_at (fst (fst (snd dm))) zs) =
      map (fun q => peval q (emb (cpt (snd (fst (snd dm))) j))) (flat_map (fun z => map (fun p => pquot T (map emb p) z) ps) zs).
    Proof.
      destruct dm as [d [[m k] zs0]]. cbn [fst snd]. intros L1 Ek Lk G Hj. induction zs as [|z zs IH]; intros O; [reflexivity|].
      unfold pts_of, quotients in *. cbn [map flat_map]. rewrite IH by (intros; apply O; now right). rewrite map_app. f_equal.
      cbn [fst snd]. pose proof (O z (or_introl eq_refl)) as Oz.
      pose proof (proj1 (ys_ok (d, (m, k, zs0)) ps z L1 Ek Lk Oz G)) as Ey. cbn [fst snd] in Ey. rewrite Ey. destruct G as (N & F & Tb). cbn [fst snd] in *. rewrite (tab_row V _ _ _ ps j Tb Hj).
      set (x := cpt _ j). assert (emb x <> z) as Nz by (apply (off_coset_le V T emb generator lg lg_small z _ j Oz Lk Hj)).
      clear - E Nz. induction ps as [|p ps IH]; [reflexivity|]. cbn [map List.combine fst snd]. f_equal; [|exact IH].
      rewrite (emb_peval V T emb E). rewrite (pquot_ok T (map emb p) z (emb x)). field. now apply fsub_nz.
    Qed.
    Lemma terms_poly dms : Forall good dms -> forall k, exists qs, Forall (fun q => length q <= 2 ^ (k - lb)) qs /\
      forall j, j < 2 ^ k -> terms V T emb generator (map ent_at (map snd dms)) k j = map (fun q => peval q (emb (cpt k j))) qs.
    Proof.
      induction 1 as [|dm dms (L1 & Ek & Lk & O & ps & G) Fd IH]; intros k.
      - exists []. split; [constructor|reflexivity].
      - destruct (IH k) as (qs & Fq & Eq). destruct (Nat.eqb_spec (snd (fst (snd dm))) k) as [Ekk|Nk].
        + exists (flat_map (fun z => map (fun p => pquot T (map emb p) z) ps) (snd (snd dm)) ++ qs). split.
          * apply Forall_app. split; [|exact Fq]. apply Forall_forall. intros q I. apply in_flat_map in I as (z & _ & I).
            apply in_map_iff in I as (p & <- & I). rewrite pquot_length, map_length. destruct G as (_ & F & _). rewrite Forall_forall in F.
            specialize (F _ I). replace (k - lb) with (log_n (fst dm)) by lia. lia.
          * intros j Hj. unfold terms in *. cbn [map at_k filter]. unfold ent_of at 1. cbn [e_k]. rewrite (proj2 (Nat.eqb_eq _ _) Ekk).
            cbn [flat_map]. rewrite map_app. f_equal; [|apply Eq; exact Hj]. subst k. unfold ent_of. cbn [e_row e_pts].
            now apply quotients_poly.
        + exists qs. split; [exact Fq|]. intros j Hj. rewrite <- (Eq j Hj). unfold terms. cbn [map at_k filter]. unfold ent_of at 1. cbn [e_k].
          now rewrite (proj2 (Nat.eqb_neq _ _) Nk).
    Qed.
    Lemma low_degree_desc (f : nat -> option (list T)) n :
      (forall k v, k < n -> f k = Some v -> lb < k /\ exists p, v = codeword T k p /\ length p <= 2 ^ (k - lb)) ->
      low_degree T config (n - 1) (desc n f).
    Proof.
      induction n as [|n IH]; intros H; [exact Logic.I|]. cbn [desc]. replace (S n - 1) with n by lia.
      assert (low_degree T config (n - 1) (desc n f)) as R by (apply IH; intros; apply H; [lia|assumption]).
      destruct (f n) as [v|] eqn:En.
      - destruct (H n v ltac:(lia) En) as (Lb & p & Ev & Lp). cbn [low_degree]. exists n, p. repeat split; try assumption; lia.
      - destruct (desc n f) as [|v rest]; [exact Logic.I|]. destruct R as (kv & p & B & R). exists kv, p. split; [lia|exact R].
    Qed.
    Lemma inputs_low alpha dms : Forall good dms -> (exists dm, In dm dms /\ snd (fst (snd dm)) = lg) ->
      let v := inputs_of alpha lg (map snd dms) in
      low_degree T config lg v /\ v <> [] /\ length (hd [] v) = 2 ^ lg.
    Proof.
      intros F (dm & Id & Edm) v.
      assert (forall k, at_k V T k (map ent_at (map snd dms)) <> [] -> exists dm, In dm dms /\ snd (fst (snd dm)) = k) as An.
      { intros k N. destruct (at_k V T k (map ent_at (map snd dms))) as [|e es] eqn:Ea; [contradiction|].
        assert (In e (at_k V T k (map ent_at (map snd dms)))) as I by (rewrite Ea; now left). apply filter_In in I as [I Ek].
        apply in_map_iff in I as (pm & <- & I). apply in_map_iff in I as (dm' & <- & I). exists dm'. split; [exact I|]. now apply Nat.eqb_eq in Ek. }
      assert (at_k V T lg (map ent_at (map snd dms)) <> []) as Nl.
      { intros X. assert (In (ent_at (snd dm)) (at_k V T lg (map ent_at (map snd dms)))) as I.
        { apply filter_In. split; [do 2 apply in_map; exact Id|]. now apply Nat.eqb_eq. }
        rewrite X in I. destruct I. }
      split; [|split].
      - unfold v, inputs_of. replace lg with (S lg - 1) at 1 by lia. apply low_degree_desc. intros k w Hk Ew.
        destruct (at_k V T k (map ent_at (map snd dms))) as [|e es] eqn:Ea; [discriminate|].
        destruct (An k) as (dm' & Id' & Ek'); [rewrite Ea; discriminate|]. rewrite Forall_forall in F. destruct (F _ Id') as (L1 & Ekd & _).
        split; [lia|]. destruct (terms_poly dms (proj2 (Forall_forall _ _) F) k) as (qs & Fq & Eq).
        exists (pcomp T (emb generator) (psum T alpha qs)). split; [|rewrite pcomp_length; now apply psum_length].
        assert (forall (a b : list T), Some a = Some b -> b = a) as Si by congruence. apply Si in Ew. subst w. unfold codeword.
        apply map_ext_in. intros j Hj. apply in_seq in Hj. rewrite Eq by lia. rewrite pcomp_ok, psum_ok. f_equal. apply map_ext. intros qp. f_equal.
        unfold cpoint. rewrite (emb_mul _ _ _ E), (emb_pow V T emb E), (emb_gen _ _ _ E); [reflexivity|lia].
      - unfold v, inputs_of. destruct (at_k V T lg (map ent_at (map snd dms))) as [|e es] eqn:Ea; [contradiction|].
        eapply (desc_nonnil _ (S lg) lg); [lia|]. cbv beta. rewrite Ea. reflexivity.
      - unfold v, inputs_of. cbn [desc]. destruct (at_k V T lg (map ent_at (map snd dms))) as [|e es] eqn:Ea; [contradiction|].
        cbn [hd]. now rewrite map_length, seq_length.
    Qed.

    (** *** The whole protocol *)
    (** domain, evaluations and points of a matrix; a round is a list of them *)
    Definition item : Type := coset V * matrix V * list T.
    Definition item_ok (x : item) : Prop :=
      1 <= log_n (fst (fst x)) /\ has_rows (snd (fst x)) (log_n (fst (fst x))) /\ log_n (fst (fst x)) + lb <= lg /\
      shift (fst (fst x)) <> f0 /\ forall z, In z (snd x) -> off z.
    Definition of_polys (x : item) (ps : list (list V)) : Prop :=
      Forall (fun p => length p <= 2 ^ log_n (fst (fst x))) ps /\
      tabulates (snd (fst x)) (2 ^ log_n (fst (fst x))) (fun i => fmul (shift (fst (fst x))) (fpow (gen (log_n (fst (fst x)))) i)) ps.
    Definition round_ok (r : list item) : Prop :=
      r <> [] /\ Forall item_ok r /\ StronglySorted (fun a b : item => log_n (fst (fst b)) <= log_n (fst (fst a))) r.
    Definition committed (r : list item) (cd : m_comm M0 * m_data M0) : Prop :=
      exists st st', pcs_commit V generator M0 config coset_lde_batch st (map fst r) = Some (fst cd, snd cd, st').

    Definition lde_of (x : item) (dm : coset V * pmat) : Prop :=
      fst dm = fst (fst x) /\ snd (snd dm) = snd x /\ good dm /\ lde V generator config coset_lde_batch (fst x) = Some (fst (fst (snd dm))) /\
      (forall ps, of_polys x ps -> good_with dm ps).
    Lemma item_lde x : item_ok x -> exists dm, lde_of x dm.
    Proof.
      destruct x as [[d m] zs]. intros (L1 & Hm & Lk & Ns & O). cbn [fst snd] in *.
      destruct (tab_exists V m (log_n d) (shift d)) as (ps & F & Tb); [lia|exact Ns|exact Hm|].
      assert (forall ps, tabulates m (2 ^ log_n d) (fun i => fmul (shift d) (fpow (gen (log_n d)) i)) ps -> ps <> []) as Np.
      { intros ps' [W _] ->. destruct Hm as [W0 _]. cbn in W. lia. }
      destruct (lde_ok d m ps (Np ps Tb) F ltac:(lia) Ns Tb) as (m' & El & Tm).
      exists (d, (m', log_n d + lb, zs)). unfold lde_of, good, good_with, of_polys. cbn [fst snd].
      assert (forall ps, Forall (fun p => length p <= 2 ^ log_n d) ps /\ tabulates m (2 ^ log_n d) (fun i => fmul (shift d) (fpow (gen (log_n d)) i)) ps ->
        ps <> [] /\ Forall (fun p => length p <= 2 ^ log_n d) ps /\ tabulates m' (2 ^ (log_n d + lb)) (cpt (log_n d + lb)) ps) as G.
      { intros ps' [F' Tb']. split; [exact (Np ps' Tb')|]. split; [exact F'|].
        destruct (lde_ok d m ps' (Np ps' Tb') F' ltac:(lia) Ns Tb') as (m2 & El2 & Tm2). congruence. }
      split; [reflexivity|]. split; [reflexivity|]. split; [|split; [exact El|exact G]].
      split; [exact L1|]. split; [reflexivity|]. split; [exact Lk|]. split; [exact O|]. exists ps. apply G. auto.
    Qed.
    Lemma items_lde r : Forall item_ok r -> exists dms, Forall2 lde_of r dms.
    Proof.
      induction 1 as [|x r Hx _ (dms & IH)]; [exists []; constructor|]. destruct (item_lde x Hx) as (dm & Hd).
      exists (dm :: dms). now constructor.
    Qed.
    Lemma ldes_traverse r dms : Forall2 lde_of r dms ->
      traverse (lde V generator config coset_lde_batch) (map fst r) = Some (map (fun dm => fst (fst (snd dm))) dms).
    Proof. induction 1 as [|x dm r dms (_ & _ & _ & El & _) F IH]; [reflexivity|]. cbn [map traverse]. now rewrite El, IH. Qed.
    Lemma good_rows dm : good dm -> has_rows (fst (fst (snd dm))) (snd (fst (snd dm))).
    Proof. intros (_ & _ & _ & _ & ps & N & _ & Tb). exact (tab_rows _ _ _ _ ps N Tb). Qed.
    Lemma good_nrows dm : good dm -> nrows (fst (fst (snd dm))) = 2 ^ snd (fst (snd dm)).
    Proof. intros G. pose proof (good_rows dm G) as R. rewrite (nrows_height _ _ R). exact (rect_height V _ _ R). Qed.

    Record cround := { c_items : list item; c_com : m_comm M0 * m_data M0; c_dms : list (coset V * pmat) }.
    Definition c_mats (c : cround) : list (matrix V) := map (fun dm => fst (fst (snd dm))) (c_dms c).
    Variable nq : nat.
    Variable lo : nat.
    Hypothesis lo_small : lo <= S lb.
    Hypothesis mm0 : mmcs_contract M0 nq lo (two_adicity V).
    Definition cround_ok (c : cround) : Prop :=
      c_dms c <> [] /\ Forall2 lde_of (c_items c) (c_dms c) /\ m_get_matrices M0 (snd (c_com c)) = Some (c_mats c) /\
      exists Kr, (exists dm, In dm (c_dms c) /\ snd (fst (snd dm)) = Kr) /\ Kr <= lg /\ Forall (fun dm => snd (fst (snd dm)) <= Kr) (c_dms c) /\
        forall qt q, qt < nq -> q < 2 ^ Kr ->
          exists pf, m_open_batch M0 qt q (snd (c_com c)) = Some (map (row_for Kr q) (c_mats c), pf) /\
            m_verify_batch M0 qt (map (row_for Kr q) (c_mats c)) pf (fst (c_com c)) = Ok tt.
    Lemma round_batch r dms : round_ok r -> Forall2 lde_of r dms ->
      dms <> [] /\ StronglySorted (fun a b => nrows b <= nrows a) (map (fun dm => fst (fst (snd dm))) dms) /\
      exists Kr, (exists dm, In dm dms /\ snd (fst (snd dm)) = Kr) /\ lb < Kr <= lg /\ Forall (fun dm => snd (fst (snd dm)) <= Kr) dms /\
        batch (map (fun dm => fst (fst (snd dm))) dms) Kr.
    Proof.
      intros (Ne & F & So) F2.
      assert (Forall good dms) as Gd.
      { clear - F2. induction F2 as [|x dm r dms (_ & _ & G & _) F2 IH]; constructor; assumption. }
      assert (StronglySorted (fun a b : coset V * pmat => snd (fst (snd b)) <= snd (fst (snd a))) dms) as Sd.
      { clear - F2 So. revert So. induction F2 as [|x dm r dms H F2 IH]; intros So; [constructor|].
        inversion_clear So as [|? ? So' Fx]. constructor; [now apply IH|].
        destruct H as (Ed & _ & (_ & Ek & _) & _). clear - F2 Fx Ed Ek. induction F2 as [|y dm' r dms H F2 IH]; [constructor|].
        inversion_clear Fx as [|? ? Ly Fx']. constructor; [|now apply IH]. destruct H as (Ed' & _ & (_ & Ek' & _) & _). rewrite Ek, Ek', Ed, Ed'. lia. }
      destruct dms as [|dm0 dms']; [inversion F2; subst; contradiction|].
      split; [discriminate|]. split.
      - clear - Sd Gd. revert Gd. induction Sd as [|dm dms So IH Fx]; intros Gd; [constructor|]. inversion_clear Gd as [|? ? G Gd'].
        cbn [map]. constructor; [now apply IH|]. apply Forall_forall. intros m Im. apply in_map_iff in Im as (dm' & <- & I).
        rewrite Forall_forall in Fx, Gd'. rewrite !good_nrows by auto. apply Nat.pow_le_mono_r; [lia|]. now apply Fx.
      - exists (snd (fst (snd dm0))). inversion_clear Gd as [|? ? G0 Gd']. inversion_clear Sd as [|? ? _ F0].
        assert (Forall (fun dm : coset V * pmat => snd (fst (snd dm)) <= snd (fst (snd dm0))) (dm0 :: dms')) as Fl by (constructor; [lia|exact F0]).
        split; [exists dm0; split; [now left|reflexivity]|]. split; [destruct G0 as (L1 & Ek & Lk & _); lia|]. split; [exact Fl|]. split.
        + apply Forall_forall. intros m Im. apply in_map_iff in Im as (dm & <- & I). exists (snd (fst (snd dm))).
          rewrite Forall_forall in Fl, Gd'. split; [|now apply Fl]. destruct I as [<-|I]; [now apply good_rows|]. apply good_rows. auto.
        + cbn [map]. constructor. now apply good_rows.
    Qed.
    Lemma commit_ok r st : round_ok r -> exists c d st', pcs_commit V generator M0 config coset_lde_batch st (map fst r) = Some (c, d, st').
    Proof.
      intros R. destruct (items_lde r (proj1 (proj2 R))) as (dms & F2). destruct (round_batch r dms R F2) as (_ & So & Kr & _ & LK & _ & B).
      unfold pcs_commit. rewrite (ldes_traverse r dms F2). destruct (mm0 st _ Kr ltac:(lia) B So) as (c & d & st' & Ec & _). eauto.
    Qed.
    Lemma committed_cround r cd : round_ok r -> committed r cd -> exists dms, cround_ok {| c_items := r; c_com := cd; c_dms := dms |}.
    Proof.
      intros R (st & st' & Ec). destruct (items_lde r (proj1 (proj2 R))) as (dms & F2). destruct (round_batch r dms R F2) as (Nd & So & Kr & Ex & LK & Fl & B).
      unfold pcs_commit in Ec. rewrite (ldes_traverse r dms F2) in Ec. destruct (mm0 st _ Kr ltac:(lia) B So) as (c & d & st2 & Ec2 & Gm & Op).
      rewrite Ec2 in Ec. injection Ec as -> -> ->. exists dms. unfold cround_ok, c_mats. cbn [c_dms c_com c_items fst snd].
      split; [exact Nd|]. split; [exact F2|]. split; [exact Gm|]. exists Kr. split; [exact Ex|]. split; [lia|]. split; [exact Fl|]. exact Op.
    Qed.
    Lemma committed_all rs : Forall round_ok rs -> forall cds, Forall2 committed rs cds ->
      exists crs, map c_items crs = rs /\ map c_com crs = cds /\ Forall cround_ok crs.
    Proof.
      intros F cds F2. revert F. induction F2 as [|r cd rs cds H F2 IH]; intros F; [exists []; repeat split; constructor|].
      inversion_clear F as [|? ? Hr F']. destruct (IH F') as (crs & <- & <- & Fc). destruct (committed_cround r cd Hr H) as (dms & Hc).
      exists ({| c_items := r; c_com := cd; c_dms := dms |} :: crs). repeat split. now constructor.
    Qed.
    Lemma cround_goods c : cround_ok c -> Forall good (c_dms c).
    Proof.
      intros (_ & F2 & _). induction F2 as [|x dm r dms (_ & _ & G & _) F2 IH]; constructor; assumption.
    Qed.

    (** answering the queries *)
    Definition with_proofs (q : nat) (c : cround) (pf : m_proof M0) : round := {| rd_comm := fst (c_com c); rd_proof := pf; rd_mats := c_dms c |}.
    Lemma answer_ok crs : Forall cround_ok crs -> forall qt q, qt < nq -> q < 2 ^ lg ->
      exists rds, answer_inputs V M0 lg (map (fun c => snd (c_com c)) crs) qt q = Some (map (opening lg q) rds) /\
        map rd_mats rds = map c_dms crs /\ map rd_comm rds = map (fun c => fst (c_com c)) crs /\
        Forall (fun r => rd_mats r <> [] /\ m_verify_batch M0 qt (rows_at lg q r) (rd_proof r) (rd_comm r) = Ok tt) rds.
    Proof.
      intros F qt q Hqt Hq. unfold answer_inputs. induction F as [|c crs Hc F IH]; [exists []; repeat split; constructor|].
      destruct IH as (rds & E1 & E2 & E3 & F4). cbn [map traverse]. rewrite E1.
      pose proof (cround_goods c Hc) as Gd. destruct Hc as (Nd & F2 & Gm & Kr & (dmK & IK & EK) & LK & Fl & Op). rewrite Gm.
      assert (max_rows V (c_mats c) = 2 ^ Kr) as ->.
      { unfold max_rows, c_mats. rewrite Forall_forall in Gd, Fl. apply max_fold.
        - intros m I. apply in_map_iff in I as (dm & <- & I). eapply Nat.le_trans; [apply Nat.eq_le_incl; exact (rect_height V _ _ (good_rows dm (Gd _ I)))|]. apply Nat.pow_le_mono_r; [lia|now apply Fl].
        - exists (fst (fst (snd dmK))). split; [apply in_map_iff; eauto|]. etransitivity; [exact (rect_height V _ _ (good_rows dmK (Gd _ IK)))|now rewrite EK]. }
      rewrite log2_strict_pow. rewrite (proj2 (Nat.ltb_ge _ _) LK).
      destruct (Op qt (q / 2 ^ (lg - Kr)) Hqt) as (pf & Eo & Ev); [apply div_lt_pow; now replace (lg - Kr + Kr) with lg by lia|]. rewrite Eo.
      assert (rows_at lg q {| rd_comm := fst (c_com c); rd_proof := pf; rd_mats := c_dms c |} = map (row_for Kr (q / 2 ^ (lg - Kr))) (c_mats c)) as Er.
      { unfold rows_at, c_mats. cbn [rd_mats]. rewrite map_map. apply map_ext_in. intros dm I. rewrite Forall_forall in Gd, Fl. specialize (Fl _ I).
        unfold row_for. destruct (good_rows dm (Gd _ I)) as [W L]. destruct dm as [d [[m k] zs]]. cbn [fst snd] in *. rewrite L. rewrite Nat.mul_comm, Nat.div_mul, Nat.log2_pow2 by lia. f_equal.
        rewrite Nat.div_div, <- Nat.pow_add_r by (apply Nat.pow_nonzero; lia). f_equal. f_equal. lia. }
      exists ({| rd_comm := fst (c_com c); rd_proof := pf; rd_mats := c_dms c |} :: rds). cbn [map]. rewrite E2, E3. unfold opening at 2.
      rewrite Er. split; [reflexivity|]. split; [reflexivity|]. split; [reflexivity|]. constructor; [|exact F4]. rewrite Er. auto.
    Qed.

    (** what the verifier is given for a round *)
    Definition claim (r : list item) (c : m_comm M0) (opened : list (list (list T))) : m_comm M0 * list (coset V * list (T * list T)) :=
      (c, map (fun xo : item * list (list T) => (fst (fst (fst xo)), List.combine (snd (fst xo)) (snd xo))) (List.combine r opened)).
    Fixpoint all_claims (rs : list (list item)) (cds : list (m_comm M0 * m_data M0)) (opened : list (list (list (list T)))) :=
      match rs, cds, opened with
      | r :: rs, cd :: cds, o :: opened => claim r (fst cd) o :: all_claims rs cds opened
      | _, _, _ => []
      end.
    Definition pms_of (crs : list cround) : list (list pmat) := map (fun c => map snd (c_dms c)) crs.
    Lemma claims_ok crs : Forall cround_ok crs -> forall rds, map rd_mats rds = map c_dms crs -> map rd_comm rds = map (fun c => fst (c_com c)) crs ->
      all_claims (map c_items crs) (map c_com crs) (opened_of V T ys_at (pms_of crs)) = map claims rds.
    Proof.
      induction 1 as [|c crs Hc F IH]; intros [|rd rds] E1 E2; try discriminate; [reflexivity|]. cbn [map] in E1, E2.
      assert (rd_mats rd = c_dms c) as Em by congruence. assert (rd_comm rd = fst (c_com c)) as Ec by congruence.
      cbn [map pms_of opened_of all_claims]. unfold opened_of, pms_of in IH. rewrite (IH rds); [|congruence|congruence]. f_equal.
      unfold claim, claims. rewrite Ec, Em. f_equal. destruct Hc as (_ & F2 & _). clear - F2.
      induction F2 as [|x dm r dms (Ed & Ez & _) F2 IH]; [reflexivity|]. cbn [map List.combine fst snd]. rewrite IH. f_equal.
      rewrite <- Ed, <- Ez. f_equal. unfold pts_of. destruct dm as [d [[m k] zs]]. cbn [fst snd]. clear. rename zs into l. induction l as [|z l IH]; [reflexivity|]. cbn. now rewrite IH.
    Qed.

    (** The rounds: at least one matrix is as tall as the domain, at least one point is opened. *)
    Definition rounds_ok (rs : list (list item)) : Prop :=
      Forall round_ok rs /\ (exists r x, In r rs /\ In x r /\ log_n (fst (fst x)) + lb = lg) /\
      (exists r x z, In r rs /\ In x r /\ In z (snd x)).
    Definition open_args (rs : list (list item)) (cds : list (m_comm M0 * m_data M0)) : list (m_data M0 * list (list T)) :=
      List.combine (map snd cds) (map (map snd) rs).
    Lemma open_args_crs crs : Forall cround_ok crs ->
      open_args (map c_items crs) (map c_com crs) = map (fun c => (snd (c_com c), map snd (map snd (c_dms c)))) crs.
    Proof.
      unfold open_args. induction 1 as [|c crs (_ & F2 & _) F IH]; [reflexivity|]. cbn [map List.combine]. rewrite IH. f_equal. f_equal.
      clear - F2. induction F2 as [|x dm r dms (_ & Ez & _) F2 IH]; [reflexivity|]. cbn [map]. now rewrite IH, Ez.
    Qed.
    Lemma get_all crs : Forall cround_ok crs ->
      traverse (fun r : m_data M0 * list (list T) => m_get_matrices M0 (fst r)) (map (fun c => (snd (c_com c), map snd (map snd (c_dms c)))) crs) = Some (map c_mats crs).
    Proof. induction 1 as [|c crs (_ & _ & Gm & _) F IH]; [reflexivity|]. cbn [map traverse fst]. now rewrite Gm, IH. Qed.
    Lemma Forall2_in_l {A B} (P : A -> B -> Prop) l l' x : Forall2 P l l' -> In x l -> exists y, In y l' /\ P x y.
    Proof. induction 1 as [|a b l l' H F IH]; [intros []|]; intros [<-|I]; [exists b; split; [now left|assumption]|]. destruct (IH I) as (y & Iy & Hy). exists y. split; [now right|exact Hy]. Qed.
    Lemma Forall2_in_r {A B} (P : A -> B -> Prop) l l' y : Forall2 P l l' -> In y l' -> exists x, In x l /\ P x y.
    Proof. induction 1 as [|a b l l' H F IH]; [intros []|]; intros [<-|I]; [exists a; split; [now left|assumption]|]. destruct (IH I) as (x & Ix & Hx). exists x. split; [now right|exact Hx]. Qed.
    Definition all_dms (crs : list cround) : list (coset V * pmat) := concat (map c_dms crs).
    Lemma all_good crs : Forall cround_ok crs -> Forall good (all_dms crs).
    Proof. unfold all_dms. induction 1 as [|c crs Hc F IH]; cbn [map concat]; [constructor|]. apply Forall_app. split; [now apply cround_goods|exact IH]. Qed.
    Lemma all_tall crs : Forall cround_ok crs -> rounds_ok (map c_items crs) -> exists dm, In dm (all_dms crs) /\ snd (fst (snd dm)) = lg.
    Proof.
      intros F (_ & (r & x & Ir & Ix & El) & _). apply in_map_iff in Ir as (c & <- & Ic). rewrite Forall_forall in F. destruct (F _ Ic) as (_ & F2 & _).
      destruct (Forall2_in_l _ _ _ x F2 Ix) as (dm & Id & (Ed & _ & (_ & Ek & _) & _)). exists dm. split.
      - apply in_concat. exists (c_dms c). split; [now apply in_map|exact Id].
      - rewrite Ek, Ed. exact El.
    Qed.
    Lemma all_point crs : Forall cround_ok crs -> rounds_ok (map c_items crs) ->
      exists pm z, In pm (concat (pms_of crs)) /\ In z (snd pm).
    Proof.
      intros F (_ & _ & (r & x & z & Ir & Ix & Iz)). apply in_map_iff in Ir as (c & <- & Ic). rewrite Forall_forall in F. destruct (F _ Ic) as (_ & F2 & _).
      destruct (Forall2_in_l _ _ _ x F2 Ix) as (dm & Id & (_ & Ez & _)). exists (snd dm), z. split; [|now rewrite Ez].
      apply in_concat. exists (map snd (c_dms c)). split; [unfold pms_of; now apply (in_map (fun c => map snd (c_dms c)))|now apply in_map].
    Qed.
    Lemma max_all crs : Forall cround_ok crs -> rounds_ok (map c_items crs) -> max_rows V (concat (map c_mats crs)) = 2 ^ lg.
    Proof.
      intros F R. pose proof (all_good crs F) as G. rewrite Forall_forall in G. destruct (all_tall crs F R) as (dmK & IK & EK).
      assert (concat (map c_mats crs) = map (fun dm => fst (fst (snd dm))) (all_dms crs)) as ->.
      { unfold all_dms, c_mats. rewrite concat_map, map_map. reflexivity. }
      unfold max_rows. apply max_fold.
      - intros m I. apply in_map_iff in I as (dm & <- & I). eapply Nat.le_trans; [apply Nat.eq_le_incl; exact (rect_height V _ _ (good_rows dm (G _ I)))|]. apply Nat.pow_le_mono_r; [lia|]. apply (G _ I).
      - exists (fst (fst (snd dmK))). split; [apply in_map_iff; eauto|]. etransitivity; [exact (rect_height V _ _ (good_rows dmK (G _ IK)))|now rewrite EK].
    Qed.
    Lemma open_reduce_crs alpha crs : Forall cround_ok crs -> rounds_ok (map c_items crs) ->
      open_reduce V T emb generator config interpolate_coset alpha (List.combine (map c_mats crs) (map snd (map (fun c => (snd (c_com c), map snd (map snd (c_dms c)))) crs))) =
      Some (opened_of V T ys_at (pms_of crs), inputs_of alpha lg (map snd (all_dms crs))).
    Proof.
      intros F R.
      assert (map (map snd) (map c_dms crs) = pms_of crs) as Ep by (unfold pms_of; now rewrite map_map).
      assert (List.combine (map c_mats crs) (map snd (map (fun c => (snd (c_com c), map snd (map snd (c_dms c)))) crs)) = mp_of V T (map (map snd) (map c_dms crs))) as ->.
      { rewrite Ep. unfold mp_of, pms_of. clear. induction crs as [|c crs IH]; [reflexivity|]. cbn [map List.combine snd fst]. f_equal; [|exact IH].
        f_equal. unfold c_mats. now rewrite map_map. }
      rewrite (prover_inputs alpha lg lg_small lg32 (map c_dms crs)).
      - rewrite Ep. f_equal. f_equal. f_equal. unfold pms_of, all_dms. now rewrite concat_map, map_map.
      - apply Forall_forall. intros dms I. apply in_map_iff in I as (c & <- & Ic). rewrite Forall_forall in F. pose proof (cround_goods c (F _ Ic)) as G.
        eapply Forall_impl; [|exact G]. intros dm. apply good_mat_ok.
      - rewrite Ep. now apply all_point.
    Qed.
    Lemma opened_polys crs : Forall cround_ok crs ->
      Forall2 (Forall2 (fun (x : item) (ov : list (list T)) => forall ps, of_polys x ps -> ov = map (fun z => map (fun p => peval (map emb p) z) ps) (snd x)))
        (map c_items crs) (opened_of V T ys_at (pms_of crs)).
    Proof.
      induction 1 as [|c crs (_ & F2 & _) F IH]; [constructor|]. cbn [map pms_of opened_of]. constructor; [|exact IH]. clear - F2 gnz ic lg_small lg32.
      induction F2 as [|x dm r dms H F2 IH]; [constructor|]. cbn [map]. constructor; [|exact IH]. intros ps Hp.
      destruct H as (_ & Ez & (L1 & Ek & Lk & O & _) & _ & G). specialize (G ps Hp). rewrite <- Ez. apply map_ext_in. intros z Iz.
      exact (proj1 (ys_ok dm ps z L1 Ek Lk (O z Iz) G)).
    Qed.
    (** *** FRI *)
    Hypothesis nq_eq : nq = num_queries config.
    Hypothesis mm : mmcs_contract M (num_queries config) 1 (two_adicity T).
    Hypothesis lb1 : 1 <= lb.
    Variable sync : c_state Ch -> c_state Ch -> Prop.
    Hypothesis cc : chal_contract Ch sync.
    Lemma open_inv crs st ch opened proof st' ch' : Forall cround_ok crs -> rounds_ok (map c_items crs) ->
      pcs_open V T emb generator M0 M Ch config interpolate_coset (open_args (map c_items crs) (map c_com crs)) st ch opened proof st' ch' ->
      exists alpha ch1, c_sample Ch ch = Some (alpha, ch1) /\ opened = opened_of V T ys_at (pms_of crs) /\ bf_prove T M Ch (list (batch_opening V M0)) config (answer_inputs V M0 lg (map (fun c => snd (c_com c)) crs)) st ch1
          (inputs_of alpha lg (map snd (all_dms crs))) proof st' ch'.
    Proof.
      intros F R (alpha & ch1 & mats & lgg & inp & Es & Et & El & Er & P). rewrite (open_args_crs crs F) in Et, Er, P. rewrite (get_all crs F) in Et.
      injection Et as <-. rewrite (max_all crs F R), log2_strict_pow in El. injection El as <-. rewrite (open_reduce_crs alpha crs F R) in Er.
      injection Er as <- <-. rewrite map_map in P. cbn [fst] in P. eauto.
    Qed.
    Lemma good_inputs alpha crs : Forall cround_ok crs -> rounds_ok (map c_items crs) ->
      lb < lg /\ low_degree T config lg (inputs_of alpha lg (map snd (all_dms crs))) /\ inputs_of alpha lg (map snd (all_dms crs)) <> [] /\ length (hd [] (inputs_of alpha lg (map snd (all_dms crs)))) = 2 ^ lg.
    Proof.
      intros F R. destruct (all_tall crs F R) as (dm & I & Ek). pose proof (all_good crs F) as G.
      split; [|apply inputs_low; [exact G|eauto]]. rewrite Forall_forall in G. destruct (G _ I) as (L1 & Ed & _). lia.
    Qed.
    Theorem open_accepted debug rs cds st ch d opened proof st' ch' : rounds_ok rs -> Forall2 committed rs cds -> sync ch d ->
      pcs_open V T emb generator M0 M Ch config interpolate_coset (open_args rs cds) st ch opened proof st' ch' ->
      exists d', pcs_verify V T emb generator M0 M Ch config debug (all_claims rs cds opened) proof d = Ok d' /\ sync ch' d' /\ length (commit_phase_commits T M Ch (list (batch_opening V M0)) proof) + lb = lg.
    Proof.
      intros R C S P. destruct (committed_all rs (proj1 R) cds C) as (crs & <- & <- & F).
      destruct (open_inv crs st ch opened proof st' ch' F R P) as (alpha & ch1 & Es & -> & B).
      destruct (cc_sample _ _ cc _ _ _ _ S Es) as (d1 & Ed & S1). destruct (good_inputs alpha crs F R) as (Lb & Ld & Ne & Lh).
      assert (lg <= two_adicity T) as Lt by (pose proof (emb_adicity _ _ _ E); lia).
      unfold pcs_verify. rewrite Ed.
      assert (length (commit_phase_commits T M Ch (list (batch_opening V M0)) proof) + lb = lg) as El.
      { destruct B as (_ & lm & data & c1 & c2 & El & Ec & _). rewrite Lh, log2_strict_pow in El. injection El as <-.
        destruct (inputs_of alpha lg (map snd (all_dms crs))) as [|v rest]; [contradiction|]. cbn [hd] in Lh.
        unfold commit_phase in Ec. destruct (commit_loop T M Ch config (length v) st ch1 v rest) as [s|] eqn:Ecl; [|discriminate].
        assert (take_input T (repeat f0 (2 ^ lg)) (v :: rest) = (v, rest)) as Et.
        { cbn [take_input]. rewrite repeat_length, Lh, Nat.eqb_refl. f_equal. rewrite <- Lh. clear. induction v as [|x v IH]; [reflexivity|]. cbn. rewrite IH. f_equal. ring. }
        destruct (loop_chain T M Ch unit config mm ltac:(lia) lg (length v) (repeat f0 (2 ^ lg)) (v :: rest) v rest st ch1 s) as (Lc & _);
          [lia|apply repeat_length|now apply low_degree_ins|exact Et|exact Ecl|].
        destruct (length (cs_folded T M Ch s) =? blowup config); [|discriminate]. destruct (cs_folded T M Ch s); [discriminate|].
        destruct (forallb _ _); [|discriminate]. injection Ec as <- _ _ _ _. lia. }
      rewrite El.
      destruct (complete T M Ch (list (batch_opening V M0)) (m_err M0) config mm ltac:(lia) sync cc
        (answer_inputs V M0 lg (map (fun c => snd (c_com c)) crs))
        (pcs_open_input V T emb generator M0 config alpha lg (all_claims (map c_items crs) (map c_com crs) (opened_of V T ys_at (pms_of crs))))
        debug st ch1 d1 (inputs_of alpha lg (map snd (all_dms crs))) proof st' ch' lg Lh) as (challenges & d' & V1 & S' & V2).
      - lia.
      - now apply low_degree_ins.
      - exact Ne.
      - intros qt q ip Hqt Ea Hq. rewrite <- nq_eq in Hqt. destruct (answer_ok crs F qt q Hqt Hq) as (rds & Ea' & Em & Ecm & Fr).
        rewrite Ea' in Ea. injection Ea as <-. rewrite (claims_ok crs F rds Em Ecm).
        rewrite (verifier_ros alpha lg lg_small lg32 qt q Hq rds).
        + f_equal. f_equal. f_equal. unfold all_dms. rewrite <- Em, concat_map, map_map. reflexivity.
        + apply Forall_forall. intros rd Ir. assert (In (rd_mats rd) (map c_dms crs)) as I by (rewrite <- Em; now apply in_map).
          apply in_map_iff in I as (c & <- & Ic). rewrite Forall_forall in F. eapply Forall_impl; [|exact (cround_goods c (F _ Ic))]. intros dm. apply good_mat_ok.
        + exact Fr.
      - exact S1.
      - exact B.
      - rewrite V1, V2. exists d'. split; [reflexivity|]. split; [exact S'|reflexivity].
    Qed.
    Theorem open_total rs cds st ch (okst : c_state Ch -> Prop) : rounds_ok rs -> Forall2 committed rs cds ->
      (forall c x, okst c -> exists c', c_observe Ch c x = Some c' /\ okst c') ->
      (forall c, okst c -> exists a c', c_sample Ch c = Some (a, c') /\ okst c') ->
      (forall c n, okst c -> n <= two_adicity T -> exists i c', c_sample_bits Ch c n = Some (i, c') /\ okst c') ->
      (forall c, okst c -> exists w c', c_grind Ch c (proof_of_work_bits config) w c' /\ okst c') -> okst ch ->
      exists opened proof st' ch', pcs_open V T emb generator M0 M Ch config interpolate_coset (open_args rs cds) st ch opened proof st' ch'.
    Proof.
      intros R C T1 T2 T3 T4 O. destruct (committed_all rs (proj1 R) cds C) as (crs & <- & <- & F).
      destruct (T2 ch O) as (alpha & ch1 & Es & O1). destruct (good_inputs alpha crs F R) as (Lb & Ld & Ne & Lh).
      assert (lg <= two_adicity T) as Lt by (pose proof (emb_adicity _ _ _ E); lia).
      destruct (prove_total T M Ch (list (batch_opening V M0)) unit config mm ltac:(lia) sync cc
        (answer_inputs V M0 lg (map (fun c => snd (c_com c)) crs)) (fun _ _ _ => Panic) okst T1 T2 T3 st ch1
        (inputs_of alpha lg (map snd (all_dms crs))) lg) as (proof & st' & ch' & P); try eassumption; [lia| |].
      - intros qt q Hqt Hq. rewrite <- nq_eq in Hqt. destruct (answer_ok crs F qt q Hqt Hq) as (rds & -> & _). discriminate.
      - exists (opened_of V T ys_at (pms_of crs)), proof, st', ch', alpha, ch1, (map c_mats crs), lg, (inputs_of alpha lg (map snd (all_dms crs))).
        rewrite (open_args_crs crs F). split; [exact Es|]. split; [now apply get_all|]. split; [rewrite (max_all crs F R); apply log2_strict_pow|].
        split; [now apply open_reduce_crs|]. rewrite map_map. cbn [fst]. exact P.
    Qed.
  End Complete.
End Pcs.
