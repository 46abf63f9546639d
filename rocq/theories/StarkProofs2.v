(** Completeness of uni-stark, assembled from StarkProofs and the properties of the PCS. *)
From Coq Require Import List Arith Bool Lia Field Sorted.
From Verif Require Import TcsModel TcsProofs PropTcs Field FriModel FriProofs FriProofs2 PcsModel PolyExt PcsProofs PcsProofs2 PropPcs
  StarkModel StarkPoly StarkProofs.
Import ListNotations.

Lemma finite_choice {A} (P : nat -> A -> Prop) (d : A) m : (forall c, c < m -> exists x, P c x) -> exists f, forall c, c < m -> P c (f c).
Proof.
  induction m as [|m IH]; intros H; [exists (fun _ => d); lia|].
  destruct IH as [f Hf]; [intros c Hc; apply H; lia|]. destruct (H m ltac:(lia)) as [x Hx].
  exists (fun c => if c =? m then x else f c). intros c Hc. destruct (Nat.eqb_spec c m) as [->|N]; [exact Hx|apply Hf; lia].
Qed.
Lemma map_const_repeat {A B} (b : B) (l : list A) : map (fun _ => b) l = repeat b (length l).
Proof. induction l as [|a l IH]; cbn; [reflexivity|]. now rewrite IH. Qed.
Lemma combine_map_map {A B C} (f : A -> B) (g : A -> C) l : List.combine (map f l) (map g l) = map (fun x => (f x, g x)) l.
Proof. induction l as [|a l IH]; cbn; [reflexivity|]. now rewrite IH. Qed.

(** ** Degrees *)
Section Degree.
  Variable V : two_adic.
  (** the degree bound the prover works with *)
  Lemma symbolic_each (a : air V) np d : get_max_constraint_degree V a np = Some d ->
    Forall (fun c => exists s, symbolic_of V (air_width a) np (as_zero c) = Some s /\ degree_multiple V s <= d) (air_eval a).
  Proof.
    unfold get_max_constraint_degree, get_symbolic_constraints. revert d. induction (air_eval a) as [|c l IH]; intros d; cbn [traverse]; [constructor|].
    destruct (symbolic_of V (air_width a) np (as_zero c)) as [s|] eqn:Es; [|discriminate].
    destruct (traverse _ l) as [ss|]; [|discriminate]. cbn [option_map fold_right]. intros [= <-]. constructor.
    - exists s. split; [exact Es|lia].
    - eapply Forall_impl; [|apply (IH _ eq_refl)]. intros c' (s' & E' & L'). exists s'. split; [exact E'|lia].
  Qed.
  Lemma log2_up_cover d : Nat.max d 2 - 1 <= 2 ^ log2_ceil (Nat.max d 2 - 1).
  Proof. unfold log2_ceil. destruct (Nat.eq_dec (Nat.max d 2 - 1) 1) as [->|N]; [cbn; lia|]. apply Nat.log2_up_spec. lia. Qed.
  Lemma lengths_ok k ps pv (a : air V) d : get_max_constraint_degree V a (length pv) = Some d ->
    Forall (fun p => length p <= 2 ^ k) ps -> Forall (fun c => transitions V (as_zero c) < Nat.max 2 d) (air_eval a) ->
    Forall (fun c => length (cpoly V k ps pv (as_zero c)) <= Nat.max 2 d * 2 ^ k) (air_eval a).
  Proof.
    intros Ed F Ft. pose proof (symbolic_each a _ d Ed) as Fs. rewrite Forall_forall in *. intros c I.
    destruct (Fs c I) as (s & Es & Ld). specialize (Ft c I). pose proof (cpoly_length V k ps pv (proj2 (Forall_forall _ _) F) _ _ _ _ Es) as L.
    assert (1 <= 2 ^ k) by (pose proof (Nat.pow_nonzero 2 k); lia). nia.
  Qed.
End Degree.

(** ** Selectors at a point *)
Section Sel.
  Variables V T : two_adic.
  Variable emb : V -> T.
  Hypothesis E : embedding V T emb.
  Add Field VF8 : (fth V).
  Add Field TF8 : (fth T).
  Local Open Scope F_scope.
  Variable k : nat.
  Hypothesis Lk : (k <= two_adicity V)%nat.
  Notation n := (2 ^ k)%nat.
  Lemma sels_at zeta : zeta ^ n <> 1 -> selectors_at_point V T emb (td V k) zeta =
    Some {| is_first_row := hpeval V T emb (pfirst V k) zeta; is_last_row := hpeval V T emb (plast V k) zeta;
            is_transition := hpeval V T emb (ptrans V k) zeta; inv_zeroifier := / (zeta ^ n - 1) |}.
  Proof.
    intros N. unfold selectors_at_point. cbn [td shift log_n]. unfold coset_gen. cbn [td log_n]. rewrite tag_some by exact Lk.
    rewrite inverse_nz by apply f1_nz. rewrite inverse_nz by (apply gen_nz; exact Lk).
    assert (/ 1 = (1 : V)) as E1 by (field; apply f1_nz).
    rewrite E1, (emb_1 _ _ _ E). replace (zeta * 1) with zeta by ring.
    assert (zeta ^ n - 1 <> 0) as Nz by (intros Z; apply N; apply (f_equal (fun t => t + 1)) in Z; ring_simplify in Z; exact Z).
    pose proof (pfirst_ok V k T emb E zeta) as P1. pose proof (plast_ok V k Lk T emb E zeta) as P2. pose proof (ptrans_ok V k T emb E zeta) as P3.
    assert (zeta - 1 <> 0) as N1 by (intros Z; rewrite Z in P1; apply Nz; rewrite <- P1; ring).
    assert (zeta - emb (/ gen k) <> 0) as N2 by (intros Z; rewrite Z in P2; apply Nz; rewrite <- P2; ring).
    unfold checked_div. rewrite !inverse_nz by assumption. cbn [option_map]. f_equal. f_equal.
    - rewrite <- P1. field. exact N1.
    - rewrite <- P2. field. exact N2.
    - now rewrite P3.
  Qed.
End Sel.

(** ** Prover and verifier *)
Section Honest.
  Variables V T : two_adic.
  Variable emb : V -> T.
  Variable D : nat.
  Variable as_base_slice : T -> list V.
  Variable monomial : nat -> T.
  Variable generator : V.
  Variable M0 : mmcs V.
  Variable M : mmcs T.
  Variable Ch : challenger (m_comm M) T.
  Variable observe : c_state Ch -> m_comm M0 -> option (c_state Ch).
  Variable config : fri_config.
  Variable lde : matrix V -> nat -> V -> option (matrix V).
  Variable interp : matrix V -> V -> T -> option (list T).
  Variable sync : c_state Ch -> c_state Ch -> Prop.
  Add Field VF9 : (fth V).
  Add Field TF9 : (fth T).
  Local Open Scope F_scope.
  Notation lb := (log_blowup config).
  Variables (k a : nat).
  Notation n := (2 ^ k)%nat. Notation m := (2 ^ a)%nat.
  Notation lg := (k + lb)%nat.
  Hypothesis PS : pcs_setting V T emb generator M0 M Ch config lde interp sync lg.
  Hypothesis HD : (1 <= D)%nat.
  Hypothesis Hlen : forall t, length (as_base_slice t) = D.
  Hypothesis Hsum : forall t, sum T (map (fun ec => monomial (fst ec) * emb (snd ec)) (List.combine (seq 0 D) (as_base_slice t))) = t.
  Hypothesis Hg : generator ^ (2 ^ (k + a)) <> 1.
  Hypothesis Lk1 : (1 <= k)%nat.
  Hypothesis La : (a <= lb)%nat.
  Let E : embedding V T emb := proj1 PS.
  Let gnz : generator <> 0 := proj1 (proj2 PS).
  Lemma Llg : (lg <= two_adicity V)%nat.
  Proof. exact (proj1 (proj2 (proj2 (proj2 (proj2 PS))))). Qed.
  Lemma L32 : (lg < 32)%nat.
  Proof. exact (proj1 (proj2 (proj2 (proj2 (proj2 (proj2 PS)))))). Qed.
  Lemma Lka : (k + a <= two_adicity V)%nat.
  Proof. pose proof Llg. lia. Qed.
  Variable ar : air V.
  Variable trace : matrix V.
  Variable pv : list V.
  Hypothesis Ht : has_rows trace k.
  Hypothesis Hw : width V trace = air_width ar.
  Hypothesis Hq : get_log_quotient_degree V ar (length pv) = Some a.
  Hypothesis Hc : check_constraints V ar trace pv = true.
  Hypothesis Hs : Forall (fun c => exists d, selector_degree V (as_zero c) = Some d) (air_eval ar).
  Hypothesis Htr : forall d, get_max_constraint_degree V ar (length pv) = Some d ->
    Forall (fun c => (transitions V (as_zero c) < Nat.max 2 d)%nat) (air_eval ar).
  Notation chunk Q c := (StarkProofs.chunk V T emb k a generator D as_base_slice Q c).
  Notation qdom c := (StarkPoly.qdom V k a generator c).
  Notation tdom := (td V k).
  Notation folded := (StarkProofs.folded V T emb k).

  Lemma trace_polys : exists ps, Forall (fun p => (length p <= n)%nat) ps /\ tabulates trace n (fun i => 1 * gen k ^ i) ps /\
    length ps = air_width ar /\ indices_ok V ps pv (air_eval ar) /\
    forall alpha, exists Q, (length Q <= m * n)%nat /\ forall x, peval (folded ps pv alpha (air_eval ar)) x = (x ^ n - 1) * peval Q x.
  Proof.
    pose proof Lka as Lka. assert (k <= two_adicity V)%nat as Lk by lia.
    destruct (tab_exists V trace k 1 Lk (f1_nz V) Ht) as (ps & Fp & Tp). exists ps. split; [exact Fp|]. split; [exact Tp|].
    assert (length ps = air_width ar) as Lp by (rewrite <- Hw; symmetry; exact (proj1 Tp)). split; [exact Lp|].
    unfold get_log_quotient_degree in Hq. destruct (get_max_constraint_degree V ar (length pv)) as [d|] eqn:Ed; [|discriminate].
    cbn [option_map] in Hq. injection Hq as Ea.
    assert (indices_ok V ps pv (air_eval ar)) as Io.
    { unfold indices_ok. rewrite Lp. eapply Forall_impl; [|exact (symbolic_each V ar _ d Ed)]. intros c (s & Es & _). now exists s. }
    split; [exact Io|]. intros alpha. apply (quotient_exists V T emb E k a Lka ps pv alpha (air_eval ar) (Nat.max 2 d * n)%nat).
    - pose proof (log2_up_cover d) as Lc. rewrite Ea in Lc. rewrite Nat.max_comm in Lc. assert (2 <= Nat.max 2 d)%nat by lia.
      generalize dependent (Nat.max 2 d). intros x Lx H. nia.
    - apply lengths_ok; [exact Ed|exact Fp|exact (Htr d eq_refl)].
    - exact (check_vanish V k Lk ps pv ar trace Ht Tp Hc Hs Io).
  Qed.

  (** zeta is neither on the trace domain nor, like its successor, on the committed coset *)
  Definition good_zeta (zeta : T) : Prop :=
    zeta ^ n <> 1 /\ outside V T emb generator lg zeta /\ outside V T emb generator lg (zeta * emb (gen k)).

  Definition rs (Q : list T) (zeta : T) : list (list (coset V * matrix V * list T)) :=
    [[((tdom, trace), [zeta; zeta * emb (gen k)])]; map (fun c => ((qdom c, chunk Q c), [zeta])) (seq 0 m)].
  Lemma m_pos : (1 <= m)%nat.
  Proof. pose proof (Nat.pow_nonzero 2 a). lia. Qed.
  Lemma open_trace zs : (forall z, In z zs -> outside V T emb generator lg z) -> openable V T emb generator config lg ((tdom, trace), zs).
  Proof.
    intros O. unfold openable, dom, evals, points. cbn [fst snd td log_n shift]. split; [exact Lk1|]. split; [exact Ht|]. split; [lia|].
    split; [apply f1_nz|exact O].
  Qed.
  Lemma open_chunk Q zs c : (length Q <= m * n)%nat -> (forall z, In z zs -> outside V T emb generator lg z) ->
    openable V T emb generator config lg ((qdom c, chunk Q c), zs).
  Proof.
    intros LQ O. unfold openable, dom, evals, points. cbn [fst snd StarkPoly.qdom log_n shift]. split; [exact Lk1|].
    split; [exact (chunk_rows V T emb k a generator Lka D as_base_slice HD Hlen Q LQ c)|]. split; [lia|].
    split; [exact (sh_nz V k a generator Lka gnz c)|exact O].
  Qed.
  Lemma sorted_same (r : list (coset V * matrix V * list T)) : Forall (fun x => log_n (dom V T x) = k) r ->
    StronglySorted (fun x y => (log_n (dom V T y) <= log_n (dom V T x))%nat) r.
  Proof.
    induction 1 as [|x r Ex F IH]; constructor; [exact IH|]. eapply Forall_impl; [|exact F]. intros y Ey. cbn beta in Ey. rewrite Ex, Ey. lia.
  Qed.
  Lemma chunks_sorted Q (zs : list T) : StronglySorted (fun x y => (log_n (dom V T y) <= log_n (dom V T x))%nat) (map (fun c => ((qdom c, chunk Q c), zs)) (seq 0 m)).
  Proof. apply sorted_same. apply Forall_forall. intros x I. apply in_map_iff in I as (c & <- & _). reflexivity. Qed.
  Lemma chunks_nonempty {A} (f : nat -> A) : map f (seq 0 m) <> [].
  Proof. pose proof m_pos. destruct m; [lia|discriminate]. Qed.
  Lemma rs_batches Q zeta : (length Q <= m * n)%nat -> good_zeta zeta -> batches V T emb generator config lg (rs Q zeta).
  Proof.
    intros LQ (Nz & O1 & O2). unfold batches, rs. split; [|split].
    - constructor; [|constructor; [|constructor]].
      + split; [discriminate|]. split; [|repeat constructor]. constructor; [|constructor]. apply open_trace. intros z [<-|[<-|[]]]; assumption.
      + split; [apply chunks_nonempty|]. split; [|apply chunks_sorted].
        apply Forall_forall. intros x I. apply in_map_iff in I as (c & <- & _). apply open_chunk; [exact LQ|]. intros z [<-|[]]. exact O1.
    - eexists _, _. split; [left; reflexivity|]. split; [left; reflexivity|]. reflexivity.
    - eexists _, _, zeta. split; [left; reflexivity|]. split; [left; reflexivity|]. left. reflexivity.
  Qed.
  Lemma rs_points Q zeta : map (map snd) (rs Q zeta) = [[[zeta; zeta * emb (gen k)]]; repeat [zeta] m].
  Proof. unfold rs. cbn [map]. rewrite map_map. cbn [snd]. now rewrite map_const_repeat, seq_length. Qed.
  Lemma rs_mats Q zeta : map (map fst) (rs Q zeta) = [[(tdom, trace)]; List.combine (map (fun c => qdom c) (seq 0 m)) (map (fun c => chunk Q c) (seq 0 m))].
  Proof. unfold rs. cbn [map]. rewrite map_map. cbn [fst]. now rewrite combine_map_map. Qed.

  Lemma quotient_domain_eq : create_disjoint_domain V generator tdom (2 ^ (k + a)) = qd V k a generator.
  Proof.
    unfold create_disjoint_domain, qd, log2_ceil. cbn [td shift]. rewrite Nat.log2_up_pow2 by lia. f_equal. ring.
  Qed.
  Lemma natural_eq : natural_domain_for_degree V n = Some tdom.
  Proof. unfold natural_domain_for_degree. now rewrite log2_strict_pow. Qed.
  Lemma next_eq zeta : next_point V T emb tdom zeta = Some (zeta * emb (gen k)).
  Proof. pose proof Lka. unfold next_point, coset_gen. cbn [td log_n]. now rewrite tag_some by lia. Qed.

  (** The quotient commitment of the prover, whatever alpha is. *)
  Lemma prover_quotient ps alpha Q st0 c data st1 :
    Forall (fun p => (length p <= n)%nat) ps -> tabulates trace n (fun i => 1 * gen k ^ i) ps -> indices_ok V ps pv (air_eval ar) ->
    (length Q <= m * n)%nat -> (forall x, peval (folded ps pv alpha (air_eval ar)) x = (x ^ n - 1) * peval Q x) ->
    pcs_commit V generator M0 config lde st0 [(tdom, trace)] = Some (c, data, st1) ->
    exists tq, get_evaluations_on_domain V generator M0 data 0 (qd V k a generator) = Some tq /\
      exists vs, quotient_values V T emb ar pv tdom (qd V k a generator) tq alpha = Some vs /\
      split_domains V (qd V k a generator) m = Some (map (fun c => qdom c) (seq 0 m)) /\
      split_evals V m (flatten_to_base V T D as_base_slice vs) = map (fun c => chunk Q c) (seq 0 m).
  Proof.
    intros Fp Tp Io LQ HQ C. pose proof Lka as Lka. pose proof PS as (_ & _ & lc & _ & Ls & L32 & _ & mm0 & _ & _).
    destruct (C64_evaluations V T emb generator M0 config lde lg (num_queries config) [((tdom, trace), [])] st0 c data st1 0 ((tdom, trace), []) (k + a)%nat gnz lc Ls L32 mm0)
      as (tq & Eq & Tq); [discriminate|constructor; [apply open_trace; intros z []|constructor]|repeat constructor|exact C|reflexivity|cbn; lia|].
    exists tq. split; [exact Eq|]. specialize (Tq ps (conj Fp Tp)). rewrite Nat.pow_add_r in Tq.
    eexists. split; [apply (quotient_values_ok V T emb E k a generator Lka gnz Hg ps pv ar alpha tq Q); [|exact Tq|exact Io|exact HQ]|].
    - intros ->. destruct Ht as [W _]. rewrite (proj1 Tp) in W. cbn in W. lia.
    - split; [exact (split_domains_ok V T k a generator Lka D HD Q LQ)|]. exact (split_evals_ok V T emb k a generator Lka D as_base_slice HD Hlen Q LQ).
  Qed.

  (** Openings of the chunks. *)
  Lemma chunk_polys Q : (length Q <= m * n)%nat -> exists pss, forall c, (c < m)%nat -> Forall (fun p => (length p <= n)%nat) (pss c) /\
    tabulates (chunk Q c) n (fun i => sh V k a generator c * gen k ^ i) (pss c).
  Proof.
    intros LQ. pose proof Lka as Lka. apply (finite_choice (fun c ps => Forall (fun p => (length p <= n)%nat) ps /\
      tabulates (chunk Q c) n (fun i => sh V k a generator c * gen k ^ i) ps) []).
    intros c _. apply tab_exists; [lia|exact (sh_nz V k a generator Lka gnz c)|].
    exact (chunk_rows V T emb k a generator Lka D as_base_slice HD Hlen Q LQ c).
  Qed.
  Lemma chunk_opened Q zeta pss chunks : (length Q <= m * n)%nat ->
    (forall c, (c < m)%nat -> Forall (fun p => (length p <= n)%nat) (pss c) /\ tabulates (chunk Q c) n (fun i => sh V k a generator c * gen k ^ i) (pss c)) ->
    Forall2 (opens_to V T emb) (map (fun c => ((qdom c, chunk Q c), [zeta])) (seq 0 m)) chunks ->
    chunks = map (fun c => [map (fun p => peval (map emb p) zeta) (pss c)]) (seq 0 m).
  Proof.
    intros LQ Hp. assert (forall b cnt chunks, (b + cnt <= m)%nat -> Forall2 (opens_to V T emb) (map (fun c => ((qdom c, chunk Q c), [zeta])) (seq b cnt)) chunks ->
      chunks = map (fun c => [map (fun p => peval (map emb p) zeta) (pss c)]) (seq b cnt)) as G; [|intros F; exact (G 0%nat m chunks ltac:(lia) F)].
    intros b cnt. revert b. induction cnt as [|cnt IH]; intros b ch Lb F; cbn [seq map] in *; inversion_clear F as [|? v ? ch' Hv F']; [reflexivity|].
    f_equal; [|apply IH; [lia|exact F']]. rewrite (Hv (pss b)); [reflexivity|].
    destruct (Hp b ltac:(lia)) as [F1 T1]. split; [exact F1|exact T1].
  Qed.

  Hypothesis Hobs : forall c d x c', sync c d -> observe c x = Some c' -> exists d', observe d x = Some d' /\ sync c' d'.
  Variable debug : bool.
  Notation prove := (StarkModel.prove V T emb D as_base_slice generator M0 M Ch observe config lde interp debug).
  Notation verify := (StarkModel.verify V T emb D monomial generator M0 M Ch observe config debug).
  Notation transcript := (StarkModel.transcript V T M0 M Ch observe).
  Lemma transcript_sync ch d tc qc alpha zeta ch' : sync ch d -> transcript ch tc qc alpha zeta ch' ->
    exists d1 d2 d3 d', observe d tc = Some d1 /\ c_sample Ch d1 = Some (alpha, d2) /\ observe d2 qc = Some d3 /\ c_sample Ch d3 = Some (zeta, d') /\ sync ch' d'.
  Proof.
    pose proof PS as (_ & _ & _ & _ & _ & _ & _ & _ & _ & cc).
    intros S (c1 & c2 & c3 & E1 & E2 & E3 & E4). destruct (Hobs _ _ _ _ S E1) as (d1 & F1 & S1). destruct (cc_sample _ _ cc _ _ _ _ S1 E2) as (d2 & F2 & S2).
    destruct (Hobs _ _ _ _ S2 E3) as (d3 & F3 & S3). destruct (cc_sample _ _ cc _ _ _ _ S3 E4) as (d4 & F4 & S4). now exists d1, d2, d3, d4.
  Qed.
  Lemma transcript_det ch tc qc alpha zeta ch' alpha' zeta' ch'' : transcript ch tc qc alpha zeta ch' -> transcript ch tc qc alpha' zeta' ch'' ->
    alpha = alpha' /\ zeta = zeta' /\ ch' = ch''.
  Proof. intros (a1 & a2 & a3 & E1 & E2 & E3 & E4) (b1 & b2 & b3 & F1 & F2 & F3 & F4). repeat split; congruence. Qed.
  Lemma traverse_heads {A B} (f : A -> B) l : traverse (fun v : list B => nth_error v 0) (map (fun c => [f c]) l) = Some (map f l).
  Proof. induction l as [|x l IH]; cbn [map traverse]; [reflexivity|]. rewrite IH. reflexivity. Qed.
  Lemma shl1_ok i : (i < 64)%nat -> shl1 debug i = Some (2 ^ i)%nat.
  Proof.
    intros L. unfold shl1. rewrite Nat.mod_small by exact L. destruct (Nat.leb_spec 64 i); [lia|]. now rewrite andb_false_r.
  Qed.

  Theorem honest_accepted st0 st ch d pf ch' : sync ch d -> prove ar st0 st ch trace pv pf ch' ->
    (forall alpha zeta ch1, transcript ch (p_trace _ _ _ _ _ pf) (p_quotient _ _ _ _ _ pf) alpha zeta ch1 -> good_zeta zeta) ->
    exists d', verify ar d pf pv = Ok d' /\ sync ch' d' /\ p_degree_bits _ _ _ _ _ pf = k /\
      (length (commit_phase_commits T M Ch (list (batch_opening V M0)) (p_opening _ _ _ _ _ pf)) + lb = lg)%nat.
  Proof.
    intros Sy (_ & lqd & tdm & tdata & st1 & tq & alpha & vs & qcs & qdata & st2 & zeta & zn & ch1 & local & next & chunks & st' &
      E1 & E2 & E3 & E4 & Tr & E5 & E6 & E7 & E8 & E9 & Po & El & En & Ec) Gz.
    pose proof (Gz _ _ _ Tr) as G. pose proof G as (Nz & O1 & O2).
    rewrite (rect_height V _ _ Ht), log2_strict_pow in E1. injection E1 as Edb.
    rewrite Hq in E2. injection E2 as <-. rewrite (rect_height V _ _ Ht), natural_eq in E3. injection E3 as <-.
    cbv zeta in *. rewrite <- Edb, quotient_domain_eq in *. rewrite next_eq in E9. injection E9 as <-.
    destruct trace_polys as (ps & Fp & Tp & Lp & Io & HQ). destruct (HQ alpha) as (Q & LQ & EQ).
    destruct (prover_quotient ps alpha Q st0 _ _ _ Fp Tp Io LQ EQ E4) as (tq' & F5 & vs' & F6 & F7 & F8).
    rewrite F5 in E5. injection E5 as <-. rewrite F6 in E6. injection E6 as <-. rewrite F7 in E7. injection E7 as <-. rewrite F8 in E8.
    pose proof (rs_batches Q zeta LQ G) as B.
    set (cds := [(p_trace _ _ _ _ _ pf, tdata); (p_quotient _ _ _ _ _ pf, qdata)]).
    assert (Forall2 (fun r cd => exists s s', pcs_commit V generator M0 config lde s (map fst r) = Some (fst cd, snd cd, s')) (rs Q zeta) cds) as C.
    { pose proof (rs_mats Q zeta) as Rm. unfold rs in *. cbn [map] in Rm. injection Rm as Rm. constructor; [now exists st0, st1|]. constructor; [|constructor].
      exists st1, st2. cbn [fst snd]. rewrite Rm. exact E8. }
    assert (List.combine (map snd cds) (map (map snd) (rs Q zeta)) = [(tdata, [[zeta; zeta * emb (gen k)]]); (qdata, repeat [zeta] m)]) as Er
      by now rewrite rs_points.
    rewrite <- Er in Po.
    pose proof (C63_opened V T emb generator M0 M Ch config lde interp sync lg (rs Q zeta) cds st ch1 _ _ _ _ PS B C Po) as Op.
    destruct (transcript_sync ch d _ _ _ _ _ Sy Tr) as (d1 & d2 & d3 & d4 & G1 & G2 & G3 & G4 & Sy4).
    destruct (C63_accepted V T emb generator M0 M Ch config lde interp sync lg debug (rs Q zeta) cds st ch1 d4 _ _ _ _ PS B C Sy4 Po) as (d' & Pv & Sd & Elg).
    exists d'. split; [|split; [exact Sd|split; [now symmetry|exact Elg]]].
    destruct (chunk_polys Q LQ) as (pss & Hp).
    inversion_clear Op as [|? ? ? ? Op1 Op']. inversion_clear Op' as [|? ? ? ? Op2 _]. inversion_clear Op1 as [|? ? ? ? Ot _].
    specialize (Ot ps (conj Fp Tp)). cbn [points snd map] in Ot. injection Ot as Ol On.
    pose proof (chunk_opened Q zeta pss chunks LQ Hp Op2) as Och. rewrite Och in Ec. rewrite (traverse_heads (fun c => map (fun p => peval (map emb p) zeta) (pss c))) in Ec. injection Ec as Ec.
    pose proof L32 as L32. unfold StarkModel.verify. rewrite <- Edb, !shl1_ok, Hq, !shl1_ok, natural_eq, quotient_domain_eq, F7 by lia.
    assert (valid_shape V T D M0 M Ch ar m pf = true) as ->.
    { unfold valid_shape. rewrite El, En, <- Ec, Ol, On, !map_length, seq_length, Lp, !Nat.eqb_refl. cbn [andb].
      apply forallb_forall. intros q I. apply in_map_iff in I as (c & <- & I). apply in_seq in I. rewrite map_length.
      destruct (Hp c ltac:(lia)) as [_ [W _]]. cbn [width StarkProofs.chunk] in W. rewrite <- W. apply Nat.eqb_refl. }
    cbn [negb]. rewrite G1, G2, G3, G4, next_eq.
    assert (pcs_rounds V T M0 M Ch pf tdom (map (fun c => qdom c) (seq 0 m)) zeta (zeta * emb (gen k)) = all_claims V T M0 (rs Q zeta) cds [[[local; next]]; chunks]) as ->.
    { unfold pcs_rounds, rs, all_claims, claim, cds. cbn [List.combine map fst snd]. rewrite El, En, Och, <- Ec, !combine_map_map, !map_map. reflexivity. }
    rewrite Pv. unfold ood_check. rewrite (zps_eq V T emb k a generator Lka gnz), <- Ec.
    rewrite (quotient_at_ok V T emb E k a generator Lka gnz D as_base_slice monomial Hlen Hsum Q LQ pss zeta Hp).
    rewrite (sels_at V T emb E k ltac:(pose proof Lka; lia) zeta Nz). cbn [is_first_row is_last_row is_transition inv_zeroifier].
    rewrite El, En, Ol, On.
    pose proof (fold_at V T emb E k ps pv alpha (air_eval ar) zeta Io) as Fa. unfold poly_window in Fa.
    assert (map (fun p => peval (map emb p) (zeta * emb (gen k))) ps = map (fun p => hpeval V T emb p (emb (gen k) * zeta)) ps) as ->.
    { apply map_ext. intros p. unfold hpeval. f_equal. ring. }
    unfold hpeval in *. rewrite Fa. cbn [option_map]. rewrite EQ.
    replace ((zeta ^ n - 1) * peval Q zeta * / (zeta ^ n - 1)) with (peval Q zeta).
    - now rewrite feqb_refl.
    - field. apply fsub_nz. exact Nz.
  Qed.

  (** The prover does not get stuck, unless zeta happens to be a bad point. *)
  Theorem honest_runs st0 st ch (okst : c_state Ch -> Prop) :
    (forall c x, okst c -> exists c', observe c x = Some c' /\ okst c') ->
    (forall c x, okst c -> exists c', c_observe Ch c x = Some c' /\ okst c') ->
    (forall c, okst c -> exists x c', c_sample Ch c = Some (x, c') /\ okst c') ->
    (forall c i, okst c -> (i <= two_adicity T)%nat -> exists j c', c_sample_bits Ch c i = Some (j, c') /\ okst c') ->
    (forall c, okst c -> exists w c', c_grind Ch c (proof_of_work_bits config) w c' /\ okst c') -> okst ch ->
    exists tc qc alpha zeta ch1, transcript ch tc qc alpha zeta ch1 /\
      (good_zeta zeta -> exists pf ch', p_trace _ _ _ _ _ pf = tc /\ p_quotient _ _ _ _ _ pf = qc /\ prove ar st0 st ch trace pv pf ch').
  Proof.
    intros T0 T1 T2 T3 T4 O.
    destruct (C63_commit V T emb generator M0 M Ch config lde interp sync lg [((tdom, trace), [])] st0 PS) as (tc & tdata & st1 & E4);
      [discriminate|constructor; [apply open_trace; intros z []|constructor]|repeat constructor|]. cbn [map fst] in E4.
    destruct (T0 ch tc O) as (c1 & G1 & O1). destruct (T2 c1 O1) as (alpha & c2 & G2 & O2).
    destruct trace_polys as (ps & Fp & Tp & Lp & Io & HQ). destruct (HQ alpha) as (Q & LQ & EQ).
    destruct (prover_quotient ps alpha Q st0 _ _ _ Fp Tp Io LQ EQ E4) as (tq & F5 & vs & F6 & F7 & F8).
    destruct (C63_commit V T emb generator M0 M Ch config lde interp sync lg (map (fun c => ((qdom c, chunk Q c), [])) (seq 0 m)) st1 PS) as (qc & qdata & st2 & E8).
    { apply chunks_nonempty. }
    { apply Forall_forall. intros x I. apply in_map_iff in I as (c & <- & _). apply open_chunk; [exact LQ|]. intros z []. }
    { apply chunks_sorted. }
    destruct (T0 c2 qc O2) as (c3 & G3 & O3). destruct (T2 c3 O3) as (zeta & c4 & G4 & O4).
    assert (transcript ch tc qc alpha zeta c4) as Tr by (exists c1, c2, c3; auto).
    exists tc, qc, alpha, zeta, c4. split; [exact Tr|]. intros G.
    pose proof (rs_batches Q zeta LQ G) as B.
    set (cds := [(tc, tdata); (qc, qdata)]).
    assert (List.combine (map (fun c => qdom c) (seq 0 m)) (map (fun c => chunk Q c) (seq 0 m)) = map fst (map (fun c => ((qdom c, chunk Q c), [] : list T)) (seq 0 m))) as Em.
    { rewrite map_map. cbn [fst]. now rewrite combine_map_map. }
    assert (Forall2 (fun r cd => exists s s', pcs_commit V generator M0 config lde s (map fst r) = Some (fst cd, snd cd, s')) (rs Q zeta) cds) as C.
    { pose proof (rs_mats Q zeta) as Rm. unfold rs in *. cbn [map] in Rm. injection Rm as Rm. constructor; [now exists st0, st1|]. constructor; [|constructor].
      exists st1, st2. cbn [fst snd]. rewrite Rm, Em. exact E8. }
    destruct (C63_open V T emb generator M0 M Ch config lde interp sync lg (rs Q zeta) cds st c4 okst PS B C T1 T2 T3 T4 O4) as (opened & pr & st' & ch' & Po).
    pose proof (C63_opened V T emb generator M0 M Ch config lde interp sync lg (rs Q zeta) cds st c4 _ _ _ _ PS B C Po) as Op.
    destruct (chunk_polys Q LQ) as (pss & Hp).
    inversion Op as [|? o1 ? ops Op1 Op' Eq1 Eq2]; subst opened. inversion Op' as [|? chunks ? ops' Op2 Op'' Eq1' Eq2']; subst ops. inversion Op''; subst ops'.
    inversion Op1 as [|? ov ? ovs Ot Op1' Eq3 Eq4]; subst o1. inversion Op1'; subst ovs. clear Op Op' Op1 Op1' Op''.
    pose proof (Ot ps (conj Fp Tp)) as Eo. cbn [points snd map] in Eo. subst ov.
    pose proof (chunk_opened Q zeta pss chunks LQ Hp Op2) as Och.
    exists {| p_trace := tc; p_quotient := qc; p_local := map (fun p => peval (map emb p) zeta) ps; p_next := map (fun p => peval (map emb p) (zeta * emb (gen k))) ps;
              p_chunks := map (fun c => map (fun p => peval (map emb p) zeta) (pss c)) (seq 0 m); p_opening := pr; p_degree_bits := k |}, ch'.
    cbn [p_trace p_quotient]. split; [reflexivity|]. split; [reflexivity|]. split; [intros _; exact Hc|].
    exists a, tdom, tdata, st1, tq, alpha, vs, (map (fun c => qdom c) (seq 0 m)), qdata, st2, zeta, (zeta * emb (gen k)), c4.
    do 3 eexists. exists st'. cbn [p_trace p_quotient p_local p_next p_chunks p_opening p_degree_bits].
    rewrite (rect_height V _ _ Ht), log2_strict_pow, natural_eq. split; [reflexivity|]. split; [exact Hq|]. split; [reflexivity|]. split; [exact E4|]. split; [exact Tr|].
    cbv zeta. rewrite quotient_domain_eq. split; [exact F5|]. split; [exact F6|]. split; [exact F7|]. split; [rewrite F8, Em; exact E8|].
    split; [apply next_eq|]. split; [|split; [reflexivity|split; [reflexivity|]]].
    - rewrite rs_points in Po. exact Po.
    - rewrite Och. apply (traverse_heads (fun c => map (fun p => peval (map emb p) zeta) (pss c))).
  Qed.
End Honest.
