(** Properties C40 to C43, C45 to C47, C67 and C68: uni-stark. *)
From Coq Require Import ZArith List Arith Bool Lia Field Sorted.
From Verif Require Import ScriptNum ScriptVM TaptreeModel TcsModel TcsProofs PropTcs ChallengerModel ChallengerProofs PropChallenger
  Field BabyBear FriModel FriProofs FriProofs2 FriInst PropFri PcsModel PolyExt PcsProofs PcsProofs2 PcsInst PropPcs
  StarkModel StarkPoly StarkProofs StarkProofs2.
Import ListNotations.
Open Scope nat_scope.

(** ** Specification *)
Section Spec.
  Variables V T : two_adic.
  Variable emb : V -> T.
  Local Open Scope F_scope.
  (** What an AIR sees at the point x off the subgroup H of order n = 2^k: the polynomials [ps] of the
      columns at x and at the next point g x, and the selectors Z(x) / (x - 1), Z(x) / (x - 1/g), x - 1/g
      where Z = X^n - 1. *)
  Definition window_at (k : nat) (ps : list (list V)) (pv : list V) (x : T) : window V T :=
    let g := emb (gen k) in
    {| w_local := map (fun p => peval (map emb p) x) ps; w_next := map (fun p => peval (map emb p) (g * x)) ps; w_public := pv;
       w_first := (x ^ (2 ^ k) - 1) * / (x - 1); w_last := (x ^ (2 ^ k) - 1) * / (x - / g); w_transition := x - / g |}.
  (** sum over i of c_i alpha^(len - 1 - i) *)
  Definition combined (alpha : T) (cs : list T) : T :=
    sum T (map (fun i => nth i cs 0 * alpha ^ (length cs - 1 - i)) (seq 0 (length cs))).
  Lemma combined_horner alpha cs : combined alpha cs = horner T alpha cs.
  Proof.
    unfold combined, horner. assert (forall cs acc, fold_left (fun acc x => acc * alpha + x) cs acc = acc * alpha ^ length cs +
      sum T (map (fun i => nth i cs 0 * alpha ^ (length cs - 1 - i)) (seq 0 (length cs)))) as G.
    { Add Field TF10 : (fth T).
      clear. induction cs as [|c cs IH]; intros acc; [cbn; ring|]. cbn [fold_left]. rewrite IH. cbn [length seq map sum].
      assert (map (fun i => nth i (c :: cs) 0 * alpha ^ (S (length cs) - 1 - i)) (seq 1 (length cs)) = map (fun i => nth i cs 0 * alpha ^ (length cs - 1 - i)) (seq 0 (length cs))) as ->.
      { rewrite <- seq_shift, map_map. apply map_ext. intros i. cbn [nth]. do 2 f_equal. lia. }
      cbn [nth]. rewrite Nat.sub_succ, !Nat.sub_0_r. cbn [fpow]. ring. }
    rewrite G. ring.
  Qed.
  Lemma window_poly k ps pv x : embedding V T emb -> (k <= two_adicity V)%nat -> x ^ (2 ^ k) <> 1 -> window_at k ps pv x = poly_window V k ps pv T emb x.
  Proof.
    intros E Lk N. unfold window_at, poly_window.
    pose proof (pfirst_ok V k T emb E x) as P1. pose proof (plast_ok V k Lk T emb E x) as P2. pose proof (ptrans_ok V k T emb E x) as P3.
    assert (/ emb (gen k) = emb (/ gen k)) as -> by (symmetry; apply (emb_inv V T emb E), gen_nz, Lk).
    pose proof (fsub_nz T _ _ N) as Nz.
    assert (x - 1 <> 0) as N1 by (intros Z; rewrite Z in P1; apply Nz; rewrite <- P1; ring).
    assert (x - emb (/ gen k) <> 0) as N2 by (intros Z; rewrite Z in P2; apply Nz; rewrite <- P2; ring).
    f_equal.
    - rewrite <- P1. field. exact N1.
    - rewrite <- P2. field. exact N2.
    - now rewrite P3.
  Qed.
End Spec.

(** ** C40: degrees *)
Section C40.
  Variables V T : two_adic.
  Variable emb : V -> T.
  Hypothesis E : embedding V T emb.
  Local Open Scope F_scope.
  (** Over polynomials with at most n coefficients an expression of symbolic degree d is a polynomial of degree
      at most d (n - 1) + the number of nested is_transition factors. *)
  Theorem C40_degree : forall k ps pv e s, (k <= two_adicity V)%nat -> Forall (fun p => (length p <= 2 ^ k)%nat) ps ->
    symbolic_of V (length ps) (length pv) e = Some s ->
    exists p, (length p <= degree_multiple V s * (2 ^ k - 1) + transitions V e + 1)%nat /\
      forall x, x ^ (2 ^ k) <> 1 -> eval emb (window_at V T emb k ps pv x) e = Some (peval (map emb p) x).
  Proof.
    intros k ps pv e s Lk F Es. exists (cpoly V k ps pv e). split; [exact (cpoly_length V k ps pv F _ _ _ _ Es)|].
    intros x N. rewrite (window_poly V T emb k ps pv x E Lk N). exact (cpoly_eval V k ps pv T emb E e s x Es).
  Qed.
  (** When the trace satisfies the AIR, the folded constraints are Z_H times a polynomial that fits into the
      2^get_log_quotient_degree chunks of n coefficients. *)
  Theorem C40_enough_chunks : forall k lqd d (a : air V) trace pv ps alpha,
    (k + lqd <= two_adicity V)%nat -> has_rows trace k -> width V trace = air_width a ->
    get_max_constraint_degree V a (length pv) = Some d -> get_log_quotient_degree V a (length pv) = Some lqd ->
    check_constraints V a trace pv = true ->
    Forall (fun c => exists d, selector_degree V (as_zero c) = Some d) (air_eval a) ->
    Forall (fun c => (transitions V (as_zero c) < Nat.max 2 d)%nat) (air_eval a) ->
    Forall (fun p => (length p <= 2 ^ k)%nat) ps -> tabulates trace (2 ^ k) (fun i => gen k ^ i) ps ->
    exists Q, (length Q <= 2 ^ lqd * 2 ^ k)%nat /\
      forall x, x ^ (2 ^ k) <> 1 ->
        fold_constraints emb (fun y => y) alpha (window_at V T emb k ps pv x) 0 (air_eval a) = Some ((x ^ (2 ^ k) - 1) * peval Q x).
  Proof.
    intros k lqd d a trace pv ps alpha Lka Ht Hw Ed Hq Hc Hs Htr Fp Tp. assert (k <= two_adicity V)%nat as Lk by lia.
    assert (length ps = air_width a) as Lp by (rewrite <- Hw; symmetry; exact (proj1 Tp)).
    assert (tabulates trace (2 ^ k) (fun i => 1 * gen k ^ i) ps) as Tp1.
    { revert Tp. apply tab_ext. intros i _. Add Field VF10 : (fth V). ring. }
    assert (indices_ok V ps pv (air_eval a)) as Io.
    { unfold indices_ok. rewrite Lp. eapply Forall_impl; [|exact (symbolic_each V a _ d Ed)]. intros c (s & Es & _). now exists s. }
    unfold get_log_quotient_degree in Hq. rewrite Ed in Hq. cbn [option_map] in Hq. injection Hq as Ea.
    destruct (quotient_exists V T emb E k lqd Lka ps pv alpha (air_eval a) (Nat.max 2 d * 2 ^ k)%nat) as (Q & LQ & EQ).
    - pose proof (log2_up_cover d) as Lc. rewrite Ea in Lc. rewrite Nat.max_comm in Lc. assert (2 <= Nat.max 2 d)%nat by lia.
      generalize dependent (Nat.max 2 d). intros x _ Lx H. nia.
    - apply lengths_ok; [exact Ed|exact Fp|exact Htr].
    - exact (check_vanish V k Lk ps pv a trace Ht Tp1 Hc Hs Io).
    - exists Q. split; [exact LQ|]. intros x N. rewrite (window_poly V T emb k ps pv x E Lk N), <- EQ. exact (fold_at V T emb E k ps pv alpha (air_eval a) x Io).
  Qed.
End C40.

(** ** C41: folding *)
Section C41.
  Variables V T : two_adic.
  Local Open Scope F_scope.
  (** Prover (K = V) and verifier (K = T): the constraints are folded to sum c_i alpha^(len - 1 - i). *)
  Theorem C41_folding : forall (K : field) const (into : K -> T) alpha (w : window V K) l vs,
    Forall2 (fun c v => eval const w (as_zero c) = Some v) l vs ->
    fold_constraints const into alpha w 0 l = Some (combined T alpha (map into vs)).
  Proof.
    intros K const into alpha w l vs F. rewrite fold_traverse, combined_horner.
    assert (traverse (fun c => eval const w (as_zero c)) l = Some vs) as ->; [|reflexivity].
    induction F as [|c v l vs Ec F IH]; cbn [traverse]; [reflexivity|]. now rewrite Ec, IH.
  Qed.
  (** The script's accumulator is the same sum, except that it panics when there is no constraint. *)
  Theorem C41_script : forall alpha (cs : list T), get_accmulator_expr alpha cs = if (length cs =? 0)%nat then None else Some (combined T alpha cs).
  Proof.
    intros alpha [|c cs]; [reflexivity|]. cbn [get_accmulator_expr length Nat.eqb]. rewrite combined_horner. unfold horner. cbn [fold_left]. do 2 f_equal.
    Add Field TF11 : (fth T). ring.
  Qed.
  Lemma tails_zero (p : list T) r : peval p r = 0 -> Forall (fun c => c = 0) (pquot T p r) -> Forall (fun c => c = 0) p.
  Proof.
    intros Hr F. assert (p <> [] -> Forall (fun c => c = 0) (pdiv_lin T p r)) as G.
    { intros N. rewrite (pdiv_lin_last T p r N). apply Forall_app. split; [exact F|repeat constructor]. }
    clear F. induction p as [|c p IH]; [constructor|]. specialize (G ltac:(discriminate)). cbn [pdiv_lin] in G. inversion_clear G as [|? ? G1 G2].
    constructor.
    - cbn [peval] in Hr. rewrite G1 in Hr. rewrite <- Hr. ring.
    - apply IH; [exact G1|]. intros _. exact G2.
  Qed.
  Lemma roots_zero : forall rs (p : list T), NoDup rs -> (length p <= length rs)%nat -> (forall r, In r rs -> peval p r = 0) -> Forall (fun c => c = 0) p.
  Proof.
    induction rs as [|r rs IH]; intros p ND L R; [destruct p; [constructor|cbn in L; lia]|].
    inversion_clear ND as [|? ? N1 N2]. apply (tails_zero p r); [apply R; now left|]. apply IH; [exact N2|rewrite pquot_length; cbn in L; lia|].
    intros s Hs. pose proof (pquot_ok T p r s) as Ep. rewrite (R s (or_intror Hs)), (R r (or_introl eq_refl)) in Ep.
    assert ((s - r) * peval (pquot T p r) s = 0) as Ep' by (rewrite <- Ep; ring).
    apply fmul_integral in Ep' as [Ep'|Ep']; [|exact Ep']. apply fsub_0 in Ep'. subst. contradiction.
  Qed.
  (** A list of constraint values that are not all zero folds to zero for fewer alphas than it is long. *)
  Theorem C41_few_bad_alphas : forall (cs alphas : list T), Exists (fun c => c <> 0) cs -> NoDup alphas ->
    (forall alpha, In alpha alphas -> combined T alpha cs = 0) -> (length alphas < length cs)%nat.
  Proof.
    intros cs alphas Ex ND Z. destruct (Nat.lt_ge_cases (length alphas) (length cs)) as [L|L]; [exact L|exfalso].
    assert (Forall (fun c => c = 0) (rev cs)) as F.
    { apply (roots_zero alphas); [exact ND|now rewrite rev_length|]. intros r I. rewrite <- horner_poly, <- combined_horner. now apply Z. }
    apply Exists_exists in Ex as (c & I & N). apply N. rewrite Forall_forall in F. apply F. now apply -> in_rev.
  Qed.
End C41.

(** ** C42: ZerofierOnCoset *)
Section C42.
  Variable F : two_adic.
  Local Open Scope F_scope.
  (** H has order 2^k, the coset is s <w> with w of order 2^(k+a). *)
  Notation point k a s i := (s * gen (k + a) ^ i).
  (** The constructor works iff Z_H vanishes nowhere on the coset. *)
  Theorem C42_new : forall k a (s : F), (k + a <= two_adicity F)%nat ->
    ((exists z, zerofier_new F k a s = Some z) <-> forall i, point k a s i ^ (2 ^ k) <> 1).
  Proof.
    intros k a s L. split.
    - intros (z & Ez) i Hi. rewrite (zerofier_new_none F k a s L (i mod 2 ^ a)) in Ez; [discriminate|apply Nat.mod_upper_bound, Nat.pow_nonzero; lia|].
      rewrite (zh_mod F k a s L). unfold zh. rewrite Hi. Add Field FF10 : (fth F). ring.
    - intros N. eexists. apply (zerofier_new_ok F k a s L). intros i _. unfold zh. apply fsub_nz, N.
  Qed.
  (** For every index: the value of X^(2^k) - 1 at the point, and its inverse. *)
  Theorem C42_eval : forall k a (s : F) z i, (k + a <= two_adicity F)%nat -> zerofier_new F k a s = Some z ->
    zerofier_eval F z i = Some (point k a s i ^ (2 ^ k) - 1) /\
    zerofier_eval_inverse F z i = Some (/ (point k a s i ^ (2 ^ k) - 1)) /\ point k a s i ^ (2 ^ k) - 1 <> 0.
  Proof.
    intros k a s z i L Ez. pose proof (proj1 (C42_new k a s L) (ex_intro _ z Ez)) as N.
    assert (z = zf F k a s) as ->.
    { rewrite (zerofier_new_ok F k a s L) in Ez by (intros j _; unfold zh; apply fsub_nz, N). congruence. }
    split; [exact (zf_eval_ok F k a s L i)|]. split; [exact (zf_inverse_ok F k a s L i)|]. apply fsub_nz, N.
  Qed.
  (** The unnormalised Lagrange polynomial of the j-th point of H, at all points of the coset. *)
  Theorem C42_lagrange : forall k a (s : F) z j, (k + a <= two_adicity F)%nat -> zerofier_new F k a s = Some z ->
    lagrange_basis_unnormalized F z j =
    Some (map (fun i => (point k a s i ^ (2 ^ k) - 1) * / (point k a s i - gen k ^ j)) (seq 0 (2 ^ (k + a)))).
  Proof.
    intros k a s z j L Ez. pose proof (proj1 (C42_new k a s L) (ex_intro _ z Ez)) as N.
    assert (z = zf F k a s) as ->.
    { rewrite (zerofier_new_ok F k a s L) in Ez by (intros i _; unfold zh; apply fsub_nz, N). congruence. }
    rewrite Nat.pow_add_r. apply (lagrange_ok F k a s L j). intros i _ Ep. apply (N i). rewrite Ep. apply g_pow_n. lia.
  Qed.
End C42.

(** ** C43: recombination of the quotient *)
Section C43.
  Variables V T : two_adic.
  Variable emb : V -> T.
  Variable monomial : nat -> T.
  Local Open Scope F_scope.
  (** The element of T with the coordinates cs. *)
  Definition from_coordinates (cs : list T) : T := sum T (map (fun e => monomial e * nth e cs 0) (seq 0 (length cs))).
  Lemma chunk_value_eq zp ch : chunk_value T monomial zp ch = zp * from_coordinates ch.
  Proof.
    unfold chunk_value, from_coordinates. Add Field TF12 : (fth T).
    assert (forall ch b (f : nat -> T), (forall i, (i < length ch)%nat -> nth i ch 0 = f (b + i)%nat) ->
      sum T (map (fun ec => zp * monomial (fst ec) * snd ec) (List.combine (seq b (length ch)) ch)) = zp * sum T (map (fun e => monomial e * f e) (seq b (length ch)))) as G.
    { clear. induction ch as [|c ch IH]; intros b f H; [cbn; ring|]. cbn [length seq List.combine map sum fst snd]. rewrite (IH (S b) f).
      - pose proof (H 0%nat ltac:(cbn; lia)) as H0. cbn [nth] in H0. rewrite Nat.add_0_r in H0. rewrite H0. ring.
      - intros i Hi. specialize (H (S i) ltac:(cbn; lia)). cbn [nth] in H. rewrite H. f_equal. lia. }
    apply G. reflexivity.
  Qed.
  (** Q has at most 2^a 2^k coefficients; chunk c consists of polynomials over the base field with at most 2^k
      coefficients that together take the values of Q on the c-th chunk domain.  From their values at zeta the
      verifier computes Q(zeta). *)
  Theorem C43_recombination : forall k a s domains pss (Q : list T) zeta, embedding V T emb -> (k + a <= two_adicity V)%nat -> s <> 0 ->
    split_domains V {| log_n := k + a; shift := s |} (2 ^ a) = Some domains ->
    (length Q <= 2 ^ a * 2 ^ k)%nat -> length pss = length domains ->
    Forall2 (fun dm ps => Forall (fun p => (length p <= 2 ^ k)%nat) ps /\
      forall j, (j < 2 ^ k)%nat -> let x := shift dm * gen k ^ j in from_coordinates (map (fun p => emb (peval p x)) ps) = peval Q (emb x)) domains pss ->
    exists zs, zps V T emb zeta domains = Some zs /\
      quotient_at T monomial zs (map (map (fun p => peval (map emb p) zeta)) pss) = Some (peval Q zeta).
  Proof.
    intros k a s domains pss Q zeta E L Ns Sd LQ _ Fd. pose proof (split_domains_ok V T k a s L 1 (le_n 1) Q LQ) as Sd'. unfold qd in Sd'. rewrite Sd' in Sd. injection Sd as <-.
    eexists. split; [apply (zps_eq V T emb k a s L Ns)|]. set (m := (2 ^ a)%nat) in *. set (wt := fun c => weight V T emb k a s c (seq 0 m) zeta).
    (* pss as a function of the chunk *)
    assert (length pss = m) as Lp.
    { clear - Fd. remember (map (qdom V k a s) (seq 0 m)) as ds. assert (length ds = m) as Ld by (subst; now rewrite map_length, seq_length). rewrite <- Ld. clear - Fd.
      induction Fd; cbn; congruence. }
    assert (pss = map (fun c => nth c pss []) (seq 0 m)) as Ep.
    { rewrite <- Lp. apply nth_ext with (d := []) (d' := []); [now rewrite map_length, seq_length|]. intros i Hi. symmetry. exact (nth_map_seq (fun c => nth c pss []) _ i [] Hi). }
    assert (forall c, (c < m)%nat -> Forall (fun p => (length p <= 2 ^ k)%nat) (nth c pss []) /\
      forall j, (j < 2 ^ k)%nat -> from_coordinates (map (fun p => emb (peval p (sh V k a s c * gen k ^ j))) (nth c pss [])) = peval Q (emb (sh V k a s c * gen k ^ j))) as Hp.
    { assert (forall c b cnt pss, (c < cnt)%nat -> Forall2 (fun dm ps => Forall (fun p => (length p <= 2 ^ k)%nat) ps /\
        forall j, (j < 2 ^ k)%nat -> let x := shift dm * gen k ^ j in from_coordinates (map (fun p => emb (peval p x)) ps) = peval Q (emb x)) (map (qdom V k a s) (seq b cnt)) pss ->
        Forall (fun p => (length p <= 2 ^ k)%nat) (nth c pss []) /\
        forall j, (j < 2 ^ k)%nat -> from_coordinates (map (fun p => emb (peval p (sh V k a s (b + c) * gen k ^ j))) (nth c pss [])) = peval Q (emb (sh V k a s (b + c) * gen k ^ j))) as G.
      { clear. induction c as [|c IH]; intros b [|cnt] pss Hc F; try lia; cbn [seq map] in F; inversion_clear F as [|? ps ? pss' [F1 F2] F']; cbn [nth].
        - split; [exact F1|]. intros j Hj. rewrite Nat.add_0_r. exact (F2 j Hj).
        - destruct (IH (S b) cnt pss' ltac:(lia) F') as [G1 G2]. split; [exact G1|]. intros j Hj. replace (b + S c)%nat with (S b + c)%nat by lia. exact (G2 j Hj). }
      intros c Hc. exact (G c 0%nat m pss Hc Fd). }
    clear Fd. rewrite Ep, map_map.
    assert (forall b cnt, quotient_at T monomial (map wt (seq b cnt)) (map (fun c => map (fun p => peval (map emb p) zeta) (nth c pss [])) (seq b cnt)) =
      Some (sum T (map (fun c => wt c * from_coordinates (map (fun p => peval (map emb p) zeta) (nth c pss []))) (seq b cnt)))) as G.
    { intros b cnt. revert b. induction cnt as [|cnt IH]; intros b; cbn [seq map quotient_at sum]; [reflexivity|]. now rewrite IH, chunk_value_eq. }
    rewrite G. f_equal.
    set (P := fun c => psums (map (fun e => pscale (monomial e) (map emb (nth e (nth c pss []) []))) (seq 0 (length (nth c pss []))))).
    assert (forall c x, peval (P c) x = from_coordinates (map (fun p => peval (map emb p) x) (nth c pss []))) as EP.
    { intros c x. unfold P, from_coordinates. rewrite peval_psums, map_map, map_length. f_equal. apply map_ext_in. intros e I. apply in_seq in I.
      rewrite peval_pscale. f_equal. set (h := fun p : list V => peval (map emb p) x). rewrite (nth_indep (map h (nth c pss [])) 0 (h [])) by (rewrite map_length; lia). now rewrite (map_nth h). }
    rewrite <- (recombine V T emb E k a s L Ns P Q).
    - f_equal. apply map_ext. intros c. now rewrite EP.
    - intros c Hc. apply psums_length. apply Forall_forall. intros q I. apply in_map_iff in I as (e & <- & I). rewrite pscale_length, map_length. apply in_seq in I.
      destruct (Hp c Hc) as [F _]. rewrite Forall_forall in F. apply F, nth_In. lia.
    - exact LQ.
    - intros c j Hc Hj. rewrite EP. destruct (Hp c Hc) as [_ F2]. rewrite <- (F2 j Hj). f_equal. apply map_ext. intros p. symmetry. apply (emb_peval _ _ _ E).
  Qed.
End C43.

(** ** The verdict *)
Section Verdict.
  Variables V T : two_adic.
  Variable emb : V -> T.
  Variable D : nat.
  Variable monomial : nat -> T.
  Variable generator : V.
  Variable M0 : mmcs V.
  Variable M : mmcs T.
  Variable Ch : challenger (m_comm M) T.
  Variable observe : c_state Ch -> m_comm M0 -> option (c_state Ch).
  Variable config : fri_config.
  Variable debug : bool.
  Hypothesis E : embedding V T emb.
  Hypothesis Ng : generator <> f0.
  Add Field VFV : (fth V).
  Add Field TFV : (fth T).
  Notation proof := (StarkModel.proof V T M0 M Ch).
  Notation verify := (StarkModel.verify V T emb D monomial generator M0 M Ch observe config debug).
  Notation transcript := (StarkModel.transcript V T M0 M Ch observe).
  Notation p_trace := (p_trace V T M0 M Ch). Notation p_quotient := (p_quotient V T M0 M Ch).
  Notation p_local := (p_local V T M0 M Ch). Notation p_next := (p_next V T M0 M Ch). Notation p_chunks := (p_chunks V T M0 M Ch).
  Notation p_opening := (p_opening V T M0 M Ch). Notation p_degree_bits := (p_degree_bits V T M0 M Ch).
  Local Open Scope F_scope.

  (** The trace domain has 2^k points; the quotient domain generator <gen (k + a)> is split into 2^a cosets. *)
  Definition trace_domain (k : nat) : coset V := {| log_n := k; shift := 1 |}.
  Definition chunk_domain (k a c : nat) : coset V := {| log_n := k; shift := generator * gen (k + a) ^ c |}.
  (** The polynomial X^(2^k) - shift^(2^k) of a domain, scaled *)
  Definition domain_zero (d : coset V) (x : T) : T := (x * emb (/ shift d)) ^ (2 ^ log_n d) - 1.
  (** product over j <> c of Z_j(x) / Z_j(first point of the c-th domain) *)
  Definition chunk_weight (k a c : nat) (x : T) : T :=
    fold_right (fun j r => if (j =? c)%nat then r else domain_zero (chunk_domain k a j) x * / domain_zero (chunk_domain k a j) (emb (shift (chunk_domain k a c))) * r) 1 (seq 0 (2 ^ a)).
  Definition recombined (k a : nat) (chunks : list (list T)) (x : T) : T :=
    sum T (map (fun c => chunk_weight k a c x * from_coordinates T monomial (nth c chunks [])) (seq 0 (2 ^ a))).
  Definition good_shape (ar : air V) (a : nat) (pf : proof) : Prop :=
    length (p_local pf) = air_width ar /\ length (p_next pf) = air_width ar /\ length (p_chunks pf) = (2 ^ a)%nat /\
    Forall (fun c => length c = D) (p_chunks pf).
  Definition opened_window (k : nat) (pf : proof) (pv : list V) (x : T) : window V T :=
    {| w_local := p_local pf; w_next := p_next pf; w_public := pv;
       w_first := (x ^ (2 ^ k) - 1) * / (x - 1); w_last := (x ^ (2 ^ k) - 1) * / (x - / emb (gen k)); w_transition := x - / emb (gen k) |}.
  (** The claims checked by the polynomial commitment scheme. *)
  Definition claims (k a : nat) (pf : proof) (x : T) :=
    [(p_trace pf, [(trace_domain k, [(x, p_local pf); (x * emb (gen k), p_next pf)])]);
     (p_quotient pf, map (fun c => (chunk_domain k a c, [(x, nth c (p_chunks pf) [])])) (seq 0 (2 ^ a)))].
  (** The constraints, in order, take the values vs. *)
  Definition constraint_values (ar : air V) (w : window V T) (vs : list T) : Prop :=
    Forall2 (fun c v => eval emb w (as_zero c) = Some v) (air_eval ar) vs.

  Lemma weight_eq k a c x : (k + a <= two_adicity V)%nat -> (c < 2 ^ a)%nat -> weight V T emb k a generator c (seq 0 (2 ^ a)) x = chunk_weight k a c x.
  Proof.
    intros L Hc. unfold weight, chunk_weight.
    assert (forall l, (forall j, In j l -> (j < 2 ^ a)%nat) -> fold_right (fun j r => if (j =? c)%nat then r else fac V T emb k a generator c j x * r) 1 l =
      fold_right (fun j r => if (j =? c)%nat then r else domain_zero (chunk_domain k a j) x * / domain_zero (chunk_domain k a j) (emb (shift (chunk_domain k a c))) * r) 1 l) as G.
    { induction l as [|j l IH]; intros Hl; cbn [fold_right]; [reflexivity|]. rewrite IH by (intros i I; apply Hl; now right).
      destruct (Nat.eqb_spec j c) as [Ej|Nj]; [reflexivity|]. f_equal. unfold fac.
      pose proof (zb_nz V k a generator L Ng c j Hc (Hl j (or_introl eq_refl)) ltac:(congruence)) as Nz.
      rewrite (emb_inv V T emb E _ Nz), <- (zv_emb V T emb E). reflexivity. }
    apply G. intros j I. apply in_seq in I. lia.
  Qed.
  Lemma shape_ok ar a pf : valid_shape V T D M0 M Ch ar (2 ^ a) pf = true <-> good_shape ar a pf.
  Proof.
    unfold valid_shape, good_shape. rewrite !andb_true_iff, !Nat.eqb_eq, forallb_forall, Forall_forall.
    split.
    - intros (((H1 & H2) & H3) & H4). repeat split; try assumption. intros c I. apply Nat.eqb_eq. auto.
    - intros (H1 & H2 & H3 & H4). repeat split; try assumption. intros c I. apply Nat.eqb_eq. auto.
  Qed.
  Lemma shl_ok i : (i < 64)%nat -> shl1 debug i = Some (2 ^ i)%nat.
  Proof. intros L. unfold shl1. rewrite Nat.mod_small by exact L. destruct (Nat.leb_spec 64 i); [lia|]. now rewrite andb_false_r. Qed.
  Lemma map_nth_seq {A} (l : list A) d : l = map (fun c => nth c l d) (seq 0 (length l)).
  Proof.
    apply nth_ext with (d := d) (d' := d); [now rewrite map_length, seq_length|]. intros i Hi. symmetry. exact (nth_map_seq (fun c => nth c l d) _ i d Hi).
  Qed.
  Lemma rounds_eq k a pf x : length (p_chunks pf) = (2 ^ a)%nat ->
    pcs_rounds V T M0 M Ch pf (td V k) (map (qdom V k a generator) (seq 0 (2 ^ a))) x (x * emb (gen k)) = claims k a pf x.
  Proof.
    intros L. unfold pcs_rounds, claims, trace_domain. do 3 f_equal. rewrite (map_nth_seq (p_chunks pf) []) at 1. rewrite L, combine_map_map, map_map. reflexivity.
  Qed.
  Lemma recombined_eq k a chunks x : (k + a <= two_adicity V)%nat -> length chunks = (2 ^ a)%nat ->
    quotient_at T monomial (map (fun c => weight V T emb k a generator c (seq 0 (2 ^ a)) x) (seq 0 (2 ^ a))) chunks = Some (recombined k a chunks x).
  Proof.
    intros L Lc. unfold recombined. set (m := (2 ^ a)%nat) in *. rewrite (map_nth_seq chunks []) at 1. rewrite Lc.
    assert (forall b cnt, (b + cnt <= m)%nat -> quotient_at T monomial (map (fun c => weight V T emb k a generator c (seq 0 m) x) (seq b cnt)) (map (fun c => nth c chunks []) (seq b cnt)) =
      Some (sum T (map (fun c => chunk_weight k a c x * from_coordinates T monomial (nth c chunks [])) (seq b cnt)))) as G.
    { intros b cnt. revert b. induction cnt as [|cnt IH]; intros b Hb; cbn [seq map quotient_at sum]; [reflexivity|]. rewrite IH, chunk_value_eq by lia. cbn [option_map].
      unfold m. rewrite weight_eq by (assumption || (fold m; lia)). reflexivity. }
    apply G. lia.
  Qed.
  Lemma traverse_values ar w : forall vs, traverse (fun c => eval emb w (as_zero c)) (air_eval ar) = Some vs <-> constraint_values ar w vs.
  Proof.
    unfold constraint_values. induction (air_eval ar) as [|c l IH]; intros vs; cbn [traverse].
    - split; [intros [= <-]; constructor|intros F; inversion F; reflexivity].
    - split.
      + destruct (eval emb w (as_zero c)) as [v|] eqn:Ev; [|discriminate]. destruct (traverse _ l) as [vs'|] eqn:Et; [|discriminate]. intros [= <-].
        constructor; [exact Ev|now apply IH].
      + intros F. inversion F as [|? v ? vs' Ev F']; subst. rewrite Ev. apply IH in F'. now rewrite F'.
  Qed.
  Lemma eval_defined (w : window V T) np : length (w_next w) = length (w_local w) -> length (w_public w) = np ->
    forall e s, symbolic_of V (length (w_local w)) np e = Some s -> exists v, eval emb w e = Some v.
  Proof.
    intros L1 L2.
    assert (forall i A (l : list A), (i < length l)%nat -> exists v, nth_error l i = Some v) as Hn.
    { intros i A l Hi. destruct (nth_error l i) as [v|] eqn:En; [eauto|]. apply nth_error_None in En. lia. }
    assert (forall x y f (sx : symbolic V), opt2 f x y = Some sx -> exists a b : symbolic V, x = Some a /\ y = Some b) as Ho.
    { intros [x|] [y|] f sx Hs; try discriminate. eauto. }
    induction e; intros s Es; cbn [symbolic_of eval] in *; eauto.
    - destruct (Nat.ltb_spec i (length (w_local w))); [eauto|discriminate].
    - destruct (Nat.ltb_spec i (length (w_local w))); [apply Hn; lia|discriminate].
    - destruct (Nat.ltb_spec i np); [|discriminate]. destruct (Hn i _ (w_public w) ltac:(lia)) as (v & ->). cbn. eauto.
    - apply Ho in Es as (s1 & s2 & E1 & E2). destruct (IHe1 _ E1) as (v1 & ->). destruct (IHe2 _ E2) as (v2 & ->). cbn. eauto.
    - apply Ho in Es as (s1 & s2 & E1 & E2). destruct (IHe1 _ E1) as (v1 & ->). destruct (IHe2 _ E2) as (v2 & ->). cbn. eauto.
    - destruct (symbolic_of V (length (w_local w)) np e) as [s1|]; [|discriminate]. destruct (IHe _ eq_refl) as (v1 & ->). cbn. eauto.
    - apply Ho in Es as (s1 & s2 & E1 & E2). destruct (IHe1 _ E1) as (v1 & ->). destruct (IHe2 _ E2) as (v2 & ->). cbn. eauto.
  Qed.
  Lemma values_defined ar a (w : window V T) : length (w_local w) = air_width ar -> length (w_next w) = air_width ar ->
    get_log_quotient_degree V ar (length (w_public w)) = Some a -> exists vs, constraint_values ar w vs.
  Proof.
    intros L1 L2 Hq. unfold get_log_quotient_degree in Hq. destruct (get_max_constraint_degree V ar (length (w_public w))) as [d|] eqn:Ed; [|discriminate].
    pose proof (symbolic_each V ar _ d Ed) as F. clear Hq Ed. unfold constraint_values. induction F as [|c l (s & Es & _) F IH]; [exists []; constructor|].
    destruct IH as (vs & IH). destruct (eval_defined w (length (w_public w)) ltac:(congruence) eq_refl (as_zero c) s) as (v & Ev); [now rewrite L1|].
    exists (v :: vs). now constructor.
  Qed.
  Lemma ood_eq k a ar pv pf alpha x vs : (k + a <= two_adicity V)%nat -> good_shape ar a pf -> x ^ (2 ^ k) <> 1 -> constraint_values ar (opened_window k pf pv x) vs ->
    ood_check V T emb monomial M0 M Ch ar pv pf (td V k) (map (qdom V k a generator) (seq 0 (2 ^ a))) alpha x =
    Some (feqb (combined T alpha vs * / (x ^ (2 ^ k) - 1)) (recombined k a (p_chunks pf) x)).
  Proof.
    intros L (_ & _ & Lc & _) N Cv. assert (k <= two_adicity V)%nat as Lk by lia. unfold ood_check.
    rewrite (zps_eq V T emb k a generator L Ng), (recombined_eq k a _ x L Lc), (sels_at V T emb E k Lk x N). cbn [is_first_row is_last_row is_transition inv_zeroifier].
    pose proof (window_poly V T emb k [] pv x E Lk N) as Wp. unfold window_at, poly_window in Wp. cbn [map] in Wp. injection Wp as W1 W2 W3.
    rewrite <- W1, <- W2, <- W3. fold (opened_window k pf pv x).
    pose proof (C41_folding V T T emb (fun y => y) alpha (opened_window k pf pv x) (air_eval ar) vs Cv) as ->. cbn [option_map]. now rewrite map_id.
  Qed.
  Lemma ood_none k a ar pv pf alpha x : (k + a <= two_adicity V)%nat -> good_shape ar a pf -> x ^ (2 ^ k) = 1 ->
    ood_check V T emb monomial M0 M Ch ar pv pf (td V k) (map (qdom V k a generator) (seq 0 (2 ^ a))) alpha x = None.
  Proof.
    intros L (_ & _ & Lc & _) N. unfold ood_check. rewrite (zps_eq V T emb k a generator L Ng), (recombined_eq k a _ x L Lc).
    assert (selectors_at_point V T emb (td V k) x = None) as ->; [|reflexivity].
    unfold selectors_at_point, coset_gen. cbn [td log_n shift]. rewrite (inverse_nz V 1 (f1_nz V)), tag_some by lia. rewrite inverse_nz by (apply gen_nz; lia).
    assert (/ 1 = (1 : V)) as E1 by (field; apply f1_nz). rewrite E1, (emb_1 _ _ _ E). replace (x * 1) with x by ring. rewrite N.
    replace (1 - 1) with (0 : T) by ring. assert (inverse (0 : T) = None) as -> by (unfold inverse; now rewrite feqb_refl).
    destruct (checked_div _ _); [|reflexivity]. destruct (checked_div _ _); reflexivity.
  Qed.
  Lemma verify_unfold k a ar ch pf pv : p_degree_bits pf = k -> get_log_quotient_degree V ar (length pv) = Some a -> (k + a < 64)%nat -> (k + a <= two_adicity V)%nat ->
    verify ar ch pf pv =
    if negb (valid_shape V T D M0 M Ch ar (2 ^ a) pf) then Err (StarkInvalidProofShape V T M0 M) else
    match observe ch (p_trace pf) with
    | None => Panic
    | Some ch =>
        match c_sample Ch ch with
        | None => Panic
        | Some (alpha, ch) =>
            match observe ch (p_quotient pf) with
            | None => Panic
            | Some ch =>
                match c_sample Ch ch with
                | None => Panic
                | Some (zeta, ch) =>
                    match pcs_verify V T emb generator M0 M Ch config debug (pcs_rounds V T M0 M Ch pf (td V k) (map (qdom V k a generator) (seq 0 (2 ^ a))) zeta (zeta * emb (gen k))) (p_opening pf) ch with
                    | Panic => Panic
                    | Err e => Err (InvalidOpeningArgument V T M0 M e)
                    | Ok ch =>
                        match ood_check V T emb monomial M0 M Ch ar pv pf (td V k) (map (qdom V k a generator) (seq 0 (2 ^ a))) alpha zeta with
                        | None => Panic
                        | Some false => Err (OodEvaluationMismatch V T M0 M)
                        | Some true => Ok ch
                        end
                    end
                end
            end
        end
    end.
  Proof.
    intros Ek Hq L64 L. unfold StarkModel.verify. rewrite Ek, Hq, !shl_ok by lia. unfold natural_domain_for_degree. rewrite log2_strict_pow. cbn [option_map].
    change {| log_n := k; shift := 1 |} with (td V k).
    assert (create_disjoint_domain V generator (td V k) (2 ^ (k + a)) = qd V k a generator) as ->.
    { unfold create_disjoint_domain, qd, log2_ceil. cbn [td shift]. rewrite Nat.log2_up_pow2 by lia. f_equal. ring. }
    rewrite (split_domains_ok V T k a generator L 1 (le_n 1) [] ltac:(cbn; lia)).
    unfold next_point, coset_gen. cbn [td log_n]. rewrite tag_some by lia. reflexivity.
  Qed.

  (** *** C46 *)
  (** Ok exactly when the shape is right, the opening is accepted, zeta is off the trace domain and the folded
      constraints divided by Z_H are the recombined quotient. *)
  Theorem C46_accepts_iff : forall k a ar ch pf pv ch', p_degree_bits pf = k -> get_log_quotient_degree V ar (length pv) = Some a ->
    (k + a < 64)%nat -> (k + a <= two_adicity V)%nat ->
    (verify ar ch pf pv = Ok ch' <->
     good_shape ar a pf /\ exists alpha zeta ch1 vs, transcript ch (p_trace pf) (p_quotient pf) alpha zeta ch1 /\
       pcs_verify V T emb generator M0 M Ch config debug (claims k a pf zeta) (p_opening pf) ch1 = Ok ch' /\
       zeta ^ (2 ^ k) <> 1 /\ constraint_values ar (opened_window k pf pv zeta) vs /\
       combined T alpha vs * / (zeta ^ (2 ^ k) - 1) = recombined k a (p_chunks pf) zeta).
  Proof.
    intros k a ar ch pf pv ch' Ek Hq L64 L. rewrite (verify_unfold k a ar ch pf pv Ek Hq L64 L). split.
    - destruct (valid_shape V T D M0 M Ch ar (2 ^ a) pf) eqn:Es; [|discriminate]. apply shape_ok in Es. cbn [negb].
      destruct (observe ch (p_trace pf)) as [c1|] eqn:E1; [|discriminate]. destruct (c_sample Ch c1) as [[alpha c2]|] eqn:E2; [|discriminate].
      destruct (observe c2 (p_quotient pf)) as [c3|] eqn:E3; [|discriminate]. destruct (c_sample Ch c3) as [[zeta c4]|] eqn:E4; [|discriminate].
      rewrite rounds_eq by apply Es. destruct (pcs_verify _ _ _ _ _ _ _ _ _ _ _ _) as [c5| |] eqn:E5; try discriminate.
      intros H. split; [exact Es|].
      destruct (feqb (zeta ^ (2 ^ k)) 1) eqn:Ez.
      { apply feqb_ok in Ez. rewrite (ood_none k a ar pv pf alpha zeta L Es Ez) in H. discriminate. }
      assert (zeta ^ (2 ^ k) <> 1) as N by (intros X; rewrite X, feqb_refl in Ez; discriminate).
      destruct (values_defined ar a (opened_window k pf pv zeta)) as (vs & Cv); [apply Es|apply Es|exact Hq|].
      rewrite (ood_eq k a ar pv pf alpha zeta vs L Es N Cv) in H. destruct (feqb _ _) eqn:Ef; [|discriminate]. injection H as <-. apply feqb_ok in Ef.
      exists alpha, zeta, c4, vs. split; [exists c1, c2, c3; auto|]. auto.
    - intros (Gs & alpha & zeta & c4 & vs & (c1 & c2 & c3 & E1 & E2 & E3 & E4) & Ev & N & Cv & Eq).
      rewrite (proj2 (shape_ok ar a pf) Gs). cbn [negb]. rewrite E1, E2, E3, E4, rounds_eq, Ev by apply Gs. rewrite (ood_eq k a ar pv pf alpha zeta vs L Gs N Cv), Eq, feqb_refl. reflexivity.
  Qed.
  (** A wrong shape is reported before the transcript is touched. *)
  Theorem C46_wrong_shape : forall k a ar ch pf pv, p_degree_bits pf = k -> get_log_quotient_degree V ar (length pv) = Some a ->
    (k + a < 64)%nat -> (k + a <= two_adicity V)%nat -> (verify ar ch pf pv = Err (StarkInvalidProofShape V T M0 M) <-> ~ good_shape ar a pf).
  Proof.
    intros k a ar ch pf pv Ek Hq L64 L. rewrite (verify_unfold k a ar ch pf pv Ek Hq L64 L), <- shape_ok.
    destruct (valid_shape V T D M0 M Ch ar (2 ^ a) pf); cbn [negb]; [|split; [discriminate|reflexivity]].
    split; [|intros N; now contradiction N]. intros H. exfalso. revert H.
    destruct (observe ch (p_trace pf)) as [c1|]; [|discriminate]. destruct (c_sample Ch c1) as [[alpha c2]|]; [|discriminate].
    destruct (observe c2 (p_quotient pf)) as [c3|]; [|discriminate]. destruct (c_sample Ch c3) as [[zeta c4]|]; [|discriminate].
    destruct (pcs_verify _ _ _ _ _ _ _ _ _ _ _ _); try discriminate. destruct (ood_check _ _ _ _ _ _ _ _ _ _ _ _ _ _) as [[]|]; discriminate.
  Qed.
  (** Domains beyond the two-adicity of the field make the verifier panic instead (finding). *)
  Theorem C46_too_large : forall k a ar ch pf pv, p_degree_bits pf = k -> get_log_quotient_degree V ar (length pv) = Some a ->
    (k + a < 64)%nat -> (two_adicity V < k + a)%nat -> verify ar ch pf pv = Panic.
  Proof.
    intros k a ar ch pf pv Ek Hq L64 L. unfold StarkModel.verify. rewrite Ek, Hq, !shl_ok by lia. unfold natural_domain_for_degree. rewrite log2_strict_pow. cbn [option_map].
    unfold split_domains, create_disjoint_domain, coset_gen, log2_ceil. cbn [log_n]. rewrite Nat.log2_up_pow2, log2_strict_pow by lia.
    unfold two_adic_generator. destruct (Nat.leb_spec (k + a) (two_adicity V)); [lia|reflexivity].
  Qed.
  (** The proof with another degree *)
  Definition with_degree (pf : proof) (n : nat) : proof :=
    {| StarkModel.p_trace := p_trace pf; StarkModel.p_quotient := p_quotient pf; StarkModel.p_local := p_local pf; StarkModel.p_next := p_next pf;
       StarkModel.p_chunks := p_chunks pf; StarkModel.p_opening := p_opening pf; StarkModel.p_degree_bits := n |}.

  (** *** C45 *)
  (** Two vectors of public values: unless the results coincide, one is accepted and the other refused by the
      out-of-domain check alone, after the same challenges and the same opening. *)
  Theorem C45_public_values : forall k a ar ch pf pv pv', p_degree_bits pf = k ->
    get_log_quotient_degree V ar (length pv) = Some a -> get_log_quotient_degree V ar (length pv') = Some a -> (k + a < 64)%nat -> (k + a <= two_adicity V)%nat ->
    verify ar ch pf pv = verify ar ch pf pv' \/
    exists alpha zeta ch1 ch', transcript ch (p_trace pf) (p_quotient pf) alpha zeta ch1 /\
      pcs_verify V T emb generator M0 M Ch config debug (claims k a pf zeta) (p_opening pf) ch1 = Ok ch' /\
      (verify ar ch pf pv = Ok ch' /\ verify ar ch pf pv' = Err (OodEvaluationMismatch V T M0 M) \/
       verify ar ch pf pv' = Ok ch' /\ verify ar ch pf pv = Err (OodEvaluationMismatch V T M0 M)).
  Proof.
    intros k a ar ch pf pv pv' Ek Hq Hq' L64 L. rewrite (verify_unfold k a ar ch pf pv Ek Hq L64 L), (verify_unfold k a ar ch pf pv' Ek Hq' L64 L).
    destruct (valid_shape V T D M0 M Ch ar (2 ^ a) pf) eqn:Es; [|now left]. apply shape_ok in Es. cbn [negb].
    destruct (observe ch (p_trace pf)) as [c1|] eqn:E1; [|now left]. destruct (c_sample Ch c1) as [[alpha c2]|] eqn:E2; [|now left].
    destruct (observe c2 (p_quotient pf)) as [c3|] eqn:E3; [|now left]. destruct (c_sample Ch c3) as [[zeta c4]|] eqn:E4; [|now left].
    rewrite rounds_eq by apply Es. destruct (pcs_verify _ _ _ _ _ _ _ _ _ _ _ _) as [c5| |] eqn:E5; [|now left|now left].
    destruct (feqb (zeta ^ (2 ^ k)) 1) eqn:Ez.
    { apply feqb_ok in Ez. rewrite !(ood_none k a ar _ pf alpha zeta L Es Ez). now left. }
    assert (zeta ^ (2 ^ k) <> 1) as N by (intros X; rewrite X, feqb_refl in Ez; discriminate).
    destruct (values_defined ar a (opened_window k pf pv zeta)) as (vs & Cv); [apply Es|apply Es|exact Hq|].
    destruct (values_defined ar a (opened_window k pf pv' zeta)) as (vs' & Cv'); [apply Es|apply Es|exact Hq'|].
    rewrite (ood_eq k a ar pv pf alpha zeta vs L Es N Cv), (ood_eq k a ar pv' pf alpha zeta vs' L Es N Cv').
    destruct (feqb (combined T alpha vs * _) _), (feqb (combined T alpha vs' * _) _); [now left| | |now left]; right; exists alpha, zeta, c4, c5;
      (split; [exists c1, c2, c3; auto|]); (split; [exact E5|]); auto.
  Qed.
  (** Without overflow checks the degree is only read modulo 64 (finding: the proof is malleable). *)
  Theorem C45_degree_modulo_64 : forall ar ch pf pv, debug = false -> verify ar ch (with_degree pf (p_degree_bits pf + 64)) pv = verify ar ch pf pv.
  Proof.
    intros ar ch pf pv ->. unfold StarkModel.verify, shl1, with_degree. cbn [StarkModel.p_degree_bits StarkModel.p_trace StarkModel.p_quotient StarkModel.p_opening andb].
    replace ((p_degree_bits pf + 64) mod 64)%nat with (p_degree_bits pf mod 64)%nat by (symmetry; exact (Nat.mod_add _ 1 64 ltac:(lia))).
    destruct (get_log_quotient_degree V ar (length pv)) as [lqd|]; [|reflexivity].
    replace ((p_degree_bits pf + 64 + lqd) mod 64)%nat with ((p_degree_bits pf + lqd) mod 64)%nat by (rewrite Nat.add_shuffle0; symmetry; exact (Nat.mod_add _ 1 64 ltac:(lia))).
    reflexivity.
  Qed.
End Verdict.

(** ** C47: the row by row check *)
Theorem C47_rows : forall (V : two_adic) (a : air V) main pv, let h := height V main in
  check_constraints V a main pv = true <->
  forall i, i < h -> exists local next, row V main i = Some local /\ row V main ((i + 1) mod h) = Some next /\
    Forall (fun c => eval (fun x => x)
      {| w_local := local; w_next := next; w_public := pv; w_first := if i =? 0 then f1 else f0;
         w_last := if i =? h - 1 then f1 else f0; w_transition := if i =? h - 1 then f0 else f1 |} (as_zero c) = Some f0) (air_eval a).
Proof.
  intros V a main pv h. unfold check_constraints. fold h. rewrite forallb_forall. split.
  - intros H i Hi. assert (In i (seq 0 h)) as I by (apply in_seq; lia). specialize (H i I). cbv beta zeta in H.
    destruct (row V main i) as [local|]; [|discriminate]. destruct (row V main ((i + 1) mod h)) as [next|]; [|discriminate].
    exists local, next. split; [reflexivity|]. split; [reflexivity|]. apply Forall_forall. intros c Ic. rewrite forallb_forall in H. specialize (H c Ic).
    apply debug_assert_zero in H. unfold from_bool in H. destruct (i =? h - 1); exact H.
  - intros H i I. apply in_seq in I. destruct (H i ltac:(lia)) as (local & next & -> & -> & F). apply forallb_forall. intros c Ic. rewrite Forall_forall in F. specialize (F c Ic).
    apply debug_assert_zero. unfold from_bool. destruct (i =? h - 1); exact F.
Qed.

(** ** C67 and C68 *)
Section Run.
  Variables V T : two_adic.
  Variable emb : V -> T.
  Variable D : nat.
  Variable as_base_slice : T -> list V.
  Variable monomial : nat -> T.
  Variable generator : V.
  Variable M0 : mmcs V.
  Variable M : mmcs T.
  Variable Ch : challenger (m_comm M) T.
  Variable observe : c_state Ch -> m_comm M0 -> option (c_state Ch).
  Variable config : fri_config.
  Variable lde : matrix V -> nat -> V -> option (matrix V).
  Variable interp : matrix V -> V -> T -> option (list T).
  Variable sync : c_state Ch -> c_state Ch -> Prop.
  Add Field VFR : (fth V).
  Add Field TFR : (fth T).
  Notation proof := (StarkModel.proof V T M0 M Ch).
  Notation prove := (StarkModel.prove V T emb D as_base_slice generator M0 M Ch observe config lde interp).
  Notation verify := (StarkModel.verify V T emb D monomial generator M0 M Ch observe config).
  Notation transcript := (StarkModel.transcript V T M0 M Ch observe).
  Notation p_trace := (p_trace V T M0 M Ch). Notation p_quotient := (p_quotient V T M0 M Ch).
  Notation p_local := (p_local V T M0 M Ch). Notation p_next := (p_next V T M0 M Ch). Notation p_chunks := (p_chunks V T M0 M Ch).
  Notation p_opening := (p_opening V T M0 M Ch). Notation p_degree_bits := (p_degree_bits V T M0 M Ch).
  Notation lb := (log_blowup config).
  Local Open Scope F_scope.

  (** The pieces fit together: the commitment scheme works for traces of 2^k rows, T has the basis
      [monomial] over V, and the generator is not in the subgroup of order 2^(k + a). *)
  Definition stark_setting (k a : nat) : Prop :=
    pcs_setting V T emb generator M0 M Ch config lde interp sync (k + lb) /\ (1 <= D)%nat /\
    (forall t, length (as_base_slice t) = D /\ from_coordinates T monomial (map emb (as_base_slice t)) = t) /\
    generator ^ (2 ^ (k + a)) <> 1 /\ (1 <= k)%nat /\ (a <= lb)%nat /\
    (forall c d x c', sync c d -> observe c x = Some c' -> exists d', observe d x = Some d' /\ sync c' d').
  (** In every constraint each selector occurs equally often in all terms, and is_transition not more often
      than the degree allows. *)
  Definition simple_selectors (ar : air V) (np : nat) : Prop :=
    Forall (fun c => exists d, selector_degree V (as_zero c) = Some d) (air_eval ar) /\
    forall d, get_max_constraint_degree V ar np = Some d -> Forall (fun c => (transitions V (as_zero c) < Nat.max 2 d)%nat) (air_eval ar).
  (** A trace of 2^k rows for the AIR, with 2^a quotient chunks *)
  Definition trace_for (k a : nat) (ar : air V) (trace : matrix V) (pv : list V) : Prop :=
    has_rows trace k /\ width V trace = air_width ar /\ get_log_quotient_degree V ar (length pv) = Some a /\ check_constraints V ar trace pv = true.
  Lemma basis_sum : (forall t, length (as_base_slice t) = D /\ from_coordinates T monomial (map emb (as_base_slice t)) = t) ->
    forall t, sum T (map (fun ec => monomial (fst ec) * emb (snd ec)) (List.combine (seq 0 D) (as_base_slice t))) = t.
  Proof.
    intros B t. destruct (B t) as [L Et]. rewrite <- Et at 2. transitivity (1 * from_coordinates T monomial (map emb (as_base_slice t))); [|ring].
    rewrite <- chunk_value_eq. unfold chunk_value. rewrite map_length, L. clear - L.
    assert (forall l b, sum T (map (fun ec => monomial (fst ec) * emb (snd ec)) (List.combine (seq b (length l)) l)) =
      sum T (map (fun ec => 1 * monomial (fst ec) * snd ec) (List.combine (seq b (length l)) (map emb l)))) as G.
    { induction l as [|x l IH]; intros b; cbn [length seq List.combine map sum fst snd]; [reflexivity|]. rewrite IH. ring. }
    rewrite <- L. apply G.
  Qed.

  (** The verifier accepts every proof of the prover. *)
  Theorem C67_accepted : forall k a debug ar trace pv st0 st ch d pf ch', stark_setting k a -> simple_selectors ar (length pv) -> trace_for k a ar trace pv ->
    sync ch d -> prove debug ar st0 st ch trace pv pf ch' ->
    (forall alpha zeta ch1, transcript ch (p_trace pf) (p_quotient pf) alpha zeta ch1 -> good_zeta V T emb generator config k zeta) ->
    exists d', verify debug ar d pf pv = Ok d' /\ sync ch' d'.
  Proof.
    intros k a debug ar trace pv st0 st ch d pf ch' (PS & HD & B & Hg & Lk & La & Ho) (S1 & S2) (T1 & T2 & T3 & T4) Sy P G.
    destruct (honest_accepted V T emb D as_base_slice monomial generator M0 M Ch observe config lde interp sync k a PS HD (fun t => proj1 (B t)) (basis_sum B) Hg Lk La
      ar trace pv T1 T2 T3 T4 S1 S2 Ho debug st0 st ch d pf ch' Sy P G) as (d' & Ev & Sd & _). eauto.
  Qed.
  (** A challenger that never gets stuck *)
  Definition never_stuck (ok : c_state Ch -> Prop) : Prop :=
    (forall c x, ok c -> exists c', observe c x = Some c' /\ ok c') /\
    (forall c x, ok c -> exists c', c_observe Ch c x = Some c' /\ ok c') /\
    (forall c, ok c -> exists x c', c_sample Ch c = Some (x, c') /\ ok c') /\
    (forall c i, ok c -> (i <= two_adicity T)%nat -> exists j c', c_sample_bits Ch c i = Some (j, c') /\ ok c') /\
    (forall c, ok c -> exists w c', c_grind Ch c (proof_of_work_bits config) w c' /\ ok c').
  (** The prover commits, and unless zeta is a bad point it produces a proof. *)
  Theorem C67_runs : forall k a debug ar trace pv st0 st ch ok, stark_setting k a -> simple_selectors ar (length pv) -> trace_for k a ar trace pv ->
    never_stuck ok -> ok ch ->
    exists tc qc alpha zeta ch1, transcript ch tc qc alpha zeta ch1 /\
      (good_zeta V T emb generator config k zeta -> exists pf ch', p_trace pf = tc /\ p_quotient pf = qc /\ prove debug ar st0 st ch trace pv pf ch').
  Proof.
    intros k a debug ar trace pv st0 st ch ok (PS & HD & B & Hg & Lk & La & Ho) (S1 & S2) (T1 & T2 & T3 & T4) (N1 & N2 & N3 & N4 & N5) O.
    exact (honest_runs V T emb D as_base_slice monomial generator M0 M Ch observe config lde interp sync k a PS HD (fun t => proj1 (B t)) (basis_sum B) Hg Lk La
      ar trace pv T1 T2 T3 T4 S1 S2 debug st0 st ch ok N1 N2 N3 N4 N5 O).
  Qed.

  (** *** C68 *)
  (** The proof with other opened values *)
  Definition with_values (pf : proof) (local next : list T) (chunks : list (list T)) : proof :=
    {| StarkModel.p_trace := p_trace pf; StarkModel.p_quotient := p_quotient pf; StarkModel.p_local := local; StarkModel.p_next := next;
       StarkModel.p_chunks := chunks; StarkModel.p_opening := p_opening pf; StarkModel.p_degree_bits := p_degree_bits pf |}.
  Lemma sum_single (f : nat -> T) c0 : forall l, NoDup l -> In c0 l -> (forall c, In c l -> c <> c0 -> f c = 0) -> sum T (map f l) = f c0.
  Proof.
    assert (forall l, ~ In c0 l -> (forall c, In c l -> c <> c0 -> f c = 0) -> sum T (map f l) = 0) as Z.
    { induction l as [|c l IH]; intros N H; cbn [map sum]; [reflexivity|]. rewrite (H c (or_introl eq_refl)) by (intros ->; apply N; now left).
      rewrite IH; [ring|intros X; apply N; now right|]. intros d I. apply H. now right. }
    induction l as [|c l IH]; intros ND I H; [destruct I|]. inversion_clear ND as [|? ? N1 N2]. cbn [map sum]. destruct (Nat.eq_dec c c0) as [->|N].
    - rewrite Z; [ring|exact N1|]. intros d Id. apply H. now right.
    - destruct I as [->|I]; [contradiction|]. rewrite (H c (or_introl eq_refl) N), (IH N2 I); [ring|]. intros d Id. apply H. now right.
  Qed.
  Lemma some_weight k a x : embedding V T emb -> generator <> 0 -> (k + a <= two_adicity V)%nat -> exists c, (c < 2 ^ a)%nat /\ chunk_weight V T emb generator k a c x <> 0.
  Proof.
    intros E Ng L. pose proof (Nat.pow_nonzero 2 k ltac:(lia)) as Pk. pose proof (Nat.pow_nonzero 2 a ltac:(lia)) as Pa.
    pose proof (recombine V T emb E k a generator L Ng (fun _ => [1]) [1] ltac:(intros; cbn; lia) ltac:(cbn; nia) ltac:(reflexivity) x) as R.
    destruct (existsb (fun c => negb (feqb (chunk_weight V T emb generator k a c x) 0)) (seq 0 (2 ^ a))) eqn:Ex.
    - apply existsb_exists in Ex as (c & I & Hc). apply in_seq in I. exists c. split; [lia|]. intros Z. rewrite Z, feqb_refl in Hc. discriminate.
    - exfalso. assert (forall c, In c (seq 0 (2 ^ a)) -> chunk_weight V T emb generator k a c x = 0) as Z.
      { intros c I. destruct (feqb (chunk_weight V T emb generator k a c x) 0) eqn:Ef; [now apply feqb_ok|]. exfalso.
        assert (existsb (fun c => negb (feqb (chunk_weight V T emb generator k a c x) 0)) (seq 0 (2 ^ a)) = true) as Ex'; [|congruence].
        apply existsb_exists. exists c. split; [exact I|now rewrite Ef]. }
      assert (forall l, (forall c, In c l -> In c (seq 0 (2 ^ a))) -> sum T (map (fun i => weight V T emb k a generator i (seq 0 (2 ^ a)) x * peval [1] x) l) = 0) as S0.
      { induction l as [|c l IH]; intros Hl; cbn [map sum]; [reflexivity|]. rewrite IH by (intros d I; apply Hl; now right).
        pose proof (Hl c (or_introl eq_refl)) as I. rewrite (weight_eq V T emb monomial generator E Ng) by (exact L || (apply in_seq in I; lia)). rewrite (Z c I). ring. }
      pose proof (eq_trans (eq_sym (S0 _ (fun c I => I))) R) as R1. cbn [peval] in R1. apply (f1_nz T). transitivity (1 + x * (0 : T)); [ring|now rewrite <- R1].
  Qed.
  Lemma any_quotient k a x v : embedding V T emb -> generator <> 0 -> (k + a <= two_adicity V)%nat -> (1 <= D)%nat -> monomial 0%nat <> 0 ->
    exists chunks, length chunks = (2 ^ a)%nat /\ Forall (fun c => length c = D) chunks /\ recombined V T emb monomial generator k a chunks x = v.
  Proof.
    intros E Ng L HD Nm. destruct (some_weight k a x E Ng L) as (c0 & Hc0 & Nw). set (w := chunk_weight V T emb generator k a c0 x) in *.
    set (g := fun c e : nat => if ((c =? c0) && (e =? 0))%nat then v * / (w * monomial 0%nat) else 0).
    exists (map (fun c => map (g c) (seq 0 D)) (seq 0 (2 ^ a))).
    split; [now rewrite map_length, seq_length|]. split; [apply Forall_forall; intros l I; apply in_map_iff in I as (c & <- & _); now rewrite map_length, seq_length|].
    assert (forall c, (c < 2 ^ a)%nat -> from_coordinates T monomial (nth c (map (fun c => map (g c) (seq 0 D)) (seq 0 (2 ^ a))) []) =
      if (c =? c0)%nat then v * / w else 0) as F.
    { intros c Hc. rewrite (nth_map_seq (fun c => map (g c) (seq 0 D))) by exact Hc. unfold from_coordinates. rewrite map_length, seq_length.
      rewrite (sum_single (fun e => monomial e * nth e (map (g c) (seq 0 D)) 0) 0%nat).
      - rewrite (nth_map_seq (g c)) by lia. unfold g. cbn [Nat.eqb]. rewrite andb_true_r. destruct (Nat.eqb c c0); [field; now split|ring].
      - apply seq_NoDup.
      - apply in_seq. lia.
      - intros e I Ne. apply in_seq in I. rewrite (nth_map_seq (g c)) by lia. unfold g. destruct (Nat.eqb_spec e 0); [contradiction|]. rewrite andb_false_r. ring. }
    unfold recombined. rewrite (sum_single (fun c => chunk_weight V T emb generator k a c x * from_coordinates T monomial (nth c (map (fun c => map (g c) (seq 0 D)) (seq 0 (2 ^ a))) [])) c0).
    - rewrite F by exact Hc0. rewrite Nat.eqb_refl. fold w. field. exact Nw.
    - apply seq_NoDup.
    - apply in_seq. lia.
    - intros c I Nc. apply in_seq in I. rewrite F by lia. destruct (Nat.eqb_spec c c0); [contradiction|ring].
  Qed.
  (** From an accepted proof of anything: for every AIR with as many chunks, all public values and any
      rows local and next that one likes, chosen quotient values give an accepted proof. *)
  Theorem C68_transfer : forall k a debug ar0 pv0 ar pv ch pf ch' local next, embedding V T emb -> generator <> 0 -> (1 <= D)%nat -> monomial 0%nat <> 0 ->
    p_degree_bits pf = k -> (k + a < 64)%nat -> (k + a <= two_adicity V)%nat -> length (commit_phase_commits T M Ch (list (batch_opening V M0)) (p_opening pf)) = k ->
    get_log_quotient_degree V ar0 (length pv0) = Some a -> verify debug ar0 ch pf pv0 = Ok ch' ->
    get_log_quotient_degree V ar (length pv) = Some a -> length local = air_width ar -> length next = air_width ar ->
    exists chunks, verify debug ar ch (with_values pf local next chunks) pv = Ok ch'.
  Proof.
    intros k a debug ar0 pv0 ar pv ch pf ch' local next E Ng HD Nm Ek L64 L Lc Hq0 Ev Hq Ll Ln.
    apply (C46_accepts_iff V T emb D monomial generator M0 M Ch observe config debug E Ng k a ar0 ch pf pv0 ch' Ek Hq0 L64 L) in Ev
      as (Gs & alpha & zeta & ch1 & vs0 & Tr & Pv & N & _ & _).
    destruct (values_defined V T emb monomial ar a (opened_window V T emb M0 M Ch k (with_values pf local next []) pv zeta) Ll Ln Hq) as (vs & Cv).
    destruct (any_quotient k a zeta (combined T alpha vs * / (zeta ^ (2 ^ k) - 1)) E Ng L HD Nm) as (chunks & L1 & L2 & Er).
    exists chunks. apply (C46_accepts_iff V T emb D monomial generator M0 M Ch observe config debug E Ng k a ar ch (with_values pf local next chunks) pv ch' Ek Hq L64 L).
    split; [now repeat split|]. exists alpha, zeta, ch1, vs. split; [exact Tr|]. split; [|split; [exact N|split; [exact Cv|now symmetry]]].
    rewrite <- Pv. symmetry. apply C66_top_values_ignored. cbn [StarkModel.p_opening with_values]. rewrite Lc. unfold claims, with_values.
    cbn [StarkModel.p_trace StarkModel.p_quotient StarkModel.p_local StarkModel.p_next StarkModel.p_chunks].
    constructor; [|constructor; [|constructor]]; (split; [reflexivity|]); cbn [snd].
    - constructor; [|constructor]. split; [reflexivity|]. split; [reflexivity|]. intros X. exfalso. apply X. reflexivity.
    - induction (seq 0 (2 ^ a)) as [|c l IH]; cbn [map]; constructor; [|exact IH]. split; [reflexivity|]. split; [reflexivity|]. intros X. exfalso. apply X. reflexivity.
  Qed.

  (** The AIR whose only constraint is 0 * x^d = 0 *)
  Fixpoint local_power (d : nat) : expr V := match d with O => Const 1 | S d => Mul (Local 0) (local_power d) end.
  Definition trivial_air (a : nat) : air V := {| air_width := 1; air_eval := [AssertZero (Mul (Const 0) (local_power (2 ^ a + 1)))] |}.
  Lemma local_power_symbolic d np : exists s, symbolic_of V 1 np (local_power d) = Some s /\ degree_multiple V s = d.
  Proof.
    induction d as [|d (s & Es & Ed)]; cbn [local_power symbolic_of]; [eexists; split; reflexivity|]. rewrite Es. cbn [Nat.ltb Nat.leb opt2].
    eexists. split; [reflexivity|]. unfold s_mul. cbn [degree_multiple var_degree_multiple]. now rewrite Ed.
  Qed.
  Lemma trivial_degree a np : get_max_constraint_degree V (trivial_air a) np = Some (2 ^ a + 1)%nat.
  Proof.
    unfold get_max_constraint_degree, get_symbolic_constraints, trivial_air. cbn [air_eval air_width traverse as_zero].
    destruct (local_power_symbolic (2 ^ a + 1) np) as (s & Es & Ed). cbn [symbolic_of]. rewrite Es. cbn [opt2 option_map fold_right]. unfold s_mul. cbn [degree_multiple]. rewrite Ed. f_equal. lia.
  Qed.
  Lemma trivial_log a np : get_log_quotient_degree V (trivial_air a) np = Some a.
  Proof.
    unfold get_log_quotient_degree. rewrite trivial_degree. cbn [option_map]. f_equal. pose proof (Nat.pow_nonzero 2 a ltac:(lia)).
    replace (Nat.max (2 ^ a + 1) 2 - 1)%nat with (2 ^ a)%nat by lia. unfold log2_ceil. apply Nat.log2_up_pow2. lia.
  Qed.
  Lemma trivial_simple a np : simple_selectors (trivial_air a) np.
  Proof.
    split.
    - constructor; [|constructor]. cbn [as_zero selector_degree]. assert (forall d, selector_degree V (local_power d) = Some (0, 0, 0)%nat) as G.
      { induction d as [|d IH]; cbn [local_power selector_degree]; [reflexivity|]. now rewrite IH. }
      rewrite G. eauto.
    - intros d _. constructor; [|constructor]. cbn [as_zero transitions]. assert (forall d, transitions V (local_power d) = 0%nat) as G.
      { induction d0 as [|d0 IH]; cbn [local_power transitions]; [reflexivity|]. rewrite IH. reflexivity. }
      rewrite G. lia.
  Qed.
  Lemma trivial_trace k a pv : trace_for k a (trivial_air a) {| width := 1; values := repeat 0 (2 ^ k) |} pv.
  Proof.
    split; [split; [cbn; lia|cbn [width values]; rewrite repeat_length; lia]|]. split; [reflexivity|]. split; [apply trivial_log|].
    apply C47_rows. intros i Hi. unfold height in *. cbn [width values] in *. rewrite repeat_length, Nat.div_1_r in *.
    assert (forall j, (j < 2 ^ k)%nat -> exists x, row V {| width := 1; values := repeat 0 (2 ^ k) |} j = Some [x]) as R.
    { intros j Hj. unfold row. cbn [width values]. rewrite repeat_length. destruct (Nat.leb_spec ((j + 1) * 1) (2 ^ k)); [|lia].
      assert (length (skipn (j * 1) (repeat (0 : V) (2 ^ k))) = (2 ^ k - j * 1)%nat) as Ls by (rewrite skipn_length, repeat_length; lia).
      destruct (skipn (j * 1) (repeat (0 : V) (2 ^ k))) as [|x l]; [cbn in Ls; lia|]. exists x. reflexivity. }
    destruct (R i Hi) as (x & Ex). destruct (R ((i + 1) mod 2 ^ k)%nat) as (y & Ey); [apply Nat.mod_upper_bound; lia|].
    exists [x], [y]. split; [exact Ex|]. split; [exact Ey|]. constructor; [|constructor]. cbn [as_zero eval].
    assert (forall d w, w_local w = [x] -> exists v, eval (fun c : V => c) w (local_power d) = Some v) as G.
    { intros d w Hw. induction d as [|d (v & IH)]; cbn [local_power eval]; [eauto|]. rewrite Hw, IH. cbn. eauto. }
    match goal with |- opt2 _ _ (eval _ ?w _) = _ => destruct (G (2 ^ a + 1)%nat w eq_refl) as (v & ->) end. cbn [opt2]. f_equal. ring.
  Qed.
  (** For every AIR and all public values, whether or not a trace exists, there is an accepted proof, with any
      opened rows one likes: commit to a zero column, and make up the values of the quotient. *)
  Theorem C68_forgery : forall k a debug ar pv local next (st0 : m_state M0) (st : m_state M) ch d ok, stark_setting k a -> monomial 0%nat <> 0 ->
    get_log_quotient_degree V ar (length pv) = Some a -> length local = air_width ar -> length next = air_width ar ->
    never_stuck ok -> ok ch -> sync ch d ->
    exists tc qc alpha zeta ch1, transcript ch tc qc alpha zeta ch1 /\
      (good_zeta V T emb generator config k zeta ->
       exists pf d', p_trace pf = tc /\ p_quotient pf = qc /\ p_local pf = local /\ p_next pf = next /\ p_degree_bits pf = k /\ verify debug ar d pf pv = Ok d').
  Proof.
    intros k a debug ar pv local next st0 st ch d ok S Nm Hq Ll Ln Ns O Sy.
    destruct (C67_runs k a debug (trivial_air a) _ pv st0 st ch ok S (trivial_simple a _) (trivial_trace k a pv) Ns O) as (tc & qc & alpha & zeta & ch1 & Tr & Run).
    exists tc, qc, alpha, zeta, ch1. split; [exact Tr|]. intros G. destruct (Run G) as (pf & ch' & <- & <- & P).
    pose proof S as (PS & HD & B & Hg & Lk & La & Ho). pose proof (trivial_simple a (length pv)) as (S1 & S2). pose proof (trivial_trace k a pv) as (T1 & T2 & T3 & T4).
    destruct (honest_accepted V T emb D as_base_slice monomial generator M0 M Ch observe config lde interp sync k a PS HD (fun t => proj1 (B t)) (basis_sum B) Hg Lk La
      (trivial_air a) _ pv T1 T2 T3 T4 S1 S2 Ho debug st0 st ch d pf ch' Sy P) as (d' & Ev & _ & Ek & El).
    { intros alpha' zeta' c' Tr'. destruct (transcript_det V T M0 M Ch observe _ _ _ _ _ _ _ _ _ Tr Tr') as (_ & <- & _). exact G. }
    pose proof PS as (Em & Ng & _ & _ & Ls & L32 & _).
    destruct (C68_transfer k a debug (trivial_air a) pv ar pv d pf d' local next Em Ng HD Nm Ek ltac:(lia) ltac:(lia) ltac:(lia) (trivial_log a _) Ev Hq Ll Ln) as (chunks & Ec).
    exists (with_values pf local next chunks), d'. repeat split; [exact Ek|exact Ec].
  Qed.
End Run.

(** ** The instances of the repository *)
(** BinomialExtensionField<BabyBear, 4>: as_base_slice and monomial *)
Definition ext_slice (t : ExtT) : list BabyBearT := let '((c0, c2), (c1, c3)) := t in [c0; c1; c2; c3].
Definition ext_monomial (e : nat) : ExtT :=
  match e with 0 => ext f1 f0 f0 f0 | 1 => ext f0 f1 f0 f0 | 2 => ext f0 f0 f1 f0 | 3 => ext f0 f0 f0 f1 | _ => f0 end.
Add Field BBF13 : (fth BabyBear).
Add Field BBF14 : bb_field.
Add Field BBF15 : (fth BabyBearT).
Lemma ext_basis (t : ExtT) : length (ext_slice t) = 4 /\ from_coordinates ExtT ext_monomial (map from_base (ext_slice t)) = t.
Proof.
  destruct t as [[c0 c2] [c1 c3]]. split; [reflexivity|]. unfold from_coordinates. cbn [ext_slice map length seq nth sum ext_monomial].
  unfold from_base, ext. cbn. unfold q_add, q_mul. cbn. unfold q_add, q_mul. cbn. repeat f_equal; ring.
Qed.
Fixpoint squarings {K : field} (j : nat) (x : K) : K := match j with O => x | S j => squarings j (fmul x x) end.
Lemma squarings_ok (K : field) j : forall x : K, squarings j x = fpow x (2 ^ j).
Proof.
  induction j as [|j IH]; intros x; cbn [squarings]; [change (2 ^ 0) with 1; symmetry; apply fpow_1_r|]. rewrite IH, <- fpow_2, <- fpow_mul. f_equal.
Qed.
(** 31, the generator of the multiplicative group of BabyBear *)
Definition bb_generator : BabyBearT := of_Z 31.
Lemma generator_order j : j <= 27 -> fpow bb_generator (2 ^ j) <> f1.
Proof.
  intros L Ej. assert (fpow bb_generator (2 ^ 27) = f1) as E27.
  { replace 27 with (j + (27 - j)) by lia. now rewrite Nat.pow_add_r, fpow_mul, Ej, fpow_1_l. }
  rewrite <- squarings_ok in E27. apply feqb_ok in E27. vm_compute in E27. discriminate.
Qed.
(** C67 for BabyBear, its extension, the tap trees and the challenger of the repository; any implementation
    of the two interpolations will do. *)
Theorem C67_concrete : forall (H : bytes -> bytes) bc0 as_u32_vec0 u32_size0 new_bc0 lock0 bc_witness0 leaf_hash branch_hash opens0 words_of0
    bc as_u32_vec u32_size new_bc lock bc_witness opens words_of WIDTH perm deg words elem config coset_lde_batch interpolate_coset k a,
  setting H BabyBear bc0 as_u32_vec0 u32_size0 new_bc0 lock0 bc_witness0 opens0 words_of0 feqb ->
  setting H BB4 bc as_u32_vec u32_size new_bc lock bc_witness opens words_of feqb ->
  lde_contract BabyBearT coset_lde_batch -> interp_contract BabyBearT ExtT from_base interpolate_coset ->
  1 <= k -> k + log_blowup config <= 27 -> 1 <= log_blowup config -> a <= log_blowup config -> 0 < num_queries config ->
  let M0 : mmcs BabyBearT := taptree_mmcs H BabyBear bc0 as_u32_vec0 u32_size0 new_bc0 lock0 bc_witness0 leaf_hash branch_hash feqb (num_queries config) in
  let M : mmcs ExtT := taptree_mmcs H BB4 bc as_u32_vec u32_size new_bc lock bc_witness leaf_hash branch_hash feqb (num_queries config) in
  let Ch : challenger (m_comm M) ExtT := bf_challenger WIDTH perm deg (list hash) BB4 words elem in
  let observe : c_state Ch -> m_comm M0 -> option (c_state Ch) := c_observe Ch in
  forall debug ar trace pv st0 st ch d pf ch', simple_selectors BabyBearT ar (length pv) -> trace_for BabyBearT k a ar trace pv -> in_sync ch d ->
    prove BabyBearT ExtT from_base 4 ext_slice bb_generator M0 M Ch observe config coset_lde_batch interpolate_coset debug ar st0 st ch trace pv pf ch' ->
    (forall alpha zeta ch1, transcript BabyBearT ExtT M0 M Ch observe ch (p_trace _ _ _ _ _ pf) (p_quotient _ _ _ _ _ pf) alpha zeta ch1 ->
      good_zeta BabyBearT ExtT from_base bb_generator config k zeta) ->
    exists d', verify BabyBearT ExtT from_base 4 ext_monomial bb_generator M0 M Ch observe config debug ar d pf pv = Ok d' /\ in_sync ch' d'.
Proof.
  intros H bc0 as_u32_vec0 u32_size0 new_bc0 lock0 bc_witness0 leaf_hash branch_hash opens0 words_of0
    bc as_u32_vec u32_size new_bc lock bc_witness opens words_of WIDTH perm deg words elem config coset_lde_batch interpolate_coset k a
    S0 S1 Lc Ic Lk Lg Lb La Nq M0 M Ch observe debug ar trace pv st0 st ch d pf ch' Si Tr Sy P G.
  assert (pcs_setting BabyBearT ExtT from_base bb_generator M0 M Ch config coset_lde_batch interpolate_coset in_sync (k + log_blowup config)) as Ps.
  { unfold pcs_setting. split; [exact bb_embedding|]. split; [intros X; apply feqb_ok in X; vm_compute in X; discriminate|]. split; [exact Lc|]. split; [exact Ic|].
    split; [exact Lg|]. split; [lia|]. split; [exact Lb|].
    split; [eapply taptree_contract; [exact Nq|exact S0|cbn; lia]|]. split; [eapply taptree_contract; [exact Nq|exact S1|cbn; lia]|]. apply bf_contract. }
  eapply (C67_accepted BabyBearT ExtT from_base 4 ext_slice ext_monomial bb_generator M0 M Ch observe config coset_lde_batch interpolate_coset in_sync k a); try eassumption.
  split; [exact Ps|]. split; [lia|]. split; [exact ext_basis|]. split; [apply generator_order; lia|]. split; [exact Lk|]. split; [exact La|].
  apply cc_observe, bf_contract.
Qed.

(** ** Findings about AIRs *)
Notation bbz n := (of_Z n : BabyBearT).
Lemma bb_poly_at (Q : list BabyBearT) (x c : BabyBearT) o : feqb (fpow x 2) f1 = false ->
  (fpow x 2 <> f1 -> o = Some (fmul (fsub (fpow x 2) f1) (peval Q x))) ->
  match o with Some v => feqb (fmul (fsub (fpow x 2) f1) c) v | None => false end = true -> peval Q x = c.
Proof.
  intros N H Ec. apply feqb_neq in N. rewrite (H N) in Ec. apply feqb_ok in Ec.
  apply (fmul_cancel_l BabyBear (fsub (fpow x 2) f1)); [|exact (eq_sym Ec)]. apply fsub_nz. exact N.
Qed.
(** The degree of is_transition is counted as 0.  With two of them in front of a degree 2 constraint, there is
    a trace that passes the row by row check and for which get_log_quotient_degree asks for too few chunks. *)
Theorem C40_nested_transitions_refuted : exists (ar : air BabyBearT) trace ps,
  has_rows trace 1 /\ width _ trace = air_width ar /\ check_constraints BabyBearT ar trace [] = true /\
  get_log_quotient_degree BabyBearT ar 0 = Some 0 /\
  Forall (fun p => length p <= 2) ps /\ tabulates trace 2 (fun i => fpow (gen 1) i) ps /\
  ~ exists Q, length Q <= 2 ^ 0 * 2 /\ forall x, fpow x 2 <> f1 ->
    fold_constraints exE (fun y => y) f1 (window_at BabyBearT BabyBearT exE 1 ps [] x) f0 (air_eval ar) = Some (fmul (fsub (fpow x 2) f1) (peval Q x)).
Proof.
  exists {| air_width := 1; air_eval := [AssertZero (Mul IsTransition (Mul IsTransition (Sub (Mul (Local 0) (Local 0)) (Next 0))))] |},
    {| width := 1; values := ints [2; 4]%Z |}, [[bbz 3; bbz (-1)]].
  split; [split; [cbn; lia|reflexivity]|]. split; [reflexivity|]. split; [vm_compute; reflexivity|]. split; [reflexivity|].
  split; [repeat constructor|]. split; [split; [reflexivity|]; apply ints_eq; vm_compute; reflexivity|].
  intros (Q & L & HQ). change (2 ^ 0 * 2) with 2 in L.
  set (two := fadd f1 f1 : BabyBearT). set (six := fadd two (fadd two two)).
  (* the quotient is (X + 1) (X - 6) *)
  assert (peval Q f0 = bbz (-6)) as E0 by (refine (bb_poly_at Q f0 _ _ _ (HQ f0) _); vm_compute; reflexivity).
  assert (peval Q two = bbz (-12)) as E2 by (refine (bb_poly_at Q two _ _ _ (HQ two) _); vm_compute; reflexivity).
  assert (peval Q six = bbz 0) as E6 by (refine (bb_poly_at Q six _ _ _ (HQ six) _); vm_compute; reflexivity).
  assert (fadd (fmul two (peval Q six)) (fmul (fadd two two) (peval Q f0)) = fmul six (peval Q two)) as X.
  { unfold six, two. destruct Q as [|q0 [|q1 [|q2 Q]]]; cbn [length] in L; try lia; cbn [peval]; ring. }
  rewrite E0, E2, E6 in X. apply (f_equal as_canonical) in X. vm_compute in X. discriminate.
Qed.
(** The row by row check uses 0 and 1 for the selectors, the polynomials other values: a constraint may hold on
    every row although the quotient does not exist. *)
Theorem C47_boolean_selectors_refuted : exists (ar : air BabyBearT) trace ps,
  has_rows trace 1 /\ width _ trace = air_width ar /\ check_constraints BabyBearT ar trace [] = true /\
  get_log_quotient_degree BabyBearT ar 0 = Some 0 /\
  Forall (fun p => length p <= 2) ps /\ tabulates trace 2 (fun i => fpow (gen 1) i) ps /\
  ~ exists Q, length Q <= 2 ^ 0 * 2 /\ forall x, fpow x 2 <> f1 ->
    fold_constraints exE (fun y => y) f1 (window_at BabyBearT BabyBearT exE 1 ps [] x) f0 (air_eval ar) = Some (fmul (fsub (fpow x 2) f1) (peval Q x)).
Proof.
  exists {| air_width := 1; air_eval := [AssertEq (Mul IsFirstRow IsFirstRow) IsFirstRow] |},
    {| width := 1; values := ints [2; 4]%Z |}, [[bbz 3; bbz (-1)]].
  split; [split; [cbn; lia|reflexivity]|]. split; [reflexivity|]. split; [vm_compute; reflexivity|]. split; [reflexivity|].
  split; [repeat constructor|]. split; [split; [reflexivity|]; apply ints_eq; vm_compute; reflexivity|].
  intros (Q & L & HQ). change (2 ^ 0 * 2) with 2 in L.
  set (two := fadd f1 f1 : BabyBearT). set (six := fadd two (fadd two two)).
  (* X = (X - 1) Q *)
  assert (peval Q f0 = bbz 0) as E0 by (refine (bb_poly_at Q f0 _ _ _ (HQ f0) _); vm_compute; reflexivity).
  assert (peval Q two = bbz 2) as E2 by (refine (bb_poly_at Q two _ _ _ (HQ two) _); vm_compute; reflexivity).
  assert (peval Q six = fmul six (finv (bbz 5))) as E6 by (refine (bb_poly_at Q six _ _ _ (HQ six) _); vm_compute; reflexivity).
  assert (fadd (fmul two (peval Q six)) (fmul (fadd two two) (peval Q f0)) = fmul six (peval Q two)) as X.
  { unfold six, two. destruct Q as [|q0 [|q1 [|q2 Q]]]; cbn [length] in L; try lia; cbn [peval]; ring. }
  rewrite E0, E2, E6 in X. apply (f_equal as_canonical) in X. vm_compute in X. discriminate.
Qed.

(** ** Examples *)
(** Fibonacci: first row (p0, p1), next row (b, a + b), the last row ends in p2. *)
Definition fib : air BabyBearT :=
  {| air_width := 2;
     air_eval := [AssertZero (Mul IsFirstRow (Sub (Local 0) (Pub 0))); AssertZero (Mul IsFirstRow (Sub (Local 1) (Pub 1)));
                  AssertZero (Mul IsTransition (Sub (Next 0) (Local 1))); AssertZero (Mul IsTransition (Sub (Next 1) (Add (Local 0) (Local 1))));
                  AssertZero (Mul IsLastRow (Sub (Local 1) (Pub 2)))] |}.
Definition fib_trace : matrix BabyBearT := {| width := 2; values := ints [0; 1; 1; 1; 1; 2; 2; 3]%Z |}.
Definition fib_pv : list BabyBearT := ints [0; 1; 3]%Z.
Lemma fib_simple : simple_selectors BabyBearT fib 3.
Proof.
  split; [repeat (constructor; [eexists; vm_compute; reflexivity|]); constructor|]. intros d Ed. vm_compute in Ed. injection Ed as <-.
  repeat (constructor; [apply Nat.ltb_lt; vm_compute; reflexivity|]). constructor.
Qed.
Lemma fib_ok : trace_for BabyBearT 2 0 fib fib_trace fib_pv.
Proof. split; [split; [cbn; lia|reflexivity]|]. split; [reflexivity|]. split; vm_compute; reflexivity. Qed.
Definition exS (t : BabyBearT) : list BabyBearT := [t].
Definition exMono (e : nat) : BabyBearT := f1.
Definition exObs : c_state exC -> m_comm exM -> option (c_state exC) := c_observe exC.
Lemma ex_stark : stark_setting BabyBearT BabyBearT exE 1 exS exMono exG exM exM exC exObs cfg2 ex_lde ex_interp eq 2 0.
Proof.
  split; [exact ex_setting|]. split; [lia|]. split; [|split; [|split; [lia|split; [cbn; lia|]]]].
  - intros t. split; [reflexivity|]. unfold from_coordinates, exMono, exS, exE. cbn [map length seq nth sum]. ring.
  - intros X. apply feqb_ok in X. vm_compute in X. discriminate.
  - intros c d x c' -> E. eauto.
Qed.
Lemma ex_never_stuck : never_stuck BabyBearT BabyBearT exM exM exC exObs cfg2 (fun _ => True).
Proof. repeat split; cbn; eauto. Qed.
(** zeta for the counting challenger starting at 0 *)
Lemma ex_zeta : good_zeta BabyBearT BabyBearT exE exG cfg2 2 (bbz 8).
Proof.
  split; [intros X; apply feqb_ok in X; vm_compute in X; discriminate|]. split; apply ex_outside; vm_compute; reflexivity.
Qed.
Lemma ex_transcript tc qc alpha zeta ch1 : transcript BabyBearT BabyBearT exM exM exC exObs 0 tc qc alpha zeta ch1 -> zeta = bbz 8.
Proof. intros (c1 & c2 & c3 & E1 & E2 & E3 & E4). cbn in *. injection E1 as <-. injection E2 as _ <-. injection E3 as <-. injection E4 as <- _. apply bb_eq. vm_compute. reflexivity. Qed.

Example C40_example : exists Q, length Q <= 4 /\ forall x, fpow x 4 <> f1 ->
  fold_constraints exE (fun y => y) (bbz 7) (window_at BabyBearT BabyBearT exE 2 (column_polys BabyBearT fib_trace 2 f1) fib_pv x) f0 (air_eval fib) =
  Some (fmul (fsub (fpow x 4) f1) (peval Q x)).
Proof.
  destruct fib_ok as (T1 & T2 & T3 & T4). destruct fib_simple as (S1 & S2).
  apply (C40_enough_chunks BabyBearT BabyBearT exE ex_embedding 2 0 2 fib fib_trace fib_pv (column_polys BabyBearT fib_trace 2 f1) (bbz 7)).
  - cbn; lia.
  - exact T1.
  - exact T2.
  - vm_compute; reflexivity.
  - exact T3.
  - exact T4.
  - exact S1.
  - apply S2. vm_compute. reflexivity.
  - apply Forall_forall. intros p I.
    change (In p [nth 0 (column_polys BabyBearT fib_trace 2 f1) []; nth 1 (column_polys BabyBearT fib_trace 2 f1) []]) in I.
    destruct I as [<-|[<-|[]]]; apply Nat.leb_le; vm_compute; reflexivity.
  - split; [reflexivity|]. apply ints_eq. vm_compute. reflexivity.
Qed.
Example C41_example : as_canonical (combined BabyBearT (bbz 10) (ints [1; 2; 3]%Z)) = 123%Z /\
  forall alpha, In alpha [bbz 1; bbz 2] -> combined BabyBearT alpha (ints [1; -3; 2]%Z) = f0.
Proof. split; [vm_compute; reflexivity|]. intros alpha [<-|[<-|[]]]; apply bb_eq; vm_compute; reflexivity. Qed.
Example C42_example : exists z, zerofier_new BabyBearT 2 1 (bbz 31) = Some z.
Proof.
  apply C42_new; [cbn; lia|]. intros i X. assert (fpow (fpow (fmul (bbz 31) (fpow (gen 3) i)) 4) 2 = f1) as Y by (apply (f_equal (fun t => fpow t 2)) in X; rewrite fpow_1_l in X; exact X).
  assert (fpow (fpow (gen 3 : BabyBearT) i) 8 = f1) as G.
  { rewrite <- fpow_mul, Nat.mul_comm, fpow_mul. change 8 with (2 ^ 3). rewrite gen_order by (cbn; lia). apply fpow_1_l. }
  rewrite <- fpow_mul in Y. change (4 * 2) with 8 in Y. rewrite fpow_mul_l, G in Y.
  apply (f_equal as_canonical) in Y. vm_compute in Y. discriminate.
Qed.
(** 1 + 2X + 3X^2 + 4X^3 in two chunks of two coefficients. *)
Example C43_example : exists domains pss zs, split_domains BabyBearT {| log_n := 1 + 1; shift := exG |} (2 ^ 1) = Some domains /\
  map (map (@length BabyBearT)) pss = [[2]; [2]] /\ zps BabyBearT BabyBearT exE exZ domains = Some zs /\
  quotient_at BabyBearT exMono zs (map (map (fun p => peval (map exE p) exZ)) pss) = Some (peval (ints [1; 2; 3; 4]%Z) exZ).
Proof.
  set (s2 := fun c => fpow (fmul exG (fpow (gen 2) c)) 2 : BabyBearT).
  set (pss := map (fun c => [[fadd f1 (fmul (bbz 3) (s2 c)); fadd (bbz 2) (fmul (bbz 4) (s2 c))]]) [0; 1]).
  destruct (split_domains BabyBearT {| log_n := 1 + 1; shift := exG |} (2 ^ 1)) as [domains|] eqn:Ed; [|discriminate].
  destruct (C43_recombination BabyBearT BabyBearT exE exMono 1 1 exG domains pss (ints [1; 2; 3; 4]%Z) exZ) as (zs & Ez & Eq).
  - exact ex_embedding.
  - cbn; lia.
  - intros X. apply feqb_ok in X. vm_compute in X. discriminate.
  - exact Ed.
  - reflexivity.
  - cbn in Ed. injection Ed as <-. reflexivity.
  - cbn in Ed. injection Ed as <-. unfold pss. cbn [map].
    constructor; [|constructor; [|constructor]]; (split; [repeat constructor|]); intros j Hj; change (2 ^ 1) with 2 in Hj; (destruct j as [|[|j]]; [| |lia]); apply bb_eq; vm_compute; reflexivity.
  - exists domains, pss, zs. auto.
Qed.
(** Two vectors of public values, for any proof with 4 rows. *)
Example C45_example : forall (pf : proof BabyBearT BabyBearT exM exM exC), p_degree_bits _ _ _ _ _ pf = 2 ->
  let v pv := verify BabyBearT BabyBearT exE 1 exMono exG exM exM exC exObs cfg2 true fib 0 pf pv in
  v fib_pv = v (ints [0; 1; 100]%Z) \/ exists ch', v fib_pv = Ok ch' \/ v (ints [0; 1; 100]%Z) = Ok ch'.
Proof.
  intros pf Ek v. destruct (C45_public_values BabyBearT BabyBearT exE 1 exMono exG exM exM exC exObs cfg2 true ex_embedding (proj1 (proj2 ex_setting)) 2 0 fib 0 pf fib_pv (ints [0; 1; 100]%Z) Ek)
    as [X|(alpha & zeta & ch1 & ch' & _ & _ & [[X _]|[X _]])]; [vm_compute; reflexivity|vm_compute; reflexivity|lia|cbn; lia|now left|right; eauto|right; eauto].
Qed.
(** One opened value is missing. *)
Example C46_example : forall (tc qc : m_comm exM) opening,
  let pf : proof BabyBearT BabyBearT exM exM exC :=
    {| p_trace := tc; p_quotient := qc; p_local := ints [1; 2]%Z; p_next := ints [1]%Z; p_chunks := [ints [4]%Z]; p_opening := opening; p_degree_bits := 2 |} in
  verify BabyBearT BabyBearT exE 1 exMono exG exM exM exC exObs cfg2 true fib 0 pf fib_pv = Err (StarkInvalidProofShape _ _ _ _).
Proof.
  intros tc qc opening pf. apply (C46_wrong_shape BabyBearT BabyBearT exE 1 exMono exG exM exM exC exObs cfg2 true 2 0);
    [reflexivity|vm_compute; reflexivity|lia|cbn; lia|]. intros (_ & X & _). discriminate X.
Qed.
Example C47_example : check_constraints BabyBearT fib fib_trace fib_pv = true /\ check_constraints BabyBearT fib fib_trace (ints [0; 1; 4]%Z) = false.
Proof. split; vm_compute; reflexivity. Qed.
(** The proof of the Fibonacci statement is produced and accepted. *)
Example C67_example : exists pf ch', prove BabyBearT BabyBearT exE 1 exS exG exM exM exC exObs cfg2 ex_lde ex_interp true fib tt tt 0 fib_trace fib_pv pf ch' /\
  verify BabyBearT BabyBearT exE 1 exMono exG exM exM exC exObs cfg2 true fib 0 pf fib_pv = Ok ch'.
Proof.
  destruct (C67_runs BabyBearT BabyBearT exE 1 exS exMono exG exM exM exC exObs cfg2 ex_lde ex_interp eq 2 0 true fib fib_trace fib_pv tt tt 0 (fun _ => True)
    ex_stark fib_simple fib_ok ex_never_stuck Logic.I) as (tc & qc & alpha & zeta & ch1 & Tr & R).
  rewrite (ex_transcript _ _ _ _ _ Tr) in R. destruct (R ex_zeta) as (pf & ch' & _ & _ & P). exists pf, ch'. split; [exact P|].
  destruct (C67_accepted BabyBearT BabyBearT exE 1 exS exMono exG exM exM exC exObs cfg2 ex_lde ex_interp eq 2 0 true fib fib_trace fib_pv tt tt 0 0 pf ch'
    ex_stark fib_simple fib_ok eq_refl P) as (d' & Ev & ->); [|exact Ev].
  intros alpha' zeta' ch1' Tr'. rewrite (ex_transcript _ _ _ _ _ Tr'). exact ex_zeta.
Qed.
(** The verifier also accepts a proof that 0, 1, 1, 2, 3 ends in 100, with zero rows. *)
Example C68_example : exists pf ch', p_local _ _ _ _ _ pf = ints [0; 0]%Z /\
  verify BabyBearT BabyBearT exE 1 exMono exG exM exM exC exObs cfg2 true fib 0 pf (ints [0; 1; 100]%Z) = Ok ch'.
Proof.
  destruct (C68_forgery BabyBearT BabyBearT exE 1 exS exMono exG exM exM exC exObs cfg2 ex_lde ex_interp eq 2 0 true fib (ints [0; 1; 100]%Z) (ints [0; 0]%Z) (ints [0; 0]%Z) tt tt 0 0
    (fun _ => True) ex_stark) as (tc & qc & alpha & zeta & ch1 & Tr & R);
    [apply f1_nz|vm_compute; reflexivity|reflexivity|reflexivity|exact ex_never_stuck|exact Logic.I|reflexivity|].
  rewrite (ex_transcript _ _ _ _ _ Tr) in R. destruct (R ex_zeta) as (pf & d' & _ & _ & El & _ & _ & Ev). eauto.
Qed.
