(** Property C94: how many challenges let a trace that violates its constraints pass the out-of-domain check
    (uni-stark/src/verifier.rs 19-161, check_constraints.rs 11-38, folder.rs). *)
From Coq Require Import ZArith List Arith Bool Lia Field Sorted.
From Verif Require Import ScriptNum ScriptVM TaptreeModel TcsModel TcsProofs PropTcs ChallengerModel ChallengerProofs PropChallenger
  Field BabyBear FriModel FriProofs FriProofs2 FriInst PropFri PcsModel PolyExt PcsProofs PcsProofs2 PcsInst PropPcs
  StarkModel StarkPoly StarkProofs StarkProofs2 PropStark.
Import ListNotations.
Open Scope nat_scope.

Section C94.
  Variables V T : two_adic.
  Variable emb : V -> T.
  Variable D : nat.
  Variable monomial : nat -> T.
  Variable generator : V.
  Variable M0 : mmcs V.
  Variable M : mmcs T.
  Variable Ch : challenger (m_comm M) T.
  Variable observe : c_state Ch -> m_comm M0 -> option (c_state Ch).
  Variable config : fri_config.
  Variable debug : bool.
  Hypothesis E : embedding V T emb.
  Hypothesis Ng : generator <> f0.
  Add Field VFS : (fth V).
  Add Field TFS : (fth T).
  Notation proof := (StarkModel.proof V T M0 M Ch).
  Notation verify := (StarkModel.verify V T emb D monomial generator M0 M Ch observe config debug).
  Notation transcript := (StarkModel.transcript V T M0 M Ch observe).
  Notation p_trace := (p_trace V T M0 M Ch). Notation p_quotient := (p_quotient V T M0 M Ch).
  Notation p_local := (p_local V T M0 M Ch). Notation p_next := (p_next V T M0 M Ch). Notation p_chunks := (p_chunks V T M0 M Ch).
  Notation p_degree_bits := (p_degree_bits V T M0 M Ch).
  Notation recombined := (recombined V T emb monomial generator).
  Local Open Scope F_scope.

  (** ** Specification *)
  (** The values in the proof are the values at zeta and at the next point of the polynomials [ps] of the trace
      columns and [pss] of the quotient chunks. *)
  Definition true_openings (k : nat) (ps : list (list V)) (pss : list (list (list V))) (zeta : T) (pf : proof) : Prop :=
    p_local pf = map (fun p => peval (map emb p) zeta) ps /\
    p_next pf = map (fun p => peval (map emb p) (zeta * emb (gen k))) ps /\
    p_chunks pf = map (map (fun p => peval (map emb p) zeta)) pss.
  (** Some proof with these openings is accepted by a run that samples alpha and zeta. *)
  Definition accepted_at (k : nat) (ar : air V) (pv : list V) (ps : list (list V)) (pss : list (list (list V))) (alpha zeta : T) : Prop :=
    exists ch ch1 ch' pf, p_degree_bits pf = k /\ transcript ch (p_trace pf) (p_quotient pf) alpha zeta ch1 /\
      true_openings k ps pss zeta pf /\ verify ar ch pf pv = Ok ch'.

  (** ** Proof *)
  Lemma transcript_fun ch tc qc alpha zeta ch' alpha' zeta' ch'' : transcript ch tc qc alpha zeta ch' -> transcript ch tc qc alpha' zeta' ch'' ->
    alpha = alpha' /\ zeta = zeta'.
  Proof.
    intros (a1 & a2 & a3 & A1 & A2 & A3 & A4) (b1 & b2 & b3 & B1 & B2 & B3 & B4).
    rewrite A1 in B1. injection B1 as <-. rewrite A2 in B2. injection B2 as <- <-. rewrite A3 in B3. injection B3 as <-. rewrite A4 in B4. injection B4 as <- <-. auto.
  Qed.
  (** the recombined quotient is a polynomial *)
  Lemma recombined_poly k a (pss : list (list (list V))) : (k + a <= two_adicity V)%nat -> Forall (Forall (fun p => (length p <= 2 ^ k)%nat)) pss ->
    exists R, (length R <= 2 ^ a * 2 ^ k)%nat /\ forall x, recombined k a (map (map (fun p => peval (map emb p) x)) pss) x = peval R x.
  Proof.
    intros L F. set (n := (2 ^ k)%nat). set (m := (2 ^ a)%nat).
    assert (1 <= n)%nat as Ln by (pose proof (Nat.pow_nonzero 2 k); unfold n; lia).
    assert (1 <= m)%nat as Lm by (pose proof (Nat.pow_nonzero 2 a); unfold m; lia).
    set (P := fun c => psums (map (fun e => pscale (monomial e) (map emb (nth e (nth c pss []) []))) (seq 0 (length (nth c pss []))))).
    assert (forall c x, peval (P c) x = from_coordinates T monomial (nth c (map (map (fun p => peval (map emb p) x)) pss) [])) as EP.
    { intros c x. change [] with (map (fun p : list V => peval (map emb p) x) []) at 1. rewrite map_nth.
      unfold P, from_coordinates. rewrite peval_psums, map_map, map_length. f_equal. apply map_ext_in. intros e I. apply in_seq in I.
      rewrite peval_pscale. f_equal. set (h := fun p : list V => peval (map emb p) x).
      rewrite (nth_indep (map h (nth c pss [])) 0 (h [])) by (rewrite map_length; lia). now rewrite (map_nth h). }
    assert (forall c, (length (P c) <= n)%nat) as LP.
    { intros c. apply psums_length. apply Forall_forall. intros q I. apply in_map_iff in I as (e & <- & I). rewrite pscale_length, map_length. apply in_seq in I.
      destruct (Nat.lt_ge_cases c (length pss)) as [Lc|Lc]; [|rewrite nth_overflow in I by exact Lc; cbn in I; lia].
      rewrite Forall_forall in F. specialize (F _ (nth_In pss [] Lc)). rewrite Forall_forall in F. apply F, nth_In. lia. }
    exists (psums (map (fun c => pmul (wpoly V T emb k a generator c (seq 0 m)) (P c)) (seq 0 m))). split.
    - apply psums_length. apply Forall_forall. intros p Hp. apply in_map_iff in Hp as (i & <- & Hi). apply in_seq in Hi.
      pose proof (wpoly_length V T emb k a generator L i (seq 0 m)) as X. rewrite (filter_ne V k a L) in X by (try apply seq_NoDup; apply in_seq; lia).
      rewrite seq_length in X. pose proof (pmul_length T (wpoly V T emb k a generator i (seq 0 m)) (P i) ((m - 1) * n) (n - 1) X ltac:(specialize (LP i); lia)). nia.
    - intros x. rewrite peval_psums, map_map. unfold PropStark.recombined. f_equal. apply map_ext_in. intros c Hc. apply in_seq in Hc.
      rewrite peval_pmul, wpoly_ok, EP. f_equal. symmetry. apply (weight_eq V T emb monomial generator E Ng k a c x L). fold m. lia.
  Qed.
  Lemma forallb_false {A} (f : A -> bool) l : forallb f l = false -> exists x, In x l /\ f x = false.
  Proof.
    clear. induction l as [|x l IH]; cbn [forallb]; [discriminate|]. destruct (f x) eqn:Ef; [|exists x; cbn; auto].
    intros H. destruct (IH H) as (y & I & Ey). exists y. cbn. auto.
  Qed.
  (** a violated row gives a constraint polynomial that does not vanish there *)
  Lemma violated k (ar : air V) trace pv ps : (k <= two_adicity V)%nat -> has_rows trace k -> tabulates trace (2 ^ k) (fun i => gen k ^ i) ps ->
    check_constraints V ar trace pv = false ->
    Forall (fun c => exists d, selector_degree V (as_zero c) = Some d) (air_eval ar) -> indices_ok V ps pv (air_eval ar) ->
    exists i c, (i < 2 ^ k)%nat /\ In c (air_eval ar) /\ peval (cpoly V k ps pv (as_zero c)) (gen k ^ i) <> 0.
  Proof.
    intros Lk Hr Tb Ck Hom Ix. set (n := (2 ^ k)%nat) in *. pose proof (rect_height V _ _ Hr) as Hh. fold n in Hh.
    assert (n <> 0)%nat as Nn by (apply Nat.pow_nonzero; lia).
    unfold check_constraints in Ck. rewrite Hh in Ck. apply forallb_false in Ck as (i & Ii & Ci). apply in_seq in Ii.
    assert (forall j, (j < n)%nat -> row V trace j = Some (map (fun p => peval p (gen k ^ j)) ps)) as Rw.
    { intros j Hj. destruct (row V trace j) as [l|] eqn:El.
      - apply row_of_some in El. rewrite El. f_equal. exact (tab_row V _ _ _ _ _ Tb Hj).
      - exfalso. revert El. unfold row. destruct Hr as [_ Lv]. rewrite Lv. fold n. destruct (Nat.leb_spec ((j + 1) * width V trace) (width V trace * n)); [discriminate|nia]. }
    rewrite !Rw in Ci by (try apply Nat.mod_upper_bound; lia).
    apply forallb_false in Ci as (c & Ic & Cc). exists i, c. split; [lia|]. split; [exact Ic|].
    unfold indices_ok in Ix. rewrite Forall_forall in Hom, Ix. destruct (Hom c Ic) as (d & Ed). destruct (Ix c Ic) as (s & Es).
    rewrite (g_mod V k Lk), fpow_add, fpow_1_r in Cc.
    assert (map (fun p : list V => peval p (gen k ^ i * gen k)) ps = map (fun p => peval p (gen k * gen k ^ i)) ps) as X2.
    { apply map_ext. intros p. f_equal. ring. }
    rewrite X2 in Cc.
    set (w := row_window V k pv i (map (fun p => peval p (gen k ^ i)) ps) (map (fun p => peval p (gen k * gen k ^ i)) ps)).
    change (debug_assert V w c = false) in Cc.
    assert (exists v, eval (fun x => x) w (as_zero c) = Some v) as (v & Ev).
    { apply (eval_defined V V (fun x => x) (fun _ => 0) w (length pv)) with (s := s); cbn [w row_window w_local w_next w_public]; rewrite ?map_length; auto. }
    destruct (row_scaled V k Lk ps pv i _ d v ltac:(fold n; lia) Ed Ev) as (cc & Nc & Ep).
    rewrite (cpoly_eval V k ps pv V (fun y => y) (id_embedding V) _ s _ Es) in Ep. injection Ep as Ep. rewrite hid in Ep. rewrite Ep.
    apply fmul_nz; [exact Nc|]. intros ->. apply (debug_assert_zero V w c) in Ev. congruence.
  Qed.

  (** ** Theorem *)
  (** A trace of 2^k rows that check_constraints refuses.  Whatever quotient chunks of low degree are committed
      after alpha is known, a proof with true openings is accepted for fewer than (2^a + 1) 2^k values of zeta,
      except for fewer values of alpha than there are constraints. *)
  Theorem C94_violations_show : forall k a (ar : air V) trace pv ps alphas, (k + a < 64)%nat -> (k + a <= two_adicity V)%nat ->
    has_rows trace k -> width V trace = air_width ar -> get_log_quotient_degree V ar (length pv) = Some a ->
    simple_selectors V ar (length pv) ->
    Forall (fun p => (length p <= 2 ^ k)%nat) ps -> tabulates trace (2 ^ k) (fun i => gen k ^ i) ps ->
    check_constraints V ar trace pv = false ->
    NoDup alphas ->
    (forall alpha, In alpha alphas -> exists pss zetas, Forall (Forall (fun p => (length p <= 2 ^ k)%nat)) pss /\
       NoDup zetas /\ ((2 ^ a + 1) * 2 ^ k <= length zetas)%nat /\
       forall zeta, In zeta zetas -> accepted_at k ar pv ps pss alpha zeta) ->
    (length alphas < length (air_eval ar))%nat.
  Proof.
    intros k a ar trace pv ps alphas L64 L Hr Hw Hq (Hs & Htr) Fp Tp Ck ND A. assert (k <= two_adicity V)%nat as Lk by lia.
    assert (length ps = air_width ar) as Lp by (rewrite <- Hw; symmetry; exact (proj1 Tp)).
    destruct (get_max_constraint_degree V ar (length pv)) as [d|] eqn:Ed; [|unfold get_log_quotient_degree in Hq; rewrite Ed in Hq; discriminate].
    specialize (Htr d eq_refl).
    assert (indices_ok V ps pv (air_eval ar)) as Io.
    { unfold indices_ok. rewrite Lp. eapply Forall_impl; [|exact (symbolic_each V ar _ d Ed)]. intros c (s & Es & _). now exists s. }
    pose proof (lengths_ok V k ps pv ar d Ed Fp Htr) as FL.
    destruct (violated k ar trace pv ps Lk Hr Tp Ck Hs Io) as (i & c & Hi & Ic & Nc).
    set (n := (2 ^ k)%nat) in *. set (m := (2 ^ a)%nat) in *.
    assert (1 <= n)%nat as Ln by (pose proof (Nat.pow_nonzero 2 k); unfold n; lia).
    assert (1 <= m)%nat as Lm by (pose proof (Nat.pow_nonzero 2 a); unfold m; lia).
    assert (Nat.max 2 d * n <= (m + 1) * n)%nat as Ld.
    { pose proof (log2_up_cover d) as Lc. unfold get_log_quotient_degree in Hq. rewrite Ed in Hq. injection Hq as Ea. rewrite Ea in Lc. fold m in Lc.
      apply Nat.mul_le_mono_r. lia. }
    set (vals := map (fun c => hpeval V T emb (cpoly V k ps pv (as_zero c)) (emb (gen k ^ i))) (air_eval ar)).
    replace (length (air_eval ar)) with (length vals) by apply map_length.
    apply (C41_few_bad_alphas T vals alphas); [|exact ND|].
    - apply Exists_exists. exists (hpeval V T emb (cpoly V k ps pv (as_zero c)) (emb (gen k ^ i))). split.
      + apply in_map_iff. eauto.
      + unfold hpeval. rewrite <- (emb_peval _ _ _ E). intros Z. apply Nc. apply (emb_inj _ _ _ E). now rewrite Z, (emb_0 _ _ _ E).
    - intros alpha Ia. destruct (A alpha Ia) as (pss & zetas & Fs & NDz & Lz & Acc).
      destruct (recombined_poly k a pss L Fs) as (R & LR & ER). fold n m in LR.
      rewrite combined_horner. unfold vals. rewrite <- folded_ok.
      set (Fo := folded V T emb k ps pv alpha (air_eval ar)).
      pose proof (folded_length V T emb k Lk ps pv alpha (air_eval ar) _ FL) as LF. fold Fo in LF.
      (* folded - (X^n - 1) R *)
      set (Z := padd (xpow T n) [- (1)]). 
      assert (forall x, peval Z x = x ^ n - 1) as EZ by (intros x; unfold Z; rewrite peval_padd, xpow_ok; cbn [peval]; ring).
      assert (length Z <= n + 1)%nat as LZ by (unfold Z, xpow; rewrite padd_length, app_length, repeat_length; cbn; lia).
      assert (forall x, peval (padd Fo (pscale (- (1)) (pmul Z R))) x = 0) as Zero.
      { apply (poly_roots T zetas); [exact NDz| |].
        - rewrite padd_length, pscale_length. assert (length (pmul Z R) <= (m + 1) * n)%nat; [|lia].
          pose proof (pmul_length T Z R n (m * n - 1) LZ ltac:(nia)). nia.
        - intros zeta Iz. destruct (Acc zeta Iz) as (ch & ch1 & ch' & pf & Ek & Tr & (O1 & O2 & O3) & Vf).
          apply (C46_accepts_iff V T emb D monomial generator M0 M Ch observe config debug E Ng k a ar ch pf pv ch' Ek Hq L64 L) in Vf
            as (Gs & alpha' & zeta' & ch2 & vs & Tr' & _ & Nz & Cv & Eq).
          destruct (transcript_fun _ _ _ _ _ _ _ _ _ Tr Tr') as (<- & <-).
          assert (opened_window V T emb M0 M Ch k pf pv zeta = window_at V T emb k ps pv zeta) as Ew.
          { unfold opened_window, window_at. rewrite O1, O2. f_equal. apply map_ext. intros p. f_equal. ring. }
          rewrite Ew, (window_poly V T emb k ps pv zeta E Lk Nz) in Cv.
          pose proof (C41_folding V T T emb (fun y => y) alpha _ (air_eval ar) vs Cv) as Ef. rewrite (fold_at V T emb E k ps pv alpha (air_eval ar) zeta Io) in Ef.
          injection Ef as Ef. rewrite map_id in Ef. fold Fo in Ef. rewrite <- Ef, O3, ER in Eq.
          rewrite peval_padd, peval_pscale, peval_pmul, EZ, <- Eq. fold n. field. now apply fsub_nz. }
      specialize (Zero (emb (gen k ^ i))). rewrite peval_padd, peval_pscale, peval_pmul, EZ in Zero.
      rewrite <- (emb_pow _ _ _ E) in Zero. unfold n in Zero. rewrite (g_pow_n V k Lk), (emb_1 _ _ _ E) in Zero. rewrite <- Zero. ring.
  Qed.
End C94.

(** ** Examples *)
(** The Fibonacci trace 0, 1, 1, 2, 3 does not end in 4.  At most four values of alpha can hide that from eight
    values of zeta. *)
Definition bad_pv : list BabyBearT := ints [0; 1; 4]%Z.
Definition fib_polys : list (list BabyBearT) := column_polys BabyBearT fib_trace 2 f1.
Notation ex_accepted := (accepted_at BabyBearT BabyBearT exE 1 exMono exG exM exM exC exObs cfg2 true 2 fib bad_pv fib_polys).
Lemma exG_nz : exG <> f0.
Proof. intros X. apply feqb_ok in X. vm_compute in X. discriminate. Qed.
Example C94_example : forall alphas, NoDup alphas ->
  (forall alpha, In alpha alphas -> exists pss zetas, Forall (Forall (fun p => length p <= 4)) pss /\ NoDup zetas /\ 8 <= length zetas /\
     forall zeta, In zeta zetas -> ex_accepted pss alpha zeta) -> length alphas < 5.
Proof.
  intros alphas ND A. destruct fib_ok as (T1 & T2 & T3 & _).
  refine (C94_violations_show BabyBearT BabyBearT exE 1 exMono exG exM exM exC exObs cfg2 true ex_embedding exG_nz 2 0 fib fib_trace bad_pv fib_polys alphas
    ltac:(lia) ltac:(cbn; lia) T1 T2 T3 fib_simple _ _ _ ND A).
  - repeat (constructor; [cbn; lia|]). constructor.
  - split; [reflexivity|]. apply ints_eq. vm_compute. reflexivity.
  - vm_compute. reflexivity.
Qed.
(** For single challenges a proof of it is accepted, all openings being true. *)
Example C94_example_unlucky : check_constraints BabyBearT fib fib_trace bad_pv = false /\
  exists v alpha, ex_accepted [[[v]]] alpha (of_Z 8).
Proof.
  split; [vm_compute; reflexivity|].
  set (local := map (fun p => peval (map exE p) (of_Z 8 : BabyBearT)) fib_polys).
  set (next := map (fun p => peval (map exE p) (fmul (of_Z 8 : BabyBearT) (exE (gen 2)))) fib_polys).
  destruct (C68_forgery BabyBearT BabyBearT exE 1 exS exMono exG exM exM exC exObs cfg2 ex_lde ex_interp eq 2 0 true fib bad_pv local next tt tt 0 0
    (fun _ => True) ex_stark) as (tc & qc & alpha & zeta & ch1 & Tr & R);
    [apply f1_nz|vm_compute; reflexivity|reflexivity|reflexivity|exact ex_never_stuck|exact Logic.I|reflexivity|].
  pose proof (ex_transcript _ _ _ _ _ Tr) as Ez. subst zeta. destruct (R ex_zeta) as (pf & d' & Et & Eq & El & En & Ek & Ev).
  destruct (proj1 (C46_accepts_iff BabyBearT BabyBearT exE 1 exMono exG exM exM exC exObs cfg2 true ex_embedding exG_nz 2 0 fib 0 pf bad_pv d' Ek
    ltac:(vm_compute; reflexivity) ltac:(lia) ltac:(cbn; lia)) Ev) as ((_ & _ & Lc & Fc) & _).
  destruct (p_chunks _ _ _ _ _ pf) as [|c [|? ?]] eqn:Ec; try discriminate Lc. inversion_clear Fc as [|? ? L1 _].
  destruct c as [|v [|? ?]]; try discriminate L1.
  exists v, alpha, 0, ch1, d', pf. split; [exact Ek|]. split; [now rewrite Et, Eq|]. split; [|exact Ev].
  split; [exact El|]. split; [exact En|]. rewrite Ec. cbn [map peval]. do 2 f_equal. unfold exE. ring.
Qed.

(** ** C40, sharpened: the degree estimate is exact as a count of factors *)
Section C40c.
  Variable V : two_adic.
  (** Multiplied out, the expression has a product of n trace cells and row selectors among its terms. *)
  Inductive product_of : expr V -> nat -> Prop :=
  | PLocal i : product_of (Local i) 1
  | PNext i : product_of (Next i) 1
  | PPub i : product_of (Pub i) 0
  | PFirst : product_of (IsFirstRow) 1
  | PLast : product_of (IsLastRow) 1
  | PTransition : product_of (IsTransition) 0
  | PConst c : product_of (Const c) 0
  | PAddL x y n : product_of x n -> product_of (Add x y) n
  | PAddR x y n : product_of y n -> product_of (Add x y) n
  | PSubL x y n : product_of x n -> product_of (Sub x y) n
  | PSubR x y n : product_of y n -> product_of (Sub x y) n
  | PNeg x n : product_of x n -> product_of (Neg x) n
  | PMul x y n m : product_of x n -> product_of y m -> product_of (Mul x y) (n + m).
  (** the cells and public values an expression names exist *)
  Inductive names_exist (w np : nat) : expr V -> Prop :=
  | NLocal i : i < w -> names_exist w np (Local i)
  | NNext i : i < w -> names_exist w np (Next i)
  | NPub i : i < np -> names_exist w np (Pub i)
  | NFirst : names_exist w np (IsFirstRow)
  | NLast : names_exist w np (IsLastRow)
  | NTransition : names_exist w np (IsTransition)
  | NConst c : names_exist w np (Const c)
  | NAdd x y : names_exist w np x -> names_exist w np y -> names_exist w np (Add x y)
  | NSub x y : names_exist w np x -> names_exist w np y -> names_exist w np (Sub x y)
  | NNeg x : names_exist w np x -> names_exist w np (Neg x)
  | NMul x y : names_exist w np x -> names_exist w np y -> names_exist w np (Mul x y).

  Lemma count_ok w np : forall e, names_exist w np e -> exists s, symbolic_of V w np e = Some s /\
    product_of e (degree_multiple V s) /\ forall n, product_of e n -> n <= degree_multiple V s.
  Proof.
    induction 1 as [i L|i L|i L| | | |c|x y _ (sx & Ex & Px & Mx) _ (sy & Ey & Py & My)|x y _ (sx & Ex & Px & Mx) _ (sy & Ey & Py & My)|x _ (sx & Ex & Px & Mx)|x y _ (sx & Ex & Px & Mx) _ (sy & Ey & Py & My)];
      cbn [symbolic_of]; try (apply Nat.ltb_lt in L; rewrite L).
    1-7: eexists; (split; [reflexivity|]); cbn; split; [constructor|intros n P; inversion P; lia].
    - rewrite Ex, Ey. eexists. split; [reflexivity|]. cbn. split; [|intros n P; inversion_clear P as [| | | | | | |? ? ? Q|? ? ? Q| | | |]; [specialize (Mx _ Q)|specialize (My _ Q)]; lia].
      destruct (Nat.max_spec (degree_multiple V sx) (degree_multiple V sy)) as [[_ ->]|[_ ->]]; [now apply PAddR|now apply PAddL].
    - rewrite Ex, Ey. eexists. split; [reflexivity|]. cbn. split; [|intros n P; inversion_clear P as [| | | | | | | | |? ? ? Q|? ? ? Q| |]; [specialize (Mx _ Q)|specialize (My _ Q)]; lia].
      destruct (Nat.max_spec (degree_multiple V sx) (degree_multiple V sy)) as [[_ ->]|[_ ->]]; [now apply PSubR|now apply PSubL].
    - rewrite Ex. eexists. split; [reflexivity|]. cbn. split; [now constructor|]. intros n P. inversion_clear P. auto.
    - rewrite Ex, Ey. eexists. split; [reflexivity|]. cbn. split; [now constructor|]. intros n P. inversion_clear P as [| | | | | | | | | | | |? ? n1 n2 Q1 Q2]. specialize (Mx _ Q1). specialize (My _ Q2). lia.
  Qed.
  (** The largest degree is defined when all names exist; it is the largest number of factors in a product of
      a constraint, and the quotient degree is the smallest power of two that is at least that minus one (and
      at least one). *)
  Theorem C40_count : forall (a : air V) np, Forall (fun c => names_exist (air_width a) np (as_zero c)) (air_eval a) ->
    exists d lqd, get_max_constraint_degree V a np = Some d /\ get_log_quotient_degree V a np = Some lqd /\
      (forall c n, In c (air_eval a) -> product_of (as_zero c) n -> n <= d) /\
      (d = 0 \/ exists c, In c (air_eval a) /\ product_of (as_zero c) d) /\
      (d <= 2 ^ lqd + 1 /\ forall a', d <= 2 ^ a' + 1 -> lqd <= a').
  Proof.
    intros a np F. unfold get_log_quotient_degree, get_max_constraint_degree, get_symbolic_constraints.
    assert (exists l, traverse (fun c => symbolic_of V (air_width a) np (as_zero c)) (air_eval a) = Some l /\
      (forall c n, In c (air_eval a) -> product_of (as_zero c) n -> n <= fold_right (fun s m => Nat.max (degree_multiple V s) m) 0 l) /\
      (fold_right (fun s m => Nat.max (degree_multiple V s) m) 0 l = 0 \/
       exists c, In c (air_eval a) /\ product_of (as_zero c) (fold_right (fun s m => Nat.max (degree_multiple V s) m) 0 l))) as (l & El & M & A).
    { induction F as [|c cs Fc F (l & El & M & A)]; [exists []; cbn; split; [reflexivity|]; split; [contradiction|now left]|].
      destruct (count_ok _ _ _ Fc) as (s & Es & Ps & Ms). exists (s :: l). cbn [traverse]. rewrite Es, El. split; [reflexivity|]. cbn [fold_right]. split.
      - intros c' n [<-|Ic] P; [specialize (Ms _ P)|specialize (M c' n Ic P)]; lia.
      - set (m := fold_right _ 0 l) in *. destruct (Nat.max_spec (degree_multiple V s) m) as [[_ ->]|[_ ->]].
        + destruct A as [->|(c' & Ic & P)]; [now left|]. right. exists c'. split; [now right|exact P].
        + right. exists c. split; [now left|exact Ps]. }
    rewrite El. cbn [option_map]. set (d := fold_right _ 0 l) in *. exists d, (log2_ceil (Nat.max d 2 - 1)). do 2 (split; [reflexivity|]).
    split; [exact M|]. split; [exact A|]. split; [pose proof (log2_up_cover d); lia|].
    intros a' H. unfold log2_ceil. destruct (Nat.eq_dec (Nat.max d 2 - 1) 1) as [->|N]; [cbn; lia|].
    apply Nat.log2_up_le_pow2; lia.
  Qed.
End C40c.
(** A public value does not count: x * pub is of degree 1. *)
Example C40_count_example : Forall (fun c => names_exist BabyBearT (air_width fib) 3 (as_zero c)) (air_eval fib) /\
  product_of BabyBearT (Mul (Local 0) (Pub 0)) 1 /\
  get_max_constraint_degree BabyBearT {| air_width := 1; air_eval := [AssertZero (Mul (Local 0) (Pub 0))] |} 1 = Some 1.
Proof.
  split; [repeat first [apply Forall_cons | apply Forall_nil]; cbn; repeat constructor|]. split; [|reflexivity]. exact (PMul BabyBearT _ _ 1 0 (PLocal _ 0) (PPub _ 0)).
Qed.
