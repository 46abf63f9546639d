(** Properties C32, C33, C35-C38 and C62: FRI folding, prover and verifier. *)
From Coq Require Import ZArith NArith List Arith Bool Lia Field Sorted.
From Verif Require Import ScriptNum ScriptVM TaptreeModel TcsModel TcsProofs PropTcs ChallengerModel ChallengerProofs PropChallenger
  Field BabyBear FriModel FriProofs FriProofs2 FriInst.
Import ListNotations.
Open Scope nat_scope.

(** ** Specification *)

(** The value at x of the polynomial with coefficients p: sum p_i x^i. *)
Definition value {K : field} (p : list K) (x : K) : K :=
  fold_right fadd f0 (map (fun i => fmul (nth i p f0) (fpow x i)) (seq 0 (length p))).
(** The values of f on the two-adic subgroup of order 2^k, in bit-reversed order: entry i is the
    value at w^(i with its k bits reversed). *)
Definition is_bit_reversal (k : nat) (r : nat -> nat) : Prop :=
  forall i j, i < 2 ^ k -> Nat.testbit (r i) j = if j <? k then Nat.testbit i (k - 1 - j) else false.
Definition evaluations (T : two_adic) (k : nat) (f : T -> T) (v : list T) : Prop :=
  exists r, is_bit_reversal k r /\ length v = 2 ^ k /\ forall i, i < 2 ^ k -> nth i v f0 = f (fpow (gen k) (r i)).

Section Bits.
  Lemma testbit_low a b k j : b < 2 ^ k -> Nat.testbit (a * 2 ^ k + b) j = if j <? k then Nat.testbit b j else Nat.testbit a (j - k).
  Proof.
    intros L. destruct (Nat.ltb_spec j k) as [Lj|Lj].
    - assert (Nat.testbit ((a * 2 ^ k + b) mod 2 ^ k) j = Nat.testbit (a * 2 ^ k + b) j) as <- by now apply Nat.mod_pow2_bits_low.
      rewrite Nat.add_comm, Nat.mod_add by (apply Nat.pow_nonzero; lia). now rewrite Nat.mod_small.
    - replace j with (j - k + k) at 1 by lia. rewrite <- Nat.div_pow2_bits.
      rewrite Nat.add_comm, Nat.div_add by (apply Nat.pow_nonzero; lia). now rewrite Nat.div_small.
  Qed.
  Lemma testbit_small x k j : x < 2 ^ k -> k <= j -> Nat.testbit x j = false.
  Proof.
    intros L Hj. assert (x = 0 * 2 ^ k + x) as -> by lia. rewrite testbit_low by exact L.
    destruct (Nat.ltb_spec j k); [lia|]. apply Nat.bits_0.
  Qed.
  Lemma reverse_is_reversal k : is_bit_reversal k (fun i => reverse_bits_len i k).
  Proof.
    unfold is_bit_reversal. induction k as [|k IH]; intros i j L.
    - cbn [reverse_bits_len]. now rewrite Nat.bits_0.
    - cbn [reverse_bits_len]. rewrite testbit_low by apply rbl_lt. rewrite Nat.pow_succ_r' in L.
      assert (i / 2 < 2 ^ k) as L2 by (apply Nat.div_lt_upper_bound; lia).
      destruct (Nat.ltb_spec j k) as [Lj|Lj].
      + rewrite IH by exact L2. rewrite (proj2 (Nat.ltb_lt _ _) Lj), (proj2 (Nat.ltb_lt _ _)) by lia.
        replace (S k - 1 - j) with (S (k - 1 - j)) by lia. now rewrite Nat.div2_bits.
      + destruct (Nat.ltb_spec j (S k)) as [Lj'|Lj'].
        * replace j with k by lia. replace (S k - 1 - k) with 0 by lia. rewrite Nat.sub_diag.
          rewrite <- Nat.bit0_mod. now destruct (Nat.testbit i 0).
        * apply (testbit_small _ 1); [|lia]. change (2 ^ 1) with 2. apply Nat.mod_upper_bound. lia.
  Qed.
  Lemma reversal_unique k r i : is_bit_reversal k r -> i < 2 ^ k -> r i = reverse_bits_len i k.
  Proof.
    intros R L. apply Nat.bits_inj. intros j. rewrite (R i j L). symmetry. now apply reverse_is_reversal.
  Qed.
End Bits.

Section Value.
  Variable K : field.
  Add Field KF : (fth K).
  Lemma value_S l x : forall n (p : nat -> K),
    fold_right fadd f0 (map (fun i => fmul (p i) (fpow x i)) (map S (seq n l))) =
    fmul x (fold_right fadd f0 (map (fun i => fmul (p (S i)) (fpow x i)) (seq n l))).
  Proof.
    induction l as [|l IH]; intros n p; [cbn; ring|]. cbn [seq map fold_right]. rewrite IH. cbn [fpow]. ring.
  Qed.
  Lemma value_peval (p : list K) x : value p x = peval p x.
  Proof.
    induction p as [|c p IH]; [reflexivity|]. cbn [peval]. rewrite <- IH. unfold value. cbn [length seq map fold_right].
    rewrite <- seq_shift. rewrite (value_S (length p) x 0 (fun i => nth i (c :: p) f0)). cbn [nth fpow]. ring.
  Qed.
  Lemma peval_zero (p : list K) x : (forall i, nth i p f0 = f0) -> peval p x = f0.
  Proof.
    induction p as [|c p IH]; intros Z; [reflexivity|]. cbn. rewrite IH by (intros i; apply (Z (S i))).
    pose proof (Z 0) as E. cbn in E. rewrite E. ring.
  Qed.
  Lemma peval_ext (p q : list K) x : (forall i, nth i p f0 = nth i q f0) -> peval p x = peval q x.
  Proof.
    revert q. induction p as [|c p IH]; intros q E.
    - symmetry. apply peval_zero. intros i. rewrite <- E. now destruct i.
    - destruct q as [|d q].
      + apply peval_zero. intros i. rewrite E. now destruct i.
      + cbn. rewrite (IH q) by (intros i; apply (E (S i))). pose proof (E 0) as E0. cbn in E0. now rewrite E0.
  Qed.
End Value.

Lemma evaluations_codeword T k f p v : (forall x, f x = peval p x) -> evaluations T k f v <-> v = codeword T k p.
Proof.
  intros F. split.
  - intros (r & R & L & E). apply nth_ext with (d := f0) (d' := f0); [now rewrite codeword_length|].
    intros i Hi. rewrite L in Hi. rewrite (E i Hi), F, (reversal_unique k r i R Hi). symmetry. now apply codeword_nth.
  - intros ->. exists (fun i => reverse_bits_len i k). split; [apply reverse_is_reversal|]. split; [apply codeword_length|].
    intros i Hi. rewrite F. now apply codeword_nth.
Qed.

(** ** C32 *)
Section Folding.
Variable T : two_adic.
Add Field TT : (fth T).
Theorem C32_fold : forall k (p pe po : list T) beta v, S k <= two_adicity T ->
  (forall i, nth i pe f0 = nth (2 * i) p f0) -> (forall i, nth i po f0 = nth (2 * i + 1) p f0) ->
  evaluations T (S k) (value p) v ->
  exists r, fold_even_odd T v beta = Some r /\
    evaluations T k (fun x => fadd (value pe x) (fmul beta (value po x))) r.
Proof.
  intros k p pe po beta v Lk He Ho Ev.
  apply (evaluations_codeword T (S k) (value p) p v (value_peval T p)) in Ev. subst v.
  exists (codeword T k (pfold T beta p)). split.
  - rewrite (fold_even_odd_ok T _ k beta Lk (codeword_length T (S k) p)). f_equal. now apply folded_codeword.
  - apply (evaluations_codeword T k _ (pfold T beta p)); [|reflexivity].
    intros x. rewrite !value_peval. unfold pfold. rewrite peval_padd, peval_pscale.
    rewrite (peval_ext T pe (evens p)) by (intros i; now rewrite He, evens_nth).
    now rewrite (peval_ext T po (odds p)) by (intros i; now rewrite Ho, odds_nth).
Qed.
(** Every vector of length 2^k is the evaluations of a polynomial with 2^k coefficients. *)
Theorem C32_every_vector : forall k (v : list T), k <= two_adicity T -> length v = 2 ^ k ->
  exists p, length p = 2 ^ k /\ evaluations T k (value p) v.
Proof.
  intros k. enough (forall v, k <= two_adicity T -> length v = 2 ^ k -> exists p, length p = 2 ^ k /\ v = codeword T k p) as G.
  { intros v Lk Lv. destruct (G v Lk Lv) as (p & Lp & E). exists p. split; [exact Lp|].
    now apply (evaluations_codeword T k (value p) p v (value_peval T p)). }
  induction k as [|k IH]; intros v Lk Lv.
  - destruct v as [|c [|c' v]]; cbn in Lv; try lia. exists [c]. split; [reflexivity|].
    unfold codeword. cbn. f_equal. ring.
  - set (x := fun i => point T k i).
    set (a := fun i => nth (2 * i) v f0). set (b := fun i => nth (2 * i + 1) v f0).
    destruct (IH (map (fun i => fdiv (fadd (a i) (b i)) (fadd f1 f1)) (seq 0 (2 ^ k))) ltac:(lia)) as (pe & Le & Ee);
      [now rewrite map_length, seq_length|].
    destruct (IH (map (fun i => fdiv (fsub (a i) (b i)) (fmul (fadd f1 f1) (x i))) (seq 0 (2 ^ k))) ltac:(lia)) as (po & Lo & Eo);
      [now rewrite map_length, seq_length|].
    exists (interleave pe po). split; [rewrite interleave_length by lia; rewrite Nat.pow_succ_r'; lia|].
    apply nth_ext with (d := f0) (d' := f0); [now rewrite codeword_length|].
    intros n Hn. rewrite Lv in Hn. rewrite codeword_nth by exact Hn. rewrite Nat.pow_succ_r' in Hn.
    pose proof (Nat.div_mod n 2 ltac:(lia)) as D. pose proof (Nat.mod_upper_bound n 2 ltac:(lia)) as M.
    remember (n / 2) as i eqn:Ei in *. clear Ei. assert (i < 2 ^ k) as Hi by lia.
    assert (peval pe (fpow (gen k) (reverse_bits_len i k)) = fdiv (fadd (a i) (b i)) (fadd f1 f1)) as Ve.
    { rewrite <- (codeword_nth T k pe i Hi), <- Ee. now rewrite nth_map_seq. }
    assert (peval po (fpow (gen k) (reverse_bits_len i k)) = fdiv (fsub (a i) (b i)) (fmul (fadd f1 f1) (x i))) as Vo.
    { rewrite <- (codeword_nth T k po i Hi), <- Eo. now rewrite nth_map_seq. }
    pose proof (two_nz T) as N2. pose proof (point_nz T k i Lk) as Nx.
    rewrite peval_even_odd, evens_interleave, odds_interleave by lia.
    destruct (n mod 2) as [|[|m]] eqn:Em; [| |lia].
    + replace n with (2 * i) by lia. rewrite point_even. rewrite point_sq by exact Lk. rewrite Ve, Vo.
      fold (a i). unfold x. field. split; first [exact Nx | exact N2].
    + replace n with (2 * i + 1) by lia. rewrite point_odd by exact Lk.
      replace (fmul (fopp (point T k i)) (fopp (point T k i))) with (fmul (point T k i) (point T k i)) by ring.
      rewrite point_sq by exact Lk. rewrite Ve, Vo. fold (b i). unfold x. field. split; first [exact Nx | exact N2].
Qed.
(** It panics on every other length, and when the subgroup is too large. *)
Theorem C32_panics : forall (v : list T) beta,
  fold_even_odd T v beta = None <-> ~ exists k, length v = 2 ^ S k /\ S k <= two_adicity T.
Proof.
  intros v beta. split.
  - intros E (k & L & Lk). rewrite (fold_even_odd_ok T v k beta Lk L) in E. discriminate.
  - intros N. destruct (fold_even_odd T v beta) as [r|] eqn:E; [exfalso|reflexivity]. apply N. clear N.
    unfold fold_even_odd, new2 in E. destruct (Nat.eqb_spec (length v mod 2) 0) as [Ev|]; [|discriminate].
    destruct (log2_strict (height T {| width := 2; values := v |})) as [lh|] eqn:El; [|discriminate].
    exists lh. apply log2_strict_some in El. cbn in El.
    unfold two_adic_generator in E. destruct (Nat.leb_spec (lh + 1) (two_adicity T)); [|discriminate]. split; [|lia].
    rewrite Nat.pow_succ_r'. change (fst (Nat.divmod (length v) 1 0 1)) with (length v / 2) in El. rewrite <- El.
    pose proof (Nat.div_mod (length v) 2 ltac:(lia)). lia.
Qed.

(** ** C33 *)
Theorem C33_row_is_matrix_entry : forall k (v : list T) beta, S k <= two_adicity T -> length v = 2 ^ S k ->
  exists r, fold_matrix T beta {| width := 2; values := v |} = Some r /\ length r = 2 ^ k /\
    forall i, i < 2 ^ k -> fold_row T i k beta (row_of {| width := 2; values := v |} i) = Some (nth i r f0).
Proof.
  intros k v beta Lk Lv. eexists. split; [exact (fold_matrix_ok T v k beta Lk Lv)|]. split; [now rewrite map_length, seq_length|].
  intros i Hi. rewrite (row_of2 v i f0) by (rewrite Lv, Nat.pow_succ_r'; lia).
  rewrite fold_row_ok by exact Lk. now rewrite nth_map_seq.
Qed.
(** Both are the value at beta of the line through the two points of the row. *)
Theorem C33_is_interpolation : forall k i a b beta, S k <= two_adicity T ->
  let x := fpow (gen (S k)) (reverse_bits_len i k) in
  fold_row T i k beta [fadd a (fmul b x); fadd a (fmul b (fopp x))] = Some (fadd a (fmul b beta)).
Proof.
  intros k i a b beta Lk x. rewrite fold_row_ok by exact Lk. fold (point T k i) in x. f_equal. unfold folded_pair. unfold x.
  pose proof (two_nz T) as N2. pose proof (point_nz T k i Lk) as Nx.
  field. split; first [exact Nx | exact N2].
Qed.
(** A row that does not have exactly two entries panics. *)
Theorem C33_arity : forall k i beta row, fold_row T i k beta row <> None -> length row = 2.
Proof. intros k i beta [|a [|b [|c row]]] N; cbn in *; congruence. Qed.

End Folding.

(** ** C35 *)

(** [inputs] are vectors of lengths 2^k0 > 2^k1 > ... with every ki > log_blowup ([ins_ok]), or even
    evaluations of polynomials with at most 2^(ki - log_blowup) coefficients ([low_degree]); the
    verifier is handed the entries of the inputs at the queried index ([ros]). *)
Section C35.
  Variable T : two_adic.
  Variable M : mmcs T.
  Variable Ch : challenger (m_comm M) T.
  Variables (IP IE : Type).
  Variable config : fri_config.
  Variable sync : c_state Ch -> c_state Ch -> Prop.
  Variable open_input_p : nat -> nat -> option IP.
  Variable open_input : nat -> nat -> IP -> outcome IE (list (nat * T)).

  (** Whatever the prover returns is accepted, in debug and release builds. *)
  Theorem C35_accepted : forall debug st ch d inputs proof st' ch' k0,
    mmcs_contract M (num_queries config) 1 (two_adicity T) -> chal_contract Ch sync ->
    1 <= log_blowup config < k0 -> k0 <= two_adicity T ->
    inputs <> [] -> length (hd [] inputs) = 2 ^ k0 -> ins_ok T config k0 inputs ->
    (forall qt q ip, qt < num_queries config -> open_input_p qt q = Some ip -> q < 2 ^ k0 -> open_input qt q ip = Ok (ros T q k0 inputs)) ->
    sync ch d ->
    bf_prove T M Ch IP config open_input_p st ch inputs proof st' ch' ->
    exists challenges d', verify_shape_and_sample_challenges T M Ch IP IE config proof d = Ok (challenges, d') /\
      sync ch' d' /\ verify_challenges T M Ch IP IE config debug open_input proof challenges = Ok tt.
  Proof.
    intros debug st ch d inputs proof st' ch' k0 mm cc Hb Hk Ne L0 I Oi S P.
    eapply (complete T M Ch IP IE config mm ltac:(lia) sync cc open_input_p open_input debug); try eassumption. lia.
  Qed.
  (** On evaluations of low-degree polynomials the prover returns. *)
  Theorem C35_prover_total : forall st ch inputs k0 (okst : c_state Ch -> Prop),
    mmcs_contract M (num_queries config) 1 (two_adicity T) -> chal_contract Ch sync ->
    (forall c x, okst c -> exists c', c_observe Ch c x = Some c' /\ okst c') ->
    (forall c, okst c -> exists a c', c_sample Ch c = Some (a, c') /\ okst c') ->
    (forall c n, okst c -> n <= two_adicity T -> exists i c', c_sample_bits Ch c n = Some (i, c') /\ okst c') ->
    (forall c, okst c -> exists w c', c_grind Ch c (proof_of_work_bits config) w c' /\ okst c') ->
    1 <= log_blowup config < k0 -> k0 <= two_adicity T ->
    inputs <> [] -> length (hd [] inputs) = 2 ^ k0 -> low_degree T config k0 inputs -> okst ch ->
    (forall qt q, qt < num_queries config -> q < 2 ^ k0 -> open_input_p qt q <> None) ->
    exists proof st' ch', bf_prove T M Ch IP config open_input_p st ch inputs proof st' ch'.
  Proof.
    clear IE open_input.
    intros st ch inputs k0 okst mm cc T1 T2 T3 T4 Hb Hk Ne L0 I Oc Oi.
    eapply (prove_total T M Ch IP unit config mm ltac:(lia) sync cc open_input_p (fun _ _ _ => Panic) okst T1 T2 T3 st ch inputs k0); try eassumption. lia.
  Qed.
End C35.

(** The same for the commitment scheme and the challenger of the repository. *)
Theorem C35_concrete : forall (T : two_adic) (H : bytes -> bytes) bc (as_u32_vec : T -> list Z) u32_size new_bc lock bc_witness
    leaf_hash branch_hash opens words_of WIDTH perm deg words elem IP IE config open_input_p open_input debug,
  setting H T bc as_u32_vec u32_size new_bc lock bc_witness opens words_of feqb ->
  two_adicity T <= 30 -> 0 < num_queries config ->
  let M := taptree_mmcs H T bc as_u32_vec u32_size new_bc lock bc_witness leaf_hash branch_hash feqb (num_queries config) in
  let Ch := bf_challenger WIDTH perm deg (list hash) T words elem in
  forall st ch d inputs proof st' ch' k0,
    1 <= log_blowup config < k0 -> k0 <= two_adicity T ->
    inputs <> [] -> length (hd [] inputs) = 2 ^ k0 -> ins_ok T config k0 inputs ->
    (forall qt q ip, qt < num_queries config -> open_input_p qt q = Some ip -> q < 2 ^ k0 -> open_input qt q ip = Ok (ros T q k0 inputs)) ->
    in_sync ch d ->
    bf_prove T M Ch IP config open_input_p st ch inputs proof st' ch' ->
    exists challenges d', verify_shape_and_sample_challenges T M Ch IP IE config proof d = Ok (challenges, d') /\
      in_sync ch' d' /\ verify_challenges T M Ch IP IE config debug open_input proof challenges = Ok tt.
Proof.
  intros T H bc as_u32_vec u32_size new_bc lock bc_witness leaf_hash branch_hash opens words_of WIDTH perm deg words elem
    IP IE config open_input_p open_input debug S0 Ht Nq M Ch st ch d inputs proof st' ch' k0 Hb Hk Ne L0 I Oi S P.
  eapply (C35_accepted T M Ch IP IE config in_sync open_input_p open_input debug); try eassumption.
  - eapply taptree_contract; eassumption.
  - apply bf_contract.
Qed.

(** ** C36 *)

(** A list of reduced openings without its entry for the maximal height. *)
Definition below_top {A} (top : nat) (ro : list (nat * A)) : list (nat * A) :=
  match ro with (lh, a) :: r => if lh =? top then r else ro | [] => [] end.

Section Verifier.
  Variable T : two_adic.
  Variable M : mmcs T.
  Variable Ch : challenger (m_comm M) T.
  Variables (IP IE : Type).
  Variable config : fri_config.
  Variable debug : bool.

  Lemma top_unused log_max qt ls q fe fe' ro ro' :
    Forall (fun l => fst (fst (fst l)) + 1 <= log_max) ls ->
    (forall l ls', ls = l :: ls' -> fst (fst (fst l)) + 1 = log_max) ->
    below_top log_max ro = below_top log_max ro' ->
    ls <> [] ->
    query_loop T M IE log_max qt ls q fe ro = query_loop T M IE log_max qt ls q fe' ro'.
  Proof.
    intros _ Top E Ne. destruct ls as [|[[[lfh c] [vals pf]] beta] ls]; [contradiction|].
    specialize (Top _ _ eq_refl). cbn [fst] in Top. cbn [query_loop].
    assert (forall a r, snd (next_opening T lfh a r) = below_top log_max r) as N.
    { intros a [|[lh x] r]; [reflexivity|]. cbn. rewrite Top. now destruct (lh =? log_max). }
    pose proof (N fe ro) as N1. pose proof (N fe' ro') as N2.
    destruct (next_opening T lfh fe ro) as [f1 r1]. destruct (next_opening T lfh fe' ro') as [f2 r2]. cbn [snd] in *.
    rewrite N1, N2, E. destruct vals as [|r [|? ?]]; [reflexivity| |reflexivity].
    destruct (nth_error r (q mod 2)); [|reflexivity].
    destruct (Nat.ltb_spec lfh (log_max - 1)); [lia|]. reflexivity.
  Qed.
  Lemma layers_first k commits os bs l ls : layers T M k commits os bs = l :: ls -> fst (fst (fst l)) + 1 = k.
  Proof.
    destruct k, commits as [|c commits], os as [|o os], bs as [|b bs]; cbn [layers]; try discriminate.
    intros [= <- _]. cbn. lia.
  Qed.
  Lemma query_top commits q qt qp bs ro ro' k : below_top k ro = below_top k ro' ->
    verify_query T M IP IE config debug commits q qt qp bs ro k = verify_query T M IP IE config debug commits q qt qp bs ro' k.
  Proof.
    intros E. unfold verify_query. destruct (layers T M k commits (commit_phase_openings T M IP qp) bs) as [|l ls] eqn:El.
    - reflexivity.
    - rewrite (top_unused k qt (l :: ls) q f0 f0 ro ro'); [reflexivity| | |exact E|easy].
      + rewrite <- El. generalize (commit_phase_openings T M IP qp), bs, k, commits. clear.
        intros os bs k. revert os bs. induction k as [|k IH]; intros [|o os] [|b bs] [|c cs]; cbn; constructor; [cbn; lia|].
        eapply Forall_impl; [|apply IH]. cbn. lia.
      + intros l0 ls0 [= <- <-]. eapply layers_first; exact El.
  Qed.

  (** Finding: the value of the reduced opening at the maximal height, and even its presence, never
      influences the outcome of verify_challenges. *)
  Theorem C36_top_opening_ignored : forall proof challenges open_input open_input',
    (forall qt q ip, open_input qt q ip = open_input' qt q ip \/
       exists ro ro', open_input qt q ip = Ok ro /\ open_input' qt q ip = Ok ro' /\
         below_top (length (commit_phase_commits T M Ch IP proof) + log_blowup config) ro =
         below_top (length (commit_phase_commits T M Ch IP proof) + log_blowup config) ro') ->
    verify_challenges T M Ch IP IE config debug open_input proof challenges =
    verify_challenges T M Ch IP IE config debug open_input' proof challenges.
  Proof.
    intros proof challenges oi oi' A. unfold verify_challenges.
    generalize (List.combine (query_indices T challenges) (query_proofs T M Ch IP proof)). intros qs.
    set (k := length _ + _) in *. induction qs as [|[[qt q] qp] qs IH]; [reflexivity|].
    cbn [verify_queries].
    destruct (A qt q (input_proof T M IP qp)) as [-> |(ro & ro' & -> & -> & E)].
    - destruct (oi' qt q (input_proof T M IP qp)); [|reflexivity|reflexivity].
      destruct (verify_query T M IP IE config debug (commit_phase_commits T M Ch IP proof) q qt qp (betas T challenges) a k); [|reflexivity|reflexivity].
      destruct (feqb a0 (final_poly T M Ch IP proof)); [exact IH|reflexivity].
    - rewrite (query_top _ q qt qp (betas T challenges) ro ro' k E).
      destruct (verify_query T M IP IE config debug (commit_phase_commits T M Ch IP proof) q qt qp (betas T challenges) ro' k); [|reflexivity|reflexivity].
      destruct (feqb a (final_poly T M Ch IP proof)); [exact IH|reflexivity].
  Qed.

  (** ** C37 *)
  Lemma layers_length k : forall commits os bs,
    length (layers T M k commits os bs) = Nat.min k (Nat.min (length commits) (Nat.min (length os) (length bs))).
  Proof.
    induction k as [|k IH]; intros [|c commits] [|o os] [|b bs]; cbn [layers length]; rewrite ?IH; lia.
  Qed.
  Lemma layers_firstn k : forall commits os bs n, Nat.min (length commits) (length bs) <= n ->
    layers T M k commits (firstn n os) bs = layers T M k commits os bs.
  Proof.
    induction k as [|k IH]; intros commits os bs n L; [reflexivity|].
    destruct commits as [|c commits]; [reflexivity|].
    destruct os as [|o os]; [now rewrite firstn_nil|]. destruct bs as [|b bs]; [now destruct n|].
    cbn [length] in L. destruct n as [|n]; [cbn in L; lia|]. cbn [firstn layers]. rewrite IH by lia. reflexivity.
  Qed.
  (** Finding: an empty list of openings is a query whose folded value is 0, for every commitment. *)
  Theorem C37_empty_query : forall commits q qt ip bs ro log_max, debug = false \/ q < blowup config ->
    verify_query T M IP IE config debug commits q qt {| input_proof := ip; commit_phase_openings := [] |} bs ro log_max = Ok f0.
  Proof.
    intros commits q qt ip bs ro log_max D. unfold verify_query. cbn [commit_phase_openings].
    replace (layers T M log_max commits [] bs) with (@nil (nat * m_comm M * (list (list T) * m_proof M) * T)).
    - cbn [query_loop]. destruct D as [-> |L]; [reflexivity|].
      rewrite (proj2 (Nat.ltb_lt _ _) L). cbn. now rewrite andb_false_r.
    - destruct log_max, commits; reflexivity.
  Qed.
  (** In a release build such queries are accepted for every list of commitments, whenever the
      final polynomial is 0 and the input openings verify. *)
  Theorem C37_truncated_accepted : forall open_input proof challenges, debug = false ->
    final_poly T M Ch IP proof = f0 ->
    (forall qp, In qp (query_proofs T M Ch IP proof) -> commit_phase_openings T M IP qp = []) ->
    (forall qt q qp, In qp (query_proofs T M Ch IP proof) -> exists ro, open_input qt q (input_proof T M IP qp) = Ok ro) ->
    verify_challenges T M Ch IP IE config debug open_input proof challenges = Ok tt.
  Proof.
    intros open_input proof challenges D F E O. unfold verify_challenges. generalize (query_indices T challenges).
    revert E O. generalize (query_proofs T M Ch IP proof) as qs.
    induction qs as [|qp qs IH]; intros E O [|[qt q] l]; try reflexivity.
    cbn [List.combine verify_queries]. destruct (O qt q qp (or_introl eq_refl)) as (ro & ->).
    pose proof (E qp (or_introl eq_refl)) as Eq. destruct qp as [ip os]. cbn in Eq. subst os.
    rewrite C37_empty_query by now left. rewrite F, feqb_refl. apply IH; intros; [apply E|apply O]; now right.
  Qed.
  (** In general exactly the first min(log_max_height, #commitments, #openings, #betas) layers are
      looked at; further openings are never read. *)
  Theorem C37_layers_checked : forall k commits os bs,
    length (layers T M k commits os bs) = Nat.min k (Nat.min (length commits) (Nat.min (length os) (length bs))).
  Proof. exact layers_length. Qed.
  Theorem C37_surplus_openings : forall commits q qt ip os extra bs ro log_max, length commits <= length os ->
    verify_query T M IP IE config debug commits q qt {| input_proof := ip; commit_phase_openings := os ++ extra |} bs ro log_max =
    verify_query T M IP IE config debug commits q qt {| input_proof := ip; commit_phase_openings := os |} bs ro log_max.
  Proof.
    intros commits q qt ip os extra bs ro log_max L. unfold verify_query. cbn [commit_phase_openings].
    rewrite <- (layers_firstn log_max commits (os ++ extra) bs (length os)) by lia.
    now rewrite firstn_app, Nat.sub_diag, firstn_all, firstn_O, app_nil_r.
  Qed.

  (** ** C38 *)
  Theorem C38_wrong_count : forall proof ch bs ch1, sample_betas T M Ch ch (commit_phase_commits T M Ch IP proof) = Some (bs, ch1) ->
    length (query_proofs T M Ch IP proof) <> num_queries config ->
    verify_shape_and_sample_challenges T M Ch IP IE config proof ch = Err InvalidProofShape.
  Proof.
    intros proof ch bs ch1 E N. unfold verify_shape_and_sample_challenges. rewrite E.
    now rewrite (proj2 (Nat.eqb_neq _ _) N).
  Qed.
  Theorem C38_bad_witness : forall proof ch bs ch1 ch2, sample_betas T M Ch ch (commit_phase_commits T M Ch IP proof) = Some (bs, ch1) ->
    length (query_proofs T M Ch IP proof) = num_queries config ->
    c_check_witness Ch ch1 (proof_of_work_bits config) (pow_witness T M Ch IP proof) = Some (false, ch2) ->
    verify_shape_and_sample_challenges T M Ch IP IE config proof ch = Err InvalidPowWitness.
  Proof.
    intros proof ch bs ch1 ch2 E L W. unfold verify_shape_and_sample_challenges. rewrite E, L, Nat.eqb_refl, W. reflexivity.
  Qed.
  Lemma indices_ok bits : (forall c i c', c_sample_bits Ch c bits = Some (i, c') -> i < 2 ^ bits) ->
    forall n qt ch l ch', sample_indices T M Ch n qt ch bits = Some (l, ch') ->
      map fst l = seq qt n /\ Forall (fun p => snd p < 2 ^ bits) l.
  Proof.
    intros R. induction n as [|n IH]; intros qt ch l ch' E; cbn in E; [injection E as <- _; split; [reflexivity|constructor]|].
    destruct (c_sample_bits Ch ch bits) as [[i c1]|] eqn:Ei; [|discriminate].
    destruct (sample_indices T M Ch n (S qt) c1 bits) as [[l1 c2]|] eqn:El; [|discriminate]. injection E as <- _.
    destruct (IH _ _ _ _ El) as [M1 F1]. split; [cbn; now rewrite M1|constructor; [eapply R; exact Ei|exact F1]].
  Qed.
  (** When it succeeds: the shape and the proof of work are right, one challenge per commitment was
      drawn after observing it, and exactly num_queries indices below the domain size were drawn. *)
  Theorem C38_ok : forall proof ch challenges ch', (forall c b i c', c_sample_bits Ch c b = Some (i, c') -> i < 2 ^ b) ->
    verify_shape_and_sample_challenges T M Ch IP IE config proof ch = Ok (challenges, ch') ->
    length (query_proofs T M Ch IP proof) = num_queries config /\
    (exists ch1 ch2, sample_betas T M Ch ch (commit_phase_commits T M Ch IP proof) = Some (betas T challenges, ch1) /\
       c_check_witness Ch ch1 (proof_of_work_bits config) (pow_witness T M Ch IP proof) = Some (true, ch2)) /\
    length (betas T challenges) = length (commit_phase_commits T M Ch IP proof) /\
    map fst (query_indices T challenges) = seq 0 (num_queries config) /\
    Forall (fun p => snd p < 2 ^ (length (commit_phase_commits T M Ch IP proof) + log_blowup config)) (query_indices T challenges).
  Proof.
    intros proof ch challenges ch' R. unfold verify_shape_and_sample_challenges.
    destruct (sample_betas T M Ch ch (commit_phase_commits T M Ch IP proof)) as [[bs ch1]|] eqn:Eb; [|discriminate].
    destruct (Nat.eqb_spec (length (query_proofs T M Ch IP proof)) (num_queries config)) as [L|]; [|discriminate]. cbn [negb].
    destruct (c_check_witness Ch ch1 _ _) as [[[|] ch2]|] eqn:Ew; try discriminate.
    destruct (sample_indices T M Ch (num_queries config) 0 ch2 _) as [[l ch3]|] eqn:Ei; [|discriminate].
    intros [= <- <-]. cbn [betas query_indices]. split; [exact L|]. split; [exists ch1, ch2; auto|].
    split; [|eapply indices_ok; [intros c i c'; apply R|exact Ei]].
    clear - Eb. revert ch bs ch1 Eb. induction (commit_phase_commits T M Ch IP proof) as [|c cs IH]; intros ch bs ch1 E; cbn in E.
    - injection E as <- _. reflexivity.
    - destruct (c_observe Ch ch c) as [c1|]; [|discriminate]. destruct (c_sample Ch c1) as [[b c2]|]; [|discriminate].
      destruct (sample_betas T M Ch c2 cs) as [[bs1 c3]|] eqn:E1; [|discriminate]. injection E as <- _. cbn. f_equal. eapply IH; exact E1.
  Qed.

  (** ** C62: accepted queries are consistent foldings from the second layer on *)

  (** [consistent]: what an accepted query guarantees about its layers. Layer j opens the pair that
      contains position q / 2^j; from the second layer on, the entry at that position is the fold of the
      previous pair plus the reduced opening of that height. *)
  Fixpoint consistent (first : bool) (q : nat) (fe : T) (ls : list (nat * m_comm M * (list (list T) * m_proof M) * T)) (ro : list (nat * T))
    (qt : nat) (final : T) : Prop :=
    match ls with
    | [] => fe = final
    | (lfh, c, (vals, pf), beta) :: ls =>
        exists r fe' folded, vals = [r] /\ nth_error r (q mod 2) = Some fe' /\
          (first = false -> fe' = fst (next_opening T lfh fe ro)) /\
          m_verify_batch M qt vals pf c = Ok tt /\
          fold_row T (q / 2) lfh beta r = Some folded /\
          consistent false (q / 2) folded ls (snd (next_opening T lfh fe ro)) qt final
    end.
  Fixpoint descending_from (k : nat) (ls : list (nat * m_comm M * (list (list T) * m_proof M) * T)) : Prop :=
    match ls with [] => True | l :: ls => fst (fst (fst l)) + 1 = k /\ descending_from (k - 1) ls end.
  Lemma layers_desc k : forall cs os bs, descending_from k (layers T M k cs os bs).
  Proof.
    induction k as [|k IH]; intros [|c cs] [|o os] [|b bs]; cbn; auto. split; [lia|]. rewrite Nat.sub_0_r. apply IH.
  Qed.
  Lemma loop_consistent log_max qt : forall ls k q fe ro final q',
    descending_from k ls -> k <= log_max ->
    query_loop T M IE log_max qt ls q fe ro = Ok (final, q') <->
    consistent (k =? log_max) q fe ls ro qt final /\ q' = q / 2 ^ length ls.
  Proof.
    induction ls as [|[[[lfh c] [vals pf]] beta] ls IH]; intros k q fe ro final q' D Lk.
    - cbn [query_loop consistent length]. rewrite Nat.pow_0_r, Nat.div_1_r. split; [intros [= <- <-]; auto|intros [-> ->]; reflexivity].
    - destruct D as [Ek D]. cbn [fst] in Ek. cbn [query_loop consistent length].
      destruct (next_opening T lfh fe ro) as [fo ro']. cbn [fst snd].
      replace (q / 2 ^ S (length ls)) with (q / 2 / 2 ^ length ls) by (rewrite div_half_pow; reflexivity).
      assert (IH' : forall folded, query_loop T M IE log_max qt ls (q / 2) folded ro' = Ok (final, q') <->
        consistent false (q / 2) folded ls ro' qt final /\ q' = q / 2 / 2 ^ length ls).
      { intros folded. rewrite (IH (k - 1) (q / 2) folded ro' final q' D ltac:(lia)).
        destruct (Nat.eqb_spec (k - 1) log_max); [lia|]. reflexivity. }
      split.
      + destruct vals as [|r [|? ?]]; try discriminate.
        destruct (nth_error r (q mod 2)) as [fe'|] eqn:Er; [|discriminate].
        destruct (Nat.ltb_spec lfh (log_max - 1)) as [Ll|Ll].
        * destruct (feqb_spec T fo fe') as [-> |Ne]; [|discriminate]. cbn [negb andb].
          destruct (m_verify_batch M qt [r] pf c) as [[]| |] eqn:Ev; try discriminate.
          destruct (fold_row T (q / 2) lfh beta r) as [folded|] eqn:Ef; [|discriminate].
          intros E. apply IH' in E as [C ->]. split; [|reflexivity]. exists r, fe', folded. repeat split; auto.
        * cbn [andb]. destruct (m_verify_batch M qt [r] pf c) as [[]| |] eqn:Ev; try discriminate.
          destruct (fold_row T (q / 2) lfh beta r) as [folded|] eqn:Ef; [|discriminate].
          intros E. apply IH' in E as [C ->]. split; [|reflexivity]. exists r, fe', folded. repeat split; auto.
          destruct (Nat.eqb_spec k log_max); [discriminate|lia].
      + intros [(r & fe' & folded & -> & Er & Fe & Ev & Ef & C) ->]. rewrite Er.
        assert ((lfh <? log_max - 1) && negb (feqb fo fe') = false) as ->.
        { destruct (Nat.ltb_spec lfh (log_max - 1)) as [Ll|Ll]; [|reflexivity].
          destruct (Nat.eqb_spec k log_max); [lia|]. rewrite (Fe eq_refl), feqb_refl. reflexivity. }
        rewrite Ev, Ef. apply IH'. auto.
  Qed.

  (** verify_challenges returns Ok exactly when, for every query, the input openings verify, and the
      layers are consistent and end in the final value. *)
  Theorem C62_accepts_iff : forall open_input proof challenges,
    let k := length (commit_phase_commits T M Ch IP proof) + log_blowup config in
    verify_challenges T M Ch IP IE config debug open_input proof challenges = Ok tt <->
    Forall (fun p => let '((qt, q), qp) := p in
      exists ro, open_input qt q (input_proof T M IP qp) = Ok ro /\
        let ls := layers T M k (commit_phase_commits T M Ch IP proof) (commit_phase_openings T M IP qp) (betas T challenges) in
        consistent true q f0 ls ro qt (final_poly T M Ch IP proof) /\
        (debug = true -> q / 2 ^ length ls < blowup config))
      (List.combine (query_indices T challenges) (query_proofs T M Ch IP proof)).
  Proof.
    intros open_input proof challenges k. unfold verify_challenges. fold k.
    induction (List.combine (query_indices T challenges) (query_proofs T M Ch IP proof)) as [|[[qt q] qp] qs IH]; [easy|].
    cbn [verify_queries].
    set (ls := layers T M k (commit_phase_commits T M Ch IP proof) (commit_phase_openings T M IP qp) (betas T challenges)).
    assert (V : forall ro, verify_query T M IP IE config debug (commit_phase_commits T M Ch IP proof) q qt qp (betas T challenges) ro k =
                Ok (final_poly T M Ch IP proof) <->
              consistent true q f0 ls ro qt (final_poly T M Ch IP proof) /\ (debug = true -> q / 2 ^ length ls < blowup config)).
    { intros ro. unfold verify_query. fold ls.
      pose proof (loop_consistent k qt ls k q f0 ro (final_poly T M Ch IP proof) (q / 2 ^ length ls)
        (layers_desc k _ _ _) (le_n _)) as L. rewrite Nat.eqb_refl in L.
      split.
      - intros E. destruct (query_loop T M IE k qt ls q f0 ro) as [[fe q']| |] eqn:El; try discriminate.
        destruct (debug && negb (q' <? blowup config)) eqn:Ed; [discriminate|]. injection E as ->.
        pose proof (proj1 (loop_consistent k qt ls k q f0 ro (final_poly T M Ch IP proof) q' (layers_desc k _ _ _) (le_n _)) El) as [C ->].
        rewrite Nat.eqb_refl in C. split; [exact C|]. intros D. rewrite D in Ed. cbn [andb] in Ed.
        apply negb_false_iff, Nat.ltb_lt in Ed. exact Ed.
      - intros [C B]. rewrite (proj2 L (conj C eq_refl)). destruct debug; [|reflexivity].
        rewrite (proj2 (Nat.ltb_lt _ _) (B eq_refl)). reflexivity. }
    split.
    - destruct (open_input qt q (input_proof T M IP qp)) as [ro| |] eqn:Eo; try discriminate.
      intros E. constructor.
      + exists ro. split; [exact Eo|]. apply V.
        destruct (verify_query T M IP IE config debug _ q qt qp _ ro k) as [fe| |]; try discriminate.
        destruct (feqb_spec T fe (final_poly T M Ch IP proof)) as [Ef|]; [now rewrite Ef|discriminate].
      + apply IH. destruct (verify_query T M IP IE config debug _ q qt qp _ ro k) as [fe| |]; try discriminate.
        destruct (feqb fe (final_poly T M Ch IP proof)); [exact E|discriminate].
    - intros F. inversion F as [|p0 l0 P0 F' E0]; subst. destruct P0 as (ro & Eo & C). rewrite Eo, (proj2 (V ro) C), feqb_refl. now apply IH.
  Qed.
End Verifier.

(** ** Concrete cases *)

(** A transparent commitment scheme: the commitment is the list of matrices, the proof an index. *)
Section Plain.
  Variable K : field.
  Definition max_log (ms : list (matrix K)) : nat := fold_right Nat.max 0 (map (fun m => Nat.log2 (nrows m)) ms).
  Fixpoint list_eqb {A} (eqb : A -> A -> bool) (l l' : list A) : bool :=
    match l, l' with [], [] => true | a :: l, a' :: l' => eqb a a' && list_eqb eqb l l' | _, _ => false end.
  Definition plain_mmcs : mmcs K :=
    mk_mmcs K (list (matrix K)) (list (matrix K)) nat unit unit
      (fun st ms => Some (ms, ms, st)) (fun d => Some d)
      (fun _ q d => Some (map (row_for (max_log d) q) d, q))
      (fun _ rows q c => if list_eqb (list_eqb feqb) rows (map (row_for (max_log c) q) c) then Ok tt else Err tt).
  Lemma list_eqb_refl {A} (eqb : A -> A -> bool) l : (forall a, eqb a a = true) -> list_eqb eqb l l = true.
  Proof. intros R. induction l as [|a l IH]; [reflexivity|]. cbn. now rewrite R. Qed.
  Lemma max_log_batch ms k : batch ms k -> max_log ms = k.
  Proof.
    intros [Fm Ex]. unfold max_log. apply Nat.le_antisymm.
    - clear Ex. induction Fm as [|m ms (j & R & L) Fm IH]; [cbn; lia|]. cbn [map fold_right].
      apply Nat.max_lub; [|exact IH]. rewrite (nrows_height m j R), (rect_height K m j R), Nat.log2_pow2; lia.
    - clear Fm. induction Ex as [m ms R|m ms Ex IH]; cbn [map fold_right].
      + rewrite (nrows_height m k R), (rect_height K m k R), Nat.log2_pow2 by lia. lia.
      + lia.
  Qed.
  Lemma plain_contract nq lo hi : mmcs_contract plain_mmcs nq lo hi.
  Proof.
    intros st ms k Hk B Hs. exists ms, ms, st. split; [reflexivity|]. split; [reflexivity|].
    intros qt q Hqt Hq. exists q. cbn [m_open_batch m_verify_batch plain_mmcs]. rewrite (max_log_batch ms k B).
    split; [reflexivity|]. now rewrite list_eqb_refl by (intros a; apply list_eqb_refl, feqb_refl).
  Qed.
End Plain.

(** A challenger that counts what happens to it; the proof of work is to name the count. *)
Definition count_challenger (C : Type) : challenger C BabyBear :=
  mk_challenger C BabyBear nat nat
    (fun n _ => Some (S n)) (fun n => Some (of_Z (Z.of_nat n + 5), S n)) (fun n b => Some (n mod 2 ^ b, S n))
    (fun n _ w => Some (w =? n, S n)) (fun n _ w n' => w = n /\ n' = S n).
Lemma count_contract C : chal_contract (count_challenger C) eq.
Proof.
  constructor; cbn.
  - intros c d x c' -> E. eauto.
  - intros c d a c' -> E. eauto.
  - intros c d n i c' -> E. eauto.
  - intros c d b w c' -> [-> ->]. rewrite Nat.eqb_refl. eauto.
  - intros c n i c' [= <- _]. apply Nat.mod_upper_bound, Nat.pow_nonzero. lia.
Qed.

(** C32: 1 + 2x + 3x^2 + 4x^3 on the subgroup of order 4, folded with 5, gives
    (1 + 3x) + 5 (2 + 4x) = 11 + 23 x on the subgroup of order 2. *)
Definition ints (l : list Z) : list BabyBearT := map of_Z l.
Example C32_example :
  option_map (map as_canonical) (fold_even_odd BabyBearT (codeword BabyBearT 2 (ints [1; 2; 3; 4]%Z)) (of_Z 5)) =
    Some [34; BP - 12]%Z /\
  evaluations BabyBearT 2 (value (ints [1; 2; 3; 4]%Z)) (codeword BabyBearT 2 (ints [1; 2; 3; 4]%Z)).
Proof.
  split; [vm_compute; reflexivity|].
  apply (evaluations_codeword BabyBearT 2 _ (ints [1; 2; 3; 4]%Z)); [apply value_peval|reflexivity].
Qed.
(** C33 on the same vector. *)
Example C33_example :
  option_map as_canonical (fold_row BabyBearT 1 1 (of_Z 5)
    (row_of {| width := 2; values := codeword BabyBearT 2 (ints [1; 2; 3; 4]%Z) |} 1)) = Some (BP - 12)%Z.
Proof. vm_compute. reflexivity. Qed.

(** C35: two inputs, of lengths 8 and 4, blowup 2, two queries: the prover has an answer and the
    verifier accepts it. *)
Definition cfg2 : fri_config := {| log_blowup := 1; num_queries := 2; proof_of_work_bits := 3 |}.
Definition ins2 : list (list BabyBearT) :=
  [codeword BabyBearT 3 (ints [1; 2; 3; 4]%Z); codeword BabyBearT 2 (ints [7; 9]%Z)].
Example C35_example :
  let M := plain_mmcs BabyBear in let Ch := count_challenger (m_comm M) in
  exists proof st' ch' challenges d',
    bf_prove BabyBearT M Ch unit cfg2 (fun _ _ => Some tt) tt 0 ins2 proof st' ch' /\
    verify_shape_and_sample_challenges BabyBearT M Ch unit unit cfg2 proof 0 = Ok (challenges, d') /\
    verify_challenges BabyBearT M Ch unit unit cfg2 true (fun _ q _ => Ok (ros BabyBearT q 3 ins2)) proof challenges = Ok tt /\
    length (commit_phase_commits _ _ _ _ proof) = 2.
Proof.
  intros M Ch.
  assert (length (codeword BabyBearT 3 (ints [1; 2; 3; 4]%Z)) = 2 ^ 3) as L3 by apply codeword_length.
  assert (length (codeword BabyBearT 2 (ints [7; 9]%Z)) = 2 ^ 2) as L2 by apply codeword_length.
  destruct (C35_prover_total BabyBearT M Ch unit cfg2 eq (fun _ _ => Some tt) tt 0 ins2 3 (fun _ => True)) as (proof & st' & ch' & P);
    [apply plain_contract|apply count_contract|cbn; eauto|cbn; eauto|cbn; eauto|cbn; eauto|cbn; lia|cbn; lia|discriminate|exact L3| |exact Logic.I|discriminate|].
  { exists 3, (ints [1; 2; 3; 4]%Z). split; [cbn; lia|]. split; [reflexivity|]. split; [cbn; lia|].
    exists 2, (ints [7; 9]%Z). split; [cbn; lia|]. split; [reflexivity|]. split; [cbn; lia|exact Logic.I]. }
  destruct (C35_accepted BabyBearT M Ch unit unit cfg2 eq (fun _ _ => Some tt) (fun _ q _ => Ok (ros BabyBearT q 3 ins2)) true
    tt 0 0 ins2 proof st' ch' 3) as (challenges & d' & V1 & _ & V2);
    [apply plain_contract|apply count_contract|cbn; lia|cbn; lia|discriminate|exact L3| |intros qt q ip _ _ _; reflexivity|reflexivity|exact P|].
  { exists 3. split; [cbn; lia|]. split; [exact L3|]. exists 2. split; [cbn; lia|]. split; [exact L2|exact Logic.I]. }
  exists proof, st', ch', challenges, d'. split; [exact P|]. split; [exact V1|]. split; [exact V2|].
  destruct P as (_ & lm & data & ch1 & ch2 & _ & E & _).
  assert (match commit_phase BabyBearT M Ch cfg2 tt 0 ins2 with Some (c, _, _, _, _) => length c =? 2 | None => false end = true) as X
    by (vm_compute; reflexivity).
  rewrite E in X. now apply Nat.eqb_eq.
Qed.

(** Finding: an input whose length is exactly the blowup (a matrix of height one, whose low-degree
    extension is a constant) is added to the last folding by the prover but not by the verifier. *)
Definition ins_short : list (list BabyBearT) :=
  [codeword BabyBearT 2 (ints [1; 2]%Z); codeword BabyBearT 1 (ints [7]%Z)].
Definition short_proof : option (fri_proof BabyBearT (plain_mmcs BabyBear) (count_challenger (m_comm (plain_mmcs BabyBear))) unit * unit * nat) :=
  let M := plain_mmcs BabyBear in let Ch := count_challenger (m_comm M) in
  match commit_phase BabyBearT M Ch cfg2 tt 0 ins_short with
  | Some (commits, data, fp, st', ch1) =>
      match query_phase BabyBearT M Ch unit (fun _ _ => Some tt) (num_queries cfg2) 0 (S ch1) 2 data with
      | Some (qs, ch') => Some ({| commit_phase_commits := commits; query_proofs := qs; final_poly := fp; pow_witness := (ch1 : c_wit Ch) |}, st', ch')
      | None => None
      end
  | None => None
  end.
Theorem C35_smallest_height_refuted :
  let M := plain_mmcs BabyBear in let Ch := count_challenger (m_comm M) in
  exists proof st' ch' challenges d',
    mmcs_contract M (num_queries cfg2) 0 (two_adicity BabyBearT) /\ chal_contract Ch eq /\
    evaluations BabyBearT 2 (value (ints [1; 2]%Z)) (nth 0 ins_short []) /\
    evaluations BabyBearT 1 (value (ints [7]%Z)) (nth 1 ins_short []) /\
    bf_prove BabyBearT M Ch unit cfg2 (fun _ _ => Some tt) tt 0 ins_short proof st' ch' /\
    verify_shape_and_sample_challenges BabyBearT M Ch unit unit cfg2 proof 0 = Ok (challenges, d') /\
    verify_challenges BabyBearT M Ch unit unit cfg2 false (fun _ q _ => Ok (ros BabyBearT q 2 ins_short)) proof challenges
      = Err FinalPolyMismatch.
Proof.
  intros M Ch.
  assert (match short_proof with
    | Some (proof, _, _) =>
        match verify_shape_and_sample_challenges BabyBearT M Ch unit unit cfg2 proof 0 with
        | Ok (challenges, _) =>
            match verify_challenges BabyBearT M Ch unit unit cfg2 false (fun _ q _ => Ok (ros BabyBearT q 2 ins_short)) proof challenges with
            | Err FinalPolyMismatch => true | _ => false end
        | _ => false end
    | None => false end = true) as X by (vm_compute; reflexivity).
  destruct short_proof as [[[proof st'] ch']|] eqn:E; [|discriminate].
  destruct (verify_shape_and_sample_challenges BabyBearT M Ch unit unit cfg2 proof 0) as [[challenges d']| |] eqn:Es; [|discriminate X|discriminate X].
  exists proof, st', ch', challenges, d'.
  split; [apply plain_contract|]. split; [apply count_contract|].
  split; [apply (evaluations_codeword BabyBearT 2 _ (ints [1; 2]%Z)); [apply value_peval|reflexivity]|].
  split; [apply (evaluations_codeword BabyBearT 1 _ (ints [7]%Z)); [apply value_peval|reflexivity]|].
  split; [|split; [exact Es|]].
  - unfold short_proof in E. fold M in E. fold Ch in E.
    destruct (commit_phase BabyBearT M Ch cfg2 tt 0 ins_short) as [[[[[commits data] fp] st1] ch1]|] eqn:Ec; [|discriminate].
    destruct (query_phase BabyBearT M Ch unit (fun _ _ => Some tt) (num_queries cfg2) 0 (S ch1) 2 data) as [[qs ch2]|] eqn:Eq; [|discriminate].
    injection E as <- <- <-. split; [vm_compute; reflexivity|].
    exists 2, data, ch1, (S ch1). split; [vm_compute; reflexivity|]. split; [exact Ec|]. split; [split; reflexivity|exact Eq].
  - destruct (verify_challenges BabyBearT M Ch unit unit cfg2 false (fun _ q _ => Ok (ros BabyBearT q 2 ins_short)) proof challenges) as [|[]|];
      first [discriminate X | reflexivity].
Qed.

(** C36 and C37: one commitment, an honest query opened at index 3 of 4; the top opening may be
    anything.  A forged proof with no openings for an arbitrary commitment is accepted. *)
Definition v2 : list BabyBearT := codeword BabyBearT 2 (ints [1; 2]%Z).
Definition PM : mmcs BabyBearT := plain_mmcs BabyBear.
Definition PC : challenger (m_comm PM) BabyBearT := count_challenger (m_comm PM).
Definition honest (os : list (list (list BabyBearT) * nat)) (fp : Z) : fri_proof BabyBearT PM PC unit :=
  Build_fri_proof BabyBearT PM PC unit [[{| width := 2; values := v2 |}]] [Build_query_proof BabyBearT PM unit tt os] (of_Z fp) 2.
Definition verdict (os : list (list (list BabyBearT) * nat)) (fp : Z) (ro : list (nat * BabyBearT)) : nat :=
  match verify_challenges BabyBearT PM PC unit unit cfg2 false
    (fun _ _ _ => Ok ro) (honest os fp) {| query_indices := [(0, 3)]; betas := ints [5]%Z |} with
  | Ok _ => 0 | Err FinalPolyMismatch => 1 | Err _ => 2 | Panic => 3 end.
Definition row1 : list BabyBearT := row_of {| width := 2; values := v2 |} 1.
Example C36_example : verdict [([row1], 1)] 11 [(2, nth 3 v2 f0)] = 0 /\ verdict [([row1], 1)] 11 [(2, of_Z 12345)] = 0 /\
  verdict [([row1], 1)] 11 [] = 0 /\ verdict [([row1], 1)] 12 [(2, nth 3 v2 f0)] = 1 /\
  verdict [([ints [1; 1]%Z], 1)] 11 [(2, nth 3 v2 f0)] = 2 /\ verdict [([[of_Z 1]], 1)] 11 [] = 3.
Proof. vm_compute. auto 10. Qed.
Example C37_example : verdict [] 0 [(2, of_Z 12345)] = 0 /\ verdict [] 1 [] = 1.
Proof. vm_compute. auto. Qed.
Definition shape (nq ch : nat) : option (list (nat * nat) * list Z) + nat :=
  match verify_shape_and_sample_challenges BabyBearT PM PC unit unit
    {| log_blowup := 1; num_queries := nq; proof_of_work_bits := 3 |} (honest [] 0) ch with
  | Ok (c, _) => inl (Some (query_indices _ c, map as_canonical (betas _ c)))
  | Err InvalidProofShape => inr 0 | Err InvalidPowWitness => inr 1 | Err _ => inr 2 | Panic => inl None end.
Example C38_example : shape 1 0 = inl (Some ([(0, 3)], [6%Z])) /\ shape 2 0 = inr 0 /\ shape 1 1 = inr 1.
Proof. vm_compute. auto. Qed.
Example C62_example : verdict [([row1], 1)] 11 [] = 0.
Proof. vm_compute. reflexivity. Qed.
