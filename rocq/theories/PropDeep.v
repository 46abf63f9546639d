(** Property C95: what the reduced openings say about the claimed values (fri/src/two_adic_pcs.rs verify, and
    the check of openings it hands to fri/src/verifier.rs). *)
From Coq Require Import ZArith List Arith Bool Lia Field Sorted.
From Verif Require Import ScriptNum ScriptVM TaptreeModel TcsModel TcsProofs PropTcs ChallengerModel ChallengerProofs PropChallenger
  Field BabyBear FriModel FriProofs FriProofs2 FriInst PropFri PcsModel PolyExt PcsProofs PcsProofs2 PcsInst PropPcs
  StarkModel StarkPoly StarkProofs StarkProofs2 PropStark PropFold.
Import ListNotations.
Open Scope nat_scope.

(** ** Linear combinations with powers of enough challenges *)
Section Vander.
  Variable K : two_adic.
  Add Field KFD : (fth K).
  Local Open Scope F_scope.
  Variable N d : nat.
  Variable pt : nat -> K.
  Definition good (f : nat -> K) : Prop := exists Q, (length Q <= d)%nat /\ forall j, (j < N)%nat -> peval Q (pt j) = f j.
  Lemma good_ext f g : good f -> (forall j, (j < N)%nat -> f j = g j) -> good g.
  Proof. intros (Q & L & E) H. exists Q. split; [exact L|]. intros j Hj. now rewrite E, H. Qed.
  Lemma good_lin a b f g : good f -> good g -> good (fun j => a * f j + b * g j).
  Proof.
    intros (P & L1 & E1) (Q & L2 & E2). exists (padd (pscale a P) (pscale b Q)). split; [rewrite padd_length, !pscale_length; lia|].
    intros j Hj. now rewrite peval_padd, !peval_pscale, E1, E2.
  Qed.
  Definition comb (us : list (nat -> K)) (a : K) (j : nat) : K := peval (map (fun u => u j) us) a.
  Fixpoint tails (a : K) (us : list (nat -> K)) : list (nat -> K) := match us with [] => [] | u :: us => comb (u :: us) a :: tails a us end.
  Lemma tails_length a us : length (tails a us) = length us.
  Proof. induction us; cbn; auto. Qed.
  Lemma tails_ok a b us j : forall u, (b - a) * comb (tails a us) b j = comb (u :: us) b j - comb (u :: us) a j.
  Proof.
    unfold comb. induction us as [|v us IH]; intros u; cbn [tails map peval]; [ring|].
    transitivity ((b - a) * comb (v :: us) a j + b * ((b - a) * peval (map (fun u => u j) (tails a us)) b)); [unfold comb; cbn [map peval]; ring|].
    rewrite (IH v). unfold comb. cbn [map peval]. ring.
  Qed.
  Lemma tails_good a us : forall u, good (comb (u :: us) a) -> Forall good (tails a us) -> Forall good (u :: us).
  Proof.
    induction us as [|v us IH]; intros u G F.
    - constructor; [|constructor]. apply (good_ext _ _ G). intros j _. unfold comb. cbn [map peval]. ring.
    - cbn [tails] in F. inversion_clear F as [|? ? G1 F1]. constructor; [|apply IH; assumption].
      apply (good_ext _ _ (good_lin 1 (- a) _ _ G G1)). intros j _. unfold comb. cbn [map peval]. ring.
  Qed.
  Lemma all_good : forall n us alphas, length us = n -> (n <= length alphas)%nat -> NoDup alphas -> (forall a, In a alphas -> good (comb us a)) -> Forall good us.
  Proof.
    induction n as [|n IH]; intros us alphas Lu La ND A; [destruct us; [constructor|discriminate]|].
    destruct us as [|u us]; [discriminate|]. destruct alphas as [|a alphas]; [cbn in La; lia|]. inversion_clear ND as [|? ? Na ND'].
    apply (tails_good a); [apply A; now left|]. apply (IH _ alphas); [rewrite tails_length; cbn in Lu; lia|cbn in La; lia|exact ND'|].
    intros b Ib. assert (b - a <> 0) as Nb by (apply fsub_nz; intros ->; contradiction).
    apply (good_ext _ _ (good_lin (/ (b - a)) (- / (b - a)) _ _ (A b (or_intror Ib)) (A a (or_introl eq_refl)))).
    intros j _. transitivity (/ (b - a) * (comb (u :: us) b j - comb (u :: us) a j)); [ring|]. rewrite <- tails_ok. field. exact Nb.
  Qed.
  Lemma comb_good us a : Forall good us -> good (comb us a).
  Proof.
    induction 1 as [|u us G F IH]; [exists []; split; [cbn; lia|reflexivity]|]. apply (good_ext _ _ (good_lin 1 a _ _ G IH)). intros j _. unfold comb. cbn [map peval]. ring.
  Qed.
End Vander.

Section Desc.
  Lemma in_desc {A} (f : nat -> option A) v : forall n, In v (desc n f) <-> exists k, k < n /\ f k = Some v.
  Proof.
    induction n as [|n IH]; cbn [desc]; [split; [contradiction|intros (k & L & _); lia]|].
    destruct (f n) as [a|] eqn:Ef; cbn [In]; rewrite IH; split.
    - intros [->|(k & L & E)]; [exists n; auto|exists k; auto].
    - intros (k & L & E). destruct (Nat.eq_dec k n) as [->|N]; [left; congruence|right; exists k; split; [lia|exact E]].
    - intros (k & L & E). exists k; auto.
    - intros (k & L & E). destruct (Nat.eq_dec k n) as [->|N]; [congruence|exists k; split; [lia|exact E]].
  Qed.
End Desc.

(** ** C95: wrong claimed values and the batching challenge *)
Section C95.
  Variables V T : two_adic.
  Variable emb : V -> T.
  Variable generator : V.
  Variable M0 : mmcs V.
  Variable config : fri_config.
  Add Field TD : (fth T).
  Notation lb := (log_blowup config).
  Notation mat := (coset V * matrix V * list T)%type.
  Notation height_of x := (log_n (dom V T x) + lb).
  Notation pt := (at_point V T emb generator).

  (** A claim: column c of matrix x has value y at z. *)
  Notation claim := (mat * nat * T * T)%type.
  Definition claims (k : nat) (rs : list (list mat)) (opened : list (list (list (list T)))) : list claim :=
    flat_map (fun ro => flat_map (fun xo =>
      if height_of (fst xo) =? k
      then flat_map (fun zy => map (fun cy => (fst xo, fst cy, snd cy, fst zy)) (List.combine (seq 0 (width V (evals V T (fst xo)))) (snd zy)))
             (List.combine (points V T (fst xo)) (snd xo))
      else []) (List.combine (fst ro) (snd ro))) (List.combine rs opened).
  (** It is right up to degree d: some polynomial of at most d + 1 coefficients runs through the committed
      values and has value y at z. *)
  Definition right (k d : nat) (c : claim) : Prop := match c with (x, c, y, z) =>
    exists P, length P <= d + 1 /\ (forall j, j < 2 ^ k -> peval P (pt k j) = emb (nth c (row_of (evals V T x) j) f0)) /\ peval P z = y end.
  (** The word that the verifier's reduced openings of height k spell out over all queries. *)
  Definition spells (lg k : nat) (alpha : T) rs comms opened (w : list T) : Prop :=
    length w = 2 ^ k /\
    forall q, q < 2 ^ lg -> exists qt proofs os, length proofs = length rs /\
      Forall (fun rcp => m_verify_batch M0 qt (queried V T config lg q (fst (fst rcp))) (snd rcp) (snd (fst rcp)) = Ok tt) (List.combine (List.combine rs comms) proofs) /\
      pcs_open_input V T emb generator M0 config alpha lg (told_all V T M0 rs comms opened) qt q (List.combine (map (queried V T config lg q) rs) proofs) = Ok os /\
      In (k, nth (q / 2 ^ (lg - k)) w f0) os.
  (** What is committed (any contents), opened and told. *)
  Definition deep_setting (lg k : nat) rs (comms : list (m_comm M0)) (opened : list (list (list (list T)))) : Prop :=
    embedding V T emb /\ generator <> f0 /\ lg <= two_adicity V /\ k <= lg /\
    Forall (fun r => r <> [] /\ Forall (committed_matrix V T emb generator config lg) r) rs /\
    length comms = length rs /\ Forall2 (fun r o => length r = length o) rs opened.

  Definition term (k : nat) (c : claim) (j : nat) : T := match c with (x, c, y, z) =>
    fdiv (fsub (emb (nth c (row_of (evals V T x) j) f0)) y) (fsub (pt k j) z) end.
  Lemma combine_row {A B} (d : A) : forall (l : list A) (ys : list B), List.combine l ys = map (fun cy => (nth (fst cy) l d, snd cy)) (List.combine (seq 0 (length l)) ys).
  Proof.
    assert (forall (l l0 : list A) (ys : list B) a, (forall c, nth (a + c) l0 d = nth c l d) ->
      List.combine l ys = map (fun cy => (nth (fst cy) l0 d, snd cy)) (List.combine (seq a (length l)) ys)) as G.
    { induction l as [|x l IH]; intros l0 [|y ys] a H; try reflexivity. cbn [length seq List.combine map fst snd]. rewrite (IH l0 ys (S a)).
      - f_equal. f_equal. rewrite <- (Nat.add_0_r a). symmetry. apply (H 0).
      - intros c. rewrite <- (H (S c) : _ = nth c l d). f_equal. lia. }
    intros l ys. now apply G.
  Qed.
  Lemma summands_claims lg k rs opened j : Forall (fun r => r <> [] /\ Forall (committed_matrix V T emb generator config lg) r) rs -> j < 2 ^ k ->
    summands V T emb generator config k j rs opened = map (fun c => term k c j) (claims k rs opened).
  Proof.
    intros F Hj. unfold summands, claims.
    assert (forall ro, In ro (List.combine rs opened) -> Forall (committed_matrix V T emb generator config lg) (fst ro)) as Fr.
    { intros [r o] I. apply in_combine_l in I. rewrite Forall_forall in F. exact (proj2 (F _ I)). }
    induction (List.combine rs opened) as [|ro l IH]; [reflexivity|]. cbn [flat_map]. rewrite map_app, IH by (intros; apply Fr; now right). f_equal.
    specialize (Fr ro (or_introl eq_refl)). clear IH.
    assert (forall xo, In xo (List.combine (fst ro) (snd ro)) -> committed_matrix V T emb generator config lg (fst xo)) as Fx.
    { intros [x o] I. apply in_combine_l in I. rewrite Forall_forall in Fr. exact (Fr _ I). }
    induction (List.combine (fst ro) (snd ro)) as [|xo m IH]; [reflexivity|]. cbn [flat_map]. rewrite map_app, IH by (intros; apply Fx; now right). f_equal.
    specialize (Fx xo (or_introl eq_refl)). destruct (Nat.eqb_spec (height_of (fst xo)) k) as [Ek|Ek]; [|reflexivity].
    destruct Fx as (Hr & _). rewrite Ek in Hr.
    pose proof (row_length V T generator (fun _ _ _ => None) f0 (evals V T (fst xo)) k j Hr Hj) as Lr. rewrite <- Lr. clear.
    induction (List.combine (points V T (fst xo)) (snd xo)) as [|[z ys] m IH]; [reflexivity|]. cbn [flat_map]. rewrite map_app, IH. f_equal. clear IH. cbn [fst snd].
    rewrite (combine_row f0), !map_map. reflexivity.
  Qed.
  Lemma pt_eq k j : embedding V T emb -> k <= two_adicity V -> pt k j = fmul (emb generator) (fpow (gen k) (reverse_bits_len j k)).
  Proof. intros E L. unfold at_point. now rewrite (emb_mul _ _ _ E), (emb_pow V T emb E), (emb_gen _ _ _ E). Qed.
  Lemma domain_nodup k : embedding V T emb -> generator <> f0 -> k <= two_adicity V -> NoDup (map (pt k) (seq 0 (2 ^ k))).
  Proof.
    intros E N L. apply (nodup_map_in (pt k)); [apply seq_NoDup|]. intros i j Hi Hj Eq. apply in_seq in Hi, Hj.
    unfold at_point in Eq. apply (emb_inj V T emb E) in Eq. apply (fmul_cancel_l V generator _ _ N) in Eq.
    apply (gen_pow_inj V k L) in Eq; [|apply rbl_lt|apply rbl_lt]. rewrite <- (rbl_invol i k), <- (rbl_invol j k) by lia. now rewrite Eq.
  Qed.
  Lemma in_claims k rs opened x c y z : In (x, c, y, z) (claims k rs opened) ->
    exists r o ov ys, In (r, o) (List.combine rs opened) /\ In (x, ov) (List.combine r o) /\ height_of x = k /\ In (z, ys) (List.combine (points V T x) ov).
  Proof.
    unfold claims. rewrite in_flat_map. intros ([r o] & Ir & I). apply in_flat_map in I as ([x' ov] & Ix & I). cbn [fst snd] in *.
    destruct (Nat.eqb_spec (height_of x') k) as [Ek|Ek]; [|contradiction].
    apply in_flat_map in I as ([z' ys] & Iz & I). cbn [fst snd] in *. apply in_map_iff in I as ([p y'] & Eq & I). cbn [fst snd] in Eq. injection Eq as -> -> -> ->.
    exists r, o, ov, ys. auto.
  Qed.
  Lemma claim_off lg k rs comms opened x c y z j : deep_setting lg k rs comms opened -> In (x, c, y, z) (claims k rs opened) -> j < 2 ^ k -> pt k j <> z.
  Proof.
    intros (E & Ng & L & Lk & F & Lc & Fo) Ic Hj. apply in_claims in Ic as (r & o & ov & ys & Ir & Ix & Ek & Iz).
    apply in_combine_l in Ir, Ix, Iz. rewrite Forall_forall in F. destruct (F r Ir) as (_ & F1). rewrite Forall_forall in F1. destruct (F1 x Ix) as (_ & _ & O).
    exact (off_coset_le V T emb generator lg L z k j (outside_off V T emb generator lg z (O z Iz)) ltac:(lia) Hj).
  Qed.
  Lemma word_terms lg k alpha rs comms opened w : deep_setting lg k rs comms opened -> spells lg k alpha rs comms opened w ->
    forall j, j < 2 ^ k -> nth j w f0 = comb T (map (term k) (claims k rs opened)) alpha j.
  Proof.
    intros (E & Ng & L & Lk & F & Lc & Fo) (Lw & W) j Hj.
    assert (2 ^ lg = 2 ^ k * 2 ^ (lg - k)) as Pg by (rewrite <- Nat.pow_add_r; f_equal; lia).
    assert (1 <= 2 ^ (lg - k)) as P1 by (pose proof (Nat.pow_nonzero 2 (lg - k)); lia).
    assert (j * 2 ^ (lg - k) < 2 ^ lg) as Hq by (rewrite Pg; apply Nat.mul_lt_mono_pos_r; lia).
    destruct (W (j * 2 ^ (lg - k)) Hq) as (qt & proofs & os & Lp & Vb & Eo & Io).
    rewrite (C39_verifier V T emb generator M0 config (fun _ _ _ => None) alpha lg qt (j * 2 ^ (lg - k)) rs comms proofs opened L Hq F Lc Lp Fo Vb) in Eo.
    apply (f_equal (fun o => match o with Ok l => l | _ => [] end)) in Eo. cbv beta iota in Eo. rewrite <- Eo in Io. clear Eo. apply in_desc in Io as (k' & Hk & Eo).
    destruct (has_height V T config k' rs); [|discriminate]. injection Eo as -> Eo.
    rewrite Nat.div_mul in Eo by lia. rewrite <- Eo, (summands_claims lg k rs opened j F Hj). unfold comb. now rewrite map_map.
  Qed.
  (** codewords over the coset *)
  Lemma codeword_good k d w : embedding V T emb -> generator <> f0 -> k <= two_adicity V -> length w = 2 ^ k ->
    low T k d w <-> good T (2 ^ k) d (pt k) (fun j => nth j w f0).
  Proof.
    intros E Ng L Lw. assert (emb generator <> f0) as Ne by (now apply (emb_nz V T emb E)). rewrite low_iff. split.
    - intros (p & Lp & ->). exists (pcomp T (finv (emb generator)) p). rewrite pcomp_length. split; [exact Lp|]. intros j Hj.
      rewrite codeword_nth by exact Hj. rewrite pcomp_ok. f_equal. rewrite pt_eq by assumption. field. exact Ne.
    - intros (p & Lp & Ep). exists (pcomp T (emb generator) p). rewrite pcomp_length. split; [exact Lp|].
      apply nth_ext with (d := f0) (d' := f0); [now rewrite codeword_length|]. intros j Hj. rewrite Lw in Hj.
      rewrite codeword_nth by exact Hj. rewrite pcomp_ok, <- pt_eq by assumption. symmetry. now apply Ep.
  Qed.
  Lemma term_right lg k d rs comms opened c : deep_setting lg k rs comms opened -> In c (claims k rs opened) ->
    good T (2 ^ k) d (pt k) (term k c) <-> right k d c.
  Proof.
    intros DS Ic. destruct c as [[[x c] y] z]. unfold good, right, term.
    assert (forall j, j < 2 ^ k -> fsub (pt k j) z <> f0) as Nz by (intros j Hj; apply fsub_nz; eapply claim_off; eassumption). split.
    - intros (Q & LQ & EQ). exists (padd (pmul [fopp z; f1] Q) [y]). split; [|split].
      + rewrite padd_length. destruct d as [|d].
        * destruct Q; [|cbn in LQ; lia]. assert (length (pmul [fopp z; f1] ([] : list T)) <= 1) by (cbn; lia). cbn [length] in *. lia.
        * pose proof (pmul_length T [fopp z; f1] Q 1 d ltac:(cbn; lia) ltac:(lia)). cbn [length]. lia.
      + intros j Hj. rewrite peval_padd, peval_pmul, (EQ j Hj). cbn [peval]. specialize (Nz j Hj). field. exact Nz.
      + rewrite peval_padd, peval_pmul. cbn [peval]. ring.
    - intros (P & LP & EP & Ez). exists (pquot T P z). rewrite pquot_length. split; [lia|]. intros j Hj. rewrite <- (EP j Hj), <- Ez, (pquot_ok T P z (pt k j)).
      specialize (Nz j Hj). field. exact Nz.
  Qed.

  (** ** Theorems *)
  (** If the reduced openings of height k spell out a low-degree word for as many challenges as there are
      claims at this height, every claim is right. *)
  Theorem C95_openings_sound : forall lg k rs comms opened alphas, deep_setting lg k rs comms opened ->
    NoDup alphas -> length (claims k rs opened) <= length alphas ->
    (forall alpha, In alpha alphas -> exists w, spells lg k alpha rs comms opened w /\ codeword_of T lb k w) ->
    Forall (right k (2 ^ (k - lb))) (claims k rs opened).
  Proof.
    intros lg k rs comms opened alphas DS ND La A. pose proof DS as (E & Ng & L & Lk & F & Lc & Fo).
    assert (Forall (good T (2 ^ k) (2 ^ (k - lb)) (pt k)) (map (term k) (claims k rs opened))) as G.
    { apply (all_good T (2 ^ k) (2 ^ (k - lb)) (pt k) (length (claims k rs opened)) _ alphas); [apply map_length|exact La|exact ND|].
      intros alpha Ia. destruct (A alpha Ia) as (w & W & Cw). apply codeword_good in Cw; [|exact E|exact Ng|lia|exact (proj1 W)].
      apply (good_ext _ _ _ _ _ _ Cw). intros j Hj. exact (word_terms lg k alpha rs comms opened w DS W j Hj). }
    rewrite Forall_forall in G |- *. intros c Ic. apply (term_right lg k _ rs comms opened c DS Ic). apply G. now apply in_map.
  Qed.
  (** If every claim is right, they spell one out for every challenge. *)
  Theorem C95_right_claims_pass : forall lg k rs comms opened alpha w, deep_setting lg k rs comms opened ->
    Forall (right k (2 ^ (k - lb))) (claims k rs opened) -> spells lg k alpha rs comms opened w -> codeword_of T lb k w.
  Proof.
    intros lg k rs comms opened alpha w DS R W. pose proof DS as (E & Ng & L & Lk & F & Lc & Fo).
    apply codeword_good; [exact E|exact Ng|lia|exact (proj1 W)|].
    apply (good_ext T _ _ _ (comb T (map (term k) (claims k rs opened)) alpha)).
    - apply comb_good. rewrite Forall_forall in R |- *. intros u Iu. apply in_map_iff in Iu as (c & <- & Ic). apply (term_right lg k _ rs comms opened c DS Ic). now apply R.
    - intros j Hj. symmetry. exact (word_terms lg k alpha rs comms opened w DS W j Hj).
  Qed.
  (** There is such a word whenever the opened rows pass the Mmcs. *)
  Theorem C95_spelled : forall lg k rs comms opened alpha, deep_setting lg k rs comms opened -> has_height V T config k rs = true ->
    (forall q, q < 2 ^ lg -> exists qt proofs, length proofs = length rs /\
      Forall (fun rcp => m_verify_batch M0 qt (queried V T config lg q (fst (fst rcp))) (snd rcp) (snd (fst rcp)) = Ok tt) (List.combine (List.combine rs comms) proofs)) ->
    exists w, spells lg k alpha rs comms opened w.
  Proof.
    intros lg k rs comms opened alpha (E & Ng & L & Lk & F & Lc & Fo) Hh Hq.
    exists (map (fun j => peval (summands V T emb generator config k j rs opened) alpha) (seq 0 (2 ^ k))). split; [now rewrite map_length, seq_length|].
    intros q Lq. destruct (Hq q Lq) as (qt & proofs & Lp & Vb). exists qt, proofs. eexists. split; [exact Lp|]. split; [exact Vb|].
    split; [exact (C39_verifier V T emb generator M0 config (fun _ _ _ => None) alpha lg qt q rs comms proofs opened L Lq F Lc Lp Fo Vb)|].
    apply in_desc. exists k. split; [lia|]. rewrite Hh. f_equal. f_equal. rewrite nth_map_seq; [reflexivity|].
    apply div_lt_pow. now replace (lg - k + k) with lg by lia.
  Qed.
  (** For a committed low-degree extension a right claim is the value of its polynomial. *)
  Theorem C95_true_value : forall lg k rs comms opened x c y z p, deep_setting lg k rs comms opened -> 2 ^ (k - lb) < 2 ^ k ->
    right k (2 ^ (k - lb)) (x, c, y, z) -> length p <= 2 ^ (k - lb) ->
    (forall j, j < 2 ^ k -> nth c (row_of (evals V T x) j) f0 = peval p (fmul generator (fpow (gen k) (reverse_bits_len j k)))) ->
    y = peval (map emb p) z.
  Proof.
    intros lg k rs comms opened x c y z p (E & Ng & L & Lk & _) Ld (P & LP & EP & Ez) Lp Hp. rewrite <- Ez. apply fsub_0.
    rewrite <- (psub_eval T). apply (poly_roots T (map (pt k) (seq 0 (2 ^ k)))).
    - apply domain_nodup; [exact E|exact Ng|lia].
    - rewrite padd_length, pscale_length, map_length, map_length, seq_length. lia.
    - intros t It. apply in_map_iff in It as (j & <- & Ij). apply in_seq in Ij. rewrite psub_eval, EP, Hp by lia. rewrite (emb_peval V T emb E). unfold at_point. ring.
  Qed.
End C95.

(** ** Examples *)
(** One matrix of four rows, one column with the values of a polynomial, opened at two points. *)
Definition deepX (p : list BabyBearT) : coset BabyBearT * matrix BabyBearT * list BabyBearT :=
  ({| log_n := 1; shift := f1 |},
   {| width := 1; values := map (fun j => peval p (fmul exG (fpow (gen 2) (reverse_bits_len j 2)))) (seq 0 4) |}, [exZ; exZ2]).
Definition deepC p : list (m_comm exM) := [[evals _ _ (deepX p)]].
Lemma deep_ok p opened : Forall2 (fun r o => length r = length o) [[deepX p]] opened ->
  deep_setting BabyBearT BabyBearT exE exG exM cfg2 2 2 [[deepX p]] (deepC p) opened.
Proof.
  intros Fo. split; [exact ex_embedding|]. split; [intros E; apply feqb_ok in E; vm_compute in E; discriminate|]. split; [cbn; lia|]. split; [lia|].
  split; [|split; [reflexivity|exact Fo]]. constructor; [|constructor]. split; [discriminate|]. constructor; [|constructor].
  split; [split; [cbn; lia|reflexivity]|]. split; [cbn; lia|].
  assert (forall z : BabyBearT, forallb (fun i => negb (feqb (fmul exG (fpow (gen 2) i)) z)) (seq 0 4) = true -> outside BabyBearT BabyBearT exE exG 2 z) as O.
  { intros z F i Hi E. rewrite forallb_forall in F. change (2 ^ 2) with 4 in Hi. specialize (F i). rewrite in_seq in F. specialize (F ltac:(lia)).
    unfold exE in E. rewrite E, feqb_refl in F. discriminate. }
  intros z [<-|[<-|[]]]; apply O; vm_compute; reflexivity.
Qed.
Lemma list_eqb_all (a b : list (list BabyBearT)) : a = b -> list_eqb (list_eqb feqb) a b = true.
Proof. intros ->. apply list_eqb_refl. intros l. apply list_eqb_refl. apply feqb_refl. Qed.
Lemma deep_spelled p opened alpha : Forall2 (fun r o => length r = length o) [[deepX p]] opened ->
  exists w, spells BabyBearT BabyBearT exE exG exM cfg2 2 2 alpha [[deepX p]] (deepC p) opened w.
Proof.
  intros Fo. apply C95_spelled; [now apply deep_ok|reflexivity|]. intros q Hq. exists 0, [q]. split; [reflexivity|]. constructor; [|constructor]. cbn [fst snd].
  change (2 ^ 2) with 4 in Hq. unfold exM, plain_mmcs. cbn [m_verify_batch]. rewrite list_eqb_all; [reflexivity|].
  destruct q as [|[|[|[|q]]]]; [reflexivity..|lia].
Qed.
Definition told2 (y1 y2 : BabyBearT) : list (list (list (list BabyBearT))) := [[[[y1]; [y2]]]].
Lemma deep_claims p y1 y2 : claims BabyBearT BabyBearT cfg2 2 [[deepX p]] (told2 y1 y2) = [(deepX p, 0, y1, exZ); (deepX p, 0, y2, exZ2)].
Proof. reflexivity. Qed.
Lemma deep_rows p : forall j, j < 2 ^ 2 -> nth 0 (row_of (evals BabyBearT BabyBearT (deepX p)) j) f0 = peval p (fmul exG (fpow (gen 2) (reverse_bits_len j 2))).
Proof. intros j Hj. change (2 ^ 2) with 4 in Hj. destruct j as [|[|[|[|j]]]]; [reflexivity..|lia]. Qed.
(** A wrong value at the second point is hidden by at most one alpha. *)
Example C95_example_wrong : forall a b wa wb, a <> b ->
  let p := ints [3; 5]%Z in let opened := told2 (peval p exZ) (of_Z 0) in
  spells BabyBearT BabyBearT exE exG exM cfg2 2 2 a [[deepX p]] (deepC p) opened wa ->
  spells BabyBearT BabyBearT exE exG exM cfg2 2 2 b [[deepX p]] (deepC p) opened wb ->
  ~ (codeword_of BabyBearT 1 2 wa /\ codeword_of BabyBearT 1 2 wb).
Proof.
  intros a b wa wb N p opened Wa Wb [Ca Cb].
  assert (Forall2 (fun (r : list (coset BabyBearT * matrix BabyBearT * list BabyBearT)) (o : list (list (list BabyBearT))) => length r = length o) [[deepX p]] opened) as Fo by (repeat constructor).
  pose proof (C95_openings_sound BabyBearT BabyBearT exE exG exM cfg2 2 2 [[deepX p]] (deepC p) opened [a; b] (deep_ok p opened Fo)) as R.
  assert (NoDup [a; b]) as ND by (constructor; [intros [E|[]]; now apply N|constructor; [intros []|constructor]]).
  specialize (R ND (le_n 2)).
  assert (Forall (right BabyBearT BabyBearT exE exG 2 (2 ^ (2 - 1))) [(deepX p, 0, peval p exZ, exZ); (deepX p, 0, of_Z 0, exZ2)]) as R2.
  { apply R. intros al [<-|[<-|[]]]; [exists wa|exists wb]; split; assumption. }
  clear R. inversion_clear R2 as [|? ? _ R3]. inversion_clear R3 as [|? ? R2 _].
  pose proof (C95_true_value BabyBearT BabyBearT exE exG exM cfg2 2 2 [[deepX p]] (deepC p) opened (deepX p) 0 (of_Z 0) exZ2 p (deep_ok p opened Fo)
    ltac:(cbn; lia) R2 ltac:(cbn; lia) (deep_rows p)) as Q. apply feqb_ok in Q. vm_compute in Q. discriminate.
Qed.
(** Right values pass for every alpha, also when the committed polynomial has one coefficient more (three
    instead of two) than the low-degree extension of a two-row matrix can have. *)
Example C95_example_right : forall p alpha, In p [ints [3; 5]%Z; ints [3; 5; 7]%Z] ->
  let opened := told2 (peval p exZ) (peval p exZ2) in
  exists w, spells BabyBearT BabyBearT exE exG exM cfg2 2 2 alpha [[deepX p]] (deepC p) opened w /\ codeword_of BabyBearT 1 2 w.
Proof.
  intros p alpha Ip opened.
  assert (Forall2 (fun (r : list (coset BabyBearT * matrix BabyBearT * list BabyBearT)) (o : list (list (list BabyBearT))) => length r = length o) [[deepX p]] opened) as Fo by (repeat constructor).
  destruct (deep_spelled p opened alpha Fo) as (w & W). exists w. split; [exact W|].
  apply (C95_right_claims_pass BabyBearT BabyBearT exE exG exM cfg2 2 2 [[deepX p]] (deepC p) opened alpha w (deep_ok p opened Fo)); [|exact W].
  unfold opened. rewrite deep_claims.
  assert (length p <= 2 ^ (2 - 1) + 1) as Lp by (destruct Ip as [<-|[<-|[]]]; cbn; lia).
  constructor; [|constructor; [|constructor]]; exists p; (split; [exact Lp|split; [|reflexivity]]); intros j Hj; rewrite (deep_rows p j Hj); reflexivity.
Qed.
