(** Property C86: the Fibonacci AIR, end to end. *)
From Coq Require Import ZArith List Arith Bool Lia Field Sorted.
From Verif Require Import ScriptNum ScriptVM TaptreeModel TcsModel TcsProofs PropTcs ChallengerModel ChallengerProofs PropChallenger
  Field BabyBear FriModel FriProofs FriProofs2 FriInst PropFri PcsModel PolyExt PcsProofs PcsProofs2 PcsInst PropPcs
  StarkModel StarkPoly StarkProofs StarkProofs2 PropStark FibModel.
Import ListNotations.
Local Open Scope nat_scope.

Section Fib.
  Variable V : two_adic.
  Local Open Scope F_scope.
  Add Field VFib : (fth V).

  (** ** Specification *)

  (** The Fibonacci sequence that starts with [a] and [b] *)
  Definition fibonacci (a b : V) (f : nat -> V) : Prop :=
    f 0%nat = a /\ f 1%nat = b /\ forall i, f (i + 2)%nat = f i + f (i + 1)%nat.
  (** Row i of the trace holds entries i and i + 1. *)
  Definition holds_sequence (n : nat) (trace : matrix V) (f : nat -> V) : Prop :=
    forall i, (i < n)%nat -> row V trace i = Some [f i; f (i + 1)%nat].

  Fixpoint fib_pair (a b : V) (i : nat) : V * V :=
    match i with
    | O => (a, b)
    | S i => let p := fib_pair a b i in (snd p, fst p + snd p)
    end.
  Lemma fib_exists a b : fibonacci a b (fun i => fst (fib_pair a b i)).
  Proof.
    split; [reflexivity|]. split; [reflexivity|]. intros i. rewrite (Nat.add_comm i 2), (Nat.add_comm i 1). reflexivity.
  Qed.
  Lemma fib_unique a b f g : fibonacci a b f -> fibonacci a b g -> forall i, f i = g i.
  Proof.
    intros (F0 & F1 & F2) (G0 & G1 & G2) i. enough (f i = g i /\ f (i + 1)%nat = g (i + 1)%nat) by tauto.
    induction i as [|i [I1 I2]]; [cbn; split; congruence|].
    replace (S i + 1)%nat with (i + 2)%nat by lia. replace (S i) with (i + 1)%nat by lia. split; [exact I2|]. rewrite F2, G2. congruence.
  Qed.

  (** ** The trace generator *)
  Lemma next_rows_length n : forall a b, length (next_rows V a b n) = (2 * n)%nat.
  Proof. induction n as [|n IH]; intros a b; [reflexivity|]. cbn [next_rows length]. rewrite IH. lia. Qed.
  Lemma next_rows_at n : forall a b i, (i < n)%nat ->
    nth_error (next_rows V a b n) (2 * i) = Some (fst (fib_pair a b (S i))) /\
    nth_error (next_rows V a b n) (2 * i + 1) = Some (snd (fib_pair a b (S i))).
  Proof.
    assert (forall a b i, fib_pair b (a + b) i = fib_pair a b (S i)) as Sh.
    { intros a b i. induction i as [|i IH]; [reflexivity|]. cbn [fib_pair] in *. now rewrite IH. }
    induction n as [|n IH]; intros a b i Hi; [lia|]. destruct i as [|i]; [split; reflexivity|].
    destruct (IH b (a + b) i ltac:(lia)) as [E1 E2]. rewrite (Sh a b (S i)) in E1, E2.
    replace (2 * S i)%nat with (S (S (2 * i))) by lia. replace (S (S (2 * i)) + 1)%nat with (S (S (2 * i + 1))) by lia.
    split; [exact E1|exact E2].
  Qed.
  Lemma two_firstn {X} (l : list X) i x y : nth_error l i = Some x -> nth_error l (i + 1) = Some y ->
    firstn 2 (skipn i l) = [x; y].
  Proof.
    revert i. induction l as [|z l IH]; intros [|i] E1 E2; try discriminate.
    - injection E1 as ->. cbn in E2. destruct l as [|w l]; [discriminate|]. injection E2 as ->. reflexivity.
    - cbn [skipn]. apply IH; assumption.
  Qed.
  Lemma fib_pair_snd a b i : snd (fib_pair a b i) = fst (fib_pair a b (i + 1)).
  Proof. rewrite Nat.add_comm. reflexivity. Qed.

  (** generate_trace_rows panics exactly when n is not a power of two, and otherwise gives n rows that
      hold the sequence; the public values of the test are the two first entries and the last one. *)
  Theorem C86_trace : forall a b n f, fibonacci a b f ->
    (generate_trace_rows V a b n = None <-> ~ exists k, n = (2 ^ k)%nat) /\
    forall k, n = (2 ^ k)%nat -> exists trace, generate_trace_rows V a b n = Some trace /\ has_rows trace k /\ width V trace = 2%nat /\
      holds_sequence n trace f /\ public_values V a b trace = Some [a; b; f n].
  Proof.
    intros a b n f Hf. assert (is_power_of_two n = true <-> exists k, n = (2 ^ k)%nat) as P.
    { unfold is_power_of_two. rewrite andb_true_iff, negb_true_iff, Nat.eqb_neq, Nat.eqb_eq. split.
      - intros [_ E]. exists (Nat.log2 n). congruence.
      - intros (k & ->). split; [apply Nat.pow_nonzero; lia|]. now rewrite Nat.log2_pow2 by lia. }
    unfold generate_trace_rows. split.
    - rewrite <- P. destruct (is_power_of_two n); split; congruence.
    - intros k Hn. rewrite (proj2 P) by eauto. eexists. split; [reflexivity|].
      assert (1 <= n)%nat as N1 by (rewrite Hn; pose proof (Nat.pow_nonzero 2 k); lia).
      pose proof (fib_unique a b _ _ Hf (fib_exists a b)) as U.
      assert (forall i, (i < n)%nat -> nth_error (a :: b :: next_rows V a b (n - 1)) (2 * i) = Some (f i) /\
        nth_error (a :: b :: next_rows V a b (n - 1)) (2 * i + 1) = Some (f (i + 1)%nat)) as At.
      { intros i Hi. rewrite !U. destruct i as [|i]; [split; reflexivity|].
        destruct (next_rows_at (n - 1) a b i ltac:(lia)) as [E1 E2].
        replace (2 * S i)%nat with (S (S (2 * i))) by lia. replace (S (S (2 * i)) + 1)%nat with (S (S (2 * i + 1))) by lia.
        cbn [nth_error]. rewrite <- fib_pair_snd. split; assumption. }
      split; [|split; [reflexivity|split]].
      + split; cbn [width values]; [lia|]. cbn [length]. rewrite next_rows_length, <- Hn. lia.
      + intros i Hi. destruct (At i Hi) as [E1 E2]. unfold row. cbn [width values]. cbn [length]. rewrite next_rows_length.
        rewrite (proj2 (Nat.leb_le _ _)) by lia. f_equal. apply two_firstn; rewrite (Nat.mul_comm i 2); assumption.
      + unfold public_values. cbn [values]. change (length (a :: b :: next_rows V a b (n - 1))) with (S (S (length (next_rows V a b (n - 1))))).
        rewrite next_rows_length. destruct (At (n - 1)%nat ltac:(lia)) as [_ E2].
        replace (S (S (2 * (n - 1))) - 1)%nat with (2 * (n - 1) + 1)%nat by lia. rewrite E2. cbn [option_map].
        now replace (n - 1 + 1)%nat with n by lia.
  Qed.

  (** ** The constraints *)

  (** A trace satisfies the AIR exactly when it is the Fibonacci sequence from the first two public
      values to the third. *)
  Theorem C86_constraints_iff : forall k trace a b x rest f, has_rows trace k -> width V trace = 2%nat -> fibonacci a b f ->
    check_constraints V (fibonacci_air V) trace (a :: b :: x :: rest) = true <->
    holds_sequence (2 ^ k) trace f /\ x = f (2 ^ k)%nat.
  Proof.
    intros k trace a b x rest f Hr Hw Hf. rewrite C47_rows.
    assert (height V trace = 2 ^ k)%nat as Hh.
    { unfold height. destruct Hr as [W ->]. destruct (Nat.eqb_spec (width V trace) 0); [lia|]. rewrite Nat.mul_comm, Nat.div_mul by lia. reflexivity. }
    rewrite Hh. pose proof (Nat.pow_nonzero 2 k ltac:(lia)) as N0. set (n := (2 ^ k)%nat) in *.
    assert (forall i, (i < n)%nat -> exists l r, row V trace i = Some [l; r]) as Rw.
    { intros i Hi. unfold row. destruct Hr as [W Lv]. fold n in Lv. rewrite Hw in Lv. rewrite Hw. rewrite (proj2 (Nat.leb_le _ _)) by (rewrite Lv; lia).
      assert (length (firstn 2 (skipn (i * 2) (values V trace))) = 2%nat) as L2.
      { rewrite firstn_length, skipn_length, Lv. lia. }
      destruct (firstn 2 (skipn (i * 2) (values V trace))) as [|l [|r [|? ?]]]; try discriminate L2. eauto. }
    assert (forall u v : V, u - v = 0 <-> u = v) as Sb.
    { intros u v. split; [intros E; transitivity (u - v + v); [ring|rewrite E; ring]|intros ->; ring]. }
    assert (forall (c : bool) (u v : V), Some ((if c then 1 else 0) * (u - v)) = Some 0 <-> (c = true -> u = v)) as On.
    { intros [|] u v; split.
      - intros [= E] _. apply Sb. rewrite <- E. ring.
      - intros E. rewrite (E eq_refl). f_equal. ring.
      - discriminate.
      - intros _. f_equal. ring. }
    assert (forall (c : bool) (u v : V), Some ((if c then 0 else 1) * (u - v)) = Some 0 <-> (c = false -> u = v)) as Off.
    { intros c u v. specialize (On (negb c) u v). destruct c; cbn in On; rewrite On; split; intros X Y; apply X; congruence. }
    assert (forall i l r l' r', Forall (fun c => eval (fun x => x)
      {| w_local := [l; r]; w_next := [l'; r']; w_public := a :: b :: x :: rest; w_first := if (i =? 0)%nat then 1 else 0;
         w_last := if (i =? n - 1)%nat then 1 else 0; w_transition := if (i =? n - 1)%nat then 0 else 1 |} (as_zero c) = Some 0) (air_eval (fibonacci_air V)) <->
      (i = 0%nat -> l = a /\ r = b) /\ (i <> (n - 1)%nat -> l' = r /\ r' = l + r) /\ (i = (n - 1)%nat -> r = x)) as Cs.
    { intros i l r l' r'. cbn [air_eval fibonacci_air]. rewrite !Forall_cons_iff.
      cbn [as_zero eval opt2 nth_error option_map w_local w_next w_public w_first w_last w_transition].
      rewrite !On, !Off, Nat.eqb_eq, Nat.eqb_neq, Nat.eqb_eq. split.
      - intros (C1 & C2 & C3 & C4 & C5 & _). repeat split; auto; symmetry; auto.
      - intros (C1 & C2 & C3). repeat split; try constructor; intros; try (symmetry; apply C2); try apply C1; auto. }
    split.
    - intros A. destruct Hf as (F0 & F1 & F2).
      assert (forall i, (i < n)%nat -> row V trace i = Some [f i; f (i + 1)%nat]) as Hs.
      { induction i as [|i IH]; intros Hi.
        - destruct (A 0%nat Hi) as (lo & ne & E1 & E2 & C). destruct (Rw 0%nat Hi) as (l & r & E). assert (lo = [l; r]) as -> by congruence.
          destruct (Rw _ (Nat.mod_upper_bound (0 + 1) n N0)) as (l' & r' & E').
          assert (ne = [l'; r']) as -> by congruence.
          destruct (proj1 (Cs 0%nat l r l' r') C) as (C1 & _). destruct (C1 eq_refl) as [-> ->].
          rewrite E. cbn. congruence.
        - specialize (IH ltac:(lia)). destruct (A i ltac:(lia)) as (lo & ne & E1 & E2 & C). rewrite IH in E1. injection E1 as <-.
          rewrite Nat.mod_small in E2 by lia. destruct (Rw (i + 1)%nat ltac:(lia)) as (l' & r' & E'). rewrite E' in E2. injection E2 as <-.
          destruct (proj1 (Cs i _ _ l' r') C) as (_ & C2 & _). destruct (C2 ltac:(lia)) as [-> ->].
          replace (S i) with (i + 1)%nat by lia. rewrite E'. rewrite <- F2. replace (i + 1 + 1)%nat with (i + 2)%nat by lia. reflexivity. }
      split; [exact Hs|].
      destruct (A (n - 1)%nat ltac:(lia)) as (lo & ne & E1 & E2 & C). rewrite (Hs (n - 1)%nat ltac:(lia)) in E1. injection E1 as <-.
      destruct (Rw _ (Nat.mod_upper_bound (n - 1 + 1) n N0)) as (l' & r' & E').
      assert (ne = [l'; r']) as -> by congruence.
      destruct (proj1 (Cs (n - 1)%nat _ _ l' r') C) as (_ & _ & C3).
      rewrite <- (C3 eq_refl). f_equal. lia.
    - intros [Hs Hx] i Hi. destruct Hf as (F0 & F1 & F2).
      exists [f i; f (i + 1)%nat]. rewrite (Hs i Hi). destruct (Rw _ (Nat.mod_upper_bound (i + 1) n N0)) as (l' & r' & E').
      exists [l'; r']. split; [reflexivity|]. split; [exact E'|]. apply Cs.
      split; [|split].
      + intros ->. cbn. auto.
      + intros Ni. rewrite Nat.mod_small in E' by lia. rewrite (Hs (i + 1)%nat ltac:(lia)) in E'. injection E' as <- <-.
        split; [reflexivity|]. rewrite <- F2. f_equal. lia.
      + intros ->. rewrite Hx. f_equal. lia.
  Qed.
End Fib.

Section Degree.
  Variable V : two_adic.
  (** The AIR needs one quotient chunk; with fewer than three public values building it panics. *)
  Theorem C86_one_chunk : forall np, get_log_quotient_degree V (fibonacci_air V) np = if (3 <=? np)%nat then Some 0 else None.
  Proof.
    intros [|[|[|np]]]; reflexivity.
  Qed.
  Lemma fib_air_simple np : simple_selectors V (fibonacci_air V) np.
  Proof.
    split.
    - repeat (apply Forall_cons; [eexists; reflexivity|]). apply Forall_nil.
    - intros d _. assert (2 <= Nat.max 2 d) as L by lia.
      repeat (apply Forall_cons; [eapply Nat.lt_le_trans; [|exact L]; apply Nat.ltb_lt; reflexivity|]). apply Forall_nil.
  Qed.
End Degree.

(** ** Proving and verifying *)
Section Run.
  Variables V T : two_adic.
  Variable emb : V -> T.
  Variable D : nat.
  Variable as_base_slice : T -> list V.
  Variable monomial : nat -> T.
  Variable generator : V.
  Variable M0 : mmcs V.
  Variable M : mmcs T.
  Variable Ch : challenger (m_comm M) T.
  Variable observe : c_state Ch -> m_comm M0 -> option (c_state Ch).
  Variable config : fri_config.
  Variable lde : matrix V -> nat -> V -> option (matrix V).
  Variable interp : matrix V -> V -> T -> option (list T).
  Variable sync : c_state Ch -> c_state Ch -> Prop.
  Notation prove := (StarkModel.prove V T emb D as_base_slice generator M0 M Ch observe config lde interp).
  Notation verify := (StarkModel.verify V T emb D monomial generator M0 M Ch observe config).
  Notation transcript := (StarkModel.transcript V T M0 M Ch observe).
  Notation p_trace := (p_trace V T M0 M Ch). Notation p_quotient := (p_quotient V T M0 M Ch).
  Notation stark_setting := (stark_setting V T emb D as_base_slice monomial generator M0 M Ch observe config lde interp sync).
  Notation never_stuck := (never_stuck V T M0 M Ch observe config).
  Notation good_zeta := (good_zeta V T emb generator config).

  Lemma fib_trace_for k a b f : fibonacci V a b f ->
    exists trace, generate_trace_rows V a b (2 ^ k) = Some trace /\ public_values V a b trace = Some [a; b; f (2 ^ k)] /\
      trace_for V k 0 (fibonacci_air V) trace [a; b; f (2 ^ k)].
  Proof.
    intros Hf. destruct (proj2 (C86_trace V a b (2 ^ k) f Hf) k eq_refl) as (tr & E & Hr & Hw & Hs & Ep).
    exists tr. split; [exact E|]. split; [exact Ep|]. split; [exact Hr|]. split; [exact Hw|]. split; [rewrite C86_one_chunk; reflexivity|].
    apply (C86_constraints_iff V k tr a b (f (2 ^ k)) [] f Hr Hw Hf). split; [exact Hs|reflexivity].
  Qed.

  (** The trace of generate_trace_rows can be proved for every power-of-two length and all starting
      values, unless the challenge zeta is one of the few bad points, and every proof made from it is
      accepted for the public values a, b and the last entry of the sequence. *)
  Theorem C86_proved_and_verified : forall k a b f debug st0 st ch d ok, fibonacci V a b f ->
    stark_setting k 0 -> never_stuck ok -> ok ch -> sync ch d ->
    exists trace pv, generate_trace_rows V a b (2 ^ k) = Some trace /\ public_values V a b trace = Some pv /\ pv = [a; b; f (2 ^ k)] /\
    exists tc qc alpha zeta ch1, transcript ch tc qc alpha zeta ch1 /\
      (good_zeta k zeta -> exists pf ch' d', p_trace pf = tc /\ p_quotient pf = qc /\
        prove debug (fibonacci_air V) st0 st ch trace pv pf ch' /\ verify debug (fibonacci_air V) d pf pv = Ok d' /\ sync ch' d').
  Proof.
    intros k a b f debug st0 st ch d ok Hf S Ns O Sy. destruct (fib_trace_for k a b f Hf) as (tr & E & Ep & Tf).
    exists tr, [a; b; f (2 ^ k)]. split; [exact E|]. split; [exact Ep|]. split; [reflexivity|].
    destruct (C67_runs V T emb D as_base_slice monomial generator M0 M Ch observe config lde interp sync k 0 debug (fibonacci_air V) tr _ st0 st ch ok
      S (fib_air_simple V _) Tf Ns O) as (tc & qc & alpha & zeta & ch1 & Tr & Run).
    exists tc, qc, alpha, zeta, ch1. split; [exact Tr|]. intros G. destruct (Run G) as (pf & ch' & Et & Eq & P).
    destruct (C67_accepted V T emb D as_base_slice monomial generator M0 M Ch observe config lde interp sync k 0 debug (fibonacci_air V) tr _ st0 st ch d pf ch'
      S (fib_air_simple V _) Tf Sy P) as (d' & Ev & Sd).
    { intros alpha' zeta' c' Tr'. rewrite Et, Eq in Tr'. destruct (transcript_det V T M0 M Ch observe _ _ _ _ _ _ _ _ _ Tr Tr') as (_ & <- & _). exact G. }
    exists pf, ch', d'. auto.
  Qed.
  (** Finding: for every third public value x there is an accepted proof that the sequence from a, b
      ends in x, although the constraints hold for the right value only. *)
  Theorem C86_wrong_output_accepted : forall k a b x debug (st0 : m_state M0) (st : m_state M) ch d ok,
    stark_setting k 0 -> monomial 0 <> f0 -> never_stuck ok -> ok ch -> sync ch d ->
    exists tc qc alpha zeta ch1, transcript ch tc qc alpha zeta ch1 /\
      (good_zeta k zeta -> exists pf d', p_trace pf = tc /\ p_quotient pf = qc /\ verify debug (fibonacci_air V) d pf [a; b; x] = Ok d').
  Proof.
    intros k a b x debug st0 st ch d ok S Nm Ns O Sy.
    destruct (C68_forgery V T emb D as_base_slice monomial generator M0 M Ch observe config lde interp sync k 0 debug (fibonacci_air V) [a; b; x] [f0; f0] [f0; f0]
      st0 st ch d ok S Nm) as (tc & qc & alpha & zeta & ch1 & Tr & R);
      [rewrite C86_one_chunk; reflexivity|reflexivity|reflexivity|exact Ns|exact O|exact Sy|].
    exists tc, qc, alpha, zeta, ch1. split; [exact Tr|]. intros G. destruct (R G) as (pf & d' & E1 & E2 & _ & _ & _ & Ev). exists pf, d'. auto.
  Qed.
End Run.

(** ** Concrete cases *)

(** Eight rows from 0, 1, as in the tests: the output is 21 *)
Example C86_example_trace : exists trace, generate_trace_rows BabyBearT (bbz 0) (bbz 1) 8 = Some trace /\
  values BabyBearT trace = ints [0; 1; 1; 1; 1; 2; 2; 3; 3; 5; 5; 8; 8; 13; 13; 21]%Z /\
  check_constraints BabyBearT (fibonacci_air BabyBearT) trace (ints [0; 1; 21]%Z) = true /\
  check_constraints BabyBearT (fibonacci_air BabyBearT) trace (ints [0; 1; 22]%Z) = false /\
  generate_trace_rows BabyBearT (bbz 0) (bbz 1) 6 = None.
Proof.
  eexists. split; [reflexivity|]. split; [apply ints_eq; vm_compute; reflexivity|]. split; [vm_compute; reflexivity|]. split; [vm_compute; reflexivity|reflexivity].
Qed.
(** Four rows are proved and verified, and so is the wrong output 100. *)
Example C86_example_run : exists trace pf ch' pf' d',
  generate_trace_rows BabyBearT (bbz 0) (bbz 1) 4 = Some trace /\
  prove BabyBearT BabyBearT exE 1 exS exG exM exM exC exObs cfg2 ex_lde ex_interp true (fibonacci_air BabyBearT) tt tt 0 trace (ints [0; 1; 3]%Z) pf ch' /\
  verify BabyBearT BabyBearT exE 1 exMono exG exM exM exC exObs cfg2 true (fibonacci_air BabyBearT) 0 pf (ints [0; 1; 3]%Z) = Ok ch' /\
  verify BabyBearT BabyBearT exE 1 exMono exG exM exM exC exObs cfg2 true (fibonacci_air BabyBearT) 0 pf' (ints [0; 1; 100]%Z) = Ok d'.
Proof.
  destruct (C86_proved_and_verified BabyBearT BabyBearT exE 1 exS exMono exG exM exM exC exObs cfg2 ex_lde ex_interp eq 2 (bbz 0) (bbz 1) _ true tt tt 0 0 (fun _ => True)
    (fib_exists BabyBearT (bbz 0) (bbz 1)) ex_stark ex_never_stuck Logic.I eq_refl) as (tr & pv & E & _ & Epv & tc & qc & alpha & zeta & ch1 & Tr & R).
  rewrite (ex_transcript _ _ _ _ _ Tr) in R. destruct (R ex_zeta) as (pf & ch' & d' & _ & _ & P & Ev & <-).
  assert (pv = ints [0; 1; 3]%Z) as Ep by (rewrite Epv; apply ints_eq; vm_compute; reflexivity). rewrite Ep in P, Ev.
  destruct (C86_wrong_output_accepted BabyBearT BabyBearT exE 1 exS exMono exG exM exM exC exObs cfg2 ex_lde ex_interp eq 2 (bbz 0) (bbz 1) (bbz 100) true tt tt 0 0 (fun _ => True)
    ex_stark (f1_nz _) ex_never_stuck Logic.I eq_refl) as (tc' & qc' & alpha' & zeta' & ch1' & Tr' & R').
  rewrite (ex_transcript _ _ _ _ _ Tr') in R'. destruct (R' ex_zeta) as (pf' & d'' & _ & _ & Ev').
  exists tr, pf, ch', pf', d''. split; [exact E|]. split; [exact P|]. split; [exact Ev|exact Ev'].
Qed.
