(** Properties of the native challenger (C18-C22, C24, C57, C58). *)
From Coq Require Import ZArith List Bool Lia.
From Coq Require Import ZifyBool ZifyNat.
From Verif Require Import ScriptNum U32Model Lift ChallengerModel ChallengerProofs.
Import ListNotations.
Open Scope Z_scope.

Ltac Zify.zify_post_hook ::= Z.div_mod_to_equations.
Local Opaque Nat.div.

(** ** Histories of calls and their answers *)
Inductive call :=
| Observe (v : word4)
| Sample
| SampleBits (bits : nat)
| CheckWitness (bits : nat) (w : word4).
Inductive answer := ANone | AField (f : list Z) | ANum (z : Z) | ABool (b : bool).

Section Drive.
  Variable WIDTH : nat.
  Variable perm : list word4 -> list word4.
  Variable deg : nat.

  Definition do_call (c : chal) (k : call) : option (answer * chal) :=
    match k with
    | Observe v => option_map (pair ANone) (observe WIDTH perm c v)
    | Sample => option_map (fun p => (AField (fst p), snd p)) (sample WIDTH perm deg c)
    | SampleBits b => option_map (fun p => (ANum (fst p), snd p)) (sample_bits WIDTH perm deg c b)
    | CheckWitness b w =>
        option_map (fun p => (ABool (fst p), snd p)) (check_witness WIDTH perm deg c b w)
    end.
  Fixpoint drive (c : chal) (ks : list call) : option (list answer * chal) :=
    match ks with
    | [] => Some ([], c)
    | k :: ks => match do_call c k with
                 | None => None
                 | Some (a, c) => option_map (fun p => (a :: fst p, snd p)) (drive c ks)
                 end
    end.

  (** A prover run: like the verifier's calls, but [Grind b] searches a witness.  The
      indices also give the calls the verifier makes for that run and the answers it
      should get: grinding becomes a check of the found witness, answered [true]. *)
  Inductive pcall := Plain (k : call) | Grind (bits : nat).
  Inductive prover_run : chal -> list pcall -> list call -> list answer -> chal -> Prop :=
  | pr_nil : forall c, prover_run c [] [] [] c
  | pr_plain : forall c k a c1 ps ks as_ c2,
      do_call c k = Some (a, c1) -> prover_run c1 ps ks as_ c2 ->
      prover_run c (Plain k :: ps) (k :: ks) (a :: as_) c2
  | pr_grind : forall c b w c1 ps ks as_ c2,
      grind WIDTH perm deg c b w c1 -> prover_run c1 ps ks as_ c2 ->
      prover_run c (Grind b :: ps) (CheckWitness b w :: ks) (ABool true :: as_) c2.

  (** Equality of everything that can influence later answers, and of the transcript
      records; only [grind_bits] and [grind_output] may differ. *)
  Definition in_sync (c d : chal) : Prop :=
    sponge c = sponge d /\ inbuf c = inbuf d /\ outbuf c = outbuf d /\ pin c = pin d /\
    pout c = pout d /\ sample_input c = sample_input d /\ sample_output c = sample_output d.

  Lemma in_sync_erase : forall c d, in_sync c d <-> erase c = erase d.
  Proof.
    intros c d. unfold in_sync, erase. split.
    - intros (-> & -> & -> & -> & -> & -> & ->). reflexivity.
    - intros E. repeat split; congruence.
  Qed.

  Lemma erase_call : forall c k, do_call (erase c) k = option_map erase2 (do_call c k).
  Proof.
    intros c [v| |b|b w]; cbn [do_call].
    - rewrite erase_observe. destruct (observe WIDTH perm c v); reflexivity.
    - rewrite erase_sample. destruct (sample WIDTH perm deg c) as [[? ?]|]; reflexivity.
    - rewrite erase_bits. destruct (sample_bits WIDTH perm deg c b) as [[? ?]|]; reflexivity.
    - rewrite erase_check. destruct (check_witness WIDTH perm deg c b w) as [[? ?]|]; reflexivity.
  Qed.

  Lemma call_sync : forall c d k a c1, in_sync c d -> do_call c k = Some (a, c1) ->
    exists d1, do_call d k = Some (a, d1) /\ in_sync c1 d1.
  Proof.
    intros c d k a c1 S E. apply in_sync_erase in S.
    pose proof (erase_call c k) as P. pose proof (erase_call d k) as Q.
    rewrite S in P. rewrite P in Q. rewrite E in Q. cbn in Q.
    destruct (do_call d k) as [[a' d1]|]; [|easy]. cbn in Q.
    unfold erase2 in Q. cbn [fst snd] in Q.
    assert (a = a') as <- by congruence. exists d1. split; [reflexivity|].
    apply in_sync_erase. congruence.
  Qed.

  (** C18: whatever the prover's run, the verifier making the corresponding calls on a
      fresh challenger gets the same answers, every ground witness passes, and both end
      in the same transcript state. *)
  Theorem C18_lockstep : forall ps ks answers c,
    prover_run (new WIDTH deg) ps ks answers c ->
    exists d, drive (new WIDTH deg) ks = Some (answers, d) /\ in_sync c d.
  Proof.
    assert (G : forall c ps ks answers c', prover_run c ps ks answers c' ->
      forall d, in_sync c d -> exists d', drive d ks = Some (answers, d') /\ in_sync c' d').
    { induction 1 as [c|c k a c1 ps ks as_ c2 E R IH|c b w c1 ps ks as_ c2 E R IH]; intros d S.
      - exists d. split; [reflexivity|exact S].
      - destruct (call_sync _ _ _ _ _ S E) as (d1 & D & S1).
        destruct (IH d1 S1) as (d2 & D2 & S2).
        exists d2. cbn. rewrite D, D2. split; [reflexivity|exact S2].
      - destruct E as [i c3 c4 Hi _ E].
        assert (K : do_call c (CheckWitness b (from_u64 i)) = Some (ABool true, c4))
          by (cbn [do_call]; rewrite E; reflexivity).
        destruct (call_sync _ _ _ _ _ S K) as (d1 & D & S1).
        destruct (IH d1) as (d2 & D2 & S2); [exact S1|].
        exists d2. cbn [drive]. rewrite D, D2. split; [reflexivity|exact S2]. }
    intros ps ks answers c R. apply (G _ _ _ _ _ R). unfold in_sync. tauto.
  Qed.

  (** Grinding itself: the witness passes on the state it started from. *)
  Theorem C18_grind_checks : forall c b w c', grind WIDTH perm deg c b w c' ->
    exists d, check_witness WIDTH perm deg c b w = Some (true, d) /\ in_sync c' d.
  Proof.
    intros c b w c' [i c1 c2 Hi _ E]. exists c2. split; [exact E|]. unfold in_sync. cbn. tauto.
  Qed.

  Definition bits_ok (k : call) : Prop :=
    match k with SampleBits b | CheckWitness b _ => (b <= 32)%nat | _ => True end.

  (** C18: no history makes the challenger panic, as long as at most 32 bits are asked. *)
  Theorem C18_no_panic : (2 <= WIDTH)%nat ->
    (forall s, length s = WIDTH -> length (perm s) = WIDTH) ->
    forall ks, Forall bits_ok ks -> exists answers c, drive (new WIDTH deg) ks = Some (answers, c).
  Proof.
    intros W2 PL. assert (G : forall ks c, wf WIDTH c -> Forall bits_ok ks ->
      exists answers c', drive c ks = Some (answers, c')).
    { induction ks as [|k ks IH]; intros c F K; [cbn; eauto|].
      inversion_clear K as [|? ? K1 K2]. cbn.
      assert (N : exists a d, do_call c k = Some (a, d) /\ wf WIDTH d).
      { destruct k as [v| |b|b w]; cbn [do_call bits_ok] in *.
        - destruct (observe_some WIDTH perm W2 PL c v F) as (d & -> & ?). cbn. eauto.
        - destruct (sample_some WIDTH perm deg W2 PL c F) as (f & d & -> & ?). cbn. eauto.
        - destruct (bits_some WIDTH perm deg W2 PL c b F K1) as (f & d & -> & ?). cbn. eauto.
        - destruct (check_some WIDTH perm deg W2 PL c b w F K1) as (f & d & -> & ?). cbn. eauto. }
      destruct N as (a & d & -> & F'). destruct (IH d F' K2) as (as_ & c' & ->). cbn. eauto. }
    intros ks K. apply G; [apply wf_new; assumption|exact K].
  Qed.

  (** Asking for more than 32 bits panics. *)
  Theorem C18_too_many_bits : forall c b, (32 < b)%nat -> do_call c (SampleBits b) = None.
  Proof.
    intros c b L. cbn. unfold sample_bits. destruct (sample WIDTH perm deg c) as [[f d]|]; [|reflexivity].
    destruct (b <=? 32)%nat eqn:E; [lia|reflexivity].
  Qed.

  (** C21 *)
  Lemma bits_value : forall c b z d, sample_bits WIDTH perm deg c b = Some (z, d) ->
    exists f c1, sample WIDTH perm deg c = Some (f, c1) /\ 0 <= hd 0 f < ORDER /\ (b <= 32)%nat /\
      z = hd 0 f / 2 ^ Z.of_nat (32 - b).
  Proof.
    intros c b z d. unfold sample_bits. destruct (sample WIDTH perm deg c) as [[f c1]|] eqn:E; [|easy].
    destruct (b <=? 32)%nat eqn:L; [|easy].
    intros [= <- <-]. exists f, c1. repeat split.
    - unfold sample in E. destruct (pop_words WIDTH perm deg c) as [[vs c2]|]; [|easy].
      injection E as <- <-. apply hd_range.
    - unfold sample in E. destruct (pop_words WIDTH perm deg c) as [[vs c2]|]; [|easy].
      injection E as <- <-. apply hd_range.
    - lia.
    - unfold as_usize. apply Z.shiftr_div_pow2. lia.
  Qed.

  Theorem C21_sample_bits_range : forall c b z d, (1 <= b)%nat ->
    do_call c (SampleBits b) = Some (ANum z, d) ->
    0 <= z <= (ORDER - 1) / 2 ^ Z.of_nat (32 - b) /\ z < 2 ^ Z.of_nat (b - 1).
  Proof.
    intros c b z d B1 E. cbn in E.
    destruct (sample_bits WIDTH perm deg c b) as [[z' d']|] eqn:S; [|easy].
    cbn in E. injection E as -> _.
    destruct (bits_value _ _ _ _ S) as (f & c1 & _ & R & B2 & ->).
    assert (P : 0 < 2 ^ Z.of_nat (32 - b)) by (apply Z.pow_pos_nonneg; lia).
    split; [split|].
    - apply Z.div_pos; lia.
    - apply Z.div_le_mono; lia.
    - apply Z.div_lt_upper_bound; [exact P|].
      rewrite <- Z.pow_add_r by lia.
      replace (Z.of_nat (32 - b) + Z.of_nat (b - 1)) with 31 by lia.
      unfold ORDER in R. lia.
  Qed.

  (** A witness passes iff the word hashed out is small modulo p. *)
  Theorem C21_check_witness_iff : forall c b w r d, (b <= 32)%nat ->
    do_call c (CheckWitness b w) = Some (ABool r, d) ->
    exists c1 f c2, observe_all WIDTH perm c (w :: repeat (from_u64 0) 7) = Some c1 /\
      sample WIDTH perm deg c1 = Some (f, c2) /\
      (r = true <-> hd 0 f < 2 ^ Z.of_nat (32 - b)).
  Proof.
    intros c b w r d L E. cbn [do_call] in E. unfold check_witness in E.
    destruct (observe_all WIDTH perm c _) as [c1|] eqn:O; [|easy].
    destruct (sample_bits WIDTH perm deg c1 b) as [[z d']|] eqn:S; [|easy].
    cbn in E. injection E as <- _.
    destruct (bits_value _ _ _ _ S) as (f & c2 & Sf & R & _ & ->).
    exists c1, f, c2. split; [reflexivity|]. split; [exact Sf|].
    assert (P : 0 < 2 ^ Z.of_nat (32 - b)) by (apply Z.pow_pos_nonneg; lia).
    rewrite Z.eqb_eq. split; intros K.
    - apply Z.div_small_iff in K; [|lia]. lia.
    - apply Z.div_small. lia.
  Qed.
End Drive.

(** The 32-bit words that make a [b]-bit check succeed: three intervals of 2^(32-b) words
    each (instead of one), so a witness passes for 3 in 2^b hash words. *)
Theorem C21_pow_accepted_words : forall b v, (5 <= b <= 32)%nat -> 0 <= v < 2 ^ 32 ->
  let s := 2 ^ Z.of_nat (32 - b) in
  v mod ORDER < s <-> 0 <= v < s \/ ORDER <= v < ORDER + s \/ 2 * ORDER <= v < 2 * ORDER + s.
Proof.
  intros b v Hb Hv s. assert (S : 0 < s <= 2 ^ 27).
  { split; [apply Z.pow_pos_nonneg; lia|]. apply Z.pow_le_mono_r; lia. }
  clearbody s. unfold ORDER. change (2 ^ 32) with 4294967296 in *. change (2 ^ 27) with 134217728 in *.
  lia.
Qed.

(** ** C22: the search space of [grind] *)
Theorem C22_witness_range : forall WIDTH perm deg c b w c',
  grind WIDTH perm deg c b w c' -> 0 <= le_u32 w < 4096 /\ length w = 4%nat.
Proof.
  intros WIDTH perm deg c b w c' [i c1 c2 Hi _ _]. change mod_p with 4096 in Hi.
  split; [|reflexivity]. unfold le_u32, from_u64. cbn [nth]. lia.
Qed.

(** [grind] can return iff some witness below 4096 passes; otherwise it panics. *)
Theorem C22_grind_iff : forall WIDTH perm deg c b,
  (exists w c', grind WIDTH perm deg c b w c') <->
  (exists v d, 0 <= v < 4096 /\ check_witness WIDTH perm deg c b (from_u64 v) = Some (true, d)).
Proof.
  intros. change 4096 with mod_p. split.
  - intros (w & c' & [i c1 c2 Hi E _]). eauto.
  - intros (v & d & Hv & E). do 2 eexists. econstructor; eassumption.
Qed.
Theorem C22_grind_panics_iff : forall WIDTH perm deg c b,
  grind_panics WIDTH perm deg c b <-> ~ exists w c', grind WIDTH perm deg c b w c'.
Proof.
  intros. rewrite C22_grind_iff. unfold grind_panics. change mod_p with 4096. split.
  - intros P (v & d & Hv & E). exact (P v Hv d E).
  - intros N i Hi c1 E. apply N. eauto.
Qed.
