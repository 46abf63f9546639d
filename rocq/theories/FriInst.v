(** The commitment scheme and the challenger of this repository as instances of the interfaces of
    FriModel, and that they satisfy the contracts of FriProofs2. *)
From Coq Require Import ZArith NArith List Bool Arith Lia Sorted.
From Verif Require Import ScriptNum ScriptVM TaptreeModel TcsModel TcsProofs TcsProofs2 PropTcs
  ChallengerModel ChallengerProofs PropChallenger Field FriModel FriProofs2.
Import ListNotations.
Open Scope nat_scope.

Section TcsMmcs.
  Variable H : bytes -> bytes.
  Variables (F bc : Type).
  Variable as_u32_vec : F -> list Z.
  Variable u32_size : nat.
  Variable new_bc : nat -> bool -> bc.
  Variable lock : bc -> script.
  Variable bc_witness : bc -> list Z -> list bytes.
  Variable leaf_hash : script -> hash.
  Variable branch_hash : hash -> hash -> hash.
  Variable opens : bc -> list Z -> list bytes -> list bytes -> Prop.
  Variable words_of : bc -> nat.
  Variable feqb : F -> F -> bool.
  Variable nq : nat.

  (** taptree_mmcs.rs: TapTreeMmcs; get_matrices (120-122) indexes prover_data[0]. *)
  Definition taptree_mmcs : mmcs F :=
    mk_mmcs F (list hash) (list (commited_data F bc)) (commited_proof bc) unit nat
      (fun next ms => t_commit F bc as_u32_vec u32_size new_bc lock leaf_hash branch_hash nq next ms)
      (fun ds => match ds with [] => None | d :: _ => Some (cd_leaves F bc d) end)
      (fun qt q ds => t_open_batch F bc feqb nq qt q ds)
      (fun qt vals p roots => match t_verify_batch H F bc as_u32_vec bc_witness leaf_hash branch_hash qt vals p roots with
                              | Some true => Ok tt | Some false => Err tt | None => Panic
                              end).

  Lemma taptree_contract : 0 < nq ->
    setting H F bc as_u32_vec u32_size new_bc lock bc_witness opens words_of feqb ->
    forall hi, hi <= 30 -> mmcs_contract taptree_mmcs nq 1 hi.
  Proof.
    intros Nq S0 hi Hh st ms K HK Bm Ds.
    destruct (commit_all H F bc as_u32_vec u32_size new_bc lock bc_witness leaf_hash branch_hash opens words_of feqb S0
                ms K ltac:(lia) Bm nq st) as (roots & ds & n' & E & L & Er & Fd).
    exists roots, ds, n'. split; [exact E|]. split.
    - cbn. destruct ds as [|d ds]; [cbn in L; lia|]. inversion_clear Fd as [|? ? C _]. now rewrite (proj1 C).
    - intros qt q Hqt Hq.
      destruct (C30_open_batch H F bc as_u32_vec u32_size new_bc lock bc_witness leaf_hash branch_hash opens words_of feqb S0
                  ms K nq st qt q ltac:(lia) Bm Ds Hq Hqt) as (roots' & ds' & n'' & p & E' & Eo).
      assert (ds' = ds) as -> by congruence.
      exists p. split; [exact Eo|]. cbn.
      now rewrite (C31_opened_accepted H F bc as_u32_vec u32_size new_bc lock bc_witness leaf_hash branch_hash opens words_of feqb S0
        ms K nq st roots ds n' qt q _ p ltac:(lia) Bm Hq Hqt E Eo).
  Qed.
End TcsMmcs.

Section Chal.
  Variable WIDTH : nat.
  Variable perm : list word4 -> list word4.
  Variable deg : nat.
  Variables (C A : Type).
  (** The words of a commitment, observed one by one (basic/src/challenger/mod.rs 204-253), and the
      field element of the sampled coefficients. *)
  Variable words : C -> list word4.
  Variable elem : list Z -> A.

  (** BfChallenger of basic/src/challenger/mod.rs *)
  Definition bf_challenger : challenger C A :=
    mk_challenger C A chal word4
      (fun c x => observe_all WIDTH perm c (words x))
      (fun c => option_map (fun p => (elem (fst p), snd p)) (sample WIDTH perm deg c))
      (fun c n => option_map (fun p => (Z.to_nat (fst p), snd p)) (sample_bits WIDTH perm deg c n))
      (fun c n w => check_witness WIDTH perm deg c n w)
      (grind WIDTH perm deg).

  Lemma observe_all_sync vs : forall c d c', in_sync c d -> observe_all WIDTH perm c vs = Some c' ->
    exists d', observe_all WIDTH perm d vs = Some d' /\ in_sync c' d'.
  Proof.
    induction vs as [|v vs IH]; intros c d c' S E; cbn in *; [injection E as <-; eauto|].
    destruct (observe WIDTH perm c v) as [c1|] eqn:E1; [|discriminate].
    destruct (call_sync WIDTH perm deg c d (Observe v) ANone c1 S) as (d1 & D & S1); [cbn; now rewrite E1|].
    cbn in D. destruct (observe WIDTH perm d v) as [d1'|]; [|discriminate]. injection D as ->. eauto.
  Qed.
  Lemma bf_contract : chal_contract bf_challenger in_sync.
  Proof.
    constructor; cbn [bf_challenger c_state c_wit c_observe c_sample c_sample_bits c_check_witness c_grind].
    - intros c d x c' S E. eapply observe_all_sync; eassumption.
    - intros c d a c' S E. destruct (sample WIDTH perm deg c) as [[f c1]|] eqn:E1; [|discriminate]. injection E as <- <-.
      destruct (call_sync WIDTH perm deg c d Sample (AField f) c1 S) as (d1 & D & S1); [cbn; now rewrite E1|].
      cbn in D. destruct (sample WIDTH perm deg d) as [[f' d1']|]; [|discriminate]. injection D as -> ->. cbn. eauto.
    - intros c d n i c' S E. destruct (sample_bits WIDTH perm deg c n) as [[z c1]|] eqn:E1; [|discriminate]. injection E as <- <-.
      destruct (call_sync WIDTH perm deg c d (SampleBits n) (ANum z) c1 S) as (d1 & D & S1); [cbn; now rewrite E1|].
      cbn in D. destruct (sample_bits WIDTH perm deg d n) as [[z' d1']|]; [|discriminate]. injection D as -> ->. cbn. eauto.
    - intros c d b w c' S G. destruct (C18_grind_checks WIDTH perm deg c b w c' G) as (d0 & D0 & S0).
      destruct (call_sync WIDTH perm deg c d (CheckWitness b w) (ABool true) d0 S) as (d1 & D & S1); [cbn; now rewrite D0|].
      cbn in D. destruct (check_witness WIDTH perm deg d b w) as [[r d1']|]; [|discriminate]. injection D as -> ->.
      exists d1. split; [reflexivity|]. unfold in_sync in *. intuition congruence.
    - intros c n i c' E. destruct (sample_bits WIDTH perm deg c n) as [[z c1]|] eqn:E1; [|discriminate]. injection E as <- <-.
      cbn [fst]. destruct (bits_value WIDTH perm deg c n z c1 E1) as (f & c2 & _ & R & B & ->).
      assert (P : (0 < 2 ^ Z.of_nat (32 - n))%Z) by (apply Z.pow_pos_nonneg; lia).
      assert (B2 : (0 <= hd 0 f / 2 ^ Z.of_nat (32 - n) < 2 ^ Z.of_nat n)%Z).
      { split; [apply Z.div_pos; lia|]. apply Z.div_lt_upper_bound; [exact P|]. rewrite <- Z.pow_add_r by lia.
        replace (Z.of_nat (32 - n) + Z.of_nat n)%Z with 32%Z by lia. unfold ORDER in R. lia. }
      apply Nat2Z.inj_lt. rewrite Z2Nat.id by lia. rewrite Nat2Z.inj_pow. apply B2.
  Qed.

  Hypothesis W2 : (2 <= WIDTH)%nat.
  Hypothesis perm_len : forall s, length s = WIDTH -> length (perm s) = WIDTH.
  Lemma bf_observe_total c x : wf WIDTH c -> exists c', c_observe bf_challenger c x = Some c' /\ wf WIDTH c'.
  Proof. apply (observe_all_some WIDTH perm W2 perm_len). Qed.
  Lemma bf_sample_total c : wf WIDTH c -> exists a c', c_sample bf_challenger c = Some (a, c') /\ wf WIDTH c'.
  Proof.
    intros W. destruct (sample_some WIDTH perm deg W2 perm_len c W) as (f & d & E & W'). cbn. rewrite E. cbn. eauto.
  Qed.
  Lemma bf_bits_total c n : wf WIDTH c -> (n <= 32)%nat ->
    exists i c', c_sample_bits bf_challenger c n = Some (i, c') /\ wf WIDTH c'.
  Proof.
    intros W L. destruct (bits_some WIDTH perm deg W2 perm_len c n W L) as (v & d & E & W'). cbn. rewrite E. cbn. eauto.
  Qed.
End Chal.
