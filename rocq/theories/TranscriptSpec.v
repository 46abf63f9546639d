(** Independent description of the transcript as a hash chain, and the proof that the
    challenger with [Blake3Permutation] implements it. *)
From Coq Require Import ZArith List Bool Lia.
From Coq Require Import ZifyBool ZifyNat.
From Verif Require Import ChallengerModel ChallengerProofs PropChallenger.
Import ListNotations.
Open Scope Z_scope.

Ltac Zify.zify_post_hook ::= Z.div_mod_to_equations.

(** ** Spec.  A chain value of 32 bytes, the words observed since the last hash, and the
    number of words of the chain value not handed out yet. *)
Record tr := Tr { hv : list Z; pend : list word4; left : nat }.

Section Spec.
  Variable hash : list Z -> list Z.
  Variable deg : nat.

  Definition zw : word4 := [0; 0; 0; 0].
  Definition word_at (h : list Z) (i : nat) : word4 := firstn 4 (skipn (i * 4) h).
  (** New chain value: hash of the 32-byte block (observed words, zero padded) followed by
      the previous chain value. *)
  Definition block (t : tr) : list Z :=
    concat (pend t ++ repeat zw (8 - length (pend t))) ++ hv t.
  Definition next (t : tr) : tr := Tr (hash (block t)) [] 8.
  Definition s_observe (t : tr) (v : word4) : tr :=
    let t' := Tr (hv t) (pend t ++ [v]) 0 in
    if (length (pend t') =? 8)%nat then next t' else t'.
  Definition s_draw (t : tr) : word4 * tr :=
    let t' := if (length (pend t) =? 0)%nat && (1 <=? left t)%nat then t else next t in
    (word_at (hv t') (left t' - 1), Tr (hv t') [] (left t' - 1)).
  Fixpoint s_draws (n : nat) (t : tr) : list word4 * tr :=
    match n with
    | O => ([], t)
    | S n => let '(w, t1) := s_draw t in let '(ws, t2) := s_draws n t1 in (w :: ws, t2)
    end.
  Definition s_field (ws : list word4) : list Z := map (fun w => le_u32 w mod 2013265921) ws.
  Definition s_call (t : tr) (k : call) : answer * tr :=
    match k with
    | Observe v => (ANone, s_observe t v)
    | Sample => let '(ws, t) := s_draws deg t in (AField (s_field ws), t)
    | SampleBits b => let '(ws, t) := s_draws deg t in
                      (ANum (hd 0 (s_field ws) / 2 ^ Z.of_nat (32 - b)), t)
    | CheckWitness b w =>
        let '(ws, t) := s_draws deg (fold_left s_observe (w :: repeat zw 7) t) in
        (ABool (hd 0 (s_field ws) / 2 ^ Z.of_nat (32 - b) =? 0), t)
    end.
  Fixpoint s_drive (t : tr) (ks : list call) : list answer * tr :=
    match ks with
    | [] => ([], t)
    | k :: ks => let '(a, t) := s_call t k in let '(r, t) := s_drive t ks in (a :: r, t)
    end.
  Definition s_new : tr := Tr (repeat 0 32) [] 0.

  Definition words_ok (k : call) : Prop :=
    match k with Observe v => length v = 4%nat | CheckWitness _ w => length w = 4%nat | _ => True end.

  (** ** Simulation *)
  Notation chunks := u256_to_u32.

  Lemma chunks_len : forall h, length (chunks h) = 8%nat.
  Proof. reflexivity. Qed.
  Lemma chunks_concat : forall h, length h = 32%nat -> concat (chunks h) = h.
  Proof.
    intros h L. do 32 (destruct h as [|? h]; [discriminate L|]). destruct h; [reflexivity|discriminate L].
  Qed.
  Lemma nth_chunks : forall h i d, (i < 8)%nat -> nth i (chunks h) d = word_at h i.
  Proof.
    intros h i d L. unfold chunks.
    rewrite (nth_indep _ d (firstn 4 (skipn (0 * 4) h))) by (rewrite map_length, seq_length; lia).
    rewrite (map_nth (fun i => firstn 4 (skipn (i * 4) h))), seq_nth by lia. reflexivity.
  Qed.
  Lemma perm_eq : forall s, blake3_perm hash s = repeat zw 8 ++ chunks (hash (concat s)).
  Proof. reflexivity. Qed.
  Lemma perm_length : forall s, length (blake3_perm hash s) = 16%nat.
  Proof. reflexivity. Qed.

  Definition R (c : chal) (t : tr) : Prop :=
    sponge c = repeat zw 8 ++ chunks (hv t) /\ inbuf c = pend t /\
    outbuf c = firstn (left t) (chunks (hv t)) /\ (length (pend t) < 8)%nat /\ (left t <= 8)%nat /\
    length (hv t) = 32%nat.

  Hypothesis hash_len : forall m, length (hash m) = 32%nat.

  Notation perm := (blake3_perm hash).

  Lemma absorbed_block : forall c t, sponge c = repeat zw 8 ++ chunks (hv t) -> inbuf c = pend t ->
    (length (pend t) <= 8)%nat -> length (hv t) = 32%nat -> concat (absorbed c) = block t.
  Proof.
    intros c t S I L H32. unfold absorbed, block. rewrite S, I.
    rewrite skipn_app, repeat_length. replace (length (pend t) - 8)%nat with O by lia.
    assert (E : forall n, (n <= 8)%nat -> skipn n (repeat zw 8) = repeat zw (8 - n)).
    { intros n Ln. do 9 (destruct n as [|n]; [reflexivity|]). lia. }
    rewrite E by lia. rewrite skipn_O, !concat_app, chunks_concat by exact H32.
    now rewrite app_assoc.
  Qed.

  Lemma duplexing_R : forall c t, sponge c = repeat zw 8 ++ chunks (hv t) -> inbuf c = pend t ->
    (length (pend t) <= 8)%nat -> length (hv t) = 32%nat ->
    exists d, duplexing 16 perm c = Some d /\ R d (next t) /\ left (next t) = 8%nat /\
      pin d = pin c ++ [absorbed c].
  Proof.
    intros c t S I L H32. unfold duplexing. destruct (_ <=? _)%nat eqn:Q.
    2:{ rewrite I in Q. lia. }
    fold (absorbed c). eexists. split; [reflexivity|]. split; [|split; reflexivity].
    unfold R. cbn [sponge inbuf outbuf]. unfold next. cbn [hv pend left].
    rewrite perm_eq, (absorbed_block c t S I L H32). repeat split; try (cbn; lia).
    apply hash_len.
  Qed.

  Lemma observe_R : forall c t v, R c t -> exists d, observe 16 perm c v = Some d /\ R d (s_observe t v).
  Proof.
    intros c t v (S & I & O & L & L8 & H32). unfold observe, s_observe. cbn [inbuf pend].
    rewrite I. change (16 / 2)%nat with 8%nat.
    destruct (length (pend t ++ [v]) =? 8)%nat eqn:Q.
    - edestruct (duplexing_R (Chal (sponge c) (pend t ++ [v]) [] (pin c) (pout c)
        (grind_bits c) (grind_output c) (sample_input c) (sample_output c))
        (Tr (hv t) (pend t ++ [v]) 0)) as (d & D & Rd & _).
      + exact S.
      + reflexivity.
      + cbn. lia.
      + exact H32.
      + exists d. split; [exact D|exact Rd].
    - eexists. split; [reflexivity|]. unfold R. cbn [sponge inbuf outbuf hv pend left].
      repeat split; try assumption; try reflexivity; try lia.
      rewrite app_length in *. cbn in *. lia.
  Qed.
  Lemma observe_all_R : forall vs c t, R c t ->
    exists d, observe_all 16 perm c vs = Some d /\ R d (fold_left s_observe vs t).
  Proof.
    induction vs as [|v vs IH]; intros c t Hr; [exists c; split; [reflexivity|exact Hr]|].
    cbn. destruct (observe_R c t v Hr) as (d & -> & Hd). now apply IH.
  Qed.

  Lemma rev_firstn_S : forall (h : list Z) n, (n < 8)%nat ->
    rev (firstn (S n) (chunks h)) = word_at h n :: rev (firstn n (chunks h)).
  Proof.
    intros h n L. do 8 (destruct n as [|n]; [reflexivity|]). lia.
  Qed.

  Lemma step_R : forall c t, R c t -> (1 <= left t)%nat -> inbuf c = [] ->
    exists d, match rev (outbuf c) with
      | [] => None
      | v :: r => Some (v, Chal (sponge c) (inbuf c) (rev r) (pin c) (pout c)
                        (grind_bits c) (grind_output c) (sample_input c) (sample_output c))
      end = Some (word_at (hv t) (left t - 1), d) /\ R d (Tr (hv t) [] (left t - 1)) /\
      pin d = pin c.
  Proof.
    intros c t (S & I & O & L & L8 & H32) L1 I0. rewrite O.
    destruct (left t) as [|n] eqn:E; [lia|]. rewrite rev_firstn_S by lia.
    replace (Datatypes.S n - 1)%nat with n by lia. rewrite rev_involutive.
    eexists. split; [reflexivity|]. split; [|reflexivity].
    unfold R. cbn [sponge inbuf outbuf hv pend left]. repeat split; try assumption; cbn; lia.
  Qed.

  Lemma pop_R : forall c t, R c t -> exists d,
    pop_word 16 perm c = Some (fst (s_draw t), d) /\ R d (snd (s_draw t)).
  Proof.
    intros c t Hr. pose proof Hr as (S & I & O & L & L8 & H32).
    unfold pop_word, s_draw. cbn [fst snd].
    assert (Q : negb (is_nil (inbuf c)) || is_nil (outbuf c) =
      negb ((length (pend t) =? 0)%nat && (1 <=? left t)%nat)).
    { rewrite I, O. destruct (pend t); [|reflexivity].
      cbn [is_nil negb orb length Nat.eqb andb]. destruct (left t) as [|n]; reflexivity. }
    rewrite Q. destruct (_ && _) eqn:E; cbn [negb].
    - destruct (step_R c t Hr) as (d & D & Rd & _); [lia| |exists d; split; [exact D|exact Rd]].
      rewrite I. destruct (pend t); [reflexivity|cbn in E; easy].
    - destruct (duplexing_R c t S I) as (d & -> & Rd & L' & _); [lia|exact H32|].
      destruct (step_R d (next t) Rd) as (e & Ee & Re & _); [lia| |].
      + destruct Rd as (_ & -> & _). reflexivity.
      + exists e. split; [exact Ee|exact Re].
  Qed.
  Lemma pops_R : forall n c t, R c t -> exists d,
    pop_words 16 perm n c = Some (fst (s_draws n t), d) /\ R d (snd (s_draws n t)).
  Proof.
    induction n as [|n IH]; intros c t Hr; [exists c; split; [reflexivity|exact Hr]|].
    cbn [pop_words s_draws]. destruct (pop_R c t Hr) as (d & -> & Rd).
    destruct (s_draw t) as [w t1]. cbn [fst snd] in Rd |- *.
    destruct (IH d t1 Rd) as (e & -> & Re). destruct (s_draws n t1) as [ws t2].
    exists e. split; [reflexivity|exact Re].
  Qed.
  Lemma sample_R : forall c t, R c t -> exists d,
    sample 16 perm deg c = Some (s_field (fst (s_draws deg t)), d) /\ R d (snd (s_draws deg t)).
  Proof.
    intros c t Hr. unfold sample. destruct (pops_R deg c t Hr) as (d & -> & Rd).
    eexists. split; [reflexivity|]. exact Rd.
  Qed.

  Lemma call_R : forall c t k, R c t -> bits_ok k -> exists d,
    do_call 16 perm deg c k = Some (fst (s_call t k), d) /\ R d (snd (s_call t k)).
  Proof.
    intros c t k Hr B. destruct k as [v| |b|b w]; cbn [do_call s_call bits_ok] in *.
    - destruct (observe_R c t v Hr) as (d & -> & Rd). exists d. split; [reflexivity|exact Rd].
    - destruct (sample_R c t Hr) as (d & -> & Rd). destruct (s_draws deg t) as [ws t1].
      exists d. split; [reflexivity|exact Rd].
    - unfold sample_bits. destruct (sample_R c t Hr) as (d & -> & Rd).
      destruct (b <=? 32)%nat eqn:E; [|lia]. destruct (s_draws deg t) as [ws t1].
      exists d. cbn [option_map fst snd]. unfold as_usize. rewrite Z.shiftr_div_pow2 by lia.
      split; [reflexivity|exact Rd].
    - unfold check_witness. change (from_u64 0) with zw.
      destruct (observe_all_R (w :: repeat zw 7) c t Hr) as (d & -> & Rd).
      unfold sample_bits. destruct (sample_R d _ Rd) as (e & -> & Re).
      destruct (b <=? 32)%nat eqn:E; [|lia].
      destruct (s_draws deg (fold_left s_observe (w :: repeat zw 7) t)) as [ws t1].
      exists e. cbn [option_map fst snd]. unfold as_usize. rewrite Z.shiftr_div_pow2 by lia.
      split; [reflexivity|exact Re].
  Qed.
  Lemma drive_R : forall ks c t, R c t -> Forall bits_ok ks -> exists d,
    drive 16 perm deg c ks = Some (fst (s_drive t ks), d) /\ R d (snd (s_drive t ks)).
  Proof.
    induction ks as [|k ks IH]; intros c t Hr F; [exists c; split; [reflexivity|exact Hr]|].
    inversion_clear F as [|? ? B F']. cbn [drive s_drive].
    destruct (call_R c t k Hr B) as (d & -> & Rd). destruct (s_call t k) as [a t1].
    cbn [fst snd] in *. destruct (IH d t1 Rd F') as (e & -> & Re).
    destruct (s_drive t1 ks) as [r t2]. exists e. split; [reflexivity|exact Re].
  Qed.
  Lemma new_R : R (new 16 deg) s_new.
  Proof. unfold R. cbn. repeat split; lia. Qed.
End Spec.
