(** Transcript properties of the challenger with Blake3 (C19, C20, C22, C24, C57, C58). *)
From Coq Require Import ZArith List Bool Lia.
From Coq Require Import ZifyBool ZifyNat.
From Verif Require Import ScriptNum U32Model Lift ChallengerModel ChallengerProofs PropChallenger
  TranscriptSpec.
Import ListNotations.
Open Scope Z_scope.

Ltac Zify.zify_post_hook ::= Z.div_mod_to_equations.

(** ** C57: the challenger is the hash chain of TranscriptSpec *)
Theorem C57_hash_chain : forall hash deg ks, (forall m, length (hash m) = 32%nat) ->
  Forall bits_ok ks ->
  exists c, drive 16 (blake3_perm hash) deg (new 16 deg) ks =
            Some (fst (s_drive hash deg s_new ks), c).
Proof.
  intros hash deg ks HL F.
  destruct (drive_R hash deg HL ks _ _ (new_R deg) F) as (d & D & _). eauto.
Qed.

(** ** C20 *)
Section C20.
  Variable hash : list Z -> list Z.

  Lemma observe_short : forall ws t, (length (pend t) + length ws < 8)%nat ->
    left t = O \/ ws <> [] ->
    fold_left (s_observe hash) ws t = Tr (hv t) (pend t ++ ws) 0.
  Proof.
    induction ws as [|w ws IH]; intros t L N.
    - destruct N as [N|N]; [|congruence]. destruct t as [h p l]. cbn in *. now rewrite app_nil_r, N.
    - cbn [fold_left length] in *. unfold s_observe at 2. cbn [pend].
      destruct (_ =? 8)%nat eqn:E; [rewrite app_length in E; cbn in E; lia|].
      rewrite IH; cbn [pend hv left]; [|rewrite app_length; cbn; lia|now left].
      now rewrite <- app_assoc.
  Qed.

  Lemma draw_after : forall ws t, pend t = [] -> (1 <= length ws <= 8)%nat ->
    s_draw hash (fold_left (s_observe hash) ws t) =
    let h := hash (block (Tr (hv t) ws 0)) in (word_at h 7, Tr h [] 7).
  Proof.
    intros ws t P L. destruct (Nat.eq_dec (length ws) 8) as [E|E].
    - destruct ws as [|w ws] using rev_ind; [cbn in E; lia|]. clear IHws.
      rewrite app_length in E. cbn in E. rewrite fold_left_app. cbn [fold_left].
      rewrite observe_short; [|rewrite P; cbn; lia|right; intros ->; cbn in E; lia].
      unfold s_observe. cbn [pend hv]. rewrite P. cbn [app].
      destruct (length (ws ++ [w]) =? 8)%nat eqn:Q; [|rewrite app_length in Q; cbn in Q; lia].
      reflexivity.
    - rewrite observe_short; [|rewrite P; cbn; lia|right; intros ->; cbn in L; lia].
      rewrite P. cbn [app]. unfold s_draw. cbn [pend left].
      destruct ws; [cbn in L; lia|]. reflexivity.
  Qed.

  Lemma pad_block : forall h ws n, (length ws + n <= 8)%nat ->
    block (Tr h (ws ++ repeat zw n) 0) = block (Tr h ws 0).
  Proof.
    intros h ws n L. unfold block. cbn [pend hv]. rewrite app_length, repeat_length, <- app_assoc.
    rewrite <- repeat_app. replace (n + (8 - (length ws + n)))%nat with (8 - length ws)%nat by lia.
    reflexivity.
  Qed.
End C20.

Lemma s_drive_app : forall hash deg ks1 ks2 t,
  s_drive hash deg t (ks1 ++ ks2) =
  (fst (s_drive hash deg t ks1) ++ fst (s_drive hash deg (snd (s_drive hash deg t ks1)) ks2),
   snd (s_drive hash deg (snd (s_drive hash deg t ks1)) ks2)).
Proof.
  intros hash deg. induction ks1 as [|k ks1 IH]; intros ks2 t.
  - cbn. now destruct (s_drive hash deg t ks2).
  - cbn [app s_drive]. destruct (s_call hash deg t k) as [a t1]. rewrite IH.
    destruct (s_drive hash deg t1 ks1) as [r t2]. reflexivity.
Qed.
Lemma s_drive_observe : forall hash deg ws t,
  s_drive hash deg t (map Observe ws) = (repeat ANone (length ws), fold_left (s_observe hash) ws t).
Proof.
  intros hash deg. induction ws as [|w ws IH]; intros t; [reflexivity|].
  cbn [map s_drive s_call]. rewrite IH. reflexivity.
Qed.

(** C20: at a block boundary, observing [ws] and observing [ws] followed by zero words (up to
    one block) give the same challenge and the same answers ever after. *)
Theorem C20_zero_padding : forall hash deg ks a0 c0 ws n more,
  (forall m, length (hash m) = 32%nat) -> (1 <= deg)%nat ->
  Forall bits_ok ks -> Forall bits_ok more ->
  drive 16 (blake3_perm hash) deg (new 16 deg) ks = Some (a0, c0) -> inbuf c0 = [] ->
  (1 <= length ws)%nat -> (length ws + n <= 8)%nat ->
  exists answers c1 c2,
    drive 16 (blake3_perm hash) deg (new 16 deg) (ks ++ map Observe ws ++ Sample :: more) =
      Some (a0 ++ repeat ANone (length ws) ++ answers, c1) /\
    drive 16 (blake3_perm hash) deg (new 16 deg)
        (ks ++ map Observe (ws ++ repeat (from_u64 0) n) ++ Sample :: more) =
      Some (a0 ++ repeat ANone (length ws + n) ++ answers, c2).
Proof.
  intros hash [|dg] ks a0 c0 ws n more HL D1; [lia|]. set (deg := S dg) in *.
  intros Fk Fm E I L1 L8.
  destruct (drive_R hash deg HL ks _ _ (new_R deg) Fk) as (c0' & E' & R0).
  rewrite E in E'. assert (a0 = fst (s_drive hash deg s_new ks)) as -> by congruence.
  assert (c0 = c0') as <- by congruence.
  assert (P : pend (snd (s_drive hash deg s_new ks)) = []).
  { destruct R0 as (_ & <- & _). exact I. }
  set (t := snd (s_drive hash deg s_new ks)) in *.
  assert (G : forall vs, Forall bits_ok (ks ++ map Observe vs ++ Sample :: more)).
  { intros vs. apply Forall_app. split; [exact Fk|]. apply Forall_app. split.
    - apply Forall_forall. intros k Hk. apply in_map_iff in Hk. destruct Hk as (v & <- & _). exact Logic.I.
    - constructor; [exact Logic.I|exact Fm]. }
  assert (Q : forall m, (length ws + m <= 8)%nat ->
    s_drive hash deg (fold_left (s_observe hash) (ws ++ repeat zw m) t) (Sample :: more) =
    s_drive hash deg (fold_left (s_observe hash) ws t) (Sample :: more)).
  { intros m Lm. cbn [s_drive s_call]. unfold deg. cbn [s_draws].
    rewrite (draw_after hash (ws ++ repeat zw m) t P) by (rewrite app_length, repeat_length; lia).
    rewrite (draw_after hash ws t P) by lia.
    cbn zeta. rewrite (pad_block hash (hv t) ws m) by lia. reflexivity. }
  exists (fst (s_drive hash deg (fold_left (s_observe hash) ws t) (Sample :: more))).
  destruct (drive_R hash deg HL _ _ _ (new_R deg) (G ws)) as (c1 & E1 & _).
  destruct (drive_R hash deg HL _ _ _ (new_R deg) (G (ws ++ repeat (from_u64 0) n))) as (c2 & E2 & _).
  exists c1, c2. rewrite E1, E2. change (from_u64 0) with zw.
  rewrite !s_drive_app, !s_drive_observe. fold t. cbn [fst snd].
  rewrite (Q n L8). rewrite app_length, repeat_length. split; reflexivity.
Qed.

Definition toy_hash (m : list Z) : list Z :=
  firstn 32 (map (fun x => (7 * x + fold_right Z.add 1 m) mod 256) (m ++ repeat 0 32)).
Lemma toy_hash_len : forall m, length (toy_hash m) = 32%nat.
Proof.
  intros m. unfold toy_hash. rewrite firstn_length, map_length, app_length, repeat_length. lia.
Qed.
Example C20_example :
  option_map fst (drive 16 (blake3_perm toy_hash) 4 (new 16 4)
    (map Observe [from_u64 5; from_u64 9] ++ [Sample; Sample])) =
    Some (repeat ANone 2 ++ [AField [252645135; 252645135; 252645135; 252645135];
                             AField [252645135; 252645135; 252645198; 252645170]]) /\
  option_map fst (drive 16 (blake3_perm toy_hash) 4 (new 16 4)
    (map Observe [from_u64 5; from_u64 9; from_u64 0] ++ [Sample; Sample])) =
    Some (repeat ANone 3 ++ [AField [252645135; 252645135; 252645135; 252645135];
                             AField [252645135; 252645135; 252645198; 252645170]]).
Proof. vm_compute. split; reflexivity. Qed.
Example C57_example :
  option_map fst (drive 16 (blake3_perm toy_hash) 1 (new 16 1)
    [Observe (from_u64 5); Sample; SampleBits 4; CheckWitness 3 (from_u64 1)]) =
  Some (fst (s_drive toy_hash 1 s_new
    [Observe (from_u64 5); Sample; SampleBits 4; CheckWitness 3 (from_u64 1)])) /\
  fst (s_drive toy_hash 1 s_new
    [Observe (from_u64 5); Sample; SampleBits 4; CheckWitness 3 (from_u64 1)]) =
  [ANone; AField [101058054]; ANum 0; ABool false].
Proof. vm_compute. split; reflexivity. Qed.

(** ** C58: the public records describe the run *)
Section Records.
  Variable WIDTH : nat.
  Variable perm : list word4 -> list word4.
  Variable deg : nat.

  Definition records_ok (c : chal) : Prop :=
    pout c = map (fun s => skipn (WIDTH / 2) (perm s)) (pin c) /\
    sponge c = match rev (pin c) with [] => repeat [0; 0; 0; 0] WIDTH | s :: _ => perm s end /\
    sample_output c = map (map (fun w => le_u32 w mod 2013265921)) (sample_input c) /\
    Forall (fun ws => length ws = deg) (sample_input c).

  Local Opaque Nat.div.

  Lemma rec_duplexing : forall c d, records_ok c -> duplexing WIDTH perm c = Some d -> records_ok d.
  Proof.
    intros c d (A & B & C & D) E. unfold duplexing in E. destruct (_ <=? _)%nat; [|easy].
    assert (d = Chal (perm (absorbed c)) [] (skipn (WIDTH / 2) (perm (absorbed c)))
      (pin c ++ [absorbed c]) (pout c ++ [skipn (WIDTH / 2) (perm (absorbed c))])
      (grind_bits c) (grind_output c) (sample_input c) (sample_output c)) as -> by
      (unfold absorbed; congruence).
    unfold records_ok. cbn. rewrite A, map_app, rev_app_distr. auto.
  Qed.
  Lemma rec_observe : forall c v d, records_ok c -> observe WIDTH perm c v = Some d -> records_ok d.
  Proof.
    intros c v d O E. unfold observe in E. destruct (_ =? _)%nat.
    - refine (rec_duplexing _ _ _ E). exact O.
    - injection E as <-. exact O.
  Qed.
  Lemma rec_observe_all : forall vs c d, records_ok c -> observe_all WIDTH perm c vs = Some d ->
    records_ok d.
  Proof.
    induction vs as [|v vs IH]; intros c d O E; cbn in E; [injection E as <-; exact O|].
    destruct (observe WIDTH perm c v) as [e|] eqn:F; [|easy]. apply (IH e); [|exact E].
    exact (rec_observe _ _ _ O F).
  Qed.
  Lemma rec_pop : forall c v d, records_ok c -> pop_word WIDTH perm c = Some (v, d) -> records_ok d.
  Proof.
    intros c v d O E. unfold pop_word in E. destruct (_ || _).
    - destruct (duplexing WIDTH perm c) as [e|] eqn:F; [|easy].
      pose proof (rec_duplexing _ _ O F) as Oe. destruct (rev (outbuf e)); [easy|].
      injection E as <- <-. exact Oe.
    - destruct (rev (outbuf c)); [easy|]. injection E as <- <-. exact O.
  Qed.
  Lemma rec_pops : forall n c vs d, records_ok c -> pop_words WIDTH perm n c = Some (vs, d) ->
    records_ok d /\ length vs = n.
  Proof.
    induction n as [|n IH]; intros c vs d O E; cbn in E.
    - injection E as <- <-. split; [exact O|reflexivity].
    - destruct (pop_word WIDTH perm c) as [[v e]|] eqn:F; [|easy].
      destruct (pop_words WIDTH perm n e) as [[ws f]|] eqn:G; [|easy]. injection E as <- <-.
      destruct (IH _ _ _ (rec_pop _ _ _ O F) G) as [? <-]. split; [assumption|reflexivity].
  Qed.
  Lemma rec_sample : forall c f d, records_ok c -> sample WIDTH perm deg c = Some (f, d) ->
    records_ok d /\ exists pre, sample_output d = pre ++ [f].
  Proof.
    intros c f d O E. unfold sample in E.
    destruct (pop_words WIDTH perm deg c) as [[vs e]|] eqn:F; [|easy].
    destruct (rec_pops _ _ _ _ O F) as [(A & B & C & D) L]. injection E as <- <-.
    split; [|eexists; reflexivity]. unfold records_ok. cbn. rewrite C, map_app.
    repeat split; try assumption. apply Forall_app. split; [exact D|]. constructor; [exact L|constructor].
  Qed.
  Lemma rec_bits : forall c b z d, records_ok c -> sample_bits WIDTH perm deg c b = Some (z, d) ->
    records_ok d.
  Proof.
    intros c b z d O E. unfold sample_bits in E.
    destruct (sample WIDTH perm deg c) as [[f e]|] eqn:F; [|easy]. destruct (b <=? 32)%nat; [|easy].
    injection E as <- <-. exact (proj1 (rec_sample _ _ _ O F)).
  Qed.
  Lemma rec_call : forall c k a d, records_ok c -> do_call WIDTH perm deg c k = Some (a, d) ->
    records_ok d.
  Proof.
    intros c [v| |b|b w] a d O E; cbn [do_call] in E.
    - destruct (observe WIDTH perm c v) as [e|] eqn:F; [|easy]. cbn in E. injection E as <- <-.
      exact (rec_observe _ _ _ O F).
    - destruct (sample WIDTH perm deg c) as [[f e]|] eqn:F; [|easy]. cbn in E. injection E as <- <-.
      exact (proj1 (rec_sample _ _ _ O F)).
    - destruct (sample_bits WIDTH perm deg c b) as [[f e]|] eqn:F; [|easy]. cbn in E.
      injection E as <- <-. exact (rec_bits _ _ _ _ O F).
    - destruct (check_witness WIDTH perm deg c b w) as [[f e]|] eqn:F; [|easy]. cbn in E.
      injection E as <- <-. unfold check_witness in F.
      destruct (observe_all WIDTH perm c _) as [g|] eqn:G; [|easy].
      destruct (sample_bits WIDTH perm deg g b) as [[z h]|] eqn:S; [|easy].
      injection F as <- <-. refine (rec_bits _ _ _ _ _ S). exact (rec_observe_all _ _ _ O G).
  Qed.

  (** C58: after any history, the recorded permutation outputs are the outputs on the recorded
      inputs, the sponge is the image of the last recorded input, and every recorded sample is
      the reduction of the words recorded with it. *)
  Theorem C58_records : forall ks answers c,
    drive WIDTH perm deg (new WIDTH deg) ks = Some (answers, c) -> records_ok c.
  Proof.
    assert (G : forall ks c answers d, records_ok c ->
      drive WIDTH perm deg c ks = Some (answers, d) -> records_ok d).
    { induction ks as [|k ks IH]; intros c answers d O E; cbn in E; [injection E as <- <-; exact O|].
      destruct (do_call WIDTH perm deg c k) as [[a e]|] eqn:F; [|easy].
      destruct (drive WIDTH perm deg e ks) as [[r f]|] eqn:Q; [|easy]. cbn in E.
      injection E as <- <-. exact (IH _ _ _ (rec_call _ _ _ _ O F) Q). }
    intros ks answers c. apply G. unfold records_ok. cbn. repeat split. constructor.
  Qed.

  (** After a successful grind the record holds the challenge that was checked. *)
  Theorem C58_grind_record : forall c b w c', records_ok c -> grind WIDTH perm deg c b w c' ->
    grind_bits c' = Some b /\ hd 0 (grind_output c') < 2 ^ Z.of_nat (32 - b) /\
    exists pre, sample_output c' = pre ++ [grind_output c'].
  Proof.
    intros c b w c' O [i c1 c2 Hi _ E]. cbn [grind_bits grind_output sample_output].
    split; [reflexivity|]. unfold check_witness in E.
    destruct (observe_all WIDTH perm c _) as [g|] eqn:G; [|easy].
    destruct (sample_bits WIDTH perm deg g b) as [[z h]|] eqn:S; [|easy].
    assert (z =? 0 = true) as Z0 by congruence. assert (h = c2) as -> by congruence. clear E.
    destruct (bits_value _ _ _ _ _ _ _ S) as (f & c3 & F & Rf & Lb & Ez).
    unfold sample_bits in S. rewrite F in S. destruct (b <=? 32)%nat; [|easy].
    assert (c3 = c2) as -> by congruence.
    destruct (rec_sample _ _ _ (rec_observe_all _ _ _ O G) F) as [_ [pre Hpre]].
    rewrite Hpre, last_last. split; [|eauto].
    assert (P : 0 < 2 ^ Z.of_nat (32 - b)) by (apply Z.pow_pos_nonneg; lia).
    apply Z.eqb_eq in Z0. rewrite Ez in Z0. apply Z.div_small_iff in Z0; lia.
  Qed.
End Records.

(** ** C19: binding *)
Definition shape (k : call) : call :=
  match k with Observe _ => Observe [] | CheckWitness b _ => CheckWitness b [] | k => k end.

Section Binding.
  Variable hash : list Z -> list Z.
  Variable deg : nat.
  Hypothesis hash_len : forall m, length (hash m) = 32%nat.
  Notation perm := (blake3_perm hash).

  (** Two states with buffers of the same sizes. *)
  Definition twin (c1 c2 : chal) : Prop :=
    length (sponge c1) = length (sponge c2) /\
    length (inbuf c1) = length (inbuf c2) /\ length (outbuf c1) = length (outbuf c2) /\
    length (pin c1) = length (pin c2).
  Definition same (c1 c2 : chal) : Prop := pin c1 = pin c2 /\ inbuf c1 = inbuf c2.

  Lemma app_inj_len : forall A (a b c d : list A), length a = length b -> a ++ c = b ++ d -> a = b /\ c = d.
  Proof.
    induction a as [|x a IH]; intros [|y b] c d L E; try discriminate L; cbn in *; [auto|].
    injection E as -> E. destruct (IH b c d) as [-> ->]; [lia|exact E|auto].
  Qed.

  Lemma dup_facts : forall c d, duplexing 16 perm c = Some d ->
    length (sponge d) = 16%nat /\ inbuf d = [] /\ length (outbuf d) = 8%nat /\
    pin d = pin c ++ [absorbed c].
  Proof.
    intros c d E. unfold duplexing in E. destruct (_ <=? _)%nat; [|easy].
    apply (f_equal (fun o => match o with Some x => x | None => d end)) in E. cbv iota in E.
    rewrite <- E. repeat split; reflexivity.
  Qed.

  Lemma twin_duplexing : forall c1 c2 d1 d2, twin c1 c2 ->
    duplexing 16 perm c1 = Some d1 -> duplexing 16 perm c2 = Some d2 ->
    twin d1 d2 /\ (same d1 d2 -> same c1 c2).
  Proof.
    intros c1 c2 d1 d2 (S & I & O & P) E1 E2.
    destruct (dup_facts _ _ E1) as (A1 & B1 & C1 & D1).
    destruct (dup_facts _ _ E2) as (A2 & B2 & C2 & D2).
    unfold twin, same. rewrite A1, A2, B1, B2, C1, C2, D1, D2, !app_length, P.
    split; [repeat split|]. intros [Q _]. destruct (app_inj_len _ _ _ _ _ P Q) as [Q1 Q2].
    split; [exact Q1|]. assert (absorbed c1 = absorbed c2) as Q3 by congruence.
      exact (proj1 (app_inj_len _ _ _ _ _ I Q3)).
  Qed.

  Lemma twin_observe : forall c1 c2 v1 v2 d1 d2, twin c1 c2 ->
    observe 16 perm c1 v1 = Some d1 -> observe 16 perm c2 v2 = Some d2 ->
    twin d1 d2 /\ (same d1 d2 -> same c1 c2 /\ v1 = v2).
  Proof.
    intros c1 c2 v1 v2 d1 d2 T E1 E2. pose proof T as (S & I & O & P).
    assert (K : forall a b, pin c1 = pin c2 /\ inbuf c1 ++ [a] = inbuf c2 ++ [b] ->
      (pin c1 = pin c2 /\ inbuf c1 = inbuf c2) /\ a = b).
    { intros a b [Q1 Q2]. destruct (app_inj_len _ _ _ _ _ I Q2) as [-> Q3].
      split; [auto|]. congruence. }
    unfold observe in *. cbn [inbuf] in *. change (16 / 2)%nat with 8%nat in *.
    rewrite !app_length in *. cbn [length] in *.
    rewrite <- I in E2. destruct (length (inbuf c1) + 1 =? 8)%nat.
    - pose proof (fun T => twin_duplexing _ _ _ _ T E1 E2) as TD. destruct TD as [Td Sd].
      { unfold twin. cbn. rewrite !app_length. cbn. repeat split; lia. }
      split; [exact Td|]. intros Q. apply K. exact (Sd Q).
    - injection E1 as <-. injection E2 as <-. split.
      + unfold twin. cbn. rewrite !app_length. cbn. repeat split; lia.
      + intros Q. apply K. exact Q.
  Qed.

  Lemma is_nil_len : forall A (l r : list A), length l = length r -> is_nil l = is_nil r.
  Proof. intros A [|? ?] [|? ?] E; (reflexivity || discriminate E). Qed.

  Lemma twin_pop : forall c1 c2 v1 v2 d1 d2, twin c1 c2 ->
    pop_word 16 perm c1 = Some (v1, d1) -> pop_word 16 perm c2 = Some (v2, d2) ->
    twin d1 d2 /\ (same d1 d2 -> same c1 c2).
  Proof.
    assert (St : forall c1 c2 (v1 v2 : word4) d1 d2, twin c1 c2 ->
      match rev (outbuf c1) with
      | [] => None
      | v :: r => Some (v, Chal (sponge c1) (inbuf c1) (rev r) (pin c1) (pout c1)
                        (grind_bits c1) (grind_output c1) (sample_input c1) (sample_output c1))
      end = Some (v1, d1) ->
      match rev (outbuf c2) with
      | [] => None
      | v :: r => Some (v, Chal (sponge c2) (inbuf c2) (rev r) (pin c2) (pout c2)
                        (grind_bits c2) (grind_output c2) (sample_input c2) (sample_output c2))
      end = Some (v2, d2) -> twin d1 d2 /\ (same d1 d2 -> same c1 c2)).
    { intros c1 c2 v1 v2 d1 d2 (S & I & O & P) E1 E2.
      rewrite <- (rev_length (outbuf c1)), <- (rev_length (outbuf c2)) in O.
      destruct (rev (outbuf c1)); [easy|]. destruct (rev (outbuf c2)); [easy|].
      cbn in O. injection E1 as <- <-. injection E2 as <- <-.
      split; [|intros Q; exact Q]. unfold twin. cbn. rewrite !rev_length. repeat split; lia. }
    intros c1 c2 v1 v2 d1 d2 T E1 E2. pose proof T as (S & I & O & P). unfold pop_word in *.
    rewrite <- (is_nil_len _ _ _ I), <- (is_nil_len _ _ _ O) in E2.
    destruct (_ || _).
    - destruct (duplexing 16 perm c1) as [e1|] eqn:D1; [|easy].
      destruct (duplexing 16 perm c2) as [e2|] eqn:D2; [|easy].
      destruct (twin_duplexing _ _ _ _ T D1 D2) as [Te Se].
      destruct (St _ _ _ _ _ _ Te E1 E2) as [Td Sd]. split; [exact Td|auto].
    - exact (St _ _ _ _ _ _ T E1 E2).
  Qed.
  Lemma twin_pops : forall n c1 c2 v1 v2 d1 d2, twin c1 c2 ->
    pop_words 16 perm n c1 = Some (v1, d1) -> pop_words 16 perm n c2 = Some (v2, d2) ->
    twin d1 d2 /\ (same d1 d2 -> same c1 c2).
  Proof.
    induction n as [|n IH]; intros c1 c2 v1 v2 d1 d2 T E1 E2; cbn in E1, E2.
    - injection E1 as <- <-. injection E2 as <- <-. auto.
    - destruct (pop_word 16 perm c1) as [[w1 e1]|] eqn:P1; [|easy].
      destruct (pop_word 16 perm c2) as [[w2 e2]|] eqn:P2; [|easy].
      destruct (pop_words 16 perm n e1) as [[ws1 f1]|] eqn:Q1; [|easy].
      destruct (pop_words 16 perm n e2) as [[ws2 f2]|] eqn:Q2; [|easy].
      injection E1 as <- <-. injection E2 as <- <-.
      destruct (twin_pop _ _ _ _ _ _ T P1 P2) as [Te Se].
      destruct (IH _ _ _ _ _ _ Te Q1 Q2) as [Tf Sf]. auto.
  Qed.
  Lemma twin_sample : forall c1 c2 v1 v2 d1 d2, twin c1 c2 ->
    sample 16 perm deg c1 = Some (v1, d1) -> sample 16 perm deg c2 = Some (v2, d2) ->
    twin d1 d2 /\ (same d1 d2 -> same c1 c2).
  Proof.
    intros c1 c2 v1 v2 d1 d2 T E1 E2. unfold sample in *.
    destruct (pop_words 16 perm deg c1) as [[ws1 f1]|] eqn:Q1; [|easy].
    destruct (pop_words 16 perm deg c2) as [[ws2 f2]|] eqn:Q2; [|easy].
    injection E1 as <- <-. injection E2 as <- <-. exact (twin_pops _ _ _ _ _ _ _ T Q1 Q2).
  Qed.
  Lemma twin_bits : forall b c1 c2 v1 v2 d1 d2, twin c1 c2 ->
    sample_bits 16 perm deg c1 b = Some (v1, d1) -> sample_bits 16 perm deg c2 b = Some (v2, d2) ->
    twin d1 d2 /\ (same d1 d2 -> same c1 c2).
  Proof.
    intros b c1 c2 v1 v2 d1 d2 T E1 E2. unfold sample_bits in *.
    destruct (sample 16 perm deg c1) as [[ws1 f1]|] eqn:Q1; [|easy].
    destruct (sample 16 perm deg c2) as [[ws2 f2]|] eqn:Q2; [|easy].
    destruct (b <=? 32)%nat; [|easy].
    injection E1 as <- <-. injection E2 as <- <-. exact (twin_sample _ _ _ _ _ _ T Q1 Q2).
  Qed.
  Lemma twin_observe_all : forall vs1 vs2 c1 c2 d1 d2, twin c1 c2 -> length vs1 = length vs2 ->
    observe_all 16 perm c1 vs1 = Some d1 -> observe_all 16 perm c2 vs2 = Some d2 ->
    twin d1 d2 /\ (same d1 d2 -> same c1 c2 /\ vs1 = vs2).
  Proof.
    induction vs1 as [|v1 vs1 IH]; intros [|v2 vs2] c1 c2 d1 d2 T L E1 E2; try discriminate L;
      cbn in E1, E2.
    - injection E1 as <-. injection E2 as <-. auto.
    - destruct (observe 16 perm c1 v1) as [e1|] eqn:O1; [|easy].
      destruct (observe 16 perm c2 v2) as [e2|] eqn:O2; [|easy].
      destruct (twin_observe _ _ _ _ _ _ T O1 O2) as [Te Se].
      destruct (IH vs2 _ _ _ _ Te ltac:(cbn in L; lia) E1 E2) as [Td Sd].
      split; [exact Td|]. intros Q. destruct (Sd Q) as [Q1 ->]. destruct (Se Q1) as [Q2 ->]. auto.
  Qed.
  Lemma twin_call : forall k1 k2 c1 c2 a1 a2 d1 d2, twin c1 c2 -> shape k1 = shape k2 ->
    do_call 16 perm deg c1 k1 = Some (a1, d1) -> do_call 16 perm deg c2 k2 = Some (a2, d2) ->
    twin d1 d2 /\ (same d1 d2 -> same c1 c2 /\ k1 = k2).
  Proof.
    intros k1 k2 c1 c2 a1 a2 d1 d2 T Sh E1 E2.
    destruct k1 as [v1| |b1|b1 w1], k2 as [v2| |b2|b2 w2]; try discriminate Sh; cbn [do_call] in *.
    - destruct (observe 16 perm c1 v1) as [e1|] eqn:O1; [|easy].
      destruct (observe 16 perm c2 v2) as [e2|] eqn:O2; [|easy].
      cbn in E1, E2. injection E1 as <- <-. injection E2 as <- <-.
      destruct (twin_observe _ _ _ _ _ _ T O1 O2) as [Te Se]. split; [exact Te|].
      intros Q. destruct (Se Q) as [Q1 ->]. auto.
    - destruct (sample 16 perm deg c1) as [[f1 e1]|] eqn:O1; [|easy].
      destruct (sample 16 perm deg c2) as [[f2 e2]|] eqn:O2; [|easy].
      cbn in E1, E2. injection E1 as <- <-. injection E2 as <- <-.
      destruct (twin_sample _ _ _ _ _ _ T O1 O2) as [Te Se]. auto.
    - injection Sh as <-.
      destruct (sample_bits 16 perm deg c1 b1) as [[f1 e1]|] eqn:O1; [|easy].
      destruct (sample_bits 16 perm deg c2 b1) as [[f2 e2]|] eqn:O2; [|easy].
      cbn in E1, E2. injection E1 as <- <-. injection E2 as <- <-.
      destruct (twin_bits _ _ _ _ _ _ _ T O1 O2) as [Te Se]. auto.
    - injection Sh as <-. unfold check_witness in *.
      destruct (observe_all 16 perm c1 _) as [g1|] eqn:G1; [|easy].
      destruct (observe_all 16 perm c2 _) as [g2|] eqn:G2; [|easy].
      destruct (sample_bits 16 perm deg g1 b1) as [[f1 e1]|] eqn:O1; [|easy].
      destruct (sample_bits 16 perm deg g2 b1) as [[f2 e2]|] eqn:O2; [|easy].
      cbn in E1, E2. injection E1 as <- <-. injection E2 as <- <-.
      destruct (twin_observe_all (w1 :: _) (w2 :: _) _ _ _ _ T eq_refl G1 G2) as [Tg Sg].
      destruct (twin_bits _ _ _ _ _ _ _ Tg O1 O2) as [Te Se]. split; [exact Te|].
      intros Q. destruct (Sg (Se Q)) as [Q1 Q2]. split; [exact Q1|]. congruence.
  Qed.
  Lemma twin_drive : forall ks1 ks2 c1 c2 a1 a2 d1 d2, twin c1 c2 -> map shape ks1 = map shape ks2 ->
    drive 16 perm deg c1 ks1 = Some (a1, d1) -> drive 16 perm deg c2 ks2 = Some (a2, d2) ->
    twin d1 d2 /\ (same d1 d2 -> same c1 c2 /\ ks1 = ks2).
  Proof.
    induction ks1 as [|k1 ks1 IH]; intros [|k2 ks2] c1 c2 a1 a2 d1 d2 T Sh E1 E2;
      try discriminate Sh; cbn in E1, E2.
    - injection E1 as <- <-. injection E2 as <- <-. auto.
    - cbn in Sh. assert (S1 : shape k1 = shape k2) by congruence.
      assert (S2 : map shape ks1 = map shape ks2) by congruence.
      destruct (do_call 16 perm deg c1 k1) as [[r1 e1]|] eqn:O1; [|easy].
      destruct (do_call 16 perm deg c2 k2) as [[r2 e2]|] eqn:O2; [|easy].
      destruct (drive 16 perm deg e1 ks1) as [[s1 f1]|] eqn:D1; [|easy].
      destruct (drive 16 perm deg e2 ks2) as [[s2 f2]|] eqn:D2; [|easy].
      cbn in E1, E2. injection E1 as <- <-. injection E2 as <- <-.
      destruct (twin_call _ _ _ _ _ _ _ _ T S1 O1 O2) as [Te Se].
      destruct (IH _ _ _ _ _ _ _ Te S2 D1 D2) as [Td Sd]. split; [exact Td|].
      intros Q. destruct (Sd Q) as [Q1 ->]. destruct (Se Q1) as [Q2 ->]. auto.
  Qed.

  (** How the recorded inputs chain. *)
  Inductive built : list (list word4) -> list word4 -> Prop :=
  | built_0 : built [] (repeat zw 16)
  | built_S : forall p s blk, built p s -> (length blk <= 8)%nat -> Forall (fun w => length w = 4%nat) blk ->
      built (p ++ [blk ++ skipn (length blk) s]) (perm (blk ++ skipn (length blk) s)).

  Lemma built_shape : forall p s, built p s ->
    exists h, length h = 32%nat /\ s = repeat zw 8 ++ u256_to_u32 h.
  Proof.
    intros p s [|p' s' blk Bp L F].
    - exists (repeat 0 32). split; reflexivity.
    - exists (hash (concat (blk ++ skipn (length blk) s'))). split; [apply hash_len|apply perm_eq].
  Qed.

  Lemma concat_inj4 : forall (x y : list word4), Forall (fun w => length w = 4%nat) x ->
    Forall (fun w => length w = 4%nat) y -> concat x = concat y -> x = y.
  Proof.
    induction x as [|a x IH]; intros y Fx Fy E.
    - destruct y as [|b y]; [reflexivity|]. inversion_clear Fy as [|? ? L _].
      destruct b; [discriminate L|discriminate E].
    - inversion_clear Fx as [|? ? La Fx']. destruct y as [|b y].
      + destruct a; [discriminate La|discriminate E].
      + inversion_clear Fy as [|? ? Lb Fy']. cbn in E.
        destruct (app_inj_len _ a b _ _ ltac:(lia) E) as [-> E']. f_equal. now apply IH.
  Qed.

  Lemma chunks4 : forall h, length h = 32%nat -> Forall (fun w => length w = 4%nat) (u256_to_u32 h).
  Proof.
    intros h L. unfold u256_to_u32. apply Forall_map, Forall_forall. intros i Hi. apply in_seq in Hi.
    rewrite firstn_length, skipn_length. lia.
  Qed.
  Lemma Forall_skipn : forall A (P : A -> Prop) n l, Forall P l -> Forall P (skipn n l).
  Proof. intros A P n l F. rewrite <- (firstn_skipn n l) in F. apply Forall_app in F. tauto. Qed.

  Lemma skipn_skipn : forall A a b (l : list A), skipn a (skipn b l) = skipn (a + b) l.
  Proof.
    intros A a b. revert a. induction b as [|b IH]; intros a l.
    - now rewrite Nat.add_0_r.
    - destruct l as [|x l]; [now rewrite !skipn_nil|]. rewrite Nat.add_succ_r. cbn. apply IH.
  Qed.

  Lemma block_facts : forall blk h, (length blk <= 8)%nat -> Forall (fun w => length w = 4%nat) blk ->
    length h = 32%nat ->
    let x := blk ++ skipn (length blk) (repeat zw 8 ++ u256_to_u32 h) in
    length x = 16%nat /\ Forall (fun w => length w = 4%nat) x /\ skipn 8 x = u256_to_u32 h.
  Proof.
    intros blk h L F Lh x. unfold x. repeat split.
    - rewrite app_length, skipn_length, app_length, repeat_length, chunks_len. lia.
    - apply Forall_app. split; [exact F|]. apply Forall_skipn, Forall_app. split; [|now apply chunks4].
      apply Forall_forall. intros w Hw. apply repeat_spec in Hw. now subst.
    - rewrite skipn_app, (skipn_all2 blk) by lia. cbn [app]. rewrite skipn_skipn.
      replace (8 - length blk + length blk)%nat with 8%nat by lia. reflexivity.
  Qed.

  Definition collision_in (p1 p2 : list (list word4)) : Prop :=
    exists m1 m2, In m1 (map (@concat Z) p1) /\ In m2 (map (@concat Z) p2) /\
      m1 <> m2 /\ hash m1 = hash m2 /\ length m1 = 64%nat /\ length m2 = 64%nat.

  Lemma concat_len4 : forall (x : list word4), Forall (fun w => length w = 4%nat) x ->
    length (concat x) = (4 * length x)%nat.
  Proof.
    induction 1 as [|w x L F IH]; [reflexivity|]. cbn [concat]. rewrite app_length, IH, L. cbn. lia.
  Qed.

  Lemma built_extract : forall p1 s1, built p1 s1 -> forall p2 s2, built p2 s2 ->
    length p1 = length p2 -> s1 = s2 -> p1 = p2 \/ collision_in p1 p2.
  Proof.
    induction 1 as [|p1 s1 b1 B1 IH L1 F1]; intros p2 s2 B2 Lp Es.
    - destruct p2; [now left|discriminate Lp].
    - destruct B2 as [|p2 s2 b2 B2 L2 F2].
      { rewrite app_length in Lp. cbn in Lp. lia. }
      destruct (built_shape _ _ B1) as (h1 & H1 & E1). destruct (built_shape _ _ B2) as (h2 & H2 & E2).
      destruct (block_facts b1 h1 L1 F1 H1) as (Lx & Fx & Sx).
      destruct (block_facts b2 h2 L2 F2 H2) as (Ly & Fy & Sy).
      rewrite <- E1 in Lx, Fx, Sx. rewrite <- E2 in Ly, Fy, Sy.
      set (x := b1 ++ skipn (length b1) s1) in *. set (y := b2 ++ skipn (length b2) s2) in *.
      rewrite !perm_eq in Es. apply app_inv_head in Es.
      assert (Eh : hash (concat x) = hash (concat y)).
      { rewrite <- (chunks_concat (hash (concat x))), <- (chunks_concat (hash (concat y))) by apply hash_len.
        now rewrite Es. }
      destruct (list_eq_dec Z.eq_dec (concat x) (concat y)) as [Q|Q].
      + apply concat_inj4 in Q; [|exact Fx|exact Fy].
        assert (s1 = s2) as <-.
        { rewrite E1, E2. f_equal. rewrite <- Sx, <- Sy. now rewrite Q. }
        destruct (IH p2 s1 B2) as [->|(m1 & m2 & I1 & I2 & R)].
        * rewrite !app_length in Lp. cbn in Lp. lia.
        * reflexivity.
        * left. now rewrite Q.
        * right. exists m1, m2. rewrite !map_app, !in_app_iff. auto.
      + right. exists (concat x), (concat y). rewrite !map_app, !in_app_iff. cbn [map In].
        repeat split; auto.
        * rewrite concat_len4 by exact Fx. exact (f_equal (Nat.mul 4) Lx).
        * rewrite concat_len4 by exact Fy. exact (f_equal (Nat.mul 4) Ly).
  Qed.

  (** Every reachable state is built. *)
  Definition linked (c : chal) : Prop :=
    built (pin c) (sponge c) /\ (length (inbuf c) < 8)%nat /\ Forall (fun w => length w = 4%nat) (inbuf c).

  Lemma linked_duplexing : forall c d, built (pin c) (sponge c) -> (length (inbuf c) <= 8)%nat ->
    Forall (fun w => length w = 4%nat) (inbuf c) -> duplexing 16 perm c = Some d -> linked d.
  Proof.
    intros c d B L F E. unfold duplexing in E. destruct (_ <=? _)%nat; [|easy].
    apply (f_equal (fun o => match o with Some x => x | None => d end)) in E. cbv iota in E.
    rewrite <- E. unfold linked. cbn [pin sponge inbuf length]. split; [|split; [lia|constructor]].
    now constructor.
  Qed.
  Lemma linked_observe : forall c v d, linked c -> length v = 4%nat ->
    observe 16 perm c v = Some d -> linked d.
  Proof.
    intros c v d (B & L & F) Lv E. unfold observe in E. cbn [inbuf] in E.
    assert (F' : Forall (fun w => length w = 4%nat) (inbuf c ++ [v])).
    { apply Forall_app. split; [exact F|]. constructor; [exact Lv|constructor]. }
    change (16 / 2)%nat with 8%nat in E. destruct (_ =? 8)%nat eqn:Q.
    - refine (linked_duplexing _ _ _ _ _ E); cbn [pin sponge inbuf]; [exact B|lia|exact F'].
    - injection E as <-. unfold linked. cbn [pin sponge inbuf]. repeat split; [exact B| |exact F'].
      rewrite app_length in *. cbn in *. lia.
  Qed.
  Lemma linked_observe_all : forall vs c d, linked c -> Forall (fun w => length w = 4%nat) vs ->
    observe_all 16 perm c vs = Some d -> linked d.
  Proof.
    induction vs as [|v vs IH]; intros c d Lc F E; cbn in E; [injection E as <-; exact Lc|].
    inversion_clear F as [|? ? Lv F']. destruct (observe 16 perm c v) as [e|] eqn:O; [|easy].
    exact (IH _ _ (linked_observe _ _ _ Lc Lv O) F' E).
  Qed.
  Lemma linked_pop : forall c v d, linked c -> pop_word 16 perm c = Some (v, d) -> linked d.
  Proof.
    intros c v d Lc E. unfold pop_word in E. destruct (_ || _).
    - destruct (duplexing 16 perm c) as [e|] eqn:F; [|easy]. destruct Lc as (B & L & F4).
      pose proof (linked_duplexing _ _ B ltac:(lia) F4 F) as Oe. destruct (rev (outbuf e)); [easy|].
      injection E as <- <-. exact Oe.
    - destruct (rev (outbuf c)); [easy|]. injection E as <- <-. exact Lc.
  Qed.
  Lemma linked_pops : forall n c vs d, linked c -> pop_words 16 perm n c = Some (vs, d) -> linked d.
  Proof.
    induction n as [|n IH]; intros c vs d O E; cbn in E.
    - injection E as <- <-. exact O.
    - destruct (pop_word 16 perm c) as [[v e]|] eqn:F; [|easy].
      destruct (pop_words 16 perm n e) as [[ws f]|] eqn:G; [|easy]. injection E as <- <-.
      exact (IH _ _ _ (linked_pop _ _ _ O F) G).
  Qed.
  Lemma linked_sample : forall c f d, linked c -> sample 16 perm deg c = Some (f, d) -> linked d.
  Proof.
    intros c f d O E. unfold sample in E.
    destruct (pop_words 16 perm deg c) as [[vs e]|] eqn:F; [|easy].
    injection E as <- <-. exact (linked_pops _ _ _ _ O F).
  Qed.
  Lemma linked_bits : forall c b z d, linked c -> sample_bits 16 perm deg c b = Some (z, d) -> linked d.
  Proof.
    intros c b z d O E. unfold sample_bits in E.
    destruct (sample 16 perm deg c) as [[f e]|] eqn:F; [|easy]. destruct (b <=? 32)%nat; [|easy].
    injection E as <- <-. exact (linked_sample _ _ _ O F).
  Qed.
  Lemma linked_call : forall c k a d, linked c -> words_ok k ->
    do_call 16 perm deg c k = Some (a, d) -> linked d.
  Proof.
    intros c [v| |b|b w] a d O W E; cbn [do_call words_ok] in *.
    - destruct (observe 16 perm c v) as [e|] eqn:F; [|easy]. cbn in E. injection E as <- <-.
      exact (linked_observe _ _ _ O W F).
    - destruct (sample 16 perm deg c) as [[f e]|] eqn:F; [|easy]. cbn in E. injection E as <- <-.
      exact (linked_sample _ _ _ O F).
    - destruct (sample_bits 16 perm deg c b) as [[f e]|] eqn:F; [|easy]. cbn in E.
      injection E as <- <-. exact (linked_bits _ _ _ _ O F).
    - destruct (check_witness 16 perm deg c b w) as [[f e]|] eqn:F; [|easy]. cbn in E.
      injection E as <- <-. unfold check_witness in F.
      destruct (observe_all 16 perm c _) as [g|] eqn:G; [|easy].
      destruct (sample_bits 16 perm deg g b) as [[z h]|] eqn:S; [|easy].
      injection F as <- <-. refine (linked_bits _ _ _ _ _ S). refine (linked_observe_all _ _ _ O _ G).
      constructor; [exact W|]. repeat constructor.
  Qed.
  Lemma linked_drive : forall ks c a d, linked c -> Forall words_ok ks ->
    drive 16 perm deg c ks = Some (a, d) -> linked d.
  Proof.
    induction ks as [|k ks IH]; intros c a d O W E; cbn in E; [injection E as <- <-; exact O|].
    inversion_clear W as [|? ? Wk W'].
    destruct (do_call 16 perm deg c k) as [[r e]|] eqn:F; [|easy].
    destruct (drive 16 perm deg e ks) as [[q f]|] eqn:Q; [|easy]. cbn in E.
    injection E as <- <-. exact (IH _ _ _ (linked_call _ _ _ _ O Wk F) W' Q).
  Qed.

  (** C19: two histories of the same shape that end in the same sponge state (with the same
      pending words, e.g. none) are the same history, or the recorded permutation inputs
      contain two different 64-byte messages with the same hash. *)
  Theorem C19_binding : forall ks1 ks2 a1 a2 c1 c2,
    map shape ks1 = map shape ks2 -> Forall words_ok ks1 -> Forall words_ok ks2 ->
    drive 16 perm deg (new 16 deg) ks1 = Some (a1, c1) ->
    drive 16 perm deg (new 16 deg) ks2 = Some (a2, c2) ->
    inbuf c1 = inbuf c2 -> sponge c1 = sponge c2 ->
    ks1 = ks2 \/
    exists m1 m2, In m1 (map (@concat Z) (pin c1)) /\ In m2 (map (@concat Z) (pin c2)) /\
      m1 <> m2 /\ hash m1 = hash m2 /\ length m1 = 64%nat /\ length m2 = 64%nat.
  Proof.
    intros ks1 ks2 a1 a2 c1 c2 Sh W1 W2 D1 D2 I S.
    assert (L0 : linked (new 16 deg)).
    { unfold linked. cbn [new pin sponge inbuf length]. split; [apply built_0|]. split; [lia|constructor]. }
    destruct (linked_drive _ _ _ _ L0 W1 D1) as (B1 & _). destruct (linked_drive _ _ _ _ L0 W2 D2) as (B2 & _).
    destruct (twin_drive _ _ _ _ _ _ _ _ (conj eq_refl (conj eq_refl (conj eq_refl eq_refl))) Sh D1 D2)
      as [(_ & _ & _ & Lp) Sm].
    destruct (built_extract _ _ B1 _ _ B2 Lp S) as [Q|Q]; [left|right; exact Q].
    apply Sm. split; assumption.
  Qed.
End Binding.

(** Concrete: the same shape, different first observation, different sponge. *)
Example C19_example :
  map shape [Observe (from_u64 1); Sample; CheckWitness 2 (from_u64 3)] =
  map shape [Observe (from_u64 2); Sample; CheckWitness 2 (from_u64 3)] /\
  (exists a1 c1 a2 c2,
    drive 16 (blake3_perm toy_hash) 4 (new 16 4) [Observe (from_u64 1); Sample; CheckWitness 2 (from_u64 3)] = Some (a1, c1) /\
    drive 16 (blake3_perm toy_hash) 4 (new 16 4) [Observe (from_u64 2); Sample; CheckWitness 2 (from_u64 3)] = Some (a2, c2) /\
    inbuf c1 = [] /\ inbuf c2 = [] /\ length (pin c1) = 2%nat /\ sponge c1 <> sponge c2).
Proof.
  split; [reflexivity|]. do 4 eexists. split; [vm_compute; reflexivity|]. split; [vm_compute; reflexivity|].
  cbn. repeat split. discriminate.
Qed.
(** ... and with a constant hash the collision branch is the one that holds. *)
Example C19_example_collision :
  exists a1 c1 a2 c2,
    drive 16 (blake3_perm (fun _ => repeat 7 32)) 4 (new 16 4) [Observe (from_u64 1); Sample] = Some (a1, c1) /\
    drive 16 (blake3_perm (fun _ => repeat 7 32)) 4 (new 16 4) [Observe (from_u64 2); Sample] = Some (a2, c2) /\
    inbuf c1 = inbuf c2 /\ sponge c1 = sponge c2 /\ a1 = a2.
Proof.
  do 4 eexists. split; [vm_compute; reflexivity|]. split; [vm_compute; reflexivity|].
  repeat split.
Qed.

(** ** C22: a witness exists, but not below 4096 *)
(** A hash of the right size for which only first words >= 4096 give small outputs. *)
Definition picky_hash (m : list Z) : list Z :=
  if (nth 0 m 0 + 256 * nth 1 m 0 <? 4096) then repeat 255 32 else repeat 0 32.

Theorem C22_missed_witness_refuted : exists hash c b v d,
  (forall m, length (hash m) = 32%nat) /\ c = new 16 4 /\ 0 <= v < 2 ^ 32 /\
  check_witness 16 (blake3_perm hash) 4 c b (from_u64 v) = Some (true, d) /\
  grind_panics 16 (blake3_perm hash) 4 c b.
Proof.
  exists picky_hash, (new 16 4), 8%nat, 4096. eexists.
  split. { intros m. unfold picky_hash. destruct (_ <? _); apply repeat_length. }
  split; [reflexivity|]. split; [lia|]. split; [vm_compute; reflexivity|].
  intros i Hi c1 E. change mod_p with 4096 in Hi.
  assert (A : forall i, In i (map Z.of_nat (seq 0 4096)) ->
    match check_witness 16 (blake3_perm picky_hash) 4 (new 16 4) 8 (from_u64 i) with
    | Some (true, _) => false | _ => true end = true).
  { apply forallb_forall. vm_compute. reflexivity. }
  specialize (A i). rewrite E in A. discriminate A.
  apply in_map_iff. exists (Z.to_nat i). split; [lia|]. apply in_seq. lia.
Qed.

(** ** C24 *)
Definition u32_bytes (w : list Z) : Prop := length w = 4%nat /\ Forall (fun b => 0 <= b < 256) w.

Theorem C24_u256_roundtrip : forall d, length d = 32%nat ->
  u32_to_u256 (u256_to_u32 d) = d /\ length (u256_to_u32 d) = 8%nat /\
  Forall (fun w => length w = 4%nat) (u256_to_u32 d).
Proof.
  intros d L. split; [|split; [reflexivity|exact (chunks4 toy_hash toy_hash_len d L)]].
  do 32 (destruct d as [|? d]; [discriminate L|]). destruct d; [reflexivity|discriminate L].
Qed.
Theorem C24_u32_roundtrip : forall ws, length ws = 8%nat -> Forall (fun w => length w = 4%nat) ws ->
  u256_to_u32 (u32_to_u256 ws) = ws /\ length (u32_to_u256 ws) = 32%nat /\
  u32_to_u256 ws = concat ws.
Proof.
  intros ws L F. do 8 (destruct ws as [|? ws]; [discriminate L|]). destruct ws; [|discriminate L].
  repeat match goal with F : Forall _ (_ :: _) |- _ => inversion_clear F end.
  repeat match goal with Hl : length ?w = 4%nat |- _ =>
    do 4 (destruct w as [|? w]; [discriminate Hl|]); destruct w; [clear Hl|discriminate Hl] end.
  repeat split.
Qed.
(** [from_u64] is the little-endian encoding of the low 32 bits, inverse of [from_le_bytes];
    the script bytes of a word (top of stack first) are exactly that encoding. *)
Theorem C24_from_u64 : forall v, 0 <= v ->
  u32_bytes (from_u64 v) /\ le_u32 (from_u64 v) = v mod 2 ^ 32 /\
  (v < 2 ^ 32 -> bword v = map enc (from_u64 v)).
Proof.
  intros v Hv. change (2 ^ 32) with 4294967296. split; [split; [reflexivity|]|split].
  - unfold from_u64. repeat (constructor; [lia|]). constructor.
  - unfold le_u32, from_u64. cbn [nth]. lia.
  - intros L. unfold bword, nums, wbytes, from_u64. f_equal.
Qed.
Theorem C24_le_inverse : forall w, u32_bytes w -> from_u64 (le_u32 w) = w /\ 0 <= le_u32 w < 2 ^ 32.
Proof.
  intros w [L F]. do 4 (destruct w as [|? w]; [discriminate L|]). destruct w; [|discriminate L].
  repeat match goal with F : Forall _ (_ :: _) |- _ => inversion_clear F end.
  unfold le_u32, from_u64. cbn [nth]. change (2 ^ 32) with 4294967296. split; [|lia].
  repeat (apply (f_equal2 (@cons Z)); [lia|]). reflexivity.
Qed.
Example C24_example : u256_to_u32 (map Z.of_nat (seq 0 32)) =
  [[0;1;2;3];[4;5;6;7];[8;9;10;11];[12;13;14;15];[16;17;18;19];[20;21;22;23];[24;25;26;27];[28;29;30;31]]
  /\ from_u64 305419896 = [120; 86; 52; 18].
Proof. split; reflexivity. Qed.


(** ** Concrete cases for C18, C21, C22, C58 *)
Notation toyp := (blake3_perm toy_hash).
Example C18_example : exists c,
  prover_run 16 toyp 4 (new 16 4) [Plain (Observe (from_u64 3)); Grind 2; Plain (SampleBits 5)]
    [Observe (from_u64 3); CheckWitness 2 (from_u64 7); SampleBits 5]
    [ANone; ABool true; ANum 5] c.
Proof.
  eexists. eapply pr_plain; [vm_compute; reflexivity|].
  eapply pr_grind; [eapply (grind_intro _ _ _ _ _ 7); [easy|vm_compute; reflexivity..]|].
  eapply pr_plain; [vm_compute; reflexivity|]. constructor.
Qed.
Example C21_example :
  option_map fst (drive 16 toyp 4 (new 16 4)
    [Observe (from_u64 3); CheckWitness 2 (from_u64 32); SampleBits 5]) =
  Some [ANone; ABool false; ANum 14].
Proof. vm_compute. reflexivity. Qed.
Example C22_example : exists c, grind 16 toyp 4 (new 16 4) 2 (from_u64 9) c.
Proof. eexists. eapply (grind_intro _ _ _ _ _ 9); [easy|vm_compute; reflexivity..]. Qed.
Example C58_example : exists a c,
  drive 16 toyp 4 (new 16 4) (map Observe (repeat (from_u64 3) 9) ++ [Sample; Sample; Sample]) = Some (a, c) /\
  length (pin c) = 3%nat /\ length (sample_output c) = 3%nat.
Proof. do 2 eexists. split; [vm_compute; reflexivity|]. split; reflexivity. Qed.
