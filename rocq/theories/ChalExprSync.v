(** The native challenger follows the byte machine of ChalExprState, except for
    samples drawn without an observation in between. *)
From Coq Require Import ZArith List Bool Arith Lia.
From Verif Require Import Field BabyBear DslModel DslOpSpec DslBuild Blake3Spec ChallengerModel PropChallenger ChalExprModel ChalExprProofs ChalExprState.
Import ListNotations.
Local Open Scope nat_scope.

Notation words := u256_to_u32.
Notation native := (blake3_perm b3_hash).

Lemma words_len : forall h, length (words h) = 8.
Proof. intros h. unfold words. now rewrite map_length, seq_length. Qed.
Lemma concat_words : forall h, length h = 32 -> concat (words h) = h.
Proof. intros h L. do 32 (destruct h as [|? h]; [discriminate L|]). destruct h; [reflexivity|discriminate L]. Qed.
Lemma native_words : forall s, native s = repeat (from_u64 0) 8 ++ words (b3_hash (concat s)).
Proof. reflexivity. Qed.
Lemma concat_word_len : forall ws, Forall word_ok ws -> length (concat ws) = 4 * length ws.
Proof. induction 1 as [|w ws [L _] _ IH]; [reflexivity|]. cbn [concat length]. rewrite app_length, L, IH. lia. Qed.
Lemma skipn_repeat : forall A (a : A) k n, skipn k (repeat a n) = repeat a (n - k).
Proof. intros A a. induction k as [|k IH]; intros [|n]; cbn [skipn repeat Nat.sub]; try reflexivity. apply IH. Qed.
Lemma concat_zero_words : forall k, concat (repeat (from_u64 0) k) = zeros_of (4 * k).
Proof.
  induction k as [|k IH]; [reflexivity|]. cbn [repeat concat]. rewrite IH. replace (4 * S k) with (4 + 4 * k) by lia. reflexivity.
Qed.

(** [w] as the native challenger reads it *)
Definition plain_word (w : word4) : Prop := le_u32 w <> (2 ^ 31)%Z.
Lemma order_is : ORDER = BP. Proof. reflexivity. Qed.
Lemma draws_words : forall h, length h = 32 -> draws h = map (fun w => sample_of (le_u32 w)) (rev (words h)).
Proof.
  intros h L. do 32 (destruct h as [|? h]; [discriminate L|]). destruct h; [|discriminate L].
  unfold draws, words. cbn [map seq Nat.mul Nat.add Nat.sub firstn skipn rev app]. unfold word_of, le_u32. cbn [nth].
  repeat (f_equal; try lia).
Qed.
Lemma plain_sample : forall w, plain_word w -> sample_of (le_u32 w) = from_pf w.
Proof. intros w P. unfold sample_of, from_pf. rewrite order_is. destruct (Z.eqb_spec (le_u32 w) (2 ^ 31)); [now elim P|reflexivity]. Qed.

Section Sync.
  Variable ext : bool.
  Notation sz := (u32_size ext).

  (** sponge, pending input and remaining output of the native challenger *)
  Record natv (c : chal) (h buf : list Z) (out : list word4) : Prop := mknat {
    nv_sponge : sponge c = repeat (from_u64 0) 8 ++ words h;
    nv_in : concat (inbuf c) = buf; nv_words : Forall word_ok (inbuf c); nv_lt : length (inbuf c) <= 8;
    nv_out : outbuf c = out; nv_len : length h = 32 }.

  Lemma zero32 : words (zeros_of 32) = repeat (from_u64 0) 8. Proof. reflexivity. Qed.
  Lemma natv_new : natv (new 16 sz) (zeros_of 32) [] [].
  Proof. constructor; try reflexivity; [constructor|cbn; lia]. Qed.

  Lemma natv_duplex : forall c h buf out, natv c h buf out -> exists c', duplexing 16 native c = Some c' /\
    let h' := b3_hash (buf ++ zeros_of (32 - length buf) ++ h) in natv c' h' [] (words h') /\ sample_input c' = sample_input c.
  Proof.
    intros c h buf out [Es Ei Wi Li Eo Lh]. unfold duplexing.
    assert (C : (length (inbuf c) <=? 16) = true) by (apply Nat.leb_le; lia). rewrite C.
    set (s := inbuf c ++ skipn (length (inbuf c)) (sponge c)).
    assert (Cs : concat s = buf ++ zeros_of (32 - length buf) ++ h).
    { unfold s. rewrite Es, skipn_app, repeat_length, skipn_repeat. replace (length (inbuf c) - 8) with 0 by lia. cbn [skipn].
      rewrite !concat_app, concat_zero_words, concat_words, Ei by exact Lh. f_equal. f_equal. f_equal. rewrite <- Ei, concat_word_len by exact Wi. lia. }
    eexists. split; [reflexivity|]. cbv zeta. split; [|reflexivity].
    constructor; cbn [sponge inbuf outbuf]; [|reflexivity|constructor|cbn; lia| |apply hash_len].
    - now rewrite native_words, Cs.
    - change (16 / 2) with 8. rewrite native_words, Cs, skipn_app, repeat_length, skipn_repeat. reflexivity.
  Qed.

  (** in step with the machine: its samples will be the machine's *)
  Definition synced (c : chal) (p : machine) : Prop := good p /\ natv c (h_last p) (h_buf p) (if h_ready p then words (h_last p) else []).
  (** one sample drawn from the last hash: the other words are left over *)
  Definition behind (c : chal) (p : machine) : Prop := good p /\ h_ready p = false /\ h_buf p = [] /\
    natv c (h_last p) [] (firstn (8 - sz) (words (h_last p))).

  Lemma synced_new : synced (new 16 sz) h_new.
  Proof. split; [exact good_new|exact natv_new]. Qed.

  Lemma good_observe : forall p w, good p -> word_ok w -> good (h_observe p w).
  Proof.
    intros p w Gd [L4 Bw]. unfold h_observe. cbn [h_buf h_last]. destruct (gd_four _ Gd) as [k Ek]. pose proof (gd_lt _ Gd).
    assert (E4 : length (h_buf p ++ w) = 4 * (k + 1)) by (rewrite app_length, L4, Ek; lia).
    destruct (Nat.eqb_spec (length (h_buf p ++ w)) 32) as [E|E].
    - unfold h_next. constructor; cbn [h_last h_buf h_ready]; [apply hash_len|apply hash_bytes|reflexivity|cbn; lia|now exists 0|reflexivity].
    - constructor; cbn [h_last h_buf h_ready]; try apply Gd; [now rewrite forallb_app, (gd_buf _ Gd), Bw|lia|eauto|discriminate].
  Qed.

  Lemma observe_any : forall c p w out, good p -> natv c (h_last p) (h_buf p) out -> word_ok w ->
    exists c', observe 16 native c w = Some c' /\ synced c' (h_observe p w) /\ sample_input c' = sample_input c.
  Proof.
    intros c p w out Gd Nv Ww. pose proof (good_observe p w Gd Ww) as Gd'. destruct Nv as [Es Ei Wi Li Eo Lh]. destruct Ww as [L4 Bw].
    pose proof (concat_word_len _ Wi) as Lc. rewrite Ei in Lc. pose proof (gd_lt _ Gd) as Lt.
    unfold observe. cbn [inbuf].
    set (c1 := Chal (sponge c) (inbuf c ++ [w]) [] (pin c) (pout c) (grind_bits c) (grind_output c) (sample_input c) (sample_output c)).
    assert (N1 : natv c1 (h_last p) (h_buf p ++ w) []).
    { constructor; cbn [sponge inbuf outbuf c1]; auto.
      - rewrite concat_app, Ei. cbn [concat]. now rewrite app_nil_r.
      - apply Forall_app. split; [exact Wi|]. constructor; [now split|constructor].
      - rewrite app_length. cbn [length]. lia. }
    rewrite app_length. cbn [length]. change (16 / 2) with 8.
    unfold synced. revert Gd'. unfold h_observe. cbn [h_buf h_last]. rewrite (app_length (h_buf p)), L4, Lc.
    destruct (Nat.eqb_spec (length (inbuf c) + 1) 8) as [E|E].
    - replace (4 * length (inbuf c) + 4 =? 32) with true by (symmetry; apply Nat.eqb_eq; lia). intros Gd'.
      destruct (natv_duplex c1 _ _ _ N1) as (c' & Ed & N' & Sm). exists c'. split; [exact Ed|]. cbn [h_last h_buf h_ready]. auto.
    - replace (4 * length (inbuf c) + 4 =? 32) with false by (symmetry; apply Nat.eqb_neq; lia). intros Gd'.
      exists c1. split; [reflexivity|]. cbn [h_last h_buf h_ready]. auto.
  Qed.
  Lemma synced_any : forall c p, synced c p -> exists out, good p /\ natv c (h_last p) (h_buf p) out.
  Proof. intros c p [Gd N]. eauto. Qed.
  Lemma behind_any : forall c p, behind c p -> exists out, good p /\ natv c (h_last p) (h_buf p) out.
  Proof. intros c p (Gd & _ & E & N). rewrite E. eauto. Qed.

  Lemma observe_all_any : forall ws w c p out, good p -> natv c (h_last p) (h_buf p) out -> Forall word_ok (w :: ws) ->
    exists c', observe_all 16 native c (w :: ws) = Some c' /\ synced c' (h_observe_all p (w :: ws)) /\ sample_input c' = sample_input c.
  Proof.
    induction ws as [|v ws IH]; intros w c p out Gd N F; inversion_clear F as [|? ? W1 F'];
      destruct (observe_any c p w out Gd N W1) as (c1 & E1 & S1 & M1); cbn [observe_all]; rewrite E1; cbn [h_observe_all fold_left].
    - eauto.
    - destruct S1 as [G1 N1]. destruct (IH v c1 _ _ G1 N1 F') as (c2 & E2 & S2 & M2). exists c2. split; [exact E2|]. split; [exact S2|congruence].
  Qed.

  (** popping from a full enough output *)
  Lemma pop_words_some : forall k c h out, natv c h [] (out) -> k <= length out ->
    exists c', pop_words 16 native k c = Some (firstn k (rev out), c') /\ natv c' h [] (firstn (length out - k) out) /\ sample_input c' = sample_input c.
  Proof.
    induction k as [|k IH]; intros c h out N L; cbn [pop_words].
    - exists c. rewrite Nat.sub_0_r, firstn_all. auto.
    - destruct N as [Es Ei Wi Li Eo Lh]. destruct out as [|w0 out0]; [cbn in L; lia|].
      destruct (@exists_last _ (w0 :: out0)) as (out & w & E); [discriminate|]. rewrite E in *. clear E w0 out0. rewrite app_length in L. cbn [length] in L.
      assert (En : inbuf c = []). { destruct (inbuf c) as [|u r]; [reflexivity|]. inversion Wi as [|? ? [Lu _] _]; subst. destruct u; [discriminate Lu|discriminate Ei]. }
      unfold pop_word. rewrite En, Eo. cbn [is_nil negb orb].
      replace (is_nil (out ++ [w])) with false by (now destruct out). cbn [orb]. rewrite rev_app_distr. cbn [rev app].
      set (c1 := Chal (sponge c) [] (rev (rev out)) (pin c) (pout c) (grind_bits c) (grind_output c) (sample_input c) (sample_output c)).
      assert (N1 : natv c1 h [] out) by (constructor; cbn [c1 sponge inbuf outbuf]; auto using rev_involutive; cbn; lia).
      destruct (IH c1 h out N1) as (c' & Ep & N' & Sm); [lia|]. exists c'. rewrite Ep. split; [reflexivity|].
      rewrite app_length. cbn [length]. replace (length out + 1 - S k) with (length out - k) by lia.
      rewrite firstn_app. replace (length out - k - length out) with 0 by lia. cbn [firstn]. rewrite app_nil_r. auto.
  Qed.
  (** a pending input, or no output left: hash first *)
  Lemma pop_words_hash : forall k c h buf out, natv c h buf out -> (buf <> [] \/ out = []) -> 1 <= k <= 8 ->
    let h' := b3_hash (buf ++ zeros_of (32 - length buf) ++ h) in
    exists c', pop_words 16 native k c = Some (firstn k (rev (words h')), c') /\ natv c' h' [] (firstn (8 - k) (words h')) /\ sample_input c' = sample_input c.
  Proof.
    intros k c h buf out N Q K h'. destruct k as [|k]; [lia|]. destruct (natv_duplex c h buf out N) as (c1 & Ed & N1 & Sm1). fold h' in N1.
    assert (L8 : S k <= length (words h')) by (rewrite words_len; lia).
    destruct (pop_words_some (S k) c1 h' (words h') N1 L8) as (c2 & Ep & N2 & Sm2). exists c2. rewrite words_len in N2.
    split; [|split; [exact N2|congruence]]. rewrite <- Ep. cbn [pop_words]. unfold pop_word.
    assert (E1 : negb (is_nil (inbuf c)) || is_nil (outbuf c) = true).
    { destruct Q as [Q|Q]; [|now rewrite (nv_out _ _ _ _ N), Q, orb_true_r]. pose proof (nv_in _ _ _ _ N) as Ei. destruct (inbuf c); [now elim Q|reflexivity]. }
    assert (E2 : negb (is_nil (inbuf c1)) || is_nil (outbuf c1) = false).
    { rewrite (nv_out _ _ _ _ N1). pose proof (nv_in _ _ _ _ N1) as Ei. pose proof (nv_words _ _ _ _ N1) as Wi.
      destruct (inbuf c1) as [|u r]; [reflexivity|]. inversion Wi as [|? ? [Lu _] _]; subst. destruct u; [discriminate Lu|discriminate Ei]. }
    now rewrite E1, E2, Ed.
  Qed.

  Lemma sz_range : 1 <= sz <= 8. Proof. destruct ext; cbn; lia. Qed.

  (** hash a sample in step reads *)
  Definition h_read (p : machine) : list Z := if h_ready p then h_last p else h_next p.
  Lemma read_len : forall p, good p -> length (h_read p) = 32.
  Proof. intros p Gd. unfold h_read, h_next. destruct (h_ready p); [apply Gd|apply hash_len]. Qed.
  Lemma good_read : forall p, good p -> good (Machine (h_read p) [] false).
  Proof.
    intros p Gd. constructor; cbn [h_last h_buf h_ready]; [now apply read_len| |reflexivity|cbn; lia|now exists 0|discriminate].
    unfold h_read, h_next. destruct (h_ready p); [apply Gd|apply hash_bytes].
  Qed.

  Lemma sample_synced : forall c p, synced c p ->
    let ws := firstn sz (rev (words (h_read p))) in
    exists c', sample 16 native sz c = Some (map from_pf ws, c') /\
      natv c' (h_read p) [] (firstn (8 - sz) (words (h_read p))) /\ behind c' (snd (h_sample ext p)) /\
      fst (h_sample ext p) = map (fun w => sample_of (le_u32 w)) ws /\ sample_input c' = sample_input c ++ [ws].
  Proof.
    intros c p [Gd N] ws. pose proof sz_range as R.
    assert (P : exists c1, pop_words 16 native sz c = Some (ws, c1) /\ natv c1 (h_read p) [] (firstn (8 - sz) (words (h_read p))) /\ sample_input c1 = sample_input c).
    { unfold ws, h_read. destruct (h_ready p) eqn:Er.
      - rewrite (gd_ready _ Gd Er) in N. assert (L8 : sz <= length (words (h_last p))) by (rewrite words_len; lia).
        destruct (pop_words_some sz c _ _ N L8) as (c1 & E1 & N1 & S1). rewrite words_len in N1. eauto.
      - destruct (pop_words_hash sz c _ _ _ N (or_intror eq_refl) R) as (c1 & E1 & N1 & S1). eauto. }
    destruct P as (c1 & E1 & N1 & S1). unfold sample. rewrite E1. eexists. split; [reflexivity|].
    assert (N2 : forall f, natv (Chal (sponge c1) (inbuf c1) (outbuf c1) (pin c1) (pout c1) (grind_bits c1) (grind_output c1) (sample_input c1 ++ [ws]) f)
      (h_read p) [] (firstn (8 - sz) (words (h_read p)))) by (intros f; destruct N1; constructor; auto).
    split; [apply N2|]. split; [|split].
    - split; [exact (good_read p Gd)|]. split; [reflexivity|]. split; [reflexivity|]. apply N2.
    - unfold h_sample. fold (h_read p). cbn [fst]. rewrite (draws_words _ (read_len p Gd)), firstn_map. reflexivity.
    - cbn [sample_input]. now rewrite S1.
  Qed.
  (** with enough leftover words they are returned instead *)
  Lemma sample_rest : forall c h out, natv c h [] out -> sz <= length out ->
    exists c', sample 16 native sz c = Some (map from_pf (firstn sz (rev out)), c') /\ natv c' h [] (firstn (length out - sz) out) /\
      sample_input c' = sample_input c ++ [firstn sz (rev out)].
  Proof.
    intros c h out N L. destruct (pop_words_some sz c h out N L) as (c1 & E1 & N1 & S1). unfold sample. rewrite E1. eexists. split; [reflexivity|].
    split; [destruct N1; constructor; auto|]. cbn [sample_input]. now rewrite S1.
  Qed.

  Definition clean (l : list (list word4)) : Prop := Forall plain_word (concat l).
  Lemma clean_app : forall l r, clean (l ++ r) <-> clean l /\ clean r.
  Proof. intros l r. unfold clean. rewrite concat_app. apply Forall_app. Qed.
  Lemma clean_map : forall ws, clean [ws] -> map (fun w => sample_of (le_u32 w)) ws = map from_pf ws.
  Proof.
    intros ws C. unfold clean in C. cbn [concat] in C. rewrite app_nil_r in C. apply map_ext_in. intros w Iw. apply plain_sample.
    rewrite Forall_forall in C. auto.
  Qed.

  (** one call in step, values equal when no recorded word is 2^31 *)
  Lemma sample_agrees : forall c p, synced c p -> exists f c', sample 16 native sz c = Some (f, c') /\ behind c' (snd (h_sample ext p)) /\
    (exists l, sample_input c' = sample_input c ++ l) /\ (clean (sample_input c') -> f = fst (h_sample ext p)).
  Proof.
    intros c p S0. destruct (sample_synced c p S0) as (c' & E & _ & B & V & M). do 2 eexists. split; [exact E|]. split; [exact B|]. split; [eauto|].
    intros C. rewrite M in C. apply clean_app in C as [_ C]. rewrite V. symmetry. now apply clean_map.
  Qed.
  Lemma bits_agree : forall c p bits, synced c p -> bits <= 32 -> exists z c', sample_bits 16 native sz c bits = Some (z, c') /\
    behind c' (snd (h_sample_bits ext p bits)) /\ (exists l, sample_input c' = sample_input c ++ l) /\
    (clean (sample_input c') -> z = fst (h_sample_bits ext p bits)).
  Proof.
    intros c p bits S0 B. destruct (sample_agrees c p S0) as (f & c' & E & Bh & M & V). unfold sample_bits. rewrite E.
    replace (bits <=? 32) with true by (symmetry; now apply Nat.leb_le). do 2 eexists. split; [reflexivity|]. split; [exact Bh|]. split; [exact M|].
    intros C. unfold as_usize, h_sample_bits. cbn [fst]. now rewrite (V C).
  Qed.
  Lemma witness_agrees : forall c p out bits w, good p -> natv c (h_last p) (h_buf p) out -> bits <= 32 -> word_ok w -> exists b c',
    check_witness 16 native sz c bits w = Some (b, c') /\ behind c' (snd (h_check_witness ext p bits w)) /\
    (exists l, sample_input c' = sample_input c ++ l) /\ (clean (sample_input c') -> b = fst (h_check_witness ext p bits w)).
  Proof.
    intros c p out bits w Gd N B Ww. unfold check_witness.
    destruct (observe_all_any (repeat (from_u64 0) 7) w c p out Gd N) as (c1 & E1 & S1 & M1).
    { constructor; [exact Ww|]. apply Forall_forall. intros u Iu. apply repeat_spec in Iu. subst u. exact word_zero. }
    rewrite E1. destruct (bits_agree c1 _ bits S1 B) as (z & c2 & E2 & B2 & [l M2] & V2). rewrite E2. do 2 eexists. split; [reflexivity|].
    split; [exact B2|]. split; [exists l; congruence|]. intros C. unfold h_check_witness. cbn [fst]. now rewrite (V2 C).
  Qed.

  (** what the native check reads, in every case *)
  Lemma witness_native : forall c p out bits w, good p -> natv c (h_last p) (h_buf p) out -> bits <= 32 -> word_ok w -> exists c',
    check_witness 16 native sz c bits w = Some ((Z.shiftr (from_pf (nth 7 (words (h_last (snd (h_check_witness ext p bits w)))) [])) (Z.of_nat (32 - bits)) =? 0)%Z, c').
  Proof.
    intros c p out bits w Gd N B Ww. unfold check_witness.
    destruct (observe_all_any (repeat (from_u64 0) 7) w c p out Gd N) as (c1 & E1 & S1 & M1).
    { constructor; [exact Ww|]. apply Forall_forall. intros u Iu. apply repeat_spec in Iu. subst u. exact word_zero. }
    rewrite E1. destruct (sample_synced c1 _ S1) as (c2 & E2 & _). unfold sample_bits. rewrite E2.
    replace (bits <=? 32) with true by (symmetry; now apply Nat.leb_le). exists c2. f_equal. f_equal. f_equal. f_equal.
    unfold as_usize, h_check_witness, h_sample_bits, h_sample. cbn [fst snd h_last]. fold (h_read (h_observe_all p (w :: repeat (from_u64 0) 7))).
    set (h := h_read _). clearbody h. unfold words. cbn [map seq rev app nth]. now destruct ext.
  Qed.
End Sync.
