(** Properties C13, C14 and C59: the BLAKE3 scripts, stated on the byte machine.

    Stacks are lists with the top first.  A message lies with its first byte on top;
    a digest is left as words, last word on top, low byte of each word on top. *)
From Coq Require Import ZArith List Bool Lia.
From Verif Require Import ScriptNum ScriptVM VMLemmas U32Model U32Proofs Lift
  Blake3Spec Blake3Model Blake3Proofs Blake3Proofs2 Blake3Proofs3 Blake3Proofs4.
Import ListNotations.
Open Scope Z_scope.

Definition is_byte (b : Z) : Prop := 0 <= b < 256.

Lemma hash_words_u32 : forall msg, Forall is_u32 (b3_hash_words msg).
Proof.
  intros msg. unfold b3_hash_words. generalize true. generalize 16%nat.
  assert (K : Forall is_u32 b3_iv) by exact iv_u32. revert K. generalize b3_iv. revert msg.
  intros msg cv K n. revert msg cv K. induction n as [|n IH]; intros msg cv K first; [exact K|].
  cbn [b3_blocks].
  assert (C : forall l f, is_u32 l -> is_u32 f -> Forall is_u32 (b3_compress cv (block_word (firstn 64 msg)) l f)).
  { intros. now apply (compress_u32 (fun b => b)). }
  assert (L : is_u32 (Z.of_nat (length (firstn 64 msg)))).
  { unfold is_u32. rewrite firstn_length. lia. }
  destruct (length msg <=? 64)%nat.
  - apply C; [exact L|]. unfold is_u32. destruct first; lia.
  - apply IH. apply C; [exact L|]. unfold is_u32. destruct first; lia.
Qed.
Lemma hash_words_len : forall msg, length (b3_hash_words msg) = 8%nat.
Proof.
  intros msg. unfold b3_hash_words. generalize true. generalize 16%nat.
  assert (K : length b3_iv = 8%nat) by reflexivity. revert K. generalize b3_iv. revert msg.
  intros msg cv K n. revert msg cv K. induction n as [|n IH]; intros msg cv K first; [exact K|].
  cbn [b3_blocks]. destruct (length msg <=? 64)%nat; [apply compress_len|]. apply IH. apply compress_len.
Qed.

(** A message of at most one block is one compression. *)
Lemma one_block : forall msg, (length msg <= 64)%nat ->
  b3_hash_words msg = b3_compress b3_iv (block_word msg) (Z.of_nat (length msg)) 11.
Proof.
  intros msg L. unfold b3_hash_words. change 16%nat with (S 15). rewrite blocks_step. cbn zeta.
  rewrite (proj2 (Nat.leb_le _ _) L), firstn_all2 by exact L. reflexivity.
Qed.
Lemma run_one_block : forall cv msg n len fl, (n <= 16)%nat -> length msg = (4 * n)%nat ->
  b3_compress cv (fun i => nth i (map (block_word msg) (seq 0 n)) 0) len fl = b3_compress cv (block_word msg) len fl.
Proof.
  intros cv msg n len fl Ln L. apply b3_compress_ext. intros i Hi.
  destruct (Nat.lt_ge_cases i n) as [Q|Q].
  - rewrite (nth_indep _ 0 (block_word msg 0)) by (rewrite map_length, seq_length; exact Q).
    rewrite map_nth, seq_nth by exact Q. reflexivity.
  - rewrite nth_overflow by (rewrite map_length, seq_length; exact Q).
    unfold block_word. rewrite skipn_all2 by lia. reflexivity.
Qed.
Lemma msg_words : forall n msg, length msg = (4 * n)%nat -> Forall is_byte msg ->
  map I msg = words (map (block_word msg) (seq 0 n)).
Proof.
  intros n msg L F. rewrite <- (bytes_words (fun b => b)) by (try exact F; lia). rewrite L, Nat.sub_diag.
  cbn [repeat]. now rewrite app_nil_r.
Qed.

(* ------------------------------------------------------------------ *)
(** ** C13 *)

(** One script hashes every 64-byte message. *)
Theorem C13_blake3 : exists q, blake3 = Some q /\
  forall H msg rest alt, length msg = 64%nat -> Forall is_byte msg ->
    exec H q (nums msg ++ rest) alt (bwords (rev (b3_hash_words msg)) ++ rest) alt.
Proof.
  destruct (blake3_ok (fun b => b)) as (q & E & _). exists q. split; [exact E|].
  intros H msg rest al L F. destruct (blake3_ok H) as (q' & E' & K).
  assert (q' = q) by congruence. subst q'. clear E'.
  specialize (K (map (block_word msg) (seq 0 16)) (map B rest) (map B al)).
  rewrite map_length, seq_length in K. specialize (K eq_refl (block_u32 H msg _ F)).
  rewrite (run_one_block _ msg 16) in K by (exact L || lia). rewrite <- (msg_words 16 msg L F) in K.
  rewrite one_block by lia. rewrite L. tobytes K. exact K.
Qed.

(** The digest of a concrete block, computed by the byte machine. *)
Example C13_example :
  match blake3 with
  | Some q => exec (fun b => b) q (nums (map Z.of_nat (seq 100 64)) ++ [[7]]) [[9]]
                (bwords (rev (b3_hash_words (map Z.of_nat (seq 100 64)))) ++ [[7]]) [[9]]
  | None => False
  end.
Proof. vm_compute. reflexivity. Qed.

(* ------------------------------------------------------------------ *)
(** ** C14 *)

Theorem C14_var_length : forall n, (1 <= n <= 512)%nat ->
  exists q, blake3_var_length n = Some q /\
  forall H msg rest alt, length msg = n -> Forall is_byte msg ->
    exec H q (nums msg ++ rest) alt (bwords (rev (b3_hash_words msg)) ++ rest) alt.
Proof.
  intros n Ln. destruct (blake3_var_length_ok (fun b => b) n Ln) as (q & E & _). exists q. split; [exact E|].
  intros H msg rest al L F. destruct (blake3_var_length_ok H n Ln) as (q' & E' & K).
  assert (q' = q) by congruence. subst q'.
  specialize (K msg (map B rest) (map B al) L F). tobytes K. exact K.
Qed.

(** Longer messages are refused. *)
Theorem C14_too_long : forall n, (512 < n)%nat -> blake3_var_length n = None.
Proof.
  intros n L. unfold blake3_var_length. destruct (n <=? 512)%nat eqn:E; [|reflexivity].
  apply Nat.leb_le in E. lia.
Qed.

(** The 20-byte variant leaves the first five words of the hash of the 40-byte message. *)
Theorem C14_blake3_160 : exists q, blake3_160 = Some q /\
  forall H msg rest alt, length msg = 40%nat -> Forall is_byte msg ->
    exec H q (nums msg ++ rest) alt (bwords (rev (firstn 5 (b3_hash_words msg))) ++ rest) alt.
Proof.
  destruct (blake3_160_ok (fun b => b)) as (q & E & _). exists q. split; [exact E|].
  intros H msg rest al L F. destruct (blake3_160_ok H) as (q' & E' & K).
  assert (q' = q) by congruence. subst q'. clear E'.
  specialize (K (map (block_word msg) (seq 0 10)) (map B rest) (map B al)).
  rewrite map_length, seq_length in K. specialize (K eq_refl (block_u32 H msg _ F)).
  rewrite (run_one_block _ msg 10) in K by (exact L || lia). rewrite <- (msg_words 10 msg L F) in K.
  rewrite one_block by lia. rewrite L. tobytes K. exact K.
Qed.

Example C14_example :
  match blake3_var_length 70 with
  | Some q => exec (fun b => b) q (nums (map Z.of_nat (seq 100 70)) ++ [[7]]) [[9]]
                (bwords (rev (b3_hash_words (map Z.of_nat (seq 100 70)))) ++ [[7]]) [[9]]
  | None => False
  end.
Proof. vm_compute. reflexivity. Qed.

(** Finding: length 0 is accepted, but the script then reads a block that nobody supplied: on an
    empty stack it fails, and over 64 unrelated bytes it consumes them and hashes them. *)
Theorem C14_empty_refuted : exists q, blake3_var_length 0 = Some q /\
  (forall H, fails H q [] []) /\
  (forall H below rest alt, length below = 64%nat -> Forall is_byte below ->
     exec H q (nums below ++ rest) alt
       (bwords (rev (b3_compress b3_iv (block_word below) 0 11)) ++ rest) alt).
Proof.
  destruct (cs_ok (fun b => b)) as (cs & E & _).
  assert (Eq : exists q, blake3_var_length 0 = Some q /\
    q = u8_push_xor_table ++ flat_map u32_push (rev (init16 b3_iv 0 11)) ++ cs ++
        u8_drop_xor_table ++ repeat_script 8 u32_fromaltstack).
  { unfold blake3_var_length. rewrite E. cbv zeta. eexists. split; reflexivity. }
  destruct Eq as (q & Eq & Q). exists q. split; [exact Eq|]. split.
  - intros H. pose proof Eq as F. clear - F.
    assert (X : match blake3_var_length 0 with Some q => brun H q (mk [] [] []) = None | None => True end)
      by (vm_compute; reflexivity).
    rewrite F in X. exact X.
  - intros H below rest al L F. destruct (cs_ok H) as (cs' & E' & K).
    assert (cs' = cs) by congruence. subst cs'.
    specialize (K b3_iv 0 11 (map (block_word below) (seq 0 16)) (map B rest) (map B al) eq_refl iv_u32).
    assert (U0 : is_u32 0) by (unfold is_u32; lia). assert (U1 : is_u32 11) by (unfold is_u32; lia).
    specialize (K U0 U1). rewrite map_length, seq_length in K. specialize (K eq_refl (block_u32 H below _ F)).
    rewrite (run_one_block _ below 16) in K by (exact L || lia).
    assert (R : run H q (mk (map I below ++ map B rest) (map B al) []) =
                Some (mk (words (rev (b3_compress b3_iv (block_word below) 0 11)) ++ map B rest) (map B al) [])).
    { subst q. rewrite run_app, push_table. rewrite run_app, push_words.
      2:{ apply (init_u32 H); [exact iv_u32|exact U0|exact U1]. }
      rewrite (msg_words 16 below L F). rewrite run_app.
      rewrite !words_app, <- !app_assoc in K. rewrite K.
      rewrite run_app, drop_table by reflexivity.
      set (h := rev (b3_compress b3_iv (block_word below) 0 11)).
      assert (Lh : length h = 8%nat) by (unfold h; rewrite rev_length; apply compress_len).
      rewrite <- Lh. apply fromalt_words. }
    tobytes R. exact R.
Qed.

(* ------------------------------------------------------------------ *)
(** ** C59: a digest check passes exactly for the right digest *)

Theorem C59_digest_check : exists q, blake3 = Some q /\
  forall H msg d rest alt, length msg = 64%nat -> Forall is_byte msg ->
    length d = 32%nat -> Forall is_byte d ->
    (d = b3_hash msg -> exec H (q ++ push_bytes d ++ blake3_hash_equalverify) (nums msg ++ rest) alt rest alt) /\
    (d <> b3_hash msg -> fails H (q ++ push_bytes d ++ blake3_hash_equalverify) (nums msg ++ rest) alt).
Proof.
  destruct C13_blake3 as (q & E & K). exists q. split; [exact E|].
  intros H msg d rest al L F Ld Fd. specialize (K H msg rest al L F).
  pose proof (hash_eq_ok H d (b3_hash_words msg) (map B rest) (map B al) Ld Fd
                (hash_words_len msg) (hash_words_u32 msg)) as R.
  fold (b3_hash msg) in R. split; intros D; destruct (list_eq_dec Z.eq_dec d (b3_hash msg)) as [Q|Q]; try contradiction.
  - eapply exec_seq; [exact K|]. tobytes R. exact R.
  - tobytes R. unfold fails, exec, brun in *. rewrite runM_app, K. exact R.
Qed.

Theorem C59_digest_check_160 : exists q, blake3_160 = Some q /\
  forall H msg d rest alt, length msg = 40%nat -> Forall is_byte msg ->
    length d = 20%nat -> Forall is_byte d ->
    (d = firstn 20 (b3_hash msg) ->
       exec H (q ++ push_bytes d ++ blake3_160_hash_equalverify) (nums msg ++ rest) alt rest alt) /\
    (d <> firstn 20 (b3_hash msg) ->
       fails H (q ++ push_bytes d ++ blake3_160_hash_equalverify) (nums msg ++ rest) alt).
Proof.
  destruct C14_blake3_160 as (q & E & K). exists q. split; [exact E|].
  intros H msg d rest al L F Ld Fd. specialize (K H msg rest al L F).
  pose proof (hash_words_len msg) as Lw. pose proof (hash_words_u32 msg) as Uw.
  assert (E5 : firstn 20 (b3_hash msg) = flat_map le_bytes4 (firstn 5 (b3_hash_words msg))).
  { unfold b3_hash. generalize dependent (b3_hash_words msg). clear. intros w _ L _.
    do 8 (destruct w as [|? w]; [discriminate|]). destruct w; [reflexivity|discriminate]. }
  assert (U5 : Forall is_u32 (firstn 5 (b3_hash_words msg))).
  { apply Forall_forall. intros x Hx. rewrite Forall_forall in Uw. apply Uw.
    apply (In_firstn_skipn 5 0). exact Hx. }
  assert (L5 : length (firstn 5 (b3_hash_words msg)) = 5%nat) by (rewrite firstn_length, Lw; reflexivity).
  pose proof (hash160_eq_ok H d _ (map B rest) (map B al) Ld Fd L5 U5) as R.
  rewrite <- E5 in R.
  split; intros D; destruct (list_eq_dec Z.eq_dec d (firstn 20 (b3_hash msg))) as [Q|Q]; try contradiction.
  - eapply exec_seq; [exact K|]. tobytes R. exact R.
  - tobytes R. unfold fails, exec, brun in *. rewrite runM_app, K. exact R.
Qed.

(** The repository's own test vector (blake3.rs test_blake3_160), accepted; one bit off, refused. *)
Example C59_example :
  match blake3_160 with
  | Some q =>
      let d := [0x29; 0x0e; 0xef; 0x2c; 0x46; 0x33; 0xe6; 0x48; 0x35; 0xe2; 0xea; 0x63; 0x95; 0xe9; 0xfc; 0x3e;
                0x8b; 0xf4; 0x59; 0xa7] in
      let d' := 0x28 :: tl d in
      let m := nums (concat (repeat [1; 0; 0; 0] 10)) in
      exec (fun b => b) (q ++ push_bytes d ++ blake3_160_hash_equalverify) m [] [] [] /\
      fails (fun b => b) (q ++ push_bytes d' ++ blake3_160_hash_equalverify) m []
  | None => False
  end.
Proof. vm_compute. split; reflexivity. Qed.
