(** The hash scripts. *)
From Coq Require Import ZArith List Bool Lia.
From Coq Require Import ZifyBool ZifyNat.
From Verif Require Import ScriptNum ScriptVM VMLemmas U32Model U32Proofs U32Proofs2 U32Rot Macros
  Blake3Spec Blake3Model Blake3Proofs Blake3Proofs2.
Import ListNotations.
Open Scope Z_scope.

Ltac Zify.zify_post_hook ::= Z.div_mod_to_equations.

Lemma In_firstn_skipn : forall k n (l : list Z) y, In y (firstn k (skipn n l)) -> In y l.
Proof.
  intros k n l y Q. rewrite <- (firstn_skipn n l). apply in_or_app. right.
  rewrite <- (firstn_skipn k (skipn n l)). apply in_or_app. now left.
Qed.

Section B3.
  Variable H : bytes -> bytes.
  Notation run := (run H).

  Lemma word4 : forall w, exists x0 x1 x2 x3, word w = [x0; x1; x2; x3].
  Proof. intros. unfold word. cbn. do 4 eexists. reflexivity. Qed.

  Lemma toalt_words : forall ws r a,
    run (repeat_script (length ws) u32_toaltstack) (mk (words ws ++ r) a []) =
    Some (mk r (rev (words ws) ++ a) []).
  Proof.
    induction ws as [|w ws IH]; intros r a; [reflexivity|]. cbn [length repeat_script].
    rewrite words_cons. destruct (word4 w) as (x0 & x1 & x2 & x3 & E). rewrite E, <- app_assoc.
    rewrite (run_app H).
    change (run u32_toaltstack (mk ([x0; x1; x2; x3] ++ words ws ++ r) a []))
      with (Some (mk (words ws ++ r) (x3 :: x2 :: x1 :: x0 :: a) [])).
    cbv beta iota. rewrite IH. rewrite rev_app_distr, <- app_assoc. reflexivity.
  Qed.
  Lemma repeat_script_snoc : forall n p, repeat_script (S n) p = repeat_script n p ++ p.
  Proof.
    induction n as [|n IH]; intros p; [cbn; now rewrite app_nil_r|].
    change (p ++ repeat_script (S n) p = (p ++ repeat_script n p) ++ p). rewrite IH. now rewrite app_assoc.
  Qed.
  Lemma fromalt_words : forall ws r a,
    run (repeat_script (length ws) u32_fromaltstack) (mk r (rev (words ws) ++ a) []) =
    Some (mk (words ws ++ r) a []).
  Proof.
    induction ws as [|w ws IH]; intros r a; [reflexivity|]. cbn [length].
    rewrite repeat_script_snoc, words_cons. destruct (word4 w) as (x0 & x1 & x2 & x3 & E).
    rewrite E, rev_app_distr, <- app_assoc. rewrite (run_app H), IH. reflexivity.
  Qed.
  Lemma drop_words : forall ws r a,
    run (repeat_script (length ws) u32_drop) (mk (words ws ++ r) a []) = Some (mk r a []).
  Proof.
    induction ws as [|w ws IH]; intros r a; [reflexivity|]. cbn [length repeat_script].
    rewrite words_cons. destruct (word4 w) as (x0 & x1 & x2 & x3 & E). rewrite E, <- app_assoc.
    rewrite (run_app H).
    change (run u32_drop (mk ([x0; x1; x2; x3] ++ words ws ++ r) a [])) with (Some (mk (words ws ++ r) a [])).
    cbv beta iota. apply IH.
  Qed.
  Lemma drop_table : forall ws r a, length ws = 64%nat ->
    run u8_drop_xor_table (mk (words ws ++ r) a []) = Some (mk r a []).
  Proof. intros. apply drop_table_ok. rewrite (words_len H). lia. Qed.
  Lemma push_words : forall ws r a, Forall is_u32 ws ->
    run (flat_map u32_push (rev ws)) (mk r a []) = Some (mk (words ws ++ r) a []).
  Proof.
    induction ws as [|w ws IH]; intros r a U; [reflexivity|]. inversion_clear U as [|? ? U1 U2].
    cbn [rev]. rewrite flat_map_app. cbn [flat_map]. rewrite app_nil_r, (run_app H), IH by exact U2.
    rewrite u32_push_ok by exact U1. rewrite words_cons, <- app_assoc. reflexivity.
  Qed.
  Lemma push_table : forall r a,
    run u8_push_xor_table (mk r a []) = Some (mk (words table_words ++ r) a []).
  Proof. intros. rewrite push_table_ok, table_words_ok. reflexivity. Qed.

  Lemma compress_len : forall cv m l f, length (b3_compress cv m l f) = 8%nat.
  Proof. reflexivity. Qed.

  Lemma init_u32 : forall cv len fl, Forall is_u32 cv -> is_u32 len -> is_u32 fl ->
    Forall is_u32 (init16 cv len fl).
  Proof. intros. apply Forall_app. split; [assumption|]. u32s. Qed.
  Lemma iv_u32 : Forall is_u32 b3_iv.
  Proof. u32s. Qed.

  Local Opaque b3_rounds b3_compress compress compress_160 words table_words u32_toaltstack u32_fromaltstack u32_drop u8_push_xor_table u8_drop_xor_table u32_push.

  Theorem blake3_ok : exists q, blake3 = Some q /\ forall msg rest al,
    length msg = 16%nat -> Forall is_u32 msg ->
    run q (mk (words msg ++ rest) al []) =
    Some (mk (words (rev (b3_compress b3_iv (fun i => nth i msg 0) 64 11)) ++ rest) al []).
  Proof.
    destruct (compress_ok H) as (c & e & E & K). unfold blake3. rewrite E. eexists. split; [reflexivity|].
    intros msg rest al L U.
    destruct (K b3_iv 64 11 msg rest al) as (junk & Lj & R);
      [reflexivity|exact iv_u32|unfold is_u32; lia|unfold is_u32; lia|exact L|exact U|].
    rewrite (run_app H), push_table. rewrite (run_app H). change (initial_state 64) with (flat_map u32_push (rev (init16 b3_iv 64 11))).
    rewrite push_words by (apply init_u32; [exact iv_u32|unfold is_u32; lia|unfold is_u32; lia]).
    rewrite (run_app H). rewrite !words_app, <- !app_assoc in R. rewrite R.
    set (h := rev (b3_compress b3_iv (fun i => nth i msg 0) 64 11)).
    assert (Lh : length h = 8%nat) by (unfold h; rewrite rev_length; apply compress_len).
    rewrite (run_app H). rewrite <- Lh at 1. rewrite toalt_words.
    pose proof (drop_words (junk ++ firstn 16 table_words)) as D1.
    rewrite app_length, Lj in D1. change (length (firstn 16 table_words)) with 16%nat in D1.
    change (8 + 16)%nat with 24%nat in D1.
    rewrite (run_app H). rewrite <- (firstn_skipn 16 table_words) at 1.
    specialize (D1 (words (skipn 16 table_words ++ msg) ++ rest) (rev (words h) ++ al)).
    repeat rewrite words_app in D1. repeat rewrite <- app_assoc in D1. repeat rewrite words_app. repeat rewrite <- app_assoc. rewrite D1.
    rewrite (run_app H). rewrite app_assoc, <- words_app.
    rewrite drop_table by (rewrite app_length, L; reflexivity).
    rewrite <- Lh. apply fromalt_words.
  Qed.

  Theorem blake3_160_ok : exists q, blake3_160 = Some q /\ forall msg rest al,
    length msg = 10%nat -> Forall is_u32 msg ->
    run q (mk (words msg ++ rest) al []) =
    Some (mk (words (rev (firstn 5 (b3_compress b3_iv (fun i => nth i msg 0) 40 11))) ++ rest) al []).
  Proof.
    destruct (compress_160_ok H) as (c & e & E & K). unfold blake3_160. rewrite E. eexists. split; [reflexivity|].
    intros msg rest al L U.
    destruct (K b3_iv 40 11 msg rest al) as (junk & Lj & R);
      [reflexivity|exact iv_u32|unfold is_u32; lia|unfold is_u32; lia|exact L|exact U|].
    rewrite (run_app H), push_to_stack_ok. change (repeat (I (Z.of_nat 0)) 24) with (words (repeat 0 6)).
    rewrite (run_app H), push_table. rewrite (run_app H).
    change (initial_state 40) with (flat_map u32_push (rev (init16 b3_iv 40 11))).
    rewrite push_words by (apply init_u32; [exact iv_u32|unfold is_u32; lia|unfold is_u32; lia]).
    rewrite (run_app H). rewrite !words_app, <- !app_assoc in R. rewrite R.
    set (h := rev (firstn 5 (b3_compress b3_iv (fun i => nth i msg 0) 40 11))).
    assert (Lh : length h = 5%nat) by (unfold h; rewrite rev_length, firstn_length, compress_len; reflexivity).
    rewrite (run_app H). rewrite <- Lh at 1. rewrite toalt_words.
    pose proof (drop_words (junk ++ firstn 16 table_words)) as D1.
    rewrite app_length, Lj in D1. change (length (firstn 16 table_words)) with 16%nat in D1.
    change (11 + 16)%nat with 27%nat in D1.
    rewrite (run_app H). rewrite <- (firstn_skipn 16 table_words) at 1.
    specialize (D1 (words (skipn 16 table_words ++ repeat 0 6 ++ msg) ++ rest) (rev (words h) ++ al)).
    repeat rewrite words_app in D1. repeat rewrite <- app_assoc in D1. repeat rewrite words_app. repeat rewrite <- app_assoc. rewrite D1.
    rewrite (run_app H). rewrite (app_assoc (words (repeat 0 6))), (app_assoc (words (skipn _ _))), <- !words_app.
    rewrite drop_table by (rewrite !app_length, L; reflexivity).
    rewrite <- Lh. apply fromalt_words.
  Qed.

  (** ** Chaining *)
  Local Transparent b3_rounds b3_compress.
  Lemma b3_g_u32 : forall s a b c d x y, (forall i, is_u32 (s i)) -> forall i, is_u32 (b3_g s a b c d x y i).
  Proof.
    assert (K : forall s j v, (forall i, is_u32 (s i)) -> is_u32 v -> forall i, is_u32 (upd s j v i)).
    { intros s j v Us Uv i. unfold upd. destruct (i =? j)%nat; [exact Uv|apply Us]. }
    intros s a b c d x y U. unfold b3_g. cbn zeta.
    repeat match goal with
    | |- forall i, is_u32 (upd ?s ?j ?v i) =>
        let U := fresh in assert (U : forall i, is_u32 (s i));
        [|apply K; [exact U|first [apply u32_add32 | apply u32_ror; [apply u32_lxor; apply U|lia]]]]
    end.
    exact U.
  Qed.
  Lemma b3_rounds_u32 : forall n s m, (forall i, is_u32 (s i)) -> forall i, is_u32 (b3_rounds n s m i).
  Proof.
    induction n as [|n IH]; intros s m U; [exact U|]. cbn [b3_rounds]. apply IH.
    unfold b3_round. cbn zeta. repeat apply b3_g_u32. exact U.
  Qed.
  Lemma nth_u32 : forall l i, Forall is_u32 l -> is_u32 (nth i l 0).
  Proof.
    intros l i F. destruct (Nat.lt_ge_cases i (length l)).
    - rewrite Forall_forall in F. apply F. now apply nth_In.
    - rewrite nth_overflow by lia. unfold is_u32. lia.
  Qed.
  Lemma compress_u32 : forall cv m len fl, Forall is_u32 cv -> is_u32 len -> is_u32 fl ->
    Forall is_u32 (b3_compress cv m len fl).
  Proof.
    intros cv m len fl Uc Ul Uf. rewrite compress_half. apply Forall_forall. intros x Hx.
    apply in_map_iff in Hx. destruct Hx as (i & <- & _). unfold half.
    apply u32_lxor; apply b3_rounds_u32; intros j; apply nth_u32; now apply init_u32.
  Qed.
  Local Opaque b3_rounds b3_compress.

  (** Removing 64 elements below the top 320. *)
  Lemma clean_loop : forall k m top r a, length top = 320%nat -> length m = k ->
    run (repeat_script k [OP_DUP; OP_ROLL; OP_DROP]) (mk (I 321 :: top ++ m ++ r) a []) =
    Some (mk (I 321 :: top ++ r) a []).
  Proof.
    induction k as [|k IH]; intros m top r a Lt Lm.
    - destruct m; [reflexivity|discriminate].
    - destruct m as [|x m]; [discriminate|]. cbn [repeat_script app].
      rewrite (dup1 H).
      change (I 321 :: I 321 :: top ++ x :: m ++ r) with (I 321 :: (I 321 :: top) ++ x :: m ++ r).
      rewrite (vroll_mid H) by (cbn [length]; lia).
      change (run (OP_DROP :: repeat_script k [OP_DUP; OP_ROLL; OP_DROP]) (mk (x :: (I 321 :: top) ++ m ++ r) a []))
        with (run (repeat_script k [OP_DUP; OP_ROLL; OP_DROP]) (mk (I 321 :: top ++ m ++ r) a [])).
      apply IH; [exact Lt|]. cbn in Lm. lia.
  Qed.
  Lemma clean_ok : forall m top r a, length top = 320%nat -> length m = 64%nat ->
    run ([PUSHN 321] ++ repeat_script 63 [OP_DUP; OP_ROLL; OP_DROP] ++ [OP_1SUB; OP_ROLL; OP_DROP])
        (mk (top ++ m ++ r) a []) = Some (mk (top ++ r) a []).
  Proof.
    intros m top r a Lt Lm.
    assert (S : exists m' x, m = m' ++ [x]).
    { destruct m as [|y m] using rev_ind; [discriminate|]. eauto. }
    destruct S as (m' & x & ->). rewrite app_length in Lm. cbn [length] in Lm. rewrite <- app_assoc.
    rewrite (run_app H [PUSHN 321]).
    change (run [PUSHN 321] (mk (top ++ m' ++ [x] ++ r) a [])) with (Some (mk (I 321 :: top ++ m' ++ [x] ++ r) a [])).
    cbv beta iota. rewrite (run_app H), (clean_loop 63 m' top ([x] ++ r) a Lt) by lia.
    rewrite (sub1 H) by lia. change (321 - 1) with 320. cbn [app].
    rewrite (vroll_mid H) by (rewrite ?Lt; lia). reflexivity.
  Qed.

  Lemma cs_ok : exists cs, compression_script = Some cs /\
    forall cv len fl msg rest al,
      length cv = 8%nat -> Forall is_u32 cv -> is_u32 len -> is_u32 fl ->
      length msg = 16%nat -> Forall is_u32 msg ->
      run cs (mk (words (init16 cv len fl ++ table_words ++ msg) ++ rest) al []) =
      Some (mk (words table_words ++ rest)
               (rev (words (rev (b3_compress cv (fun i => nth i msg 0) len fl))) ++ al) []).
  Proof.
    destruct (compress_ok H) as (c & e & E & K). unfold compression_script. rewrite E.
    eexists. split; [reflexivity|]. intros cv len fl msg rest al Lc Uc Ul Uf Lm Um.
    destruct (K cv len fl msg rest al Lc Uc Ul Uf Lm Um) as (junk & Lj & R).
    rewrite (run_app H), R. set (h := rev (b3_compress cv _ len fl)).
    assert (Lh : length h = 8%nat) by (unfold h; rewrite rev_length; apply compress_len).
    assert (A : forall X Y Z, [PUSHN 321] ++ repeat_script 63 [OP_DUP; OP_ROLL; OP_DROP] ++ X ++ Y ++ Z =
                ([PUSHN 321] ++ repeat_script 63 [OP_DUP; OP_ROLL; OP_DROP] ++ X) ++ Y ++ Z).
    { intros. rewrite <- !app_assoc. reflexivity. }
    rewrite A. clear A. rewrite (run_app H).
    replace (words (h ++ junk ++ table_words ++ msg) ++ rest)
      with (words (h ++ junk ++ table_words) ++ words msg ++ rest)
      by (rewrite !words_app, <- !app_assoc; reflexivity).
    rewrite clean_ok.
    2:{ rewrite (words_len H), !app_length, Lh, Lj. reflexivity. }
    2:{ rewrite (words_len H), Lm. reflexivity. }
    rewrite (run_app H). rewrite <- Lh at 1. rewrite !words_app, <- !app_assoc, toalt_words.
    rewrite <- Lj. apply drop_words.
  Qed.

  (** ** Bytes as words *)
  Lemma le_word4 : forall b, (length b <= 4)%nat -> Forall byte b ->
    word (le_word b) = map I (b ++ repeat 0 (4 - length b)).
  Proof.
    intros b L F.
    assert (K : forall i, byte (nth i b 0)).
    { intros i. destruct (Nat.lt_ge_cases i (length b)).
      - rewrite Forall_forall in F. apply F. now apply nth_In.
      - rewrite nth_overflow by lia. unfold byte. lia. }
    assert (E : le_word b = of_bytes (nth 0 b 0) (nth 1 b 0) (nth 2 b 0) (nth 3 b 0)) by reflexivity.
    rewrite E, (word_of_bytes) by apply K.
    do 4 (destruct b as [|? b]; [reflexivity|]). destruct b; [reflexivity|cbn in L; lia].
  Qed.
  Lemma le_word_u32 : forall b, Forall byte b -> is_u32 (le_word b).
  Proof.
    intros b F. apply (of_bytes_u32 (nth 0 b 0) (nth 1 b 0) (nth 2 b 0) (nth 3 b 0)).
    all: match goal with |- byte (nth ?i _ _) => destruct (Nat.lt_ge_cases i (length b)) as [Q|Q];
      [rewrite Forall_forall in F; apply F; now apply nth_In | rewrite nth_overflow by lia; unfold byte; lia] end.
  Qed.
  Lemma skipn_skipn' : forall A i j (l : list A), skipn i (skipn j l) = skipn (j + i) l.
  Proof.
    intros A i j. induction j as [|j IH]; intros l; [reflexivity|]. destruct l; [now rewrite !skipn_nil|]. apply IH.
  Qed.
  Lemma bytes_words : forall n b, (length b <= 4 * n)%nat -> Forall byte b ->
    map I (b ++ repeat 0 (4 * n - length b)) = words (map (block_word b) (seq 0 n)).
  Proof.
    induction n as [|n IH]; intros b L F.
    - destruct b; [reflexivity|cbn in L; lia].
    - cbn [seq map]. rewrite words_cons. rewrite <- seq_shift, map_map.
      assert (E : map (fun x => block_word b (S x)) (seq 0 n) = map (block_word (skipn 4 b)) (seq 0 n)).
      { apply map_ext. intros i. unfold block_word. rewrite skipn_skipn'. replace (4 * S i)%nat with (4 + 4 * i)%nat by lia. reflexivity. }
      assert (F' : Forall byte (firstn 4 b) /\ Forall byte (skipn 4 b)).
      { apply Forall_app. rewrite firstn_skipn. exact F. }
      rewrite E, <- IH by (rewrite ?skipn_length; try lia; tauto).
      unfold block_word. rewrite Nat.mul_0_r. change (skipn 0 b) with b.
      rewrite le_word4 by (rewrite ?firstn_length; try lia; tauto). rewrite <- map_app. f_equal.
      rewrite firstn_length, skipn_length. destruct (Nat.le_ge_cases 4 (length b)) as [Q|Q].
      + replace (4 - Nat.min 4 (length b))%nat with 0%nat by lia. cbn [repeat]. rewrite app_nil_r, app_assoc, firstn_skipn.
        do 2 f_equal. lia.
      + rewrite firstn_all2, skipn_all2 by lia. rewrite Nat.min_r by lia. rewrite <- app_assoc. cbn [app].
        rewrite <- repeat_app. do 2 f_equal. lia.
  Qed.
  Lemma block_u32 : forall b l, Forall byte b -> Forall is_u32 (map (block_word b) l).
  Proof.
    intros b l F. apply Forall_forall. intros x Hx. apply in_map_iff in Hx. destruct Hx as (i & <- & _).
    apply le_word_u32. apply Forall_forall. intros y Hy. rewrite Forall_forall in F. apply F.
    apply (In_firstn_skipn 4 (4 * i)); exact Hy.
  Qed.

  Lemma roll_words : forall X x Y r a, (length X < 1000)%nat ->
    run (u32_roll (length X)) (mk (words (X ++ x :: Y) ++ r) a []) = Some (mk (words (x :: X ++ Y) ++ r) a []).
  Proof.
    intros X x Y r a L. rewrite words_app, !words_cons, words_app. destruct (word4 x) as (x0 & x1 & x2 & x3 & ->).
    rewrite <- !app_assoc. cbn [app]. rewrite u32_roll_ok; [reflexivity| |unfold pos_ok; lia|reflexivity].
    now rewrite (words_len H).
  Qed.
  Lemma reverse8 : forall X Y r a, length X = 8%nat ->
    run (flat_map u32_roll (seq 1 7)) (mk (words (X ++ Y) ++ r) a []) = Some (mk (words (rev X ++ Y) ++ r) a []).
  Proof.
    intros X Y r a L. do 8 (destruct X as [|? X]; [discriminate|]). destruct X; [|discriminate].
    cbn [seq flat_map rev app].
    eapply (run_seq H); [exact (roll_words [z] _ _ r a ltac:(cbn; lia))|].
    eapply (run_seq H); [exact (roll_words [z0; z] _ _ r a ltac:(cbn; lia))|].
    eapply (run_seq H); [exact (roll_words [z1; z0; z] _ _ r a ltac:(cbn; lia))|].
    eapply (run_seq H); [exact (roll_words [z2; z1; z0; z] _ _ r a ltac:(cbn; lia))|].
    eapply (run_seq H); [exact (roll_words [z3; z2; z1; z0; z] _ _ r a ltac:(cbn; lia))|].
    eapply (run_seq H); [exact (roll_words [z4; z3; z2; z1; z0; z] _ _ r a ltac:(cbn; lia))|].
    eapply (run_seq H); [exact (roll_words [z5; z4; z3; z2; z1; z0; z] _ _ r a ltac:(cbn; lia))|]. reflexivity.
  Qed.

  (** More fuel than blocks changes nothing. *)
  Lemma blocks_fuel : forall k n first cv msg, (1 <= k)%nat -> (length msg <= 64 * k)%nat -> (k <= n)%nat ->
    b3_blocks n first cv msg = b3_blocks k first cv msg.
  Proof.
    induction k as [|k IH]; intros n first cv msg K L N; [lia|]. destruct n as [|n]; [lia|]. cbn [b3_blocks].
    destruct (length msg <=? 64)%nat eqn:Q; [reflexivity|]. apply IH; [lia| |lia].
    rewrite skipn_length. lia.
  Qed.

  Definition padded (k : nat) (msg : list Z) : list Z := msg ++ repeat 0 (64 * k - length msg).
  Lemma padded_split : forall k msg, (1 <= k)%nat -> (64 * (k - 1) < length msg <= 64 * k)%nat -> Forall byte msg ->
    map I (padded k msg) = words (map (block_word (firstn 64 msg)) (seq 0 16)) ++ map I (padded (k - 1) (skipn 64 msg)).
  Proof.
    intros k msg K L F. assert (F' : Forall byte (firstn 64 msg)).
    { apply Forall_forall. intros y Hy. rewrite Forall_forall in F. apply F.
      apply (In_firstn_skipn 64 0). exact Hy. }
    rewrite <- bytes_words by (try assumption; rewrite firstn_length; lia). rewrite <- map_app. f_equal.
    unfold padded. rewrite firstn_length, skipn_length. destruct (Nat.le_ge_cases 64 (length msg)) as [Q|Q].
    - replace (4 * 16 - Nat.min 64 (length msg))%nat with 0%nat by lia. cbn [repeat].
      rewrite app_nil_r, app_assoc, firstn_skipn. do 2 f_equal. lia.
    - assert (k = 1)%nat by lia. subst k. rewrite firstn_all2, skipn_all2 by lia.
      rewrite Nat.min_r by lia. cbn [app Nat.sub Nat.mul repeat]. rewrite app_nil_r. reflexivity.
  Qed.

  Local Opaque Nat.mul Nat.sub.
  Lemma blocks_step : forall k first cv msg, b3_blocks (S k) first cv msg =
    let last := (length msg <=? 64)%nat in
    let blk := firstn 64 msg in
    let flags := (if first then 1 else 0) + (if last then 2 + 8 else 0) in
    let cv := b3_compress cv (block_word blk) (Z.of_nat (length blk)) flags in
    if last then cv else b3_blocks k false cv (skipn 64 msg).
  Proof. reflexivity. Qed.

  Lemma block_nth : forall b i, (i < 16)%nat -> nth i (map (block_word b) (seq 0 16)) 0 = block_word b i.
  Proof.
    intros b i L. rewrite (nth_indep _ 0 (block_word b 0)) by (rewrite map_length, seq_length; lia).
    rewrite map_nth, seq_nth by lia. reflexivity.
  Qed.

  Lemma more_ok : forall cs,
    (forall cv len fl msg rest al,
      length cv = 8%nat -> Forall is_u32 cv -> is_u32 len -> is_u32 fl ->
      length msg = 16%nat -> Forall is_u32 msg ->
      run cs (mk (words (init16 cv len fl ++ table_words ++ msg) ++ rest) al []) =
      Some (mk (words table_words ++ rest)
               (rev (words (rev (b3_compress cv (fun i => nth i msg 0) len fl))) ++ al) [])) ->
    forall k i nb n cv msg rest al, length msg = (n - 64)%nat -> Forall byte msg ->
      nb = (i + k)%nat -> (1 <= i)%nat ->
      (k = 0 \/ 64 * (k - 1) < length msg <= 64 * k)%nat ->
      length cv = 8%nat -> Forall is_u32 cv ->
      run (more_blocks k i nb n cs)
        (mk (words table_words ++ map I (padded k msg) ++ rest) (rev (words (rev cv)) ++ al) []) =
      Some (mk (words table_words ++ map I (padded 0 (skipn (64 * k) msg)) ++ rest) (rev (words (rev (b3_blocks k false cv msg))) ++ al) []).
  Proof.
    intros cs CS. induction k as [|k IH]; intros i nb n cv msg rest al Lm Fm Enb Ei Lk Lc Uc.
    - reflexivity.
    - destruct Lk as [Lk|Lk]; [lia|]. cbn [more_blocks]. rewrite blocks_step.
      set (len := Z.of_nat (Nat.min (n - 64) 64)). set (fl := if (i =? nb - 1)%nat then 10 else 0).
      assert (Ul : is_u32 len) by (unfold is_u32, len; lia).
      assert (Uf : is_u32 fl) by (unfold is_u32, fl; destruct (i =? nb - 1)%nat; lia).
      rewrite (run_app H).
      rewrite (push_words (firstn 4 IV ++ [0; 0; len; fl])).
      2:{ u32s. }
      rewrite (run_app H). assert (Lr : length (rev cv) = 8%nat) by (rewrite rev_length; exact Lc).
      rewrite <- Lr at 1. rewrite fromalt_words. rewrite (run_app H).
      pose proof (reverse8 (rev cv) (firstn 4 IV ++ [0; 0; len; fl])
                    (words table_words ++ map I (padded (S k) msg) ++ rest) al Lr) as R8.
      rewrite words_app, <- app_assoc in R8. rewrite R8. rewrite rev_involutive. clear R8.
      rewrite (padded_split (S k) msg) by (try assumption; lia). replace (S k - 1)%nat with k by lia.
      set (blk := firstn 64 msg).
      assert (Fb : Forall byte blk).
      { apply Forall_forall. intros y Hy. rewrite Forall_forall in Fm. apply Fm.
        apply (In_firstn_skipn 64 0). exact Hy. }
      specialize (CS cv len fl (map (block_word blk) (seq 0 16)) (map I (padded k (skipn 64 msg)) ++ rest) al
                    Lc Uc Ul Uf) as C1.
      rewrite map_length, seq_length in C1. specialize (C1 eq_refl (block_u32 blk _ Fb)).
      rewrite (b3_compress_ext cv _ (block_word blk) len fl (block_nth blk)) in C1.
      rewrite (run_app H).
      change (cv ++ firstn 4 IV ++ [0; 0; len; fl]) with (init16 cv len fl).
      replace (words (init16 cv len fl) ++ words table_words ++
               (words (map (block_word blk) (seq 0 16)) ++ map I (padded k (skipn 64 msg))) ++ rest)
        with (words (init16 cv len fl ++ table_words ++ map (block_word blk) (seq 0 16)) ++
              map I (padded k (skipn 64 msg)) ++ rest)
        by (rewrite !words_app, <- !app_assoc; reflexivity).
      rewrite C1.
      cbn zeta. fold blk.
      assert (Elen : Z.of_nat (length blk) = len) by (unfold blk, len; rewrite firstn_length; lia).
      assert (Efl : 0 + (if (length msg <=? 64)%nat then 2 + 8 else 0) = fl).
      { unfold fl. destruct (i =? nb - 1)%nat eqn:Q1, (length msg <=? 64)%nat eqn:Q2; lia. }
      rewrite Elen, Efl. set (cv' := b3_compress cv (block_word blk) len fl).
      rewrite (IH (S i) nb (n - 64)%nat cv' (skipn 64 msg) rest al).
      + rewrite skipn_skipn'. replace (64 + 64 * k)%nat with (64 * S k)%nat by lia.
        destruct (length msg <=? 64)%nat eqn:Q; [|reflexivity].
        assert (k = 0)%nat by lia. subst k. reflexivity.
      + rewrite skipn_length. lia.
      + apply Forall_forall. intros y Hy. rewrite Forall_forall in Fm. apply Fm.
        rewrite <- (firstn_skipn 64 msg). apply in_or_app. now right.
      + lia.
      + lia.
      + rewrite skipn_length. lia.
      + apply compress_len.
      + apply compress_u32; assumption.
  Qed.

  Lemma roll_rot : forall l Z0 r a N, (length Z0 + length l = N)%nat -> (N < 1000)%nat ->
    run (repeat_script (length l) [pushnat (N - 1); OP_ROLL]) (mk (Z0 ++ l ++ r) a []) =
    Some (mk (l ++ Z0 ++ r) a []).
  Proof.
    induction l as [|x l IH] using rev_ind; intros Z0 r a N L B; [reflexivity|].
    rewrite app_length in *. cbn [length] in *. rewrite Nat.add_1_r. cbn [repeat_script].
    replace (Z0 ++ (l ++ [x]) ++ r) with ((Z0 ++ l) ++ x :: r) by (rewrite <- !app_assoc; reflexivity).
    cbn [app]. rewrite roll_mid; [|rewrite app_length; lia|lia|reflexivity].
    change (x :: (Z0 ++ l) ++ r) with (((x :: Z0) ++ l) ++ r). rewrite <- app_assoc.
    rewrite IH; [|cbn [length]; lia|exact B]. rewrite <- app_assoc. reflexivity.
  Qed.

  Theorem blake3_var_length_ok : forall n, (1 <= n <= 512)%nat ->
    exists q, blake3_var_length n = Some q /\ forall msg rest al,
    length msg = n -> Forall byte msg ->
    run q (mk (map I msg ++ rest) al []) =
    Some (mk (words (rev (b3_hash_words msg)) ++ rest) al []).
  Proof.
    intros n Ln. destruct cs_ok as (cs & E & CS). unfold blake3_var_length. rewrite E. cbv zeta.
    destruct (n <=? 512)%nat eqn:Q5; [|lia]. eexists. split; [reflexivity|].
    intros msg rest al Lm Fm. set (nb := ((n + 64 - 1) / 64)%nat).
    assert (Lb : (1 <= nb /\ 64 * (nb - 1) < n <= 64 * nb /\ nb <= 16)%nat) by (unfold nb; lia).
    assert (Epad : (nb * 64 - n)%nat = (64 * nb - length msg)%nat) by lia. rewrite Epad.
    rewrite (run_app H), push_to_stack_ok.
    set (pad := (64 * nb - length msg)%nat) in *.
    assert (R1 : run (if (pad =? 0)%nat then [] else repeat_script n [pushnat (n + pad - 1); OP_ROLL])
                   (mk (repeat (I (Z.of_nat 0)) pad ++ map I msg ++ rest) al []) =
                 Some (mk (map I (padded nb msg) ++ rest) al [])).
    { unfold padded. fold pad. rewrite map_app, <- app_assoc.
      assert (Er : map I (repeat 0 pad) = repeat (I (Z.of_nat 0)) pad).
      { clear. generalize pad. intros k. induction k as [|k IHk]; [reflexivity|]. cbn [repeat map]. rewrite IHk. reflexivity. }
      rewrite Er. destruct (pad =? 0)%nat eqn:Q0.
      - apply Nat.eqb_eq in Q0. rewrite Q0. reflexivity.
      - replace n with (length (map I msg)) at 1 by (rewrite map_length; exact Lm).
        apply roll_rot; [rewrite repeat_length, map_length; lia|lia]. }
    eapply (run_seq H); [exact R1|]. clear R1.
    rewrite (run_app H), push_table.
    set (fl := if (n <=? 64)%nat then 11 else 1). set (len := Z.of_nat (Nat.min n 64)).
    assert (Ul : is_u32 len) by (unfold is_u32, len; lia).
    assert (Uf : is_u32 fl) by (unfold is_u32, fl; destruct (n <=? 64)%nat; lia).
    rewrite (run_app H). change (IV ++ firstn 4 IV ++ [0; 0; len; fl]) with (init16 b3_iv len fl).
    rewrite push_words by (apply init_u32; [exact iv_u32|exact Ul|exact Uf]).
    rewrite padded_split by (try assumption; lia).
    set (blk := firstn 64 msg).
    assert (Fb : Forall byte blk).
    { apply Forall_forall. intros y Hy. rewrite Forall_forall in Fm. apply Fm.
      apply (In_firstn_skipn 64 0). exact Hy. }
    specialize (CS b3_iv len fl (map (block_word blk) (seq 0 16)) (map I (padded (nb - 1) (skipn 64 msg)) ++ rest) al
                  eq_refl iv_u32 Ul Uf) as C1.
    rewrite map_length, seq_length in C1. specialize (C1 eq_refl (block_u32 blk _ Fb)).
    rewrite (b3_compress_ext b3_iv _ (block_word blk) len fl (block_nth blk)) in C1.
    rewrite (run_app H).
    replace (words (init16 b3_iv len fl) ++ words table_words ++
             (words (map (block_word blk) (seq 0 16)) ++ map I (padded (nb - 1) (skipn 64 msg))) ++ rest)
      with (words (init16 b3_iv len fl ++ table_words ++ map (block_word blk) (seq 0 16)) ++
            map I (padded (nb - 1) (skipn 64 msg)) ++ rest)
      by (rewrite !words_app, <- !app_assoc; reflexivity).
    rewrite C1. set (cv' := b3_compress b3_iv (block_word blk) len fl).
    rewrite (run_app H).
    rewrite (more_ok cs CS (nb - 1) 1 nb n cv' (skipn 64 msg) rest al);
      [|rewrite skipn_length; lia| |lia|lia|rewrite skipn_length; lia|apply compress_len
       |apply compress_u32; [exact iv_u32|exact Ul|exact Uf]].
    2:{ apply Forall_forall. intros y Hy. rewrite Forall_forall in Fm. apply Fm.
        rewrite <- (firstn_skipn 64 msg). apply in_or_app. now right. }
    assert (Eh : b3_blocks (nb - 1) false cv' (skipn 64 msg) = b3_hash_words msg).
    { unfold b3_hash_words. rewrite (blocks_fuel nb 16) by lia.
      replace nb with (S (nb - 1)) at 2 by lia. rewrite blocks_step. cbn zeta. fold blk.
      assert (Elen : Z.of_nat (length blk) = len) by (unfold blk, len; rewrite firstn_length; lia).
      assert (Efl : 1 + (if (length msg <=? 64)%nat then 2 + 8 else 0) = fl).
      { unfold fl. rewrite Lm. destruct (n <=? 64)%nat; reflexivity. }
      rewrite Elen, Efl. fold cv'. destruct (length msg <=? 64)%nat eqn:Q; [|reflexivity].
      replace (nb - 1)%nat with 0%nat by lia. reflexivity. }
    rewrite Eh. rewrite skipn_skipn'.
    assert (Epp : padded 0 (skipn (64 + 64 * (nb - 1)) msg) = []).
    { rewrite skipn_all2 by lia. reflexivity. }
    rewrite Epp. cbn [map app]. rewrite (run_app H), drop_table by reflexivity.
    assert (Lh : length (rev (b3_hash_words msg)) = 8%nat).
    { rewrite rev_length, <- Eh. clear. generalize (skipn 64 msg). assert (Lc : length cv' = 8%nat) by apply compress_len.
      revert Lc. generalize cv'. clear. induction (nb - 1)%nat as [|k IH]; intros c Lc m; [exact Lc|].
      rewrite blocks_step. cbn zeta. destruct (length m <=? 64)%nat; [apply compress_len|].
      apply IH. apply compress_len. }
    rewrite <- Lh. apply fromalt_words.
  Qed.
End B3.
