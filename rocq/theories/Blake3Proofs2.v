(** From the compression function to the hash scripts. *)
From Coq Require Import ZArith List Bool Lia.
From Coq Require Import ZifyBool ZifyNat.
From Verif Require Import ScriptNum ScriptVM VMLemmas U32Model U32Proofs U32Proofs2 U32Rot Macros
  Blake3Spec Blake3Model Blake3Proofs.
Import ListNotations.
Open Scope Z_scope.

Ltac Zify.zify_post_hook ::= Z.div_mod_to_equations.

(** ** The specification looks at message words 0..15 only *)
Lemma b3_round_ext : forall s m m', (forall i, (i < 16)%nat -> m i = m' i) -> b3_round s m = b3_round s m'.
Proof. intros s m m' E. unfold b3_round. rewrite !E by lia. reflexivity. Qed.
Lemma b3_rounds_ext : forall n s m m', (forall i, (i < 16)%nat -> m i = m' i) ->
  b3_rounds n s m = b3_rounds n s m'.
Proof.
  induction n as [|n IH]; intros s m m' E; [reflexivity|]. cbn [b3_rounds].
  rewrite (b3_round_ext s m m' E). apply IH. intros i _. unfold b3_permute. apply E. apply perm_lt.
Qed.
Lemma b3_compress_ext : forall cv m m' len fl, (forall i, (i < 16)%nat -> m i = m' i) ->
  b3_compress cv m len fl = b3_compress cv m' len fl.
Proof. intros. unfold b3_compress. rewrite (b3_rounds_ext 7 _ m m') by assumption. reflexivity. Qed.

Ltac u32s := cbn; repeat (apply Forall_cons; [first [assumption | unfold is_u32; lia]|]); apply Forall_nil.

Section B2.
  Variable H : bytes -> bytes.
  Notation run := (run H).

  Definition half (s : nat -> Z) (i : nat) : Z := Z.lxor (s i) (s (i + 8)%nat).

  Lemma final_ok : forall n i e p mp X s msg rest al,
    env_ok e p mp -> NoDup p -> length X = i -> (length X + length p = 16)%nat ->
    (forall j, (j < 8)%nat -> In j p) -> (forall j, (i + 8 <= j < 16)%nat -> In j p) ->
    (i + n <= 8)%nat -> (forall j, is_u32 (s j)) ->
    exists q e' p', final_xor i n e 16 = Some (q, e') /\ (length p' + n = length p)%nat /\
      run q (st X s p msg rest al) = Some (st (rev (map (half s) (seq i n)) ++ X) s p' msg rest al).
  Proof.
    induction n as [|n IH]; intros i e p mp X s msg rest al OK N LX L I1 I2 Le U.
    - exists [], e, p. split; [reflexivity|]. split; [lia|reflexivity].
    - cbn [final_xor]. assert (P1 : In i p) by (apply I1; lia). assert (P2 : In (i + 8)%nat p) by (apply I2; lia).
      rewrite (proj1 OK i P1). destruct (extract_ok e p mp (i + 8)%nat OK N P2) as (e1 & E1 & OK1). rewrite E1.
      destruct (xor_gen H (index i p + i) (index (i + 8) p + i) (s i) (s (i + 8)%nat) (X ++ map s p) msg rest al)
        as (q & Q & R); try apply U.
      { intros E. assert (Q : index i p = index (i + 8) p) by lia.
        apply index_inj in Q; [lia|exact P1|exact P2]. }
      { rewrite app_length, map_length. exact L. }
      { rewrite nth_error_app2 by lia. replace (_ - length X)%nat with (index i p) by lia.
        rewrite <- (app_nil_r (map s p)). now apply index_nth. }
      { rewrite nth_error_app2 by lia. replace (_ - length X)%nat with (index (i + 8) p) by lia.
        rewrite <- (app_nil_r (map s p)). now apply index_nth. }
      change (16 + 1)%nat with 17%nat. rewrite Q.
      pose proof (length_del (i + 8)%nat p N P2) as LD.
      destruct (IH (S i) e1 (del (i + 8) p) mp (half s i :: X) s msg rest al) as (q2 & e2 & p2 & E2 & L2 & R2).
      { exact OK1. } { now apply nodup_del. } { cbn. lia. } { cbn [length]. lia. }
      { intros j Hj. apply in_del. split; [now apply I1|lia]. }
      { intros j Hj. apply in_del. split; [apply I2; lia|lia]. } { lia. } { exact U. }
      rewrite E2. exists (q ++ q2), e2, p2. split; [reflexivity|]. split; [lia|].
      rewrite (run_app H). unfold st at 1, lay. rewrite app_assoc. rewrite R.
      assert (Er : remove_nth (index (i + 8) p + i) (X ++ map s p) = X ++ map s (del (i + 8) p)).
      { pose proof (index_remove _ s (i + 8)%nat p [] N P2) as Er. rewrite !app_nil_r in Er. rewrite <- Er.
        generalize (index (i + 8) p). intros k. rewrite <- LX. clear. induction X as [|x X IH]; cbn [length app].
        - now rewrite Nat.add_0_r.
        - rewrite Nat.add_succ_r. cbn [remove_nth]. f_equal. exact IH. }
      rewrite Er. unfold st, lay in R2. cbn [app] in R2 |- *. rewrite <- app_assoc. fold (half s i). rewrite R2.
      cbn [seq map rev]. unfold st, lay. rewrite <- !app_assoc. reflexivity.
  Qed.

  Definition init16 (cv : list Z) (len fl : Z) : list Z := cv ++ firstn 4 b3_iv ++ [0; 0; len; fl].

  Lemma seq_init : forall (l : list Z), length l = 16%nat -> map (fun i => nth i l 0) (seq 0 16) = l.
  Proof.
    intros l L. do 16 (destruct l as [|? l]; [discriminate|]). destruct l; [reflexivity|discriminate].
  Qed.

  Lemma index_seq : forall i, (i < 16)%nat -> index i (seq 0 16) = i.
  Proof. intros i L. do 16 (destruct i as [|i]; [reflexivity|]). lia. Qed.

  Lemma inv_init : forall s, (forall i, is_u32 (s i)) -> Inv ptr_init (seq 0 16) (fun i => i) s.
  Proof.
    intros s U. constructor.
    - split.
      + intros i Hi. apply in_seq in Hi. cbn [ptr_init]. destruct (i <? 16)%nat eqn:E; [|lia].
        rewrite index_seq by lia. reflexivity.
      + intros i Hi. cbn [ptr_init]. destruct (i <? 16)%nat eqn:E; [|lia]. rewrite seq_length.
        change (256 / 4)%nat with 64%nat. f_equal. lia.
    - apply seq_NoDup.
    - reflexivity.
    - intros i. rewrite in_seq. lia.
    - intros i Hi. exact Hi.
    - exact U.
  Qed.
  Definition mp160 (i : nat) : nat := if (i <? 10)%nat then (i + 6)%nat else (i - 10)%nat.
  Lemma inv_init_160 : forall s, (forall i, is_u32 (s i)) -> Inv ptr_init_160 (seq 0 16) mp160 s.
  Proof.
    intros s U. constructor.
    - split.
      + intros i Hi. apply in_seq in Hi. cbn [ptr_init_160]. destruct (i <? 16)%nat eqn:E; [|lia].
        rewrite index_seq by lia. reflexivity.
      + intros i Hi. cbn [ptr_init_160]. destruct (i <? 16)%nat eqn:E; [|lia]. rewrite seq_length.
        change (256 / 4)%nat with 64%nat. unfold mp160. destruct (i <? 10)%nat eqn:E2; f_equal; lia.
    - apply seq_NoDup.
    - reflexivity.
    - intros i. rewrite in_seq. lia.
    - intros i Hi. unfold mp160. destruct (i <? 10)%nat eqn:E2; lia.
    - exact U.
  Qed.

  (** The rounds from an initial environment, then [k] closing XORs. *)
  Lemma rounds_final : forall k e mp init msg rest al,
    (forall s, (forall i, is_u32 (s i)) -> Inv e (seq 0 16) mp s) -> (k <= 8)%nat ->
    length init = 16%nat -> Forall is_u32 init -> length msg = 16%nat -> Forall is_u32 msg ->
    exists q e' junk,
      (let? (s, e) := round e 16 in
       let? (t, e) := permute_round 6 e 16 in
       let? (u, e) := final_xor 0 k e 16 in Some (s ++ t ++ u, e)) = Some (q, e') /\
      (length junk + k = 16)%nat /\
      run q (mk (words (init ++ table_words ++ msg) ++ rest) al []) =
      Some (mk (words (rev (map (half (b3_rounds 7 (fun i => nth i init 0) (fun i => nth (mp i) msg 0))) (seq 0 k))
                       ++ junk ++ table_words ++ msg) ++ rest) al []).
  Proof.
    intros k e mp init msg rest al I0 Lk Li Ui Lm Um.
    assert (U : forall i, is_u32 (nth i init 0)).
    { intros i. destruct (Nat.lt_ge_cases i (length init)).
      - rewrite Forall_forall in Ui. apply Ui. now apply nth_In.
      - rewrite nth_overflow by lia. unfold is_u32. lia. }
    set (s0 := fun i => nth i init 0) in *. set (m := fun i => nth (mp i) msg 0).
    destruct (round_inv H e (seq 0 16) mp s0 msg rest al (I0 s0 U) Lm Um) as (q1 & e1 & p1 & E1 & I1 & R1).
    rewrite E1. fold m in I1, R1.
    destruct (rounds_inv H 6 e1 p1 mp _ msg rest al I1 Lm Um) as (q2 & e2 & p2 & mp2 & E2 & I2 & R2).
    rewrite E2. cbn zeta in I2, R2. fold m in I2, R2.
    change (b3_rounds 6 (b3_round s0 m) (b3_permute m)) with (b3_rounds 7 s0 m) in I2, R2.
    set (sf := b3_rounds 7 s0 m) in *. destruct I2 as [OK N L IN MP Us].
    destruct (final_ok k 0 e2 p2 mp2 [] sf msg rest al) as (q3 & e3 & p3 & E3 & L3 & R3);
      try assumption; try reflexivity.
    { intros j Hj. apply IN. lia. } { intros j Hj. apply IN. lia. }
    rewrite E3. exists (q1 ++ q2 ++ q3), e3, (map sf p3). split; [reflexivity|].
    split; [rewrite map_length; lia|].
    assert (S0 : st [] s0 (seq 0 16) msg rest al = mk (words (init ++ table_words ++ msg) ++ rest) al []).
    { unfold st, lay. cbn [app]. unfold s0. rewrite seq_init by exact Li. reflexivity. }
    rewrite S0 in R1. rewrite (run_app H), R1, (run_app H), R2.
    rewrite R3. unfold st, lay. rewrite app_nil_r. reflexivity.
  Qed.

  Local Opaque b3_rounds round permute_round final_xor.
  Lemma compress_half : forall cv m len fl,
    b3_compress cv m len fl = map (half (b3_rounds 7 (fun i => nth i (init16 cv len fl) 0) m)) (seq 0 8).
  Proof. reflexivity. Qed.
  Lemma first5 : forall f : nat -> Z, firstn 5 (map f (seq 0 8)) = map f (seq 0 5).
  Proof. reflexivity. Qed.

  Theorem compress_ok : exists c e', compress ptr_init 16 = Some (c, e') /\
    forall cv len fl msg rest al,
      length cv = 8%nat -> Forall is_u32 cv -> is_u32 len -> is_u32 fl ->
      length msg = 16%nat -> Forall is_u32 msg ->
      exists junk, length junk = 8%nat /\
        run c (mk (words (init16 cv len fl ++ table_words ++ msg) ++ rest) al []) =
        Some (mk (words (rev (b3_compress cv (fun i => nth i msg 0) len fl) ++ junk ++ table_words ++ msg)
                  ++ rest) al []).
  Proof.
    assert (K : forall cv len fl msg rest al,
      length cv = 8%nat -> Forall is_u32 cv -> is_u32 len -> is_u32 fl ->
      length msg = 16%nat -> Forall is_u32 msg ->
      exists c e' junk, compress ptr_init 16 = Some (c, e') /\ length junk = 8%nat /\
        run c (mk (words (init16 cv len fl ++ table_words ++ msg) ++ rest) al []) =
        Some (mk (words (rev (b3_compress cv (fun i => nth i msg 0) len fl) ++ junk ++ table_words ++ msg)
                  ++ rest) al [])).
    { intros cv len fl msg rest al L Uc Ul Uf Lm Um.
      destruct (rounds_final 8 ptr_init (fun i => i) (init16 cv len fl) msg rest al inv_init)
        as (q & e' & junk & E & Lj & R); try assumption.
      - lia.
      - unfold init16. rewrite app_length, L. reflexivity.
      - apply Forall_app. split; [exact Uc|]. u32s.
      - exists q, e', junk. split; [unfold compress; exact E|]. split; [lia|]. rewrite compress_half. exact R. }
    destruct (K (repeat 0 8) 0 0 (repeat 0 16) [] []) as (c & e' & _ & E & _);
      [reflexivity|u32s|unfold is_u32; lia|unfold is_u32; lia|reflexivity|u32s|].
    exists c, e'. split; [exact E|]. intros cv len fl msg rest al L Uc Ul Uf Lm Um.
    destruct (K cv len fl msg rest al L Uc Ul Uf Lm Um) as (c' & e2 & junk & E2 & Lj & R).
    assert (c' = c) by congruence. subst c'. exists junk. split; assumption.
  Qed.

  Theorem compress_160_ok : exists c e', compress_160 ptr_init_160 16 = Some (c, e') /\
    forall cv len fl msg rest al,
      length cv = 8%nat -> Forall is_u32 cv -> is_u32 len -> is_u32 fl ->
      length msg = 10%nat -> Forall is_u32 msg ->
      exists junk, length junk = 11%nat /\
        run c (mk (words (init16 cv len fl ++ table_words ++ repeat 0 6 ++ msg) ++ rest) al []) =
        Some (mk (words (rev (firstn 5 (b3_compress cv (fun i => nth i msg 0) len fl)) ++
                         junk ++ table_words ++ repeat 0 6 ++ msg) ++ rest) al []).
  Proof.
    assert (K : forall cv len fl msg rest al,
      length cv = 8%nat -> Forall is_u32 cv -> is_u32 len -> is_u32 fl ->
      length msg = 10%nat -> Forall is_u32 msg ->
      exists c e' junk, compress_160 ptr_init_160 16 = Some (c, e') /\ length junk = 11%nat /\
        run c (mk (words (init16 cv len fl ++ table_words ++ repeat 0 6 ++ msg) ++ rest) al []) =
        Some (mk (words (rev (firstn 5 (b3_compress cv (fun i => nth i msg 0) len fl)) ++
                         junk ++ table_words ++ repeat 0 6 ++ msg) ++ rest) al [])).
    { intros cv len fl msg rest al L Uc Ul Uf Lm Um.
      destruct (rounds_final 5 ptr_init_160 mp160 (init16 cv len fl) (repeat 0 6 ++ msg) rest al inv_init_160)
        as (q & e' & junk & E & Lj & R); try assumption.
      - lia.
      - unfold init16. rewrite app_length, L. reflexivity.
      - apply Forall_app. split; [exact Uc|]. u32s.
      - rewrite app_length, Lm. reflexivity.
      - apply Forall_app. split; [|exact Um]. u32s.
      - exists q, e', junk. split; [unfold compress_160; exact E|]. split; [lia|].
        assert (X : b3_compress cv (fun i => nth i msg 0) len fl =
                    b3_compress cv (fun i => nth (mp160 i) (repeat 0 6 ++ msg) 0) len fl).
        { apply b3_compress_ext. intros i Hi. unfold mp160. destruct (i <? 10)%nat eqn:Q.
          - rewrite app_nth2 by (rewrite repeat_length; lia). rewrite repeat_length. f_equal. lia.
          - rewrite nth_overflow by lia. rewrite app_nth1 by (rewrite repeat_length; lia).
            symmetry. clear. generalize (i - 10)%nat. intros n.
            do 6 (destruct n as [|n]; [reflexivity|]). destruct n; reflexivity. }
        rewrite X, compress_half, first5. exact R. }
    destruct (K (repeat 0 8) 0 0 (repeat 0 10) [] []) as (c & e' & _ & E & _);
      [reflexivity|u32s|unfold is_u32; lia|unfold is_u32; lia|reflexivity|u32s|].
    exists c, e'. split; [exact E|]. intros cv len fl msg rest al L Uc Ul Uf Lm Um.
    destruct (K cv len fl msg rest al L Uc Ul Uf Lm Um) as (c' & e2 & junk & E2 & Lj & R).
    assert (c' = c) by congruence. subst c'. exists junk. split; assumption.
  Qed.
End B2.
