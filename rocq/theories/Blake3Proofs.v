(** The script compression function computes BLAKE3's. *)
From Coq Require Import ZArith List Bool Lia.
From Coq Require Import ZifyBool ZifyNat.
From Verif Require Import ScriptNum ScriptVM VMLemmas U32Model U32Proofs U32Proofs2 U32Rot Macros
  Blake3Spec Blake3Model.
Import ListNotations.
Open Scope Z_scope.

Ltac Zify.zify_post_hook ::= Z.div_mod_to_equations.

(** ** Word arithmetic stays in range *)
Lemma u32_add32 : forall x y, is_u32 (add32 x y).
Proof. intros. unfold is_u32, add32. apply Z.mod_pos_bound. reflexivity. Qed.
Lemma u32_lxor : forall x y, is_u32 x -> is_u32 y -> is_u32 (Z.lxor x y).
Proof.
  unfold is_u32. intros x y X Y.
  assert (Z.lxor x y = Z.lxor x y mod 2 ^ 32).
  { rewrite <- Z.land_ones by lia. apply Z.bits_inj'. intros n Hn.
    rewrite Z.land_spec, Z.lxor_spec. destruct (Z.lt_ge_cases n 32).
    - rewrite Z.ones_spec_low by lia. now rewrite andb_true_r.
    - rewrite Z.ones_spec_high by lia. rewrite andb_false_r.
      rewrite <- (Z.mod_small x (2 ^ 32)), <- (Z.mod_small y (2 ^ 32)) by lia.
      rewrite !Z.mod_pow2_bits_high by lia. reflexivity. }
  rewrite H. apply Z.mod_pos_bound. reflexivity.
Qed.
Lemma u32_ror : forall x n, is_u32 x -> (0 <= n <= 32) -> is_u32 (ror32 x n).
Proof.
  unfold is_u32, ror32. intros x n X N.
  assert (P : 0 < 2 ^ n) by (apply Z.pow_pos_nonneg; lia).
  assert (Q : 0 < 2 ^ (32 - n)) by (apply Z.pow_pos_nonneg; lia).
  assert (E : 2 ^ 32 = 2 ^ n * 2 ^ (32 - n)) by (rewrite <- Z.pow_add_r by lia; f_equal; lia).
  assert (D : 0 <= x / 2 ^ n < 2 ^ (32 - n)).
  { split; [apply Z.div_pos; lia|]. apply Z.div_lt_upper_bound; lia. }
  pose proof (Z.mod_pos_bound x (2 ^ n) P) as R. nia.
Qed.

(** ** Positions *)
Fixpoint index (i : nat) (p : list nat) : nat :=
  match p with [] => O | x :: p => if (x =? i)%nat then O else S (index i p) end.
Definition del (i : nat) (p : list nat) : list nat := remove Nat.eq_dec i p.

Lemma index_nth : forall A (s : nat -> A) i p r, In i p ->
  nth_error (map s p ++ r) (index i p) = Some (s i).
Proof.
  induction p as [|x p IH]; intros r Hi; [easy|]. cbn.
  destruct (x =? i)%nat eqn:E; [apply Nat.eqb_eq in E; now subst|].
  apply IH. destruct Hi as [->|Hi]; [lia|exact Hi].
Qed.
Lemma del_notin : forall i p, ~ In i p -> del i p = p.
Proof. intros. now apply notin_remove. Qed.
Lemma del_cons : forall i x p, del i (x :: p) = if (x =? i)%nat then del i p else x :: del i p.
Proof.
  intros. unfold del. cbn. destruct (Nat.eq_dec i x) as [->|N].
  - now rewrite Nat.eqb_refl.
  - destruct (x =? i)%nat eqn:E; [lia|reflexivity].
Qed.
Lemma index_remove : forall A (s : nat -> A) i p r, NoDup p -> In i p ->
  remove_nth (index i p) (map s p ++ r) = map s (del i p) ++ r.
Proof.
  induction p as [|x p IH]; intros r N Hi; [easy|]. inversion_clear N as [|? ? Nx Np].
  rewrite del_cons. cbn [index map app]. destruct (x =? i)%nat eqn:E.
  - apply Nat.eqb_eq in E. subst. rewrite del_notin by exact Nx. reflexivity.
  - cbn [remove_nth map app]. f_equal. apply IH; [exact Np|]. destruct Hi as [->|Hi]; [lia|exact Hi].
Qed.
Lemma in_del : forall i j p, In i (del j p) <-> In i p /\ i <> j.
Proof.
  intros. unfold del. split; intros Q.
  - now apply in_remove in Q.
  - now apply in_in_remove.
Qed.
Lemma nodup_del : forall i p, NoDup p -> NoDup (del i p).
Proof.
  induction p as [|x p IH]; intros N; [exact N|]. inversion_clear N as [|? ? Nx Np].
  rewrite del_cons. destruct (x =? i)%nat; [now apply IH|]. constructor; [|now apply IH].
  rewrite in_del. tauto.
Qed.
Lemma length_del : forall i p, NoDup p -> In i p -> length p = S (length (del i p)).
Proof.
  induction p as [|x p IH]; intros N Hi; [easy|]. inversion_clear N as [|? ? Nx Np].
  rewrite del_cons. destruct (x =? i)%nat eqn:E.
  - apply Nat.eqb_eq in E. subst. rewrite del_notin by exact Nx. reflexivity.
  - cbn. f_equal. apply IH; [exact Np|]. destruct Hi as [->|Hi]; [lia|exact Hi].
Qed.
Lemma index_lt : forall i p, In i p -> (index i p < length p)%nat.
Proof.
  induction p as [|x p IH]; intros Hi; [easy|]. cbn. destruct (x =? i)%nat eqn:E; [lia|].
  destruct Hi as [->|Hi]; [lia|]. specialize (IH Hi). lia.
Qed.
Lemma index_del : forall i j p, NoDup p -> In i p -> In j p -> i <> j ->
  index i (del j p) = if (index j p <? index i p)%nat then (index i p - 1)%nat else index i p.
Proof.
  induction p as [|x p IH]; intros N Hi Hj D; [easy|]. inversion_clear N as [|? ? Nx Np].
  rewrite del_cons. cbn [index]. destruct (x =? j)%nat eqn:Ej.
  - apply Nat.eqb_eq in Ej. subst x. destruct (j =? i)%nat eqn:Ei; [lia|].
    rewrite del_notin by exact Nx. destruct (0 <? S (index i p))%nat eqn:L; lia.
  - cbn [index]. destruct (x =? i)%nat eqn:Ei.
    + destruct (S (index j p) <? 0)%nat eqn:L; [lia|reflexivity].
    + rewrite IH; [|exact Np|destruct Hi; [lia|assumption]|destruct Hj; [lia|assumption]|exact D].
      destruct (index j p <? index i p)%nat eqn:L1, (S (index j p) <? S (index i p))%nat eqn:L2; lia.
Qed.
Lemma index_inj : forall i j p, In i p -> In j p -> index i p = index j p -> i = j.
Proof.
  induction p as [|x p IH]; intros Hi Hj E; [easy|]. cbn in E.
  destruct (x =? i)%nat eqn:Ei, (x =? j)%nat eqn:Ej; try lia.
  apply IH; [destruct Hi; [lia|assumption]|destruct Hj; [lia|assumption]|lia].
Qed.

(** ** Environment against layout: [p] the state indices from the top, [mp] the place of each
    message word below the 64 table words. *)
Definition env_ok (e : env) (p : list nat) (mp : nat -> nat) : Prop :=
  (forall i, In i p -> e (St i) = Some (index i p)) /\
  (forall i, (i < 16)%nat -> e (Ms i) = Some (length p + 64 + mp i)%nat).

Lemma extract_ok : forall e p mp a, env_ok e p mp -> NoDup p -> In a p ->
  exists e', ptr_extract e (St a) = Some (index a p, e') /\ env_ok e' (del a p) mp.
Proof.
  intros e p mp a [Es Em] N Ha. unfold ptr_extract. rewrite (Es a Ha). eexists. split; [reflexivity|].
  split.
  - intros i Hi. apply in_del in Hi. destruct Hi as [Hi D]. cbn [ptr_eqb].
    destruct (i =? a)%nat eqn:E; [lia|]. rewrite (Es i Hi). cbn [option_map]. f_equal.
    symmetry. now apply index_del.
  - intros i Hi. cbn [ptr_eqb]. rewrite (Em i Hi). cbn [option_map]. f_equal.
    pose proof (index_lt a p Ha). pose proof (length_del a p N Ha).
    destruct (index a p <? length p + 64 + mp i)%nat eqn:L; lia.
Qed.
Lemma insert_ok : forall e p mp a, env_ok e p mp -> ~ In a p -> env_ok (ptr_insert e (St a)) (a :: p) mp.
Proof.
  intros e p mp a [Es Em] N. split.
  - intros i Hi. unfold ptr_insert. cbn [ptr_eqb index]. destruct (i =? a)%nat eqn:E.
    + apply Nat.eqb_eq in E. subst. now rewrite Nat.eqb_refl.
    + destruct (a =? i)%nat eqn:E2; [lia|]. rewrite Es; [reflexivity|]. destruct Hi; [lia|assumption].
  - intros i Hi. unfold ptr_insert. cbn [ptr_eqb]. rewrite (Em i Hi). cbn. f_equal.
Qed.

(** The table as 64 four-byte words. *)
Definition table_words : list Z :=
  map (fun i => nth (4 * i) xor_table 0 + 256 * nth (4 * i + 1) xor_table 0 +
                65536 * nth (4 * i + 2) xor_table 0 + 16777216 * nth (4 * i + 3) xor_table 0) (seq 0 64).
Lemma table_words_ok : map I xor_table = words table_words.
Proof. vm_compute. reflexivity. Qed.
Lemma table_words_len : length table_words = 64%nat.
Proof. reflexivity. Qed.

Section B.
  Variable H : bytes -> bytes.
  Notation run := (run H).

  (** Stack: fresh words [X], then the state in order [p], the table, the message. *)
  Definition lay (X : list Z) (s : nat -> Z) (p : list nat) (msg : list Z) : list Z :=
    X ++ map s p ++ table_words ++ msg.
  Definition st (X : list Z) (s : nat -> Z) (p : list nat) (msg : list Z) (rest al : list val) : vst :=
    mk (words (lay X s p msg) ++ rest) al [].

  Lemma lay_state : forall X s p msg i, In i p ->
    nth_error (lay X s p msg) (index i p + length X) = Some (s i).
  Proof.
    intros. unfold lay. rewrite nth_error_app2 by lia.
    replace (index i p + length X - length X)%nat with (index i p) by lia. now apply index_nth.
  Qed.
  Lemma lay_msg : forall X s p msg i, (i < length msg)%nat ->
    nth_error (lay X s p msg) (length p + 64 + i + length X) = Some (nth i msg 0).
  Proof.
    intros. unfold lay. rewrite nth_error_app2 by lia.
    rewrite nth_error_app2 by (rewrite map_length; lia). rewrite map_length.
    rewrite nth_error_app2 by (rewrite table_words_len; lia). rewrite table_words_len.
    replace (_ - 64)%nat with i by lia. now apply nth_error_nth'.
  Qed.
  Lemma lay_del : forall X s p msg i, NoDup p -> In i p ->
    remove_nth (index i p + length X) (lay X s p msg) = lay X s (del i p) msg.
  Proof.
    intros X s p msg i N Hi. unfold lay. induction X as [|x X IH].
    - cbn [length app]. rewrite Nat.add_0_r. now apply index_remove.
    - cbn [length app]. rewrite Nat.add_succ_r. cbn [remove_nth]. f_equal. exact IH.
  Qed.

  Definition small (p : list nat) : Prop := (length p <= 16)%nat.

  (** Adding the word at [pos] to the state word [i], which is consumed. *)
  Lemma step_add : forall X s p msg i pos x rest al,
    NoDup p -> small p -> (length X <= 16)%nat -> In i p -> pos <> (index i p + length X)%nat -> (pos < 256)%nat ->
    nth_error (lay X s p msg) pos = Some x -> is_u32 x -> is_u32 (s i) ->
    exists q, u32_add pos (index i p + length X) = Some q /\
      run q (st X s p msg rest al) = Some (st (add32 x (s i) :: X) s (del i p) msg rest al).
  Proof.
    intros X s p msg i pos x rest al N Sm LX Hi D L Ex Ux Ui. unfold small in Sm.
    pose proof (index_lt i p Hi).
    destruct (u32_add_ok H pos (index i p + length X) x (s i) (lay X s p msg) rest al) as (q & Eq & Er);
      try assumption.
    - now apply lay_state.
    - unfold pos_ok. lia.
    - unfold pos_ok. lia.
    - exists q. split; [exact Eq|]. unfold st at 1. rewrite Er. rewrite lay_del by assumption. reflexivity.
  Qed.
  (** Adding the word at [pos] to the word on top. *)
  Lemma step_add_top : forall X s p msg pos x y rest al,
    pos <> O -> (pos < 256)%nat ->
    nth_error (lay (y :: X) s p msg) pos = Some x -> is_u32 x -> is_u32 y ->
    exists q, u32_add pos 0 = Some q /\
      run q (st (y :: X) s p msg rest al) = Some (st (add32 x y :: X) s p msg rest al).
  Proof.
    intros X s p msg pos x y rest al D L Ex Ux Uy.
    destruct (u32_add_ok H pos 0 x y (lay (y :: X) s p msg) rest al) as (q & Eq & Er);
      try assumption; try reflexivity.
    - unfold pos_ok. lia.
    - exists q. split; [exact Eq|]. unfold st at 1. rewrite Er. reflexivity.
  Qed.
  (** Adding the top word to the fresh word at position 3, which is consumed. *)
  Lemma step_add3 : forall x0 x1 x2 x3 s p msg rest al, is_u32 x0 -> is_u32 x3 ->
    exists q, u32_add 0 3 = Some q /\
      run q (st [x0; x1; x2; x3] s p msg rest al) = Some (st [add32 x0 x3; x0; x1; x2] s p msg rest al).
  Proof.
    intros x0 x1 x2 x3 s p msg rest al U0 U3.
    destruct (u32_add_ok H 0 3 x0 x3 (lay [x0; x1; x2; x3] s p msg) rest al) as (q & Eq & Er);
      try assumption; try reflexivity; try discriminate.
    exists q. split; [exact Eq|]. unfold st at 1. rewrite Er. reflexivity.
  Qed.

  Lemma table_split : forall ws msg rest,
    words (ws ++ table_words ++ msg) ++ rest = words ws ++ map I xor_table ++ words msg ++ rest.
  Proof. intros. rewrite table_words_ok, !words_app, <- !app_assoc. reflexivity. Qed.

  Lemma xor_gen : forall a b x y ws msg rest al, a <> b -> is_u32 x -> is_u32 y -> length ws = 16%nat ->
    nth_error ws a = Some x -> nth_error ws b = Some y ->
    exists q, u32_xor a b 17 = Some q /\
      run q (mk (words (ws ++ table_words ++ msg) ++ rest) al []) =
      Some (mk (words ((Z.lxor x y :: remove_nth b ws) ++ table_words ++ msg) ++ rest) al []).
  Proof.
    intros a b x y ws msg rest al D Ux Uy L Ea Eb.
    destruct (u32_xor_ok H a b x y ws (words msg ++ rest) al) as (q & Eq & Er); try assumption.
    - rewrite L. reflexivity.
    - rewrite L in Eq. exists q. split; [exact Eq|]. rewrite !table_split. exact Er.
  Qed.

  Lemma step_xor : forall y X s p msg i rest al,
    NoDup p -> In i p -> (S (length X) + length p = 16)%nat -> is_u32 y -> is_u32 (s i) ->
    exists q, u32_xor 0 (index i p + S (length X)) (16 + 1) = Some q /\
      run q (st (y :: X) s p msg rest al) = Some (st (Z.lxor y (s i) :: y :: X) s (del i p) msg rest al).
  Proof.
    intros y X s p msg i rest al N Hi L Uy Ui.
    destruct (xor_gen 0 (index i p + S (length X)) y (s i) ((y :: X) ++ map s p) msg rest al)
      as (q & Eq & Er); try assumption; try reflexivity.
    - lia.
    - rewrite app_length, map_length. exact L.
    - rewrite nth_error_app2 by (cbn; lia). cbn [length].
      replace (index i p + S (length X) - S (length X))%nat with (index i p) by lia.
      rewrite <- (app_nil_r (map s p)). now apply index_nth.
    - exists q. split; [exact Eq|]. unfold st, lay. rewrite <- app_assoc in Er. rewrite Er.
      rewrite <- (app_nil_r (map s p)).
      pose proof (lay_del (y :: X) s p [] i N Hi) as Q. unfold lay in Q. cbn [length] in Q.
      assert (Q2 : forall R, remove_nth (index i p + S (length X)) ((y :: X) ++ map s p ++ R) =
                   (y :: X) ++ map s (del i p) ++ R).
      { intros R. clear - N Hi. change (S (length X)) with (length (y :: X)).
        induction (y :: X) as [|x Y IH].
        - cbn [length app]. rewrite Nat.add_0_r. now apply index_remove.
        - cbn [length app]. rewrite Nat.add_succ_r. cbn [remove_nth]. f_equal. exact IH. }
      rewrite Q2, app_nil_r. cbn [app]. rewrite <- !app_assoc. reflexivity.
  Qed.
  Lemma step_xor3 : forall x0 x1 x2 x3 s p msg rest al, (length p = 12)%nat -> is_u32 x0 -> is_u32 x3 ->
    exists q, u32_xor 0 3 (16 + 1) = Some q /\
      run q (st [x0; x1; x2; x3] s p msg rest al) = Some (st [Z.lxor x0 x3; x0; x1; x2] s p msg rest al).
  Proof.
    intros x0 x1 x2 x3 s p msg rest al L U0 U3.
    destruct (xor_gen 0 3 x0 x3 ([x0; x1; x2; x3] ++ map s p) msg rest al)
      as (q & Eq & Er); try assumption; try reflexivity; try discriminate.
    - cbn. rewrite map_length. lia.
    - exists q. split; [exact Eq|]. unfold st, lay. rewrite <- app_assoc in Er. rewrite Er. reflexivity.
  Qed.
  Lemma step_rot : forall n y X s p msg rest al, (n < 32)%nat -> is_u32 y ->
    exists q, u32_rrot n = Some q /\
      run q (st (y :: X) s p msg rest al) = Some (st (ror32 y (Z.of_nat n) :: X) s p msg rest al).
  Proof.
    intros n y X s p msg rest al L U. unfold st, lay. cbn [app].
    rewrite !words_cons, <- !app_assoc.
    destruct (u32_rrot_ok H n y (words (X ++ map s p ++ table_words ++ msg) ++ rest) al U L) as (q & Eq & Er).
    exists q. split; [exact Eq|]. exact Er.
  Qed.

  (** One quarter round. *)
  Lemma G_ok : forall e p mp s msg a b c d i0 i1 rest al,
    env_ok e p mp -> NoDup p -> length p = 16%nat ->
    In a p -> In b p -> In c p -> In d p -> NoDup [a; b; c; d] ->
    (i0 < 16)%nat -> (i1 < 16)%nat -> length msg = 16%nat ->
    (forall i, (i < 16)%nat -> (mp i < 16)%nat) ->
    (forall i, is_u32 (s i)) -> Forall is_u32 msg ->
    exists q e', G e 16 (St a) (St b) (St c) (St d) (Ms i0) (Ms i1) = Some (q, e') /\
      let p' := b :: c :: d :: a :: del b (del c (del d (del a p))) in
      let s' := b3_g s a b c d (nth (mp i0) msg 0) (nth (mp i1) msg 0) in
      env_ok e' p' mp /\ NoDup p' /\ length p' = 16%nat /\ (forall i, is_u32 (s' i)) /\
      (forall i, In i p' <-> In i p) /\
      run q (st [] s p msg rest al) = Some (st [] s' p' msg rest al).
  Proof.
    intros e p mp s msg a b c d i0 i1 rest al OK N L Ha Hb Hc Hd D4 I0 I1 Lm Mp Us Um.
    assert (Um' : forall i, is_u32 (nth i msg 0)).
    { intros i. destruct (Nat.lt_ge_cases i (length msg)).
      - rewrite Forall_forall in Um. apply Um. now apply nth_In.
      - rewrite nth_overflow by lia. unfold is_u32. lia. }
    inversion_clear D4 as [|? ? Na D3]. inversion_clear D3 as [|? ? Nb D2].
    inversion_clear D2 as [|? ? Nc _]. cbn in Na, Nb, Nc.
    assert (Hab : a <> b) by intuition. assert (Hac : a <> c) by intuition. assert (Had : a <> d) by intuition.
    assert (Hbc : b <> c) by intuition. assert (Hbd : b <> d) by intuition. assert (Hcd : c <> d) by intuition.
    clear Na Nb Nc.
    set (p1 := del a p). set (p2 := del d p1). set (p3 := del c p2). set (p4 := del b p3).
    assert (N1 : NoDup p1) by now apply nodup_del. assert (N2 : NoDup p2) by now apply nodup_del.
    assert (N3 : NoDup p3) by now apply nodup_del. assert (N4 : NoDup p4) by now apply nodup_del.
    assert (D1 : In d p1) by (apply in_del; auto). assert (C1 : In c p1) by (apply in_del; auto).
    assert (B1 : In b p1) by (apply in_del; auto).
    assert (C2 : In c p2) by (apply in_del; auto). assert (B2 : In b p2) by (apply in_del; auto).
    assert (B3 : In b p3) by (apply in_del; auto).
    assert (L1 : length p1 = 15%nat) by (pose proof (length_del a p N Ha) as Q; fold p1 in Q; lia).
    assert (L2 : length p2 = 14%nat) by (pose proof (length_del d p1 N1 D1) as Q; fold p2 in Q; lia).
    assert (L3 : length p3 = 13%nat) by (pose proof (length_del c p2 N2 C2) as Q; fold p3 in Q; lia).
    assert (L4 : length p4 = 12%nat) by (pose proof (length_del b p3 N3 B3) as Q; fold p4 in Q; lia).
    pose proof (index_lt a p Ha) as La. pose proof (index_lt b p Hb) as Lb.
    pose proof (Mp i0 I0) as M0. pose proof (Mp i1 I1) as M1.
    destruct (extract_ok e p mp a OK N Ha) as (e1 & E1 & OK1). fold p1 in OK1.
    destruct (extract_ok e1 p1 mp d OK1 N1 D1) as (e2 & E2 & OK2). fold p2 in OK2.
    destruct (extract_ok e2 p2 mp c OK2 N2 C2) as (e3 & E3 & OK3). fold p3 in OK3.
    destruct (extract_ok e3 p3 mp b OK3 N3 B3) as (e4 & E4 & OK4). fold p4 in OK4.
    unfold G. rewrite (proj1 OK b Hb), E1.
    (* a + b *)
    set (z0 := add32 (s b) (s a)).
    destruct (step_add [] s p msg a (index b p) (s b) rest al) as (q1 & Q1 & R1); try apply Us; try assumption.
    { unfold small. lia. } { cbn. lia. }
    { cbn [length]. rewrite Nat.add_0_r. intros E. apply (index_inj b a p) in E; auto. } { lia. }
    { rewrite <- (Nat.add_0_r (index b p)). now apply (lay_state [] s p msg b). }
    cbn [length] in Q1. rewrite Nat.add_0_r in Q1. rewrite Q1. fold p1 z0 in R1.
    rewrite (proj2 OK1 i0 I0), L1.
    set (z := add32 (nth (mp i0) msg 0) z0).
    destruct (step_add_top [] s p1 msg (15 + 64 + mp i0 + 1) (nth (mp i0) msg 0) z0 rest al)
      as (q2 & Q2 & R2); try apply u32_add32; try apply Um'; try lia.
    { pose proof (lay_msg [z0] s p1 msg (mp i0)) as Q. rewrite L1 in Q. apply Q. lia. }
    rewrite Q2. fold z in R2. rewrite E2.
    (* d *)
    destruct (step_xor z [] s p1 msg d rest al) as (q3 & Q3 & R3); try apply Us; try apply u32_add32; try assumption.
    { cbn. lia. }
    cbn [length] in Q3. rewrite Q3. fold p2 in R3.
    set (y0 := Z.lxor z (s d)) in *. assert (Uy0 : is_u32 y0) by (apply u32_lxor; [apply u32_add32|apply Us]).
    destruct (step_rot 16 y0 [z] s p2 msg rest al) as (q4 & Q4 & R4); [lia|exact Uy0|].
    rewrite Q4. set (y := ror32 y0 (Z.of_nat 16)) in *.
    assert (Uy : is_u32 y) by (apply u32_ror; [exact Uy0|lia]).
    rewrite E3.
    (* c *)
    destruct (step_add [y; z] s p2 msg c 0 y rest al) as (q5 & Q5 & R5); try apply Us; try assumption; try reflexivity.
    { unfold small. lia. } { cbn. lia. } { cbn. lia. } { lia. }
    cbn [length] in Q5. rewrite Q5. fold p3 in R5. set (x := add32 y (s c)) in *.
    assert (Ux : is_u32 x) by apply u32_add32. rewrite E4.
    (* b *)
    destruct (step_xor x [y; z] s p3 msg b rest al) as (q6 & Q6 & R6); try apply Us; try assumption.
    { cbn. lia. }
    cbn [length] in Q6. rewrite Q6. fold p4 in R6. set (w0 := Z.lxor x (s b)) in *.
    assert (Uw0 : is_u32 w0) by (apply u32_lxor; [exact Ux|apply Us]).
    destruct (step_rot 12 w0 [x; y; z] s p4 msg rest al) as (q7 & Q7 & R7); [lia|exact Uw0|].
    rewrite Q7. set (w := ror32 w0 (Z.of_nat 12)) in *.
    assert (Uw : is_u32 w) by (apply u32_ror; [exact Uw0|lia]).
    (* second half *)
    destruct (step_add3 w x y z s p4 msg rest al) as (q8 & Q8 & R8); [exact Uw|apply u32_add32|].
    rewrite Q8. set (v0 := add32 w z) in *. rewrite (proj2 OK4 i1 I1), L4.
    destruct (step_add_top [w; x; y] s p4 msg (12 + 64 + mp i1 + 4) (nth (mp i1) msg 0) v0 rest al)
      as (q9 & Q9 & R9); try apply u32_add32; try apply Um'; try lia.
    { pose proof (lay_msg [v0; w; x; y] s p4 msg (mp i1)) as Q. rewrite L4 in Q. apply Q. lia. }
    rewrite Q9. set (v := add32 (nth (mp i1) msg 0) v0) in *.
    assert (Uv : is_u32 v) by apply u32_add32.
    destruct (step_xor3 v w x y s p4 msg rest al L4 Uv Uy) as (q10 & Q10 & R10). rewrite Q10.
    set (u0 := Z.lxor v y) in *. assert (Uu0 : is_u32 u0) by (now apply u32_lxor).
    destruct (step_rot 8 u0 [v; w; x] s p4 msg rest al) as (q11 & Q11 & R11); [lia|exact Uu0|].
    rewrite Q11. set (u := ror32 u0 (Z.of_nat 8)) in *.
    assert (Uu : is_u32 u) by (apply u32_ror; [exact Uu0|lia]).
    destruct (step_add3 u v w x s p4 msg rest al Uu Ux) as (q12 & Q12 & R12).
    assert (q12 = q8) by congruence. subst q12.
    set (t := add32 u x) in *. assert (Ut : is_u32 t) by apply u32_add32.
    destruct (step_xor3 t u v w s p4 msg rest al L4 Ut Uw) as (q13 & Q13 & R13).
    assert (q13 = q10) by congruence. subst q13.
    set (s0 := Z.lxor t w) in *. assert (Us0 : is_u32 s0) by (now apply u32_lxor).
    destruct (step_rot 7 s0 [t; u; v] s p4 msg rest al) as (q14 & Q14 & R14); [lia|exact Us0|].
    rewrite Q14. set (s1 := ror32 s0 (Z.of_nat 7)) in *.
    assert (Us1 : is_u32 s1) by (apply u32_ror; [exact Us0|lia]).
    do 2 eexists. split; [reflexivity|]. cbn zeta. fold p1. fold p2. fold p3. fold p4.
    assert (Sp : b3_g s a b c d (nth (mp i0) msg 0) (nth (mp i1) msg 0) =
                 upd (upd (upd (upd (upd (upd (upd (upd s a z) d y) c x) b w) a v) d u) c t) b s1).
    { unfold b3_g. cbn zeta.
      assert (K : forall f i v, upd f i v i = v) by (intros; unfold upd; now rewrite Nat.eqb_refl).
      assert (K2 : forall f i j v, i <> j -> upd f i v j = f j).
      { intros f i j v' Dij. unfold upd. destruct (j =? i)%nat eqn:Q; [lia|reflexivity]. }
      assert (Ez : add32 (add32 (s a) (s b)) (nth (mp i0) msg 0) = z).
      { unfold z, z0, add32. rewrite (Z.add_comm (s b)). f_equal. apply Z.add_comm. }
      rewrite Ez. rewrite K, (K2 s a d) by auto.
      assert (Ey : ror32 (Z.lxor (s d) z) 16 = y) by (unfold y, y0; rewrite Z.lxor_comm; reflexivity).
      rewrite Ey. rewrite K, (K2 _ d c), (K2 _ a c) by auto.
      assert (Ex : add32 (s c) y = x) by (unfold x, add32; f_equal; apply Z.add_comm).
      rewrite Ex. rewrite K, (K2 _ c b), (K2 _ d b), (K2 _ a b) by auto.
      assert (Ew : ror32 (Z.lxor (s b) x) 12 = w) by (unfold w, w0; rewrite Z.lxor_comm; reflexivity).
      rewrite Ew. rewrite K, (K2 _ b a), (K2 _ c a), (K2 _ d a), K by auto.
      assert (Ev : add32 (add32 z w) (nth (mp i1) msg 0) = v).
      { unfold v, v0, add32. rewrite (Z.add_comm w). f_equal. apply Z.add_comm. }
      rewrite Ev. rewrite K, (K2 _ a d), (K2 _ b d), (K2 _ c d), K by auto.
      assert (Eu : ror32 (Z.lxor y v) 8 = u) by (unfold u, u0; rewrite Z.lxor_comm; reflexivity).
      rewrite Eu. rewrite K, (K2 _ d c), (K2 _ a c), (K2 _ b c), K by auto.
      assert (Et : add32 x u = t) by (unfold t, add32; f_equal; apply Z.add_comm).
      rewrite Et. rewrite K, (K2 _ c b), (K2 _ d b), (K2 _ a b), K by auto.
      assert (Es : ror32 (Z.lxor w t) 7 = s1) by (unfold s1, s0; rewrite Z.lxor_comm; reflexivity).
      rewrite Es. reflexivity. }
    rewrite Sp.
    assert (In4 : forall i, In i p4 <-> In i p /\ i <> a /\ i <> d /\ i <> c /\ i <> b).
    { intros i. unfold p4, p3, p2, p1. rewrite !in_del. tauto. }
    split; [|split; [|split; [|split; [|split]]]].
    - repeat apply insert_ok; try exact OK4; cbn [In]; rewrite ?In4; intuition congruence.
    - repeat constructor; try exact N4; cbn [In]; rewrite ?In4; intuition congruence.
    - cbn. lia.
    - intros i. unfold upd. repeat match goal with |- context [if ?q then _ else _] => destruct q end;
        try assumption; try apply u32_add32; apply Us.
    - intros i. cbn [In]. rewrite In4.
      split; [intros [<-|[<-|[<-|[<-|[Q _]]]]]; assumption|]. intros Q.
      destruct (Nat.eq_dec i b) as [->|]; [now left|]. right. destruct (Nat.eq_dec i c) as [->|]; [now left|].
      right. destruct (Nat.eq_dec i d) as [->|]; [now left|]. right.
      destruct (Nat.eq_dec i a) as [->|]; [now left|]. right. tauto.
    - rewrite (run_app H), R1; cbv beta iota. rewrite (run_app H), R2. rewrite (run_app H), R3. rewrite (run_app H), R4.
      rewrite (run_app H), R5. rewrite (run_app H), R6. rewrite (run_app H), R7. rewrite (run_app H), R8.
      rewrite (run_app H), R9. rewrite (run_app H), R10. rewrite (run_app H), R11. rewrite (run_app H), R12.
      rewrite (run_app H), R13. rewrite R14.
      f_equal. unfold st, lay. f_equal. f_equal. f_equal. cbn [map app].
      assert (Em : map (upd (upd (upd (upd (upd (upd (upd (upd s a z) d y) c x) b w) a v) d u) c t) b s1) p4 = map s p4).
      { apply map_ext_in. intros i Hi. apply In4 in Hi. unfold upd.
        destruct (i =? b)%nat eqn:Q1', (i =? c)%nat eqn:Q2', (i =? d)%nat eqn:Q3', (i =? a)%nat eqn:Q4';
          try reflexivity; lia. }
      rewrite Em. unfold upd. rewrite !Nat.eqb_refl.
      destruct (c =? b)%nat eqn:X1; [lia|]. destruct (d =? b)%nat eqn:X2; [lia|].
      destruct (d =? c)%nat eqn:X3; [lia|]. destruct (a =? b)%nat eqn:X4; [lia|].
      destruct (a =? c)%nat eqn:X5; [lia|]. destruct (a =? d)%nat eqn:X6; [lia|]. reflexivity.
  Qed.

  (** The compiler's view of the state agrees with the machine's. *)
  Record Inv (e : env) (p : list nat) (mp : nat -> nat) (s : nat -> Z) : Prop := {
    inv_env : env_ok e p mp;
    inv_nodup : NoDup p;
    inv_len : length p = 16%nat;
    inv_in : forall i, In i p <-> (i < 16)%nat;
    inv_mp : forall i, (i < 16)%nat -> (mp i < 16)%nat;
    inv_u32 : forall i, is_u32 (s i) }.

  Lemma G_inv : forall a b c d i0 i1 e p mp s msg rest al,
    Inv e p mp s -> length msg = 16%nat -> Forall is_u32 msg ->
    NoDup [a; b; c; d] -> (a < 16)%nat -> (b < 16)%nat -> (c < 16)%nat -> (d < 16)%nat ->
    (i0 < 16)%nat -> (i1 < 16)%nat ->
    exists q e' p', G e 16 (St a) (St b) (St c) (St d) (Ms i0) (Ms i1) = Some (q, e') /\
      Inv e' p' mp (b3_g s a b c d (nth (mp i0) msg 0) (nth (mp i1) msg 0)) /\
      run q (st [] s p msg rest al) =
      Some (st [] (b3_g s a b c d (nth (mp i0) msg 0) (nth (mp i1) msg 0)) p' msg rest al).
  Proof.
    intros a b c d i0 i1 e p mp s msg rest al [OK N L IN MP U] Lm Um D A B' C D' I0 I1.
    destruct (G_ok e p mp s msg a b c d i0 i1 rest al) as (q & e' & E & K); try assumption; try now apply IN.
    cbn zeta in K. destruct K as (K1 & K2 & K3 & K4 & K5 & K6).
    exists q, e'. eexists. split; [exact E|]. split; [|exact K6].
    constructor; try assumption. intros i. rewrite K5. apply IN.
  Qed.

  Ltac nodup4 := repeat constructor; cbn [In]; intuition lia.
  Lemma round_inv : forall e p mp s msg rest al,
    Inv e p mp s -> length msg = 16%nat -> Forall is_u32 msg ->
    exists q e' p', round e 16 = Some (q, e') /\
      Inv e' p' mp (b3_round s (fun i => nth (mp i) msg 0)) /\
      run q (st [] s p msg rest al) = Some (st [] (b3_round s (fun i => nth (mp i) msg 0)) p' msg rest al).
  Proof.
    intros e p mp s msg rest al I0 Lm Um. unfold round, b3_round.
    destruct (G_inv 0 4 8 12 0 1 e p mp s msg rest al) as (q0 & e0 & p0 & E0 & I1 & R0);
      [exact I0|exact Lm|exact Um|nodup4|lia|lia|lia|lia|lia|lia|]. rewrite E0. clear E0.
    set (s0 := b3_g s _ _ _ _ _ _) in *.
    destruct (G_inv 1 5 9 13 2 3 e0 p0 mp s0 msg rest al) as (q1 & e1 & p1 & E1 & I2 & R1);
      [exact I1|exact Lm|exact Um|nodup4|lia|lia|lia|lia|lia|lia|]. rewrite E1. clear E1.
    set (s1 := b3_g s0 _ _ _ _ _ _) in *.
    destruct (G_inv 2 6 10 14 4 5 e1 p1 mp s1 msg rest al) as (q2 & e2 & p2 & E2 & I3 & R2);
      [exact I2|exact Lm|exact Um|nodup4|lia|lia|lia|lia|lia|lia|]. rewrite E2. clear E2.
    set (s2 := b3_g s1 _ _ _ _ _ _) in *.
    destruct (G_inv 3 7 11 15 6 7 e2 p2 mp s2 msg rest al) as (q3 & e3 & p3 & E3 & I4 & R3);
      [exact I3|exact Lm|exact Um|nodup4|lia|lia|lia|lia|lia|lia|]. rewrite E3. clear E3.
    set (s3 := b3_g s2 _ _ _ _ _ _) in *.
    destruct (G_inv 0 5 10 15 8 9 e3 p3 mp s3 msg rest al) as (q4 & e4 & p4 & E4 & I5 & R4);
      [exact I4|exact Lm|exact Um|nodup4|lia|lia|lia|lia|lia|lia|]. rewrite E4. clear E4.
    set (s4 := b3_g s3 _ _ _ _ _ _) in *.
    destruct (G_inv 1 6 11 12 10 11 e4 p4 mp s4 msg rest al) as (q5 & e5 & p5 & E5 & I6 & R5);
      [exact I5|exact Lm|exact Um|nodup4|lia|lia|lia|lia|lia|lia|]. rewrite E5. clear E5.
    set (s5 := b3_g s4 _ _ _ _ _ _) in *.
    destruct (G_inv 2 7 8 13 12 13 e5 p5 mp s5 msg rest al) as (q6 & e6 & p6 & E6 & I7 & R6);
      [exact I6|exact Lm|exact Um|nodup4|lia|lia|lia|lia|lia|lia|]. rewrite E6. clear E6.
    set (s6 := b3_g s5 _ _ _ _ _ _) in *.
    destruct (G_inv 3 4 9 14 14 15 e6 p6 mp s6 msg rest al) as (q7 & e7 & p7 & E7 & I8 & R7);
      [exact I7|exact Lm|exact Um|nodup4|lia|lia|lia|lia|lia|lia|]. rewrite E7. clear E7.
    exists (q0 ++ q1 ++ q2 ++ q3 ++ q4 ++ q5 ++ q6 ++ q7), e7, p7. split; [reflexivity|].
    split; [exact I8|].
    rewrite (run_app H), R0. rewrite (run_app H), R1. rewrite (run_app H), R2. rewrite (run_app H), R3.
    rewrite (run_app H), R4. rewrite (run_app H), R5. rewrite (run_app H), R6. exact R7.
  Qed.

  Lemma perm_lt : forall i, (nth i b3_perm O < 16)%nat.
  Proof. intros i. do 16 (destruct i as [|i]; [cbn; lia|]). cbn. destruct i; cbn; lia. Qed.
  Lemma permute_inv : forall e p mp s, Inv e p mp s -> Inv (permute e) p (fun i => mp (nth i b3_perm O)) s.
  Proof.
    intros e p mp s [[Es Em] N L IN MP U]. constructor; try assumption.
    - split; [exact Es|]. intros i Hi. unfold permute. destruct (i <? 16)%nat eqn:Q; [|lia].
      change MSG_PERMUTATION with b3_perm. apply Em. apply perm_lt.
    - intros i _. apply MP. apply perm_lt.
  Qed.

  Lemma rounds_inv : forall n e p mp s msg rest al,
    Inv e p mp s -> length msg = 16%nat -> Forall is_u32 msg ->
    let m := fun i => nth (mp i) msg 0 in
    exists q e' p' mp', permute_round n e 16 = Some (q, e') /\
      Inv e' p' mp' (b3_rounds n s (b3_permute m)) /\
      run q (st [] s p msg rest al) = Some (st [] (b3_rounds n s (b3_permute m)) p' msg rest al).
  Proof.
    induction n as [|n IH]; intros e p mp s msg rest al I0 Lm Um m; cbn [permute_round b3_rounds].
    - exists [], e, p, mp. split; [reflexivity|]. split; [exact I0|reflexivity].
    - destruct (round_inv (permute e) p _ s msg rest al (permute_inv _ _ _ _ I0) Lm Um)
        as (q & e1 & p1 & E1 & I1 & R1). rewrite E1.
      destruct (IH e1 p1 _ _ msg rest al I1 Lm Um) as (q2 & e2 & p2 & mp2 & E2 & I2 & R2). rewrite E2.
      exists (q ++ q2), e2, p2, mp2. split; [reflexivity|]. split; [exact I2|].
      rewrite (run_app H), R1. exact R2.
  Qed.
End B.
