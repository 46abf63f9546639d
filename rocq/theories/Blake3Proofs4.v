(** Comparing a digest on the stack with a pushed one. *)
From Coq Require Import ZArith List Bool Lia.
From Coq Require Import ZifyBool ZifyNat.
From Verif Require Import ScriptNum ScriptVM VMLemmas U32Model U32Proofs U32Proofs2 U32Rot Macros
  Blake3Spec Blake3Model Blake3Proofs Blake3Proofs2 Blake3Proofs3.
Import ListNotations.
Open Scope Z_scope.

Ltac Zify.zify_post_hook ::= Z.div_mod_to_equations.

Lemma word_inj : forall v w, is_u32 v -> is_u32 w -> word v = word w -> v = w.
Proof.
  intros v w V W E. unfold word, wbytes in E. cbn [map] in E. unfold is_u32 in *.
  injection E as E0 E1 E2 E3. lia.
Qed.
Lemma words_inj : forall xs ys, Forall is_u32 xs -> Forall is_u32 ys -> words xs = words ys -> xs = ys.
Proof.
  induction xs as [|x xs IH]; intros [|y ys] X Y E; try reflexivity; try discriminate.
  inversion_clear X as [|? ? X1 X2]. inversion_clear Y as [|? ? Y1 Y2].
  rewrite !words_cons in E.
  assert (E1 : word x = word y /\ words xs = words ys).
  { apply (f_equal (firstn 4)) in E as A. apply (f_equal (skipn 4)) in E as C. cbn in A, C. split; [exact A|exact C]. }
  destruct E1 as [A C]. f_equal; [now apply word_inj|now apply IH].
Qed.
Lemma words_bytes : forall ws, map I (flat_map le_bytes4 ws) = words ws.
Proof.
  induction ws as [|w ws IH]; [reflexivity|]. cbn [flat_map]. rewrite map_app, IH, words_cons. reflexivity.
Qed.
Lemma map_I_inj : forall xs ys, map I xs = map I ys -> xs = ys.
Proof.
  induction xs as [|x xs IH]; intros [|y ys] E; try reflexivity; try discriminate.
  injection E as E1 E2. f_equal; auto.
Qed.

Section B4.
  Variable H : bytes -> bytes.
  Notation run := (run H).

  Definition eqloop : script :=
    [OP_FROMALTSTACK; OP_FROMALTSTACK; OP_FROMALTSTACK; OP_FROMALTSTACK] ++ u32_equalverify.

  Lemma eqloop_ok : forall D E r a, length D = length E -> Forall is_u32 D -> Forall is_u32 E ->
    run (repeat_script (length D) eqloop) (mk (words (rev E) ++ r) (rev (words D) ++ a) []) =
    if list_eq_dec Z.eq_dec D E then Some (mk r a []) else None.
  Proof.
    induction D as [|d D IH] using rev_ind; intros E r a L UD UE.
    - destruct E; [|discriminate]. reflexivity.
    - destruct E as [|e E _] using rev_ind; [rewrite app_length in L; cbn in L; lia|].
      rewrite !app_length in *. cbn [length] in *. apply Forall_app in UD, UE.
      destruct UD as [UD Ud], UE as [UE Ue]. inversion_clear Ud. inversion_clear Ue.
      rewrite Nat.add_1_r. cbn [repeat_script]. rewrite (run_app H).
      rewrite rev_app_distr. cbn [rev app]. rewrite words_app, rev_app_distr, !words_cons.
      change (words []) with (@nil val). rewrite app_nil_r.
      unfold eqloop at 1. rewrite (run_app H).
      destruct (word4 d) as (x0 & x1 & x2 & x3 & Ed).
      assert (R1 : run [OP_FROMALTSTACK; OP_FROMALTSTACK; OP_FROMALTSTACK; OP_FROMALTSTACK]
                     (mk ((word e ++ words (rev E)) ++ r) ((rev (word d) ++ rev (words D)) ++ a) []) =
                   Some (mk (word d ++ word e ++ words (rev E) ++ r) (rev (words D) ++ a) [])).
      { rewrite Ed, <- !app_assoc. reflexivity. }
      rewrite R1. rewrite u32_equalverify_ok by assumption.
      destruct (list_eq_dec Z.eq_dec (D ++ [d]) (E ++ [e])) as [Q|Q].
      + apply app_inj_tail in Q. destruct Q as [-> ->]. rewrite Z.eqb_refl.
        rewrite IH by (try assumption; lia). destruct (list_eq_dec Z.eq_dec E E); [reflexivity|easy].
      + destruct (d =? e) eqn:X; [|reflexivity]. apply Z.eqb_eq in X. subst e.
        rewrite IH by (try assumption; lia). destruct (list_eq_dec Z.eq_dec D E) as [->|]; [easy|reflexivity].
  Qed.

  Lemma toalt_n : forall xs r a,
    run (repeat_script (length xs) [OP_TOALTSTACK]) (mk (xs ++ r) a []) = Some (mk r (rev xs ++ a) []).
  Proof.
    induction xs as [|x xs IH]; intros r a; [reflexivity|]. cbn [length repeat_script].
    rewrite (run_app H). change (run [OP_TOALTSTACK] (mk ((x :: xs) ++ r) a [])) with (Some (mk (xs ++ r) (x :: a) [])).
    cbv beta iota. rewrite IH. cbn [rev]. rewrite <- app_assoc. reflexivity.
  Qed.
  Lemma push_bytes_ok : forall d r a, run (push_bytes d) (mk r a []) = Some (mk (map I d ++ r) a []).
  Proof.
    intros d r a. unfold push_bytes. revert r. induction d as [|x d IH]; intros r; [reflexivity|].
    cbn [rev]. rewrite map_app, (run_app H), IH. reflexivity.
  Qed.

  (** [n + 1] words compared. *)
  Lemma digest_eq : forall n d h r a, length d = (4 * S n)%nat -> Forall byte d ->
    length h = S n -> Forall is_u32 h ->
    run (push_bytes d ++ repeat_script (4 * n) [OP_TOALTSTACK] ++ u32_equalverify ++ repeat_script n eqloop)
        (mk (words (rev h) ++ r) a []) =
    if list_eq_dec Z.eq_dec d (flat_map le_bytes4 h) then Some (mk r a []) else None.
  Proof.
    intros n d h r a Ld Fd Lh Uh. rewrite (run_app H), push_bytes_ok.
    set (D := map (block_word d) (seq 0 (S n))).
    assert (E : map I d = words D).
    { unfold D. rewrite <- (bytes_words) by (try assumption; lia). rewrite Ld, Nat.sub_diag. cbn [repeat].
      rewrite app_nil_r. reflexivity. }
    assert (UD : Forall is_u32 D) by (now apply block_u32).
    assert (LD : length D = S n) by (unfold D; now rewrite map_length, seq_length).
    rewrite E.
    assert (Q : (if list_eq_dec Z.eq_dec d (flat_map le_bytes4 h) then Some (mk r a []) else None) =
                (if list_eq_dec Z.eq_dec D h then Some (mk r a []) else None : option vst)).
    { destruct (list_eq_dec Z.eq_dec d (flat_map le_bytes4 h)) as [Q|Q], (list_eq_dec Z.eq_dec D h) as [P|P];
        try reflexivity; exfalso.
      - apply P. apply words_inj; [exact UD|exact Uh|]. rewrite <- E, Q. apply words_bytes.
      - apply Q. apply map_I_inj. rewrite E, P. symmetry. apply words_bytes. }
    etransitivity; [|symmetry; exact Q]. clear Q. clearbody D.
    destruct D as [|w D _] using rev_ind; [discriminate|]. destruct h as [|x h _] using rev_ind; [discriminate|].
    rewrite app_length in LD, Lh. cbn [length] in LD, Lh.
    rewrite words_app, <- app_assoc, rev_app_distr. cbn [rev app]. rewrite !words_cons.
    change (words []) with (@nil val). rewrite app_nil_r, <- app_assoc.
    rewrite (run_app H). replace (4 * n)%nat with (length (words D)) by (rewrite (words_len H); lia).
    rewrite toalt_n. apply Forall_app in UD, Uh. destruct UD as [UD Uw], Uh as [Uh Ux].
    inversion_clear Uw. inversion_clear Ux.
    rewrite (run_app H), u32_equalverify_ok by assumption.
    assert (Ln : length D = n) by lia.
    destruct (w =? x) eqn:X.
    - apply Z.eqb_eq in X. subst x. rewrite <- Ln. rewrite eqloop_ok by (try assumption; lia).
      destruct (list_eq_dec Z.eq_dec D h) as [N|N], (list_eq_dec Z.eq_dec (D ++ [w]) (h ++ [w])) as [M|M];
        try reflexivity; exfalso.
      + apply M. now rewrite N.
      + apply N. apply app_inj_tail in M. tauto.
    - destruct (list_eq_dec Z.eq_dec (D ++ [w]) (h ++ [x])) as [M|M]; [|reflexivity].
      apply app_inj_tail in M. destruct M as [_ ->]. rewrite Z.eqb_refl in X. discriminate.
  Qed.

  Theorem hash_eq_ok : forall d h r a, length d = 32%nat -> Forall byte d -> length h = 8%nat -> Forall is_u32 h ->
    run (push_bytes d ++ blake3_hash_equalverify) (mk (words (rev h) ++ r) a []) =
    if list_eq_dec Z.eq_dec d (flat_map le_bytes4 h) then Some (mk r a []) else None.
  Proof. intros d h r a. exact (digest_eq 7 d h r a). Qed.
  Theorem hash160_eq_ok : forall d h r a, length d = 20%nat -> Forall byte d -> length h = 5%nat -> Forall is_u32 h ->
    run (push_bytes d ++ blake3_160_hash_equalverify) (mk (words (rev h) ++ r) a []) =
    if list_eq_dec Z.eq_dec d (flat_map le_bytes4 h) then Some (mk r a []) else None.
  Proof. intros d h r a. exact (digest_eq 4 d h r a). Qed.
End B4.
