(** Proofs about the 32-bit word scripts: comparison, packing, rotation. *)
From Coq Require Import ZArith List Bool Lia.
From Coq Require Import ZifyBool ZifyNat.
From Verif Require Import ScriptNum ScriptVM VMLemmas U32Model U32Proofs.
Import ListNotations.
Open Scope Z_scope.

Ltac Zify.zify_post_hook ::= Z.div_mod_to_equations.

Ltac pow8 := change (2^8) with 256 in *; change (2^16) with 65536 in *;
             change (2^24) with 16777216 in *; change (2^32) with 4294967296 in *.

Section Proofs.
  Variable H : bytes -> bytes.
  Notation run := (run H).

  Lemma of_bytes_eqb : forall x0 x1 x2 x3 y0 y1 y2 y3,
    byte x0 -> byte x1 -> byte x2 -> byte x3 -> byte y0 -> byte y1 -> byte y2 -> byte y3 ->
    (of_bytes x0 x1 x2 x3 =? of_bytes y0 y1 y2 y3) =
    (x0 =? y0) && (x1 =? y1) && (x2 =? y2) && (x3 =? y3).
  Proof. unfold byte, of_bytes. intros. pow8. lia. Qed.

  (** *** Comparison *)
  Theorem u32_equal_ok : forall x y r a, is_u32 x -> is_u32 y ->
    run u32_equal (mk (word x ++ word y ++ r) a []) = Some (mk (I (b2z (x =? y)) :: r) a []).
  Proof.
    intros x y r a Wx Wy.
    destruct (word_inv x Wx) as (x0 & x1 & x2 & x3 & X0 & X1 & X2 & X3 & -> & ->).
    destruct (word_inv y Wy) as (y0 & y1 & y2 & y3 & Y0 & Y1 & Y2 & Y3 & -> & ->).
    rewrite of_bytes_eqb by assumption.
    unfold u32_equal. cbn [app]. vmgo.
    rewrite (Z.eqb_sym x0 y0), (Z.eqb_sym x1 y1), (Z.eqb_sym x2 y2), (Z.eqb_sym x3 y3).
    destruct (y0 =? x0), (y1 =? x1), (y2 =? x2), (y3 =? x3); reflexivity.
  Qed.

  Theorem u32_notequal_ok : forall x y r a, is_u32 x -> is_u32 y ->
    run u32_notequal (mk (word x ++ word y ++ r) a []) =
    Some (mk (I (b2z (negb (x =? y))) :: r) a []).
  Proof.
    intros x y r a Wx Wy.
    destruct (word_inv x Wx) as (x0 & x1 & x2 & x3 & X0 & X1 & X2 & X3 & -> & ->).
    destruct (word_inv y Wy) as (y0 & y1 & y2 & y3 & Y0 & Y1 & Y2 & Y3 & -> & ->).
    rewrite of_bytes_eqb by assumption. unfold byte in *.
    unfold u32_notequal. cbn [app]. vmgo.
    rewrite (Z.eqb_sym x0 y0), (Z.eqb_sym x1 y1), (Z.eqb_sym x2 y2), (Z.eqb_sym x3 y3).
    destruct (y0 =? x0), (y1 =? x1), (y2 =? x2), (y3 =? x3); reflexivity.
  Qed.

  Theorem u32_equalverify_ok : forall x y r a, is_u32 x -> is_u32 y ->
    run u32_equalverify (mk (word x ++ word y ++ r) a []) =
    if x =? y then Some (mk r a []) else None.
  Proof.
    intros x y r a Wx Wy.
    destruct (word_inv x Wx) as (x0 & x1 & x2 & x3 & X0 & X1 & X2 & X3 & -> & ->).
    destruct (word_inv y Wy) as (y0 & y1 & y2 & y3 & Y0 & Y1 & Y2 & Y3 & -> & ->).
    rewrite of_bytes_eqb by assumption. unfold byte in *.
    unfold u32_equalverify. cbn [app]. vmgo.
    try rewrite (Z.eqb_sym y0 x0).
    destruct (x0 =? y0); [vmgo; try rewrite (Z.eqb_sym y1 x1)|reflexivity].
    destruct (x1 =? y1); [vmgo; try rewrite (Z.eqb_sym y2 x2)|reflexivity].
    destruct (x2 =? y2); [vmgo; try rewrite (Z.eqb_sym y3 x3)|reflexivity].
    destruct (x3 =? y3); reflexivity.
  Qed.

  (** *** Doubling and packing *)
  Lemma dup_add_ok : forall x r a, -2^31 < x < 2^31 ->
    run OP_2MUL (mk (I x :: r) a []) = Some (mk (I (2 * x) :: r) a []).
  Proof.
    intros x r a Hx. unfold OP_2MUL. vmgo. replace (x + x) with (2 * x) by lia. reflexivity.
  Qed.

  (** Every doubling but the last needs its input within the operand range. *)
  Theorem op_2k_mul_ok : forall k x r a, (k = 0%nat \/ Z.abs x * 2 ^ (Z.of_nat k - 1) < 2^31) ->
    run (op_2k_mul k) (mk (I x :: r) a []) = Some (mk (I (x * 2 ^ Z.of_nat k) :: r) a []).
  Proof.
    induction k as [|k IH]; intros x r a Hk.
    - cbn -[Z.mul]. rewrite Z.mul_1_r. reflexivity.
    - destruct Hk as [Hk|Hk]; [discriminate|].
      replace (Z.of_nat (S k) - 1) with (Z.of_nat k) in Hk by lia.
      assert (P : 1 <= 2 ^ Z.of_nat k) by (apply (Z.pow_le_mono_r 2 0 (Z.of_nat k)); lia).
      unfold op_2k_mul in *. cbn [repeat_script]. rewrite run_app, dup_add_ok by nia.
      rewrite IH.
      + rewrite Nat2Z.inj_succ, Z.pow_succ_r by lia. do 4 f_equal. lia.
      + destruct k as [|k]; [left; reflexivity|right].
        rewrite Nat2Z.inj_succ, Z.pow_succ_r in Hk by lia.
        replace (Z.of_nat (S k) - 1) with (Z.of_nat k) by lia. lia.
  Qed.

  Lemma mul256_ok : forall x r a, -2^23 < x < 2^23 + 2^16 ->
    run OP_256MUL (mk (I x :: r) a []) = Some (mk (I (256 * x) :: r) a []).
  Proof.
    intros x r a Hx. change OP_256MUL with (op_2k_mul 8). rewrite op_2k_mul_ok.
    - change (2 ^ Z.of_nat 8) with 256. do 4 f_equal. lia.
    - right. change (2 ^ (Z.of_nat 8 - 1)) with 128. lia.
  Qed.

  (** The packed value: sign-magnitude reading of the 32 bits. *)
  Definition packed (w : Z) : Z := if w <? 2^31 then w else - (w - 2^31).

  Theorem u32_compress_ok : forall w r a, is_u32 w ->
    run u32_compress (mk (word w ++ r) a []) = Some (mk (I (packed w) :: r) a []).
  Proof.
    intros w r a Ww.
    destruct (word_inv w Ww) as (x0 & x1 & x2 & x3 & X0 & X1 & X2 & X3 & -> & ->).
    unfold byte in *. unfold u32_compress.
    set (s := 127 <? x3).
    set (h := if s then x3 - 128 else x3).
    assert (Hh : 0 <= h < 128) by (subst h s; destruct (127 <? x3) eqn:E; lia).
    rewrite run_app.
    assert (E : run [OP_SWAP; OP_ROT; PUSHN 3; OP_ROLL; OP_DUP; PUSHN 127; OP_GREATERTHAN;
       OP_IF; PUSHN 128; OP_SUB; PUSHN 1; OP_ELSE; PUSHN 0; OP_ENDIF; OP_TOALTSTACK]
       (mk ([I x0; I x1; I x2; I x3] ++ r) a []) =
       Some (mk (I h :: I x2 :: I x1 :: I x0 :: r) (I (b2z s) :: a) [])).
    { subst h s. vmgo. destruct (127 <? x3) eqn:E; cbn [b2z]; vmgo; reflexivity. }
    rewrite E.
    rewrite run_app, mul256_ok by lia.
    eapply run_seq; [vmgo; reflexivity|].
    rewrite run_app, mul256_ok by lia.
    eapply run_seq; [vmgo; reflexivity|].
    rewrite run_app, mul256_ok by lia.
    eapply run_seq; [vmgo; reflexivity|].
    unfold packed, of_bytes. pow8. change (2^31) with 2147483648 in *.
    destruct s eqn:Es; subst s h; cbn [b2z].
    - vmgo. destruct (x0 + 256 * x1 + 65536 * x2 + 16777216 * x3 <? 2147483648) eqn:F; [lia|].
      do 4 f_equal. lia.
    - vmgo. destruct (x0 + 256 * x1 + 65536 * x2 + 16777216 * x3 <? 2147483648) eqn:F; [|lia].
      do 4 f_equal. lia.
  Qed.

  Theorem packed_collision : forall v w, is_u32 v -> is_u32 w ->
    (packed v = packed w <-> v = w \/ (v = 0 /\ w = 2^31) \/ (v = 2^31 /\ w = 0)).
  Proof.
    unfold is_u32, packed. intros v w Hv Hw.
    change (2^31) with 2147483648 in *. pow8.
    destruct (v <? 2147483648) eqn:E1, (w <? 2147483648) eqn:E2; lia.
  Qed.

  Theorem u32_push_ok : forall w r a, is_u32 w ->
    run (u32_push w) (mk r a []) = Some (mk (word w ++ r) a []).
  Proof.
    intros w r a Hw. unfold u32_push, word, wbytes. cbn [map app].
    rewrite !Z.shiftr_div_pow2 by lia.
    change 255 with (Z.ones 8). rewrite !Z.land_ones by lia. reflexivity.
  Qed.
End Proofs.
