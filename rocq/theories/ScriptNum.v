(** Bitcoin script numbers.

    Stack elements of Bitcoin Script are byte strings; arithmetic opcodes read
    them as little-endian sign-magnitude numbers of at most 4 bytes in minimal
    encoding (Bitcoin consensus: CScriptNum; in the repository this is the
    behaviour of the external crate [bitcoin_scriptexec] used by
    /repo/scripts/src/lib.rs:97-164 with [ExecCtx::Tapscript] and
    [Options::default()], which requires minimal encoding).  Bytes are
    represented by integers in [0,256).  *)
From Coq Require Import ZArith List Bool Lia.
From Coq Require Import ZifyBool ZifyNat.
Import ListNotations.
Open Scope Z_scope.

Ltac Zify.zify_post_hook ::= Z.div_mod_to_equations.

Definition bytes := list Z.

Fixpoint bytes_eqb (a b : bytes) : bool :=
  match a, b with
  | [], [] => true
  | x :: a', y :: b' => (x =? y) && bytes_eqb a' b'
  | _, _ => false
  end.

(** Little-endian base-256 digits of a magnitude, no trailing zero byte. *)
Fixpoint le_digits (fuel : nat) (m : Z) : bytes :=
  match fuel with
  | O => []
  | S f => if m =? 0 then [] else (m mod 256) :: le_digits f (m / 256)
  end.

Definition mag_bytes (m : Z) : bytes := le_digits (S (Z.to_nat (Z.log2 m))) m.

(** Put the sign into the top bit of the last byte, appending a byte if that
    bit is already used by the magnitude. *)
Fixpoint set_sign (neg : bool) (bs : bytes) : bytes :=
  match bs with
  | [] => []
  | [b] => if b <? 128 then [b + (if neg then 128 else 0)]
           else [b; if neg then 128 else 0]
  | b :: bs' => b :: set_sign neg bs'
  end.

(** Minimal encoding (CScriptNum::serialize). *)
Definition enc (z : Z) : bytes := set_sign (z <? 0) (mag_bytes (Z.abs z)).

Fixpoint dec_mag (bs : bytes) : Z * bool :=
  match bs with
  | [] => (0, false)
  | [b] => (b mod 128, 128 <=? b)
  | b :: bs' => let '(m, s) := dec_mag bs' in (b + 256 * m, s)
  end.

Definition dec_raw (bs : bytes) : Z :=
  let '(m, s) := dec_mag bs in if s then - m else m.

(** Reading an operand: at most 4 bytes and minimally encoded. *)
Definition dec (bs : bytes) : option Z :=
  if (length bs <=? 4)%nat then
    let z := dec_raw bs in
    if bytes_eqb (enc z) bs then Some z else None
  else None.

(** Operand range of 4-byte script numbers. *)
Definition in4 (z : Z) : bool := (-2147483648 <? z) && (z <? 2147483648).

Lemma bytes_eqb_eq : forall a b, bytes_eqb a b = true <-> a = b.
Proof.
  induction a as [|x a IH]; destruct b as [|y b]; cbn; split; intros H; try easy.
  - apply andb_true_iff in H as [H1 H2]. apply Z.eqb_eq in H1. apply IH in H2. now subst.
  - injection H as -> ->. rewrite Z.eqb_refl. cbn. now apply IH.
Qed.

Lemma bytes_eqb_refl : forall a, bytes_eqb a a = true.
Proof. intros a. now apply bytes_eqb_eq. Qed.

Fixpoint le_val (bs : bytes) : Z :=
  match bs with [] => 0 | b :: r => b + 256 * le_val r end.

Lemma le_digits_val : forall f m, 0 <= m -> m < 2 ^ Z.of_nat f -> le_val (le_digits f m) = m.
Proof.
  induction f as [|f IH]; intros m H0 H1.
  - cbn in *. lia.
  - cbn [le_digits]. destruct (m =? 0) eqn:E; [cbn; lia|].
    cbn [le_val]. rewrite IH.
    + lia.
    + lia.
    + rewrite Nat2Z.inj_succ, Z.pow_succ_r in H1 by lia. lia.
Qed.

Lemma mag_bytes_val : forall m, 0 <= m -> le_val (mag_bytes m) = m.
Proof.
  intros m H. unfold mag_bytes. apply le_digits_val; [easy|].
  destruct (Z.eq_dec m 0) as [->|N]; [cbn; lia|].
  pose proof (Z.log2_spec m ltac:(lia)) as [_ L].
  rewrite Nat2Z.inj_succ, Z2Nat.id by apply Z.log2_nonneg. exact L.
Qed.

(** Last byte nonzero, all bytes in range. *)
Fixpoint wfmag (bs : bytes) : Prop :=
  match bs with
  | [] => True
  | [b] => 0 < b < 256
  | b :: r => 0 <= b < 256 /\ wfmag r
  end.

Lemma wfmag_cons : forall b r, 0 <= b < 256 -> r <> [] -> wfmag r -> wfmag (b :: r).
Proof. intros b [|c r] H1 H2 H3; [easy|]. cbn in *. tauto. Qed.

Lemma le_digits_wf : forall f m, 0 <= m -> m < 2 ^ Z.of_nat f -> wfmag (le_digits f m).
Proof.
  induction f as [|f IH]; intros m H0 H1; [exact I|].
  cbn [le_digits]. destruct (m =? 0) eqn:E; [exact I|].
  rewrite Nat2Z.inj_succ, Z.pow_succ_r in H1 by lia.
  assert (W : wfmag (le_digits f (m / 256))) by (apply IH; lia).
  destruct (Z.eq_dec (m / 256) 0) as [Hz|Hz].
  - assert (X : le_digits f (m / 256) = []).
    { rewrite Hz. destruct f; reflexivity. }
    rewrite X. cbn. lia.
  - apply wfmag_cons; [lia| |exact W].
    destruct f as [|f']; [cbn in H1; lia|].
    cbn. destruct (m / 256 =? 0) eqn:E2; [lia|easy].
Qed.

Lemma mag_bytes_wf : forall m, 0 <= m -> wfmag (mag_bytes m).
Proof.
  intros m H. apply le_digits_wf; [easy|].
  destruct (Z.eq_dec m 0) as [->|N]; [cbn; lia|].
  pose proof (Z.log2_spec m ltac:(lia)) as [_ L].
  rewrite Nat2Z.inj_succ, Z2Nat.id by apply Z.log2_nonneg. exact L.
Qed.

Lemma dec_mag_set_sign : forall neg bs,
  wfmag bs -> bs <> [] -> dec_mag (set_sign neg bs) = (le_val bs, neg).
Proof.
  intros neg bs. induction bs as [|b r IH]; intros W N; [easy|].
  destruct r as [|c r].
  - cbn in W. cbn [set_sign]. destruct (b <? 128) eqn:E.
    + cbn. destruct neg; f_equal; lia.
    + cbn [dec_mag]. destruct neg; cbn; f_equal; lia.
  - assert (W' : wfmag (c :: r)) by (cbn in W |- *; tauto).
    specialize (IH W' ltac:(easy)).
    change (set_sign neg (b :: c :: r)) with (b :: set_sign neg (c :: r)).
    assert (NE : set_sign neg (c :: r) <> []).
    { destruct r; cbn; [destruct (c <? 128)|]; easy. }
    destruct (set_sign neg (c :: r)) as [|d t] eqn:Es; [easy|].
    change (dec_mag (b :: d :: t)) with (let '(m, s) := dec_mag (d :: t) in (b + 256 * m, s)).
    rewrite IH. reflexivity.
Qed.

Lemma enc_0 : enc 0 = [].
Proof. reflexivity. Qed.

Theorem dec_raw_enc : forall z, dec_raw (enc z) = z.
Proof.
  intros z. destruct (Z.eq_dec z 0) as [->|N]; [reflexivity|].
  unfold dec_raw, enc. rewrite dec_mag_set_sign.
  - rewrite mag_bytes_val by lia. destruct (z <? 0) eqn:E; lia.
  - apply mag_bytes_wf; lia.
  - unfold mag_bytes. cbn [le_digits]. destruct (Z.abs z =? 0) eqn:E; [lia|easy].
Qed.

Theorem enc_inj : forall a b, enc a = enc b -> a = b.
Proof. intros a b H. rewrite <- (dec_raw_enc a), <- (dec_raw_enc b). now rewrite H. Qed.

Lemma set_sign_length_le : forall neg bs k,
  wfmag bs -> le_val bs < 128 * 256 ^ Z.of_nat k -> (length (set_sign neg bs) <= S k)%nat.
Proof.
  intros neg. induction bs as [|b r IH]; intros k W H; [cbn; lia|].
  destruct r as [|c r].
  - cbn in W, H. cbn [set_sign]. destruct (b <? 128) eqn:E; [cbn; lia|].
    destruct k; cbn in *; lia.
  - change (set_sign neg (b :: c :: r)) with (b :: set_sign neg (c :: r)).
    cbn [length].
    assert (W' : wfmag (c :: r)) by (cbn in W |- *; tauto).
    assert (Hb : 0 <= b < 256) by (cbn in W; tauto).
    change (le_val (b :: c :: r)) with (b + 256 * le_val (c :: r)) in H.
    destruct k as [|k].
    + exfalso. change (128 * 256 ^ Z.of_nat 0) with 128 in H.
      assert (P : 0 < le_val (c :: r)).
      { clear - W'. revert W'. generalize c. induction r as [|d r IH]; intros e W.
        - cbn in *; lia.
        - change (le_val (e :: d :: r)) with (e + 256 * le_val (d :: r)).
          assert (wfmag (d :: r)) by (cbn in W |- *; tauto).
          specialize (IH d H). cbn in W; lia. }
      lia.
    + apply le_n_S. apply IH; [exact W'|].
      rewrite Nat2Z.inj_succ, Z.pow_succ_r in H by lia. lia.
Qed.

Lemma set_sign_length_ge : forall neg bs k,
  wfmag bs -> bs <> [] -> 128 * 256 ^ Z.of_nat k <= le_val bs -> (S k < length (set_sign neg bs))%nat.
Proof.
  intros neg. induction bs as [|b r IH]; intros k W NE H; [easy|].
  destruct r as [|c r].
  - cbn in W. change (le_val [b]) with (b + 256 * 0) in H. cbn [set_sign]. destruct (b <? 128) eqn:E.
    + destruct k; [cbn in H; lia|].
      rewrite Nat2Z.inj_succ, Z.pow_succ_r in H by lia.
      pose proof (Z.pow_pos_nonneg 256 (Z.of_nat k) ltac:(lia) ltac:(lia)). lia.
    + cbn. destruct k; [lia|].
      rewrite Nat2Z.inj_succ, Z.pow_succ_r in H by lia.
      pose proof (Z.pow_pos_nonneg 256 (Z.of_nat k) ltac:(lia) ltac:(lia)). lia.
  - change (set_sign neg (b :: c :: r)) with (b :: set_sign neg (c :: r)).
    assert (W' : wfmag (c :: r)) by (cbn in W |- *; tauto).
    assert (Hb : 0 <= b < 256) by (cbn in W; tauto).
    change (le_val (b :: c :: r)) with (b + 256 * le_val (c :: r)) in H.
    cbn [length]. destruct k as [|k].
    + destruct r; cbn; [destruct (c <? 128)|]; cbn; lia.
    + enough (S k < length (set_sign neg (c :: r)))%nat by lia.
      apply IH; [exact W'|easy|].
      rewrite Nat2Z.inj_succ, Z.pow_succ_r in H by lia. lia.
Qed.

Theorem enc_length_4 : forall z, (length (enc z) <=? 4)%nat = in4 z.
Proof.
  intros z. destruct (Z.eq_dec z 0) as [->|N]; [reflexivity|].
  assert (W := mag_bytes_wf (Z.abs z) ltac:(lia)).
  assert (V := mag_bytes_val (Z.abs z) ltac:(lia)).
  assert (NE : mag_bytes (Z.abs z) <> []).
  { unfold mag_bytes. cbn [le_digits]. destruct (Z.abs z =? 0) eqn:E; [lia|easy]. }
  unfold enc. destruct (in4 z) eqn:E.
  - apply Nat.leb_le. apply set_sign_length_le; [exact W|].
    rewrite V. unfold in4 in E. change (128 * 256 ^ Z.of_nat 3) with 2147483648. lia.
  - apply Nat.leb_gt. apply (set_sign_length_ge _ _ 3%nat); [exact W|exact NE|].
    rewrite V. unfold in4 in E. change (128 * 256 ^ Z.of_nat 3) with 2147483648. lia.
Qed.

Theorem dec_enc : forall z, dec (enc z) = if in4 z then Some z else None.
Proof.
  intros z. unfold dec. rewrite enc_length_4. destruct (in4 z); [|reflexivity].
  rewrite dec_raw_enc, bytes_eqb_refl. reflexivity.
Qed.

Lemma bytes_eqb_enc : forall a b, bytes_eqb (enc a) (enc b) = (a =? b).
Proof.
  intros a b. destruct (a =? b) eqn:E.
  - apply Z.eqb_eq in E. subst. apply bytes_eqb_refl.
  - destruct (bytes_eqb (enc a) (enc b)) eqn:F; [|reflexivity].
    apply bytes_eqb_eq in F. apply enc_inj in F. lia.
Qed.

Global Arguments enc : simpl never.
Global Arguments dec : simpl never.
Global Arguments in4 : simpl never.
