(** Winternitz check script: exact behaviour, completeness, soundness. *)
From Coq Require Import ZArith List Bool Lia.
From Coq Require Import ZifyBool ZifyNat.
From Verif Require Import ScriptNum ScriptVM VMLemmas U32Model U32Proofs U32Proofs2 Macros
  HelperModel WinternitzModel.
Import ListNotations.
Open Scope Z_scope.

Ltac Zify.zify_post_hook ::= Z.div_mod_to_equations.

Section W.
  Variable H : bytes -> bytes.
  Notation run := (run H).
  Notation hiter := (hiter H).

  Lemma hiter_add : forall a b x, hiter (a + b) x = hiter a (hiter b x).
  Proof. induction a as [|a IH]; intros b x; [reflexivity|]. cbn. f_equal. apply IH. Qed.

  Lemma hiter_S_r : forall n x, hiter (S n) x = hiter n (H x).
  Proof. intros n x. replace (S n) with (n + 1)%nat by lia. apply hiter_add. Qed.

  (** What one round does to the two top elements. *)
  Definition digit_of (v : val) (x pk : bytes) : option Z :=
    match vnum v with
    | None => None
    | Some d => let k := Z.min d 15 in
                if k <? 0 then None
                else if bytes_eqb (hiter (Z.to_nat (15 - k)) x) pk then Some k else None
    end.

  Definition push_digit (k : option Z) (m al : list val) : option vst :=
    match k with Some k => Some (mk m (I k :: al) []) | None => None end.

  Lemma digit_range : forall v x pk k, digit_of v x pk = Some k -> 0 <= k <= 15.
  Proof.
    unfold digit_of. intros v x pk k. destruct (vnum v) as [d|]; [|easy]. cbn zeta.
    destruct (Z.min d 15 <? 0) eqn:E; [easy|]. destruct bytes_eqb; [|easy].
    intros [= <-]. lia.
  Qed.

  Lemma verify_digit_ok : forall pk v x m al,
    run (verify_digit pk) (mk (v :: B x :: m) al []) = push_digit (digit_of v x pk) m al.
  Proof.
    intros pk v x m al. unfold digit_of, verify_digit. rewrite run_app.
    replace (run [PUSHN (Z.of_nat DIGITS); OP_MIN; OP_DUP; OP_TOALTSTACK; OP_TOALTSTACK]
               (mk (v :: B x :: m) al []))
      with (match vnum v with
            | Some d => Some (mk (B x :: m) (I (Z.min d 15) :: I (Z.min d 15) :: al) [])
            | None => None end).
    2:{ change (Z.of_nat DIGITS) with 15. vmred. change (in4 15) with true. cbv iota.
        change (match v with I z => if in4 z then Some z else None | B b => dec b end)
          with (vnum v). destruct (vnum v); reflexivity. }
    destruct (vnum v) as [d|] eqn:Ed; [|reflexivity].
    cbn zeta. set (k := Z.min d 15). assert (K : k <= 15) by (unfold k; lia).
    assert (K' : -2147483648 < k).
    { unfold k. destruct v as [z|b]; cbn in Ed.
      - destruct (in4 z) eqn:E; [|easy]. unfold in4 in E. injection Ed as <-. lia.
      - unfold dec in Ed. destruct (length b <=? 4)%nat eqn:L; [|easy].
        destruct (bytes_eqb (enc (dec_raw b)) b) eqn:E; [|easy]. injection Ed as <-.
        apply bytes_eqb_eq in E. rewrite <- E in L. rewrite enc_length_4 in L.
        unfold in4 in L. lia. }
    clearbody k. clear Ed.
    rewrite run_app.
    assert (C : forall n y r a, run (repeat_script n [OP_DUP; OP_HASH160]) (mk (B y :: r) a []) =
      Some (mk (map (fun i => B (hiter (n - i) y)) (seq 0 (S n)) ++ r) a [])).
    { induction n as [|n IH]; intros y r a; [reflexivity|].
      change (run (repeat_script (S n) [OP_DUP; OP_HASH160]) (mk (B y :: r) a []))
        with (run (repeat_script n [OP_DUP; OP_HASH160]) (mk (B (H y) :: B y :: r) a [])).
      rewrite IH. f_equal. f_equal.
      rewrite (seq_S (S n) 0), map_app, <- app_assoc. cbn [map app].
      replace (S n - (0 + S n))%nat with O by lia. cbn [WinternitzModel.hiter Nat.iter].
      f_equal. apply map_ext_in. intros i Hi. apply in_seq in Hi.
      replace (S n - i)%nat with (S (n - i)) by lia. f_equal.
      symmetry. apply hiter_S_r. }
    rewrite C. clear C. change DIGITS with 15%nat.
    set (l := map (fun i => B (hiter (15 - i) x)) (seq 0 16)).
    assert (Ll : length l = 16%nat) by reflexivity.
    assert (Ln : 0 <= k -> nth_error (l ++ m) (znat k) = Some (B (hiter (Z.to_nat (15 - k)) x))).
    { intros K0. unfold znat. rewrite nth_error_app1 by (rewrite Ll; lia). unfold l.
      rewrite nth_error_map, (nth_error_nth' _ O) by (rewrite seq_length; lia).
      rewrite seq_nth by lia. cbn [option_map]. do 3 f_equal. lia. }
    clearbody l. rewrite run_app.
    replace (run [OP_FROMALTSTACK; OP_PICK; PUSHB pk; OP_EQUALVERIFY]
               (mk (l ++ m) (I k :: I k :: al) []))
      with (if k <? 0 then None else
            if bytes_eqb (hiter (Z.to_nat (15 - k)) x) pk
            then Some (mk (l ++ m) (I k :: al) []) else None).
    2:{ set (s := l ++ m) in *. vmred. rewrite (in4_true k) by lia.
        destruct (k <? 0) eqn:E; [reflexivity|].
        change ((fix nth_error (l : list val) (n : nat) {struct n} : option val :=
          match n with
          | 0%nat => match l with [] => None | x0 :: _ => Some x0 end
          | S n0 => match l with [] => None | _ :: l0 => nth_error l0 n0 end
          end) s (znat k)) with (nth_error s (znat k)).
        rewrite Ln by lia. cbn [vbytes].
        destruct bytes_eqb; reflexivity. }
    destruct (k <? 0) eqn:E; [reflexivity|].
    destruct bytes_eqb; [|reflexivity]. clear Ln.
    do 16 (destruct l as [|? l]; [discriminate Ll|]). destruct l; [|discriminate Ll].
    reflexivity.
  Qed.

  (** Short stacks fail. *)
  Lemma verify_digit_short : forall pk m al, (length m < 2)%nat ->
    run (verify_digit pk) (mk m al []) = None.
  Proof.
    intros pk [|v [|x m]] al L; [reflexivity| |cbn in L; lia].
    unfold verify_digit. rewrite run_app.
    destruct (run [PUSHN (Z.of_nat DIGITS); OP_MIN; OP_DUP; OP_TOALTSTACK; OP_TOALTSTACK]
               (mk [v] al [])) as [s|] eqn:E; [|reflexivity].
    revert E. change (Z.of_nat DIGITS) with 15. vmred. change (in4 15) with true. cbv iota.
    change (match v with I z => if in4 z then Some z else None | B b => dec b end)
          with (vnum v). destruct (vnum v); [|easy]. intros [= <-]. reflexivity.
  Qed.

  (** *** All rounds.  A witness entry is (digit element, preimage, digit). *)
  Definition entry : Type := val * bytes * Z.
  Definition e_stack (t : entry) : list val := let '(v, x, _) := t in [v; B x].
  Definition e_digit (t : entry) : Z := let '(_, _, k) := t in k.
  Definition e_ok (pk : bytes) (t : entry) : Prop :=
    let '(v, x, k) := t in digit_of v x pk = Some k.

  Lemma rounds_ok : forall pks ts m al, Forall2 e_ok pks ts ->
    run (flat_map verify_digit pks) (mk (flat_map e_stack ts ++ m) al []) =
    Some (mk m (rev (map I (map e_digit ts)) ++ al) []).
  Proof.
    intros pks ts m al F. revert m al. induction F as [|pk [[v x] k] pks ts E F IH]; intros m al.
    - reflexivity.
    - cbn [flat_map e_stack]. rewrite run_app. cbn [app]. rewrite verify_digit_ok.
      cbn in E. rewrite E. cbn [push_digit]. rewrite IH. cbn [map rev e_digit].
      rewrite <- app_assoc. reflexivity.
  Qed.

  Lemma rounds_inv : forall pks m al s,
    run (flat_map verify_digit pks) (mk (map B m) al []) = Some s ->
    exists ts rest, Forall2 e_ok pks ts /\ map B m = flat_map e_stack ts ++ map B rest /\ s = mk (map B rest) (rev (map I (map e_digit ts)) ++ al) [].
  Proof.
    induction pks as [|pk pks IH]; intros m al s E.
    - injection E as <-. exists [], m. repeat split. constructor.
    - cbn [flat_map] in E. rewrite run_app in E.
      destruct m as [|v [|x m]]; [rewrite verify_digit_short in E by (cbn; lia); easy..|].
      cbn [map] in E. rewrite verify_digit_ok in E.
      destruct (digit_of (B v) x pk) as [k|] eqn:D; [|easy]. cbn [push_digit] in E.
      destruct (IH _ _ _ E) as (ts & rest & F & Em & ->).
      exists ((B v, x, k) :: ts), rest. repeat split.
      + constructor; [exact D|exact F].
      + cbn [map flat_map e_stack app]. now rewrite Em.
      + cbn [map rev e_digit]. rewrite <- app_assoc. reflexivity.
  Qed.

  Definition sum_digits (l : list Z) : Z := fold_right Z.add 0 l.

  Lemma tail_ok : forall m0 m1 m2 m3 m4 m5 m6 m7 c0 c1 m al,
    Forall (fun d => 0 <= d <= 15) [m0; m1; m2; m3; m4; m5; m6; m7; c0; c1] ->
    run (verify_checksum ++ digits_to_bytes)
      (mk m (map I [m7; m6; m5; m4; m3; m2; m1; m0; c1; c0] ++ al) []) =
    if 120 - (m0 + m1 + m2 + m3 + m4 + m5 + m6 + m7) =? 16 * c1 + c0
    then Some (mk (map I [16 * m1 + m0; 16 * m3 + m2; 16 * m5 + m4; 16 * m7 + m6] ++ m) al [])
    else None.
  Proof.
    intros m0 m1 m2 m3 m4 m5 m6 m7 c0 c1 m al F.
    repeat match goal with F : Forall _ (_ :: _) |- _ => inversion_clear F as [|? ? ? F'];
      rename F' into F end. clear F.
    cbn [map app].
    rewrite run_app.
    replace (run verify_checksum _) with
      (if 120 - (m0 + m1 + m2 + m3 + m4 + m5 + m6 + m7) =? 16 * c1 + c0
       then Some (mk (map I [m0; m1; m2; m3; m4; m5; m6; m7] ++ m) al []) else None).
    2:{ unfold verify_checksum. cbn [N0 N1 LOG_D Nat.sub repeat_script app].
        change (Z.of_nat (DIGITS * N0)) with 120. vmgo.
        match goal with |- context [Z.eqb ?a (?b + c0)] =>
          match a with _ + 120 =>
          replace a with (120 - (m0 + m1 + m2 + m3 + m4 + m5 + m6 + m7)) by lia;
          replace b with (16 * c1) by lia end end.
        destruct (_ =? _); reflexivity. }
    destruct (_ =? _); [|reflexivity].
    unfold digits_to_bytes. cbn [map app].
    cbn [N0 LOG_D seq flat_map Nat.sub Nat.div Nat.divmod fst Nat.eqb repeat_script app]. vmgo.
    apply (f_equal (fun s => Some (mk s al []))). do 4 (apply (f_equal2 (@cons val)); [apply (f_equal I); lia|]). reflexivity.
  Qed.
End W.
