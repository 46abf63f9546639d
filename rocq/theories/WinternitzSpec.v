(** Winternitz: the digits that are signed, and the exact behaviour of the check
    script in terms of them. *)
From Coq Require Import ZArith List Bool Lia.
From Coq Require Import ZifyBool ZifyNat.
From Verif Require Import ScriptNum ScriptVM VMLemmas U32Model U32Proofs U32Proofs2 Macros
  HelperModel WinternitzModel WinternitzProofs.
Import ListNotations.
Open Scope Z_scope.

Ltac Zify.zify_post_hook ::= Z.div_mod_to_equations.

(** *** Specification of the signed digits *)

(** [i]-th hexadecimal digit. *)
Definition nib (v : Z) (i : nat) : Z := (v / 16 ^ Z.of_nat i) mod 16.
(** 8 * 15 minus the digit sum. *)
Definition csum (v : Z) : Z :=
  120 - (nib v 0 + nib v 1 + nib v 2 + nib v 3 + nib v 4 + nib v 5 + nib v 6 + nib v 7).
(** Digit signed with key [i]: the message digits, most significant first, then
    the two checksum digits. *)
Definition wdigit (v : Z) (i : nat) : Z :=
  if (i <? 8)%nat then nib v (7 - i) else if (i =? 8)%nat then csum v / 16 else csum v mod 16.

Lemma nib_range : forall v i, 0 <= nib v i < 16.
Proof. intros. unfold nib. apply Z.mod_pos_bound. lia. Qed.

Lemma csum_range : forall v, 0 <= csum v <= 120.
Proof.
  intros v. unfold csum.
  pose proof (nib_range v 0). pose proof (nib_range v 1). pose proof (nib_range v 2).
  pose proof (nib_range v 3). pose proof (nib_range v 4). pose proof (nib_range v 5).
  pose proof (nib_range v 6). pose proof (nib_range v 7). lia.
Qed.

Lemma wdigit_range : forall v i, 0 <= wdigit v i < 16.
Proof.
  intros v i. unfold wdigit. pose proof (csum_range v).
  destruct (i <? 8)%nat; [apply nib_range|]. destruct (i =? 8)%nat; lia.
Qed.

Lemma to_digits_nib : forall n v, to_digits v n = map (nib v) (seq 0 n).
Proof.
  assert (G : forall n v k, 0 <= k -> 
    to_digits (v / 16 ^ k) n = map (fun i => (v / 16 ^ (k + Z.of_nat i)) mod 16) (seq 0 n)).
  { induction n as [|n IH]; intros v k K; [reflexivity|].
    cbn [to_digits]. change (Z.of_nat (DIGITS + 1)) with 16. cbn [seq map].
    f_equal; [now rewrite Z.add_0_r|].
    replace ((v / 16 ^ k - (v / 16 ^ k) mod 16) / 16) with (v / 16 ^ (k + 1)).
    - rewrite IH by lia. rewrite <- seq_shift, map_map. apply map_ext. intros i.
      do 3 f_equal. lia.
    - rewrite Z.pow_add_r, <- Z.div_div by (try apply Z.pow_pos_nonneg; lia).
      change (16 ^ 1) with 16. generalize (v / 16 ^ k). intros; lia. }
  intros n v. rewrite <- (Z.div_1_r v) at 1. change 1 with (16 ^ 0). rewrite G by lia.
  apply map_ext. intros i. unfold nib. reflexivity.
Qed.

Lemma checksum_digits_ok : forall v,
  checksum_digits (to_digits v N0) = Some (rev (map (wdigit v) (seq 0 10))).
Proof.
  intros v. rewrite to_digits_nib. unfold checksum_digits, checksum.
  rewrite map_length, seq_length. change (N0 =? N0)%nat with true. cbv iota.
  change (Z.of_nat (DIGITS * N0)) with 120.
  assert (E : 120 - fold_left Z.add (map (nib v) (seq 0 N0)) 0 = csum v).
  { unfold csum. cbn [N0 seq map fold_left]. lia. }
  pose proof (csum_range v) as R. cbv zeta.
  destruct (_ <=? 120) eqn:L; [|lia]. f_equal. rewrite E.
  cbn [N1 to_digits]. change (Z.of_nat (DIGITS + 1)) with 16.
  cbn [N0 seq map rev app]. unfold wdigit at 1 2. cbn [Nat.ltb Nat.leb Nat.eqb].
  repeat (f_equal; try lia).
Qed.

(** Two words with the same digits are equal. *)
Lemma nib_word : forall v, is_u32 v ->
  v = of_bytes (16 * nib v 1 + nib v 0) (16 * nib v 3 + nib v 2)
        (16 * nib v 5 + nib v 4) (16 * nib v 7 + nib v 6).
Proof.
  intros v V. unfold is_u32 in V. change (2^32) with 4294967296 in V.
  unfold of_bytes, nib. 
  change (16 ^ Z.of_nat 0) with 1. change (16 ^ Z.of_nat 1) with 16.
  change (16 ^ Z.of_nat 2) with 256. change (16 ^ Z.of_nat 3) with 4096.
  change (16 ^ Z.of_nat 4) with 65536. change (16 ^ Z.of_nat 5) with 1048576.
  change (16 ^ Z.of_nat 6) with 16777216. change (16 ^ Z.of_nat 7) with 268435456.
  change (2^8) with 256. change (2^16) with 65536. change (2^24) with 16777216.
  lia.
Qed.

Lemma of_nibs : forall m0 m1 m2 m3 m4 m5 m6 m7 v,
  Forall (fun d => 0 <= d < 16) [m0; m1; m2; m3; m4; m5; m6; m7] ->
  v = of_bytes (16 * m1 + m0) (16 * m3 + m2) (16 * m5 + m4) (16 * m7 + m6) ->
  map (nib v) (seq 0 8) = [m0; m1; m2; m3; m4; m5; m6; m7].
Proof.
  intros m0 m1 m2 m3 m4 m5 m6 m7 v F E.
  repeat match goal with F : Forall _ (_ :: _) |- _ => inversion_clear F as [|? ? ? F'];
      rename F' into F end. clear F.
  unfold of_bytes in E. change (2^8) with 256 in E. change (2^16) with 65536 in E.
  change (2^24) with 16777216 in E. cbn [seq map]. unfold nib.
  change (16 ^ Z.of_nat 0) with 1. change (16 ^ Z.of_nat 1) with 16.
  change (16 ^ Z.of_nat 2) with 256. change (16 ^ Z.of_nat 3) with 4096.
  change (16 ^ Z.of_nat 4) with 65536. change (16 ^ Z.of_nat 5) with 1048576.
  change (16 ^ Z.of_nat 6) with 16777216. change (16 ^ Z.of_nat 7) with 268435456.
  do 8 (apply (f_equal2 (@cons Z)); [lia|]). reflexivity.
Qed.

Lemma digits_word : forall k0 k1 k2 k3 k4 k5 k6 k7 k8 k9,
  Forall (fun d => 0 <= d <= 15) [k0; k1; k2; k3; k4; k5; k6; k7; k8; k9] ->
  120 - (k7 + k6 + k5 + k4 + k3 + k2 + k1 + k0) = 16 * k8 + k9 ->
  exists v, is_u32 v /\
    word v = map I [16 * k6 + k7; 16 * k4 + k5; 16 * k2 + k3; 16 * k0 + k1] /\
    forall i, (i < 10)%nat -> wdigit v i = nth i [k0; k1; k2; k3; k4; k5; k6; k7; k8; k9] 0.
Proof.
  intros k0 k1 k2 k3 k4 k5 k6 k7 k8 k9 F C.
  repeat match goal with F : Forall _ (_ :: _) |- _ => inversion_clear F as [|? ? ? F'];
      rename F' into F end. clear F.
  set (v := of_bytes (16 * k6 + k7) (16 * k4 + k5) (16 * k2 + k3) (16 * k0 + k1)).
  assert (V : is_u32 v) by (apply of_bytes_u32; unfold byte; lia).
  assert (Wv : word v = map I [16 * k6 + k7; 16 * k4 + k5; 16 * k2 + k3; 16 * k0 + k1])
    by (apply word_of_bytes; unfold byte; lia).
  assert (Nv : map (nib v) (seq 0 8) = [k7; k6; k5; k4; k3; k2; k1; k0]).
  { apply of_nibs; [repeat constructor; lia|reflexivity]. }
  exists v. split; [exact V|]. split; [exact Wv|]. clear V Wv. clearbody v.
  cbn [seq map] in Nv. injection Nv as N0 N1 N2 N3 N4 N5 N6 N7.
  assert (Cs : csum v = 16 * k8 + k9) by (unfold csum; lia).
  intros i Hi.
  do 10 (destruct i as [|i]; [unfold wdigit; cbn [Nat.ltb Nat.leb Nat.eqb Nat.sub nth];
    (assumption || (clear - Cs H7 H8; lia))|]).
  clear - Hi. lia.
Qed.

Section S.
  Variable H : bytes -> bytes.
  Notation run := (run H).
  Notation hiter := (hiter H).

  Lemma checksig_rounds : forall pks, length pks = 10%nat ->
    checksig_verify pks = flat_map verify_digit (rev pks) ++ verify_checksum ++ digits_to_bytes.
  Proof.
    intros pks L. unfold checksig_verify. f_equal.
    do 10 (destruct pks as [|? pks]; [discriminate L|]). destruct pks; [|discriminate L].
    reflexivity.
  Qed.

  Lemma verify_tail : forall v m al,
    run (verify_checksum ++ digits_to_bytes) (mk m (map I (map (wdigit v) (seq 0 10)) ++ al) []) =
    Some (mk (map I [16 * nib v 1 + nib v 0; 16 * nib v 3 + nib v 2;
                     16 * nib v 5 + nib v 4; 16 * nib v 7 + nib v 6] ++ m) al []).
  Proof.
    intros v m al. pose proof (csum_range v) as R.
    change (map (wdigit v) (seq 0 10)) with
      [nib v 7; nib v 6; nib v 5; nib v 4; nib v 3; nib v 2; nib v 1; nib v 0;
       csum v / 16; csum v mod 16].
    rewrite tail_ok.
    - destruct (_ =? _) eqn:E; [reflexivity|]. unfold csum in *. lia.
    - repeat constructor; try (pose proof (nib_range v 0); lia); 
        repeat match goal with |- context [nib v ?i] =>
          lazymatch goal with K : 0 <= nib v i < 16 |- _ => fail 
          | _ => pose proof (nib_range v i) end end; try lia.
  Qed.

  (** Completeness: all rounds yield the digits of [v]. *)
  Lemma verify_accepts : forall (pks : list bytes) v (el : nat -> val) (x : nat -> bytes) m al,
    length pks = 10%nat -> is_u32 v ->
    (forall i, (i < 10)%nat -> digit_of H (el i) (x i) (nth i pks []) = Some (wdigit v i)) ->
    run (checksig_verify pks)
      (mk (flat_map (fun i => [el i; B (x i)]) (rev (seq 0 10)) ++ m) al []) =
    Some (mk (word v ++ m) al []).
  Proof.
    intros pks v el x m al L V D. rewrite checksig_rounds by exact L.
    set (ts := map (fun i => (el i, x i, wdigit v i) : entry) (rev (seq 0 10))).
    replace (flat_map (fun i => [el i; B (x i)]) (rev (seq 0 10))) with (flat_map e_stack ts)
      by reflexivity.
    eapply run_seq.
    { apply rounds_ok. unfold ts.
      assert (E : rev pks = map (fun i => nth i pks []) (rev (seq 0 10))).
      { rewrite map_rev. f_equal. clear - L.
        do 10 (destruct pks as [|? pks]; [discriminate L|]). destruct pks; [|discriminate L].
        reflexivity. }
      rewrite E.
      assert (Q : forall l, (forall i, In i l -> (i < 10)%nat) ->
        Forall2 (e_ok H) (map (fun i => nth i pks []) l) (map (fun i => (el i, x i, wdigit v i)) l)).
      { induction l as [|i l IH]; intros Hi; [constructor|]. cbn [map]. constructor.
        - cbn [e_ok]. apply D. apply Hi. left. reflexivity.
        - apply IH. intros j Hj. apply Hi. right. exact Hj. }
      apply Q. intros i Hi. apply in_rev, in_seq in Hi. lia. }
    replace (rev (map I (map e_digit ts))) with (map I (map (wdigit v) (seq 0 10))) by reflexivity.
    rewrite verify_tail. do 2 f_equal. 
    rewrite (nib_word v V) at 9.
    rewrite word_of_bytes; [reflexivity|unfold byte..];
      repeat match goal with |- context [nib v ?i] =>
          lazymatch goal with K : 0 <= nib v i < 16 |- _ => fail 
          | _ => pose proof (nib_range v i) end end; lia.
  Qed.

  (** The honest signature, with digit elements that read as the digits. *)
  Lemma verify_honest : forall sk v (el : nat -> val) m al, is_u32 v ->
    (forall i, (i < 10)%nat -> vnum (el i) = Some (wdigit v i)) ->
    run (checksig_verify (pub_key H sk))
      (mk (flat_map (fun i => [el i; B (fst (digit_signature H sk i (wdigit v i)))])
             (rev (seq 0 10)) ++ m) al []) =
    Some (mk (word v ++ m) al []).
  Proof.
    intros sk v el m al V D.
    apply (verify_accepts (pub_key H sk) v el
      (fun i => fst (digit_signature H sk i (wdigit v i))) m al); [reflexivity|exact V|].
    intros i Hi. unfold digit_of. rewrite D by exact Hi. pose proof (wdigit_range v i). cbv zeta.
    replace (Z.min (wdigit v i) 15) with (wdigit v i) by lia.
    destruct (wdigit v i <? 0) eqn:E0; [lia|].
    replace (nth i (pub_key H sk) []) with (generate_public_key H sk i).
    - unfold digit_signature, generate_public_key. cbn [fst]. rewrite <- hiter_add.
      replace (Z.to_nat (15 - wdigit v i) + Z.to_nat (wdigit v i))%nat with DIGITS
        by (unfold DIGITS; lia).
      rewrite bytes_eqb_refl. reflexivity.
    - clear - Hi. do 10 (destruct i as [|i]; [reflexivity|]). lia.
  Qed.

  Lemma Forall2_cons_inv : forall A C (R : A -> C -> Prop) a b l m,
    Forall2 R (a :: l) (b :: m) -> R a b /\ Forall2 R l m.
  Proof. intros A C R a b l m F. inversion F; subst. split; assumption. Qed.

  Lemma digit_of_inv : forall d x pk k, digit_of H (B d) x pk = Some k ->
    exists z, dec d = Some z /\ k = Z.min z 15 /\ 0 <= k <= 15 /\
      hiter (Z.to_nat (15 - k)) x = pk.
  Proof.
    intros d x pk k E. pose proof (digit_range _ _ _ _ _ E) as R. unfold digit_of in E.
    cbn [vnum] in E. destruct (dec d) as [z|] eqn:D; [|easy]. cbv zeta in E.
    destruct (Z.min z 15 <? 0); [easy|].
    destruct (bytes_eqb (hiter (Z.to_nat (15 - Z.min z 15)) x) pk) eqn:Q; [|easy].
    injection E as <-. apply bytes_eqb_eq in Q. eauto 6.
  Qed.

  Lemma verify_sound : forall (pks : list bytes) m al s, length pks = 10%nat ->
    run (checksig_verify pks) (mk (map B m) (map B al) []) = Some s ->
    exists v (D x : nat -> bytes) rest,
      is_u32 v /\ m = flat_map (fun i => [D i; x i]) (rev (seq 0 10)) ++ rest /\
      s = mk (word v ++ map B rest) (map B al) [] /\
      forall i, (i < 10)%nat ->
        (exists z, dec (D i) = Some z /\ Z.min z 15 = wdigit v i) /\
        hiter (Z.to_nat (15 - wdigit v i)) (x i) = nth i pks [].
  Proof.
    intros pks m al s L E. rewrite checksig_rounds in E by exact L. rewrite run_app in E.
    destruct (run (flat_map verify_digit (rev pks)) (mk (map B m) (map B al) [])) as [s1|] eqn:E1;
      [|easy].
    apply rounds_inv in E1 as (ts & rest & F & Em & ->).
    assert (Lt : length ts = 10%nat).
    { rewrite <- L, <- (rev_length pks). clear - F. induction F; cbn; congruence. }
    destruct pks as [|p0 pks]; [discriminate L|].
    destruct pks as [|p1 pks]; [discriminate L|].
    destruct pks as [|p2 pks]; [discriminate L|].
    destruct pks as [|p3 pks]; [discriminate L|].
    destruct pks as [|p4 pks]; [discriminate L|].
    destruct pks as [|p5 pks]; [discriminate L|].
    destruct pks as [|p6 pks]; [discriminate L|].
    destruct pks as [|p7 pks]; [discriminate L|].
    destruct pks as [|p8 pks]; [discriminate L|].
    destruct pks as [|p9 pks]; [discriminate L|].
    destruct pks; [|discriminate L]. clear L.
    destruct ts as [|[[v9 x9] k9] ts]; [discriminate Lt|].
    destruct ts as [|[[v8 x8] k8] ts]; [discriminate Lt|].
    destruct ts as [|[[v7 x7] k7] ts]; [discriminate Lt|].
    destruct ts as [|[[v6 x6] k6] ts]; [discriminate Lt|].
    destruct ts as [|[[v5 x5] k5] ts]; [discriminate Lt|].
    destruct ts as [|[[v4 x4] k4] ts]; [discriminate Lt|].
    destruct ts as [|[[v3 x3] k3] ts]; [discriminate Lt|].
    destruct ts as [|[[v2 x2] k2] ts]; [discriminate Lt|].
    destruct ts as [|[[v1 x1] k1] ts]; [discriminate Lt|].
    destruct ts as [|[[v0 x0] k0] ts]; [discriminate Lt|].
    destruct ts; [|discriminate Lt]. clear Lt.
    cbn [rev app] in F. cbn [flat_map e_stack app] in Em.
    destruct m as [|d9 [|y9 m]]; [discriminate Em|discriminate Em|].
    destruct m as [|d8 [|y8 m]]; [discriminate Em|discriminate Em|].
    destruct m as [|d7 [|y7 m]]; [discriminate Em|discriminate Em|].
    destruct m as [|d6 [|y6 m]]; [discriminate Em|discriminate Em|].
    destruct m as [|d5 [|y5 m]]; [discriminate Em|discriminate Em|].
    destruct m as [|d4 [|y4 m]]; [discriminate Em|discriminate Em|].
    destruct m as [|d3 [|y3 m]]; [discriminate Em|discriminate Em|].
    destruct m as [|d2 [|y2 m]]; [discriminate Em|discriminate Em|].
    destruct m as [|d1 [|y1 m]]; [discriminate Em|discriminate Em|].
    destruct m as [|d0 [|y0 m]]; [discriminate Em|discriminate Em|].
    cbn [map] in Em. injection Em as <- <- <- <- <- <- <- <- <- <- <- <- <- <- <- <- <- <- <- <- Em.
    assert (m = rest) as ->.
    { rewrite <- (map_id m), <- (map_id rest).
      replace (fun x => x) with (fun b => vbytes (B b)) by reflexivity.
      rewrite <- !(map_map B vbytes). now rewrite Em. }
    clear Em.
    apply Forall2_cons_inv in F as [F9 F].
    apply digit_of_inv in F9 as (z9 & D9 & K9 & R9 & X9).
    apply Forall2_cons_inv in F as [F8 F].
    apply digit_of_inv in F8 as (z8 & D8 & K8 & R8 & X8).
    apply Forall2_cons_inv in F as [F7 F].
    apply digit_of_inv in F7 as (z7 & D7 & K7 & R7 & X7).
    apply Forall2_cons_inv in F as [F6 F].
    apply digit_of_inv in F6 as (z6 & D6 & K6 & R6 & X6).
    apply Forall2_cons_inv in F as [F5 F].
    apply digit_of_inv in F5 as (z5 & D5 & K5 & R5 & X5).
    apply Forall2_cons_inv in F as [F4 F].
    apply digit_of_inv in F4 as (z4 & D4 & K4 & R4 & X4).
    apply Forall2_cons_inv in F as [F3 F].
    apply digit_of_inv in F3 as (z3 & D3 & K3 & R3 & X3).
    apply Forall2_cons_inv in F as [F2 F].
    apply digit_of_inv in F2 as (z2 & D2 & K2 & R2 & X2).
    apply Forall2_cons_inv in F as [F1 F].
    apply digit_of_inv in F1 as (z1 & D1 & K1 & R1 & X1).
    apply Forall2_cons_inv in F as [F0 F].
    apply digit_of_inv in F0 as (z0 & D0 & K0 & R0 & X0).
    clear F.
    cbn [map rev app e_digit] in E.
    change (I k0 :: I k1 :: I k2 :: I k3 :: I k4 :: I k5 :: I k6 :: I k7 :: I k8 :: I k9 :: map B al)
      with (map I [k0; k1; k2; k3; k4; k5; k6; k7; k8; k9] ++ map B al) in E.
    rewrite tail_ok in E by (repeat constructor; lia).
    destruct (_ =? _) eqn:C in E; [|easy]. apply Z.eqb_eq in C. injection E as <-.
    destruct (digits_word k0 k1 k2 k3 k4 k5 k6 k7 k8 k9) as (v & V & Wv & Wd);
      [repeat constructor; lia|lia|].
    exists v, (fun i => nth i [d0; d1; d2; d3; d4; d5; d6; d7; d8; d9] []),
      (fun i => nth i [y0; y1; y2; y3; y4; y5; y6; y7; y8; y9] []), rest.
    split; [exact V|]. split; [reflexivity|]. split; [rewrite Wv; reflexivity|].
    intros i Hi. rewrite (Wd i Hi). clear - Hi D0 D1 D2 D3 D4 D5 D6 D7 D8 D9 X0 X1 X2 X3 X4 X5 X6 X7 X8 X9 
      K0 K1 K2 K3 K4 K5 K6 K7 K8 K9.
    split.
    - do 10 (destruct i as [|i]; [cbn [nth]; eexists; split; [eassumption|symmetry; assumption]|]).
      clear - Hi; lia.
    - do 10 (destruct i as [|i]; [cbn [nth]; assumption|]). clear - Hi; lia.
  Qed.
End S.
