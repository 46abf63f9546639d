(** Properties C09-C12, C56: Winternitz signatures and bit commitments, stated on
    the byte machine for an arbitrary hash function. *)
From Coq Require Import ZArith List Bool Lia.
From Coq Require Import ZifyBool ZifyNat.
From Verif Require Import ScriptNum ScriptVM VMLemmas U32Model U32Proofs U32Proofs2 Macros
  U31Model HelperModel HelperRou WinternitzModel WinternitzProofs WinternitzSpec Lift PropWords.
Import ListNotations.
Open Scope Z_scope.

Ltac Zify.zify_post_hook ::= Z.div_mod_to_equations.

(** *** Specification.

    [wdigit v i] (WinternitzSpec.v) is the digit of the 32-bit message [v] that
    belongs to key [i]: hexadecimal digits of [v], most significant first, for
    keys 0-7, the two hexadecimal digits of 120 - (sum of digits) for 8 and 9.

    A stack (top first) carries a valid signature of [v] for the ten public keys
    when it starts with pairs (digit, preimage), key 9 on top, every digit element
    is a script number whose minimum with 15 is the digit of [v], and hashing the
    preimage 15 - digit times gives the public key. *)
Definition valid_sig (H : bytes -> bytes) (pks : list bytes) (v : Z) (m rest : list bytes) : Prop :=
  exists D x : nat -> bytes,
    m = flat_map (fun i => [D i; x i]) (rev (seq 0 10)) ++ rest /\
    forall i, (i < 10)%nat ->
      (exists z, dec (D i) = Some z /\ Z.min z 15 = wdigit v i) /\
      Nat.iter (Z.to_nat (15 - wdigit v i)) H (x i) = nth i pks [].

Lemma bword_app_inj : forall v w r r', is_u32 v -> is_u32 w ->
  bword v ++ r = bword w ++ r' -> r' = r /\ w = v.
Proof.
  intros v w r r' V W Em.
  unfold bword, nums, wbytes in Em. cbn [map app] in Em. injection Em as E0 E1 E2 E3 Er.
  split; [congruence|].
  apply enc_inj in E0, E1, E2, E3. unfold is_u32 in *. change (2^32) with 4294967296 in *.
  clear - V W E0 E1 E2 E3. lia.
Qed.

(* ------------------------------------------------------------------ *)
(** ** C10 *)

(** The check script accepts exactly the stacks that carry a valid signature of
    some 32-bit message, and leaves that message's bytes. *)
Theorem C10_accepts_iff_valid : forall H pks m alt m' alt', length pks = 10%nat ->
  (exec H (checksig_verify pks) m alt m' alt' <->
   alt' = alt /\ exists v rest, is_u32 v /\ m' = bword v ++ rest /\ valid_sig H pks v m rest).
Proof.
  intros H pks m al m' al' L. split.
  - intros E. apply exec_run in E as (s & E & Es).
    apply verify_sound in E as (v & D & x & rest & V & -> & -> & P); [|exact L].
    unfold bof in Es. cbn [main alt cond] in Es. rewrite map_app, map_word, !map_vB in Es.
    injection Es as <- <-. split; [reflexivity|]. exists v, rest.
    split; [exact V|]. split; [reflexivity|]. exists D, x. split; [reflexivity|exact P].
  - intros (-> & v & rest & V & -> & D & x & -> & P).
    assert (P' : forall i, (i < 10)%nat -> digit_of H (B (D i)) (x i) (nth i pks []) = Some (wdigit v i)).
    { intros i Hi. destruct (P i Hi) as [(z & Dz & Mz) X]. unfold digit_of. cbn [vnum].
      rewrite Dz. cbv zeta. rewrite Mz. pose proof (wdigit_range v i).
      destruct (wdigit v i <? 0) eqn:Q; [lia|].
      unfold WinternitzModel.hiter. rewrite X, bytes_eqb_refl. reflexivity. }
    pose proof (verify_accepts H pks v (fun i => B (D i)) x (map B rest) (map B al) L V P') as E.
    apply exec_of_run in E.
    rewrite !map_app, map_word, !map_vB in E.
    replace (map vbytes (flat_map (fun i => [B (D i); B (x i)]) (rev (seq 0 10))))
      with (flat_map (fun i => [D i; x i]) (rev (seq 0 10))) in E by reflexivity.
    exact E.
Qed.

(** Finding: a digit 15 in a witness can be replaced by any larger script number;
    the revealed message stays the same (third-party malleability). *)
Theorem C10_digit_malleable : forall H pks v D x rest alt i z, length pks = 10%nat -> is_u32 v ->
  (i < 10)%nat -> wdigit v i = 15 -> 15 <= z < 2 ^ 31 ->
  exec H (checksig_verify pks)
    (flat_map (fun i => [D i; x i]) (rev (seq 0 10)) ++ rest) alt (bword v ++ rest) alt ->
  exec H (checksig_verify pks)
    (flat_map (fun j => [if (j =? i)%nat then enc z else D j; x j]) (rev (seq 0 10)) ++ rest) alt
    (bword v ++ rest) alt.
Proof.
  intros H pks v D x rest al i z L V Hi W Z E.
  apply C10_accepts_iff_valid in E as (_ & v' & rest' & V' & Em & D' & x' & Ew & P); [|exact L].
  assert (rest' = rest /\ v' = v) as [-> ->].
  { unfold bword, nums, wbytes in Em. cbn [map app] in Em. injection Em as E0 E1 E2 E3 Er.
    split; [congruence|].
    apply enc_inj in E0, E1, E2, E3. unfold is_u32 in *. change (2^32) with 4294967296 in *.
    clear - V V' E0 E1 E2 E3. lia. }
  assert (Q : forall j, (j < 10)%nat -> D' j = D j /\ x' j = x j).
  { cbn [seq rev app flat_map] in Ew. injection Ew as ? ? ? ? ? ? ? ? ? ? ? ? ? ? ? ? ? ? ? ?.
    intros j Hj. do 10 (destruct j as [|j]; [split; congruence|]). lia. }
  apply C10_accepts_iff_valid; [exact L|]. split; [reflexivity|].
  exists v, rest. split; [exact V|]. split; [reflexivity|].
  exists (fun j => if (j =? i)%nat then enc z else D j), x. split; [reflexivity|].
  intros j Hj. destruct (P j Hj) as [Pd Px]. destruct (Q j Hj) as [Qd Qx].
  rewrite Qx in Px. split; [|exact Px].
  destruct (j =? i)%nat eqn:Eq; [|rewrite <- Qd; exact Pd].
  apply Nat.eqb_eq in Eq. subst j. exists z. rewrite dec_enc. change (2^31) with 2147483648 in Z.
  rewrite in4_true by lia. split; [reflexivity|]. lia.
Qed.

(* ------------------------------------------------------------------ *)
(** ** C09 *)

Theorem C09_sign_script_accepted : forall H sk v rest alt, is_u32 v ->
  exists p, signature_script H (bc_new sk v) = Some p /\
    exec H (p ++ checksig_verify_script H (bc_new sk v)) rest alt (bword v ++ rest) alt.
Proof.
  intros H sk v rest al V. unfold signature_script, sign_script, bc_new. cbn [bc_message bc_secret].
  rewrite checksum_digits_ok. eexists. split; [reflexivity|].
  unfold checksig_verify_script, checksig_verify_self_pubkey. cbn [bc_secret].
  eapply exec_seq.
  2:{ pose proof (verify_honest H sk v (fun i => I (wdigit v i)) (map B rest) (map B al) V) as E.
      assert (Hv : forall i, (i < 10)%nat -> vnum (I (wdigit v i)) = Some (wdigit v i)).
      { intros i _. cbn [vnum]. pose proof (wdigit_range v i). rewrite in4_true by lia. reflexivity. }
      specialize (E Hv). apply exec_of_run in E. rewrite !map_app, !map_vB, map_word in E. exact E. }
  reflexivity.
Qed.

Lemma rev_sig : forall (f : nat -> bytes) (g : nat -> bytes) (n : nat),
  rev (flat_map (fun i => [f i; g i]) (seq 0 n)) =
  flat_map (fun i => [g i; f i]) (rev (seq 0 n)).
Proof.
  intros f g n. induction n as [|n IH]; [reflexivity|].
  rewrite seq_S, flat_map_app, rev_app_distr, IH, rev_app_distr. reflexivity.
Qed.

Lemma sign_ok : forall H sk v, 
  sign H sk (to_digits v N0) =
  Some (flat_map (fun i => [fst (digit_signature H sk i (wdigit v i)); [wdigit v i]]) (seq 0 10)).
Proof. intros. unfold sign. rewrite checksum_digits_ok. reflexivity. Qed.

Lemma digit_byte : forall d, 0 < d < 16 -> [d] = enc d.
Proof.
  intros d Hd. assert (A : forallb (fun d => bytes_eqb [d] (enc d))
    [1;2;3;4;5;6;7;8;9;10;11;12;13;14;15] = true) by reflexivity.
  rewrite forallb_forall in A. apply bytes_eqb_eq. apply A. cbn. lia.
Qed.

(** The witness form, with zero digits as empty strings.  hash160 has 20-byte
    outputs, so no hash is the single byte 0. *)
Theorem C09_witness_accepted : forall H sk v rest alt, (forall x, H x <> [0]) -> is_u32 v ->
  exists sig, u32_signature H (bc_new sk v) = Some sig /\
    exec H (checksig_verify_script H (bc_new sk v)) (rev sig ++ rest) alt (bword v ++ rest) alt.
Proof.
  intros H sk v rest al NZ V. unfold u32_signature, bc_new. cbn [bc_message bc_secret].
  rewrite sign_ok. eexists. split; [reflexivity|].
  match goal with |- context [map ?g (flat_map ?h ?l)] => replace (map g (flat_map h l))
    with (flat_map (fun i => [fst (digit_signature H sk i (wdigit v i)); enc (wdigit v i)]) (seq 0 10)) end.
  2:{ rewrite !flat_map_concat_map, concat_map, map_map. f_equal.
      apply map_ext. intros i. cbn [map]. f_equal; [|f_equal].
      - unfold digit_signature. cbn [fst].
        assert (Q : forall n x, hiter H n (H x) <> [0]).
        { intros [|n] x; cbn; apply NZ. }
        specialize (Q (Z.to_nat (wdigit v i)) (sk ++ [Z.of_nat i])).
        destruct (hiter H (Z.to_nat (wdigit v i)) (H (sk ++ [Z.of_nat i]))) as [|[|z|z] [|y l]];
          try reflexivity. congruence.
      - pose proof (wdigit_range v i) as R. destruct (Z.eq_dec (wdigit v i) 0) as [->|N].
        + reflexivity.
        + rewrite <- digit_byte by lia. destruct (wdigit v i); try reflexivity. lia. }
  rewrite (rev_sig (fun i => fst (digit_signature H sk i (wdigit v i))) (fun i => enc (wdigit v i))).
  pose proof (verify_honest H sk v (fun i => B (enc (wdigit v i))) (map B rest) (map B al) V) as E.
  assert (Hv : forall i, (i < 10)%nat -> vnum (B (enc (wdigit v i))) = Some (wdigit v i)).
  { intros i _. cbn [vnum]. pose proof (wdigit_range v i). rewrite dec_enc, in4_true by lia. reflexivity. }
  specialize (E Hv). apply exec_of_run in E. rewrite !map_app, !map_vB, map_word in E. exact E.
Qed.

(** Finding: the witness returned by Winternitz::sign itself is accepted only if
    none of the ten signed digits is zero (a zero digit is pushed as the byte 0,
    which is not a minimal script number). *)
Theorem C09_raw_witness : forall H sk v rest alt, is_u32 v ->
  exists sig, sign H sk (to_digits v N0) = Some sig /\
    if existsb (fun i => wdigit v i =? 0) (seq 0 10)
    then forall m' alt', ~ exec H (checksig_verify_self_pubkey H sk) (rev sig ++ rest) alt m' alt'
    else exec H (checksig_verify_self_pubkey H sk) (rev sig ++ rest) alt (bword v ++ rest) alt.
Proof.
  intros H sk v rest al V. rewrite sign_ok. eexists. split; [reflexivity|].
  rewrite (rev_sig (fun i => fst (digit_signature H sk i (wdigit v i))) (fun i => [wdigit v i])).
  destruct (existsb _ _) eqn:Ex.
  - intros m' al' E. apply C10_accepts_iff_valid in E as (_ & w & rest' & W & _ & D & x & Em & P);
      [|reflexivity].
    apply existsb_exists in Ex as (i & Hi & Zi). apply in_seq in Hi.
    assert (Q : forall j, (j < 10)%nat -> D j = [wdigit v j]).
    { remember (wdigit v) as wv. remember (fun i => fst (digit_signature H sk i (wv i))) as hs.
      replace (fun i => [[wv i]; fst (digit_signature H sk i (wv i))]) with
        (fun i => [[wv i]; hs i]) in Em by (rewrite Heqhs; reflexivity).
      clear - Em.
      cbn [seq rev app flat_map] in Em. injection Em as ? ? ? ? ? ? ? ? ? ? ? ? ? ? ? ? ? ? ? ?.
      intros j Hj. do 10 (destruct j as [|j]; [congruence|]). lia. }
    destruct (P i ltac:(lia)) as [(z & Dz & _) _]. rewrite Q in Dz by lia.
    apply Z.eqb_eq in Zi. rewrite Zi in Dz. discriminate Dz.
  - pose proof (verify_honest H sk v (fun i => B [wdigit v i]) (map B rest) (map B al) V) as E.
    assert (Hv : forall i, (i < 10)%nat -> vnum (B [wdigit v i]) = Some (wdigit v i)).
    { intros i Hi. cbn [vnum]. pose proof (wdigit_range v i).
      assert (wdigit v i <> 0).
      { intros Z0. assert (true = false); [|easy]. rewrite <- Ex. symmetry.
        apply existsb_exists. exists i. split; [apply in_seq; lia|]. now apply Z.eqb_eq. }
      rewrite digit_byte, dec_enc, in4_true by lia. reflexivity. }
    specialize (E Hv). apply exec_of_run in E. rewrite !map_app, !map_vB, map_word in E. exact E.
Qed.

Example C09_example : exists p, signature_script H0 (bc_new [18; 52] 3982819375) = Some p /\
  exec H0 (p ++ checksig_verify_script H0 (bc_new [18; 52] 3982819375)) [] [] (bword 3982819375) [].
Proof. apply (C09_sign_script_accepted H0 [18; 52] 3982819375 [] []). unfold is_u32. lia. Qed.

(** The message 0xED65002F has zero digits: the raw witness is rejected. *)
Example C09_raw_example : existsb (fun i => wdigit 3982819375 i =? 0) (seq 0 10) = true.
Proof. reflexivity. Qed.

Example C10_example : valid_sig H0 (pub_key H0 [18; 52]) 2271560481
  (flat_map (fun i => [enc (wdigit 2271560481 i);
      Nat.iter (Z.to_nat (wdigit 2271560481 i)) H0 (H0 [18; 52; Z.of_nat i])]) (rev (seq 0 10))) [].
Proof.
  exists (fun i => enc (wdigit 2271560481 i)),
    (fun i => Nat.iter (Z.to_nat (wdigit 2271560481 i)) H0 (H0 [18; 52; Z.of_nat i])).
  split; [now rewrite app_nil_r|]. intros i Hi. split.
  - exists (wdigit 2271560481 i). pose proof (wdigit_range 2271560481 i).
    rewrite dec_enc, in4_true by lia. split; [reflexivity|lia].
  - do 10 (destruct i as [|i]; [reflexivity|]). lia.
Qed.

(* ------------------------------------------------------------------ *)
(** ** C11 *)

Theorem C11_incomparable : forall v w, is_u32 v -> is_u32 w -> v <> w ->
  exists i, (i < 10)%nat /\ wdigit w i < wdigit v i.
Proof.
  intros v w V W N.
  destruct (existsb (fun i => wdigit w i <? wdigit v i) (seq 0 10)) eqn:E.
  - apply existsb_exists in E as (i & Hi & L). apply in_seq in Hi. exists i. lia.
  - exfalso. apply N.
    assert (G : forall i, (i < 10)%nat -> wdigit v i <= wdigit w i).
    { intros i Hi. destruct (wdigit w i <? wdigit v i) eqn:L; [|lia].
      assert (true = false); [|easy]. rewrite <- E. symmetry. apply existsb_exists.
      exists i. split; [apply in_seq; lia|exact L]. }
    pose proof (G 0%nat ltac:(lia)) as G0. pose proof (G 1%nat ltac:(lia)) as G1.
    pose proof (G 2%nat ltac:(lia)) as G2. pose proof (G 3%nat ltac:(lia)) as G3.
    pose proof (G 4%nat ltac:(lia)) as G4. pose proof (G 5%nat ltac:(lia)) as G5.
    pose proof (G 6%nat ltac:(lia)) as G6. pose proof (G 7%nat ltac:(lia)) as G7.
    pose proof (G 8%nat ltac:(lia)) as G8. pose proof (G 9%nat ltac:(lia)) as G9.
    unfold wdigit in G0, G1, G2, G3, G4, G5, G6, G7, G8, G9.
    cbn [Nat.ltb Nat.leb Nat.eqb Nat.sub] in *.
    rewrite (nib_word v V), (nib_word w W).
    assert (C : csum v <= csum w) by lia. unfold csum in C.
    f_equal; lia.
Qed.

(** The hash chains of a key do not meet: the only structural assumption on the
    hash function (it holds when hash160 is collision free on the values used). *)
Definition chains_apart (H : bytes -> bytes) (sk : bytes) : Prop :=
  forall i j a b, (i < 10)%nat -> (j < 10)%nat ->
    Nat.iter a H (H (sk ++ [Z.of_nat i])) = Nat.iter b H (H (sk ++ [Z.of_nat j])) ->
    i = j /\ a = b.

(** Somebody who knows only the published signature of [v] and can only hash
    forward cannot make the check script reveal anything but [v]: every accepted
    stack whose preimages are obtained from the hashes of the signature by
    hashing reveals exactly [v]. *)
Theorem C11_no_forward_forgery : forall H sk v sig D x rest alt m' alt',
  chains_apart H sk -> is_u32 v ->
  sign H sk (to_digits v N0) = Some sig ->
  (forall i, (i < 10)%nat -> exists j n, (j < 10)%nat /\ x i = Nat.iter n H (nth (2 * j) sig [])) ->
  exec H (checksig_verify (pub_key H sk))
    (flat_map (fun i => [D i; x i]) (rev (seq 0 10)) ++ rest) alt m' alt' ->
  m' = bword v ++ rest.
Proof.
  intros H sk v sig D x rest al m' al' Ap V Es Kn E.
  rewrite sign_ok in Es.
  assert (Es' : sig = flat_map (fun i => [fst (digit_signature H sk i (wdigit v i)); [wdigit v i]])
    (seq 0 10)) by congruence. clear Es. subst sig.
  apply C10_accepts_iff_valid in E as (_ & w & rest' & W & -> & D' & x' & Ew & P); [|reflexivity].
  assert (Q : rest' = rest /\ forall j, (j < 10)%nat -> x' j = x j).
  { cbn [seq rev app flat_map] in Ew. injection Ew as ? ? ? ? ? ? ? ? ? ? ? ? ? ? ? ? ? ? ? ? ?.
    split; [congruence|].
    intros j Hj. do 10 (destruct j as [|j]; [congruence|]). lia. }
  destruct Q as [-> Q]. f_equal. f_equal.
  destruct (Z.eq_dec v w) as [Evw|N]; [now symmetry|].
  destruct (C11_incomparable v w V W N) as (i & Hi & L). exfalso.
  destruct (P i Hi) as [_ X]. rewrite Q in X by exact Hi.
  destruct (Kn i Hi) as (j & n & Hj & Ex). rewrite Ex in X.
  replace (nth (2 * j) (flat_map (fun i => [fst (digit_signature H sk i (wdigit v i)); [wdigit v i]])
            (seq 0 10)) []) with (fst (digit_signature H sk j (wdigit v j))) in X
    by (clear - Hj; do 10 (destruct j as [|j]; [reflexivity|]); lia).
  replace (nth i (pub_key H sk) []) with (generate_public_key H sk i) in X
    by (clear - Hi; do 10 (destruct i as [|i]; [reflexivity|]); lia).
  unfold digit_signature, generate_public_key in X. cbn [fst] in X.
  change (hiter H (Z.to_nat (15 - wdigit w i))
      (hiter H n (hiter H (Z.to_nat (wdigit v j)) (H (sk ++ [Z.of_nat j])))) =
    hiter H DIGITS (H (sk ++ [Z.of_nat i]))) in X.
  rewrite <- !hiter_add in X. apply Ap in X as [-> X]; [|exact Hj|exact Hi].
  pose proof (wdigit_range v i). pose proof (wdigit_range w i). unfold DIGITS in X. lia.
Qed.

(** A hash function with chains apart: prefixing a byte. *)
Lemma chains_apart_cons : forall sk, chains_apart (cons 7) sk.
Proof.
  intros sk i j a b Hi Hj E.
  assert (R : forall n x, Nat.iter n (cons 7) x = repeat 7 n ++ x).
  { induction n as [|n IH]; intros x; [reflexivity|]. cbn. now rewrite <- IH. }
  rewrite !R in E.
  assert (a = b) as ->.
  { apply (f_equal (@length Z)) in E. rewrite !app_length, !repeat_length in E. cbn [length] in E.
    rewrite !app_length in E. cbn [length] in E. lia. }
  apply app_inv_head in E. injection E as E. apply app_inj_tail in E as [_ E]. lia.
Qed.

Example C11_example : chains_apart (cons 7) [18; 52] /\
  wdigit 2271560481 0 = 8 /\ wdigit 2271560480 7 = 0 /\ wdigit 2271560481 9 < wdigit 2271560480 9.
Proof. split; [apply chains_apart_cons|]. repeat split. Qed.

(* ------------------------------------------------------------------ *)
(** ** C12 *)

(** The number a word becomes when compressed to one stack element
    (sign-magnitude reading; C07). *)
Definition smag (w : Z) : Z := if w <? 2 ^ 31 then w else - (w - 2 ^ 31).

Lemma exec_app_inv : forall H p q m a m' a',
  exec H (p ++ q) m a m' a' ->
  exists m1 a1 c1, brun H p (mk m a []) = Some (mk m1 a1 c1) /\
    brun H q (mk m1 a1 c1) = Some (mk m' a' []).
Proof.
  intros H p q m a m' a' E. unfold exec, brun in *. rewrite runM_app in E.
  destruct (runM _ _ _ _ _ _ _ _ p _) as [[m1 a1 c1]|] eqn:F; [|easy].
  exists m1, a1, c1. split; [reflexivity|exact E].
Qed.

(** The check script never ends inside a conditional. *)
Lemma checksig_closed : forall H sk m a m1 a1 c1,
  brun H (checksig_verify_self_pubkey H sk) (mk m a []) = Some (mk m1 a1 c1) -> c1 = [].
Proof.
  intros H sk m a m1 a1 c1 E. rewrite <- (map_vB m), <- (map_vB a) in E.
  change (mk (map vbytes (map B m)) (map vbytes (map B a)) []) with
      (bof (mk (map B m) (map B a) [])) in E.
  rewrite brun_run in E.
  destruct (run H (checksig_verify_self_pubkey H sk) (mk (map B m) (map B a) [])) as [s|] eqn:R;
    [|easy].
  apply verify_sound in R as (v & D & x & rest & _ & _ & -> & _); [|reflexivity].
  exact (eq_sym (f_equal (fun o => match o with Some s => cond s | None => [] end) E)).
Qed.

(** What recovering a message does: it accepts exactly the stacks with a valid
    signature of some message and leaves the compressed message. *)
Theorem C12_recover_iff : forall H sk v m alt m' alt',
  exec H (recover_message_at_stack H (bc_new sk v)) m alt m' alt' <->
  alt' = alt /\ exists w rest, is_u32 w /\ m' = enc (smag w) :: rest /\
    valid_sig H (pub_key H sk) w m rest.
Proof.
  intros H sk v m al m' al'. unfold recover_message_at_stack, checksig_verify_script.
  cbn [bc_secret bc_new]. split.
  - intros E. apply exec_app_inv in E as (m1 & a1 & c1 & E1 & E2).
    pose proof (checksig_closed _ _ _ _ _ _ _ E1) as ->.
    apply C10_accepts_iff_valid in E1 as (-> & w & rest & W & -> & Vs); [|reflexivity].
    pose proof (C07_compress H w rest al W) as C. unfold exec in C. rewrite C in E2.
    assert (Q : mk (enc (if w <? 2 ^ 31 then w else - (w - 2 ^ 31)) :: rest) al [] = mk m' al' [])
      by congruence.
    injection Q as <- <-. split; [reflexivity|]. exists w, rest. auto.
  - intros (-> & w & rest & W & -> & Vs). eapply exec_seq.
    + apply C10_accepts_iff_valid; [reflexivity|]. split; [reflexivity|]. exists w, rest. eauto.
    + apply C07_compress. exact W.
Qed.

Lemma exec_pushn_equalverify : forall H x z m a m' a',
  exec H [PUSHN z; OP_EQUALVERIFY] (x :: m) a m' a' <-> x = enc z /\ m' = m /\ a' = a.
Proof.
  intros H x z m a m' a'. unfold exec. cbn. split.
  - destruct (bytes_eqb x (enc z)) eqn:E; [|easy]. apply bytes_eqb_eq in E.
    intros [= <- <-]. auto.
  - intros (-> & -> & ->). rewrite bytes_eqb_refl. reflexivity.
Qed.

Lemma recover_closed : forall H sk v m a m1 a1 c1,
  brun H (recover_message_at_stack H (bc_new sk v)) (mk m a []) = Some (mk m1 a1 c1) -> c1 = [].
Proof.
  intros H sk v m a m1 a1 c1 E. unfold recover_message_at_stack, checksig_verify_script, brun in E.
  cbn [bc_secret bc_new] in E. rewrite runM_app in E.
  destruct (runM _ _ _ _ _ _ _ _ (checksig_verify_self_pubkey H sk) _) as [[m2 a2 c2]|] eqn:F; [|easy].
  pose proof (checksig_closed H sk m a m2 a2 c2 F) as ->.
  apply C10_accepts_iff_valid in F as (-> & w & rest & W & -> & Vs); [|reflexivity].
  pose proof (C07_compress H w rest a W) as C. unfold exec, brun in C. rewrite C in E.
  congruence.
Qed.

(** A commitment to [v] accepts exactly the valid signatures of [v], and only if
    [v] < 2^31; for [v] = 0 it also accepts signatures of 0x80000000. *)
Theorem C12_equal_iff : forall H sk v m alt m' alt', is_u32 v ->
  (exec H (u32_recover_message_equal H (bc_new sk v)) m alt m' alt' <->
   alt' = alt /\ v < 2 ^ 31 /\
   exists w, (w = v \/ v = 0 /\ w = 2 ^ 31) /\ valid_sig H (pub_key H sk) w m m').
Proof.
  intros H sk v m al m' al' V. unfold u32_recover_message_equal. cbn [bc_value bc_new]. split.
  - intros E. apply exec_app_inv in E as (m1 & a1 & c1 & E1 & E2).
    pose proof (recover_closed _ _ _ _ _ _ _ _ E1) as ->.
    apply C12_recover_iff in E1 as (-> & w & rest & W & -> & Vs).
    apply exec_pushn_equalverify in E2 as (Ev & -> & ->). apply enc_inj in Ev.
    split; [reflexivity|]. unfold smag, is_u32 in *.
    change (2^31) with 2147483648 in *. change (2^32) with 4294967296 in *.
    split; [|exists w; split; [|exact Vs]]; destruct (w <? 2147483648) eqn:L; lia.
  - intros (-> & Lv & w & Hw & Vs). eapply exec_seq.
    + apply C12_recover_iff. split; [reflexivity|]. exists w, m'.
      split; [|split; [reflexivity|exact Vs]].
      unfold is_u32 in *. change (2^31) with 2147483648 in *. change (2^32) with 4294967296 in *. lia.
    + apply exec_pushn_equalverify. repeat split. f_equal. unfold smag, is_u32 in *.
      change (2^31) with 2147483648 in *. change (2^32) with 4294967296 in *.
      destruct (w <? 2147483648) eqn:L; lia.
Qed.

(** The honest witness is accepted for [v] < 2^31 and rejected otherwise
    (finding). *)
Theorem C12_honest : forall H sk v rest alt, (forall x, H x <> [0]) -> is_u32 v ->
  exists sig, u32_signature H (bc_new sk v) = Some sig /\
    (v < 2 ^ 31 ->
     exec H (u32_recover_message_equal H (bc_new sk v)) (rev sig ++ rest) alt rest alt) /\
    (2 ^ 31 <= v -> forall m' alt',
     ~ exec H (u32_recover_message_equal H (bc_new sk v)) (rev sig ++ rest) alt m' alt').
Proof.
  intros H sk v rest al NZ V.
  destruct (C09_witness_accepted H sk v rest al NZ V) as (sig & Es & E).
  exists sig. split; [exact Es|]. split.
  - intros L. apply C12_equal_iff; [exact V|]. split; [reflexivity|]. split; [exact L|].
    exists v. split; [left; reflexivity|].
    apply C10_accepts_iff_valid in E as (_ & w & rest' & W & Em & Vs); [|reflexivity].
    assert (rest' = rest /\ w = v) as [-> ->]; [|exact Vs].
    unfold bword, nums, wbytes in Em. cbn [map app] in Em. injection Em as E0 E1 E2 E3 Er.
    split; [congruence|].
    apply enc_inj in E0, E1, E2, E3. unfold is_u32 in *. change (2^32) with 4294967296 in *.
    clear - V W E0 E1 E2 E3. lia.
  - intros L m' al' X. apply C12_equal_iff in X as (_ & L' & _); [lia|exact V].
Qed.

Theorem C12_honest_rejected_refuted : exists v, is_u32 v /\ forall sk rest alt m' alt' sig,
  u32_signature H0 (bc_new sk v) = Some sig ->
  ~ exec H0 (u32_recover_message_equal H0 (bc_new sk v)) (rev sig ++ rest) alt m' alt'.
Proof.
  exists 2147483649. split; [unfold is_u32; lia|]. intros sk rest al m' al' sig _ X.
  apply C12_equal_iff in X as (_ & L & _); [|unfold is_u32; lia].
  change (2 ^ 31) with 2147483648 in L. lia.
Qed.

(** Comparison with the four committed bytes: accepts exactly the same word. *)
Lemma nibble_xor : forall a b, 0 <= a < 16 -> 0 <= b < 16 ->
  Z.lxor a (Z.shiftl b 4 mod 256) = 16 * b + a.
Proof.
  intros a b Ha Hb.
  assert (A : forallb (fun n => forallb (fun m =>
     Z.lxor (Z.of_nat n) (Z.shiftl (Z.of_nat m) 4 mod 256) =? 16 * Z.of_nat m + Z.of_nat n)
     (seq 0 16)) (seq 0 16) = true) by (vm_compute; reflexivity).
  rewrite forallb_forall in A. specialize (A (Z.to_nat a)).
  rewrite forallb_forall in A by (apply in_seq; lia).
  specialize (A ltac:(apply in_seq; lia) (Z.to_nat b) ltac:(apply in_seq; lia)).
  rewrite !Z2Nat.id in A by lia. now apply Z.eqb_eq.
Qed.

Lemma commit_bytes_ok : forall sk v, is_u32 v ->
  commit_u32_as_4bytes (bc_new sk v) = rev (wbytes v).
Proof.
  intros sk v V. unfold commit_u32_as_4bytes, bc_new. cbn [bc_message].
  rewrite to_digits_nib. change (N0 / 2)%nat with 4%nat. cbn [seq map Nat.sub Nat.mul Nat.add nth N0].
  rewrite !nibble_xor by apply nib_range.
  pose proof (nib_word v V) as E.
  assert (Wv : word v = map I [16 * nib v 1 + nib v 0; 16 * nib v 3 + nib v 2;
                     16 * nib v 5 + nib v 4; 16 * nib v 7 + nib v 6]).
  { rewrite E at 1. apply word_of_bytes; unfold byte;
      repeat match goal with |- context [nib v ?i] =>
          lazymatch goal with K : 0 <= nib v i < 16 |- _ => fail 
          | _ => pose proof (nib_range v i) end end; lia. }
  apply (f_equal (map (fun x => match x with I z => z | B _ => 0 end))) in Wv.
  unfold word in Wv. rewrite !map_map, !map_id in Wv. rewrite Wv. reflexivity.
Qed.

Lemma equalverify_list : forall H zs ws m al, length zs = length ws ->
  run H (flat_map (fun z => [PUSHN z; OP_EQUALVERIFY]) zs) (mk (map I ws ++ m) al []) =
  if list_eq_dec Z.eq_dec zs ws then Some (mk m al []) else None.
Proof.
  intros H zs. induction zs as [|z zs IH]; intros [|w ws] m al L; try discriminate L.
  - reflexivity.
  - cbn [length] in L. injection L as L. cbn [flat_map map]. rewrite run_app. cbn [app].
    replace (run H [PUSHN z; OP_EQUALVERIFY] (mk (I w :: map I ws ++ m) al []))
      with (if w =? z then Some (mk (map I ws ++ m) al []) else None)
      by (vmred; destruct (w =? z); reflexivity).
    destruct (w =? z) eqn:E.
    + rewrite IH by exact L. apply Z.eqb_eq in E. subst w.
      destruct (list_eq_dec Z.eq_dec zs ws); destruct (list_eq_dec Z.eq_dec (z :: zs) (z :: ws));
        try reflexivity; congruence.
    + destruct (list_eq_dec Z.eq_dec (z :: zs) (w :: ws)); [|reflexivity].
      assert (w = z) by congruence. lia.
Qed.

Lemma wbytes_inj : forall v w, is_u32 v -> is_u32 w -> wbytes v = wbytes w -> v = w.
Proof.
  unfold is_u32, wbytes. intros v w V W E. injection E as E0 E1 E2 E3.
  change (Z.pow_pos 2 8) with 256 in *. change (Z.pow_pos 2 16) with 65536 in *.
  change (Z.pow_pos 2 24) with 16777216 in *.
  change (2^32) with 4294967296 in *. lia.
Qed.

Theorem C12_commit_bytes_script : forall H sk v w rest alt, is_u32 v -> is_u32 w ->
  (v = w -> exec H (commit_u32_as_4bytes_script (bc_new sk v)) (bword w ++ rest) alt rest alt) /\
  (v <> w -> fails H (commit_u32_as_4bytes_script (bc_new sk v)) (bword w ++ rest) alt).
Proof.
  intros H sk v w rest al V W. unfold commit_u32_as_4bytes_script.
  rewrite commit_bytes_ok by exact V.
  change (flat_map (fun i => [PUSHN (nth (N0 / 2 - 1 - i) (rev (wbytes v)) 0); OP_EQUALVERIFY])
    (seq 0 (N0 / 2))) with (flat_map (fun z => [PUSHN z; OP_EQUALVERIFY]) (wbytes v)).
  pose proof (equalverify_list H (wbytes v) (wbytes w) (map B rest) (map B al) eq_refl) as E.
  change (map I (wbytes w)) with (word w) in E.
  destruct (list_eq_dec _ _ _) as [X|X]; tobytes E; split; intros Q.
  - exact E.
  - apply wbytes_inj in X; [congruence|assumption..].
  - subst. congruence.
  - exact E.
Qed.

Example C12_example : is_u32 291849505 /\ 291849505 < 2 ^ 31 /\ smag 291849505 = 291849505 /\
  smag 4294967295 = - 2147483647.
Proof. unfold is_u32, smag. cbn. lia. Qed.

(* ------------------------------------------------------------------ *)
(** ** C56: check_equal_x_or_neg_x_script *)

(** The script works byte by byte: a word passes iff every one of its four bytes
    equals the byte of exactly one of the two commitments. *)
Definition byte_pass (w x y : Z) : bool := xorb (w =? x) (w =? y).
Definition passes (w x y : Z) : bool :=
  forallb (fun t => byte_pass (fst t) (fst (snd t)) (snd (snd t)))
    (combine (wbytes w) (combine (wbytes x) (wbytes y))).

Definition check1 (x y : Z) : script :=
  [OP_DUP; PUSHN x; OP_EQUAL; OP_SWAP; PUSHN y; OP_EQUAL; OP_ADD; PUSHN 1; OP_EQUALVERIFY].

Lemma check1_ok : forall H w x y m al,
  run H (check1 x y) (mk (I w :: m) al []) = if byte_pass w x y then Some (mk m al []) else None.
Proof.
  intros H w x y m al. unfold check1. vmgo. unfold byte_pass.
  destruct (w =? x), (w =? y); reflexivity.
Qed.

Lemma check_list : forall H ts m al,
  run H (flat_map (fun t => check1 (fst (snd t)) (snd (snd t))) ts) (mk (map I (map fst ts) ++ m) al []) =
  if forallb (fun t => byte_pass (fst t) (fst (snd t)) (snd (snd t))) ts
  then Some (mk m al []) else None.
Proof.
  induction ts as [|[w [x y]] ts IH]; intros m al; [reflexivity|].
  cbn [flat_map fst snd map app]. rewrite run_app, check1_ok. cbn [forallb fst snd].
  destruct (byte_pass w x y); [apply IH|reflexivity].
Qed.

Theorem C56_bytewise : forall H k1 k2 x y w rest alt, is_u32 x -> is_u32 y -> is_u32 w ->
  if passes w x y
  then exec H (check_equal_x_or_neg_x_script (bc_new k1 x) (bc_new k2 y)) (bword w ++ rest) alt rest alt
  else fails H (check_equal_x_or_neg_x_script (bc_new k1 x) (bc_new k2 y)) (bword w ++ rest) alt.
Proof.
  intros H k1 k2 x y w rest al X Y W. unfold check_equal_x_or_neg_x_script.
  rewrite !commit_bytes_ok by assumption.
  pose proof (check_list H (combine (wbytes w) (combine (wbytes x) (wbytes y))) (map B rest) (map B al)) as E.
  change (forallb _ _) with (passes w x y) in E.
  change (map I (map fst (combine (wbytes w) (combine (wbytes x) (wbytes y))))) with (word w) in E.
  match type of E with run H ?p _ = _ =>
    match goal with |- context [exec H ?q _ _ _ _] => change q with p end end.
  match goal with |- context [fails H ?q _ _] =>
    match type of E with run H ?p _ = _ => change q with p end end.
  destruct (passes w x y); tobytes E; exact E.
Qed.

(** If the two commitments differ in every byte, both committed words pass, but so
    does every bytewise mixture of them (finding). *)
Theorem C56_x_passes : forall x y, (forall t, In t (combine (wbytes x) (wbytes y)) -> fst t <> snd t) ->
  passes x x y = true /\ passes y x y = true.
Proof.
  intros x y D. unfold passes, wbytes in *. cbn [combine In forallb fst snd] in *.
  unfold byte_pass. rewrite !Z.eqb_refl.
  assert (A : forall a b, In (a, b) (combine (wbytes x) (wbytes y)) -> (a =? b) = false /\ (b =? a) = false).
  { intros a b Hi. specialize (D (a, b) Hi). cbn in D. lia. }
  unfold wbytes in A. cbn [combine In] in A.
  destruct (A _ _ (or_introl eq_refl)) as [-> ->].
  destruct (A _ _ (or_intror (or_introl eq_refl))) as [-> ->].
  destruct (A _ _ (or_intror (or_intror (or_introl eq_refl)))) as [-> ->].
  destruct (A _ _ (or_intror (or_intror (or_intror (or_introl eq_refl))))) as [-> ->].
  split; reflexivity.
Qed.

(** Finding: a word that is neither x nor -x passes. *)
Theorem C56_mixture_refuted : exists x w, canonical x /\ is_u32 w /\ w <> x /\ w <> P31 - x /\
  forall H k1 k2 rest alt,
    exec H (check_equal_x_or_neg_x_script (bc_new k1 x) (bc_new k2 (P31 - x))) (bword w ++ rest) alt rest alt.
Proof.
  exists 16909060, 1979843332. unfold canonical, P31, is_u32.
  repeat (split; [lia|]). intros H k1 k2 rest al.
  pose proof (C56_bytewise H k1 k2 16909060 (2013265921 - 16909060) 1979843332 rest al) as E.
  change (passes 1979843332 16909060 (2013265921 - 16909060)) with true in E. cbv iota in E.
  apply E; unfold is_u32; lia.
Qed.

(** Finding: x itself is rejected when x and -x share a byte, e.g. x = 1. *)
Theorem C56_x_rejected_refuted : exists x, canonical x /\ forall H k1 k2 rest alt,
    fails H (check_equal_x_or_neg_x_script (bc_new k1 x) (bc_new k2 (P31 - x))) (bword x ++ rest) alt.
Proof.
  exists 1. unfold canonical, P31. split; [lia|]. intros H k1 k2 rest al.
  pose proof (C56_bytewise H k1 k2 1 (2013265921 - 1) 1 rest al) as E.
  change (passes 1 1 (2013265921 - 1)) with false in E. cbv iota in E.
  apply E; unfold is_u32; lia.
Qed.

Example C56_example : forall t, In t (combine (wbytes 16909060) (wbytes (2013265921 - 16909060))) -> fst t <> snd t.
Proof. cbn. intros t [<-|[<-|[<-|[<-|[]]]]]; cbn; lia. Qed.

(* ------------------------------------------------------------------ *)
(** ** C12 for vectors of words (BitCommitment) *)

(** One signature per word, the signature of the first word on top. *)
Fixpoint valid_sigs (H : bytes -> bytes) (sks : list bytes) (ws : list Z) (m rest : list bytes) : Prop :=
  match sks, ws with
  | [], [] => m = rest
  | sk :: sks', w :: ws' => is_u32 w /\ exists m1, valid_sig H (pub_key H sk) w m m1 /\
                            valid_sigs H sks' ws' m1 rest
  | _, _ => False
  end.

Lemma exec_toalt : forall H x m a m' a', exec H [OP_TOALTSTACK] (x :: m) a m' a' <-> m' = m /\ a' = x :: a.
Proof.
  intros H x m a m' a'. unfold exec. cbn. split; [intros [= <- <-]; auto|intros [-> ->]; reflexivity].
Qed.

Lemma recover_alt_iff : forall H cs sks m alt m' alt', map bc_secret cs = sks ->
  (exec H (recover_message_at_altstack H cs) m alt m' alt' <->
   exists ws, alt' = rev (nums (map smag ws)) ++ alt /\ valid_sigs H sks ws m m').
Proof.
  intros H cs sks m al m' al' <-. revert m al. induction cs as [|c cs IH]; intros m al.
  - cbn [recover_message_at_altstack flat_map map]. split.
    + intros E. unfold exec in E. cbn in E. injection E as -> ->. exists []. split; reflexivity.
    + intros ([|w ws] & -> & Vs); [|destruct Vs]. cbn in Vs. subst. reflexivity.
  - assert (Ec : recover_message_at_stack H c = recover_message_at_stack H (bc_new (bc_secret c) 0))
      by reflexivity.
    unfold recover_message_at_altstack. cbn [flat_map map]. fold (recover_message_at_altstack H cs).
    rewrite <- app_assoc, Ec. split.
    + intros E. apply exec_app_inv in E as (m1 & a1 & c1 & E1 & E2).
      pose proof (recover_closed _ _ _ _ _ _ _ _ E1) as ->.
      apply C12_recover_iff in E1 as (-> & w & rest & W & -> & Vs).
      change (exec H (recover_message_at_altstack H cs) rest (enc (smag w) :: al) m' al') in E2.
      apply IH in E2 as (ws & -> & Vr). exists (w :: ws). split.
      * cbn [map nums rev]. rewrite <- app_assoc. reflexivity.
      * cbn [valid_sigs]. split; [exact W|]. exists rest. split; assumption.
    + intros ([|w ws] & -> & Vs); [destruct Vs|]. cbn [valid_sigs] in Vs.
      destruct Vs as (W & m1 & V1 & Vr).
      eapply exec_seq; [apply C12_recover_iff; split; [reflexivity|]; exists w, m1; eauto|].
      eapply exec_seq; [apply exec_toalt; split; reflexivity|].
      apply IH. exists ws. split; [|exact Vr]. cbn [map nums rev]. rewrite <- app_assoc. reflexivity.
Qed.

Lemma from_alt_n : forall H l m al,
  exec H (repeat_script (length l) [OP_FROMALTSTACK]) m (rev l ++ al) (l ++ m) al.
Proof.
  intros H l. induction l as [|x l IH] using rev_ind; intros m al; [reflexivity|].
  rewrite app_length, rev_app_distr. cbn [length rev app]. rewrite Nat.add_1_r. cbn [repeat_script].
  eapply exec_seq; [reflexivity|]. rewrite <- app_assoc. apply IH.
Qed.

Lemma valid_sigs_len : forall H sks ws m rest, valid_sigs H sks ws m rest -> length ws = length sks.
Proof.
  intros H sks. induction sks as [|sk sks IH]; intros [|w ws] m rest V; try easy.
  destruct V as (_ & m1 & _ & V). cbn [length]. f_equal. eapply IH. exact V.
Qed.

(** check_and_recover accepts exactly the stacks with one valid signature per word
    and leaves the compressed words, first word on top. *)
Theorem C12_vector_iff : forall H cs m alt m' alt',
  exec H (check_and_recover H cs) m alt m' alt' <->
  alt' = alt /\ exists ws rest, m' = nums (map smag ws) ++ rest /\
    valid_sigs H (map bc_secret cs) ws m rest.
Proof.
  intros H cs m al m' al'. unfold check_and_recover, message_from_altstack. split.
  - intros E. apply exec_app_inv in E as (m1 & a1 & c1 & E1 & E2).
    assert (c1 = []) as ->.
    { clear E2. revert m al E1. induction cs as [|c cs IH]; intros m al E1.
      - cbn in E1. congruence.
      - unfold recover_message_at_altstack in E1. cbn [flat_map] in E1.
        fold (recover_message_at_altstack H cs) in E1. unfold brun in E1.
        rewrite <- app_assoc, runM_app in E1.
        destruct (runM _ _ _ _ _ _ _ _ (recover_message_at_stack H c) _) as [[m2 a2 c2]|] eqn:F; [|easy].
        change (recover_message_at_stack H c) with
          (recover_message_at_stack H (bc_new (bc_secret c) 0)) in F.
        pose proof (recover_closed _ _ _ _ _ _ _ _ F) as ->.
        apply C12_recover_iff in F as (_ & w & rest & W & -> & _).
        exact (IH rest (enc (smag w) :: a2) E1). }
    apply (recover_alt_iff H cs _ m al m1 a1 eq_refl) in E1 as (ws & -> & Vs).
    pose proof (valid_sigs_len _ _ _ _ _ Vs) as L. rewrite map_length in L.
    pose proof (from_alt_n H (nums (map smag ws)) m1 al) as F.
    unfold nums in F at 1. rewrite !map_length, L in F. unfold exec in F. rewrite F in E2.
    assert (Q : mk (nums (map smag ws) ++ m1) al [] = mk m' al' []) by congruence.
    apply (f_equal main) in Q as Q1. apply (f_equal alt) in Q as Q2. cbn [main alt] in Q1, Q2.
    split; [congruence|]. exists ws, m1. split; [congruence|exact Vs].
  - intros (-> & ws & rest & -> & Vs).
    pose proof (valid_sigs_len _ _ _ _ _ Vs) as L. rewrite map_length in L.
    eapply exec_seq.
    + apply (recover_alt_iff H cs _ m al rest _ eq_refl). exists ws. split; [reflexivity|exact Vs].
    + pose proof (from_alt_n H (nums (map smag ws)) rest al) as F.
      unfold nums in F at 1. rewrite !map_length, L in F. exact F.
Qed.

(** The honest witness recovers the committed words, for any number of words. *)
Theorem C12_vector_honest : forall H sks vs rest alt, (forall x, H x <> [0]) ->
  length sks = length vs -> Forall is_u32 vs ->
  exists sig, bcs_signature H (bcs_new sks vs) = Some sig /\
    exec H (check_and_recover H (bcs_new sks vs)) (rev sig ++ rest) alt (nums (map smag vs) ++ rest) alt.
Proof.
  intros H sks vs rest al NZ L F.
  assert (G : exists sig, bcs_signature H (bcs_new sks vs) = Some sig /\
    valid_sigs H sks vs (rev sig ++ rest) rest).
  { clear al. revert vs L F. induction sks as [|sk sks IH]; intros [|v vs] L F; try discriminate L.
    - exists []. split; reflexivity.
    - cbn [length] in L. injection L as L. inversion_clear F as [|? ? V F'].
      destruct (IH vs L F') as (sig & Es & Vs).
      destruct (C09_witness_accepted H sk v (rev sig ++ rest) [] NZ V) as (s1 & E1 & X).
      exists (sig ++ s1). unfold bcs_new. cbn [combine map bcs_signature fst snd].
      fold (bcs_new sks vs). rewrite Es, E1. split; [reflexivity|].
      cbn [valid_sigs]. split; [exact V|]. exists (rev sig ++ rest). split; [|exact Vs].
      rewrite rev_app_distr, <- app_assoc.
      apply C10_accepts_iff_valid in X as (_ & w & rest' & W & Em & Vv); [|reflexivity].
      assert (rest' = rev sig ++ rest /\ w = v) as [-> ->]; [|exact Vv].
      apply bword_app_inj in Em as [-> ->]; auto. }
  destruct G as (sig & Es & Vs). exists sig. split; [exact Es|].
  apply C12_vector_iff. split; [reflexivity|]. exists vs, rest. split; [reflexivity|].
  replace (map bc_secret (bcs_new sks vs)) with sks; [exact Vs|].
  clear - L. revert vs L. induction sks as [|sk sks IH]; intros [|v vs] L; try discriminate L; [reflexivity|].
  unfold bcs_new. cbn [combine map bc_secret bc_new fst snd]. f_equal. apply IH.
  cbn [length] in L. congruence.
Qed.

(** Field elements: four canonical words (an extension element) or one, as
    committed by BitCommitment::new, are accepted by
    recover_message_euqal_to_commit_message. *)
Theorem C12_vector_equal_honest : forall H sks vs rest alt, (forall x, H x <> [0]) ->
  length sks = length vs -> (length vs = 1 \/ length vs = 4)%nat ->
  Forall (fun v => 0 <= v < 2 ^ 31) vs ->
  exists sig, bcs_signature H (bcs_new sks vs) = Some sig /\
    exec H (recover_message_equal H (bcs_new sks vs)) (rev sig ++ rest) alt rest alt.
Proof.
  intros H sks vs rest al NZ L Ln F. change (2^31) with 2147483648 in F.
  assert (F' : Forall is_u32 vs).
  { eapply Forall_impl; [|exact F]. cbn beta. intros a Ha. unfold is_u32.
    change (2^32) with 4294967296. lia. }
  destruct (C12_vector_honest H sks vs rest al NZ L F') as (sig & Es & E).
  exists sig. split; [exact Es|]. unfold recover_message_equal.
  assert (Lc : length (bcs_new sks vs) = length vs).
  { unfold bcs_new. rewrite map_length, combine_length, L. lia. }
  assert (Sm : map smag vs = vs).
  { rewrite <- (map_id vs) at 2. apply map_ext_in. intros a Ha. rewrite Forall_forall in F.
    specialize (F a Ha). unfold smag. change (2^31) with 2147483648.
    destruct (a <? 2147483648) eqn:Q; lia. }
  assert (Vc : map bc_value (bcs_new sks vs) = vs).
  { clear - L. revert vs L. induction sks as [|sk sks IH]; intros [|v vs] L; try discriminate L; [reflexivity|].
    unfold bcs_new. cbn [combine map bc_value bc_new fst snd]. f_equal. apply IH.
    cbn [length] in L. congruence. }
  replace (map (fun c => PUSHN (bc_value c)) (rev (bcs_new sks vs))) with (map PUSHN (rev vs)).
  2:{ rewrite <- Vc at 1. rewrite <- map_rev, map_map. reflexivity. }
  rewrite Sm in E. rewrite Lc. eapply exec_seq; [exact E|]. clear - Ln.
  destruct Ln as [Ln|Ln].
  - destruct vs as [|v [|]]; try discriminate Ln. cbn [length Nat.eqb rev app map nums].
    unfold exec. cbn. rewrite bytes_eqb_refl. reflexivity.
  - destruct vs as [|v0 [|v1 [|v2 [|v3 [|]]]]]; try discriminate Ln.
    cbn [length Nat.eqb].
    pose proof (u31ext_equalverify_ok H v0 v1 v2 v3 v0 v1 v2 v3 (map B rest) (map B al)) as E.
    rewrite !Z.eqb_refl in E. cbn [andb] in E. tobytes E.
    eapply exec_seq; [|exact E]. reflexivity.
Qed.

(** The same for one word, left on the alt stack. *)
Theorem C12_recover_altstack_iff : forall H sk v m alt m' alt',
  exec H (u32_recover_message_at_altstack H (bc_new sk v)) m alt m' alt' <->
  exists w, is_u32 w /\ alt' = enc (smag w) :: alt /\ valid_sig H (pub_key H sk) w m m'.
Proof.
  intros H sk v m al m' al'.
  change (u32_recover_message_at_altstack H (bc_new sk v)) with
    (checksig_verify_script H (bc_new sk v) ++ (u32_compress ++ [OP_TOALTSTACK])).
  rewrite app_assoc. change (checksig_verify_script H (bc_new sk v) ++ u32_compress) with (recover_message_at_stack H (bc_new sk v)).
  split.
  - intros E. apply exec_app_inv in E as (m1 & a1 & c1 & E1 & E2).
    pose proof (recover_closed _ _ _ _ _ _ _ _ E1) as ->.
    apply C12_recover_iff in E1 as (-> & w & rest & W & -> & Vs).
    apply exec_toalt in E2 as (-> & ->). eauto.
  - intros (w & W & -> & Vs). eapply exec_seq.
    + apply C12_recover_iff. split; [reflexivity|]. exists w, m'. eauto.
    + apply exec_toalt. auto.
Qed.

(** message_to_altstack moves exactly the words of the message, and
    message_from_altstack brings them back in the same order. *)
Theorem C12_message_moves : forall H cs l m alt, length l = length cs ->
  exec H (message_to_altstack cs) (l ++ m) alt m (rev l ++ alt) /\
  exec H (message_from_altstack cs) m (rev l ++ alt) (l ++ m) alt.
Proof.
  intros H cs l m al L. unfold message_to_altstack, message_from_altstack. rewrite <- L. split; [|apply from_alt_n].
  clear cs L. revert al. induction l as [|x l IH]; intros al; [reflexivity|]. cbn [length rev app].
  change (repeat_script (S (length l)) [OP_TOALTSTACK]) with ([OP_TOALTSTACK] ++ repeat_script (length l) [OP_TOALTSTACK]).
  eapply exec_seq; [reflexivity|]. rewrite <- app_assoc. apply IH.
Qed.

(* ------------------------------------------------------------------ *)
(** ** C71 *)
(** Committing new values under existing commitments: the same keys, the new
    values and their digits, in every respect the commitments that [new] makes from
    those keys; a different number of values panics. *)
Theorem C71_rebinding : forall vs cs,
  new_with_commits vs cs =
    if (length vs =? length cs)%nat then Some (bcs_new (map bc_secret cs) vs) else None.
Proof.
  intros vs cs. unfold new_with_commits. destruct (length vs =? length cs)%nat eqn:E; [|reflexivity]. f_equal.
  apply Nat.eqb_eq in E. revert vs E. induction cs as [|c cs IH]; intros [|v vs] E; try discriminate E; [reflexivity|].
  unfold bcs_new. cbn [combine map fst snd]. f_equal. apply IH. now injection E.
Qed.
Theorem C71_rebound_recover : forall H vs cs cs' rest alt, (forall x, H x <> [0]) -> Forall is_u32 vs ->
  new_with_commits vs cs = Some cs' ->
  map (fun c => pub_key H (bc_secret c)) cs' = map (fun c => pub_key H (bc_secret c)) cs /\
  map bc_value cs' = vs /\
  exists sig, bcs_signature H cs' = Some sig /\
    exec H (check_and_recover H cs) (rev sig ++ rest) alt (nums (map smag vs) ++ rest) alt.
Proof.
  intros H vs cs cs' rest al NZ F E. rewrite C71_rebinding in E.
  destruct (length vs =? length cs)%nat eqn:L; [|discriminate E]. injection E as <-. apply Nat.eqb_eq in L.
  assert (S1 : map bc_secret (bcs_new (map bc_secret cs) vs) = map bc_secret cs /\ map bc_value (bcs_new (map bc_secret cs) vs) = vs).
  { clear F. revert vs L. induction cs as [|c cs IH]; intros [|v vs] L; try discriminate L; [split; reflexivity|].
    unfold bcs_new. cbn [combine map fst snd bc_new bc_secret bc_value]. destruct (IH vs) as [I1 I2]; [now injection L|].
    split; f_equal; assumption. }
  destruct S1 as [S1 S2]. split; [rewrite <- !(map_map bc_secret (pub_key H)); now rewrite S1|]. split; [exact S2|].
  destruct (C12_vector_honest H (map bc_secret cs) vs rest al NZ) as (sig & Es & Ex); [now rewrite map_length|exact F|].
  exists sig. split; [exact Es|].
  assert (Q : check_and_recover H cs = check_and_recover H (bcs_new (map bc_secret cs) vs)); [|now rewrite Q].
  clear - S1 L. unfold check_and_recover, message_from_altstack, recover_message_at_altstack.
  replace (length (bcs_new (map bc_secret cs) vs)) with (length cs).
  2:{ unfold bcs_new. rewrite map_length, combine_length, map_length. lia. }
  f_equal. revert S1. generalize (bcs_new (map bc_secret cs) vs). clear L. induction cs as [|c cs IH]; intros [|d ds] S1; try discriminate S1.
  - reflexivity.
  - cbn [map] in S1. injection S1 as S1 S2. cbn [flat_map]. f_equal; [|now apply IH].
    unfold recover_message_at_stack, checksig_verify_script. now rewrite S1.
Qed.
Example C71_example : exists cs', new_with_commits [7; 2 ^ 31] [bc_new [1] 0; bc_new [2] 5] = Some cs' /\
  cs' = [bc_new [1] 7; bc_new [2] (2 ^ 31)] /\ new_with_commits [7] [bc_new [1] 0; bc_new [2] 5] = None.
Proof. eexists. split; [reflexivity|]. split; reflexivity. Qed.
