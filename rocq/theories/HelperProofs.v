(** Correctness of the bit-manipulation scripts of script_helper.rs. *)
From Coq Require Import ZArith List Bool Lia.
From Coq Require Import ZifyBool ZifyNat.
From Verif Require Import ScriptNum ScriptVM VMLemmas U32Model U32Proofs U32Proofs2 Macros
  U31Model U31Proofs HelperModel.
Import ListNotations.
Open Scope Z_scope.

Ltac Zify.zify_post_hook ::= Z.div_mod_to_equations.

(** Nearest number to [v] that has [k] bits. *)
Definition clamp (k : nat) (v : Z) : Z := Z.min (Z.max v 0) (2 ^ Z.of_nat k - 1).

Lemma pow2_S : forall k : nat, 2 ^ Z.of_nat (S k) = 2 * 2 ^ Z.of_nat k.
Proof. intros k. rewrite Nat2Z.inj_succ, Z.pow_succ_r by lia. reflexivity. Qed.

Lemma clamp_range : forall k v, 0 <= clamp k v < 2 ^ Z.of_nat k.
Proof. intros k v. unfold clamp. pose proof (pow2_pos k). lia. Qed.

Lemma clamp_small : forall k v, 0 <= v < 2 ^ Z.of_nat k -> clamp k v = v.
Proof. intros k v Hv. unfold clamp. lia. Qed.

Lemma clamp_S : forall k v,
  clamp (S k) v = (if 2 ^ Z.of_nat k - 1 <? v then 1 else 0) * 2 ^ Z.of_nat k +
                  clamp k (if 2 ^ Z.of_nat k - 1 <? v then v - 2 ^ Z.of_nat k else v).
Proof.
  intros k v. unfold clamp. rewrite pow2_S. pose proof (pow2_pos k).
  destruct (2 ^ Z.of_nat k - 1 <? v) eqn:E; lia.
Qed.

Lemma bit_top : forall k b c, b = 0 \/ b = 1 -> 0 <= c < 2 ^ Z.of_nat k ->
  bit (b * 2 ^ Z.of_nat k + c) k = b.
Proof.
  intros k b c Hb Hc. unfold bit.
  rewrite Z.div_add_l by lia. rewrite Z.div_small by exact Hc. lia.
Qed.

Lemma bit_low : forall k b c i, (i < k)%nat -> 0 <= c < 2 ^ Z.of_nat k ->
  bit (b * 2 ^ Z.of_nat k + c) i = bit c i.
Proof.
  intros k b c i Hi Hc. rewrite <- (bit_mod _ k i Hi).
  rewrite Z.add_comm, Z_mod_plus_full, Z.mod_small by exact Hc. reflexivity.
Qed.

Lemma bits_S : forall k b c, b = 0 \/ b = 1 -> 0 <= c < 2 ^ Z.of_nat k ->
  map (bit (b * 2 ^ Z.of_nat k + c)) (seq 0 (S k)) = map (bit c) (seq 0 k) ++ [b].
Proof.
  intros k b c Hb Hc. rewrite seq_S, map_app. cbn [map]. rewrite Nat.add_0_l, bit_top by assumption.
  f_equal. apply map_ext_in. intros i Hi. apply in_seq in Hi. apply bit_low; [lia|assumption].
Qed.

Lemma pow2_le30 : forall k, (k <= 30)%nat -> 2 ^ Z.of_nat k <= 1073741824.
Proof. intros k L. change 1073741824 with (2 ^ 30). apply Z.pow_le_mono_r; lia. Qed.

Lemma msb_len : forall k v, length (msb k v) = k.
Proof. induction k; cbn; intros; auto. Qed.

(** Bit reversal of [k] bits. *)
Fixpoint brev (k : nat) (v : Z) : Z :=
  match k with O => 0 | S k' => (v mod 2) * 2 ^ Z.of_nat k' + brev k' (v / 2) end.

Lemma brev_range : forall k v, 0 <= brev k v < 2 ^ Z.of_nat k.
Proof.
  induction k as [|k IH]; intros v; [cbn; lia|].
  cbn [brev]. rewrite pow2_S. specialize (IH (v / 2)). pose proof (pow2_pos k). nia.
Qed.

Lemma bit_half : forall v i, bit (v / 2) i = bit v (S i).
Proof.
  intros v i. unfold bit. rewrite Zdiv_Zdiv by (try lia; apply Z.lt_le_incl, pow2_pos).
  rewrite pow2_S. reflexivity.
Qed.

Lemma msb_brev : forall k v, msb k (brev k v) = map (bit v) (seq 0 k).
Proof.
  induction k as [|k IH]; intros v; [reflexivity|].
  cbn [msb brev]. rewrite bit_top by (try apply brev_range; lia).
  cbn [seq map]. f_equal; [unfold bit; cbn; now rewrite Z.div_1_r|].
  transitivity (msb k (brev k (v / 2))).
  - rewrite <- (msb_mod k _ k) by lia. f_equal.
    rewrite Z.add_comm, Z_mod_plus_full. apply Z.mod_small, brev_range.
  - rewrite IH, <- seq_shift, map_map. apply map_ext. intros i. apply bit_half.
Qed.

Lemma msb_bit_inj : forall k u v, msb k u = msb k v -> forall i, (i < k)%nat -> bit u i = bit v i.
Proof.
  induction k as [|k IH]; intros u v E i Hi; [lia|].
  cbn [msb] in E. injection E as E1 E2.
  destruct (Nat.eq_dec i k) as [->|]; [exact E1|]. apply (IH u v E2). lia.
Qed.

Lemma msb_nth : forall k v i, (i < k)%nat -> nth i (msb k v) 0 = bit v (k - 1 - i).
Proof.
  induction k as [|k IH]; intros v i Hi; [lia|]. cbn [msb].
  destruct i as [|i]; cbn [nth]; [f_equal; lia|]. rewrite IH by lia. f_equal. lia.
Qed.

Lemma brev_bit : forall k v i, (i < k)%nat -> bit (brev k v) i = bit v (k - 1 - i).
Proof.
  intros k v i Hi.
  pose proof (msb_nth k (brev k v) (k - 1 - i)) as E. rewrite msb_brev in E.
  specialize (E ltac:(lia)).
  rewrite (nth_indep _ 0 (bit v 0)) in E by (rewrite map_length, seq_length; lia).
  rewrite map_nth, seq_nth in E by lia. cbn [Nat.add] in E.
  replace (k - 1 - (k - 1 - i))%nat with i in E by lia. symmetry. exact E.
Qed.

Section Proofs.
  Variable H : bytes -> bytes.
  Notation run := (run H).

  Lemma value_bit_ok : forall k v r a, (k <= 30)%nat -> -2147483648 < v < 2147483648 ->
    run (value_bit_to_altstack k) (mk (I v :: r) a []) =
    Some (if 2 ^ Z.of_nat k - 1 <? v
          then mk (I (v - 2 ^ Z.of_nat k) :: r) (I 1 :: a) []
          else mk (I v :: r) (I 0 :: a) []).
  Proof.
    intros k v r a Hk Hv. unfold value_bit_to_altstack.
    pose proof (pow2_pos k) as P. pose proof (pow2_le30 k Hk) as Q.
    set (q := 2 ^ Z.of_nat k) in *. clearbody q. vmgo.
    destruct (q - 1 <? v) eqn:E; cbn [b2z]; vmgo; reflexivity.
  Qed.

  Lemma bits_to_alt_ok : forall k v r a, (k <= 31)%nat -> -2147483648 < v < 2147483648 ->
    run (bits_to_alt k) (mk (I v :: r) a []) =
    Some (mk (I (v - clamp k v) :: r) (map I (map (bit (clamp k v)) (seq 0 k)) ++ a) []).
  Proof.
    induction k as [|k IH]; intros v r a Hk Hv.
    - cbn [bits_to_alt seq map app]. unfold clamp. change (2 ^ Z.of_nat 0) with 1.
      replace (v - Z.min (Z.max v 0) (1 - 1)) with v by lia. reflexivity.
    - cbn [bits_to_alt]. rewrite run_app, value_bit_ok by (assumption || lia).
      rewrite clamp_S. pose proof (pow2_pos k) as P. pose proof (pow2_le30 k ltac:(lia)) as Q.
      destruct (2 ^ Z.of_nat k - 1 <? v) eqn:E; rewrite IH by lia;
        rewrite bits_S by (try apply clamp_range; lia); rewrite map_app, <- app_assoc; cbn [map app];
        do 4 f_equal; lia.
  Qed.

  Lemma fromalt_n : forall n l r a, length l = n ->
    run (repeat_script n [OP_FROMALTSTACK]) (mk r (l ++ a) []) = Some (mk (rev l ++ r) a []).
  Proof. intros n l r a <-. apply fromalt_rep. Qed.

  Lemma drop_n : forall n l r a, length l = n ->
    run (repeat_script n [OP_DROP]) (mk (l ++ r) a []) = Some (mk r a []).
  Proof.
    induction n as [|n IH]; intros [|x l] r a L; try easy.
    cbn [repeat_script app]. eapply (run_seq H [OP_DROP]); [reflexivity|]; cbn [main alt cond]. apply IH. now injection L.
  Qed.

  Theorem value_to_bits_ok : forall k v r a, (k <= 31)%nat -> -2147483648 < v < 2147483648 ->
    exists p, value_to_bits_format k = Some p /\
      run p (mk (I v :: r) a []) = Some (mk (map I (msb k (clamp k v)) ++ r) a []).
  Proof.
    intros k v r a Hk Hv. unfold value_to_bits_format.
    destruct (Nat.leb_spec k 31); [|lia]. eexists. split; [reflexivity|].
    rewrite run_app, bits_to_alt_ok by assumption.
    eapply (run_seq H [OP_DROP]); [reflexivity|]; cbn [main alt cond].
    rewrite fromalt_n by (rewrite !map_length; apply seq_length).
    rewrite <- map_rev, msb_rev. reflexivity.
  Qed.

  Lemma compress_loop_ok : forall n acc v r a,
    0 <= acc -> (acc + 1) * 2 ^ Z.of_nat n <= 2147483648 ->
    run (repeat_script n [OP_DUP; OP_ADD; OP_ADD]) (mk (I acc :: map I (msb n v) ++ r) a []) =
    Some (mk (I (acc * 2 ^ Z.of_nat n + v mod 2 ^ Z.of_nat n) :: r) a []).
  Proof.
    induction n as [|n IH]; intros acc v r a H0 H1.
    - cbn [repeat_script msb map app]. change (2 ^ Z.of_nat 0) with 1.
      rewrite Z.mod_1_r. replace (acc * 1 + 0) with acc by lia. reflexivity.
    - cbn [repeat_script msb map app]. rewrite pow2_S in H1. pose proof (pow2_pos n) as P.
      assert (acc < 1073741824) by nia.
      pose proof (bit01 v n) as Hb.
      eapply (run_seq H [OP_DUP; OP_ADD; OP_ADD] _ _
               (mk (I (bit v n + (acc + acc)) :: map I (msb n v) ++ r) a [])).
      { set (b := bit v n) in *. clearbody b. clear - H0 H2 Hb.
        vmgo. reflexivity. }
      rewrite IH by nia. do 4 f_equal.
      assert (R : 0 <= v mod 2 ^ Z.of_nat (S n) < 2 ^ (Z.of_nat n + 1)).
      { replace (Z.of_nat n + 1) with (Z.of_nat (S n)) by lia. apply Z.mod_pos_bound, pow2_pos. }
      pose proof (bit_split _ n R) as E. rewrite bit_mod in E by lia.
      assert (E2 : (v mod 2 ^ Z.of_nat (S n)) mod 2 ^ Z.of_nat n = v mod 2 ^ Z.of_nat n).
      { rewrite pow2_S, (Z.mul_comm 2). rewrite Z.rem_mul_r by lia.
        rewrite Z.mul_comm, Z_mod_plus_full, Z.mod_mod by lia. reflexivity. }
      rewrite E2 in E. rewrite E. rewrite pow2_S. ring.
  Qed.

  Theorem compress_bits_ok : forall k v r a, (1 <= k <= 31)%nat ->
    exists p, compress_bits k = Some p /\
      run p (mk (map I (msb k v) ++ r) a []) = Some (mk (I (v mod 2 ^ Z.of_nat k) :: r) a []).
  Proof.
    intros k v r a Hk. unfold compress_bits.
    destruct (Nat.leb_spec 1 k); [|lia]. destruct (Nat.leb_spec k 31); [|lia]. cbn [andb].
    eexists. split; [reflexivity|].
    destruct k as [|k]; [lia|]. replace (S k - 1)%nat with k by lia. cbn [msb map app].
    pose proof (bit01 v k). pose proof (pow2_pos k). pose proof (pow2_le30 k ltac:(lia)).
    rewrite compress_loop_ok by nia. do 4 f_equal.
    rewrite pow2_S, (Z.mul_comm 2), Z.rem_mul_r by lia. fold (bit v k). ring.
  Qed.

  Theorem compress_custom_ok : forall n k v r a, (1 <= k <= 31)%nat -> (k <= n)%nat ->
    exists p, compress_custom_bits n k = Some p /\
      run p (mk (map I (msb n v) ++ r) a []) =
      Some (mk (I ((v mod 2 ^ Z.of_nat n) / 2 ^ Z.of_nat (n - k)) :: r) a []).
  Proof.
    intros n k v r a Hk Hn. unfold compress_custom_bits.
    destruct (Nat.leb_spec 1 k); [|lia]. destruct (Nat.leb_spec k 31); [|lia].
    destruct (Nat.leb_spec k n); [|lia]. cbn [andb].
    eexists. split; [reflexivity|].
    destruct (compress_bits_ok k (v / 2 ^ Z.of_nat (n - k)) (map I (msb (n - k) v) ++ r) a Hk)
      as (p & Ep & E).
    unfold compress_bits in Ep. destruct (Nat.leb_spec 1 k); [|lia].
    destruct (Nat.leb_spec k 31); [|lia]. cbn [andb] in Ep. injection Ep as <-.
    assert (Em : msb n v = msb k (v / 2 ^ Z.of_nat (n - k)) ++ msb (n - k) v).
    { rewrite <- msb_split. f_equal. lia. }
    rewrite Em, map_app, <- app_assoc.
    eapply run_seq; [exact E|].
    eapply (run_seq H [OP_TOALTSTACK]); [reflexivity|]; cbn [main alt cond].
    rewrite run_app, drop_n by (rewrite map_length; apply msb_len).
    assert (Ed : (v mod 2 ^ Z.of_nat n) / 2 ^ Z.of_nat (n - k) =
                 (v / 2 ^ Z.of_nat (n - k)) mod 2 ^ Z.of_nat k).
    { replace (Z.of_nat n) with (Z.of_nat (n - k) + Z.of_nat k) by lia.
      rewrite Z.pow_add_r by lia. rewrite Z.rem_mul_r by (pose proof (pow2_pos k); pose proof (pow2_pos (n - k)); lia).
      rewrite Z.mul_comm, Z.div_add, Z.div_small
        by (try apply Z.mod_pos_bound; pose proof (pow2_pos (n - k)); lia).
      reflexivity. }
    rewrite Ed. reflexivity.
  Qed.

  (** [pick_reversed] copies the list in front of itself, reversed. *)
  Lemma pick_reversed_ok : forall n i l r a, (i + n <= length l)%nat ->
    Z.of_nat (length l) < 2 ^ 29 ->
    run (flat_map (fun i => [pushnat (i * 2); OP_PICK]) (seq i n))
      (mk (rev (firstn i l) ++ l ++ r) a []) =
    Some (mk (rev (firstn (i + n) l) ++ l ++ r) a []).
  Proof.
    induction n as [|n IH]; intros i l r a L Hl.
    - rewrite Nat.add_0_r. reflexivity.
    - cbn [seq flat_map app].
      destruct (nth_error l i) as [x|] eqn:Ex.
      2:{ apply nth_error_None in Ex. lia. }
      destruct (nth_split' i l x Ex) as (l1 & l2 & -> & <-).
      rewrite firstn_app, firstn_all, Nat.sub_diag. cbn [firstn]. rewrite app_nil_r.
      rewrite <- app_assoc. cbn [app]. rewrite app_assoc.
      rewrite pick_mid.
      2:{ rewrite app_length, rev_length. lia. }
      2:{ rewrite app_length in Hl. cbn in Hl. lia. }
      2:{ reflexivity. }
      specialize (IH (S (length l1)) (l1 ++ x :: l2) r a).
      replace (length l1 + S n)%nat with (S (length l1) + n)%nat by lia.
      assert (F : firstn (S (length l1)) (l1 ++ x :: l2) = l1 ++ [x]).
      { rewrite firstn_app, firstn_all2 by lia. replace (S (length l1) - length l1)%nat with 1%nat by lia.
        reflexivity. }
      rewrite F in IH. rewrite rev_app_distr in IH. cbn [rev app] in IH.
      rewrite <- app_assoc in IH. cbn [app] in IH.
      rewrite <- app_assoc. apply IH; [rewrite app_length in *; cbn in *; lia|exact Hl].
  Qed.

  Corollary pick_reversed_all : forall l r a, Z.of_nat (length l) < 2 ^ 29 ->
    run (pick_reversed (length l)) (mk (l ++ r) a []) = Some (mk (rev l ++ l ++ r) a []).
  Proof.
    intros l r a L. pose proof (pick_reversed_ok (length l) 0 l r a ltac:(lia) L) as E.
    cbn [Nat.add firstn rev app] in E. rewrite firstn_all in E. exact E.
  Qed.

  Lemma picked_bits : forall k v, rev (msb k v) = msb k (brev k v).
  Proof. intros k v. rewrite msb_brev, <- msb_rev, rev_involutive. reflexivity. Qed.

  Theorem index_to_reverse_ok : forall k v r a, (1 <= k <= 31)%nat ->
    -2147483648 < v < 2147483648 ->
    exists p, index_to_reverse_index k = Some p /\
      run p (mk (I v :: r) a []) = Some (mk (I (brev k (clamp k v)) :: r) a []).
  Proof.
    intros k v r a Hk Hv. unfold index_to_reverse_index.
    destruct (value_to_bits_ok k v r a ltac:(lia) Hv) as (p & -> & E).
    set (c := clamp k v) in *.
    destruct (compress_bits_ok k (brev k c) (map I (msb k c) ++ r) a Hk) as (q & -> & F).
    eexists. split; [reflexivity|].
    eapply run_seq; [exact E|].
    replace (pick_reversed k) with (pick_reversed (length (map I (msb k c))))
      by (rewrite map_length, msb_len; reflexivity).
    rewrite run_app, pick_reversed_all by (rewrite map_length, msb_len; lia).
    rewrite <- map_rev, picked_bits.
    eapply run_seq; [exact F|].
    eapply (run_seq H [OP_TOALTSTACK]); [reflexivity|]; cbn [main alt cond].
    rewrite run_app, drop_n by (rewrite map_length; apply msb_len).
    rewrite Z.mod_small by apply brev_range. reflexivity.
  Qed.

  (** [reverse_bits_len_script]: index and its bits on the stack. *)
  Theorem reverse_script_ok : forall k idx v r a, (1 <= k <= 31)%nat -> 0 <= v < 2 ^ Z.of_nat k ->
    exists p, reverse_bits_len_script k = Some p /\
      run p (mk (map I (msb k v) ++ I idx :: r) a []) =
      if idx =? v then Some (mk (I (brev k v) :: r) a []) else None.
  Proof.
    intros k idx v r a Hk Hv. unfold reverse_bits_len_script.
    destruct (compress_bits_ok k (brev k v) (map I (msb k v) ++ I idx :: r) a Hk) as (q & Eq & F).
    destruct (compress_bits_ok k v (I idx :: r) (I (brev k v) :: a) Hk) as (q' & Eq' & F').
    rewrite Eq in Eq'. injection Eq' as <-. rewrite Eq.
    eexists. split; [reflexivity|].
    replace (pick_reversed k) with (pick_reversed (length (map I (msb k v))))
      by (rewrite map_length, msb_len; reflexivity).
    rewrite run_app, pick_reversed_all by (rewrite map_length, msb_len; lia).
    rewrite <- map_rev, picked_bits.
    eapply run_seq; [exact F|]. rewrite Z.mod_small by apply brev_range.
    eapply (run_seq H [OP_TOALTSTACK]); [reflexivity|]; cbn [main alt cond].
    eapply run_seq; [exact F'|]. rewrite Z.mod_small by exact Hv.
    vmred. destruct (idx =? v); reflexivity.
  Qed.

  (** The 32-bit format reads the two's complement of the number. *)
  Theorem value_to_32_ok : forall v r a, -2147483648 < v < 2147483648 ->
    run (value_to_32_bits_format 32) (mk (I v :: r) a []) =
    Some (mk (map I (msb 32 (v mod 2 ^ 32)) ++ r) a []).
  Proof.
    intros v r a Hv. unfold value_to_32_bits_format. cbn [Nat.eqb].
    assert (Hx : exists b x, (b = 0 \/ b = 1) /\ 0 <= x < 2 ^ Z.of_nat 31 /\
             v mod 2 ^ 32 = b * 2 ^ Z.of_nat 31 + x /\
             run value_32_bits_to_altstack (mk (I v :: r) a []) = Some (mk (I x :: r) (I b :: a) [])).
    { change (2 ^ 32) with 4294967296. change (2 ^ Z.of_nat 31) with 2147483648.
      unfold value_32_bits_to_altstack.
      destruct (v <? 0) eqn:E.
      - exists 1, (v - -2147483647 + 1). repeat split; try lia.
        vmgo. rewrite E. cbn [b2z]. vmgo. reflexivity.
      - exists 0, v. repeat split; try lia.
        vmgo. rewrite E. cbn [b2z]. vmgo. reflexivity. }
    destruct Hx as (b & x & Hb & Hx & Ev & E).
    eapply run_seq; [exact E|].
    rewrite run_app, bits_to_alt_ok; [|lia|change (2 ^ Z.of_nat 31) with 2147483648 in Hx; lia].
    rewrite clamp_small by exact Hx.
    eapply (run_seq H [OP_DROP]); [reflexivity|]; cbn [main alt cond].
    change (map I (map (bit x) (seq 0 31)) ++ I b :: a) with
      (map I (map (bit x) (seq 0 31)) ++ (map I [b]) ++ a).
    rewrite app_assoc, <- map_app, <- bits_S, <- Ev by assumption.
    rewrite fromalt_n by (rewrite !map_length; apply seq_length).
    rewrite <- map_rev, msb_rev. reflexivity.
  Qed.

  Theorem extract_high_ok : forall n v r a, (1 <= n <= 31)%nat -> -2147483648 < v < 2147483648 ->
    exists p, extract_high_bits n = Some p /\
      run p (mk (I v :: r) a []) =
      Some (mk (I ((v mod 2 ^ 32) / 2 ^ (32 - Z.of_nat n)) :: r) a []).
  Proof.
    intros n v r a Hn Hv. unfold extract_high_bits.
    destruct (compress_custom_ok 32 n (v mod 2 ^ 32) r a Hn ltac:(lia)) as (c & -> & E).
    eexists. split; [reflexivity|]. rewrite run_app, value_to_32_ok by exact Hv.
    rewrite E. change (Z.of_nat 32) with 32. rewrite Z.mod_mod by lia.
    replace (Z.of_nat (32 - n)) with (32 - Z.of_nat n) by lia. reflexivity.
  Qed.
End Proofs.
