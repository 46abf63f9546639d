(** Property C15, continued: value_to_bits_format_special, script_expr/src/script_helper.rs 234-269. *)
From Coq Require Import ZArith List Bool Lia.
From Coq Require Import ZifyBool ZifyNat.
From Verif Require Import ScriptNum ScriptVM VMLemmas U32Model U32Proofs U32Proofs2 Macros
  U31Model U31Proofs HelperModel HelperProofs HelperRou SubGroup Lift PropWords PropHelper.
Import ListNotations.
Open Scope Z_scope.

(** script_helper.rs 254-269; (1 << 31) - 1 overflows i32 in a debug build *)
Definition value_bit_to_altstack_special (bits : nat) : script :=
  [OP_DUP; PUSHN (2 ^ Z.of_nat bits - 1); OP_GREATERTHAN;
   OP_IF; PUSHN (2 ^ Z.of_nat bits); OP_SUB; PUSHN (Z.of_nat bits); OP_TOALTSTACK;
   OP_ELSE; PUSHN 33; OP_TOALTSTACK; OP_ENDIF].
(** 243-245 *)
Fixpoint bits_special (k : nat) : script :=
  match k with O => [] | S k => value_bit_to_altstack_special k ++ bits_special k end.
(** 241-251 *)
Definition value_to_bits_format_special (bits_len_conf : nat) : option script :=
  if (bits_len_conf <=? 31)%nat then Some (bits_special bits_len_conf ++ repeat_script bits_len_conf [OP_FROMALTSTACK]) else None.

(** *** Specification: for each of the [k] low bits, the highest first, its position if it is set and 33 if not *)
Definition positions (k : nat) (v : Z) : list Z :=
  map (fun i => if Z.testbit v (Z.of_nat i) then Z.of_nat i else 33) (rev (seq 0 k)).

Section Run.
  Variable H : bytes -> bytes.
  Notation run := (run H).
  Definition code (c : Z) (i : nat) : Z := if Z.testbit c (Z.of_nat i) then Z.of_nat i else 33.

  Lemma special_bit : forall k v r a, (k <= 30)%nat -> -2147483648 < v < 2147483648 ->
    run (value_bit_to_altstack_special k) (mk (I v :: r) a []) =
    Some (if 2 ^ Z.of_nat k - 1 <? v
          then mk (I (v - 2 ^ Z.of_nat k) :: r) (I (Z.of_nat k) :: a) []
          else mk (I v :: r) (I 33 :: a) []).
  Proof.
    intros k v r a Hk Hv. unfold value_bit_to_altstack_special.
    pose proof (pow2_pos k) as P. pose proof (pow2_le30 k Hk) as Q.
    set (q := 2 ^ Z.of_nat k) in *. clearbody q. vmgo.
    destruct (q - 1 <? v) eqn:E; cbn [b2z]; vmgo; reflexivity.
  Qed.
  Lemma code_S : forall k b c, b = 0 \/ b = 1 -> 0 <= c < 2 ^ Z.of_nat k ->
    map (code (b * 2 ^ Z.of_nat k + c)) (seq 0 (S k)) = map (code c) (seq 0 k) ++ [if b =? 1 then Z.of_nat k else 33].
  Proof.
    intros k b c Hb Hc. rewrite seq_S, map_app. cbn [map Nat.add]. f_equal.
    - apply map_ext_in. intros i Hi. apply in_seq in Hi. unfold code.
      pose proof (bit_low k b c i ltac:(lia) ltac:(assumption)) as L. rewrite !bit_testbit in L.
      destruct (Z.testbit (b * 2 ^ Z.of_nat k + c) (Z.of_nat i)), (Z.testbit c (Z.of_nat i)); try reflexivity; discriminate L.
    - unfold code. pose proof (bit_top k b c Hb Hc) as L. rewrite bit_testbit in L.
      destruct (Z.testbit (b * 2 ^ Z.of_nat k + c) (Z.of_nat k)); cbn [Z.b2z] in L; subst b; reflexivity.
  Qed.
  Lemma special_bits : forall k v r a, (k <= 31)%nat -> -2147483648 < v < 2147483648 ->
    run (bits_special k) (mk (I v :: r) a []) = Some (mk (I (v - clamp k v) :: r) (map I (map (code (clamp k v)) (seq 0 k)) ++ a) []).
  Proof.
    induction k as [|k IH]; intros v r a Hk Hv.
    - cbn [bits_special seq map app]. unfold clamp. change (2 ^ Z.of_nat 0) with 1.
      replace (v - Z.min (Z.max v 0) (1 - 1)) with v by lia. reflexivity.
    - cbn [bits_special]. rewrite run_app, special_bit by (assumption || lia).
      rewrite clamp_S. pose proof (pow2_pos k) as P. pose proof (pow2_le30 k ltac:(lia)) as Q.
      destruct (2 ^ Z.of_nat k - 1 <? v) eqn:E; rewrite IH by lia;
        rewrite code_S by (try apply clamp_range; lia); rewrite map_app, <- app_assoc; cbn [map app Z.eqb Pos.eqb];
        do 4 f_equal; lia.
  Qed.
End Run.

(** The positions of the set bits are left with the highest bit on top, as the comment at 234-240 says, but below them
    stays what the bits do not account for: an element that the comment does not mention and that value_to_bits_format
    drops. *)
Theorem C15_special : forall H k v rest alt, (k <= 31)%nat -> 0 <= v < 2 ^ 31 ->
  exists p, value_to_bits_format_special k = Some p /\
    exec H p (enc v :: rest) alt (nums (positions k (Z.min v (2 ^ Z.of_nat k - 1))) ++ enc (v - Z.min v (2 ^ Z.of_nat k - 1)) :: rest) alt.
Proof.
  intros H k v rest al Hk Hv. unfold value_to_bits_format_special. destruct (Nat.leb_spec k 31); [|lia].
  eexists. split; [reflexivity|]. change (2 ^ 31) with 2147483648 in Hv.
  pose proof (special_bits H k v (map B rest) (map B al) Hk ltac:(lia)) as E.
  assert (C : clamp k v = Z.min v (2 ^ Z.of_nat k - 1)) by (unfold clamp; lia). rewrite C in E.
  set (w := Z.min v (2 ^ Z.of_nat k - 1)) in *. clearbody w.
  assert (R : run H (bits_special k ++ repeat_script k [OP_FROMALTSTACK]) (mk (I v :: map B rest) (map B al) []) =
    Some (mk (map I (positions k w) ++ I (v - w) :: map B rest) (map B al) [])).
  { rewrite run_app, E, fromalt_n by (rewrite !map_length; apply seq_length). unfold positions. now rewrite <- !map_rev. }
  tobytes R. exact R.
Qed.
(** Claim: as value_to_bits_format, it replaces the value by its bits.  One element more is left for every value. *)
Theorem C15_special_leaves_refuted : forall H k v rest alt, (k <= 31)%nat -> 0 <= v < 2 ^ Z.of_nat k ->
  exists p m, value_to_bits_format_special k = Some p /\ exec H p (enc v :: rest) alt m alt /\
    m = nums (positions k v) ++ enc 0 :: rest /\ m <> nums (positions k v) ++ rest.
Proof.
  intros H k v rest al Hk Hv. pose proof (Z.pow_le_mono_r 2 (Z.of_nat k) 31 ltac:(lia) ltac:(lia)) as P.
  destruct (C15_special H k v rest al Hk ltac:(lia)) as (p & Ep & E). rewrite Z.min_l in E by lia. rewrite Z.sub_diag in E.
  exists p, (nums (positions k v) ++ enc 0 :: rest). split; [exact Ep|]. split; [exact E|]. split; [reflexivity|].
  intros Q. apply app_inv_head in Q. apply (f_equal (@length _)) in Q. cbn [length] in Q. lia.
Qed.
Example C15_example_special : forall H, exists p, value_to_bits_format_special 4 = Some p /\
  exec H p [enc 10; enc 99] [] (nums [3; 33; 1; 33] ++ [enc 0; enc 99]) [].
Proof. intros H. destruct (C15_special H 4 10 [enc 99] [] ltac:(lia) ltac:(lia)) as (p & Ep & E). exists p. split; [exact Ep|]. exact E. Qed.
