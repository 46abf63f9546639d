(** Property C99: convert_digits_to_u32 makes a tapscript spendable by anyone, scripts/src/u31/mod.rs 109-129. *)
From Coq Require Import ZArith List Bool Lia.
From Verif Require Import ScriptNum ScriptVM TaptreeModel TcsModel ScriptBytes PropBytes.
Import ListNotations.
Open Scope Z_scope.

(** OP_LSHIFT, disabled in Bitcoin and no opcode of ScriptVM.v; its byte is a consensus constant.  Used at u31/mod.rs 123. *)
Definition LSHIFT : Z := 152.
(** u31/mod.rs 109-129 as bytes: one OP_TOALTSTACK and a body for each further digit.  The loop variable is not used by
    the code.  [bits] is DIGITS_BITSIZE, [num] is DIGITS_NUM. *)
Definition convert_body (bits : Z) : bytes :=
  serialize [PUSHN bits; OP_SWAP] ++ [LSHIFT] ++ serialize [OP_FROMALTSTACK; OP_ADD; OP_TOALTSTACK].
Definition convert_digits_to_u32 (bits : Z) (num : nat) : bytes :=
  serialize [OP_TOALTSTACK] ++ concat (repeat (convert_body bits) (num - 1)).

Lemma success_after : forall strict p b r, Forall writable p -> read strict (b :: r) = Some (Other b, r) -> op_success b = true ->
  forall fuel, (length (serialize p ++ b :: r) <= fuel)%nat -> existsb succeeds_at_once (fst (instructions strict fuel (serialize p ++ b :: r))) = true.
Proof.
  intros strict p b r W R O. induction W as [|o s Wo _ IH]; intros fuel L.
  - destruct fuel as [|fuel]; [cbn in L; lia|]. change (serialize [] ++ b :: r) with (b :: r). cbn [instructions]. rewrite R.
    destruct (instructions strict fuel r) as [l ok]. cbn [fst existsb succeeds_at_once]. now rewrite O.
  - change (serialize (o :: s)) with (ser_op o ++ serialize s) in *. rewrite <- app_assoc in *. rewrite app_length in L.
    pose proof (ser_nonempty o) as N. destruct (ser_op o) as [|x y] eqn:E; [congruence|]. clear N.
    destruct fuel as [|fuel]; [cbn in L; lia|].
    assert (read strict ((x :: y) ++ serialize s ++ b :: r) = Some (Known (norm o), serialize s ++ b :: r)) as R' by (rewrite <- E; apply read_op; exact Wo).
    cbn [app instructions] in *. rewrite R'. specialize (IH fuel ltac:(cbn [length] in L; lia)).
    destruct (instructions strict fuel (serialize s ++ b :: r)) as [l ok]. cbn [fst existsb succeeds_at_once] in *. exact IH.
Qed.
Lemma serialize_app : forall p q, serialize (p ++ q) = serialize p ++ serialize q.
Proof. intros p q. unfold serialize. apply flat_map_app. Qed.

(** With two or more digits: a leaf script in which it occurs, after any instructions and before any bytes, is accepted
    with every witness, whatever the rest of the script checks. *)
Theorem C99_anyone_can_spend : forall H other strict bits num p rest witness, 0 <= bits < 2 ^ 32 -> (2 <= num)%nat -> Forall writable p ->
  execute_bytes H other strict (serialize p ++ convert_digits_to_u32 bits num ++ rest) witness = true.
Proof.
  intros H other strict bits num p rest witness B N W. destruct num as [|[|num]]; try lia.
  assert (exists r, serialize p ++ convert_digits_to_u32 bits (S (S num)) ++ rest = serialize (p ++ [OP_TOALTSTACK; PUSHN bits; OP_SWAP]) ++ LSHIFT :: r) as (r & ->).
  { unfold convert_digits_to_u32. cbn [Nat.sub repeat concat]. unfold convert_body at 1. rewrite serialize_app.
    change [OP_TOALTSTACK; PUSHN bits; OP_SWAP] with ([OP_TOALTSTACK] ++ [PUSHN bits; OP_SWAP]). rewrite serialize_app. cbn [app].
    eexists. rewrite <- !app_assoc. reflexivity. }
  unfold execute_bytes. pose proof (success_after strict (p ++ [OP_TOALTSTACK; PUSHN bits; OP_SWAP]) LSHIFT r) as Q.
  specialize (Q ltac:(apply Forall_app; split; [exact W|]; repeat constructor; cbn; lia) eq_refl eq_refl _ (Nat.le_refl _)).
  destruct (instructions _ _ _) as [l ok]. cbn [fst] in Q. now rewrite Q.
Qed.
(** With one digit or none it only moves the top element. *)
Theorem C99_one_digit : forall bits num, (num <= 1)%nat -> convert_digits_to_u32 bits num = serialize [OP_TOALTSTACK].
Proof. intros bits num L. unfold convert_digits_to_u32. replace (num - 1)%nat with 0%nat by lia. apply app_nil_r. Qed.

(** *** If OP_LSHIFT did what the comment at u31/mod.rs 120 says ([a, b] with [b] on top gives a << b), the result would
    still not be the number with these digits: the digit is the distance and not the number shifted. *)
Definition shifting (b : Z) (s : bst) : option bst :=
  match s with
  | mk (y :: x :: m) alt cond => if b =? LSHIFT then match dec x, dec y with Some a, Some k => Some (mk (enc (a * 2 ^ k) :: m) alt cond) | _, _ => None end else None
  | _ => None
  end.
(** digits, the least significant first (on top) *)
Fixpoint digits_value (bits : Z) (ds : list Z) : Z := match ds with [] => 0 | d :: ds => d + 2 ^ bits * digits_value bits ds end.
(** the run of the instructions, without OP_SUCCESS *)
Definition shifted_run (H : bytes -> bytes) (bits : Z) (ds : list Z) : option bst :=
  let s := convert_digits_to_u32 bits (length ds) in irun H shifting (fst (instructions true (length s) s)) (mk (map enc ds) [] []).
Theorem C99_value_refuted : exists bits ds, 1 <= bits /\ Forall (fun d => 0 <= d < 2 ^ bits) ds /\ forall H, exists z,
  shifted_run H bits ds = Some (mk [] [enc z] []) /\ enc z <> enc (digits_value bits ds).
Proof.
  exists 8, [1; 0]. split; [lia|]. split; [repeat constructor; lia|]. intros H. exists 9. split; [reflexivity|]. vm_compute. discriminate.
Qed.

(** The checks before it are void: a script that compares with 5 and fails is accepted with it, for the witness 7 and for
    no witness at all. *)
Example C99_example : forall H other, execute_bytes H other true (serialize [PUSHN 5; OP_EQUALVERIFY]) [[7]] = false /\
  execute_bytes H other true (serialize [PUSHN 5; OP_EQUALVERIFY] ++ convert_digits_to_u32 8 4 ++ serialize [PUSHN 0]) [[7]] = true /\
  execute_bytes H other true (serialize [PUSHN 5; OP_EQUALVERIFY] ++ convert_digits_to_u32 8 4 ++ serialize [PUSHN 0]) [] = true.
Proof.
  intros H other. split; [reflexivity|]. split; apply C99_anyone_can_spend; try lia; repeat constructor; cbn; lia.
Qed.
