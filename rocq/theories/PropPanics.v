(** Properties C53 and C80, continued: when the current manager exists, and which sizes an operand may have. *)
From Coq Require Import ZArith List Bool Arith Lia.
From Verif Require Import ScriptNum ScriptVM DslModel DslBuild DslManager PropManager.
Import ListNotations.
Local Open Scope nat_scope.

(** After any calls, current_manager finds the manager at the cursor: it panics exactly when no call has set the cursor,
    and then so do inputs taken through the assigner. *)
Theorem C53_current_exists : forall cs n a n', asteps cs assigner_new n = Some (a, n') ->
  current_manager a = as_current a /\
  (as_current a = None -> forall v k, assigner_input v a k = None) /\
  (as_current a <> None -> forall v k, assigner_input v a k <> None).
Proof.
  intros cs n a n' E. assert (C : cursor_ok a) by (eapply cursor_steps; [|exact E]; exact Logic.I). unfold cursor_ok in C.
  assert (Q : current_manager a = as_current a).
  { unfold current_manager. destruct (as_current a) as [i|]; [|reflexivity]. destruct (nth_error (as_managers a) i) eqn:En; [reflexivity|].
    apply nth_error_None in En. lia. }
  split; [exact Q|]. split; intros Na v k.
  - unfold assigner_input, bind at 1. rewrite Q, Na. reflexivity.
  - unfold assigner_input, bind, get, ret. rewrite Q. destruct (as_current a) as [i|]; [|contradiction].
    destruct (nth_error (as_managers a) i) as [m|] eqn:En; [|apply nth_error_None in En; lia]. cbn. discriminate.
Qed.
(** A cursor set by [next_manager], and none after [clear]. *)
Example C53_example_current : exists a b n m, asteps [AAdd; ANext] assigner_new 0 = Some (a, n) /\ current_manager a = Some 0 /\
  asteps [ANext; AClear; AAdd] assigner_new 0 = Some (b, m) /\ current_manager b = None.
Proof. eexists _, _, _, _. repeat split; reflexivity. Qed.

(** The operations that read the size of an operand (negation, doubling, squaring, powers, sums, differences, products) can be built on an
    constant only if it has one word, four words or none: any other length panics. The size check is
    var_size of script_expr/src/opcode.rs 208-214, 311-317, 405-411. *)
Theorem C80_operand_sizes : forall v n c n', constant v n = Some (c, n') -> length v <> 0 -> length v <> 1 -> length v <> 4 ->
  forall k, neg c k = None /\ double c k = None /\ square c k = None /\ (forall ext p, exp_constant ext c p k = None) /\
    forall x, add c x k = None /\ subtract c x k = None /\ mul c x k = None.
Proof.
  intros v n c n' E N0 N1 N4 k.
  assert (Z : var_size c = None).
  { unfold constant, node, bind, ret in E. injection E as <- <-. unfold var_size. cbn [e_size e_op is_standard negb].
    rewrite (proj2 (Nat.eqb_neq _ _) N0), (proj2 (Nat.eqb_neq _ _) N1), (proj2 (Nat.eqb_neq _ _) N4). reflexivity. }
  unfold neg, double, square, unary, exp_constant, add, subtract, mul, binary, bind at 1, get. rewrite !Z.
  repeat split; intros; try reflexivity; unfold bind, get; rewrite ?Z; reflexivity.
Qed.
Example C80_example_sizes : exists c, constant [1%Z; 2%Z] 0 = Some (c, 1) /\ neg c 1 = None /\
  (exists d e m, constant [1%Z] 0 = Some (d, 1) /\ neg d 1 = Some (e, m)).
Proof. eexists. split; [reflexivity|]. split; [reflexivity|]. eexists _, _, _. split; reflexivity. Qed.
