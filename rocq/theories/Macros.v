(** Stack macros: four-item macros, OP_NDUP, push_to_stack. *)
From Coq Require Import ZArith List Bool Lia.
From Coq Require Import ZifyBool ZifyNat.
From Verif Require Import ScriptNum ScriptVM VMLemmas U32Model U32Proofs.
Import ListNotations.
Open Scope Z_scope.

Ltac Zify.zify_post_hook ::= Z.div_mod_to_equations.

(** [prefix x M] splits the syntactic stack [M] in front of [x]. *)
Ltac prefix x M :=
  lazymatch M with
  | x :: ?r => constr:((@nil val, r))
  | ?y :: ?M' => let p := prefix x M' in
                 lazymatch p with (?l, ?r) => constr:((y :: l, r)) end
  | ?L ++ ?M' => let p := prefix x M' in
                 lazymatch p with (?l, ?r) => constr:((L ++ l, r)) end
  end.

Ltac appnorm := repeat (progress (rewrite <- ?app_assoc; cbn [app])).

Section Proofs.
  Variable H : bytes -> bytes.
  Notation run := (run H).

  (** PICK / ROLL with the operand already on the stack. *)
  Lemma vpick_mid : forall z l x r a p,
    z = Z.of_nat (length l) -> z < 2^31 ->
    run (OP_PICK :: p) (mk (I z :: l ++ x :: r) a []) = run p (mk (x :: l ++ x :: r) a []).
  Proof.
    intros z l x r a p -> L.
    unfold ScriptVM.run. cbn [runM step main alt cond executing forallb step_main].
    unfold vnum at 1. rewrite in4_true by lia. unfold znat.
    destruct (Z.of_nat (length l) <? 0) eqn:N; [lia|].
    rewrite Nat2Z.id, nth_error_mid. reflexivity.
  Qed.

  Lemma vroll_mid : forall z l x r a p,
    z = Z.of_nat (length l) -> z < 2^31 ->
    run (OP_ROLL :: p) (mk (I z :: l ++ x :: r) a []) = run p (mk (x :: l ++ r) a []).
  Proof.
    intros z l x r a p -> L.
    unfold ScriptVM.run. cbn [runM step main alt cond executing forallb step_main].
    unfold vnum at 1. rewrite in4_true by lia. unfold znat.
    destruct (Z.of_nat (length l) <? 0) eqn:N; [lia|].
    rewrite Nat2Z.id, extract_mid. reflexivity.
  Qed.

  Lemma run1 : forall o p s, run (o :: p) s =
    match run [o] s with Some s' => run p s' | None => None end.
  Proof. intros. exact (run_app H [o] p s). Qed.

  Ltac at_elem x tac :=
    lazymatch goal with
    | |- context [@mk val (?z :: ?M) ?a ?c] =>
        let p := prefix x M in
        lazymatch p with (?l, ?r) =>
          replace M with (l ++ x :: r) by (appnorm; reflexivity);
          tac; [appnorm | repeat (progress (cbn [length]; rewrite ?app_length)); cbn [length]; lia | lia ]
        end
    end.
  Ltac vpick x := at_elem x ltac:(rewrite vpick_mid).
  Ltac vroll x := at_elem x ltac:(rewrite vroll_mid).
  Ltac one := rewrite run1; vmred; repeat (rewrite in4_true by lia; vmred); fold (run []).

  Lemma add4 : forall z r a p, 0 <= z < 2^30 ->
    run (PUSHN 4 :: OP_ADD :: p) (mk (I z :: r) a []) = run p (mk (I (z + 4) :: r) a []).
  Proof.
    intros. unfold ScriptVM.run.
    cbn [runM step main alt cond executing forallb step_main bin].
    unfold vnum. rewrite !in4_true by lia. reflexivity.
  Qed.
  Lemma sub1 : forall z r a p, 0 <= z < 2^30 + 4 ->
    run (OP_1SUB :: p) (mk (I z :: r) a []) = run p (mk (I (z - 1) :: r) a []).
  Proof.
    intros. unfold ScriptVM.run.
    cbn [runM step main alt cond executing forallb step_main un].
    unfold vnum. rewrite !in4_true by lia. reflexivity.
  Qed.
  Lemma dup1 : forall z r a p,
    run (OP_DUP :: p) (mk (z :: r) a []) = run p (mk (z :: z :: r) a []).
  Proof. reflexivity. Qed.
  Lemma swap1 : forall y z r a p,
    run (OP_SWAP :: p) (mk (y :: z :: r) a []) = run p (mk (z :: y :: r) a []).
  Proof. reflexivity. Qed.

  Theorem OP_4PICK_ok : forall g w0 w1 w2 w3 r a, Z.of_nat (length g) < 2^30 ->
    run OP_4PICK (mk (I (Z.of_nat (length g)) :: g ++ w0 :: w1 :: w2 :: w3 :: r) a []) =
    Some (mk (w0 :: w1 :: w2 :: w3 :: g ++ w0 :: w1 :: w2 :: w3 :: r) a []).
  Proof.
    intros g w0 w1 w2 w3 r a L. unfold OP_4PICK.
    rewrite add4 by lia. set (z := Z.of_nat (length g)) in *.
    rewrite dup1. vpick w3. rewrite swap1, dup1. vpick w2. rewrite swap1, dup1. vpick w1.
    rewrite swap1, sub1 by lia. vpick w0. reflexivity.
  Qed.

  Theorem OP_4ROLL_ok : forall g w0 w1 w2 w3 r a, Z.of_nat (length g) < 2^30 ->
    run OP_4ROLL (mk (I (Z.of_nat (length g)) :: g ++ w0 :: w1 :: w2 :: w3 :: r) a []) =
    Some (mk (w0 :: w1 :: w2 :: w3 :: g ++ r) a []).
  Proof.
    intros g w0 w1 w2 w3 r a L. unfold OP_4ROLL.
    rewrite add4 by lia. set (z := Z.of_nat (length g)) in *.
    rewrite dup1. vroll w3. rewrite swap1, dup1. vroll w2. rewrite swap1, dup1. vroll w1.
    rewrite swap1, sub1 by lia. vroll w0. reflexivity.
  Qed.

  Theorem OP_4DUP_ok : forall w0 w1 w2 w3 r a,
    run OP_4DUP (mk (w0 :: w1 :: w2 :: w3 :: r) a []) =
    Some (mk (w0 :: w1 :: w2 :: w3 :: w0 :: w1 :: w2 :: w3 :: r) a []).
  Proof. reflexivity. Qed.

  Theorem OP_4DROP_ok : forall w0 w1 w2 w3 r a,
    run OP_4DROP (mk (w0 :: w1 :: w2 :: w3 :: r) a []) = Some (mk r a []).
  Proof. reflexivity. Qed.

  Theorem OP_4SWAP_ok : forall v0 v1 v2 v3 w0 w1 w2 w3 r a,
    run OP_4SWAP (mk (v0 :: v1 :: v2 :: v3 :: w0 :: w1 :: w2 :: w3 :: r) a []) =
    Some (mk (w0 :: w1 :: w2 :: w3 :: v0 :: v1 :: v2 :: v3 :: r) a []).
  Proof. reflexivity. Qed.

  (** On the alt stack the four items are in opposite order; taking them back
      restores the original order. *)
  Theorem OP_4TOALT_ok : forall w0 w1 w2 w3 r a,
    run OP_4TOALTSTACK (mk (w0 :: w1 :: w2 :: w3 :: r) a []) =
    Some (mk r (w3 :: w2 :: w1 :: w0 :: a) []).
  Proof. reflexivity. Qed.
  Theorem OP_4FROMALT_ok : forall w0 w1 w2 w3 r a,
    run OP_4FROMALTSTACK (mk r (w3 :: w2 :: w1 :: w0 :: a) []) =
    Some (mk (w0 :: w1 :: w2 :: w3 :: r) a []).
  Proof. reflexivity. Qed.

  (** *** OP_NDUP *)
  Lemma rep3 : forall k x r a,
    run (repeat_script k [OP_3DUP]) (mk (x :: x :: x :: r) a []) =
    Some (mk (repeat x (3 * k) ++ x :: x :: x :: r) a []).
  Proof.
    induction k as [|k IH]; intros x r a; [reflexivity|].
    cbn [repeat_script]. eapply (run_seq H [OP_3DUP]); [reflexivity|].
    rewrite IH. replace (3 * S k)%nat with (3 * k + 3)%nat by lia.
    rewrite repeat_app, <- app_assoc. reflexivity.
  Qed.

  Lemma repeat_snoc : forall {A} n (x : A) l, repeat x n ++ x :: l = x :: repeat x n ++ l.
  Proof. induction n; intros; cbn; congruence. Qed.

  Theorem OP_NDUP_ok : forall n x r a,
    run (OP_NDUP n) (mk (x :: r) a []) = Some (mk (repeat x n ++ x :: r) a []).
  Proof.
    intros n x r a. unfold OP_NDUP.
    destruct (3 <? n)%nat eqn:E3.
    - destruct (1 <=? n)%nat eqn:E1; [|lia]. destruct (3 <=? n)%nat eqn:E2; [|lia].
      eapply (run_seq H [OP_DUP]); [reflexivity|].
      eapply (run_seq H [OP_2DUP]); [reflexivity|].
      change (mk (x :: x :: x :: x :: r) a []) with (mk (x :: x :: x :: ([x] ++ r)) a []).
      rewrite run_app, rep3.
      set (k := ((n - 3) / 3)%nat).
      assert (En : n = (3 * k + (n - 3) mod 3 + 3)%nat) by (subst k; lia).
      destruct ((n - 3) mod 3 =? 2)%nat eqn:R2; [|destruct ((n - 3) mod 3 =? 1)%nat eqn:R1].
      + replace n with (5 + 3 * k)%nat by lia.
        cbn [repeat app]. rewrite !repeat_snoc. reflexivity.
      + replace n with (4 + 3 * k)%nat by lia.
        cbn [repeat app]. rewrite !repeat_snoc. reflexivity.
      + replace n with (3 + 3 * k)%nat by lia.
        cbn [repeat app]. rewrite !repeat_snoc. reflexivity.
    - destruct n as [|[|[|[|n]]]]; try lia; reflexivity.
  Qed.

  Theorem push_to_stack_ok : forall e n r a,
    run (push_to_stack e n) (mk r a []) = Some (mk (repeat (I (Z.of_nat e)) n ++ r) a []).
  Proof.
    intros e n r a. unfold push_to_stack. destruct n as [|n]; [reflexivity|].
    cbn [Nat.leb]. replace (S n - 1)%nat with n by lia.
    eapply (run_seq H [pushnat e]); [reflexivity|]. rewrite OP_NDUP_ok.
    rewrite repeat_snoc. reflexivity.
  Qed.
End Proofs.
