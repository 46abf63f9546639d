(** General facts about the script machine and the symbolic-execution tactics
    used by the gadget proofs. *)
From Coq Require Import ZArith List Bool Lia.
From Coq Require Import ZifyBool ZifyNat.
From Verif Require Import ScriptNum ScriptVM.
Import ListNotations.
Open Scope Z_scope.

Ltac Zify.zify_post_hook ::= Z.div_mod_to_equations.

Section Frame.
  Variable H : bytes -> bytes.

  Let vstep := step val vnum I B veqb vtruthy vminbool (vhash H).
  Let vstep_main := step_main val vnum I B veqb vtruthy (vhash H).

  Lemma extract_app : forall n (l : list val) x r t,
    extract n l = Some (x, r) -> extract n (l ++ t) = Some (x, r ++ t).
  Proof.
    induction n as [|n IH]; intros [|y l] x r t E; cbn in *; try easy.
    - injection E as -> ->. reflexivity.
    - destruct (extract n l) as [[z l']|] eqn:F; [|easy].
      injection E as -> <-. rewrite (IH _ _ _ t F). reflexivity.
  Qed.

  Lemma step_main_frame : forall o m m' t,
    vstep_main o m = Some m' -> vstep_main o (m ++ t) = Some (m' ++ t).
  Proof.
    intros o m m' t. unfold vstep_main.
    destruct o; cbn [step_main]; unfold un, bin; intros E;
      try (injection E as <-; reflexivity);
      try (destruct m as [|x1 m]; [discriminate E|]); cbn [app];
      try (destruct (vnum x1) as [k|]; [|discriminate E]);
      try (injection E as <-; reflexivity);
      try (destruct m as [|x2 m]; [discriminate E|]; cbn [app]);
      try (injection E as <-; reflexivity);
      try (destruct (vnum x2); [|discriminate E]);
      try (destruct (vnum x1); [|discriminate E]);
      try (injection E as <-; reflexivity);
      try (destruct m as [|x3 m]; [discriminate E|]; cbn [app]);
      try (injection E as <-; reflexivity);
      try (destruct m as [|x4 m]; [discriminate E|]; cbn [app]);
      try (injection E as <-; reflexivity);
      try (destruct m as [|x5 m]; [discriminate E|]; cbn [app]);
      try (destruct m as [|x6 m]; [discriminate E|]; cbn [app]);
      try (injection E as <-; reflexivity);
      try discriminate E.
    - destruct (k <? 0); [easy|].
      destruct (nth_error m (znat k)) as [y|] eqn:F; [|easy].
      injection E as <-. rewrite nth_error_app1.
      + rewrite F. reflexivity.
      + apply nth_error_Some. congruence.
    - destruct (k <? 0); [easy|].
      destruct (extract (znat k) m) as [[y r]|] eqn:F; [|easy].
      injection E as <-. rewrite (extract_app _ _ _ _ t F). reflexivity.
    - destruct (veqb x2 x1); [|easy]. injection E as <-. reflexivity.
    - destruct (vtruthy x1); [|easy]. injection E as <-. reflexivity.
  Qed.

  Lemma executing_app : forall c d, executing c = true -> executing (d ++ c) = executing d.
  Proof.
    intros c d E. unfold executing in *. rewrite forallb_app, E. apply andb_true_r.
  Qed.

  Lemma step_frame : forall o m a d m' a' d' t u c,
    executing c = true ->
    vstep o (mk m a d) = Some (mk m' a' d') ->
    vstep o (mk (m ++ t) (a ++ u) (d ++ c)) = Some (mk (m' ++ t) (a' ++ u) (d' ++ c)).
  Proof.
    intros o m a d m' a' d' t u c Ec.
    assert (G : (if executing d then
                   match vstep_main o m with
                   | Some m1 => Some (mk m1 a d)
                   | None => None end
                 else Some (mk m a d)) = Some (mk m' a' d') ->
                (if executing (d ++ c) then
                   match vstep_main o (m ++ t) with
                   | Some m1 => Some (mk m1 (a ++ u) (d ++ c))
                   | None => None end
                 else Some (mk (m ++ t) (a ++ u) (d ++ c))) =
                Some (mk (m' ++ t) (a' ++ u) (d' ++ c))).
    { rewrite executing_app by exact Ec. intros E. destruct (executing d).
      - destruct (vstep_main o m) as [m1|] eqn:F; [|easy].
        injection E as -> -> ->. rewrite (step_main_frame _ _ _ t F). reflexivity.
      - injection E as -> -> ->. reflexivity. }
    destruct o; try exact G; unfold vstep; cbn [step main alt cond];
      try rewrite executing_app by exact Ec; intros E.
    - destruct (executing d); [|injection E as -> -> ->; reflexivity].
      destruct m as [|x m]; [easy|]. injection E as -> <- ->. reflexivity.
    - destruct (executing d); [|injection E as -> -> ->; reflexivity].
      destruct a as [|x a]; [easy|]. injection E as <- -> ->. reflexivity.
    - destruct (executing d); [|injection E as -> -> <-; reflexivity].
      destruct m as [|x m]; [easy|]. cbn [app].
      destruct (vminbool x); [|easy]. injection E as -> -> <-. reflexivity.
    - destruct (executing d); [|injection E as -> -> <-; reflexivity].
      destruct m as [|x m]; [easy|]. cbn [app].
      destruct (vminbool x); [|easy]. injection E as -> -> <-. reflexivity.
    - destruct d as [|b d]; [easy|]. injection E as -> -> <-. reflexivity.
    - destruct d as [|b d]; [easy|]. injection E as -> -> ->. reflexivity.
  Qed.

  (** Frame rule: elements below those a script touches, on either stack, and
      enclosing executed conditionals are carried along unchanged. *)
  Theorem run_frame : forall p m a d m' a' d' t u c,
    executing c = true ->
    run H p (mk m a d) = Some (mk m' a' d') ->
    run H p (mk (m ++ t) (a ++ u) (d ++ c)) = Some (mk (m' ++ t) (a' ++ u) (d' ++ c)).
  Proof.
    unfold run. induction p as [|o p IH]; intros m a d m' a' d' t u c Ec E.
    - cbn in *. injection E as -> -> ->. reflexivity.
    - cbn [runM] in E |- *. fold vstep in E. fold vstep.
      destruct (vstep o (mk m a d)) as [[m1 a1 d1]|] eqn:F; [|easy].
      rewrite (step_frame _ _ _ _ _ _ _ t u c Ec F). apply IH; assumption.
  Qed.

  Corollary run_frame0 : forall p m a m' a' t u,
    run H p (mk m a []) = Some (mk m' a' []) ->
    run H p (mk (m ++ t) (a ++ u) []) = Some (mk (m' ++ t) (a' ++ u) []).
  Proof. intros. apply (run_frame p m a [] m' a' [] t u []); [reflexivity|assumption]. Qed.

  Corollary run_cond : forall p m a m' a' c,
    executing c = true ->
    run H p (mk m a []) = Some (mk m' a' []) ->
    run H p (mk m a c) = Some (mk m' a' c).
  Proof.
    intros p m a m' a' c Ec E.
    pose proof (run_frame p m a [] m' a' [] [] [] c Ec E) as F.
    now rewrite !app_nil_r in F.
  Qed.

  (** Composition with an intermediate state. *)
  Lemma run_seq : forall p q s s1 r,
    run H p s = Some s1 -> run H q s1 = r -> run H (p ++ q) s = r.
  Proof. intros p q s s1 r E1 E2. rewrite run_app, E1. exact E2. Qed.
End Frame.

(** *** Symbolic execution *)

Lemma in4_true : forall z, -2147483648 < z < 2147483648 -> in4 z = true.
Proof. unfold in4. lia. Qed.

Lemma in4_b2z : forall b, in4 (b2z b) = true.
Proof. intros []; reflexivity. Qed.

(** Reduce the machine by one or more opcodes without touching arithmetic. *)
Ltac vmred :=
  lazy beta iota zeta delta
    [run runM step step_main un bin extract nth_error main alt cond executing forallb
     app vnum veqb vtruthy vminbool vhash andb].

Ltac ground_Z z :=
  lazymatch z with
  | Z0 => idtac
  | Zpos ?p => ground_pos p
  | Zneg ?p => ground_pos p
  | ?a + ?b => ground_Z a; ground_Z b
  | ?a - ?b => ground_Z a; ground_Z b
  | ?a * ?b => ground_Z a; ground_Z b
  end
with ground_pos p :=
  lazymatch p with
  | xH => idtac
  | xO ?q => ground_pos q
  | xI ?q => ground_pos q
  end.

(** Discharge operand range checks, ground comparisons and PICK/ROLL operands. *)
Ltac vmside :=
  repeat match goal with
  | |- context [znat ?z] =>
      ground_Z z; let n := eval vm_compute in (znat z) in change (znat z) with n
  | |- context [in4 (b2z ?b)] => rewrite (in4_b2z b)
  | |- context [in4 ?z] =>
      first [ ground_Z z; let b := eval vm_compute in (in4 z) in change (in4 z) with b
            | rewrite (in4_true z) by lia ]
  | |- context [?a <? ?b] =>
      ground_Z a; ground_Z b; let r := eval vm_compute in (a <? b) in change (a <? b) with r
  | |- context [?a =? ?b] =>
      ground_Z a; ground_Z b; let r := eval vm_compute in (a =? b) in change (a =? b) with r
  end.

Ltac vmgo := repeat (progress (vmred; vmside)).
