(** Property C82: the input variables AIR variables are converted to. *)
From Coq Require Import ZArith List Bool Lia Arith.
From Verif Require StarkModel.
From Verif Require Import HelperModel Field BabyBear DslModel DslOpSpec DslBuild DslManager DslOps DslSession ConsExprModel ConsExprProofs VarModel.
Import ListNotations.
Local Open Scope nat_scope.

(** Cells of the main trace window are kept apart. *)
Theorem C82_main_injective : forall o i o' i',
  variable_of (StarkModel.Main o) i = variable_of (StarkModel.Main o') i' -> o = o' /\ i = i'.
Proof. intros o i o' i' E. injection E as -> ->. auto. Qed.

(** Public values and challenges have no variable. *)
Theorem C82_public_panics : forall i, variable_of StarkModel.Public i = None /\ variable_of StarkModel.Challenge i = None.
Proof. intros i. split; reflexivity. Qed.

(** The three kinds of trace are not kept apart. *)
Theorem C82_kinds_apart_refuted : exists e e' i, e <> e' /\ variable_of e i <> None /\ variable_of e i = variable_of e' i.
Proof. exists (StarkModel.Main 0), (StarkModel.Preprocessed 0), 3. repeat split; discriminate. Qed.

(** No variable made this way is among those the script builder registers for the
    trace rows and the public values: generation of any expression using it panics.
    (Row and column are exchanged and the expected size is missing.) *)
Theorem C82_never_registered : forall public_row local next num_public first last transition alpha cb pubs T gt e i x,
  new_with_expr public_row local next num_public first last transition alpha = Some cb ->
  set_variable_values pubs cb = Some (T, gt) ->
  variable_of e i = Some x -> i <> public_row -> gt x = None.
Proof.
  intros pr local next np fe le te ae cb pubs T gt e i x Ecb Es Ex Ni.
  unfold new_with_expr in Ecb. destruct (length local <=? length next); [|discriminate Ecb]. injection Ecb as <-.
  unfold set_variable_values in Es. cbn [cb_public cb_values] in Es. destruct (_ =? _); [|discriminate Es].
  apply some_inj in Es. rewrite <- fold_left_app in Es.
  assert (K : exists c, x = mkvar i c None).
  { destruct e as [o|o|o| |]; try discriminate Ex; injection Ex as <-; eauto. }
  destruct K as [c ->]. destruct (gt (mkvar i c None)) as [[k s]|] eqn:Eg; [exfalso|reflexivity].
  destruct (push_inputs_ok _ _ _ (eq_sym Es)) as (_ & _ & _ & _ & Gt & _).
  destruct (Gt _ _ _ Eg) as [_ (v & En)]. apply nth_error_In in En. rewrite !in_app_iff in En.
  assert (Row : forall r w l, ~ In (mkvar i c None, v) (List.combine (row_vars r w) l)).
  { intros r w l I0. apply in_combine_l in I0. apply in_map_iff in I0 as (j & Q & _). discriminate Q. }
  destruct En as [En|[En|En]]; [|now apply (Row _ _ _ En)|now apply (Row _ _ _ En)].
  apply in_combine_l in En. apply in_map_iff in En as (j & Q & _). injection Q as <- _. now apply Ni.
Qed.

(** Example: a trace of two columns and one public value. *)
Example C82_example : forall (z : BB4) (b : BabyBear) e, exists cb T gt,
  new_with_expr 9 [z; z] [z; z] 1 e e e e = Some cb /\ set_variable_values [b] cb = Some (T, gt) /\
  gt (mkvar 0 1 (Some 4)) <> None /\ variable_of (StarkModel.Main 0) 1 = Some (mkvar 1 0 None) /\ gt (mkvar 1 0 None) = None.
Proof.
  intros z b e. eexists _, _, _. split; [reflexivity|]. split; [reflexivity|]. cbn. repeat split; discriminate.
Qed.
