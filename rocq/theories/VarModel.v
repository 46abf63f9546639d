(** uni-stark/src/expr_helper.rs: the input variable an AIR variable is converted to. *)
From Coq Require Import List Arith.
From Verif Require StarkModel.
From Verif Require Import DslModel.
Import ListNotations.
Local Open Scope nat_scope.

(** 46-67 and 69-90 (by value and by reference, the same text); [None]: panic *)
Definition variable_of (e : StarkModel.entry) (index : nat) : option variable :=
  match e with
  | StarkModel.Main offset => Some (mkvar index offset None)
  | StarkModel.Permutation offset => Some (mkvar index offset None)
  | StarkModel.Preprocessed offset => Some (mkvar index offset None)
  | StarkModel.Public | StarkModel.Challenge => None
  end.
