(** The Fibonacci AIR that comes with the repository, uni-stark/tests/fib_air.rs. *)
From Coq Require Import List Arith Bool.
From Verif Require Import Field TcsModel StarkModel.
Import ListNotations.
Local Open Scope nat_scope.

Section Fib.
  Variable V : field.

  (** fib_air.rs 21-55: width and eval; local.left, local.right are columns 0 and 1.
      when_x().assert_eq(p, q) is assert_zero(is_x * (p - q)) (FilteredAirBuilder, see StarkModel). *)
  Definition fibonacci_air : air V :=
    {| air_width := 2;
       air_eval :=
         [AssertZero (Mul IsFirstRow (Sub (Local 0) (Pub 0)));
          AssertZero (Mul IsFirstRow (Sub (Local 1) (Pub 1)));
          AssertZero (Mul IsTransition (Sub (Local 1) (Next 0)));
          AssertZero (Mul IsTransition (Sub (Add (Local 0) (Local 1)) (Next 1)));
          AssertZero (Mul IsLastRow (Sub (Local 1) (Pub 2)))] |}.

  (** fib_air.rs 71-74: the rows after a row (left, right), [n] of them *)
  Fixpoint next_rows (left right : V) (n : nat) : list V :=
    match n with
    | 0 => []
    | S n => right :: fadd left right :: next_rows right (fadd left right) n
    end.
  (** usize::is_power_of_two *)
  (** called at uni-stark/tests/fib_air.rs 60 *)
  Definition is_power_of_two (n : nat) : bool := negb (n =? 0) && (2 ^ Nat.log2 n =? n).
  (** fib_air.rs 57-77 generate_trace_rows; [a] and [b] already converted to the field *)
  Definition generate_trace_rows (a b : V) (n : nat) : option (matrix V) :=
    if is_power_of_two n then Some {| width := 2; values := a :: b :: next_rows a b (n - 1) |} else None.
  (** fib_air.rs 131-137: the output is the last value of the trace *)
  Definition public_values (a b : V) (trace : matrix V) : option (list V) :=
    option_map (fun output => [a; b; output]) (nth_error (values V trace) (length (values V trace) - 1)).
End Fib.
