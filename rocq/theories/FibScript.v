(** The Fibonacci AIR of uni-stark/tests/fib_air.rs on the builder of the script verifier. *)
From Coq Require Import List.
From Verif Require Import ConsExprModel GenModel.
Import ListNotations.

(** fib_air.rs 21-55: the operations of eval in order, operands by position.  When a when_x() is
    entered its selector is read (FilteredAirBuilder keeps it); every assert_eq(p, q) under it is
    assert_zero(selector * (p - q)). *)
Definition fibonacci_script : script_air :=
  mksair 2 [SFirst; SLocal 0; SPub 0; SSub 1 2; SMul 0 3; SAssertZero 4;            (* 0 - 4: local.left = a *)
            SLocal 1; SPub 1; SSub 5 6; SMul 0 7; SAssertZero 8;                     (* 5 - 8: local.right = b *)
            STransition; SNext 0; SSub 5 10; SMul 9 11; SAssertZero 12;              (* 9 - 12: next.left = local.right *)
            SAdd 1 5; SNext 1; SSub 13 14; SMul 9 15; SAssertZero 16;                (* 13 - 16: next.right = the sum *)
            SLast; SPub 2; SSub 5 18; SMul 17 19; SAssertZero 20].                   (* 17 - 20: local.right = x *)
