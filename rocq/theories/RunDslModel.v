(** run_dsl, assert_dsl (/repo/script_expr/src/lib.rs:196-212): compare an expression
    with a constant and run the script. *)
From Coq Require Import ZArith List Bool Arith.
From Verif Require Import ScriptNum ScriptVM Field BabyBear DslModel DslOpSpec DslBuild.
Import ListNotations.
Local Open Scope nat_scope.

Section RunDsl.
  Variable H : bytes -> bytes.
  Variable G : gadgets.

  (** lib.rs:196-202.  [ext]: F is the extension field.  The map of inputs is empty.
      Of the StepResult of [stack.run()] only the field [success] is modelled: the
      script runs to its end on empty stacks and leaves a true item on top (see
      [bsucceeds]); the debugger of bitcoin-script-stack that runs it is external. *)
  Definition run_dsl (ext : bool) (e : expr) (value : BB4) : builder bool :=
    do a <- equal_for_f ext e value;
    do r <- get (express G (fun _ => None) true a tracker_new);
    ret (bsucceeds (brun H (t_script (fst (fst r))) (mk [] [] []))).

  (** lib.rs:204-207; debug_assert_dsl (209-212) is the same in a debug build *)
  Definition assert_dsl (ext : bool) (e : expr) (value : BB4) : builder unit :=
    do b <- run_dsl ext e value; check b.
End RunDsl.
