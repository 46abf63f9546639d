(** The constraint script: ScriptConstraintBuilder of script_expr/src/script_builder.rs, and the part
    of uni-stark/src/script_verifier.rs that runs Air::eval on it, compares the accumulator with the
    native one and runs the script (lines 272-300).

    Val is BabyBear and Challenge its extension of degree 4, the only pair the code is used with.
    Panics are [None]. *)
From Coq Require Import ZArith List Bool Arith.
From Verif Require Import ScriptNum ScriptVM U32Model HelperModel Field BabyBear TcsModel DslModel DslOpSpec DslBuild DslManager FriExprModel StarkExprModel.
From Verif Require StarkModel.
Import ListNotations.
Local Open Scope nat_scope.

(** ** Air::eval
    What the body of Air::eval can do with a builder, one operation after the other; operands are
    the positions of earlier results.  A result may be used several times (clone()), so x.square(),
    which AbstractField defines as x.clone() * x.clone(), is [SMul i i].  Conditions
    (FilteredAirBuilder) multiply: when(c).assert_zero(x) is assert_zero(c * x). *)
(** the calls of Air::eval on the builder of script_expr/src/script_builder.rs; uni-stark/tests/fib_air.rs has an instance *)
Inductive stmt :=
| SLocal (i : nat) | SNext (i : nat) | SPub (i : nat)        (* Into<Expr> of a variable *)
| SFirst | SLast | STransition                               (* is_first_row(), .. *)
| SConst (c : BabyBear)                                      (* constants *)
| SAdd (i j : nat) | SSub (i j : nat) | SMul (i j : nat) | SNeg (i : nat)
| SAssertZero (i : nat)
| SAssertEq (i j : nat).                                     (* default of AirBuilder: assert_zero(x - y) *)

(** The assertions as trees, which is what the native builders see (StarkModel.air_eval). *)
(** the same calls on the builders of uni-stark/src/folder.rs 33-114 *)
Fixpoint assertions (p : list stmt) (pool : list (StarkModel.expr BabyBearT)) : option (list (StarkModel.assertion BabyBearT)) :=
  match p with
  | [] => Some []
  | s :: p =>
      let push e := assertions p (pool ++ [e]) in
      let one i f := match nth_error pool i with Some x => f x | None => None end in
      let two i j f := one i (fun x => one j (f x)) in
      match s with
      | SLocal i => push (StarkModel.Local i)
      | SNext i => push (StarkModel.Next i)
      | SPub i => push (StarkModel.Pub i)
      | SFirst => push StarkModel.IsFirstRow
      | SLast => push StarkModel.IsLastRow
      | STransition => push StarkModel.IsTransition
      | SConst c => push (StarkModel.Const (c : BabyBearT))
      | SAdd i j => two i j (fun x y => push (StarkModel.Add x y))
      | SSub i j => two i j (fun x y => push (StarkModel.Sub x y))
      | SMul i j => two i j (fun x y => push (StarkModel.Mul x y))
      | SNeg i => one i (fun x => push (StarkModel.Neg x))
      | SAssertZero i => one i (fun x => option_map (cons (StarkModel.AssertZero x)) (assertions p pool))
      | SAssertEq i j => two i j (fun x y => option_map (cons (StarkModel.AssertEq x y)) (assertions p pool))
      end
  end.

(** Air::eval on the native builder, uni-stark/src/folder.rs 74-112 (VerifierConstraintFolder, [alpha] and
    the accumulator apart): rows and public values are indexed, which panics. *)
Definition is_assert (s : stmt) : bool := match s with SAssertZero _ | SAssertEq _ _ => true | _ => false end.
Section Native.
  Variable w : StarkModel.window BabyBearT ExtT.
  Variable alpha : ExtT.
  Fixpoint eval_native (p : list stmt) (pool : list ExtT) (acc : ExtT) : option ExtT :=
    match p with
    | [] => Some acc
    | s :: p =>
        let push (e : ExtT) := eval_native p (pool ++ [e]) acc in
        let one {A} (o : option A) (f : A -> option ExtT) := match o with Some x => f x | None => None end in
        let two i j (f : ExtT -> ExtT -> option ExtT) := one (nth_error pool i) (fun x => one (nth_error pool j) (f x)) in
        let assert x := eval_native p pool (fadd (fmul acc alpha) x) in
        match s with
        | SLocal i => one (nth_error (StarkModel.w_local w) i) push
        | SNext i => one (nth_error (StarkModel.w_next w) i) push
        | SPub i => one (nth_error (StarkModel.w_public w) i) (fun v => push (from_base v))
        | SFirst => push (StarkModel.w_first w)
        | SLast => push (StarkModel.w_last w)
        | STransition => push (StarkModel.w_transition w)
        | SConst c => push (from_base c)
        | SAdd i j => two i j (fun x y => push (fadd x y))
        | SSub i j => two i j (fun x y => push (fsub x y))
        | SMul i j => two i j (fun x y => push (fmul x y))
        | SNeg i => one (nth_error pool i) (fun x => push (fopp x))
        | SAssertZero i => one (nth_error pool i) assert
        | SAssertEq i j => two i j (fun x y => assert (fsub x y))
        end
    end.
End Native.

(** ** script_builder.rs 14-22
    Only the variables of [main] are kept as a list of pairs, row by row. *)
Record cbuilder := mkcb {
  cb_local : list variable; cb_next : list variable;
  cb_values : list (variable * list Z);    (* main: variable and as_u32_vec of its value *)
  cb_public : list variable;
  cb_first : expr; cb_last : expr; cb_transition : expr;
  cb_constraints : list expr;
  cb_alpha : expr }.

Section Builder.
  (** u32::MAX, the row of the public values.  It only has to differ from the two
      rows of the trace. *)
  Variable public_row : nat.

  (** the variables of row [r], 59-64; row_values[column_index] panics past the end *)
  Definition row_vars (r width : nat) : list variable := map (fun c => mkvar r c (Some 4)) (seq 0 width).
  Definition public_vars (n : nat) : list variable := map (fun i => mkvar public_row i None) (seq 0 n).
  (** 45-82 *)
  Definition new_with_expr (local next : list BB4) (num_public : nat) (first last transition alpha : expr) : option cbuilder :=
    let width := length local in
    if width <=? length next then
      Some (mkcb (row_vars 0 width) (row_vars 1 width)
                 (List.combine (row_vars 0 width) (map (limbs 4) local) ++ List.combine (row_vars 1 width) (map (limbs 4) next))
                 (public_vars num_public) first last transition [] alpha)
    else None.
  (** 25-43 *)
  Definition new_builder (local next : list BB4) (num_public : nat) (first last transition alpha : BB4) : builder cbuilder :=
    do f <- const_f bf_ext4 first; do l <- const_f bf_ext4 last; do t <- const_f bf_ext4 transition; do a <- const_f bf_ext4 alpha;
    get (new_with_expr local next num_public f l t a).

  (** 184-187 *)
  Definition assert_zero (x : expr) (cb : cbuilder) : cbuilder :=
    mkcb (cb_local cb) (cb_next cb) (cb_values cb) (cb_public cb) (cb_first cb) (cb_last cb) (cb_transition cb)
         (cb_constraints cb ++ [x]) (cb_alpha cb).
  (** Air::eval on the builder: 158-196, with the operators of variable.rs 44-54, 214-228 (From<ValueVariable>
      and From<Variable>, InputVarCopy of size 4) and alias.rs 586-816.  Rows and public values are indexed. *)
  Fixpoint eval_script (p : list stmt) (pool : list expr) (cb : cbuilder) : builder cbuilder :=
    match p with
    | [] => ret cb
    | s :: p =>
        let push e := eval_script p (pool ++ [e]) cb in
        let two i j (f : expr -> expr -> builder expr) := do x <- get (nth_error pool i); do y <- get (nth_error pool j); do e <- f x y; push e in
        match s with
        | SLocal i => do x <- get (nth_error (cb_local cb) i); do e <- copy_input x 4; push e
        | SNext i => do x <- get (nth_error (cb_next cb) i); do e <- copy_input x 4; push e
        | SPub i => do x <- get (nth_error (cb_public cb) i); do e <- copy_input x 4; push e
        | SFirst => push (cb_first cb)
        | SLast => push (cb_last cb)
        | STransition => push (cb_transition cb)
        | SConst c => do e <- const_f bf_ext4 (from_base c); push e
        | SAdd i j => two i j add
        | SSub i j => two i j subtract
        | SMul i j => two i j mul
        | SNeg i => do x <- get (nth_error pool i); do e <- neg x; push e
        | SAssertZero i => do x <- get (nth_error pool i); eval_script p pool (assert_zero x cb)
        | SAssertEq i j => do x <- get (nth_error pool i); do y <- get (nth_error pool j); do e <- subtract x y; eval_script p pool (assert_zero e cb)
        end
    end.
  (** 84-90 *)
  Fixpoint accumulate (alpha acc : expr) (cs : list expr) : builder expr :=
    match cs with
    | [] => ret acc
    | c :: cs => do p <- mul acc alpha; do acc <- add p c; accumulate alpha acc cs
    end.
  Definition get_accumulator_expr (cb : cbuilder) : builder expr :=
    match cb_constraints cb with
    | [] => panic
    | c :: cs => accumulate (cb_alpha cb) c cs
    end.

  (** 92-127; stack.var (external) pushes a script as one variable.  The scripts are those of [push_vec]. *)
  Definition set_variable_values (public_values : list BabyBear) (cb : cbuilder) : option (tracker * getter) :=
    if length (cb_public cb) =? length public_values then
      Some (fold_left push_input (cb_values cb)
             (fold_left push_input (List.combine (cb_public cb) (map (fun v => limbs 4 (from_base v)) public_values)) (tracker_new, fun _ => None)))
    else None.
  (** StackTracker::drop (external): the variable has to be on top *)
  (** called at script_expr/src/script_builder.rs 149 *)
  Definition drop_var (v : svar) (T : tracker) : option tracker :=
    match t_main T with
    | w :: r => if fst w =? fst v then Some (mktracker (t_next T) r (t_alt T) (t_script T ++ repeat_script (snd w) [OP_DROP])) else None
    | [] => None
    end.
  (** script_expr/src/script_builder.rs 148-154 *)
  Fixpoint drop_vars (gt : getter) (l : list variable) (T : tracker) : option tracker :=
    match l with
    | [] => Some T
    | x :: l => match gt x with
                | Some v => match drop_var v T with Some T' => drop_vars gt l T' | None => None end
                | None => None
                end
    end.
  (** 143-155 *)
  Definition drop_variable_values (gt : getter) (cb : cbuilder) (T : tracker) : option tracker :=
    match drop_vars gt (rev (map fst (cb_values cb))) T with
    | Some T' => drop_vars gt (rev (cb_public cb)) T'
    | None => None
    end.
  (** 129-141 *)
  Definition set_trace_count (cb : cbuilder) (c : value_counter) : option (list bool * value_counter) :=
    register_all (flat_map snd (cb_values cb)) c.

  (** ** uni-stark/src/script_verifier.rs 273-296: the script that is run
      ([accumulator]: folder.accumulator).  op_true pushes 1. *)
  Definition constraint_script (G : gadgets) (p : list stmt) (local next : list BB4) (public_values : list BabyBear)
    (first last transition alpha : expr) (accumulator : BB4) : builder script :=
    do cb <- get (new_with_expr local next (length public_values) first last transition alpha);
    do cb <- eval_script p [] cb;
    do s <- get (set_variable_values public_values cb);
    do acc <- get_accumulator_expr cb;
    do c <- const_f bf_ext4 accumulator;
    do e <- equal_verify acc c;
    do r <- get (express G (snd s) true e (fst s));
    do T <- get (drop_variable_values (snd s) cb (fst (fst r)));
    ret (t_script T ++ [PUSHN 1]).
  (** 266-297 with the selectors of the trace domain; [true]: run() succeeds *)
  Definition run_constraints (H : bytes -> bytes) (G : gadgets) (p : list stmt) (local next : list BB4) (public_values : list BabyBear)
    (zeta alpha : BB4) (log_n : nat) (accumulator : BB4) : builder bool :=
    do sels <- selectors_at_point_expr f1 zeta log_n;
    do a <- const_f bf_ext4 alpha;
    do s <- constraint_script G p local next public_values (se_first sels) (se_last sels) (se_transition sels) a accumulator;
    ret (bsucceeds (brun H s (mk [] [] []))).
End Builder.
