(** Client programs that compute with field elements through the expression language:
    the operators and the AbstractField functions of /repo/script_expr/src/alias.rs and
    variable.rs, as a straight-line program over a pool of values made so far. *)
From Coq Require Import ZArith List Bool Arith.
From Verif Require Import Field BabyBear DslModel DslOpSpec DslBuild.
Import ListNotations.
Local Open Scope nat_scope.

(** Operands are positions in the pool. *)
(** script_expr/src/alias.rs, lines by constructor *)
Inductive fstmt :=
| FConst (ext : bool) (z : BB4)              (* alias.rs 592-648: zero, one, two, from_f, from_canonical_.., ..: all are constant_f *)
| FInput (x : variable) (size : nat)         (* variable.rs: From<Variable>, From<ValueVariable> *)
| FAdd (i j : nat) | FSub (i j : nat) | FMul (i j : nat)                 (* 650-690, 718-737, 759-778 *)
| FAddF (ext : bool) (i : nat) (z : BB4)     (* 692-697: Add<F> *)
| FSubF (ext : bool) (i : nat) (z : BB4)     (* 739-744: Sub<F> *)
| FMulF (ext : bool) (i : nat) (z : BB4)     (* 780-785: Mul<F> *)
| FAddExt (i j : nat) | FSubExt (i j : nat) | FMulExt (i j : nat)        (* 299-311, 355-367, 327-339 *)
| FAddBase (i j : nat) | FSubBase (i j : nat) | FMulBase (i j : nat)     (* 313-325, 369-381, 341-353 *)
| FNeg (i : nat) | FDouble (i : nat) | FSquare (i : nat)                 (* 800-815, 193-204, 180-191 *)
| FExp (ext : bool) (i log_power : nat)      (* 206-208: exp_constant(2^log_power) *)
| FSum (ext : bool) (is : list nat) | FProduct (ext : bool) (is : list nat).  (* 712-716, 817-821 *)

(** The program over Dsl<F>. *)
(** script_expr/src/alias.rs, the lines given with the constructors *)
Definition build1 (pool : list expr) (s : fstmt) : builder expr :=
  let one i f := do x <- get (nth_error pool i); f x in
  let two i j f := do x <- get (nth_error pool i); do y <- get (nth_error pool j); f x y in
  match s with
  | FConst ext z => constant_f ext z
  | FInput x size => copy_input x size
  | FAdd i j => two i j add
  | FSub i j => two i j subtract
  | FMul i j => two i j mul
  | FAddF ext i z => one i (fun x => do c <- constant_f ext z; add x c)
  | FSubF ext i z => one i (fun x => do c <- constant_f ext z; subtract x c)
  | FMulF ext i z => one i (fun x => do c <- constant_f ext z; mul x c)
  | FAddExt i j => two i j (binary_ext Add false true)
  | FSubExt i j => two i j (binary_ext Sub false true)
  | FMulExt i j => two i j (binary_ext Mul false true)
  | FAddBase i j => two i j (binary_base Add true false)
  | FSubBase i j => two i j (binary_base Sub true false)
  | FMulBase i j => two i j (binary_base Mul true false)
  | FNeg i => one i neg
  | FDouble i => one i double
  | FSquare i => one i square
  | FExp ext i k => one i (fun x => exp_constant ext x (2 ^ k))
  | FSum ext is => do xs <- get (handles pool is); sum ext xs
  | FProduct ext is => do xs <- get (handles pool is); product ext xs
  end.
(** a client of script_expr/src/alias.rs *)
Fixpoint build (p : list fstmt) (pool : list expr) : builder (list expr) :=
  match p with
  | [] => ret pool
  | s :: p => do e <- build1 pool s; build p (pool ++ [e])
  end.
