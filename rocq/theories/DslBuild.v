(** The functions that build expressions (/repo/script_expr/src/alias.rs and
    input_manager.rs, variable.rs): node identifiers, declared sizes, assertions.

    A builder takes the value of the global identifier counter and returns the new
    value.  [None] stands for a panic.  The counter is a u32 in Rust; the model
    does not wrap (2^32 nodes would be needed). *)
From Coq Require Import ZArith List Bool Arith.
From Verif Require Import Field BabyBear DslModel DslOpSpec.
Import ListNotations.
Local Open Scope nat_scope.

Definition builder (A : Type) := nat -> option (A * nat).
Definition ret {A} (a : A) : builder A := fun n => Some (a, n).
Definition bind {A B} (b : builder A) (f : A -> builder B) : builder B :=
  fun n => match b n with Some (a, n') => f a n' | None => None end.
Definition panic {A} : builder A := fun _ => None.
Definition check (c : bool) : builder unit := if c then ret tt else panic.
Definition get {A} (o : option A) : builder A := match o with Some a => ret a | None => panic end.
Notation "'do' x <- b ; f" := (bind b (fun x => f)) (at level 200, x name, b at level 100, f at level 200).
Notation "'run' b ; f" := (bind b (fun _ => f)) (at level 200, b at level 100, f at level 200).

(** alias.rs:24-28 *)
Definition get_opid : builder nat := fun n => Some (S n, S n).

(** F::U32_SIZE, basic/src/field/mod.rs:43-64; [ext] is the type parameter F *)
Definition u32_size (ext : bool) : nat := if ext then 4 else 1.

(** A constructor call [X::new(get_opid(), .., operands, size, opcode)] whose
    operands exist already. *)
(** for instance script_expr/src/alias.rs 74-81, 87-95 *)
Definition node (o : opcode) (size : nat) (ops : list expr) : builder expr :=
  do i <- get_opid; ret (Node i o size ops).

(** ** alias.rs *)
(* 403-414 *)
Definition constant (v : list Z) : builder expr := node (Constant v) (length v) [].
(* 416-418, as_u32_vec: basic/src/field/mod.rs:48-50, 58-63 *)
Definition constant_f (ext : bool) (z : BB4) : builder expr := constant (limbs (u32_size ext) z).
(* 420-422 *)
Definition constant_u32 (v : Z) : builder expr := constant [v].

(* 72-82, 383-393 *)
Definition equal (a b : expr) : builder expr := node Equal 1 [a; b].
Definition equal_for_f (ext : bool) (a : expr) (z : BB4) : builder expr :=
  do c <- constant_f ext z; equal a c.
(* 168-178, 395-401 *)
Definition equal_verify (a b : expr) : builder expr := node EqualVerify 0 [a; b].

(* 84-96, 461-463 *)
Definition extract_bits (a : expr) (len : nat) : builder expr :=
  do s <- get (var_size a); node (ExtractHighBits len) s [a].
(* 98-110, 206-208 *)
Definition exp_constant (ext : bool) (a : expr) (power : nat) : builder expr :=
  do s <- get (var_size a); node (ExpConst ext power) s [a].

(* 112-124: the identifier of the node is taken before that of its operand *)
Definition index_to_rou (ext : bool) (index : Z) (bits : nat) : builder expr :=
  run check (u32_size ext =? 1);
  do i <- get_opid; do c <- constant_u32 index; ret (Node i (IndexToRou ext bits) (u32_size ext) [c]).
(* 126-139 *)
Definition index_to_rou_ext (base ext : bool) (index : Z) (bits : nat) : builder expr :=
  run check (u32_size base =? 1); run check (u32_size ext =? 4);
  do i <- get_opid; do c <- constant_u32 index; ret (Node i (IndexToRou ext bits) (u32_size ext) [c]).
(* 141-153 *)
Definition index_to_rou_dsl (ext : bool) (a : expr) (bits : nat) : builder expr :=
  node (IndexToRou ext bits) (u32_size ext) [a].
(* 155-166 *)
Definition reverse_bits_len (index : Z) (bits : nat) : builder expr :=
  do i <- get_opid; do c <- constant_u32 index; ret (Node i (ReverseBitslen bits) 1 [c]).

(* 180-191, 193-204 and [impl Neg]: square, double, Neg *)
Definition unary (o : opcode) (a : expr) : builder expr := do s <- get (var_size a); node o s [a].
Definition square := unary Square.
Definition double := unary Double.
Definition neg := unary Neg.
(* 210-220 *)
Definition num_to_field (ext : bool) (a : expr) : builder expr := node NumToField (u32_size ext) [a].
(* 222-234 *)
Definition field_to_num (a : expr) : builder expr :=
  do s <- get (var_size a); run check (s =? 1); node FieldToNum s [a].
(* 236-247 *)
Definition four_u32_to_u32 (a : expr) : builder expr :=
  do s <- get (var_size a); run check (s =? 4); node FourU32ToU32 1 [a].
(* 249-261 *)
Definition lookup (ext : bool) (a : expr) (index : Z) (len : nat) : builder expr :=
  do c <- constant_u32 index; node (Lookup ext len) (u32_size ext) [a; c].
(* 263-279 *)
Definition from_table (ext : bool) (t : list BB4) : builder expr :=
  node (Table (map (limbs (u32_size ext)) t)) (u32_size ext) [].
(* 281-297 *)
Definition sponge_state_init : builder expr := node (Table (repeat [0%Z] 32)) 1 [].

(* 650-690, 718-737 and [impl Mul]: Add, Sub, Mul *)
Definition binary (o : opcode) (a b : expr) : builder expr :=
  do s <- get (var_size a); do t <- get (var_size b); node o (Nat.max s t) [a; b].
Definition add := binary Add.
Definition subtract := binary Sub.
Definition mul := binary Mul.
(* 299-311, 327-339, 355-367: add_ext, mul_ext, sub_ext; [f] and [ef] are the two type
   parameters *)
Definition binary_ext (o : opcode) (f ef : bool) (a b : expr) : builder expr :=
  run check (u32_size f =? 1); run check (u32_size ef =? 4); node o (u32_size ef) [a; b].
(* 313-325, 341-353, 369-381: add_base, mul_base, sub_base *)
Definition binary_base (o : opcode) (f base : bool) (a b : expr) : builder expr :=
  run check (u32_size f =? 4); run check (u32_size base =? 1); node o (u32_size f) [a; b].

(* 712-716 and [impl Product]: Sum and Product.  [unwrap_or] builds the neutral
   constant (and uses up an identifier) in every case. *)
Fixpoint reduce (o : opcode) (acc : expr) (l : list expr) : builder expr :=
  match l with
  | [] => ret acc
  | x :: r => do s <- binary o acc x; reduce o s r
  end.
Definition sum (ext : bool) (l : list expr) : builder expr :=
  match l with
  | [] => constant_f ext (f0 : BB4)
  | x :: r => do s <- reduce Add x r; run constant_f ext (f0 : BB4); ret s
  end.
Definition product (ext : bool) (l : list expr) : builder expr :=
  match l with
  | [] => constant_f ext (f1 : BB4)
  | x :: r => do s <- reduce Mul x r; run constant_f ext (f1 : BB4); ret s
  end.

(* 424-435 *)
Definition blake3 (ext : bool) (state : list expr) : builder expr := node Blake3Perm (u32_size ext) state.
(* 437-447 *)
Definition to_sample (ext : bool) (a : expr) : builder expr := node ToSample (u32_size ext) [a].
(* 449-459 *)
Definition sample_base (a : expr) : builder expr := node SampleBase 1 [a].
(* 465-475 *)
Definition sample_ext (a : expr) : builder expr := node SampleExt 4 [a].

(** ** Inputs *)
(** input_manager.rs:174-193 (VarWithValue::new(value, 5, counter): row 5, no
    expected size) *)
Definition input_var (counter : nat) : variable := mkvar 5 counter None.
Definition assign_input (counter : nat) (v : list Z) : builder expr :=
  node (InputVarMove (input_var counter)) (length v) [].
(** variable.rs: From<Variable>, From<ValueVariable> *)
Definition copy_input (x : variable) (size : nat) : builder expr := node (InputVarCopy x) size [].

(** ** Histories of calls
    A client holds handles to the expressions made so far (positions in [pool],
    oldest first) and calls the functions above. *)
(** script_expr/src/alias.rs 59-476, one constructor per function *)
Inductive call :=
| CConstant (v : list Z)
| CEqual (a b : nat) | CEqualVerify (a b : nat)
| CExtract (a len : nat)
| CExp (ext : bool) (a power : nat)
| CRou (ext : bool) (index : Z) (bits : nat)
| CRouExt (base ext : bool) (index : Z) (bits : nat)
| CRouDsl (ext : bool) (a bits : nat)
| CReverse (index : Z) (bits : nat)
| CSquare (a : nat) | CDouble (a : nat) | CNeg (a : nat)
| CNumToField (ext : bool) (a : nat) | CFieldToNum (a : nat) | CFour (a : nat)
| CLookup (ext : bool) (a : nat) (index : Z) (len : nat)
| CTable (ext : bool) (t : list BB4) | CSponge
| CAdd (a b : nat) | CSub (a b : nat) | CMul (a b : nat)
| CAddExt (f ef : bool) (a b : nat) | CSubExt (f ef : bool) (a b : nat) | CMulExt (f ef : bool) (a b : nat)
| CAddBase (f base : bool) (a b : nat) | CSubBase (f base : bool) (a b : nat) | CMulBase (f base : bool) (a b : nat)
| CBlake3 (ext : bool) (state : list nat)
| CToSample (ext : bool) (a : nat) | CSampleBase (a : nat) | CSampleExt (a : nat)
| CInputMove (counter : nat) (v : list Z) | CInputCopy (x : variable) (size : nat).

(** the Arc clones of a Dsl, script_expr/src/alias.rs 53-57 *)
Fixpoint handles (pool : list expr) (l : list nat) : option (list expr) :=
  match l with
  | [] => Some []
  | a :: r => match nth_error pool a, handles pool r with
              | Some x, Some xs => Some (x :: xs)
              | _, _ => None
              end
  end.

(** script_expr/src/alias.rs 59-476 *)
Definition perform (pool : list expr) (c : call) : builder expr :=
  let one a f := do x <- get (nth_error pool a); f x in
  let two a b f := do x <- get (nth_error pool a); do y <- get (nth_error pool b); f x y in
  match c with
  | CConstant v => constant v
  | CEqual a b => two a b equal
  | CEqualVerify a b => two a b equal_verify
  | CExtract a len => one a (fun x => extract_bits x len)
  | CExp ext a power => one a (fun x => exp_constant ext x power)
  | CRou ext index bits => index_to_rou ext index bits
  | CRouExt base ext index bits => index_to_rou_ext base ext index bits
  | CRouDsl ext a bits => one a (fun x => index_to_rou_dsl ext x bits)
  | CReverse index bits => reverse_bits_len index bits
  | CSquare a => one a square
  | CDouble a => one a double
  | CNeg a => one a neg
  | CNumToField ext a => one a (num_to_field ext)
  | CFieldToNum a => one a field_to_num
  | CFour a => one a four_u32_to_u32
  | CLookup ext a index len => one a (fun x => lookup ext x index len)
  | CTable ext t => from_table ext t
  | CSponge => sponge_state_init
  | CAdd a b => two a b add
  | CSub a b => two a b subtract
  | CMul a b => two a b mul
  | CAddExt f ef a b => two a b (binary_ext Add f ef)
  | CSubExt f ef a b => two a b (binary_ext Sub f ef)
  | CMulExt f ef a b => two a b (binary_ext Mul f ef)
  | CAddBase f base a b => two a b (binary_base Add f base)
  | CSubBase f base a b => two a b (binary_base Sub f base)
  | CMulBase f base a b => two a b (binary_base Mul f base)
  | CBlake3 ext state => do xs <- get (handles pool state); blake3 ext xs
  | CToSample ext a => one a (to_sample ext)
  | CSampleBase a => one a sample_base
  | CSampleExt a => one a sample_ext
  | CInputMove counter v => assign_input counter v
  | CInputCopy x size => copy_input x size
  end.

(** any sequence of calls of script_expr/src/alias.rs 59-476 *)
Fixpoint history (cs : list call) (pool : list expr) : builder (list expr) :=
  match cs with
  | [] => ret pool
  | c :: r => do e <- perform pool c; history r (pool ++ [e])
  end.
