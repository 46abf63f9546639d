(** Meaning of an expression, and the static conditions under which script
    generation is meant to be used.

    The meaning is given on values (lists of 32-bit limbs), without scripts,
    stacks or caching. *)
From Coq Require Import ZArith List Bool Arith.
From Verif Require Import ScriptNum ScriptVM DslModel.
Import ListNotations.
Local Open Scope nat_scope.

(** Result of evaluating a node: its output values, top of the stack first, or
    the script must fail.  ([None] below: nothing is claimed.) *)
Inductive res := Leaves (outs : list (list Z)) | Fails.

(** Operands are evaluated in order; the first that fails decides. *)
Definition seq_res (r1 r2 : option res) : option res :=
  match r1 with
  | Some (Leaves a) =>
      match r2 with
      | Some (Leaves b) => Some (Leaves (b ++ a))
      | x => x
      end
  | x => x
  end.
Definition collect (l : list (option res)) : option res :=
  fold_right seq_res (Some (Leaves [])) l.

Definition environment := variable -> option (list Z).

Section Eval.
  (** meaning of an opcode: declared operand sizes, operand values (top first) *)
  Variable op_sem : opcode -> list nat -> list (list Z) -> option res.

  Definition node_sem (env : environment) (o : opcode) (sizes : list nat) (ins : list (list Z)) : option res :=
    match o with
    | InputVarMove x | InputVarCopy x =>
        match env x with Some v => Some (Leaves [v]) | None => None end
    | _ => op_sem o sizes ins
    end.

  Definition then_res (r : option res) (f : list (list Z) -> option res) : option res :=
    match r with Some (Leaves ins) => f ins | x => x end.

  Fixpoint eval (env : environment) (e : expr) : option res :=
    let 'Node _ o _ ops := e in
    then_res (collect (map (eval env) ops)) (node_sem env o (map e_size ops)).
End Eval.

(** ** Static conditions *)
Definition input_of (o : opcode) : option (bool * variable) :=
  match o with
  | InputVarMove x => Some (true, x)
  | InputVarCopy x => Some (false, x)
  | _ => None
  end.

Fixpoint all_some {A} (l : list (option A)) : option (list A) :=
  match l with
  | [] => Some []
  | Some x :: r => match all_some r with Some xs => Some (x :: xs) | None => None end
  | None :: _ => None
  end.

Section Shape.
  Variable G : gadgets.
  Variable gt : getter.

  (** Output sizes (top first) of a node whose whole tree passes the assertions of
      the generators, finds its inputs, and consumes exactly its operands. *)
  Fixpoint shape (e : expr) : option (list nat) :=
    let 'Node _ o _ ops := e in
    match all_some (map shape ops), all_some (map var_size ops) with
    | Some ss, Some sizes =>
        if number_ok (input_number o) (length ops) then
          match input_of o with
          | Some (_, x) => match gt x with Some v => Some [snd v] | None => None end
          | None =>
              match generate G o sizes with
              | Some em =>
                  if (em_consumes em =? length (concat ss)) &&
                     number_ok (output_number o) (length (em_outs em))
                  then Some (rev (em_outs em)) else None
              | None => None
              end
          end
        else None
    | _, _ => None
    end.

  Definition outsize (e : expr) : nat :=
    match shape e with Some l => list_sum l | None => 0 end.

  (** Stack items needed above the operands already there. *)
  Fixpoint needs (l : list (nat * nat)) : nat :=
    match l with [] => 0 | (n, s) :: r => Nat.max n (s + needs r) end.
  Fixpoint need (e : expr) : nat :=
    let 'Node _ _ _ ops := e in
    Nat.max (outsize e) (needs (map (fun x => (need x, outsize x)) ops)).

  (** Input variables used, in order; [true]: moved, [false]: copied. *)
  Fixpoint inputs (e : expr) : list (bool * svar) :=
    let 'Node _ o _ ops := e in
    match input_of o with
    | Some (b, x) => match gt x with Some v => [(b, v)] | None => [] end
    | None => []
    end ++ flat_map inputs ops.
  Definition moved (e : expr) : list nat :=
    map (fun p => fst (snd p)) (filter fst (inputs e)).
  Definition memb (i : nat) (l : list nat) : bool := existsb (Nat.eqb i) l.
  Definition without (l : list nat) (vs : list svar) : list svar :=
    filter (fun v => negb (memb (fst v) l)) vs.
End Shape.

(** ** Sharing *)
Inductive sub : expr -> expr -> Prop :=
| sub_refl : forall e, sub e e
| sub_step : forall e x f, In x (e_ops f) -> sub e x -> sub e f.

(** Identifiers are unique: two nodes with the same identifier are the same node.
    (In Rust: identifiers come from a counter.) *)
Definition unique_ids (r : expr) : Prop :=
  forall a b, sub a r -> sub b r -> e_id a = e_id b -> a = b.

(** Number of references to a node in the graph: one for the root and one for each
    operand position of each (distinct) node.  Computed by a traversal that enters
    a node only at its first visit. *)
Definition upd (V : nat -> nat) (i n : nat) : nat -> nat := fun j => if j =? i then n else V j.
Fixpoint visit (e : expr) (V : nat -> nat) : nat -> nat :=
  let 'Node id _ _ ops := e in
  if V id =? 0 then upd (fold_left (fun V o => visit o V) ops V) id 1
  else upd V id (S (V id)).
Definition refs (r : expr) : nat -> nat := visit r (fun _ => 0).
