(** Building expressions in several threads.

    Every constructor of /repo/script_expr/src/alias.rs takes its identifier from the global
    counter OPID (alias.rs 20-28), a mutex: taking an identifier is atomic, everything between two
    of them is local to the thread.  So a thread is a computation that now and then takes an
    identifier ([Take]), and a schedule says whose turn it is.  The functions of DslBuild are
    written again as such computations; PropConc shows that run alone they are those of
    DslBuild. *)
From Coq Require Import ZArith List Bool Arith.
From Verif Require Import Field BabyBear DslModel DslOpSpec DslBuild.
Import ListNotations.
Local Open Scope nat_scope.

(** A computation of alias.rs: finished, about to lock OPID (alias.rs 24-28), or panicked. *)
Inductive proc (A : Type) : Type :=
| Done (a : A)
| Take (k : nat -> proc A)
| Stuck.
Arguments Done {A} a.
Arguments Take {A} k.
Arguments Stuck {A}.

(** One statement after the other. *)
Fixpoint pbind {A B} (p : proc A) (f : A -> proc B) : proc B :=
  match p with
  | Done a => f a
  | Take k => Take (fun i => pbind (k i) f)
  | Stuck => Stuck
  end.
(** An [unwrap] (as [get] of DslBuild) and an assertion (as [check]). *)
Definition pget {A} (o : option A) : proc A := match o with Some a => Done a | None => Stuck end.
Definition pcheck (c : bool) : proc unit := if c then Done tt else Stuck.

(** alias.rs 24-28, get_opid, and a node that stores the identifier *)
Definition pnode (o : opcode) (size : nat) (ops : list expr) : proc expr :=
  Take (fun i => Done (Node i o size ops)).
(** alias.rs 420-422 *)
Definition pconstant_u32 (v : Z) : proc expr := pnode (Constant [v]) 1 [].
(** alias.rs 112-124, 126-139, 155-166: the identifier of the node, then that of its operand; other
    threads may take some in between *)
Definition pown_first (o : opcode) (size : nat) (v : Z) : proc expr :=
  Take (fun i => pbind (pconstant_u32 v) (fun c => Done (Node i o size [c]))).
(** alias.rs 180-204, 800-815 *)
Definition punary (o : opcode) (a : expr) : proc expr := pbind (pget (var_size a)) (fun s => pnode o s [a]).
(** alias.rs 650-690, 718-737, 759-778 *)
Definition pbinary (o : opcode) (a b : expr) : proc expr :=
  pbind (pget (var_size a)) (fun s => pbind (pget (var_size b)) (fun t => pnode o (Nat.max s t) [a; b])).
(** alias.rs 299-311, 327-339, 355-367 *)
Definition pbinary_ext (o : opcode) (f ef : bool) (a b : expr) : proc expr :=
  pbind (pcheck (u32_size f =? 1)) (fun _ => pbind (pcheck (u32_size ef =? 4)) (fun _ => pnode o (u32_size ef) [a; b])).
(** alias.rs 313-325, 341-353, 369-381 *)
Definition pbinary_base (o : opcode) (f base : bool) (a b : expr) : proc expr :=
  pbind (pcheck (u32_size f =? 4)) (fun _ => pbind (pcheck (u32_size base =? 1)) (fun _ => pnode o (u32_size f) [a; b])).

(** alias.rs 59-476: the calls of DslBuild, in a thread *)
Definition pperform (pool : list expr) (c : call) : proc expr :=
  let one a f := pbind (pget (nth_error pool a)) f in
  let two a b f := pbind (pget (nth_error pool a)) (fun x => pbind (pget (nth_error pool b)) (fun y => f x y)) in
  match c with
  | CConstant v => pnode (Constant v) (length v) []
  | CEqual a b => two a b (fun x y => pnode Equal 1 [x; y])
  | CEqualVerify a b => two a b (fun x y => pnode EqualVerify 0 [x; y])
  | CExtract a len => one a (punary (ExtractHighBits len))
  | CExp ext a power => one a (punary (ExpConst ext power))
  | CRou ext index bits => pbind (pcheck (u32_size ext =? 1)) (fun _ => pown_first (IndexToRou ext bits) (u32_size ext) index)
  | CRouExt base ext index bits =>
      pbind (pcheck (u32_size base =? 1)) (fun _ => pbind (pcheck (u32_size ext =? 4)) (fun _ => pown_first (IndexToRou ext bits) (u32_size ext) index))
  | CRouDsl ext a bits => one a (fun x => pnode (IndexToRou ext bits) (u32_size ext) [x])
  | CReverse index bits => pown_first (ReverseBitslen bits) 1 index
  | CSquare a => one a (punary Square)
  | CDouble a => one a (punary Double)
  | CNeg a => one a (punary Neg)
  | CNumToField ext a => one a (fun x => pnode NumToField (u32_size ext) [x])
  | CFieldToNum a => one a (fun x => pbind (pget (var_size x)) (fun s => pbind (pcheck (s =? 1)) (fun _ => pnode FieldToNum s [x])))
  | CFour a => one a (fun x => pbind (pget (var_size x)) (fun s => pbind (pcheck (s =? 4)) (fun _ => pnode FourU32ToU32 1 [x])))
  | CLookup ext a index len => one a (fun x => pbind (pconstant_u32 index) (fun c => pnode (Lookup ext len) (u32_size ext) [x; c]))
  | CTable ext t => pnode (Table (map (limbs (u32_size ext)) t)) (u32_size ext) []
  | CSponge => pnode (Table (repeat [0%Z] 32)) 1 []
  | CAdd a b => two a b (pbinary Add)
  | CSub a b => two a b (pbinary Sub)
  | CMul a b => two a b (pbinary Mul)
  | CAddExt f ef a b => two a b (pbinary_ext Add f ef)
  | CSubExt f ef a b => two a b (pbinary_ext Sub f ef)
  | CMulExt f ef a b => two a b (pbinary_ext Mul f ef)
  | CAddBase f base a b => two a b (pbinary_base Add f base)
  | CSubBase f base a b => two a b (pbinary_base Sub f base)
  | CMulBase f base a b => two a b (pbinary_base Mul f base)
  | CBlake3 ext state => pbind (pget (handles pool state)) (fun xs => pnode Blake3Perm (u32_size ext) xs)
  | CToSample ext a => one a (fun x => pnode ToSample (u32_size ext) [x])
  | CSampleBase a => one a (fun x => pnode SampleBase 1 [x])
  | CSampleExt a => one a (fun x => pnode SampleExt 4 [x])
  | CInputMove counter v => pnode (InputVarMove (input_var counter)) (length v) []
  | CInputCopy x size => pnode (InputVarCopy x) size []
  end.

(** A thread: calls one after the other, on its own handles. *)
Fixpoint pthread (cs : list call) (pool : list expr) : proc (list expr) :=
  match cs with
  | [] => Done pool
  | c :: r => pbind (pperform pool c) (fun e => pthread r (pool ++ [e]))
  end.

(** ** The machine: OPID (alias.rs 20-28) and the threads *)
Record machine := mkmachine { opid : nat; threads : list (proc (list expr)) }.
Fixpoint replace {A} (l : list A) (t : nat) (x : A) : list A :=
  match l, t with
  | [], _ => []
  | _ :: r, O => x :: r
  | y :: r, S t => y :: replace r t x
  end.
(** Thread [t] locks OPID, adds one, reads it and unlocks (alias.rs 25-27).  A thread that has
    finished or panicked does nothing. *)
Definition turn (t : nat) (M : machine) : machine :=
  match nth_error (threads M) t with
  | Some (Take k) => mkmachine (S (opid M)) (replace (threads M) t (k (S (opid M))))
  | _ => M
  end.
Definition schedule (ts : list nat) (M : machine) : machine := fold_left (fun M t => turn t M) ts M.
(** Threads started with handles made before. *)
Definition start (n : nat) (pool : list expr) (css : list (list call)) : machine :=
  mkmachine n (map (fun cs => pthread cs pool) css).
