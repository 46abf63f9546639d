(** The expression language of /repo/script_expr: nodes, script generators of
    every opcode, the stack tracker they drive, usage counting
    ([simulate_express]) and script generation ([express_to_script]).

    [None] stands for a panic (failed assertion, [unwrap] of [None], arithmetic
    underflow).  Naming, debug output and tracing of the Rust code are dropped. *)
From Coq Require Import ZArith List Bool Arith.
From Verif Require Import ScriptNum ScriptVM U32Model U31Model HelperModel Blake3Model.
Import ListNotations.
Local Open Scope nat_scope.

(** ** Variables *)
(** variable.rs:132-136.  [Variable] is the key of the input map; its derived
    equality compares all three fields. *)
Record variable := mkvar { row_index : nat; column_index : nat; expect_var_size : option nat }.

Definition onat_eqb (a b : option nat) : bool :=
  match a, b with
  | None, None => true
  | Some x, Some y => x =? y
  | _, _ => false
  end.
Definition variable_eqb (a b : variable) : bool :=
  (row_index a =? row_index b) && (column_index a =? column_index b) &&
  onat_eqb (expect_var_size a) (expect_var_size b).

(** ** The stack tracker
    [StackTracker] and [StackVariable] come from the external crate
    bitcoin_script_stack (a fork whose source is not in /repo).  Modelled: the two
    stacks of variables (top first), each variable an identifier and a number of
    stack items, and the script emitted so far.  The moves between the stacks are
    written with the opcodes of the upstream crate; the two functions that exist
    only in the fork ([copy_var_from_altstack], [move_var_from_altstack]) are
    written with the obvious opcode sequence. *)
(** the type of the values of var_getter, script_expr/src/script_gen.rs 52 *)
Definition svar := (nat * nat)%type.          (* identifier, size *)
(** the argument stack of script_expr/src/script_gen.rs 52 *)
Record tracker := mktracker {
  t_next : nat;            (* next fresh identifier *)
  t_main : list svar;
  t_alt : list svar;
  t_script : script }.

(** StackTracker::new (external), called at script_expr/src/lib.rs 198 and alias.rs 550, 565 *)
Definition tracker_new : tracker := mktracker 0 [] [] [].

(** size of a part of the stack; used by the external operations below *)
Definition items (l : list svar) : nat := list_sum (map snd l).

(** Number of items above a variable, and the stack without it. *)
(** part of copy_var and move_var, called at script_expr/src/script_gen.rs 165, 178 *)
Fixpoint find_var (id : nat) (l : list svar) : option (nat * nat * list svar) :=
  match l with
  | [] => None
  | (i, s) :: r =>
      if i =? id then Some (0, s, r)
      else match find_var id r with
           | Some (o, s', r') => Some (s + o, s', (i, s) :: r')
           | None => None
           end
  end.

(** Push [n] new variables of the given sizes (last one on top); the new
    variables are returned in the order of the pushes. *)
(** part of custom1, called at script_expr/src/script_gen.rs 190-206 and the other generators *)
Fixpoint fresh_vars (next : nat) (sizes : list nat) : list svar :=
  match sizes with
  | [] => []
  | s :: r => (next, s) :: fresh_vars (S next) r
  end.

(** StackTracker::custom / custom1 (external): run a script that consumes
    [consumes] variables and leaves new ones of the given sizes. *)
(** called at script_expr/src/script_gen.rs 190-206, 295 and the other generators *)
Definition custom (p : script) (consumes : nat) (outs : list nat) (T : tracker)
  : option (tracker * list svar) :=
  if consumes <=? length (t_main T) then
    let vs := fresh_vars (t_next T) outs in
    Some (mktracker (t_next T + length outs) (rev vs ++ skipn consumes (t_main T))
                    (t_alt T) (t_script T ++ p), vs)
  else None.

(** StackTracker::copy_var (external): [size] times [offset+size-1 OP_PICK]. *)
(** called at script_expr/src/script_gen.rs 165 and lib.rs 150 *)
Definition copy_var (v : svar) (T : tracker) : option (tracker * svar) :=
  match find_var (fst v) (t_main T) with
  | None => None
  | Some (o, s, _) =>
      let n := (t_next T, s) in
      Some (mktracker (S (t_next T)) (n :: t_main T) (t_alt T)
              (t_script T ++ repeat_script s [pushnat (o + s - 1); OP_PICK]), n)
  end.

(** StackTracker::move_var (external): the same with OP_ROLL. *)
(** called at script_expr/src/script_gen.rs 178 *)
Definition move_var (v : svar) (T : tracker) : option (tracker * svar) :=
  match find_var (fst v) (t_main T) with
  | None => None
  | Some (o, s, r) =>
      let n := (t_next T, s) in
      Some (mktracker (S (t_next T)) (n :: r) (t_alt T)
              (t_script T ++ repeat_script s [pushnat (o + s - 1); OP_ROLL]), n)
  end.

(** StackTracker::to_altstack (external): move the top variable. *)
(** called at script_expr/src/script_gen.rs 305 and lib.rs 151 *)
Definition to_altstack (T : tracker) : option (tracker * svar) :=
  match t_main T with
  | [] => None
  | v :: r => Some (mktracker (t_next T) r (v :: t_alt T)
                      (t_script T ++ repeat_script (snd v) [OP_TOALTSTACK]), v)
  end.

(** Fork of StackTracker: copy a variable of the alt stack to the top of the main
    stack.  Everything above it is brought to the main stack and put back. *)
(** called at script_expr/src/lib.rs 99, 111 *)
Definition alt_fetch (o s : nat) : script := repeat_script (o + s) [OP_FROMALTSTACK].
(** called at script_expr/src/lib.rs 111 *)
Definition alt_restore (o s : nat) : script := repeat_script o [pushnat s; OP_ROLL; OP_TOALTSTACK].
(** called at script_expr/src/lib.rs 111 *)
Definition copy_var_from_altstack (v : svar) (T : tracker) : option (tracker * svar) :=
  match find_var (fst v) (t_alt T) with
  | None => None
  | Some (o, s, _) =>
      let n := (t_next T, s) in
      Some (mktracker (S (t_next T)) (n :: t_main T) (t_alt T)
              (t_script T ++ alt_fetch o s ++ repeat_script s [pushnat (s - 1); OP_PICK] ++
               repeat_script s [OP_TOALTSTACK] ++ alt_restore o s), n)
  end.
(** Fork of StackTracker: the same, but the variable leaves the alt stack. *)
(** called at script_expr/src/lib.rs 99 *)
Definition move_var_from_altstack (v : svar) (T : tracker) : option (tracker * svar) :=
  match find_var (fst v) (t_alt T) with
  | None => None
  | Some (o, s, r) =>
      let n := (t_next T, s) in
      Some (mktracker (S (t_next T)) (n :: t_main T) r
              (t_script T ++ alt_fetch o s ++ alt_restore o s), n)
  end.

(** ** Opcodes *)
(** script_gen.rs:25-50 with the data carried by the custom opcodes.  [ext] is the
    type parameter F of the builder: false for BabyBear (U32_SIZE 1), true for the
    degree-4 extension (U32_SIZE 4). *)
Inductive opcode :=
| Add | Mul | Sub | Neg | Equal | EqualVerify | NumToField | FieldToNum
| ExtractHighBits (len : nat)
| Constant (v : list Z)
| ExpConst (ext : bool) (power : nat)
| IndexToRou (ext : bool) (bits : nat)
| Lookup (ext : bool) (len : nat)
| InputVarMove (v : variable)
| InputVarCopy (v : variable)
| Table (rows : list (list Z))
| Square | Double | Blake3Perm | ToSample | SampleBase | SampleExt
| ReverseBitslen (bits : nat)
| FourU32ToU32.

(** The const generics INPUT_NUM and OUTPUT_NUM with which alias.rs (60-475),
    input_manager.rs (176-194) and variable.rs build each opcode; [None] is
    DYNAMIC_INPUT_OR_OUTPUT (lib.rs:61). *)
Definition input_number (o : opcode) : option nat :=
  match o with
  | Add | Mul | Sub | Equal | EqualVerify | Lookup _ _ => Some 2
  | Blake3Perm => Some 33
  | Constant _ | Table _ | InputVarMove _ | InputVarCopy _ => Some 0
  | _ => Some 1
  end.
Definition output_number (o : opcode) : option nat :=
  match o with
  | EqualVerify => Some 0
  | Blake3Perm => Some 32
  | ToSample => Some 8
  | Table _ => None
  | _ => Some 1
  end.

(** Which of the three node types (opcode.rs:137, 233, 336) holds the opcode:
    StandardOpcode refuses to report a size of 0 (opcode.rs:208-214), the other
    two accept it (311-317, 405-411). *)
Definition is_standard (o : opcode) : bool :=
  match o with
  | ExtractHighBits _ | Constant _ | ExpConst _ _ | IndexToRou _ _ | Lookup _ _
  | InputVarMove _ | InputVarCopy _ | Table _ | ReverseBitslen _ => false
  | _ => true
  end.

(** A node: identifier, opcode, declared size of its value, operands.  In Rust the
    operands are shared pointers and the identifier is taken from a global counter
    (alias.rs:24-28); here sharing is equality of identifiers. *)
Inductive expr := Node (id : nat) (op : opcode) (size : nat) (ops : list expr).
Definition e_id (e : expr) : nat := let 'Node i _ _ _ := e in i.
Definition e_op (e : expr) : opcode := let 'Node _ o _ _ := e in o.
Definition e_size (e : expr) : nat := let 'Node _ _ s _ := e in s.
Definition e_ops (e : expr) : list expr := let 'Node _ _ _ l := e in l.

(** var_size(), opcode.rs:208-214, 311-317, 405-411 *)
Definition var_size (e : expr) : option nat :=
  let s := e_size e in
  if (s =? 1) || (s =? 4) || ((s =? 0) && negb (is_standard (e_op e))) then Some s else None.

(** ** Script generators *)
(** Scripts of the external crate rust_bitcoin_u31_or_u30 that have no copy in
    /repo (scripts/src/lib.rs:29-34). *)
Record gadgets := mkgadgets {
  g_neg : script;              (* u31_neg *)
  g_to_ext : script;           (* u31_to_u31ext *)
  g_ext_add_u31 : script;      (* u31ext_add_u31 *)
  g_ext_sub_u31 : script;      (* u31ext_sub_u31 *)
  g_u31_sub_ext : script;      (* u31_sub_u31ext *)
  g_ext_mul : script;          (* u31ext_mul *)
  g_ext_mul_u31 : script;      (* u31ext_mul_u31 *)
  g_ext_neg : script           (* u31ext_neg *)
}.

(** What a generator does to the tracker: one custom1 call. *)
(** the arguments of custom1 in script_expr/src/script_gen.rs, for instance 190-206 *)
Record emission := mkem { em_script : script; em_consumes : nat; em_outs : list nat }.

(** log2_strict_usize (p3_util, external): panics unless a power of two. *)
(** called at script_expr/src/script_gen.rs 378 *)
Definition log2_strict (n : nat) : option nat :=
  if (n =? 2 ^ Nat.log2 n)%nat then Some (Nat.log2 n) else None.

(** scripts/src/lib.rs:46-51 *)
Definition u31ext_square (G : gadgets) : script := OP_4DUP ++ g_ext_mul G.

(** script_helper.rs:332-351 *)
Definition value_exp (G : gadgets) (ext : bool) (log_n : nat) : script :=
  if ext then repeat_script log_n (u31ext_square G) else value_exp_n log_n.

(** [for i in 0..n { {(i+1)*k} roll }] *)
(** script_expr/src/script_gen.rs 796-798, 715-717 *)
Definition roll_reverse (n k : nat) (roll : script) : script :=
  flat_map (fun i => pushnat ((i + 1) * k) :: roll) (seq 0 n).

Section Generators.
  Variable G : gadgets.

  (** script_gen.rs:472-522, 524-574, 652-702: the common shape of Sub, Add, Mul *)
  Definition op_binary (base ext_ext ext_base base_ext : script) (sizes : list nat) : option emission :=
    match sizes with
    | [a; b] =>
        if a =? b then Some (mkem (if a =? 1 then base else ext_ext) 2 [a])
        else if b <? a then Some (mkem ext_base 2 [Nat.max a b])
        else Some (mkem (pushnat 4 :: OP_ROLL :: base_ext) 2 [Nat.max a b])
    | _ => None
    end.

  (** script_gen.rs:447-470, 576-650: the common shape of Neg, Double, Square *)
  Definition op_unary (base ext : script) (sizes : list nat) : option emission :=
    match sizes with
    | [a] => Some (mkem (if a =? 1 then base else ext) 1 [a])
    | _ => None
    end.

  (** The generators of script_gen.rs.  [sizes] is [vars_size], the declared sizes
      of the operands.  The two input opcodes are in [run_generator]. *)
  Definition generate (o : opcode) (sizes : list nat) : option emission :=
    match o with
    | Add => op_binary u31_add u31ext_add (g_ext_add_u31 G) (g_ext_add_u31 G) sizes
    | Sub => op_binary u31_sub u31ext_sub (g_ext_sub_u31 G) (g_u31_sub_ext G) sizes
    | Mul => op_binary u31_mul (g_ext_mul G) (g_ext_mul_u31 G) (g_ext_mul_u31 G) sizes
    | Neg => op_unary (g_neg G) (g_ext_neg G) sizes
    | Double => op_unary u31_double u31ext_double sizes
    | Square => op_unary u31_square (u31ext_square G) sizes
    | Equal =>                                          (* 402-424 *)
        match sizes with
        | [a; b] => if a =? b then
                      Some (mkem (if a =? 1 then [OP_EQUAL] else u31ext_equalverify ++ [PUSHN 1]) 2 [1])
                    else None
        | _ => None
        end
    | EqualVerify =>                                    (* 426-446 *)
        match sizes with
        | [a; b] => if a =? b then
                      Some (mkem (if a =? 1 then [OP_EQUALVERIFY] else u31ext_equalverify) 2 [])
                    else None
        | _ => None
        end
    | NumToField =>                                     (* 183-208 *)
        match sizes with
        | [a] => Some (mkem (if a =? 1 then u32_to_u31 else u32_to_u31 ++ g_to_ext G) 1 [a])
        | _ => None
        end
    | FieldToNum =>                                     (* 211-236 *)
        match sizes with
        | [a] => if a =? 1 then Some (mkem [] 1 [1])
                 else if a =? 4 then Some (mkem [] 1 [1; 1; 1; 1]) else None
        | _ => None
        end
    | FourU32ToU32 =>                                   (* 238-262 *)
        match sizes with
        | [a] => if a =? 4 then
                   Some (mkem [OP_TOALTSTACK; OP_DROP; OP_DROP; OP_DROP; OP_FROMALTSTACK] 1 [1])
                 else None
        | _ => None
        end
    | ExtractHighBits len =>                            (* 264-285 *)
        match sizes with
        | [a] => if a =? 1 then
                   match extract_high_bits len with
                   | Some p => Some (mkem p 1 [1])
                   | None => None
                   end
                 else None
        | _ => None
        end
    | Lookup ext len =>                                 (* 286-312 *)
        match sizes with
        | a :: _ => if (a =? 1) && negb ext then
                      Some (mkem ([OP_PICK; OP_TOALTSTACK] ++ repeat_script len [OP_DROP] ++
                                  [OP_FROMALTSTACK]) (1 + len) [1])
                    else None
        | _ => None
        end
    | Table rows =>                                     (* 314-327 *)
        Some (mkem (flat_map push_vec (rev rows)) 0 (map (@length Z) (rev rows)))
    | IndexToRou ext bits =>                            (* 329-348 *)
        match index_to_rou ext (if ext then g_ext_mul G else u31_mul) bits with
        | Some p => Some (mkem p 1 [if ext then 4 else 1])
        | None => None
        end
    | ReverseBitslen bits =>                            (* 349-367 *)
        match index_to_reverse_index bits with
        | Some p => Some (mkem p 1 [1])
        | None => None
        end
    | ExpConst ext power =>                             (* 369-389 *)
        match sizes, log2_strict power with
        | a :: _, Some k => Some (mkem (value_exp G ext k) 1 [a])
        | _, _ => None
        end
    | Constant v => Some (mkem (push_vec v) 0 [length v])   (* 391-400 *)
    | Blake3Perm =>                                     (* 704-727 *)
        match blake3 with
        | Some p => if length sizes =? 33 then
                      Some (mkem (p ++ roll_reverse 7 4 OP_4ROLL) 64 (repeat 1 32))
                    else None
        | None => None
        end
    | SampleBase =>                                     (* 729-753 *)
        match sizes with
        | a :: _ => if a =? 1 then
                      Some (mkem ([OP_TOALTSTACK] ++ repeat_script 7 [OP_DROP] ++ [OP_FROMALTSTACK]) 8 [1])
                    else None
        | _ => None
        end
    | SampleExt =>                                      (* 755-776 *)
        Some (mkem (OP_4TOALTSTACK ++ OP_4DROP ++ OP_4FROMALTSTACK) 8 [4])
    | ToSample =>                                       (* 778-808 *)
        if length sizes =? 1 then
          Some (mkem (repeat_script 8 (u32_compress ++ u32_to_u31 ++ [OP_TOALTSTACK]) ++
                      repeat_script 8 [OP_FROMALTSTACK] ++ roll_reverse 7 1 [OP_ROLL]) 32 (repeat 1 8))
        else None
    | InputVarMove _ | InputVarCopy _ => None
    end.

  Definition getter := variable -> option svar.

  (** generate_script_fn applied to (vars_size, stack, var_getter);
      script_gen.rs:157-180 for the input opcodes. *)
  Definition run_generator (gt : getter) (o : opcode) (sizes : list nat) (T : tracker)
    : option (tracker * list svar) :=
    match o with
    | InputVarCopy x =>
        match sizes, gt x with
        | [], Some v => match copy_var v T with Some (T', n) => Some (T', [n]) | None => None end
        | _, _ => None
        end
    | InputVarMove x =>
        match sizes, gt x with
        | [], Some v => match move_var v T with Some (T', n) => Some (T', [n]) | None => None end
        | _, _ => None
        end
    | _ =>
        match generate o sizes with
        | Some em => custom (em_script em) (em_consumes em) (em_outs em) T
        | None => None
        end
    end.

  (** ** Usage counting and generation *)
  (** lib.rs:45-59; u32 counters modelled as unbounded *)
  Record idcount := mkic { count : nat; copied : nat; stack_var : option svar }.
  Definition idmap := nat -> option idcount.
  Definition map_empty : idmap := fun _ => None.
  Definition map_insert (i : nat) (c : idcount) (m : idmap) : idmap :=
    fun j => if j =? i then Some c else m j.

  (** lib.rs:67-83 *)
  Fixpoint simulate_express (e : expr) (m : idmap) : idmap :=
    let 'Node id _ _ ops := e in
    match m id with
    | Some c => map_insert id (mkic (S (count c)) (copied c) (stack_var c)) m
    | None => fold_left (fun m o => simulate_express o m) ops (map_insert id (mkic 1 0 None) m)
    end.

  Definition number_ok (n : option nat) (k : nat) : bool :=
    match n with None => true | Some m => k =? m end.
  Definition single (o : opcode) : bool :=
    match output_number o with Some 1 => true | _ => false end.

  (** lib.rs:146-155: after the script of a node used more than once, keep a copy
      on the alt stack *)
  Definition keep_copy (id : nat) (vars : list svar) (T : tracker) (m : idmap)
    : option (tracker * idmap * list svar) :=
    match m id with
    | None => None
    | Some c =>
        match stack_var c with
        | None =>
            if (1 <? count c) && (copied c =? 0) then
              match vars with
              | [] => None
              | v :: _ =>
                  match copy_var v T with
                  | Some (T1, _) =>
                      match to_altstack T1 with
                      | Some (T2, cv) =>
                          Some (T2, map_insert id (mkic (count c) (copied c) (Some cv)) m, [v])
                      | None => None
                      end
                  | None => None
                  end
              end
            else Some (T, m, vars)
        | Some _ => Some (T, m, vars)
        end
    end.

  (** lib.rs:95-123: reuse of a kept copy.  The outer [None]: not applicable. *)
  Definition reuse (id : nat) (T : tracker) (m : idmap) : option (option (tracker * idmap * list svar)) :=
    match m id with
    | None => Some None
    | Some c =>
        match stack_var c with
        | Some v =>
            if 1 <? count c then
              if copied c =? count c - 2 then
                Some (match move_var_from_altstack v T with
                      | Some (T', n) => Some (T', m, [n])
                      | None => None
                      end)
              else
                Some (match copy_var_from_altstack v T with
                      | Some (T', n) =>
                          Some (T', map_insert id (mkic (count c) (S (copied c)) (Some v)) m, [n])
                      | None => None
                      end)
            else None
        | None => None
        end
    end.

  (** lib.rs:86-161 *)
  Fixpoint express_to_script (gt : getter) (optimize : bool) (e : expr) (T : tracker) (m : idmap)
    : option (tracker * idmap * list svar) :=
    let 'Node id o sz ops := e in
    match (if optimize && single o then reuse id T m else None) with
    | Some r => r
    | None =>
        if number_ok (input_number o) (length ops) then
          match (fix operands (l : list expr) (T : tracker) (m : idmap)
                   : option (tracker * idmap * list nat) :=
                   match l with
                   | [] => Some (T, m, [])
                   | x :: r =>
                       match express_to_script gt optimize x T m with
                       | Some (T1, m1, _) =>
                           match var_size x with
                           | Some s =>
                               match operands r T1 m1 with
                               | Some (T2, m2, ss) => Some (T2, m2, s :: ss)
                               | None => None
                               end
                           | None => None
                           end
                       | None => None
                       end
                   end) ops T m with
          | Some (T1, m1, sizes) =>
              match run_generator gt o sizes T1 with
              | Some (T2, vars) =>
                  if number_ok (output_number o) (length vars) then
                    if optimize && single o then keep_copy id vars T2 m1
                    else Some (T2, m1, vars)
                  else None
              | None => None
              end
          | None => None
          end
        else None
    end.

  (** alias.rs:516-541, express and express1 *)
  Definition express (gt : getter) (optimize : bool) (e : expr) (T : tracker)
    : option (tracker * idmap * list svar) :=
    express_to_script gt optimize e T (simulate_express e map_empty).
End Generators.
