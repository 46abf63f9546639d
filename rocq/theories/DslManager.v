(** Input managers (/repo/script_expr/src/input_manager.rs) and the counter of
    distinct values (value_manager.rs). *)
From Coq Require Import ZArith List Bool Arith.
From Verif Require Import ScriptNum ScriptVM HelperModel DslModel DslBuild.
Import ListNotations.
Local Open Scope nat_scope.

(** ** InputManager, input_manager.rs:123-161
    The name is dropped.  The fields [stack], [var_getter], [id_mapper] are written
    only by simulate_input and run; the model starts them empty in [run], that is,
    it describes the first run of a manager. *)
Record manager := mkman {
  mn_counter : nat;
  mn_inputs : list (variable * list Z);   (* input_var, oldest first *)
  mn_hints : list (variable * list Z);    (* input_hint *)
  mn_exec : option expr;                  (* exec_dsl *)
  mn_checks : list expr                   (* hint *)
}.
(** script_expr/src/input_manager.rs 136-153 *)
Definition manager_new : manager := mkman 0 [] [] None [].

(* 163-165 *)
Definition set_exec_dsl (e : expr) (m : manager) : manager :=
  mkman (mn_counter m) (mn_inputs m) (mn_hints m) (Some e) (mn_checks m).
(* 174-179, 181-189, 201-209 *)
Definition assign_input_var (v : list Z) (m : manager) : builder (expr * manager) :=
  do e <- assign_input (mn_counter m) v;
  ret (e, mkman (S (mn_counter m)) (mn_inputs m ++ [(input_var (mn_counter m), v)]) (mn_hints m) (mn_exec m) (mn_checks m)).
(* 167-172, 191-199, 211-214 *)
Definition assign_input_hint (v : list Z) (m : manager) : builder (expr * manager) :=
  do e <- assign_input (mn_counter m) v;
  ret (e, mkman (S (mn_counter m)) (mn_inputs m) (mn_hints m ++ [(input_var (mn_counter m), v)]) (mn_exec m) (mn_checks m)).
(* 216-218 *)
Definition add_hint_verify (c : expr) (m : manager) : manager :=
  mkman (mn_counter m) (mn_inputs m) (mn_hints m) (mn_exec m) (mn_checks m ++ [c]).
(* 220-228; the checks stay in the list *)
Fixpoint embed (e : option expr) (cs : list expr) : builder (option expr) :=
  match cs with
  | [] => ret e
  | c :: r => do x <- get e; do q <- equal x c; embed (Some q) r
  end.
Definition embed_hint_verify (m : manager) : builder manager :=
  do e <- embed (mn_exec m) (mn_checks m);
  ret (mkman (mn_counter m) (mn_inputs m) (mn_hints m) e (mn_checks m)).

(** StackTracker::bignumber (external): push the words of a value, word 0 on top,
    as one variable. *)
(** called at script_expr/src/input_manager.rs 232, 237 and script_gen.rs 324, 398 *)
Definition bignumber (v : list Z) (T : tracker) : tracker * svar :=
  let n := (t_next T, length v) in
  (mktracker (S (t_next T)) (n :: t_main T) (t_alt T) (t_script T ++ push_vec v), n).
(* 230-241 *)
Definition push_input (s : tracker * getter) (x : variable * list Z) : tracker * getter :=
  let '(T, gt) := s in
  let '(T', n) := bignumber (snd x) T in
  (T', fun y => if variable_eqb y (fst x) then Some n else gt y).
Definition simulate_input (m : manager) : tracker * getter :=
  fold_left push_input (rev (mn_hints m)) (fold_left push_input (rev (mn_inputs m)) (tracker_new, fun _ => None)).

(* 243-266; [false]: panic *)
Definition run_manager (H : bytes -> bytes) (G : gadgets) (m : manager) : bool :=
  match mn_exec m with
  | None => true
  | Some e =>
      let '(T, gt) := simulate_input m in
      match express G gt true e T with
      | Some (T', _, _) => bsucceeds (brun H (t_script T') (mk [] [] []))
      | None => false
      end
  end.

(** ** ManagerAssign, input_manager.rs:14-121
    A handle to a manager is its position in the list. *)
Record assigner := mkassign { as_managers : list manager; as_current : option nat }.
Definition assigner_new : assigner := mkassign [] None.                           (* 28-33 *)
Definition clear (a : assigner) : assigner := mkassign [] None.                   (* 39-42 *)
Definition add_manager (a : assigner) : assigner * nat :=                         (* 44-56 *)
  (mkassign (as_managers a ++ [manager_new]) (as_current a), length (as_managers a)).
Definition next_manager (a : assigner) : assigner * nat :=                        (* 58-74 *)
  add_manager (mkassign (as_managers a)
                 (Some (match as_current a with None => 0 | Some i => i + 1 end))).
Definition current_manager (a : assigner) : option nat :=                         (* 76-81 *)
  match as_current a with
  | Some i => match nth_error (as_managers a) i with Some _ => Some i | None => None end
  | None => None
  end.
Definition move_current_index (i : nat) (a : assigner) : option (assigner * nat) :=   (* 83-87 *)
  if i <? length (as_managers a) then Some (mkassign (as_managers a) (Some i), i) else None.
Definition get_manager (i : nat) (a : assigner) : option nat :=                   (* 89-92 *)
  if i <? length (as_managers a) then Some i else None.
Fixpoint set_nth {A} (l : list A) (i : nat) (x : A) : list A :=
  match l, i with
  | [], _ => []
  | _ :: r, 0 => x :: r
  | y :: r, S i => y :: set_nth r i x
  end.
(* 94-103: the input goes to the current manager *)
Definition assigner_input (v : list Z) (a : assigner) : builder (expr * assigner) :=
  do i <- get (current_manager a);
  do m <- get (nth_error (as_managers a) i);
  do r <- assign_input_var v m;
  ret (fst r, mkassign (set_nth (as_managers a) i (snd r)) (as_current a)).

(** ** ValueCounter, value_manager.rs:3-39 (a u32 counter, not wrapped here) *)
Record value_counter := mkvc { vc_num : nat; vc_register : Z -> option bool }.
Definition vc_new : value_counter := mkvc 0 (fun _ => None).
Definition set_value_bitcomm (v : Z) (c : value_counter) : option value_counter :=
  match vc_register c v with
  | None => Some (mkvc (S (vc_num c)) (fun w => if Z.eqb w v then Some true else vc_register c w))
  | Some _ => None
  end.
Definition get_or_set (v : Z) (c : value_counter) : option (bool * value_counter) :=
  match vc_register c v with
  | Some b => Some (b, c)
  | None => match set_value_bitcomm v c with Some c' => Some (true, c') | None => None end
  end.
Fixpoint register_all (vs : list Z) (c : value_counter) : option (list bool * value_counter) :=
  match vs with
  | [] => Some ([], c)
  | v :: r => match get_or_set v c with
              | Some (b, c') => match register_all r c' with
                                | Some (bs, c'') => Some (b :: bs, c'')
                                | None => None
                                end
              | None => None
              end
  end.
(* input_manager.rs:111-120 *)
Definition set_value_count (a : assigner) (c : value_counter) : option (list bool * value_counter) :=
  register_all (flat_map (fun m => flat_map snd (mn_inputs m)) (as_managers a)) c.
