(** The stack limit of the Bitcoin Script interpreter.

    ScriptVM models the interpreter without its limit of 1000 elements on the
    main and alternative stack together (consensus constant MAX_STACK_SIZE,
    enforced by the external crate [bitcoin_scriptexec] used in
    /repo/scripts/src/lib.rs:97-164 with [Options::default()]).  Here the same
    machine is run with that limit: the initial stack and the stacks after every
    opcode, executed or skipped, must not hold more than [L] elements together. *)
From Coq Require Import ZArith List Bool Lia.
From Verif Require Import ScriptNum ScriptVM TaptreeModel TcsModel.
Import ListNotations.
Open Scope Z_scope.

(** Elements on both stacks. *)
(** what the interpreter called at scripts/src/lib.rs 97-164 limits *)
Definition sheight (s : bst) : Z := Z.of_nat (length (main s)) + Z.of_nat (length (alt s)).

(** one step of the interpreter called at scripts/src/lib.rs 97-164 *)
Definition bstep (H : bytes -> bytes) : op -> bst -> option bst :=
  step bytes dec enc (fun b => b) bytes_eqb btruthy bminbool H.

(** The interpreter with a limit of [L] elements. *)
(** the interpreter called at scripts/src/lib.rs 97-164 *)
Fixpoint lrun (L : Z) (H : bytes -> bytes) (p : script) (s : bst) : option bst :=
  if sheight s <=? L then
    match p with
    | [] => Some s
    | o :: p' => match bstep H o s with Some s' => lrun L H p' s' | None => None end
    end
  else None.

(** MAX_STACK_SIZE *)
(** consensus constant, in force for scripts/src/lib.rs 97-164 (Options::default()) *)
Definition stack_limit : Z := 1000.

(** *** Verification of an opened leaf on the limited interpreter: the definitions of TcsModel
    (basic/src/tcs/mod.rs 140-144 verify_proof, 417-427 verify; basic/src/mmcs/taptree_mmcs.rs
    78-101 verify_batch) with [lrun] in place of [brun]. *)
Section Limited.
  Variable L : Z.
  Variable H : bytes -> bytes.
  Variables (F bc : Type).
  Variable as_u32_vec : F -> list Z.
  Variable bc_witness : bc -> list Z -> list bytes.
  Variable leaf_hash : script -> hash.
  Variable branch_hash : hash -> hash -> hash.

  Definition execute_success_limited (s : script) (witness : list bytes) : bool :=
    bsucceeds (lrun L H s (mk (rev witness) [] [])).
  Definition verify_proof_limited (root : hash) (l : leaf script) (witness : list bytes) : option bool :=
    option_map (fun inclusion => inclusion && execute_success_limited (leaf_script script l) witness)
      (verify_inclusion script leaf_hash branch_hash root l).
  Definition verify_limited (root : hash) (p : commited_proof bc) (opening_values : list F) : option bool :=
    match generate_witness F bc as_u32_vec bc_witness
            {| cl_bcs := cp_bcs bc p; cl_index := cp_query_index bc p; cl_evaluations := opening_values |} with
    | None => None
    | Some w => verify_proof_limited root (cp_leaf bc p) w
    end.
  Definition verify_batch_limited (query_times_index : nat) (opened_values : list (list F))
    (p : commited_proof bc) (roots : list hash) : option bool :=
    match nth_error roots query_times_index with
    | None => None
    | Some root => verify_limited root p (concat opened_values)
    end.
End Limited.

(** *** Static height analysis (a proof device; not part of the repository) *)

(** Change of the height by an executed opcode. *)
(** an analysis of scripts, not code of /repo *)
Definition delta (o : op) : Z :=
  match o with
  | PUSHN _ | PUSHB _ | OP_DUP | OP_OVER | OP_TUCK => 1
  | OP_2DUP | OP_2OVER => 2
  | OP_3DUP => 3
  | OP_DROP | OP_NIP | OP_ROLL | OP_VERIFY | OP_IF | OP_NOTIF => -1
  | OP_2DROP | OP_EQUALVERIFY => -2
  | OP_PICK | OP_ROT | OP_2ROT | OP_SWAP | OP_2SWAP | OP_TOALTSTACK | OP_FROMALTSTACK
  | OP_1ADD | OP_1SUB | OP_NEGATE | OP_ABS | OP_NOT | OP_0NOTEQUAL | OP_HASH160
  | OP_ELSE | OP_ENDIF => 0
  | OP_ADD | OP_SUB | OP_BOOLAND | OP_BOOLOR | OP_NUMEQUAL | OP_NUMNOTEQUAL
  | OP_LESSTHAN | OP_GREATERTHAN | OP_LESSTHANOREQUAL | OP_GREATERTHANOREQUAL
  | OP_MIN | OP_MAX | OP_EQUAL => -1
  end.

(** An open conditional: the height behind OP_IF, and the height at the end of the
    first branch once OP_ELSE has been passed. *)
(** part of the analysis, not code of /repo *)
Definition frame : Type := Z * option Z.

(** Heights relative to the start: [d] now, [lo] the largest outside of all
    conditionals, [hi] the largest anywhere.  [None]: not analysable (branches of
    different effect, unbalanced conditionals). *)
(** part of the analysis, not code of /repo *)
Fixpoint ana (p : script) (fs : list frame) (d lo hi : Z) : option (list frame * Z * Z * Z) :=
  match p with
  | [] => Some (fs, d, lo, hi)
  | o :: p' =>
      match o with
      | OP_IF | OP_NOTIF => ana p' ((d - 1, None) :: fs) (d - 1) lo hi
      | OP_ELSE => match fs with
                   | (d0, None) :: fs' => ana p' ((d0, Some d) :: fs') d0 lo hi
                   | _ => None
                   end
      | OP_ENDIF => match fs with
                    | (d0, e) :: fs' =>
                        if match e with None => d0 =? d | Some dt => dt =? d end
                        then ana p' fs' d lo hi else None
                    | [] => None
                    end
      | _ => let d' := d + delta o in
             ana p' fs d' (match fs with [] => Z.max lo d' | _ => lo end) (Z.max hi d')
      end
  end.

(** the result of the analysis, not code of /repo *)
Definition profile (p : script) : option (Z * Z * Z) :=
  match ana p [] 0 0 0 with
  | Some ([], d, lo, hi) => Some (d, lo, hi)
  | _ => None
  end.
