(** Scripts as bytes.

    The other files treat a script as a list of opcodes.  What the repository puts into a tree and
    hands to the interpreter is a ScriptBuf, a byte string: the macro of scripts/src/lib.rs 76-82
    (bitcoin_script::script, external) appends opcodes, integers (Builder::push_int) and byte strings
    (Builder::push_slice), basic/src/tcs/builder.rs 23-28 hashes the bytes of a leaf, and the
    interpreter called at scripts/src/lib.rs 97-164 reads them back one instruction at a time.
    The encoding is that of Bitcoin, written from the consensus rules.  The limits on the number of
    stack elements and on the sigop budget are left out here as in ScriptVM.v; the limit of 520 bytes
    on the size of an element is not. *)
From Coq Require Import ZArith List Bool Lia.
From Verif Require Import ScriptNum ScriptVM TaptreeModel TcsModel.
Import ListNotations.
Open Scope Z_scope.

(** The byte of an opcode; the two pushes have no byte of their own. *)
(** appended by the macro re-exported at scripts/src/lib.rs 76-82 *)
Definition opbyte (o : op) : Z :=
  match o with
  | PUSHN _ | PUSHB _ => 0
  | OP_IF => 99 | OP_NOTIF => 100 | OP_ELSE => 103 | OP_ENDIF => 104 | OP_VERIFY => 105
  | OP_TOALTSTACK => 107 | OP_FROMALTSTACK => 108 | OP_2DROP => 109 | OP_2DUP => 110 | OP_3DUP => 111
  | OP_2OVER => 112 | OP_2ROT => 113 | OP_2SWAP => 114 | OP_DROP => 117 | OP_DUP => 118 | OP_NIP => 119
  | OP_OVER => 120 | OP_PICK => 121 | OP_ROLL => 122 | OP_ROT => 123 | OP_SWAP => 124 | OP_TUCK => 125
  | OP_EQUAL => 135 | OP_EQUALVERIFY => 136 | OP_1ADD => 139 | OP_1SUB => 140 | OP_NEGATE => 143
  | OP_ABS => 144 | OP_NOT => 145 | OP_0NOTEQUAL => 146 | OP_ADD => 147 | OP_SUB => 148
  | OP_BOOLAND => 154 | OP_BOOLOR => 155 | OP_NUMEQUAL => 156 | OP_NUMNOTEQUAL => 158
  | OP_LESSTHAN => 159 | OP_GREATERTHAN => 160 | OP_LESSTHANOREQUAL => 161 | OP_GREATERTHANOREQUAL => 162
  | OP_MIN => 163 | OP_MAX => 164 | OP_HASH160 => 169
  end.

(** Unsigned little-endian bytes. *)
(** part of Builder::push_slice (external), used by the macro re-exported at scripts/src/lib.rs 76-82 *)
Fixpoint le_bytes (n : nat) (v : Z) : bytes := match n with O => [] | S n => v mod 256 :: le_bytes n (v / 256) end.
(** Builder::push_slice (external): length prefix, OP_PUSHDATA1, 2 or 4. *)
(** used by the macro re-exported at scripts/src/lib.rs 76-82 *)
Definition push_slice (b : bytes) : bytes :=
  let n := Z.of_nat (length b) in
  (if n <? 76 then [n] else if n <? 256 then 76 :: le_bytes 1 n else if n <? 65536 then 77 :: le_bytes 2 n else 78 :: le_bytes 4 n) ++ b.
(** Builder::push_int (external): OP_1NEGATE, OP_1 to OP_16, OP_0, otherwise the minimal encoding. *)
(** used by the macro re-exported at scripts/src/lib.rs 76-82 *)
Definition small (z : Z) : bool := (z =? -1) || ((1 <=? z) && (z <=? 16)).
Definition push_int (z : Z) : bytes :=
  if small z then [80 + z] else if z =? 0 then [0] else push_slice (enc z).
(** the bytes appended for one item of script!{}, scripts/src/lib.rs 76-82 *)
Definition ser_op (o : op) : bytes :=
  match o with
  | PUSHN z => push_int z
  | PUSHB b => push_slice b
  | _ => [opbyte o]
  end.
(** the ScriptBuf made by script!{}, scripts/src/lib.rs 76-82 *)
Definition serialize (s : script) : bytes := flat_map ser_op s.

(** ** Reading *)

(** Opcodes of this model without operand. *)
(** those read at scripts/src/lib.rs 97-164 *)
Definition simple_ops : list op :=
  [OP_DUP; OP_2DUP; OP_3DUP; OP_DROP; OP_2DROP; OP_NIP; OP_OVER; OP_2OVER; OP_PICK; OP_ROLL; OP_ROT; OP_2ROT;
   OP_SWAP; OP_2SWAP; OP_TUCK; OP_TOALTSTACK; OP_FROMALTSTACK; OP_ADD; OP_SUB; OP_1ADD; OP_1SUB; OP_NEGATE;
   OP_ABS; OP_NOT; OP_0NOTEQUAL; OP_BOOLAND; OP_BOOLOR; OP_NUMEQUAL; OP_NUMNOTEQUAL; OP_LESSTHAN;
   OP_GREATERTHAN; OP_LESSTHANOREQUAL; OP_GREATERTHANOREQUAL; OP_MIN; OP_MAX; OP_EQUAL; OP_EQUALVERIFY;
   OP_VERIFY; OP_HASH160; OP_IF; OP_NOTIF; OP_ELSE; OP_ENDIF].
(** An instruction: one of the modelled opcodes, or the byte of another one. *)
(** what the interpreter called at scripts/src/lib.rs 97-164 reads *)
Inductive instr := Known (o : op) | Other (b : Z).
Fixpoint le_value (l : bytes) : Z := match l with [] => 0 | b :: l => b + 256 * le_value l end.
(** Data of a push: [None] when the script ends too early. *)
(** Script::instructions (external), in the interpreter called at scripts/src/lib.rs 97-164 *)
Definition take (n : nat) (r : bytes) : option (bytes * bytes) :=
  if (n <=? length r)%nat then Some (firstn n r, skipn n r) else None.
Definition take_len (k : nat) (r : bytes) : option (bytes * bytes) :=
  match take k r with
  | None => None
  | Some (n, r) => if Z.of_nat (length r) <? le_value n then None else take (Z.to_nat (le_value n)) r
  end.
(** The pushes instructions_minimal refuses: one byte with an opcode of its own, or a longer length
    prefix than needed. *)
(** Script::instructions_minimal (external); whether it is used depends on the Options of the external
    interpreter, scripts/src/lib.rs 100 and 132, so [strict] is a parameter below *)
Definition minimal_direct (d : bytes) : bool :=
  match d with [b] => negb ((b =? 129) || ((1 <=? b) && (b <=? 16))) | _ => true end.
Definition minimal_from (n : nat) (d : bytes) : bool := (n <=? length d)%nat.
(** one instruction *)
(** Script::instructions or instructions_minimal, as above *)
Definition read (strict : bool) (bs : bytes) : option (instr * bytes) :=
  match bs with
  | [] => None
  | b :: r =>
      let data ok o := match o with
                       | None => None
                       | Some (d, r) => if negb strict || ok d then Some (Known (PUSHB d), r) else None
                       end in
      if b =? 0 then Some (Known (PUSHN 0), r)
      else if b <? 76 then data minimal_direct (take (Z.to_nat b) r)
      else if b =? 76 then data (minimal_from 76) (take_len 1 r)
      else if b =? 77 then data (minimal_from 256) (take_len 2 r)
      else if b =? 78 then data (fun d => 65536 <=? Z.of_nat (length d)) (take_len 4 r)
      else if small (b - 80) then Some (Known (PUSHN (b - 80)), r)
      else match find (fun o => opbyte o =? b) simple_ops with
           | Some o => Some (Known o, r)
           | None => Some (Other b, r)
           end
  end.
(** All instructions, and whether the end was reached (the rest is malformed otherwise); [fuel] is at
    least the number of bytes. *)
(** Script::instructions (external), in the interpreter called at scripts/src/lib.rs 97-164 *)
Fixpoint instructions (strict : bool) (fuel : nat) (bs : bytes) : list instr * bool :=
  match bs with
  | [] => ([], true)
  | _ => match fuel with
         | O => ([], false)
         | S fuel => match read strict bs with
                     | None => ([], false)
                     | Some (i, r) => let (l, ok) := instructions strict fuel r in (i :: l, ok)
                     end
         end
  end.

(** BIP 342: a tapscript containing one of these succeeds, whatever the rest. *)
(** the interpreter called at scripts/src/lib.rs 97-164 with ExecCtx::Tapscript *)
Definition op_success (b : Z) : bool :=
  (b =? 80) || (b =? 98) || ((126 <=? b) && (b <=? 129)) || ((131 <=? b) && (b <=? 134)) ||
  ((137 <=? b) && (b <=? 138)) || ((141 <=? b) && (b <=? 142)) || ((149 <=? b) && (b <=? 153)) ||
  ((187 <=? b) && (b <=? 254)).
Definition succeeds_at_once (i : instr) : bool := match i with Known _ => false | Other b => op_success b end.

Section Bytes.
  Variable H : bytes -> bytes.
  (** whatever the opcodes outside this model do *)
  Variable other : Z -> bst -> option bst.
  Variable strict : bool.

  (** MAX_SCRIPT_ELEMENT_SIZE: longer pushes fail, also in branches not taken *)
  (** consensus constant, in force for scripts/src/lib.rs 97-164 *)
  Definition element_limit : nat := 520.
  Definition short (i : instr) : bool :=
    match i with Known (PUSHB b) => (length b <=? element_limit)%nat | _ => true end.
  (** one step of the interpreter called at scripts/src/lib.rs 97-164 *)
  Definition istep (i : instr) (s : bst) : option bst :=
    if short i then
      match i with
      | Known o => step bytes dec enc (fun b => b) bytes_eqb btruthy bminbool H o s
      | Other b => other b s
      end
    else None.
  Fixpoint irun (l : list instr) (s : bst) : option bst :=
    match l with
    | [] => Some s
    | i :: l => match istep i s with Some s' => irun l s' | None => None end
    end.
  (** The verdict on a script given as bytes, with its witness: OP_SUCCESS first, then the witness
      elements must not be too long, then the run.  The function of the repository panics on a script
      that cannot be read to its end (expect, lib.rs 147); here that is not accepted. *)
  (** scripts/src/lib.rs 126-164, execute_script_with_inputs *)
  Definition execute_bytes (script : bytes) (witness : list bytes) : bool :=
    let (l, complete) := instructions strict (length script) script in
    if existsb succeeds_at_once l then true
    else if complete && forallb (fun e => (length e <=? element_limit)%nat) witness
         then bsucceeds (irun l (mk (rev witness) [] []))
         else false.
End Bytes.

(** ** Leaf hashes *)

(** compact size (external: bitcoin::consensus::encode::VarInt) *)
(** in TapLeafHash::from_script, called at basic/src/tcs/builder.rs 26 and complete_taptree.rs 54-75 *)
Definition compact_size (n : Z) : bytes :=
  if n <? 253 then [n] else if n <? 65536 then 253 :: le_bytes 2 n else if n <? 4294967296 then 254 :: le_bytes 4 n else 255 :: le_bytes 8 n.
(** BIP 341: what the tagged hash TapLeaf is applied to; leaf version 0xc0, length, script. *)
(** NodeInfo::new_leaf_with_ver, called at basic/src/tcs/builder.rs 26 *)
Definition leaf_preimage (script : bytes) : bytes := 192 :: compact_size (Z.of_nat (length script)) ++ script.

(** ** Verification of an opening whose leaf is given as bytes: TcsModel.verify_batch
    (basic/src/mmcs/taptree_mmcs.rs 78-101, basic/src/tcs/mod.rs 140-144, 417-427) on ScriptBufs *)
Section VerifyBytes.
  Variable H : bytes -> bytes.
  Variable other : Z -> bst -> option bst.
  Variable strict : bool.
  Variables (F bc : Type).
  Variable as_u32_vec : F -> list Z.
  Variable bc_witness : bc -> list Z -> list bytes.
  Variable tap_leaf : bytes -> hash.
  Variable branch_hash : hash -> hash -> hash.
  (** mod.rs 103-107 *)
  Record bytes_proof := { bp_leaf : leaf bytes; bp_bcs : use_bcomm bc; bp_query_index : nat }.
  Definition verify_bytes (query_times_index : nat) (opened_values : list (list F)) (p : bytes_proof)
    (roots : list hash) : option bool :=
    match nth_error roots query_times_index with
    | None => None
    | Some root =>
        match generate_witness F bc as_u32_vec bc_witness
                {| cl_bcs := bp_bcs p; cl_index := bp_query_index p; cl_evaluations := concat opened_values |} with
        | None => None
        | Some w =>
            option_map (fun inclusion => inclusion && execute_bytes H other strict (leaf_script bytes (bp_leaf p)) w)
              (verify_inclusion bytes (fun b => tap_leaf (leaf_preimage b)) branch_hash root (bp_leaf p))
        end
    end.
End VerifyBytes.
