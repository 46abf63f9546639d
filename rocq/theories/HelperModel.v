(** Script generators of /repo/script_expr/src/script_helper.rs and the
    extension-field scripts of /repo/scripts/src/u31_ext/mod.rs. *)
From Coq Require Import ZArith List Bool.
From Verif Require Import ScriptNum ScriptVM U32Model U31Model.
Import ListNotations.
Open Scope Z_scope.

(** script_helper.rs:11-20.  [0..bits-1] with bits = 0 underflows (panic). *)
Definition compress_bits (bits : nat) : option script :=
  if ((1 <=? bits) && (bits <=? 31))%nat
  then Some (repeat_script (bits - 1) [OP_DUP; OP_ADD; OP_ADD]) else None.

(** script_helper.rs:24-39.  Both subtractions panic on underflow. *)
Definition compress_custom_bits (input_len output_len : nat) : option script :=
  if ((1 <=? output_len) && (output_len <=? 31) && (output_len <=? input_len))%nat
  then Some (repeat_script (output_len - 1) [OP_DUP; OP_ADD; OP_ADD] ++ [OP_TOALTSTACK] ++
             repeat_script (input_len - output_len) [OP_DROP] ++ [OP_FROMALTSTACK])
  else None.

(** script_helper.rs:42-48 (num is a u32; shifts by more than 31 not modelled) *)
Definition decompress (num : Z) (bits : nat) : list Z :=
  map (fun index => Z.land (Z.shiftr num (Z.of_nat index)) 1) (seq 0 bits).

(** script_helper.rs:53-55 and 87-89 *)
Definition pick_reversed (bits : nat) : script :=
  flat_map (fun i => [pushnat (i * 2); OP_PICK]) (seq 0 bits).

(** script_helper.rs:51-65 *)
Definition reverse_bits_len_script (bits : nat) : option script :=
  match compress_bits bits with
  | Some c => Some (pick_reversed bits ++ c ++ [OP_TOALTSTACK] ++ c ++
                    [OP_EQUALVERIFY; OP_FROMALTSTACK])
  | None => None
  end.

(** script_helper.rs:71-78 *)
Definition reverse_bits_len_script_with_input (input_index : Z) (bits : nat) : option script :=
  match reverse_bits_len_script bits with
  | Some r => Some (map PUSHN (decompress input_index bits) ++ r)
  | None => None
  end.

(** script_helper.rs:215-232.  [bits <= 31] is asserted; for 31 the constant
    (1 << 31) - 1 overflows i32 in a debug build, so 31 is a panic as well. *)
Definition value_bit_to_altstack (bits : nat) : script :=
  [OP_DUP; PUSHN (2 ^ Z.of_nat bits - 1); OP_GREATERTHAN;
   OP_IF; PUSHN (2 ^ Z.of_nat bits); OP_SUB; PUSHN 1; OP_TOALTSTACK;
   OP_ELSE; PUSHN 0; OP_TOALTSTACK; OP_ENDIF].

(** [for i in (0..k).rev() { value_bit_to_altstack(i) }] *)
(** script_expr/src/script_helper.rs 153-155, 175-177 *)
Fixpoint bits_to_alt (k : nat) : script :=
  match k with
  | O => []
  | S k' => value_bit_to_altstack k' ++ bits_to_alt k'
  end.

(** script_helper.rs:151-161 *)
Definition value_to_bits_format (bits_len_conf : nat) : option script :=
  if (bits_len_conf <=? 31)%nat
  then Some (bits_to_alt bits_len_conf ++ [OP_DROP] ++ repeat_script bits_len_conf [OP_FROMALTSTACK])
  else None.

(** script_helper.rs:192-212 *)
Definition value_32_bits_to_altstack : script :=
  [OP_DUP; PUSHN 0; OP_LESSTHAN;
   OP_IF; PUSHN (- 2147483647); OP_SUB; PUSHN 1; OP_ADD; PUSHN 1; OP_TOALTSTACK;
   OP_ELSE; PUSHN 0; OP_TOALTSTACK; OP_ENDIF].

(** script_helper.rs:170-183 *)
Definition value_to_32_bits_format (bits_len_conf : nat) : script :=
  (if (bits_len_conf =? 32)%nat then value_32_bits_to_altstack else []) ++
  bits_to_alt 31 ++ [OP_DROP] ++ repeat_script bits_len_conf [OP_FROMALTSTACK].

(** script_helper.rs:84-97 *)
Definition index_to_reverse_index (bits_len : nat) : option script :=
  match value_to_bits_format bits_len, compress_bits bits_len with
  | Some v, Some c =>
      Some (v ++ pick_reversed bits_len ++ c ++ [OP_TOALTSTACK] ++
            repeat_script bits_len [OP_DROP] ++ [OP_FROMALTSTACK])
  | _, _ => None
  end.

(** script_gen.rs:264-285 (op_extract_high_bits), the emitted script *)
Definition extract_high_bits (len : nat) : option script :=
  match compress_custom_bits 32 len with
  | Some c => Some (value_to_32_bits_format 32 ++ c)
  | None => None
  end.

(** p3 BabyBear::two_adic_generator (external): the generator of the subgroup of
    order 2^bits is 440564289^(2^(27-bits)); as_canonical_u32. *)
Fixpoint sqn (n : nat) (x : Z) : Z :=
  match n with O => x | S n' => sqn n' ((x * x) mod MOD) end.
Definition two_adic_generator (bits : nat) : Z := sqn (27 - bits) 440564289.

(** script_helper.rs:272-287 *)
Definition value_to_generator_bit_altstack (bits sub_group_bits : nat) : script :=
  [OP_DUP; PUSHN (2 ^ Z.of_nat bits - 1); OP_GREATERTHAN;
   OP_IF; PUSHN (2 ^ Z.of_nat bits); OP_SUB; pushnat (sub_group_bits - bits); OP_TOALTSTACK;
   OP_ELSE; PUSHN 33; OP_TOALTSTACK; OP_ENDIF].

Fixpoint generator_bits (k sub_group_bits : nat) : script :=
  match k with
  | O => []
  | S k' => value_to_generator_bit_altstack k' sub_group_bits ++ generator_bits k' sub_group_bits
  end.

(** The field type parameter of index_to_rou: [as_u32_vec] of an element of the
    base field embedded in F.  [ext = false]: BabyBear (U32_SIZE = 1);
    [ext = true]: the degree-4 extension (U32_SIZE = 4), whose two-adic generators
    of order up to 2^27 are the embedded base ones. *)
Definition as_u32_vec (ext : bool) (x : Z) : list Z := if ext then [x; 0; 0; 0] else [x].

(** [for j in (0..U32_SIZE).rev() { vec[j] }] *)
(** script_expr/src/script_helper.rs 102-104, 306-308 *)
Definition push_vec (v : list Z) : script := map PUSHN (rev v).

(** script_helper.rs:99-107 *)
Definition push_two_adic_generator_table (ext : bool) : script :=
  flat_map (fun i => push_vec (as_u32_vec ext (two_adic_generator i))) (rev (seq 0 28)).

(** script_helper.rs:109-117 *)
Definition pop_two_adic_generator_table (ext : bool) : script :=
  repeat_script (28 * length (as_u32_vec ext 0)) [OP_DROP].

(** script_helper.rs:120-142 *)
Definition get_generator (ext : bool) : script :=
  [OP_TOALTSTACK] ++ push_two_adic_generator_table ext ++ [OP_FROMALTSTACK] ++
  (if ext then OP_4MUL ++ OP_4PICK ++ OP_4TOALTSTACK else [OP_PICK; OP_TOALTSTACK]) ++
  pop_two_adic_generator_table ext ++
  (if ext then OP_4FROMALTSTACK else [OP_FROMALTSTACK]).

(** script_helper.rs:310-327, one iteration; [mul] is u31_mul or u31ext_mul *)
Definition rou_round (ext : bool) (mul : script) : script :=
  [OP_FROMALTSTACK; OP_DUP; PUSHN 33; OP_EQUAL; OP_IF; OP_DROP; OP_ELSE] ++
  get_generator ext ++ mul ++ [OP_ENDIF].

(** script_helper.rs:293-330 *)
Definition index_to_rou (ext : bool) (mul : script) (sub_group_bits : nat) : option script :=
  if (sub_group_bits <=? 27)%nat then
    Some (generator_bits sub_group_bits sub_group_bits ++ [PUSHN 0; OP_EQUALVERIFY] ++
          push_vec (as_u32_vec ext 1) ++ repeat_script sub_group_bits (rou_round ext mul))
  else None.

(** script_helper.rs:332-351, base field *)
Definition value_square_with_input : script := [OP_DUP] ++ u31_mul.
Definition value_exp_n (log_n : nat) : script := repeat_script log_n value_square_with_input.

(** u31_ext/mod.rs:28-40, DEGREE = 4 *)
Definition u31ext_add : script :=
  [PUSHN 4; OP_ROLL] ++ u31_add ++ [OP_TOALTSTACK] ++
  [PUSHN 3; OP_ROLL] ++ u31_add ++ [OP_TOALTSTACK] ++
  [PUSHN 2; OP_ROLL] ++ u31_add ++ [OP_TOALTSTACK] ++
  u31_add ++ [OP_FROMALTSTACK; OP_FROMALTSTACK; OP_FROMALTSTACK].
(** u31_ext/mod.rs:42-52 *)
Definition u31ext_equalverify : script :=
  [PUSHN 4; OP_ROLL; OP_EQUALVERIFY; PUSHN 3; OP_ROLL; OP_EQUALVERIFY;
   PUSHN 2; OP_ROLL; OP_EQUALVERIFY; OP_EQUALVERIFY].
(** u31_ext/mod.rs:54-66 *)
Definition u31ext_sub : script :=
  [PUSHN 4; OP_ROLL; OP_SWAP] ++ u31_sub ++ [OP_TOALTSTACK] ++
  [PUSHN 3; OP_ROLL; OP_SWAP] ++ u31_sub ++ [OP_TOALTSTACK] ++
  [PUSHN 2; OP_ROLL; OP_SWAP] ++ u31_sub ++ [OP_TOALTSTACK] ++
  u31_sub ++ [OP_FROMALTSTACK; OP_FROMALTSTACK; OP_FROMALTSTACK].
(** u31_ext/mod.rs:68-78 *)
Definition u31ext_double : script :=
  u31_double ++ [OP_TOALTSTACK] ++ u31_double ++ [OP_TOALTSTACK] ++
  u31_double ++ [OP_TOALTSTACK] ++ u31_double ++
  [OP_FROMALTSTACK; OP_FROMALTSTACK; OP_FROMALTSTACK].
