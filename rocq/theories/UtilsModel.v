(** Script generators of uni-stark/src/scripts/utils.rs.

    [F] is the field parameter ([bf_field]); the scripts branch on U32_SIZE == 1.
    u31ext_mul is external, see [gadgets].  Panics are [None]. *)
From Coq Require Import ZArith List Bool Arith.
From Verif Require Import ScriptNum ScriptVM U32Model U31Model HelperModel.
From Verif Require Import Field BabyBear DslModel FriExprModel StarkExprModel.
Import ListNotations.
Local Open Scope nat_scope.

Section Utils.
  Variable F : bf_field.
  Variable G : gadgets.

  (** utils.rs 9-19 *)
  Definition square_with_input : script :=
    if bf_ext F then OP_4DUP ++ g_ext_mul G else OP_DUP :: u31_mul.

  (** utils.rs 21-34 *)
  Definition value_exp_n_minus_one (log_n : nat) : script :=
    repeat_script log_n square_with_input ++
    (if bf_ext F then [PUSHN 0; PUSHN 0; PUSHN 0; PUSHN 1] ++ u31ext_sub else PUSHN 1 :: u31_sub).

  (** utils.rs 36-49; the unwrap panics when the power is zero *)
  Definition push_generator_table (generator : F) (quotient_chunk_nums : nat) : option script :=
    option_map (fun inverses =>
      flat_map (fun i => push_vec (f_words F (fpow generator i))) (rev (seq 0 quotient_chunk_nums)) ++
      flat_map (fun z => push_vec (f_words F z)) inverses)
      (all_some (map (fun i => inverse (fpow generator i)) (seq 1 (quotient_chunk_nums - 1)))).

  (** utils.rs 51-59; the subtraction underflows for 0 *)
  Definition pop_generator_table (quotient_chunk_nums : nat) : option script :=
    if quotient_chunk_nums =? 0 then None
    else Some (repeat_script (2 * quotient_chunk_nums - 1) (repeat_script (f_size F) [OP_DROP])).

  (** utils.rs 62-84 *)
  Definition chunk_generator (generator : F) (quotient_chunk_nums : nat) : option script :=
    match push_generator_table generator quotient_chunk_nums, pop_generator_table quotient_chunk_nums with
    | Some push, Some pop =>
        Some ([OP_TOALTSTACK] ++ push ++ [OP_FROMALTSTACK] ++
              (if bf_ext F then OP_4MUL ++ OP_4PICK ++ OP_4TOALTSTACK else [OP_PICK; OP_TOALTSTACK]) ++
              pop ++
              (if bf_ext F then OP_4FROMALTSTACK else [OP_FROMALTSTACK]))
    | _, _ => None
    end.
End Utils.
