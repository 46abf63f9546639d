(** Where the secret keys of bit commitments come from:
    /repo/scripts/src/bit_comm/secret_generator.rs and bit_comm.rs:28-60. *)
From Coq Require Import ZArith List Bool.
From Verif Require Import ScriptNum ScriptVM WinternitzModel.
Import ListNotations.
Open Scope Z_scope.

(** secret_generator.rs:6-8: [SecretGen::gen], a function without arguments that may
    have a hidden state (ThreadSecretGen: the generator of the thread).  Each call
    gives the bytes the hex string stands for and the next state. *)
Definition secret_gen (S : Type) := S -> bytes * S.

(** secret_generator.rs:13-18: the string "0000" *)
Definition constant_secret_gen : secret_gen unit := fun s => ([0; 0], s).

Section Gen.
  Context {S : Type} (gen : secret_gen S).

  (** bit_comm.rs:28-40 and 43-54: one call of [gen] for each word of the value, in
      order; [values] is [value.bc_as_u32_vec()]. *)
  Fixpoint new_gen (values : list Z) (s : S) : list bit_commitment_u32 * S :=
    match values with
    | [] => ([], s)
    | v :: r => let '(k, s1) := gen s in
                let '(cs, s2) := new_gen r s1 in (bc_new k v :: cs, s2)
    end.
End Gen.
