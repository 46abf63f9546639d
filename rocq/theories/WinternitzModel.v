(** Winternitz one-time signatures and bit commitments:
    /repo/scripts/src/bit_comm/{winternitz,bit_comm_u32,bit_comm}.rs.

    [H] is hash160, an arbitrary function on byte strings.  A secret key is the
    byte string obtained by [hex_decode] from the Rust [String]; the panic on an
    invalid hex string is not modelled.  Rust panics are [None]. *)
From Coq Require Import ZArith List Bool.
From Verif Require Import ScriptNum ScriptVM U32Model U31Model HelperModel.
Import ListNotations.
Open Scope Z_scope.

(** winternitz.rs:41-54 *)
Definition LOG_D : nat := 4.
Definition DIGITS : nat := 15.
Definition N0 : nat := 8.
Definition N1 : nat := 2.
Definition N : nat := 10.

Section Winternitz.
  Variable H : bytes -> bytes.

  Definition hiter (n : nat) (x : bytes) : bytes := Nat.iter n H x.

  (** winternitz.rs:270-286 *)
  Definition generate_public_key (sk : bytes) (i : nat) : bytes :=
    hiter DIGITS (H (sk ++ [Z.of_nat i])).

  (** winternitz.rs:65-76, 83-85 *)
  Definition pub_key (sk : bytes) : list bytes := map (generate_public_key sk) (seq 0 N).

  (** winternitz.rs:96-114 *)
  Definition digit_signature (sk : bytes) (i : nat) (d : Z) : bytes * Z :=
    (hiter (Z.to_nat d) (H (sk ++ [Z.of_nat i])), d).

  (** winternitz.rs:117-125 *)
  Definition digit_signature_script (sk : bytes) (i : nat) (d : Z) : script :=
    let '(h, d') := digit_signature sk i d in [PUSHB h; PUSHN d'].

  (** winternitz.rs:129-136; [None] is the failed assertion on the length or the
      u32 underflow of [DIGITS * N0 - sum]. *)
  Definition checksum (digits : list Z) : option Z :=
    if (length digits =? N0)%nat then
      let sum := fold_left Z.add digits 0 in
      let t := Z.of_nat (DIGITS * N0) in
      if sum <=? t then Some (t - sum) else None
    else None.

  (** winternitz.rs:289-297 *)
  Fixpoint to_digits (number : Z) (count : nat) : list Z :=
    match count with
    | O => []
    | S c => let digit := number mod Z.of_nat (DIGITS + 1) in
             digit :: to_digits ((number - digit) / Z.of_nat (DIGITS + 1)) c
    end.

  (** winternitz.rs:142-143 and 158-159 *)
  Definition checksum_digits (message : list Z) : option (list Z) :=
    match checksum message with
    | Some c => Some (to_digits c N1 ++ message)
    | None => None
    end.

  (** winternitz.rs:139-153; a digit is pushed as a one-byte vector. *)
  Definition sign (sk : bytes) (message : list Z) : option (list bytes) :=
    match checksum_digits message with
    | Some cd => Some (flat_map (fun i =>
                   let '(h, d) := digit_signature sk i (nth (N - 1 - i) cd 0) in [h; [d]])
                   (seq 0 N))
    | None => None
    end.

  (** winternitz.rs:156-168 *)
  Definition sign_script (sk : bytes) (message : list Z) : option script :=
    match checksum_digits message with
    | Some cd => Some (flat_map (fun i => digit_signature_script sk i (nth (N - 1 - i) cd 0))
                         (seq 0 N))
    | None => None
    end.

  (** winternitz.rs:190-216: the check of one digit against one public key. *)
  Definition verify_digit (pk : bytes) : script :=
    [PUSHN (Z.of_nat DIGITS); OP_MIN; OP_DUP; OP_TOALTSTACK; OP_TOALTSTACK] ++
    repeat_script DIGITS [OP_DUP; OP_HASH160] ++
    [OP_FROMALTSTACK; OP_PICK; PUSHB pk; OP_EQUALVERIFY] ++
    repeat_script ((DIGITS + 1) / 2) [OP_2DROP].

  (** winternitz.rs:224-243 *)
  Definition verify_checksum : script :=
    [OP_FROMALTSTACK; OP_DUP; OP_NEGATE] ++
    repeat_script (N0 - 1) [OP_FROMALTSTACK; OP_TUCK; OP_SUB] ++
    [PUSHN (Z.of_nat (DIGITS * N0)); OP_ADD] ++
    [OP_FROMALTSTACK] ++
    repeat_script (N1 - 1)
      (repeat_script LOG_D [OP_DUP; OP_ADD] ++ [OP_FROMALTSTACK; OP_ADD]) ++
    [OP_EQUALVERIFY].

  (** winternitz.rs:247-261 *)
  Definition digits_to_bytes : script :=
    flat_map (fun i => [OP_SWAP] ++ repeat_script LOG_D [OP_DUP; OP_ADD] ++ [OP_ADD] ++
                (if (i =? N0 / 2 - 1)%nat then [] else [OP_TOALTSTACK]))
      (seq 0 (N0 / 2)) ++
    repeat_script (N0 / 2 - 1) [OP_FROMALTSTACK].

  (** winternitz.rs:170-264; indexing [pub_key] out of bounds panics, here the
      default is the empty string: all statements are about ten keys. *)
  Definition checksig_verify (pks : list bytes) : script :=
    flat_map (fun digit_index => verify_digit (nth (N - 1 - digit_index) pks [])) (seq 0 N) ++
    verify_checksum ++ digits_to_bytes.

  (** winternitz.rs:265-267 *)
  Definition checksig_verify_self_pubkey (sk : bytes) : script := checksig_verify (pub_key sk).

  (* ---------------------------------------------------------------- *)
  (** *** bit_comm_u32.rs *)

  (** bit_comm_u32.rs:10-36; the Winternitz object is its secret key.
      [change_value] (28-36) builds the same record for the new value. *)
  Record bit_commitment_u32 := { bc_value : Z; bc_secret : bytes; bc_message : list Z }.
  Definition bc_new (sk : bytes) (value : Z) : bit_commitment_u32 :=
    {| bc_value := value; bc_secret := sk; bc_message := to_digits value N0 |}.
  Definition change_value (c : bit_commitment_u32) (value : Z) : bit_commitment_u32 :=
    {| bc_value := value; bc_secret := bc_secret c; bc_message := to_digits value N0 |}.

  (** bit_comm_u32.rs:38-46; the shift is on u8. *)
  Definition commit_u32_as_4bytes (c : bit_commitment_u32) : list Z :=
    map (fun i => let index := (N0 / 2 - 1 - i)%nat in
           Z.lxor (nth (2 * index) (bc_message c) 0)
             (Z.shiftl (nth (2 * index + 1) (bc_message c) 0) 4 mod 256))
      (seq 0 (N0 / 2)).

  (** bit_comm_u32.rs:48-55 *)
  Definition commit_u32_as_4bytes_script (c : bit_commitment_u32) : script :=
    flat_map (fun i => [PUSHN (nth (N0 / 2 - 1 - i) (commit_u32_as_4bytes c) 0); OP_EQUALVERIFY])
      (seq 0 (N0 / 2)).

  (** bit_comm_u32.rs:57-66 *)
  Definition check_equal_x_or_neg_x_script (c neg_x : bit_commitment_u32) : script :=
    flat_map (fun i =>
      [OP_DUP; PUSHN (nth (N0 / 2 - 1 - i) (commit_u32_as_4bytes c) 0); OP_EQUAL; OP_SWAP;
       PUSHN (nth (N0 / 2 - 1 - i) (commit_u32_as_4bytes neg_x) 0); OP_EQUAL; OP_ADD;
       PUSHN 1; OP_EQUALVERIFY])
      (seq 0 (N0 / 2)).

  (** bit_comm_u32.rs:68-72 *)
  Definition checksig_verify_script (c : bit_commitment_u32) : script :=
    checksig_verify_self_pubkey (bc_secret c).

  (** bit_comm_u32.rs:74-76 *)
  Definition signature_script (c : bit_commitment_u32) : option script :=
    sign_script (bc_secret c) (bc_message c).

  (** bit_comm_u32.rs:78-83 *)
  Definition recover_message_at_stack (c : bit_commitment_u32) : script :=
    checksig_verify_script c ++ u32_compress.

  (** bit_comm_u32.rs:85-91 *)
  Definition u32_recover_message_at_altstack (c : bit_commitment_u32) : script :=
    checksig_verify_script c ++ u32_compress ++ [OP_TOALTSTACK].

  (** bit_comm_u32.rs:100-106 *)
  Definition u32_recover_message_equal (c : bit_commitment_u32) : script :=
    recover_message_at_stack c ++ [PUSHN (bc_value c); OP_EQUALVERIFY].

  (** bit_comm_u32.rs:108-116 *)
  Definition u32_signature (c : bit_commitment_u32) : option (list bytes) :=
    match sign (bc_secret c) (bc_message c) with
    | Some sig => Some (map (fun e => match e with [0] => [] | _ => e end) sig)
    | None => None
    end.

  (* ---------------------------------------------------------------- *)
  (** *** bit_comm.rs: a commitment to a vector of words.  A [BitCommitment] is
      the list of its [commitments]; [u32_values] is the list of their values
      (bit_comm.rs:28-54; [new_with_commits] (56-69) asserts equal lengths).
      The secrets come from [SecretGen::gen]. *)

  (** bit_comm.rs:43-54 *)
  Definition bcs_new (secrets : list bytes) (values : list Z) : list bit_commitment_u32 :=
    map (fun p => bc_new (fst p) (snd p)) (combine secrets values).

  (** bit_comm.rs:56-69 *)
  Definition new_with_commits (values : list Z) (commits : list bit_commitment_u32) :
    option (list bit_commitment_u32) :=
    if (length values =? length commits)%nat then
      Some (map (fun p => change_value (snd p) (fst p)) (combine values commits))
    else None.

  (** bit_comm.rs:126-145 (also 74-76) *)
  Definition recover_message_at_altstack (cs : list bit_commitment_u32) : script :=
    flat_map (fun c => recover_message_at_stack c ++ [OP_TOALTSTACK]) cs.

  (** bit_comm.rs:91-97, 99-105 *)
  Definition message_to_altstack (cs : list bit_commitment_u32) : script :=
    repeat_script (length cs) [OP_TOALTSTACK].
  Definition message_from_altstack (cs : list bit_commitment_u32) : script :=
    repeat_script (length cs) [OP_FROMALTSTACK].

  (** bit_comm.rs:80-85 *)
  Definition check_and_recover (cs : list bit_commitment_u32) : script :=
    recover_message_at_altstack cs ++ message_from_altstack cs.

  (** bit_comm.rs:147-153 *)
  Fixpoint bcs_signature (cs : list bit_commitment_u32) : option (list bytes) :=
    match cs with
    | [] => Some []
    | c :: r => match bcs_signature r, u32_signature c with
                | Some a, Some b => Some (a ++ b)
                | _, _ => None
                end
    end.

  (** bit_comm.rs:108-124; [u31_equalverify] (one OP_EQUALVERIFY in the external
      crate) for one word, the four-word comparison otherwise, whatever the
      number of words. *)
  Definition recover_message_equal (cs : list bit_commitment_u32) : script :=
    check_and_recover cs ++ map (fun c => PUSHN (bc_value c)) (rev cs) ++
    (if (length cs =? 1)%nat then [OP_EQUALVERIFY] else u31ext_equalverify).
End Winternitz.
