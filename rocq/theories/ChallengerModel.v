(** Fiat-Shamir challenger: basic/src/challenger/{mod,chan_field}.rs.

    A [U32] of the Rust code is four bytes; here a word is a list of byte values
    (least significant first), lengths being carried by an invariant.  Panics are
    [None].  The permutation is a parameter; [blake3_perm] is the one the project uses. *)
From Coq Require Import ZArith List Bool Lia.
Import ListNotations.
Open Scope Z_scope.

Definition word4 : Type := list Z.

(** basic/src/challenger/chan_field.rs 44-46, with [U32::from_u8_array] (65-69):
    the first four little-endian bytes of a u64. *)
Definition from_u64 (v : Z) : word4 :=
  [v mod 256; (v / 256) mod 256; (v / 65536) mod 256; (v / 16777216) mod 256].
(** [u32::from_le_bytes] *)
(** basic/src/challenger/chan_field.rs 15 *)
Definition le_u32 (w : word4) : Z :=
  nth 0 w 0 + 256 * nth 1 w 0 + 65536 * nth 2 w 0 + 16777216 * nth 3 w 0.
(** chan_field.rs 35-42 at U8_NUM = 4: [1 << (4 * 3)]. *)
Definition mod_p : Z := Z.shiftl 1 (4 * 3).
(** chan_field.rs 12-18 for BabyBear, ORDER_U32 = 2013265921. *)
Definition ORDER : Z := 2013265921.
Definition from_pf (w : word4) : Z := le_u32 w mod ORDER.

(** chan_field.rs 87-95: [data] has 32 entries. *)
Definition u256_to_u32 (data : list Z) : list word4 :=
  map (fun i => firstn 4 (skipn (i * 4) data)) (seq 0 8).
(** chan_field.rs 97-105: copies the i-th word to positions 4i..4i+4 of a zero array. *)
Definition u32_to_u256 (data : list word4) : list Z :=
  fold_left (fun r '(i, w) => firstn (i * 4) r ++ w ++ skipn (i * 4 + 4) r)
    (combine (seq 0 (length data)) data) (repeat 0 32).

(** mod.rs 28-49, [Blake3Permutation::permute_mut]; [hash] is blake3 on byte lists. *)
Definition blake3_perm (hash : list Z -> list Z) (input : list word4) : list word4 :=
  let hashed := hash (concat input) in
  map (fun idx => if (idx <? 8)%nat then from_u64 0
                  else firstn 4 (skipn ((idx - 8) * 4) hashed)) (seq 0 16).

Section Challenger.
  Variable WIDTH : nat.
  Variable perm : list word4 -> list word4.
  (** Number of base coefficients of the challenge field F: 1 for BabyBear, 4 for its
      extension (mod.rs 269, 287; any other type panics and is not modelled). *)
  Variable deg : nat.

  (** mod.rs 66-84.  Field elements are lists of [deg] canonical values. *)
  Record chal := Chal {
    sponge : list word4; inbuf : list word4; outbuf : list word4;
    pin : list (list word4); pout : list (list word4);
    grind_bits : option nat; grind_output : list Z;
    sample_input : list (list word4); sample_output : list (list Z) }.

  (** mod.rs 123-138 *)
  Definition new : chal :=
    Chal (repeat (from_u64 0) WIDTH) [] [] [] [] None (repeat 0 deg) [] [].

  (** mod.rs 151-175; indexing past the end of the sponge panics, which the assertion
      already excludes since the sponge has WIDTH entries. *)
  Definition duplexing (c : chal) : option chal :=
    if (length (inbuf c) <=? WIDTH)%nat then
      let s := inbuf c ++ skipn (length (inbuf c)) (sponge c) in
      let s' := perm s in
      let out := skipn (WIDTH / 2) s' in
      Some (Chal s' [] out (pin c ++ [s]) (pout c ++ [out])
                 (grind_bits c) (grind_output c) (sample_input c) (sample_output c))
    else None.

  (** mod.rs 183-194 *)
  Definition observe (c : chal) (v : word4) : option chal :=
    let c := Chal (sponge c) (inbuf c ++ [v]) [] (pin c) (pout c)
                  (grind_bits c) (grind_output c) (sample_input c) (sample_output c) in
    if (length (inbuf c) =? WIDTH / 2)%nat then duplexing c else Some c.

  (** mod.rs 204-253: arrays, vectors and hashes are observed word by word. *)
  Fixpoint observe_all (c : chal) (vs : list word4) : option chal :=
    match vs with
    | [] => Some c
    | v :: vs => match observe c v with Some c => observe_all c vs | None => None end
    end.

  Definition is_nil {A} (l : list A) : bool := match l with [] => true | _ => false end.

  (** mod.rs 272-279 and 292-300: duplex if needed, then [output_buffer.pop().expect(..)]. *)
  Definition pop_word (c : chal) : option (word4 * chal) :=
    let step (c : chal) :=
      match rev (outbuf c) with
      | [] => None
      | v :: r => Some (v, Chal (sponge c) (inbuf c) (rev r) (pin c) (pout c)
                        (grind_bits c) (grind_output c) (sample_input c) (sample_output c))
      end in
    if negb (is_nil (inbuf c)) || is_nil (outbuf c)
    then match duplexing c with Some c => step c | None => None end
    else step c.

  Fixpoint pop_words (n : nat) (c : chal) : option (list word4 * chal) :=
    match n with
    | O => Some ([], c)
    | S n => match pop_word c with
             | None => None
             | Some (v, c) => match pop_words n c with
                              | None => None
                              | Some (vs, c) => Some (v :: vs, c)
                              end
             end
    end.

  (** mod.rs 261-313, with [record_sample] 140-143. *)
  Definition sample (c : chal) : option (list Z * chal) :=
    match pop_words deg c with
    | None => None
    | Some (vs, c) =>
        let res := map from_pf vs in
        Some (res, Chal (sponge c) (inbuf c) (outbuf c) (pin c) (pout c)
                        (grind_bits c) (grind_output c)
                        (sample_input c ++ [vs]) (sample_output c ++ [res]))
    end.

  (** mod.rs 316-333: canonical value of the first coefficient. *)
  Definition as_usize (f : list Z) : Z := hd 0 f.

  (** mod.rs 341-348.  [32 - bits] underflows (panics in builds with overflow checks) for
      bits > 32. *)
  Definition sample_bits (c : chal) (bits : nat) : option (Z * chal) :=
    match sample c with
    | None => None
    | Some (f, c) => if (bits <=? 32)%nat
                     then Some (Z.shiftr (as_usize f) (Z.of_nat (32 - bits)), c) else None
    end.

  (** mod.rs 108-114 *)
  Definition check_witness (c : chal) (bits : nat) (w : word4) : option (bool * chal) :=
    match observe_all c (w :: repeat (from_u64 0) 7) with
    | None => None
    | Some c => match sample_bits c bits with
                | None => None
                | Some (v, c) => Some (v =? 0, c)
                end
    end.

  (** mod.rs 95-105.  [find_any] may return any witness of the range that passes on a
      clone, hence a relation between the start state and the result. *)
  Inductive grind (c : chal) (bits : nat) : word4 -> chal -> Prop :=
  | grind_intro : forall i c1 c2,
      0 <= i < mod_p ->
      check_witness c bits (from_u64 i) = Some (true, c1) ->
      check_witness c bits (from_u64 i) = Some (true, c2) ->
      grind c bits (from_u64 i)
        (Chal (sponge c2) (inbuf c2) (outbuf c2) (pin c2) (pout c2)
              (Some bits) (last (sample_output c2) []) (sample_input c2) (sample_output c2)).
  (** [grind] panics when the search finds nothing (or a check panics). *)
  (** basic/src/challenger/mod.rs 95-101 *)
  Definition grind_panics (c : chal) (bits : nat) : Prop :=
    forall i, 0 <= i < mod_p ->
      forall c1, check_witness c bits (from_u64 i) <> Some (true, c1).
End Challenger.
