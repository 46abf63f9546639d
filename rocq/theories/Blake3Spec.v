(** BLAKE3 for messages of one chunk (at most 1024 bytes), written from the BLAKE3 paper
    (sections 2.1-2.4), independent of the scripts. *)
From Coq Require Import ZArith List Bool.
Import ListNotations.
Open Scope Z_scope.

Definition b3_iv : list Z :=
  [1779033703; 3144134277; 1013904242; 2773480762; 1359893119; 2600822924; 528734635; 1541459225].
Definition b3_perm : list nat := [2; 6; 3; 10; 7; 0; 4; 13; 1; 11; 12; 5; 9; 14; 15; 8]%nat.
Definition add32 (x y : Z) : Z := (x + y) mod 2 ^ 32.
Definition ror32 (x n : Z) : Z := x / 2 ^ n + (x mod 2 ^ n) * 2 ^ (32 - n).

(** A state is a map from 0..15 to words. *)
Definition upd (s : nat -> Z) (i : nat) (v : Z) : nat -> Z :=
  fun j => if (j =? i)%nat then v else s j.

Definition b3_g (s : nat -> Z) (a b c d : nat) (mx my : Z) : nat -> Z :=
  let s := upd s a (add32 (add32 (s a) (s b)) mx) in
  let s := upd s d (ror32 (Z.lxor (s d) (s a)) 16) in
  let s := upd s c (add32 (s c) (s d)) in
  let s := upd s b (ror32 (Z.lxor (s b) (s c)) 12) in
  let s := upd s a (add32 (add32 (s a) (s b)) my) in
  let s := upd s d (ror32 (Z.lxor (s d) (s a)) 8) in
  let s := upd s c (add32 (s c) (s d)) in
  upd s b (ror32 (Z.lxor (s b) (s c)) 7).

Definition b3_round (s : nat -> Z) (m : nat -> Z) : nat -> Z :=
  let s := b3_g s 0 4 8 12 (m 0%nat) (m 1%nat) in
  let s := b3_g s 1 5 9 13 (m 2%nat) (m 3%nat) in
  let s := b3_g s 2 6 10 14 (m 4%nat) (m 5%nat) in
  let s := b3_g s 3 7 11 15 (m 6%nat) (m 7%nat) in
  let s := b3_g s 0 5 10 15 (m 8%nat) (m 9%nat) in
  let s := b3_g s 1 6 11 12 (m 10%nat) (m 11%nat) in
  let s := b3_g s 2 7 8 13 (m 12%nat) (m 13%nat) in
  b3_g s 3 4 9 14 (m 14%nat) (m 15%nat).

Definition b3_permute (m : nat -> Z) : nat -> Z := fun i => m (nth i b3_perm O).

Fixpoint b3_rounds (n : nat) (s m : nat -> Z) : nat -> Z :=
  match n with
  | O => s
  | S n => b3_rounds n (b3_round s m) (b3_permute m)
  end.

(** Compression with counter 0: first eight words of the output. *)
Definition b3_compress (cv : list Z) (m : nat -> Z) (len flags : Z) : list Z :=
  let init := cv ++ firstn 4 b3_iv ++ [0; 0; len; flags] in
  let s := b3_rounds 7 (fun i => nth i init 0) m in
  map (fun i => Z.lxor (s i) (s (i + 8)%nat)) (seq 0 8).

Definition le_word (b : list Z) : Z :=
  nth 0 b 0 + 256 * nth 1 b 0 + 65536 * nth 2 b 0 + 16777216 * nth 3 b 0.
(** Little-endian word [i] of a byte string, zero beyond its end. *)
Definition block_word (b : list Z) (i : nat) : Z := le_word (firstn 4 (skipn (4 * i) b)).

(** Flags: CHUNK_START = 1, CHUNK_END = 2, ROOT = 8.  [n] is fuel (number of blocks). *)
Fixpoint b3_blocks (n : nat) (first : bool) (cv : list Z) (msg : list Z) : list Z :=
  match n with
  | O => cv
  | S n =>
      let last := (length msg <=? 64)%nat in
      let blk := firstn 64 msg in
      let flags := (if first then 1 else 0) + (if last then 2 + 8 else 0) in
      let cv := b3_compress cv (block_word blk) (Z.of_nat (length blk)) flags in
      if last then cv else b3_blocks n false cv (skipn 64 msg)
  end.
(** Hash words (eight) of a message of at most 1024 bytes. *)
Definition b3_hash_words (msg : list Z) : list Z := b3_blocks 16 true b3_iv msg.
Definition le_bytes4 (w : Z) : list Z := [w mod 256; (w / 256) mod 256; (w / 65536) mod 256; (w / 16777216) mod 256].
Definition b3_hash (msg : list Z) : list Z := flat_map le_bytes4 (b3_hash_words msg).

(** Known values: the hash of the empty string (BLAKE3 reference test vectors), and the two
    values in the repository's own tests (scripts/src/hashes/blake3.rs 525-560). *)
Example b3_empty : b3_hash [] =
  [0xaf; 0x13; 0x49; 0xb9; 0xf5; 0xf9; 0xa1; 0xa6; 0xa0; 0x40; 0x4d; 0xea; 0x36; 0xdc; 0xc9; 0x49;
   0x9b; 0xcb; 0x25; 0xc9; 0xad; 0xc1; 0x12; 0xb7; 0xcc; 0x9a; 0x93; 0xca; 0xe4; 0x1f; 0x32; 0x62].
Proof. vm_compute. reflexivity. Qed.
Example b3_ones64 : b3_hash (concat (repeat [1; 0; 0; 0] 16)) =
  [0x86; 0xca; 0x95; 0xae; 0xfd; 0xee; 0x3d; 0x96; 0x9a; 0xf9; 0xbc; 0xc7; 0x8b; 0x48; 0xa5; 0xc1;
   0x11; 0x5b; 0xe5; 0xd6; 0x6c; 0xaf; 0xc2; 0xfc; 0x10; 0x6b; 0xbd; 0x98; 0x2d; 0x82; 0x0e; 0x70].
Proof. vm_compute. reflexivity. Qed.
Example b3_ones60 : b3_hash (concat (repeat [1; 0; 0; 0] 15)) =
  [0x11; 0xb4; 0x16; 0x7b; 0xd0; 0x18; 0x4b; 0x9f; 0xc8; 0xb3; 0x47; 0x4a; 0x4c; 0x29; 0xd0; 0x8e;
   0x80; 0x1c; 0xbc; 0x15; 0x96; 0xb6; 0x3a; 0x5a; 0xb3; 0x80; 0xce; 0x0f; 0xc8; 0x3a; 0x15; 0xcd].
Proof. vm_compute. reflexivity. Qed.
