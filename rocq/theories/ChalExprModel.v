(** The script-side challenger: /repo/script_expr/src/challenger_expr.rs, and the
    sampling of the FRI challenges with both challengers,
    /repo/fri/src/script_verifier.rs:20-82.

    [ext]: the type parameter F is the extension field (otherwise BabyBear; other
    types panic in [sample] and are not modelled). *)
From Coq Require Import ZArith List Bool Arith.
From Verif Require Import Field BabyBear HelperModel DslModel DslOpSpec DslBuild ChallengerModel.
Import ListNotations.
Local Open Scope nat_scope.

(** challenger_expr.rs:17-32.  The public fields grind_bits, grind_output,
    sample_input and sample_output are never read by the functions below and are
    left out. *)
Record chal_expr := ChalExpr { x_sponge : list expr; x_in : list expr; x_out : list expr }.

(** [for _ in 0..n { push(constant_u32(0)) }] *)
(** the loops of challenger_expr.rs 64-66 and 108-110 *)
Fixpoint zero_consts (n : nat) : builder (list expr) :=
  match n with
  | O => ret []
  | S n => do z <- constant_u32 0; do r <- zero_consts n; ret (z :: r)
  end.

Section Expr.
  Variable ext : bool.
  (** the const parameter of challenger_expr.rs (bytes); 64 in the uses *)
  Variable WIDTH : nat.

  (** 63-82 *)
  Definition x_new : builder chal_expr :=
    do z <- zero_consts 32; do s <- sponge_state_init; ret (ChalExpr (z ++ [s]) [] []).

  (** 95-118; indexing past the end of the sponge panics *)
  Definition x_duplexing (c : chal_expr) : builder chal_expr :=
    run check (length (x_in c) <=? WIDTH / 2);
    run check (length (x_in c) <=? length (x_sponge c));
    let s := rev (x_in c ++ skipn (length (x_in c)) (x_sponge c)) in
    do b <- blake3 ext s;
    do z <- zero_consts 32;
    do t <- to_sample ext b;
    ret (ChalExpr (z ++ [b]) [] (x_out c ++ [t])).

  Fixpoint byte_consts (l : list Z) : builder (list expr) :=
    match l with
    | [] => ret []
    | b :: l => do c <- constant_u32 b; do r <- byte_consts l; ret (c :: r)
    end.
  (** 126-137 *)
  Definition x_observe (c : chal_expr) (w : word4) : builder chal_expr :=
    do bs <- byte_consts w;
    let c := ChalExpr (x_sponge c) (x_in c ++ bs) [] in
    if length (x_in c) =? 32 then x_duplexing c else ret c.
  (** 140-192: arrays, vectors and hashes word by word *)
  Fixpoint x_observe_all (c : chal_expr) (ws : list word4) : builder chal_expr :=
    match ws with
    | [] => ret c
    | w :: ws => do c <- x_observe c w; x_observe_all c ws
    end.

  (** 199-242 *)
  Definition x_sample (c : chal_expr) : builder (expr * chal_expr) :=
    do c <- (if negb (is_nil (x_in c)) || is_nil (x_out c) then x_duplexing c else ret c);
    match rev (x_out c) with
    | [] => panic
    | v :: r =>
        do s <- (if ext then sample_ext v else sample_base v);
        ret (s, ChalExpr (x_sponge c) (x_in c) (rev r))
    end.
  (** 250-257 *)
  Definition x_sample_bits (c : chal_expr) (bits : nat) : builder (expr * chal_expr) :=
    do p <- x_sample c;
    do s <- get (var_size (fst p));
    do f <- (if s =? 4 then four_u32_to_u32 (fst p) else ret (fst p));
    do e <- extract_bits f bits;
    ret (e, snd p).
  (** alias.rs:391-393 *)
  Definition equal_for_u32_vec (a : expr) (v : list Z) : builder expr := do c <- constant v; equal a c.
  (** 48-54 *)
  Definition x_check_witness (c : chal_expr) (bits : nat) (w : word4) : builder (expr * chal_expr) :=
    do c <- x_observe_all c (w :: repeat (from_u64 0) 7);
    do p <- x_sample_bits c bits;
    do e <- equal_for_u32_vec (fst p) [0%Z];
    ret (e, snd p).

  (** ** fri/src/script_verifier.rs:20-82, bf_sample_challenges *)
  (** The native challenger, see ChallengerModel: [nwidth] words, [u32_size ext]
      coefficients. *)
  Variable nwidth : nat.
  Variable perm : list word4 -> list word4.
  Notation deg := (u32_size ext).
  (** the results of fri/src/script_verifier.rs 20-82 *)
  Inductive sampled :=
  | InvalidProofShape
  | InvalidPowWitness
  | Sampled (betas : list (list Z)) (indices : list Z) (checks : list expr) (c : chal) (x : chal_expr).

  (** 39-51: a field element is the list of its canonical limbs; [felt] reads it *)
  Fixpoint sample_betas (commits : list (list word4)) (c : chal) (x : chal_expr) : builder (list (list Z) * list expr * chal * chal_expr) :=
    match commits with
    | [] => ret ([], [], c, x)
    | ws :: commits =>
        do c <- get (observe_all nwidth perm c ws);
        do p <- get (sample nwidth perm deg c);
        do x <- x_observe_all x ws;
        do q <- x_sample x;
        do e <- equal_for_f ext (fst q) (felt (fst p));
        do r <- sample_betas commits (snd p) (snd q);
        let '(bs, es, c, x) := r in
        ret (fst p :: bs, e :: es, c, x)
    end.
  (** 66-75 *)
  Fixpoint sample_indices (num_queries bits : nat) (c : chal) (x : chal_expr) : builder (list Z * list expr * chal * chal_expr) :=
    match num_queries with
    | O => ret ([], [], c, x)
    | S num_queries =>
        do p <- get (sample_bits nwidth perm deg c bits);
        do q <- x_sample_bits x bits;
        do e <- equal_for_u32_vec (fst q) [fst p];
        do r <- sample_indices num_queries bits (snd p) (snd q);
        let '(is_, es, c, x) := r in
        ret (fst p :: is_, e :: es, c, x)
    end.
  (** [nproofs]: number of query proofs; [num_queries], [pow_bits], [log_blowup]: the
      configuration *)
  (** fri/src/script_verifier.rs 20-82 *)
  Definition bf_sample_challenges (num_queries pow_bits log_blowup : nat)
      (commits : list (list word4)) (nproofs : nat) (pow_witness : word4)
      (c : chal) (x : chal_expr) : builder sampled :=
    do r <- sample_betas commits c x;
    let '(bs, es, c, x) := r in
    if negb (nproofs =? num_queries) then ret InvalidProofShape else
    do w <- get (check_witness nwidth perm deg c pow_bits pow_witness);
    if negb (fst w) then ret InvalidPowWitness else
    do q <- x_check_witness x pow_bits pow_witness;
    let bits := length commits + log_blowup in
    do r <- sample_indices num_queries bits (snd w) (snd q);
    let '(is_, es', c, x) := r in
    ret (Sampled bs is_ (es ++ [fst q] ++ es') c x).
End Expr.

(** ** The challenges of the script verifier of uni-stark *)
(** what uni-stark/src/script_verifier.rs 82-106 hands on *)
Record challenged := Challenged {
  ch_alpha : list Z; ch_zeta : list Z; ch_zeta_next : BB4; ch_batch : list Z;
  ch_betas : list (list Z); ch_indices : list Z;
  ch_zeta_expr : expr;   (* zeta_dsl, which the quotient is computed from *)
  ch_checks : list expr; ch_native : chal; ch_script : chal_expr }.
(** uni-stark/src/script_verifier.rs:82-106, then fri/src/two_adic_pcs.rs:576-585 (the
    batching challenge is sampled by the native challenger only; errors of
    bf_sample_challenges panic in [expect]).  [trace], [quotient]: the words of the two
    commitments.  next_point multiplies with the generator of the trace domain, which
    exists for up to 2^27 rows. *)
Definition stark_challenges (nwidth : nat) (perm : list word4 -> list word4) (num_queries pow_bits log_blowup degree_bits : nat)
    (trace quotient : list word4) (commits : list (list word4)) (nproofs : nat) (pow_witness : word4)
    (c : chal) (x : chal_expr) : builder challenged :=
  do c <- get (observe_all nwidth perm c trace);
  do x <- x_observe_all true 64 x trace;
  do a <- get (sample nwidth perm 4 c);
  do ax <- x_sample true 64 x;
  do ea <- equal_for_f true (fst ax) (felt (fst a));
  do c <- get (observe_all nwidth perm (snd a) quotient);
  do x <- x_observe_all true 64 (snd ax) quotient;
  do z <- get (sample nwidth perm 4 c);
  do zx <- x_sample true 64 x;
  do ez <- equal_for_f true (fst zx) (felt (fst z));
  run check (degree_bits <=? 27);
  let zeta_next := fmul (felt (fst z)) (from_base (of_Z (HelperModel.two_adic_generator degree_bits))) in
  do rou <- index_to_rou false 1%Z degree_bits;
  do nx <- binary_base Mul true false (fst zx) rou;
  do en <- equal_for_f true nx zeta_next;
  do b <- get (sample nwidth perm 4 (snd z));
  do r <- bf_sample_challenges true 64 nwidth perm num_queries pow_bits log_blowup commits nproofs pow_witness (snd b) (snd zx);
  match r with
  | Sampled bs is_ es c x => ret (Challenged (fst a) (fst z) zeta_next (fst b) bs is_ (fst zx) ([ea; ez; en] ++ es) c x)
  | _ => panic
  end.
