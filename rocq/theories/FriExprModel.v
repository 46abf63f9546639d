(** Verification of FRI queries as expressions: fri/src/script_verifier.rs and
    TwoAdicFriGenericConfig::fold_row_with_expr of fri/src/two_adic_pcs.rs.

    [builder] panics are [None] (see DslBuild); errors are [Err]. *)
From Coq Require Import ZArith List Bool Arith.
From Verif Require Import Field BabyBear TcsModel FriModel DslModel DslOpSpec DslBuild DslManager.
Import ListNotations.
Local Open Scope nat_scope.

(** basic/src/field/mod.rs:43-64, trait BfField and its two implementations: the
    field, whether U32_SIZE is 4 and not 1, and the value as an element of the
    extension field (as_u32_vec is [limbs] of it). *)
Record bf_field := mk_bf {
  bf_t :> two_adic;
  bf_ext : bool;
  bf_emb : bf_t -> BB4 }.
Arguments bf_emb {_}.
Definition bf_base : bf_field := mk_bf BabyBearT false from_base.
Definition bf_ext4 : bf_field := mk_bf ExtT true (fun z => z).

Section FriExpr.
  Variable F : bf_field.
  Definition f_size : nat := u32_size (bf_ext F).
  (** F::as_u32_vec *)
  (** basic/src/field/mod.rs 48-50, 58-63 *)
  Definition f_words (z : F) : list Z := limbs f_size (bf_emb z).
  (** Dsl::constant_f, alias.rs:416-418; zero/one/default 586-600 *)
  Definition const_f (z : F) : builder expr := constant_f (bf_ext F) (bf_emb z).
  (** impl Mul<F>, alias.rs:780-785 *)
  Definition mul_f (a : expr) (z : F) : builder expr := do c <- const_f z; mul a c.

  (** two_adic_pcs.rs 153-200.  [point_index] is not used by the code.  The unused
      defaults only use up identifiers. *)
  Definition fold_row_with_expr (folded_eval sibling_eval x : expr) (x_hint : F) (index_sibling : nat) (beta : expr)
    (m : manager) : builder (expr * manager) :=
    let even := (index_sibling mod 2 =? 0) in
    do g1 <- get (two_adic_generator F 1);
    let rev_x_hint := fmul x_hint g1 in
    let xs_hint := if even then (rev_x_hint, x_hint) else (x_hint, rev_x_hint) in
    do inv <- get (checked_div f1 (fsub (snd xs_hint) (fst xs_hint)));
    run const_f f0; run const_f f0;
    do rev_x <- mul_f x g1;
    let xs := if even then (rev_x, x) else (x, rev_x) in
    run const_f f0; run const_f f0;
    let evals := if even then (sibling_eval, folded_eval) else (folded_eval, sibling_eval) in
    do d <- subtract beta (fst xs);
    do de <- subtract (snd evals) (fst evals);
    do p <- mul d de;
    do q <- mul_f p inv;
    do next_folded <- add (fst evals) q;
    do dx <- subtract (snd xs) (fst xs);
    do h <- assign_input_hint (f_words inv) m;
    do one <- mul dx (fst h);
    do c <- const_f f1;
    do v <- equal one c;
    ret (next_folded, add_hint_verify v (snd h)).

  Variable M : mmcs F.
  Variables (IP IE : Type).
  Variable config : fri_config.
  Variable debug : bool.

  (** script_verifier.rs 187-190 *)
  Definition next_opening_expr (log_folded_height : nat) (folded_eval : expr) (ros : list (nat * expr)) : builder (expr * list (nat * expr)) :=
    match ros with
    | (lh, ro) :: rest => if lh =? log_folded_height + 1 then do e <- add folded_eval ro; ret (e, rest) else ret (folded_eval, ros)
    | [] => ret (folded_eval, [])
    end.
  Definition eresult (A : Type) : Type := outcome (fri_error (m_err M) IE) A.
  (** script_verifier.rs 177-223, the loop; the layers are those of FriModel.layers *)
  Fixpoint query_loop_expr (query_times_index : nat)
    (ls : list (nat * m_comm M * (list (list F) * m_proof M) * F))
    (query_index : nat) (folded_eval x : expr) (x_hint : F) (ros : list (nat * expr)) (m : manager)
    : builder (eresult (expr * nat) * manager) :=
    match ls with
    | [] => ret (Ok (folded_eval, query_index), m)
    | (log_folded_height, commit, (vals, pf), beta) :: ls =>
        let point_index := query_index mod 2 in
        let index_sibling := 1 - point_index in
        let index_pair := query_index / 2 in
        do fr <- next_opening_expr log_folded_height folded_eval ros;
        match vals with
        | [r] =>
            match m_verify_batch M query_times_index vals pf commit with
            | Panic => panic
            | Err e => ret (Err (CommitPhaseMmcsError e), m)
            | Ok _ =>
                do sibling <- get (nth_error r index_sibling);
                do s <- assign_input_var (f_words sibling) m;
                do b <- assign_input_var (f_words beta) (snd s);
                do f <- fold_row_with_expr (fst fr) (fst s) x x_hint index_sibling (fst b) (snd b);
                do x' <- (if log_folded_height =? 1 then ret x else square x);
                let x_hint' := if log_folded_height =? 1 then x_hint else fmul x_hint x_hint in
                query_loop_expr query_times_index ls index_pair (fst f) x' x_hint' (snd fr) (snd f)
            end
        | _ => panic
        end
    end.
  (** script_verifier.rs 147-228 bf_verify_query.  The index and the height are cast
      to u32, which loses nothing below 2^32. *)
  Definition verify_query_expr (commits : list (m_comm M)) (query_index query_times_index : nat) (openings : list (list (list F) * m_proof M))
    (bs : list F) (ros : list (nat * expr)) (log_max_height : nat) (m : manager) : builder (eresult expr * manager) :=
    do folded_eval <- const_f f0;
    do rev_index_dsl <- DslBuild.reverse_bits_len (Z.of_nat query_index) log_max_height;
    do x <- index_to_rou_dsl (bf_ext F) rev_index_dsl log_max_height;
    do g <- get (two_adic_generator F log_max_height);
    let x_hint := fpow g (Field.reverse_bits_len query_index log_max_height) in
    do r <- query_loop_expr query_times_index (layers F M log_max_height commits openings bs) query_index folded_eval x x_hint ros m;
    match fst r with
    | Ok (e, q) => if debug && negb (q <? blowup config) then panic else ret (Ok e, snd r)
    | Err e => ret (Err e, snd r)
    | Panic => panic
    end.

  (** script_verifier.rs 84-145 bf_verify_challenges: the loop over the queries.  Every
      query gets the manager that next_manager has just made (new, and the last of
      the list); the managers made are returned in order.
      [open_input query_times_index query_index input_proof]. *)
  Variable open_input : nat -> nat -> IP -> manager -> builder (outcome IE (list (nat * expr)) * manager).
  (** one query, 103-141 *)
  Definition query_manager (commits : list (m_comm M)) (final_poly : F) (bs : list F) (log_max_height query_times_index query_index : nat)
    (ip : IP) (openings : list (list (list F) * m_proof M)) : builder (eresult manager) :=
    do ro <- open_input query_times_index query_index ip manager_new;
    match fst ro with
    | Panic => panic
    | Err e => ret (Err (InputError e))
    | Ok ros =>
        do r <- verify_query_expr commits query_index query_times_index openings bs ros log_max_height (snd ro);
        match fst r with
        | Panic => panic
        | Err e => ret (Err e)
        | Ok folded_eval =>
            do f <- assign_input_var (f_words final_poly) (snd r);
            do q <- equal folded_eval (fst f);
            ret (Ok (set_exec_dsl q (snd f)))
        end
    end.
  Fixpoint query_managers (commits : list (m_comm M)) (final_poly : F) (bs : list F) (log_max_height : nat)
    (qs : list ((nat * nat) * (IP * list (list (list F) * m_proof M)))) : builder (eresult (list manager)) :=
    match qs with
    | [] => ret (Ok [])
    | ((query_times_index, query_index), (ip, openings)) :: qs =>
        do r <- query_manager commits final_poly bs log_max_height query_times_index query_index ip openings;
        match r with
        | Panic => panic
        | Err e => ret (Err e)
        | Ok m =>
            do rs <- query_managers commits final_poly bs log_max_height qs;
            match rs with
            | Ok ms => ret (Ok (m :: ms))
            | Err e => ret (Err e)
            | Panic => panic
            end
        end
    end.
  Definition verify_challenges_expr (commits : list (m_comm M)) (final_poly : F) (bs : list F)
    (query_indices : list (nat * nat)) (query_proofs : list (IP * list (list (list F) * m_proof M))) : builder (eresult (list manager)) :=
    query_managers commits final_poly bs (length commits + log_blowup config) (List.combine query_indices query_proofs).
End FriExpr.
