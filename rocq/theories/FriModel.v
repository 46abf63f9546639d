(** fri/src/{fold_even_odd,config,proof,prover,verifier}.rs and the folding of
    fri/src/two_adic_pcs.rs, function by function.

    The commitment scheme (trait BFMmcs) and the challenger are records of functions, so that
    everything holds for any of them; PropFri instantiates them with TcsModel and ChallengerModel.
    Panics are explicit.  Indices and lengths are [nat]; usize does not overflow for the sizes that
    occur (heights up to 2^TWO_ADICITY). *)
From Coq Require Import List Arith Bool Lia.
From Verif Require Import Field TcsModel.
Import ListNotations.

(** Result<A, E>, or a panic. *)
(** the results of fri/src/verifier.rs 20-101 *)
Inductive outcome (E A : Type) : Type := Ok (a : A) | Err (e : E) | Panic.
Arguments Ok {E A}. Arguments Err {E A}. Arguments Panic {E A}.

(** bf_mmcs.rs: trait BFMmcs for matrices over [A]; [m_state] is what the bit commitment manager
    counts.  [m_commit] is commit, [m_verify_batch] verify_batch. *)
Record mmcs (A : Type) := mk_mmcs {
  m_comm : Type; m_data : Type; m_proof : Type; m_err : Type; m_state : Type;
  m_commit : m_state -> list (matrix A) -> option (m_comm * m_data * m_state);
  m_get_matrices : m_data -> option (list (matrix A));
  m_open_batch : nat -> nat -> m_data -> option (list (list A) * m_proof);
  m_verify_batch : nat -> list (list A) -> m_proof -> m_comm -> outcome m_err unit }.
Arguments m_comm {_}. Arguments m_data {_}. Arguments m_proof {_}. Arguments m_err {_}. Arguments m_state {_}.
Arguments m_commit {_}. Arguments m_get_matrices {_}. Arguments m_open_batch {_}. Arguments m_verify_batch {_}.

(** p3_challenger CanObserve / CanSample and basic/src/challenger BfGrindingChallenger; grind may
    return any witness that passes, so it is a relation. *)
(** basic/src/challenger/mod.rs 54-62 *)
Record challenger (C A : Type) := mk_challenger {
  c_state : Type; c_wit : Type;
  c_observe : c_state -> C -> option c_state;
  c_sample : c_state -> option (A * c_state);
  c_sample_bits : c_state -> nat -> option (nat * c_state);
  c_check_witness : c_state -> nat -> c_wit -> option (bool * c_state);
  c_grind : c_state -> nat -> c_wit -> c_state -> Prop }.
Arguments c_state {_ _}. Arguments c_wit {_ _}. Arguments c_observe {_ _}. Arguments c_sample {_ _}.
Arguments c_sample_bits {_ _}. Arguments c_check_witness {_ _}. Arguments c_grind {_ _}.

Section Fold.
  Variable T : two_adic.
  Local Open Scope F_scope.

  (** Field::shifted_powers(start).take(n) *)
  (** called at fri/src/fold_even_odd.rs 40 and two_adic_pcs.rs 105, 135 *)
  Fixpoint shifted_powers (g start : T) (n : nat) : list T :=
    match n with O => [] | S n => start :: shifted_powers g (start * g) n end.

  (** p3_matrix: RowMajorMatrix::new(values, 2); the crate's debug assertion that the length is a
      multiple of the width is a panic here. *)
  (** called at fri/src/fold_even_odd.rs 31 and prover.rs 112 *)
  Definition new2 (values : list T) : option (matrix T) :=
    if (length values mod 2 =? 0)%nat then Some {| width := 2; values := values |} else None.
  (** par_rows() *)
  (** called at fri/src/fold_even_odd.rs 45 and two_adic_pcs.rs 140 *)
  Definition rows (m : matrix T) : list (option (list T)) := map (row T m) (seq 0 (height T m)).
  (** the closure of [map]: row.next_tuple().unwrap() takes the first two entries *)
  (** fri/src/fold_even_odd.rs 47-51 *)
  Definition fold_pair (one_half : T) (r : option (list T)) (power : T) : option T :=
    match r with
    | Some (r0 :: r1 :: _) => Some ((one_half + power) * r0 + (one_half - power) * r1)
    | _ => None
    end.
  (** the zip and map of fri/src/fold_even_odd.rs 45-52 *)
  Fixpoint map2_opt {A B C} (f : A -> B -> option C) (l : list A) (l' : list B) : option (list C) :=
    match l, l' with
    | a :: l, b :: l' => match f a b, map2_opt f l l' with Some c, Some r => Some (c :: r) | _, _ => None end
    | _, _ => Some []
    end.

  (** fold_even_odd.rs 20-52 *)
  Definition fold_even_odd (poly : list T) (beta : T) : option (list T) :=
    match new2 poly with
    | None => None
    | Some m =>
        match log2_strict (height T m) with
        | None => None
        | Some lh =>
            match two_adic_generator T (lh + 1) with
            | None => None
            | Some g =>
                match inverse g, inverse (2 : T) with
                | Some g_inv, Some one_half =>
                    let half_beta := beta * one_half in
                    match reverse_slice_index_bits (shifted_powers g_inv half_beta (height T m)) with
                    | None => None
                    | Some powers => map2_opt (fold_pair one_half) (rows m) powers
                    end
                | _, _ => None
                end
            end
        end
    end.

  (** two_adic_pcs.rs 112-141 *)
  Definition fold_matrix (beta : T) (m : matrix T) : option (list T) :=
    match log2_strict (height T m) with
    | None => None
    | Some lh =>
        match two_adic_generator T (lh + 1) with
        | None => None
        | Some g =>
            match inverse g, inverse (2 : T) with
            | Some g_inv, Some one_half =>
                let half_beta := beta * one_half in
                match reverse_slice_index_bits (shifted_powers g_inv half_beta (height T m)) with
                | None => None
                | Some powers => map2_opt (fold_pair one_half) (rows m) powers
                end
            | _, _ => None
            end
        end
    end.

  (** two_adic_pcs.rs 81-110 *)
  Definition fold_row (index log_height : nat) (beta : T) (evals : list T) : option T :=
    match evals with
    | [e0; e1] =>
        match two_adic_generator T (log_height + 1), two_adic_generator T 1 with
        | Some g, Some g1 =>
            let subgroup_start := g ^ reverse_bits_len index log_height in
            match reverse_slice_index_bits (shifted_powers g1 subgroup_start 2) with
            | Some [x0; x1] =>
                option_map (fadd e0) (checked_div ((beta - x0) * (e1 - e0)) (x1 - x0))
            | _ => None
            end
        | _, _ => None
        end
    | _ => None
    end.
End Fold.

(** config.rs 9-16 (without the commitment scheme) *)
Record fri_config := { log_blowup : nat; num_queries : nat; proof_of_work_bits : nat }.
(** config.rs 18-22 *)
Definition blowup (c : fri_config) : nat := 2 ^ log_blowup c.

(** error.rs 20-29, the variants this code returns *)
Inductive fri_error (CE IE : Type) : Type :=
| InputError (e : IE) | InvalidProofShape | CommitPhaseMmcsError (e : CE) | FinalPolyMismatch | InvalidPowWitness.
Arguments InputError {CE IE}. Arguments InvalidProofShape {CE IE}. Arguments CommitPhaseMmcsError {CE IE}.
Arguments FinalPolyMismatch {CE IE}. Arguments InvalidPowWitness {CE IE}.

Section Fri.
  Variable T : two_adic.
  Variable M : mmcs T.
  Variable Ch : challenger (m_comm M) T.
  (** G::InputProof, G::InputError *)
  Variables (IP IE : Type).
  Variable config : fri_config.
  Local Open Scope F_scope.

  (** proof.rs 25-34 BfQueryProof, 8-20 FriProof *)
  Record query_proof := { input_proof : IP; commit_phase_openings : list (list (list T) * m_proof M) }.
  Record fri_proof := { commit_phase_commits : list (m_comm M); query_proofs : list query_proof;
                        final_poly : T; pow_witness : c_wit Ch }.

  (** ** prover.rs *)

  (** izip!(&mut folded, v).for_each(|(c, x)| *c += x) *)
  (** fri/src/prover.rs 125 *)
  Fixpoint add_into (folded v : list T) : list T :=
    match folded, v with c :: folded, x :: v => (c + x) :: add_into folded v | _, _ => folded end.
  (** inputs_iter.next_if(|v| v.len() == folded.len()), prover.rs 117-119 *)
  Definition take_input (folded : list T) (inputs : list (list T)) : list T * list (list T) :=
    match inputs with
    | v :: rest => if (length v =? length folded)%nat then (add_into folded v, rest) else (folded, inputs)
    | [] => (folded, [])
    end.
  Record commit_state := { cs_commits : list (m_comm M); cs_data : list (m_data M); cs_folded : list T;
                           cs_mmcs : m_state M; cs_chal : c_state Ch }.
  (** the while loop of prover.rs 102-120; [fuel] bounds the iterations, which halve the vector *)
  Fixpoint commit_loop (fuel : nat) (st : m_state M) (ch : c_state Ch) (folded : list T) (inputs : list (list T))
    : option commit_state :=
    if (length folded <=? blowup config)%nat
    then Some {| cs_commits := []; cs_data := []; cs_folded := folded; cs_mmcs := st; cs_chal := ch |}
    else
      match fuel with
      | O => None
      | S fuel =>
          match new2 T folded with
          | None => None
          | Some leaves =>
              match m_commit M st [leaves] with
              | None => None
              | Some (commit, data, st) =>
                  match c_observe Ch ch commit with
                  | None => None
                  | Some ch =>
                      match c_sample Ch ch with
                      | None => None
                      | Some (beta, ch) =>
                          match m_get_matrices M data with
                          | None => None
                          | Some ms =>
                              match rev ms with
                              | [] => None
                              | leaves :: _ =>
                                  match fold_matrix T beta leaves with
                                  | None => None
                                  | Some folded =>
                                      let (folded, inputs) := take_input folded inputs in
                                      match commit_loop fuel st ch folded inputs with
                                      | None => None
                                      | Some s => Some {| cs_commits := commit :: cs_commits s; cs_data := data :: cs_data s;
                                                          cs_folded := cs_folded s; cs_mmcs := cs_mmcs s; cs_chal := cs_chal s |}
                                      end
                                  end
                              end
                          end
                      end
                  end
              end
          end
      end.
  (** prover.rs 84-141 bf_commit_phase: commits, data, final_poly *)
  Definition commit_phase (st : m_state M) (ch : c_state Ch) (inputs : list (list T))
    : option (list (m_comm M) * list (m_data M) * T * m_state M * c_state Ch) :=
    match inputs with
    | [] => None
    | folded :: inputs =>
        match commit_loop (length folded) st ch folded inputs with
        | None => None
        | Some s =>
            if (length (cs_folded s) =? blowup config)%nat then
              match cs_folded s with
              | [] => None
              | x :: _ => if forallb (fun y => feqb y x) (cs_folded s)
                          then Some (cs_commits s, cs_data s, x, cs_mmcs s, cs_chal s) else None
              end
            else None
        end
    end.

  (** prover.rs 67-82 bf_answer_query *)
  Fixpoint answer_query (i : nat) (data : list (m_data M)) (query_index query_times_index : nat)
    : option (list (list (list T) * m_proof M)) :=
    match data with
    | [] => Some []
    | d :: data =>
        match m_open_batch M query_times_index (query_index / 2 ^ i / 2) d, answer_query (S i) data query_index query_times_index with
        | Some o, Some os => Some (o :: os)
        | _, _ => None
        end
    end.
  (** prover.rs 44-58; extra_query_index_bits is 0 for TwoAdicFriGenericConfig *)
  Variable open_input_p : nat -> nat -> option IP.
  Fixpoint query_phase (n query_times_index : nat) (ch : c_state Ch) (log_max_height : nat) (data : list (m_data M))
    : option (list query_proof * c_state Ch) :=
    match n with
    | O => Some ([], ch)
    | S n =>
        match c_sample_bits Ch ch log_max_height with
        | None => None
        | Some (query_index, ch) =>
            match open_input_p query_times_index query_index, answer_query 0 data query_index query_times_index with
            | Some ip, Some os =>
                match query_phase n (S query_times_index) ch log_max_height data with
                | None => None
                | Some (qs, ch) => Some ({| input_proof := ip; commit_phase_openings := os |} :: qs, ch)
                end
            | _, _ => None
            end
        end
    end.
  (** prover.rs 31-34 *)
  Fixpoint sorted_descending (l : list (list T)) : bool :=
    match l with
    | a :: ((b :: _) as l') => (length b <=? length a)%nat && sorted_descending l'
    | _ => true
    end.
  (** prover.rs 18-65 bf_prove *)
  Definition bf_prove (st : m_state M) (ch : c_state Ch) (inputs : list (list T))
    (proof : fri_proof) (st' : m_state M) (ch' : c_state Ch) : Prop :=
    sorted_descending inputs = true /\
    exists log_max_height data ch1 ch2,
      log2_strict (length (hd [] inputs)) = Some log_max_height /\
      commit_phase st ch inputs = Some (commit_phase_commits proof, data, final_poly proof, st', ch1) /\
      c_grind Ch ch1 (proof_of_work_bits config) (pow_witness proof) ch2 /\
      query_phase (num_queries config) 0 ch2 log_max_height data = Some (query_proofs proof, ch').

  (** ** verifier.rs *)

  (** verifier.rs 14-18 *)
  Record fri_challenges := { query_indices : list (nat * nat); betas : list T }.

  Definition result (A : Type) : Type := outcome (fri_error (m_err M) IE) A.

  (** verifier.rs 32-39 *)
  Fixpoint sample_betas (ch : c_state Ch) (commits : list (m_comm M)) : option (list T * c_state Ch) :=
    match commits with
    | [] => Some ([], ch)
    | c :: commits =>
        match c_observe Ch ch c with
        | None => None
        | Some ch => match c_sample Ch ch with
                     | None => None
                     | Some (beta, ch) => match sample_betas ch commits with
                                          | None => None
                                          | Some (bs, ch) => Some (beta :: bs, ch)
                                          end
                     end
        end
    end.
  (** verifier.rs 52-54 *)
  Fixpoint sample_indices (n query_times_index : nat) (ch : c_state Ch) (bits : nat)
    : option (list (nat * nat) * c_state Ch) :=
    match n with
    | O => Some ([], ch)
    | S n => match c_sample_bits Ch ch bits with
             | None => None
             | Some (i, ch) => match sample_indices n (S query_times_index) ch bits with
                               | None => None
                               | Some (l, ch) => Some ((query_times_index, i) :: l, ch)
                               end
             end
    end.
  (** verifier.rs 20-60 *)
  Definition verify_shape_and_sample_challenges (proof : fri_proof) (ch : c_state Ch)
    : result (fri_challenges * c_state Ch) :=
    match sample_betas ch (commit_phase_commits proof) with
    | None => Panic
    | Some (bs, ch) =>
        if negb (length (query_proofs proof) =? num_queries config)%nat then Err InvalidProofShape else
        match c_check_witness Ch ch (proof_of_work_bits config) (pow_witness proof) with
        | None => Panic
        | Some (false, _) => Err InvalidPowWitness
        | Some (true, ch) =>
            let log_max_height := (length (commit_phase_commits proof) + log_blowup config)%nat in
            match sample_indices (num_queries config) 0 ch log_max_height with
            | None => Panic
            | Some (l, ch) => Ok ({| query_indices := l; betas := bs |}, ch)
            end
        end
    end.

  (** izip! of the four iterators of verifier.rs 119-124; [n] is log_max_height and the first
      component log_folded_height *)
  Fixpoint layers (n : nat) (commits : list (m_comm M)) (openings : list (list (list T) * m_proof M)) (bs : list T)
    : list (nat * m_comm M * (list (list T) * m_proof M) * T) :=
    match n, commits, openings, bs with
    | S n, c :: commits, o :: openings, b :: bs => (n, c, o, b) :: layers n commits openings bs
    | _, _, _, _ => []
    end.
  (** ro_iter.next_if(|(lh, _)| *lh == log_folded_height + 1), verifier.rs 129-132 *)
  Definition next_opening (log_folded_height : nat) (folded_eval : T) (ros : list (nat * T)) : T * list (nat * T) :=
    match ros with
    | (lh, ro) :: rest => if (lh =? log_folded_height + 1)%nat then (folded_eval + ro, rest) else (folded_eval, ros)
    | [] => (folded_eval, [])
    end.
  (** verifier.rs 119-160, the loop *)
  Fixpoint query_loop (log_max_height query_times_index : nat)
    (ls : list (nat * m_comm M * (list (list T) * m_proof M) * T))
    (query_index : nat) (folded_eval : T) (ros : list (nat * T)) : result (T * nat) :=
    match ls with
    | [] => Ok (folded_eval, query_index)
    | (log_folded_height, commit, (vals, pf), beta) :: ls =>
        let point_index := (query_index mod 2)%nat in
        let index_pair := (query_index / 2)%nat in
        let (folded_eval, ros) := next_opening log_folded_height folded_eval ros in
        match vals with
        | [r] =>
            match nth_error r point_index with
            | None => Panic
            | Some commited_folded_eval =>
                if (log_folded_height <? log_max_height - 1)%nat && negb (feqb folded_eval commited_folded_eval)
                then Panic
                else
                  match m_verify_batch M query_times_index vals pf commit with
                  | Panic => Panic
                  | Err e => Err (CommitPhaseMmcsError e)
                  | Ok _ =>
                      match fold_row T index_pair log_folded_height beta r with
                      | None => Panic
                      | Some folded_eval => query_loop log_max_height query_times_index ls index_pair folded_eval ros
                      end
                  end
            end
        | _ => Panic
        end
    end.
  (** verifier.rs 100-165 verify_query; [debug] is cfg(debug_assertions) *)
  Variable debug : bool.
  Definition verify_query (commits : list (m_comm M)) (query_index query_times_index : nat) (proof : query_proof)
    (bs : list T) (reduced_openings : list (nat * T)) (log_max_height : nat) : result T :=
    match query_loop log_max_height query_times_index
            (layers log_max_height commits (commit_phase_openings proof) bs) query_index 0 reduced_openings with
    | Ok (folded_eval, query_index) =>
        if debug && negb (query_index <? blowup config)%nat then Panic else Ok folded_eval
    | Err e => Err e
    | Panic => Panic
    end.
  (** verifier.rs 62-98 verify_challenges; [open_input query_times_index query_index input_proof] *)
  Variable open_input : nat -> nat -> IP -> outcome IE (list (nat * T)).
  Fixpoint verify_queries (proof : fri_proof) (bs : list T) (log_max_height : nat)
    (qs : list ((nat * nat) * query_proof)) : result unit :=
    match qs with
    | [] => Ok tt
    | ((query_times_index, query_index), qp) :: qs =>
        match open_input query_times_index query_index (input_proof qp) with
        | Panic => Panic
        | Err e => Err (InputError e)
        | Ok ro =>
            match verify_query (commit_phase_commits proof) query_index query_times_index qp bs ro log_max_height with
            | Panic => Panic
            | Err e => Err e
            | Ok folded_eval =>
                if feqb folded_eval (final_poly proof) then verify_queries proof bs log_max_height qs
                else Err FinalPolyMismatch
            end
        end
    end.
  Definition verify_challenges (proof : fri_proof) (challenges : fri_challenges) : result unit :=
    let log_max_height := (length (commit_phase_commits proof) + log_blowup config)%nat in
    verify_queries proof (betas challenges) log_max_height
      (List.combine (query_indices challenges) (query_proofs proof)).
End Fri.
