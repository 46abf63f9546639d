(** fri/src/two_adic_pcs.rs: TwoAdicFriPcs, function by function.

    Val is the field of [V], Challenge the field of [T], [from_base] the embedding
    (AbstractExtensionField::from_base).  The two commitment schemes and the challenger are the
    interfaces of FriModel.  coset_lde_batch (p3_dft) and interpolate_coset (p3_interpolation) are
    external and appear as functions; PcsProofs states what is assumed of them.
    usize subtraction below zero is a panic (as in a debug build). *)
From Coq Require Import List Arith Bool Lia.
From Verif Require Import Field TcsModel PropTcs FriModel.
Import ListNotations.

(** p3_commit TwoAdicMultiplicativeCoset *)
(** fri/src/two_adic_pcs.rs 213, 222 *)
Record coset (V : Type) := { log_n : nat; shift : V }.
Arguments log_n {_}. Arguments shift {_}.
(** called at fri/src/two_adic_pcs.rs 257, 488 *)
Definition coset_size {V} (d : coset V) : nat := 2 ^ log_n d.

Section Pcs.
  Variables V T : two_adic.
  Variable from_base : V -> T.
  Variable generator : V.
  Variable M0 : mmcs V.
  Variable M : mmcs T.
  Variable Ch : challenger (m_comm M) T.
  Variable config : fri_config.
  Variable coset_lde_batch : matrix V -> nat -> V -> option (matrix V).
  Variable interpolate_coset : matrix V -> V -> T -> option (list T).
  Local Open Scope F_scope.

  (** two_adic_pcs.rs 220-226 *)
  Definition natural_domain_for_degree (degree : nat) : option (coset V) :=
    option_map (fun k => {| log_n := k; shift := 1 |}) (log2_strict degree).

  (** p3_matrix bit_reverse_rows / BitReversalPerm::new_view, which asserts a power-of-two height *)
  (** called at fri/src/two_adic_pcs.rs 239, 257, 365 *)
  Definition bit_reverse_rows (m : matrix V) : option (matrix V) :=
    match log2_strict (height V m) with
    | None => None
    | Some k => Some {| width := width V m;
                        values := flat_map (fun i => row_of m (reverse_bits_len i k)) (seq 0 (height V m)) |}
    end.
  (** the first part of p3_matrix split_rows *)
  (** called at fri/src/two_adic_pcs.rs 257, 362 *)
  Definition top_rows (n : nat) (m : matrix V) : matrix V :=
    {| width := width V m; values := firstn (n * width V m) (values V m) |}.

  (** two_adic_pcs.rs 231-242 *)
  Definition lde (e : coset V * matrix V) : option (matrix V) :=
    let (domain, evals) := e in
    if negb (coset_size domain =? height V evals)%nat then None else
    match checked_div generator (shift domain) with
    | None => None
    | Some s => match coset_lde_batch evals (log_blowup config) s with
                | None => None
                | Some m => bit_reverse_rows m
                end
    end.
  Fixpoint traverse {A B} (f : A -> option B) (l : list A) : option (list B) :=
    match l with
    | [] => Some []
    | a :: l => match f a, traverse f l with Some b, Some r => Some (b :: r) | _, _ => None end
    end.
  (** two_adic_pcs.rs 227-245 *)
  Definition pcs_commit (st : m_state M0) (evaluations : list (coset V * matrix V))
    : option (m_comm M0 * m_data M0 * m_state M0) :=
    match traverse lde evaluations with None => None | Some ldes => m_commit M0 st ldes end.
  (** two_adic_pcs.rs 247-258 *)
  Definition get_evaluations_on_domain (d : m_data M0) (idx : nat) (domain : coset V) : option (matrix V) :=
    if negb (feqb (shift domain) generator) then None else
    match m_get_matrices M0 d with
    | None => None
    | Some ms => match nth_error ms idx with
                 | None => None
                 | Some m => if (coset_size domain <=? height V m)%nat
                             then bit_reverse_rows (top_rows (coset_size domain) m) else None
                 end
    end.

  (** ** open *)

  (** max_log_height_for_point (a LinearMap), two_adic_pcs.rs 682-694 *)
  Fixpoint note_height (z : T) (log_height : nat) (l : list (T * nat)) : list (T * nat) :=
    match l with
    | [] => [(z, log_height)]
    | (z', lh) :: l => if feqb z z' then (z', Nat.max lh log_height) :: l else (z', lh) :: note_height z log_height l
    end.
  Fixpoint note_mats (mats : list (matrix V)) (points : list (list T)) (l : list (T * nat)) : option (list (T * nat)) :=
    match mats, points with
    | m :: mats, ps :: points =>
        match log2_strict (height V m) with
        | None => None
        | Some lh => note_mats mats points (fold_left (fun l z => note_height z lh l) ps l)
        end
    | _, _ => Some l
    end.
  Fixpoint note_rounds (mp : list (list (matrix V) * list (list T))) (l : list (T * nat)) : option (list (T * nat)) :=
    match mp with
    | [] => Some l
    | (mats, points) :: mp => match note_mats mats points l with None => None | Some l => note_rounds mp l end
    end.
  (** cyclic_subgroup_coset_known_order, then reverse_slice_index_bits: two_adic_pcs.rs 697-704 *)
  Definition coset_points (k : nat) : option (list V) :=
    match two_adic_generator V k with
    | None => None
    | Some g => reverse_slice_index_bits (shifted_powers V g generator (2 ^ k))
    end.
  (** two_adic_pcs.rs 678-720; batch_multiplicative_inverse panics on zero *)
  Definition compute_inverse_denominators (mp : list (list (matrix V) * list (list T))) : option (list (T * list T)) :=
    match note_rounds mp [] with
    | None => None
    | Some [] => None
    | Some l =>
        match coset_points (fold_left (fun a p => Nat.max a (snd p)) l 0%nat) with
        | None => None
        | Some subgroup =>
            traverse (fun p : T * nat =>
              option_map (pair (fst p))
                (traverse (fun x => inverse (from_base x - fst p)) (firstn (2 ^ snd p) subgroup))) l
        end
    end.
  Fixpoint lookup {A} (z : T) (l : list (T * A)) : option A :=
    match l with [] => None | (z', a) :: l => if feqb z z' then Some a else lookup z l end.

  (** dot_product(alpha.powers(), ys) *)
  (** fri/src/two_adic_pcs.rs 372 *)
  Fixpoint dot_powers (alpha power : T) (ys : list T) : T :=
    match ys with [] => 0 | y :: ys => power * y + dot_powers alpha (power * alpha) ys end.
  (** p3_matrix dot_ext_powers, one row *)
  (** called at fri/src/two_adic_pcs.rs 375 *)
  Definition dot_ext_row (alpha : T) (r : list V) : T := dot_powers alpha 1 (map from_base r).

  (** reduced_openings and num_reduced: two arrays of length 32 *)
  Record reduced := { r_open : nat -> option (list T); r_num : nat -> nat }.
  Definition upd {A} (f : nat -> A) (k : nat) (a : A) : nat -> A := fun i => if (i =? k)%nat then a else f i.

  (** ro += alpha_pow_offset * (reduced_row - reduced_ys) * inv_denom, zipped: two_adic_pcs.rs 374-381 *)
  Fixpoint reduce_rows (offset reduced_ys : T) (rows : list T) (ro inv_denoms : list T) : list T :=
    match rows, ro, inv_denoms with
    | r :: rows, o :: ro, d :: ds => (o + offset * (r - reduced_ys) * d) :: reduce_rows offset reduced_ys rows ro ds
    | _, _, _ => ro
    end.
  (** two_adic_pcs.rs 353-385, one point *)
  Definition open_point (alpha : T) (inv_denoms : list (T * list T)) (m : matrix V) (lh : nat) (point : T) (s : reduced)
    : option (list T * reduced) :=
    match bit_reverse_rows (top_rows (height V m / 2 ^ log_blowup config) m) with
    | None => None
    | Some low =>
        match interpolate_coset low generator point, lookup point inv_denoms, r_open s lh with
        | Some ys, Some ds, Some ro =>
            let offset := alpha ^ r_num s lh in
            let reduced_ys := dot_powers alpha 1 ys in
            let rows := map (fun i => dot_ext_row alpha (row_of m i)) (seq 0 (height V m)) in
            Some (ys, {| r_open := upd (r_open s) lh (Some (reduce_rows offset reduced_ys rows ro ds));
                         r_num := upd (r_num s) lh (r_num s lh + width V m)%nat |})
        | _, _, _ => None
        end
    end.
  Fixpoint open_points alpha inv_denoms m lh (points : list T) (s : reduced) : option (list (list T) * reduced) :=
    match points with
    | [] => Some ([], s)
    | z :: points =>
        match open_point alpha inv_denoms m lh z s with
        | None => None
        | Some (ys, s) => match open_points alpha inv_denoms m lh points s with
                          | None => None
                          | Some (yss, s) => Some (ys :: yss, s)
                          end
        end
    end.
  (** two_adic_pcs.rs 346-352 *)
  Definition open_mat alpha inv_denoms (m : matrix V) (points : list T) (s : reduced) : option (list (list T) * reduced) :=
    match log2_strict (height V m) with
    | None => None
    | Some lh =>
        if (32 <=? lh)%nat then None else
        let ro := match r_open s lh with Some ro => ro | None => repeat 0 (height V m) end in
        open_points alpha inv_denoms m lh points {| r_open := upd (r_open s) lh (Some ro); r_num := r_num s |}
    end.
  Fixpoint open_mats alpha inv_denoms (mats : list (matrix V)) (points : list (list T)) (s : reduced)
    : option (list (list (list T)) * reduced) :=
    match mats, points with
    | m :: mats, ps :: points =>
        match open_mat alpha inv_denoms m ps s with
        | None => None
        | Some (o, s) => match open_mats alpha inv_denoms mats points s with
                         | None => None
                         | Some (os, s) => Some (o :: os, s)
                         end
        end
    | _, _ => Some ([], s)
    end.
  Fixpoint open_rounds alpha inv_denoms (mp : list (list (matrix V) * list (list T))) (s : reduced)
    : option (list (list (list (list T))) * reduced) :=
    match mp with
    | [] => Some ([], s)
    | (mats, points) :: mp =>
        match open_mats alpha inv_denoms mats points s with
        | None => None
        | Some (o, s) => match open_rounds alpha inv_denoms mp s with
                         | None => None
                         | Some (os, s) => Some (o :: os, s)
                         end
        end
    end.
  Definition no_openings : reduced := {| r_open := fun _ => None; r_num := fun _ => 0%nat |}.
  (** reduced_openings.into_iter().rev().flatten(), two_adic_pcs.rs 389 *)
  Fixpoint flatten_desc (n : nat) (f : nat -> option (list T)) : list (list T) :=
    match n with O => [] | S n => match f n with Some v => v :: flatten_desc n f | None => flatten_desc n f end end.
  (** two_adic_pcs.rs 337-389: opened values and FRI inputs *)
  Definition open_reduce (alpha : T) (mp : list (list (matrix V) * list (list T)))
    : option (list (list (list (list T))) * list (list T)) :=
    match compute_inverse_denominators mp with
    | None => None
    | Some inv_denoms =>
        match open_rounds alpha inv_denoms mp no_openings with
        | None => None
        | Some (opened, s) => Some (opened, flatten_desc 32 (r_open s))
        end
    end.
  (** BatchOpening *)
  (** fri/src/two_adic_pcs.rs 65-73 *)
  Definition batch_opening : Type := list (list V) * m_proof M0.
  (** the mmcs function get_max_height, called at fri/src/two_adic_pcs.rs 403 *)
  Definition max_rows (ms : list (matrix V)) : nat := fold_left (fun a m => Nat.max a (height V m)) ms 0%nat.
  (** two_adic_pcs.rs 399-415; get_max_height is the maximum over get_matrices *)
  Definition answer_inputs (log_global : nat) (datas : list (m_data M0)) (query_times_index query_index : nat)
    : option (list batch_opening) :=
    traverse (fun d =>
      match m_get_matrices M0 d with
      | None => None
      | Some ms =>
          match log2_strict (max_rows ms) with
          | None => None
          | Some log_max => if (log_global <? log_max)%nat then None
                            else m_open_batch M0 query_times_index (query_index / 2 ^ (log_global - log_max)) d
          end
      end) datas.
  (** two_adic_pcs.rs 260-419 *)
  Definition pcs_open (rounds : list (m_data M0 * list (list T))) (st : m_state M) (ch : c_state Ch)
    (opened : list (list (list (list T)))) (proof : fri_proof T M Ch (list batch_opening)) (st' : m_state M) (ch' : c_state Ch) : Prop :=
    exists alpha ch1 mats log_global fri_input,
      c_sample Ch ch = Some (alpha, ch1) /\
      traverse (fun r => m_get_matrices M0 (fst r)) rounds = Some mats /\
      log2_strict (max_rows (concat mats)) = Some log_global /\
      open_reduce alpha (List.combine mats (map snd rounds)) = Some (opened, fri_input) /\
      bf_prove T M Ch (list batch_opening) config (answer_inputs log_global (map fst rounds)) st ch1 fri_input proof st' ch'.

  (** ** verify *)

  (** reduced_openings, a BTreeMap: ascending keys; log_height -> (alpha_pow, ro) *)
  (** fri/src/two_adic_pcs.rs 463 *)
  Definition ro_map : Type := list (nat * (T * T)).
  (** BTreeMap::entry on the map of fri/src/two_adic_pcs.rs 463 *)
  Fixpoint entry (k : nat) (l : ro_map) : T * T :=
    match l with [] => (1, 0) | (k', e) :: l => if (k =? k')%nat then e else entry k l end.
  (** BTreeMap::entry on the map of fri/src/two_adic_pcs.rs 463 *)
  Fixpoint put (k : nat) (e : T * T) (l : ro_map) : ro_map :=
    match l with
    | [] => [(k, e)]
    | (k', e') :: r => if (k <? k')%nat then (k, e) :: l else if (k =? k')%nat then (k, e) :: r else (k', e') :: put k e r
    end.
  (** two_adic_pcs.rs 503-516 *)
  Fixpoint acc_values (alpha alpha_pow acc : T) (at_x : list V) (at_z : list T) : T * T :=
    match at_x, at_z with
    | p :: at_x, y :: at_z => acc_values alpha (alpha_pow * alpha) (acc + alpha_pow * (- y + from_base p)) at_x at_z
    | _, _ => (alpha_pow, acc)
    end.
  (** two_adic_pcs.rs 502-519 *)
  Fixpoint reduce_points (alpha : T) (x : V) (at_x : list V) (pts : list (T * list T)) (e : T * T) : option (T * T) :=
    match pts with
    | [] => Some e
    | (z, at_z) :: pts =>
        let (alpha_pow, acc) := acc_values alpha (fst e) 0 at_x at_z in
        match checked_div acc (- z + from_base x) with
        | None => None
        | Some q => reduce_points alpha x at_x pts (alpha_pow, snd e + q)
        end
    end.
  (** two_adic_pcs.rs 485-520 *)
  Fixpoint reduce_mats (alpha : T) (log_global index : nat) (opened : list (list V)) (mats : list (coset V * list (T * list T)))
    (l : ro_map) : option ro_map :=
    match opened, mats with
    | at_x :: opened, (domain, pts) :: mats =>
        let log_height := (log_n domain + log_blowup config)%nat in
        if (log_global <? log_height)%nat then None else
        let rev := reverse_bits_len (index / 2 ^ (log_global - log_height)) log_height in
        match two_adic_generator V log_height with
        | None => None
        | Some g =>
            match reduce_points alpha (generator * g ^ rev) at_x pts (entry log_height l) with
            | None => None
            | Some e => reduce_mats alpha log_global index opened mats (put log_height e l)
            end
        end
    | _, _ => Some l
    end.
  (** two_adic_pcs.rs 465-521 *)
  Fixpoint reduce_batches (alpha : T) (log_global query_times_index index : nat) (input_proof : list batch_opening)
    (rounds : list (m_comm M0 * list (coset V * list (T * list T)))) (l : ro_map) : outcome (m_err M0) ro_map :=
    match input_proof, rounds with
    | (opened_values, opening_proof) :: input_proof, (commit, mats) :: rounds =>
        match mats with
        | [] => Panic
        | _ =>
            if (log_global <? fold_left (fun a (d : coset V * list (T * list T)) => Nat.max a (log_n (fst d))) mats 0 + log_blowup config)%nat
            then Panic else
            match m_verify_batch M0 query_times_index opened_values opening_proof commit with
            | Panic => Panic
            | Err e => Err e
            | Ok _ =>
                match reduce_mats alpha log_global index opened_values mats l with
                | None => Panic
                | Some l => reduce_batches alpha log_global query_times_index index input_proof rounds l
                end
            end
        end
    | _, _ => Ok l
    end.
  (** two_adic_pcs.rs 459-529 *)
  Definition pcs_open_input (alpha : T) (log_global : nat) (rounds : list (m_comm M0 * list (coset V * list (T * list T))))
    (query_times_index index : nat) (input_proof : list batch_opening) : outcome (m_err M0) (list (nat * T)) :=
    match reduce_batches alpha log_global query_times_index index input_proof rounds [] with
    | Ok l => Ok (map (fun p => (fst p, snd (snd p))) (rev l))
    | Err e => Err e
    | Panic => Panic
    end.
  (** two_adic_pcs.rs 421-534; both results are unwrapped with expect *)
  Definition pcs_verify (debug : bool) (rounds : list (m_comm M0 * list (coset V * list (T * list T))))
    (proof : fri_proof T M Ch (list batch_opening)) (ch : c_state Ch)
    : outcome (fri_error (m_err M) (m_err M0)) (c_state Ch) :=
    match c_sample Ch ch with
    | None => Panic
    | Some (alpha, ch) =>
        let log_global := (length (commit_phase_commits T M Ch (list batch_opening) proof) + log_blowup config)%nat in
        match verify_shape_and_sample_challenges T M Ch (list batch_opening) (m_err M0) config proof ch with
        | Ok (challenges, ch) =>
            match verify_challenges T M Ch (list batch_opening) (m_err M0) config debug
                    (pcs_open_input alpha log_global rounds) proof challenges with
            | Ok _ => Ok ch
            | _ => Panic
            end
        | _ => Panic
        end
    end.
End Pcs.
