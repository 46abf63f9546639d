(** The functions of basic/src/tcs/mod.rs and basic/src/mmcs/bf_mmcs.rs that deal with all queries of
    a commitment at once, function by function, on top of TcsModel.  Panics are [None]. *)
From Coq Require Import ZArith NArith List Bool Arith.
From Verif Require Import ScriptNum ScriptVM TaptreeModel TcsModel.
Import ListNotations.
Local Open Scope nat_scope.

Section TcsMulti.
  Variable H : bytes -> bytes.
  Variables (F bc : Type).
  Variable as_u32_vec : F -> list Z.
  Variable u32_size : nat.
  Variable new_bc : nat -> bool -> bc.
  Variable lock : bc -> script.
  Variable bc_witness : bc -> list Z -> list bytes.
  Variable leaf_hash : script -> hash.
  Variable branch_hash : hash -> hash -> hash.

  (** mod.rs 311-316: (0..query_times).zip(indices).map(|(t, i)| prover_datas[t].query_proof(i)); the
      count from [t] walks along the data, so data that run out panic (prover_datas[t]). *)
  Fixpoint query_proofs (t : nat) (datas : list (commited_data F bc)) (indices : list nat) : option (list (commited_proof bc)) :=
    match indices with
    | [] => Some []
    | i :: indices =>
        match nth_error datas t with
        | None => None
        | Some d => match query_proof F bc d i, query_proofs (S t) datas indices with
                    | Some p, Some ps => Some (p :: ps)
                    | _, _ => None
                    end
        end
    end.
  (** mod.rs 302-326 open_with_query_times: the two length assertions, the proofs, and the values read
      from the padded matrix of the first tree (prover_datas[0], leaves_evals[index]). *)
  Definition open_with_query_times (indices : list nat) (datas : list (commited_data F bc)) (query_times : nat)
    : option (list (commited_proof bc) * list (list F)) :=
    if (length indices =? query_times) && (length datas =? query_times) then
      match query_proofs 0 datas indices, datas with
      | Some ps, d0 :: _ =>
          match padding_matrix F (cd_leaves F bc d0) with
          | None => None
          | Some ys => option_map (fun vs => (ps, vs)) (opt_all (map (fun i => nth_error ys i) indices))
          end
      | _, _ => None
      end
    else None.
  (** mod.rs 405-414 open_with_one_query *)
  Definition open_with_one_query (query_times_index query_index : nat) (datas : list (commited_data F bc)) (query_times : nat)
    : option (commited_proof bc * list F) :=
    if length datas =? query_times then
      match nth_error datas query_times_index with
      | None => None
      | Some d => TcsModel.open F bc query_index d
      end
    else None.
  (** mod.rs 435-455 verify_with_query_times.  [verify_loop t k success] is the state of the loop
      before query t with k queries to go. *)
  Fixpoint verify_loop (roots : list hash) (proofs : list (commited_proof bc)) (opening_values : list (list F))
    (t k : nat) (success : bool) : option bool :=
    match k with
    | 0 => Some success
    | S k =>
        if negb success then Some false
        else
          match nth_error roots t, nth_error proofs t, nth_error opening_values t with
          | Some r, Some p, Some v =>
              match TcsModel.verify H F bc as_u32_vec bc_witness leaf_hash branch_hash r p v with
              | None => None
              | Some success => verify_loop roots proofs opening_values (S t) k success
              end
          | _, _, _ => None
          end
    end.
  Definition verify_with_query_times (roots : list hash) (proofs : list (commited_proof bc)) (opening_values : list (list F))
    (query_times : nat) : option bool :=
    verify_loop roots proofs opening_values 0 query_times true.

  (** taptree_mmcs.rs 120-122 get_matrices *)
  Definition get_matrices (datas : list (commited_data F bc)) : option (list (matrix F)) :=
    match datas with
    | [] => None
    | d0 :: _ => Some (cd_leaves F bc d0)
    end.
  (** bf_mmcs.rs 54-59 get_matrix_heights: values.len() / width panics when the width is 0. *)
  Definition get_matrix_heights (datas : list (commited_data F bc)) : option (list nat) :=
    match get_matrices datas with
    | None => None
    | Some ms => opt_all (map (fun m => if width F m =? 0 then None else Some (length (values F m) / width F m)) ms)
    end.
  (** bf_mmcs.rs 62-67 get_max_height: Iterator::max, panicking when there is no matrix. *)
  Definition iter_max (l : list nat) : option nat :=
    match l with
    | [] => None
    | x :: l => Some (fold_left Nat.max l x)
    end.
  Definition get_max_height (datas : list (commited_data F bc)) : option nat :=
    match get_matrix_heights datas with
    | None => None
    | Some hs => iter_max hs
    end.
  (** bf_mmcs.rs 25-27 commit_matrix, 29-34 commit_vec (RowMajorMatrix::new_col has width 1). *)
  Definition commit_matrix (num_queries next : nat) (input : matrix F) :=
    commit F bc as_u32_vec u32_size new_bc lock leaf_hash branch_hash num_queries next [input].
  Definition commit_vec (num_queries next : nat) (input : list F) :=
    commit_matrix num_queries next {| width := 1; values := input |}.
End TcsMulti.
