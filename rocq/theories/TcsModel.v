(** basic/src/tcs/mod.rs (the taptree commitment scheme) and basic/src/mmcs/taptree_mmcs.rs,
    function by function.

    A field element is a value of [F] with its words [as_u32_vec] (basic/src/field/mod.rs 48-50,
    58-63).  The external crate bitcomm enters as a type [bc] of commitments with a locking script
    and a witness for a list of words; [new_bc n wide] is the n-th commitment its manager hands out
    (wide = CommitType::U128).  Panics are [None]. *)
From Coq Require Import ZArith NArith List Bool.
From Verif Require Import ScriptNum ScriptVM TaptreeModel.
Import ListNotations.
Open Scope Z_scope.

Section Tcs.
  Variable H : bytes -> bytes.
  Variables (F bc : Type).
  Variable as_u32_vec : F -> list Z.
  Variable u32_size : nat.
  Variable new_bc : nat -> bool -> bc.
  (** BCommitOperator::locking_script_with_type(CompressType::U32), witness after set_commit_value. *)
  Variable lock : bc -> script.
  Variable bc_witness : bc -> list Z -> list bytes.
  Variable leaf_hash : script -> hash.
  Variable branch_hash : hash -> hash -> hash.

  (** p3_matrix RowMajorMatrix; height and row as in that crate. *)
  (** the argument of basic/src/tcs/mod.rs 238 *)
  Record matrix := { width : nat; values : list F }.
  (** called at basic/src/tcs/mod.rs 94, 344-355 *)
  Definition height (m : matrix) : nat := if (width m =? 0)%nat then 0 else (length (values m) / width m)%nat.
  (** basic/src/tcs/mod.rs 364 *)
  Definition row (m : matrix) (i : nat) : option (list F) :=
    if ((i + 1) * width m <=? length (values m))%nat then Some (firstn (width m) (skipn (i * width m) (values m)))
    else None.
  (** p3_util::log2_ceil_usize *)
  (** called at basic/src/tcs/mod.rs 346, 352 and basic/src/mmcs/taptree_mmcs.rs 53, 58 *)
  Definition log2_ceil (n : nat) : nat := Nat.log2_up n.

  (** Iterator::sorted_by_key(|l| Reverse(l.height())): a stable sort, largest first. *)
  (** part of sorted_by_key, basic/src/tcs/mod.rs 344 *)
  Fixpoint insert_desc (m : matrix) (l : list matrix) : list matrix :=
    match l with
    | [] => [m]
    | x :: l' => if (height x <=? height m)%nat then m :: l else x :: insert_desc m l'
    end.
  (** basic/src/tcs/mod.rs 344 *)
  Definition sorted_desc (l : list matrix) : list matrix := fold_right insert_desc [] l.

  (** peeking_take_while *)
  (** basic/src/tcs/mod.rs 352 *)
  Fixpoint take_while (p : matrix -> bool) (l : list matrix) : list matrix * list matrix :=
    match l with
    | [] => ([], [])
    | m :: l' => if p m then let (a, b) := take_while p l' in (m :: a, b) else ([], l)
    end.

  (** leaf_ys[i].push(v) *)
  (** basic/src/tcs/mod.rs 364 *)
  Fixpoint push_at (i : nat) (v : F) (ys : list (list F)) : option (list (list F)) :=
    match ys, i with
    | [], _ => None
    | y :: ys, O => Some ((y ++ [v]) :: ys)
    | y :: ys, S i => option_map (cons y) (push_at i v ys)
    end.

  (** The triples (index, i, leaf_index) of the three nested loops of mod.rs 350-359, in order. *)
  Definition loop3 (curr_height w shift : nat) : list (nat * nat * nat) :=
    flat_map (fun index =>
      let curr_index := (index * 2 ^ shift)%nat in
      let next_index := ((index + 1) * 2 ^ shift)%nat in
      flat_map (fun i => map (fun leaf_index => (index, i, leaf_index)) (seq curr_index (next_index - curr_index)))
        (seq 0 w)) (seq 0 curr_height).
  Fixpoint push_all_values (m : matrix) (l : list (nat * nat * nat)) (ys : list (list F)) : option (list (list F)) :=
    match l with
    | [] => Some ys
    | (index, i, leaf_index) :: l =>
        match nth_error (values m) (index * width m + i) with
        | None => None
        | Some v => match push_at leaf_index v ys with None => None | Some ys => push_all_values m l ys end
        end
    end.
  Fixpoint push_matrices (curr_height shift : nat) (ms : list matrix) (ys : list (list F)) : option (list (list F)) :=
    match ms with
    | [] => Some ys
    | m :: ms => match push_all_values m (loop3 curr_height (width m) shift) ys with
                 | None => None
                 | Some ys => push_matrices curr_height shift ms ys
                 end
    end.
  (** the loop over log_height of mod.rs 342-363; [n] is log_height + 1 *)
  Fixpoint pad_levels (log_max n : nat) (ms : list matrix) (ys : list (list F)) : option (list (list F)) :=
    match n with
    | O => Some ys
    | S log_height =>
        let (taken, rest) := take_while (fun m => log2_ceil (height m) =? log_height)%nat ms in
        let r := match taken with
                 | [] => Some ys
                 | m :: _ => push_matrices (height m) (log_max - log_height) taken ys
                 end in
        match r with None => None | Some ys => pad_levels log_max log_height rest ys end
    end.
  (** mod.rs 330-371 padding_matrix *)
  Definition padding_matrix (leaves : list matrix) : option (list (list F)) :=
    match sorted_desc leaves with
    | [] => None
    | (m :: _) as ms =>
        let max_height := height m in
        let log_max := log2_ceil max_height in
        match pad_levels log_max (log_max + 1) ms (repeat [] max_height) with
        | Some ((y :: _) as ys) => if forallb (fun z => length y =? length z)%nat ys then Some ys else None
        | _ => None
        end
    end.

  (** mod.rs 155-161 UseBComm, 146-153 CommitedLeaf *)
  Record use_bcomm := { index_bc : bc; evaluations_bc : list bc }.
  Record commited_leaf := { cl_bcs : use_bcomm; cl_index : nat; cl_evaluations : list F }.

  (** mod.rs 186-198 set_commited_value: the words given to every commitment; indexing
      self.evaluations panics when there are fewer evaluations than commitments. *)
  Fixpoint bc_values (bcs : list bc) (evaluations : list F) : option (list (bc * list Z)) :=
    match bcs, evaluations with
    | [], _ => Some []
    | b :: bcs, e :: es => option_map (cons (b, as_u32_vec e)) (bc_values bcs es)
    | _ :: _, [] => None
    end.
  Definition as_u32 (n : nat) : Z := Z.of_nat n mod 2 ^ 32.

  (** mod.rs 174-184 *)
  Definition generate_witness (l : commited_leaf) : option (list bytes) :=
    match bc_values (evaluations_bc (cl_bcs l)) (cl_evaluations l) with
    | None => None
    | Some bvs => Some (flat_map (fun p => bc_witness (fst p) (snd p)) (rev bvs) ++
                        bc_witness (index_bc (cl_bcs l)) [as_u32 (cl_index l)])
    end.
  (** mod.rs 200-230 *)
  Definition check_values (vs : list Z) : script := flat_map (fun v => [PUSHN v; OP_EQUALVERIFY]) (rev vs).
  Definition generate_script (l : commited_leaf) : option script :=
    match bc_values (evaluations_bc (cl_bcs l)) (cl_evaluations l) with
    | None => None
    | Some bvs => Some (lock (index_bc (cl_bcs l)) ++ [PUSHN (Z.of_nat (cl_index l)); OP_EQUALVERIFY] ++
                        flat_map (fun p => lock (fst p) ++ check_values (snd p)) bvs ++ [PUSHN 1])
    end.

  (** mod.rs 83-88 CommitedData (commit_leaves is only kept for inspection), 103-107 CommitedProof *)
  Record commited_data := { cd_leaves : list matrix; cd_taptree : taptree script; cd_bcs : use_bcomm }.
  Record commited_proof := { cp_leaf : leaf script; cp_bcs : use_bcomm; cp_query_index : nat }.

  (** mod.rs 269-280: one script per non-empty row *)
  Fixpoint leaf_scripts (bcs : use_bcomm) (index : nat) (ys : list (list F)) : option (list script) :=
    match ys with
    | [] => Some []
    | y :: ys =>
        match leaf_scripts bcs (S index) ys with
        | None => None
        | Some r =>
            match y with
            | [] => Some r
            | _ => option_map (fun s => s :: r)
                     (generate_script {| cl_bcs := bcs; cl_index := index; cl_evaluations := y |})
            end
        end
    end.
  (** mod.rs 242-290 commit_polys; [next] is the number of commitments handed out so far *)
  Definition commit_polys (next : nat) (leaves : list matrix) : option (commited_data * nat) :=
    if negb ((u32_size =? 1) || (u32_size =? 4))%nat then None else
    match padding_matrix leaves with
    | None | Some [] => None
    | Some ((y :: _) as ys) =>
        let first_width := length y in
        let wide := (u32_size =? 4)%nat in
        let bcs := {| index_bc := new_bc next false;
                      evaluations_bc := map (fun i => new_bc (next + 1 + i) wide) (seq 0 first_width) |} in
        match leaf_scripts bcs 0 ys with
        | None => None
        | Some scripts =>
            match new_with_scripts script leaf_hash branch_hash scripts with
            | None => None
            | Some t => Some ({| cd_leaves := leaves; cd_taptree := t; cd_bcs := bcs |}, (next + 1 + first_width)%nat)
            end
        end
    end.
  (** mod.rs 292-300 *)
  Fixpoint commit_poly_with_query_times (next : nat) (polys : list matrix) (total : nat)
    : option (list commited_data * nat) :=
    match total with
    | O => Some ([], next)
    | S total =>
        match commit_polys next polys with
        | None => None
        | Some (d, next) => match commit_poly_with_query_times next polys total with
                            | None => None
                            | Some (ds, next) => Some (d :: ds, next)
                            end
        end
    end.

  (** mod.rs 134-137 query_proof *)
  Definition query_proof (d : commited_data) (query_index : nat) : option commited_proof :=
    match get_tapleaf script (cd_taptree d) query_index with
    | Some (Some l) => Some {| cp_leaf := l; cp_bcs := cd_bcs d; cp_query_index := query_index |}
    | _ => None
    end.
  (** mod.rs 302-309 open *)
  Definition open (index : nat) (d : commited_data) : option (commited_proof * list F) :=
    match padding_matrix (cd_leaves d), query_proof d index with
    | Some ys, Some p => option_map (fun y => (p, y)) (nth_error ys index)
    | _, _ => None
    end.

  (** mod.rs 140-144 verify_proof: scripts::execute_script_with_inputs puts the last witness item on
      top; success means that no opcode failed, no conditional is open and exactly one true item is left. *)
  Definition execute_success (s : script) (witness : list bytes) : bool :=
    bsucceeds (brun H s (mk (rev witness) [] [])).
  Definition verify_proof (root : hash) (l : leaf script) (witness : list bytes) : option bool :=
    option_map (fun inclusion => inclusion && execute_success (leaf_script script l) witness)
      (verify_inclusion script leaf_hash branch_hash root l).
  (** mod.rs 417-427 verify, 121-130 to_commited_leaf *)
  Definition verify (root : hash) (p : commited_proof) (opening_values : list F) : option bool :=
    match generate_witness {| cl_bcs := cp_bcs p; cl_index := cp_query_index p; cl_evaluations := opening_values |} with
    | None => None
    | Some w => verify_proof root (cp_leaf p) w
    end.

  (** taptree_mmcs.rs 46-75 open_batch.  [feqb] is the equality of the assertion. *)
  Variable feqb : F -> F -> bool.
  Fixpoint list_eqb (a b : list F) : bool :=
    match a, b with
    | [], [] => true
    | x :: a, y :: b => feqb x y && list_eqb a b
    | _, _ => false
    end.
  Fixpoint opt_all {X} (l : list (option X)) : option (list X) :=
    match l with
    | [] => Some []
    | Some x :: l => option_map (cons x) (opt_all l)
    | None :: _ => None
    end.
  Definition max_height (ms : list matrix) : nat := fold_left (fun a m => Nat.max a (height m)) ms 0%nat.
  Definition open_batch (num_queries query_times_index query_index : nat) (prover_data : list commited_data)
    : option (list (list F) * commited_proof) :=
    match prover_data with
    | [] => None
    | d0 :: _ =>
        let log_max := log2_ceil (max_height (cd_leaves d0)) in
        match opt_all (map (fun m =>
                let bits_reduced := (log_max - log2_ceil (height m))%nat in
                row m (query_index / 2 ^ bits_reduced)) (cd_leaves d0)) with
        | None => None
        | Some openings =>
            if (length prover_data =? num_queries)%nat then
              match nth_error prover_data query_times_index with
              | None => None
              | Some d =>
                  match open query_index d with
                  | None => None
                  | Some (p, evals) => if list_eqb (concat openings) evals then Some (openings, p) else None
                  end
              end
            else None
        end
    end.
  (** taptree_mmcs.rs 78-101 verify_batch; the commitments are the roots (u32_to_u256 undoes
      u256_to_u32, C24).  [Some true] is Ok(()), [Some false] is Err(InvalidOpenedValue). *)
  Definition verify_batch (query_times_index : nat) (opened_values : list (list F)) (p : commited_proof)
    (roots : list hash) : option bool :=
    match nth_error roots query_times_index with
    | None => None
    | Some root => verify root p (concat opened_values)
    end.
  (** taptree_mmcs.rs 103-118 commit *)
  Definition commit (num_queries next : nat) (inputs : list matrix) : option (list hash * list commited_data * nat) :=
    match commit_poly_with_query_times next inputs num_queries with
    | None => None
    | Some (ds, next) => Some (map (fun d => node_hash script (root_node script (cd_taptree d))) ds, ds, next)
    end.
End Tcs.
