(** basic/src/tcs/builder.rs and complete_taptree.rs, function by function.

    The patched rust-bitcoin types are modelled as follows.  NodeInfo: the node hash and its leaves
    (left to right), each with its script and its merkle branch (lowest sibling first).
    NodeInfo::combine_with_order(a, b) hashes the two node hashes in increasing order, returns
    whether a's hash is the strictly smaller one (left_first), puts the leaves of the first node
    before those of the second and appends the other node's hash to every branch; a branch longer
    than 128 hashes is an error.  A hash is its 32 bytes read as a big-endian number,
    so that the byte-wise order of TapNodeHash is the order of Z; the two tagged hash functions are
    section variables.  Panics are [None]. *)
From Coq Require Import ZArith NArith List Bool Lia.
Import ListNotations.

Definition hash := Z.

Section Taptree.
  Variable A : Type.
  (** TapLeaf hash of a script, TapBranch hash of an ordered pair. *)
  Variable leaf_hash : A -> hash.
  Variable branch_hash : hash -> hash -> hash.

  (** bitcoin::taproot::LeafNode (external), basic/src/tcs/complete_taptree.rs 1, 49 *)
  Record leaf := { leaf_script : A; leaf_branch : list hash }.
  (** bitcoin::taproot::NodeInfo (external), basic/src/tcs/complete_taptree.rs 1, 9 *)
  Record node := { node_hash : hash; node_leaves : list leaf }.

  (** TapNodeHash::from_node_hashes *)
  (** called at basic/src/tcs/complete_taptree.rs 58-60, 69-71 *)
  Definition from_node_hashes (a b : hash) : hash :=
    if Z.ltb a b then branch_hash a b else branch_hash b a.

  (** NodeInfo::new_leaf_with_ver *)
  (** called at basic/src/tcs/builder.rs 26 *)
  Definition new_leaf (s : A) : node :=
    {| node_hash := leaf_hash s; node_leaves := [{| leaf_script := s; leaf_branch := [] |}] |}.

  (** TaprootMerkleBranch::push *)
  (** in NodeInfo::combine_with_order, called at basic/src/tcs/builder.rs 64 and mod.rs 481 *)
  Definition push_branch (h : hash) (l : leaf) : option leaf :=
    if (length (leaf_branch l) <? 128)%nat
    then Some {| leaf_script := leaf_script l; leaf_branch := leaf_branch l ++ [h] |} else None.
  (** in NodeInfo::combine_with_order, called at basic/src/tcs/builder.rs 64 and mod.rs 481 *)
  Fixpoint push_all (h : hash) (ls : list leaf) : option (list leaf) :=
    match ls with
    | [] => Some []
    | l :: ls => match push_branch h l, push_all h ls with
                 | Some l, Some ls => Some (l :: ls) | _, _ => None end
    end.
  (** NodeInfo::combine_with_order; tcs/mod.rs 480-483 combine_two_nodes. *)
  Definition combine_with_order (a b : node) : option (node * bool) :=
    let left_first := Z.ltb (node_hash a) (node_hash b) in
    let (x, y) := if left_first then (a, b) else (b, a) in
    match push_all (node_hash y) (node_leaves x), push_all (node_hash x) (node_leaves y) with
    | Some lx, Some ly =>
        Some ({| node_hash := from_node_hashes (node_hash a) (node_hash b); node_leaves := lx ++ ly |}, left_first)
    | _, _ => None
    end.

  (** complete_taptree.rs 7-12 *)
  Record taptree := { root_node : node; leaf_count : nat; leaf_indices : list nat }.

  (** builder.rs 8-13 TreeBuilder (fields to_add_leaves and leaf_indices; leaf_count is the length
      of both) and 23-28 add_leaf, applied to every script in turn. *)
  Definition add_leaves (scripts : list A) : list node * list nat :=
    (map new_leaf scripts, seq 0 (length scripts)).

  (** builder.rs 103-105 on u32 *)
  Definition is_power_of_two (n : N) : bool := (0 <? n)%N && (N.land n (n - 1) =? 0)%N.

  (** builder.rs 57-85: the for loop over the pairs of one level. [start] is a_start_idx. *)
  Fixpoint level (nodes : list node) (start : nat) (t : list nat) : option (list node * list nat) :=
    match nodes with
    | a :: b :: nodes =>
        let a_size := length (node_leaves a) in
        let b_size := length (node_leaves b) in
        let a_end := (start + a_size)%nat in
        let b_end := (a_end + b_size)%nat in
        match combine_with_order a b with
        | None => None
        | Some (n, left_first) =>
            let t := if left_first then t
                     else firstn start t ++ firstn b_size (skipn a_end t) ++ firstn a_size (skipn start t) ++
                          skipn b_end t in
            match level nodes b_end t with
            | None => None
            | Some (ns, t) => Some (n :: ns, t)
            end
        end
    | _ => Some ([], t)
    end.
  (** builder.rs 46-88: the while loop.  An odd last node is popped and lost; [tuples] pairs up the
      rest.  [fuel] bounds the number of passes. *)
  Fixpoint levels (fuel : nat) (nodes : list node) (t : list nat) : option (list node * list nat) :=
    match fuel with
    | O => Some (nodes, t)
    | S fuel =>
        if (1 <? length nodes)%nat then
          let nodes := if (length nodes mod 2 =? 1)%nat then removelast nodes else nodes in
          match level nodes 0 t with
          | None => None
          | Some (ns, t) => levels fuel ns t
          end
        else Some (nodes, t)
    end.

  (** builder.rs 95-101 *)
  Fixpoint set_nth {X} (i : nat) (v : X) (l : list X) : option (list X) :=
    match l, i with
    | [], _ => None
    | _ :: l, O => Some (v :: l)
    | x :: l, S i => option_map (cons x) (set_nth i v l)
    end.
  Fixpoint reverse_idx_from (idx : nat) (dict : list nat) (ret : list nat) : option (list nat) :=
    match dict with
    | [] => Some ret
    | pos :: dict => match set_nth pos idx ret with
                     | None => None
                     | Some ret => reverse_idx_from (S idx) dict ret
                     end
    end.
  Definition reverse_idx_dict (dict : list nat) : option (list nat) :=
    reverse_idx_from 0 dict (repeat 0%nat (length dict)).

  (** builder.rs 38-93 *)
  Definition build_tree (b : list node * list nat) : option taptree :=
    let (to_add_leaves, indices) := b in
    let count := length to_add_leaves in
    if is_power_of_two (N.of_nat count mod 2 ^ 32)%N then
      match levels count to_add_leaves indices with
      | Some (n :: _, t) =>
          match reverse_idx_dict t with
          | Some r => Some {| root_node := n; leaf_count := count; leaf_indices := r |}
          | None => None
          end
      | _ => None
      end
    else None.

  (** complete_taptree.rs 77-83; ScriptToEmbbed::compelte_script is the script itself for ScriptBuf. *)
  Definition new_with_scripts (scripts : list A) : option taptree := build_tree (add_leaves scripts).

  (** complete_taptree.rs 94-135 *)
  Definition combine (a b : taptree) : option taptree :=
    match combine_with_order (root_node a) (root_node b) with
    | None => None
    | Some (n, left_first) =>
        let ind := if left_first
                   then leaf_indices a ++ map (fun i => (i + leaf_count a)%nat) (leaf_indices b)
                   else map (fun i => (i + leaf_count b)%nat) (leaf_indices a) ++ leaf_indices b in
        Some {| root_node := n; leaf_count := length ind; leaf_indices := ind |}
    end.
  (** complete_taptree.rs 85-92 *)
  Definition combine_other_script (a : taptree) (scripts : list A) : option taptree :=
    match new_with_scripts scripts with None => None | Some b => combine a b end.

  (** complete_taptree.rs 45-47 *)
  Definition index_map (t : taptree) (i : nat) : option nat := nth_error (leaf_indices t) i.
  (** complete_taptree.rs 49-52; outer None is the panic of index_map, inner None the returned None. *)
  Definition get_tapleaf (t : taptree) (i : nat) : option (option leaf) :=
    option_map (fun j => nth_error (node_leaves (root_node t)) j) (index_map t i).
  (** complete_taptree.rs 36-43 *)
  Definition get_leaf_merkle_path (t : taptree) (i : nat) : option (option (list hash)) :=
    option_map (option_map leaf_branch) (get_tapleaf t i).

  (** complete_taptree.rs 67-75; path[0] panics on an empty branch. *)
  Definition climb (h : hash) (path : list hash) : hash := fold_left from_node_hashes path h.
  Definition verify_inclusion (root : hash) (l : leaf) : option bool :=
    match leaf_branch l with
    | [] => None
    | _ :: _ => Some (Z.eqb (climb (leaf_hash (leaf_script l)) (leaf_branch l)) root)
    end.
  (** complete_taptree.rs 54-64 *)
  Definition verify_inclusion_by_index (t : taptree) (i : nat) : option bool :=
    match index_map t i with
    | None => None
    | Some i =>
        match get_tapleaf t i, get_leaf_merkle_path t i with
        | Some (Some l), Some (Some (p0 :: p)) =>
            Some (Z.eqb (climb (leaf_hash (leaf_script l)) (p0 :: p)) (node_hash (root_node t)))
        | _, _ => None
        end
    end.
End Taptree.
