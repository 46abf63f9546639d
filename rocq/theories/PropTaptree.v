(** Properties C25-C29: the tap tree.  [leaf_hash] and [branch_hash] are arbitrary functions. *)
From Coq Require Import ZArith NArith List Bool Lia Permutation Arith.
From Verif Require Import TaptreeModel TaptreeProofs.
Import ListNotations.

Section Spec.
  Variable A : Type.
  Variable leaf_hash : A -> hash.
  Variable branch_hash : hash -> hash -> hash.

  (** The trees a caller can obtain, with the scripts in the order they were added. *)
  Inductive made : taptree A -> list A -> Prop :=
  | made_build scripts t : (N.of_nat (length scripts) < 2 ^ 32)%N ->
      new_with_scripts A leaf_hash branch_hash scripts = Some t -> made t scripts
  | made_combine a b c sa sb : made a sa -> made b sb -> combine A branch_hash a b = Some c -> made c (sa ++ sb)
  | made_other a c sa scripts : made a sa -> (N.of_nat (length scripts) < 2 ^ 32)%N ->
      combine_other_script A leaf_hash branch_hash a scripts = Some c -> made c (sa ++ scripts).

  (** The script get_tapleaf returns. *)
  Definition script_at (t : taptree A) (i : nat) : option A :=
    match get_tapleaf A t i with Some (Some l) => Some (leaf_script A l) | _ => None end.

  (** BIP 341: the parent of two nodes hashes the smaller child first. *)
  Definition parent (a b : hash) : hash := branch_hash (Z.min a b) (Z.max a b).
  Inductive leads_to : hash -> list hash -> hash -> Prop :=
  | leads_here h : leads_to h [] h
  | leads_up h x p r : leads_to (parent h x) p r -> leads_to h (x :: p) r.

  (** What an attacker has to produce: two inputs of the tagged hashes with the same output. *)
  Inductive hash_input := LeafIn (s : A) | BranchIn (x y : hash).
  Definition tagged (i : hash_input) : hash :=
    match i with LeafIn s => leaf_hash s | BranchIn x y => branch_hash x y end.
  (** The inputs hashed by verify_inclusion for a leaf, from the leaf to the root. *)
  Fixpoint hashed_above (h : hash) (p : list hash) : list hash_input :=
    match p with
    | [] => []
    | x :: p => BranchIn (Z.min h x) (Z.max h x) :: hashed_above (parent h x) p
    end.
  Definition hashed_for (s : A) (p : list hash) : list hash_input := LeafIn s :: hashed_above (leaf_hash s) p.
  (** Two different inputs with the same output, one hashed for each of two leaves.  (That two inputs
      with the same output exist somewhere would say nothing about a hash function with bounded
      output; these can be read off the two leaves.) *)
  Definition collide (l l' : leaf A) : Prop :=
    exists i j, In i (hashed_for (leaf_script A l) (leaf_branch A l)) /\
      In j (hashed_for (leaf_script A l') (leaf_branch A l')) /\ i <> j /\ tagged i = tagged j.
  (** ... the second one being a leaf of the tree. *)
  Definition tree_collision (t : taptree A) (l : leaf A) : Prop :=
    exists k l', get_tapleaf A t k = Some (Some l') /\ collide l l'.
End Spec.

Lemma made_wf A lh bh t scripts : made A lh bh t scripts -> wf A lh bh t scripts.
Proof.
  induction 1 as [scripts t L E|a b c sa sb _ Wa _ Wb E|a c sa scripts _ Wa L E].
  - now apply (build_inv A lh bh scripts t L) in E.
  - eapply combine_wf; eassumption.
  - unfold combine_other_script in E.
    destruct (new_with_scripts A lh bh scripts) as [b|] eqn:Eb; [|discriminate].
    apply (build_inv A lh bh scripts b L) in Eb as [_ Wb].
    eapply combine_wf; eassumption.
Qed.
Lemma wf_get A lh bh t scripts i : wf A lh bh t scripts -> script_at A t i = nth_error scripts i.
Proof.
  intros (tr & R & C & L & P & N). unfold script_at, get_tapleaf, index_map.
  destruct (nth_error scripts i) as [s|] eqn:E.
  - destruct (N _ _ E) as (j & l & E1 & E2 & <-). rewrite E1. cbn. now rewrite E2.
  - apply nth_error_None in E.
    rewrite (proj2 (nth_error_None (leaf_indices A t) i)); [reflexivity|].
    rewrite (Permutation_length P), seq_length. exact E.
Qed.

(** C25 *)
Theorem C25_index_stable : forall A leaf_hash branch_hash (scripts : list A) k,
  length scripts = (2 ^ k)%nat -> (k <= 31)%nat ->
  exists t, new_with_scripts A leaf_hash branch_hash scripts = Some t /\
    leaf_count A t = length scripts /\
    Permutation (leaf_indices A t) (seq 0 (length scripts)) /\
    forall i s, nth_error scripts i = Some s ->
      exists l, get_tapleaf A t i = Some (Some l) /\ leaf_script A l = s.
Proof.
  intros A lh bh scripts k L K. destruct (build_wf A lh bh scripts k L K) as (t & E & W).
  exists t. split; [exact E|]. destruct W as (tr & R & C & Ln & P & N).
  split; [exact C|]. split; [exact P|]. intros i s Hs.
  destruct (N _ _ Hs) as (j & l & E1 & E2 & E3). exists l. split; [|exact E3].
  unfold get_tapleaf, index_map. rewrite E1. cbn. now rewrite E2.
Qed.
Theorem C25_not_power_of_two_refused : forall A leaf_hash branch_hash (scripts : list A),
  (N.of_nat (length scripts) < 2 ^ 32)%N -> (forall k, length scripts <> 2 ^ k)%nat ->
  new_with_scripts A leaf_hash branch_hash scripts = None.
Proof.
  intros A lh bh scripts B Np. destruct (new_with_scripts A lh bh scripts) as [t|] eqn:E; [|reflexivity].
  apply build_inv in E as [(k & L & _) _]; [|exact B]. destruct (Np k L).
Qed.

(** C26 *)
Theorem C26_combine : forall A leaf_hash branch_hash a b c sa sb,
  made A leaf_hash branch_hash a sa -> made A leaf_hash branch_hash b sb ->
  combine A branch_hash a b = Some c ->
  leaf_count A c = (leaf_count A a + leaf_count A b)%nat /\
  forall i, script_at A c i = if (i <? leaf_count A a)%nat then script_at A a i
                              else script_at A b (i - leaf_count A a).
Proof.
  intros A lh bh a b c sa sb Ma Mb E.
  pose proof (made_wf _ _ _ _ _ Ma) as Wa. pose proof (made_wf _ _ _ _ _ Mb) as Wb.
  pose proof (combine_wf A lh bh _ _ _ _ _ Wa Wb E) as Wc.
  assert (leaf_count A a = length sa) as Ca by (destruct Wa as (? & _ & C & _); exact C).
  assert (leaf_count A b = length sb) as Cb by (destruct Wb as (? & _ & C & _); exact C).
  assert (leaf_count A c = length (sa ++ sb)) as Cc by (destruct Wc as (? & _ & C & _); exact C).
  rewrite Cc, Ca, Cb, app_length. split; [reflexivity|]. intros i.
  rewrite (wf_get _ _ _ _ _ _ Wc), (wf_get _ _ _ _ _ _ Wa), (wf_get _ _ _ _ _ _ Wb). apply nth_error_app.
Qed.
(** Every sequence of builds and combinations: the index space is the list of all scripts. *)
Theorem C26_sequence : forall A leaf_hash branch_hash t scripts,
  made A leaf_hash branch_hash t scripts ->
  leaf_count A t = length scripts /\ Permutation (leaf_indices A t) (seq 0 (length scripts)) /\
  forall i, script_at A t i = nth_error scripts i.
Proof.
  intros A lh bh t scripts M. pose proof (made_wf _ _ _ _ _ M) as W.
  split; [destruct W as (? & _ & C & _); exact C|].
  split; [destruct W as (? & _ & _ & _ & P & _); exact P|].
  intros i. eapply wf_get; eassumption.
Qed.
(** combine fails only by the depth limit of 128 of the taproot format. *)
Theorem C26_combine_total : forall A branch_hash a b,
  (exists c, combine A branch_hash a b = Some c) <->
  Forall (fun l => length (leaf_branch A l) < 128)%nat
    (node_leaves A (root_node A a) ++ node_leaves A (root_node A b)).
Proof.
  intros A bh a b.
  assert (forall h l, (exists r, push_all A h l = Some r) <-> Forall (fun l => length (leaf_branch A l) < 128)%nat l) as P.
  { intros h l. split.
    - intros [r E]. revert r E. induction l as [|x l IH]; intros r E; constructor; cbn in E; unfold push_branch in E.
      + destruct (Nat.ltb_spec (length (leaf_branch A x)) 128); [assumption|discriminate].
      + destruct (_ <? _)%nat; [|discriminate]. destruct (push_all A h l) as [r'|]; [|discriminate]. now apply (IH r').
    - intros F. destruct (push_all_ok A h l F) as (l' & E & _). eauto. }
  rewrite Forall_app. unfold combine, combine_with_order.
  rewrite <- (P (node_hash A (root_node A b))), <- (P (node_hash A (root_node A a))).
  destruct (_ <? _)%Z.
  - destruct (push_all A _ (node_leaves A (root_node A a))), (push_all A _ (node_leaves A (root_node A b))).
    all: split; [intros [c E]; try discriminate; eauto|intros [[? ?] [? ?]]; try discriminate; eauto].
  - destruct (push_all A _ (node_leaves A (root_node A b))), (push_all A _ (node_leaves A (root_node A a))).
    all: split; [intros [c E]; try discriminate; eauto|intros [[? ?] [? ?]]; try discriminate; eauto].
Qed.

(** C27 *)
Lemma fnh_parent bh a b : from_node_hashes bh a b = parent bh a b.
Proof.
  unfold from_node_hashes, parent. destruct (Z.ltb_spec a b).
  - rewrite Z.min_l, Z.max_r by lia. reflexivity.
  - rewrite Z.min_r, Z.max_l by lia. reflexivity.
Qed.
Lemma climb_leads bh p : forall h r, climb bh h p = r <-> leads_to bh h p r.
Proof.
  induction p as [|x p IH]; intros h r; unfold climb in *; cbn [fold_left].
  - split; [intros <-; constructor|now inversion 1].
  - rewrite IH, fnh_parent. split; [now constructor|now inversion 1].
Qed.
Lemma repr_in A lh bh n tr l : repr A lh bh n tr -> In l (node_leaves A n) ->
  In (leaf_script A l, leaf_branch A l) (mleaves A lh bh tr).
Proof. intros [_ <-] Hin. apply in_map_iff. exists l. auto. Qed.
Lemma get_in A t i l : get_tapleaf A t i = Some (Some l) -> In l (node_leaves A (root_node A t)).
Proof.
  unfold get_tapleaf. destruct (index_map A t i) as [j|]; [|discriminate]. cbn. intros [= E].
  eapply nth_error_In; eassumption.
Qed.
Theorem C27_path_to_root : forall A leaf_hash branch_hash t scripts i l,
  made A leaf_hash branch_hash t scripts -> get_tapleaf A t i = Some (Some l) ->
  leads_to branch_hash (leaf_hash (leaf_script A l)) (leaf_branch A l) (node_hash A (root_node A t)).
Proof.
  intros A lh bh t scripts i l M G. apply made_wf in M as (tr & R & _).
  apply climb_leads. rewrite (proj1 R). apply mleaves_climb.
  eapply repr_in; [exact R|]. eapply get_in; exact G.
Qed.
Lemma mleaves_single A lh bh tr s : In (s, []) (mleaves A lh bh tr) -> length (mleaves A lh bh tr) = 1%nat.
Proof.
  destruct tr as [s0|l r]; [reflexivity|]. cbn [mleaves]. rewrite in_app_iff, !in_map_iff.
  intros [[[? p] [[= _ E] _]]|[[? p] [[= _ E] _]]]; cbn in E; destruct p; discriminate.
Qed.
Theorem C27_verify_inclusion : forall A leaf_hash branch_hash t scripts i l,
  made A leaf_hash branch_hash t scripts -> (2 <= length scripts)%nat ->
  get_tapleaf A t i = Some (Some l) ->
  verify_inclusion A leaf_hash branch_hash (node_hash A (root_node A t)) l = Some true.
Proof.
  intros A lh bh t scripts i l M L G.
  pose proof (C27_path_to_root _ _ _ _ _ _ _ M G) as P. apply climb_leads in P.
  apply made_wf in M as (tr & R & _ & Ln & _).
  unfold verify_inclusion. destruct (leaf_branch A l) as [|x p] eqn:E.
  - exfalso. pose proof (repr_in _ _ _ _ _ _ R (get_in _ _ _ _ G)) as Hin. rewrite E in Hin.
    apply mleaves_single in Hin. rewrite <- (repr_len A lh bh _ _ R) in Hin. lia.
  - rewrite P, Z.eqb_refl. reflexivity.
Qed.
(** The tree of one script cannot be checked at all: path[0] is out of bounds. *)
Theorem C27_single_leaf_refuted : forall A leaf_hash branch_hash (s : A), exists t l,
  new_with_scripts A leaf_hash branch_hash [s] = Some t /\ get_tapleaf A t 0 = Some (Some l) /\
  verify_inclusion A leaf_hash branch_hash (node_hash A (root_node A t)) l = None.
Proof. intros A lh bh s. do 2 eexists. split; [reflexivity|]. split; reflexivity. Qed.

(** C28 *)
Lemma wf_surj A lh bh t scripts j : wf A lh bh t scripts -> (j < length scripts)%nat ->
  exists i, (i < length scripts)%nat /\ nth_error (leaf_indices A t) i = Some j.
Proof.
  intros (tr & _ & _ & _ & P & _) Hj.
  assert (In j (leaf_indices A t)) as Hin by (apply (Permutation_in _ (Permutation_sym P)), in_seq; lia).
  apply In_nth_error in Hin as [i Hi]. exists i. split; [|exact Hi].
  rewrite <- (seq_length (length scripts) 0), <- (Permutation_length P). apply nth_error_Some. congruence.
Qed.
Theorem C28_verdict : forall A leaf_hash branch_hash t scripts i,
  made A leaf_hash branch_hash t scripts -> (2 <= length scripts)%nat -> (i < length scripts)%nat ->
  verify_inclusion_by_index A leaf_hash branch_hash t i = Some true.
Proof.
  intros A lh bh t scripts i M L Hi. pose proof (made_wf _ _ _ _ _ M) as W.
  assert (forall i, (i < length scripts)%nat -> exists j l, nth_error (leaf_indices A t) i = Some j /\
    (j < length scripts)%nat /\ get_tapleaf A t i = Some (Some l)) as G.
  { clear i Hi. intros i Hi. destruct W as (tr & R & _ & Ln & P & N).
    destruct (nth_error scripts i) as [s|] eqn:E; [|apply nth_error_None in E; lia].
    destruct (N _ _ E) as (j & l & E1 & E2 & E3). exists j, l. split; [exact E1|]. split.
    - rewrite <- Ln. apply nth_error_Some. congruence.
    - unfold get_tapleaf, index_map. rewrite E1. cbn. now rewrite E2. }
  destruct (G i Hi) as (j & _ & E1 & Hj & _). destruct (G j Hj) as (j' & l & E2 & _ & Gl).
  unfold verify_inclusion_by_index, get_leaf_merkle_path, index_map. rewrite E1, Gl. cbn [option_map].
  pose proof (C27_verify_inclusion _ _ _ _ _ _ _ M L Gl) as V. unfold verify_inclusion in V.
  destruct (leaf_branch A l); [discriminate|exact V].
Qed.
(** The verdict for index i is the verdict on leaf index_map(i), not on leaf i. *)
Theorem C28_looks_elsewhere : forall A leaf_hash branch_hash t i j l,
  index_map A t i = Some j -> get_tapleaf A t j = Some (Some l) ->
  verify_inclusion_by_index A leaf_hash branch_hash t i =
  verify_inclusion A leaf_hash branch_hash (node_hash A (root_node A t)) l.
Proof.
  intros A lh bh t i j l E G. unfold verify_inclusion_by_index, get_leaf_merkle_path, verify_inclusion.
  rewrite E, G. cbn [option_map]. now destruct (leaf_branch A l).
Qed.

(** C29 *)
Section Binding.
  Variable A : Type.
  Variable lh : A -> hash.
  Variable bh : hash -> hash -> hash.
  Notation hashed_above := (hashed_above A bh).
  Notation hashed_for := (hashed_for A lh bh).
  Notation tagged := (tagged A lh bh).
  Definition among (ks ks' : list (hash_input A)) : Prop :=
    exists i j, In i ks /\ In j ks' /\ i <> j /\ tagged i = tagged j.
  Lemma among_app a b a' b' : among a a' -> among (a ++ b) (a' ++ b').
  Proof. intros (i & j & I1 & I2 & E). exists i, j. rewrite !in_app_iff. auto. Qed.
  Lemma hashed_snoc h p x : hashed_above h (p ++ [x]) =
    hashed_above h p ++ [BranchIn A (Z.min (climb bh h p) x) (Z.max (climb bh h p) x)].
  Proof.
    revert h. induction p as [|y p IH]; intros h; [reflexivity|]. cbn [app PropTaptree.hashed_above]. rewrite IH.
    unfold TaptreeModel.climb. cbn [fold_left]. rewrite fnh_parent. reflexivity.
  Qed.
  Lemma for_snoc s p x : hashed_for s (p ++ [x]) =
    hashed_for s p ++ [BranchIn A (Z.min (climb bh (lh s) p) x) (Z.max (climb bh (lh s) p) x)].
  Proof. unfold PropTaptree.hashed_for. rewrite hashed_snoc. reflexivity. Qed.
  Lemma climb_snoc h p x : climb bh h (p ++ [x]) = parent bh (climb bh h p) x.
  Proof. unfold climb. rewrite fold_left_app. apply fnh_parent. Qed.
  Lemma nonempty t : exists s p, In (s, p) (mleaves A lh bh t).
  Proof.
    induction t as [s|l (s & p & I) r _]; [exists s, []; now left|].
    exists s, (p ++ [mroot A lh bh r]). cbn [mleaves]. apply in_app_iff. left. apply in_map_iff. exists (s, p). auto.
  Qed.
  (** The node above the two subtrees is hashed for some leaf. *)
  Lemma top_hashed l r : exists s p, In (s, p) (mleaves A lh bh (Node A l r)) /\
    In (BranchIn A (Z.min (mroot A lh bh l) (mroot A lh bh r)) (Z.max (mroot A lh bh l) (mroot A lh bh r))) (hashed_for s p).
  Proof.
    destruct (nonempty l) as (s & p & I). exists s, (p ++ [mroot A lh bh r]). split.
    - cbn [mleaves]. apply in_app_iff. left. apply in_map_iff. exists (s, p). auto.
    - rewrite for_snoc, (mleaves_climb A lh bh _ _ _ I). apply in_app_iff. right. now left.
  Qed.
  Lemma binding t : forall s p, climb bh (lh s) p = mroot A lh bh t ->
    (exists s', In (s', p) (mleaves A lh bh t) /\ lh s = lh s') \/
    exists s' p', In (s', p') (mleaves A lh bh t) /\ among (hashed_for s p) (hashed_for s' p').
  Proof.
    induction t as [s0|l IHl r IHr]; intros s p E.
    - destruct p as [|x p _] using rev_ind.
      + left. exists s0. split; [left; reflexivity|exact E].
      + right. exists s0, []. split; [left; reflexivity|]. rewrite climb_snoc in E. cbn [mroot] in E.
        eexists _, (LeafIn A s0). split; [rewrite for_snoc; apply in_app_iff; right; left; reflexivity|].
        split; [now left|]. split; [discriminate|exact E].
    - cbn [mroot] in E. rewrite fnh_parent in E. destruct p as [|x p _] using rev_ind.
      + right. destruct (top_hashed l r) as (s' & p' & I1 & I2). exists s', p'. split; [exact I1|].
        exists (LeafIn A s). eexists. split; [now left|]. split; [exact I2|]. split; [discriminate|exact E].
      + rewrite climb_snoc in E. set (c := climb bh (lh s) p) in *.
        set (a := mroot A lh bh l) in *. set (b := mroot A lh bh r) in *.
        destruct (Z.eq_dec (Z.min c x) (Z.min a b)) as [E1|N1]; [destruct (Z.eq_dec (Z.max c x) (Z.max a b)) as [E2|N2]|].
        2,3: right; destruct (top_hashed l r) as (s' & p' & I1 & I2); exists s', p'; split; [exact I1|];
          eexists _, _; split; [rewrite for_snoc; apply in_app_iff; right; left; reflexivity|];
          split; [exact I2|]; split; [fold c; fold a; fold b; congruence|exact E].
        assert ((c = a /\ x = b) \/ (c = b /\ x = a)) as [[Ec Ex]|[Ec Ex]]
          by (clear - E1 E2; unfold hash in *; lia).
        * destruct (IHl s p Ec) as [(s' & I1 & Q)|(s' & p' & I1 & Am)].
          -- left. exists s'. split; [|exact Q]. cbn [mleaves]. apply in_app_iff. left. apply in_map_iff. exists (s', p). subst x. auto.
          -- right. exists s', (p' ++ [b]). split.
             ++ cbn [mleaves]. apply in_app_iff. left. apply in_map_iff. exists (s', p'). auto.
             ++ rewrite !for_snoc. now apply among_app.
        * destruct (IHr s p Ec) as [(s' & I1 & Q)|(s' & p' & I1 & Am)].
          -- left. exists s'. split; [|exact Q]. cbn [mleaves]. apply in_app_iff. right. apply in_map_iff. exists (s', p). subst x. auto.
          -- right. exists s', (p' ++ [a]). split.
             ++ cbn [mleaves]. apply in_app_iff. right. apply in_map_iff. exists (s', p'). auto.
             ++ rewrite !for_snoc. now apply among_app.
  Qed.
  (** Every leaf of the abstract tree is returned for some index. *)
  Lemma leaf_found t scripts tr s p : wf A lh bh t scripts -> repr A lh bh (root_node A t) tr ->
    length (node_leaves A (root_node A t)) = length scripts -> In (s, p) (mleaves A lh bh tr) ->
    exists i, (i < length scripts)%nat /\ get_tapleaf A t i = Some (Some {| leaf_script := s; leaf_branch := p |}).
  Proof.
    intros W R Ln Hin. rewrite <- (proj2 R) in Hin. apply in_map_iff in Hin as (l' & El & Hin).
    assert (l' = {| leaf_script := s; leaf_branch := p |}) as ->. { destruct l'. unfold pair_of in El. cbn in El. congruence. }
    apply In_nth_error in Hin as [j Hj].
    destruct (wf_surj A lh bh t scripts j W) as (i & Hi & Ei).
    { rewrite <- Ln. apply nth_error_Some. congruence. }
    exists i. split; [exact Hi|]. unfold get_tapleaf, index_map. rewrite Ei. cbn. congruence.
  Qed.
End Binding.

Theorem C29_binding : forall A leaf_hash branch_hash t scripts l,
  (forall s s' : A, {s = s'} + {s <> s'}) ->
  made A leaf_hash branch_hash t scripts ->
  verify_inclusion A leaf_hash branch_hash (node_hash A (root_node A t)) l = Some true ->
  (exists i, (i < length scripts)%nat /\ get_tapleaf A t i = Some (Some l)) \/
  tree_collision A leaf_hash branch_hash t l.
Proof.
  intros A lh bh t scripts l dec M V. pose proof (made_wf _ _ _ _ _ M) as W.
  destruct W as (tr & R & C & Ln & P & N). pose proof (ex_intro _ tr (conj R (conj C (conj Ln (conj P N)))) : wf A lh bh t scripts) as W.
  assert (climb bh (lh (leaf_script A l)) (leaf_branch A l) = mroot A lh bh tr) as Cl.
  { unfold verify_inclusion in V. destruct (leaf_branch A l); [discriminate|].
    apply (f_equal (fun o => match o with Some b => b | None => false end)), Z.eqb_eq in V.
    etransitivity; [exact V|apply (proj1 R)]. }
  assert (length (node_leaves A (root_node A t)) = length scripts) as Ln' by exact Ln.
  destruct (binding A lh bh tr _ _ Cl) as [(s & Hin & E)|(s & p & Hin & i & j & Hi & Hj & Q)].
  - destruct (leaf_found A lh bh t scripts tr _ _ W R Ln' Hin) as (i & Hi & Gi).
    destruct (dec (leaf_script A l) s) as [<-|Ne].
    + left. exists i. split; [exact Hi|]. now destruct l.
    + right. exists i. eexists. split; [exact Gi|]. exists (LeafIn A (leaf_script A l)), (LeafIn A s).
      split; [now left|]. split; [now left|]. split; [congruence|exact E].
  - right. destruct (leaf_found A lh bh t scripts tr _ _ W R Ln' Hin) as (k & Hk & Gk).
    exists k. eexists. split; [exact Gk|]. exists i, j. auto.
Qed.
(** In particular every leaf accepted for the root carries one of the committed scripts. *)
Theorem C29_script_committed : forall A leaf_hash branch_hash t scripts l,
  (forall s s' : A, {s = s'} + {s <> s'}) ->
  made A leaf_hash branch_hash t scripts ->
  verify_inclusion A leaf_hash branch_hash (node_hash A (root_node A t)) l = Some true ->
  In (leaf_script A l) scripts \/ tree_collision A leaf_hash branch_hash t l.
Proof.
  intros A lh bh t scripts l dec M V.
  destruct (C29_binding _ _ _ _ _ _ dec M V) as [(i & Hi & G)|H]; [|right; exact H].
  left. destruct (C26_sequence _ _ _ _ _ M) as (_ & _ & S).
  specialize (S i). unfold script_at in S. rewrite G in S. symmetry in S. eapply nth_error_In; eassumption.
Qed.
(** Two accepted leaves with the same branch are the same leaf, or the inputs hashed for them collide. *)
Theorem C29_same_path : forall A leaf_hash branch_hash root l l',
  (forall s s' : A, {s = s'} + {s <> s'}) ->
  verify_inclusion A leaf_hash branch_hash root l = Some true ->
  verify_inclusion A leaf_hash branch_hash root l' = Some true ->
  leaf_branch A l = leaf_branch A l' ->
  l = l' \/ collide A leaf_hash branch_hash l l'.
Proof.
  intros A lh bh root [s p] [s' p'] dec V V' E. cbn [leaf_branch leaf_script] in *. subst p'.
  assert (forall h h', climb bh h p = climb bh h' p -> h = h' \/
    among A lh bh (hashed_above A bh h p) (hashed_above A bh h' p)) as C.
  { clear V V'. induction p as [|x p IH] using rev_ind; intros h h' Q; [left; exact Q|].
    rewrite !climb_snoc in Q. rewrite !hashed_snoc.
    set (c := climb bh h p) in *. set (c' := climb bh h' p) in *.
    destruct (Z.eq_dec (Z.min c x) (Z.min c' x)) as [E1|N1]; [destruct (Z.eq_dec (Z.max c x) (Z.max c' x)) as [E2|N2]|].
    2,3: right; eexists _, _; split; [apply in_app_iff; right; left; reflexivity|];
      split; [apply in_app_iff; right; left; reflexivity|]; split; [congruence|exact Q].
    assert (c = c') as Ec by (clear - E1 E2; unfold hash in *; lia).
    destruct (IH h h' Ec) as [?|Am]; [now left|]. right. now apply among_app. }
  unfold verify_inclusion in V, V'. cbn [leaf_branch leaf_script] in *.
  destruct p as [|x p]; [discriminate|]. revert C. generalize dependent (x :: p). intros q V V' C.
  apply (f_equal (fun o => match o with Some b => b | None => false end)), Z.eqb_eq in V, V'.
  destruct (dec s s') as [<-|Ne]; [now left|]. right.
  destruct (C (lh s) (lh s')) as [Q|(i & j & I1 & I2 & Q)]; [congruence| |].
  - exists (LeafIn A s), (LeafIn A s'). split; [now left|]. split; [now left|]. split; [congruence|exact Q].
  - exists i, j. split; [now right|]. split; [now right|]. exact Q.
Qed.

(** Concrete trees with a toy hash that produces both sibling orders. *)
Definition toy_leaf (s : Z) : hash := ((s * 7919) mod 10007)%Z.
Definition toy_branch (a b : hash) : hash := ((a * 31 + b * 17 + 5) mod 10007)%Z.
Definition toy (l : list Z) := new_with_scripts Z toy_leaf toy_branch l.
Definition toy_scripts := [1; 2; 3; 4; 5; 6; 7; 8]%Z.
(** siblings do get swapped: the index table is not the identity *)
Example C25_example : option_map (leaf_indices Z) (toy toy_scripts) = Some [3; 2; 1; 0; 7; 6; 5; 4].
Proof. vm_compute. reflexivity. Qed.
Example C25_example_lookup : option_map (fun t => map (script_at Z t) (seq 0 9)) (toy toy_scripts) =
  Some (map Some toy_scripts ++ [None]).
Proof. vm_compute. reflexivity. Qed.
Example C25_example_refused : toy [1; 2; 3]%Z = None /\ toy [] = None.
Proof. vm_compute. auto. Qed.
Example C26_example : exists a b c, toy [1; 2]%Z = Some a /\ toy [3; 4; 5; 6]%Z = Some b /\
  combine Z toy_branch a b = Some c /\ made Z toy_leaf toy_branch c [1; 2; 3; 4; 5; 6]%Z /\
  map (script_at Z c) (seq 0 6) = map Some [1; 2; 3; 4; 5; 6]%Z.
Proof.
  destruct (toy [1; 2]%Z) as [a|] eqn:Ea; [|vm_compute in Ea; discriminate].
  destruct (toy [3; 4; 5; 6]%Z) as [b|] eqn:Eb; [|vm_compute in Eb; discriminate].
  destruct (combine Z toy_branch a b) as [c|] eqn:Ec;
    [|vm_compute in Ea, Eb; injection Ea as <-; injection Eb as <-; vm_compute in Ec; discriminate].
  assert (made Z toy_leaf toy_branch c [1; 2; 3; 4; 5; 6]%Z) as M.
  { apply (made_combine _ _ _ a b c [1; 2]%Z [3; 4; 5; 6]%Z).
    - apply made_build; [reflexivity|exact Ea].
    - apply made_build; [reflexivity|exact Eb].
    - exact Ec. }
  exists a, b, c. repeat split; auto.
  apply C26_sequence in M as (_ & _ & S). cbn [seq map]. rewrite !S. reflexivity.
Qed.
Example C27_example : exists t l, toy toy_scripts = Some t /\ get_tapleaf Z t 5 = Some (Some l) /\
  length (leaf_branch Z l) = 3%nat /\
  verify_inclusion Z toy_leaf toy_branch (node_hash Z (root_node Z t)) l = Some true.
Proof. do 2 eexists. split; [vm_compute; reflexivity|]. split; [vm_compute; reflexivity|]. split; reflexivity. Qed.

(** Finding: with a swapped pair, a corrupted leaf 0 is reported as included, and an intact leaf 1
    is reported as not included. *)
Definition corrupt (t : taptree Z) (j : nat) (s : Z) : taptree Z :=
  {| root_node := {| node_hash := node_hash Z (root_node Z t);
                     node_leaves := match set_nth j {| leaf_script := s; leaf_branch := [toy_leaf 0%Z] |}
                                            (node_leaves Z (root_node Z t)) with Some l => l | None => [] end |};
     leaf_count := leaf_count Z t; leaf_indices := leaf_indices Z t |}.
Theorem C28_wrong_leaf_refuted : exists (t : taptree Z) l0 l1,
  get_tapleaf Z t 0 = Some (Some l0) /\ get_tapleaf Z t 1 = Some (Some l1) /\
  verify_inclusion Z toy_leaf toy_branch (node_hash Z (root_node Z t)) l0 = Some false /\
  verify_inclusion_by_index Z toy_leaf toy_branch t 0 = Some true /\
  verify_inclusion Z toy_leaf toy_branch (node_hash Z (root_node Z t)) l1 = Some true /\
  verify_inclusion_by_index Z toy_leaf toy_branch t 1 = Some false.
Proof.
  exists (match toy [3; 4]%Z with Some t => corrupt t 1 99%Z
          | None => {| root_node := new_leaf Z toy_leaf 0%Z; leaf_count := 0; leaf_indices := [] |} end).
  do 2 eexists.
  split; [vm_compute; reflexivity|]. split; [vm_compute; reflexivity|]. vm_compute. repeat split.
Qed.
Example C29_example : exists t l, toy toy_scripts = Some t /\
  verify_inclusion Z toy_leaf toy_branch (node_hash Z (root_node Z t)) l = Some true.
Proof. destruct C27_example as (t & l & E & _ & _ & V). eauto. Qed.
(** Both cases occur: the inputs hashed for the leaves of this tree do not collide, so an accepted leaf
    that collides with none of them is one of them; and a leaf with another script of the same leaf
    hash is accepted without being one of them. *)
Definition input_eqb (i j : hash_input Z) : bool :=
  match i, j with
  | LeafIn _ s, LeafIn _ s' => Z.eqb s s'
  | BranchIn _ x y, BranchIn _ x' y' => Z.eqb x x' && Z.eqb y y'
  | _, _ => false
  end.
Definition collide_b (l l' : leaf Z) : bool :=
  existsb (fun i => existsb (fun j => negb (input_eqb i j) && Z.eqb (tagged Z toy_leaf toy_branch i) (tagged Z toy_leaf toy_branch j))
    (hashed_for Z toy_leaf toy_branch (leaf_script Z l') (leaf_branch Z l')))
    (hashed_for Z toy_leaf toy_branch (leaf_script Z l) (leaf_branch Z l)).
Lemma collide_dec l l' : collide Z toy_leaf toy_branch l l' -> collide_b l l' = true.
Proof.
  intros (i & j & Hi & Hj & Ne & E). apply existsb_exists. exists i. split; [exact Hi|].
  apply existsb_exists. exists j. split; [exact Hj|]. apply andb_true_iff. split; [|now apply Z.eqb_eq].
  destruct (input_eqb i j) eqn:Q; [|reflexivity]. destruct Ne. destruct i, j; cbn in Q; try discriminate.
  - f_equal. now apply Z.eqb_eq.
  - apply andb_true_iff in Q as [Q1 Q2]. apply Z.eqb_eq in Q1, Q2. congruence.
Qed.
Definition toy_example : option (taptree Z) := toy [5; 6]%Z.
Definition honest : leaf Z := {| leaf_script := 6%Z; leaf_branch := [toy_leaf 5%Z] |}.
Definition forged : leaf Z := {| leaf_script := 10013%Z; leaf_branch := [toy_leaf 5%Z] |}.
Example C29_example_cases : exists t, toy_example = Some t /\
  verify_inclusion Z toy_leaf toy_branch (node_hash Z (root_node Z t)) honest = Some true /\
  ~ tree_collision Z toy_leaf toy_branch t honest /\
  verify_inclusion Z toy_leaf toy_branch (node_hash Z (root_node Z t)) forged = Some true /\
  tree_collision Z toy_leaf toy_branch t forged /\ forall i, get_tapleaf Z t i <> Some (Some forged).
Proof.
  destruct toy_example as [t|] eqn:E; [|vm_compute in E; discriminate]. exists t. split; [reflexivity|].
  vm_compute in E. injection E as <-.
  split; [vm_compute; reflexivity|]. split.
  { intros (k & l' & G & C). apply collide_dec in C. revert C.
    destruct k as [|[|k]]; [vm_compute in G; injection G as <-; vm_compute; discriminate..|].
    unfold get_tapleaf, index_map in G. cbn in G. destruct k; discriminate. }
  split; [vm_compute; reflexivity|]. split.
  { exists 1%nat. eexists. split; [vm_compute; reflexivity|]. exists (LeafIn Z 10013%Z), (LeafIn Z 6%Z).
    split; [now left|]. split; [now left|]. split; [congruence|vm_compute; reflexivity]. }
  intros [|[|k]]; [vm_compute; discriminate..|]. unfold get_tapleaf, index_map. cbn. destruct k; discriminate.
Qed.
