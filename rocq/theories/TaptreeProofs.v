(** Invariants of the tap tree model. *)
From Coq Require Import ZArith NArith List Bool Lia Permutation Arith.
From Verif Require Import TaptreeModel.
Import ListNotations.

Section P.
  Variable A : Type.
  Variable leaf_hash : A -> hash.
  Variable branch_hash : hash -> hash -> hash.
  Notation leaf := (leaf A).
  Notation node := (node A).
  Notation taptree := (taptree A).
  Notation nl := (node_leaves A).
  Notation nh := (node_hash A).
  Notation ls := (leaf_script A).
  Notation lb := (leaf_branch A).
  Notation fnh := (from_node_hashes branch_hash).
  Notation cwo := (combine_with_order A branch_hash).
  Notation climb := (climb branch_hash).
  Notation level := (level A branch_hash).
  Notation levels := (levels A branch_hash).
  Notation new_leaf := (new_leaf A leaf_hash).

  (** The abstract tree behind a node: its scripts with branches, and its root. *)
  Inductive mtree := Leaf (s : A) | Node (l r : mtree).
  Fixpoint mroot (t : mtree) : hash :=
    match t with Leaf s => leaf_hash s | Node l r => fnh (mroot l) (mroot r) end.
  Fixpoint mleaves (t : mtree) : list (A * list hash) :=
    match t with
    | Leaf s => [(s, [])]
    | Node l r => map (fun p => (fst p, snd p ++ [mroot r])) (mleaves l) ++
                  map (fun p => (fst p, snd p ++ [mroot l])) (mleaves r)
    end.
  Definition pair_of (l : leaf) := (ls l, lb l).
  (** [n] represents [t]: same root, and the same leaves in some left-to-right order. *)
  Definition repr (n : node) (t : mtree) : Prop := nh n = mroot t /\ map pair_of (nl n) = mleaves t.

  Fixpoint perfect (k : nat) (t : mtree) : Prop :=
    match k, t with
    | O, Leaf _ => True
    | S k, Node l r => perfect k l /\ perfect k r
    | _, _ => False
    end.

  Lemma push_all_ok h l : Forall (fun x => (length (lb x) < 128)%nat) l ->
    exists l', push_all A h l = Some l' /\ map pair_of l' = map (fun p => (fst p, snd p ++ [h])) (map pair_of l).
  Proof.
    induction 1 as [|x l Hx _ (l' & E & M)]; [exists []; auto|].
    cbn [push_all]. unfold push_branch. rewrite (proj2 (Nat.ltb_lt _ _) Hx), E.
    eexists; split; [reflexivity|]. cbn [map]. rewrite M. reflexivity.
  Qed.
  Lemma push_all_inv h l l' : push_all A h l = Some l' ->
    map pair_of l' = map (fun p => (fst p, snd p ++ [h])) (map pair_of l).
  Proof.
    revert l'. induction l as [|x l IH]; intros l' E; cbn [push_all] in E; [injection E as <-; reflexivity|].
    unfold push_branch in E. destruct (_ <? _)%nat; [|discriminate].
    destruct (push_all _ _ _) as [l''|]; [|discriminate]. injection E as <-.
    cbn [map]. rewrite (IH _ eq_refl). reflexivity.
  Qed.

  Lemma perfect_branch k t : perfect k t -> Forall (fun p => length (snd p) = k) (mleaves t).
  Proof.
    revert t. induction k as [|k IH]; intros [s|l r] P; cbn [perfect mleaves] in *; try contradiction.
    - repeat constructor.
    - destruct P as [Pl Pr]. apply Forall_app; split; apply Forall_map.
      + eapply Forall_impl; [|apply (IH _ Pl)]. intros p. cbn. rewrite app_length. cbn. lia.
      + eapply Forall_impl; [|apply (IH _ Pr)]. intros p. cbn. rewrite app_length. cbn. lia.
  Qed.
  Lemma perfect_count k t : perfect k t -> length (mleaves t) = 2 ^ k.
  Proof.
    revert t. induction k as [|k IH]; intros [s|l r] P; cbn [perfect mleaves] in *; try contradiction; [reflexivity|].
    destruct P as [Pl Pr]. rewrite app_length, !map_length, (IH _ Pl), (IH _ Pr). cbn. lia.
  Qed.

  Lemma repr_len n t : repr n t -> length (nl n) = length (mleaves t).
  Proof. intros [_ E]. rewrite <- E, map_length. reflexivity. Qed.
  Lemma repr_scripts n t : repr n t -> map ls (nl n) = map fst (mleaves t).
  Proof. intros [_ E]. rewrite <- E, map_map. reflexivity. Qed.
  Lemma repr_leaf s : repr (new_leaf s) (Leaf s).
  Proof. split; reflexivity. Qed.

  Lemma repr_short k n t : repr n t -> perfect k t -> k < 128 -> Forall (fun x => (length (lb x) < 128)%nat) (nl n).
  Proof.
    intros [_ E] P L. pose proof (perfect_branch _ _ P) as F. rewrite <- E, Forall_map in F.
    eapply Forall_impl; [|exact F]. cbn. intros; lia.
  Qed.

  Lemma fnh_sym a b : fnh a b = fnh b a.
  Proof.
    unfold from_node_hashes. destruct (Z.ltb_spec a b), (Z.ltb_spec b a); try lia; try reflexivity.
    replace b with a by lia. reflexivity.
  Qed.
  (** combining two nodes gives the node over both, in the order of their hashes *)
  Lemma cwo_inv a b n lf : cwo a b = Some (n, lf) -> forall ta tb, repr a ta -> repr b tb ->
    lf = Z.ltb (nh a) (nh b) /\ nh n = fnh (nh a) (nh b) /\
    repr n (if lf then Node ta tb else Node tb ta) /\
    map ls (nl n) = (if lf then map ls (nl a) ++ map ls (nl b) else map ls (nl b) ++ map ls (nl a)).
  Proof.
    unfold combine_with_order. intros E ta tb Ra Rb.
    destruct (Z.ltb (nh a) (nh b)) eqn:Lf.
    - destruct (push_all A (nh b) (nl a)) as [lx|] eqn:E1; [|discriminate].
      destruct (push_all A (nh a) (nl b)) as [ly|] eqn:E2; [|discriminate].
      injection E as <- <-. apply push_all_inv in E1, E2.
      destruct Ra as [Ha Ma], Rb as [Hb Mb].
      assert (map pair_of (lx ++ ly) = mleaves (Node ta tb)) as M
        by (rewrite map_app, E1, E2, Ma, Mb, Ha, Hb; reflexivity).
      split; [reflexivity|]. split; [reflexivity|]. split.
      + split; [cbn; now rewrite Ha, Hb | exact M].
      + cbn [node_leaves]. apply (f_equal (map fst)) in M. rewrite map_map in M. cbn [pair_of fst] in M.
        change (fun x => ls x) with ls in M. rewrite M. cbn [mleaves]. rewrite map_app, !map_map. cbn [fst].
        rewrite <- Ma, <- Mb, !map_map. reflexivity.
    - destruct (push_all A (nh a) (nl b)) as [lx|] eqn:E1; [|discriminate].
      destruct (push_all A (nh b) (nl a)) as [ly|] eqn:E2; [|discriminate].
      injection E as <- <-. apply push_all_inv in E1, E2.
      destruct Ra as [Ha Ma], Rb as [Hb Mb].
      assert (map pair_of (lx ++ ly) = mleaves (Node tb ta)) as M
        by (rewrite map_app, E1, E2, Ma, Mb, Ha, Hb; reflexivity).
      split; [reflexivity|]. split; [reflexivity|]. split.
      + split; [cbn; rewrite Ha, Hb; apply fnh_sym | exact M].
      + cbn [node_leaves]. apply (f_equal (map fst)) in M. rewrite map_map in M. cbn [pair_of fst] in M.
        change (fun x => ls x) with ls in M. rewrite M. cbn [mleaves]. rewrite map_app, !map_map. cbn [fst].
        rewrite <- Ma, <- Mb, !map_map. reflexivity.
  Qed.
  Lemma cwo_total k a b ta tb : repr a ta -> repr b tb -> perfect k ta -> perfect k tb -> k < 128 ->
    exists r, cwo a b = Some r.
  Proof.
    intros Ra Rb Pa Pb L. unfold combine_with_order.
    pose proof (repr_short _ _ _ Ra Pa L) as Fa. pose proof (repr_short _ _ _ Rb Pb L) as Fb.
    destruct (Z.ltb (nh a) (nh b)).
    - destruct (push_all_ok (nh b) _ Fa) as (? & -> & _), (push_all_ok (nh a) _ Fb) as (? & -> & _). eauto.
    - destruct (push_all_ok (nh b) _ Fa) as (? & -> & _), (push_all_ok (nh a) _ Fb) as (? & -> & _). eauto.
  Qed.

  (** One level: [pre] is the part of the index table already dealt with. *)
  Definition scripts_of (ns : list node) : list A := flat_map (fun n => map ls (nl n)) ns.
  Lemma level_ok (f : nat -> option A) j m : forall nodes ts pre t, j < 128 -> length nodes = 2 * m ->
    Forall2 repr nodes ts -> Forall (perfect j) ts ->
    map Some (scripts_of nodes) = map f t ->
    exists ns' ts' t', level nodes (length pre) (pre ++ t) = Some (ns', pre ++ t') /\ length ns' = m /\
      Forall2 repr ns' ts' /\ Forall (perfect (S j)) ts' /\ Permutation t t' /\
      map Some (scripts_of ns') = map f t'.
  Proof.
    induction m as [|m IH]; intros nodes ts pre t J L R P M.
    - destruct nodes; [|discriminate]. exists [], [], t. cbn [TaptreeModel.level].
      repeat split; auto.
    - destruct nodes as [|a [|b nodes]]; [discriminate|cbn in L; lia|].
      inversion R as [|? ta ? ts1 Ra R1]; subst. inversion R1 as [|? tb ? ts2 Rb R2]; subst.
      inversion P as [|? ? Pa P1]; subst. inversion P1 as [|? ? Pb P2]; subst.
      cbn [TaptreeModel.level].
      destruct (cwo_total _ _ _ _ _ Ra Rb Pa Pb J) as [[n lf] E]. rewrite E.
      destruct (cwo_inv _ _ _ _ E _ _ Ra Rb) as (_ & _ & Rn & Ms).
      (* split the index table *)
      set (sa := length (nl a)) in *. set (sb := length (nl b)) in *.
      pose (t1 := firstn sa t). pose (t2 := firstn sb (skipn sa t)). pose (t3 := skipn (sa + sb) t).
      assert (length (scripts_of (a :: b :: nodes)) = length t) as Len
        by (apply (f_equal (@length _)) in M; rewrite !map_length in M; exact M).
      unfold scripts_of in Len, M. cbn [flat_map] in Len, M. fold (scripts_of nodes) in Len, M.
      rewrite !app_length, !map_length in Len. fold sa sb in Len.
      assert (t = t1 ++ t2 ++ t3) as Et.
      { unfold t1, t2, t3. rewrite <- (firstn_skipn sa t) at 1. f_equal.
        rewrite <- (firstn_skipn sb (skipn sa t)) at 1. f_equal.
        clear. rewrite Nat.add_comm. revert t. induction sa as [|sa IHn]; intros t; [rewrite Nat.add_0_r; reflexivity|].
        rewrite Nat.add_succ_r. destruct t; [now rewrite !skipn_nil|]. cbn [skipn]. apply IHn. }
      assert (length t1 = sa) as L1 by (unfold t1; rewrite firstn_length; lia).
      assert (length t2 = sb) as L2 by (unfold t2; rewrite firstn_length, skipn_length; lia).
      clearbody t1 t2 t3. subst t.
      rewrite !map_app in M.
      assert (map Some (map ls (nl a)) = map f t1 /\ map Some (map ls (nl b)) = map f t2 /\
              map Some (scripts_of nodes) = map f t3) as (M1 & M2 & M3).
      { apply app_eq_app in M as (l & [[X Y]|[X Y]]).
        - assert (l = []) as -> by (apply (f_equal (@length _)) in X; rewrite app_length, !map_length in X;
            destruct l; [reflexivity|cbn in X; lia]).
          rewrite app_nil_r in X. cbn in Y.
          apply app_eq_app in Y as (l & [[X' Y]|[X' Y]]).
          + assert (l = []) as -> by (apply (f_equal (@length _)) in X'; rewrite app_length, !map_length in X';
              destruct l; [reflexivity|cbn in X'; lia]).
            rewrite app_nil_r in X'. auto.
          + assert (l = []) as -> by (apply (f_equal (@length _)) in X'; rewrite app_length, !map_length in X';
              destruct l; [reflexivity|cbn in X'; lia]).
            rewrite app_nil_r in X'. auto.
        - assert (l = []) as -> by (apply (f_equal (@length _)) in X; rewrite app_length, !map_length in X;
            destruct l; [reflexivity|cbn in X; lia]).
          rewrite app_nil_r in X. cbn in Y.
          apply eq_sym, app_eq_app in Y as (l & [[X' Y]|[X' Y]]).
          + assert (l = []) as -> by (apply (f_equal (@length _)) in X'; rewrite app_length, !map_length in X';
              destruct l; [reflexivity|cbn in X'; lia]).
            rewrite app_nil_r in X'. auto.
          + assert (l = []) as -> by (apply (f_equal (@length _)) in X'; rewrite app_length, !map_length in X';
              destruct l; [reflexivity|cbn in X'; lia]).
            rewrite app_nil_r in X'. auto. }
      set (tt := if lf then t1 ++ t2 else t2 ++ t1).
      assert ((if lf then pre ++ t1 ++ t2 ++ t3
               else firstn (length pre) (pre ++ t1 ++ t2 ++ t3) ++
                    firstn sb (skipn (length pre + sa) (pre ++ t1 ++ t2 ++ t3)) ++
                    firstn sa (skipn (length pre) (pre ++ t1 ++ t2 ++ t3)) ++
                    skipn (length pre + sa + sb) (pre ++ t1 ++ t2 ++ t3)) = (pre ++ tt) ++ t3) as ->.
      { unfold tt. destruct lf; [now rewrite !app_assoc|].
        assert (forall (x y : list nat), firstn (length x) (x ++ y) = x) as F1
          by (intros; rewrite firstn_app, Nat.sub_diag, firstn_all, app_nil_r; reflexivity).
        assert (forall (x y : list nat), skipn (length x) (x ++ y) = y) as F2
          by (intros; rewrite skipn_app, Nat.sub_diag, skipn_all; reflexivity).
        rewrite F1, F2. rewrite <- L1, <- L2, F1.
        rewrite <- (app_length pre t1). rewrite !(app_assoc pre t1), F2, F1.
        rewrite <- (app_length (pre ++ t1) t2), (app_assoc (pre ++ t1) t2 t3), F2.
        rewrite <- !app_assoc. reflexivity. }
      assert (length pre + sa + sb = length (pre ++ tt)) as ->
        by (unfold tt; destruct lf; rewrite !app_length; lia).
      cbn [length] in L.
      destruct (IH nodes ts2 (pre ++ tt) t3 J ltac:(lia) R2 P2 M3) as (ns' & ts' & t' & E' & Ln & Rs & Ps & Pm & Ms').
      rewrite E'. exists (n :: ns'), ((if lf then Node ta tb else Node tb ta) :: ts'), (tt ++ t').
      split; [now rewrite app_assoc|]. split; [cbn [length]; lia|].
      split; [constructor; assumption|].
      split; [constructor; [destruct lf; cbn [perfect]; auto|exact Ps]|].
      split; [|unfold scripts_of; cbn [flat_map]; fold (scripts_of ns'); rewrite !map_app; f_equal; [|exact Ms'];
               rewrite Ms; unfold tt; destruct lf; rewrite !map_app, M1, M2; reflexivity].
      rewrite app_assoc. apply Permutation_app; [|exact Pm].
      unfold tt. destruct lf; [reflexivity|apply Permutation_app_comm].
  Qed.

  Lemma levels_ok (f : nat -> option A) k : forall fuel j nodes ts t, k <= fuel -> j + k <= 128 -> length nodes = 2 ^ k ->
    Forall2 repr nodes ts -> Forall (perfect j) ts ->
    map Some (scripts_of nodes) = map f t ->
    exists n tr t', levels fuel nodes t = Some ([n], t') /\ repr n tr /\ perfect (j + k) tr /\ Permutation t t' /\
      map Some (map ls (nl n)) = map f t'.
  Proof.
    induction k as [|k IH]; intros fuel j nodes ts t Fu J L R P M.
    - destruct nodes as [|n [|]]; try discriminate.
      inversion R as [|? tr ? ? Rn R1]; subst. inversion R1; subst. inversion P; subst.
      exists n, tr, t. split; [destruct fuel; reflexivity|]. rewrite Nat.add_0_r.
      repeat split; try apply Rn; auto. unfold scripts_of in M. cbn in M. now rewrite app_nil_r in M.
    - destruct fuel as [|fuel]; [lia|]. cbn [TaptreeModel.levels].
      assert (length nodes = 2 * 2 ^ k) as L' by (rewrite L; cbn; lia).
      rewrite L'. assert (2 ^ k <> 0) as K0 by (apply Nat.pow_nonzero; lia).
      rewrite (proj2 (Nat.ltb_lt 1 (2 * 2 ^ k))) by lia.
      rewrite (Nat.mul_comm 2), Nat.mod_mul by lia. cbn [Nat.eqb].
      destruct (level_ok f j (2 ^ k) nodes ts [] t ltac:(lia) L' R P M) as (ns' & ts' & t' & E & Ln & Rs & Ps & Pm & Ms).
      cbn [length app] in E. rewrite E.
      destruct (IH fuel (S j) ns' ts' t' ltac:(lia) ltac:(lia) Ln Rs Ps Ms) as (n & tr & t'' & E' & Rn & Pn & Pm' & Mn).
      exists n, tr, t''. split; [exact E'|]. split; [exact Rn|]. split; [now replace (j + S k) with (S j + k) by lia|].
      split; [etransitivity; eassumption|exact Mn].
  Qed.

  (** The reversed index table. *)
  Lemma set_nth_ok {X} i (v : X) l : i < length l -> exists l', set_nth i v l = Some l' /\ length l' = length l /\
    forall j, nth_error l' j = if Nat.eqb j i then Some v else nth_error l j.
  Proof.
    revert l. induction i as [|i IH]; intros [|x l] Hi; cbn in Hi; try lia.
    - exists (v :: l). split; [reflexivity|]. split; [reflexivity|]. intros [|j]; reflexivity.
    - destruct (IH l ltac:(lia)) as (l' & E & L & N). cbn [set_nth]. rewrite E.
      exists (x :: l'). split; [reflexivity|]. split; [cbn; lia|].
      intros [|j]; [reflexivity|]. cbn. apply N.
  Qed.
  Lemma reverse_ok d : forall idx ret, NoDup d -> Forall (fun p => p < length ret) d ->
    exists ret', reverse_idx_from idx d ret = Some ret' /\ length ret' = length ret /\
      (forall i p, nth_error d i = Some p -> nth_error ret' p = Some (idx + i)) /\
      (forall p, ~ In p d -> nth_error ret' p = nth_error ret p).
  Proof.
    induction d as [|p d IH]; intros idx ret Nd F.
    - exists ret. split; [reflexivity|]. split; [reflexivity|]. split; [intros [|]; discriminate|auto].
    - inversion Nd; subst. inversion F; subst. cbn [reverse_idx_from].
      destruct (set_nth_ok p idx ret ltac:(assumption)) as (r1 & E1 & L1 & N1). rewrite E1.
      destruct (IH (S idx) r1 ltac:(assumption)) as (r2 & E2 & L2 & N2 & N3); [now rewrite L1|].
      exists r2. split; [exact E2|]. split; [lia|]. split.
      + intros [|i] q Hq; cbn in Hq.
        * injection Hq as ->. rewrite N3, N1 by assumption. rewrite Nat.eqb_refl; f_equal; lia.
        * rewrite (N2 _ _ Hq). f_equal; lia.
      + intros q Hq. rewrite N3, N1 by (intros X; apply Hq; now right).
        destruct (Nat.eqb_spec q p); [exfalso; apply Hq; left; auto|reflexivity].
  Qed.

  Lemma is_pow2_spec n : is_power_of_two n = true <-> exists k, n = (2 ^ k)%N.
  Proof.
    unfold is_power_of_two. rewrite andb_true_iff, N.ltb_lt, N.eqb_eq. split.
    - intros [Hn Hl]. exists (N.log2 n).
      destruct (N.log2_spec n Hn) as [Lo Hi].
      destruct (N.eq_dec n (2 ^ N.log2 n)) as [|Ne]; [assumption|exfalso].
      (* the top bit is set in both n and n - 1 *)
      assert (N.testbit (N.land n (n - 1)) (N.log2 n) = true) as T.
      { rewrite N.land_spec. apply andb_true_iff. split; [apply N.bit_log2; lia|].
        replace (N.log2 n) with (N.log2 (n - 1)); [apply N.bit_log2; lia|].
        apply N.log2_unique; [lia|]. clear Hl; lia. }
      rewrite Hl, N.bits_0 in T. discriminate.
    - intros [k ->]. assert (2 ^ k <> 0)%N by (apply N.pow_nonzero; lia). split; [lia|].
      rewrite <- N.pred_sub, <- N.ones_equiv, N.land_ones. apply N.mod_same; lia.
  Qed.

  Notation build := (new_with_scripts A leaf_hash branch_hash).
  (** What a well formed tree is: the j-th leaf of the node is the leaf_indices-image of the index. *)
  Lemma build_ok scripts k : length scripts = 2 ^ k -> k <= 31 ->
    exists t tr, build scripts = Some t /\ leaf_count A t = 2 ^ k /\ length (leaf_indices A t) = 2 ^ k /\
      Permutation (leaf_indices A t) (seq 0 (2 ^ k)) /\
      repr (root_node A t) tr /\ perfect k tr /\
      forall i, i < 2 ^ k -> exists j l, nth_error (leaf_indices A t) i = Some j /\
        nth_error (nl (root_node A t)) j = Some l /\ nth_error scripts i = Some (ls l).
  Proof.
    intros L K. unfold new_with_scripts, add_leaves, build_tree. rewrite map_length, L.
    assert (is_power_of_two (N.of_nat (2 ^ k) mod 2 ^ 32)%N = true) as ->.
    { apply is_pow2_spec. exists (N.of_nat k).
      assert (N.of_nat (2 ^ k) = 2 ^ N.of_nat k)%N as ->.
      { clear. induction k; [reflexivity|]. rewrite Nat.pow_succ_r', Nat2N.inj_mul, IHk, (Nat2N.inj_succ k), N.pow_succ_r'. reflexivity. }
      apply N.mod_small. apply N.pow_lt_mono_r; lia. }
    assert (Forall2 repr (map new_leaf scripts) (map Leaf scripts)) as R
      by (clear; induction scripts; constructor; auto using repr_leaf).
    assert (Forall (perfect 0) (map Leaf scripts)) as P
      by (apply Forall_map, Forall_forall; intros; exact I).
    assert (map Some (scripts_of (map new_leaf scripts)) = map (nth_error scripts) (seq 0 (2 ^ k))) as M.
    { assert (scripts_of (map new_leaf scripts) = scripts) as ->
        by (clear; induction scripts as [|s l IH]; [reflexivity|]; cbn; unfold scripts_of in IH; now rewrite IH).
      rewrite <- L. clear. induction scripts as [|s l IH]; [reflexivity|].
      cbn [length seq map]. rewrite <- seq_shift, map_map. cbn [nth_error]. f_equal. exact IH. }
    destruct (levels_ok (nth_error scripts) k (2 ^ k) 0 _ _ _ ltac:(apply Nat.lt_le_incl, Nat.pow_gt_lin_r; lia) ltac:(lia)
                ltac:(rewrite map_length; exact L) R P M) as (n & tr & t' & E & Rn & Pn & Pm & Mn).
    rewrite E.
    assert (length t' = 2 ^ k) as Lt by (rewrite <- (Permutation_length Pm), seq_length; reflexivity).
    destruct (reverse_ok t' 0 (repeat 0 (length t'))) as (r & Er & Lr & N2 & _).
    { eapply Permutation_NoDup; [exact Pm|apply seq_NoDup]. }
    { apply Forall_forall. intros x Hx. rewrite repeat_length, Lt.
      apply (Permutation_in _ (Permutation_sym Pm)), in_seq in Hx. lia. }
    unfold reverse_idx_dict. rewrite Er, repeat_length in *.
    assert (forall i, i < 2 ^ k -> exists j, nth_error r i = Some j /\ nth_error t' j = Some i) as Inv.
    { intros i Hi. assert (In i t') as Hin by (apply (Permutation_in _ Pm), in_seq; lia).
      apply In_nth_error in Hin as [j Hj]. exists j. split; [apply (N2 _ _ Hj)|exact Hj]. }
    eexists _, tr. split; [reflexivity|]. cbn [leaf_count leaf_indices root_node].
    split; [reflexivity|]. split; [lia|]. split; [|split; [exact Rn|split; [exact Pn|]]].
    - apply NoDup_Permutation_bis.
      + apply NoDup_nth_error. intros i i' Hi Ei. rewrite Lr, Lt in Hi.
        destruct (Inv i Hi) as (j & Ej & Tj).
        assert (i' < 2 ^ k) as Hi' by (rewrite <- Lt, <- Lr; apply nth_error_Some; rewrite <- Ei, Ej; discriminate).
        destruct (Inv i' Hi') as (j' & Ej' & Tj'). congruence.
      + rewrite seq_length. lia.
      + intros x Hx. apply In_nth_error in Hx as [i Hi].
        assert (i < 2 ^ k) as Hi' by (rewrite <- Lt, <- Lr; apply nth_error_Some; rewrite Hi; discriminate).
        destruct (Inv i Hi') as (j & Ej & Tj). assert (x = j) as -> by congruence.
        apply in_seq. split; [lia|]. cbn. rewrite <- Lt. apply nth_error_Some. rewrite Tj. discriminate.
    - intros i Hi. destruct (Inv i Hi) as (j & Ej & Tj).
      apply (f_equal (fun l => nth_error l j)) in Mn. rewrite !nth_error_map in Mn. rewrite Tj in Mn.
      destruct (nth_error (nl n) j) as [l|] eqn:El.
      + exists j, l. cbn in Mn. injection Mn as Mn. auto.
      + exfalso. apply nth_error_None in El.
        assert (j < length t') by (apply nth_error_Some; rewrite Tj; discriminate).
        rewrite (repr_len _ _ Rn), (perfect_count _ _ Pn) in El. cbn in El. lia.
  Qed.

  (** A well formed tree with the given scripts in index order. *)
  Definition wf (t : taptree) (scripts : list A) : Prop :=
    exists tr, repr (root_node A t) tr /\ leaf_count A t = length scripts /\
      length (nl (root_node A t)) = length scripts /\
      Permutation (leaf_indices A t) (seq 0 (length scripts)) /\
      forall i s, nth_error scripts i = Some s -> exists j l, nth_error (leaf_indices A t) i = Some j /\
        nth_error (nl (root_node A t)) j = Some l /\ ls l = s.

  Lemma build_wf scripts k : length scripts = 2 ^ k -> k <= 31 ->
    exists t, build scripts = Some t /\ wf t scripts.
  Proof.
    intros L K. destruct (build_ok scripts k L K) as (t & tr & E & C & _ & Pm & R & P & N).
    exists t. split; [exact E|]. exists tr. split; [exact R|]. rewrite L. split; [exact C|].
    split; [rewrite (repr_len _ _ R), (perfect_count _ _ P); reflexivity|].
    split; [exact Pm|]. intros i s Hi.
    destruct (N i) as (j & l & E1 & E2 & E3); [rewrite <- L; apply nth_error_Some; rewrite Hi; discriminate|].
    exists j, l. repeat split; auto. congruence.
  Qed.
  Lemma build_inv scripts t : (N.of_nat (length scripts) < 2 ^ 32)%N -> build scripts = Some t ->
    (exists k, length scripts = 2 ^ k /\ k <= 31) /\ wf t scripts.
  Proof.
    intros B E.
    assert (exists k, length scripts = 2 ^ k /\ k <= 31) as (k & L & K).
    { unfold new_with_scripts, add_leaves, build_tree in E. rewrite map_length in E.
      destruct (is_power_of_two _) eqn:Q; [|discriminate]. clear E.
      rewrite N.mod_small in Q by exact B.
      apply is_pow2_spec in Q as [k Q]. exists (N.to_nat k).
      split.
      - apply Nat2N.inj. rewrite Q. rewrite <- (N2Nat.id k) at 1. generalize (N.to_nat k). clear.
        intros n. induction n; [reflexivity|]. rewrite Nat.pow_succ_r', Nat2N.inj_mul, <- IHn, (Nat2N.inj_succ n), N.pow_succ_r'. reflexivity.
      - rewrite Q in B. apply N.pow_lt_mono_r_iff in B; lia. }
    split; [eauto|]. destruct (build_wf scripts k L K) as (t' & E' & W). congruence.
  Qed.

  Notation comb := (combine A branch_hash).
  Lemma nth_error_app {X} (a b : list X) i :
    nth_error (a ++ b) i = if i <? length a then nth_error a i else nth_error b (i - length a).
  Proof.
    destruct (Nat.ltb_spec i (length a)); [now apply nth_error_app1|now apply nth_error_app2].
  Qed.
  Lemma combine_wf a b c sa sb : wf a sa -> wf b sb -> comb a b = Some c -> wf c (sa ++ sb).
  Proof.
    intros (ta & Ra & Ca & La & Pa & Na) (tb & Rb & Cb & Lb & Pb & Nb) E. unfold combine in E.
    destruct (cwo (root_node A a) (root_node A b)) as [[n lf]|] eqn:Ec; [|discriminate]. injection E as <-.
    destruct (cwo_inv _ _ _ _ Ec _ _ Ra Rb) as (_ & _ & Rn & Ms).
    assert (length (leaf_indices A a) = length sa) as Ia by (rewrite (Permutation_length Pa), seq_length; reflexivity).
    assert (length (leaf_indices A b) = length sb) as Ib by (rewrite (Permutation_length Pb), seq_length; reflexivity).
    exists (if lf then Node ta tb else Node tb ta). cbn [root_node leaf_count leaf_indices].
    split; [exact Rn|]. rewrite app_length.
    split; [destruct lf; rewrite app_length, map_length; lia|].
    split. { apply (f_equal (@length _)) in Ms. rewrite map_length in Ms. destruct lf; rewrite app_length, !map_length in Ms; lia. }
    assert (forall m k, map (fun i => i + m) (seq 0 k) = seq m k) as Sh.
    { clear. intros m k. revert m. induction k as [|k IH]; intros m; [reflexivity|].
      cbn [seq map]. rewrite <- seq_shift, map_map. f_equal. rewrite <- (IH (S m)). apply map_ext. intros; lia. }
    assert (map ls (nl n) = map ls (if lf then nl (root_node A a) ++ nl (root_node A b) else nl (root_node A b) ++ nl (root_node A a))) as Ms'
      by (rewrite Ms; destruct lf; now rewrite map_app).
    split.
    - destruct lf; rewrite seq_app.
      + apply Permutation_app; [exact Pa|]. rewrite Ca. rewrite <- Sh. now apply Permutation_map.
      + cbn [Nat.add]. rewrite <- seq_app, Nat.add_comm, seq_app. cbn [Nat.add]. rewrite Permutation_app_comm.
        apply Permutation_app; [exact Pb|]. rewrite Cb, <- Sh. now apply Permutation_map.
    - intros i s Hs. rewrite nth_error_app in Hs.
      destruct (Nat.ltb_spec i (length sa)) as [Hi|Hi].
      + destruct (Na _ _ Hs) as (j & l & E1 & E2 & E3).
        assert (j < length (nl (root_node A a))) as Hj by (apply nth_error_Some; rewrite E2; discriminate).
        set (j' := if lf then j else j + length sb).
        assert (nth_error (map ls (nl n)) j' = Some s) as Hl.
        { rewrite Ms', nth_error_map. unfold j'. destruct lf.
          - rewrite nth_error_app1, E2 by exact Hj. cbn. now rewrite E3.
          - rewrite nth_error_app2 by lia. replace (j + length sb - length (nl (root_node A b))) with j by lia.
            rewrite E2. cbn. now rewrite E3. }
        rewrite nth_error_map in Hl. destruct (nth_error (nl n) j') as [l'|] eqn:El; [|discriminate].
        exists j', l'. split; [|split; [exact El|cbn in Hl; congruence]].
        unfold j'. destruct lf.
        * rewrite nth_error_app1 by lia. exact E1.
        * rewrite nth_error_app1 by (rewrite map_length; lia). rewrite nth_error_map, E1, Cb. reflexivity.
      + destruct (Nb _ _ Hs) as (j & l & E1 & E2 & E3).
        assert (j < length (nl (root_node A b))) as Hj by (apply nth_error_Some; rewrite E2; discriminate).
        set (j' := if lf then j + length sa else j).
        assert (nth_error (map ls (nl n)) j' = Some s) as Hl.
        { rewrite Ms', nth_error_map. unfold j'. destruct lf.
          - rewrite nth_error_app2 by lia. replace (j + length sa - length (nl (root_node A a))) with j by lia.
            rewrite E2. cbn. now rewrite E3.
          - rewrite nth_error_app1, E2 by exact Hj. cbn. now rewrite E3. }
        rewrite nth_error_map in Hl. destruct (nth_error (nl n) j') as [l'|] eqn:El; [|discriminate].
        exists j', l'. split; [|split; [exact El|cbn in Hl; congruence]].
        unfold j'. destruct lf.
        * rewrite nth_error_app2 by lia. rewrite Ia, nth_error_map, E1, Ca. reflexivity.
        * rewrite nth_error_app2 by (rewrite map_length; lia). rewrite map_length, Ia. exact E1.
  Qed.

  (** Every branch leads to the root. *)
  Lemma mleaves_climb t s p : In (s, p) (mleaves t) -> climb (leaf_hash s) p = mroot t.
  Proof.
    revert s p. induction t as [s0|l IHl r IHr]; intros s p; cbn [mleaves mroot].
    - intros [[= <- <-]|[]]. reflexivity.
    - rewrite in_app_iff, !in_map_iff. unfold TaptreeModel.climb.
      intros [[[s1 p1] [[= <- <-] Hin]]|[[s1 p1] [[= <- <-] Hin]]]; cbn [fst snd] in *; rewrite fold_left_app; cbn [fold_left].
      + apply IHl in Hin. unfold TaptreeModel.climb in Hin. now rewrite Hin.
      + apply IHr in Hin. unfold TaptreeModel.climb in Hin. rewrite Hin. apply fnh_sym.
  Qed.

End P.
