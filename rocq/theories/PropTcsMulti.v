(** Property C85: opening and verifying all queries of a commitment at once. *)
From Coq Require Import ZArith NArith List Bool Lia Permutation Arith Sorted.
From Verif Require Import ScriptNum ScriptVM VMLemmas U32Model Lift WinternitzModel WinternitzSpec PropSign
  TaptreeModel TaptreeProofs PropTaptree TcsModel TcsProofs TcsProofs2 PropTcs TcsMultiModel.
Import ListNotations.
Local Open Scope nat_scope.

Lemma nth_error_same {A} (a b : list A) : (forall i, nth_error a i = nth_error b i) -> a = b.
Proof.
  revert b. induction a as [|x a IH]; intros [|y b] E; [reflexivity|specialize (E 0); discriminate|specialize (E 0); discriminate|].
  pose proof (E 0) as [= ->]. f_equal. apply IH. intros i. exact (E (S i)).
Qed.

Section TcsMulti.
  Variable H : bytes -> bytes.
  Variables (F bc : Type).
  Variable as_u32_vec : F -> list Z.
  Variable u32_size : nat.
  Variable new_bc : nat -> bool -> bc.
  Variable lock : bc -> script.
  Variable bc_witness : bc -> list Z -> list bytes.
  Variable leaf_hash : script -> hash.
  Variable branch_hash : hash -> hash -> hash.
  Variable opens : bc -> list Z -> list bytes -> list bytes -> Prop.
  Variable words_of : bc -> nat.
  Variable feqb : F -> F -> bool.

  Notation commit := (t_commit F bc as_u32_vec u32_size new_bc lock leaf_hash branch_hash).
  Notation open_all := (open_with_query_times F bc).
  Notation open_one := (open_with_one_query F bc).
  Notation verify_one := (TcsModel.verify H F bc as_u32_vec bc_witness leaf_hash branch_hash).
  Notation verify_all := (verify_with_query_times H F bc as_u32_vec bc_witness leaf_hash branch_hash).
  Notation commits := (commits F bc as_u32_vec u32_size lock leaf_hash branch_hash words_of).

  (** ** The verdict *)

  (** What verifying entry [t] alone gives; [None] is a panic, also for a missing entry. *)
  Definition entry (roots : list hash) (ps : list (commited_proof bc)) (vs : list (list F)) (t : nat) : option bool :=
    match nth_error roots t, nth_error ps t, nth_error vs t with
    | Some r, Some p, Some v => verify_one r p v
    | _, _, _ => None
    end.

  Lemma loop_true roots ps vs : forall k t,
    verify_loop H F bc as_u32_vec bc_witness leaf_hash branch_hash roots ps vs t k true = Some true <->
    (forall i, t <= i < t + k -> entry roots ps vs i = Some true).
  Proof.
    induction k as [|k IH]; intros t; cbn [verify_loop negb].
    - split; [intros _ i Hi; lia|reflexivity].
    - split.
      + intros E i Hi. unfold entry.
        destruct (nth_error roots t) eqn:E1; [|discriminate]. destruct (nth_error ps t) eqn:E2; [|discriminate].
        destruct (nth_error vs t) eqn:E3; [|discriminate]. destruct (verify_one h c l) as [b|] eqn:Ev; [|discriminate].
        destruct b; [|destruct k; cbn in E; discriminate].
        destruct (Nat.eq_dec i t) as [->|N]; [now rewrite E1, E2, E3|]. apply (proj1 (IH (S t)) E). lia.
      + intros A. pose proof (A t ltac:(lia)) as At. unfold entry in At.
        destruct (nth_error roots t); [|discriminate]. destruct (nth_error ps t); [|discriminate].
        destruct (nth_error vs t); [|discriminate]. rewrite At. apply IH. intros i Hi. apply A. lia.
  Qed.
  Lemma loop_first roots ps vs v : v <> Some true -> forall k t,
    verify_loop H F bc as_u32_vec bc_witness leaf_hash branch_hash roots ps vs t k true = v <->
    (exists i, t <= i < t + k /\ entry roots ps vs i = v /\ forall j, t <= j < i -> entry roots ps vs j = Some true).
  Proof.
    intros Nv. induction k as [|k IH]; intros t; cbn [verify_loop negb].
    - split; [intros E; congruence|intros (i & Hi & _); lia].
    - split.
      + intros E. destruct (entry roots ps vs t) as [b|] eqn:Et.
        * pose proof Et as Et'. unfold entry in Et.
          destruct (nth_error roots t); [|discriminate]. destruct (nth_error ps t); [|discriminate].
          destruct (nth_error vs t); [|discriminate]. rewrite Et in E.
          destruct b.
          -- apply IH in E as (i & Hi & Ei & A). exists i. split; [lia|]. split; [exact Ei|]. intros j Hj.
             destruct (Nat.eq_dec j t) as [->|N]; [exact Et'|]. apply A. lia.
          -- exists t. split; [lia|]. split; [|intros; lia]. rewrite Et'. destruct k; cbn in E; exact E.
        * exists t. split; [lia|]. split; [|intros; lia]. rewrite Et. unfold entry in Et.
          destruct (nth_error roots t); [|exact E]. destruct (nth_error ps t); [|exact E].
          destruct (nth_error vs t); [|exact E]. rewrite Et in E. exact E.
      + intros (i & Hi & Ei & A). destruct (Nat.eq_dec i t) as [->|N].
        * unfold entry in Ei. destruct (nth_error roots t); [|exact Ei]. destruct (nth_error ps t); [|exact Ei].
          destruct (nth_error vs t); [|exact Ei]. rewrite Ei. destruct v as [[]|]; [congruence| |reflexivity].
          destruct k; reflexivity.
        * pose proof (A t ltac:(lia)) as At. unfold entry in At.
          destruct (nth_error roots t); [|discriminate]. destruct (nth_error ps t); [|discriminate].
          destruct (nth_error vs t); [|discriminate]. rewrite At. apply IH. exists i. split; [lia|]. split; [exact Ei|].
          intros j Hj. apply A. lia.
  Qed.

  (** verify_with_query_times accepts exactly when each of the first query_times entries verifies;
      otherwise its result is that of the first entry that does not, later entries are not looked at,
      and entries beyond query_times never matter. *)
  Theorem C85_accepts_iff : forall roots ps vs k,
    verify_all roots ps vs k = Some true <-> forall t, t < k -> entry roots ps vs t = Some true.
  Proof.
    intros roots ps vs k. unfold verify_with_query_times. rewrite loop_true.
    split; intros A t Ht; apply A; lia.
  Qed.
  Theorem C85_otherwise_first : forall roots ps vs k v, v <> Some true ->
    verify_all roots ps vs k = v <->
    exists t, t < k /\ entry roots ps vs t = v /\ forall j, j < t -> entry roots ps vs j = Some true.
  Proof.
    intros roots ps vs k v Nv. unfold verify_with_query_times. rewrite (loop_first roots ps vs v Nv).
    split; intros (t & Ht & E & A); exists t; (split; [lia|]); (split; [exact E|]); intros j Hj; apply A; lia.
  Qed.
  (** Finding: with query_times = 0 everything is accepted. *)
  Theorem C85_no_queries : forall roots ps vs, verify_all roots ps vs 0 = Some true.
  Proof. reflexivity. Qed.

  (** ** Opening *)
  Hypothesis S0 : setting H F bc as_u32_vec u32_size new_bc lock bc_witness opens words_of feqb.

  Lemma z_pow_30 K q : K <= 30 -> q < 2 ^ K -> (Z.of_nat q < 2 ^ 31)%Z.
  Proof.
    intros HK Hq.
    assert (forall n, Z.of_nat (2 ^ n) = (2 ^ Z.of_nat n)%Z) as P
      by (intros n; induction n; [reflexivity|]; rewrite Nat.pow_succ_r', Nat2Z.inj_mul, IHn, (Nat2Z.inj_succ n), Z.pow_succ_r by lia; reflexivity).
    apply Z.lt_le_trans with (Z.of_nat (2 ^ K)); [lia|]. rewrite P. apply Z.pow_le_mono_r; lia.
  Qed.

  (** one query: opens, and what is opened verifies *)
  Lemma one_query ms K d q : 0 < K <= 30 -> batch ms K -> commits d K ms -> q < 2 ^ K ->
    exists p, query_proof F bc d q = Some p /\ cp_query_index bc p = q /\ cp_bcs bc p = cd_bcs F bc d /\
      TcsModel.open F bc q d = Some (p, concat (map (row_for K q) (sorted_desc F ms))) /\
      verify_one (node_hash script (root_node script (cd_taptree F bc d))) p (concat (map (row_for K q) (sorted_desc F ms))) = Some true.
  Proof.
    intros HK Bm C Hq.
    destruct (open_ok F bc as_u32_vec u32_size lock leaf_hash branch_hash words_of d K ms q (proj1 Bm) (proj2 Bm) C Hq) as (l & Gl & Eo).
    rewrite (rows_spec F ms K q Bm) in Eo.
    exists {| cp_leaf := l; cp_bcs := cd_bcs F bc d; cp_query_index := q |}.
    split; [unfold query_proof; now rewrite Gl|]. split; [reflexivity|]. split; [reflexivity|]. split; [exact Eo|].
    destruct S0 as (BC & So & Vo & _ & _).
    pose proof (sorted_width F ms K q Bm Hq) as Lw.
    destruct (verify_iff H F bc as_u32_vec u32_size new_bc lock bc_witness leaf_hash branch_hash opens words_of BC So Vo
      d K ms q q l (concat (map (row_for K q) (sorted_desc F ms))) ltac:(lia) ltac:(lia) (proj1 Bm) C Hq
      (z_pow_30 K q ltac:(lia) Hq) Gl ltac:(lia)) as (b & Ev & Ib).
    rewrite Ev. f_equal. apply Ib. split; [reflexivity|]. rewrite <- Lw, firstn_all, (rows_spec F ms K q Bm). reflexivity.
  Qed.

  Lemma proofs_ok ms K ds : 0 < K <= 30 -> batch ms K -> Forall (fun d => commits d K ms) ds ->
    forall qs t, t + length qs <= length ds -> Forall (fun q => q < 2 ^ K) qs ->
    exists ps, query_proofs F bc t ds qs = Some ps /\ length ps = length qs /\
      forall i q, nth_error qs i = Some q -> exists d p, nth_error ds (t + i) = Some d /\ nth_error ps i = Some p /\
        query_proof F bc d q = Some p.
  Proof.
    intros HK Bm Fd. induction qs as [|q qs IH]; intros t L Fq.
    - exists []. repeat split. intros [|i] q E; discriminate.
    - inversion_clear Fq as [|? ? Hq Fq']. cbn [length] in L. cbn [query_proofs].
      destruct (nth_error ds t) as [d|] eqn:Ed; [|apply nth_error_None in Ed; lia].
      rewrite Forall_forall in Fd. pose proof (Fd _ (nth_error_In _ _ Ed)) as C.
      destruct (one_query ms K d q HK Bm C Hq) as (p & Ep & _).
      destruct (IH (S t) ltac:(lia) Fq') as (ps & Eps & Lp & A). rewrite Ep, Eps. exists (p :: ps).
      split; [reflexivity|]. split; [cbn; lia|]. intros [|i] q' E.
      + injection E as <-. exists d, p. now rewrite Nat.add_0_r.
      + destruct (A i q' E) as (d' & p' & E1 & E2 & E3). exists d', p'. replace (t + S i) with (S t + i) by lia. auto.
  Qed.

  (** Committing a batch for [nq] queries and opening one leaf per query gives proofs and values
      that verify together; the values are the rows of the queried leaves; opening a single query gives
      the entry of that query. *)
  Theorem C85_round_trip : forall ms K nq next indices, 0 < K <= 30 -> batch ms K -> 0 < nq ->
    length indices = nq -> Forall (fun q => q < 2 ^ K) indices ->
    exists roots ds next' order ps vs, commit nq next ms = Some (roots, ds, next') /\ tallest_first ms order /\
      open_all indices ds nq = Some (ps, vs) /\
      vs = map (fun q => concat (map (row_for K q) order)) indices /\ map (cp_query_index bc) ps = indices /\
      verify_all roots ps vs nq = Some true /\
      (forall t q, nth_error indices t = Some q ->
         exists p v, nth_error ps t = Some p /\ nth_error vs t = Some v /\ open_one t q ds nq = Some (p, v)).
  Proof.
    intros ms K nq next qs HK Bm Hn Lq Fq.
    destruct (commit_all H F bc as_u32_vec u32_size new_bc lock bc_witness leaf_hash branch_hash opens words_of feqb S0
      ms K ltac:(lia) Bm nq next) as (roots & ds & n' & E & L & Er & Fd).
    destruct (proofs_ok ms K ds HK Bm Fd qs 0 ltac:(lia) Fq) as (ps & Eps & Lps & A). cbn [Nat.add] in A.
    exists roots, ds, n', (sorted_desc F ms), ps, (map (fun q => concat (map (row_for K q) (sorted_desc F ms))) qs).
    split; [exact E|]. split; [eapply tallest_sorted; eassumption|]. split; [|split; [reflexivity|split; [|split]]].
    - unfold open_with_query_times. rewrite Lq, L, Nat.eqb_refl. cbn [andb]. rewrite Eps.
      destruct ds as [|d0 ds]; [cbn in L; lia|]. inversion_clear Fd as [|? ? C0 _]. rewrite (proj1 C0).
      destruct (padding_ok F ms K (proj1 Bm) (proj2 Bm)) as (ys & -> & Ly & N).
      rewrite (opt_all_some (fun i => nth_error ys i) (fun q => concat (map (row_for K q) (sorted_desc F ms))) qs); [reflexivity|].
      intros q Hq. rewrite Forall_forall in Fq. rewrite (N q (Fq q Hq)). f_equal. exact (rows_spec F ms K q Bm).
    - apply nth_error_same. intros i. rewrite nth_error_map. destruct (nth_error qs i) as [q|] eqn:Eq.
      + destruct (A i q Eq) as (d & p & Ed & Ep & Eqp). rewrite Ep. cbn. f_equal.
        rewrite Forall_forall in Fd, Fq. destruct (one_query ms K d q HK Bm (Fd _ (nth_error_In _ _ Ed)) (Fq _ (nth_error_In _ _ Eq))) as (p' & Ep' & Ei & _).
        congruence.
      + apply nth_error_None in Eq. rewrite (proj2 (nth_error_None ps i)) by lia. reflexivity.
    - apply C85_accepts_iff. intros t Ht. destruct (nth_error qs t) as [q|] eqn:Eq; [|apply nth_error_None in Eq; lia].
      destruct (A t q Eq) as (d & p & Ed & Ep & Eqp). unfold entry. rewrite Er, !nth_error_map, Ed, Ep, Eq. cbn [option_map].
      rewrite Forall_forall in Fd, Fq. destruct (one_query ms K d q HK Bm (Fd _ (nth_error_In _ _ Ed)) (Fq _ (nth_error_In _ _ Eq))) as (p' & Ep' & _ & _ & _ & V).
      assert (p' = p) as -> by congruence. exact V.
    - intros t q Eq. destruct (A t q Eq) as (d & p & Ed & Ep & Eqp).
      exists p, (concat (map (row_for K q) (sorted_desc F ms))). split; [exact Ep|]. rewrite nth_error_map, Eq. split; [reflexivity|].
      unfold open_with_one_query. rewrite L, Nat.eqb_refl, Ed.
      rewrite Forall_forall in Fd, Fq. destruct (one_query ms K d q HK Bm (Fd _ (nth_error_In _ _ Ed)) (Fq _ (nth_error_In _ _ Eq))) as (p' & Ep' & _ & _ & V & _).
      rewrite V. congruence.
  Qed.

  (** Finding: zero queries can be committed but not opened. *)
  Theorem C85_open_no_queries : forall indices ds, open_all indices ds 0 = None.
  Proof. intros indices [|d ds]; unfold open_with_query_times; destruct indices; reflexivity. Qed.

  (** The values of an accepted opening start with the committed rows, query by query (or, for
      some query, an input hashed for its leaf collides with one hashed for a leaf of its tree). *)
  Theorem C85_accepted_is_committed : forall ms K nq next roots ds next' ps vs,
    0 < K <= 30 -> batch ms K -> commit nq next ms = Some (roots, ds, next') ->
    (forall t d p, nth_error ds t = Some d -> nth_error ps t = Some p ->
       cp_bcs bc p = cd_bcs F bc d /\ (Z.of_nat (cp_query_index bc p) < 2 ^ 31)%Z) ->
    verify_all roots ps vs nq = Some true ->
    (exists t d p, nth_error ds t = Some d /\ nth_error ps t = Some p /\
       tree_collision script leaf_hash branch_hash (cd_taptree F bc d) (cp_leaf bc p)) \/
    exists order, tallest_first ms order /\ forall t, t < nq ->
      exists p v extra, nth_error ps t = Some p /\ nth_error vs t = Some v /\ cp_query_index bc p < 2 ^ K /\
        v = concat (map (row_for K (cp_query_index bc p)) order) ++ extra.
  Proof.
    intros ms K nq next roots ds n' ps vs HK Bm E W V.
    set (Col := exists t d p, nth_error ds t = Some d /\ nth_error ps t = Some p /\
       tree_collision script leaf_hash branch_hash (cd_taptree F bc d) (cp_leaf bc p)).
    destruct (commit_all H F bc as_u32_vec u32_size new_bc lock bc_witness leaf_hash branch_hash opens words_of feqb S0
      ms K ltac:(lia) Bm nq next) as (roots' & ds' & n'' & E' & L & Er & _).
    assert (roots' = roots /\ ds' = ds) as [-> ->] by (split; congruence).
    pose proof (proj1 (C85_accepts_iff roots ps vs nq) V) as A.
    assert (forall t, t < nq -> Col \/
      exists p v, nth_error ps t = Some p /\ nth_error vs t = Some v /\ exists order, tallest_first ms order /\ cp_query_index bc p < 2 ^ K /\
        exists extra, v = concat (map (row_for K (cp_query_index bc p)) order) ++ extra) as One.
    { intros t Ht. pose proof (A t Ht) as At. unfold entry in At.
      destruct (nth_error roots t) as [r|] eqn:Et; [|discriminate]. destruct (nth_error ps t) as [p|] eqn:Ep; [|discriminate].
      destruct (nth_error vs t) as [v|] eqn:Ev; [|discriminate].
      destruct (nth_error ds t) as [d|] eqn:Ed; [|apply nth_error_None in Ed; lia].
      destruct (W t d p Ed Ep) as [W1 W2].
      destruct (C60_accepted_is_committed H F bc as_u32_vec u32_size new_bc lock bc_witness leaf_hash branch_hash opens words_of feqb S0
        ms K nq next roots ds n' t d [v] p HK Bm E Ed W1 W2) as [(order & T & Hq & ex & Ex)|Hc]; [|right|left; exists t, d, p; auto].
      - unfold t_verify_batch, verify_batch. rewrite Et. cbn [concat]. rewrite app_nil_r. exact At.
      - exists p, v. split; [reflexivity|]. split; [reflexivity|]. exists order. split; [exact T|]. split; [exact Hq|].
        exists ex. cbn [concat] in Ex. now rewrite app_nil_r in Ex. }
    assert (forall o1 o2, tallest_first ms o1 -> tallest_first ms o2 -> o1 = o2) as U.
    { clear. intros o1 o2 (P1 & S1 & F1) (P2 & S2 & F2).
      assert (forall h, filter (fun m => nrows m =? h) o1 = filter (fun m => nrows m =? h) o2) as Ff by (intros; now rewrite F1, F2).
      clear F1 F2 P1 P2 ms. revert o2 S2 Ff. induction S1 as [|a l1 S1 IH Fa]; intros o2 S2 Ff.
      - destruct o2 as [|b o2]; [reflexivity|]. specialize (Ff (nrows b)). cbn in Ff. rewrite Nat.eqb_refl in Ff. discriminate.
      - destruct S2 as [|b l2 S2 Fb].
        + specialize (Ff (nrows a)). cbn in Ff. rewrite Nat.eqb_refl in Ff. discriminate.
        + assert (nrows a = nrows b) as Eab.
          { destruct (Nat.lt_trichotomy (nrows a) (nrows b)) as [Lt|[Eq|Lt]]; [|exact Eq|]; exfalso.
            - specialize (Ff (nrows b)). cbn in Ff. rewrite Nat.eqb_refl, (proj2 (Nat.eqb_neq _ _)) in Ff by lia.
              assert (In b (filter (fun m => nrows m =? nrows b) l1)) as I1 by (rewrite Ff; now left).
              apply filter_In in I1 as [I1 _]. rewrite Forall_forall in Fa. specialize (Fa _ I1). cbn in Fa. lia.
            - specialize (Ff (nrows a)). cbn in Ff. rewrite Nat.eqb_refl, (proj2 (Nat.eqb_neq (nrows b) (nrows a))) in Ff by lia.
              assert (In a (filter (fun m => nrows m =? nrows a) l2)) as I1 by (rewrite <- Ff; now left).
              apply filter_In in I1 as [I1 _]. rewrite Forall_forall in Fb. specialize (Fb _ I1). cbn in Fb. lia. }
          pose proof (Ff (nrows a)) as Fh. cbn in Fh. rewrite <- Eab, !Nat.eqb_refl in Fh. injection Fh as -> Fh.
          f_equal. apply IH; [exact S2|]. intros h. specialize (Ff h). cbn in Ff.
          destruct (nrows b =? h); [now injection Ff|exact Ff]. }
    assert (exists order, tallest_first ms order) as [order T] by (eexists; eapply tallest_sorted; eassumption).
    clear A V W E'. assert (forall k, k <= nq -> Col \/
      forall t, t < k -> exists p v extra, nth_error ps t = Some p /\ nth_error vs t = Some v /\ cp_query_index bc p < 2 ^ K /\
        v = concat (map (row_for K (cp_query_index bc p)) order) ++ extra) as All.
    { induction k as [|k IH]; intros Hk; [right; intros; lia|].
      destruct (IH ltac:(lia)) as [Hc|IHk]; [now left|].
      destruct (One k ltac:(lia)) as [Hc|(p & v & Ep & Ev & o & To & Hq & ex & Ex)]; [now left|]. right. intros t Ht.
      destruct (Nat.eq_dec t k) as [->|N]; [|apply IHk; lia]. rewrite (U o order To T) in Ex. exists p, v, ex. auto. }
    destruct (All nq ltac:(lia)) as [Hc|R]; [now left|]. right. exists order. auto.
  Qed.

  (** ** Heights *)
  Lemma fold_max l : forall x, In (fold_left Nat.max l x) (x :: l) /\ x <= fold_left Nat.max l x /\ Forall (fun y => y <= fold_left Nat.max l x) l.
  Proof.
    induction l as [|y l IH]; intros x; cbn [fold_left]; [repeat split; [now left|lia|constructor]|].
    destruct (IH (Nat.max x y)) as (I1 & I2 & I3). split; [|split; [lia|constructor; [lia|exact I3]]].
    destruct I1 as [E|I1]; [|right; now right]. rewrite <- E. destruct (Nat.max_spec x y) as [[_ ->]|[_ ->]]; [right; now left|now left].
  Qed.
  (** get_max_height is the number of rows of a tallest matrix of the first tree; it panics when there
      is no tree, no matrix, or a matrix of width 0. *)
  Theorem C85_max_height : forall ds h, get_max_height F bc ds = Some h <->
    exists d rest, ds = d :: rest /\ Forall (fun m => width F m > 0) (cd_leaves F bc d) /\
      Exists (fun m => nrows m = h) (cd_leaves F bc d) /\ Forall (fun m => nrows m <= h) (cd_leaves F bc d).
  Proof.
    intros ds h. unfold get_max_height, get_matrix_heights, get_matrices.
    destruct ds as [|d ds]; [split; [discriminate|intros (? & ? & [=] & _)]|].
    set (ms := cd_leaves F bc d).
    assert (opt_all (map (fun m => if width F m =? 0 then None else Some (length (values F m) / width F m)) ms) =
            if forallb (fun m => negb (width F m =? 0)) ms then Some (map nrows ms) else None) as ->.
    { clear. induction ms as [|m ms IH]; [reflexivity|]. cbn. destruct (width F m =? 0); cbn; [reflexivity|]. rewrite IH.
      destruct (forallb _ ms); reflexivity. }
    assert (forallb (fun m => negb (width F m =? 0)) ms = true <-> Forall (fun m => width F m > 0) ms) as Iw.
    { rewrite forallb_forall, Forall_forall. split; intros A m Hm; specialize (A m Hm); cbn in *;
        rewrite negb_true_iff, Nat.eqb_neq in *; lia. }
    assert (iter_max (map nrows ms) = Some h <-> Exists (fun m => nrows m = h) ms /\ Forall (fun m => nrows m <= h) ms) as Im.
    { assert (forall g : nat, Exists (fun m => nrows m = g) ms <-> In g (map nrows ms)) as Ie.
      { intros g. rewrite Exists_exists, in_map_iff. split; intros (m & A & B); exists m; auto. }
      assert (forall g : nat, Forall (fun m => nrows m <= g) ms <-> Forall (fun y => y <= g) (map nrows ms)) as If
        by (intros g; now rewrite Forall_map).
      rewrite Ie, If. destruct (map nrows ms) as [|x l]; cbn [iter_max].
      - split; [discriminate|intros [[] _]].
      - destruct (fold_max l x) as (I1 & I2 & I3). split.
        + intros [= <-]. split; [exact I1|now constructor].
        + intros [J1 J2]. f_equal. rewrite Forall_forall in J2. pose proof (J2 _ I1).
          destruct J1 as [<-|J1]; [lia|]. rewrite Forall_forall in I3. specialize (I3 _ J1). lia. }
    destruct (forallb _ ms).
    - rewrite Im. split.
      + intros [A B]. exists d, ds. repeat split; auto. apply Iw. reflexivity.
      + intros (? & ? & [= <- <-] & _ & A & B). auto.
    - split; [discriminate|]. intros (? & ? & [= <- <-] & A & _). apply Iw in A. discriminate.
  Qed.
  (** For a committed batch it is the height of the tree. *)
  Theorem C85_max_height_committed : forall ms K nq next roots ds next', K <= 31 -> batch ms K -> 0 < nq ->
    commit nq next ms = Some (roots, ds, next') -> get_max_height F bc ds = Some (2 ^ K).
  Proof.
    intros ms K nq next roots ds n' HK Bm Hn E.
    destruct (commit_all H F bc as_u32_vec u32_size new_bc lock bc_witness leaf_hash branch_hash opens words_of feqb S0
      ms K HK Bm nq next) as (roots' & ds' & n'' & E' & L & _ & Fd).
    assert (ds' = ds) as -> by congruence. destruct ds as [|d ds]; [cbn in L; lia|]. inversion_clear Fd as [|? ? C _].
    apply C85_max_height. exists d, ds. rewrite (proj1 C). destruct Bm as [Fm Ex].
    assert (forall (m : matrix F) k, has_rows m k -> nrows m = 2 ^ k) as Hr.
    { intros m k [W Lv]. unfold nrows. rewrite Lv, Nat.mul_comm, Nat.div_mul by lia. reflexivity. }
    split; [reflexivity|]. split; [|split].
    - eapply Forall_impl; [|exact Fm]. intros m (k & [W _] & _). exact W.
    - eapply Exists_impl; [|exact Ex]. intros m R. now apply Hr.
    - eapply Forall_impl; [|exact Fm]. intros m (k & R & Hk). rewrite (Hr m k R). apply Nat.pow_le_mono_r; lia.
  Qed.

  (** ** Committing a vector *)

  (** commit_vec makes leaf q hold element q alone. *)
  Theorem C85_commit_vec : forall xs K nq next, 0 < K <= 30 -> length xs = 2 ^ K ->
    exists roots ds next', commit_vec F bc as_u32_vec u32_size new_bc lock leaf_hash branch_hash nq next xs = Some (roots, ds, next') /\
      length ds = nq /\
      forall t q, t < nq -> q < 2 ^ K -> exists p x r, open_one t q ds nq = Some (p, [x]) /\ nth_error xs q = Some x /\
        nth_error roots t = Some r /\ verify_one r p [x] = Some true.
  Proof.
    intros xs K nq next HK Lx. set (m := {| width := 1; values := xs |} : matrix F).
    assert (has_rows m K) as Rm by (split; cbn; lia).
    assert (batch [m] K) as Bm by (split; [repeat constructor; exists K; split; [exact Rm|lia]|now left]).
    destruct (commit_all H F bc as_u32_vec u32_size new_bc lock bc_witness leaf_hash branch_hash opens words_of feqb S0
      [m] K ltac:(lia) Bm nq next) as (roots & ds & n' & E & L & Er & Fd).
    exists roots, ds, n'. split; [exact E|]. split; [exact L|]. intros t q Ht Hq.
    destruct (nth_error ds t) as [d|] eqn:Ed; [|apply nth_error_None in Ed; lia].
    rewrite Forall_forall in Fd. destruct (one_query [m] K d q HK Bm (Fd _ (nth_error_In _ _ Ed)) Hq) as (p & _ & _ & _ & Eo & V).
    destruct (nth_error xs q) as [x|] eqn:Ex; [|apply nth_error_None in Ex; lia].
    assert (concat (map (row_for K q) (sorted_desc F [m])) = [x]) as Er1.
    { change (row_for K q m ++ [] = [x]). rewrite app_nil_r. unfold row_for, row_of. unfold m. cbn [width values].
      rewrite Lx, Nat.div_1_r, Nat.log2_pow2, Nat.sub_diag, Nat.mul_1_r, Nat.pow_0_r, Nat.div_1_r by lia. clear - Ex. revert q Ex. induction xs as [|y xs IH]; intros [|q] Ex; try discriminate.
      - injection Ex as ->. reflexivity.
      - cbn [skipn]. apply IH. exact Ex. }
    rewrite Er1 in Eo, V. exists p, x. eexists. split; [|split; [reflexivity|split; [rewrite Er, nth_error_map, Ed; reflexivity|exact V]]].
    unfold open_with_one_query. rewrite L, Nat.eqb_refl, Ed. exact Eo.
  Qed.
End TcsMulti.

(** ** A concrete case *)

(** BabyBear elements and Winternitz commitments over a toy HASH160 ([C31_example_setting]): a batch of
    two matrices, three queries, for all tagged hashes. *)
Definition bb_of (z : Z) (E : ((0 <=? z) && (z <? 2013265921))%Z = true) : bb := exist _ z E.
Definition toy (b : bytes) : bytes := 7%Z :: b.
Definition two_mats : list (matrix bb) :=
  [{| width := 1; values := [bb_of 1 eq_refl; bb_of 2 eq_refl; bb_of 3 eq_refl; bb_of 4 eq_refl] |};
   {| width := 1; values := [bb_of 5 eq_refl; bb_of 6 eq_refl] |}].
Example C85_example_batch : batch two_mats 2.
Proof.
  split.
  - apply Forall_cons; [exists 2|apply Forall_cons; [exists 1|apply Forall_nil]]; repeat split; cbn; lia.
  - left. split; cbn; lia.
Qed.
Example C85_example : forall leaf_hash branch_hash,
  exists roots ds next' ps,
    t_commit bb (list bytes) bb_vec 1 w_new (w_lock toy) leaf_hash branch_hash 3 0 two_mats = Some (roots, ds, next') /\
    open_with_query_times bb (list bytes) [3; 0; 3] ds 3 =
      Some (ps, [[bb_of 4 eq_refl; bb_of 6 eq_refl]; [bb_of 1 eq_refl; bb_of 5 eq_refl]; [bb_of 4 eq_refl; bb_of 6 eq_refl]]) /\
    verify_with_query_times toy bb (list bytes) bb_vec (w_witness toy) leaf_hash branch_hash roots ps
      [[bb_of 4 eq_refl; bb_of 6 eq_refl]; [bb_of 1 eq_refl; bb_of 5 eq_refl]; [bb_of 4 eq_refl; bb_of 6 eq_refl]] 3 = Some true /\
    get_max_height bb (list bytes) ds = Some 4.
Proof.
  intros lh bh.
  destruct (C85_round_trip toy bb (list bytes) bb_vec 1 w_new (w_lock toy) (w_witness toy) lh bh (w_opens toy) (@length bytes) bb_eqb
    C31_example_setting two_mats 2 3 0 [3; 0; 3] ltac:(lia) C85_example_batch ltac:(lia) eq_refl
    ltac:(repeat (apply Forall_cons; [cbn; lia|]); apply Forall_nil))
    as (roots & ds & n' & order & ps & vs & E & (P & Ss & _) & Eo & Ev & _ & V & _).
  assert (order = two_mats) as ->.
  { apply Permutation_sym, Permutation_length_2_inv in P as [->| ->]; [reflexivity|].
    exfalso. inversion_clear Ss as [|? ? _ Fl]. inversion_clear Fl as [|? ? Hle _]. cbn in Hle. lia. }
  exists roots, ds, n', ps. split; [exact E|]. rewrite Ev in Eo, V. split; [exact Eo|]. split; [exact V|].
  exact (C85_max_height_committed toy bb (list bytes) bb_vec 1 w_new (w_lock toy) (w_witness toy) lh bh (w_opens toy) (@length bytes) bb_eqb
    C31_example_setting two_mats 2 3 0 roots ds n' ltac:(lia) C85_example_batch ltac:(lia) E).
Qed.
