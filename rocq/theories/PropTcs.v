(** Properties C30, C31, C60 and C61: matrices committed in a tap tree.

    Everything is for arbitrary tagged hashes and for bit commitments that satisfy [bc_contract];
    [C31_contract_winternitz] shows that the Winternitz commitments of this repository do. *)
From Coq Require Import ZArith NArith List Bool Lia Permutation Arith Sorted.
From Verif Require Import ScriptNum ScriptVM VMLemmas U32Model Lift WinternitzModel WinternitzSpec PropSign
  TaptreeModel TaptreeProofs PropTaptree TcsModel TcsProofs TcsProofs2.
Import ListNotations.
Open Scope nat_scope.

(** ** Specification *)

(** Row [i] of a matrix given by its row-major values. *)
Definition row_of {F} (m : matrix F) (i : nat) : list F :=
  firstn (width F m) (skipn (i * width F m) (values F m)).
(** [m] is a matrix of positive width with 2^k rows. *)
Definition has_rows {F} (m : matrix F) (k : nat) : Prop :=
  width F m > 0 /\ length (values F m) = width F m * 2 ^ k.
(** A batch whose tallest matrix has 2^K rows. *)
Definition batch {F} (ms : list (matrix F)) (K : nat) : Prop :=
  Forall (fun m => exists k, has_rows m k /\ k <= K) ms /\ Exists (fun m => has_rows m K) ms.
(** Row of [m] that belongs to leaf [q]: a matrix with 2^k rows contributes row q >> (K - k). *)
Definition row_for {F} (K q : nat) (m : matrix F) : list F :=
  row_of m (q / 2 ^ (K - Nat.log2 (length (values F m) / width F m))).
(** [order] lists the matrices tallest first, keeping the given order among equal heights. *)
Definition nrows {F} (m : matrix F) : nat := length (values F m) / width F m.
Definition tallest_first {F} (ms order : list (matrix F)) : Prop :=
  Permutation order ms /\ StronglySorted (fun a b => nrows b <= nrows a) order /\
  forall h, filter (fun m => nrows m =? h) order = filter (fun m => nrows m =? h) ms.

Lemma has_rows_rect {F} (m : matrix F) k : has_rows m k -> rect F m k.
Proof. exact (fun x => x). Qed.
Lemma row_for_at {F} K q (m : matrix F) k : has_rows m k -> row_at F K q m = row_for K q m.
Proof.
  intros R. unfold row_at, row_for. rewrite (rect_log F m k R).
  destruct R as [W ->]. rewrite Nat.mul_comm, Nat.div_mul by lia. now rewrite Nat.log2_pow2 by lia.
Qed.
Lemma nrows_height {F} (m : matrix F) k : has_rows m k -> nrows m = height F m.
Proof. intros [W L]. unfold nrows, height. destruct (Nat.eqb_spec (width F m) 0); [lia|reflexivity]. Qed.
Lemma height_nrows0 {F} (m : matrix F) : width F m > 0 -> height F m = nrows m.
Proof. intros W. unfold nrows, height. destruct (Nat.eqb_spec (width F m) 0); [lia|reflexivity]. Qed.

Section Tcs.
  Variable H : bytes -> bytes.
  Variables (F bc : Type).
  Variable as_u32_vec : F -> list Z.
  Variable u32_size : nat.
  Variable new_bc : nat -> bool -> bc.
  Variable lock : bc -> script.
  Variable bc_witness : bc -> list Z -> list bytes.
  Variable leaf_hash : script -> hash.
  Variable branch_hash : hash -> hash -> hash.
  Variable opens : bc -> list Z -> list bytes -> list bytes -> Prop.
  Variable words_of : bc -> nat.
  Variable feqb : F -> F -> bool.

  (** What is assumed of the parts outside the model. *)
  Definition setting : Prop :=
    bc_contract H bc new_bc lock bc_witness opens words_of /\ (u32_size = 1 \/ u32_size = 4) /\
    (forall x, length (as_u32_vec x) = u32_size /\ Forall u31 (as_u32_vec x)) /\
    (forall x y, feqb x y = true <-> x = y) /\ (forall x y, as_u32_vec x = as_u32_vec y -> x = y).

  Definition t_commit := commit F bc as_u32_vec u32_size new_bc lock leaf_hash branch_hash.
  Definition t_open := TcsModel.open F bc.
  Definition t_open_batch := open_batch F bc feqb.
  Definition t_verify_batch := verify_batch H F bc as_u32_vec bc_witness leaf_hash branch_hash.

  Hypothesis S0 : setting.

  Lemma tallest_sorted ms K : batch ms K -> tallest_first ms (sorted_desc F ms).
  Proof.
    intros [Fm _]. pose proof (sorted_perm F ms) as P. split; [exact P|].
    assert (forall m, In m ms -> height F m = nrows m) as Hh.
    { intros m Hm. rewrite Forall_forall in Fm. destruct (Fm _ Hm) as (k & [W _] & _). now apply height_nrows0. }
    split.
    - pose proof (sorted_sorted F ms) as D. unfold desc in D.
      assert (forall m, In m (sorted_desc F ms) -> height F m = nrows m) as Hs
        by (intros m Hm; apply Hh; eapply Permutation_in; eassumption).
      clear - D Hs. induction D as [|m l _ IH Fl]; constructor.
      + apply IH. intros x Hx. apply Hs. now right.
      + rewrite Forall_forall in *. intros x Hx. rewrite <- (Hs m (or_introl eq_refl)), <- (Hs x (or_intror Hx)). auto.
    - intros h. pose proof (sorted_stable F h ms) as St.
      assert (forall l : list (matrix F), (forall m, In m l -> height F m = nrows m) ->
        filter (fun m => height F m =? h) l = filter (fun m => nrows m =? h) l) as Fe.
      { induction l as [|x l IH]; intros Hl; [reflexivity|]. cbn. rewrite (Hl x (or_introl eq_refl)), IH
          by (intros; apply Hl; now right). reflexivity. }
      rewrite Fe in St by (intros m Hm; apply Hh; eapply Permutation_in; eassumption).
      rewrite Fe in St by exact Hh. exact St.
  Qed.
  Lemma rows_spec ms K q : batch ms K -> rows F K q ms = concat (map (row_for K q) (sorted_desc F ms)).
  Proof.
    intros [Fm _]. unfold rows. f_equal. apply map_ext_in. intros m Hm.
    apply (Permutation_in _ (sorted_perm F ms)) in Hm. rewrite Forall_forall in Fm.
    destruct (Fm _ Hm) as (k & R & _). eapply row_for_at; eassumption.
  Qed.

  (** commit makes one tree per query *)
  Lemma commit_all ms K : K <= 31 -> batch ms K -> forall nq next,
    exists roots ds next', t_commit nq next ms = Some (roots, ds, next') /\ length ds = nq /\
      roots = map (fun d => node_hash script (root_node script (cd_taptree F bc d))) ds /\
      Forall (fun d => commits F bc as_u32_vec u32_size lock leaf_hash branch_hash words_of d K ms) ds.
  Proof.
    intros HK [Fm Ex]. destruct S0 as (BC & So & Vo & _ & _). unfold t_commit, commit.
    induction nq as [|nq IH]; intros next.
    - cbn. do 3 eexists. repeat split; constructor.
    - cbn [commit_poly_with_query_times].
      destruct (commit_ok H F bc as_u32_vec u32_size new_bc lock bc_witness leaf_hash branch_hash opens words_of BC So Vo
                  ms K next HK Fm Ex) as (d & n1 & -> & C).
      destruct (IH n1) as (roots & ds & n2 & E & L & Er & Fd).
      destruct (commit_poly_with_query_times F bc as_u32_vec u32_size new_bc lock leaf_hash branch_hash n1 ms nq)
        as [[ds' n2']|]; [|discriminate].
      injection E as <- <- <-. do 3 eexists. split; [reflexivity|]. cbn [length map]. repeat split; [lia|now constructor].
  Qed.

  (** ** C30 *)

  (** Committing a batch of matrices with power-of-two heights never panics; opening leaf q of any
      of the trees gives the rows of all matrices that belong to q, tallest matrix first. *)
  Theorem C30_committed_rows : forall ms K nq next, K <= 31 -> batch ms K ->
    exists roots ds next', t_commit nq next ms = Some (roots, ds, next') /\ length ds = nq /\
    exists order, tallest_first ms order /\
      forall d q, In d ds -> q < 2 ^ K ->
        exists p, t_open q d = Some (p, concat (map (row_for K q) order)).
  Proof.
    intros ms K nq next HK Bm. destruct (commit_all ms K HK Bm nq next) as (roots & ds & n' & E & L & Er & Fd).
    exists roots, ds, n'. split; [exact E|]. split; [exact L|]. exists (sorted_desc F ms).
    split; [eapply tallest_sorted; eassumption|].
    intros d q Hd Hq. rewrite Forall_forall in Fd. specialize (Fd _ Hd).
    destruct (open_ok F bc as_u32_vec u32_size lock leaf_hash branch_hash words_of d K ms q (proj1 Bm) (proj2 Bm) Fd Hq)
      as (l & _ & Eo). eexists. unfold t_open. rewrite Eo. now rewrite (rows_spec ms K q Bm).
  Qed.

  Lemma list_eqb_iff a b : list_eqb F feqb a b = true <-> a = b.
  Proof.
    destruct S0 as (_ & _ & _ & Fe & _). revert b. induction a as [|x a IH]; intros [|y b]; cbn; try easy.
    rewrite andb_true_iff, Fe, IH. split; [intros [-> ->]; reflexivity|intros [= -> ->]; auto].
  Qed.
  Lemma opt_all_some {X Y} (f : X -> option Y) (g : X -> Y) l : (forall x, In x l -> f x = Some (g x)) ->
    opt_all (map f l) = Some (map g l).
  Proof.
    induction l as [|x l IH]; intros E; [reflexivity|]. cbn. rewrite (E x (or_introl eq_refl)), IH; [reflexivity|].
    intros y Hy. apply E. now right.
  Qed.
  Lemma max_height_batch ms K : batch ms K -> max_height F ms = 2 ^ K.
  Proof.
    intros [Fm Ex]. unfold max_height.
    assert (forall l a, (forall m, In m l -> height F m <= 2 ^ K) -> a <= 2 ^ K ->
      (a = 2 ^ K \/ Exists (fun m => height F m = 2 ^ K) l) ->
      fold_left (fun a m => Nat.max a (height F m)) l a = 2 ^ K) as G.
    { induction l as [|m l IH]; intros a Hl Ha Hx; cbn.
      - destruct Hx as [->|Hx]; [reflexivity|inversion Hx].
      - pose proof (Hl m (or_introl eq_refl)). apply IH; [intros; apply Hl; now right|lia|].
        destruct Hx as [->|Hx]; [left; lia|]. inversion Hx; subst; [left; lia|right; assumption]. }
    apply G; [|lia|right].
    - intros m Hm. rewrite Forall_forall in Fm. destruct (Fm _ Hm) as (k & R & Hk).
      rewrite (rect_height F m k R). apply Nat.pow_le_mono_r; lia.
    - eapply Exists_impl; [|exact Ex]. intros m R. apply (rect_height F m K R).
  Qed.
  Lemma openings_ok ms K q : batch ms K -> q < 2 ^ K ->
    opt_all (map (fun m => row F m (q / 2 ^ (log2_ceil (max_height F ms) - log2_ceil (height F m)))) ms) =
    Some (map (row_for K q) ms).
  Proof.
    intros Bm Hq. rewrite (max_height_batch ms K Bm).
    replace (log2_ceil (2 ^ K)) with K by (unfold log2_ceil; now rewrite Nat.log2_up_pow2 by lia).
    apply opt_all_some. intros m Hm. destruct Bm as [Fm _]. rewrite Forall_forall in Fm.
    destruct (Fm _ Hm) as (k & R & Hk). rewrite (rect_log F m k R).
    assert (q / 2 ^ (K - k) < 2 ^ k) as Hi.
    { apply Nat.div_lt_upper_bound; [apply Nat.pow_nonzero; lia|]. rewrite Nat.mul_comm, (pow_split) by exact Hk. exact Hq. }
    unfold row. rewrite (proj2 (Nat.leb_le _ _)) by (destruct R as [W ->]; nia).
    f_equal. rewrite <- (row_for_at K q m k R). unfold row_at, mrow. now rewrite (rect_log F m k R).
  Qed.

  (** open_batch returns the rows of the queried leaf in the order of the input, and its internal
      check passes exactly when the flattened rows are the same tallest-first. *)
  Lemma open_batch_iff ms K nq ds qt q : batch ms K -> q < 2 ^ K -> length ds = nq -> qt < nq ->
    Forall (fun d => commits F bc as_u32_vec u32_size lock leaf_hash branch_hash words_of d K ms) ds ->
    exists d l, nth_error ds qt = Some d /\ get_tapleaf script (cd_taptree F bc d) q = Some (Some l) /\
      t_open_batch nq qt q ds =
      if list_eqb F feqb (concat (map (row_for K q) ms)) (concat (map (row_for K q) (sorted_desc F ms)))
      then Some (map (row_for K q) ms, {| cp_leaf := l; cp_bcs := cd_bcs F bc d; cp_query_index := q |}) else None.
  Proof.
    intros Bm Hq L Hqt Fd. unfold t_open_batch, open_batch.
    destruct ds as [|d0 ds0] eqn:Eds; [cbn in L; lia|]. rewrite <- Eds in *.
    assert (commits F bc as_u32_vec u32_size lock leaf_hash branch_hash words_of d0 K ms) as C0
      by (rewrite Forall_forall in Fd; apply Fd; rewrite Eds; now left).
    rewrite (proj1 C0), (openings_ok ms K q Bm Hq), L, Nat.eqb_refl.
    destruct (nth_error ds qt) as [d|] eqn:Ed; [|apply nth_error_None in Ed; lia].
    assert (commits F bc as_u32_vec u32_size lock leaf_hash branch_hash words_of d K ms) as C
      by (rewrite Forall_forall in Fd; apply Fd; eapply nth_error_In; eassumption).
    destruct (open_ok F bc as_u32_vec u32_size lock leaf_hash branch_hash words_of d K ms q (proj1 Bm) (proj2 Bm) C Hq)
      as (l & Gl & Eo). exists d, l. split; [reflexivity|]. split; [exact Gl|].
    rewrite Eo, (rows_spec ms K q Bm). reflexivity.
  Qed.

  Theorem C30_open_batch : forall ms K nq next qt q, K <= 31 -> batch ms K ->
    StronglySorted (fun a b => nrows b <= nrows a) ms -> q < 2 ^ K -> qt < nq ->
    exists roots ds next' p, t_commit nq next ms = Some (roots, ds, next') /\
      t_open_batch nq qt q ds = Some (map (row_for K q) ms, p).
  Proof.
    intros ms K nq next qt q HK Bm Ds Hq Hqt.
    destruct (commit_all ms K HK Bm nq next) as (roots & ds & n' & E & L & Er & Fd).
    destruct (open_batch_iff ms K nq ds qt q Bm Hq L Hqt Fd) as (d & l & Ed & Gl & Eo).
    exists roots, ds, n'. eexists. split; [exact E|]. rewrite Eo.
    assert (sorted_desc F ms = ms) as ->.
    { apply sorted_id. unfold desc. destruct Bm as [Fm _].
      clear - Ds Fm. induction Ds as [|m ll _ IH Fl]; constructor; inversion_clear Fm as [|? ? (k & R & _) Fm']; [auto|].
      rewrite Forall_forall in *. intros z Hx. destruct (Fm' _ Hx) as (k' & R' & _).
      rewrite <- (nrows_height _ _ R), <- (nrows_height _ _ R'). auto. }
    rewrite (proj2 (list_eqb_iff _ _) eq_refl). reflexivity.
  Qed.
  (** In general open_batch panics exactly when the two orders give different rows (finding). *)
  Theorem C30_open_batch_panics : forall ms K nq next qt q, K <= 31 -> batch ms K -> q < 2 ^ K -> qt < nq ->
    exists roots ds next' order, t_commit nq next ms = Some (roots, ds, next') /\ tallest_first ms order /\
      (t_open_batch nq qt q ds = None <-> concat (map (row_for K q) ms) <> concat (map (row_for K q) order)).
  Proof.
    intros ms K nq next qt q HK Bm Hq Hqt.
    destruct (commit_all ms K HK Bm nq next) as (roots & ds & n' & E & L & Er & Fd).
    destruct (open_batch_iff ms K nq ds qt q Bm Hq L Hqt Fd) as (d & l & Ed & Gl & Eo).
    exists roots, ds, n', (sorted_desc F ms). split; [exact E|]. split; [eapply tallest_sorted; eassumption|].
    rewrite Eo. destruct (list_eqb F feqb _ _) eqn:El.
    - apply list_eqb_iff in El. split; [discriminate|]. intros Ne. destruct (Ne El).
    - split; [|reflexivity]. intros _ Q. apply list_eqb_iff in Q. congruence.
  Qed.

  (** ** C31 *)
  Lemma sorted_width ms K q : batch ms K -> q < 2 ^ K ->
    length (concat (map (row_for K q) (sorted_desc F ms))) = total_width F ms.
  Proof.
    intros Bm Hq. rewrite <- (rows_spec ms K q Bm). unfold rows. rewrite (rows_len F K q _ Hq).
    - apply total_width_perm, sorted_perm.
    - eapply Permutation_Forall; [symmetry; apply sorted_perm|]. apply (proj1 Bm).
  Qed.

  (** Whatever open_batch returns is accepted (the commitment has at least two leaves). *)
  Theorem C31_opened_accepted : forall ms K nq next roots ds next' qt q openings p,
    0 < K <= 30 -> batch ms K -> q < 2 ^ K -> qt < nq ->
    t_commit nq next ms = Some (roots, ds, next') ->
    t_open_batch nq qt q ds = Some (openings, p) ->
    t_verify_batch qt openings p roots = Some true.
  Proof.
    intros ms K nq next roots ds next' qt q openings p HK Bm Hq Hqt E Eb.
    destruct (commit_all ms K ltac:(lia) Bm nq next) as (roots' & ds' & n' & E' & L & Er & Fd).
    assert (roots' = roots /\ ds' = ds) as [-> ->] by (split; congruence).
    destruct (open_batch_iff ms K nq ds qt q Bm Hq L Hqt Fd) as (d & l & Ed & Gl & Eo).
    rewrite Eo in Eb. destruct (list_eqb F feqb _ _) eqn:El; [|discriminate]. apply list_eqb_iff in El.
    injection Eb as <- <-.
    unfold t_verify_batch, verify_batch. rewrite Er, nth_error_map, Ed. cbn [option_map].
    assert (commits F bc as_u32_vec u32_size lock leaf_hash branch_hash words_of d K ms) as C
      by (rewrite Forall_forall in Fd; apply Fd; eapply nth_error_In; eassumption).
    destruct S0 as (BC & So & Vo & _ & _).
    pose proof (sorted_width ms K q Bm Hq) as Lw. rewrite <- El in Lw.
    destruct (verify_iff H F bc as_u32_vec u32_size new_bc lock bc_witness leaf_hash branch_hash opens words_of BC So Vo
      d K ms q q l (concat (map (row_for K q) ms)) ltac:(lia) ltac:(lia) (proj1 Bm) C Hq) as (b & Ev & Ib).
    - assert (forall n, Z.of_nat (2 ^ n) = (2 ^ Z.of_nat n)%Z) as P
        by (intros n; induction n; [reflexivity|]; rewrite Nat.pow_succ_r', Nat2Z.inj_mul, IHn, (Nat2Z.inj_succ n), Z.pow_succ_r by lia; reflexivity).
      apply Z.lt_le_trans with (Z.of_nat (2 ^ K)); [lia|]. rewrite P. apply Z.pow_le_mono_r; lia.
    - exact Gl.
    - lia.
    - rewrite Ev. f_equal. apply Ib. split; [reflexivity|].
      rewrite <- Lw, firstn_all, (rows_spec ms K q Bm). now rewrite El.
  Qed.

  (** Finding: for every pair of indices whose rows differ, the verifier accepts, for the same
      commitment, an opening that is not the row of the queried index q. *)
  Theorem C31_index_unchecked : forall ms K nq next qt q q',
    0 < K <= 30 -> batch ms K -> StronglySorted (fun a b => nrows b <= nrows a) ms ->
    q < 2 ^ K -> q' < 2 ^ K -> qt < nq ->
    map (row_for K q) ms <> map (row_for K q') ms ->
    exists roots ds next' openings p, t_commit nq next ms = Some (roots, ds, next') /\
      t_verify_batch qt openings p roots = Some true /\
      forall p0, t_open_batch nq qt q ds <> Some (openings, p0).
  Proof.
    intros ms K nq next qt q q' HK Bm Ds Hq Hq' Hqt Ne.
    destruct (C30_open_batch ms K nq next qt q' ltac:(lia) Bm Ds Hq' Hqt) as (roots & ds & n' & p & E & Eo').
    destruct (C30_open_batch ms K nq next qt q ltac:(lia) Bm Ds Hq Hqt) as (roots1 & ds1 & n1 & p1 & E1 & Eo1).
    assert (ds1 = ds) as -> by congruence.
    exists roots, ds, n', (map (row_for K q') ms), p. split; [exact E|]. split.
    - eapply (C31_opened_accepted ms K nq next roots ds n' qt q'); eassumption.
    - intros p0 Q. rewrite Eo1 in Q. congruence.
  Qed.

  (** ** C60 *)
  Lemma script_dec (s s' : script) : {s = s'} + {s <> s'}.
  Proof. repeat decide equality. Qed.

  (** An accepted opening that uses the committed bit commitments starts with the rows of the leaf
      its proof names, unless an input hashed for the opened leaf collides with one hashed for a leaf of
      the tree. *)
  Theorem C60_accepted_is_committed : forall ms K nq next roots ds next' qt d openings p,
    0 < K <= 30 -> batch ms K -> t_commit nq next ms = Some (roots, ds, next') ->
    nth_error ds qt = Some d -> cp_bcs bc p = cd_bcs F bc d -> (Z.of_nat (cp_query_index bc p) < 2 ^ 31)%Z ->
    t_verify_batch qt openings p roots = Some true ->
    (exists order, tallest_first ms order /\ cp_query_index bc p < 2 ^ K /\
       exists extra, concat openings = concat (map (row_for K (cp_query_index bc p)) order) ++ extra) \/
    tree_collision script leaf_hash branch_hash (cd_taptree F bc d) (cp_leaf bc p).
  Proof.
    intros ms K nq next roots ds next' qt d openings p HK Bm E Ed Ebc Hqz V.
    destruct (commit_all ms K ltac:(lia) Bm nq next) as (roots' & ds' & n' & E' & L & Er & Fd).
    assert (roots' = roots /\ ds' = ds) as [-> ->] by (split; congruence).
    assert (commits F bc as_u32_vec u32_size lock leaf_hash branch_hash words_of d K ms) as C
      by (rewrite Forall_forall in Fd; apply Fd; eapply nth_error_In; eassumption).
    unfold t_verify_batch, verify_batch in V. rewrite Er, nth_error_map, Ed in V. cbn [option_map] in V.
    destruct p as [l u qi]. cbn [cp_bcs cp_query_index] in *. subst u.
    pose proof C as (_ & G & Lu & scripts & M & Ls & _).
    pose proof V as V0. unfold verify in V0. cbn [cp_leaf cp_bcs cp_query_index] in V0.
    unfold generate_witness in V0. cbn [cl_bcs cl_evaluations cl_index] in V0.
    destruct (bc_values F bc as_u32_vec (evaluations_bc bc (cd_bcs F bc d)) (concat openings)) as [bvs|] eqn:Eb; [|discriminate].
    destruct S0 as (BC & So & Vo & _ & Inj).
    apply (bc_values_inv F bc as_u32_vec u32_size So Vo) in Eb as (_ & Lo & _). rewrite Lu in Lo.
    unfold verify_proof in V0.
    destruct (verify_inclusion script leaf_hash branch_hash _ l) as [i|] eqn:Ei; [|discriminate].
    cbn [option_map] in V0. destruct i; [|discriminate]. clear V0.
    destruct (C29_binding script leaf_hash branch_hash _ scripts l script_dec M Ei) as [(q & Hq & Gl)|Hc]; [|right; exact Hc].
    left. rewrite Ls in Hq.
    destruct (verify_iff H F bc as_u32_vec u32_size new_bc lock bc_witness leaf_hash branch_hash opens words_of BC So Vo
      d K ms q qi l (concat openings) ltac:(lia) ltac:(lia) (proj1 Bm) C Hq Hqz Gl Lo) as (b & Ev & Ib).
    rewrite Ev in V. injection V as ->. destruct Ib as [Ib _]. destruct (Ib eq_refl) as [<- Em].
    exists (sorted_desc F ms). split; [eapply tallest_sorted; eassumption|]. split; [exact Hq|].
    exists (skipn (total_width F ms) (concat openings)).
    rewrite <- (rows_spec ms K q Bm).
    assert (rows F K q ms = firstn (total_width F ms) (concat openings)) as ->; [|symmetry; apply firstn_skipn].
    revert Em. generalize (firstn (total_width F ms) (concat openings)). generalize (rows F K q ms).
    induction l0 as [|x a IH]; intros [|y b] Em; try discriminate; [reflexivity|].
    cbn in Em. injection Em as E1 E2. apply Inj in E1. subst. f_equal. now apply IH.
  Qed.

  (** ** C61 *)

  (** Finding: values beyond the committed width and the boundaries between the opened rows are not
      checked. *)
  Lemma bc_values_extra bcs : forall ys extra, length bcs <= length ys ->
    bc_values F bc as_u32_vec bcs (ys ++ extra) = bc_values F bc as_u32_vec bcs ys.
  Proof.
    induction bcs as [|b bcs IH]; intros [|y ys] extra L; cbn in L |- *; try lia; [reflexivity..|].
    now rewrite IH by lia.
  Qed.
  Theorem C61_extra_values : forall qt openings openings' extra p roots,
    length (evaluations_bc bc (cp_bcs bc p)) <= length (concat openings) ->
    concat openings' = concat openings ++ extra ->
    t_verify_batch qt openings' p roots = t_verify_batch qt openings p roots.
  Proof.
    intros qt openings openings' extra p roots L E. unfold t_verify_batch, verify_batch, verify, generate_witness.
    cbn [cl_bcs cl_evaluations cl_index]. rewrite E, bc_values_extra by exact L. reflexivity.
  Qed.
End Tcs.


(** ** The contract is met by the Winternitz commitments of this repository. *)
Lemma check_and_recover_closed H cs m a m' a' c :
  brun H (check_and_recover H cs) (mk m a []) = Some (mk m' a' c) -> c = [].
Proof.
  intros E. unfold check_and_recover in E. rewrite brun_app in E.
  destruct (brun H (recover_message_at_altstack H cs) (mk m a [])) as [[m1 a1 c1]|] eqn:E1; [|discriminate].
  assert (c1 = []) as ->.
  { clear E. revert m a E1. induction cs as [|x cs IH]; intros m a E1.
    - unfold brun in E1. cbn in E1. congruence.
    - unfold recover_message_at_altstack in E1. cbn [flat_map] in E1.
      fold (recover_message_at_altstack H cs) in E1. rewrite <- app_assoc, brun_app in E1.
      destruct (brun H (recover_message_at_stack H x) _) as [[m2 a2 c2]|] eqn:Fx; [|discriminate].
      change (recover_message_at_stack H x) with (recover_message_at_stack H (bc_new (bc_secret x) 0%Z)) in Fx.
      pose proof (recover_closed _ _ _ _ _ _ _ _ Fx) as ->.
      apply C12_recover_iff in Fx as (_ & w & rest & W & -> & _).
      rewrite brun_app in E1. unfold brun at 1 in E1. cbn in E1. exact (IH _ _ E1). }
  unfold message_from_altstack in E. clear E1. revert m1 a1 E. clear.
  induction (length cs) as [|n IH]; intros m1 a1 E.
  - unfold brun in E. cbn in E. congruence.
  - cbn [repeat_script] in E. rewrite brun_app in E. unfold brun at 1 in E. cbn in E.
    destruct a1 as [|x a1]; [discriminate|]. exact (IH _ _ E).
Qed.

(** A commitment is a list of secrets, one per word; the secret of the last word signs on top. *)
Definition w_lock (H : bytes -> bytes) (b : list bytes) : script :=
  check_and_recover H (bcs_new (rev b) (repeat 0%Z (length b))).
Definition w_witness (H : bytes -> bytes) (b : list bytes) (vs : list Z) : list bytes :=
  match bcs_signature H (bcs_new (rev b) (rev vs)) with Some s => s | None => [] end.
Definition w_opens (H : bytes -> bytes) (b : list bytes) (vs : list Z) (m rest : list bytes) : Prop :=
  exists ws, valid_sigs H (rev b) ws m rest /\ vs = rev (map smag ws).
Definition w_new (n : nat) (wide : bool) : list bytes :=
  map (fun i => [Z.of_nat n; Z.of_nat i]) (seq 0 (if wide then 4 else 1)).

Lemma secrets_of : forall sks vs, length vs = length sks -> map bc_secret (bcs_new sks vs) = sks.
Proof.
  induction sks as [|sk sks IH]; intros [|v vs] L; try discriminate L; [reflexivity|].
  unfold bcs_new. cbn [List.combine map bc_secret bc_new fst snd]. f_equal. apply IH. cbn in L. congruence.
Qed.
Theorem C31_contract_winternitz : forall H, (forall x, H x <> [0%Z]) ->
  bc_contract H (list bytes) w_new (w_lock H) (w_witness H) (w_opens H) (@length bytes).
Proof.
  intros H NZ. constructor.
  - intros b m a s. unfold w_lock.
    assert (map bc_secret (bcs_new (rev b) (repeat 0%Z (length b))) = rev b) as Sb
      by (apply secrets_of; rewrite repeat_length, rev_length; reflexivity).
    split.
    + intros E. destruct s as [m' a' c]. pose proof (check_and_recover_closed _ _ _ _ _ _ _ E) as ->.
      apply C12_vector_iff in E as (-> & ws & rest & -> & Vs). rewrite Sb in Vs.
      exists (rev (map smag ws)), rest. split; [exists ws; auto|]. now rewrite rev_involutive.
    + intros (vs & rest & (ws & Vs & ->) & ->). rewrite rev_involutive.
      apply C12_vector_iff. split; [reflexivity|]. exists ws, rest. rewrite Sb. auto.
  - intros b vs m rest (ws & Vs & ->). apply valid_sigs_len in Vs.
    rewrite rev_length, map_length, Vs, rev_length. reflexivity.
  - intros b vs rest L Fv.
    assert (Forall is_u32 (rev vs)) as Fu.
    { apply Forall_rev. eapply Forall_impl; [|exact Fv]. unfold u31, is_u32. intros z Hz.
      change (2 ^ 31)%Z with 2147483648%Z in Hz. change (2 ^ 32)%Z with 4294967296%Z. lia. }
    destruct (C12_vector_honest H (rev b) (rev vs) rest [] NZ ltac:(rewrite !rev_length; auto) Fu) as (sig & Es & E).
    unfold w_witness. rewrite Es. apply C12_vector_iff in E as (_ & ws & rest' & Em & Vs).
    rewrite secrets_of in Vs by (rewrite !rev_length; auto).
    pose proof (valid_sigs_len _ _ _ _ _ Vs) as Lw.
    apply (nums_app_inj 1 (fun a _ => a) (or_introl eq_refl)) in Em as [Em ->]; [|rewrite !map_length, Lw, !rev_length; auto].
    exists ws. split; [exact Vs|]. rewrite <- Em.
    assert (map smag (rev vs) = rev vs) as ->; [|symmetry; apply rev_involutive].
    clear - Fv. rewrite <- (map_id (rev vs)) at 2. apply map_ext_in. intros z Hz. apply in_rev in Hz.
    rewrite Forall_forall in Fv. specialize (Fv _ Hz). unfold u31, smag in *.
    destruct (Z.ltb_spec z (2 ^ 31)); [reflexivity|lia].
  - reflexivity.
  - reflexivity.
Qed.

(** ** Concrete batches *)
Definition mat (w : nat) (l : list Z) : matrix Z := {| width := w; values := l |}.
Example C30_example : batch [mat 2 [1; 2; 3; 4; 5; 6; 7; 8]%Z; mat 1 [9; 10]%Z] 2 /\
  StronglySorted (fun a b => nrows b <= nrows a) [mat 2 [1; 2; 3; 4; 5; 6; 7; 8]%Z; mat 1 [9; 10]%Z] /\
  map (row_for 2 3) [mat 2 [1; 2; 3; 4; 5; 6; 7; 8]%Z; mat 1 [9; 10]%Z] = [[7; 8]; [10]]%Z.
Proof.
  split; [split|split].
  - repeat constructor; [exists 2|exists 1]; repeat split; cbn; lia.
  - left. split; cbn; lia.
  - repeat constructor.
  - reflexivity.
Qed.

(** Finding: two matrices listed shortest first can be committed but never opened. *)
Theorem C30_shortest_first_refuted : forall H F bc as_u32_vec u32_size new_bc lock bc_witness leaf_hash branch_hash
    opens words_of feqb (x y : F) nq next qt q,
  setting H F bc as_u32_vec u32_size new_bc lock bc_witness opens words_of feqb -> x <> y -> qt < nq -> q < 4 ->
  let ms := [{| width := 1; values := [x; x] |}; {| width := 1; values := [y; y; y; y] |}] in
  batch ms 2 /\ exists roots ds next',
    t_commit F bc as_u32_vec u32_size new_bc lock leaf_hash branch_hash nq next ms = Some (roots, ds, next') /\
    t_open_batch F bc feqb nq qt q ds = None.
Proof.
  intros H F bc v sz nb lk bw lh bh ops wo fe x y nq next qt q St Ne Hqt Hq ms.
  assert (batch ms 2) as Bm.
  { split.
    - repeat constructor; [exists 1|exists 2]; repeat split; cbn; lia.
    - right. left. split; cbn; lia. }
  split; [exact Bm|].
  destruct (C30_open_batch_panics H F bc v sz nb lk bw lh bh ops wo fe St ms 2 nq next qt q ltac:(lia) Bm Hq Hqt)
    as (roots & ds & n' & order & E & (Pm & Ss & _) & Iff).
  exists roots, ds, n'. split; [exact E|]. apply Iff.
  assert (order = [{| width := 1; values := [y; y; y; y] |}; {| width := 1; values := [x; x] |}]) as ->.
  { apply Permutation_sym, Permutation_length_2_inv in Pm as [-> | ->]; [|reflexivity].
    exfalso. inversion_clear Ss as [|? ? _ Fl]. inversion_clear Fl as [|? ? Hle _]. cbn in Hle. lia. }
  assert (q = 0 \/ q = 1 \/ q = 2 \/ q = 3) as [-> |[-> |[-> | ->]]] by lia; cbn; congruence.
Qed.

(** BabyBear elements, a toy HASH160 that never returns [0], and toy tagged hashes meet [setting]. *)
Definition bb := {z : Z | ((0 <=? z) && (z <? 2013265921))%Z = true}.
Definition bb_vec (x : bb) : list Z := [proj1_sig x].
Definition bb_eqb (x y : bb) : bool := (proj1_sig x =? proj1_sig y)%Z.
Lemma bb_ext (x y : bb) : proj1_sig x = proj1_sig y -> x = y.
Proof.
  destruct x as [x Hx], y as [y Hy]. cbn. intros ->. f_equal. apply Eqdep_dec.UIP_dec, bool_dec.
Qed.
Example C31_example_setting : setting (fun b => 7%Z :: b) bb (list bytes) bb_vec 1 w_new
  (w_lock (fun b => 7%Z :: b)) (w_witness (fun b => 7%Z :: b)) (w_opens (fun b => 7%Z :: b)) (@length bytes) bb_eqb.
Proof.
  split; [apply C31_contract_winternitz; discriminate|]. split; [left; reflexivity|].
  split; [|split].
  - intros [x Hx]. split; [reflexivity|]. repeat constructor; cbn; apply andb_true_iff in Hx as [H1 H2]; lia.
  - intros x y. unfold bb_eqb. rewrite Z.eqb_eq. split; [apply bb_ext|congruence].
  - intros x y [= E]. now apply bb_ext.
Qed.
Definition bb1 : bb := exist _ 1%Z eq_refl.
Definition bb2 : bb := exist _ 2%Z eq_refl.
(** Two different committed rows of one matrix: the premises of C31_index_unchecked. *)
Example C31_example : let m := {| width := 1; values := [bb1; bb2] |} in
  batch [m] 1 /\ StronglySorted (fun a b => nrows b <= nrows a) [m] /\ map (row_for 1 0) [m] <> map (row_for 1 1) [m].
Proof.
  cbn zeta. split; [split|split].
  - repeat constructor. exists 1. repeat split; cbn; lia.
  - left. split; cbn; lia.
  - repeat constructor.
  - cbn. unfold bb1, bb2. intros [= E].
Qed.
(** ... and the opening it yields can be extended by any value (C61). *)
Example C60_example : exists roots ds next' openings p,
  t_commit bb (list bytes) bb_vec 1 w_new (w_lock (fun b => 7%Z :: b)) (fun _ => 0%Z) (fun a b => (a + b + 1)%Z)
    1 0 [{| width := 1; values := [bb1; bb2] |}] = Some (roots, ds, next') /\
  t_open_batch bb (list bytes) bb_eqb 1 0 1 ds = Some (openings, p) /\
  openings = [[bb2]] /\
  t_verify_batch (fun b => 7%Z :: b) bb (list bytes) bb_vec (w_witness (fun b => 7%Z :: b)) (fun _ => 0%Z)
    (fun a b => (a + b + 1)%Z) 0 openings p roots = Some true.
Proof.
  destruct C31_example as (Bm & Ss & _).
  destruct (C30_open_batch _ _ _ _ _ _ _ _ (fun _ => 0%Z) (fun a b => (a + b + 1)%Z) _ _ _ C31_example_setting
    _ 1 1 0 0 1 ltac:(lia) Bm Ss ltac:(cbn; lia) ltac:(lia)) as (roots & ds & n' & p & E & Eo).
  exists roots, ds, n'. do 2 eexists. split; [exact E|]. split; [exact Eo|]. split; [reflexivity|].
  eapply (C31_opened_accepted _ _ _ _ _ _ _ _ _ _ _ _ _ C31_example_setting _ 1 1 0 _ _ _ 0 1 _ _); try eassumption; cbn; lia.
Qed.
(** Finding: an opening with a value that was never committed is accepted. *)
Theorem C61_uncommitted_value_refuted : exists roots ds next' p,
  t_commit bb (list bytes) bb_vec 1 w_new (w_lock (fun b => 7%Z :: b)) (fun _ => 0%Z) (fun a b => (a + b + 1)%Z)
    1 0 [{| width := 1; values := [bb1; bb2] |}] = Some (roots, ds, next') /\
  forall extra, t_verify_batch (fun b => 7%Z :: b) bb (list bytes) bb_vec (w_witness (fun b => 7%Z :: b)) (fun _ => 0%Z)
    (fun a b => (a + b + 1)%Z) 0 ([bb2] :: extra) p roots = Some true.
Proof.
  destruct C31_example as (Bm & Ss & _).
  destruct (commit_all _ _ _ _ _ _ _ _ (fun _ => 0%Z) (fun a b => (a + b + 1)%Z) _ _ _ C31_example_setting
    _ 1 ltac:(lia) Bm 1 0) as (roots & ds & n' & E & L & Er & Fd).
  destruct (open_batch_iff _ _ _ _ _ _ _ _ bb_eqb _ 1 1 ds 0 1 Bm ltac:(cbn; lia) L ltac:(lia) Fd) as (d & l & Ed & Gl & Eo).
  destruct C60_example as (roots1 & ds1 & n1 & openings & p & E1 & Eo1 & -> & V).
  assert (roots1 = roots /\ ds1 = ds) as [-> ->] by (split; congruence).
  exists roots, ds, n', p. split; [exact E|]. intros extra.
  assert (p = {| cp_leaf := l; cp_bcs := cd_bcs _ _ d; cp_query_index := 1 |}) as Ep.
  { rewrite Eo in Eo1. destruct (list_eqb _ _ _ _); [congruence|discriminate]. }
  assert (Lb : length (evaluations_bc (list bytes) (cp_bcs (list bytes) p)) = 1).
  { rewrite Ep. cbn [cp_bcs]. rewrite Forall_forall in Fd. apply nth_error_In in Ed. apply Fd in Ed as (_ & _ & Lw & _).
    exact Lw. }
  rewrite <- V. eapply (C61_extra_values _ _ _ _ _ _ _ 0 [[bb2]] ([bb2] :: extra) (concat extra)).
  - rewrite Lb. cbn. lia.
  - reflexivity.
Qed.

(** ** C69: no bit commitment is used twice *)
Section C69.
  Variables (F bc : Type) (as_u32_vec : F -> list Z) (u32_size : nat) (new_bc : nat -> bool -> bc) (lock : bc -> script).
  Variables (leaf_hash : script -> hash) (branch_hash : hash -> hash -> hash).
  (** The commitments of one tree: one for the index, one per column. *)
  Definition used (d : commited_data F bc) : list bc := index_bc bc (cd_bcs F bc d) :: evaluations_bc bc (cd_bcs F bc d).
  Notation commits := (t_commit F bc as_u32_vec u32_size new_bc lock leaf_hash branch_hash).
  Lemma used_from total : forall next ms ds next',
    commit_poly_with_query_times F bc as_u32_vec u32_size new_bc lock leaf_hash branch_hash next ms total = Some (ds, next') ->
    next <= next' /\ exists wides, length wides = next' - next /\
      flat_map used ds = map (fun iw => new_bc (fst iw) (snd iw)) (List.combine (seq next (next' - next)) wides).
  Proof.
    induction total as [|total IH]; intros next ms ds next' C; cbn [commit_poly_with_query_times] in C.
    - injection C as <- <-. split; [lia|]. exists []. rewrite Nat.sub_diag. split; reflexivity.
    - destruct (commit_polys F bc as_u32_vec u32_size new_bc lock leaf_hash branch_hash next ms) as [[d n1]|] eqn:C1; [|discriminate].
      destruct (commit_poly_with_query_times F bc as_u32_vec u32_size new_bc lock leaf_hash branch_hash n1 ms total) as [[ds1 n2]|] eqn:C2; [|discriminate].
      injection C as <- <-. destruct (IH _ _ _ _ C2) as (L1 & wides & Lw & Ew).
      unfold commit_polys in C1. destruct (negb _); [discriminate|]. destruct (padding_matrix F ms) as [[|y ys]|]; try discriminate.
      destruct (leaf_scripts _ _ _ _ _ _ _) as [scripts|]; [|discriminate]. destruct (new_with_scripts _ _ _ _) as [t|]; [|discriminate].
      injection C1 as <- <-. split; [lia|]. exists (false :: repeat (u32_size =? 4) (length y) ++ wides).
      split; [cbn [length]; rewrite app_length, repeat_length, Lw; lia|]. cbn [flat_map]. rewrite Ew.
      replace (n2 - next) with (S (length y + (n2 - (next + 1 + length y)))) by lia. cbn [seq List.combine map fst snd].
      unfold used at 1. cbn [cd_bcs index_bc evaluations_bc app]. f_equal. rewrite seq_app.
      replace (S next + length y) with (next + 1 + length y) by lia.
      assert (forall A B (a a' : list A) (b b' : list B), length a = length b -> List.combine (a ++ a') (b ++ b') = List.combine a b ++ List.combine a' b') as Ca.
      { clear. induction a as [|x a IHa]; intros a' [|z b] b' L; try discriminate; [reflexivity|]. cbn. f_equal. apply IHa. now injection L. }
      rewrite Ca by now rewrite seq_length, repeat_length. rewrite map_app. f_equal.
      replace (next + 1) with (S next) by lia. generalize (S next) as b. generalize (length y) as c. clear.
      induction c as [|c IH]; intros b; [reflexivity|]. cbn [seq map repeat List.combine fst snd]. f_equal; [f_equal; lia|].
      rewrite <- (IH (S b)). rewrite <- seq_shift, map_map. apply map_ext. intros i. f_equal. lia.
  Qed.
  (** commit hands out the commitments number next, next + 1, ..., next' - 1, each exactly once. *)
  Theorem C69_consecutive : forall nq next ms roots ds next', commits nq next ms = Some (roots, ds, next') ->
    next <= next' /\ exists wides, length wides = next' - next /\
      flat_map used ds = map (fun iw => new_bc (fst iw) (snd iw)) (List.combine (seq next (next' - next)) wides).
  Proof.
    intros nq next ms roots ds next' C. unfold t_commit, commit in C.
    destruct (commit_poly_with_query_times F bc as_u32_vec u32_size new_bc lock leaf_hash branch_hash next ms nq) as [[ds0 n0]|] eqn:C0; [|discriminate].
    injection C as _ <- <-. exact (used_from nq next ms ds0 n0 C0).
  Qed.
  Lemma numbered_nodup (inj : forall i j b b', new_bc i b = new_bc j b' -> i = j) : forall c b wides,
    NoDup (map (fun iw => new_bc (fst iw) (snd iw)) (List.combine (seq b c) wides)) /\
    forall x, In x (map (fun iw => new_bc (fst iw) (snd iw)) (List.combine (seq b c) wides)) -> exists i w, b <= i < b + c /\ x = new_bc i w.
  Proof.
    induction c as [|c IH]; intros b wides; [split; [constructor|contradiction]|]. cbn [seq]. destruct wides as [|w wides]; [split; [constructor|contradiction]|].
    cbn [List.combine map fst snd]. destruct (IH (S b) wides) as [N I]. split.
    - constructor; [|exact N]. intros X. destruct (I _ X) as (i & w' & Hi & Ei). apply inj in Ei. lia.
    - intros x [<-|X]; [exists b, w; split; [lia|reflexivity]|]. destruct (I _ X) as (i & w' & Hi & Ei). exists i, w'. split; [lia|exact Ei].
  Qed.
  (** If the manager never hands out the same commitment twice, no commitment occurs in two places:
      not in two trees of a query, not in two queries, not in two commitments made one after the other. *)
  Theorem C69_distinct : forall nq nq' next ms ms' roots ds next1 roots' ds' next2,
    (forall i j b b', new_bc i b = new_bc j b' -> i = j) ->
    commits nq next ms = Some (roots, ds, next1) -> commits nq' next1 ms' = Some (roots', ds', next2) ->
    NoDup (flat_map used (ds ++ ds')).
  Proof.
    intros nq nq' next ms ms' roots ds next1 roots' ds' next2 inj C1 C2.
    destruct (C69_consecutive _ _ _ _ _ _ C1) as (L1 & w1 & _ & E1). destruct (C69_consecutive _ _ _ _ _ _ C2) as (L2 & w2 & _ & E2).
    rewrite flat_map_app, E1, E2. destruct (numbered_nodup inj (next1 - next) next w1) as [N1 I1]. destruct (numbered_nodup inj (next2 - next1) next1 w2) as [N2 I2].
    clear - N1 I1 N2 I2 inj. revert N1 I1. match goal with |- NoDup ?a -> _ => generalize a end. intros l0 N1 I1.
    induction N1 as [|x l Nx N1 IH]; [exact N2|]. cbn [app]. constructor.
    - intros X. apply in_app_or in X as [X|X]; [contradiction|]. destruct (I1 x (or_introl eq_refl)) as (i & w & Hi & Ei). destruct (I2 x X) as (j & w' & Hj & Ej).
      rewrite Ei in Ej. apply inj in Ej. lia.
    - apply IH. intros y Hy. apply I1. now right.
  Qed.
End C69.
(** Two trees over two columns use the commitments 5, 6, 7 and 8, 9, 10. *)
Example C69_example : option_map (fun r => (flat_map (used Z nat) (snd (fst r)), snd r))
  (t_commit Z nat (fun x => [x]) 1 (fun i _ => i) (fun _ => []) (fun s => Z.of_nat (length s)) Z.add 2 5 [mat 2 [1; 2; 3; 4]%Z])
  = Some ([5; 6; 7; 8; 9; 10], 11).
Proof. reflexivity. Qed.
