(** Proofs about the commitment scheme: padding, commitment, opening and verification. *)
From Coq Require Import ZArith NArith List Bool Lia Permutation Arith Sorted.
From Verif Require Import ScriptNum ScriptVM VMLemmas U32Model Lift TaptreeModel TaptreeProofs TcsModel.
Import ListNotations.
Open Scope nat_scope.

Section Pad.
  Variable F : Type.
  Notation matrix := (matrix F).
  Notation width := (width F).
  Notation values := (values F).
  Notation height := (height F).
  Notation push_at := (push_at F).
  Notation push_all_values := (push_all_values F).
  Notation push_matrices := (push_matrices F).
  Notation pad_levels := (pad_levels F).

  Lemma push_at_ok i v (ys : list (list F)) : i < length ys ->
    exists ys', push_at i v ys = Some ys' /\ length ys' = length ys /\
      forall q, nth_error ys' q = if q =? i then option_map (fun y => y ++ [v]) (nth_error ys q) else nth_error ys q.
  Proof.
    revert ys. induction i as [|i IH]; intros [|y ys] Hi; cbn in Hi; try lia.
    - exists ((y ++ [v]) :: ys). split; [reflexivity|]. split; [reflexivity|]. intros [|q]; reflexivity.
    - destruct (IH ys ltac:(lia)) as (ys' & E & L & N). cbn [TcsModel.push_at]. rewrite E.
      exists (y :: ys'). split; [reflexivity|]. split; [cbn; lia|]. intros [|q]; [reflexivity|]. cbn. apply N.
  Qed.

  (** positions pushed on leaf [q] *)
  Fixpoint contrib (w q : nat) (l : list (nat * nat * nat)) : list nat :=
    match l with
    | [] => []
    | (index, i, lf) :: l => if q =? lf then (index * w + i) :: contrib w q l else contrib w q l
    end.
  Lemma contrib_app w q a b : contrib w q (a ++ b) = contrib w q a ++ contrib w q b.
  Proof. induction a as [|[[x y] z] a IH]; [reflexivity|]. cbn. destruct (q =? z); cbn; now rewrite IH. Qed.
  Lemma contrib_flat {X} w q (f : X -> _) l : contrib w q (flat_map f l) = flat_map (fun x => contrib w q (f x)) l.
  Proof. induction l as [|x l IH]; [reflexivity|]. cbn. now rewrite contrib_app, IH. Qed.
  Lemma contrib_leaves w q index i a n :
    contrib w q (map (fun lf => (index, i, lf)) (seq a n)) = if (a <=? q) && (q <? a + n) then [index * w + i] else [].
  Proof.
    revert a. induction n as [|n IH]; intros a.
    - cbn [seq map contrib]. destruct (Nat.leb_spec a q), (Nat.ltb_spec q (a + 0)); try lia; reflexivity.
    - cbn [seq map contrib]. rewrite IH.
      destruct (Nat.eqb_spec q a), (Nat.leb_spec (S a) q), (Nat.leb_spec a q), (Nat.ltb_spec q (S a + n)), (Nat.ltb_spec q (a + S n));
        try lia; reflexivity.
  Qed.
  Lemma flat_single {X} (f : X -> list nat) (g : nat -> list nat) k n : k < n ->
    flat_map (fun i => if i =? k then g i else []) (seq 0 n) = g k.
  Proof.
    intros Hk. replace n with (k + S (n - S k)) by lia. rewrite seq_app, flat_map_app. cbn [Nat.add seq flat_map].
    rewrite Nat.eqb_refl.
    assert (forall a m, (k < a \/ a + m <= k) -> flat_map (fun i => if i =? k then g i else []) (seq a m) = []) as Z.
    { intros a m. revert a. induction m as [|m IH]; intros a Ha; [reflexivity|]. cbn.
      destruct (Nat.eqb_spec a k); [lia|]. apply IH. lia. }
    rewrite !Z by lia. now rewrite app_nil_r.
  Qed.
  Lemma loop3_contrib w q ch d : q < ch * 2 ^ d ->
    contrib w q (loop3 ch w d) = map (fun i => (q / 2 ^ d) * w + i) (seq 0 w).
  Proof.
    intros Hq. assert (2 ^ d <> 0) as D by (apply Nat.pow_nonzero; lia).
    unfold loop3. rewrite contrib_flat.
    rewrite <- (flat_single (fun _ : nat => []) (fun k => map (fun i => k * w + i) (seq 0 w)) (q / 2 ^ d) ch)
      by (apply Nat.div_lt_upper_bound; lia).
    apply flat_map_ext. intros index. rewrite contrib_flat.
    erewrite flat_map_ext; [|intros i; apply contrib_leaves].
    replace ((index + 1) * 2 ^ d - index * 2 ^ d) with (2 ^ d) by nia.
    assert ((index * 2 ^ d <=? q) && (q <? index * 2 ^ d + 2 ^ d) = (index =? q / 2 ^ d)) as ->.
    { pose proof (Nat.div_mod q (2 ^ d) D). pose proof (Nat.mod_upper_bound q (2 ^ d) D).
      set (a := q / 2 ^ d) in *. set (b := q mod 2 ^ d) in *. set (P := 2 ^ d) in *.
      destruct (Nat.eqb_spec index a) as [->|Ne].
      - destruct (Nat.leb_spec (a * P) q), (Nat.ltb_spec q (a * P + P)); try reflexivity; exfalso; nia.
      - destruct (Nat.leb_spec (index * P) q), (Nat.ltb_spec q (index * P + P)); try reflexivity; exfalso; nia. }
    destruct (index =? q / 2 ^ d).
    - induction (seq 0 w) as [|x l IH]; [reflexivity|]. cbn. now rewrite IH.
    - induction (seq 0 w) as [|x l IH]; [reflexivity|]. cbn. exact IH.
  Qed.
  Lemma loop3_range ch w d x : In x (loop3 ch w d) -> fst (fst x) < ch /\ snd (fst x) < w /\ snd x < ch * 2 ^ d.
  Proof.
    unfold loop3. rewrite in_flat_map. intros (index & Hi & Hx). apply in_flat_map in Hx as (i & Hi' & Hx).
    apply in_map_iff in Hx as (lf & <- & Hlf). cbn [fst snd]. apply in_seq in Hi, Hi', Hlf.
    split; [lia|]. split; [lia|]. nia.
  Qed.

  Lemma push_all_values_ok (m : matrix) l : forall ys,
    Forall (fun x => fst (fst x) * width m + snd (fst x) < length (values m) /\ snd x < length ys) l ->
    exists ys', push_all_values m l ys = Some ys' /\ length ys' = length ys /\
      forall q y, nth_error ys q = Some y -> exists r, nth_error ys' q = Some (y ++ r) /\
        map Some r = map (nth_error (values m)) (contrib (width m) q l).
  Proof.
    induction l as [|[[index i] lf] l IH]; intros ys Fl.
    - exists ys. split; [reflexivity|]. split; [reflexivity|]. intros q y Hy. exists []. rewrite app_nil_r. auto.
    - inversion_clear Fl as [|? ? [Hv Hl] Fl']. cbn [fst snd] in *. cbn [TcsModel.push_all_values].
      destruct (nth_error (values m) (index * width m + i)) as [v|] eqn:Ev; [|apply nth_error_None in Ev; lia].
      destruct (push_at_ok lf v ys Hl) as (y1 & E1 & L1 & N1). rewrite E1.
      destruct (IH y1) as (y2 & E2 & L2 & N2); [now rewrite L1|].
      exists y2. split; [exact E2|]. split; [lia|]. intros q y Hy. cbn [contrib].
      specialize (N1 q). rewrite Hy in N1. destruct (q =? lf).
      + cbn in N1. destruct (N2 _ _ N1) as (r & Er & Mr). exists (v :: r). rewrite <- app_assoc in Er.
        split; [exact Er|]. cbn [map]. now rewrite Ev, Mr.
      + exact (N2 _ _ N1).
  Qed.

  (** matrices with a power-of-two number of rows *)
  Definition rect (m : matrix) (k : nat) : Prop := width m > 0 /\ length (values m) = width m * 2 ^ k.
  Lemma rect_height m k : rect m k -> height m = 2 ^ k.
  Proof.
    intros [W L]. unfold TcsModel.height. destruct (Nat.eqb_spec (width m) 0); [lia|].
    rewrite L, Nat.mul_comm. apply Nat.div_mul. lia.
  Qed.
  Lemma rect_log m k : rect m k -> log2_ceil (height m) = k.
  Proof. intros R. rewrite (rect_height _ _ R). unfold log2_ceil. apply Nat.log2_up_pow2. lia. Qed.
  Definition mrow (m : matrix) (i : nat) : list F := firstn (width m) (skipn (i * width m) (values m)).

  Lemma map_some_inj {X} (a b : list X) : map Some a = map Some b -> a = b.
  Proof.
    revert b. induction a as [|x a IH]; intros [|y b] E; try discriminate; [reflexivity|].
    cbn in E. injection E as -> E. f_equal. auto.
  Qed.
  Lemma map_nth_seq {X} (l : list X) : map Some l = map (nth_error l) (seq 0 (length l)).
  Proof.
    induction l as [|x l IH]; [reflexivity|]. cbn [length seq map]. rewrite <- seq_shift, map_map.
    cbn [nth_error]. f_equal. exact IH.
  Qed.
  Lemma nth_error_skip {X} (l : list X) a i : nth_error (skipn a l) i = nth_error l (a + i).
  Proof. revert l. induction a as [|a IH]; intros [|x l]; cbn; try reflexivity; [now destruct i|apply IH]. Qed.
  Lemma nth_error_first {X} (l : list X) n i : i < n -> nth_error (firstn n l) i = nth_error l i.
  Proof. revert l i. induction n as [|n IH]; intros [|x l] [|i] Hi; cbn; try reflexivity; try lia. apply IH. lia. Qed.
  Lemma mrow_len m k i : rect m k -> i < 2 ^ k -> length (mrow m i) = width m.
  Proof. intros [W L] Hi. unfold mrow. rewrite firstn_length, skipn_length, L. nia. Qed.
  Lemma mrow_map m k i : rect m k -> i < 2 ^ k ->
    map (nth_error (values m)) (map (fun j => i * width m + j) (seq 0 (width m))) = map Some (mrow m i).
  Proof.
    intros R Hi. rewrite (map_nth_seq (mrow m i)), (mrow_len _ _ _ R Hi), map_map.
    apply map_ext_in. intros j Hj. apply in_seq in Hj. unfold mrow. rewrite nth_error_first by lia.
    rewrite nth_error_skip. reflexivity.
  Qed.

  Lemma pow_split k K : k <= K -> 2 ^ k * 2 ^ (K - k) = 2 ^ K.
  Proof. intros. rewrite <- Nat.pow_add_r. f_equal. lia. Qed.
  Lemma push_matrices_ok k K ms : k <= K -> Forall (fun m => rect m k) ms -> forall ys, length ys = 2 ^ K ->
    exists ys', push_matrices (2 ^ k) (K - k) ms ys = Some ys' /\ length ys' = 2 ^ K /\
      forall q y, nth_error ys q = Some y ->
        nth_error ys' q = Some (y ++ concat (map (fun m => mrow m (q / 2 ^ (K - k))) ms)).
  Proof.
    intros HK. induction 1 as [|m ms Rm _ IH]; intros ys Ly.
    - exists ys. split; [reflexivity|]. split; [exact Ly|]. intros q y Hy. cbn. now rewrite app_nil_r.
    - cbn [TcsModel.push_matrices].
      destruct (push_all_values_ok m (loop3 (2 ^ k) (width m) (K - k)) ys) as (y1 & E1 & L1 & N1).
      { apply Forall_forall. intros x Hx. apply loop3_range in Hx as (H1 & H2 & H3). rewrite pow_split in H3 by exact HK.
        destruct Rm as [W L]. rewrite L, Ly. split; [nia|exact H3]. }
      rewrite E1. destruct (IH y1) as (y2 & E2 & L2 & N2); [lia|].
      exists y2. split; [exact E2|]. split; [exact L2|]. intros q y Hy.
      destruct (N1 _ _ Hy) as (r & Hr & Mr). rewrite (N2 _ _ Hr). cbn [map concat]. rewrite <- app_assoc. do 3 f_equal.
      assert (q < 2 ^ K) as Hq by (rewrite <- Ly; apply nth_error_Some; congruence).
      rewrite loop3_contrib in Mr by (rewrite pow_split by exact HK; exact Hq).
      rewrite (mrow_map m k) in Mr; [now apply map_some_inj in Mr|exact Rm|].
      apply Nat.div_lt_upper_bound; [apply Nat.pow_nonzero; lia|]. rewrite Nat.mul_comm, pow_split by exact HK. exact Hq.
  Qed.

  (** the row of [m] at leaf [q] of a tree with 2^K leaves *)
  Definition row_at (K q : nat) (m : matrix) : list F := mrow m (q / 2 ^ (K - log2_ceil (height m))).
  Definition desc (l : list matrix) : Prop := StronglySorted (fun a b => height b <= height a) l.

  Lemma take_while_ok p (l : list matrix) : forall a b, take_while F p l = (a, b) ->
    l = a ++ b /\ Forall (fun m => p m = true) a /\ match b with [] => True | m :: _ => p m = false end.
  Proof.
    induction l as [|m l IH]; intros a b E; cbn in E; [injection E as <- <-; auto|].
    destruct (p m) eqn:P; [|injection E as <- <-; cbn; auto].
    destruct (take_while F p l) as [a' b']. injection E as <- <-.
    destruct (IH _ _ eq_refl) as (-> & Fa & Hb). repeat split; auto.
  Qed.
  Lemma pad_levels_ok K : forall n ms ys, n <= K + 1 -> length ys = 2 ^ K -> desc ms ->
    Forall (fun m => exists k, rect m k /\ k < n) ms ->
    exists ys', pad_levels K n ms ys = Some ys' /\ length ys' = 2 ^ K /\
      forall q y, nth_error ys q = Some y -> nth_error ys' q = Some (y ++ concat (map (row_at K q) ms)).
  Proof.
    induction n as [|n IH]; intros ms ys Hn Ly D Fm.
    - destruct ms as [|m ms]; [|inversion Fm as [|? ? (? & _ & ?)]; lia].
      exists ys. split; [reflexivity|]. split; [exact Ly|]. intros q y Hy. cbn. now rewrite app_nil_r.
    - cbn [TcsModel.pad_levels].
      destruct (take_while F _ ms) as [a b] eqn:T. apply take_while_ok in T as (-> & Fa & Hb).
      apply Forall_app in Fm as [Fma Fmb].
      assert (Forall (fun m => rect m n) a) as Ra.
      { rewrite Forall_forall in *. intros m Hm. destruct (Fma _ Hm) as (k & R & _). specialize (Fa _ Hm).
        apply Nat.eqb_eq in Fa. rewrite (rect_log _ _ R) in Fa. now subst. }
      assert (desc b) as Db.
      { clear - D. unfold desc in *. induction a as [|m a IHa]; [exact D|]. inversion D; subst. auto. }
      assert (Forall (fun m => exists k, rect m k /\ k < n) b) as Rb.
      { destruct b as [|m0 b]; [constructor|]. apply Nat.eqb_neq in Hb.
        inversion Fmb as [|? ? (k0 & R0 & H0) Fmb']; subst. rewrite (rect_log _ _ R0) in Hb.
        constructor; [exists k0; split; [exact R0|lia]|].
        unfold desc in Db. inversion Db as [|? ? _ Fb]; subst. rewrite Forall_forall in *. intros m Hm.
        destruct (Fmb' _ Hm) as (k & R & Hk). exists k. split; [exact R|].
        specialize (Fb _ Hm). rewrite (rect_height _ _ R0), (rect_height _ _ R) in Fb.
        apply Nat.pow_le_mono_r_iff in Fb; lia. }
      assert (exists y1, match a with [] => Some ys | m :: _ => push_matrices (height m) (K - n) a ys end = Some y1 /\
                length y1 = 2 ^ K /\ forall q y, nth_error ys q = Some y -> nth_error y1 q = Some (y ++ concat (map (row_at K q) a)))
        as (y1 & E1 & L1 & N1).
      { destruct a as [|m a].
        - exists ys. split; [reflexivity|]. split; [exact Ly|]. intros. cbn. now rewrite app_nil_r.
        - destruct (push_matrices_ok n K (m :: a) ltac:(lia) Ra ys Ly) as (y1 & E1 & L1 & N1).
          exists y1. split; [rewrite (rect_height m n) by (inversion Ra; assumption); exact E1|].
          split; [exact L1|]. intros q y Hy. rewrite (N1 _ _ Hy). do 3 f_equal. apply map_ext_in.
          intros x Hx. unfold row_at. rewrite Forall_forall in Ra. now rewrite (rect_log _ _ (Ra _ Hx)). }
      rewrite E1. destruct (IH b y1 ltac:(lia) L1 Db Rb) as (y2 & E2 & L2 & N2).
      exists y2. split; [exact E2|]. split; [exact L2|]. intros q y Hy.
      rewrite (N2 _ _ (N1 _ _ Hy)), map_app, concat_app, app_assoc. reflexivity.
  Qed.

  (** the sort *)
  Lemma insert_perm m (l : list matrix) : Permutation (insert_desc F m l) (m :: l).
  Proof.
    induction l as [|x l IH]; [reflexivity|]. cbn. destruct (_ <=? _); [reflexivity|].
    rewrite IH. apply perm_swap.
  Qed.
  Lemma sorted_perm (l : list matrix) : Permutation (sorted_desc F l) l.
  Proof. induction l as [|m l IH]; [reflexivity|]. cbn. now rewrite insert_perm, IH. Qed.
  Lemma insert_sorted m (l : list matrix) : desc l -> desc (insert_desc F m l).
  Proof.
    unfold desc. induction l as [|x l IH]; intros D; cbn; [repeat constructor|].
    inversion_clear D as [|? ? Dl Fl]. destruct (Nat.leb_spec (height x) (height m)).
    - constructor; [constructor; assumption|]. constructor; [assumption|].
      eapply Forall_impl; [|exact Fl]. cbn. intros; lia.
    - constructor; [auto|]. eapply Permutation_Forall; [symmetry; apply insert_perm|]. constructor; [lia|exact Fl].
  Qed.
  Lemma sorted_sorted (l : list matrix) : desc (sorted_desc F l).
  Proof. induction l as [|m l IH]; [constructor|]. cbn. now apply insert_sorted. Qed.
  Lemma sorted_id (l : list matrix) : desc l -> sorted_desc F l = l.
  Proof.
    induction l as [|m l IH]; intros D; [reflexivity|]. inversion_clear D as [|? ? Dl Fl].
    change (sorted_desc F (m :: l)) with (insert_desc F m (sorted_desc F l)). rewrite IH by exact Dl.
    destruct l as [|x l]; [reflexivity|]. cbn. inversion_clear Fl. destruct (Nat.leb_spec (height x) (height m)); [reflexivity|lia].
  Qed.
  Lemma sorted_stable h (l : list matrix) :
    filter (fun m => height m =? h) (sorted_desc F l) = filter (fun m => height m =? h) l.
  Proof.
    induction l as [|m l IH]; [reflexivity|].
    assert (forall l', filter (fun x => height x =? h) (insert_desc F m l') = filter (fun x => height x =? h) (m :: l')) as I.
    { induction l' as [|x l' IH']; [reflexivity|]. cbn [insert_desc].
      destruct (Nat.leb_spec (height x) (height m)) as [Hle|Hlt]; [reflexivity|].
      cbn [filter] in *. rewrite IH'. destruct (Nat.eqb_spec (height m) h), (Nat.eqb_spec (height x) h); try reflexivity; lia. }
    cbn [sorted_desc fold_right] in *. change (fold_right (insert_desc F) [] l) with (sorted_desc F l) in *.
    rewrite I. cbn [filter]. destruct (height m =? h); now rewrite IH.
  Qed.

  Definition total_width (l : list matrix) : nat := fold_right (fun m a => width m + a) 0 l.
  Lemma total_width_perm a b : Permutation a b -> total_width a = total_width b.
  Proof. unfold total_width. induction 1; cbn [fold_right]; lia. Qed.
  Lemma rows_len K q ms : q < 2 ^ K -> Forall (fun m => exists k, rect m k /\ k <= K) ms ->
    length (concat (map (row_at K q) ms)) = total_width ms.
  Proof.
    intros Hq. induction 1 as [|m ms (k & R & Hk) _ IH]; [reflexivity|].
    cbn [map concat total_width fold_right]. rewrite app_length, IH. unfold total_width. f_equal.
    unfold row_at. rewrite (rect_log _ _ R). apply (mrow_len m k); [exact R|].
    apply Nat.div_lt_upper_bound; [apply Nat.pow_nonzero; lia|]. rewrite Nat.mul_comm, pow_split by exact Hk. exact Hq.
  Qed.

  Lemma padding_ok ms K : Forall (fun m => exists k, rect m k /\ k <= K) ms -> Exists (fun m => rect m K) ms ->
    exists ys, padding_matrix F ms = Some ys /\ length ys = 2 ^ K /\
      forall q, q < 2 ^ K -> nth_error ys q = Some (concat (map (row_at K q) (sorted_desc F ms))).
  Proof.
    intros Fm Ex. unfold padding_matrix.
    pose proof (sorted_perm ms) as Pm. pose proof (sorted_sorted ms) as Ds.
    assert (Forall (fun m => exists k, rect m k /\ k <= K) (sorted_desc F ms)) as Fs
      by (eapply Permutation_Forall; [symmetry; exact Pm|exact Fm]).
    assert (exists m0 l, sorted_desc F ms = m0 :: l /\ rect m0 K) as (m0 & l & Es & R0).
    { apply Exists_exists in Ex as (m & Hm & Rm).
      apply (Permutation_in _ (Permutation_sym Pm)) in Hm.
      destruct (sorted_desc F ms) as [|m0 l] eqn:Es; [destruct Hm|]. exists m0, l. split; [reflexivity|].
      inversion Fs as [|? ? (k & R & Hk) _]; subst. destruct (Nat.eq_dec k K) as [<-|Ne]; [exact R|].
      exfalso. unfold desc in Ds. inversion Ds as [|? ? _ Fl]; subst.
      assert (height m <= height m0) as Hh.
      { destruct Hm as [<-|Hm]; [lia|]. rewrite Forall_forall in Fl. auto. }
      rewrite (rect_height _ _ Rm), (rect_height _ _ R) in Hh. apply Nat.pow_le_mono_r_iff in Hh; lia. }
    rewrite Es, (rect_log _ _ R0), (rect_height _ _ R0). rewrite <- Es.
    destruct (pad_levels_ok K (K + 1) (sorted_desc F ms) (repeat [] (2 ^ K))) as (ys & E & L & N).
    { lia. } { apply repeat_length. } { exact Ds. }
    { eapply Forall_impl; [|exact Fs]. intros m (k & R & Hk). exists k. split; [exact R|lia]. }
    rewrite E.
    assert (forall q, q < 2 ^ K -> nth_error ys q = Some (concat (map (row_at K q) (sorted_desc F ms)))) as Nq.
    { intros q Hq. apply (N q []). rewrite nth_error_repeat by exact Hq. reflexivity. }
    destruct ys as [|y ys]; [cbn in L; pose proof (Nat.pow_nonzero 2 K); lia|].
    assert (forallb (fun z => length y =? length z) (y :: ys) = true) as ->; [|eauto].
    assert (forall z, In z (y :: ys) -> length z = total_width (sorted_desc F ms)) as Lz.
    { intros z Hz. apply In_nth_error in Hz as [q Hq].
      assert (q < 2 ^ K) as Hq' by (rewrite <- L; apply nth_error_Some; congruence).
      rewrite (Nq _ Hq') in Hq. injection Hq as <-. now apply rows_len. }
    apply forallb_forall. intros z Hz. apply Nat.eqb_eq. rewrite (Lz z Hz). apply Lz. now left.
  Qed.
End Pad.
