(** Embeddings of two-adic fields, composition with scaling, interpolation on cosets and matrices of
    polynomial values; used by the PCS and STARK proofs. *)
From Coq Require Import List Arith Bool Lia Field.
From Verif Require Import Field TcsModel PropTcs FriModel FriProofs.
Import ListNotations.
Open Scope nat_scope.

(** What a base field embedding into an extension satisfies. *)
Record embedding (V T : two_adic) (emb : V -> T) : Prop := {
  emb_0 : emb f0 = f0; emb_1 : emb f1 = f1;
  emb_add : forall a b, emb (fadd a b) = fadd (emb a) (emb b);
  emb_mul : forall a b, emb (fmul a b) = fmul (emb a) (emb b);
  emb_adicity : two_adicity V <= two_adicity T;
  emb_gen : forall k, k <= two_adicity V -> emb (gen k) = gen k }.

Section Scale.
  Variable K : field.
  Add Field KF : (fth K).
  Local Open Scope F_scope.
  (** p(c x) *)
  Fixpoint pcomp_from (a c : K) (p : list K) : list K :=
    match p with [] => [] | b :: p => (a * b) :: pcomp_from (a * c) c p end.
  Definition pcomp (c : K) (p : list K) : list K := pcomp_from 1 c p.
  Lemma pcomp_from_ok c p x : forall a, peval (pcomp_from a c p) x = a * peval p (c * x).
  Proof. induction p as [|b p IH]; intros a; cbn [pcomp_from peval]; [ring|]. rewrite IH. ring. Qed.
  Lemma pcomp_ok c p x : peval (pcomp c p) x = peval p (c * x).
  Proof. unfold pcomp. rewrite pcomp_from_ok. ring. Qed.
  Lemma pcomp_length c p : length (pcomp c p) = length p.
  Proof. unfold pcomp. generalize (1 : K). induction p as [|b p IH]; intros a; cbn; [reflexivity|now rewrite IH]. Qed.
  (** sum alpha^i q_i *)
  Definition psum (alpha : K) (qs : list (list K)) : list K := fold_right (fun q acc => padd q (pscale alpha acc)) [] qs.
  Lemma psum_ok alpha qs x : peval (psum alpha qs) x = peval (map (fun q => peval q x) qs) alpha.
  Proof. induction qs as [|q qs IH]; [reflexivity|]. cbn [psum fold_right map peval]. rewrite peval_padd, peval_pscale. unfold psum in IH. now rewrite IH. Qed.
  Lemma psum_length alpha qs n : Forall (fun q => length q <= n)%nat qs -> (length (psum alpha qs) <= n)%nat.
  Proof.
    induction 1 as [|q qs L F IH]; [cbn; lia|]. cbn [psum fold_right]. rewrite padd_length, pscale_length. unfold psum in IH. lia.
  Qed.
End Scale.

Section Emb.
  Variables V T : two_adic.
  Variable emb : V -> T.
  Hypothesis E : embedding V T emb.
  Add Field VF : (fth V).
  Add Field TF : (fth T).
  Lemma emb_opp a : emb (fopp a) = fopp (emb a).
  Proof.
    assert (fadd (emb a) (emb (fopp a)) = f0) as X by (rewrite <- (emb_add _ _ _ E); replace (fadd a (fopp a)) with (@f0 V) by ring; apply (emb_0 _ _ _ E)).
    replace (emb (fopp a)) with (fsub (fadd (emb a) (emb (fopp a))) (emb a)) by ring. rewrite X. ring.
  Qed.
  Lemma emb_sub a b : emb (fsub a b) = fsub (emb a) (emb b).
  Proof. replace (fsub a b) with (fadd a (fopp b)) by ring. rewrite (emb_add _ _ _ E), emb_opp. ring. Qed.
  Lemma emb_pow a n : emb (fpow a n) = fpow (emb a) n.
  Proof. induction n as [|n IH]; cbn [fpow]; [apply (emb_1 _ _ _ E)|]. now rewrite (emb_mul _ _ _ E), IH. Qed.
  Lemma emb_nz a : a <> f0 -> emb a <> f0.
  Proof.
    intros N Z. apply (f1_nz T). rewrite <- (emb_1 _ _ _ E). replace (@f1 V) with (fmul a (finv a)) by (field; exact N).
    rewrite (emb_mul _ _ _ E), Z. ring.
  Qed.
  Lemma emb_inj a b : emb a = emb b -> a = b.
  Proof.
    intros Eq. destruct (f_dec V a b) as [|N]; [assumption|]. exfalso. apply (emb_nz (fsub a b)); [now apply fsub_nz|].
    rewrite emb_sub, Eq. ring.
  Qed.
  Lemma emb_peval p x : emb (peval p x) = peval (map emb p) (emb x).
  Proof.
    induction p as [|c p IH]; cbn [map peval]; [apply (emb_0 _ _ _ E)|]. now rewrite (emb_add _ _ _ E), (emb_mul _ _ _ E), IH.
  Qed.
End Emb.

Section Interp.
  Variable T : two_adic.
  Add Field TT : (fth T).
  Lemma every_codeword k (v : list T) : k <= two_adicity T -> length v = 2 ^ k ->
    exists p, length p = 2 ^ k /\ v = codeword T k p.
  Proof.
    revert v. induction k as [|k IH]; intros v Lk Lv.
    - destruct v as [|c [|c' v]]; cbn in Lv; try lia. exists [c]. split; [reflexivity|].
      unfold codeword. cbn. f_equal. ring.
    - set (x := fun i => point T k i).
      set (a := fun i => nth (2 * i) v f0). set (b := fun i => nth (2 * i + 1) v f0).
      destruct (IH (map (fun i => fdiv (fadd (a i) (b i)) (fadd f1 f1)) (seq 0 (2 ^ k))) ltac:(lia)) as (pe & Le & Ee);
        [now rewrite map_length, seq_length|].
      destruct (IH (map (fun i => fdiv (fsub (a i) (b i)) (fmul (fadd f1 f1) (x i))) (seq 0 (2 ^ k))) ltac:(lia)) as (po & Lo & Eo);
        [now rewrite map_length, seq_length|].
      exists (interleave pe po). split; [rewrite interleave_length by lia; rewrite Nat.pow_succ_r'; lia|].
      apply nth_ext with (d := f0) (d' := f0); [now rewrite codeword_length|].
      intros n Hn. rewrite Lv in Hn. rewrite codeword_nth by exact Hn. rewrite Nat.pow_succ_r' in Hn.
      pose proof (Nat.div_mod n 2 ltac:(lia)) as D. pose proof (Nat.mod_upper_bound n 2 ltac:(lia)) as M.
      remember (n / 2) as i eqn:Ei in *. clear Ei. assert (i < 2 ^ k) as Hi by lia.
      assert (peval pe (fpow (gen k) (reverse_bits_len i k)) = fdiv (fadd (a i) (b i)) (fadd f1 f1)) as Ve.
      { rewrite <- (codeword_nth T k pe i Hi), <- Ee. now rewrite nth_map_seq. }
      assert (peval po (fpow (gen k) (reverse_bits_len i k)) = fdiv (fsub (a i) (b i)) (fmul (fadd f1 f1) (x i))) as Vo.
      { rewrite <- (codeword_nth T k po i Hi), <- Eo. now rewrite nth_map_seq. }
      pose proof (two_nz T) as N2. pose proof (point_nz T k i Lk) as Nx.
      rewrite peval_even_odd, evens_interleave, odds_interleave by lia.
      destruct (n mod 2) as [|[|m]] eqn:Em; [| |lia].
      + replace n with (2 * i) by lia. rewrite point_even. rewrite point_sq by exact Lk. rewrite Ve, Vo.
        fold (a i). unfold x. field. split; first [exact Nx | exact N2].
      + replace n with (2 * i + 1) by lia. rewrite point_odd by exact Lk.
        replace (fmul (fopp (point T k i)) (fopp (point T k i))) with (fmul (point T k i) (point T k i)) by ring.
        rewrite point_sq by exact Lk. rewrite Ve, Vo. fold (b i). unfold x. field. split; first [exact Nx | exact N2].
  Qed.
  (** values on the coset s <gen k> in natural order *)
  Lemma interpolant k s (v : nat -> T) : k <= two_adicity T -> s <> f0 ->
    exists p, length p = 2 ^ k /\ forall i, i < 2 ^ k -> peval p (fmul s (fpow (gen k) i)) = v i.
  Proof.
    intros Lk Ns. destruct (every_codeword k (map (fun i => v (reverse_bits_len i k)) (seq 0 (2 ^ k))) Lk) as (p & Lp & E);
      [now rewrite map_length, seq_length|].
    exists (pcomp T (finv s) p). rewrite pcomp_length. split; [exact Lp|]. intros i Hi. rewrite pcomp_ok.
    replace (fmul (finv s) (fmul s (fpow (gen k) i))) with (fpow (@gen T k) i) by (field; exact Ns).
    pose proof (codeword_nth T k p (reverse_bits_len i k) (rbl_lt i k)) as C. rewrite rbl_invol in C by exact Hi.
    rewrite <- C, <- E. rewrite nth_map_seq by apply rbl_lt. now rewrite rbl_invol.
  Qed.
End Interp.

(** [m] has n rows, and row i holds the values of the polynomials [ps] at [pt i]. *)
Definition tabulates {K : field} (m : matrix K) (n : nat) (pt : nat -> K) (ps : list (list K)) : Prop :=
  width K m = length ps /\ values K m = flat_map (fun i => map (fun p => peval p (pt i)) ps) (seq 0 n).

Lemma flat_map_rows {A B} (f : A -> list B) w l : (forall a, In a l -> length (f a) = w) ->
  length (flat_map f l) = w * length l /\
  forall i d, i < length l -> firstn w (skipn (i * w) (flat_map f l)) = f (nth i l d).
Proof.
  induction l as [|a l IH]; intros L; [split; [cbn; lia|cbn; lia]|].
  destruct IH as [L1 N1]; [intros; apply L; now right|]. pose proof (L a (or_introl eq_refl)) as La.
  split; [cbn [flat_map length]; rewrite app_length, L1, La; lia|].
  intros i d Hi. cbn [flat_map]. destruct i as [|i].
  - cbn [Nat.mul skipn nth]. rewrite firstn_app, La, Nat.sub_diag, firstn_O, app_nil_r, <- La. apply firstn_all.
  - cbn [nth]. rewrite <- (N1 i d) by (cbn in Hi; lia). rewrite skipn_app, La.
    replace (S i * w - w) with (i * w) by lia. rewrite (skipn_all2 (f a)) by lia. reflexivity.
Qed.
Section Tab.
  Variable K : field.
  Implicit Types m : matrix K.
  Lemma tab_length m n pt ps : tabulates m n pt ps -> length (values K m) = length ps * n.
  Proof.
    intros [W E]. rewrite E. rewrite (proj1 (flat_map_rows (fun i => map (fun p => peval p (pt i)) ps) (length ps) (seq 0 n)
      (fun i _ => map_length _ _))), seq_length. lia.
  Qed.
  Lemma tab_row m n pt ps i : tabulates m n pt ps -> i < n -> row_of m i = map (fun p => peval p (pt i)) ps.
  Proof.
    intros [W E] Hi. unfold row_of. rewrite W, E.
    rewrite (proj2 (flat_map_rows (fun i => map (fun p => peval p (pt i)) ps) (length ps) (seq 0 n) (fun i _ => map_length _ _)) i 0)
      by now rewrite seq_length. now rewrite seq_nth.
  Qed.
  Lemma tab_rows m k pt ps : ps <> [] -> tabulates m (2 ^ k) pt ps -> has_rows m k.
  Proof.
    intros N Tb. split; [rewrite (proj1 Tb); destruct ps; [contradiction|cbn; lia]|]. rewrite (tab_length m _ pt ps Tb), (proj1 Tb). lia.
  Qed.
  Lemma rows_of_values m n : length (values K m) = width K m * n ->
    values K m = flat_map (row_of m) (seq 0 n).
  Proof.
    unfold row_of. generalize (values K m) as l, (width K m) as w. intros l w. revert l.
    assert (forall n (l : list K) (a : nat), length l = w * n -> l = flat_map (fun i => firstn w (skipn (i * w) l)) (seq 0 n)) as G.
    { clear. induction n as [|n IH]; intros l a L; [destruct l; [reflexivity|cbn in L; lia]|].
      cbn [seq flat_map]. cbn [Nat.mul skipn]. rewrite <- (firstn_skipn w l) at 1. f_equal.
      rewrite <- seq_shift. rewrite flat_map_concat_map, map_map, <- flat_map_concat_map.
      rewrite (IH (skipn w l) a) at 1 by (rewrite skipn_length, L; lia).
      rewrite !flat_map_concat_map. f_equal. apply map_ext. intros i. f_equal.
      assert (forall A (x y : nat) (u : list A), skipn x (skipn y u) = skipn (y + x) u) as SS.
      { clear. intros A x y. revert x. induction y as [|y IH]; intros x u; [reflexivity|]. destruct u; [now rewrite !skipn_nil|]. cbn. apply IH. }
      rewrite SS. f_equal. }
    intros l L. now apply (G n l 0).
  Qed.
  Lemma tab_intro m n pt ps : width K m = length ps -> length (values K m) = length ps * n ->
    (forall i, i < n -> row_of m i = map (fun p => peval p (pt i)) ps) -> tabulates m n pt ps.
  Proof.
    intros W L R. split; [exact W|]. rewrite (rows_of_values m n) by now rewrite W.
    rewrite !flat_map_concat_map. f_equal. apply map_ext_in. intros i Hi. apply in_seq in Hi. apply R. lia.
  Qed.
  Lemma tab_ext m n pt pt' ps : (forall i, i < n -> pt i = pt' i) -> tabulates m n pt ps -> tabulates m n pt' ps.
  Proof.
    intros X [W E]. split; [exact W|]. rewrite E, !flat_map_concat_map. f_equal. apply map_ext_in. intros i Hi.
    apply in_seq in Hi. apply map_ext. intros p. now rewrite X by lia.
  Qed.
End Tab.
(** Every matrix tabulates polynomials of degree below its height on any coset. *)
Lemma tab_exists (V : two_adic) (m : matrix V) k s : k <= two_adicity V -> s <> f0 -> has_rows m k ->
  exists ps, Forall (fun p => length p <= 2 ^ k) ps /\ tabulates m (2 ^ k) (fun i => fmul s (fpow (gen k) i)) ps.
Proof.
  intros Lk Ns [W L].
  assert (forall c, exists p, length p = 2 ^ k /\ forall i, i < 2 ^ k -> peval p (fmul s (fpow (gen k) i)) = nth (i * width V m + c) (values V m) f0) as P.
  { intros c. exact (interpolant V k s (fun i => nth (i * width V m + c) (values V m) f0) Lk Ns). }
  assert (forall w, exists ps, length ps = w /\ Forall (fun p => length p <= 2 ^ k) ps /\
    forall c i, c < w -> i < 2 ^ k -> peval (nth c ps []) (fmul s (fpow (gen k) i)) = nth (i * width V m + c) (values V m) f0) as Q.
  { induction w as [|w IH]; [exists []; split; [reflexivity|]; split; [constructor|lia]|].
    destruct IH as (ps & Lp & F & N). destruct (P w) as (p & L1 & N1). exists (ps ++ [p]).
    split; [rewrite app_length, Lp; cbn; lia|]. split; [apply Forall_app; split; [exact F|constructor; [lia|constructor]]|].
    intros c i Hc Hi. destruct (Nat.eq_dec c w) as [->|Nc].
    - rewrite app_nth2 by lia. rewrite Lp, Nat.sub_diag. cbn [nth]. now apply N1.
    - rewrite app_nth1 by lia. apply N; lia. }
  destruct (Q (width V m)) as (ps & Lp & F & N). exists ps. split; [exact F|].
  apply tab_intro; [now rewrite Lp|now rewrite Lp|].
  intros i Hi. unfold row_of.
  assert (length (firstn (width V m) (skipn (i * width V m) (values V m))) = width V m) as Lr.
  { rewrite firstn_length, skipn_length, L. nia. }
  apply nth_ext with (d := f0) (d' := f0); [now rewrite map_length, Lp|]. intros c Hc. rewrite Lr in Hc.
  set (h := fun p : list V => peval p (fmul s (fpow (gen k) i))).
  rewrite (nth_indep (map h ps) f0 (h [])) by now rewrite map_length, Lp.
  rewrite (map_nth h). unfold h. rewrite N by assumption.
  assert (forall A (l : list A) w j c d, c < w -> nth c (firstn w (skipn j l)) d = nth (j + c) l d) as G.
  { clear. intros A l w j c d Hc. rewrite <- (firstn_skipn j l) at 2.
    destruct (Nat.le_gt_cases j (length l)) as [Lj|Lj].
    - rewrite app_nth2 by (rewrite firstn_length; lia). rewrite firstn_length, Nat.min_l by exact Lj.
      replace (j + c - j) with c by lia. generalize (skipn j l) as u. revert c Hc. induction w as [|w IH]; intros c Hc u; [lia|].
      destruct u as [|x u]; [now rewrite firstn_nil|]. destruct c; cbn; [reflexivity|]. apply IH. lia.
    - rewrite (skipn_all2 l) by lia. rewrite firstn_nil, app_nil_r, nth_nil. rewrite nth_overflow; [reflexivity|]. rewrite firstn_length. lia. }
  now apply G.
Qed.
