(** Functions that satisfy what TwoAdicFriPcs needs of p3_dft and p3_interpolation: interpolation
    by Newton's formula.  They show that the contracts can be met and make examples computable. *)
From Coq Require Import List Arith Bool Lia Field.
From Verif Require Import Field TcsModel TcsProofs PropTcs FriModel FriProofs PcsModel PolyExt PcsProofs PcsProofs2.
Import ListNotations.

Section Newton.
  Variable K : field.
  Add Field KF3 : (fth K).
  Local Open Scope F_scope.
  Definition newton_step (s : list K * list K) (xv : K * K) : list K * list K :=
    let c := (snd xv - peval (fst s) (fst xv)) / peval (snd s) (fst xv) in
    (padd (fst s) (pscale c (snd s)), padd (0 :: snd s) (pscale (- fst xv) (snd s))).
  Definition newton (l : list (K * K)) : list K * list K := fold_left newton_step l ([], [1]).
  Lemma newton_ok l : NoDup (map fst l) ->
    (length (fst (newton l)) <= length l)%nat /\ length (snd (newton l)) = S (length l) /\
    (forall x v, In (x, v) l -> peval (fst (newton l)) x = v) /\
    (forall x, peval (snd (newton l)) x = 0 <-> In x (map fst l)).
  Proof.
    induction l as [|[x v] l IH] using rev_ind; intros ND.
    - cbn. split; [lia|]. split; [reflexivity|]. split; [easy|]. intros x. split; [|easy]. intros E. exfalso. apply (f1_nz K). rewrite <- E. ring.
    - rewrite map_app in ND. cbn [map fst] in ND. apply NoDup_remove in ND as [ND Nx]. rewrite app_nil_r in *.
      destruct (IH ND) as (L1 & L2 & P & Z). unfold newton in *. rewrite fold_left_app. cbn [fold_left].
      set (s := fold_left newton_step l ([], [1])) in *. unfold newton_step. cbn [fst snd].
      assert (peval (snd s) x <> 0) as Nz by (rewrite Z; exact Nx).
      split; [rewrite padd_length, pscale_length, app_length; cbn [length]; lia|].
      split; [rewrite padd_length, pscale_length, app_length; cbn [length]; lia|]. split.
      + intros x' v' I. rewrite peval_padd, peval_pscale. apply in_app_or in I as [I|[[= <- <-]|[]]].
        * rewrite (P _ _ I). replace (peval (snd s) x') with (0 : K); [ring|]. symmetry. apply Z. exact (in_map fst _ _ I).
        * field. exact Nz.
      + intros x'. rewrite peval_padd, peval_pscale. cbn [peval]. rewrite map_app, in_app_iff. cbn [map fst In]. rewrite <- Z.
        replace (0 + x' * peval (snd s) x' + - x * peval (snd s) x') with ((x' - x) * peval (snd s) x') by ring. split.
        * intros E. apply fmul_integral in E as [E|E]; [right; left; symmetry; now apply fsub_0|now left].
        * intros [E|[E|[]]]; [rewrite E; ring|subst; ring].
  Qed.
  Lemma peval_sub (p q : list K) x : peval (padd p (pscale (- (1)) q)) x = peval p x - peval q x.
  Proof. rewrite peval_padd, peval_pscale. ring. Qed.
  Lemma poly_unique (p q rs : list K) : NoDup rs -> (length p <= length rs)%nat -> (length q <= length rs)%nat ->
    (forall r, In r rs -> peval p r = peval q r) -> forall x, peval p x = peval q x.
  Proof.
    intros ND Lp Lq A x. apply fsub_0. rewrite <- peval_sub. apply (poly_roots K rs); [exact ND|rewrite padd_length, pscale_length; lia|].
    intros r I. rewrite peval_sub, (A r I). ring.
  Qed.
End Newton.

Section Naive.
  Variables V T : two_adic.
  Variable emb : V -> T.
  Hypothesis E : embedding V T emb.
  Add Field VF3 : (fth V).
  (** the polynomials whose values on s <g_k> are the columns of a matrix with 2^k rows *)
  Definition column_polys (m : matrix V) (k : nat) (s : V) : list (list V) :=
    map (fun c => fst (newton V (map (fun i => (fmul s (fpow (gen k) i), nth (i * width V m + c) (values V m) f0)) (seq 0 (2 ^ k))))) (seq 0 (width V m)).
  Lemma coset_nodup k s : k <= two_adicity V -> s <> f0 -> NoDup (map (fun i => fmul s (fpow (@gen V k) i)) (seq 0 (2 ^ k))).
  Proof.
    intros L Ns. assert (forall l, NoDup l -> (forall i, In i l -> i < 2 ^ k) -> NoDup (map (fun i => fmul s (fpow (@gen V k) i)) l)) as G.
    { induction 1 as [|i l N ND IH]; intros B; cbn [map]; constructor.
      - intros I. apply in_map_iff in I as (j & Ej & I). apply fmul_cancel_l in Ej; [|exact Ns].
        apply (gen_pow_inj V k L) in Ej; [subst; contradiction|apply B; now right|apply B; now left].
      - apply IH. intros j I. apply B. now right. }
    apply G; [apply seq_NoDup|]. intros i I. apply in_seq in I. lia.
  Qed.
  Lemma column_polys_ok m k s ps : k <= two_adicity V -> s <> f0 -> Forall (fun p => length p <= 2 ^ k) ps ->
    tabulates m (2 ^ k) (fun i => fmul s (fpow (gen k) i)) ps ->
    length (column_polys m k s) = length ps /\
    forall c, c < length ps -> length (nth c (column_polys m k s) []) <= 2 ^ k /\ forall x, peval (nth c (column_polys m k s) []) x = peval (nth c ps []) x.
  Proof.
    intros L Ns F Tb. pose proof Tb as [W Ev]. split; [unfold column_polys; now rewrite map_length, seq_length|]. intros c Hc.
    unfold column_polys.
    set (h := fun c => fst (newton V (map (fun i => (fmul s (fpow (gen k) i), nth (i * width V m + c) (values V m) f0)) (seq 0 (2 ^ k))))).
    rewrite (nth_indep (map h _) [] (h 0)) by (rewrite map_length, seq_length; lia). rewrite (map_nth h), seq_nth by lia. cbn [Nat.add]. unfold h.
    set (l := map _ (seq 0 (2 ^ k))).
    assert (map fst l = map (fun i => fmul s (fpow (@gen V k) i)) (seq 0 (2 ^ k))) as El by (unfold l; now rewrite map_map).
    destruct (newton_ok V l) as (L1 & _ & P & _); [rewrite El; now apply coset_nodup|].
    assert (length l = 2 ^ k) as Ll by (unfold l; now rewrite map_length, seq_length). rewrite Ll in L1. split; [exact L1|].
    apply (poly_unique V _ _ (map fst l)).
    - rewrite El. now apply coset_nodup.
    - now rewrite map_length, Ll.
    - rewrite map_length, Ll. rewrite Forall_forall in F. apply F. now apply nth_In.
    - intros r I. rewrite El in I. apply in_map_iff in I as (i & <- & I). pose proof I as Ii. apply in_seq in Ii.
      rewrite (P (fmul s (fpow (gen k) i)) (nth (i * width V m + c) (values V m) f0)).
      + pose proof (tab_row V m _ _ ps i Tb ltac:(lia)) as R. unfold row_of in R.
        assert (nth c (firstn (width V m) (skipn (i * width V m) (values V m))) f0 = nth (i * width V m + c) (values V m) f0) as X.
        { rewrite <- W in Hc. clear - Hc. generalize (i * width V m) as a, (values V m) as l, (width V m) as w, Hc. intros a l w Hw.
          assert (forall c w (l : list V), c < w -> nth c (firstn w l) f0 = nth c l f0) as G.
          { clear. induction c as [|c IH]; intros [|w] l Hw; try lia; destruct l; cbn; try reflexivity. apply IH. lia. }
          assert (forall a (l : list V), nth c (skipn a l) f0 = nth (a + c) l f0) as G2.
          { clear. induction a as [|a IH]; intros l; [reflexivity|]. destruct l; [rewrite skipn_nil; now destruct c|]. cbn. apply IH. }
          rewrite G by exact Hw. apply G2. }
        rewrite <- X, R. set (g := fun p : list V => peval p (fmul s (fpow (gen k) i))).
        rewrite (nth_indep (map g ps) f0 (g [])) by (rewrite map_length; lia). now rewrite (map_nth g).
      + unfold l. apply in_map_iff. exists i. auto.
  Qed.
  Definition naive_lde (m : matrix V) (b : nat) (s : V) : option (matrix V) :=
    match log2_strict (height V m) with
    | None => None
    | Some k => let ps := column_polys m k f1 in
        Some {| width := width V m; values := flat_map (fun i => map (fun p => peval p (fmul s (fpow (gen (k + b)) i))) ps) (seq 0 (2 ^ (k + b))) |}
    end.
  Definition naive_interp (m : matrix V) (s : V) (z : T) : option (list T) :=
    match log2_strict (height V m) with
    | None => None
    | Some k => Some (map (fun p => peval (map emb p) z) (column_polys m k s))
    end.
  Lemma naive_lde_ok : lde_contract V naive_lde.
  Proof.
    intros m n b s ps N F L Ns Tb. unfold naive_lde. rewrite (rect_height V m n (tab_rows _ m n _ ps N Tb)), log2_strict_pow.
    eexists. split; [reflexivity|].
    assert (tabulates m (2 ^ n) (fun i => fmul f1 (fpow (gen n) i)) ps) as Tb1 by (apply (tab_ext V m (2 ^ n) _ _ ps) with (2 := Tb); intros; ring).
    destruct (column_polys_ok m n f1 ps ltac:(lia) (f1_nz V) F Tb1) as [Lc C].
    split; [exact (proj1 Tb)|]. cbn [values]. rewrite !flat_map_concat_map. f_equal. apply map_ext. intros i.
    set (x := fmul s _). apply nth_ext with (d := f0) (d' := f0); [now rewrite !map_length|]. intros c Hc. rewrite map_length, Lc in Hc.
    set (g := fun p : list V => peval p x).
    rewrite (nth_indep (map g (column_polys m n f1)) f0 (g [])), (nth_indep (map g ps) f0 (g [])) by (rewrite map_length; lia). rewrite !(map_nth g).
    now apply C.
  Qed.
  (** polynomials that agree on enough points of V agree on T *)
  Lemma emb_agree (p q : list V) n : length p <= 2 ^ n -> length q <= 2 ^ n -> n <= two_adicity V -> (forall x, peval p x = peval q x) ->
    forall z, peval (map emb p) z = peval (map emb q) z.
  Proof.
    intros Lp Lq L A z.
    apply (poly_unique T _ _ (map emb (map (fun i => fmul f1 (fpow (@gen V n) i)) (seq 0 (2 ^ n))))).
    - pose proof (coset_nodup n f1 L (f1_nz V)) as ND. clear - ND E. induction ND as [|x l N ND IH]; cbn [map]; constructor; [|exact IH].
      intros I. apply in_map_iff in I as (y & Ey & I). apply (emb_inj V T emb E) in Ey. now subst.
    - rewrite !map_length, seq_length. exact Lp.
    - rewrite !map_length, seq_length. exact Lq.
    - intros r I. apply in_map_iff in I as (x & <- & _). rewrite <- !(emb_peval V T emb E). now rewrite A.
  Qed.
  Lemma naive_interp_ok : interp_contract V T emb naive_interp.
  Proof.
    intros m n s z ps N F L Ns Tb _. unfold naive_interp. rewrite (rect_height V m n (tab_rows _ m n _ ps N Tb)), log2_strict_pow. f_equal.
    destruct (column_polys_ok m n s ps L Ns F Tb) as [Lc C].
    apply nth_ext with (d := f0) (d' := f0); [now rewrite !map_length|]. intros c Hc. rewrite map_length, Lc in Hc.
    set (g := fun p : list V => peval (map emb p) z).
    rewrite (nth_indep (map g (column_polys m n s)) f0 (g [])), (nth_indep (map g ps) f0 (g [])) by (rewrite map_length; lia). rewrite !(map_nth g).
    destruct (C c Hc) as [L1 A]. apply (emb_agree _ _ n); [exact L1| |exact L|exact A]. rewrite Forall_forall in F. apply F. now apply nth_In.
  Qed.
End Naive.
