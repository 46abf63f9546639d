(** Polynomial arithmetic behind the STARK proofs: products, division by X^n - 1, selector and
    constraint polynomials, recombination of quotient chunks. *)
From Coq Require Import List Arith Bool Lia Field.
From Verif Require Import Field TcsModel PropTcs FriModel FriProofs PcsModel PolyExt StarkModel.
Import ListNotations.
Open Scope nat_scope.

Section Mul.
  Variable K : field.
  Add Field KF : (fth K).
  Local Open Scope F_scope.
  Fixpoint pmul0 (p q : list K) : list K :=
    match p with [] => [] | c :: p => padd (pscale c q) (0 :: pmul0 p q) end.
  Definition pmul (p q : list K) : list K := match q with [] => [] | _ => pmul0 p q end.
  Lemma peval_pmul0 p q x : peval (pmul0 p q) x = peval p x * peval q x.
  Proof.
    induction p as [|c p IH]; cbn [pmul0 peval]; [ring|]. rewrite peval_padd, peval_pscale. cbn [peval]. rewrite IH. ring.
  Qed.
  Lemma peval_pmul p q x : peval (pmul p q) x = peval p x * peval q x.
  Proof. destruct q; [cbn; ring|]. apply peval_pmul0. Qed.
  Lemma pmul_length p q a b : (length p <= a + 1)%nat -> (length q <= b + 1)%nat -> (length (pmul p q) <= a + b + 1)%nat.
  Proof.
    intros A B. destruct q as [|d q]; [cbn; lia|]. cbn [pmul].
    assert (length (pmul0 p (d :: q)) <= length p + length q)%nat as X.
    { clear. induction p as [|c p IH]; [cbn; lia|]. cbn [pmul0]. rewrite padd_length, pscale_length. cbn [length] in *. lia. }
    cbn [length] in *. lia.
  Qed.
  (** X^n - 1 *)
  Lemma pdiv_zh n : (1 <= n)%nat -> forall m (p : list K), (length p <= m)%nat -> exists q r, (length r <= n)%nat /\ (length q <= length p - n)%nat /\
    forall x : K, peval p x = (x ^ n - 1) * peval q x + peval r x.
  Proof.
    intros Ln. induction m as [|m IH]; intros p L.
    { exists [], p. split; [lia|]. split; [cbn; lia|]. intros x. cbn. ring. }
    destruct (Nat.le_gt_cases (length p) n) as [Lp|Lp].
    { exists [], p. split; [lia|]. split; [cbn; lia|]. intros x. cbn. ring. }
    destruct (IH (padd (firstn n p) (skipn n p))) as (q & r & Lr & Lq & E).
    { rewrite padd_length, firstn_length, skipn_length. lia. }
    rewrite padd_length, firstn_length, skipn_length in Lq.
    exists (padd (skipn n p) q), r. split; [exact Lr|]. split; [rewrite padd_length, skipn_length; lia|].
    intros x. rewrite <- (firstn_skipn n p) at 1. rewrite peval_app, firstn_length, Nat.min_l by lia.
    rewrite peval_padd. specialize (E x). rewrite peval_padd in E.
    transitivity ((peval (firstn n p) x + peval (skipn n p) x) + (x ^ n - 1) * peval (skipn n p) x); [ring|]. rewrite E. ring.
  Qed.
  (** 1 + X + ... + X^(n-1) *)
  Definition geom (n : nat) : list K := repeat 1 n.
  Lemma geom_ok n x : (x - 1) * peval (geom n) x = x ^ n - 1.
  Proof.
    unfold geom. induction n as [|n IH]; [cbn; ring|]. cbn [repeat peval].
    transitivity ((x - 1) + x * ((x - 1) * peval (repeat 1 n) x)); [ring|]. rewrite IH. cbn. ring.
  Qed.
  Lemma geom_length n : length (geom n) = n. Proof. apply repeat_length. Qed.
  (** sum of a list, sum over indices *)
  Fixpoint psums (l : list (list K)) : list K := match l with [] => [] | p :: l => padd p (psums l) end.
  Lemma psums_length l n : Forall (fun p => (length p <= n)%nat) l -> (length (psums l) <= n)%nat.
  Proof. induction 1; cbn [psums length]; [lia|]. rewrite padd_length. lia. Qed.
End Mul.
Arguments pmul {_}. Arguments geom {_}. Arguments psums {_}.

Section Hom.
  Variables V T : two_adic.
  Variable emb : V -> T.
  Hypothesis E : embedding V T emb.
  Add Field TF : (fth T).
  (** the polynomial with base coefficients at a point of the extension *)
  Definition hpeval (p : list V) (x : T) : T := peval (map emb p) x.
  Lemma hpeval_padd p q x : hpeval (padd p q) x = fadd (hpeval p x) (hpeval q x).
  Proof.
    unfold hpeval. rewrite <- peval_padd. f_equal. revert q. induction p as [|a p IH]; intros [|b q]; cbn [padd map]; try reflexivity.
    rewrite (emb_add _ _ _ E). now rewrite IH.
  Qed.
  Lemma map_pscale c p : map emb (pscale c p) = pscale (emb c) (map emb p).
  Proof. unfold pscale. rewrite !map_map. apply map_ext. intros. apply (emb_mul _ _ _ E). Qed.
  Lemma hpeval_pscale c p x : hpeval (pscale c p) x = fmul (emb c) (hpeval p x).
  Proof. unfold hpeval. rewrite map_pscale. apply peval_pscale. Qed.
  Lemma hpeval_cons c p x : hpeval (c :: p) x = fadd (emb c) (fmul x (hpeval p x)).
  Proof. reflexivity. Qed.
  Lemma hpeval_nil x : hpeval [] x = f0. Proof. reflexivity. Qed.
  Lemma hpeval_pmul p q x : hpeval (pmul p q) x = fmul (hpeval p x) (hpeval q x).
  Proof.
    destruct q as [|d q]; [cbn [pmul]; rewrite !hpeval_nil; ring|]. cbn [pmul].
    induction p as [|c p IH]; cbn [pmul0]; [rewrite !hpeval_nil; ring|].
    rewrite hpeval_padd, hpeval_pscale, (hpeval_cons f0), (hpeval_cons c p), IH, (emb_0 _ _ _ E). ring.
  Qed.
  Lemma map_pcomp c p : forall a, map emb (pcomp_from V a c p) = pcomp_from T (emb a) (emb c) (map emb p).
  Proof. induction p as [|d p IH]; intros a; cbn; [reflexivity|]. rewrite IH, !(emb_mul _ _ _ E). reflexivity. Qed.
  Lemma hpeval_pcomp c p x : hpeval (pcomp V c p) x = hpeval p (fmul (emb c) x).
  Proof. unfold hpeval, pcomp. rewrite map_pcomp, (emb_1 _ _ _ E). apply pcomp_ok. Qed.
  Lemma hpeval_geom n x : fmul (fsub x f1) (hpeval (geom n) x) = fsub (fpow x n) f1.
  Proof.
    rewrite <- geom_ok. unfold hpeval, geom. f_equal. f_equal. clear x. induction n as [|n IH]; cbn [repeat map]; [reflexivity|].
    now rewrite (emb_1 _ _ _ E), IH.
  Qed.
  Lemma emb_inv a : a <> f0 -> emb (finv a) = finv (emb a).
  Proof.
    intros N. pose proof (emb_nz _ _ _ E a N) as N'. apply (fmul_cancel_l T (emb a)); [exact N'|].
    rewrite <- (emb_mul _ _ _ E). replace (fmul a (finv a)) with (@f1 V).
    - rewrite (emb_1 _ _ _ E). field. exact N'.
    - symmetry. pose proof (fth V) as FT. destruct FT. rewrite (Ring_theory.Rmul_comm F_R). now apply Finv_l.
  Qed.
End Hom.
Lemma id_embedding (V : two_adic) : embedding V V (fun x => x).
Proof. constructor; auto. Qed.

(** ** Selectors *)
Section Selectors.
  Variable V : two_adic.
  Add Field VF : (fth V).
  Variable k : nat.
  Hypothesis Lk : k <= two_adicity V.
  Notation n := (2 ^ k).
  Notation g := (gen k : V).
  Definition pfirst : list V := geom n.
  Definition plast : list V := pscale g (pcomp V g (geom n)).
  Definition ptrans : list V := [fopp (finv g); f1].
  Lemma pfirst_length : length pfirst = n. Proof. apply geom_length. Qed.
  Lemma plast_length : length plast = n.
  Proof. unfold plast. rewrite pscale_length. rewrite pcomp_length. apply geom_length. Qed.
  Section At.
    Variable T : two_adic.
    Variable emb : V -> T.
    Hypothesis E : embedding V T emb.
    Add Field TF2 : (fth T).
    Local Open Scope F_scope.
    Lemma pfirst_ok (x : T) : (x - 1) * hpeval V T emb pfirst x = x ^ n - 1.
    Proof. now apply hpeval_geom. Qed.
    Lemma plast_ok (x : T) : (x - emb (/ g)) * hpeval V T emb plast x = x ^ n - 1.
    Proof.
      pose proof (gen_nz V k Lk) as Ng. pose proof (emb_nz _ _ _ E _ Ng) as Ng'.
      unfold plast. rewrite hpeval_pscale, hpeval_pcomp by assumption. rewrite (emb_inv V T emb E) by assumption.
      transitivity ((emb g * x - 1) * hpeval V T emb (geom n) (emb g * x)); [field; exact Ng'|].
      rewrite hpeval_geom by assumption. rewrite fpow_mul_l, <- (emb_pow _ _ _ E), gen_order, (emb_1 _ _ _ E) by exact Lk. ring.
    Qed.
    Lemma ptrans_ok (x : T) : hpeval V T emb ptrans x = x - emb (/ g).
    Proof. unfold ptrans. rewrite !hpeval_cons, hpeval_nil. rewrite (emb_opp _ _ _ E), (emb_1 _ _ _ E). ring. Qed.
  End At.
End Selectors.

(** ** Constraint polynomials *)
Section Constraints.
  Variable V : two_adic.
  Variable k : nat.
  Notation n := (2 ^ k).
  Notation g := (gen k : V).
  Variable ps : list (list V).
  Variable pv : list V.
  Fixpoint cpoly (e : expr V) : list V :=
    match e with
    | Local i => nth i ps []
    | Next i => pcomp V g (nth i ps [])
    | Pub i => [nth i pv f0]
    | IsFirstRow => pfirst V k
    | IsLastRow => plast V k
    | IsTransition => ptrans V k
    | Const c => [c]
    | Add x y => padd (cpoly x) (cpoly y)
    | Sub x y => padd (cpoly x) (pscale (fopp f1) (cpoly y))
    | Neg x => pscale (fopp f1) (cpoly x)
    | Mul x y => pmul (cpoly x) (cpoly y)
    end.
  (** the number of factors is_transition: what degree_multiple does not count *)
  Fixpoint transitions (e : expr V) : nat :=
    match e with
    | IsTransition => 1
    | Add x y | Sub x y => Nat.max (transitions x) (transitions y)
    | Neg x => transitions x
    | Mul x y => transitions x + transitions y
    | _ => 0
    end.
  Lemma cpoly_length : Forall (fun p => length p <= n) ps ->
    forall w np e s, symbolic_of V w np e = Some s ->
    length (cpoly e) <= degree_multiple V s * (n - 1) + transitions e + 1.
  Proof.
    intros F w np. assert (1 <= n) as L1 by (pose proof (Nat.pow_nonzero 2 k); lia).
    assert (forall i, length (nth i ps []) <= n) as Ln.
    { intros i. destruct (Nat.lt_ge_cases i (length ps)) as [L|L]; [|rewrite nth_overflow by exact L; cbn; lia].
      rewrite Forall_forall in F. apply F, nth_In, L. }
    induction e as [i|i|i| | | |c|x IHx y IHy|x IHx y IHy|x IHx|x IHx y IHy]; intros s Es; cbn [symbolic_of] in Es.
    1,2,3: match type of Es with (if ?b then _ else _) = _ => destruct b end; [|discriminate]; injection Es as <-;
      cbn [cpoly degree_multiple var_degree_multiple transitions].
    - specialize (Ln i). lia.
    - rewrite pcomp_length. specialize (Ln i). lia.
    - cbn. lia.
    - injection Es as <-. cbn [cpoly degree_multiple transitions]. rewrite pfirst_length. lia.
    - injection Es as <-. cbn [cpoly degree_multiple transitions]. rewrite plast_length. lia.
    - injection Es as <-. cbn. lia.
    - injection Es as <-. cbn. lia.
    - destruct (symbolic_of V w np x) as [sx|], (symbolic_of V w np y) as [sy|]; try discriminate. injection Es as <-.
      cbn [cpoly s_add degree_multiple transitions]. rewrite padd_length. specialize (IHx _ eq_refl). specialize (IHy _ eq_refl). nia.
    - destruct (symbolic_of V w np x) as [sx|], (symbolic_of V w np y) as [sy|]; try discriminate. injection Es as <-.
      cbn [cpoly s_sub degree_multiple transitions]. rewrite padd_length, pscale_length. specialize (IHx _ eq_refl). specialize (IHy _ eq_refl). nia.
    - destruct (symbolic_of V w np x) as [sx|]; try discriminate. injection Es as <-.
      cbn [cpoly s_neg degree_multiple transitions]. rewrite pscale_length. now apply IHx.
    - destruct (symbolic_of V w np x) as [sx|], (symbolic_of V w np y) as [sy|]; try discriminate. injection Es as <-.
      cbn [cpoly s_mul degree_multiple transitions]. specialize (IHx _ eq_refl). specialize (IHy _ eq_refl).
      pose proof (pmul_length V (cpoly x) (cpoly y) (degree_multiple V sx * (n - 1) + transitions x) (degree_multiple V sy * (n - 1) + transitions y)
        ltac:(lia) ltac:(lia)). nia.
  Qed.

  (** the window whose entries are the polynomials at x, with the selector polynomials at x *)
  Definition poly_window (T : two_adic) (emb : V -> T) (x : T) : window V T :=
    {| w_local := map (fun p => hpeval V T emb p x) ps; w_next := map (fun p => hpeval V T emb p (fmul (emb g) x)) ps;
       w_public := pv; w_first := hpeval V T emb (pfirst V k) x; w_last := hpeval V T emb (plast V k) x;
       w_transition := hpeval V T emb (ptrans V k) x |}.
  Section At2.
  Variable T : two_adic.
  Add Field TF4 : (fth T).
  Lemma cpoly_eval (emb : V -> T) : embedding V T emb -> forall e s x,
    symbolic_of V (length ps) (length pv) e = Some s ->
    eval emb (poly_window T emb x) e = Some (hpeval V T emb (cpoly e) x).
  Proof.
    intros E e.
    induction e as [i|i|i| | | |c|a IHa b IHb|a IHa b IHb|a IHa|a IHa b IHb]; intros s x Es; cbn [symbolic_of] in Es; cbn [eval cpoly].
    - destruct (Nat.ltb_spec i (length ps)); [|discriminate]. cbn. rewrite nth_error_map, (nth_error_nth' ps []) by assumption. reflexivity.
    - destruct (Nat.ltb_spec i (length ps)); [|discriminate]. cbn. rewrite nth_error_map, (nth_error_nth' ps []) by assumption. cbn.
      now rewrite hpeval_pcomp.
    - destruct (Nat.ltb_spec i (length pv)); [|discriminate]. cbn [poly_window w_public]. rewrite (nth_error_nth' pv f0) by assumption. cbn [option_map].
      rewrite hpeval_cons, hpeval_nil. f_equal. ring.
    - reflexivity.
    - reflexivity.
    - reflexivity.
    - rewrite hpeval_cons, hpeval_nil. f_equal. ring.
    - destruct (symbolic_of V _ _ a) as [sx|], (symbolic_of V _ _ b) as [sy|]; try discriminate.
      rewrite (IHa _ x eq_refl), (IHb _ x eq_refl). cbn [opt2 option_map]. now rewrite hpeval_padd.
    - destruct (symbolic_of V _ _ a) as [sx|], (symbolic_of V _ _ b) as [sy|]; try discriminate.
      rewrite (IHa _ x eq_refl), (IHb _ x eq_refl). cbn [opt2 option_map]. rewrite hpeval_padd, hpeval_pscale by assumption. f_equal.
      rewrite (emb_opp _ _ _ E), (emb_1 _ _ _ E). ring.
    - destruct (symbolic_of V _ _ a) as [sx|]; try discriminate. rewrite (IHa _ x eq_refl). cbn [option_map].
      rewrite hpeval_pscale by assumption. f_equal. rewrite (emb_opp _ _ _ E), (emb_1 _ _ _ E). ring.
    - destruct (symbolic_of V _ _ a) as [sx|], (symbolic_of V _ _ b) as [sy|]; try discriminate.
      rewrite (IHa _ x eq_refl), (IHb _ x eq_refl). cbn [opt2 option_map]. now rewrite hpeval_pmul.
  Qed.
  End At2.
End Constraints.

(** ** Recombination of the quotient chunks *)
Section Recombine.
  Variables V T : two_adic.
  Variable emb : V -> T.
  Hypothesis E : embedding V T emb.
  Add Field VF3 : (fth V).
  Add Field TF3 : (fth T).
  Variables (k a : nat) (s : V).
  Hypothesis Lka : k + a <= two_adicity V.
  Hypothesis Ns : s <> f0.
  Notation n := (2 ^ k). Notation m := (2 ^ a).
  Notation w := (gen (k + a) : V).
  Local Open Scope F_scope.
  Definition sh (i : nat) : V := s * w ^ i.
  Definition qdom (i : nat) : coset V := {| log_n := k; shift := sh i |}.

  Lemma sh_nz i : sh i <> 0.
  Proof. apply fmul_nz; [exact Ns|]. apply fpow_nz, gen_nz, Lka. Qed.
  Definition zb (j : nat) (x : V) : V := (x * / sh j) ^ n - 1.
  Definition zv (j : nat) (x : T) : T := (x * emb (/ sh j)) ^ n - 1.
  Lemma zp_base_eq j x : zp_at_base V (qdom j) x = Some (zb j x).
  Proof. unfold zp_at_base. cbn [qdom shift log_n]. now rewrite inverse_nz by apply sh_nz. Qed.
  Lemma zp_point_eq j x : zp_at_point V T emb (qdom j) x = Some (zv j x).
  Proof. unfold zp_at_point. cbn [qdom shift log_n]. now rewrite inverse_nz by apply sh_nz. Qed.
  Lemma zb_sh i j : zb j (sh i) * gen a ^ j = gen a ^ i - gen a ^ j.
  Proof.
    unfold zb, sh. pose proof (gen_nz V _ Lka) as Nw. pose proof (fpow_nz V w j Nw) as Nj.
    rewrite fpow_mul_l, fpow_inv by (apply fmul_nz; [exact Ns|exact Nj]). rewrite !fpow_mul_l.
    rewrite <- !fpow_mul, !(Nat.mul_comm _ n), !fpow_mul. rewrite gen_pow by exact Lka.
    assert (gen a ^ j <> (0 : V)) as Na by (apply fpow_nz, gen_nz; lia). pose proof (fpow_nz V s n Ns) as Nn.
    field. split; assumption.
  Qed.
  Lemma zb_nz i j : (i < m)%nat -> (j < m)%nat -> i <> j -> zb j (sh i) <> 0.
  Proof.
    intros Hi Hj N Z. pose proof (zb_sh i j) as X. rewrite Z in X.
    apply N. apply (gen_pow_inj V a ltac:(lia) i j Hi Hj). apply fsub_0. rewrite <- X. ring.
  Qed.
  Lemma zv_emb j x : zv j (emb x) = emb (zb j x).
  Proof. unfold zv, zb. now rewrite (emb_sub _ _ _ E), (emb_pow _ _ _ E), (emb_mul _ _ _ E), (emb_1 _ _ _ E). Qed.
  Lemma zb_coset i j h : h ^ n = 1 -> zb j (sh i * h) = zb j (sh i).
  Proof.
    intros Hh. unfold zb. replace (sh i * h * / sh j) with (sh i * / sh j * h) by ring. rewrite fpow_mul_l, Hh. ring.
  Qed.
  Lemma zb_self i : zb i (sh i) = 0.
  Proof. unfold zb. replace (sh i * / sh i) with (1 : V) by (field; apply sh_nz). rewrite fpow_1_l. ring. Qed.

  (** the factor of domain j in the weight of chunk i *)
  Definition fac (i j : nat) (x : T) : T := zv j x * emb (/ zb j (sh i)).
  Definition weight (i : nat) (l : list nat) (x : T) : T := fold_right (fun j r => if (j =? i)%nat then r else fac i j x * r) 1 l.
  Lemma combine_seq_map {A} (f : nat -> A) b c : List.combine (seq b c) (map f (seq b c)) = map (fun j => (j, f j)) (seq b c).
  Proof. revert b. induction c as [|c IH]; intros b; cbn; [reflexivity|]. now rewrite IH. Qed.
  Lemma zps_of_eq x i : (i < m)%nat -> zps_of V T emb x (map qdom (seq 0 m)) i (qdom i) = Some (weight i (seq 0 m) x).
  Proof.
    intros Hi. unfold zps_of. rewrite map_length, seq_length, combine_seq_map.
    set (step := fun acc jd => _). 
    assert (forall l acc, (forall j, In j l -> (j < m)%nat) -> fold_left step (map (fun j => (j, qdom j)) l) (Some acc) = Some (acc * weight i l x)) as G.
    { induction l as [|j l IH]; intros acc Hl; cbn [map fold_left weight fold_right]; [f_equal; ring|].
      unfold step at 2. cbn [fst snd]. destruct (Nat.eqb_spec j i) as [->|Nj].
      - rewrite IH by (intros; apply Hl; now right). reflexivity.
      - rewrite zp_point_eq, zp_base_eq. cbn [shift qdom].
        rewrite inverse_nz by (apply zb_nz; [exact Hi|apply Hl; now left|now apply not_eq_sym]). cbn [option_map].
        rewrite IH by (intros; apply Hl; now right). f_equal. unfold fac at 1. fold (weight i l x).
        ring. }
    rewrite G by (intros j Hj; apply in_seq in Hj; lia). f_equal. ring.
  Qed.
  Lemma traverse_map_seq {B} (f : nat -> option B) (h : nat -> B) b c : (forall i, (b <= i < b + c)%nat -> f i = Some (h i)) ->
    traverse f (seq b c) = Some (map h (seq b c)).
  Proof.
    revert b. induction c as [|c IH]; intros b Hf; cbn [seq traverse map]; [reflexivity|].
    rewrite Hf by lia. rewrite IH by (intros; apply Hf; lia). reflexivity.
  Qed.
  Lemma traverse_map {A B C} (f : B -> option C) (h : A -> B) l : traverse f (map h l) = traverse (fun x => f (h x)) l.
  Proof. induction l as [|x l IH]; cbn [map traverse]; [reflexivity|]. now rewrite IH. Qed.
  Lemma zps_eq x : zps V T emb x (map qdom (seq 0 m)) = Some (map (fun i => weight i (seq 0 m) x) (seq 0 m)).
  Proof.
    unfold zps. rewrite map_length, seq_length, combine_seq_map, traverse_map. cbn [fst snd].
    apply traverse_map_seq. intros i Hi. apply zps_of_eq. lia.
  Qed.

  (** polynomials for the weights *)
  Definition xpow (c : nat) : list T := repeat 0 c ++ [1].
  Lemma xpow_ok c x : peval (xpow c) x = x ^ c.
  Proof.
    unfold xpow. induction c as [|c IH]; cbn [repeat app peval]; [cbn; ring|]. rewrite IH. cbn. ring.
  Qed.
  Definition zpoly (j : nat) : list T := padd (pcomp T (emb (/ sh j)) (xpow n)) [- (1)].
  Lemma zpoly_ok j x : peval (zpoly j) x = zv j x.
  Proof.
    unfold zpoly, zv. rewrite peval_padd, pcomp_ok, xpow_ok. cbn [peval]. replace (emb (/ sh j) * x) with (x * emb (/ sh j)) by ring. ring.
  Qed.
  Lemma zpoly_length j : length (zpoly j) = (n + 1)%nat.
  Proof.
    unfold zpoly. rewrite padd_length, pcomp_length. unfold xpow. rewrite app_length, repeat_length. cbn [length]. lia.
  Qed.
  Definition wpoly (i : nat) (l : list nat) : list T :=
    fold_right (fun j r => if (j =? i)%nat then r else pmul (pscale (emb (/ zb j (sh i))) (zpoly j)) r) [1] l.
  Lemma wpoly_ok i l x : peval (wpoly i l) x = weight i l x.
  Proof.
    induction l as [|j l IH]; cbn [wpoly weight fold_right]; [cbn; ring|]. fold (wpoly i l) (weight i l x).
    destruct (j =? i)%nat; [exact IH|]. rewrite peval_pmul, peval_pscale, zpoly_ok, IH. unfold fac. ring.
  Qed.
  Lemma wpoly_length i l : (length (wpoly i l) <= length (filter (fun j => negb (j =? i)) l) * n + 1)%nat.
  Proof.
    induction l as [|j l IH]; cbn [wpoly fold_right filter]; [cbn; lia|]. fold (wpoly i l).
    destruct (j =? i)%nat; cbn [negb length]; [exact IH|].
    pose proof (pmul_length T (pscale (emb (/ zb j (sh i))) (zpoly j)) (wpoly i l) n (length (filter (fun j => negb (j =? i)) l) * n)
      ltac:(rewrite pscale_length, zpoly_length; lia) IH). lia.
  Qed.
  Lemma filter_ne i l : NoDup l -> In i l -> length (filter (fun j => negb (j =? i)%nat) l) = (length l - 1)%nat.
  Proof.
    induction l as [|j l IH]; intros ND I; [contradiction|]. inversion_clear ND as [|? ? N1 N2]. cbn [filter length].
    destruct (Nat.eqb_spec j i) as [->|Nj]; cbn [negb length].
    - assert (filter (fun j => negb (j =? i)%nat) l = l) as ->; [|lia].
      clear -N1. induction l as [|j l IH]; [reflexivity|]. cbn [filter]. destruct (Nat.eqb_spec j i) as [->|]; [exfalso; apply N1; now left|].
      cbn. f_equal. apply IH. intros X. apply N1. now right.
    - destruct I as [X|I]; [contradiction|]. rewrite IH by assumption. destruct l; [contradiction|]. cbn. lia.
  Qed.

  Lemma weight_one i h l : h ^ n = 1 -> (forall j, In j l -> (j < m)%nat) -> (i < m)%nat -> weight i l (emb (sh i * h)) = 1.
  Proof.
    intros Hh Hl Hi. induction l as [|j l IH]; cbn [weight fold_right]; [reflexivity|]. fold (weight i l (emb (sh i * h))).
    rewrite IH by (intros; apply Hl; now right). destruct (Nat.eqb_spec j i) as [->|Nj]; [reflexivity|].
    unfold fac. rewrite zv_emb, zb_coset by exact Hh. rewrite <- (emb_1 _ _ _ E), <- !(emb_mul _ _ _ E). f_equal.
    field. apply zb_nz; [exact Hi|apply Hl; now left|now apply not_eq_sym].
  Qed.
  Lemma weight_zero i i0 h l : h ^ n = 1 -> In i0 l -> i <> i0 -> weight i l (emb (sh i0 * h)) = 0.
  Proof.
    intros Hh I N. induction l as [|j l IH]; [contradiction|]. cbn [weight fold_right]. fold (weight i l (emb (sh i0 * h))).
    destruct I as [->|I].
    - destruct (Nat.eqb_spec i0 i) as [->|_]; [now destruct N|]. unfold fac. rewrite zv_emb, zb_coset, zb_self, (emb_0 _ _ _ E) by exact Hh. ring.
    - rewrite (IH I). destruct (j =? i)%nat; ring.
  Qed.

  Lemma peval_psums (l : list (list T)) x : peval (psums l) x = sum T (map (fun p => peval p x) l).
  Proof. induction l as [|p l IH]; cbn [psums map sum peval]; [reflexivity|]. now rewrite peval_padd, IH. Qed.
  Lemma sum_single (f : nat -> T) i0 l : NoDup l -> In i0 l -> (forall i, In i l -> i <> i0 -> f i = 0) -> sum T (map f l) = f i0.
  Proof.
    induction l as [|i l IH]; intros ND I Z; [contradiction|]. inversion_clear ND as [|? ? N1 N2]. cbn [map sum].
    destruct (Nat.eq_dec i i0) as [->|N].
    - assert (sum T (map f l) = 0) as ->; [|ring].
      assert (forall i, In i l -> f i = 0) as Z' by (intros i Hi; apply Z; [now right|]; intros ->; contradiction).
      clear -Z'. induction l as [|i l IH]; [reflexivity|]. cbn [map sum]. rewrite (Z' i) by now left.
      rewrite IH by (intros; apply Z'; now right). ring.
    - rewrite (Z i) by (auto; now left). rewrite IH; [ring|exact N2|destruct I; [contradiction|assumption]|]. intros. apply Z; [now right|assumption].
  Qed.

  Theorem recombine (P : nat -> list T) (Q : list T) : (forall i, (i < m)%nat -> (length (P i) <= n)%nat) -> (length Q <= m * n)%nat ->
    (forall i j, (i < m)%nat -> (j < n)%nat -> peval (P i) (emb (sh i * gen k ^ j)) = peval Q (emb (sh i * gen k ^ j))) ->
    forall x, sum T (map (fun i => weight i (seq 0 m) x * peval (P i) x) (seq 0 m)) = peval Q x.
  Proof.
    intros LP LQ HQ x.
    assert (1 <= n)%nat as Ln by (pose proof (Nat.pow_nonzero 2 k); lia).
    assert (1 <= m)%nat as Lm by (pose proof (Nat.pow_nonzero 2 a); lia).
    set (R := psums (map (fun i => pmul (wpoly i (seq 0 m)) (P i)) (seq 0 m))).
    assert (forall y, peval R y = sum T (map (fun i => weight i (seq 0 m) y * peval (P i) y) (seq 0 m))) as ER.
    { intros y. unfold R. rewrite peval_psums, map_map. f_equal. apply map_ext. intros i. now rewrite peval_pmul, wpoly_ok. }
    rewrite <- ER. apply fsub_0.
    assert (length R <= m * n)%nat as LR.
    { apply psums_length. apply Forall_forall. intros p Hp. apply in_map_iff in Hp as (i & <- & Hi). apply in_seq in Hi.
      pose proof (wpoly_length i (seq 0 m)) as X. rewrite filter_ne in X by (try apply seq_NoDup; apply in_seq; lia).
      rewrite seq_length in X. pose proof (pmul_length T (wpoly i (seq 0 m)) (P i) ((m - 1) * n) (n - 1) X ltac:(specialize (LP i); lia)). nia. }
    assert (peval (padd R (pscale (- (1)) Q)) x = 0) as Z.
    2:{ rewrite peval_padd, peval_pscale in Z. rewrite <- Z. ring. }
    apply (poly_roots T (map (fun t => emb (s * w ^ t)) (seq 0 (m * n)))).
    - assert (forall l, NoDup l -> (forall t, In t l -> (t < m * n)%nat) -> NoDup (map (fun t => emb (s * w ^ t)) l)) as G.
      { induction l as [|t l IH]; intros ND Hl; cbn [map]; [constructor|]. inversion_clear ND as [|? ? N1 N2]. constructor.
        - intros I. apply in_map_iff in I as (t' & Eq & I'). apply (emb_inj _ _ _ E) in Eq. apply (fmul_cancel_l V s _ _ Ns) in Eq.
          apply (gen_pow_inj V (k + a) Lka) in Eq; [subst; contradiction| |]; rewrite Nat.pow_add_r, Nat.mul_comm; apply Hl; [now right|now left].
        - apply IH; [exact N2|]. intros; apply Hl; now right. }
      apply G; [apply seq_NoDup|]. intros t Ht. apply in_seq in Ht. lia.
    - rewrite map_length, seq_length, padd_length, pscale_length. lia.
    - intros r I. apply in_map_iff in I as (t & <- & Ht). apply in_seq in Ht.
      pose proof (Nat.div_mod t m ltac:(lia)) as Dt. pose proof (Nat.mod_upper_bound t m ltac:(lia)) as Mt.
      assert (t / m < n)%nat as Qt by (apply Nat.div_lt_upper_bound; lia).
      assert (s * w ^ t = sh (t mod m) * gen k ^ (t / m)) as ->.
      { unfold sh. rewrite Dt at 1. rewrite fpow_add, fpow_mul. rewrite (Nat.add_comm k a), gen_pow by lia. ring. }
      assert ((gen k ^ (t / m)) ^ n = (1 : V)) as Hh.
      { rewrite <- fpow_mul, Nat.mul_comm, fpow_mul, gen_order, fpow_1_l by lia. reflexivity. }
      rewrite peval_padd, peval_pscale, <- HQ by assumption. rewrite ER.
      rewrite (sum_single _ (t mod m) (seq 0 m)).
      + rewrite weight_one; [ring|exact Hh| |exact Mt]. intros j Hj. apply in_seq in Hj. lia.
      + apply seq_NoDup.
      + apply in_seq. lia.
      + intros i Hi N. rewrite weight_zero; [ring|exact Hh|apply in_seq; lia|exact N].
  Qed.
End Recombine.
