(** Proofs about FriExprModel. *)
From Coq Require Import ZArith List Bool Arith Lia Field.
From Verif Require Import Field BabyBear TcsModel FriModel FriProofs DslModel DslSpec DslOpSpec DslMain DslOps DslBuild DslIds DslDenote
  DslManager DslSession DslWork FriExprModel.
Import ListNotations.
Local Open Scope nat_scope.

(** ** The two fields *)
Record bf_laws (F : bf_field) : Prop := mk_laws {
  bl_add : forall x y : F, bf_emb (fadd x y) = fadd (bf_emb x) (bf_emb y);
  bl_sub : forall x y : F, bf_emb (fsub x y) = fsub (bf_emb x) (bf_emb y);
  bl_mul : forall x y : F, bf_emb (fmul x y) = fmul (bf_emb x) (bf_emb y);
  bl_one : bf_emb (f1 : F) = f1;
  bl_inj : forall x y : F, bf_emb x = bf_emb y -> x = y;
  bl_elt : forall x : F, elt_of (u32_size (bf_ext F)) (bf_emb x);
  bl_adic : 27 <= two_adicity F;
  bl_gen : forall k, k <= 27 -> bf_emb (gen k : F) = from_base (of_Z (HelperModel.two_adic_generator k)) }.
Lemma bf_base_laws : bf_laws bf_base.
Proof.
  constructor; cbn [bf_base bf_emb bf_ext bf_t u32_size].
  - exact from_base_add.
  - exact from_base_sub.
  - exact from_base_mul.
  - reflexivity.
  - intros x y E. unfold from_base, ext in E. congruence.
  - intros x. apply elt_of_base.
  - cbn. lia.
  - reflexivity.
Qed.
Lemma bf_ext4_laws : bf_laws bf_ext4.
Proof.
  constructor; cbn [bf_ext4 bf_emb bf_ext bf_t u32_size]; auto.
  - intros x. apply elt_of_4.
  - cbn. lia.
  - intros k L. change (gen k : ExtT) with (ext_gen k). unfold ext_gen, bb_gen. do 28 (destruct k as [|k]; [reflexivity|]). lia.
Qed.

Lemma rbl_bits : forall k q, bits_reversed k (Z.of_nat q) = Z.of_nat (Field.reverse_bits_len q k).
Proof.
  induction k as [|k IH]; intros q; [reflexivity|]. cbn [bits_reversed Field.reverse_bits_len].
  rewrite Nat2Z.inj_add, Nat2Z.inj_mul, Nat2Z.inj_pow, Nat2Z.inj_mod, <- IH, Nat2Z.inj_div. cbn. lia.
Qed.

Section Fri.
  Variable F : bf_field.
  Hypothesis L : bf_laws F.
  Variable G : gadgets.
  Notation sz := (f_size F).
  Add Field FF : (fth F).

  Definition valF (m : manager) (e : expr) (z : F) : Prop := val G m e sz (bf_emb z).
  Lemma valF_mono : forall m m' e z, incl (given m) (given m') -> valF m e z -> valF m' e z.
  Proof. intros m m' e z I V. eapply val_mono; eauto. Qed.
  Lemma sz_cases : sz = 1 \/ sz = 4. Proof. unfold f_size. destruct (bf_ext F); auto. Qed.
  Lemma words_len : forall z : F, length (f_words F z) = sz.
  Proof. intros z. apply elt_of_len, (bl_elt F L). Qed.
  Lemma words_known : forall z : F, length (f_words F z) = 1 \/ length (f_words F z) = 4.
  Proof. intros z. rewrite words_len. apply sz_cases. Qed.

  Section Steps.
    Variable A : Type.
    Variable R : A -> manager -> list expr -> Prop.
    Lemma stepF_add : forall a b k all m y z, In a all -> In b all -> valF m a y -> valF m b z ->
      (forall e all', incl all all' -> In e all' -> valF m e (fadd y z) -> e_op e = Add -> e_ops e = [a; b] -> works (k e) all' m R) ->
      works (bind (add a b) k) all m R.
    Proof.
      intros a b k all m y z Ia Ib Va Vb K. eapply (step_binary G A R Add); [reflexivity|exact Ia|exact Ib|exact Va|exact Vb|].
      intros e all' C Ie V O1 O2. apply K; auto. unfold valF. rewrite (bl_add F L), <- (Nat.max_id sz). exact V.
    Qed.
    Lemma stepF_sub : forall a b k all m y z, In a all -> In b all -> valF m a y -> valF m b z ->
      (forall e all', incl all all' -> In e all' -> valF m e (fsub y z) -> e_op e = Sub -> e_ops e = [a; b] -> works (k e) all' m R) ->
      works (bind (subtract a b) k) all m R.
    Proof.
      intros a b k all m y z Ia Ib Va Vb K. eapply (step_binary G A R Sub); [reflexivity|exact Ia|exact Ib|exact Va|exact Vb|].
      intros e all' C Ie V O1 O2. apply K; auto. unfold valF. rewrite (bl_sub F L), <- (Nat.max_id sz). exact V.
    Qed.
    Lemma stepF_mul : forall a b k all m y z, In a all -> In b all -> valF m a y -> valF m b z ->
      (forall e all', incl all all' -> In e all' -> valF m e (fmul y z) -> e_op e = Mul -> e_ops e = [a; b] -> works (k e) all' m R) ->
      works (bind (mul a b) k) all m R.
    Proof.
      intros a b k all m y z Ia Ib Va Vb K. eapply (step_binary G A R Mul); [reflexivity|exact Ia|exact Ib|exact Va|exact Vb|].
      intros e all' C Ie V O1 O2. apply K; auto. unfold valF. rewrite (bl_mul F L), <- (Nat.max_id sz). exact V.
    Qed.
    Lemma stepF_square : forall a k all m y, In a all -> valF m a y ->
      (forall e all', incl all all' -> In e all' -> valF m e (fmul y y) -> e_op e = Square -> e_ops e = [a] -> works (k e) all' m R) ->
      works (bind (square a) k) all m R.
    Proof.
      intros a k all m y Ia Va K. eapply (step_unary G A R Square); [reflexivity|exact Ia|exact Va|].
      intros e all' C Ie V O1 O2. apply K; auto. unfold valF. rewrite (bl_mul F L). exact V.
    Qed.
    Lemma stepF_const : forall z k all m,
      (forall e all', incl all all' -> In e all' -> valF m e z -> single (e_op e) = true -> e_ops e = [] -> works (k e) all' m R) ->
      works (bind (const_f F z) k) all m R.
    Proof.
      intros z k all m K. apply (step_constant G A R (bf_ext F) (bf_emb z)); [apply (bl_elt F L)|].
      intros e all' C Ie V O1 O2. apply K; auto. now rewrite O1.
    Qed.
    Lemma stepF_skip : forall z k all m, (forall all', incl all all' -> works k all' m R) -> works (bind (const_f F z) (fun _ => k)) all m R.
    Proof. intros z k all m K. apply stepF_const. intros e all' C _ _ _ _. now apply K. Qed.
    Lemma stepF_mulf : forall a z k all m y, In a all -> valF m a y ->
      (forall e c all', incl all all' -> In e all' -> valF m e (fmul y z) -> e_op e = Mul -> e_ops e = [a; c] -> plain c -> works (k e) all' m R) ->
      works (bind (mul_f F a z) k) all m R.
    Proof.
      intros a z k all m y Ia Va K.
      assert (W : works (bind (const_f F z) (fun c => bind (mul a c) k)) all m R).
      { apply stepF_const. intros c all1 C1 Ic Vc O1 O2. eapply stepF_mul; [apply C1, Ia|exact Ic|exact Va|exact Vc|].
        intros e all2 C2 Ie Ve P1 P2. eapply K; eauto. { eapply incl_tran; eauto. }
        apply plain_node; [exact O1|]. rewrite O2. constructor. }
      intros n Iv. destruct (W n Iv) as (a' & m' & n' & all' & E & Rest). exists a', m', n', all'. split; [|exact Rest].
      rewrite <- E. unfold mul_f, bind. now destruct (const_f F z n) as [[c n1]|].
    Qed.
    Lemma stepF_input : forall z k all m,
      (forall e all', incl all all' -> In e all' -> valF (with_input (f_words F z) m) e z -> e_op e = InputVarMove (input_var (mn_counter m)) -> e_ops e = [] ->
         works (k (e, with_input (f_words F z) m)) all' (with_input (f_words F z) m) R) ->
      works (bind (assign_input_var (f_words F z) m) k) all m R.
    Proof.
      intros z k all m K. apply (step_input G A R); [apply words_known|]. intros e all' C Ie V O1 O2. apply K; auto.
      apply says_val; [apply (bl_elt F L)|exact V].
    Qed.
    Lemma stepF_hint : forall z k all m,
      (forall e all', incl all all' -> In e all' -> valF (with_hint (f_words F z) m) e z -> e_op e = InputVarMove (input_var (mn_counter m)) -> e_ops e = [] ->
         works (k (e, with_hint (f_words F z) m)) all' (with_hint (f_words F z) m) R) ->
      works (bind (assign_input_hint (f_words F z) m) k) all m R.
    Proof.
      intros z k all m K. apply (step_hint G A R); [apply words_known|]. intros e all' C Ie V O1 O2. apply K; auto.
      apply says_val; [apply (bl_elt F L)|exact V].
    Qed.
    Lemma stepF_equal : forall a b k all m y z, In a all -> In b all -> valF m a y -> valF m b z ->
      (forall e all', incl all all' -> In e all' -> judges G m e sz (y = z) -> e_op e = Equal -> e_ops e = [a; b] -> works (k e) all' m R) ->
      works (bind (equal a b) k) all m R.
    Proof.
      intros a b k all m y z Ia Ib Va Vb K. eapply (step_equal G A R); [exact Ia|exact Ib|exact Va|exact Vb|].
      intros e all' C Ie J O1 O2. apply K; auto. intros gt env Fg. destruct (J gt env Fg) as (J1 & J2 & J3).
      split; [|split].
      - intros ->. now apply J1.
      - intros N. apply J2. intros Q. now apply N, (bl_inj F L).
      - intros N. apply J3. intros Q. now apply N, (bl_inj F L).
    Qed.
    Lemma step_get : forall B (b : B) (o : option B) (k : B -> builder (A * manager)) all m, o = Some b -> works (k b) all m R -> works (bind (get o) k) all m R.
    Proof. intros B b o k all m -> W n Iv. exact (W n Iv). Qed.
    Lemma step_let : forall B (b : builder B) (k : B -> builder (A * manager)) v all m, b = ret v -> works (k v) all m R -> works (bind b k) all m R.
    Proof. intros B b k v all m -> W n Iv. exact (W n Iv). Qed.
  End Steps.

  Lemma plain_ops : forall e o ops, e_op e = o -> e_ops e = ops -> single o = true -> Forall plain ops -> plain e.
  Proof. intros e o ops <- <- So Fo. now apply plain_node. Qed.

  (** the half of the codeword at -x *)
  Lemma inv_minus : forall x : F, x <> f0 -> fsub (fmul x (fopp f1)) x <> f0 /\ fsub x (fmul x (fopp f1)) <> f0.
  Proof.
    intros x N. pose proof (two_nz F) as N2. split.
    - replace (fsub (fmul x (fopp f1)) x) with (fopp (fmul (fadd f1 f1) x)) by ring. now apply fopp_nz, fmul_nz.
    - replace (fsub x (fmul x (fopp f1))) with (fmul (fadd f1 f1) x) by ring. now apply fmul_nz.
  Qed.
  Lemma folded_even : forall beta x a b : F, x <> f0 ->
    fadd b (fmul (fmul (fsub beta (fmul x (fopp f1))) (fsub a b)) (fmul f1 (finv (fsub x (fmul x (fopp f1)))))) = folded_pair F beta x a b.
  Proof.
    intros beta x a b N. pose proof (two_nz F) as N2. destruct (inv_minus x N) as [_ N1].
    replace (fsub x (fmul x (fopp f1))) with (fmul (fadd f1 f1) x) in * by ring. unfold folded_pair. field. repeat split; auto.
  Qed.
  Lemma folded_odd : forall beta x a b : F, x <> f0 ->
    fadd a (fmul (fmul (fsub beta x) (fsub b a)) (fmul f1 (finv (fsub (fmul x (fopp f1)) x)))) = folded_pair F beta x a b.
  Proof.
    intros beta x a b N. pose proof (two_nz F) as N2. destruct (inv_minus x N) as [N1 _].
    replace (fsub (fmul x (fopp f1)) x) with (fopp (fmul (fadd f1 f1) x)) in * by ring. unfold folded_pair. field. repeat split; auto.
  Qed.

  Record folded_ok (folded sibling x beta : expr) (zf zs zx xh zb : F) (m : manager) (e : expr) (m' : manager) (all' : list expr) : Prop := mk_folded {
    fo_in : In e all';
    fo_val : zx = xh -> valF m' e (folded_pair F zb zx zf zs);
    fo_sub : sub folded e /\ sub sibling e /\ sub beta e;
    fo_plain : plain folded -> plain sibling -> plain x -> plain beta -> plain e;
    fo_exec : mn_exec m' = mn_exec m;
    fo_check : exists c, mn_checks m' = mn_checks m ++ [c] /\ In c all' /\ judges G m' c sz (zx = xh) /\ (plain x -> plain c) /\
      forall v, In v (map fst (given m')) -> In v (map fst (given m)) \/ moves v c }.

  Lemma fold_row_works : forall folded sibling x beta all m i zf zs zx xh zb,
    In folded all -> In sibling all -> In x all -> In beta all ->
    valF m folded zf -> valF m sibling zs -> valF m x zx -> valF m beta zb -> xh <> f0 ->
    works (fold_row_with_expr F folded sibling x xh i beta m) all m (folded_ok folded sibling x beta zf zs zx xh zb m).
  Proof.
    intros folded sibling x beta all m i zf zs zx xh zb If Is Ix Ib Vf Vs Vx Vb Nz.
    pose proof (bl_adic F L) as Ad. pose proof (inv_minus xh Nz) as [N1 N2]. pose proof (two_nz F) as N3.
    unfold fold_row_with_expr. eapply step_get; [apply tag_some; lia|]. rewrite (gen_1 F) by lia.
    set (inv := fmul f1 (finv (if i mod 2 =? 0 then fsub xh (fmul xh (fopp f1)) else fsub (fmul xh (fopp f1)) xh)) : F).
    apply step_get with (b := inv).
    { unfold checked_div, inv. destruct (i mod 2 =? 0); cbn [fst snd]; rewrite inverse_nz by assumption; reflexivity. }
    apply stepF_skip. intros all1 C1. apply stepF_skip. intros all2 C2.
    assert (C12 : incl all all2) by (eapply incl_tran; eauto).
    eapply stepF_mulf; [apply C12, Ix|exact Vx|]. intros rx cg all3 C3 Irx Vrx Orx Prx Pcg.
    apply stepF_skip. intros all4 C4. apply stepF_skip. intros all5 C5.
    assert (C35 : incl all3 all5) by (eapply incl_tran; eauto). assert (C05 : incl all all5) by (eapply incl_tran; [exact C12|eapply incl_tran; eauto]).
    set (xs := if i mod 2 =? 0 then (rx, x) else (x, rx)).
    set (zxs := if i mod 2 =? 0 then (fmul zx (fopp f1), zx) else (zx, fmul zx (fopp f1)) : F * F).
    set (evs := if i mod 2 =? 0 then (sibling, folded) else (folded, sibling)).
    set (zevs := if i mod 2 =? 0 then (zs, zf) else (zf, zs) : F * F).
    assert (Hx : In (fst xs) all5 /\ In (snd xs) all5 /\ valF m (fst xs) (fst zxs) /\ valF m (snd xs) (snd zxs)).
    { unfold xs, zxs. destruct (i mod 2 =? 0); cbn [fst snd]; auto. }
    destruct Hx as (Ix0 & Ix1 & Vx0 & Vx1).
    assert (He : In (fst evs) all5 /\ In (snd evs) all5 /\ valF m (fst evs) (fst zevs) /\ valF m (snd evs) (snd zevs)).
    { unfold evs, zevs. destruct (i mod 2 =? 0); cbn [fst snd]; auto. }
    destruct He as (Ie0 & Ie1 & Ve0 & Ve1).
    eapply stepF_sub; [apply C05, Ib|exact Ix0|exact Vb|exact Vx0|]. intros d all6 C6 Id Vd Od Pd.
    eapply stepF_sub; [apply C6, Ie1|apply C6, Ie0|exact Ve1|exact Ve0|]. intros de all7 C7 Ide Vde Ode Pde.
    eapply stepF_mul; [apply C7, Id|exact Ide|exact Vd|exact Vde|]. intros p all8 C8 Ip Vp Op Pp.
    eapply stepF_mulf; [exact Ip|exact Vp|]. intros q ci all9 C9 Iq Vq Oq Pq Pci.
    assert (C59 : incl all5 all9) by (repeat (eapply incl_tran; [eassumption|]); apply incl_refl).
    eapply stepF_add; [apply C59, Ie0|exact Iq|exact Ve0|exact Vq|]. intros nf all10 C10 Inf Vnf Onf Pnf.
    assert (C510 : incl all5 all10) by (eapply incl_tran; eauto).
    eapply stepF_sub; [apply C510, Ix1|apply C510, Ix0|exact Vx1|exact Vx0|]. intros dx all11 C11 Idx Vdx Odx Pdx.
    apply stepF_hint. intros h all12 C12' Ih Vh Oh Ph. cbn [fst snd]. set (mh := with_hint (f_words F inv) m) in *.
    assert (Mh : incl (given m) (given mh)) by (intros y Iy; apply given_hint; now left).
    eapply stepF_mul; [apply C12', Idx|exact Ih|exact (valF_mono _ _ _ _ Mh Vdx)|exact Vh|]. intros one all13 C13 Io Vo Oo Po.
    apply stepF_const. intros c1 all14 C14 Ic1 Vc1 Oc1 Pc1.
    eapply stepF_equal; [apply C14, Io|exact Ic1|exact Vo|exact Vc1|]. intros v all15 C15 Iv Jv Ov Pv.
    apply (step_check _ _ v); [exact Iv|]. apply works_ret.
    assert (C1015 : incl all10 all15) by (repeat (eapply incl_tran; [eassumption|]); apply incl_refl).
    assert (S01 : sub folded nf /\ sub sibling nf).
    { assert (S0 : sub (fst evs) nf) by (apply sub_op; rewrite Pnf; now left).
      assert (S1 : sub (snd evs) nf).
      { apply sub_trans with q; [|apply sub_op; rewrite Pnf; right; now left]. apply sub_trans with p; [|apply sub_op; rewrite Pq; now left].
        apply sub_trans with de; [|apply sub_op; rewrite Pp; right; now left]. apply sub_op. rewrite Pde. now left. }
      unfold evs in S0, S1. destruct (i mod 2 =? 0); cbn [fst snd] in S0, S1; auto. }
    assert (Sd : sub beta nf).
    { apply sub_trans with q; [|apply sub_op; rewrite Pnf; right; now left]. apply sub_trans with p; [|apply sub_op; rewrite Pq; now left].
      apply sub_trans with d; [|apply sub_op; rewrite Pp; now left]. apply sub_op. rewrite Pd. now left. }
    assert (Pxs : plain x -> plain (fst xs) /\ plain (snd xs)).
    { intros Px. assert (plain rx) by (eapply plain_ops; eauto). unfold xs. destruct (i mod 2 =? 0); auto. }
    constructor.
    - apply C1015, Inf.
    - intros Ex. subst xh. apply (valF_mono m); [intros y Iy; apply Mh, Iy|].
      replace (folded_pair F zb zx zf zs) with (fadd (fst zevs) (fmul (fmul (fsub zb (fst zxs)) (fsub (snd zevs) (fst zevs))) inv)); [exact Vnf|].
      unfold zevs, zxs, inv. destruct (i mod 2 =? 0); cbn [fst snd]; [now apply folded_even|now apply folded_odd].
    - split; [apply S01|split; [apply S01|exact Sd]].
    - intros Pf Ps Px Pb. destruct (Pxs Px) as [Px0 Px1].
      assert (Pe : plain (fst evs) /\ plain (snd evs)) by (unfold evs; destruct (i mod 2 =? 0); auto). destruct Pe as [Pe0 Pe1].
      assert (plain d) by (eapply plain_ops; eauto). assert (plain de) by (eapply plain_ops; eauto).
      assert (plain p) by (eapply plain_ops; eauto). assert (plain q) by (eapply plain_ops; eauto). eapply plain_ops; eauto.
    - reflexivity.
    - exists v. split; [reflexivity|]. split; [exact Iv|]. split; [|split].
      + assert (Q : fmul (fsub (snd zxs) (fst zxs)) inv = fdiv zx xh).
        { unfold zxs, inv. destruct (i mod 2 =? 0); cbn [fst snd].
          - replace (fsub xh (fmul xh (fopp f1))) with (fmul (fadd f1 f1) xh) by ring. field. auto.
          - replace (fsub (fmul xh (fopp f1)) xh) with (fopp (fmul (fadd f1 f1) xh)) in * by ring. field. auto. }
        assert (Qe : fmul (fsub (snd zxs) (fst zxs)) inv = f1 <-> zx = xh).
        { rewrite Q. split; [|intros ->; field; exact Nz]. intros E1. replace zx with (fmul (fdiv zx xh) xh) by (field; exact Nz). rewrite E1. ring. }
        intros gt env Fg. assert (Fm : fits gt env mh) by exact Fg. destruct (Jv gt env Fm) as (J1 & J2 & J3). split; [|split].
        * intros E1. apply J1. now apply Qe.
        * intros E1. apply J2. intros E2. now apply E1, Qe.
        * intros E1. apply J3. intros E2. now apply E1, Qe.
      + intros Px. destruct (Pxs Px) as [Px0 Px1]. assert (plain dx) by (eapply plain_ops; eauto).
        assert (plain h) by (eapply plain_ops; eauto). assert (plain one) by (eapply plain_ops; eauto).
        assert (plain c1) by (eapply plain_ops; eauto; constructor). eapply plain_ops; eauto.
      + intros w Iw. apply in_map_iff in Iw as (y & <- & Iy). assert (Iy' : In y (given mh)) by exact Iy.
        apply given_hint in Iy' as [Iy'| ->]; [left; now apply in_map|right]. exists h. split; [|exact Oh].
        apply sub_trans with one; [apply sub_op; rewrite Po; right; now left|apply sub_op; rewrite Pv; now left].
  Qed.
End Fri.
