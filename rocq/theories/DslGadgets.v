(** Scripts that meet the contract asked of the external field scripts.  They are
    not the scripts of that crate; they show that the contract can be met and
    supply the examples with something to run. *)
From Coq Require Import ZArith List Bool Lia Arith.
From Coq Require Import ZifyBool ZifyNat.
From Verif Require Import ScriptNum ScriptVM VMLemmas U32Model U32Proofs U32Proofs2 U31Model U31Proofs Macros
  HelperModel HelperProofs HelperRou Lift PropWords PropHelper.
From Verif Require Import Field BabyBear DslModel DslStack DslSpec DslOpSpec DslProofs DslOps.
Import ListNotations.
Local Open Scope Z_scope.

(** y0 y1 y2 y3 x0 x1 x2 x3 on the stack under [d] temporaries: push x_i * y_j *)
Definition prod_at (d i j : Z) : script :=
  [PUSHN (4 + i + d); OP_PICK; PUSHN (j + 1 + d); OP_PICK] ++ u31_mul.
Definition sum_at (d : Z) (p : Z * Z) (ps : list (Z * Z)) : script :=
  prod_at d (fst p) (snd p) ++ flat_map (fun q => prod_at (d + 1) (fst q) (snd q) ++ u31_add) ps.
Definition times11 : script := [PUSHN 11] ++ u31_mul.
Definition my_mul : script :=
  (sum_at 0 (0, 0) [] ++ sum_at 1 (1, 3) [(2, 2); (3, 1)] ++ times11 ++ u31_add ++ [OP_TOALTSTACK]) ++
  (sum_at 0 (0, 1) [(1, 0)] ++ sum_at 1 (2, 3) [(3, 2)] ++ times11 ++ u31_add ++ [OP_TOALTSTACK]) ++
  (sum_at 0 (0, 2) [(1, 1); (2, 0)] ++ sum_at 1 (3, 3) [] ++ times11 ++ u31_add ++ [OP_TOALTSTACK]) ++
  (sum_at 0 (0, 3) [(1, 2); (2, 1); (3, 0)] ++ [OP_TOALTSTACK]) ++
  OP_4DROP ++ OP_4DROP ++ OP_4FROMALTSTACK.
Definition my_to_ext : script := [PUSHN 0; OP_SWAP; PUSHN 0; OP_SWAP; PUSHN 0; OP_SWAP].
Definition my_gadgets : gadgets := mkgadgets
  ([PUSHN 0; OP_SWAP] ++ u31_sub) my_to_ext u31_add u31_sub (my_to_ext ++ OP_4SWAP ++ u31ext_sub)
  my_mul (my_to_ext ++ my_mul) ([PUSHN 0; PUSHN 0; PUSHN 0; PUSHN 0] ++ OP_4SWAP ++ u31ext_sub).

Section Proofs.
  Variable H : bytes -> bytes.
  Variables x0 x1 x2 x3 y0 y1 y2 y3 : Z.
  Let X i := nth (Z.to_nat i) [x0; x1; x2; x3] 0.
  Let Y i := nth (Z.to_nat i) [y0; y1; y2; y3] 0.
  Hypothesis CX : forall i, canon (X i).
  Hypothesis CY : forall i, canon (Y i).
  Variables r : list val.
  Let base : list val := map I [y0; y1; y2; y3] ++ map I [x0; x1; x2; x3] ++ r.

  Lemma canon_mod z : canon (z mod MOD). Proof. apply Z.mod_pos_bound. reflexivity. Qed.

  Lemma prod_at_ok t d i j al : d = Z.of_nat (length t) -> (length t <= 2)%nat -> 0 <= i < 4 -> 0 <= j < 4 ->
    run H (prod_at d i j) (mk (t ++ base) al []) = Some (mk (I ((X i * Y j) mod MOD) :: t ++ base) al []).
  Proof.
    intros -> L Hi Hj. unfold prod_at.
    eapply (run_seq H _ _ _ (mk (I (Y j) :: I (X i) :: t ++ base) al [])); [|apply u31_mul_ok; auto].
    assert (Hi' : i = 0 \/ i = 1 \/ i = 2 \/ i = 3) by lia. assert (Hj' : j = 0 \/ j = 1 \/ j = 2 \/ j = 3) by lia.
    destruct t as [|? [|? [|? ?]]]; cbn [length] in L; try lia;
      destruct Hi' as [->|[->|[->| ->]]]; destruct Hj' as [->|[->|[->| ->]]]; reflexivity.
  Qed.

  Definition dot (ps : list (Z * Z)) : Z := fold_left (fun s q => (s + (X (fst q) * Y (snd q)) mod MOD) mod MOD) ps 0.

  Lemma sum_at_ok t d p ps al : d = Z.of_nat (length t) -> (length t <= 1)%nat ->
    Forall (fun q => 0 <= fst q < 4 /\ 0 <= snd q < 4) (p :: ps) ->
    run H (sum_at d p ps) (mk (t ++ base) al []) = Some (mk (I (dot (p :: ps)) :: t ++ base) al []).
  Proof.
    intros D L F. apply Forall_cons_iff in F as [[F1 F2] F3]. unfold sum_at.
    eapply run_seq; [apply (prod_at_ok t d (fst p) (snd p)); auto; lia|].
    unfold dot. cbn [fold_left]. rewrite Z.add_0_l, Z.mod_mod by discriminate.
    assert (C : canon ((X (fst p) * Y (snd p)) mod MOD)) by apply canon_mod.
    revert C. generalize ((X (fst p) * Y (snd p)) mod MOD). clear F1 F2.
    induction F3 as [|q ps [Q1 Q2] F IH]; intros s C; [reflexivity|].
    cbn [flat_map fold_left]. eapply run_seq; [|apply IH, canon_mod].
    eapply run_seq; [apply (prod_at_ok (I s :: t) (d + 1) (fst q) (snd q)); auto; cbn [length]; lia|].
    cbn [app]. rewrite u31_add_ok; auto using canon_mod.
  Qed.

  Lemma times11_ok z m al : canon z -> run H times11 (mk (I z :: m) al []) = Some (mk (I ((z * 11) mod MOD) :: m) al []).
  Proof.
    intros C. unfold times11. eapply run_seq; [reflexivity|]. apply u31_mul_ok; [exact C|unfold canon, MOD; lia].
  Qed.
  Lemma dot_canon ps : canon (dot ps).
  Proof.
    unfold dot. assert (canon 0) by (unfold canon, MOD; lia). revert H0. generalize 0.
    induction ps; intros z Cz; [exact Cz|]. cbn [fold_left]. apply IHps, canon_mod.
  Qed.

  Definition my_prod : list Z :=
    [(dot [(0, 0)] + (dot [(1, 3); (2, 2); (3, 1)] * 11) mod MOD) mod MOD;
     (dot [(0, 1); (1, 0)] + (dot [(2, 3); (3, 2)] * 11) mod MOD) mod MOD;
     (dot [(0, 2); (1, 1); (2, 0)] + (dot [(3, 3)] * 11) mod MOD) mod MOD;
     dot [(0, 3); (1, 2); (2, 1); (3, 0)]].

  Lemma my_mul_run al : run H my_mul (mk base al []) = Some (mk (map I my_prod ++ r) al []).
  Proof.
    assert (Two : forall p ps q qs al,
      Forall (fun q => 0 <= fst q < 4 /\ 0 <= snd q < 4) (p :: ps) ->
      Forall (fun q => 0 <= fst q < 4 /\ 0 <= snd q < 4) (q :: qs) ->
      run H (sum_at 0 p ps ++ sum_at 1 q qs ++ times11 ++ u31_add ++ [OP_TOALTSTACK]) (mk base al []) =
      Some (mk base (I ((dot (p :: ps) + (dot (q :: qs) * 11) mod MOD) mod MOD) :: al) [])).
    { intros p ps q qs a' F1 F2.
      eapply run_seq; [apply (sum_at_ok [] 0 p ps); auto; cbn; lia|].
      eapply run_seq; [apply (sum_at_ok [I (dot (p :: ps))] 1 q qs); auto; cbn; lia|].
      eapply run_seq; [apply times11_ok, dot_canon|].
      eapply run_seq; [apply u31_add_ok; auto using dot_canon, canon_mod|]. reflexivity. }
    assert (One : forall p ps al,
      Forall (fun q => 0 <= fst q < 4 /\ 0 <= snd q < 4) (p :: ps) ->
      run H (sum_at 0 p ps ++ [OP_TOALTSTACK]) (mk base al []) = Some (mk base (I (dot (p :: ps)) :: al) [])).
    { intros p ps a' F1. eapply run_seq; [apply (sum_at_ok [] 0 p ps); auto; cbn; lia|]. reflexivity. }
    unfold my_mul.
    eapply run_seq; [apply Two; repeat constructor; cbn; lia|].
    eapply run_seq; [apply Two; repeat constructor; cbn; lia|].
    eapply run_seq; [apply Two; repeat constructor; cbn; lia|].
    eapply run_seq; [apply One; repeat constructor; cbn; lia|].
    reflexivity.
  Qed.
End Proofs.

Section Field.
  Add Field BBG : (fth BabyBear).
  Lemma my_prod_ok x0 x1 x2 x3 y0 y1 y2 y3 :
    my_prod x0 x1 x2 x3 y0 y1 y2 y3 = limbs 4 (fmul (felt [x0; x1; x2; x3]) (felt [y0; y1; y2; y3])).
  Proof.
    assert (A : forall a b, of_Z (a + b) = @fadd BabyBear (of_Z a) (of_Z b)) by apply of_Z_add.
    assert (M : forall a b, of_Z (a * b) = @fmul BabyBear (of_Z a) (of_Z b)) by apply of_Z_mul.
    assert (D : forall a, of_Z (a mod BP) = of_Z a) by (intros; apply of_Z_eq, Z.mod_mod; discriminate).
    assert (Lift : forall (z : bb) a, of_Z a = z -> a mod BP = as_canonical z) by (intros z a <-; reflexivity).
    assert (F : forall a, a mod MOD = (a mod BP) mod BP) by (intros; symmetry; apply Z.mod_mod; discriminate).
    unfold my_prod, dot. cbn [fold_left fst snd Z.to_nat].
    change (Pos.to_nat 1) with 1%nat. change (Pos.to_nat 2) with 2%nat. change (Pos.to_nat 3) with 3%nat. cbn [nth].
    unfold felt. cbn [nth]. unfold limbs, ext. cbn [fmul BB4 BB2 quad]. unfold q_mul. cbn [fst snd].
    cbn [fmul fadd BB2 quad]. unfold q_mul, q_add, BB2_y. cbn [fst snd].
    cbn [limbs4 map firstn].
    repeat (match goal with |- _ :: _ = _ :: _ => f_equal end); try reflexivity;
      apply Lift; repeat (rewrite ?A, ?M, ?D; change MOD with BP); change (of_Z 0) with (@f0 BabyBear);
      change (of_Z 1) with (@f1 BabyBear);
      match goal with |- @eq _ ?a ?b => change (@eq (car BabyBear) a b) end; ring.
  Qed.
End Field.

Lemma canon_nth l i : Forall canon l -> canon (nth i l 0).
Proof.
  intros F. destruct (Nat.lt_ge_cases i (length l)) as [L|L].
  - rewrite Forall_forall in F. apply F, nth_In, L.
  - rewrite nth_overflow by exact L. unfold canon, MOD. lia.
Qed.

Lemma my_mul_ok H x y r al : is_elt 4 x = true -> is_elt 4 y = true ->
  run H my_mul (mk (map I y ++ map I x ++ r) al []) = Some (mk (map I (limbs 4 (fmul (felt x) (felt y))) ++ r) al []).
Proof.
  intros X Y. apply elt_4 in X as (x0 & x1 & x2 & x3 & -> & BX). apply elt_4 in Y as (y0 & y1 & y2 & y3 & -> & BY).
  rewrite <- my_prod_ok. apply my_mul_run; intros i; apply canon_nth; repeat constructor; unfold MOD; unfold BP in *; lia.
Qed.
Lemma exec_my_mul H x y rest al : is_elt 4 x = true -> is_elt 4 y = true ->
  exec H my_mul (nums y ++ nums x ++ rest) al (nums (limbs 4 (fmul (felt x) (felt y))) ++ rest) al.
Proof. intros X Y. pose proof (my_mul_ok H x y (map B rest) (map B al) X Y) as E. tobytes E. exact E. Qed.

Lemma elt_embed x : is_elt 1 x = true -> is_elt 4 (x ++ [0; 0; 0]) = true /\ felt (x ++ [0; 0; 0]) = felt x.
Proof.
  intros E. apply elt_1 in E as (a & -> & A). split; [|reflexivity].
  unfold PropWords.canonical, P31 in A. unfold is_elt, canonical. cbn. unfold BP. lia.
Qed.
Lemma exec_my_to_ext H x rest al : is_elt 1 x = true ->
  exec H my_to_ext (nums x ++ rest) al (nums (x ++ [0; 0; 0]) ++ rest) al.
Proof. intros E. apply elt_1 in E as (a & -> & A). reflexivity. Qed.

Lemma opp_sub (z : BB4) : fopp z = fsub f0 z.
Proof.
  rewrite (Ring_theory.Rsub_def (Field_theory.F_R (fth BB4))).
  now rewrite (Ring_theory.Radd_0_l (Field_theory.F_R (fth BB4))).
Qed.

Theorem gadgets_satisfiable : forall H, gadgets_ok H my_gadgets.
Proof.
  intros H. constructor; cbn [g_neg g_ext_neg g_ext_add_u31 g_ext_sub_u31 g_u31_sub_ext g_ext_mul g_ext_mul_u31 my_gadgets].
  - intros x rest al X. apply elt_1 in X as (a & -> & A).
    eapply (exec_seq H [PUSHN 0; OP_SWAP] _ _ _ (nums [a; 0] ++ rest)); [reflexivity|].
    rewrite opp_sub. replace f0 with (felt [0]) by reflexivity. rewrite base_sub.
    apply C17_u31_sub; [unfold PropWords.canonical, P31; lia|exact A].
  - intros x rest al X. pose proof (elt_canonical4 _ X) as C. apply elt_4 in X as (x0 & x1 & x2 & x3 & -> & _).
    eapply (exec_seq H [PUSHN 0; PUSHN 0; PUSHN 0; PUSHN 0]); [reflexivity|].
    eapply exec_seq; [apply (C01_op_4swap H (enc 0) (enc 0) (enc 0) (enc 0) (enc x0) (enc x1) (enc x2) (enc x3) rest)|].
    rewrite opp_sub. replace f0 with (felt [0; 0; 0; 0]) by reflexivity. rewrite ext_sub_limbs.
    apply (C54_u31ext_sub H [0; 0; 0; 0] [x0; x1; x2; x3]); [|exact C].
    split; [reflexivity|]. repeat constructor; unfold P31; lia.
  - intros x y rest al X Y. apply elt_4 in X as (x0 & x1 & x2 & x3 & -> & BX). apply elt_1 in Y as (b & -> & B).
    rewrite ext_add_limbs || (change (felt [b]) with (felt [b; 0; 0; 0]); rewrite ext_add_limbs).
    unfold zip2. cbn [combine map fst snd]. rewrite !Z.add_0_r.
    rewrite (Z.mod_small x1), (Z.mod_small x2), (Z.mod_small x3) by (unfold BP, P31 in *; lia).
    apply (C17_u31_add H x0 b (nums [x1; x2; x3] ++ rest)); [unfold PropWords.canonical, P31; unfold BP in *; lia|exact B].
  - intros x y rest al X Y. apply elt_4 in X as (x0 & x1 & x2 & x3 & -> & BX). apply elt_1 in Y as (b & -> & B).
    change (felt [b]) with (felt [b; 0; 0; 0]); rewrite ext_sub_limbs.
    unfold zip2. cbn [combine map fst snd]. rewrite !Z.sub_0_r.
    rewrite (Z.mod_small x1), (Z.mod_small x2), (Z.mod_small x3) by (unfold BP, P31 in *; lia).
    apply (C17_u31_sub H x0 b (nums [x1; x2; x3] ++ rest)); [unfold PropWords.canonical, P31; unfold BP in *; lia|exact B].
  - intros x y rest al X Y. eapply exec_seq; [apply exec_my_to_ext, X|].
    destruct (elt_embed x X) as [X4 <-]. pose proof (C54_u31ext_sub H _ _ rest al (elt_canonical4 _ X4) (elt_canonical4 _ Y)) as E.
    set (x' := x ++ [0; 0; 0]) in *. clearbody x'.
    apply elt_4 in X4 as (x0 & x1 & x2 & x3 & -> & _). apply elt_4 in Y as (y0 & y1 & y2 & y3 & -> & _).
    rewrite ext_sub_limbs. eapply exec_seq; [|exact E].
    apply (C01_op_4swap H (enc x0) (enc x1) (enc x2) (enc x3) (enc y0) (enc y1) (enc y2) (enc y3) rest).
  - intros x y rest al X Y. now apply exec_my_mul.
  - intros x y rest al X Y. eapply exec_seq; [apply exec_my_to_ext, Y|].
    destruct (elt_embed y Y) as [Y4 <-]. now apply exec_my_mul.
  - split; [|reflexivity]. intros x y r a X Y. cbn [as_u32_vec].
    assert (E4 : forall z, canon z -> is_elt 4 [z; 0; 0; 0] = true).
    { intros z C. unfold is_elt, canonical. cbn. unfold BP. unfold canon, MOD in C. lia. }
    rewrite (my_mul_ok H [x; 0; 0; 0] [y; 0; 0; 0] r a) by auto.
    change (felt [x; 0; 0; 0]) with (from_base (of_Z x)). change (felt [y; 0; 0; 0]) with (from_base (of_Z y)).
    rewrite <- from_base_mul, limbs_4_base. do 2 f_equal. cbn. rewrite <- Zmult_mod. reflexivity.
Qed.
