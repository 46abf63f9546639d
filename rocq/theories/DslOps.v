(** Every opcode of the expression language: the generated script computes the
    meaning of [DslOpSpec]. *)
From Coq Require Import ZArith List Bool Lia Arith.
From Coq Require Import ZifyBool ZifyNat.
From Verif Require Import ScriptNum ScriptVM VMLemmas U32Model U32Proofs U32Proofs2 U31Model U31Proofs Macros
  HelperModel HelperProofs HelperRou Lift PropWords PropHelper Blake3Model Blake3Spec PropBlake.
From Verif Require Import Field BabyBear DslModel DslStack DslSpec DslOpSpec DslProofs.
Import ListNotations.
Local Open Scope Z_scope.

(** What is required of the scripts of the external crate rust-bitcoin-m31-or-babybear
    (u31_neg, the mixed and the extension-field operations): each computes the
    field operation of its name on canonical operands; u31ext_mul also works on
    embedded base elements as index_to_rou needs it ([mul_contract]). *)
Record gadgets_ok (H : bytes -> bytes) (G : gadgets) : Prop := mkgok {
  gk_neg : forall x rest alt, is_elt 1 x = true ->
    exec H (g_neg G) (nums x ++ rest) alt (nums (limbs 1 (fopp (felt x))) ++ rest) alt;
  gk_ext_neg : forall x rest alt, is_elt 4 x = true ->
    exec H (g_ext_neg G) (nums x ++ rest) alt (nums (limbs 4 (fopp (felt x))) ++ rest) alt;
  gk_ext_add_u31 : forall x y rest alt, is_elt 4 x = true -> is_elt 1 y = true ->
    exec H (g_ext_add_u31 G) (nums y ++ nums x ++ rest) alt (nums (limbs 4 (fadd (felt x) (felt y))) ++ rest) alt;
  gk_ext_sub_u31 : forall x y rest alt, is_elt 4 x = true -> is_elt 1 y = true ->
    exec H (g_ext_sub_u31 G) (nums y ++ nums x ++ rest) alt (nums (limbs 4 (fsub (felt x) (felt y))) ++ rest) alt;
  gk_u31_sub_ext : forall x y rest alt, is_elt 1 x = true -> is_elt 4 y = true ->
    exec H (g_u31_sub_ext G) (nums x ++ nums y ++ rest) alt (nums (limbs 4 (fsub (felt x) (felt y))) ++ rest) alt;
  gk_ext_mul : forall x y rest alt, is_elt 4 x = true -> is_elt 4 y = true ->
    exec H (g_ext_mul G) (nums y ++ nums x ++ rest) alt (nums (limbs 4 (fmul (felt x) (felt y))) ++ rest) alt;
  gk_ext_mul_u31 : forall x y rest alt, is_elt 4 x = true -> is_elt 1 y = true ->
    exec H (g_ext_mul_u31 G) (nums y ++ nums x ++ rest) alt (nums (limbs 4 (fmul (felt x) (felt y))) ++ rest) alt;
  gk_rou : mul_contract H true (g_ext_mul G)
}.

(** ** Elements and limbs *)
Lemma elt_cases n l : is_elt n l = true ->
  (n = 1%nat /\ exists x, l = [x] /\ 0 <= x < BP) \/
  (n = 4%nat /\ exists x0 x1 x2 x3, l = [x0; x1; x2; x3] /\
     0 <= x0 < BP /\ 0 <= x1 < BP /\ 0 <= x2 < BP /\ 0 <= x3 < BP).
Proof.
  unfold is_elt. rewrite !andb_true_iff, orb_true_iff. intros [[[N|N] L] F]; apply Nat.eqb_eq in N, L; subst n.
  - left. destruct l as [|x [|? ?]]; try discriminate L. split; [reflexivity|]. exists x. split; [reflexivity|].
    cbn in F. unfold canonical in F. lia.
  - right. destruct l as [|x0 [|x1 [|x2 [|x3 [|? ?]]]]]; try discriminate L. split; [reflexivity|].
    exists x0, x1, x2, x3. split; [reflexivity|]. cbn [forallb] in F. unfold canonical in F. lia.
Qed.
Lemma elt_1 x : is_elt 1 x = true -> exists a, x = [a] /\ PropWords.canonical a.
Proof. intros E. apply elt_cases in E as [(_ & a & -> & B)|(N & _)]; [|discriminate N]. exists a. split; [reflexivity|exact B]. Qed.
Lemma elt_4 x : is_elt 4 x = true -> exists x0 x1 x2 x3, x = [x0; x1; x2; x3] /\
  0 <= x0 < BP /\ 0 <= x1 < BP /\ 0 <= x2 < BP /\ 0 <= x3 < BP.
Proof. intros E. apply elt_cases in E as [(N & _)|(_ & E)]; [discriminate N|exact E]. Qed.
Lemma elt_canonical4 x : is_elt 4 x = true -> canonical4 x.
Proof.
  intros E. apply elt_4 in E as (x0 & x1 & x2 & x3 & -> & B). split; [reflexivity|].
  unfold PropWords.canonical, P31. unfold BP in B. repeat constructor; lia.
Qed.

Lemma felt_1 x : felt [x] = from_base (of_Z x). Proof. reflexivity. Qed.
Lemma limbs_1_base c : limbs 1 (from_base c) = [as_canonical c]. Proof. reflexivity. Qed.
Lemma limbs_4_base c : limbs 4 (from_base c) = [as_canonical c; 0; 0; 0]. Proof. reflexivity. Qed.

Section BaseHom.
  Add Field BBF : (fth BabyBear).
  Ltac hom := unfold from_base, ext; cbn; unfold q_add, q_sub, q_mul, q_opp; cbn [fst snd];
    cbn; unfold q_add, q_sub, q_mul, q_opp; cbn [fst snd];
    change (of_Z 0) with (@f0 BabyBear); change (of_Z 1) with (@f1 BabyBear);
    change bb_add with (@fadd BabyBear); change bb_mul with (@fmul BabyBear);
    change bb_sub with (@fsub BabyBear); change bb_opp with (@fopp BabyBear);
    repeat apply injective_projections; cbn [fst snd]; ring.
  Lemma from_base_sub a b : from_base (fsub a b) = fsub (from_base a) (from_base b). Proof. hom. Qed.
  Lemma from_base_opp a : from_base (fopp a) = fopp (from_base a). Proof. hom. Qed.
  Lemma from_base_mul a b : from_base (fmul a b) = fmul (from_base a) (from_base b). Proof. hom. Qed.
  Lemma from_base_pow a n : from_base (fpow a n) = fpow (from_base a) n.
  Proof. induction n as [|n IH]; [reflexivity|]. cbn [fpow]. now rewrite from_base_mul, IH. Qed.
End BaseHom.

Lemma base_add x y : limbs 1 (fadd (felt [x]) (felt [y])) = [(x + y) mod P31].
Proof. rewrite !felt_1, <- from_base_add, limbs_1_base. cbn. rewrite (Zplus_mod x y). reflexivity. Qed.
Lemma base_sub x y : limbs 1 (fsub (felt [x]) (felt [y])) = [(x - y) mod P31].
Proof. rewrite !felt_1, <- from_base_sub, limbs_1_base. cbn. rewrite (Zminus_mod x y). reflexivity. Qed.
Lemma base_mul x y : limbs 1 (fmul (felt [x]) (felt [y])) = [(x * y) mod P31].
Proof. rewrite !felt_1, <- from_base_mul, limbs_1_base. cbn. rewrite (Zmult_mod x y). reflexivity. Qed.
Lemma base_double x : limbs 1 (fadd (felt [x]) (felt [x])) = [(2 * x) mod P31].
Proof. rewrite base_add. do 2 f_equal. lia. Qed.
Lemma ext_add_limbs x0 x1 x2 x3 y0 y1 y2 y3 :
  limbs 4 (fadd (felt [x0; x1; x2; x3]) (felt [y0; y1; y2; y3])) =
  zip2 (fun a b => (a + b) mod P31) [x0; x1; x2; x3] [y0; y1; y2; y3].
Proof. unfold zip2. cbn. change P31 with BP. rewrite (Zplus_mod x0), (Zplus_mod x1), (Zplus_mod x2), (Zplus_mod x3). reflexivity. Qed.
Lemma ext_sub_limbs x0 x1 x2 x3 y0 y1 y2 y3 :
  limbs 4 (fsub (felt [x0; x1; x2; x3]) (felt [y0; y1; y2; y3])) =
  zip2 (fun a b => (a - b) mod P31) [x0; x1; x2; x3] [y0; y1; y2; y3].
Proof. unfold zip2. cbn. change P31 with BP. rewrite (Zminus_mod x0), (Zminus_mod x1), (Zminus_mod x2), (Zminus_mod x3). reflexivity. Qed.
Lemma ext_double_limbs x0 x1 x2 x3 :
  limbs 4 (fadd (felt [x0; x1; x2; x3]) (felt [x0; x1; x2; x3])) =
  map (fun a => (2 * a) mod P31) [x0; x1; x2; x3].
Proof. rewrite ext_add_limbs. unfold zip2. cbn [combine map fst snd]. now rewrite !Z.add_diag. Qed.

Lemma limbs_length n z : (n <= 4)%nat -> length (limbs n z) = n.
Proof. intros L. destruct z as [[c0 c2] [c1 c3]]. unfold limbs. rewrite firstn_length. cbn [limbs4 map length]. lia. Qed.
Lemma limbs_elt n z : n = 1%nat \/ n = 4%nat -> is_elt n (limbs n z) = true.
Proof.
  destruct z as [[c0 c2] [c1 c3]]. unfold is_elt, limbs, limbs4. intros [-> | ->]; cbn -[canonical];
  repeat (rewrite (proj2_sig (_ : bb))); destruct c0, c1, c2, c3; cbn -[canonical]; rewrite ?e, ?e0, ?e1, ?e2; reflexivity.
Qed.
Lemma felt_limbs4 z : felt (limbs 4 z) = z.
Proof.
  destruct z as [[c0 c2] [c1 c3]]. unfold felt, limbs. cbn [limbs4 map firstn nth]. now rewrite !of_Z_as.
Qed.

Lemma list_eqb_ok a : forall b, list_eqb a b = true <-> a = b.
Proof.
  induction a as [|x a IH]; intros [|y b]; cbn; try easy.
  rewrite andb_true_iff, Z.eqb_eq, IH. split; [intros [-> ->]; reflexivity|intros [= -> ->]; auto].
Qed.
Lemma list_eqb_no a b : list_eqb a b = false <-> a <> b.
Proof. rewrite <- list_eqb_ok. destruct (list_eqb a b); split; congruence. Qed.

Lemma all_len_1 ins : all_len 1 ins = true -> ins = map (fun b => [b]) (concat ins).
Proof.
  unfold all_len. induction ins as [|x ins IH]; intros E; [reflexivity|].
  cbn in E. apply andb_true_iff in E as [L E]. destruct x as [|a [|? ?]]; try discriminate L.
  cbn. f_equal. auto.
Qed.
Lemma concat_singletons {A} (l : list A) : concat (map (fun b => [b]) l) = l.
Proof. induction l; cbn; congruence. Qed.
Lemma len_singletons {A} (l : list A) : map (@length A) (map (fun b => [b]) l) = repeat 1%nat (length l).
Proof. induction l; cbn; congruence. Qed.
Lemma rev_repeat {A} (x : A) n : rev (repeat x n) = repeat x n.
Proof.
  induction n as [|n IH]; [reflexivity|]. cbn [repeat rev]. rewrite IH. clear IH.
  induction n as [|n IH]; [reflexivity|]. cbn. now rewrite IH.
Qed.
Lemma all_len_1_len ins : all_len 1 ins = true -> length (concat ins) = length ins.
Proof. intros E. rewrite (all_len_1 _ E) at 2. now rewrite map_length. Qed.
Lemma bytes_forall l : forallb byteb l = true -> Forall is_byte l.
Proof. intros E. apply Forall_forall. intros x Hx. rewrite forallb_forall in E. apply E in Hx. unfold byteb, is_byte in *. lia. Qed.

Lemma nums_app a b : nums (a ++ b) = nums a ++ nums b. Proof. apply map_app. Qed.

Lemma skipn_add {A} n m : forall l : list A, skipn n (skipn m l) = skipn (n + m) l.
Proof.
  induction m as [|m IH]; intros l; [now rewrite Nat.add_0_r|]. rewrite Nat.add_succ_r.
  destruct l; [now rewrite !skipn_nil|]. apply IH.
Qed.

Lemma some_inj {A} (a b : A) : Some a = Some b -> b = a. Proof. now intros [= ->]. Qed.

Section Contract.
  Variable H : bytes -> bytes.
  Variable G : gadgets.
  Hypothesis OK : gadgets_ok H G.

  (** What the contract asks of one opcode. *)
  Definition meets (em : emission) (ins : list (list Z)) (r : res) : Prop := forall rest alt,
    match r with
    | Leaves outs => map (@length Z) outs = rev (em_outs em) /\
        exec H (em_script em) (nums (concat ins) ++ rest) alt (nums (concat outs) ++ rest) alt
    | Fails => fails H (em_script em) (nums (concat ins) ++ rest) alt
    end.

  Lemma meets_bin f base ee eb be :
    (forall x y rest alt, is_elt 1 x = true -> is_elt 1 y = true ->
       exec H base (nums y ++ nums x ++ rest) alt (nums (limbs 1 (f (felt x) (felt y))) ++ rest) alt) ->
    (forall x y rest alt, is_elt 4 x = true -> is_elt 4 y = true ->
       exec H ee (nums y ++ nums x ++ rest) alt (nums (limbs 4 (f (felt x) (felt y))) ++ rest) alt) ->
    (forall x y rest alt, is_elt 4 x = true -> is_elt 1 y = true ->
       exec H eb (nums y ++ nums x ++ rest) alt (nums (limbs 4 (f (felt x) (felt y))) ++ rest) alt) ->
    (forall x y rest alt, is_elt 1 x = true -> is_elt 4 y = true ->
       exec H be (nums x ++ nums y ++ rest) alt (nums (limbs 4 (f (felt x) (felt y))) ++ rest) alt) ->
    forall sizes em ins r, op_binary base ee eb be sizes = Some em -> bin f sizes ins = Some r -> meets em ins r.
  Proof.
    intros B1 B2 B3 B4 sizes em ins r E S rest al.
    destruct sizes as [|a [|b [|? ?]]]; try discriminate E.
    destruct ins as [|y [|x [|? ?]]]; try discriminate S.
    unfold bin in S. destruct (is_elt a x) eqn:Ex; [|discriminate S]. destruct (is_elt b y) eqn:Ey; [|discriminate S].
    injection S as <-. cbn [concat app]. rewrite !app_nil_r, nums_app, <- app_assoc.
    pose proof Ex as Ex'. pose proof Ey as Ey'.
    apply elt_cases in Ex' as [(-> & _)|(-> & _)]; apply elt_cases in Ey' as [(-> & _)|(-> & _)];
      cbn in E; injection E as <-; cbn [em_script em_outs rev app Nat.max map];
      (split; [rewrite limbs_length by lia; reflexivity|]).
    - apply B1; assumption.
    - eapply (exec_seq H [pushnat 4; OP_ROLL]); [|apply B4; assumption].
      apply elt_1 in Ex as (a & -> & _). apply elt_4 in Ey as (y0 & y1 & y2 & y3 & -> & _).
      exact (exec_roll H (nums [y0; y1; y2; y3]) (enc a) rest al ltac:(cbn; lia)).
    - apply B3; assumption.
    - apply B2; assumption.
  Qed.

  Lemma meets_una f base e4 :
    (forall x rest alt, is_elt 1 x = true ->
       exec H base (nums x ++ rest) alt (nums (limbs 1 (f (felt x))) ++ rest) alt) ->
    (forall x rest alt, is_elt 4 x = true ->
       exec H e4 (nums x ++ rest) alt (nums (limbs 4 (f (felt x))) ++ rest) alt) ->
    forall sizes em ins r, op_unary base e4 sizes = Some em -> una f sizes ins = Some r -> meets em ins r.
  Proof.
    intros B1 B2 sizes em ins r E S rest al.
    destruct sizes as [|a [|? ?]]; try discriminate E.
    destruct ins as [|x [|? ?]]; try discriminate S.
    unfold una in S. destruct (is_elt a x) eqn:Ex; [|discriminate S].
    injection S as <-. cbn [concat app]. rewrite !app_nil_r.
    pose proof Ex as Ex'.
    apply elt_cases in Ex' as [(-> & _)|(-> & _)];
      cbn in E; injection E as <-; cbn [em_script em_outs rev app map];
      (split; [rewrite limbs_length by lia; reflexivity|]); auto.
  Qed.

  Lemma meets_add sizes em ins r : generate G Add sizes = Some em -> op_sem Add sizes ins = Some r -> meets em ins r.
  Proof.
    apply meets_bin.
    - intros x y rest al X Y. apply elt_1 in X as (a & -> & A). apply elt_1 in Y as (b & -> & B).
      rewrite base_add. now apply C17_u31_add.
    - intros x y rest al X Y. pose proof (C54_u31ext_add H x y rest al (elt_canonical4 _ X) (elt_canonical4 _ Y)) as E.
      apply elt_4 in X as (x0 & x1 & x2 & x3 & -> & _). apply elt_4 in Y as (y0 & y1 & y2 & y3 & -> & _).
      rewrite ext_add_limbs. exact E.
    - apply (gk_ext_add_u31 _ _ OK).
    - intros x y rest al X Y. pose proof (gk_ext_add_u31 _ _ OK y x rest al Y X) as E.
      replace (fadd (felt x) (felt y)) with (fadd (felt y) (felt x)); [exact E|].
      apply (Ring_theory.Radd_comm (Field_theory.F_R (fth BB4))).
  Qed.
  Lemma meets_sub sizes em ins r : generate G Sub sizes = Some em -> op_sem Sub sizes ins = Some r -> meets em ins r.
  Proof.
    apply meets_bin.
    - intros x y rest al X Y. apply elt_1 in X as (a & -> & A). apply elt_1 in Y as (b & -> & B).
      rewrite base_sub. now apply C17_u31_sub.
    - intros x y rest al X Y. pose proof (C54_u31ext_sub H x y rest al (elt_canonical4 _ X) (elt_canonical4 _ Y)) as E.
      apply elt_4 in X as (x0 & x1 & x2 & x3 & -> & _). apply elt_4 in Y as (y0 & y1 & y2 & y3 & -> & _).
      rewrite ext_sub_limbs. exact E.
    - apply (gk_ext_sub_u31 _ _ OK).
    - apply (gk_u31_sub_ext _ _ OK).
  Qed.
  Lemma meets_mul sizes em ins r : generate G Mul sizes = Some em -> op_sem Mul sizes ins = Some r -> meets em ins r.
  Proof.
    apply meets_bin.
    - intros x y rest al X Y. apply elt_1 in X as (a & -> & A). apply elt_1 in Y as (b & -> & B).
      rewrite base_mul. now apply C17_u31_mul.
    - apply (gk_ext_mul _ _ OK).
    - apply (gk_ext_mul_u31 _ _ OK).
    - intros x y rest al X Y. pose proof (gk_ext_mul_u31 _ _ OK y x rest al Y X) as E.
      replace (fmul (felt x) (felt y)) with (fmul (felt y) (felt x)); [exact E|].
      apply (Ring_theory.Rmul_comm (Field_theory.F_R (fth BB4))).
  Qed.
  Lemma meets_neg sizes em ins r : generate G Neg sizes = Some em -> op_sem Neg sizes ins = Some r -> meets em ins r.
  Proof. apply meets_una; [apply (gk_neg _ _ OK)|apply (gk_ext_neg _ _ OK)]. Qed.
  Lemma meets_double sizes em ins r : generate G Double sizes = Some em -> op_sem Double sizes ins = Some r -> meets em ins r.
  Proof.
    apply meets_una.
    - intros x rest al X. apply elt_1 in X as (a & -> & A). rewrite base_double. now apply C17_u31_double.
    - intros x rest al X. pose proof (C54_u31ext_double H x rest al (elt_canonical4 _ X)) as E.
      apply elt_4 in X as (x0 & x1 & x2 & x3 & -> & _). rewrite ext_double_limbs. exact E.
  Qed.
  Lemma ext_square_ok x rest al : is_elt 4 x = true ->
    exec H (u31ext_square G) (nums x ++ rest) al (nums (limbs 4 (fmul (felt x) (felt x))) ++ rest) al.
  Proof.
    intros X. unfold u31ext_square. eapply exec_seq; [|apply (gk_ext_mul _ _ OK); assumption].
    apply elt_4 in X as (x0 & x1 & x2 & x3 & -> & _). apply C01_op_4dup.
  Qed.
  Lemma meets_square sizes em ins r : generate G Square sizes = Some em -> op_sem Square sizes ins = Some r -> meets em ins r.
  Proof.
    apply meets_una.
    - intros x rest al X. apply elt_1 in X as (a & -> & A). rewrite base_mul. now apply C17_u31_square.
    - intros x rest al X. now apply ext_square_ok.
  Qed.

  Lemma exec_equal x y rest al : exec H [OP_EQUAL] (enc y :: enc x :: rest) al (enc (if x =? y then 1 else 0) :: rest) al.
  Proof.
    assert (E : run H [OP_EQUAL] (mk (I y :: I x :: map B rest) (map B al) []) =
      Some (mk (I (b2z (x =? y)) :: map B rest) (map B al) [])) by (vmgo; reflexivity).
    tobytes E. unfold b2z in E. destruct (x =? y); exact E.
  Qed.

  Lemma equal_operands a b (x y : list Z) : (length x =? a)%nat && (length y =? b)%nat = true -> (a =? b)%nat = true ->
    ((a =? 1)%nat = true -> exists u v, x = [u] /\ y = [v]) /\
    ((a =? 4)%nat = true -> length x = 4%nat /\ length y = 4%nat).
  Proof.
    intros L E. apply andb_true_iff in L as [L1 L2]. apply Nat.eqb_eq in L1, L2, E. split; intros N; apply Nat.eqb_eq in N.
    - destruct x as [|u [|? ?]]; cbn in L1; try lia. destruct y as [|v [|? ?]]; cbn in L2; try lia. eauto.
    - lia.
  Qed.

  Lemma meets_equal sizes em ins r : generate G Equal sizes = Some em -> op_sem Equal sizes ins = Some r -> meets em ins r.
  Proof.
    intros E S rest al. unfold op_sem in S.
    destruct sizes as [|a [|b [|? ?]]]; try discriminate E.
    destruct ins as [|y [|x [|? ?]]]; try discriminate S.
    cbn [generate] in E. destruct (a =? b)%nat eqn:Eab; [|discriminate E]. injection E as <-.
    cbn [em_script em_outs rev app concat]. rewrite !app_nil_r, nums_app, <- app_assoc.
    destruct ((length x =? a)%nat && (length y =? b)%nat) eqn:L; [|discriminate S].
    destruct (equal_operands a b x y L Eab) as [K1 K4].
    destruct (a =? 1)%nat eqn:E1.
    - destruct (K1 eq_refl) as (u & v & -> & ->). injection S as <-. split; [reflexivity|].
      cbn [list_eqb]. rewrite andb_true_r. apply exec_equal.
    - destruct (a =? 4)%nat eqn:E4; [|discriminate S]. destruct (K4 eq_refl) as [Lx Ly].
      destruct (C54_u31ext_equalverify H x y rest al Lx Ly) as [T F].
      destruct (list_eqb x y) eqn:Q; injection S as <-.
      + apply list_eqb_ok in Q. split; [reflexivity|]. eapply (exec_seq H u31ext_equalverify [PUSHN 1]); [apply T, Q|reflexivity].
      + apply list_eqb_no in Q. apply (fails_app H u31ext_equalverify [PUSHN 1]), F, Q.
  Qed.

  Lemma exec_equalverify x y rest al :
    (x = y -> exec H [OP_EQUALVERIFY] (enc y :: enc x :: rest) al rest al) /\
    (x <> y -> fails H [OP_EQUALVERIFY] (enc y :: enc x :: rest) al).
  Proof.
    split; intros N.
    - subst y. assert (E : run H [OP_EQUALVERIFY] (mk (I x :: I x :: map B rest) (map B al) []) =
        Some (mk (map B rest) (map B al) [])) by (vmgo; rewrite Z.eqb_refl; reflexivity).
      tobytes E. exact E.
    - assert (E : run H [OP_EQUALVERIFY] (mk (I y :: I x :: map B rest) (map B al) []) = None).
      { vmgo. replace (x =? y) with false by lia. reflexivity. }
      tobytes E. exact E.
  Qed.

  Lemma meets_equalverify sizes em ins r : generate G EqualVerify sizes = Some em -> op_sem EqualVerify sizes ins = Some r -> meets em ins r.
  Proof.
    intros E S rest al. unfold op_sem in S.
    destruct sizes as [|a [|b [|? ?]]]; try discriminate E.
    destruct ins as [|y [|x [|? ?]]]; try discriminate S.
    cbn [generate] in E. destruct (a =? b)%nat eqn:Eab; [|discriminate E]. injection E as <-.
    cbn [em_script em_outs rev app concat]. rewrite !app_nil_r, nums_app, <- app_assoc.
    destruct ((length x =? a)%nat && (length y =? b)%nat) eqn:L; [|discriminate S]. cbn [andb] in S.
    destruct (equal_operands a b x y L Eab) as [K1 K4].
    destruct (a =? 1)%nat eqn:E1.
    - destruct (K1 eq_refl) as (u & v & -> & ->). cbn [orb] in S.
      destruct (exec_equalverify u v rest al) as [T F].
      destruct (list_eqb [u] [v]) eqn:Q; injection S as <-.
      + apply list_eqb_ok in Q. split; [reflexivity|]. apply T. congruence.
      + apply list_eqb_no in Q. apply F. congruence.
    - destruct (a =? 4)%nat eqn:E4; [|discriminate S]. destruct (K4 eq_refl) as [Lx Ly].
      destruct (C54_u31ext_equalverify H x y rest al Lx Ly) as [T F]. cbn [orb] in S.
      destruct (list_eqb x y) eqn:Q; injection S as <-.
      + apply list_eqb_ok in Q. split; [reflexivity|]. apply T, Q.
      + apply list_eqb_no in Q. apply F, Q.
  Qed.

  Lemma meets_num_to_field sizes em ins r : generate G NumToField sizes = Some em -> op_sem NumToField sizes ins = Some r -> meets em ins r.
  Proof.
    intros E S rest al. unfold op_sem in S.
    destruct sizes as [|[|[|a]] [|? ?]]; try discriminate S. destruct ins as [|[|x [|? ?]] [|? ?]]; try discriminate S.
    cbn in E. apply some_inj in E. subst em.
    destruct (num32 x) eqn:N; [|discriminate S]. apply some_inj in S. subst r. split; [reflexivity|].
    unfold num32 in N. change (2 ^ 31) with 2147483648 in N.
    cbn [em_script concat app nums map].
    destruct (0 <=? x) eqn:P.
    - pose proof (u32_to_u31_nonneg_ok H x (map B rest) (map B al) ltac:(lia)) as E. tobytes E. exact E.
    - assert (W : is_u32 (2147483648 - x)) by (unfold is_u32; lia).
      pose proof (u32_to_u31_ok H (2147483648 - x) (map B rest) (map B al) W ltac:(lia)) as E.
      unfold packed in E. change (2 ^ 31) with 2147483648 in *. replace (2147483648 - x <? 2147483648) with false in E by lia.
      replace (- (2147483648 - x - 2147483648)) with x in E by lia. tobytes E. exact E.
  Qed.

  Lemma meets_field_to_num sizes em ins r : generate G FieldToNum sizes = Some em -> op_sem FieldToNum sizes ins = Some r -> meets em ins r.
  Proof.
    intros E S rest al. unfold op_sem in S.
    destruct sizes as [|[|[|a]] [|? ?]]; try discriminate S. destruct ins as [|[|x [|? ?]] [|? ?]]; try discriminate S.
    cbn in E. apply some_inj in E. subst em. apply some_inj in S. subst r. split; [reflexivity|]. apply exec_nil.
  Qed.

  Lemma meets_four sizes em ins r : generate G FourU32ToU32 sizes = Some em -> op_sem FourU32ToU32 sizes ins = Some r -> meets em ins r.
  Proof.
    intros E S rest al. unfold op_sem in S.
    destruct ins as [|[|c0 [|c1 [|c2 [|c3 [|? ?]]]]] [|? ?]]; try discriminate S. apply some_inj in S. subst r.
    cbn [generate] in E. destruct sizes as [|a [|? ?]]; try discriminate E. destruct (a =? 4)%nat; [|discriminate E].
    apply some_inj in E. subst em. split; reflexivity.
  Qed.

  Lemma meets_extract n sizes em ins r : generate G (ExtractHighBits n) sizes = Some em -> op_sem (ExtractHighBits n) sizes ins = Some r -> meets em ins r.
  Proof.
    intros E S rest al. unfold op_sem in S.
    destruct ins as [|[|x [|? ?]] [|? ?]]; try discriminate S. destruct (num32 x) eqn:N; [|discriminate S]. apply some_inj in S. subst r.
    unfold num32 in N.
    cbn [generate] in E. destruct sizes as [|a [|? ?]]; try discriminate E. destruct (a =? 1)%nat; [|discriminate E].
    destruct (extract_high_bits n) as [p|] eqn:Ep; [|discriminate E]. apply some_inj in E. subst em. split; [reflexivity|].
    assert (Hn : (1 <= n <= 31)%nat).
    { unfold extract_high_bits, compress_custom_bits in Ep. destruct ((1 <=? n) && (n <=? 31) && (n <=? 32))%nat eqn:Q; [lia|discriminate Ep]. }
    cbn [em_script concat app nums map].
    destruct (Z_lt_le_dec x 0) as [P|P].
    - destruct (C15_extract_high_bits_negative H n x rest al Hn ltac:(lia)) as (q & Eq & X). rewrite Ep in Eq. injection Eq as <-.
      replace (x mod 2 ^ 32) with (x + 2 ^ 32); [exact X|].
      rewrite <- (Z.mod_small (x + 2 ^ 32) (2 ^ 32)) by (change (2 ^ 31) with 2147483648 in *; change (2^32) with 4294967296; lia).
      replace (x + 2 ^ 32) with (x + 1 * 2 ^ 32) by lia. apply Z_mod_plus_full.
    - destruct (C15_extract_high_bits H n x rest al Hn ltac:(lia)) as (q & Eq & X). rewrite Ep in Eq. injection Eq as <-.
      rewrite Z.mod_small by (change (2 ^ 31) with 2147483648 in *; change (2^32) with 4294967296; lia). exact X.
  Qed.

  Lemma exec_pick_at l x r al n : Z.of_nat n < 2 ^ 31 -> nth_error l n = Some x ->
    exec H [OP_PICK] (enc (Z.of_nat n) :: l ++ r) al (x :: l ++ r) al.
  Proof.
    intros B E. destruct (nth_error_split l n E) as (l1 & l2 & -> & <-).
    rewrite <- !app_assoc. cbn [app].
    pose proof (exec_pick H l1 x (l2 ++ r) al B) as X. unfold exec, brun in *.
    change [pushnat (length l1); OP_PICK] with ([pushnat (length l1)] ++ [OP_PICK]) in X. rewrite runM_app in X.
    exact X.
  Qed.

  Lemma meets_lookup b n sizes em ins r : generate G (Lookup b n) sizes = Some em -> op_sem (Lookup b n) sizes ins = Some r ->
    length ins = em_consumes em -> meets em ins r.
  Proof.
    intros E S L rest al. unfold op_sem in S.
    destruct ins as [|[|i [|? ?]] table]; try discriminate S.
    destruct ((0 <=? i) && (i <? Z.of_nat n) && (i <? 2 ^ 31) && all_len 1 table) eqn:C; [|discriminate S].
    rewrite !andb_true_iff in C. destruct C as [[[C1 C2] C3] C4]. apply some_inj in S. subst r.
    cbn [generate] in E. destruct sizes as [|a sizes]; [discriminate E|].
    destruct ((a =? 1)%nat && negb b); [|discriminate E]. apply some_inj in E. subst em.
    cbn [em_script em_consumes em_outs length rev app] in *.
    pose proof (all_len_1 _ C4) as T. set (t := concat table) in *.
    assert (Lt : length t = n) by (unfold t; rewrite all_len_1_len by exact C4; lia).
    assert (N : nth (Z.to_nat i) table [] = [nth (Z.to_nat i) t 0]).
    { rewrite T. rewrite (nth_indep _ [] [0]) by (rewrite map_length; lia).
      now rewrite (map_nth (fun b => [b]) t 0). }
    rewrite N. split; [reflexivity|]. cbn [concat app]. fold t.
    change (enc i :: nums t ++ rest) with (nums (i :: t) ++ rest).
    change (OP_PICK :: OP_TOALTSTACK :: repeat_script n [OP_DROP] ++ [OP_FROMALTSTACK]) with
      ([OP_PICK] ++ [OP_TOALTSTACK] ++ repeat_script n [OP_DROP] ++ [OP_FROMALTSTACK]).
    eapply exec_seq.
    { replace i with (Z.of_nat (Z.to_nat i)) at 1 by lia. cbn [nums map app].
      apply (exec_pick_at (nums t) (enc (nth (Z.to_nat i) t 0)) rest al); [lia|].
      unfold nums. rewrite nth_error_map, (nth_error_nth' t 0) by lia. reflexivity. }
    eapply (exec_seq H [OP_TOALTSTACK]); [reflexivity|].
    eapply exec_seq; [replace n with (length (nums t)) by (unfold nums; now rewrite map_length); apply exec_drop|].
    reflexivity.
  Qed.

  Lemma meets_table rows sizes em ins r : generate G (Table rows) sizes = Some em -> op_sem (Table rows) sizes ins = Some r ->
    length ins = em_consumes em -> meets em ins r.
  Proof.
    intros E S L rest al. apply some_inj in E. subst em. apply some_inj in S. subst r. cbn in L. destruct ins; [|discriminate L].
    cbn [em_script em_outs concat]. rewrite map_rev, rev_involutive. split; [reflexivity|].
    cbn [nums map app]. clear. revert rest. induction rows as [|x rows IH]; intros rest; [apply exec_nil|].
    cbn [rev concat]. rewrite flat_map_app. eapply exec_seq; [apply IH|].
    cbn [flat_map]. rewrite app_nil_r, nums_app, <- app_assoc. apply exec_push_vec.
  Qed.

  Lemma meets_constant v sizes em ins r : generate G (Constant v) sizes = Some em -> op_sem (Constant v) sizes ins = Some r ->
    length ins = em_consumes em -> meets em ins r.
  Proof.
    intros E S L rest al. apply some_inj in E. subst em. apply some_inj in S. subst r. cbn in L. destruct ins; [|discriminate L].
    split; [reflexivity|]. cbn [concat em_script]. rewrite app_nil_r. apply exec_push_vec.
  Qed.

  Lemma pow_limb g n : as_canonical (fpow (of_Z g : BabyBear) n) = (g ^ Z.of_nat n) mod BP.
  Proof. now rewrite <- of_Z_pow, as_of_Z. Qed.

  Lemma meets_rou e bits sizes em ins r : generate G (IndexToRou e bits) sizes = Some em ->
    op_sem (IndexToRou e bits) sizes ins = Some r -> meets em ins r.
  Proof.
    intros E S rest al. unfold op_sem in S.
    destruct ins as [|[|v [|? ?]] [|? ?]]; try discriminate S. destruct (num32 v) eqn:N; [|discriminate S].
    unfold num32 in N. change (2 ^ 31) with 2147483648 in N.
    cbn [generate] in E. destruct (index_to_rou e _ bits) as [p|] eqn:Ep; [|discriminate E]. apply some_inj in E. subst em.
    assert (Hb : (bits <= 27)%nat).
    { unfold index_to_rou in Ep. destruct (bits <=? 27)%nat eqn:Q; [lia|discriminate Ep]. }
    cbn [em_script em_outs concat app nums map rev].
    destruct ((0 <=? v) && (v <? 2 ^ Z.of_nat bits)) eqn:C; apply some_inj in S; subst r.
    - split; [cbn [map]; rewrite limbs_length by (destruct e; lia); reflexivity|].
      rewrite <- from_base_pow. cbn [concat]. rewrite app_nil_r.
      destruct e.
      + destruct (C16_index_to_rou_ext H (g_ext_mul G) bits v rest al (gk_rou _ _ OK) Hb ltac:(lia)) as (q & Eq & X).
        rewrite Ep in Eq. apply some_inj in Eq. subst q. rewrite limbs_4_base, pow_limb, Z2Nat.id by lia. exact X.
      + destruct (C16_index_to_rou H bits v rest al Hb ltac:(lia)) as (q & Eq & X).
        rewrite Ep in Eq. apply some_inj in Eq. subst q. rewrite limbs_1_base, pow_limb, Z2Nat.id by lia. exact X.
    - destruct (index_to_rou_fails H e (if e then g_ext_mul G else u31_mul) bits v (map B rest) (map B al) Hb ltac:(lia) ltac:(lia)) as (q & Eq & X).
      rewrite Ep in Eq. apply some_inj in Eq. subst q. tobytes X. exact X.
  Qed.

  Lemma bits_reversed_brev k : forall v, bits_reversed k v = brev k v.
  Proof. induction k as [|k IH]; intros v; [reflexivity|]. cbn [bits_reversed brev]. rewrite IH. lia. Qed.
  Lemma reversal_unique k v u : is_reversal k v u -> u = brev k v.
  Proof.
    intros [R1 B1]. destruct (brev_reversal k v) as [R2 B2]. apply Z.bits_inj'. intros n Hn.
    destruct (Z_lt_le_dec n (Z.of_nat k)) as [L|L].
    - replace n with (Z.of_nat (Z.to_nat n)) by lia. now rewrite B1, B2 by lia.
    - rewrite <- (Z.mod_small u (2 ^ Z.of_nat k)), <- (Z.mod_small (brev k v) (2 ^ Z.of_nat k)) by lia.
      now rewrite !Z.mod_pow2_bits_high by lia.
  Qed.

  Lemma meets_reverse bits sizes em ins r : generate G (ReverseBitslen bits) sizes = Some em ->
    op_sem (ReverseBitslen bits) sizes ins = Some r -> meets em ins r.
  Proof.
    intros E S rest al. unfold op_sem in S.
    destruct ins as [|[|v [|? ?]] [|? ?]]; try discriminate S.
    destruct ((0 <=? v) && (v <? 2 ^ Z.of_nat bits)) eqn:C; [|discriminate S]. apply some_inj in S. subst r.
    cbn [generate] in E. destruct (index_to_reverse_index bits) as [p|] eqn:Ep; [|discriminate E]. apply some_inj in E. subst em.
    assert (Hb : (1 <= bits <= 31)%nat).
    { unfold index_to_reverse_index, compress_bits in Ep. destruct (value_to_bits_format bits); [|discriminate Ep].
      destruct ((1 <=? bits) && (bits <=? 31))%nat eqn:Q; [lia|discriminate Ep]. }
    split; [reflexivity|].
    destruct (C15_index_to_reverse_index H bits v rest al Hb ltac:(lia)) as (q & u & Eq & U & X).
    rewrite Ep in Eq. apply some_inj in Eq. subst q. rewrite bits_reversed_brev, <- (reversal_unique _ _ _ U). exact X.
  Qed.

  Lemma log2_strict_ok n k : log2_strict n = Some k -> n = (2 ^ k)%nat.
  Proof. unfold log2_strict. destruct (n =? 2 ^ Nat.log2 n)%nat eqn:E; [|discriminate]. intros F. apply some_inj in F. subst k. lia. Qed.

  Lemma ext_exp_ok k : forall x rest al, is_elt 4 x = true ->
    exec H (repeat_script k (u31ext_square G)) (nums x ++ rest) al (nums (limbs 4 (fpow (felt x) (2 ^ k))) ++ rest) al.
  Proof.
    induction k as [|k IH]; intros x rest al X.
    - cbn [Nat.pow repeat_script]. rewrite fpow_1_r.
      assert (F : limbs 4 (felt x) = x).
      { apply elt_4 in X as (x0 & x1 & x2 & x3 & -> & B). cbn. now rewrite !Z.mod_small by lia. }
      rewrite F. apply exec_nil.
    - rewrite repeat_script_snoc. eapply exec_seq; [apply IH, X|].
      replace (fpow (felt x) (2 ^ S k)) with (fmul (fpow (felt x) (2 ^ k)) (fpow (felt x) (2 ^ k))).
      + rewrite <- (felt_limbs4 (fpow (felt x) (2 ^ k))) at 2 3. apply ext_square_ok, limbs_elt. now right.
      + rewrite <- fpow_add. f_equal. cbn [Nat.pow]. lia.
  Qed.

  Lemma meets_exp e power sizes em ins r : generate G (ExpConst e power) sizes = Some em ->
    op_sem (ExpConst e power) sizes ins = Some r -> meets em ins r.
  Proof.
    intros E S rest al. unfold op_sem in S.
    destruct sizes as [|a [|? ?]]; try discriminate S. destruct ins as [|x [|? ?]]; try discriminate S.
    destruct (is_elt a x) eqn:X; [|discriminate S]. cbn [generate] in E.
    destruct (log2_strict power) as [k|] eqn:Ek; [|discriminate E]. apply some_inj in E. subst em.
    apply log2_strict_ok in Ek. destruct (a =? if e then 4 else 1)%nat eqn:A; [|discriminate S]. cbn [andb] in S.
    apply some_inj in S. subst r. apply Nat.eqb_eq in A. subst a.
    cbn [em_script em_outs concat rev app map]. rewrite !app_nil_r.
    split; [rewrite limbs_length by (destruct e; lia); reflexivity|]. subst power.
    destruct e; cbn [value_exp].
    - apply ext_exp_ok, X.
    - apply elt_1 in X as (v & -> & V). rewrite felt_1, <- from_base_pow, limbs_1_base, pow_limb, Nat2Z.inj_pow.
      exact (C16_value_exp_n H k v rest al V).
  Qed.

  Lemma reverse_words (b : list bytes) rest al : length b = 32%nat ->
    exec H (roll_reverse 7 4 OP_4ROLL) (b ++ rest) al
      (firstn 4 (skipn 28 b) ++ firstn 4 (skipn 24 b) ++ firstn 4 (skipn 20 b) ++ firstn 4 (skipn 16 b) ++
       firstn 4 (skipn 12 b) ++ firstn 4 (skipn 8 b) ++ firstn 4 (skipn 4 b) ++ firstn 4 b ++ rest) al.
  Proof.
    intros L. do 32 (destruct b as [|? b]; [discriminate L|]). destruct b; [|discriminate L].
    reflexivity.
  Qed.
  Lemma reverse_items (b : list bytes) rest al : length b = 8%nat ->
    exec H (roll_reverse 7 1 [OP_ROLL]) (b ++ rest) al (rev b ++ rest) al.
  Proof.
    intros L. do 8 (destruct b as [|? b]; [discriminate L|]). destruct b; [|discriminate L].
    reflexivity.
  Qed.

  Lemma le_bytes_wbytes w : le_bytes4 w = wbytes w. Proof. reflexivity. Qed.

  Lemma meets_blake3 sizes em ins r : generate G Blake3Perm sizes = Some em -> op_sem Blake3Perm sizes ins = Some r -> meets em ins r.
  Proof.
    intros E S rest al. unfold op_sem in S.
    destruct (all_len 1 ins && (length ins =? 64)%nat && forallb byteb (scalars ins)) eqn:C; [|discriminate S].
    apply some_inj in S. subst r. rewrite !andb_true_iff in C. destruct C as [[C1 C2] C3]. unfold scalars in *.
    destruct C13_blake3 as (q & Eq & K). unfold generate in E. rewrite Eq in E.
    destruct (length sizes =? 33)%nat; [|discriminate E]. apply some_inj in E. subst em.
    cbn [em_script em_outs]. set (msg := concat ins) in *.
    assert (L : length msg = 64%nat) by (unfold msg; rewrite all_len_1_len by exact C1; lia).
    rewrite rev_repeat, len_singletons, concat_singletons. unfold b3_hash.
    pose proof (hash_words_len msg) as Lw.
    pose proof (K H msg rest al L (bytes_forall _ C3)) as X. clear K.
    destruct (b3_hash_words msg) as [|w0 [|w1 [|w2 [|w3 [|w4 [|w5 [|w6 [|w7 [|? ?]]]]]]]]]; try discriminate Lw.
    split; [reflexivity|]. eapply exec_seq; [exact X|].
    exact (reverse_words (bwords [w7; w6; w5; w4; w3; w2; w1; w0]) rest al eq_refl).
  Qed.

  Lemma byte_word b0 b1 b2 b3 : is_byte b0 -> is_byte b1 -> is_byte b2 -> is_byte b3 ->
    is_u32 (word_of [b0; b1; b2; b3]) /\ wbytes (word_of [b0; b1; b2; b3]) = [b0; b1; b2; b3].
  Proof.
    unfold is_byte, is_u32, wbytes, word_of. intros. cbn [nth].
    change (2 ^ 8) with 256. change (2 ^ 16) with 65536. change (2 ^ 24) with 16777216. change (2 ^ 32) with 4294967296.
    split; [lia|]. set (w := b0 + 256 * b1 + 65536 * b2 + 16777216 * b3).
    assert (Hw : w = b0 + 256 * (b1 + 256 * (b2 + 256 * b3))) by (unfold w; lia). clearbody w. subst w.
    replace 65536 with (256 * 256) by lia. replace 16777216 with (256 * 256 * 256) by lia.
    rewrite <- !Z.div_div by lia.
    assert (D : forall a b, 0 <= a < 256 -> (a + 256 * b) / 256 = b /\ (a + 256 * b) mod 256 = a).
    { intros a b A. rewrite Z.mul_comm. split; [rewrite Z_div_plus by lia; rewrite Z.div_small; lia|].
      rewrite Z_mod_plus_full. apply Z.mod_small. lia. }
    destruct (D b0 (b1 + 256 * (b2 + 256 * b3)) ltac:(lia)) as [-> ->].
    destruct (D b1 (b2 + 256 * b3) ltac:(lia)) as [-> ->].
    destruct (D b2 b3 ltac:(lia)) as [-> ->]. rewrite (Z.mod_small b3) by lia. reflexivity.
  Qed.

  Lemma sample_step b rest al : (4 <= length b)%nat -> Forall is_byte (firstn 4 b) ->
    exec H (u32_compress ++ u32_to_u31 ++ [OP_TOALTSTACK]) (nums b ++ rest) al
      (nums (skipn 4 b) ++ rest) (enc (sample_of (word_of b)) :: al).
  Proof.
    intros L F. destruct b as [|b0 [|b1 [|b2 [|b3 b]]]]; cbn in L; try lia.
    cbn [firstn skipn] in *. inversion F as [|? ? B0 F1]; subst. inversion F1 as [|? ? B1 F2]; subst.
    inversion F2 as [|? ? B2 F3]; subst. inversion F3 as [|? ? B3 _]; subst.
    destruct (byte_word b0 b1 b2 b3 B0 B1 B2 B3) as [U W].
    change (word_of (b0 :: b1 :: b2 :: b3 :: b)) with (word_of [b0; b1; b2; b3]).
    set (w := word_of [b0; b1; b2; b3]) in *. clearbody w.
    change (nums (b0 :: b1 :: b2 :: b3 :: b) ++ rest) with (nums [b0; b1; b2; b3] ++ nums b ++ rest).
    rewrite <- W. change (nums (wbytes w)) with (bword w).
    rewrite app_assoc. eapply (exec_seq H _ [OP_TOALTSTACK] _ al (enc (sample_of w) :: nums b ++ rest) al); [|reflexivity]. unfold sample_of. destruct (w =? 2 ^ 31) eqn:E.
    - eapply exec_seq; [apply C07_compress, U|]. replace (w <? 2 ^ 31) with false by lia.
      replace (- (w - 2 ^ 31)) with 0 by lia.
      pose proof (u32_to_u31_nonneg_ok H 0 (map B (nums b ++ rest)) (map B al) ltac:(lia)) as X. tobytes X.
      exact X.
    - apply C08_conversion_agrees; [exact U|lia].
  Qed.

  Lemma meets_to_sample sizes em ins r : generate G ToSample sizes = Some em -> op_sem ToSample sizes ins = Some r -> meets em ins r.
  Proof.
    intros E S rest al. unfold op_sem in S.
    destruct (all_len 1 ins && (length ins =? 32)%nat && forallb byteb (scalars ins)) eqn:C; [|discriminate S].
    apply some_inj in S. subst r. rewrite !andb_true_iff in C. destruct C as [[C1 C2] C3]. unfold scalars in *.
    unfold generate in E. destruct (length sizes =? 1)%nat; [|discriminate E]. apply some_inj in E. subst em.
    cbn [em_script em_outs]. set (b := concat ins) in *.
    assert (L : length b = 32%nat) by (unfold b; rewrite all_len_1_len by exact C1; lia).
    apply bytes_forall in C3. clearbody b. clear C1 C2 ins.
    split; [reflexivity|].
    assert (K : forall n l a, (4 * n <= length l)%nat -> Forall is_byte l ->
      exec H (repeat_script n (u32_compress ++ u32_to_u31 ++ [OP_TOALTSTACK])) (nums l ++ rest) a
        (nums (skipn (4 * n) l) ++ rest)
        (rev (map (fun i => enc (sample_of (word_of (skipn (4 * i) l)))) (seq 0 n)) ++ a)).
    { induction n as [|n IH]; intros l a Ll Fl; [apply exec_nil|].
      cbn [repeat_script]. eapply exec_seq; [apply sample_step; [lia|]|].
      { rewrite <- (firstn_skipn 4 l) in Fl. apply Forall_app in Fl. apply Fl. }
      pose proof (IH (skipn 4 l) (enc (sample_of (word_of l)) :: a)) as X.
      rewrite skipn_length in X. specialize (X ltac:(lia)).
      assert (Fs : Forall is_byte (skipn 4 l)). { rewrite <- (firstn_skipn 4 l) in Fl. apply Forall_app in Fl. apply Fl. }
      specialize (X Fs). rewrite skipn_add in X. replace (4 * n + 4)%nat with (4 * S n)%nat in X by lia.
      replace (rev (map (fun i => enc (sample_of (word_of (skipn (4 * i) l)))) (seq 0 (S n))) ++ a) with
        (rev (map (fun i => enc (sample_of (word_of (skipn (4 * i) (skipn 4 l))))) (seq 0 n)) ++ enc (sample_of (word_of l)) :: a);
        [exact X|].
      cbn [seq map rev]. rewrite <- app_assoc. cbn [app]. change (skipn (4 * 0) l) with l. do 2 f_equal.
      rewrite <- seq_shift, map_map. apply map_ext. intros i. rewrite skipn_add. do 4 f_equal. lia. }
    eapply exec_seq; [apply (K 8%nat b al); [lia|exact C3]|].
    replace (skipn (4 * 8) b) with (@nil Z) by (symmetry; apply skipn_all2; lia). cbn [nums map app].
    set (f := fun i => enc (sample_of (word_of (skipn (4 * i) b)))).
    eapply exec_seq.
    { pose proof (exec_fromalt H (rev (map f (seq 0 8))) rest al) as X.
      rewrite rev_length, map_length, seq_length, rev_involutive in X. exact X. }
    pose proof (reverse_items (map f (seq 0 8)) rest al eq_refl) as X.
    replace (nums (concat (map (fun i => [sample_of (word_of (skipn (4 * (7 - i)) b))]) (seq 0 8)))) with (rev (map f (seq 0 8)));
      [exact X|]. reflexivity.
  Qed.

  Lemma eight ins : all_len 1 ins && (length ins =? 8)%nat = true ->
    exists a0 a1 a2 a3 a4 a5 a6 a7, ins = [[a0]; [a1]; [a2]; [a3]; [a4]; [a5]; [a6]; [a7]].
  Proof.
    intros C. apply andb_true_iff in C as [C1 C2]. apply all_len_1 in C1. set (l := concat ins) in *. clearbody l. subst ins.
    rewrite map_length in C2. do 8 (destruct l as [|? l]; [discriminate C2|]). destruct l; [|discriminate C2].
    repeat eexists.
  Qed.

  Lemma meets_sample_base sizes em ins r : generate G SampleBase sizes = Some em -> op_sem SampleBase sizes ins = Some r -> meets em ins r.
  Proof.
    intros E S rest al. unfold op_sem in S.
    destruct (all_len 1 ins && (length ins =? 8)%nat) eqn:C; [|discriminate S]. apply some_inj in S. subst r.
    apply eight in C as (a0 & a1 & a2 & a3 & a4 & a5 & a6 & a7 & ->).
    unfold generate in E. destruct sizes as [|a sizes]; [discriminate E|]. destruct (a =? 1)%nat; [|discriminate E].
    apply some_inj in E. subst em. split; reflexivity.
  Qed.
  Lemma meets_sample_ext sizes em ins r : generate G SampleExt sizes = Some em -> op_sem SampleExt sizes ins = Some r -> meets em ins r.
  Proof.
    intros E S rest al. unfold op_sem in S.
    destruct (all_len 1 ins && (length ins =? 8)%nat) eqn:C; [|discriminate S]. apply some_inj in S. subst r.
    apply eight in C as (a0 & a1 & a2 & a3 & a4 & a5 & a6 & a7 & ->).
    unfold generate in E. apply some_inj in E. subst em. split; reflexivity.
  Qed.

  Theorem all_ops : op_contract H G op_sem.
  Proof.
    intros o sizes em ins r rest al E S L.
    assert (M : meets em ins r); [|apply M].
    destruct o.
    - exact (meets_add _ _ _ _ E S).
    - exact (meets_mul _ _ _ _ E S).
    - exact (meets_sub _ _ _ _ E S).
    - exact (meets_neg _ _ _ _ E S).
    - exact (meets_equal _ _ _ _ E S).
    - exact (meets_equalverify _ _ _ _ E S).
    - exact (meets_num_to_field _ _ _ _ E S).
    - exact (meets_field_to_num _ _ _ _ E S).
    - exact (meets_extract _ _ _ _ _ E S).
    - exact (meets_constant _ _ _ _ _ E S L).
    - exact (meets_exp _ _ _ _ _ _ E S).
    - exact (meets_rou _ _ _ _ _ _ E S).
    - exact (meets_lookup _ _ _ _ _ _ E S L).
    - cbn [generate] in E. discriminate E.
    - cbn [generate] in E. discriminate E.
    - exact (meets_table _ _ _ _ _ E S L).
    - exact (meets_square _ _ _ _ E S).
    - exact (meets_double _ _ _ _ E S).
    - exact (meets_blake3 _ _ _ _ E S).
    - exact (meets_to_sample _ _ _ _ E S).
    - exact (meets_sample_base _ _ _ _ E S).
    - exact (meets_sample_ext _ _ _ _ E S).
    - exact (meets_reverse _ _ _ _ _ E S).
    - exact (meets_four _ _ _ _ E S).
  Qed.
End Contract.
