(** The query expression follows the chain of foldings. *)
From Coq Require Import ZArith List Bool Arith Lia Field.
From Verif Require Import ScriptNum ScriptVM HelperModel PropHelper Field BabyBear TcsModel FriModel FriProofs DslModel DslSpec DslOpSpec DslMain DslOps DslBuild DslIds DslDenote
  DslManager DslSession DslWork FriExprModel FriExprProofs.
Import ListNotations.
Local Open Scope nat_scope.

Lemma works_ext : forall A (b b' : builder (A * manager)) all m R, (forall n, b n = b' n) -> works b' all m R -> works b all m R.
Proof. intros A b b' all m R E W n Iv. rewrite E. now apply W. Qed.

Section Query.
  Variable F : bf_field.
  Hypothesis L : bf_laws F.
  Variable G : gadgets.
  Variable M : mmcs F.
  Variables (IP IE : Type).
  Notation sz := (f_size F).
  Add Field FF : (fth F).

  (** The chain of foldings of one query, on values: at each layer the value carried
      so far, with the reduced opening of that height, is the value at the queried
      point x and the committed row gives the value at -x. *)
  Fixpoint chain (t : nat) (ls : list (nat * m_comm M * (list (list F) * m_proof M) * F)) (q : nat) (v : F) (ros : list (nat * F))
    : outcome (fri_error (m_err M) IE) (F * nat * list (nat * F)) :=
    match ls with
    | [] => Ok (v, q, ros)
    | (h, c, (vals, pf), beta) :: ls =>
        let (v, ros) := next_opening F h v ros in
        match vals with
        | [r] =>
            match m_verify_batch M t vals pf c with
            | Panic => Panic
            | Err e => Err (CommitPhaseMmcsError e)
            | Ok _ =>
                match nth_error r (1 - q mod 2) with
                | None => Panic
                | Some s => chain t ls (q / 2) (folded_pair F beta (fpow (gen (S h)) (Field.reverse_bits_len q (S h))) v s) ros
                end
            end
        | _ => Panic
        end
    end.

  (** the state of the loop *)
  Definition ros_ok (all : list expr) (m : manager) (ros : list (nat * expr)) (zros : list (nat * F)) : Prop :=
    Forall2 (fun p z => fst p = fst z /\ In (snd p) all /\ valF F G m (snd p) (snd z) /\ plain (snd p)) ros zros.
  Record loop_ok (all : list expr) (m : manager) (folded : expr) (v : F) (ros : list (nat * expr)) (zros : list (nat * F)) : Prop := mk_loop {
    lo_in : In folded all;
    lo_val : valF F G m folded v;
    lo_plain : plain folded;
    lo_ros : ros_ok all m ros zros;
    lo_covered : covered m (folded :: map snd ros ++ mn_checks m);
    lo_checks : Forall (fun c => says G m c [1%Z] /\ plain c) (mn_checks m) }.

  Lemma ros_mono : forall all all' m m' ros zros, incl all all' -> incl (given m) (given m') -> ros_ok all m ros zros -> ros_ok all' m' ros zros.
  Proof.
    intros all all' m m' ros zros C I R. induction R as [|p z ros zros (E & Ia & V & P) R IH]; constructor; auto.
    split; [exact E|]. split; [now apply C|]. split; [eapply valF_mono; eauto|exact P].
  Qed.
  Lemma checks_mono : forall m m' cs, incl (given m) (given m') -> Forall (fun c => says G m c [1%Z] /\ plain c) cs ->
    Forall (fun c => says G m' c [1%Z] /\ plain c) cs.
  Proof. intros m m' cs I Fc. eapply Forall_impl; [|exact Fc]. intros c [S0 P0]. split; [eapply says_mono; eauto|exact P0]. Qed.

  Lemma step_opening : forall A (R : A -> manager -> list expr -> Prop) h folded ros (k : expr * list (nat * expr) -> builder (A * manager)) all m v zros,
    loop_ok all m folded v ros zros ->
    (forall e rest all', incl all all' -> loop_ok all' m e (fst (next_opening F h v zros)) rest (snd (next_opening F h v zros)) -> works (k (e, rest)) all' m R) ->
    works (bind (next_opening_expr h folded ros) k) all m R.
  Proof.
    intros A R h folded ros k all m v zros [Li Lv Lp Lr Lc Lk] K. inversion Lr as [|[lh ro] [lz z] rest zrest (E & Ia & V & P) Lr']; subst; cbn [next_opening_expr next_opening] in *.
    - apply (step_let _ _ _ _ _ (folded, [])); [reflexivity|]. apply K; [apply incl_refl|]. now constructor.
    - cbn [fst snd] in E, Ia, V, P. subst lz. destruct (lh =? h + 1) eqn:Eh.
      + apply works_ext with (b' := bind (add folded ro) (fun e => k (e, rest))).
        { intros n. unfold bind, ret. now destruct (add folded ro n) as [[e n1]|]. }
        eapply (stepF_add F L G); [exact Li|exact Ia|exact Lv|exact V|]. intros e all' C Ie Ve Oe Pe. apply K; [exact C|]. cbn [fst snd].
        constructor; auto.
        * eapply plain_ops; eauto.
        * eapply ros_mono; eauto using incl_refl.
        * eapply covered_weaken; [exact Lc|]. cbn [map snd]. intros r [<-|[<-|Ir]].
          -- exists e. split; [now left|]. apply sub_op. rewrite Pe. now left.
          -- exists e. split; [now left|]. apply sub_op. rewrite Pe. right. now left.
          -- exists r. split; [now right|apply sub_refl].
      + apply (step_let _ _ _ _ _ (folded, (lh, ro) :: rest)); [reflexivity|]. apply K; [apply incl_refl|]. cbn [fst snd]. now constructor.
  Qed.

  Lemma rbl_half : forall q h, S h <= 27 ->
    fmul (fpow (gen (S h) : F) (Field.reverse_bits_len q (S h))) (fpow (gen (S h)) (Field.reverse_bits_len q (S h))) =
    fpow (gen h) (Field.reverse_bits_len (q / 2) h).
  Proof.
    intros q h Lh. pose proof (bl_adic F L) as Ad. rewrite <- fpow_mul_l, gen_sq by lia. cbn [Field.reverse_bits_len].
    rewrite fpow_add, Nat.mul_comm, fpow_mul, gen_order, fpow_1_l by lia. ring.
  Qed.

  Definition loop_result (m0 : manager) (c : outcome (fri_error (m_err M) IE) (F * nat * list (nat * F)))
    (r : eresult F M IE (expr * nat)) (m' : manager) (all' : list expr) : Prop :=
    match c with
    | Ok (v, q, zros) => exists e ros, r = Ok (e, q) /\ loop_ok all' m' e v ros zros /\ mn_exec m' = mn_exec m0
    | Err e => r = Err e
    | Panic => False
    end.

  Lemma query_loop_works : forall t commits openings bs n q folded x v ros zros all m,
    loop_ok all m folded v ros zros -> In x all -> plain x ->
    valF F G m x (fpow (gen n) (Field.reverse_bits_len q n)) ->
    n <= 27 -> length commits < n \/ commits = [] ->
    chain t (layers F M n commits openings bs) q v zros <> Panic ->
    works (query_loop_expr F M IE t (layers F M n commits openings bs) q folded x (fpow (gen n) (Field.reverse_bits_len q n)) ros m) all m
      (loop_result m (chain t (layers F M n commits openings bs) q v zros)).
  Proof.
    intros t commits. induction commits as [|c commits IH]; intros openings bs n q folded x v ros zros all m Lo Ix Px Vx Ln Lc NP.
    - assert (E : layers F M n [] openings bs = []) by (destruct n; reflexivity). rewrite E in *. cbn [query_loop_expr chain].
      apply works_ret. exists folded, ros. auto.
    - destruct Lc as [Lc|Lc]; [|discriminate Lc]. cbn [length] in Lc. destruct n as [|n]; [lia|].
      destruct openings as [|[vals pf] openings]; [cbn [layers query_loop_expr chain]; apply works_ret; exists folded, ros; auto|].
      destruct bs as [|beta bs]; [cbn [layers query_loop_expr chain]; apply works_ret; exists folded, ros; auto|].
      cbn [layers query_loop_expr chain] in NP |- *.
      eapply step_opening; [exact Lo|]. intros e1 rest all1 C1 Lo1.
      destruct (next_opening F n v zros) as [v1 zros1]. cbn [fst snd] in Lo1 |- *.
      destruct vals as [|r [|]]; [now elim NP| |now elim NP].
      destruct (m_verify_batch M t [r] pf c) as [u|err|]; [|apply works_ret; reflexivity|now elim NP].
      destruct (nth_error r (1 - q mod 2)) as [s|] eqn:Es; [|now elim NP].
      apply (step_get _ _ _ s); [reflexivity|].
      apply (stepF_input F L G). intros es all2 C2 Ies Ves Oes Pes. cbn [fst snd]. set (m2 := with_input (f_words F s) m) in *.
      apply (stepF_input F L G). intros eb all3 C3 Ieb Veb Oeb Peb. cbn [fst snd]. set (m3 := with_input (f_words F beta) m2) in *.
      assert (M2 : incl (given m) (given m2)) by (intros y Iy; apply given_input; now left).
      assert (M3 : incl (given m2) (given m3)) by (intros y Iy; apply given_input; now left).
      assert (M13 : incl (given m) (given m3)) by (eapply incl_tran; eauto).
      assert (C13 : incl all1 all3) by (eapply incl_tran; eauto). assert (C03 : incl all all3) by (eapply incl_tran; eauto).
      destruct Lo1 as [Li1 Lv1 Lp1 Lr1 Lcov1 Lk1].
      assert (Nx : fpow (gen (S n) : F) (Field.reverse_bits_len q (S n)) <> f0).
      { apply fpow_nz, gen_nz. pose proof (bl_adic F L). lia. }
      eapply works_bind.
      { apply (fold_row_works F L G); [exact (C13 _ Li1)|exact (C3 _ Ies)|exact (C03 _ Ix)|exact Ieb|exact (valF_mono F G _ _ _ _ M13 Lv1)
          |exact (valF_mono F G _ _ _ _ M3 Ves)|exact (valF_mono F G _ _ _ _ M13 Vx)|exact Veb|exact Nx]. }

      intros nf m4 all4 C4 M4 [Fi Fv (Sf & Ss & Sb) Fp Fe (ck & Eck & Ick & Jck & Pck & Cck)]. cbn [fst snd].
      specialize (Fv eq_refl). assert (Sck : says G m4 ck [1%Z]) by (intros gt env Fg; exact (proj1 (Jck gt env Fg) eq_refl)).
      assert (Pes' : plain es) by (eapply plain_ops; eauto). assert (Peb' : plain eb) by (eapply plain_ops; eauto).
      assert (M04 : incl (given m) (given m4)) by (eapply incl_tran; eauto).
      assert (Lo4 : loop_ok all4 m4 nf (folded_pair F beta (fpow (gen (S n)) (Field.reverse_bits_len q (S n))) v1 s) rest zros1).
      { constructor; auto.
        - eapply ros_mono; [|exact M04|exact Lr1]. eapply incl_tran; eauto.
        - intros w Iw. destruct (Cck w Iw) as [Iw'|Mw].
          + assert (Cm3 : covered m3 (nf :: map snd rest ++ mn_checks m3)).
            { intros y Iy. apply in_map_iff in Iy as (p & <- & Ip). apply given_input in Ip as [Ip| ->].
              - apply given_input in Ip as [Ip| ->].
                + destruct (Lcov1 (fst p) (in_map fst _ _ Ip)) as (r0 & [<-|Ir0] & Mr0).
                  * exists nf. split; [now left|]. exact (moves_sub _ _ _ Sf Mr0).
                  * exists r0. split; [now right|exact Mr0].
                + exists nf. split; [now left|]. exists es. split; [exact Ss|exact Oes].
              - exists nf. split; [now left|]. exists eb. split; [exact Sb|exact Oeb]. }
            destruct (Cm3 w Iw') as (r0 & Ir0 & Mr0). exists r0. split; [|exact Mr0]. rewrite Eck.
            destruct Ir0 as [<-|Ir0]; [now left|]. right. apply in_app_iff in Ir0 as [Ir0|Ir0]; apply in_app_iff; [now left|]. right. apply in_app_iff. now left.
          + exists ck. split; [|exact Mw]. rewrite Eck. right. apply in_app_iff. right. apply in_app_iff. right. now left.
        - rewrite Eck. apply Forall_app. split; [exact (checks_mono _ _ _ M04 Lk1)|]. constructor; [split; auto|constructor]. }
      assert (Ix4 : In x all4) by (apply C4, C03, Ix). assert (Vx4 : valF F G m4 x (fpow (gen (S n)) (Field.reverse_bits_len q (S n)))) by (eapply valF_mono; eauto).
      assert (We : forall all5 x', incl all4 all5 -> In x' all5 -> plain x' ->
        (commits = [] \/ valF F G m4 x' (fpow (gen n) (Field.reverse_bits_len (q / 2) n))) ->
        forall xh, (commits = [] \/ xh = fpow (gen n) (Field.reverse_bits_len (q / 2) n)) ->
        works (query_loop_expr F M IE t (layers F M n commits openings bs) (q / 2) nf x' xh rest m4) all5 m4
          (loop_result m (chain t (layers F M n commits openings bs) (q / 2)
             (folded_pair F beta (fpow (gen (S n)) (Field.reverse_bits_len q (S n))) v1 s) zros1))).
      { intros all5 x' C5 Ix' Px' Vx' xh Exh.
        assert (Lo5 : loop_ok all5 m4 nf (folded_pair F beta (fpow (gen (S n)) (Field.reverse_bits_len q (S n))) v1 s) rest zros1).
        { destruct Lo4 as [a1 a2 a3 a4 a5 a6]. constructor; auto. exact (ros_mono _ _ _ _ _ _ C5 (incl_refl _) a4). }
        destruct commits as [|c' commits'].
        - assert (E : layers F M n [] openings bs = []) by (destruct n; reflexivity). rewrite E. cbn [query_loop_expr chain].
          apply works_ret. exists nf, rest. split; [reflexivity|]. split; [exact Lo5|exact Fe].
        - destruct Vx' as [Q|Vx']; [discriminate Q|]. destruct Exh as [Q| ->]; [discriminate Q|].
          eapply works_weaken; [eapply (IH openings bs n (q / 2) nf x' _ rest zros1 all5 m4 Lo5 Ix' Px' Vx'); [lia|left; cbn in Lc |- *; lia|exact NP]|].
          intros a m' all' LR. unfold loop_result in *. destruct (chain _ _ _ _ _) as [[[v' q'] z']|e'|]; [|exact LR|exact LR].
          destruct LR as (e & ros' & E1 & E2 & E3). exists e, ros'. split; [exact E1|]. split; [exact E2|]. rewrite E3. exact Fe. }
      destruct (n =? 1) eqn:E1.
      + apply Nat.eqb_eq in E1. subst n. assert (Ec : commits = []) by (destruct commits; [reflexivity|cbn in Lc; lia]).
        apply (step_let _ _ _ _ _ x); [reflexivity|]. apply We; [apply incl_refl|exact Ix4|exact Px|now left|now left].
      + eapply (stepF_square F L G); [exact Ix4|exact Vx4|]. intros x' all5 C5 Ix' Vx' Ox' Px'.
        rewrite rbl_half in * by lia. apply We; auto. eapply plain_ops; eauto.
  Qed.

  (** ** The point of the query *)
  Lemma emb_pow : forall (x : F) k, bf_emb (fpow x k) = fpow (bf_emb x) k.
  Proof. intros x k. induction k as [|k IH]; [apply (bl_one F L)|]. cbn [fpow]. now rewrite (bl_mul F L), IH. Qed.
  Lemma holds_reverse : forall gt env v bits, 1 <= bits <= 31 -> (0 <= v < 2 ^ Z.of_nat bits)%Z ->
    yields (DslBuild.reverse_bits_len v bits) (fun e => holds G gt env e [bits_reversed bits v]).
  Proof.
    intros gt env v bits Lb Lv n. eexists _, _. split; [reflexivity|].
    destruct (C15_index_to_reverse_index (fun b => b) bits v [] [] Lb Lv) as (p & u & Ep & _). constructor; [| |reflexivity].
    - cbn [eval map]. cbn [collect fold_right seq_res app then_res node_sem op_sem].
      rewrite (proj2 (Z.leb_le 0 v)), (proj2 (Z.ltb_lt v _)) by lia. reflexivity.
    - cbn [shape map all_some]. cbn [var_size e_size]. cbn [input_of generate]. rewrite Ep. reflexivity.
  Qed.
  Lemma holds_rou : forall gt env ext a v bits, bits <= 27 -> (0 <= v < 2 ^ Z.of_nat bits)%Z -> holds G gt env a [v] ->
    yields (index_to_rou_dsl ext a bits)
      (fun e => holds G gt env e (limbs (u32_size ext) (fpow (from_base (of_Z (HelperModel.two_adic_generator bits))) (Z.to_nat v)))).
  Proof.
    intros gt env ext a v bits Lb Lv [Va Sa Za]. apply yields_node. intros i.
    assert (Ll : length (limbs (u32_size ext) (fpow (from_base (of_Z (HelperModel.two_adic_generator bits))) (Z.to_nat v))) = u32_size ext)
      by (apply limbs_length; destruct ext; cbn; lia).
    assert (P27 : (2 ^ Z.of_nat bits <= 2 ^ 27)%Z) by (apply Z.pow_le_mono_r; lia).
    assert (P31 : (2 ^ 27 < 2 ^ 31)%Z) by reflexivity.
    constructor; rewrite ?Ll.
    - cbn [eval map]. rewrite Va. cbn [collect fold_right seq_res app then_res node_sem op_sem]. unfold num32.
      rewrite (proj2 (Z.ltb_lt _ v)), (proj2 (Z.ltb_lt v (2 ^ 31)%Z)), (proj2 (Z.leb_le 0 v)), (proj2 (Z.ltb_lt v _)) by lia. now destruct ext.
    - cbn [shape map all_some]. rewrite Sa, Za. cbn [all_some concat app length input_number number_ok Nat.eqb input_of generate].
      unfold HelperModel.index_to_rou. rewrite (proj2 (Nat.leb_le bits 27)) by exact Lb. now destruct ext.
    - apply size_known. destruct ext; auto.
  Qed.

  Lemma whenever_reverse : forall v bits, whenever (DslBuild.reverse_bits_len v bits) plain.
  Proof.
    intros v bits n e n' E. unfold DslBuild.reverse_bits_len, constant_u32, constant, node, bind, get_opid, ret in E. injection E as <- <-.
    apply plain_node; [reflexivity|]. constructor; [|constructor]. apply plain_node; [reflexivity|constructor].
  Qed.

  Variable config : fri_config.
  Variable debug : bool.

  Definition debug_ok (q : nat) : Prop := debug && negb (q <? blowup config) = false.
  Lemma verify_query_works : forall t commits openings bs n q ros zros all m,
    ros_ok all m ros zros -> covered m (map snd ros ++ mn_checks m) -> Forall (fun c => says G m c [1%Z] /\ plain c) (mn_checks m) ->
    1 <= n <= 27 -> q < 2 ^ n -> length commits < n ->
    match chain t (layers F M n commits openings bs) q f0 zros with Ok (_, q', _) => debug_ok q' | Err _ => True | Panic => False end ->
    works (verify_query_expr F M IE config debug commits q t openings bs ros n m) all m
      (fun r m' all' => match chain t (layers F M n commits openings bs) q f0 zros with
         | Ok (v, _, zros') => exists e ros', r = Ok e /\ loop_ok all' m' e v ros' zros' /\ mn_exec m' = mn_exec m
         | Err e => r = Err e
         | Panic => False
         end).
  Proof.
    intros t commits openings bs n q ros zros all m Rs Cv Ck Ln Lq Lc Ch.
    assert (Zq : (0 <= Z.of_nat q < 2 ^ Z.of_nat n)%Z).
    { split; [lia|]. change 2%Z with (Z.of_nat 2). rewrite <- Nat2Z.inj_pow. lia. }
    pose proof (rbl_lt q n) as Lr.
    assert (Zr : (0 <= Z.of_nat (Field.reverse_bits_len q n) < 2 ^ Z.of_nat n)%Z).
    { split; [lia|]. change 2%Z with (Z.of_nat 2). rewrite <- Nat2Z.inj_pow. lia. }
    unfold verify_query_expr. apply (stepF_const F L G). intros z0 all1 C1 Iz Vz Oz Pz.
    eapply (works_pure _ _ _ _ _ (fun e => says G m e [Z.of_nat (Field.reverse_bits_len q n)] /\ plain e)).
    { apply growsq_own_first. reflexivity. }
    { intros N. apply yields_and; [|apply whenever_reverse]. apply yields_all; [exact N|]. intros gt env _. rewrite <- rbl_bits. apply holds_reverse; [lia|exact Zq]. }
    intros er all2 C2 Ier [Ver Per].
    eapply (works_pure _ _ _ _ _ (fun e => valF F G m e (fpow (gen n) (Field.reverse_bits_len q n)) /\
              e_op e = IndexToRou (bf_ext F) n /\ e_ops e = [er])).
    { apply growsq_node; [|reflexivity]. intros y [<-|[]]. exact Ier. }
    { intros N. apply yields_and; [|apply whenever_node]. unfold valF, val. apply yields_all; [exact N|]. intros gt env Fg.
      eapply yields_weaken; [apply holds_rou; [|exact Zr|exact (Ver gt env Fg)]; lia|]. intros e He. cbv beta in He. split; [apply (bl_elt F L)|].
      rewrite emb_pow, (bl_gen F L) by lia. rewrite Nat2Z.id in He. exact He. }
    intros x all3 C3 Ix (Vx & Ox & Px).
    assert (Plx : plain x) by (eapply plain_ops; eauto).
    apply (step_get _ _ _ (gen n)); [apply tag_some; pose proof (bl_adic F L); lia|].
    assert (Lo : loop_ok all3 m z0 f0 ros zros).
    { constructor; auto.
      - apply plain_node; [exact Oz|]. rewrite Pz. constructor.
      - eapply ros_mono; [|apply incl_refl|exact Rs]. repeat (eapply incl_tran; [eassumption|]). apply incl_refl.
      - intros w Iw. destruct (Cv w Iw) as (r & Ir & Mr). exists r. split; [now right|exact Mr]. }
    eapply works_bind.
    { apply (query_loop_works t commits openings bs n q z0 x f0 ros zros all3 m Lo Ix Plx Vx); [lia|now left|].
      intros Q. now rewrite Q in Ch. }
    intros r m' all' C4 M4 LR. unfold loop_result in LR. cbn [fst snd].
    destruct (chain t (layers F M n commits openings bs) q f0 zros) as [[[v q'] zros']|e|]; [|subst r; now apply works_ret|destruct LR].
    destruct LR as (e & ros' & -> & Lo' & Ex). unfold debug_ok in Ch. rewrite Ch. apply works_ret. exists e, ros'. auto.
  Qed.
End Query.
