(** Property C79: the script generators of uni-stark/src/scripts/utils.rs. *)
From Coq Require Import ZArith List Bool Arith Lia Field.
From Coq Require Import ZifyBool ZifyNat.
From Verif Require Import ScriptNum ScriptVM VMLemmas U32Model U32Proofs U32Proofs2 Macros
  U31Model U31Proofs HelperModel HelperProofs HelperRou Lift PropWords PropHelper.
From Verif Require Import Field BabyBear DslModel DslSpec DslOpSpec DslGadgets DslOps DslBuild DslDenote DslWork FriExprModel FriExprProofs StarkExprModel UtilsModel
  StackModel StackProofs PropStack.
Import ListNotations.
Local Open Scope nat_scope.

(** [all_some] *)
Lemma all_some_map : forall {A B} (f : A -> option B) (g : A -> B) l, (forall a, In a l -> f a = Some (g a)) ->
  all_some (map f l) = Some (map g l).
Proof.
  intros A B f g. induction l as [|a l IH]; intros E; [reflexivity|].
  cbn [map all_some]. rewrite (E a) by now left. rewrite IH; [reflexivity|]. intros b Hb. apply E. now right.
Qed.
Lemma all_some_none : forall {A B} (f : A -> option B) l a, In a l -> f a = None -> all_some (map f l) = None.
Proof.
  intros A B f. induction l as [|b l IH]; intros a Ha E; [destruct Ha|]. destruct Ha as [-> | Ha].
  - cbn [map all_some]. now rewrite E.
  - cbn [map all_some]. rewrite (IH a Ha E). now destruct (f b).
Qed.

Section Utils.
  Variable F : bf_field.
  Hypothesis L : bf_laws F.
  Variable G : gadgets.
  Notation sz := (f_size F).
  Add Field UF : (fth F).

  (** The table as pushed, first entry first, and seen from the top of the stack. *)
  Definition tab (g : F) (n : nat) : list F :=
    map (fpow g) (rev (seq 0 n)) ++ map (fun i => @finv F (fpow g i)) (seq 1 (n - 1)).

  Lemma inverses : forall g n, g <> f0 \/ n <= 1 ->
    all_some (map (fun i => inverse (fpow g i)) (seq 1 (n - 1))) = Some (map (fun i => @finv F (fpow g i)) (seq 1 (n - 1))).
  Proof.
    intros g n N. apply all_some_map. intros i Hi. apply in_seq in Hi.
    destruct N as [N|N]; [|lia]. apply inverse_nz. now apply fpow_nz.
  Qed.
  Lemma get_table_tab : forall g n, g <> f0 \/ n <= 1 -> get_table g n = Some (tab g n).
  Proof. intros g n N. unfold get_table. rewrite inverses by exact N. reflexivity. Qed.

  Definition twords (t : list F) : list Z := flat_map (f_words F) (rev t).
  Lemma push_flat : forall t : list F, flat_map (fun z => push_vec (f_words F z)) t = push_vec (twords t).
  Proof.
    intros t. unfold push_vec, twords. rewrite rev_flat_map, rev_involutive, !flat_map_concat_map, concat_map, map_map. reflexivity.
  Qed.
  Lemma push_tab : forall g n, g <> f0 \/ n <= 1 -> push_generator_table F g n = Some (push_vec (twords (tab g n))).
  Proof.
    intros g n N. unfold push_generator_table. rewrite inverses by exact N. cbn [option_map]. f_equal.
    rewrite <- push_flat. unfold tab. rewrite flat_map_app. f_equal.
    rewrite !flat_map_concat_map, map_map. reflexivity.
  Qed.
  Lemma tab_length : forall g n, 1 <= n -> length (tab g n) = 2 * n - 1.
  Proof. intros g n Hn. unfold tab. rewrite app_length, !map_length, rev_length, !seq_length. lia. Qed.
  Lemma twords_length : forall t, length (twords t) = sz * length t.
  Proof.
    intros t. unfold twords. rewrite <- (rev_length t). induction (rev t) as [|z l IH]; [cbn; lia|].
    cbn [flat_map length]. rewrite app_length, (words_len F L), IH. lia.
  Qed.

  (** Entry [k] from the top. *)
  Lemma tab_entry : forall g n k, g <> f0 \/ n <= 1 -> 1 <= n -> k < 2 * n - 1 -> exists v,
    nth_error (rev (tab g n)) k = Some v /\ fmul v (fpow g (n - 1)) = fpow g k.
  Proof.
    intros g n k N Hn Hk. unfold tab. rewrite rev_app_distr, <- !map_rev, rev_involutive.
    destruct (Nat.lt_ge_cases k (n - 1)) as [C|C].
    - exists (@finv F (fpow g (n - 1 - k))). destruct N as [N|N]; [|lia]. split.
      + rewrite nth_error_app1 by (rewrite map_length, rev_length, seq_length; lia).
        apply (map_nth_error (fun i => @finv F (fpow g i))).
        rewrite nth_error_nth' with (d := 0%nat) by (rewrite rev_length, seq_length; lia).
        rewrite rev_nth, seq_length, seq_nth by (rewrite ?seq_length; lia). f_equal. lia.
      + replace (n - 1)%nat with ((n - 1 - k) + k)%nat at 2 by lia. rewrite fpow_add. field. now apply fpow_nz.
    - exists (fpow g (k - (n - 1))). split.
      + rewrite nth_error_app2 by (rewrite map_length, rev_length, seq_length; lia).
        rewrite map_length, rev_length, seq_length. apply (map_nth_error (fpow g)).
        rewrite nth_error_nth' with (d := 0%nat) by (rewrite seq_length; lia). rewrite seq_nth by lia. f_equal; lia.
      + rewrite <- fpow_add. f_equal. lia.
  Qed.

  Lemma nth_split_words : forall (t : list F) k v, nth_error t k = Some v ->
    exists l1 l2, flat_map (f_words F) t = l1 ++ f_words F v ++ l2 /\ length l1 = (sz * k)%nat.
  Proof.
    induction t as [|z t IH]; intros [|k] v E; try discriminate E.
    - injection E as ->. exists [], (flat_map (f_words F) t). split; [reflexivity|cbn; lia].
    - cbn [nth_error] in E. destruct (IH k v E) as (l1 & l2 & Es & Ll). exists (f_words F z ++ l1), l2.
      cbn [flat_map]. rewrite Es, <- app_assoc. split; [reflexivity|]. rewrite app_length, (words_len F L), Ll. lia.
  Qed.

  Lemma pops : forall n p, pop_generator_table F n = Some p -> p = repeat_script (sz * (2 * n - 1)) [OP_DROP].
  Proof.
    intros n p E. unfold pop_generator_table in E. destruct (n =? 0)%nat; [discriminate E|]. apply DslOps.some_inj in E. subst p.
    generalize (2 * n - 1)%nat. intros m. induction m as [|m IH]; [now rewrite Nat.mul_0_r|].
    rewrite Nat.mul_succ_r, Nat.add_comm. cbn [repeat_script]. rewrite IH. clear.
    generalize (sz * m)%nat. intros b. induction sz as [|a IH]; [reflexivity|]. cbn [repeat_script Nat.add app]. now rewrite IH.
  Qed.

  Section Run.
    Variable H : bytes -> bytes.

    (** With the table on the stack, the script leaves the [sz] elements at depth [sz * k]. *)
    Lemma generator_run : forall g n k p l1 w l2 r al, g <> f0 \/ n <= 1 ->
      chunk_generator F g n = Some p ->
      map I (twords (tab g n)) ++ r = l1 ++ w ++ l2 -> length l1 = (sz * k)%nat -> length w = sz ->
      (Z.of_nat (4 * k) < 2 ^ 30)%Z ->
      ScriptVM.run H p (mk (I (Z.of_nat k) :: r) al []) = Some (mk (w ++ r) al []).
    Proof.
      intros g n k p l1 w l2 r al N E Et L1 Lw Hk. unfold chunk_generator in E. rewrite push_tab in E by exact N.
      destruct (pop_generator_table F n) as [q|] eqn:Eq; [|discriminate E]. apply DslOps.some_inj in E. subst p.
      assert (Hn : 1 <= n) by (unfold pop_generator_table in Eq; destruct (Nat.eqb_spec n 0); [discriminate Eq|lia]).
      apply pops in Eq. subst q.
      assert (Lt : length (map I (twords (tab g n))) = (sz * (2 * n - 1))%nat)
        by (rewrite map_length, twords_length, tab_length by exact Hn; reflexivity).
      eapply (run_seq H [OP_TOALTSTACK]); [reflexivity|]; cbn [main alt cond].
      rewrite run_app, push_vec_ok.
      eapply (run_seq H [OP_FROMALTSTACK]); [reflexivity|]; cbn [main alt cond].
      set (T := map I (twords (tab g n))) in *. clearbody T.
      unfold f_size in *. destruct (bf_ext F); cbn [u32_size] in *.
      - destruct w as [|w0 [|w1 [|w2 [|w3 [|? ?]]]]]; try discriminate Lw. cbn [app] in Et.
        assert (C : (Z.abs (Z.of_nat k) * 2 ^ (Z.of_nat 2 - 1) < 2 ^ 31)%Z)
          by (change (2 ^ (Z.of_nat 2 - 1))%Z with 2%Z; change (2 ^ 31)%Z with 2147483648%Z; change (2 ^ 30)%Z with 1073741824%Z in Hk; lia).
        rewrite Et. eapply run_seq.
        + eapply run_seq; [exact (op_2k_mul_ok H 2 (Z.of_nat k) _ _ (or_intror C))|].
          change (2 ^ Z.of_nat 2)%Z with 4%Z.
          replace (Z.of_nat k * 4)%Z with (Z.of_nat (length l1)) by lia.
          eapply run_seq; [apply OP_4PICK_ok; lia|]. apply OP_4TOALT_ok.
        + rewrite <- Et, run_app, drop_n by exact Lt. apply OP_4FROMALT_ok.
      - destruct w as [|w0 [|? ?]]; try discriminate Lw. cbn [app] in Et.
        rewrite Et. eapply (run_seq H [OP_PICK; OP_TOALTSTACK]).
        + change (2 ^ 30)%Z with 1073741824%Z in Hk. rewrite vpick_mid; [reflexivity|lia|change (2 ^ 31)%Z with 2147483648%Z; lia].
        + cbn [main alt cond]. rewrite <- Et, run_app, drop_n by exact Lt. reflexivity.
    Qed.
    (** *** Exponentiation *)
    Hypothesis OK : gadgets_ok H G.
    Lemma emb_pow : forall (x : F) n, bf_emb (fpow x n) = fpow (bf_emb x) n.
    Proof. intros x. induction n as [|n IH]; [apply (bl_one F L)|]. cbn [fpow]. now rewrite (bl_mul F L), IH. Qed.

    Lemma exp_words : forall n (x : F) rest al,
      exec H (repeat_script n (square_with_input F G)) (nums (f_words F x) ++ rest) al (nums (f_words F (fpow x (2 ^ n))) ++ rest) al.
    Proof.
      intros n x rest al. unfold f_words. rewrite emb_pow. pose proof (bl_elt F L x) as Ex.
      unfold square_with_input, f_size. destruct (bf_ext F); cbn [u32_size] in *.
      - pose proof (ext_exp_ok H G OK n (limbs 4 (bf_emb x)) rest al (elt_of_is _ _ Ex)) as E.
        rewrite felt_limbs4 in E. exact E.
      - destruct Ex as [Ex|(_ & b & ->)]; [discriminate Ex|].
        rewrite <- from_base_pow, !limbs_1_base. rewrite <- (of_Z_as b) at 2. rewrite pow_limb, Nat2Z.inj_pow.
        exact (C16_value_exp_n H n (as_canonical b) rest al (bb_range b)).
    Qed.

    Lemma sub_one : forall (x : F) rest al,
      exec H (if bf_ext F then [PUSHN 0; PUSHN 0; PUSHN 0; PUSHN 1] ++ u31ext_sub else PUSHN 1 :: u31_sub)
        (nums (f_words F x) ++ rest) al (nums (f_words F (fsub x f1)) ++ rest) al.
    Proof.
      intros x rest al. unfold f_words. rewrite (bl_sub F L), (bl_one F L). pose proof (bl_elt F L x) as Ex.
      assert (E1 : forall e, elt_of (u32_size e) (f1 : BB4)) by (intros []; [apply elt_of_4|apply (elt_of_base f1)]).
      assert (P : forall e : bool, exec H (if e then [PUSHN 0; PUSHN 0; PUSHN 0; PUSHN 1] else [PUSHN 1])
        (nums (limbs (u32_size e) (bf_emb x)) ++ rest) al (nums (limbs (u32_size e) f1) ++ nums (limbs (u32_size e) (bf_emb x)) ++ rest) al)
        by (intros []; reflexivity).
      assert (Q : forall n, elt_of n (bf_emb x) -> elt_of n (f1 : BB4) ->
        exec H (if (n =? 1)%nat then u31_sub else u31ext_sub) (nums (limbs n f1) ++ nums (limbs n (bf_emb x)) ++ rest) al
          (nums (limbs n (fsub (bf_emb x) f1)) ++ rest) al).
      { intros n Hx H1. pose proof (elt_of_is _ _ Hx) as Ix. pose proof (elt_of_is _ _ H1) as I1.
        assert (Eg : generate G Sub [n; n] = Some (mkem (if (n =? 1)%nat then u31_sub else u31ext_sub) 2 [n]))
          by (cbn [generate op_binary]; now rewrite Nat.eqb_refl).
        assert (Es : op_sem Sub [n; n] [limbs n f1; limbs n (bf_emb x)] = Some (Leaves [limbs n (fsub (bf_emb x) f1)])).
        { cbn [op_sem DslOpSpec.bin]. unfold DslOpSpec.bin. rewrite Ix, I1, Nat.max_id, (elt_of_felt _ _ Hx), (elt_of_felt _ _ H1). reflexivity. }
        destruct (meets_sub H G OK _ _ _ _ Eg Es rest al) as [_ E]. cbn [em_script concat] in E.
        rewrite !app_nil_r, nums_app, <- app_assoc in E. exact E. }
      specialize (P (bf_ext F)). specialize (Q _ Ex (E1 (bf_ext F))). unfold f_size.
      destruct (bf_ext F); cbn [u32_size Nat.eqb] in *.
      - exact (exec_seq _ _ _ _ _ _ _ _ _ P Q).
      - exact (exec_seq _ _ _ _ _ _ _ _ _ P Q).
    Qed.
  End Run.


  (** *** get_generator *)
  Theorem C79_domain : forall (g : F) n, chunk_generator F g n = None <-> n = 0 \/ (g = f0 /\ 2 <= n).
  Proof.
    intros g n. unfold chunk_generator, pop_generator_table. split.
    - intros E. destruct (Nat.eqb_spec n 0) as [Z|Z]; [now left|right].
      destruct (f_dec F g f0) as [Eg|Ng]; [|rewrite push_tab in E by (now left); discriminate E].
      split; [exact Eg|]. destruct (Nat.le_gt_cases n 1) as [C|C]; [|lia].
      rewrite push_tab in E by (now right). discriminate E.
    - intros [->|[-> Hn]]; [now destruct (push_generator_table F g 0)|].
      unfold push_generator_table. rewrite (all_some_none _ _ 1); [reflexivity|apply in_seq; lia|].
      unfold inverse. rewrite fpow_1_r, (feqb_refl F). reflexivity.
  Qed.

  Lemma generator_defined : forall (g : F) n, g <> f0 -> 1 <= n -> exists p, chunk_generator F g n = Some p.
  Proof.
    intros g n N Hn. destruct (chunk_generator F g n) as [p|] eqn:E; [now exists p|].
    apply C79_domain in E as [E|[E _]]; [lia|contradiction].
  Qed.

  Lemma generator_exec : forall H g n k p l1 w l2 rest al, g <> f0 -> chunk_generator F g n = Some p ->
    nums (twords (tab g n)) ++ rest = l1 ++ w ++ l2 -> length l1 = (sz * k)%nat -> length w = sz ->
    (Z.of_nat k < 2 ^ 28)%Z -> exec H p (enc (Z.of_nat k) :: rest) al (w ++ rest) al.
  Proof.
    intros H g n k p l1 w l2 rest al N E Et L1 Lw Hk.
    set (T := map I (twords (tab g n)) ++ map B rest).
    assert (ET : map vbytes T = l1 ++ w ++ l2) by (unfold T; rewrite map_app, map_vI, map_vB; exact Et).
    assert (LT : sz * k + sz <= length T) by (rewrite <- (map_length vbytes), ET, !app_length; lia).
    assert (Ew : map vbytes (firstn sz (skipn (sz * k) T)) = w).
    { rewrite <- firstn_map, <- skipn_map, ET, <- L1, skipn_app, skipn_all, Nat.sub_diag. cbn [skipn app].
      rewrite <- Lw, firstn_app, firstn_all, Nat.sub_diag. cbn [firstn]. apply app_nil_r. }
    assert (X := generator_run H g n k p (firstn (sz * k) T) (firstn sz (skipn (sz * k) T)) (skipn sz (skipn (sz * k) T))
      (map B rest) (map B al) (or_introl N) E).
    assert (X' : ScriptVM.run H p (mk (I (Z.of_nat k) :: map B rest) (map B al) []) =
      Some (mk (firstn sz (skipn (sz * k) T) ++ map B rest) (map B al) [])).
    { apply X.
      - fold T. now rewrite (firstn_skipn sz), firstn_skipn.
      - rewrite firstn_length. lia.
      - rewrite firstn_length, skipn_length. lia.
      - change (2 ^ 28)%Z with 268435456%Z in Hk. change (2 ^ 30)%Z with 1073741824%Z. lia. }
    apply exec_of_run in X'. rewrite map_app, Ew, !map_vB in X'. cbn [map vbytes] in X'. rewrite map_vB in X'. exact X'.
  Qed.

  Theorem C79_get_generator : forall H (g : F) n k rest al, g <> f0 -> 1 <= n -> k < 2 * n - 1 -> (Z.of_nat k < 2 ^ 28)%Z ->
    exists p v, chunk_generator F g n = Some p /\ fmul v (fpow g (n - 1)) = fpow g k /\
      exec H p (enc (Z.of_nat k) :: rest) al (nums (f_words F v) ++ rest) al.
  Proof.
    intros H g n k rest al N Hn Hk Hb. destruct (generator_defined g n N Hn) as [p Ep].
    destruct (tab_entry g n k (or_introl N) Hn Hk) as (v & Ev & Vk). exists p, v. split; [exact Ep|]. split; [exact Vk|].
    destruct (nth_split_words _ _ _ Ev) as (l1 & l2 & Es & L1).
    apply (generator_exec H g n k p (nums l1) (nums (f_words F v)) (nums l2 ++ rest) rest al N Ep); [| | |exact Hb].
    - unfold twords. rewrite Es, !nums_app, <- !app_assoc. reflexivity.
    - unfold nums. now rewrite map_length.
    - unfold nums. rewrite map_length. apply (words_len F L).
  Qed.

  (** The table is that of get_table, which compute_quotient_expr uses. *)
  Theorem C79_same_as_get_table : forall H (g : F) n k t rest al, g <> f0 -> 1 <= n -> k < 2 * n - 1 -> (Z.of_nat k < 2 ^ 28)%Z ->
    get_table g n = Some t ->
    exists p v, chunk_generator F g n = Some p /\ nth_error t (2 * n - 2 - k) = Some v /\
      exec H p (enc (Z.of_nat k) :: rest) al (nums (f_words F v) ++ rest) al.
  Proof.
    intros H g n k t rest al N Hn Hk Hb Et. rewrite get_table_tab in Et by (now left). injection Et as <-.
    destruct (C79_get_generator H g n k rest al N Hn Hk Hb) as (p & v & Ep & Vk & X). exists p, v. split; [exact Ep|]. split; [|exact X].
    destruct (tab_entry g n k (or_introl N) Hn Hk) as (v' & Ev & Vk').
    assert (v = v') as ->.
    { apply (fmul_cancel_l F (fpow g (n - 1))); [now apply fpow_nz|]. transitivity (fpow g k); [rewrite <- Vk; ring|rewrite <- Vk'; ring]. }
    pose proof (tab_length g n Hn) as Lt.
    rewrite nth_error_nth' with (d := v') in Ev |- * by (rewrite ?rev_length; lia).
    rewrite rev_nth in Ev by lia. rewrite Lt in Ev. replace (2 * n - 2 - k)%nat with (2 * n - 1 - S k)%nat by lia. exact Ev.
  Qed.

  (** Finding: an index outside the table is not rejected, the script copies what lies below it. *)
  Theorem C79_beyond_table : forall H (g : F) n k rest al, g <> f0 -> 1 <= n -> 2 * n - 1 <= k -> (Z.of_nat k < 2 ^ 28)%Z ->
    sz * (k - (2 * n - 1)) + sz <= length rest ->
    exists p, chunk_generator F g n = Some p /\
      exec H p (enc (Z.of_nat k) :: rest) al (firstn sz (skipn (sz * (k - (2 * n - 1))) rest) ++ rest) al.
  Proof.
    intros H g n k rest al N Hn Hk Hb Hr. destruct (generator_defined g n N Hn) as [p Ep]. exists p. split; [exact Ep|].
    set (d := (sz * (k - (2 * n - 1)))%nat) in *.
    apply (generator_exec H g n k p (nums (twords (tab g n)) ++ firstn d rest) _ (skipn sz (skipn d rest)) rest al N Ep); [| | |exact Hb].
    - rewrite <- app_assoc. f_equal. now rewrite (firstn_skipn sz), firstn_skipn.
    - unfold nums. rewrite app_length, map_length, twords_length, tab_length, firstn_length by exact Hn.
      rewrite Nat.min_l by lia. subst d. rewrite <- Nat.mul_add_distr_l. f_equal. lia.
    - rewrite firstn_length, skipn_length. lia.
  Qed.

  (** *** Stack room: [2 n] field elements. *)
  Lemma push_heights : forall l, heights (push_vec l) (Z.of_nat (length l)) (Z.of_nat (length l)) (Z.of_nat (length l)).
  Proof.
    intros l. unfold push_vec. rewrite <- (rev_length l). induction (rev l) as [|x r IH]; [exact heights_nil|].
    cbn [map length]. assert (T : heights [PUSHN x] 1 1 1) by (apply profile_heights; reflexivity).
    eapply heights_weaken; [exact (heights_app [PUSHN x] _ _ _ _ _ _ _ T IH)|lia..].
  Qed.
  Lemma generator_heights : forall g n p, g <> f0 -> chunk_generator F g n = Some p ->
    heights p (Z.of_nat sz - 1) (Z.of_nat (sz * (2 * n)) - 1) (Z.of_nat (sz * (2 * n)) - 1).
  Proof.
    intros g n p N E. unfold chunk_generator in E. rewrite push_tab in E by (now left).
    destruct (pop_generator_table F n) as [q|] eqn:Eq; [|discriminate E]. apply DslOps.some_inj in E. subst p.
    assert (Hn : 1 <= n) by (unfold pop_generator_table in Eq; destruct (Nat.eqb_spec n 0); [discriminate Eq|lia]).
    apply pops in Eq. subst q.
    pose proof (push_heights (twords (tab g n))) as Hp. rewrite twords_length, tab_length in Hp by exact Hn.
    assert (Ta : heights [OP_TOALTSTACK] 0 0 0) by (apply profile_heights; reflexivity).
    assert (Fa : heights [OP_FROMALTSTACK] 0 0 0) by (apply profile_heights; reflexivity).
    assert (Dr : heights [OP_DROP] (-1) 0 0) by (apply profile_heights; reflexivity).
    pose proof (heights_repeat _ _ _ _ Dr ltac:(lia) (sz * (2 * n - 1))%nat) as Hd.
    assert (Pk : heights (if bf_ext F then OP_4MUL ++ OP_4PICK ++ OP_4TOALTSTACK else [OP_PICK; OP_TOALTSTACK])
      (Z.of_nat sz - 1) (Z.of_nat sz - 1) (Z.of_nat sz - 1))
      by (unfold f_size; destruct (bf_ext F); apply profile_heights; reflexivity).
    assert (Fr : heights (if bf_ext F then OP_4FROMALTSTACK else [OP_FROMALTSTACK]) 0 0 0)
      by (destruct (bf_ext F); apply profile_heights; reflexivity).
    assert (Sz : (1 <= sz)%nat) by (destruct (sz_cases F) as [-> | ->]; lia).
    eapply heights_weaken; [exact (heights_app _ _ _ _ _ _ _ _ Ta (heights_app _ _ _ _ _ _ _ _ Hp
      (heights_app _ _ _ _ _ _ _ _ Fa (heights_app _ _ _ _ _ _ _ _ Pk (heights_app _ _ _ _ _ _ _ _ Hd Fr)))))| | |];
      set (m := (sz * (2 * n - 1))%nat) in *;
      assert (Em : (sz * (2 * n) = m + sz)%nat) by (subst m; rewrite <- (Nat.mul_1_r sz) at 3; rewrite <- Nat.mul_add_distr_l; f_equal; lia);
      rewrite ?Em; clearbody m; destruct m; lia.
  Qed.

  Theorem C79_room : forall H (g : F) n p k rest al m' al' lim, g <> f0 -> chunk_generator F g n = Some p ->
    exec H p (enc k :: rest) al m' al' ->
    let needed := (Z.of_nat (sz * (2 * n)) + PropStack.size rest + PropStack.size al)%Z in
    ((needed <= lim)%Z -> within lim H p (enc k :: rest) al m' al') /\
    ((lim < needed)%Z -> overflows lim H p (enc k :: rest) al).
  Proof.
    intros H g n p k rest al m' al' lim N E X needed.
    destruct (heights_decide _ _ _ _ _ _ _ _ lim (generator_heights g n p N E) X) as [U D].
    unfold needed, PropStack.size in *. cbn [length] in *. split; intros HL; [apply U|apply D]; lia.
  Qed.

  (** *** value_exp_n_minus_one *)
  Theorem C79_exp_minus_one : forall H log_n (x : F) rest al, gadgets_ok H G ->
    exec H (value_exp_n_minus_one F G log_n) (nums (f_words F x) ++ rest) al (nums (f_words F (fsub (fpow x (2 ^ log_n)) f1)) ++ rest) al.
  Proof.
    intros H log_n x rest al OK. unfold value_exp_n_minus_one. eapply exec_seq; [apply (exp_words H OK)|]. apply (sub_one H OK).
  Qed.
End Utils.

Local Open Scope Z_scope.
(** Quotient chunks 3, generator 3: index 1 picks 1/3, index 4 picks 9; index 6 copies the caller's stack. *)
Example C79_example : exists p, chunk_generator bf_base (of_Z 3 : BabyBearT) 3 = Some p /\
  exec H0 p [enc 1; [9]] [[8]] [enc 1342177281; [9]] [[8]] /\ (3 * 1342177281) mod BP = 1 /\
  exec H0 p [enc 4; [9]] [[8]] [enc 9; [9]] [[8]] /\
  exec H0 p [enc 6; [9]; [5]] [[8]] [[5]; [9]; [5]] [[8]].
Proof. eexists. split; [vm_compute; reflexivity|]. vm_compute. repeat split. Qed.

(** The extension: index 1 of the table of 2 picks 1. *)
Example C79_example_ext : exists p, chunk_generator bf_ext4 (ext (of_Z 0) (of_Z 1) (of_Z 0) (of_Z 0) : ExtT) 2 = Some p /\
  exec H0 p [enc 1; [9]] [] (nums [1; 0; 0; 0] ++ [[9]]) [] /\
  exec H0 p [enc 2; [9]] [] (nums [0; 1; 0; 0] ++ [[9]]) [].
Proof. eexists. split; [vm_compute; reflexivity|]. vm_compute. repeat split. Qed.

(** 2^8 - 1 and, with scripts that meet the contract, X^2 - 1 in the extension by X^4 = 11. *)
Example C79_example_exp :
  exec H0 (value_exp_n_minus_one bf_base my_gadgets 3) [enc 2; [9]] [] [enc 255; [9]] [] /\
  exec H0 (value_exp_n_minus_one bf_ext4 my_gadgets 1) (nums [0; 1; 0; 0] ++ [[9]]) [] (nums [2013265920; 0; 1; 0] ++ [[9]]) [].
Proof. vm_compute. split; reflexivity. Qed.
Example C79_example_contract : gadgets_ok H0 my_gadgets /\ bf_laws bf_base /\ bf_laws bf_ext4.
Proof. split; [apply gadgets_satisfiable|]. split; [exact bf_base_laws|exact bf_ext4_laws]. Qed.

(** Within the 1000 elements the extension table of 125 chunks can be used on empty stacks, that of 126 cannot. *)
Example C79_example_room : forall H (g : ExtT) p q k m' al', g <> f0 ->
  chunk_generator bf_ext4 g 125 = Some p -> chunk_generator bf_ext4 g 126 = Some q ->
  (exec H p [enc k] [] m' al' -> within stack_limit H p [enc k] [] m' al') /\
  (exec H q [enc k] [] m' al' -> overflows stack_limit H q [enc k] []).
Proof.
  intros H g p q k m' al' N Ep Eq. split; intros X.
  - apply (C79_room bf_ext4 bf_ext4_laws H g 125 p k [] [] m' al' stack_limit N Ep X). vm_compute. discriminate.
  - apply (C79_room bf_ext4 bf_ext4_laws H g 126 q k [] [] m' al' stack_limit N Eq X). reflexivity.
Qed.
