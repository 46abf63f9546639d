(** Values of the expressions made by the script-side challenger. *)
From Coq Require Import ZArith List Bool Arith Lia.
From Verif Require Import ScriptNum ScriptVM Lift U32Model Field BabyBear HelperModel PropWords DslModel DslSpec DslProofs DslDag DslMain DslOpSpec DslOps DslBuild DslIds DslDenote
  Blake3Spec Blake3Model PropBlake ChallengerModel ChalExprModel ChalExprGraph.
Import ListNotations.
Local Open Scope nat_scope.

Notation singletons := (map (fun b : Z => [b])).

(** ** Hash values *)
Lemma flat4_len : forall l, length (flat_map le_bytes4 l) = 4 * length l.
Proof. induction l as [|w l IH]; [reflexivity|]. cbn [flat_map]. rewrite app_length, IH. cbn. lia. Qed.
Lemma hash_len : forall msg, length (b3_hash msg) = 32.
Proof. intros msg. unfold b3_hash. now rewrite flat4_len, hash_words_len. Qed.
Lemma hash_bytes : forall msg, forallb byteb (b3_hash msg) = true.
Proof.
  intros msg. apply forallb_forall. intros b I0. unfold b3_hash in I0. apply in_flat_map in I0 as (w & _ & I0).
  unfold le_bytes4 in I0. unfold byteb. apply andb_true_iff. rewrite Z.leb_le, Z.ltb_lt.
  repeat (destruct I0 as [<-|I0]; [apply Z.mod_pos_bound; reflexivity|]). destruct I0.
Qed.
Lemma blake3_script : exists p, Blake3Model.blake3 = Some p.
Proof.
  assert (E : match Blake3Model.blake3 with Some _ => true | None => false end = true) by (vm_compute; reflexivity).
  destruct Blake3Model.blake3 as [p|]; [eauto|discriminate E].
Qed.

(** ** Operands *)
Lemma collect_snoc : forall l a r, collect l = Some (Leaves r) -> collect (l ++ [Some (Leaves a)]) = Some (Leaves (a ++ r)).
Proof.
  unfold collect. induction l as [|x l IH]; intros a r E; cbn [app fold_right] in *.
  - injection E as <-. cbn. now rewrite app_nil_r.
  - destruct x as [[b|]|]; cbn [seq_res] in *; try discriminate E.
    destruct (fold_right seq_res (Some (Leaves [])) l) as [[c|]|] eqn:El; try discriminate E. injection E as <-.
    rewrite (IH a c eq_refl). cbn [seq_res]. now rewrite app_assoc.
Qed.
Lemma collect_rev : forall env l os, Forall2 (fun e o => eval op_sem env e = Some (Leaves o)) l os ->
  collect (map (eval op_sem env) (rev l)) = Some (Leaves (concat os)).
Proof.
  intros env l os F. induction F as [|e o l os Ev F IH]; [reflexivity|]. cbn [rev concat].
  rewrite map_app. cbn [map]. rewrite Ev. now apply collect_snoc.
Qed.
Lemma all_some_ok : forall A B (f : A -> option B) l r, Forall2 (fun a b => f a = Some b) l r -> all_some (map f l) = Some r.
Proof. intros A B f l r F. induction F as [|a b l r E F IH]; [reflexivity|]. cbn. now rewrite E, IH. Qed.

Definition const_of (z : Z) (e : expr) : Prop := exists i, e = Node i (Constant [z]) 1 [].
Definition zeros_of (k : nat) : list Z := repeat 0%Z k.

Lemma forall2_len : forall A B (P : A -> B -> Prop) l k, Forall2 P l k -> length l = length k.
Proof. intros A B P l k F. induction F; cbn; auto. Qed.

Section Gives.
  Variable G : gadgets.

  (** The expression takes no input, passes the assertions of generation and has the
      output values [outs]. *)
  Record gives (e : expr) (outs : list (list Z)) (sz : nat) : Prop := mkgives {
    g_eval : forall env, eval op_sem env e = Some (Leaves outs);
    g_shape : forall gt, shape G gt e = Some (map (@length Z) outs);
    g_size : var_size e = Some sz;
    g_need : forall gt, need G gt e <= 64 }.

  Lemma gives_outsize : forall e outs sz gt, gives e outs sz -> outsize G gt e = list_sum (map (@length Z) outs).
  Proof. intros e outs sz gt Ge. unfold outsize. now rewrite (g_shape _ _ _ Ge). Qed.
  Lemma gives_holds : forall e l gt env, gives e [l] (length l) -> holds G gt env e l.
  Proof. intros e l gt env Ge. constructor; [apply Ge|apply Ge|apply Ge]. Qed.

  Lemma gives_const : forall i v, length v = 1 \/ length v = 4 -> gives (Node i (Constant v) (length v) []) [v] (length v).
  Proof.
    intros i v L. constructor; [reflexivity|reflexivity|now apply size_known|].
    intros gt. cbn. destruct L as [-> | ->]; cbn; lia.
  Qed.
  Lemma gives_init : forall i, gives (Node i (Table (repeat [0%Z] 32)) 1 []) (repeat [0%Z] 32) 1.
  Proof. intros i. constructor; [reflexivity|reflexivity|reflexivity|]. intros gt. vm_compute. lia. Qed.

  Lemma sum_singletons : forall l : list Z, list_sum (map (@length Z) (singletons l)) = length l.
  Proof. induction l as [|b l IH]; [reflexivity|]. cbn [map list_sum fold_right]. change (fold_right Nat.add 0) with list_sum. rewrite IH. reflexivity. Qed.
  Lemma needs_ones : forall gt cs bs, Forall2 (fun z c => const_of z c) bs cs ->
    needs (map (fun x => (need G gt x, outsize G gt x)) cs) <= length cs.
  Proof.
    intros gt cs bs F. induction F as [|z c bs cs [i ->] F IH]; [apply le_n|]. cbn [map needs length].
    change (need G gt (Node i (Constant [z]) 1 [])) with 1. change (outsize G gt (Node i (Constant [z]) 1 [])) with 1. lia.
  Qed.

  Lemma forall2_rev' : forall A B (P : A -> B -> Prop) l k, Forall2 P l k -> Forall2 P (rev l) (rev k).
  Proof.
    intros A B P l k F. induction F as [|a b l k Pab F IH]; [constructor|]. cbn. apply Forall2_app; [exact IH|]. now repeat constructor.
  Qed.
  Lemma concat_const : forall l : list Z, concat (map (fun z => [[z]]) l) = singletons l.
  Proof. induction l as [|z l IH]; [reflexivity|]. cbn. now rewrite IH. Qed.
  Lemma forall2_map_l : forall A B C (f : A -> B) (P : C -> B -> Prop) l k, Forall2 (fun a c => P c (f a)) l k -> Forall2 P k (map f l).
  Proof. intros A B C f P l k F. induction F; cbn; constructor; auto. Qed.

  Lemma gives_blake3 : forall i k b sz hs cs bs, gives b (singletons hs) sz -> length hs = 32 -> forallb byteb hs = true ->
    Forall2 const_of bs cs -> length bs = 32 -> forallb byteb bs = true -> k = 1 \/ k = 4 ->
    gives (Node i Blake3Perm k (rev (cs ++ [b]))) (singletons (b3_hash (bs ++ hs))) k.
  Proof.
    intros i k b sz hs cs bs Gb Lh Bh Fc Lb Bb Kk.
    assert (Lc : length cs = 32) by (rewrite <- Lb; symmetry; eapply forall2_len; eauto).
    assert (Fe : forall env, Forall2 (fun e o => eval op_sem env e = Some (Leaves o)) (cs ++ [b]) (map (fun z => [[z]]) bs ++ [singletons hs])).
    { intros env. apply Forall2_app; [|constructor; [apply Gb|constructor]]. apply forall2_map_l.
      clear -Fc. induction Fc as [|z c bs cs [j ->] Fc IH]; constructor; auto. }
    assert (Fs : forall gt, Forall2 (fun e s => shape G gt e = Some s) (cs ++ [b]) (map (fun z => [1]) bs ++ [map (@length Z) (singletons hs)])).
    { intros gt. apply Forall2_app; [|constructor; [apply Gb|constructor]]. apply forall2_map_l.
      clear -Fc. induction Fc as [|z c bs cs [j ->] Fc IH]; constructor; auto. }
    assert (Fz : Forall2 (fun e s => var_size e = Some s) (cs ++ [b]) (map (fun z => 1) bs ++ [sz])).
    { apply Forall2_app; [|constructor; [apply Gb|constructor]]. apply forall2_map_l.
      clear -Fc. induction Fc as [|z c bs cs [j ->] Fc IH]; constructor; auto. }
    assert (Sh : forall gt, shape G gt (Node i Blake3Perm k (rev (cs ++ [b]))) = Some (map (@length Z) (singletons (b3_hash (bs ++ hs))))).
    { intros gt. cbn [shape]. rewrite (all_some_ok _ _ _ _ _ (forall2_rev' _ _ _ _ _ (Fs gt))), (all_some_ok _ _ _ _ _ (forall2_rev' _ _ _ _ _ Fz)).
      rewrite rev_length, app_length, Lc. cbn [length Nat.add input_number number_ok input_of generate Nat.eqb].
      destruct blake3_script as [p ->]. rewrite rev_length, app_length, map_length, Lb. cbn [length Nat.add Nat.eqb em_consumes em_outs].
      assert (Q : length (concat (rev (map (fun _ => [1]) bs ++ [map (@length Z) (singletons hs)]))) = 64).
      { rewrite rev_app_distr. cbn [rev app concat]. rewrite app_length, !map_length, Lh.
        rewrite <- map_rev. assert (L2 : length (rev bs) = 32) by now rewrite rev_length.
        revert L2. generalize (rev bs). clear. intros l L2. assert (E : length (concat (map (fun _ : Z => [1]) l)) = length l).
        { clear. induction l; cbn; auto. } lia. }
      rewrite Q. cbn [Nat.eqb andb repeat length output_number number_ok]. rewrite len_singletons, hash_len. reflexivity. }
    constructor.
    - intros env. cbn [eval]. rewrite (collect_rev env _ _ (Fe env)). cbn [then_res node_sem op_sem].
      rewrite concat_app, concat_const. cbn [concat]. rewrite app_nil_r, <- map_app. set (msg := bs ++ hs).
      assert (A : all_len 1 (singletons msg) = true) by (unfold all_len; apply forallb_forall; intros x Ix; apply in_map_iff in Ix as (? & <- & _); reflexivity).
      unfold scalars. rewrite A, concat_singletons, map_length. unfold msg. rewrite app_length, Lb, Lh, forallb_app, Bb, Bh. reflexivity.
    - exact Sh.
    - now apply size_known.
    - intros gt. cbn [need]. apply Nat.max_lub.
      + unfold outsize. rewrite Sh, sum_singletons, hash_len. lia.
      + rewrite rev_app_distr. cbn [rev app map needs]. pose proof (g_need _ _ _ Gb gt) as Nb.
        pose proof (gives_outsize _ _ _ gt Gb) as Ob. rewrite sum_singletons, Lh in Ob.
        pose proof (needs_ones gt (rev cs) (rev bs) (forall2_rev' _ _ _ _ _ Fc)) as Nc. rewrite rev_length, Lc in Nc. lia.
  Qed.

  Definition draws (hs : list Z) : list Z := map (fun i => sample_of (word_of (skipn (4 * (7 - i)) hs))) (seq 0 8).
  Lemma need_unary : forall gt i o k a outs sz, gives a outs sz -> outsize G gt (Node i o k [a]) <= 64 -> list_sum (map (@length Z) outs) <= 64 ->
    need G gt (Node i o k [a]) <= 64.
  Proof.
    intros gt i o k a outs sz Ga L1 L2. cbn [need map needs]. pose proof (g_need _ _ _ Ga gt). rewrite (gives_outsize _ _ _ gt Ga). lia.
  Qed.
  Lemma gives_to_sample : forall i k b sz hs, gives b (singletons hs) sz -> length hs = 32 -> forallb byteb hs = true -> k = 1 \/ k = 4 ->
    gives (Node i ToSample k [b]) (singletons (draws hs)) k.
  Proof.
    intros i k b sz hs Gb Lh Bh Kk.
    assert (A : all_len 1 (singletons hs) = true) by (unfold all_len; apply forallb_forall; intros x Ix; apply in_map_iff in Ix as (? & <- & _); reflexivity).
    assert (Sh : forall gt, shape G gt (Node i ToSample k [b]) = Some (map (@length Z) (singletons (draws hs)))).
    { intros gt. cbn [shape map all_some]. rewrite (g_shape _ _ _ Gb), (g_size _ _ _ Gb). cbn [length input_number number_ok Nat.eqb input_of generate em_consumes em_outs concat].
      rewrite app_nil_r, !map_length, Lh. reflexivity. }
    constructor.
    - intros env. cbn [eval map]. rewrite (g_eval _ _ _ Gb). cbn [collect fold_right seq_res app then_res node_sem op_sem].
      unfold scalars. rewrite A, concat_singletons, map_length, Lh, Bh. cbn [Nat.eqb andb]. unfold draws. rewrite map_map. reflexivity.
    - exact Sh.
    - now apply size_known.
    - intros gt. eapply need_unary; [exact Gb| |rewrite sum_singletons, Lh; lia].
      unfold outsize. rewrite Sh, sum_singletons. unfold draws. rewrite map_length, seq_length. lia.
  Qed.
  Lemma draws_len : forall hs, length (draws hs) = 8.
  Proof. intros hs. unfold draws. now rewrite map_length, seq_length. Qed.
  Lemma gives_sample : forall i (ext : bool) t vs, gives t (singletons vs) (u32_size ext) -> length vs = 8 ->
    gives (Node i (if ext then SampleExt else SampleBase) (u32_size ext) [t]) [firstn (u32_size ext) vs] (u32_size ext).
  Proof.
    intros i ext t vs Gt Lv.
    assert (A : all_len 1 (singletons vs) = true) by (unfold all_len; apply forallb_forall; intros x Ix; apply in_map_iff in Ix as (? & <- & _); reflexivity).
    assert (Sh : forall gt, shape G gt (Node i (if ext then SampleExt else SampleBase) (u32_size ext) [t]) = Some (map (@length Z) [firstn (u32_size ext) vs])).
    { intros gt. cbn [shape map all_some]. rewrite (g_shape _ _ _ Gt), (g_size _ _ _ Gt), firstn_length, Lv.
      destruct ext; cbn [length input_number number_ok Nat.eqb input_of generate em_consumes em_outs concat u32_size];
        rewrite app_nil_r, !map_length, Lv; reflexivity. }
    constructor.
    - intros env. cbn [eval map]. rewrite (g_eval _ _ _ Gt). destruct ext; cbn [collect fold_right seq_res app then_res node_sem op_sem];
        unfold scalars; rewrite A, concat_singletons, map_length, Lv; reflexivity.
    - exact Sh.
    - destruct ext; reflexivity.
    - intros gt. eapply need_unary; [exact Gt| |rewrite sum_singletons, Lv; lia].
      unfold outsize. rewrite Sh. cbn. rewrite firstn_length, Lv. lia.
  Qed.
  Lemma gives_four : forall i a c0 c1 c2 c3, gives a [[c0; c1; c2; c3]] 4 -> gives (Node i FourU32ToU32 1 [a]) [[c0]] 1.
  Proof.
    intros i a c0 c1 c2 c3 Ga.
    assert (Sh : forall gt, shape G gt (Node i FourU32ToU32 1 [a]) = Some [1]).
    { intros gt. cbn [shape map all_some]. now rewrite (g_shape _ _ _ Ga), (g_size _ _ _ Ga). }
    constructor; [|exact Sh|reflexivity|].
    - intros env. cbn [eval map]. now rewrite (g_eval _ _ _ Ga).
    - intros gt. eapply need_unary; [exact Ga| |cbn; lia]. unfold outsize. rewrite Sh. cbn. lia.
  Qed.
  Lemma extract_some : forall bits, 1 <= bits <= 31 -> exists p, extract_high_bits bits = Some p.
  Proof.
    intros bits B. unfold extract_high_bits, compress_custom_bits.
    destruct (Nat.leb_spec 1 bits); [|lia]. destruct (Nat.leb_spec bits 31); [|lia]. destruct (Nat.leb_spec bits 32); [|lia]. cbn. eauto.
  Qed.
  Lemma gives_extract : forall i a z bits, gives a [[z]] 1 -> (0 <= z < BP)%Z -> 1 <= bits <= 31 ->
    gives (Node i (ExtractHighBits bits) 1 [a]) [[Z.shiftr z (Z.of_nat (32 - bits))]] 1.
  Proof.
    intros i a z bits Ga Zr B. assert (Z31 : (BP < 2 ^ 31)%Z) by reflexivity. assert (Z32 : (2 ^ 31 < 2 ^ 32)%Z) by reflexivity.
    assert (Sh : forall gt, shape G gt (Node i (ExtractHighBits bits) 1 [a]) = Some [1]).
    { intros gt. cbn [shape map all_some]. rewrite (g_shape _ _ _ Ga), (g_size _ _ _ Ga). cbn [length input_number number_ok Nat.eqb input_of generate].
      destruct (extract_some bits B) as [p ->]. reflexivity. }
    constructor; [|exact Sh|reflexivity|].
    - intros env. cbn [eval map]. rewrite (g_eval _ _ _ Ga). cbn [collect fold_right seq_res app then_res node_sem op_sem].
      unfold num32. destruct (Z.ltb_spec (- 2 ^ 31) z); [|lia]. destruct (Z.ltb_spec z (2 ^ 31)); [|lia]. cbn [andb].
      rewrite Z.mod_small by lia. now replace (32 - Z.of_nat bits)%Z with (Z.of_nat (32 - bits)) by lia.
    - intros gt. eapply need_unary; [exact Ga| |cbn; lia]. unfold outsize. rewrite Sh. cbn. lia.
  Qed.

  (** a comparison *)
  Record checks (e : expr) (k : nat) (ok : bool) : Prop := mkchecks {
    k_eval : forall env, eval op_sem env e = Some (if ok then Leaves [[1%Z]] else if k =? 1 then Leaves [[0%Z]] else Fails);
    k_shape : forall gt, shape G gt e = Some [1];
    k_size : var_size e = Some 1;
    k_need : forall gt, need G gt e <= 64 }.
  Lemma gives_equal : forall i a j y z, gives a [y] (length y) -> length y = length z -> length y = 1 \/ length y = 4 ->
    checks (Node i Equal 1 [a; Node j (Constant z) (length z) []]) (length y) (list_eqb y z).
  Proof.
    intros i a j y z Ga L Ly.
    assert (Sh : forall gt, shape G gt (Node i Equal 1 [a; Node j (Constant z) (length z) []]) = Some [1]).
    { intros gt. cbn [shape map all_some]. rewrite (g_shape _ _ _ Ga), (g_size _ _ _ Ga). cbn [length map all_some].
      rewrite <- L. rewrite size_known by exact Ly. cbn. rewrite Nat.eqb_refl. destruct (length y =? 1); reflexivity. }
    constructor; [|exact Sh|reflexivity|].
    - intros env. cbn [eval map]. rewrite (g_eval _ _ _ Ga). cbn [collect fold_right seq_res app then_res node_sem op_sem map e_size].
      rewrite (size_of _ _ (g_size _ _ _ Ga)), L, !Nat.eqb_refl. cbn [andb]. rewrite <- L. destruct Ly as [-> | ->]; cbn [Nat.eqb]; destruct (list_eqb y z); reflexivity.
    - intros gt.
      assert (Oe : outsize G gt (Node i Equal 1 [a; Node j (Constant z) (length z) []]) = 1) by (unfold outsize; now rewrite Sh).
      assert (Nc : need G gt (Node j (Constant z) (length z) []) <= 4) by (cbn; destruct Ly as [E|E]; rewrite E in L; rewrite <- L; cbn; lia).
      pose proof (g_need _ _ _ Ga gt) as Na. pose proof (gives_outsize _ _ _ gt Ga) as Oa. cbn [map list_sum fold_right] in Oa.
      revert Oe Nc. generalize (Node j (Constant z) (length z) []). intros c Oe Nc. cbn [need map needs]. rewrite Oe, Oa.
      assert (outsize G gt c <= need G gt c) by (destruct c; cbn [need]; lia). lia.
  Qed.
  Lemma gives_checks : forall e b, gives e [[if b : bool then 1%Z else 0%Z]] 1 -> checks e 1 b.
  Proof. intros e b Ge. constructor; [intros env; rewrite (g_eval _ _ _ Ge); now destruct b|apply Ge|apply Ge|apply Ge]. Qed.
  Lemma checks_gives : forall e b, checks e 1 b -> gives e [[if b : bool then 1%Z else 0%Z]] 1.
  Proof. intros e b Ge. constructor; [intros env; rewrite (k_eval _ _ _ Ge); now destruct b|apply Ge|apply Ge|apply Ge]. Qed.
End Gives.
