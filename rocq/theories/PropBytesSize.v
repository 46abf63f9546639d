(** Property C92: the size in bytes of the script of a leaf. *)
From Coq Require Import ZArith NArith List Bool Lia Arith.
From Verif Require Import ScriptNum ScriptVM VMLemmas U32Model Lift WinternitzModel WinternitzSpec PropSign
  TaptreeModel TaptreeProofs PropTaptree TcsModel TcsProofs TcsProofs2 PropTcs PropTcsKeys ScriptBytes PropBytes.
Import ListNotations.
Local Open Scope Z_scope.

(** ** Specification *)

(** Bytes needed to push a non-negative number below 2^31: one for the numbers with an opcode of their
    own, otherwise a length byte and the number with room for a sign bit. *)
Definition push_bytes (v : Z) : nat :=
  if v <=? 16 then 1 else if v <? 2 ^ 7 then 2 else if v <? 2 ^ 15 then 3 else if v <? 2 ^ 23 then 4 else 5.
(** Checking one signed word against a constant: 831 bytes and the push of the constant. *)
Definition word_bytes (v : Z) : nat := 831 + push_bytes v.
(** A leaf checks its index and the words of its values, and pushes true. *)
Definition leaf_bytes (index : nat) (words : list Z) : nat :=
  list_sum (map word_bytes (Z.of_nat index :: words)) + 1.

(** ** Proofs *)
Lemma serialize_app a b : serialize (a ++ b) = serialize a ++ serialize b.
Proof. apply flat_map_app. Qed.
Lemma size_app a b : length (serialize (a ++ b)) = (length (serialize a) + length (serialize b))%nat.
Proof. rewrite serialize_app. apply app_length. Qed.
Lemma size_cons o s : length (serialize (o :: s)) = (length (ser_op o) + length (serialize s))%nat.
Proof. change (o :: s) with ([o] ++ s). rewrite size_app. cbn [serialize flat_map]. now rewrite app_nil_r. Qed.
Lemma size_flat {X} (f : X -> script) n : (forall x, length (serialize (f x)) = n) -> forall l,
  length (serialize (flat_map f l)) = (n * length l)%nat.
Proof.
  intros E. induction l as [|x l IH]; [cbn; lia|]. cbn [flat_map length]. rewrite size_app, IH, E. lia.
Qed.
Lemma size_repeat s : forall n, length (serialize (repeat_script n s)) = (n * length (serialize s))%nat.
Proof. induction n as [|n IH]; [reflexivity|]. cbn [repeat_script]. rewrite size_app, IH. reflexivity. Qed.
Lemma enc_length k v : 128 * 256 ^ Z.of_nat k <= v < 128 * 256 ^ Z.of_nat (S k) -> length (enc v) = S (S k).
Proof.
  intros Hv. assert (0 < v) as P by (pose proof (Z.pow_pos_nonneg 256 (Z.of_nat k)); lia).
  assert (W := mag_bytes_wf (Z.abs v) ltac:(lia)). assert (V := mag_bytes_val (Z.abs v) ltac:(lia)).
  rewrite Z.abs_eq in * by lia. unfold enc. rewrite Z.abs_eq by lia. apply Nat.le_antisymm.
  - apply set_sign_length_le; [exact W|]. rewrite V. apply Hv.
  - apply set_sign_length_ge; [exact W| |rewrite V; apply Hv].
    intros E. rewrite E in V. cbn in V. lia.
Qed.
Lemma size_push v : 0 <= v < 2 ^ 31 -> length (push_int v) = push_bytes v.
Proof.
  intros Hv. change (2 ^ 31) with 2147483648 in Hv. unfold push_bytes, push_int.
  change (2 ^ 7) with 128. change (2 ^ 15) with 32768. change (2 ^ 23) with 8388608.
  destruct (small v) eqn:Sm.
  { apply small_spec in Sm. destruct (Z.leb_spec v 16); [reflexivity|lia]. }
  destruct (Z.eqb_spec v 0) as [-> |N0]; [reflexivity|].
  assert (16 < v) as Big.
  { destruct (Z.le_gt_cases v 16); [|assumption]. assert (small v = true) by (apply small_spec; lia). congruence. }
  destruct (Z.leb_spec v 16); [lia|].
  assert (forall n, length (enc v) = n -> (n <= 4)%nat -> length (push_slice (enc v)) = S n) as P.
  { intros n E L. unfold push_slice. rewrite E. destruct (Z.ltb_spec (Z.of_nat n) 76); [|lia]. cbn. now rewrite E. }
  destruct (Z.ltb_spec v 128); [|destruct (Z.ltb_spec v 32768); [|destruct (Z.ltb_spec v 8388608)]]; apply P; try lia.
  - apply Nat.le_antisymm.
    + unfold enc. apply set_sign_length_le; [apply mag_bytes_wf; lia|]. rewrite mag_bytes_val by lia. change (256 ^ Z.of_nat 0) with 1. lia.
    + destruct (enc v) eqn:E; [|cbn; lia]. change [] with (enc 0) in E. apply enc_inj in E. lia.
  - apply (enc_length 0). cbn. lia.
  - apply (enc_length 1). cbn. lia.
  - apply (enc_length 2). cbn. lia.
Qed.
Lemma size_slice b : length b = 20%nat -> length (ser_op (PUSHB b)) = 21%nat.
Proof. intros L. cbn [ser_op]. unfold push_slice. rewrite app_length, L. reflexivity. Qed.
Lemma size_checksig pks : (forall i, (i < 10)%nat -> length (nth i pks []) = 20%nat) ->
  length (serialize (checksig_verify pks)) = 755%nat.
Proof.
  intros P. unfold checksig_verify. rewrite !size_app.
  replace (length (serialize verify_checksum)) with 39%nat by (vm_compute; reflexivity).
  replace (length (serialize digits_to_bytes)) with 46%nat by (vm_compute; reflexivity).
  assert (forall pk, length pk = 20%nat -> length (serialize (verify_digit pk)) = 67%nat) as D.
  { intros pk Lp. unfold verify_digit. rewrite !size_app, !size_cons, (size_slice pk Lp). vm_compute. reflexivity. }
  assert (forall l, (forall i, In i l -> (i < 10)%nat) ->
    length (serialize (flat_map (fun i => verify_digit (nth (N - 1 - i) pks [])) l)) = (67 * length l)%nat) as E.
  { induction l as [|i l IH]; intros Hl; [reflexivity|]. cbn [flat_map length]. rewrite size_app, IH by (intros; apply Hl; now right).
    rewrite D; [lia|]. apply P. unfold N. lia. }
  rewrite E, seq_length by (intros i Hi; apply in_seq in Hi; unfold N in Hi; lia). reflexivity.
Qed.
Lemma size_lock H b : (forall x, length (H x) = 20%nat) -> length (serialize (w_lock H b)) = (830 * length b)%nat.
Proof.
  intros L. unfold w_lock, check_and_recover. rewrite size_app.
  assert (length (bcs_new (rev b) (repeat 0 (length b))) = length b) as Lb.
  { unfold bcs_new. rewrite map_length, combine_length, rev_length, repeat_length. lia. }
  unfold recover_message_at_altstack. rewrite (size_flat _ 829), Lb.
  - unfold message_from_altstack. rewrite size_repeat, Lb. change (length (serialize [OP_FROMALTSTACK])) with 1%nat. lia.
  - intros c. unfold recover_message_at_stack, checksig_verify_script, checksig_verify_self_pubkey. rewrite !size_app, size_checksig.
    + vm_compute. reflexivity.
    + intros i Hi. unfold pub_key.
      rewrite (nth_indep _ [] (generate_public_key H (bc_secret c) 0)) by (rewrite map_length, seq_length; exact Hi).
      rewrite map_nth. unfold generate_public_key. set (x := H (_ ++ _)). change (hiter H DIGITS x) with (H (hiter H 14 x)). apply L.
Qed.
Lemma size_check : forall vs, Forall (fun v => 0 <= v < 2 ^ 31) vs ->
  length (serialize (check_values vs)) = list_sum (map (fun v => 1 + push_bytes v)%nat vs).
Proof.
  assert (forall vs, Forall (fun v => 0 <= v < 2 ^ 31) vs ->
    length (serialize (flat_map (fun v => [PUSHN v; OP_EQUALVERIFY]) vs)) = list_sum (map (fun v => 1 + push_bytes v)%nat vs)) as E.
  { induction 1 as [|v vs Hv _ IH]; [reflexivity|]. cbn [flat_map map]. rewrite size_app, IH, !size_cons.
    cbn [ser_op]. rewrite (size_push v Hv). cbn [length serialize flat_map]. change (list_sum (?a :: ?l)) with (a + list_sum l)%nat. cbn [list_sum fold_right]. fold list_sum. lia. }
  intros vs Fv. unfold check_values. rewrite E by (now apply Forall_rev). rewrite map_rev.
  generalize (map (fun v => 1 + push_bytes v)%nat vs). clear. intros l.
  induction l as [|x l IH]; [reflexivity|]. cbn [rev]. rewrite list_sum_app, IH.
  unfold list_sum. cbn [fold_right]. lia.
Qed.

Section Size.
  Variable H : bytes -> bytes.
  Variable F : Type.
  Variable as_u32_vec : F -> list Z.
  Variable u32_size : nat.
  Variable secrets : nat -> bool -> list bytes.
  Variable leaf_hash : script -> hash.
  Variable branch_hash : hash -> hash -> hash.

  Hypothesis hash160 : forall x, length (H x) = 20%nat.
  Hypothesis size_ok : u32_size = 1%nat \/ u32_size = 4%nat.
  Hypothesis narrow : forall n, length (secrets n false) = 1%nat.
  Hypothesis wide : forall n, length (secrets n true) = 4%nat.
  Hypothesis vec_ok : forall x, length (as_u32_vec x) = u32_size /\ Forall u31 (as_u32_vec x).
  Hypothesis vec_inj : forall x y, as_u32_vec x = as_u32_vec y -> x = y.
  Notation bc := (list bytes).

  Lemma size_values : forall bvs, Forall (fun p => length (fst p) = u32_size /\ length (snd p) = u32_size /\
      Forall (fun v => 0 <= v < 2 ^ 31) (snd p)) bvs ->
    length (serialize (flat_map (fun p => w_lock H (fst p) ++ check_values (snd p)) bvs)) =
    list_sum (map word_bytes (flat_map snd bvs)).
  Proof.
    induction 1 as [|[b vs] bvs (L1 & L2 & Fv) _ IH]; [reflexivity|]. cbn [fst snd] in *.
    cbn [flat_map fst snd]. rewrite !size_app, IH, map_app, list_sum_app, (size_lock H b hash160), (size_check vs Fv), L1, <- L2.
    f_equal. clear. unfold word_bytes. induction vs as [|v vs IH]; [reflexivity|]. cbn [map length list_sum fold_right] in *.
    fold (list_sum (map (fun v => 831 + push_bytes v)%nat vs)) in *. fold (list_sum (map (fun v => 1 + push_bytes v)%nat vs)) in *. lia.
  Qed.

  (** ** C92 *)

  (** The script of every leaf of a commitment: its size is given by its index and its values. *)
  Theorem C92_leaf_size : forall ms K nq next roots ds next' qt d q l,
    (0 < K <= 30)%nat -> batch ms K ->
    k_commit H F as_u32_vec u32_size secrets leaf_hash branch_hash nq next ms = Some (roots, ds, next') ->
    nth_error ds qt = Some d ->
    get_tapleaf script (cd_taptree F bc d) q = Some (Some l) ->
    exists order, tallest_first ms order /\
      length (serialize (leaf_script script l)) =
      leaf_bytes q (flat_map as_u32_vec (concat (map (row_for K q) order))).
  Proof.
    intros ms K nq next roots ds next' qt d q l HK Bm E Ed Gl.
    destruct (commit_all H F bc as_u32_vec u32_size secrets (w_lock H) (w_witness H) leaf_hash branch_hash (w_opens H)
      (@length bytes) _ (setting_ok H F as_u32_vec u32_size secrets (not_zero H hash160) size_ok narrow wide vec_ok vec_inj)
      ms K ltac:(lia) Bm nq next) as (roots' & ds' & n' & E' & L & Er & Fd).
    unfold k_commit in E. assert (roots' = roots /\ ds' = ds) as [-> ->] by (split; congruence).
    assert (commits F bc as_u32_vec u32_size (w_lock H) leaf_hash branch_hash (@length bytes) d K ms) as C
      by (rewrite Forall_forall in Fd; apply Fd; eapply nth_error_In; eassumption).
    pose proof C as (_ & [G1 G2] & Lu & scripts & M & Ls & _).
    assert (q < 2 ^ K)%nat as Hq.
    { destruct (C26_sequence _ _ _ _ _ M) as (_ & _ & At). specialize (At q). unfold script_at in At. rewrite Gl in At.
      rewrite <- Ls. apply nth_error_Some. congruence. }
    exists (sorted_desc F ms). split; [eapply tallest_sorted; eassumption|].
    destruct (commits_leaf F bc as_u32_vec u32_size (w_lock H) leaf_hash branch_hash (@length bytes) d K ms q C Hq)
      as (l' & s & Gl' & El & Gs). assert (l' = l) as -> by congruence. rewrite El.
    unfold generate_script in Gs. cbn [cl_bcs cl_evaluations cl_index] in Gs.
    destruct (bc_values F bc as_u32_vec (evaluations_bc bc (cd_bcs F bc d)) (rows F K q ms)) as [bvs|] eqn:Eb; [|discriminate].
    destruct (bc_values_inv F bc as_u32_vec u32_size size_ok vec_ok _ _ _ Eb) as (F1 & Lr & S1).
    assert (length (rows F K q ms) = total_width F ms) as Lrows.
    { rewrite (rows_spec F ms K q Bm). apply sorted_width; assumption. }
    rewrite Lu, <- Lrows, firstn_all in S1.
    rewrite <- (rows_spec F ms K q Bm).
    apply (f_equal (fun o => match o with Some l => l | None => [] end)) in Gs. cbv beta iota in Gs. rewrite <- Gs. clear Gs.
    rewrite !size_app, (size_lock H _ hash160), G1, size_values.
    2:{ apply Forall_forall. intros p Hp. split; [|split].
        - rewrite Forall_forall in G2. apply G2. rewrite <- F1. now apply in_map.
        - apply (in_map snd) in Hp. rewrite S1 in Hp. apply in_map_iff in Hp as (y & <- & _). apply vec_ok.
        - apply (in_map snd) in Hp. rewrite S1 in Hp. apply in_map_iff in Hp as (y & <- & _). apply (proj2 (vec_ok y)). }
    rewrite flat_map_concat_map, S1, <- flat_map_concat_map. unfold leaf_bytes. rewrite !size_cons. cbn [ser_op].
    rewrite (size_push (Z.of_nat q)) by (pose proof (small_index K q ltac:(lia) Hq); lia).
    change (map word_bytes (Z.of_nat q :: flat_map as_u32_vec (rows F K q ms)))
      with ([word_bytes (Z.of_nat q)] ++ map word_bytes (flat_map as_u32_vec (rows F K q ms))).
    rewrite list_sum_app. change (list_sum [word_bytes (Z.of_nat q)]) with (word_bytes (Z.of_nat q) + 0)%nat. unfold word_bytes at 2.
    cbn [serialize flat_map length ser_op app]. change (length (push_int 1)) with 1%nat. lia.
  Qed.
  Lemma words_total : forall l : list F, length (flat_map as_u32_vec l) = (u32_size * length l)%nat.
  Proof.
    induction l as [|x l IH]; [cbn; lia|]. cbn [flat_map length]. rewrite app_length, IH, (proj1 (vec_ok x)). lia.
  Qed.
  Lemma sum_bounds : forall l, (832 * length l <= list_sum (map word_bytes l) <= 836 * length l)%nat.
  Proof.
    clear. induction l as [|v l IH]; [cbn; lia|].
    change (map word_bytes (v :: l)) with ([word_bytes v] ++ map word_bytes l). rewrite list_sum_app.
    change (list_sum [word_bytes v]) with (word_bytes v + 0)%nat. cbn [length].
    assert (832 <= word_bytes v <= 836)%nat; [|lia].
    unfold word_bytes, push_bytes. destruct (v <=? 16), (v <? 2 ^ 7), (v <? 2 ^ 15), (v <? 2 ^ 23); lia.
  Qed.
  (** Between 832 and 836 bytes per word of the row and the index; the number of words decides
      whether the leaf can be spent in a block at all (4,000,000 weight units, one per byte). *)
  Theorem C92_block_limit : forall ms K nq next roots ds next' qt d q l,
    (0 < K <= 30)%nat -> batch ms K ->
    k_commit H F as_u32_vec u32_size secrets leaf_hash branch_hash nq next ms = Some (roots, ds, next') ->
    nth_error ds qt = Some d ->
    get_tapleaf script (cd_taptree F bc d) q = Some (Some l) ->
    let words := Z.of_nat (1 + u32_size * list_sum (map (width F) ms)) in
    let size := Z.of_nat (length (serialize (leaf_script script l))) in
    832 * words + 1 <= size <= 836 * words + 1 /\
    (4808 <= words -> 4000000 < size) /\ (words <= 4784 -> size <= 4000000).
  Proof.
    intros ms K nq next roots ds next' qt d q l HK Bm E Ed Gl words size.
    destruct (C92_leaf_size _ _ _ _ _ _ _ _ _ _ _ HK Bm E Ed Gl) as (order & T & Es).
    assert (length (concat (map (row_for K q) order)) = list_sum (map (width F) ms)) as Lw.
    { assert (order = sorted_desc F ms) as ->.
      { pose proof (tallest_sorted F ms K Bm) as T'.
        destruct T as (_ & T1 & T2), T' as (_ & T1' & T2'). apply tallest_unique; [assumption..|]. intros h. now rewrite T2, T2'. }
      transitivity (total_width F ms); [|unfold total_width, list_sum; clear; induction ms as [|m ms IH]; [reflexivity|]; cbn [map fold_right]; rewrite IH; reflexivity].
      apply sorted_width; [exact Bm|].
      destruct (commit_all H F bc as_u32_vec u32_size secrets (w_lock H) (w_witness H) leaf_hash branch_hash (w_opens H)
        (@length bytes) _ (setting_ok H F as_u32_vec u32_size secrets (not_zero H hash160) size_ok narrow wide vec_ok vec_inj)
        ms K ltac:(lia) Bm nq next) as (roots' & ds' & n' & E' & L & Er & Fd).
      unfold k_commit in E. assert (roots' = roots /\ ds' = ds) as [-> ->] by (split; congruence).
      assert (commits F bc as_u32_vec u32_size (w_lock H) leaf_hash branch_hash (@length bytes) d K ms) as C
        by (rewrite Forall_forall in Fd; apply Fd; eapply nth_error_In; eassumption).
      destruct C as (_ & _ & _ & scripts & M & Ls & _).
      destruct (C26_sequence _ _ _ _ _ M) as (_ & _ & At). specialize (At q). unfold script_at in At. rewrite Gl in At.
      rewrite <- Ls. apply nth_error_Some. congruence. }
    pose proof (sum_bounds (Z.of_nat q :: flat_map as_u32_vec (concat (map (row_for K q) order)))) as B.
    unfold leaf_bytes in Es. cbn [length] in B. rewrite words_total, Lw in B. lia.
  Qed.
End Size.

(** ** A concrete case: two leaves of one word, 831 bytes and a push for each of the two words, and one. *)
Definition ex92_sizes : option (list (option nat)) :=
  match k_commit ex20 bb bb_vec 1 w_new (fun _ => 0) (fun a b => a + b) 1 0 ex_ms with
  | Some (_, [d], _) =>
      Some (map (fun q => match get_tapleaf script (cd_taptree bb (list bytes) d) q with
                          | Some (Some l) => Some (length (serialize (leaf_script script l)))
                          | _ => None
                          end) [0; 1; 2]%nat)
  | _ => None
  end.
Example C92_example : ex92_sizes = Some [Some 1665%nat; Some 1665%nat; None].
Proof. vm_compute. reflexivity. Qed.
(** A larger value takes a longer push. *)
Example C92_example_words : map word_bytes [0; 16; 17; 128; 40000; 2013265920] = [832; 832; 833; 834; 835; 836]%nat /\
  length (serialize (w_lock ex20 [[1]])) = 830%nat /\ length (serialize (check_values [2013265920])) = 6%nat.
Proof. vm_compute. repeat split. Qed.
