(** Value of the expressions made by the builders. *)
From Coq Require Import ZArith List Bool Arith Lia.
From Verif Require Import ScriptNum ScriptVM Field BabyBear HelperModel DslModel DslSpec DslOpSpec DslOps DslBuild.
Import ListNotations.
Local Open Scope nat_scope.

(** [x] is a field element of [n] limbs *)
Definition elt_of (n : nat) (z : BB4) : Prop := n = 4 \/ (n = 1 /\ exists b : BabyBear, z = from_base b).

Lemma elt_of_4 : forall z, elt_of 4 z. Proof. intros z. now left. Qed.
Lemma elt_of_base : forall b, elt_of 1 (from_base b). Proof. intros b. right. eauto. Qed.
Lemma elt_of_n : forall n z, elt_of n z -> n = 1 \/ n = 4. Proof. intros n z [->|[-> _]]; auto. Qed.
Lemma elt_of_is : forall n z, elt_of n z -> is_elt n (limbs n z) = true.
Proof. intros n z E. apply limbs_elt. eapply elt_of_n; eauto. Qed.
Lemma elt_of_felt : forall n z, elt_of n z -> felt (limbs n z) = z.
Proof. intros n z [->|[-> [b ->]]]; [apply felt_limbs4|]. rewrite limbs_1_base, felt_1. now rewrite of_Z_as. Qed.
Lemma elt_of_len : forall n z, elt_of n z -> length (limbs n z) = n.
Proof. intros n z E. apply limbs_length. apply elt_of_n in E as [-> | ->]; lia. Qed.
Lemma elt_of_inj : forall n y z, elt_of n y -> elt_of n z -> limbs n y = limbs n z -> y = z.
Proof. intros n y z Ey Ez E. rewrite <- (elt_of_felt n y Ey), <- (elt_of_felt n z Ez). now f_equal. Qed.
Lemma elt_of_max : forall n m y z f (fb : BabyBear -> BabyBear -> BabyBear),
  (forall a b, from_base (fb a b) = f (from_base a) (from_base b)) ->
  elt_of n y -> elt_of m z -> elt_of (Nat.max n m) (f y z).
Proof.
  intros n m y z f fb F [->|[-> [b ->]]] [->|[-> [c ->]]]; cbn; try (now left). right. split; [reflexivity|].
  exists (fb b c). now rewrite F.
Qed.
Lemma elt_of_add : forall n m y z, elt_of n y -> elt_of m z -> elt_of (Nat.max n m) (fadd y z).
Proof. intros. apply (elt_of_max _ _ _ _ fadd fadd); auto using from_base_add. Qed.
Lemma elt_of_sub : forall n m y z, elt_of n y -> elt_of m z -> elt_of (Nat.max n m) (fsub y z).
Proof. intros. apply (elt_of_max _ _ _ _ fsub fsub); auto using from_base_sub. Qed.
Lemma elt_of_mul : forall n m y z, elt_of n y -> elt_of m z -> elt_of (Nat.max n m) (fmul y z).
Proof. intros. apply (elt_of_max _ _ _ _ fmul fmul); auto using from_base_mul. Qed.
Lemma elt_of_opp : forall n y, elt_of n y -> elt_of n (fopp y).
Proof. intros n y [->|[-> [b ->]]]; [now left|]. right. split; [reflexivity|]. exists (fopp b). symmetry. apply from_base_opp. Qed.
Lemma elt_of_pow : forall n y k, elt_of n y -> elt_of n (fpow y k).
Proof. intros n y k [->|[-> [b ->]]]; [now left|]. right. split; [reflexivity|]. exists (fpow b k). symmetry. apply from_base_pow. Qed.
Lemma elt_of_weak : forall z, elt_of 1 z -> elt_of 4 z. Proof. intros. now left. Qed.

(** A builder that succeeds with a result of which [Q] holds. *)
Definition yields {A} (b : builder A) (Q : A -> Prop) : Prop := forall n, exists a n', b n = Some (a, n') /\ Q a.
Lemma yields_ret : forall A (a : A) (Q : A -> Prop), Q a -> yields (ret a) Q.
Proof. intros A a Q q n. exists a, n. split; [reflexivity|exact q]. Qed.
Lemma yields_bind : forall A B (b : builder A) (f : A -> builder B) P Q,
  yields b P -> (forall a, P a -> yields (f a) Q) -> yields (bind b f) Q.
Proof.
  intros A B b f P Q Yb Yf n. destruct (Yb n) as (a & n1 & E & Pa). destruct (Yf a Pa n1) as (c & n2 & E2 & Qc).
  exists c, n2. split; [|exact Qc]. unfold bind. now rewrite E.
Qed.
Lemma yields_weaken : forall A (b : builder A) (P Q : A -> Prop), yields b P -> (forall a, P a -> Q a) -> yields b Q.
Proof. intros A b P Q Y W n. destruct (Y n) as (a & n' & E & Pa). eauto. Qed.
Lemma yields_get : forall A (a : A) (o : option A), o = Some a -> yields (get o) (eq a).
Proof. intros A a o -> n. exists a, n. split; reflexivity. Qed.
Lemma yields_opid : yields get_opid (fun _ => True).
Proof. intros n. exists (S n), (S n). split; [reflexivity|exact Logic.I]. Qed.
Lemma yields_node : forall o sz ops (Q : expr -> Prop), (forall i, Q (Node i o sz ops)) -> yields (node o sz ops) Q.
Proof. intros o sz ops Q q n. exists (Node (S n) o sz ops), (S n). split; [reflexivity|apply q]. Qed.

Section Denote.
  Variable G : gadgets.
  Variable gt : getter.
  Variable env : environment.

  (** The expression passes the assertions of generation and its value is the one
      item [l]. *)
  Record holds (e : expr) (l : list Z) : Prop := mkholds {
    h_eval : eval op_sem env e = Some (Leaves [l]);
    h_shape : shape G gt e = Some [length l];
    h_size : var_size e = Some (length l) }.
  (** ... which is the field element [z] of size [n] *)
  Definition denotes (e : expr) (n : nat) (z : BB4) : Prop := elt_of n z /\ holds e (limbs n z).
  (** ... or fails *)
  Record breaks (e : expr) (n : nat) : Prop := mkbreaks {
    b_eval : eval op_sem env e = Some Fails;
    b_shape : shape G gt e = Some [n];
    b_size : var_size e = Some n }.

  Lemma size_of : forall e n, var_size e = Some n -> e_size e = n.
  Proof. intros [i o s ops] n E. unfold var_size in E. cbn in *. now destruct (_ || _); [injection E|]. Qed.
  Lemma size_known : forall i o s ops, s = 1 \/ s = 4 -> var_size (Node i o s ops) = Some s.
  Proof. intros i o s ops [-> | ->]; reflexivity. Qed.

  Lemma holds_constant : forall v, length v = 1 \/ length v = 4 -> yields (constant v) (fun e => holds e v).
  Proof.
    intros v L. apply yields_node. intros i. constructor; [reflexivity|reflexivity|]. now apply size_known.
  Qed.
  Lemma denotes_constant : forall ext z, elt_of (u32_size ext) z -> yields (constant_f ext z) (fun e => denotes e (u32_size ext) z).
  Proof.
    intros ext z E. unfold constant_f. eapply yields_weaken; [apply holds_constant|intros a Ha; split; [exact E|exact Ha]].
    rewrite elt_of_len; [|exact E]. eapply elt_of_n; eauto.
  Qed.

  (** ** Two operands *)
  Definition bin_op (o : opcode) : option (BB4 -> BB4 -> BB4) :=
    match o with Add => Some fadd | Sub => Some fsub | Mul => Some fmul | _ => None end.
  Lemma bin_elt : forall o f n m y z, bin_op o = Some f -> elt_of n y -> elt_of m z -> elt_of (Nat.max n m) (f y z).
  Proof.
    intros o f n m y z E Ey Ez. destruct o; try discriminate E; injection E as <-;
      [now apply elt_of_add|now apply elt_of_mul|now apply elt_of_sub].
  Qed.
  Lemma denotes_bin_node : forall o f a b n m y z i, bin_op o = Some f -> denotes a n y -> denotes b m z ->
    denotes (Node i o (Nat.max n m) [a; b]) (Nat.max n m) (f y z).
  Proof.
    intros o f a b n m y z i E [Ey Ha] [Ez Hb]. pose proof (bin_elt _ _ _ _ _ _ E Ey Ez) as Er. split; [exact Er|].
    destruct Ha as [Va Sa Za], Hb as [Vb Sb Zb]. rewrite elt_of_len in Sa, Za by exact Ey. rewrite elt_of_len in Sb, Zb by exact Ez.
    constructor; rewrite ?elt_of_len by exact Er.
    - cbn [eval map]. rewrite Va, Vb. cbn [collect fold_right seq_res app then_res].
      rewrite (size_of _ _ Za), (size_of _ _ Zb).
      assert (W : bin f [n; m] [limbs m z; limbs n y] = Some (Leaves [limbs (Nat.max n m) (f y z)])).
      { unfold bin. rewrite !elt_of_is by assumption. cbn [andb]. now rewrite !elt_of_felt. }
      destruct o; try discriminate E; injection E as <-; exact W.
    - cbn [shape map all_some]. rewrite Sa, Sb, Za, Zb. cbn [all_some concat app length].
      assert (W : exists em, generate G o [n; m] = Some em /\ em_consumes em = 2 /\ em_outs em = [Nat.max n m]).
      { destruct (elt_of_n _ _ Ey) as [-> | ->], (elt_of_n _ _ Ez) as [-> | ->], o; try discriminate E; cbn; eauto. }
      destruct W as (em & Eg & Ec & Eo).
      assert (N : number_ok (input_number o) 2 = true /\ number_ok (output_number o) 1 = true /\ input_of o = None)
        by (destruct o; try discriminate E; cbn; auto).
      destruct N as (N1 & N2 & N3). rewrite N1, N3, Eg, Ec, Eo. cbn [length Nat.eqb andb]. rewrite N2. reflexivity.
    - apply size_known. eapply elt_of_n; eauto.
  Qed.
  Lemma denotes_binary : forall o f a b n m y z, bin_op o = Some f -> denotes a n y -> denotes b m z ->
    yields (binary o a b) (fun e => denotes e (Nat.max n m) (f y z)).
  Proof.
    intros o f a b n m y z E Da Db. unfold binary.
    assert (Za : var_size a = Some n) by (destruct Da as [Ey [_ _ Za]]; now rewrite elt_of_len in Za).
    assert (Zb : var_size b = Some m) by (destruct Db as [Ey [_ _ Zb]]; now rewrite elt_of_len in Zb).
    eapply yields_bind; [apply yields_get, Za|]. intros ? <-. eapply yields_bind; [apply yields_get, Zb|]. intros ? <-.
    apply yields_node. intros i. now apply denotes_bin_node.
  Qed.
  Lemma denotes_add : forall a b n m y z, denotes a n y -> denotes b m z ->
    yields (add a b) (fun e => denotes e (Nat.max n m) (fadd y z)).
  Proof. intros. now apply denotes_binary. Qed.
  Lemma denotes_sub : forall a b n m y z, denotes a n y -> denotes b m z ->
    yields (subtract a b) (fun e => denotes e (Nat.max n m) (fsub y z)).
  Proof. intros. now apply denotes_binary. Qed.
  Lemma denotes_mul : forall a b n m y z, denotes a n y -> denotes b m z ->
    yields (mul a b) (fun e => denotes e (Nat.max n m) (fmul y z)).
  Proof. intros. now apply denotes_binary. Qed.
  Lemma denotes_ext : forall o f a b y z, bin_op o = Some f -> denotes a 1 y -> denotes b 4 z ->
    yields (binary_ext o false true a b) (fun e => denotes e 4 (f y z)).
  Proof. intros o f a b y z E Da Db. apply yields_node. intros i. exact (denotes_bin_node o f a b 1 4 y z i E Da Db). Qed.
  Lemma denotes_base : forall o f a b y z, bin_op o = Some f -> denotes a 4 y -> denotes b 1 z ->
    yields (binary_base o true false a b) (fun e => denotes e 4 (f y z)).
  Proof. intros o f a b y z E Da Db. apply yields_node. intros i. exact (denotes_bin_node o f a b 4 1 y z i E Da Db). Qed.

  (** ** One operand *)
  Definition una_op (o : opcode) : option (BB4 -> BB4) :=
    match o with
    | Neg => Some fopp | Double => Some (fun x => fadd x x) | Square => Some (fun x => fmul x x) | _ => None
    end.
  Lemma una_elt : forall o f n y, una_op o = Some f -> elt_of n y -> elt_of n (f y).
  Proof.
    intros o f n y E Ey. destruct o; try discriminate E; injection E as <-; [now apply elt_of_opp| |];
      rewrite <- (Nat.max_id n); [now apply elt_of_mul|now apply elt_of_add].
  Qed.
  Lemma denotes_unary : forall o f a n y, una_op o = Some f -> denotes a n y ->
    yields (unary o a) (fun e => denotes e n (f y)).
  Proof.
    intros o f a n y E [Ey Ha]. pose proof (una_elt _ _ _ _ E Ey) as Er.
    destruct Ha as [Va Sa Za]. rewrite elt_of_len in Sa, Za by exact Ey. unfold unary.
    eapply yields_bind; [apply yields_get, Za|]. intros ? <-. apply yields_node. intros i.
    split; [exact Er|]. constructor; rewrite ?elt_of_len by exact Er.
    - cbn [eval map]. rewrite Va. cbn [collect fold_right seq_res app then_res]. rewrite (size_of _ _ Za).
      assert (W : una f [n] [limbs n y] = Some (Leaves [limbs n (f y)])).
      { unfold una. rewrite !elt_of_is by assumption. now rewrite !elt_of_felt. }
      destruct o; try discriminate E; injection E as <-; exact W.
    - cbn [shape map all_some]. rewrite Sa, Za. cbn [all_some concat app length].
      destruct o; try discriminate E; cbn; reflexivity.
    - apply size_known. eapply elt_of_n; eauto.
  Qed.

  (** ** Powers *)
  Lemma denotes_exp : forall ext a y k, denotes a (u32_size ext) y ->
    yields (exp_constant ext a (2 ^ k)) (fun e => denotes e (u32_size ext) (fpow y (2 ^ k))).
  Proof.
    intros ext a y k [Ey Ha]. pose proof (elt_of_pow _ _ (2 ^ k) Ey) as Er.
    destruct Ha as [Va Sa Za]. rewrite elt_of_len in Sa, Za by exact Ey. unfold exp_constant.
    eapply yields_bind; [apply yields_get, Za|]. intros ? <-. apply yields_node. intros i.
    split; [exact Er|]. constructor; rewrite ?elt_of_len by exact Er.
    - cbn [eval map]. rewrite Va. cbn [collect fold_right seq_res app then_res node_sem op_sem]. rewrite (size_of _ _ Za).
      rewrite elt_of_is by exact Ey. rewrite elt_of_felt by exact Ey. now destruct ext.
    - cbn [shape map all_some]. rewrite Sa, Za. cbn [all_some concat app length input_number number_ok Nat.eqb input_of generate].
      unfold log2_strict. rewrite Nat.log2_pow2 by lia. rewrite Nat.eqb_refl. cbn. reflexivity.
    - apply size_known. eapply elt_of_n; eauto.
  Qed.

  (** ** Comparison *)
  Lemma holds_equal : forall a b n y z, n = 1 -> holds a y -> holds b z -> length y = n -> length z = n ->
    yields (equal a b) (fun e => holds e [if list_eqb y z then 1%Z else 0%Z]).
  Proof.
    intros a b n y z -> [Va Sa Za] [Vb Sb Zb] Ly Lz. rewrite Ly in *. rewrite Lz in *. apply yields_node. intros i. constructor.
    - cbn [eval map]. rewrite Va, Vb. cbn [collect fold_right seq_res app then_res node_sem op_sem].
      rewrite (size_of _ _ Za), (size_of _ _ Zb), Ly, Lz. reflexivity.
    - cbn [shape map all_some]. rewrite Sa, Sb, Za, Zb. reflexivity.
    - reflexivity.
  Qed.
  Lemma holds_equal4 : forall a b y, holds a y -> holds b y -> length y = 4 ->
    yields (equal a b) (fun e => holds e [1%Z]).
  Proof.
    intros a b y [Va Sa Za] [Vb Sb Zb] Ly. rewrite Ly in *. apply yields_node. intros i. constructor.
    - cbn [eval map]. rewrite Va, Vb. cbn [collect fold_right seq_res app then_res node_sem op_sem].
      rewrite (size_of _ _ Za), (size_of _ _ Zb), Ly. cbn [Nat.eqb andb].
      now rewrite (proj2 (list_eqb_ok y y) eq_refl).
    - cbn [shape map all_some]. rewrite Sa, Sb, Za, Zb. reflexivity.
    - reflexivity.
  Qed.
  Lemma breaks_equal4 : forall a b y z, holds a y -> holds b z -> length y = 4 -> length z = 4 -> y <> z ->
    yields (equal a b) (fun e => breaks e 1).
  Proof.
    intros a b y z [Va Sa Za] [Vb Sb Zb] Ly Lz Ne. rewrite Ly in *. rewrite Lz in *. apply yields_node. intros i. constructor.
    - cbn [eval map]. rewrite Va, Vb. cbn [collect fold_right seq_res app then_res node_sem op_sem].
      rewrite (size_of _ _ Za), (size_of _ _ Zb), Ly, Lz. cbn [Nat.eqb andb].
      now rewrite (proj2 (list_eqb_no y z) Ne).
    - cbn [shape map all_some]. rewrite Sa, Sb, Za, Zb. reflexivity.
    - reflexivity.
  Qed.
  (** equality of two field elements of the same size *)
  Definition verdict (e : expr) (n : nat) (ok : Prop) : Prop :=
    (ok -> holds e [1%Z]) /\ (~ ok -> n = 1 -> holds e [0%Z]) /\ (~ ok -> n = 4 -> breaks e 1).
  Lemma denotes_equal : forall a b n y z, denotes a n y -> denotes b n z ->
    yields (equal a b) (fun e => verdict e n (y = z)).
  Proof.
    intros a b n y z [Ey Ha] [Ez Hb].
    destruct (list_eqb (limbs n y) (limbs n z)) eqn:Eq.
    - assert (E : y = z) by (apply list_eqb_ok in Eq; eapply elt_of_inj; eauto). subst z.
      destruct (elt_of_n _ _ Ey) as [-> | ->].
      + eapply yields_weaken; [eapply (holds_equal _ _ 1); eauto using elt_of_len|]. intros e He. cbv beta in He. rewrite Eq in He.
        repeat split; try tauto; try (intros; congruence); apply He.
      + eapply yields_weaken; [eapply holds_equal4; eauto using elt_of_len|]. intros e He.
        repeat split; try tauto; try (intros; congruence); apply He.
    - assert (E : y <> z) by (intros ->; apply list_eqb_no in Eq; now apply Eq).
      destruct (elt_of_n _ _ Ey) as [-> | ->].
      + eapply yields_weaken; [eapply (holds_equal _ _ 1); eauto using elt_of_len|]. intros e He. cbv beta in He. rewrite Eq in He.
        split; [intros; contradiction|]. split; [auto|discriminate].
      + apply list_eqb_no in Eq. eapply yields_weaken; [eapply breaks_equal4; eauto using elt_of_len|]. intros e He.
        split; [intros; contradiction|]. split; [discriminate|auto].
  Qed.

  (** ** Inputs *)
  Lemma holds_input : forall c v j, length v = 1 \/ length v = 4 -> gt (input_var c) = Some (j, length v) -> env (input_var c) = Some v ->
    yields (assign_input c v) (fun e => holds e v).
  Proof.
    intros c v j L Eg Ee. apply yields_node. intros i. constructor.
    - cbn. now rewrite Ee.
    - cbn. now rewrite Eg.
    - now apply size_known.
  Qed.
  Lemma holds_copy : forall x v j, length v = 1 \/ length v = 4 -> gt x = Some (j, length v) -> env x = Some v ->
    yields (copy_input x (length v)) (fun e => holds e v).
  Proof.
    intros x v j L Eg Ee. apply yields_node. intros i. constructor.
    - cbn. now rewrite Ee.
    - cbn. now rewrite Eg.
    - now apply size_known.
  Qed.
End Denote.
