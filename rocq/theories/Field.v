(** Fields as used by the FRI and STARK code: p3_field's Field and TwoAdicField (external crates),
    with the operations the repository calls.  Panics are [None].  *)
From Coq Require Import List Arith Lia Field Ring Bool.
Import ListNotations.

(** p3_field::Field: the operations, and that they form a field with decidable equality. *)
Record field := mk_field {
  car :> Type;
  f0 : car; f1 : car;
  fadd : car -> car -> car; fmul : car -> car -> car; fsub : car -> car -> car; fopp : car -> car;
  fdiv : car -> car -> car; finv : car -> car;
  feqb : car -> car -> bool;
  fth : field_theory f0 f1 fadd fmul fsub fopp fdiv finv eq;
  feqb_ok : forall x y, feqb x y = true <-> x = y }.
Arguments f0 {_}. Arguments f1 {_}. Arguments fadd {_}. Arguments fmul {_}. Arguments fsub {_}.
Arguments fopp {_}. Arguments fdiv {_}. Arguments finv {_}. Arguments feqb {_}.

Declare Scope F_scope.
Delimit Scope F_scope with F.
Notation "x + y" := (fadd x y) : F_scope.
Notation "x * y" := (fmul x y) : F_scope.
Notation "x - y" := (fsub x y) : F_scope.
Notation "- x" := (fopp x) : F_scope.
Notation "x / y" := (fdiv x y) : F_scope.
Notation "/ x" := (finv x) : F_scope.
Notation "0" := f0 : F_scope.
Notation "1" := f1 : F_scope.
Notation "2" := (fadd f1 f1) : F_scope.

(** AbstractField::exp_u64 *)
Fixpoint fpow {K : field} (x : K) (n : nat) : K := match n with O => f1 | S n => fmul x (fpow x n) end.
Notation "x ^ n" := (fpow x n) : F_scope.

(** Field::inverse (try_inverse().expect): panics on zero.  The operator [/] of p3_field calls it. *)
Definition inverse {K : field} (x : K) : option K := if feqb x f0 then None else Some (finv x).
Definition checked_div {K : field} (x y : K) : option K := option_map (fmul x) (inverse y).

(** p3_field::TwoAdicField: TWO_ADICITY and two_adic_generator(bits), a generator of the subgroup of
    order 2^bits; each is the square of the next. *)
Record two_adic := mk_two_adic {
  tf :> field;
  two_adicity : nat;
  gen : nat -> tf;
  gen_0 : gen 0 = f1;
  gen_1 : 1 <= two_adicity -> gen 1 = fopp f1;
  gen_sq : forall k, k < two_adicity -> fmul (gen (S k)) (gen (S k)) = gen k;
  two_nz : fadd (@f1 tf) f1 <> f0 }.
Arguments gen {_}.
(** two_adic_generator asserts bits <= TWO_ADICITY. *)
Definition two_adic_generator (T : two_adic) (bits : nat) : option T :=
  if bits <=? two_adicity T then Some (gen bits) else None.

Section Field.
  Variable K : field.
  Add Field KF : (fth K).
  Local Open Scope F_scope.
  Implicit Types x y z : K.

  Lemma f1_nz : (1 : K) <> 0. Proof. exact (F_1_neq_0 (fth K)). Qed.
  Lemma feqb_refl x : feqb x x = true. Proof. now apply feqb_ok. Qed.
  Lemma feqb_neq x y : feqb x y = false <-> x <> y.
  Proof. rewrite <- feqb_ok. destruct (feqb x y); split; congruence. Qed.
  Lemma feqb_spec x y : reflect (x = y) (feqb x y).
  Proof. destruct (feqb x y) eqn:E; constructor; [now apply feqb_ok|now apply feqb_neq]. Qed.
  Lemma f_dec x y : {x = y} + {x <> y}.
  Proof. destruct (feqb_spec x y); auto. Qed.

  Lemma fmul_integral x y : x * y = 0 -> x = 0 \/ y = 0.
  Proof.
    intros E. destruct (f_dec x 0) as [->|N]; [now left|right].
    replace y with (x * y / x) by (field; exact N). rewrite E. field. exact N.
  Qed.
  Lemma fmul_nz x y : x <> 0 -> y <> 0 -> x * y <> 0.
  Proof. intros A B E. destruct (fmul_integral _ _ E); auto. Qed.
  Lemma finv_nz x : x <> 0 -> / x <> 0.
  Proof. intros A E. assert (x * / x = 1) by (field; exact A). rewrite E in H. apply f1_nz. rewrite <- H. ring. Qed.
  Lemma fopp_nz x : x <> 0 -> - x <> 0.
  Proof. intros A E. apply A. replace x with (- - x) by ring. rewrite E. ring. Qed.
  Lemma fsub_0 x y : x - y = 0 -> x = y.
  Proof. intros E. replace x with (x - y + y) by ring. rewrite E. ring. Qed.
  Lemma fsub_nz x y : x <> y -> x - y <> 0.
  Proof. intros A E. apply A, fsub_0, E. Qed.
  Lemma fmul_cancel_l x y z : x <> 0 -> x * y = x * z -> y = z.
  Proof. intros A E. replace y with (x * y / x) by (field; exact A). rewrite E. field. exact A. Qed.

  Lemma inverse_nz x : x <> 0 -> inverse x = Some (/ x).
  Proof. intros A. unfold inverse. now rewrite (proj2 (feqb_neq _ _) A). Qed.
  Lemma checked_div_nz x y : y <> 0 -> checked_div x y = Some (x / y).
  Proof. intros A. unfold checked_div. rewrite inverse_nz by exact A. cbn. f_equal. field. exact A. Qed.

  Lemma fpow_add x n m : x ^ (n + m) = x ^ n * x ^ m.
  Proof. induction n as [|n IH]; cbn; [ring|rewrite IH; ring]. Qed.
  Lemma fpow_mul x n m : x ^ (n * m) = (x ^ n) ^ m.
  Proof.
    induction m as [|m IH]; [now rewrite Nat.mul_0_r|].
    rewrite Nat.mul_succ_r, Nat.add_comm, fpow_add, IH. reflexivity.
  Qed.
  Lemma fpow_mul_l x y n : (x * y) ^ n = x ^ n * y ^ n.
  Proof. induction n as [|n IH]; cbn; [ring|rewrite IH; ring]. Qed.
  Lemma fpow_1_l n : (1 : K) ^ n = 1.
  Proof. induction n as [|n IH]; cbn; [reflexivity|rewrite IH; ring]. Qed.
  Lemma fpow_1_r x : x ^ 1 = x. Proof. cbn. ring. Qed.
  Lemma fpow_2 x : x ^ 2 = x * x. Proof. cbn. ring. Qed.
  Lemma fpow_0_l n : 0 < n -> (0 : K) ^ n = 0.
  Proof. destruct n; [lia|]. intros _. cbn. ring. Qed.
  Lemma fpow_nz x n : x <> 0 -> x ^ n <> 0.
  Proof. intros A. induction n as [|n IH]; cbn; [apply f1_nz|now apply fmul_nz]. Qed.
  Lemma finv_1 : / (1 : K) = 1. Proof. field. apply f1_nz. Qed.
  Lemma fpow_inv x n : x <> 0 -> (/ x) ^ n = / (x ^ n).
  Proof.
    intros A. induction n as [|n IH]; cbn; [symmetry; apply finv_1|].
    rewrite IH. field. split; [now apply fpow_nz|exact A].
  Qed.
  Lemma finv_mul x y : x <> 0 -> y <> 0 -> / (x * y) = / x * / y.
  Proof. intros. field. auto. Qed.
End Field.

Section TwoAdic.
  Variable T : two_adic.
  Add Field TF : (fth T).
  Local Open Scope F_scope.

  Lemma tag_some k : k <= two_adicity T -> two_adic_generator T k = Some (gen k).
  Proof. intros L. unfold two_adic_generator. now rewrite (proj2 (Nat.leb_le _ _) L). Qed.
  Lemma tag_none k : two_adicity T < k -> two_adic_generator T k = None.
  Proof. intros L. unfold two_adic_generator. destruct (Nat.leb_spec k (two_adicity T)); [lia|reflexivity]. Qed.

  Lemma gen_pow j k : j + k <= two_adicity T -> (gen (j + k) : T) ^ (2 ^ j) = gen k.
  Proof.
    induction j as [|j IH]; intros L.
    - cbn [Nat.pow]. now rewrite fpow_1_r.
    - rewrite Nat.pow_succ_r', fpow_mul, fpow_2. change (S j + k)%nat with (S (j + k))%nat. rewrite gen_sq by lia. apply IH. lia.
  Qed.
  Lemma gen_order k : k <= two_adicity T -> (gen k : T) ^ (2 ^ k) = 1.
  Proof. intros L. rewrite <- (gen_0 T). rewrite <- (gen_pow k 0) by lia. now rewrite Nat.add_0_r. Qed.
  Lemma gen_half k : S k <= two_adicity T -> (gen (S k) : T) ^ (2 ^ k) = - (1).
  Proof. intros L. rewrite <- (gen_1 T) by lia. rewrite <- (gen_pow k 1) by lia. now rewrite Nat.add_1_r. Qed.
  Lemma gen_nz k : k <= two_adicity T -> (gen k : T) <> 0.
  Proof.
    intros L E. pose proof (gen_order k L) as G. rewrite E in G. rewrite fpow_0_l in G.
    - now apply (f1_nz T).
    - pose proof (Nat.pow_nonzero 2 k). lia.
  Qed.
  Lemma neg1_neq1 : - (1 : T) <> 1.
  Proof.
    intros E. apply (two_nz T). transitivity ((1 : T) + - (1)); [f_equal; now symmetry|ring].
  Qed.
  (** the order of gen k is exactly 2^k *)
  Lemma gen_pow_eq_1 k : k <= two_adicity T -> forall n, n < 2 ^ k -> (gen k : T) ^ n = 1 -> n = 0%nat.
  Proof.
    induction k as [|k IH]; intros L n Hn E; [cbn in Hn; lia|].
    rewrite Nat.pow_succ_r' in Hn.
    destruct (Nat.Even_or_Odd n) as [[m ->]|[m ->]].
    - rewrite fpow_mul, fpow_2, gen_sq in E by lia.
      rewrite (IH ltac:(lia) m ltac:(lia) E). reflexivity.
    - exfalso. apply neg1_neq1. rewrite <- (gen_half k L).
      (* g^(2m+1) = 1, so g = g^-(2m); raise to 2^k *)
      assert (E2 : ((gen (S k) : T) ^ (2 * m + 1)%nat) ^ (2 ^ k) = 1) by (rewrite E; apply fpow_1_l).
      rewrite fpow_add, fpow_mul_l, fpow_1_r in E2.
      rewrite <- fpow_mul in E2. replace (2 * m * 2 ^ k)%nat with (2 ^ S k * m)%nat in E2 by (rewrite Nat.pow_succ_r'; lia).
      rewrite fpow_mul, gen_order, fpow_1_l in E2 by exact L.
      transitivity (1 * (gen (S k) : T) ^ (2 ^ k)); [ring|exact E2].
  Qed.
  Lemma gen_pow_inj k : k <= two_adicity T -> forall i j, i < 2 ^ k -> j < 2 ^ k ->
    (gen k : T) ^ i = gen k ^ j -> i = j.
  Proof.
    intros L. assert (G : forall i j, i <= j -> j < 2 ^ k -> (gen k : T) ^ i = gen k ^ j -> i = j).
    { intros i j Lij Hj E. replace j with (i + (j - i))%nat in E by lia. rewrite fpow_add in E.
      enough (j - i = 0)%nat by lia. apply (gen_pow_eq_1 k L); [lia|].
      apply (fmul_cancel_l _ (gen k ^ i)); [apply fpow_nz, gen_nz, L|]. rewrite <- E. ring. }
    intros i j Hi Hj E. destruct (Nat.le_ge_cases i j); [now apply G|symmetry; apply G; [assumption|assumption|now symmetry]].
  Qed.
End TwoAdic.

(** ** Polynomials as coefficient lists, constant coefficient first *)
Fixpoint peval {K : field} (p : list K) (x : K) : K :=
  match p with [] => f0 | c :: p => fadd c (fmul x (peval p x)) end.
Fixpoint evens {A} (p : list A) : list A :=
  match p with a :: _ :: p => a :: evens p | [a] => [a] | [] => [] end.
Fixpoint odds {A} (p : list A) : list A :=
  match p with _ :: b :: p => b :: odds p | _ => [] end.
Fixpoint interleave {A} (e o : list A) : list A :=
  match e, o with a :: e, b :: o => a :: b :: interleave e o | _, _ => [] end.
Fixpoint padd {K : field} (p q : list K) : list K :=
  match p, q with
  | [], q => q
  | p, [] => p
  | a :: p, b :: q => fadd a b :: padd p q
  end.
Definition pscale {K : field} (c : K) (p : list K) : list K := map (fmul c) p.

Section Poly.
  Variable K : field.
  Add Field PF : (fth K).
  Local Open Scope F_scope.
  Implicit Types p q : list K.

  Lemma pair_ind {A} (P : list A -> Prop) : P [] -> (forall a, P [a]) -> (forall a b l, P l -> P (a :: b :: l)) -> forall l, P l.
  Proof.
    intros H0 H1 H2. fix IH 1. intros [|a [|b l]]; [exact H0|apply H1|apply H2, IH].
  Qed.
  Lemma peval_even_odd p x : peval p x = peval (evens p) (x * x) + x * peval (odds p) (x * x).
  Proof. induction p as [|a|a b p IH] using pair_ind; cbn; [ring|ring|rewrite IH; ring]. Qed.
  Lemma peval_padd p q x : peval (padd p q) x = peval p x + peval q x.
  Proof. revert q. induction p as [|a p IH]; intros [|b q]; cbn; [ring|ring|ring|rewrite IH; ring]. Qed.
  Lemma peval_pscale c p x : peval (pscale c p) x = c * peval p x.
  Proof. induction p as [|a p IH]; cbn; [ring|]. unfold pscale in IH. rewrite IH. ring. Qed.
  Lemma evens_length {A} (p : list A) : length (evens p) = ((length p + 1) / 2)%nat.
  Proof.
    induction p as [|a|a b p IH] using pair_ind; [reflexivity|reflexivity|]. cbn [evens length].
    rewrite IH. replace (S (S (length p)) + 1)%nat with (length p + 1 + 1 * 2)%nat by lia. rewrite Nat.div_add by lia. lia.
  Qed.
  Lemma odds_length {A} (p : list A) : length (odds p) = (length p / 2)%nat.
  Proof.
    induction p as [|a|a b p IH] using pair_ind; [reflexivity|reflexivity|]. cbn [odds length].
    rewrite IH. replace (S (S (length p))) with (length p + 1 * 2)%nat by lia. rewrite Nat.div_add by lia. lia.
  Qed.
  Lemma padd_length p q : length (padd p q) = Nat.max (length p) (length q).
  Proof. revert q. induction p as [|a p IH]; intros [|b q]; cbn; [reflexivity|reflexivity|reflexivity|now rewrite IH]. Qed.
  Lemma pscale_length (c : K) p : length (pscale c p) = length p.
  Proof. apply map_length. Qed.
  Lemma nth_nil {A} i (d : A) : nth i [] d = d. Proof. now destruct i. Qed.
  Lemma evens_nth {A} (p : list A) d i : nth i (evens p) d = nth (2 * i)%nat p d.
  Proof.
    revert i. induction p as [|a|a b p IH] using pair_ind; intros i.
    - cbn [evens]. now rewrite !nth_nil.
    - destruct i as [|i]; [reflexivity|]. replace (2 * S i)%nat with (S (S (2 * i)))%nat by lia. cbn [evens]. change (nth i [] d = nth (S (2 * i))%nat (@nil A) d). now rewrite !nth_nil.
    - destruct i as [|i]; [reflexivity|]. replace (2 * S i)%nat with (S (S (2 * i)))%nat by lia. cbn [evens nth]. apply IH.
  Qed.
  Lemma odds_nth {A} (p : list A) d i : nth i (odds p) d = nth (2 * i + 1)%nat p d.
  Proof.
    revert i. induction p as [|a|a b p IH] using pair_ind; intros i.
    - cbn [odds]. now rewrite !nth_nil.
    - replace (2 * i + 1)%nat with (S (2 * i))%nat by lia. change (nth i [] d = nth (2 * i)%nat (@nil A) d). now rewrite !nth_nil.
    - destruct i as [|i]; [reflexivity|]. replace (2 * S i + 1)%nat with (S (S (2 * i + 1)))%nat by lia. cbn [odds nth]. apply IH.
  Qed.
  Lemma evens_interleave {A} (e o : list A) : length e = length o -> evens (interleave e o) = e.
  Proof. revert o. induction e as [|a e IH]; intros [|b o] L; cbn in *; try discriminate; [reflexivity|]. now rewrite IH by lia. Qed.
  Lemma odds_interleave {A} (e o : list A) : length e = length o -> odds (interleave e o) = o.
  Proof. revert o. induction e as [|a e IH]; intros [|b o] L; cbn in *; try discriminate; [reflexivity|]. now rewrite IH by lia. Qed.
  Lemma interleave_length {A} (e o : list A) : length e = length o -> length (interleave e o) = (2 * length e)%nat.
  Proof. revert o. induction e as [|a e IH]; intros [|b o] L; cbn in *; try discriminate; [reflexivity|]. rewrite IH by lia. lia. Qed.

  (** A polynomial with as many distinct roots as coefficients is zero everywhere. *)
  Fixpoint pdiv_lin (p : list K) (r : K) : list K :=
    match p with [] => [] | _ :: p => peval p r :: pdiv_lin p r end.
  Lemma pdiv_lin_ok p r x : peval p x - peval p r = (x - r) * peval (pdiv_lin p r) x.
  Proof.
    revert x. induction p as [|c p IH]; intros x; cbn; [ring|].
    replace (c + x * peval p x - (c + r * peval p r)) with
      ((x - r) * peval p r + x * (peval p x - peval p r)) by ring.
    rewrite IH. ring.
  Qed.
  Lemma pdiv_lin_length p r : length (pdiv_lin p r) = length p.
  Proof. induction p; cbn; congruence. Qed.
  (** quotient with one coefficient less *)
  Definition pquot (p : list K) (r : K) : list K := firstn (length p - 1) (pdiv_lin p r).
  Lemma pdiv_lin_last p r : p <> [] -> pdiv_lin p r = firstn (length p - 1) (pdiv_lin p r) ++ [0].
  Proof.
    induction p as [|c p IH]; [easy|]. intros _. cbn [pdiv_lin length]. rewrite Nat.sub_succ, Nat.sub_0_r.
    destruct p as [|c' p]; [reflexivity|]. rewrite IH at 1 by easy. cbn [length]. rewrite Nat.sub_succ, Nat.sub_0_r. reflexivity.
  Qed.
  Lemma peval_app p q x : peval (p ++ q) x = peval p x + x ^ length p * peval q x.
  Proof. induction p as [|c p IH]; cbn; [ring|rewrite IH; ring]. Qed.
  Lemma pquot_ok p r x : peval p x - peval p r = (x - r) * peval (pquot p r) x.
  Proof.
    rewrite pdiv_lin_ok. destruct p as [|c p]; [reflexivity|]. f_equal.
    rewrite (pdiv_lin_last (c :: p) r) by easy. rewrite peval_app. unfold pquot. cbn [peval]. ring.
  Qed.
  Lemma pquot_length p r : length (pquot p r) = (length p - 1)%nat.
  Proof. unfold pquot. rewrite firstn_length, pdiv_lin_length. lia. Qed.

  Theorem poly_roots : forall rs p, NoDup rs -> length p <= length rs -> (forall r, In r rs -> peval p r = 0) ->
    forall x, peval p x = 0.
  Proof.
    induction rs as [|r rs IH]; intros p ND L R x.
    - destruct p; [reflexivity|cbn in L; lia].
    - inversion_clear ND as [|? ? N1 N2].
      assert (Q : forall y, peval (pquot p r) y = 0).
      { apply IH; [exact N2|rewrite pquot_length; cbn in L; lia|].
        intros s Hs. pose proof (pquot_ok p r s) as E. rewrite (R s (or_intror Hs)), (R r (or_introl eq_refl)) in E.
        assert (E' : (s - r) * peval (pquot p r) s = 0) by (rewrite <- E; ring).
        apply fmul_integral in E' as [E'|E']; [|exact E'].
        apply fsub_0 in E'. subst. contradiction. }
      pose proof (pquot_ok p r x) as E. rewrite Q, (R r (or_introl eq_refl)) in E.
      replace (peval p x) with (peval p x - 0) by ring. rewrite E. ring.
  Qed.
End Poly.

(** ** Bit reversal *)

(** p3_util::reverse_bits_len(x, bits): reversal of the low [bits] bits.  (For bits = 0 the crate
    returns the reversal of the whole word, which is 0 for the only index 0 that is ever passed.) *)
Fixpoint reverse_bits_len (x bits : nat) : nat :=
  match bits with O => 0 | S b => x mod 2 * 2 ^ b + reverse_bits_len (x / 2) b end.

(** p3_util::log2_strict_usize: asserts a power of two. *)
Definition log2_strict (n : nat) : option nat :=
  if (n =? 0) then None else if (2 ^ Nat.log2 n =? n) then Some (Nat.log2 n) else None.

(** p3_util::reverse_slice_index_bits *)
Definition reverse_slice_index_bits {A} (l : list A) : option (list A) :=
  match log2_strict (length l), l with
  | Some k, d :: _ => Some (map (fun i => nth (reverse_bits_len i k) l d) (seq 0 (length l)))
  | _, _ => None
  end.

Lemma log2_strict_pow k : log2_strict (2 ^ k) = Some k.
Proof.
  unfold log2_strict. rewrite Nat.log2_pow2 by lia.
  destruct (Nat.eqb_spec (2 ^ k) 0) as [E|_]; [now apply Nat.pow_nonzero in E|]. now rewrite Nat.eqb_refl.
Qed.
Lemma log2_strict_some n k : log2_strict n = Some k -> n = 2 ^ k.
Proof.
  unfold log2_strict. destruct (n =? 0); [easy|]. destruct (Nat.eqb_spec (2 ^ Nat.log2 n) n); [|easy]. intros [= <-]. now symmetry.
Qed.
Lemma rbl_lt x k : reverse_bits_len x k < 2 ^ k.
Proof.
  revert x. induction k as [|k IH]; intros x; [cbn; lia|]. cbn [reverse_bits_len]. rewrite Nat.pow_succ_r'.
  specialize (IH (x / 2)). pose proof (Nat.mod_upper_bound x 2). nia.
Qed.
Lemma rbl_double x k : reverse_bits_len (2 * x) (S k) = reverse_bits_len x k.
Proof.
  cbn [reverse_bits_len]. replace (2 * x) with (0 + x * 2) by lia. rewrite Nat.mod_add, Nat.div_add by lia. cbn. lia.
Qed.
Lemma rbl_double1 x k : reverse_bits_len (2 * x + 1) (S k) = 2 ^ k + reverse_bits_len x k.
Proof.
  cbn [reverse_bits_len]. replace (2 * x + 1) with (1 + x * 2) by lia. rewrite Nat.mod_add, Nat.div_add by lia.
  change (1 mod 2) with 1. change (1 / 2) with 0. rewrite Nat.add_0_l. lia.
Qed.
(** the top bit becomes the lowest one *)
Lemma rbl_top x k b : x < 2 ^ k -> b < 2 -> reverse_bits_len (x + b * 2 ^ k) (S k) = 2 * reverse_bits_len x k + b.
Proof.
  revert x. induction k as [|k IH]; intros x Hx Hb.
  - cbn in Hx. assert (x = 0) by lia. subst. destruct b as [|[|b]]; [reflexivity|reflexivity|lia].
  - pose proof (Nat.div_mod x 2 ltac:(lia)) as D. pose proof (Nat.mod_upper_bound x 2 ltac:(lia)) as M.
    rewrite Nat.pow_succ_r' in Hx. pose proof (IH (x / 2) ltac:(lia) Hb) as IHx.
    cbn [reverse_bits_len] in IHx |- *.
    replace (x + b * 2 ^ S k) with (x mod 2 + (x / 2 + b * 2 ^ k) * 2) by (rewrite Nat.pow_succ_r'; lia).
    rewrite Nat.mod_add, Nat.div_add by lia. rewrite (Nat.mod_small (x mod 2)), (Nat.div_small (x mod 2)) by lia.
    rewrite Nat.add_0_l, IHx, (Nat.pow_succ_r' 2 k). lia.
Qed.
Lemma rbl_invol x k : x < 2 ^ k -> reverse_bits_len (reverse_bits_len x k) k = x.
Proof.
  revert x. induction k as [|k IH]; intros x Hx; [cbn in *; lia|].
  pose proof (Nat.div_mod x 2 ltac:(lia)) as D. pose proof (Nat.mod_upper_bound x 2 ltac:(lia)) as M.
  rewrite Nat.pow_succ_r' in Hx.
  change (reverse_bits_len x (S k)) with (x mod 2 * 2 ^ k + reverse_bits_len (x / 2) k). rewrite Nat.add_comm, rbl_top; [|apply rbl_lt|lia]. rewrite IH by lia. lia.
Qed.
(** a shorter reversal is the longer one, scaled *)
Lemma rbl_short x j k : x < 2 ^ k -> reverse_bits_len x (j + k) = reverse_bits_len x k * 2 ^ j.
Proof.
  intros Hx. induction j as [|j IH]; [cbn; lia|].
  change (S j + k) with (S (j + k)).
  assert (x < 2 ^ (j + k)) as Hx' by (eapply Nat.lt_le_trans; [exact Hx|apply Nat.pow_le_mono_r; lia]).
  pose proof (rbl_top x (j + k) 0 Hx' ltac:(lia)) as E. rewrite Nat.mul_0_l, Nat.add_0_r in E.
  rewrite E, IH, Nat.pow_succ_r'. lia.
Qed.
Lemma reverse_slice_ok {A} (l : list A) k d : length l = 2 ^ k ->
  reverse_slice_index_bits l = Some (map (fun i => nth (reverse_bits_len i k) l d) (seq 0 (2 ^ k))).
Proof.
  intros L. unfold reverse_slice_index_bits. rewrite L, log2_strict_pow.
  destruct l as [|a l]; [pose proof (Nat.pow_nonzero 2 k); cbn in L; lia|]. f_equal.
  apply map_ext_in. intros i _. apply nth_indep. rewrite L. apply rbl_lt.
Qed.
