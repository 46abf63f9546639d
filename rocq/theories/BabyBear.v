(** The two fields of the project as instances of [two_adic]: p3_baby_bear::BabyBear (prime
    2013265921) and BinomialExtensionField<BabyBear, 4> (x^4 = 11).  Both come from external crates;
    here they are constructed, so nothing about them is assumed. *)
From Coq Require Import ZArith Znumtheory List Lia Bool Permutation Eqdep_dec Field.
From Verif Require Import Field HelperModel.
Import ListNotations.
Open Scope Z_scope.

Definition BP : Z := 2013265921.

(** ** BP is prime: trial division up to its square root *)
Fixpoint no_divisor (n : nat) (d : Z) : bool :=
  match n with O => true | S n => negb (BP mod d =? 0) && no_divisor n (d + 1) end.
Lemma no_divisor_ok n : forall d, no_divisor n d = true -> forall e, d <= e < d + Z.of_nat n -> BP mod e <> 0.
Proof.
  induction n as [|n IH]; intros d E e He; [lia|]. cbn [no_divisor] in E. apply andb_true_iff in E as [E1 E2].
  destruct (Z.eq_dec e d) as [->|N]; [now apply negb_true_iff, Z.eqb_neq in E1|]. apply (IH _ E2). lia.
Qed.
Lemma trial : no_divisor (Z.to_nat 44869) 2 = true.
Proof. vm_compute. reflexivity. Qed.
Theorem BP_prime : prime BP.
Proof.
  apply prime_alt. split; [reflexivity|]. intros n Hn [q E].
  pose proof (no_divisor_ok _ _ trial) as T. rewrite Z2Nat.id in T by lia.
  assert (0 < q) by (unfold BP in *; nia).
  destruct (Z_lt_ge_dec n 44871) as [L|L].
  - apply (T n); [lia|]. rewrite E. apply Z_mod_mult.
  - apply (T q); [unfold BP in *; nia|]. rewrite E, Z.mul_comm. apply Z_mod_mult.
Qed.

(** ** Arithmetic modulo BP *)
Definition canonical (z : Z) : bool := (0 <=? z) && (z <? BP).
Definition bb : Type := {z : Z | canonical z = true}.
Definition as_canonical (x : bb) : Z := proj1_sig x.
Lemma canonical_mod z : canonical (z mod BP) = true.
Proof. unfold canonical. pose proof (Z.mod_pos_bound z BP ltac:(reflexivity)). lia. Qed.
Definition of_Z (z : Z) : bb := exist _ (z mod BP) (canonical_mod z).
Lemma bb_eq (x y : bb) : as_canonical x = as_canonical y -> x = y.
Proof.
  destruct x as [x Hx], y as [y Hy]. cbn. intros ->. f_equal. apply UIP_dec, bool_dec.
Qed.
Lemma bb_range (x : bb) : 0 <= as_canonical x < BP.
Proof. destruct x as [x Hx]. cbn. unfold canonical in Hx. lia. Qed.
Lemma of_Z_as x : of_Z (as_canonical x) = x.
Proof. apply bb_eq. cbn. apply Z.mod_small, bb_range. Qed.
Lemma as_of_Z z : as_canonical (of_Z z) = z mod BP. Proof. reflexivity. Qed.
Lemma of_Z_eq a b : a mod BP = b mod BP -> of_Z a = of_Z b.
Proof. intros E. apply bb_eq. exact E. Qed.

Definition bb_add (x y : bb) : bb := of_Z (as_canonical x + as_canonical y).
Definition bb_mul (x y : bb) : bb := of_Z (as_canonical x * as_canonical y).
Definition bb_sub (x y : bb) : bb := of_Z (as_canonical x - as_canonical y).
Definition bb_opp (x : bb) : bb := of_Z (- as_canonical x).
(** extended Euclid *)
Fixpoint egcd (n : nat) (a b : Z) : Z * Z * Z :=
  match n with
  | O => (a, 1, 0)
  | S n => if b =? 0 then (a, 1, 0)
           else let '(g, u, v) := egcd n b (a mod b) in (g, v, u - a / b * v)
  end.
Definition bb_inv (x : bb) : bb := let '(_, u, _) := egcd 64 (as_canonical x) BP in of_Z u.
Definition bb_div (x y : bb) : bb := bb_mul x (bb_inv y).
Definition bb_eqb (x y : bb) : bool := as_canonical x =? as_canonical y.

Lemma egcd_bezout n : forall a b g u v, egcd n a b = (g, u, v) -> u * a + v * b = g.
Proof.
  induction n as [|n IH]; intros a b g u v; cbn [egcd].
  - intros [= <- <- <-]. lia.
  - destruct (Z.eqb_spec b 0) as [->|N]; [intros [= <- <- <-]; lia|].
    destruct (egcd n b (a mod b)) as [[g' u'] v'] eqn:E. intros [= <- <- <-].
    apply IH in E. rewrite Z.mod_eq in E by exact N. rewrite <- E. ring.
Qed.
(** the remainders halve every second step *)
Lemma egcd_gcd n : forall a b g u v, 0 <= b <= a -> a * b < 2 ^ Z.of_nat n -> egcd n a b = (g, u, v) -> g = Z.gcd a b.
Proof.
  induction n as [|n IH]; intros a b g u v R S; cbn [egcd].
  - intros [= <- <- <-]. assert (b = 0) as -> by (change (2 ^ Z.of_nat 0) with 1 in S; nia).
    rewrite Z.gcd_0_r. rewrite Z.abs_eq; lia.
  - destruct (Z.eqb_spec b 0) as [->|N]; [intros [= <- <- <-]; rewrite Z.gcd_0_r, Z.abs_eq; lia|].
    destruct (egcd n b (a mod b)) as [[g' u'] v'] eqn:E. intros [= <- <- <-].
    pose proof (Z.mod_pos_bound a b ltac:(lia)) as M. pose proof (Z.div_mod a b N) as D.
    apply IH in E; [|lia|].
    + rewrite E, Z.gcd_comm, Z.gcd_mod by exact N. apply Z.gcd_comm.
    + rewrite Nat2Z.inj_succ, Z.pow_succ_r in S by lia.
      assert (1 <= a / b) by (apply Z.div_le_lower_bound; lia).
      assert (2 * (a mod b) <= a) by nia. nia.
Qed.
Lemma egcd_S n a b : egcd (S n) a b =
  if b =? 0 then (a, 1, 0) else let '(g, u, v) := egcd n b (a mod b) in (g, v, u - a / b * v).
Proof. reflexivity. Qed.
Lemma egcd_inv n x g u v : 0 < x < BP -> BP * BP <= 2 ^ Z.of_nat n -> egcd (S n) x BP = (g, u, v) ->
  (u * x) mod BP = 1 mod BP.
Proof.
  intros R S E. assert (g = 1) as Eg.
  { rewrite egcd_S in E. destruct (Z.eqb_spec BP 0) as [N|_]; [discriminate N|].
    destruct (egcd n BP (x mod BP)) as [[g' u'] v'] eqn:E'. injection E as <- _ _.
    rewrite Z.mod_small in E' by lia. apply egcd_gcd in E'; [|lia|nia].
    rewrite E', Z.gcd_comm. apply Zgcd_1_rel_prime. apply rel_prime_le_prime; [apply BP_prime|lia]. }
  apply egcd_bezout in E. subst g.
  replace (u * x) with (1 + (- v) * BP) by lia. apply Z_mod_plus_full.
Qed.
Lemma bb_inv_ok x : as_canonical x <> 0 -> bb_mul (bb_inv x) x = of_Z 1.
Proof.
  intros N. unfold bb_inv. pose proof (bb_range x) as R.
  destruct (egcd 64 (as_canonical x) BP) as [[g u] v] eqn:E.
  apply egcd_inv in E; [|lia|vm_compute; discriminate].
  unfold bb_mul. apply of_Z_eq. rewrite as_of_Z, Zmult_mod_idemp_l. exact E.
Qed.

Lemma bb_field : field_theory (of_Z 0) (of_Z 1) bb_add bb_mul bb_sub bb_opp bb_div bb_inv eq.
Proof.
  constructor.
  - constructor.
    + intros x. apply bb_eq. cbn. rewrite Z.mod_small; [lia|apply bb_range].
    + intros x y. apply of_Z_eq. f_equal. lia.
    + intros x y z. apply of_Z_eq. cbn. rewrite Zplus_mod_idemp_r, Zplus_mod_idemp_l. f_equal. lia.
    + intros x. apply bb_eq. change (as_canonical (of_Z 1)) with 1. unfold bb_mul. rewrite as_of_Z.
      change (as_canonical (of_Z 1)) with 1. rewrite Z.mul_1_l. apply Z.mod_small, bb_range.
    + intros x y. apply of_Z_eq. f_equal. lia.
    + intros x y z. apply of_Z_eq. unfold bb_mul. rewrite !as_of_Z, Zmult_mod_idemp_r, Zmult_mod_idemp_l. f_equal. lia.
    + intros x y z. apply of_Z_eq. unfold bb_add, bb_mul. rewrite !as_of_Z, Zmult_mod_idemp_l, <- Zplus_mod. f_equal. lia.
    + intros x y. apply of_Z_eq. unfold bb_opp. rewrite !as_of_Z, Zplus_mod_idemp_r. f_equal.
    + intros x. unfold bb_add, bb_opp. apply of_Z_eq. rewrite as_of_Z, Zplus_mod_idemp_r. f_equal. lia.
  - intros E. apply (f_equal as_canonical) in E. discriminate.
  - reflexivity.
  - intros x N. apply bb_inv_ok. intros E. apply N, bb_eq. exact E.
Qed.
Lemma bb_eqb_ok x y : bb_eqb x y = true <-> x = y.
Proof. unfold bb_eqb. rewrite Z.eqb_eq. split; [apply bb_eq|congruence]. Qed.
Definition BabyBear : field :=
  mk_field bb (of_Z 0) (of_Z 1) bb_add bb_mul bb_sub bb_opp bb_div bb_inv bb_eqb bb_field bb_eqb_ok.

Lemma of_Z_add a b : of_Z (a + b) = bb_add (of_Z a) (of_Z b).
Proof. apply of_Z_eq. rewrite !as_of_Z. apply Zplus_mod. Qed.
Lemma of_Z_mul a b : of_Z (a * b) = bb_mul (of_Z a) (of_Z b).
Proof. apply of_Z_eq. rewrite !as_of_Z. apply Zmult_mod. Qed.
Lemma of_Z_pow a n : of_Z (a ^ Z.of_nat n) = @fpow BabyBear (of_Z a) n.
Proof.
  induction n as [|n IH]; [reflexivity|]. rewrite Nat2Z.inj_succ, Z.pow_succ_r, of_Z_mul by lia. cbn. now rewrite IH.
Qed.

(** ** The two-adic generators *)
Definition bb_gen (k : nat) : BabyBear := of_Z (HelperModel.two_adic_generator k).
Lemma gen_step k : (k < 27)%nat ->
  HelperModel.two_adic_generator k = (HelperModel.two_adic_generator (S k) * HelperModel.two_adic_generator (S k)) mod BP.
Proof.
  intros L. do 27 (destruct k as [|k]; [vm_compute; reflexivity|]). lia.
Qed.
Lemma bb_gen_sq k : (k < 27)%nat -> fmul (bb_gen (S k)) (bb_gen (S k)) = bb_gen k.
Proof.
  intros L. unfold bb_gen. change (@fmul BabyBear) with bb_mul. rewrite <- of_Z_mul. apply of_Z_eq.
  rewrite (gen_step k L). now rewrite Zmod_mod.
Qed.
Lemma bb_gen_0 : bb_gen 0 = f1. Proof. apply bb_eq. vm_compute. reflexivity. Qed.
Lemma bb_gen_1 : bb_gen 1 = fopp f1. Proof. apply bb_eq. vm_compute. reflexivity. Qed.
Lemma bb_two : fadd (@f1 BabyBear) f1 <> f0.
Proof. intros E. apply (f_equal as_canonical) in E. vm_compute in E. discriminate. Qed.
Definition BabyBearT : two_adic :=
  mk_two_adic BabyBear 27 bb_gen bb_gen_0 (fun _ => bb_gen_1) bb_gen_sq bb_two.

(** ** Fermat's little theorem, for the quadratic character of 11 *)
Definition NB : nat := Z.to_nat (BP - 1).
Lemma NB_Z : Z.of_nat NB = BP - 1.
Proof. unfold NB. apply Z2Nat.id. discriminate. Qed.
Opaque NB.
Section Fermat.
  Definition units : list bb := map (fun n => of_Z (Z.of_nat n)) (seq 1 (NB)).
  Lemma units_in x : In x units <-> as_canonical x <> 0.
  Proof.
    unfold units. rewrite in_map_iff. split.
    - intros (n & <- & Hn). pose proof (proj1 (in_seq NB 1 n) Hn). pose proof NB_Z. rewrite as_of_Z, Z.mod_small; lia.
    - intros N. pose proof (bb_range x). pose proof NB_Z. exists (Z.to_nat (as_canonical x)). split.
      + rewrite Z2Nat.id by lia. apply of_Z_as.
      + apply (proj2 (in_seq NB 1 _)). lia.
  Qed.
  Lemma units_nodup : NoDup units.
  Proof.
    apply (NoDup_map_inv (fun x => Z.to_nat (as_canonical x))). unfold units. rewrite map_map.
    rewrite map_ext_in with (g := fun n => n); [rewrite map_id; apply seq_NoDup|].
    intros n Hn. pose proof (proj1 (in_seq NB 1 n) Hn). pose proof NB_Z. rewrite as_of_Z, Z.mod_small; lia.
  Qed.
  Lemma units_length : length units = NB.
  Proof. unfold units. now rewrite map_length, seq_length. Qed.
  Opaque units.
  Definition prod (l : list bb) : bb := fold_right bb_mul (of_Z 1) l.
  Add Field BF : bb_field.
  Lemma prod_perm l l' : Permutation l l' -> prod l = prod l'.
  Proof.
    unfold prod. induction 1; cbn [fold_right]; [reflexivity|now rewrite IHPermutation|ring|congruence].
  Qed.
  Lemma prod_scale a l : prod (map (bb_mul a) l) = bb_mul (@fpow BabyBear a (length l)) (prod l).
  Proof.
    induction l as [|x l IH]; [change (of_Z 1 = bb_mul (of_Z 1) (of_Z 1)); ring|].
    unfold prod in *. cbn [map fold_right length fpow]. rewrite IH. change (@fmul BabyBear) with bb_mul. ring.
  Qed.
  Lemma prod_nz l : (forall x, In x l -> x <> @f0 BabyBear) -> prod l <> @f0 BabyBear.
  Proof.
    induction l as [|x l IH]; intros N; [exact (f1_nz BabyBear)|].
    apply (fmul_nz BabyBear); [apply N; now left|apply IH; intros; apply N; now right].
  Qed.
  Lemma fermat (a : BabyBear) : a <> f0 -> fpow a (NB) = f1.
  Proof.
    intros N. assert (P : Permutation (map (bb_mul a) units) units).
    { apply NoDup_Permutation_bis.
      - apply FinFun.Injective_map_NoDup; [|apply units_nodup]. intros x y E. exact (fmul_cancel_l BabyBear _ _ _ N E).
      - now rewrite map_length.
      - intros x Hx. rewrite in_map_iff in Hx. destruct Hx as (y & <- & Hy). rewrite units_in in Hy. rewrite units_in. intros E.
        assert (Z0 : bb_mul a y = @f0 BabyBear) by (apply bb_eq; exact E).
        apply (fmul_integral BabyBear) in Z0 as [Z0|Z0]; [contradiction|]. apply Hy. now rewrite Z0. }
    apply prod_perm in P. rewrite prod_scale in P.
    rewrite units_length in P.
    apply (fmul_cancel_l BabyBear (prod units)).
    - apply prod_nz. intros x Hx E. rewrite units_in in Hx. apply Hx. now rewrite E.
    - transitivity (prod units).
      + rewrite <- P at 2. change (@fmul BabyBear) with bb_mul. change (car BabyBear) with bb. ring.
      + change (prod units = bb_mul (prod units) (of_Z 1)). ring.
  Qed.
End Fermat.

(** x ^ (2^27 * n), by 27 squarings *)
Lemma pow_sq (x : BabyBear) n k : fpow x (n * 2 ^ k) = Nat.iter k (fun y => bb_mul y y) (fpow x n).
Proof.
  induction k as [|k IH]; [now rewrite Nat.mul_1_r|].
  cbn [Nat.iter nat_rect]. unfold Nat.iter in IH. rewrite <- IH. change bb_mul with (@fmul BabyBear).
  rewrite <- fpow_2, <- fpow_mul. f_equal. rewrite Nat.pow_succ_r'. lia.
Qed.
Lemma eleven_half : fpow (of_Z 11 : BabyBear) (15 * 2 ^ 26) = fopp f1.
Proof. rewrite pow_sq. apply bb_eq. vm_compute. reflexivity. Qed.
Lemma two26 : (15 * 2 ^ 26 * 2)%nat = NB.
Proof.
  apply Nat2Z.inj. rewrite NB_Z, !Nat2Z.inj_mul, Nat2Z.inj_pow. reflexivity.
Qed.
(** 11 is not a square *)
Lemma nonsquare_11 (x : BabyBear) : fmul x x <> of_Z 11.
Proof.
  intros E. pose proof eleven_half as H. rewrite <- E, <- fpow_2, <- fpow_mul, Nat.mul_comm in H.
  rewrite two26, fermat in H.
  - apply (neg1_neq1 BabyBearT). now symmetry.
  - intros ->. apply (f_equal as_canonical) in E. vm_compute in E. discriminate.
Qed.

(** ** Quadratic extension by the square root of a non-square *)
Section Quad.
  Variable K : field.
  Variable w : K.
  Hypothesis ns : forall x : K, fmul x x <> w.
  Add Field QF : (fth K).
  Local Open Scope F_scope.
  Definition qcar : Type := (K * K)%type.
  Definition q_add (x y : qcar) : qcar := (fst x + fst y, snd x + snd y).
  Definition q_sub (x y : qcar) : qcar := (fst x - fst y, snd x - snd y).
  Definition q_opp (x : qcar) : qcar := (- fst x, - snd x).
  Definition q_mul (x y : qcar) : qcar := (fst x * fst y + w * (snd x * snd y), fst x * snd y + snd x * fst y).
  Definition q_inv (x : qcar) : qcar :=
    let n := fst x * fst x - w * (snd x * snd x) in (fst x / n, - snd x / n).
  Definition q_div (x y : qcar) : qcar := q_mul x (q_inv y).
  Definition q_eqb (x y : qcar) : bool := feqb (fst x) (fst y) && feqb (snd x) (snd y).
  Lemma norm_nz a b : (a, b) <> (0, 0) :> qcar -> a * a - w * (b * b) <> 0.
  Proof.
    intros N E. destruct (f_dec K b 0) as [->|B].
    - assert (a * a = 0) as E' by (rewrite <- E; ring). apply fmul_integral in E'. apply N. destruct E' as [E'|E']; rewrite E'; reflexivity.
    - apply (ns (a / b)). apply fsub_0 in E.
      transitivity (a * a / (b * b)); [field; exact B|]. rewrite E. field. exact B.
  Qed.
  Lemma quad_field : field_theory (0, 0) (1, 0) q_add q_mul q_sub q_opp q_div q_inv (@eq qcar).
  Proof.
    constructor.
    - constructor; intros; repeat match goal with x : qcar |- _ => destruct x end; unfold q_add, q_mul, q_sub, q_opp; cbn [fst snd];
        apply injective_projections; cbn [fst snd]; ring.
    - intros [= E]. exact (f1_nz K E).
    - reflexivity.
    - intros [a b] N. unfold q_mul, q_inv. cbn [fst snd]. pose proof (norm_nz a b N) as D.
      apply injective_projections; cbn [fst snd]; field; exact D.
  Qed.
  Lemma q_eqb_ok x y : q_eqb x y = true <-> x = y.
  Proof.
    destruct x, y. unfold q_eqb. cbn. rewrite andb_true_iff, !feqb_ok. split; [intros [-> ->]; reflexivity|intros [= -> ->]; auto].
  Qed.
  Definition quad : field := mk_field qcar (0, 0) (1, 0) q_add q_mul q_sub q_opp q_div q_inv q_eqb quad_field q_eqb_ok.
End Quad.

Definition BB2 : field := quad BabyBear (of_Z 11) nonsquare_11.
Definition BB2_y : BB2 := (f0, f1).
Add Field BF2 : (fth BabyBear).
(** y = sqrt 11 is not a square in BB2: its norm -11 is not a square, as -1 is. *)
Lemma nonsquare_y (x : BB2) : fmul x x <> BB2_y.
Proof.
  intros E. destruct x as [a b]. pose proof (f_equal fst E) as E1. pose proof (f_equal snd E) as E2.
  set (i := bb_gen 2). assert (I : fmul i i = fopp (@f1 BabyBear)) by (rewrite <- bb_gen_1; apply bb_gen_sq; lia).
  change (fadd (fmul a a) (fmul (of_Z 11 : BabyBear) (fmul b b)) = f0) in E1.
  change (fadd (fmul a b) (fmul b a) = (f1 : BabyBear)) in E2.
  (* a^2 + 11 b^2 = 0 and 2ab = 1: then (a^2 - 11 b^2)^2 = -11 *)
  apply (nonsquare_11 (fmul i (fsub (fmul a a) (fmul (of_Z 11 : BabyBear) (fmul b b))))).
  assert (X : fsub (fmul (fadd (fmul a a) (fmul (of_Z 11 : BabyBear) (fmul b b))) (fadd (fmul a a) (fmul (of_Z 11 : BabyBear) (fmul b b))))
                (fmul (of_Z 11 : BabyBear) (fmul (fadd (fmul a b) (fmul b a)) (fadd (fmul a b) (fmul b a)))) =
              fmul (fsub (fmul a a) (fmul (of_Z 11 : BabyBear) (fmul b b))) (fsub (fmul a a) (fmul (of_Z 11 : BabyBear) (fmul b b))))
    by ring.
  rewrite E1, E2 in X.
  transitivity (fmul (fmul i i) (fmul (fsub (fmul a a) (fmul (of_Z 11 : BabyBear) (fmul b b)))
    (fsub (fmul a a) (fmul (of_Z 11 : BabyBear) (fmul b b))))); [ring|].
  rewrite <- X, I. ring.
Qed.

(** BinomialExtensionField<BabyBear, 4>: ((c0, c2), (c1, c3)) is c0 + c1 x + c2 x^2 + c3 x^3, with
    x^2 = y and y^2 = 11. *)
Definition BB4 : field := quad BB2 BB2_y nonsquare_y.
Definition ext (c0 c1 c2 c3 : BabyBear) : BB4 := ((c0, c2), (c1, c3)).
Definition from_base (c : BabyBear) : BB4 := ext c f0 f0 f0.

(** HasTwoAdicBinomialExtension<4> for BabyBear (external): EXT_TWO_ADICITY = 29. *)
Definition ext_gen (k : nat) : BB4 :=
  match k with
  | 29%nat => ext f0 f0 f0 (of_Z 124907976)
  | 28%nat => ext f0 f0 (of_Z 1996171314) f0
  | _ => from_base (bb_gen k)
  end.
Lemma bb4_eqb (x y : BB4) : feqb x y = true -> x = y. Proof. apply feqb_ok. Qed.
Lemma ext_gen_sq k : (k < 29)%nat -> fmul (ext_gen (S k)) (ext_gen (S k)) = ext_gen k.
Proof.
  intros L. do 29 (destruct k as [|k]; [apply bb4_eqb; vm_compute; reflexivity|]). lia.
Qed.
Lemma ext_gen_0 : ext_gen 0 = f1. Proof. apply bb4_eqb. vm_compute. reflexivity. Qed.
Lemma ext_gen_1 : ext_gen 1 = fopp f1. Proof. apply bb4_eqb. vm_compute. reflexivity. Qed.
Lemma ext_two : fadd (@f1 BB4) f1 <> f0.
Proof. intros E. apply feqb_ok in E. vm_compute in E. discriminate. Qed.
Definition ExtT : two_adic := mk_two_adic BB4 29 ext_gen ext_gen_0 (fun _ => ext_gen_1) ext_gen_sq ext_two.

(** the embedding is a ring homomorphism and x^4 = 11 *)
Lemma from_base_add a b : from_base (fadd a b) = fadd (from_base a) (from_base b).
Proof. unfold from_base, ext. cbn. unfold q_add. cbn. repeat f_equal; apply bb_eq; reflexivity || (vm_compute; reflexivity). Qed.
Lemma x_fourth : fpow (ext f0 f1 f0 f0) 4 = from_base (of_Z 11).
Proof. apply bb4_eqb. vm_compute. reflexivity. Qed.
