(** Lemmas about FriModel: the three folds, and the chain of layers. *)
From Coq Require Import List Arith Bool Lia Field Sorted.
From Verif Require Import Field TcsModel PropTcs FriModel.
Import ListNotations.

Lemma div_half_pow q n : q / 2 ^ S n = q / 2 / 2 ^ n.
Proof. rewrite Nat.pow_succ_r', Nat.div_div; [reflexivity|lia|apply Nat.pow_nonzero; lia]. Qed.
Lemma div_lt_pow q j k : q < 2 ^ (j + k) -> q / 2 ^ j < 2 ^ k.
Proof. intros L. apply Nat.div_lt_upper_bound; [apply Nat.pow_nonzero; lia|]. now rewrite <- Nat.pow_add_r. Qed.

(** Pairs (v[2i], v[2i+1]) *)
Lemma row2 {A} (v : list A) i d : 2 * i + 1 < length v ->
  row A {| width := 2; values := v |} i = Some [nth (2 * i) v d; nth (2 * i + 1) v d].
Proof.
  intros L. unfold row. cbn [width values]. rewrite (proj2 (Nat.leb_le _ _)) by lia. f_equal.
  replace (i * 2) with (2 * i) by lia. revert L. generalize (2 * i). clear i. intros n L.
  revert v L. induction n as [|n IH]; intros v L; destruct v as [|x v]; cbn in L; try lia.
  - destruct v as [|y v]; cbn in L; [lia|reflexivity].
  - cbn [skipn nth Nat.add]. apply IH. lia.
Qed.
Lemma height2 {A} (v : list A) k : length v = 2 ^ S k -> height A {| width := 2; values := v |} = 2 ^ k.
Proof.
  intros L. unfold height. cbn [width values Nat.eqb]. rewrite L, Nat.pow_succ_r', Nat.mul_comm. now apply Nat.div_mul.
Qed.
Lemma row_of2 {A} (v : list A) i d : 2 * i + 1 < length v ->
  row_of {| width := 2; values := v |} i = [nth (2 * i) v d; nth (2 * i + 1) v d].
Proof.
  intros L. pose proof (row2 v i d L) as R. unfold row in R. cbn [width values] in R.
  rewrite (proj2 (Nat.leb_le _ _)) in R by lia. injection R as R. exact R.
Qed.

Section Fold.
  Variable T : two_adic.
  Add Field TF : (fth T).
  Local Open Scope F_scope.
  Notation g := (@gen T).

  Lemma shifted_powers_nth (x s : T) n : forall i d, (i < n)%nat -> nth i (shifted_powers T x s n) d = s * x ^ i.
  Proof.
    revert s. induction n as [|n IH]; intros s i d L; [lia|]. cbn [shifted_powers].
    destruct i as [|i]; cbn [nth fpow]; [ring|]. rewrite IH by lia. ring.
  Qed.
  Lemma shifted_powers_length (x s : T) n : length (shifted_powers T x s n) = n.
  Proof. revert s. induction n as [|n IH]; intros s; cbn; [reflexivity|now rewrite IH]. Qed.

  Lemma map2_opt_map {A B C D} (f : A -> B -> option C) (a : D -> A) (b : D -> B) (c : D -> C) l :
    (forall i, In i l -> f (a i) (b i) = Some (c i)) -> map2_opt f (map a l) (map b l) = Some (map c l).
  Proof.
    induction l as [|i l IH]; intros E; [reflexivity|]. cbn. rewrite (E i (or_introl eq_refl)), IH; [reflexivity|].
    intros j Hj. apply E. now right.
  Qed.

  (** The point belonging to row i of a matrix with 2^k rows of two. *)
  Definition point (k i : nat) : T := g (S k) ^ reverse_bits_len i k.
  Lemma point_nz k i : (S k <= two_adicity T)%nat -> point k i <> 0.
  Proof. intros L. apply fpow_nz, gen_nz, L. Qed.
  (** the pair of values at x and -x, folded with beta *)
  Definition folded_pair (beta x a b : T) : T := (a + b) / 2 + beta * ((a - b) / (2 * x)).

  Lemma fold_matrix_ok v k beta : (S k <= two_adicity T)%nat -> length v = (2 ^ S k)%nat ->
    fold_matrix T beta {| width := 2; values := v |} =
    Some (map (fun i => folded_pair beta (point k i) (nth (2 * i)%nat v 0) (nth (2 * i + 1)%nat v 0)) (seq 0 (2 ^ k))).
  Proof.
    intros Lk Lv. unfold fold_matrix. rewrite (height2 v k Lv), log2_strict_pow.
    rewrite Nat.add_1_r, tag_some by exact Lk.
    rewrite !inverse_nz by (apply two_nz || apply gen_nz, Lk).
    rewrite (reverse_slice_ok _ k (0 : T)) by apply shifted_powers_length.
    unfold rows. rewrite (height2 v k Lv).
    apply map2_opt_map. intros i Hi. apply in_seq in Hi.
    rewrite (row2 v i (0 : T)) by (rewrite Lv, Nat.pow_succ_r'; lia).
    rewrite shifted_powers_nth by apply rbl_lt. cbn [fold_pair]. f_equal.
    rewrite fpow_inv by (apply gen_nz, Lk). fold (point k i). unfold folded_pair.
    field. split; first [apply two_nz | now apply point_nz].
  Qed.
  Lemma fold_even_odd_ok v k beta : (S k <= two_adicity T)%nat -> length v = (2 ^ S k)%nat ->
    fold_even_odd T v beta =
    Some (map (fun i => folded_pair beta (point k i) (nth (2 * i)%nat v 0) (nth (2 * i + 1)%nat v 0)) (seq 0 (2 ^ k))).
  Proof.
    intros Lk Lv. rewrite <- (fold_matrix_ok v k beta Lk Lv). unfold fold_even_odd, new2.
    rewrite (proj2 (Nat.eqb_eq _ _)) by (rewrite Lv, Nat.pow_succ_r', Nat.mul_comm; apply Nat.mod_mul; lia).
    reflexivity.
  Qed.
  Lemma fold_row_ok i k beta a b : (S k <= two_adicity T)%nat ->
    fold_row T i k beta [a; b] = Some (folded_pair beta (point k i) a b).
  Proof.
    intros Lk. unfold fold_row. rewrite !Nat.add_1_r, !tag_some by lia.
    change (gen (S k) ^ reverse_bits_len i k) with (point k i).
    rewrite (reverse_slice_ok _ 1 (0 : T)) by apply shifted_powers_length.
    change (seq 0 (2 ^ 1)) with [0%nat; 1%nat]. cbn [map]. change (reverse_bits_len 0 1) with 0%nat. change (reverse_bits_len 1 1) with 1%nat.
    rewrite !shifted_powers_nth by lia. rewrite fpow_1_r. cbn [fpow]. rewrite (gen_1 T) by lia.
    pose proof (two_nz T) as N2. pose proof (point_nz k i Lk) as Nx.
    replace (point k i * - (1) - point k i * 1) with (- (2 * point k i)) by ring.
    rewrite checked_div_nz by now apply fopp_nz, fmul_nz. cbn [option_map]. f_equal. unfold folded_pair.
    field. repeat split; first [exact Nx | exact N2 | exact (fopp_nz T _ (fmul_nz T _ _ N2 Nx))].
  Qed.

  (** ** Codewords *)
  Definition codeword (k : nat) (p : list T) : list T :=
    map (fun i => peval p (g k ^ reverse_bits_len i k)) (seq 0 (2 ^ k)).
  Lemma codeword_length k p : length (codeword k p) = (2 ^ k)%nat.
  Proof. unfold codeword. now rewrite map_length, seq_length. Qed.
  Lemma nth_map_seq {A} (f : nat -> A) n i d : (i < n)%nat -> nth i (map f (seq 0 n)) d = f i.
  Proof.
    intros L. rewrite nth_indep with (d' := f 0%nat) by now rewrite map_length, seq_length.
    rewrite map_nth. now rewrite seq_nth.
  Qed.
  Lemma codeword_nth k p i : (i < 2 ^ k)%nat -> nth i (codeword k p) 0 = peval p (g k ^ reverse_bits_len i k).
  Proof. intros L. unfold codeword. now rewrite nth_map_seq. Qed.
  Lemma point_even k i : g (S k) ^ reverse_bits_len (2 * i) (S k) = point k i.
  Proof. now rewrite rbl_double. Qed.
  Lemma point_odd k i : (S k <= two_adicity T)%nat -> g (S k) ^ reverse_bits_len (2 * i + 1) (S k) = - point k i.
  Proof. intros L. rewrite rbl_double1, fpow_add, gen_half by exact L. fold (point k i). ring. Qed.
  Lemma point_sq k i : (S k <= two_adicity T)%nat -> point k i * point k i = g k ^ reverse_bits_len i k.
  Proof. intros L. unfold point. rewrite <- fpow_mul_l, gen_sq by lia. reflexivity. Qed.

  Definition pfold (beta : T) (p : list T) : list T := padd (evens p) (pscale beta (odds p)).
  Lemma folded_codeword k p beta : (S k <= two_adicity T)%nat ->
    map (fun i => folded_pair beta (point k i) (nth (2 * i)%nat (codeword (S k) p) 0)
                                               (nth (2 * i + 1)%nat (codeword (S k) p) 0)) (seq 0 (2 ^ k)) =
    codeword k (pfold beta p).
  Proof.
    intros L. apply map_ext_in. intros i Hi. apply in_seq in Hi.
    rewrite !codeword_nth by (rewrite Nat.pow_succ_r'; lia).
    rewrite point_even, point_odd by exact L.
    rewrite (peval_even_odd T p (point k i)), (peval_even_odd T p (- point k i)).
    replace (- point k i * - point k i) with (point k i * point k i) by ring.
    rewrite point_sq by exact L. unfold pfold. rewrite peval_padd, peval_pscale. unfold folded_pair.
    field. split; first [apply two_nz | now apply point_nz].
  Qed.
  Lemma pfold_length beta p n : (length p <= 2 * n)%nat -> (length (pfold beta p) <= n)%nat.
  Proof.
    intros L. unfold pfold. rewrite padd_length, pscale_length, evens_length, odds_length.
    apply Nat.max_lub.
    - enough ((length p + 1) / 2 < S n)%nat by lia. apply Nat.div_lt_upper_bound; lia.
    - apply Nat.div_le_upper_bound; lia.
  Qed.
End Fold.
