(** The quotient and the selectors as expressions: compute_quotient_expr of
    uni-stark/src/scripts/bf_unistark.rs, get_table of uni-stark/src/scripts/utils.rs and
    selectors_at_point_expr of script_expr/src/lagrange.rs.

    Val is BabyBear ([bf_base], U32_SIZE 1) and Challenge its extension of degree 4
    ([bf_ext4], U32_SIZE 4), the only pair for which the code is used.  Panics are [None]. *)
From Coq Require Import ZArith List Bool Arith.
From Verif Require Import Field BabyBear DslModel DslOpSpec DslBuild DslManager FriExprModel.
Import ListNotations.
Local Open Scope nat_scope.

Fixpoint all_some {A} (l : list (option A)) : option (list A) :=
  match l with
  | [] => Some []
  | Some a :: r => option_map (cons a) (all_some r)
  | None :: _ => None
  end.
(** utils.rs 86-95 *)
Definition get_table {K : field} (g : K) (n : nat) : option (list K) :=
  option_map (app (map (fpow g) (rev (seq 0 n)))) (all_some (map (fun i => inverse (fpow g i)) (seq 1 (n - 1)))).

(** Challenge::monomial(j), the basis of the extension *)
(** called at uni-stark/src/scripts/bf_unistark.rs 93 and verifier.rs 129 *)
Definition monomial (j : nat) : BB4 :=
  ext (if j =? 0 then f1 else f0) (if j =? 1 then f1 else f0) (if j =? 2 then f1 else f0) (if j =? 3 then f1 else f0).

(** several inputs or hints *)
(** uni-stark/src/script_verifier.rs 157-186 *)
Fixpoint assign_all (assign : list Z -> manager -> builder (expr * manager)) (vs : list (list Z)) (m : manager) : builder (list expr * manager) :=
  match vs with
  | [] => ret ([], m)
  | v :: vs => do e <- assign v m; do r <- assign_all assign vs (snd e); ret (fst e :: fst r, snd r)
  end.
(** uni-stark/src/script_verifier.rs 157-186 *)
Fixpoint assign_rows (vs : list (list BB4)) (m : manager) : builder (list (list expr) * manager) :=
  match vs with
  | [] => ret ([], m)
  | v :: vs => do e <- assign_all assign_input_var (map (f_words bf_ext4) v) m; do r <- assign_rows vs (snd e); ret (fst e :: fst r, snd r)
  end.

Section Quotient.
  Variables (trace_degree n : nat).
  (** bf_unistark.rs 51-62, the inner loop; [sub_ext] and [mul_ext] are called on
      expressions of type Dsl<Challenge> *)
  Fixpoint numerator_loop (table zeta_div_a : expr) (i : nat) (js : list nat) (acc : expr) : builder expr :=
    match js with
    | [] => ret acc
    | j :: js =>
        if j =? i then numerator_loop table zeta_div_a i js acc else
        do w_j <- lookup false table (Z.of_nat (n - 1 - j)) (2 * n - 1);
        do zw <- binary_ext Mul false true w_j zeta_div_a;
        do p <- exp_constant true zw trace_degree;
        do one <- const_f bf_ext4 f1;
        do p1 <- binary_ext Sub true true p one;
        do acc <- binary_ext Mul true true acc p1;
        numerator_loop table zeta_div_a i js acc
    end.
  (** 49-64 *)
  Fixpoint numerators (table zeta_div_a : expr) (is : list nat) : builder (list expr) :=
    match is with
    | [] => ret []
    | i :: is => do one <- const_f bf_ext4 f1; do e <- numerator_loop table zeta_div_a i (seq 0 n) one;
                 do r <- numerators table zeta_div_a is; ret (e :: r)
    end.
  (** 68-78; [sub_base] and [mul_base] are called on expressions of type Dsl<Val> *)
  Fixpoint denominator_loop (table : expr) (i : nat) (js : list nat) (acc : expr) : builder expr :=
    match js with
    | [] => ret acc
    | j :: js =>
        if j =? i then denominator_loop table i js acc else
        do w_j <- lookup false table (Z.of_nat (i + n - 1 - j)) (2 * n - 1);
        do p <- exp_constant false w_j trace_degree;
        do one <- const_f bf_base f1;
        do p1 <- binary_base Sub false false p one;
        do acc <- binary_base Mul false false acc p1;
        denominator_loop table i js acc
    end.
  (** 66-86 *)
  Fixpoint denominators (table : expr) (is : list nat) (inverses : list expr) (m : manager) : builder (unit * manager) :=
    match is with
    | [] => ret (tt, m)
    | i :: is =>
        do one <- const_f bf_base f1; do d <- denominator_loop table i (seq 0 n) one;
        do inv <- get (nth_error inverses i);
        do p <- mul d inv; do c <- const_f bf_base f1; do v <- equal p c;
        denominators table is inverses (add_hint_verify v m)
    end.
  (** 92-94 *)
  Fixpoint chunk_loop (vals : list expr) (js : list nat) (acc : expr) : builder expr :=
    match js with
    | [] => ret acc
    | j :: js => do v <- get (nth_error vals j); do c <- const_f bf_ext4 (monomial j); do p <- mul v c; do acc <- add acc p; chunk_loop vals js acc
    end.
  (** 88-96 *)
  Fixpoint quotient_loop (open_values : list (list expr)) (inverses nums : list expr) (is : list nat) (acc : expr) : builder expr :=
    match is with
    | [] => ret acc
    | i :: is =>
        do inv <- get (nth_error inverses i); do num <- get (nth_error nums i);
        do zps_i <- binary_ext Mul false true inv num;
        do z <- const_f bf_ext4 f0;
        do vals <- get (nth_error open_values i);
        do a <- chunk_loop vals (seq 0 4) z;
        do p <- mul a zps_i; do acc <- add acc p;
        quotient_loop open_values inverses nums is acc
    end.
End Quotient.
(** bf_unistark.rs 10-99; 64944062 is the inverse of the generator 31 *)
Definition compute_quotient_expr (zeta : expr) (trace_degree : nat) (generator : BabyBear) (n : nat) (open_values : list (list BB4))
  (denominator_inverse : list BabyBear) (quotient_res : BB4) (m : manager) : builder (unit * manager) :=
  run check (length open_values =? n); run check (length denominator_inverse =? n);
  do vs <- assign_rows open_values m;
  do hs <- assign_all assign_input_hint (map (f_words bf_base) denominator_inverse) (snd vs);
  do inverse_a <- const_f bf_base (of_Z 64944062);
  do zeta_div_a <- binary_ext Mul false true inverse_a zeta;
  do t <- get (get_table generator n);
  do table <- from_table false (map from_base t);
  do nums <- numerators trace_degree n table zeta_div_a (seq 0 n);
  do u <- denominators trace_degree n table (seq 0 n) (fst hs) (snd hs);
  do z <- const_f bf_ext4 f0;
  do q <- quotient_loop (fst vs) (fst hs) nums (seq 0 n) z;
  do c <- const_f bf_ext4 quotient_res;
  do e <- equal q c;
  ret (tt, set_exec_dsl e (snd u)).

(** lagrange.rs 14-40.  [2 ^ log_n as u32] is exclusive or in Rust. *)
Record selectors_expr := mk_sels { se_first : expr; se_last : expr; se_transition : expr; se_zh : expr }.
Definition selectors_at_point_expr (shift : BabyBear) (point : BB4) (log_n : nat) : builder selectors_expr :=
  do si <- get (inverse shift);
  let unshifted_point := fmul point (from_base si) in
  run const_f bf_ext4 f0;
  do u <- (if feqb shift f1 then const_f bf_ext4 unshifted_point
           else do p <- const_f bf_ext4 point; do si' <- get (inverse shift); do c <- const_f bf_base si'; binary_base Mul true false p c);
  let z_h := fsub (fpow unshifted_point (2 ^ log_n)) f1 in
  do z_h_expr <- exp_constant true u (Nat.lxor 2 log_n);
  do a <- get (checked_div z_h (fsub unshifted_point f1));
  do first <- const_f bf_ext4 a;
  do g <- get (two_adic_generator BabyBearT log_n);
  do gi <- get (inverse g);
  do b <- get (checked_div z_h (fsub unshifted_point (from_base gi)));
  do last <- const_f bf_ext4 b;
  do c <- const_f bf_base gi;
  do tr <- binary_base Sub true false u c;
  ret (mk_sels first last tr z_h_expr).
