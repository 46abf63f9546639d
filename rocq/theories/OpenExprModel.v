(** The reduced openings as expressions: the closure of TwoAdicFriPcs::generate_verify_expr,
    fri/src/two_adic_pcs.rs 591-669.

    Val is BabyBear and Challenge its extension of degree 4, the only pair the code is used
    with.  Panics are [None] of [builder]; the error of verify_batch is [Err]. *)
From Coq Require Import ZArith List Bool Arith.
From Verif Require Import Field BabyBear TcsModel FriModel PcsModel DslModel DslOpSpec DslBuild DslManager FriExprModel.
Import ListNotations.
Local Open Scope nat_scope.

(** reduced_openings_expr, a BTreeMap: ascending keys; log_height -> (alpha_pow, ro) *)
(** fri/src/two_adic_pcs.rs 594-595 *)
Definition ro_emap : Type := list (nat * (expr * expr)).
(** BTreeMap::entry on the map of fri/src/two_adic_pcs.rs 594-595 *)
Fixpoint entry_expr (k : nat) (l : ro_emap) : option (expr * expr) :=
  match l with [] => None | (k', e) :: l => if k =? k' then Some e else entry_expr k l end.
(** BTreeMap::entry on the map of fri/src/two_adic_pcs.rs 594-595 *)
Fixpoint put_expr (k : nat) (e : expr * expr) (l : ro_emap) : ro_emap :=
  match l with
  | [] => [(k, e)]
  | (k', e') :: r => if k <? k' then (k, e) :: l else if k =? k' then (k, e) :: r else (k', e') :: put_expr k e r
  end.

Section OpenExpr.
  (** The value put in for the inverse of a field element.  The code puts in
      Field::inverse; it is an input of the script, so a prover may put in
      something else. *)
  Variable inv : ExtT -> option ExtT.
  Variable M0 : mmcs BabyBearT.
  Variable config : fri_config.
  Variable alpha : ExtT.

  (** 636-654 *)
  Fixpoint acc_loop (alpha_pow acc : expr) (at_x : list BabyBearT) (at_z : list ExtT) (m : manager) : builder ((expr * expr) * manager) :=
    match at_x, at_z with
    | p :: at_x, y :: at_z =>
        do a <- assign_input_var (f_words bf_ext4 (fopp y)) m;
        do b <- assign_input_var (f_words bf_base p) (snd a);
        do s <- binary_base Add true false (fst a) (fst b);
        do t <- mul alpha_pow s;
        do acc <- add acc t;
        do alpha_pow <- mul_f bf_ext4 alpha_pow alpha;
        acc_loop alpha_pow acc at_x at_z (snd b)
    | _, _ => ret ((alpha_pow, acc), m)
    end.
  (** 633-659 *)
  Fixpoint points_loop (x : BabyBearT) (at_x : list BabyBearT) (pts : list (ExtT * list ExtT)) (e : expr * expr) (m : manager) : builder ((expr * expr) * manager) :=
    match pts with
    | [] => ret (e, m)
    | (z, at_z) :: pts =>
        do acc <- const_f bf_ext4 f0;
        do r <- acc_loop (fst e) acc at_x at_z m;
        do i <- get (inv (fadd (fopp z) (from_base x)));
        do h <- assign_input_var (f_words bf_ext4 i) (snd r);
        do p <- mul (snd (fst r)) (fst h);
        do ro <- add (snd e) p;
        points_loop x at_x pts (fst (fst r), ro) (snd h)
    end.
  (** 617-660; the argument of or_insert is built in every case.  Val::generator() is 31. *)
  Fixpoint mats_loop (log_global index : nat) (opened : list (list BabyBearT)) (mats : list (coset BabyBearT * list (ExtT * list ExtT)))
    (l : ro_emap) (m : manager) : builder (ro_emap * manager) :=
    match opened, mats with
    | at_x :: opened, (domain, pts) :: mats =>
        let log_height := log_n domain + log_blowup config in
        if log_global <? log_height then panic else
        let rev := Field.reverse_bits_len (index / 2 ^ (log_global - log_height)) log_height in
        do g <- get (two_adic_generator BabyBearT log_height);
        do one <- const_f bf_ext4 f1;
        do zero <- const_f bf_ext4 f0;
        let e := match entry_expr log_height l with Some e => e | None => (one, zero) end in
        do r <- points_loop (fmul (of_Z 31 : BabyBearT) (fpow g rev)) at_x pts e m;
        mats_loop log_global index opened mats (put_expr log_height (fst r) l) (snd r)
    | _, _ => ret (l, m)
    end.
  (** 597-661; the heights are computed with << and are powers of two *)
  Fixpoint batches_loop (log_global query_times_index index : nat) (input_proof : list (list (list BabyBearT) * m_proof M0))
    (rounds : list (m_comm M0 * list (coset BabyBearT * list (ExtT * list ExtT)))) (l : ro_emap) (m : manager)
    : builder (outcome (m_err M0) ro_emap * manager) :=
    match input_proof, rounds with
    | (opened_values, opening_proof) :: input_proof, (commit, mats) :: rounds =>
        match mats with
        | [] => panic
        | _ =>
            if log_global <? fold_left (fun a (d : coset BabyBearT * list (ExtT * list ExtT)) => Nat.max a (log_n (fst d))) mats 0 + log_blowup config
            then panic else
            match m_verify_batch M0 query_times_index opened_values opening_proof commit with
            | Panic => panic
            | Err e => ret (Err e, m)
            | Ok _ =>
                do r <- mats_loop log_global index opened_values mats l m;
                batches_loop log_global query_times_index index input_proof rounds (fst r) (snd r)
            end
        end
    | _, _ => ret (Ok l, m)
    end.
  (** 591-669 *)
  Definition open_input_with (log_global : nat) (rounds : list (m_comm M0 * list (coset BabyBearT * list (ExtT * list ExtT))))
    (query_times_index index : nat) (input_proof : list (list (list BabyBearT) * m_proof M0)) (m : manager)
    : builder (outcome (m_err M0) (list (nat * expr)) * manager) :=
    do r <- batches_loop log_global query_times_index index input_proof rounds [] m;
    match fst r with
    | Ok l => ret (Ok (map (fun p => (fst p, snd (snd p))) (rev l)), snd r)
    | Err e => ret (Err e, snd r)
    | Panic => panic
    end.
End OpenExpr.
(** what the code builds *)
(** fri/src/two_adic_pcs.rs 591-669 *)
Definition open_input_expr : forall (M0 : mmcs BabyBearT), fri_config -> ExtT -> _ := open_input_with (@inverse ExtT).
