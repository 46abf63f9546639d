(** uni-stark/src/{symbolic_variable,symbolic_expression,symbolic_builder,folder,check_constraints,
    zerofier_coset,prover,verifier,proof}.rs, function by function.

    The domains (p3_commit TwoAdicMultiplicativeCoset), rows (p3_matrix) and the trait AirBuilder
    (p3_air) come from external crates; the operations used are modelled next to their first use.
    Panics are [None] or [Panic].  [PackedVal] has one lane. *)
From Coq Require Import List Arith Bool Lia.
From Verif Require Import Field TcsModel PropTcs FriModel PcsModel.
Import ListNotations.

(** ** AIRs *)

Section Air.
  Variable V : field.

  (** What the body of Air::eval can build from builder.main().row_slice(0/1), public_values(),
      is_first_row(), is_last_row(), is_transition() and constants, for any builder. *)
  (** the argument of uni-stark/src/folder.rs 60 and 101 *)
  Inductive expr : Type :=
  | Local (i : nat) | Next (i : nat) | Pub (i : nat)
  | IsFirstRow | IsLastRow | IsTransition
  | Const (c : V)
  | Add (x y : expr) | Sub (x y : expr) | Neg (x : expr) | Mul (x y : expr).
  (** The calls on the builder, in order.  when(c).assert_zero(x) of FilteredAirBuilder is
      assert_zero(c * x) and its assert_eq(x, y) is assert_zero(c * (x - y)). *)
  (** uni-stark/src/folder.rs 60-65, 101-106; check_constraints.rs 82-103 *)
  Inductive assertion : Type := AssertZero (x : expr) | AssertEq (x y : expr).
  (** BaseAir::width and Air::eval *)
  (** called at uni-stark/src/symbolic_builder.rs 61-63 *)
  Record air := { air_width : nat; air_eval : list assertion }.
  (** AirBuilder::assert_eq, the default implementation: assert_zero(x - y) *)
  (** used with uni-stark/src/folder.rs 60-65, 101-106 *)
  Definition as_zero (a : assertion) : expr := match a with AssertZero x => x | AssertEq x y => Sub x y end.

  (** ** symbolic_variable.rs 8-43 *)
  Inductive entry : Type :=
  | Preprocessed (offset : nat) | Main (offset : nat) | Permutation (offset : nat) | Public | Challenge.
  Definition var_degree_multiple (e : entry) : nat :=
    match e with Preprocessed _ | Main _ | Permutation _ => 1 | Public | Challenge => 0 end.

  (** symbolic_expression.rs 12-37; every operation node stores its degree_multiple *)
  Inductive symbolic : Type :=
  | SVariable (e : entry) (index : nat)
  | SIsFirstRow | SIsLastRow | SIsTransition
  | SConstant (c : V)
  | SAdd (x y : symbolic) (degree : nat) | SSub (x y : symbolic) (degree : nat)
  | SNeg (x : symbolic) (degree : nat) | SMul (x y : symbolic) (degree : nat).
  (** symbolic_expression.rs 41-62 *)
  Definition degree_multiple (s : symbolic) : nat :=
    match s with
    | SVariable e _ => var_degree_multiple e
    | SIsFirstRow => 1
    | SIsLastRow => 1
    | SIsTransition => 0
    | SConstant _ => 0
    | SAdd _ _ d => d
    | SSub _ _ d => d
    | SNeg _ d => d
    | SMul _ _ d => d
    end.
  (** symbolic_expression.rs 132-143, 176-187, 204-214, 216-228 *)
  Definition s_add (x y : symbolic) : symbolic := SAdd x y (Nat.max (degree_multiple x) (degree_multiple y)).
  Definition s_sub (x y : symbolic) : symbolic := SSub x y (Nat.max (degree_multiple x) (degree_multiple y)).
  Definition s_neg (x : symbolic) : symbolic := SNeg x (degree_multiple x).
  Definition s_mul (x y : symbolic) : symbolic := SMul x y (degree_multiple x + degree_multiple y).

  Definition opt2 {A B C} (f : A -> B -> C) (a : option A) (b : option B) : option C :=
    match a, b with Some a, Some b => Some (f a b) | _, _ => None end.

  (** symbolic_builder.rs 65-148: an expression over the builder with [width] columns and [np] public
      values; indexing past the end of a row or of the public values panics.  symbolic_variable.rs
      45-142 converts variables to expressions and then applies the operators above. *)
  Fixpoint symbolic_of (width np : nat) (e : expr) : option symbolic :=
    match e with
    | Local i => if (i <? width)%nat then Some (SVariable (Main 0) i) else None
    | Next i => if (i <? width)%nat then Some (SVariable (Main 1) i) else None
    | Pub i => if (i <? np)%nat then Some (SVariable Public i) else None
    | IsFirstRow => Some SIsFirstRow
    | IsLastRow => Some SIsLastRow
    | IsTransition => Some SIsTransition
    | Const c => Some (SConstant c)
    | Add x y => opt2 s_add (symbolic_of width np x) (symbolic_of width np y)
    | Sub x y => opt2 s_sub (symbolic_of width np x) (symbolic_of width np y)
    | Neg x => option_map s_neg (symbolic_of width np x)
    | Mul x y => opt2 s_mul (symbolic_of width np x) (symbolic_of width np y)
    end.
  (** symbolic_builder.rs 50-63 *)
  Definition get_symbolic_constraints (a : air) (np : nat) : option (list symbolic) :=
    traverse (fun c => symbolic_of (air_width a) np (as_zero c)) (air_eval a).
  (** symbolic_builder.rs 33-48 *)
  Definition get_max_constraint_degree (a : air) (np : nat) : option nat :=
    option_map (fun l => fold_right (fun s m => Nat.max (degree_multiple s) m) 0 l) (get_symbolic_constraints a np).
  (** symbolic_builder.rs 13-31 *)
  Definition get_log_quotient_degree (a : air) (np : nat) : option nat :=
    option_map (fun d => log2_ceil (Nat.max d 2 - 1)) (get_max_constraint_degree a np).

  (** ** Evaluation on concrete builders *)
  Section Eval.
    Variable K : field.
    (** Into<Expr> for constants and public values *)
    Variable const : V -> K.
    (** uni-stark/src/folder.rs 10-30; check_constraints.rs 42-51 *)
    Record window := { w_local : list K; w_next : list K; w_public : list V;
                       w_first : K; w_last : K; w_transition : K }.
    Local Open Scope F_scope.
    (** the operators of the builders at uni-stark/src/folder.rs 33-114; check_constraints.rs 53-108 *)
    Fixpoint eval (w : window) (e : expr) : option K :=
      match e with
      | Local i => nth_error (w_local w) i
      | Next i => nth_error (w_next w) i
      | Pub i => option_map const (nth_error (w_public w) i)
      | IsFirstRow => Some (w_first w)
      | IsLastRow => Some (w_last w)
      | IsTransition => Some (w_transition w)
      | Const c => Some (const c)
      | Add x y => opt2 fadd (eval w x) (eval w y)
      | Sub x y => opt2 fsub (eval w x) (eval w y)
      | Neg x => option_map fopp (eval w x)
      | Mul x y => opt2 fmul (eval w x) (eval w y)
      end.
    (** folder.rs 59-63 and 99-103: accumulator *= alpha; accumulator += x *)
    Variable T : field.
    Variable into : K -> T.
    Fixpoint fold_constraints (alpha : T) (w : window) (acc : T) (l : list assertion) : option T :=
      match l with
      | [] => Some acc
      | a :: l => match eval w (as_zero a) with
                  | None => None
                  | Some x => fold_constraints alpha w (acc * alpha + into x) l
                  end
      end.
  End Eval.

  (** script_expr/src/script_builder.rs 84-90 get_accmulator_expr, with 184-187 assert_zero collecting the
      constraints; every Dsl expression is represented by the field element it denotes.
      self.constraints[0] panics without constraints. *)
  Definition get_accmulator_expr {T : field} (alpha : T) (constraints : list T) : option T :=
    match constraints with
    | [] => None
    | c :: cs => Some (fold_left (fun acc x => fadd (fmul acc alpha) x) cs c)
    end.

  (** ** check_constraints.rs *)
  Local Open Scope F_scope.
  (** check_constraints.rs 82-100: does the assertion hold ([false]: assert_eq! or an index panics) *)
  Definition debug_assert (w : window V) (a : assertion) : bool :=
    match a with
    | AssertZero x => match eval V (fun c => c) w x with Some v => feqb v 0 | None => false end
    | AssertEq x y => match eval V (fun c => c) w x, eval V (fun c => c) w y with Some v, Some v' => feqb v v' | _, _ => false end
    end.
  Definition from_bool (b : bool) : V := if b then 1 else 0.
  (** check_constraints.rs 11-38; [true]: it returns, [false]: it panics *)
  Definition check_constraints (a : air) (main : matrix V) (public_values : list V) : bool :=
    let h := height V main in
    forallb (fun i =>
      let i_next := ((i + 1) mod h)%nat in
      match row V main i, row V main i_next with
      | Some local, Some next =>
          forallb (debug_assert
            {| w_local := local; w_next := next; w_public := public_values;
               w_first := from_bool (i =? 0)%nat; w_last := from_bool (i =? h - 1)%nat;
               w_transition := from_bool (negb (i =? h - 1)%nat) |}) (air_eval a)
      | _, _ => false
      end) (seq 0 h).
End Air.
Arguments Local {_}. Arguments Next {_}. Arguments Pub {_}. Arguments IsFirstRow {_}. Arguments IsLastRow {_}. Arguments IsTransition {_}.
Arguments Const {_}. Arguments Add {_}. Arguments Sub {_}. Arguments Neg {_}. Arguments Mul {_}.
Arguments AssertZero {_}. Arguments AssertEq {_}. Arguments air_width {_}. Arguments air_eval {_}.
Arguments w_local {_ _}. Arguments w_next {_ _}. Arguments w_public {_ _}. Arguments w_first {_ _}. Arguments w_last {_ _}. Arguments w_transition {_ _}.
Arguments as_zero {_}. Arguments eval {_ _}. Arguments fold_constraints {_ _} _ {_}.

(** ** zerofier_coset.rs *)
Section Zerofier.
  Variable F : two_adic.
  Local Open Scope F_scope.
  (** Iterator::collect of fallible items: batch_multiplicative_inverse panics on a zero *)
  (** called at uni-stark/src/zerofier_coset.rs 30, 74 *)
  Definition batch_inverse (l : list F) : option (list F) := traverse inverse l.
  (** zerofier_coset.rs 9-22 *)
  Record zerofier := { zf_log_n : nat; zf_rate_bits : nat; zf_coset_shift : F; zf_evals : list F; zf_inverses : list F }.
  (** zerofier_coset.rs 25-41; exp_power_of_2(k) squares k times *)
  Definition zerofier_new (log_n rate_bits : nat) (coset_shift : F) : option zerofier :=
    let s_pow_n := coset_shift ^ (2 ^ log_n) in
    match two_adic_generator F rate_bits with
    | None => None
    | Some v =>
        let evals := map (fun x => s_pow_n * x - 1) (shifted_powers F v 1 (2 ^ rate_bits)) in
        option_map (fun inverses => {| zf_log_n := log_n; zf_rate_bits := rate_bits; zf_coset_shift := coset_shift;
                                       zf_evals := evals; zf_inverses := inverses |}) (batch_inverse evals)
    end.
  (** zerofier_coset.rs 43-51; i & (2^k - 1) is i mod 2^k *)
  Definition zerofier_eval (z : zerofier) (i : nat) : option F := nth_error (zf_evals z) (i mod 2 ^ zf_rate_bits z).
  Definition zerofier_eval_inverse (z : zerofier) (i : nat) : option F := nth_error (zf_inverses z) (i mod 2 ^ zf_rate_bits z).
  (** a.iter().cycle().zip(b).map(|(a, b)| a * b), [rest] being what is left of the current cycle *)
  (** uni-stark/src/zerofier_coset.rs 78 *)
  Fixpoint cycle_mul (all rest b : list F) : list F :=
    match b with
    | [] => []
    | y :: b => match rest with
                | x :: rest => x * y :: cycle_mul all rest b
                | [] => match all with
                        | x :: rest => x * y :: cycle_mul all rest b
                        | [] => []
                        end
                end
    end.
  (** zerofier_coset.rs 64-82 *)
  Definition lagrange_basis_unnormalized (z : zerofier) (i : nat) : option (list F) :=
    let log_coset_size := (zf_log_n z + zf_rate_bits z)%nat in
    match two_adic_generator F (zf_log_n z), two_adic_generator F log_coset_size with
    | Some g_h, Some g_k =>
        let target_point := g_h ^ i in
        let denominators := map (fun x => x - target_point) (shifted_powers F g_k (zf_coset_shift z) (2 ^ log_coset_size)) in
        option_map (cycle_mul (zf_evals z) (zf_evals z)) (batch_inverse denominators)
    | _, _ => None
    end.
End Zerofier.

(** ** prove and verify *)
Section Stark.
  Variables V T : two_adic.
  Variable from_base : V -> T.
  (** AbstractExtensionField: D, as_base_slice and monomial *)
  Variable D : nat.
  Variable as_base_slice : T -> list V.
  Variable monomial : nat -> T.
  Variable generator : V.
  Variable M0 : mmcs V.
  Variable M : mmcs T.
  Variable Ch : challenger (m_comm M) T.
  (** CanObserve for the commitments of the trace and of the quotient *)
  Variable observe : c_state Ch -> m_comm M0 -> option (c_state Ch).
  Variable config : fri_config.
  Variable coset_lde_batch : matrix V -> nat -> V -> option (matrix V).
  Variable interpolate_coset : matrix V -> V -> T -> option (list T).
  (** cfg(debug_assertions), also the switch for overflow checks *)
  Variable debug : bool.
  Local Open Scope F_scope.

  (** *** p3_commit: impl PolynomialSpace for TwoAdicMultiplicativeCoset *)
  (** used by the functions called at uni-stark/src/prover.rs 66, 92, 137 *)
  Definition coset_gen (d : coset V) : option V := two_adic_generator V (log_n d).
  (** called at uni-stark/src/prover.rs 66 and verifier.rs 46 *)
  Definition create_disjoint_domain (d : coset V) (min_size : nat) : coset V :=
    {| log_n := log2_ceil min_size; shift := shift d * generator |}.
  (** log_n - log_chunks underflows for more chunks than points *)
  (** called at uni-stark/src/prover.rs 80 and verifier.rs 47 *)
  Definition split_domains (d : coset V) (num_chunks : nat) : option (list (coset V)) :=
    match log2_strict num_chunks, coset_gen d with
    | Some log_chunks, Some g =>
        if (log_n d <? log_chunks)%nat then None
        else Some (map (fun i => {| log_n := log_n d - log_chunks; shift := shift d * g ^ i |}) (seq 0 num_chunks))
    | _, _ => None
    end.
  (** vertically_strided(num_chunks, i) for every i *)
  (** called at uni-stark/src/prover.rs 79 *)
  Definition split_evals (num_chunks : nat) (m : matrix V) : list (matrix V) :=
    map (fun i => {| width := width V m;
                     values := flat_map (fun j => row_of m (i + j * num_chunks)) (seq 0 (height V m / num_chunks)) |})
      (seq 0 num_chunks).
  (** called at uni-stark/src/prover.rs 92 and verifier.rs 75 *)
  Definition next_point (d : coset V) (x : T) : option T := option_map (fun g => x * from_base g) (coset_gen d).
  (** zp_at_point for a point of the extension and of the base field *)
  (** called at uni-stark/src/verifier.rs 112-114 *)
  Definition zp_at_point (d : coset V) (x : T) : option T :=
    option_map (fun s => (x * from_base s) ^ (2 ^ log_n d) - 1) (inverse (shift d)).
  (** called at uni-stark/src/verifier.rs 112-114 *)
  Definition zp_at_base (d : coset V) (x : V) : option V :=
    option_map (fun s => (x * s) ^ (2 ^ log_n d) - 1) (inverse (shift d)).
  (** p3_commit LagrangeSelectors (external), uni-stark/src/verifier.rs 136 *)
  Record selectors (K : Type) := { is_first_row : K; is_last_row : K; is_transition : K; inv_zeroifier : K }.
  Arguments is_first_row {_}. Arguments is_last_row {_}. Arguments is_transition {_}. Arguments inv_zeroifier {_}.
  (** called at uni-stark/src/verifier.rs 136 *)
  Definition selectors_at_point (d : coset V) (point : T) : option (selectors T) :=
    match inverse (shift d), coset_gen d with
    | Some s, Some g =>
        match inverse g with
        | None => None
        | Some g_inv =>
            let unshifted_point := point * from_base s in
            let z_h := unshifted_point ^ (2 ^ log_n d) - 1 in
            match checked_div z_h (unshifted_point - 1), checked_div z_h (unshifted_point - from_base g_inv), inverse z_h with
            | Some a, Some b, Some c =>
                Some {| is_first_row := a; is_last_row := b; is_transition := unshifted_point - from_base g_inv; inv_zeroifier := c |}
            | _, _, _ => None
            end
        end
    | _, _ => None
    end.
  (** cycle().take(n) *)
  (** in selectors_on_coset, called at uni-stark/src/prover.rs 137 *)
  Definition cycle_take (l : list V) (n : nat) : list V := map (fun i => nth (i mod length l) l 0) (seq 0 n).
  (** called at uni-stark/src/prover.rs 137 *)
  Definition selectors_on_coset (d coset : coset V) : option (selectors (list V)) :=
    if negb (feqb (shift d) 1) || feqb (shift coset) 1 || (log_n coset <? log_n d)%nat then None else
    match zerofier_new V (log_n d) (log_n coset - log_n d) (shift coset), coset_gen d, coset_gen coset with
    | Some z, Some g, Some g_k =>
        match lagrange_basis_unnormalized V z 0, lagrange_basis_unnormalized V z (2 ^ log_n d - 1), inverse g with
        | Some first, Some last, Some subgroup_last =>
            Some {| is_first_row := first; is_last_row := last;
                    is_transition := map (fun x => x - subgroup_last) (shifted_powers V g_k (shift coset) (2 ^ log_n coset));
                    inv_zeroifier := cycle_take (zf_inverses V z) (2 ^ log_n coset) |}
        | _, _, _ => None
        end
    | _, _, _ => None
    end.

  (** *** prover.rs *)

  (** prover.rs 118-194 quotient_values; vertically_packed_row wraps around the height *)
  Definition quotient_values (a : air V) (public_values : list V) (trace_domain quotient_domain : coset V)
    (trace_on_quotient_domain : matrix V) (alpha : T) : option (list T) :=
    match selectors_on_coset trace_domain quotient_domain with
    | None => None
    | Some sels =>
        let quotient_size := coset_size quotient_domain in
        let next_step := (2 ^ (log_n quotient_domain - log_n trace_domain))%nat in
        traverse (fun i =>
          match nth_error (is_first_row sels) i, nth_error (is_last_row sels) i,
                nth_error (is_transition sels) i, nth_error (inv_zeroifier sels) i with
          | Some first, Some last, Some transition, Some inv =>
              let h := height V trace_on_quotient_domain in
              option_map (fun acc => acc * from_base inv)
                (fold_constraints (fun c => c) from_base alpha
                   {| w_local := row_of trace_on_quotient_domain (i mod h);
                      w_next := row_of trace_on_quotient_domain ((i + next_step) mod h);
                      w_public := public_values; w_first := first; w_last := last; w_transition := transition |}
                   0 (air_eval a))
          | _, _, _, _ => None
          end) (seq 0 quotient_size)
    end.
  (** p3_matrix flatten_to_base of a single column *)
  (** called at uni-stark/src/prover.rs 78 *)
  Definition flatten_to_base (l : list T) : matrix V := {| width := D; values := flat_map as_base_slice l |}.

  (** proof.rs 16-37 *)
  Record proof := { p_trace : m_comm M0; p_quotient : m_comm M0;
                    p_local : list T; p_next : list T; p_chunks : list (list T);
                    p_opening : fri_proof T M Ch (list (batch_opening V M0)); p_degree_bits : nat }.

  (** The transcript of prover.rs 67-93 and verifier.rs 69-75. *)
  Definition transcript (ch : c_state Ch) (trace quotient : m_comm M0) (alpha zeta : T) (ch' : c_state Ch) : Prop :=
    exists ch1 ch2 ch3,
      observe ch trace = Some ch1 /\ c_sample Ch ch1 = Some (alpha, ch2) /\
      observe ch2 quotient = Some ch3 /\ c_sample Ch ch3 = Some (zeta, ch').

  (** prover.rs 23-116; the challenger's grind makes it a relation *)
  Definition prove (a : air V) (st0 : m_state M0) (st : m_state M) (ch : c_state Ch) (trace : matrix V) (public_values : list V)
    (pf : proof) (ch' : c_state Ch) : Prop :=
    (debug = true -> check_constraints V a trace public_values = true) /\
    exists lqd trace_domain trace_data st1 trace_on_quotient_domain alpha values qc_domains quotient_data st2 zeta zeta_next ch1
           local next chunks st',
      log2_strict (height V trace) = Some (p_degree_bits pf) /\
      get_log_quotient_degree V a (length public_values) = Some lqd /\
      natural_domain_for_degree V (height V trace) = Some trace_domain /\
      pcs_commit V generator M0 config coset_lde_batch st0 [(trace_domain, trace)] = Some (p_trace pf, trace_data, st1) /\
      transcript ch (p_trace pf) (p_quotient pf) alpha zeta ch1 /\
      let quotient_domain := create_disjoint_domain trace_domain (2 ^ (p_degree_bits pf + lqd)) in
      get_evaluations_on_domain V generator M0 trace_data 0 quotient_domain = Some trace_on_quotient_domain /\
      quotient_values a public_values trace_domain quotient_domain trace_on_quotient_domain alpha = Some values /\
      split_domains quotient_domain (2 ^ lqd) = Some qc_domains /\
      pcs_commit V generator M0 config coset_lde_batch st1 (List.combine qc_domains (split_evals (2 ^ lqd) (flatten_to_base values)))
        = Some (p_quotient pf, quotient_data, st2) /\
      next_point trace_domain zeta = Some zeta_next /\
      pcs_open V T from_base generator M0 M Ch config interpolate_coset
        [(trace_data, [[zeta; zeta_next]]); (quotient_data, repeat [zeta] (2 ^ lqd))] st ch1
        [[[local; next]]; chunks] (p_opening pf) st' ch' /\
      p_local pf = local /\ p_next pf = next /\
      traverse (fun v => nth_error v 0) chunks = Some (p_chunks pf).

  (** *** verifier.rs *)

  (** verifier.rs 163-171 *)
  Inductive stark_error : Type :=
  | StarkInvalidProofShape | InvalidOpeningArgument (e : fri_error (m_err M) (m_err M0)) | OodEvaluationMismatch.

  (** 1 << n on usize: overflow checks panic, otherwise the shift amount is taken modulo 64 *)
  Definition shl1 (n : nat) : option nat := if debug && (64 <=? n)%nat then None else Some (2 ^ (n mod 64))%nat.

  (** verifier.rs 102-118, one chunk *)
  Definition zps_of (zeta : T) (domains : list (coset V)) (i : nat) (domain : coset V) : option T :=
    fold_left (fun acc jd =>
      if (fst jd =? i)%nat then acc else
      match acc, zp_at_point (snd jd) zeta, zp_at_base (snd jd) (shift domain) with
      | Some acc, Some z, Some z0 => option_map (fun inv => acc * (z * from_base inv)) (inverse z0)
      | _, _, _ => None
      end) (List.combine (seq 0 (length domains)) domains) (Some 1).
  Definition zps (zeta : T) (domains : list (coset V)) : option (list T) :=
    traverse (fun id => zps_of zeta domains (fst id) (snd id)) (List.combine (seq 0 (length domains)) domains).
  (** verifier.rs 120-130; zps[ch_i] panics when there are more chunks than domains *)
  Fixpoint sum (l : list T) : T := match l with [] => 0 | x :: l => x + sum l end.
  Definition chunk_value (zp : T) (ch : list T) : T :=
    sum (map (fun ec => zp * monomial (fst ec) * snd ec) (List.combine (seq 0 (length ch)) ch)).
  Fixpoint quotient_at (zps : list T) (chunks : list (list T)) : option T :=
    match chunks, zps with
    | [], _ => Some 0
    | ch :: chunks, zp :: zps => option_map (fadd (chunk_value zp ch)) (quotient_at zps chunks)
    | _ :: _, [] => None
    end.
  (** verifier.rs 49-60 *)
  Definition valid_shape (a : air V) (quotient_degree : nat) (pf : proof) : bool :=
    (length (p_local pf) =? air_width a)%nat && (length (p_next pf) =? air_width a)%nat &&
    (length (p_chunks pf) =? quotient_degree)%nat && forallb (fun qc => (length qc =? D)%nat) (p_chunks pf).
  (** verifier.rs 135-158: the out-of-domain check *)
  Definition ood_check (a : air V) (public_values : list V) (pf : proof) (trace_domain : coset V) (qc_domains : list (coset V))
    (alpha zeta : T) : option bool :=
    match zps zeta qc_domains with
    | None => None
    | Some zs =>
        match quotient_at zs (p_chunks pf), selectors_at_point trace_domain zeta with
        | Some quotient, Some sels =>
            option_map (fun folded => feqb (folded * inv_zeroifier sels) quotient)
              (fold_constraints from_base (fun x => x) alpha
                {| w_local := p_local pf; w_next := p_next pf; w_public := public_values;
                   w_first := is_first_row sels; w_last := is_last_row sels; w_transition := is_transition sels |}
                0 (air_eval a))
        | _, _ => None
        end
    end.
  (** verifier.rs 78-98: the claims handed to the PCS *)
  Definition pcs_rounds (pf : proof) (trace_domain : coset V) (qc_domains : list (coset V)) (zeta zeta_next : T) :=
    [(p_trace pf, [(trace_domain, [(zeta, p_local pf); (zeta_next, p_next pf)])]);
     (p_quotient pf, map (fun dv : coset V * list T => (fst dv, [(zeta, snd dv)])) (List.combine qc_domains (p_chunks pf)))].
  (** verifier.rs 19-161; the state of the challenger is what the caller is left with *)
  Definition verify (a : air V) (ch : c_state Ch) (pf : proof) (public_values : list V) : outcome stark_error (c_state Ch) :=
    match shl1 (p_degree_bits pf), get_log_quotient_degree V a (length public_values) with
    | Some degree, Some lqd =>
        match shl1 lqd, natural_domain_for_degree V degree, shl1 (p_degree_bits pf + lqd) with
        | Some quotient_degree, Some trace_domain, Some quotient_size =>
            let quotient_domain := create_disjoint_domain trace_domain quotient_size in
            match split_domains quotient_domain quotient_degree with
            | None => Panic
            | Some qc_domains =>
                if negb (valid_shape a quotient_degree pf) then Err StarkInvalidProofShape else
                match observe ch (p_trace pf) with
                | None => Panic
                | Some ch =>
                    match c_sample Ch ch with
                    | None => Panic
                    | Some (alpha, ch) =>
                        match observe ch (p_quotient pf) with
                        | None => Panic
                        | Some ch =>
                            match c_sample Ch ch with
                            | None => Panic
                            | Some (zeta, ch) =>
                                match next_point trace_domain zeta with
                                | None => Panic
                                | Some zeta_next =>
                                    match pcs_verify V T from_base generator M0 M Ch config debug
                                            (pcs_rounds pf trace_domain qc_domains zeta zeta_next) (p_opening pf) ch with
                                    | Panic => Panic
                                    | Err e => Err (InvalidOpeningArgument e)
                                    | Ok ch =>
                                        match ood_check a public_values pf trace_domain qc_domains alpha zeta with
                                        | None => Panic
                                        | Some false => Err OodEvaluationMismatch
                                        | Some true => Ok ch
                                        end
                                    end
                                end
                            end
                        end
                    end
                end
            end
        | _, _, _ => Panic
        end
    | _, _ => Panic
    end.
End Stark.
