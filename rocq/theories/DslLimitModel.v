(** Scripts of the expression language on the interpreter with its stack limit: the
    definitions of DslManager, GenModel and ConsExprModel with [lrun] (StackModel) in place
    of [brun].  [L] is the limit, 1000 on chain. *)
From Coq Require Import ZArith List Bool Arith.
From Verif Require Import ScriptNum ScriptVM HelperModel Field BabyBear DslModel DslOpSpec DslBuild DslManager TcsModel FriModel PcsModel FriInst Blake3Spec ChallengerModel FriExprModel StarkExprModel ChalExprModel ConsExprModel GenModel StackModel.
From Verif Require StarkModel.
Import ListNotations.
Local Open Scope nat_scope.

Section Limit.
  Variable L : Z.
  Variable H : bytes -> bytes.
  Variable G : gadgets.

  (** script_expr/src/input_manager.rs 243-266 *)
  Definition run_manager_limited (m : manager) : bool :=
    match mn_exec m with
    | None => true
    | Some e =>
        let '(T, gt) := simulate_input m in
        match express G gt true e T with
        | Some (T', _, _) => bsucceeds (lrun L H (t_script T') (mk [] [] []))
        | None => false
        end
    end.
  (** uni-stark/src/script_verifier.rs 232-241 *)
  Fixpoint run_managers_limited (ms : list manager) : builder unit :=
    match ms with
    | [] => ret tt
    | m :: ms => do m' <- embed_hint_verify m; run check (run_manager_limited m'); run_managers_limited ms
    end.
  (** uni-stark/src/script_verifier.rs 266-297 *)
  Definition run_constraints_limited (public_row : nat) (p : list stmt) (local next : list BB4) (public_values : list BabyBear)
    (zeta alpha : BB4) (log_n : nat) (accumulator : BB4) : builder bool :=
    do sels <- selectors_at_point_expr f1 zeta log_n;
    do a <- const_f bf_ext4 alpha;
    do s <- constraint_script public_row G p local next public_values (se_first sels) (se_last sels) (se_transition sels) a accumulator;
    ret (bsucceeds (lrun L H s (mk [] [] []))).
End Limit.

(** generate_script_verifier of uni-stark/src/script_verifier.rs (25-306; GenModel) *)
Section Verifier.
  Variable L : Z.
  Variable H : bytes -> bytes.
  Variable G : gadgets.
  Variable public_row : nat.
  Variable M0 : mmcs BabyBearT.
  Variable M : mmcs ExtT.
  Variable words0 : m_comm M0 -> list word4.
  Variable words : m_comm M -> list word4.
  Variable config : fri_config.
  Variable debug : bool.
  Notation Ch := (stark_ch M words).
  Definition generate_limited (a : script_air) (c : chal) (x : chal_expr) (pf : StarkModel.proof BabyBearT ExtT M0 M Ch) (public_values : list BabyBearT)
    : builder (outcome (StarkModel.stark_error BabyBearT ExtT M0 M) unit) :=
    let degree_bits := StarkModel.p_degree_bits BabyBearT ExtT M0 M Ch pf in
    let local := StarkModel.p_local BabyBearT ExtT M0 M Ch pf in
    let next := StarkModel.p_next BabyBearT ExtT M0 M Ch pf in
    do t <- get (tree_air a);
    run check (indexed (sa_width a) (length public_values) (sa_eval a));
    do degree <- get (StarkModel.shl1 debug degree_bits);
    do lqd <- get (StarkModel.get_log_quotient_degree BabyBearT t (length public_values));
    do quotient_degree <- get (StarkModel.shl1 debug lqd);
    do trace_domain <- get (natural_domain_for_degree BabyBearT degree);
    do quotient_size <- get (StarkModel.shl1 debug (degree_bits + lqd));
    let quotient_domain := StarkModel.create_disjoint_domain BabyBearT (of_Z 31) trace_domain quotient_size in
    do qc_domains <- get (StarkModel.split_domains BabyBearT quotient_domain quotient_degree);
    if negb (StarkModel.valid_shape BabyBearT ExtT 4 M0 M Ch t quotient_degree pf) then ret (Err (StarkModel.StarkInvalidProofShape BabyBearT ExtT M0 M)) else
    do p <- prepare M0 M words0 words config debug pf degree lqd trace_domain qc_domains c x;
    run run_managers_limited L H G (managers p);
    do sels <- get (StarkModel.selectors_at_point BabyBearT ExtT from_base trace_domain (g_zeta p));
    do acc <- get (eval_native
        {| StarkModel.w_local := local; StarkModel.w_next := next; StarkModel.w_public := public_values;
           StarkModel.w_first := StarkModel.is_first_row ExtT sels; StarkModel.w_last := StarkModel.is_last_row ExtT sels;
           StarkModel.w_transition := StarkModel.is_transition ExtT sels |} (g_alpha p) (sa_eval a) [] f0);
    if negb (feqb (fmul acc (StarkModel.inv_zeroifier ExtT sels)) (g_result p)) then ret (Err (StarkModel.OodEvaluationMismatch BabyBearT ExtT M0 M)) else
    do ok <- run_constraints_limited L H G public_row (sa_eval a) local next public_values (g_zeta p) (g_alpha p) (log_n trace_domain) acc;
    run check ok;
    ret (Ok tt).
End Verifier.
