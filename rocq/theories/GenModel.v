(** generate_script_verifier of uni-stark/src/script_verifier.rs (lines 25-306), with
    TwoAdicFriPcs::generate_verify_expr of fri/src/two_adic_pcs.rs (554-675): what the script
    verifier makes of a proof.

    Val is BabyBear and Challenge its extension of degree 4; the challenger hashes with BLAKE3.  The
    scripts are run as the code does, by the interpreter.  A panic is [None] of [builder] (the
    assertion on the success of a script is one).  Printing and counting values are left out; counting
    does not panic (DslManager.register_all, PropManager.register_all_ok).  Nothing of this but the
    numbering of expressions changes the state. *)
From Coq Require Import ZArith List Bool Arith.
From Verif Require Import ScriptNum ScriptVM HelperModel Field BabyBear TcsModel FriModel PcsModel FriInst Blake3Spec ChallengerModel
  DslModel DslOpSpec DslBuild DslManager FriExprModel StarkExprModel OpenExprModel ChalExprModel ConsExprModel.
From Verif Require StarkModel.
Import ListNotations.
Local Open Scope nat_scope.

(** An AIR: BaseAir::width and Air::eval. *)
(** the argument air of uni-stark/src/script_verifier.rs 25 *)
Record script_air := mksair { sa_width : nat; sa_eval : list stmt }.
(** Air::eval on SymbolicAirBuilder (uni-stark/src/symbolic_builder.rs 65-148) indexes rows and public values *)
Definition indexed (width np : nat) (p : list stmt) : bool :=
  forallb (fun s => match s with SLocal i | SNext i => i <? width | SPub i => i <? np | _ => true end) p.
Definition tree_air (a : script_air) : option (StarkModel.air BabyBearT) :=
  option_map (StarkModel.Build_air BabyBearT (sa_width a)) (assertions (sa_eval a) []).

(** script_verifier.rs 178-189, denomiator_inverse; the product of the inverses, [inverse] panics on zero *)
Definition denominator_inverse (domains : list (coset BabyBearT)) (i : nat) (d : coset BabyBearT) : option BabyBearT :=
  fold_left (fun acc jd =>
    if fst jd =? i then acc else
    match acc, StarkModel.zp_at_base BabyBearT (snd jd) (shift d) with
    | Some acc, Some z => option_map (fmul acc) (inverse z)
    | _, _ => None
    end) (List.combine (seq 0 (length domains)) domains) (Some f1).
Definition denominator_inverses (domains : list (coset BabyBearT)) : option (list BabyBearT) :=
  StarkExprModel.all_some (map (fun id => denominator_inverse domains (fst id) (snd id)) (List.combine (seq 0 (length domains)) domains)).

(** 210-230, [challenger]: all checks but the last are hint checks; final_index underflows without checks *)
Definition challenger_manager (es : list expr) : option manager :=
  match rev es with
  | [] => None
  | e :: r => Some (set_exec_dsl e (fold_left (fun m c => add_hint_verify c m) (rev r) manager_new))
  end.

Section Generate.
  Variable H : bytes -> bytes.
  Variable G : gadgets.
  Variable public_row : nat.
  Variable M0 : mmcs BabyBearT.
  Variable M : mmcs ExtT.
  (** the words of a commitment, as observed *)
  Variable words0 : m_comm M0 -> list word4.
  Variable words : m_comm M -> list word4.
  Variable config : fri_config.
  Variable debug : bool.

  Notation perm := (blake3_perm b3_hash).
  (** the argument challenger of uni-stark/src/script_verifier.rs 25 *)
  Definition stark_ch : challenger (m_comm M) ExtT := bf_challenger 16 perm 4 (m_comm M) ExtT words felt.
  (** uni-stark/src/script_verifier.rs 80-81, 87-88 *)
  Definition observe0 (c : chal) (x : m_comm M0) : option chal := observe_all 16 perm c (words0 x).
  Notation open_proof := (list (batch_opening BabyBearT M0)).
  Notation sproof := (StarkModel.proof BabyBearT ExtT M0 M stark_ch).
  Notation serror := (StarkModel.stark_error BabyBearT ExtT M0 M).
  Notation fri pf := (StarkModel.p_opening BabyBearT ExtT M0 M stark_ch pf).

  (** the managers of a proof, in the order of ManagerAssign *)
  (** uni-stark/src/script_verifier.rs 79-230, what the later lines read *)
  Record prepared := mkprep { g_queries : list manager; g_quotient : manager; g_challenger : manager;
                              g_alpha : ExtT; g_zeta : ExtT; g_result : ExtT }.
  (** 79-230.  The errors of bf_sample_challenges and bf_verify_challenges panic in [expect]
      (two_adic_pcs.rs 585 and 672). *)
  Definition prepare (pf : sproof) (degree lqd : nat) (trace_domain : coset BabyBearT) (qc_domains : list (coset BabyBearT))
    (c : chal) (x : chal_expr) : builder prepared :=
    let degree_bits := StarkModel.p_degree_bits BabyBearT ExtT M0 M stark_ch pf in
    let chunks := StarkModel.p_chunks BabyBearT ExtT M0 M stark_ch pf in
    let commits := commit_phase_commits ExtT M stark_ch open_proof (fri pf) in
    let queries := query_proofs ExtT M stark_ch open_proof (fri pf) in
    do r <- stark_challenges 16 perm (num_queries config) (proof_of_work_bits config) (log_blowup config) degree_bits
              (words0 (StarkModel.p_trace BabyBearT ExtT M0 M stark_ch pf)) (words0 (StarkModel.p_quotient BabyBearT ExtT M0 M stark_ch pf))
              (map words commits) (length queries) (pow_witness ExtT M stark_ch open_proof (fri pf)) c x;
    let zeta : ExtT := felt (ch_zeta r) in
    let rounds := StarkModel.pcs_rounds BabyBearT ExtT M0 M stark_ch pf trace_domain qc_domains zeta (ch_zeta_next r : ExtT) in
    let log_global := length commits + log_blowup config in
    do ms <- query_managers bf_ext4 M open_proof (m_err M0) config debug (open_input_expr M0 config (felt (ch_batch r)) log_global rounds)
               commits (final_poly ExtT M stark_ch open_proof (fri pf)) (map felt (ch_betas r)) log_global
               (List.combine (List.combine (seq 0 (num_queries config)) (map Z.to_nat (ch_indices r)))
                             (map (fun q => (input_proof ExtT M open_proof q, commit_phase_openings ExtT M open_proof q)) queries));
    match ms with
    | Ok ms =>
        do zs <- get (StarkModel.zps BabyBearT ExtT from_base zeta qc_domains);
        do quotient <- get (StarkModel.quotient_at ExtT monomial zs chunks);
        do invs <- get (denominator_inverses qc_domains);
        do g <- get (two_adic_generator BabyBearT (degree_bits + lqd));
        do q <- compute_quotient_expr (ch_zeta_expr r) degree g (length qc_domains) chunks invs quotient manager_new;
        do k <- get (challenger_manager (ch_checks r));
        ret (mkprep ms (snd q) k (felt (ch_alpha r)) zeta quotient)
    | _ => panic
    end.
  (** 232-241: the checks are embedded and the script is run, manager by manager *)
  Fixpoint run_managers (ms : list manager) : builder unit :=
    match ms with
    | [] => ret tt
    | m :: ms => do m' <- embed_hint_verify m; run check (run_manager H G m'); run_managers ms
    end.
  Definition managers (p : prepared) : list manager := g_queries p ++ [g_quotient p; g_challenger p].

  Definition generate_script_verifier (a : script_air) (c : chal) (x : chal_expr) (pf : sproof) (public_values : list BabyBearT)
    : builder (outcome serror unit) :=
    let degree_bits := StarkModel.p_degree_bits BabyBearT ExtT M0 M stark_ch pf in
    let local := StarkModel.p_local BabyBearT ExtT M0 M stark_ch pf in
    let next := StarkModel.p_next BabyBearT ExtT M0 M stark_ch pf in
    do t <- get (tree_air a);
    run check (indexed (sa_width a) (length public_values) (sa_eval a));
    do degree <- get (StarkModel.shl1 debug degree_bits);
    do lqd <- get (StarkModel.get_log_quotient_degree BabyBearT t (length public_values));
    do quotient_degree <- get (StarkModel.shl1 debug lqd);
    do trace_domain <- get (natural_domain_for_degree BabyBearT degree);
    do quotient_size <- get (StarkModel.shl1 debug (degree_bits + lqd));
    let quotient_domain := StarkModel.create_disjoint_domain BabyBearT (of_Z 31) trace_domain quotient_size in
    do qc_domains <- get (StarkModel.split_domains BabyBearT quotient_domain quotient_degree);
    if negb (StarkModel.valid_shape BabyBearT ExtT 4 M0 M stark_ch t quotient_degree pf) then ret (Err (StarkModel.StarkInvalidProofShape BabyBearT ExtT M0 M)) else
    do p <- prepare pf degree lqd trace_domain qc_domains c x;
    run run_managers (managers p);
    do sels <- get (StarkModel.selectors_at_point BabyBearT ExtT from_base trace_domain (g_zeta p));
    do acc <- get (eval_native
        {| StarkModel.w_local := local; StarkModel.w_next := next; StarkModel.w_public := public_values;
           StarkModel.w_first := StarkModel.is_first_row ExtT sels; StarkModel.w_last := StarkModel.is_last_row ExtT sels;
           StarkModel.w_transition := StarkModel.is_transition ExtT sels |} (g_alpha p) (sa_eval a) [] f0);
    if negb (feqb (fmul acc (StarkModel.inv_zeroifier ExtT sels)) (g_result p)) then ret (Err (StarkModel.OodEvaluationMismatch BabyBearT ExtT M0 M)) else
    do ok <- run_constraints public_row H G (sa_eval a) local next public_values (g_zeta p) (g_alpha p) (log_n trace_domain) acc;
    run check ok;
    ret (Ok tt).
End Generate.
