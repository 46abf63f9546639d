(** Property C86, the script verifier on the Fibonacci AIR (uni-stark/tests/fib_air.rs 148-192). *)
From Coq Require Import ZArith List Bool Arith Lia.
From Verif Require Import ScriptNum HelperModel Field BabyBear TcsModel FriModel PcsModel ChallengerModel DslModel DslOps DslGadgets ConsExprModel GenModel OpenExprModel ChalExprModel PropChalExpr PropConsExpr PropGen FibScript.
From Verif Require StarkModel FibModel PropFib.
Import ListNotations.
Local Open Scope nat_scope.

Lemma fib_tree : tree_air fibonacci_script = Some (FibModel.fibonacci_air BabyBearT).
Proof. reflexivity. Qed.

Section Fib.
  Variable H : bytes -> bytes.
  Variable G : gadgets.
  Hypothesis OK : gadgets_ok H G.
  Variable public_row : nat.
  Variable M0 : mmcs BabyBearT.
  Variable M : mmcs ExtT.
  Variable words0 : m_comm M0 -> list word4.
  Variable words : m_comm M -> list word4.
  Variable config : fri_config.
  Variable debug : bool.

  (** For a proof of the Fibonacci statement that the native verifier accepts, and that meets the
      conditions of C76 on words, configuration and openings, generate_script_verifier accepts when an
      even number of query indices differs, and panics otherwise. *)
  Theorem C86_script_verdict : forall pf (a b x : BabyBear) ch' n,
    proof_ok M0 M words0 words pf -> config_ok M0 M words config pf ->
    native_verify M0 M words0 words config debug (FibModel.fibonacci_air BabyBearT) pf [a; b; x] = Ok ch' -> no_sign_word ch' ->
    openings_agree M0 M words0 words config pf -> scripts_fit G M0 M words0 words config debug n pf ->
    if Nat.even (differing M0 M words0 words config pf)
    then exists n', script_verify H G public_row M0 M words0 words config debug fibonacci_script pf [a; b; x] n = Some (Ok tt, n')
    else script_verify H G public_row M0 M words0 words config debug fibonacci_script pf [a; b; x] n = None.
  Proof.
    intros pf a b x ch' n Po Co Nv Ns Oa Sf.
    assert (Lq : StarkModel.get_log_quotient_degree BabyBearT (FibModel.fibonacci_air BabyBearT) 3 = Some 0) by (exact (PropFib.C86_one_chunk BabyBearT 3)).
    destruct (native_sees M0 M words0 words config debug (FibModel.fibonacci_air BabyBearT) pf [a; b; x] ch' Co Lq Nv)
      as (alpha & zeta & batch & zn & fc & d & zs & quotient & sels & acc & [Tr Ed Es En Eq Ez Eqt El Ea Eo]).
    unfold StarkModel.valid_shape in Es. apply andb_true_iff in Es as [Es1 _]. apply andb_true_iff in Es1 as [Es1 _]. apply andb_true_iff in Es1 as [Es1 _].
    apply Nat.eqb_eq in Es1.
    apply (C76_verdict H G OK public_row M0 M words0 words config debug fibonacci_script (FibModel.fibonacci_air BabyBearT) pf [a; b; x] ch' n);
      try assumption; try reflexivity.
    unfold fits_stack. match goal with |- context [2 * ?l] => assert (Ll : l = 2) by exact Es1; rewrite Ll end. cbn [length sa_eval fibonacci_script StarkModel.air_width FibModel.fibonacci_air]. lia.
  Qed.
End Fib.

(** ** A proof for four rows of zeros, with two queries *)
Definition zero_query : query_proof ExtT ex_mmcs (list (batch_opening BabyBearT ex_mmcs0)) :=
  Build_query_proof ExtT ex_mmcs (list (batch_opening BabyBearT ex_mmcs0))
    [([[f0; f0]], true); ([[f0; f0; f0; f0]], true)] [([[ex_zero; ex_zero]], true); ([[ex_zero; ex_zero]], true)].
Definition zero_proof : StarkModel.proof BabyBearT ExtT ex_mmcs0 ex_mmcs (stark_ch ex_mmcs ex_words) :=
  StarkModel.Build_proof BabyBearT ExtT ex_mmcs0 ex_mmcs (stark_ch ex_mmcs ex_words) (commit_of 1) (commit_of 2)
    [ex_zero; ex_zero] [ex_zero; ex_zero] [[ex_zero; ex_zero; ex_zero; ex_zero]]
    (Build_fri_proof ExtT ex_mmcs (stark_ch ex_mmcs ex_words) _ [commit_of 3; commit_of 4] (repeat zero_query 2) ex_zero [5; 0; 0; 0]%Z) 2.
Notation zeros := [f0 : BabyBear; f0 : BabyBear; f0 : BabyBear].
Lemma zero_clean : clean_b ex_mmcs0 ex_mmcs (native_verify ex_mmcs0 ex_mmcs ex_words ex_words (ex_config 2) true (FibModel.fibonacci_air BabyBearT) zero_proof zeros) = true.
Proof. vm_compute. reflexivity. Qed.
Lemma zero_agree : agree_b ex_mmcs0 ex_mmcs ex_words ex_words (ex_config 2) zero_proof = true.
Proof. vm_compute. reflexivity. Qed.
Lemma zero_fit : fit_b my_gadgets ex_mmcs0 ex_mmcs ex_words ex_words (ex_config 2) true 0 zero_proof = true.
Proof. lazy. reflexivity. Qed.
Lemma zero_differing : differing ex_mmcs0 ex_mmcs ex_words ex_words (ex_config 2) zero_proof = 2.
Proof. vm_compute. reflexivity. Qed.
Example C86_example_script : forall H,
  exists n', script_verify H my_gadgets 0 ex_mmcs0 ex_mmcs ex_words ex_words (ex_config 2) true fibonacci_script zero_proof zeros 0 = Some (Ok tt, n').
Proof.
  intros H. destruct (clean_b_ok _ _ _ zero_clean) as (ch' & En & Ns).
  assert (Po : proof_ok ex_mmcs0 ex_mmcs ex_words ex_words zero_proof)
    by (constructor; [apply commit_of_ok; reflexivity|apply commit_of_ok; reflexivity|exact fri_commits|exact word_of_5]).
  assert (Co : config_ok ex_mmcs0 ex_mmcs ex_words (ex_config 2) zero_proof) by (constructor; cbn; lia).
  pose proof (C86_script_verdict H my_gadgets (gadgets_satisfiable H) 0 ex_mmcs0 ex_mmcs ex_words ex_words (ex_config 2) true zero_proof f0 f0 f0 ch' 0 Po Co) as V.
  pose proof (V En Ns) as V1. pose proof (V1 (proj1 (agree_b_ok _ _ _ _ _ _ zero_agree))) as V2. pose proof (V2 (fit_b_ok _ _ _ _ _ _ _ _ _ zero_fit)) as V3.
  rewrite zero_differing in V3. exact V3.
Qed.
