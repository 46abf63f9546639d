(** C76: generate_script_verifier of uni-stark/src/script_verifier.rs against the native verifier. *)
From Coq Require Import ZArith List Bool Arith Lia.
From Verif Require Import ScriptNum ScriptVM HelperModel Field BabyBear TcsModel FriModel FriProofs2 PcsModel FriInst Blake3Spec ChallengerModel
  DslModel DslSpec DslOpSpec DslOps DslGadgets DslBuild DslIds DslManager DslSession DslWork DslAccept FriExprModel FriExprProofs StarkExprModel OpenExprModel OpenExprProofs ChalExprModel ConsExprModel GenModel
  ChalExprGraph ChalExprProofs ChalExprState ChalExprRun ChalExprSync ChalExprFri ChalExprStark GenProofs PropFriExpr PropOpenExpr PropStarkExpr PropChalExpr PropConsExpr.
From Verif Require StarkModel FriExprQuery.
Import ListNotations.
Local Open Scope nat_scope.
Local Opaque b3_hash.

Section Generate.
  Variable H : bytes -> bytes.
  Variable G : gadgets.
  Hypothesis OK : gadgets_ok H G.
  Variable public_row : nat.
  Variable M0 : mmcs BabyBearT.
  Variable M : mmcs ExtT.
  Variable words0 : m_comm M0 -> list word4.
  Variable words : m_comm M -> list word4.
  Variable config : fri_config.
  Variable debug : bool.
  Notation Ch := (stark_ch M words).
  Notation IP := (list (batch_opening BabyBearT M0)).
  Notation sproof := (StarkModel.proof BabyBearT ExtT M0 M Ch).
  Notation p_trace := (StarkModel.p_trace BabyBearT ExtT M0 M Ch).
  Notation p_quotient := (StarkModel.p_quotient BabyBearT ExtT M0 M Ch).
  Notation p_local := (StarkModel.p_local BabyBearT ExtT M0 M Ch).
  Notation p_next := (StarkModel.p_next BabyBearT ExtT M0 M Ch).
  Notation p_chunks := (StarkModel.p_chunks BabyBearT ExtT M0 M Ch).
  Notation p_opening := (StarkModel.p_opening BabyBearT ExtT M0 M Ch).
  Notation p_degree_bits := (StarkModel.p_degree_bits BabyBearT ExtT M0 M Ch).
  Notation commits pf := (commit_phase_commits ExtT M Ch IP (p_opening pf)).
  Notation queries pf := (query_proofs ExtT M Ch IP (p_opening pf)).
  Notation witness pf := (pow_witness ExtT M Ch IP (p_opening pf)).
  Notation log_max pf := (length (commits pf) + log_blowup config).
  Notation generate := (generate_script_verifier H G public_row M0 M words0 words config debug).
  Notation transcript pf := (native_transcript M0 M words0 words config (p_trace pf) (p_quotient pf) (p_opening pf) (new 16 4)).
  (** the native verifier (StarkModel.verify) with a new challenger *)
  Definition native_verify (t : StarkModel.air BabyBearT) (pf : sproof) (pubs : list BabyBearT) : outcome (StarkModel.stark_error BabyBearT ExtT M0 M) chal :=
    StarkModel.verify BabyBearT ExtT from_base 4 monomial (of_Z 31) M0 M Ch (observe0 M0 words0) config debug t (new 16 4) pf pubs.
  (** the script verifier with new challengers *)
  Definition script_verify (a : script_air) (pf : sproof) (pubs : list BabyBearT) : builder (outcome (StarkModel.stark_error BabyBearT ExtT M0 M) unit) :=
    do x <- x_new; generate a (new 16 4) x pf pubs.

  (** the openings and the challenges of a proof, as the native verifier sees them *)
  Definition for_queries (pf : sproof) (P : nat -> nat -> query_proof ExtT M IP -> list ExtT -> list (nat * ExtT) -> Prop) : Prop :=
    forall alpha zeta batch fc c' td qcs zn, transcript pf alpha zeta batch fc c' ->
      natural_domain_for_degree BabyBearT (2 ^ p_degree_bits pf) = Some td ->
      StarkModel.split_domains BabyBearT (StarkModel.create_disjoint_domain BabyBearT (of_Z 31) td (2 ^ p_degree_bits pf)) 1 = Some qcs ->
      StarkModel.next_point BabyBearT ExtT from_base td zeta = Some zn ->
      Forall (fun p => forall ros, native_openings M0 config batch (log_max pf) (StarkModel.pcs_rounds BabyBearT ExtT M0 M Ch pf td qcs zeta zn)
                         (fst (fst p)) (snd (fst p)) (input_proof ExtT M IP (snd p)) = Ok ros ->
                       P (fst (fst p)) (snd (fst p)) (snd p) (betas ExtT fc) ros) (combine (query_indices ExtT fc) (queries pf)).
  (** What an honest prover makes and the native verifier does not look at: the first layer
      contains the reduced opening, and every reduced opening belongs to a layer. *)
  Definition openings_agree (pf : sproof) : Prop := for_queries pf (fun t q qp bs ros =>
    top_consistent bf_ext4 M (log_max pf) (commits pf) (commit_phase_openings ExtT M IP qp) bs q f0 ros /\
    leftover bf_ext4 M (layers bf_ext4 M (log_max pf) (commits pf) (commit_phase_openings ExtT M IP qp) bs) ros = []).
  (** room on the stack for the scripts of the queries and of the quotient *)
  Definition scripts_fit (n : nat) (pf : sproof) : Prop := forall x n1 td qcs p n2 ems n3, x_new n = Some (x, n1) ->
    natural_domain_for_degree BabyBearT (2 ^ p_degree_bits pf) = Some td ->
    StarkModel.split_domains BabyBearT (StarkModel.create_disjoint_domain BabyBearT (of_Z 31) td (2 ^ p_degree_bits pf)) 1 = Some qcs ->
    prepare M0 M words0 words config debug pf (2 ^ p_degree_bits pf) 0 td qcs (new 16 4) x n1 = Some (p, n2) ->
    embed_all (g_queries p ++ [g_quotient p]) n2 = Some (ems, n3) -> Forall (room G) ems.

  (** the query indices of the native verifier and those computed by the script *)
  Definition the_hash (pf : sproof) : list Z := query_hash (words0 (p_trace pf)) (words0 (p_quotient pf)) (map words (commits pf)) (proof_of_work_bits config) (witness pf).
  Definition differing (pf : sproof) : nat :=
    mismatches (native_indices (the_hash pf) true (log_max pf) (num_queries config)) (script_indices (the_hash pf) (log_max pf) (num_queries config)).

  (** what the byte machine of the challengers can take *)
  Record proof_ok (pf : sproof) : Prop := mk_proof_ok {
    po_trace : commit_ok (words0 (p_trace pf)); po_quotient : commit_ok (words0 (p_quotient pf));
    po_commits : Forall commit_ok (map words (commits pf)); po_witness : word_ok (witness pf) }.
  Record config_ok (pf : sproof) : Prop := mk_config_ok {
    co_pow : 1 <= proof_of_work_bits config <= 31; co_blowup : 1 <= log_blowup config; co_height : log_max pf <= 27;
    co_degree : 1 <= p_degree_bits pf <= 27 }.

  Lemma shl1_small : forall k, k < 64 -> StarkModel.shl1 debug k = Some (2 ^ k).
  Proof. intros k L. unfold StarkModel.shl1. destruct (Nat.leb_spec 64 k); [lia|]. rewrite andb_false_r, Nat.mod_small by lia. reflexivity. Qed.
  Lemma indices_small : forall k t c bits l c', FriModel.sample_indices ExtT M Ch k t c bits = Some (l, c') -> Forall (fun p => snd p < 2 ^ bits) l.
  Proof.
    induction k as [|k IH]; intros t c bits l c' E; cbn [FriModel.sample_indices] in E; [injection E as <- <-; constructor|].
    destruct (c_sample_bits Ch c bits) as [[i c1]|] eqn:E1; [|discriminate E]. destruct (FriModel.sample_indices ExtT M Ch k (S t) c1 bits) as [[l1 c2]|] eqn:E2; [|discriminate E].
    injection E as <- <-. constructor; [|eapply IH; exact E2]. cbn [snd]. exact (cc_range _ _ (bf_contract 16 native 4 (m_comm M) ExtT words felt) _ _ _ _ E1).
  Qed.

  (** *** what the native verifier has seen when it accepts *)
  Record native_seen (t : StarkModel.air BabyBearT) (pf : sproof) (pubs : list BabyBearT) (ch' : chal) (alpha zeta batch zn : ExtT) (fc : fri_challenges ExtT)
    (d : coset BabyBearT) (zs : list ExtT) (quotient : ExtT) (sels : StarkModel.selectors ExtT) (acc : ExtT) : Prop := mk_seen {
    ns_transcript : transcript pf alpha zeta batch fc ch';
    ns_domain : StarkModel.split_domains BabyBearT (StarkModel.create_disjoint_domain BabyBearT (of_Z 31) {| log_n := p_degree_bits pf; shift := f1 |} (2 ^ p_degree_bits pf)) 1 = Some [d];
    ns_shape : StarkModel.valid_shape BabyBearT ExtT 4 M0 M Ch t 1 pf = true;
    ns_next : StarkModel.next_point BabyBearT ExtT from_base {| log_n := p_degree_bits pf; shift := f1 |} zeta = Some zn;
    ns_queries : verify_challenges ExtT M Ch IP (m_err M0) config debug
      (native_openings M0 config batch (log_max pf) (StarkModel.pcs_rounds BabyBearT ExtT M0 M Ch pf {| log_n := p_degree_bits pf; shift := f1 |} [d] zeta zn)) (p_opening pf) fc = Ok tt;
    ns_zps : StarkModel.zps BabyBearT ExtT from_base zeta [d] = Some zs;
    ns_quotient : StarkModel.quotient_at ExtT monomial zs (p_chunks pf) = Some quotient;
    ns_sels : StarkModel.selectors_at_point BabyBearT ExtT from_base {| log_n := p_degree_bits pf; shift := f1 |} zeta = Some sels;
    ns_fold : StarkModel.fold_constraints (from_base : BabyBearT -> ExtT) (fun x : ExtT => x) alpha (the_window (p_local pf) (p_next pf) pubs sels) f0 (StarkModel.air_eval t) = Some acc;
    ns_ood : feqb (fmul acc (StarkModel.inv_zeroifier ExtT sels)) quotient = true }.
  Lemma split_one : forall d l, StarkModel.split_domains BabyBearT d 1 = Some l -> exists e, l = [e].
  Proof.
    intros d l E. unfold StarkModel.split_domains in E. change (log2_strict 1) with (Some 0) in E.
    destruct (StarkModel.coset_gen BabyBearT d) as [g|] eqn:Eg; [|discriminate E]. change (log_n d <? 0) with false in E. cbv iota in E. injection E as <-. cbn [seq map]. eauto.
  Qed.
  Lemma native_sees : forall t pf pubs ch', config_ok pf -> StarkModel.get_log_quotient_degree BabyBearT t (length pubs) = Some 0 -> native_verify t pf pubs = Ok ch' ->
    exists alpha zeta batch zn fc d zs quotient sels acc, native_seen t pf pubs ch' alpha zeta batch zn fc d zs quotient sels acc.
  Proof.
    intros t pf pubs ch' Co Lq E. destruct Co as [_ _ _ Cd]. unfold native_verify, StarkModel.verify in E. rewrite Lq in E.
    rewrite shl1_small in E by lia. rewrite (shl1_small 0) in E by lia. rewrite Nat.add_0_r in E. rewrite shl1_small in E by lia.
    unfold natural_domain_for_degree in E at 1. rewrite log2_strict_pow in E. cbn [option_map] in E. cbv zeta in E.
    change (2 ^ 0) with 1 in E.
    match type of E with match ?z with _ => _ end = _ => destruct z as [qcs|] eqn:Ed; [|discriminate E] end.
    destruct (split_one _ _ Ed) as [d ->].
    match type of E with (if negb ?z then _ else _) = _ => destruct z eqn:Es; cbn [negb] in E; [|discriminate E] end.
    destruct (observe0 M0 words0 (new 16 4) (p_trace pf)) as [c1|] eqn:E1; [|discriminate E].
    destruct (c_sample Ch c1) as [[alpha c2]|] eqn:E2; [|discriminate E].
    destruct (observe0 M0 words0 c2 (p_quotient pf)) as [c3|] eqn:E3; [|discriminate E].
    destruct (c_sample Ch c3) as [[zeta c4]|] eqn:E4; [|discriminate E].
    match type of E with match ?z with _ => _ end = _ => destruct z as [zn|] eqn:En; [|discriminate E] end.
    match type of E with match ?z with _ => _ end = _ => destruct z as [c5|e|] eqn:Ep; [|discriminate E|discriminate E] end.
    match type of E with match ?z with _ => _ end = _ => destruct z as [[|]|] eqn:Eo; [|discriminate E|discriminate E] end. injection E as ->.
    unfold pcs_verify in Ep. destruct (c_sample Ch c4) as [[batch c6]|] eqn:E5; [|discriminate Ep].
    match type of Ep with match ?z with _ => _ end = _ => destruct z as [[fc c7]|e|] eqn:E6; [|discriminate Ep|discriminate Ep] end.
    match type of Ep with match ?z with _ => _ end = _ => destruct z as [[]|e|] eqn:E7; [|discriminate Ep|discriminate Ep] end. injection Ep as ->.
    unfold StarkModel.ood_check in Eo.
    match type of Eo with match ?z with _ => _ end = _ => destruct z as [zs|] eqn:Ez; [|discriminate Eo] end.
    match type of Eo with match ?z with _ => _ end = _ => destruct z as [quotient|] eqn:Eq; [|discriminate Eo] end.
    match type of Eo with match ?z with _ => _ end = _ => destruct z as [sels|] eqn:El; [|discriminate Eo] end.
    match type of Eo with option_map _ ?z = _ => destruct z as [acc|] eqn:Ea; [|discriminate Eo] end. cbn [option_map] in Eo. injection Eo as Eo.
    exists alpha, zeta, batch, zn, fc, d, zs, quotient, sels, acc. constructor; try assumption.
    do 2 eexists. split; [do 3 eexists; split; [exact E1|]; split; [exact E2|]; split; [exact E3|exact E4]|]. split; [exact E5|exact E6].
  Qed.

  (** *** the managers of the queries *)
  Lemma bind_some : forall A B (b : builder A) (f : A -> builder B) n a n1 r, b n = Some (a, n1) -> f a n1 = r -> bind b f n = r.
  Proof. intros A B b f n a n1 r E R. unfold bind. now rewrite E. Qed.
  Lemma bind_eq : forall A B (b b' : builder A) (f f' : A -> builder B) n n', b n = b' n' -> (forall a k, f a k = f' a k) -> bind b f n = bind b' f' n'.
  Proof. intros A B b b' f f' n n' E Ef. unfold bind. rewrite E. destruct (b' n') as [[a k]|]; [apply Ef|reflexivity]. Qed.
  Lemma good_later : forall n n' m, good_manager H G n m -> n <= n' -> good_manager H G n' m.
  Proof. intros n n' m Gm L n1 L1. apply Gm. lia. Qed.
  Lemma queries_good : forall rounds alpha (fp : fri_proof ExtT M Ch IP) bs, let lmh := length (commit_phase_commits ExtT M Ch IP fp) + log_blowup config in
    1 <= log_blowup config -> lmh <= 27 -> forall qs n, Forall (fun p => snd (fst p) < 2 ^ lmh) qs ->
    verify_queries ExtT M Ch IP (m_err M0) config debug (native_openings M0 config alpha lmh rounds) fp bs lmh qs = Ok tt ->
    Forall (fun p => forall ros, native_openings M0 config alpha lmh rounds (fst (fst p)) (snd (fst p)) (input_proof ExtT M IP (snd p)) = Ok ros ->
       top_consistent bf_ext4 M lmh (commit_phase_commits ExtT M Ch IP fp) (commit_phase_openings ExtT M IP (snd p)) bs (snd (fst p)) f0 ros /\
       leftover bf_ext4 M (layers bf_ext4 M lmh (commit_phase_commits ExtT M Ch IP fp) (commit_phase_openings ExtT M IP (snd p)) bs) ros = []) qs ->
    exists ms n', n <= n' /\
      query_managers bf_ext4 M IP (m_err M0) config debug (open_input_expr M0 config alpha lmh rounds) (commit_phase_commits ExtT M Ch IP fp) (final_poly ExtT M Ch IP fp) bs lmh
        (map (fun p => (fst p, (input_proof ExtT M IP (snd p), commit_phase_openings ExtT M IP (snd p)))) qs) n = Some (Ok ms, n') /\
      Forall (good_manager H G n') ms.
  Proof.
    intros rounds alpha fp bs lmh Lb Lm. assert (Lr : 1 <= lmh <= 27) by (unfold lmh in *; lia). assert (Lc : length (commit_phase_commits ExtT M Ch IP fp) < lmh) by (unfold lmh; lia). induction qs as [|[[t q] qp] qs IH]; intros n Fq V A; cbn [map query_managers].
    - exists [], n. split; [lia|]. split; [reflexivity|constructor].
    - inversion_clear Fq as [|? ? Lq Fq']. inversion_clear A as [|? ? Aq A']. cbn [fst snd] in Lq, Aq. cbn [verify_queries] in V.
      destruct (native_openings M0 config alpha lmh rounds t q (input_proof ExtT M IP qp)) as [ros|e|] eqn:No; [|discriminate V|discriminate V].
      destruct (Aq ros eq_refl) as [Tc Lf].
      match type of V with match ?z with _ => _ end = _ => destruct z as [w|e|] eqn:Vq; [|discriminate V|discriminate V] end.
      destruct (feqb_spec ExtT w (final_poly ExtT M Ch IP fp)) as [Ew|Ew]; [|discriminate V].
      destruct (C74_query H G OK M0 M config debug alpha rounds (commit_phase_commits ExtT M Ch IP fp) (final_poly ExtT M Ch IP fp) bs lmh t q (input_proof ExtT M IP qp) (commit_phase_openings ExtT M IP qp) ros w n) as (m & n1 & L1 & Eq & Ac); [exact Lr|exact Lq|exact Lc|exact No| |exact Tc|exact Lf|].
      { exact Vq. }
      destruct (IH n1 Fq' V A') as (ms & n2 & L2 & E2 & Gm). exists (m :: ms), n2. split; [lia|]. split.
      { cbn [fst snd]. eapply (bind_some _ _ _ _ _ _ _ _ Eq). cbv iota beta. rewrite (bind_some _ _ _ _ _ _ _ _ E2 eq_refl). reflexivity. }
      constructor; [|exact Gm]. intros n3 L3. destruct (Ac n3) as (m' & n4 & Em & R); [lia|]. exists m', n4. split; [exact Em|]. intros Rm. now apply (R Rm).
  Qed.
  Lemma later_check : forall b, later (check b).
  Proof. intros b n a n' E. apply check_inv in E as [_ ->]. lia. Qed.
  Lemma later_ext : forall o r1 r2 a b, later (binary_ext o r1 r2 a b).
  Proof. intros. unfold binary_ext. later_all; try apply later_check. Qed.
  Lemma later_assign : forall f vs m, (forall v m, later (f v m)) -> later (assign_all f vs m).
  Proof. intros f. induction vs as [|v vs IH]; intros m L; cbn [assign_all]; later_all; auto. Qed.
  Lemma later_rows : forall vs m, later (assign_rows vs m).
  Proof. induction vs as [|v vs IH]; intros m; cbn [assign_rows]; later_all; auto. apply later_assign. intros. apply later_input. Qed.
  Lemma later_chunk : forall vals js acc, later (chunk_loop vals js acc).
  Proof. intros vals. induction js as [|j js IH]; intros acc; cbn [chunk_loop]; unfold mul, add; later_all. apply IH. Qed.
  Lemma later_quotient : forall n zeta deg g vs hs res m, later (compute_quotient_expr zeta deg g n vs hs res m).
  Proof.
    intros [|[|n]]; intros; [| |intros k q k' E; rewrite C44_more_chunks_panics in E by lia; discriminate E];
      unfold compute_quotient_expr; cbn [seq numerators numerator_loop denominators denominator_loop quotient_loop Nat.eqb]; unfold from_table, mul, add, equal;
      later_all; try apply later_check; try apply later_ext; try apply later_rows; try apply later_chunk; try (apply later_assign; intros; apply later_hint).
  Qed.
  Lemma combine_mapr : forall A B C (f : B -> C) (l : list A) r, combine l (map f r) = map (fun p => (fst p, f (snd p))) (combine l r).
  Proof. intros A B C f. induction l as [|x l IH]; intros [|y r]; cbn [map combine]; [reflexivity..|]. now rewrite IH. Qed.
  Lemma four : forall A (l : list A), length l = 4 -> exists a b c d, l = [a; b; c; d].
  Proof. intros A [|a [|b [|c [|d [|]]]]] L; try discriminate L. exists a, b, c, d. reflexivity. Qed.

  Lemma queries_small : forall pf alpha zeta batch fc ch', transcript pf alpha zeta batch fc ch' ->
    Forall (fun p => snd (fst p) < 2 ^ log_max pf) (combine (query_indices ExtT fc) (queries pf)).
  Proof.
    intros pf alpha zeta batch fc ch' Tr. destruct Tr as (c4 & c5 & _ & _ & Vs). unfold verify_shape_and_sample_challenges in Vs.
      destruct (FriModel.sample_betas ExtT M Ch c5 (commits pf)) as [[bs c6]|]; [|discriminate Vs].
      destruct (negb (length (queries pf) =? num_queries config)); [discriminate Vs|].
      match type of Vs with match ?z with _ => _ end = _ => destruct z as [[[|] c7]|]; [|discriminate Vs|discriminate Vs] end. cbv zeta in Vs.
      match type of Vs with match ?z with _ => _ end = _ => destruct z as [[is_ c8]|] eqn:Ki; [|discriminate Vs] end. injection Vs as <- _. cbn [query_indices].
      apply indices_small in Ki. clear -Ki. revert Ki. generalize (queries pf). induction is_ as [|i is_ IH]; intros [|q qs] Ki; cbn [combine]; constructor; inversion_clear Ki; auto.
  Qed.

  (** For every proof the native verifier accepts, with one quotient chunk and an AIR that has a
      constraint, whose layers contain the reduced openings: the script verifier accepts, or it
      panics; it accepts exactly when an even number of query indices sampled by the script differs
      from the native ones. *)
  Theorem C76_verdict : forall a t pf (pubs : list BabyBearT) ch' n, tree_air a = Some t -> existsb is_assert (sa_eval a) = true ->
    indexed (sa_width a) (length pubs) (sa_eval a) = true -> fits_stack (sa_eval a) (p_local pf) pubs -> proof_ok pf -> config_ok pf ->
    StarkModel.get_log_quotient_degree BabyBearT t (length pubs) = Some 0 -> native_verify t pf pubs = Ok ch' -> no_sign_word ch' ->
    openings_agree pf -> scripts_fit n pf ->
    if Nat.even (differing pf) then exists n', script_verify a pf pubs n = Some (Ok tt, n') else script_verify a pf pubs n = None.
  Proof.
    intros a t pf pubs ch' n At Ex Ix Fs Po Co Lq Nv Ns Oa Sf.
    destruct (native_sees t pf pubs ch' Co Lq Nv) as (alpha & zeta & batch & zn & fc & d & zs & quotient & sels & acc & [Tr Ed Es En Eq Ez Eqt El Ea Eo]).
    destruct Po as [Wt Wq Wc Ww]. destruct Co as [Cp Cb Ch0 Cd].
    destruct (transcript_pow M0 M words0 words config _ _ _ _ _ _ _ _ Wt Wq Wc Ww ltac:(lia) Tr) as [Np Pw].
    assert (Bi : 1 <= length (map words (commits pf)) + log_blowup config <= 31) by (rewrite map_length; lia).
    destruct (session_goes G (num_queries config) (proof_of_work_bits config) (log_blowup config) (p_degree_bits pf) _ _ _ (length (queries pf)) _ Wt Wq Wc Ww Cp Bi ltac:(lia) n)
      as [(r & n2 & all & l & vs & Se & W & Iz & _ & _ & Lb & Ei & Fe & Pe & Ne & _ & Q)|[_ Q]]; [|elim Q; split; [exact Np|exact Pw]].
    unfold stark_session in Se. apply bind_inv in Se as (x & n1 & Ex1 & Se).
    destruct (challenges_native M0 M words0 words config _ _ _ _ _ _ _ _ _ Se) as (Tr' & Li & _ & _ & En').
    destruct (transcript_det M0 M words0 words config _ _ _ _ _ _ _ _ _ _ _ _ _ _ Tr' Tr) as (Ha & Hz & Hb & Hf & Hc).
    rewrite Hc in Q. specialize (Q ltac:(lia) (proj2 (clean_iff ch') Ns)).
    rewrite Hz in En'. rewrite En in En'. injection En' as En'.
    set (td := {| log_n := p_degree_bits pf; shift := f1 |} : coset BabyBearT) in *.
    assert (Etd : natural_domain_for_degree BabyBearT (2 ^ p_degree_bits pf) = Some td) by (unfold natural_domain_for_degree; now rewrite log2_strict_pow).
    (* the queries *)
    assert (Fq := queries_small _ _ _ _ _ _ Tr).
    assert (Oq := Oa _ _ _ _ _ _ _ _ Tr Etd Ed En).
    destruct (queries_good (StarkModel.pcs_rounds BabyBearT ExtT M0 M Ch pf td [d] zeta zn) batch (p_opening pf) (betas ExtT fc) Cb Ch0 _ n2 Fq Eq Oq) as (ms & n3 & L3 & Em & Gm).
    (* the quotient *)
    assert (Es' := Es). unfold StarkModel.valid_shape in Es'. apply andb_true_iff in Es' as [Es1 Es4]. apply andb_true_iff in Es1 as [Es1 Es3]. apply andb_true_iff in Es1 as [Es1 Es2].
    apply Nat.eqb_eq in Es1. apply Nat.eqb_eq in Es2. apply Nat.eqb_eq in Es3.
    destruct (p_chunks pf) as [|vs4 [|]] eqn:Ec; try discriminate Es3. cbn [forallb] in Es4. apply andb_true_iff in Es4 as [Es4 _]. apply Nat.eqb_eq in Es4.
    destruct (four _ _ Es4) as (v0 & v1 & v2 & v3 & ->).
    assert (W3 := world_later _ n3 _ _ W L3).
    destruct (C44_one_chunk H G OK (ch_zeta_expr r) (2 ^ p_degree_bits pf) (@gen BabyBearT (p_degree_bits pf)) d v0 v1 v2 v3 f1 quotient zs quotient n3 all (world_sinv _ _ _ W3) Iz zeta Ez Eqt) as (mq & n4 & Eqm & Gq).
    assert (L4 : n3 <= n4) by exact (later_quotient _ _ _ _ _ _ _ _ _ _ _ Eqm).
    destruct (run_checks H G OK n4 all l _ _ (world_later _ n4 _ _ W3 L4) Fe Pe Ne) as (mc & _ & _ & Emc & _).
    assert (Pr : prepare M0 M words0 words config debug pf (2 ^ p_degree_bits pf) 0 td [d] (new 16 4) x n1 = Some (mkprep ms mq mc alpha zeta quotient, n4)).
    { unfold prepare. eapply (bind_some _ _ _ _ _ _ _ _ Se).
      rewrite Ha, Hz, Hb, <- En'. cbv zeta. eapply (bind_some _ _ _ _ _ (Ok ms) n3).
      { rewrite combine_mapr. rewrite <- Em, <- Hf. reflexivity. }
      cbv iota beta. rewrite Ez. eapply (bind_some _ _ _ _ _ zs); [reflexivity|]. rewrite Ec, Eqt.
      eapply (bind_some _ _ _ _ _ quotient); [reflexivity|].
      eapply (bind_some _ _ _ _ _ [f1]); [reflexivity|].
      rewrite Nat.add_0_r. eapply (bind_some _ _ _ _ _ (@gen BabyBearT (p_degree_bits pf))); [rewrite tag_some by exact (proj2 Cd); reflexivity|].
      eapply (bind_some _ _ _ _ _ _ _ _ Eqm). rewrite challenger_manager_of, Emc. reflexivity. }
    (* the constraints *)
    assert (At' := At). unfold tree_air in At'. destruct (assertions (sa_eval a) []) as [la|] eqn:Al; [|discriminate At']. cbn [option_map] in At'. injection At' as <-. cbn [StarkModel.air_width StarkModel.air_eval] in *.
    destruct (eval_total (the_window (p_local pf) (p_next pf) pubs sels) alpha (sa_width a) (sa_eval a) [] [] la f0 eq_refl Al Es1 Es2 Ix) as (acc' & Eac).
    assert (acc' = acc) as ->.
    { destruct (C75_native (sa_eval a) (p_local pf) (p_next pf) pubs sels alpha acc' Eac) as (l0 & Al0 & Fl0 & _). rewrite Al in Al0. injection Al0 as <-. rewrite Ea in Fl0. now injection Fl0. }
    (* running *)
    assert (Gall : Forall (good_manager H G n4) (ms ++ [mq])).
    { apply Forall_app. split; [eapply Forall_impl; [|exact Gm]; intros m Gmm; exact (good_later _ _ _ Gmm L4)|]. constructor; [|constructor].
      intros k Lk. destruct (Gq k Lk) as (m' & k' & Ek & Rk). exists m', k'. split; [exact Ek|]. intros Rm. apply (Rk Rm). split; reflexivity. }
    destruct (run_good H G n4 _ n4 Gall (le_n _)) as (ems & n5 & E5 & L5 & R5).
    assert (R5' := R5 (Sf _ _ _ _ _ _ _ _ Ex1 Etd Ed Pr E5)).
    destruct (run_checks H G OK n5 all l _ _ (world_later _ n5 _ _ W3 ltac:(lia)) Fe Pe Ne) as (mc' & m6 & n6 & Emc' & E6 & R6).
    rewrite Emc in Emc'. injection Emc' as <-. rewrite verdict_compared in R6 by exact Q. rewrite Ei, map_length in R6.
    assert (R6' : run_manager H G m6 = Nat.even (differing pf)) by (unfold differing, the_hash; exact R6).
    assert (Ps : script_verify a pf pubs n = (do _u <- run_managers H G [mc];
       do ok <- run_constraints public_row H G (sa_eval a) (p_local pf) (p_next pf) pubs zeta alpha (log_n td) acc; run check ok; ret (Ok tt)) n5).
    { unfold script_verify. eapply (bind_some _ _ _ _ _ _ _ _ Ex1). unfold generate_script_verifier. rewrite At.
      eapply (bind_some _ _ _ _ _ _ n1); [reflexivity|]. match goal with |- context [indexed ?w ?k ?e] => replace (indexed w k e) with true by (symmetry; exact Ix) end. eapply (bind_some _ _ _ _ _ tt n1); [reflexivity|].
      rewrite shl1_small by lia. eapply (bind_some _ _ _ _ _ _ n1); [reflexivity|]. rewrite Lq. eapply (bind_some _ _ _ _ _ _ n1); [reflexivity|].
      rewrite shl1_small by lia. eapply (bind_some _ _ _ _ _ 1 n1); [reflexivity|]. rewrite Etd. eapply (bind_some _ _ _ _ _ _ n1); [reflexivity|].
      rewrite Nat.add_0_r, shl1_small by lia. eapply (bind_some _ _ _ _ _ _ n1); [reflexivity|]. cbv zeta. rewrite Ed. eapply (bind_some _ _ _ _ _ _ n1); [reflexivity|].
      rewrite Es. cbn [negb]. eapply (bind_some _ _ _ _ _ _ _ _ Pr). unfold managers. cbn [g_queries g_quotient g_challenger g_zeta g_alpha g_result].
      assert (Rs : run_managers H G (ms ++ [mq; mc]) n4 = run_managers H G [mc] n5).
      { change [mq; mc] with ([mq] ++ [mc]). rewrite app_assoc, run_app, R5'. reflexivity. }
      apply (bind_eq _ _ _ _ _ _ _ _ Rs). intros [] n7.
      rewrite El. eapply (bind_some _ _ _ _ _ _ n7); [reflexivity|]. 
      eapply (bind_some _ _ _ _ _ acc n7); [match goal with |- get ?z _ = _ => replace z with (Some acc) by (symmetry; exact Eac) end; reflexivity|].
      rewrite Eo. cbn [negb]. reflexivity. }
    assert (Rc : run_managers H G [mc] n5 = if Nat.even (differing pf) then Some (tt, n6) else None).
    { cbn [run_managers]. unfold bind. rewrite E6, R6'. destruct (Nat.even (differing pf)); reflexivity. }
    destruct (Nat.even (differing pf)).
    - pose proof (run_whole H G OK public_row (sa_eval a) (p_local pf) (p_next pf) pubs zeta alpha (log_n td) sels acc n6 ltac:(exact (eq_trans Es2 (eq_sym Es1))) Fs El) as Rw.
      match type of Rw with match ?z with _ => _ end => replace z with (Some acc) in Rw by (symmetry; exact Eac) end. rewrite Ex in Rw. destruct Rw as (n7 & Rw).
      exists n7. rewrite Ps. apply (bind_some _ _ _ _ _ _ _ _ Rc). apply (bind_some _ _ _ _ _ _ _ _ Rw). rewrite feqb_refl. reflexivity.
    - rewrite Ps. unfold bind at 1. rewrite Rc. reflexivity.
  Qed.

  (** *** what has been checked when the script verifier returns *)
  Record script_seen (a : script_air) (pf : sproof) (pubs : list BabyBearT) (n : nat) (x : chal_expr) (n1 : nat) (t : StarkModel.air BabyBearT) (degree lqd qd qs : nat) (td : coset BabyBearT) (qcs : list (coset BabyBearT)) : Prop := mk_sseen {
    ss_new : x_new n = Some (x, n1);
    ss_tree : tree_air a = Some t;
    ss_index : indexed (sa_width a) (length pubs) (sa_eval a) = true;
    ss_degree : StarkModel.shl1 debug (p_degree_bits pf) = Some degree;
    ss_lqd : StarkModel.get_log_quotient_degree BabyBearT t (length pubs) = Some lqd;
    ss_qd : StarkModel.shl1 debug lqd = Some qd;
    ss_td : natural_domain_for_degree BabyBearT degree = Some td;
    ss_qs : StarkModel.shl1 debug (p_degree_bits pf + lqd) = Some qs;
    ss_qcs : StarkModel.split_domains BabyBearT (StarkModel.create_disjoint_domain BabyBearT (of_Z 31) td qs) qd = Some qcs }.
  Record prepare_seen (pf : sproof) (degree lqd : nat) (td : coset BabyBearT) (qcs : list (coset BabyBearT)) (x : chal_expr) (n1 : nat) (p : prepared) (n2 : nat) (r : challenged) (k1 k2 : nat) : Prop := mk_pseen {
    ps_session : stark_challenges 16 native (num_queries config) (proof_of_work_bits config) (log_blowup config) (p_degree_bits pf) (words0 (p_trace pf)) (words0 (p_quotient pf))
                   (map words (commits pf)) (length (queries pf)) (witness pf) (new 16 4) x n1 = Some (r, k1);
    ps_later : k1 <= k2;
    ps_queries : query_managers bf_ext4 M IP (m_err M0) config debug
                   (open_input_expr M0 config (felt (ch_batch r)) (log_max pf) (StarkModel.pcs_rounds BabyBearT ExtT M0 M Ch pf td qcs (felt (ch_zeta r)) (ch_zeta_next r)))
                   (commits pf) (final_poly ExtT M Ch IP (p_opening pf)) (map (felt : list Z -> ExtT) (ch_betas r)) (log_max pf)
                   (map (fun p => (fst p, (input_proof ExtT M IP (snd p), commit_phase_openings ExtT M IP (snd p)))) (combine (combine (seq 0 (num_queries config)) (map Z.to_nat (ch_indices r))) (queries pf))) k1
                 = Some (Ok (g_queries p), k2);
    ps_quotient : exists zs, StarkModel.zps BabyBearT ExtT from_base (felt (ch_zeta r)) qcs = Some zs /\ StarkModel.quotient_at ExtT monomial zs (p_chunks pf) = Some (g_result p);
    ps_compute : exists g invs q, compute_quotient_expr (ch_zeta_expr r) degree g (length qcs) (p_chunks pf) invs (g_result p) manager_new k2 = Some (q, n2) /\ g_quotient p = snd q;
    ps_checks : challenger_manager (ch_checks r) = Some (g_challenger p);
    ps_alpha : g_alpha p = felt (ch_alpha r);
    ps_zeta : g_zeta p = felt (ch_zeta r) }.
  Lemma later_queries : forall F M IP IE config debug oi commits final bs lmh qs, (forall t q ip, later (oi t q ip manager_new)) -> later (query_managers F M IP IE config debug oi commits final bs lmh qs).
  Proof.
    intros F M' IP' IE cf db oi commits final bs lmh qs Lo. induction qs as [|[[t q] [ip os]] qs IH]; cbn [query_managers]; [apply later_ret|].
    apply later_bind; [|intros [m|e|]; later_all; exact IH]. unfold query_manager, equal. later_all; [apply Lo|apply later_query].
  Qed.
  Lemma prepare_inv : forall pf degree lqd td qcs x n1 p n2, prepare M0 M words0 words config debug pf degree lqd td qcs (new 16 4) x n1 = Some (p, n2) ->
    exists r k1 k2, prepare_seen pf degree lqd td qcs x n1 p n2 r k1 k2.
  Proof.
    intros pf degree lqd td qcs x n1 p n2 E. unfold prepare in E. inv_bind E. inv_bind E. destruct v0 as [ms|e|]; [|discriminate E|discriminate E].
    inv_get E. inv_get E. inv_get E. inv_get E. inv_bind E. inv_get E. unfold ret in E. injection E as <- <-. exists v, k, k0. constructor; cbn [g_queries g_result g_quotient g_challenger g_alpha g_zeta]; eauto 6.
    2: { rewrite combine_mapr in Eb0. exact Eb0. }
    eapply later_queries; [|exact Eb0]. intros t q ip. exact (proj1 (C74_openings G M0 config _ _ _ t q ip)).
  Qed.
  Lemma script_inv : forall a pf pubs n r n', script_verify a pf pubs n = Some (r, n') ->
    exists x n1 t degree lqd qd qs td qcs, script_seen a pf pubs n x n1 t degree lqd qd qs td qcs /\
      if StarkModel.valid_shape BabyBearT ExtT 4 M0 M Ch t qd pf then
        exists p n2 n3 sels acc, prepare M0 M words0 words config debug pf degree lqd td qcs (new 16 4) x n1 = Some (p, n2) /\
          run_managers H G (managers p) n2 = Some (tt, n3) /\ StarkModel.selectors_at_point BabyBearT ExtT from_base td (g_zeta p) = Some sels /\
          eval_native (the_window (p_local pf) (p_next pf) pubs sels) (g_alpha p) (sa_eval a) [] f0 = Some acc /\
          if feqb (fmul acc (StarkModel.inv_zeroifier ExtT sels)) (g_result p) then
            r = Ok tt /\ exists n4, run_constraints public_row H G (sa_eval a) (p_local pf) (p_next pf) pubs (g_zeta p) (g_alpha p) (log_n td) acc n3 = Some (true, n4)
          else r = Err (StarkModel.OodEvaluationMismatch BabyBearT ExtT M0 M)
      else r = Err (StarkModel.StarkInvalidProofShape BabyBearT ExtT M0 M).
  Proof.
    intros a pf pubs n r n' E. unfold script_verify in E. inv_bind E. unfold generate_script_verifier in E.
    inv_get E. inv_bind E. apply check_inv in Eb0 as [Ix ->]. inv_get E. inv_get E. inv_get E. inv_get E. inv_get E. cbv zeta in E. inv_get E.
    exists v, k, v0, v2, v3, v4, v6, v5, v7. split; [constructor; assumption|].
    destruct (StarkModel.valid_shape BabyBearT ExtT 4 M0 M Ch v0 v4 pf) eqn:Es; cbn [negb] in E; [|unfold ret in E; now injection E as <- <-].
    inv_bind E. inv_bind E. destruct v9. inv_get E. inv_get E. exists v8, k0, k1, v9, v10. split; [exact Eb0|]. split; [exact Eb1|]. split; [exact Eg6|]. split; [exact Eg7|].
    destruct (feqb (fmul v10 (StarkModel.inv_zeroifier ExtT v9)) (g_result v8)) eqn:Eo; cbn [negb] in E; [|unfold ret in E; now injection E as <- <-].
    inv_bind E. inv_bind E. apply check_inv in Eb3 as [-> ->]. unfold ret in E. injection E as <- <-. split; [reflexivity|]. eauto.
  Qed.

  (** only two of the errors are ever returned *)
  Theorem C76_errors : forall a pf pubs n e n', script_verify a pf pubs n = Some (Err e, n') ->
    e = StarkModel.StarkInvalidProofShape BabyBearT ExtT M0 M \/ e = StarkModel.OodEvaluationMismatch BabyBearT ExtT M0 M.
  Proof.
    intros a pf pubs n e n' E. apply script_inv in E as (x & n1 & t & degree & lqd & qd & qs & td & qcs & _ & E).
    destruct (StarkModel.valid_shape BabyBearT ExtT 4 M0 M Ch t qd pf); [|injection E as ->; auto].
    destruct E as (p & n2 & n3 & sels & acc & _ & _ & _ & _ & E). destruct (feqb (fmul acc (StarkModel.inv_zeroifier ExtT sels)) (g_result p)); [destruct E as [E _]; discriminate E|injection E as ->; auto].
  Qed.
  (** an accepted proof: the native verifier has the same transcript, and its verdict is that of
      its query checks alone *)
  Theorem C76_accepted : forall a pf pubs n n', script_verify a pf pubs n = Some (Ok tt, n') ->
    exists t lqd qd qs td qcs alpha zeta batch fc ch' zn, tree_air a = Some t /\ transcript pf alpha zeta batch fc ch' /\
      StarkModel.get_log_quotient_degree BabyBearT t (length pubs) = Some lqd /\ StarkModel.shl1 debug lqd = Some qd /\ StarkModel.shl1 debug (p_degree_bits pf + lqd) = Some qs /\
      natural_domain_for_degree BabyBearT (2 ^ p_degree_bits pf) = Some td /\
      StarkModel.split_domains BabyBearT (StarkModel.create_disjoint_domain BabyBearT (of_Z 31) td qs) qd = Some qcs /\ StarkModel.next_point BabyBearT ExtT from_base td zeta = Some zn /\
      native_verify t pf pubs = match verify_challenges ExtT M Ch IP (m_err M0) config debug
        (native_openings M0 config batch (log_max pf) (StarkModel.pcs_rounds BabyBearT ExtT M0 M Ch pf td qcs zeta zn)) (p_opening pf) fc with
        | Ok _ => Ok ch' | _ => Panic end.
  Proof.
    intros a pf pubs n n' E. apply script_inv in E as (x & n1 & t & degree & lqd & qd & qs & td & qcs & Ss & E).
    destruct (StarkModel.valid_shape BabyBearT ExtT 4 M0 M Ch t qd pf) eqn:Es; [|discriminate E].
    destruct E as (p & n2 & n3 & sels & acc & Ep & _ & El & Ea & E).
    destruct (feqb (fmul acc (StarkModel.inv_zeroifier ExtT sels)) (g_result p)) eqn:Eo; [clear E|discriminate E].
    destruct (prepare_inv _ _ _ _ _ _ _ _ _ Ep) as (r & k1 & k2 & [Se _ _ (zs & Ez & Eq) _ _ Ha Hz]). rewrite Ha in Ea. rewrite Hz in El.
    destruct Ss as [_ At _ Ed Lq Eqd Etd Eqs Eqc].
    destruct (challenges_native M0 M words0 words config _ _ _ _ _ _ _ _ _ Se) as (Tr & _ & _ & Ld & En).
    rewrite shl1_small in Ed by lia. injection Ed as <-.
    assert (Etd' : td = {| log_n := p_degree_bits pf; shift := f1 |}).
    { unfold natural_domain_for_degree in Etd. rewrite log2_strict_pow in Etd. now injection Etd as <-. }
    rewrite <- Etd' in En.
    exists t, lqd, qd, qs, td, qcs, (felt (ch_alpha r)), (felt (ch_zeta r)), (felt (ch_batch r)). eexists. exists (ch_native r), (ch_zeta_next r).
    split; [exact At|]. split; [exact Tr|]. split; [exact Lq|]. split; [exact Eqd|]. split; [exact Eqs|]. split; [exact Etd|]. split; [exact Eqc|]. split; [exact En|].
    unfold native_verify, StarkModel.verify. rewrite shl1_small by lia. rewrite Lq, Eqd, Etd, Eqs. cbv zeta. rewrite Eqc, Es. cbn [negb].
    destruct Tr as (c4 & c5 & (c1 & c2 & c3 & A1 & A2 & A3 & A4) & A5 & A6). rewrite A1, A2, A3, A4, En. unfold pcs_verify. rewrite A5, A6.
    match goal with |- match match ?z with _ => _ end with _ => _ end = match ?y with _ => _ end => change z with y; destruct y as [[]|e|]; [|reflexivity|reflexivity] end.
    assert (Oo : StarkModel.ood_check BabyBearT ExtT from_base monomial M0 M Ch t pubs pf td qcs (felt (ch_alpha r)) (felt (ch_zeta r)) = Some true).
    { unfold StarkModel.ood_check. rewrite Ez, Eq, El. unfold tree_air in At.
      destruct (C75_native (sa_eval a) (p_local pf) (p_next pf) pubs sels (felt (ch_alpha r)) acc Ea) as (la & Al & Fl & _). rewrite Al in At. cbn [option_map] in At. injection At as <-.
      cbn [StarkModel.air_eval]. match goal with |- option_map _ ?z = _ => replace z with (Some acc) by (symmetry; exact Fl) end. cbn [option_map]. now rewrite Eo. }
    rewrite Oo. reflexivity.
  Qed.
  (** with several quotient chunks nothing is accepted *)
  Theorem C76_many_chunks : forall a t lqd pf pubs n r n', tree_air a = Some t ->
    StarkModel.get_log_quotient_degree BabyBearT t (length pubs) = Some lqd -> 1 <= lqd < 64 ->
    script_verify a pf pubs n = Some (r, n') -> r = Err (StarkModel.StarkInvalidProofShape BabyBearT ExtT M0 M).
  Proof.
    intros a t lqd pf pubs n r n' At Lq Ll E. apply script_inv in E as (x & n1 & t' & degree & lqd' & qd & qs & td & qcs & Ss & E).
    destruct Ss as [_ At' _ _ Lq' Eqd _ _ Eqc]. rewrite At in At'. injection At' as <-. rewrite Lq in Lq'. injection Lq' as <-.
    rewrite shl1_small in Eqd by lia. injection Eqd as <-.
    destruct (StarkModel.valid_shape BabyBearT ExtT 4 M0 M Ch t (2 ^ lqd) pf); [|exact E]. exfalso.
    destruct E as (p & n2 & n3 & sels & acc & Ep & _). destruct (prepare_inv _ _ _ _ _ _ _ _ _ Ep) as (r' & k1 & k2 & [_ _ _ _ (g & invs & q & Ec & _) _ _ _]).
    rewrite C44_more_chunks_panics in Ec; [discriminate Ec|].
    unfold StarkModel.split_domains in Eqc. rewrite log2_strict_pow in Eqc. destruct (StarkModel.coset_gen BabyBearT _); [|discriminate Eqc].
    match type of Eqc with (if ?z then _ else _) = _ => destruct z; [discriminate Eqc|] end. injection Eqc as <-. rewrite map_length, seq_length.
    destruct lqd as [|k]; [lia|]. rewrite Nat.pow_succ_r'. pose proof (Nat.pow_nonzero 2 k ltac:(lia)). lia.
  Qed.

  (** *** and what the check of the challenges tells *)
  Lemma accepted_checks : forall a pf pubs n n', proof_ok pf -> 1 <= proof_of_work_bits config <= 31 -> 1 <= log_max pf <= 31 ->
    script_verify a pf pubs n = Some (Ok tt, n') ->
    exists r vs, ch_indices r = native_indices (the_hash pf) true (log_max pf) (num_queries config) /\
      (exists alpha zeta batch fc, transcript pf alpha zeta batch fc (ch_native r)) /\
      verdict_of (vs ++ compared (ch_indices r) (script_indices (the_hash pf) (log_max pf) (num_queries config))) = true /\
      (p_degree_bits pf = 0 -> existsb fatal vs = true) /\
      (1 <= p_degree_bits pf -> clean (sample_input (ch_native r)) -> Forall (fun v => snd v = true) vs).
  Proof.
    intros a pf pubs n n' Po Cp Cl E. apply script_inv in E as (x & n1 & t & degree & lqd & qd & qs & td & qcs & Ss & E).
    destruct (StarkModel.valid_shape BabyBearT ExtT 4 M0 M Ch t qd pf); [|discriminate E]. destruct E as (p & n2 & n3 & sels & acc & Ep & Er & _).
    destruct (prepare_inv _ _ _ _ _ _ _ _ _ Ep) as (r & k1 & k2 & [Se Lk _ _ (g & invs & q & Ec & _) Eck _ _]).
    destruct (challenges_native M0 M words0 words config _ _ _ _ _ _ _ _ _ Se) as (Tr & _ & _ & Ld & _).
    destruct Po as [Wt Wq Wc Ww].
    assert (Bi : 1 <= length (map words (commits pf)) + log_blowup config <= 31) by (rewrite map_length; lia).
    assert (Ses : stark_session (num_queries config) (proof_of_work_bits config) (log_blowup config) (p_degree_bits pf) (words0 (p_trace pf)) (words0 (p_quotient pf)) (map words (commits pf)) (length (queries pf)) (witness pf) n = Some (r, k1)).
    { unfold stark_session. apply (bind_some _ _ _ _ _ _ _ _ (ss_new _ _ _ _ _ _ _ _ _ _ _ _ _ Ss)). exact Se. }
    destruct (session_goes G (num_queries config) (proof_of_work_bits config) (log_blowup config) (p_degree_bits pf) _ _ _ (length (queries pf)) _ Wt Wq Wc Ww Cp Bi ltac:(lia) n)
      as [(r' & n2' & all & l & vs & Se' & W & Iz & _ & _ & Lb & Ei & Fe & Pe & Ne & Q0 & Q)|[Se' _]]; rewrite Ses in Se'; [|discriminate Se'].
    injection Se' as <- <-. exists r, vs. rewrite map_length in Ei, Fe. split; [exact Ei|]. split; [do 4 eexists; exact Tr|]. split; [|split; [exact Q0|exact Q]].
    unfold managers in Er. change [g_quotient p; g_challenger p] with ([g_quotient p] ++ [g_challenger p]) in Er. rewrite app_assoc, run_app in Er.
    destruct (run_managers H G (g_queries p ++ [g_quotient p]) n2) as [[u n5]|] eqn:E5; [|discriminate Er].
    assert (Lr : forall ms n n' u, run_managers H G ms n = Some (u, n') -> n <= n').
    { induction ms as [|m ms IH]; intros k k' v Ek; cbn [run_managers] in Ek; [unfold ret in Ek; injection Ek as _ <-; lia|].
      apply bind_inv in Ek as (m' & k3 & Em & Ek). apply bind_inv in Ek as (u' & k4 & Ek4 & Ek). apply check_inv in Ek4 as [_ ->]. apply embed_hint_later in Em. apply IH in Ek. lia. }
    assert (L5 : n2 <= n5) by (eapply Lr; exact E5).
    assert (L2 : k2 <= n2) by exact (later_quotient _ _ _ _ _ _ _ _ _ _ _ Ec).
    destruct (run_checks H G OK n5 all l _ _ (world_later _ n5 _ _ W ltac:(lia)) Fe Pe Ne) as (mc & m6 & n6 & Emc & E6 & R6).
    rewrite challenger_manager_of, Emc in Eck. injection Eck as Eck. rewrite <- Eck in Er. cbn [run_managers] in Er. unfold bind in Er. rewrite E6, R6 in Er.
    match type of R6 with _ = ?z => destruct z eqn:Ev; [exact Ev|discriminate Er] end.
  Qed.
  (** *** and what its query scripts tell *)
  Lemma chain_left : forall t ls q v ros w q' lf, FriExprQuery.chain bf_ext4 M (m_err M0) t ls q v ros = Ok (w, q', lf) -> lf = leftover bf_ext4 M ls ros.
  Proof.
    intros t. induction ls as [|[[[h c] [vals pf]] beta] ls IH]; intros q v ros w q' lf E; cbn [FriExprQuery.chain] in E.
    - injection E as _ _ <-. reflexivity.
    - destruct (next_opening bf_ext4 h v ros) as [v1 ros1] eqn:En. destruct vals as [|r [|]]; try discriminate E.
      match type of E with match ?z with _ => _ end = _ => destruct z; try discriminate E end. match type of E with match ?z with _ => _ end = _ => destruct z; try discriminate E end. apply IH in E. rewrite E.
      unfold next_opening in En. destruct ros as [|[lh ro] rest]; cbn [leftover]; [injection En as _ <-; apply leftover_nil|].
      destruct (lh =? h + 1); injection En as _ <-; reflexivity.
  Qed.
  Lemma loop_chain : forall t ls q f x h ros m n e q1 m' n', query_loop_expr bf_ext4 M (m_err M0) t ls q f x h ros m n = Some ((Ok (e, q1), m'), n') ->
    forall v zros, exists w, FriExprQuery.chain bf_ext4 M (m_err M0) t ls q v zros = Ok (w, q1, leftover bf_ext4 M ls zros).
  Proof.
    intros t ls q f x h ros m n e q1 m' n' E v zros.
    assert (C : exists w lf, FriExprQuery.chain bf_ext4 M (m_err M0) t ls q v zros = Ok (w, q1, lf)).
    { revert q f x h ros m n E v zros. induction ls as [|[[[lh c] [vals pf]] beta] ls IH]; intros q f x h ros m n E v zros; cbn [query_loop_expr FriExprQuery.chain] in *.
      - unfold ret in E. injection E as _ <- _ _. eauto.
      - inv_bind E. destruct vals as [|r [|]]; try discriminate E. destruct (next_opening bf_ext4 lh v zros) as [v1 ros1].
        match type of E with match ?z with _ => _ end _ = _ => destruct z; try discriminate E end. inv_get E. rewrite Eg. inv_bind E. inv_bind E. inv_bind E. inv_bind E. cbv zeta in E. eapply IH. exact E. }
    destruct C as (w & lf & C). exists w. now rewrite (chain_left _ _ _ _ _ _ _ _ C) in C.
  Qed.
  (** a query script was built: the query folds to a value *)
  Lemma query_folds : forall rounds alpha commits final bs lmh t q ip openings n m n',
    query_manager bf_ext4 M IP (m_err M0) config debug (open_input_expr M0 config alpha lmh rounds) commits final bs lmh t q ip openings n = Some (Ok m, n') ->
    exists ros w q1, native_openings M0 config alpha lmh rounds t q ip = Ok ros /\
      FriExprQuery.chain bf_ext4 M (m_err M0) t (layers bf_ext4 M lmh commits openings bs) q f0 ros = Ok (w, q1, leftover bf_ext4 M (layers bf_ext4 M lmh commits openings bs) ros) /\
      debug && negb (q1 <? blowup config) = false.
  Proof.
    intros rounds alpha cs final bs lmh t q ip openings n m n' E. unfold query_manager in E. inv_bind E. destruct v as [o m1]. cbn [fst snd] in E.
    destruct (native_openings M0 config alpha lmh rounds t q ip) as [ros|e|] eqn:No.
    - destruct o as [eros|e|]; [|discriminate E|discriminate E]. inv_bind E. destruct v as [o m2]. cbn [fst snd] in E. destruct o as [fe|e|]; [clear E|discriminate E|discriminate E].
      unfold verify_query_expr in Eb0. inv_bind Eb0. inv_bind Eb0. inv_bind Eb0. inv_get Eb0. cbv zeta in Eb0. inv_bind Eb0. destruct v3 as [[[e1 q1]|e1|] m3]; cbn [fst snd] in Eb0; [|discriminate Eb0|discriminate Eb0].
      destruct (debug && negb (q1 <? blowup config)) eqn:Db; [discriminate Eb0|]. destruct (loop_chain _ _ _ _ _ _ _ _ _ _ _ _ _ Eb4 f0 ros) as [w C].
      exists ros, w, q1. split; [reflexivity|]. split; [exact C|exact Db].
    - exfalso. destruct (C74_openings G M0 config alpha lmh rounds t q ip) as [_ W]. rewrite No in W. destruct (W n (sinv_new n)) as (r & m' & k' & all' & Eo & _ & _ & _ & ->).
      rewrite Eb in Eo. injection Eo as -> _ _. discriminate E.
    - exfalso. rewrite (C74_panics M0 config alpha lmh rounds t q ip manager_new n No) in Eb. discriminate Eb.
  Qed.
  Notation folding pf batch rounds bs := (fun p => folds_to bf_ext4 M IP (m_err M0) config debug (native_openings M0 config batch (log_max pf) rounds) (commits pf) bs (log_max pf)
       (fst (fst p)) (snd (fst p)) (input_proof ExtT M IP (snd p)) (commit_phase_openings ExtT M IP (snd p)) (final_poly ExtT M Ch IP (p_opening pf))).
  Lemma queries_fold : forall pf rounds alpha bs, 1 <= log_blowup config -> log_max pf <= 27 -> forall qs n ms n', Forall (fun p => snd (fst p) < 2 ^ log_max pf) qs ->
    query_managers bf_ext4 M IP (m_err M0) config debug (open_input_expr M0 config alpha (log_max pf) rounds) (commits pf) (final_poly ExtT M Ch IP (p_opening pf)) bs (log_max pf)
      (map (fun p => (fst p, (input_proof ExtT M IP (snd p), commit_phase_openings ExtT M IP (snd p)))) qs) n = Some (Ok ms, n') ->
    Forall (fun p => forall ros, native_openings M0 config alpha (log_max pf) rounds (fst (fst p)) (snd (fst p)) (input_proof ExtT M IP (snd p)) = Ok ros ->
       leftover bf_ext4 M (layers bf_ext4 M (log_max pf) (commits pf) (commit_phase_openings ExtT M IP (snd p)) bs) ros = []) qs ->
    n <= n' /\ forall n1 u n2, n' <= n1 -> run_managers H G ms n1 = Some (u, n2) -> exists ems, embed_all ms n1 = Some (ems, n2) /\
      (Forall (room G) ems -> Forall (folding pf alpha rounds bs) qs).
  Proof.
    intros pf rounds alpha bs Lb Lm. assert (Lr : 1 <= log_max pf <= 27) by lia. assert (Lc : length (commits pf) < log_max pf) by lia. induction qs as [|[[t q] qp] qs IH]; intros n ms n' Fq E A; cbn [map query_managers] in E.
    - unfold ret in E. injection E as <- <-. split; [lia|]. intros n1 u n2 Ln Er. cbn in Er. unfold ret in Er. injection Er as _ <-. exists []. split; [reflexivity|constructor].
    - inversion_clear Fq as [|? ? Lq Fq']. inversion_clear A as [|? ? Aq A']. cbn [fst snd] in Lq, Aq, E.
      inv_bind E. destruct v as [m|e|]; [|discriminate E|discriminate E]. inv_bind E. destruct v as [ms'|e|]; [|discriminate E|discriminate E]. unfold ret in E. injection E as <- <-.
      destruct (query_folds _ _ _ _ _ _ _ _ _ _ _ _ _ Eb) as (ros & w & q1 & No & Ch0 & Db). rewrite (Aq ros No) in Ch0.
      assert (Fo : folds_to bf_ext4 M IP (m_err M0) config debug (native_openings M0 config alpha (log_max pf) rounds) (commits pf) bs (log_max pf) t q (input_proof ExtT M IP qp) (commit_phase_openings ExtT M IP qp) w) by (econstructor; eassumption).
      destruct (C72_query H G OK bf_ext4 (or_intror eq_refl) M _ _ config debug _ _ (C74_openings G M0 config alpha (log_max pf) rounds) (commits pf) (final_poly ExtT M Ch IP (p_opening pf)) bs (log_max pf) t q
        (input_proof ExtT M IP qp) (commit_phase_openings ExtT M IP qp) w n Lr Lq Lc Fo) as (m' & n1' & L1 & Eq & Ac).
      assert (Eq' := eq_trans (eq_sym Eb) Eq). clear Eq. injection Eq' as <- <-. destruct (IH _ _ _ Fq' Eb0 A') as [L2 R]. split; [lia|].
      intros n1 u n2 Ln Er. cbn [run_managers] in Er. inv_bind Er. inv_bind Er. apply check_inv in Eb2 as [Rm ->].
      destruct (Ac n1 ltac:(lia)) as (m2 & k2 & Em & Rn). rewrite Eb1 in Em. injection Em as <- <-. pose proof (embed_hint_later _ _ _ _ Eb1) as L3.
      destruct (R _ _ _ (Nat.le_trans _ _ _ Ln L3) Er) as (ems & Ee & Re). exists (v :: ems). split; [cbn [embed_all]; unfold bind; rewrite Eb1, Ee; reflexivity|].
      intros Fr. inversion_clear Fr as [|? ? Fm Fs]. constructor; [|exact (Re Fs)]. cbn [fst snd]. destruct (Rn Fm) as [Rn' _]. rewrite <- (Rn' Rm). exact Fo.
  Qed.
  (** every reduced opening belongs to a layer; the rows of all layers contain the values carried along *)
  Definition openings_used (pf : sproof) : Prop := for_queries pf (fun t q qp bs ros =>
    leftover bf_ext4 M (layers bf_ext4 M (log_max pf) (commits pf) (commit_phase_openings ExtT M IP qp) bs) ros = []).
  Definition layers_agree (pf : sproof) : Prop := for_queries pf (fun t q qp bs ros =>
    consistent bf_ext4 M (layers bf_ext4 M (log_max pf) (commits pf) (commit_phase_openings ExtT M IP qp) bs) q f0 ros).
  (** An accepted proof: every query, at the index the native verifier samples, folds to the final
      value of the proof. *)
  Theorem C76_accepted_folds : forall a t pf pubs n n', tree_air a = Some t -> StarkModel.get_log_quotient_degree BabyBearT t (length pubs) = Some 0 ->
    config_ok pf -> openings_used pf -> scripts_fit n pf -> script_verify a pf pubs n = Some (Ok tt, n') ->
    exists alpha zeta batch fc ch' td qcs zn, transcript pf alpha zeta batch fc ch' /\ natural_domain_for_degree BabyBearT (2 ^ p_degree_bits pf) = Some td /\
      StarkModel.split_domains BabyBearT (StarkModel.create_disjoint_domain BabyBearT (of_Z 31) td (2 ^ p_degree_bits pf)) 1 = Some qcs /\
      StarkModel.next_point BabyBearT ExtT from_base td zeta = Some zn /\
      Forall (folding pf batch (StarkModel.pcs_rounds BabyBearT ExtT M0 M Ch pf td qcs zeta zn) (betas ExtT fc)) (combine (query_indices ExtT fc) (queries pf)).
  Proof.
    intros a t pf pubs n n' At Lq [_ Cb Cm Cd] Ou Sf E. apply script_inv in E as (x & n1 & t' & degree & lqd & qd & qs & td & qcs & [Ex At' _ Ed Lq' Eqd Etd Eqs Eqc] & E).
    rewrite At in At'. injection At' as <-. rewrite Lq in Lq'. injection Lq' as <-. rewrite shl1_small in Ed by lia. injection Ed as <-. rewrite (shl1_small 0) in Eqd by lia. injection Eqd as <-.
    rewrite Nat.add_0_r, shl1_small in Eqs by lia. injection Eqs as <-.
    destruct (StarkModel.valid_shape BabyBearT ExtT 4 M0 M Ch t 1 pf) eqn:Es; [|discriminate E]. destruct E as (p & n2 & n3 & sels & acc & Ep & Er & _).
    destruct (prepare_inv _ _ _ _ _ _ _ _ _ Ep) as (r & k1 & k2 & [Se Lk Eqm _ (g & invs & q & Ec & Eg) _ _ _]).
    destruct (challenges_native M0 M words0 words config _ _ _ _ _ _ _ _ _ Se) as (Tr & _ & _ & _ & En).
    assert (Etd' : td = {| log_n := p_degree_bits pf; shift := f1 |}).
    { unfold natural_domain_for_degree in Etd. rewrite log2_strict_pow in Etd. now injection Etd as <-. }
    rewrite <- Etd' in En. do 5 eexists. exists td, qcs, (ch_zeta_next r). split; [exact Tr|]. split; [exact Etd|]. split; [exact Eqc|]. split; [exact En|].
    destruct (queries_fold pf _ _ _ Cb Cm _ _ _ _ (queries_small _ _ _ _ _ _ Tr) Eqm (Ou _ _ _ _ _ _ _ _ Tr Etd Eqc En)) as [L1 R].
    assert (L2 : k2 <= n2) by exact (later_quotient _ _ _ _ _ _ _ _ _ _ _ Ec).
    unfold managers in Er. change [g_quotient p; g_challenger p] with ([g_quotient p] ++ [g_challenger p]) in Er. rewrite app_assoc, run_app in Er.
    destruct (run_managers H G (g_queries p ++ [g_quotient p]) n2) as [[u n5]|] eqn:E5; [clear Er|discriminate Er]. rewrite run_app in E5.
    destruct (run_managers H G (g_queries p) n2) as [[u' n6]|] eqn:E6; [|discriminate E5]. destruct (R _ _ _ L2 E6) as (ems & Ee & Re). apply Re.
    cbn [run_managers] in E5. inv_bind E5. clear E5.
    assert (Ea : embed_all (g_queries p ++ [g_quotient p]) n2 = Some (ems ++ [v], k)).
    { clear -Ee Eb. revert n2 ems Ee. induction (g_queries p) as [|m ms IH]; intros n2 ems Ee; cbn [app embed_all] in *.
      - unfold ret in Ee. injection Ee as <- <-. unfold bind. rewrite Eb. reflexivity.
      - inv_bind Ee. inv_bind Ee. unfold ret in Ee. injection Ee as <- <-. unfold bind. rewrite Eb0. rewrite (IH _ _ Eb1). reflexivity. }
    pose proof (Sf _ _ _ _ _ _ _ _ Ex Etd Eqc Ep Ea) as Fr. apply Forall_app in Fr as [Fr _]. exact Fr.
  Qed.
  (** Soundness relative to the native verifier: an accepted proof whose layers agree is accepted by
      the native verifier.  (They need not agree: C72_accepted_is_native_refuted.) *)
  Theorem C76_sound : forall a t pf pubs n n', tree_air a = Some t -> StarkModel.get_log_quotient_degree BabyBearT t (length pubs) = Some 0 ->
    config_ok pf -> openings_used pf -> layers_agree pf -> scripts_fit n pf -> script_verify a pf pubs n = Some (Ok tt, n') ->
    exists ch', native_verify t pf pubs = Ok ch'.
  Proof.
    intros a t pf pubs n n' At Lq Co Ou La Sf E. destruct (C76_accepted_folds a t pf pubs n n' At Lq Co Ou Sf E) as (alpha & zeta & batch & fc & ch' & td & qcs & zn & Tr & Etd & Eqc & En & Fo).
    destruct (C76_accepted a pf pubs n n' E) as (t' & lqd & qd & qs & td' & qcs' & alpha' & zeta' & batch' & fc' & ch'' & zn' & At' & Tr' & Lq' & Eqd & Eqs & Etd' & Eqc' & En' & V).
    rewrite At in At'. injection At' as <-. rewrite Lq in Lq'. injection Lq' as <-. destruct Co as [_ Cb Cm Cd]. rewrite (shl1_small 0) in Eqd by lia. injection Eqd as <-. rewrite Nat.add_0_r, shl1_small in Eqs by lia. injection Eqs as <-.
    destruct (transcript_det M0 M words0 words config _ _ _ _ _ _ _ _ _ _ _ _ _ _ Tr' Tr) as (_ & -> & -> & -> & _).
    rewrite Etd in Etd'. injection Etd' as <-. change (2 ^ 0) with 1 in Eqc'. rewrite Eqc in Eqc'. injection Eqc' as <-. rewrite En in En'. injection En' as <-.
    exists ch''. rewrite V. pose proof (La _ _ _ _ _ _ _ _ Tr Etd Eqc En) as Lx. clear V. unfold verify_challenges.
    match goal with |- match ?z with _ => _ end = _ => assert (Q : z = Ok tt); [|rewrite Q; reflexivity] end.
    revert Fo Lx. generalize (combine (query_indices ExtT fc) (queries pf)). induction l as [|[[i q] qp] l IH]; intros Fo Lx; [reflexivity|].
    inversion_clear Fo as [|? ? F1 F2]. inversion_clear Lx as [|? ? X1 X2]. cbn [fst snd] in F1, X1. cbn [verify_queries].
    destruct F1 as [zros q' No Ch0 Db] eqn:EF. clear EF.
    pose proof (C72_script_native bf_ext4 (or_intror eq_refl) M IP (m_err M0) config debug _ (commits pf) (betas ExtT fc) (log_max pf) i q (input_proof ExtT M IP qp) (commit_phase_openings ExtT M IP qp) zros (final_poly ExtT M Ch IP (p_opening pf)) Cm No (X1 zros No)
      (folds_to_intro _ _ _ _ _ _ _ _ _ _ _ _ _ _ _ _ _ No Ch0 Db)) as Vq.
    rewrite No. destruct qp as [ip os]. cbn [input_proof commit_phase_openings] in *.
    match goal with |- match ?z with _ => _ end = _ => replace z with (Ok (final_poly ExtT M Ch IP (p_opening pf)) : outcome (fri_error (m_err M) (m_err M0)) ExtT) by (symmetry; exact Vq) end.
    rewrite feqb_refl. exact (IH F2 X2).
  Qed.
  (** a trace with one row is never accepted *)
  Theorem C76_one_row : forall a pf pubs n n', proof_ok pf -> 1 <= proof_of_work_bits config <= 31 -> 1 <= log_max pf <= 31 -> p_degree_bits pf = 0 ->
    script_verify a pf pubs n <> Some (Ok tt, n').
  Proof.
    intros a pf pubs n n' Po Cp Cl D E. destruct (accepted_checks a pf pubs n n' Po Cp Cl E) as (r & vs & _ & _ & V & Q & _).
    unfold verdict_of in V. rewrite existsb_app, (Q D) in V. discriminate V.
  Qed.
  (** the query indices of an accepted proof: an even number of them differs from those of the script *)
  Theorem C76_accepted_even : forall a pf pubs n n' alpha zeta batch fc ch', proof_ok pf -> config_ok pf -> script_verify a pf pubs n = Some (Ok tt, n') ->
    transcript pf alpha zeta batch fc ch' -> no_sign_word ch' -> Nat.even (differing pf) = true.
  Proof.
    intros a pf pubs n n' alpha zeta batch fc ch' Po [Cp Cb Ch0 Cd] E Tr Ns. destruct (accepted_checks a pf pubs n n' Po Cp ltac:(lia) E) as (r & vs & Ei & (a' & z' & b' & f' & Tr') & V & _ & Q).
    destruct (transcript_det M0 M words0 words config _ _ _ _ _ _ _ _ _ _ _ _ _ _ Tr' Tr) as (_ & _ & _ & _ & Hc).
    rewrite verdict_compared in V by (apply Q; [lia|rewrite Hc; now apply clean_iff]). rewrite Ei in V. exact V.
  Qed.
  (** an AIR without constraints is never accepted *)
  Theorem C76_no_constraints : forall a pf pubs n n', existsb is_assert (sa_eval a) = false -> fits_stack (sa_eval a) (p_local pf) pubs ->
    script_verify a pf pubs n <> Some (Ok tt, n').
  Proof.
    intros a pf pubs n n' Na Fs E. apply script_inv in E as (x & n1 & t & degree & lqd & qd & qs & td & qcs & Ss & E).
    destruct (StarkModel.valid_shape BabyBearT ExtT 4 M0 M Ch t qd pf) eqn:Es; [|discriminate E].
    destruct E as (p & n2 & n3 & sels & acc & _ & _ & El & Ea & E).
    destruct (feqb (fmul acc (StarkModel.inv_zeroifier ExtT sels)) (g_result p)) eqn:Eo; [destruct E as [_ (n4 & E)]|discriminate E].
    unfold StarkModel.valid_shape in Es. apply andb_true_iff in Es as [Es1 _]. apply andb_true_iff in Es1 as [Es1 _]. apply andb_true_iff in Es1 as [Es1 Es2].
    apply Nat.eqb_eq in Es1. apply Nat.eqb_eq in Es2.
    assert (Etd : td = {| log_n := log_n td; shift := f1 |}).
    { assert (Etd := ss_td _ _ _ _ _ _ _ _ _ _ _ _ _ Ss). unfold natural_domain_for_degree in Etd. match type of Etd with option_map _ ?z = _ => destruct z as [k|] end; cbn [option_map] in Etd; [|discriminate Etd]. injection Etd as <-. reflexivity. }
    rewrite Etd in El.
    destruct (C75_no_constraints H G OK public_row (sa_eval a) (p_local pf) (p_next pf) pubs (g_zeta p) (g_alpha p) (log_n td) sels acc acc n3 (eq_trans Es2 (eq_sym Es1)) Fs El Ea Na) as [_ E'].
    rewrite E' in E. discriminate E.
  Qed.
  (** the transcript as a function *)
  Definition transcript_of (pf : sproof) : option (ExtT * ExtT * ExtT * fri_challenges ExtT * chal) :=
    match observe0 M0 words0 (new 16 4) (p_trace pf) with
    | None => None
    | Some c1 => match c_sample Ch c1 with
      | None => None
      | Some (alpha, c2) => match observe0 M0 words0 c2 (p_quotient pf) with
        | None => None
        | Some c3 => match c_sample Ch c3 with
          | None => None
          | Some (zeta, c4) => match c_sample Ch c4 with
            | None => None
            | Some (batch, c5) => match verify_shape_and_sample_challenges ExtT M Ch IP (m_err M0) config (p_opening pf) c5 with
              | Ok (fc, c') => Some (alpha, zeta, batch, fc, c')
              | _ => None
              end
            end
          end
        end
      end
    end.
  Lemma transcript_is : forall pf alpha zeta batch fc c', transcript pf alpha zeta batch fc c' -> transcript_of pf = Some (alpha, zeta, batch, fc, c').
  Proof. intros pf alpha zeta batch fc c' (c4 & c5 & (c1 & c2 & c3 & A1 & A2 & A3 & A4) & A5 & A6). unfold transcript_of. now rewrite A1, A2, A3, A4, A5, A6. Qed.
  (** the conditions on the openings and on the stack, decided *)
  Definition top_consistent_b (n : nat) (cs : list (m_comm M)) (os : list (list (list ExtT) * m_proof M)) (bs : list ExtT) (q : nat) (v : ExtT) (ros : list (nat * ExtT)) : bool :=
    match layers bf_ext4 M n cs os bs with
    | (h, _, ([r], _), _) :: _ => match nth_error r (q mod 2) with Some w => @feqb ExtT w (fst (next_opening bf_ext4 h v ros)) | None => false end
    | _ => true
    end.
  Lemma top_consistent_b_ok : forall n cs os bs q v ros, top_consistent_b n cs os bs q v ros = true -> top_consistent bf_ext4 M n cs os bs q v ros.
  Proof.
    intros n cs os bs q v ros. unfold top_consistent_b, top_consistent. destruct (layers bf_ext4 M n cs os bs) as [|[[[h c] [[|r [|]] pf]] b] ls]; try (intros _; exact Logic.I).
    destruct (nth_error r (q mod 2)) as [w|]; [|discriminate]. intros E. destruct (feqb_spec ExtT w (fst (next_opening bf_ext4 h v ros))) as [Ew|]; [|discriminate E]. now rewrite <- Ew.
  Qed.
  Fixpoint consistent_b (ls : list (nat * m_comm M * (list (list ExtT) * m_proof M) * ExtT)) (q : nat) (v : ExtT) (ros : list (nat * ExtT)) : bool :=
    match ls with
    | [] => true
    | (h, _, ([[a; b]], _), beta) :: ls =>
        @feqb ExtT (if q mod 2 =? 0 then a else b) (fst (next_opening bf_ext4 h v ros)) &&
        consistent_b ls (q / 2) (FriProofs.folded_pair bf_ext4 beta (FriProofs.point bf_ext4 h (q / 2)) a b) (snd (next_opening bf_ext4 h v ros))
    | _ => false
    end.
  Lemma consistent_b_ok : forall ls q v ros, consistent_b ls q v ros = true -> consistent bf_ext4 M ls q v ros.
  Proof.
    induction ls as [|[[[h c] [[|[|a [|b [|]]] [|]] pf]] beta] ls IH]; intros q v ros E; try discriminate E; [exact Logic.I|]. cbn [consistent_b consistent] in *.
    apply andb_true_iff in E as [E1 E2]. exists a, b. split; [reflexivity|]. split; [|now apply IH].
    match type of E1 with feqb ?y ?z = true => destruct (feqb_spec ExtT y z) as [Q|]; [|discriminate E1]; change (nth_error [a; b] (q mod 2) = Some z); rewrite <- Q end.
    pose proof (Nat.mod_upper_bound q 2 ltac:(lia)). destruct (q mod 2) as [|[|k]]; [reflexivity|reflexivity|lia].
  Qed.
  Definition agree_b (pf : sproof) : bool :=
    match transcript_of pf, natural_domain_for_degree BabyBearT (2 ^ p_degree_bits pf) with
    | Some (_, zeta, batch, fc, _), Some td =>
        match StarkModel.split_domains BabyBearT (StarkModel.create_disjoint_domain BabyBearT (of_Z 31) td (2 ^ p_degree_bits pf)) 1, StarkModel.next_point BabyBearT ExtT from_base td zeta with
        | Some qcs, Some zn => forallb (fun p : nat * nat * query_proof ExtT M IP =>
            match native_openings M0 config batch (log_max pf) (StarkModel.pcs_rounds BabyBearT ExtT M0 M Ch pf td qcs zeta zn) (fst (fst p)) (snd (fst p)) (input_proof ExtT M IP (snd p)) with
            | Ok ros => top_consistent_b (log_max pf) (commits pf) (commit_phase_openings ExtT M IP (snd p)) (betas ExtT fc) (snd (fst p)) f0 ros &&
                (consistent_b (layers bf_ext4 M (log_max pf) (commits pf) (commit_phase_openings ExtT M IP (snd p)) (betas ExtT fc)) (snd (fst p)) f0 ros &&
                match leftover bf_ext4 M (layers bf_ext4 M (log_max pf) (commits pf) (commit_phase_openings ExtT M IP (snd p)) (betas ExtT fc)) ros with [] => true | _ => false end)
            | _ => true
            end) (combine (query_indices ExtT fc) (queries pf))
        | _, _ => true
        end
    | _, _ => true
    end.
  Lemma agree_b_ok : forall pf, agree_b pf = true -> openings_agree pf /\ layers_agree pf /\ openings_used pf.
  Proof.
    intros pf B.
    assert (Q : for_queries pf (fun t q qp bs ros => top_consistent bf_ext4 M (log_max pf) (commits pf) (commit_phase_openings ExtT M IP qp) bs q f0 ros /\
      consistent bf_ext4 M (layers bf_ext4 M (log_max pf) (commits pf) (commit_phase_openings ExtT M IP qp) bs) q f0 ros /\
      leftover bf_ext4 M (layers bf_ext4 M (log_max pf) (commits pf) (commit_phase_openings ExtT M IP qp) bs) ros = [])).
    { intros alpha zeta batch fc c' td qcs zn Tr Etd Eqc En. unfold agree_b in B. rewrite (transcript_is _ _ _ _ _ _ Tr), Etd, Eqc, En in B.
      rewrite forallb_forall in B. apply Forall_forall. intros p Ip ros Er. specialize (B p Ip). rewrite Er in B. apply andb_true_iff in B as [B1 B2]. apply andb_true_iff in B2 as [B2 B3].
      split; [now apply top_consistent_b_ok|]. split; [now apply consistent_b_ok|].
      match type of B3 with match ?z with _ => _ end = _ => destruct z; [reflexivity|discriminate B3] end. }
    assert (W : forall P, (forall t q qp bs ros, top_consistent bf_ext4 M (log_max pf) (commits pf) (commit_phase_openings ExtT M IP qp) bs q f0 ros /\
      consistent bf_ext4 M (layers bf_ext4 M (log_max pf) (commits pf) (commit_phase_openings ExtT M IP qp) bs) q f0 ros /\
      leftover bf_ext4 M (layers bf_ext4 M (log_max pf) (commits pf) (commit_phase_openings ExtT M IP qp) bs) ros = [] -> P t q qp bs ros : Prop) -> for_queries pf P).
    { intros P I alpha zeta batch fc c' td qcs zn Tr Etd Eqc En. eapply Forall_impl; [|exact (Q _ _ _ _ _ _ _ _ Tr Etd Eqc En)]. intros p X ros Er. exact (I _ _ _ _ _ (X ros Er)). }
    split; [|split]; apply W; intros; tauto.
  Qed.
  Definition room_of (m : manager) : bool :=
    match mn_exec m with Some e => (Z.of_nat (length (flat_map snd (given m)) + need G (snd (simulate_input m)) e) <? 2 ^ 31)%Z | None => true end.
  Definition fit_b (n : nat) (pf : sproof) : bool :=
    match x_new n, natural_domain_for_degree BabyBearT (2 ^ p_degree_bits pf) with
    | Some (x, n1), Some td =>
      match StarkModel.split_domains BabyBearT (StarkModel.create_disjoint_domain BabyBearT (of_Z 31) td (2 ^ p_degree_bits pf)) 1 with
      | Some qcs => match prepare M0 M words0 words config debug pf (2 ^ p_degree_bits pf) 0 td qcs (new 16 4) x n1 with
         | Some (p, n2) => match embed_all (g_queries p ++ [g_quotient p]) n2 with Some (ems, _) => forallb room_of ems | None => true end
         | None => true end
      | None => true end
    | _, _ => true end.
  Lemma fit_b_ok : forall n pf, fit_b n pf = true -> scripts_fit n pf.
  Proof.
    intros n pf B x n1 td qcs p n2 ems n3 Ex Etd Eqc Ep Ee. unfold fit_b in B. rewrite Ex, Etd, Eqc, Ep, Ee in B. rewrite forallb_forall in B.
    apply Forall_forall. intros m Im e E. specialize (B m Im). unfold room_of in B. rewrite E in B. now apply Z.ltb_lt.
  Qed.
  Definition clean_b (o : outcome (StarkModel.stark_error BabyBearT ExtT M0 M) chal) : bool :=
    match o with Ok c => forallb (fun w => negb (le_u32 w =? 2 ^ 31)%Z) (concat (sample_input c)) | _ => false end.
  Lemma clean_b_ok : forall o, clean_b o = true -> exists ch', o = Ok ch' /\ no_sign_word ch'.
  Proof.
    intros [ch'|e|] C; try discriminate C. exists ch'. split; [reflexivity|]. cbn [clean_b] in C.
    apply clean_iff. unfold clean. rewrite forallb_forall in C. apply Forall_forall. intros w Iw. specialize (C w Iw). unfold plain_word. intros Q. rewrite Q in C. discriminate C.
  Qed.
  Lemma verdict_b : forall a t pf pubs n, tree_air a = Some t -> existsb is_assert (sa_eval a) = true -> indexed (sa_width a) (length pubs) (sa_eval a) = true ->
    fits_stack (sa_eval a) (p_local pf) pubs -> proof_ok pf -> config_ok pf -> StarkModel.get_log_quotient_degree BabyBearT t (length pubs) = Some 0 ->
    clean_b (native_verify t pf pubs) = true -> agree_b pf = true -> fit_b n pf = true ->
    (exists ch', native_verify t pf pubs = Ok ch' /\ no_sign_word ch') /\ (openings_agree pf /\ layers_agree pf /\ openings_used pf) /\ scripts_fit n pf /\
    if Nat.even (differing pf) then exists n', script_verify a pf pubs n = Some (Ok tt, n') else script_verify a pf pubs n = None.
  Proof.
    intros a t pf pubs n At Ex Ix Fs Po Co Lq C A F. destruct (clean_b_ok _ C) as (ch' & En & Ns). split; [eauto|]. split; [exact (agree_b_ok pf A)|]. split; [exact (fit_b_ok n pf F)|].
    exact (C76_verdict a t pf pubs ch' n At Ex Ix Fs Po Co Lq En Ns (proj1 (agree_b_ok pf A)) (fit_b_ok n pf F)).
  Qed.
End Generate.

(** ** A proof for a table with one constant column of four zeros *)
Definition open_mmcs (A : Type) : mmcs A := mk_mmcs A (list word4) unit bool unit unit
  (fun _ _ => None) (fun _ => None) (fun _ _ _ => None) (fun _ _ pf _ => if pf then Ok tt else Err tt).
Definition ex_mmcs0 : mmcs BabyBearT := open_mmcs (car BabyBearT).
Definition ex_mmcs : mmcs ExtT := open_mmcs (car ExtT).
Definition ex_words (c : list word4) : list word4 := c.
Definition ex_config (nq : nat) : fri_config := {| log_blowup := 1; num_queries := nq; proof_of_work_bits := 1 |}.
(** the column is constant *)
Definition ex_air : script_air := mksair 1 [SLocal 0; SNext 0; STransition; SSub 1 0; SMul 2 3; SAssertZero 4].
Definition ex_zero : ExtT := f0.
Definition ex_query : query_proof ExtT ex_mmcs (list (batch_opening BabyBearT ex_mmcs0)) :=
  Build_query_proof ExtT ex_mmcs (list (batch_opening BabyBearT ex_mmcs0))
    [([[f0]], true); ([[f0; f0; f0; f0]], true)] [([[ex_zero; ex_zero]], true); ([[ex_zero; ex_zero]], true)].
Definition ex_fri (nq : nat) : fri_proof ExtT ex_mmcs (stark_ch ex_mmcs ex_words) (list (batch_opening BabyBearT ex_mmcs0)) :=
  Build_fri_proof ExtT ex_mmcs (stark_ch ex_mmcs ex_words) _ [commit_of 3; commit_of 4] (repeat ex_query nq) ex_zero [5; 0; 0; 0]%Z.
Definition ex_proof (nq : nat) : StarkModel.proof BabyBearT ExtT ex_mmcs0 ex_mmcs (stark_ch ex_mmcs ex_words) :=
  StarkModel.Build_proof BabyBearT ExtT ex_mmcs0 ex_mmcs (stark_ch ex_mmcs ex_words) (commit_of 1) (commit_of 2)
    [ex_zero] [ex_zero] [[ex_zero; ex_zero; ex_zero; ex_zero]] (ex_fri nq) 2.
Definition ex_tree : StarkModel.air BabyBearT := match tree_air ex_air with Some t => t | None => StarkModel.Build_air BabyBearT 0 [] end.
Notation ex_native nq := (native_verify ex_mmcs0 ex_mmcs ex_words ex_words (ex_config nq) true ex_tree (ex_proof nq) []).
Lemma ex_proof_ok : forall nq, proof_ok ex_mmcs0 ex_mmcs ex_words ex_words (ex_proof nq).
Proof. intros nq. constructor; [apply commit_of_ok; reflexivity|apply commit_of_ok; reflexivity|exact fri_commits|exact word_of_5]. Qed.
Lemma ex_config_ok : forall nq, config_ok ex_mmcs0 ex_mmcs ex_words (ex_config nq) (ex_proof nq).
Proof. intros nq. constructor; cbn; lia. Qed.
Notation ex_agree nq := (agree_b ex_mmcs0 ex_mmcs ex_words ex_words (ex_config nq) (ex_proof nq)).
Notation ex_fit nq := (fit_b my_gadgets ex_mmcs0 ex_mmcs ex_words ex_words (ex_config nq) true 0 (ex_proof nq)).
Notation ex_script H nq := (script_verify H my_gadgets 0 ex_mmcs0 ex_mmcs ex_words ex_words (ex_config nq) true ex_air (ex_proof nq) [] 0).
Notation ex_differing nq := (differing ex_mmcs0 ex_mmcs ex_words ex_words (ex_config nq) (ex_proof nq)).
Notation ex_openings_agree nq := (openings_agree ex_mmcs0 ex_mmcs ex_words ex_words (ex_config nq) (ex_proof nq) /\
  layers_agree ex_mmcs0 ex_mmcs ex_words ex_words (ex_config nq) (ex_proof nq) /\ openings_used ex_mmcs0 ex_mmcs ex_words ex_words (ex_config nq) (ex_proof nq)).
Notation ex_scripts_fit nq := (scripts_fit my_gadgets ex_mmcs0 ex_mmcs ex_words ex_words (ex_config nq) true 0 (ex_proof nq)).
Lemma ex_stack : forall nq, fits_stack (sa_eval ex_air) (StarkModel.p_local BabyBearT ExtT ex_mmcs0 ex_mmcs (stark_ch ex_mmcs ex_words) (ex_proof nq)) [].
Proof. intros nq. unfold fits_stack. cbn [length ex_air ex_proof StarkModel.p_local sa_eval]. lia. Qed.
Lemma ex_verdict : forall H nq, clean_b ex_mmcs0 ex_mmcs (ex_native nq) = true -> ex_agree nq = true -> ex_fit nq = true ->
  (exists ch', ex_native nq = Ok ch' /\ no_sign_word ch') /\ ex_openings_agree nq /\ ex_scripts_fit nq /\
  if Nat.even (ex_differing nq) then exists n', ex_script H nq = Some (Ok tt, n') else ex_script H nq = None.
Proof.
  intros H nq C A F.

  assert (T1 : tree_air ex_air = Some ex_tree) by reflexivity.
  assert (T2 : existsb is_assert (sa_eval ex_air) = true) by reflexivity.
  assert (T3 : indexed (sa_width ex_air) (length (@nil BabyBear)) (sa_eval ex_air) = true) by reflexivity.
  assert (T4 : StarkModel.get_log_quotient_degree BabyBearT ex_tree (length (@nil BabyBear)) = Some 0) by reflexivity.
  pose proof (verdict_b H my_gadgets (gadgets_satisfiable H) 0 ex_mmcs0 ex_mmcs ex_words ex_words (ex_config nq) true ex_air ex_tree (ex_proof nq) [] 0) as V.
  pose proof (V T1 T2 T3) as V1.
  pose proof (V1 (ex_stack nq)) as V2.
  pose proof (V2 (ex_proof_ok nq) (ex_config_ok nq) T4) as V3.
  pose proof (V3 C) as V4.
  pose proof (V4 A) as V5.
  pose proof (V5 F) as V6.
  exact V6.
Qed.
Lemma ex_yes : forall H nq k, clean_b ex_mmcs0 ex_mmcs (ex_native nq) = true -> ex_agree nq = true -> ex_fit nq = true -> ex_differing nq = k -> Nat.even k = true ->
  (exists ch', ex_native nq = Ok ch' /\ no_sign_word ch') /\ ex_openings_agree nq /\ ex_scripts_fit nq /\ ex_differing nq = k /\ exists n', ex_script H nq = Some (Ok tt, n').
Proof. intros H nq k C A F D E. destruct (ex_verdict H nq C A F) as (N & O & S & V). rewrite D, E in V. split; [exact N|]. split; [exact O|]. split; [exact S|]. split; [exact D|]. exact V. Qed.
Lemma ex_no : forall H nq k, clean_b ex_mmcs0 ex_mmcs (ex_native nq) = true -> ex_agree nq = true -> ex_fit nq = true -> ex_differing nq = k -> Nat.even k = false ->
  (exists ch', ex_native nq = Ok ch' /\ no_sign_word ch') /\ ex_openings_agree nq /\ ex_scripts_fit nq /\ ex_script H nq = None.
Proof. intros H nq k C A F D E. destruct (ex_verdict H nq C A F) as (N & O & S & V). rewrite D, E in V. split; [exact N|]. split; [exact O|]. split; [exact S|]. exact V. Qed.
Local Transparent b3_hash.
Lemma ex_clean1 : clean_b ex_mmcs0 ex_mmcs (ex_native 1) = true. Proof. vm_compute. reflexivity. Qed.
Lemma ex_agree1 : ex_agree 1 = true. Proof. vm_compute. reflexivity. Qed.
Lemma ex_fit1 : ex_fit 1 = true. Proof. lazy. reflexivity. Qed.
Lemma ex_differing1 : ex_differing 1 = 1. Proof. vm_compute. reflexivity. Qed.
Lemma ex_clean2 : clean_b ex_mmcs0 ex_mmcs (ex_native 2) = true. Proof. vm_compute. reflexivity. Qed.
Lemma ex_agree2 : ex_agree 2 = true. Proof. vm_compute. reflexivity. Qed.
Lemma ex_fit2 : ex_fit 2 = true. Proof. lazy. reflexivity. Qed.
Lemma ex_differing2 : ex_differing 2 = 2. Proof. vm_compute. reflexivity. Qed.
(** With two queries, both indices differ and the proof is accepted. *)
Example C76_example : forall H, (exists ch', ex_native 2 = Ok ch' /\ no_sign_word ch') /\ ex_openings_agree 2 /\ ex_scripts_fit 2 /\ ex_differing 2 = 2 /\
  exists n', ex_script H 2 = Some (Ok tt, n').
Proof. intros H. exact (ex_yes H 2 2 ex_clean2 ex_agree2 ex_fit2 ex_differing2 eq_refl). Qed.
(** Claim: a proof accepted by the native verifier, whose layers contain the reduced openings,
    is accepted by the script verifier.  It does not hold. *)
Theorem C76_native_accepted_refuted : forall H, (exists ch', ex_native 1 = Ok ch' /\ no_sign_word ch') /\ ex_openings_agree 1 /\ ex_scripts_fit 1 /\ ex_script H 1 = None.
Proof. intros H. exact (ex_no H 1 1 ex_clean1 ex_agree1 ex_fit1 ex_differing1 eq_refl). Qed.
(** A constraint of degree three (x^3 = x at every row) needs two quotient chunks; the proof above
    has one and its shape is refused. *)
Definition ex_cubic : script_air := mksair 1 [SLocal 0; SMul 0 0; SMul 1 0; SSub 2 0; SAssertZero 3].
Definition is_shape {A B : Type} (o : option (outcome (StarkModel.stark_error BabyBearT ExtT ex_mmcs0 ex_mmcs) A * B)) : bool :=
  match o with Some (Err (StarkModel.StarkInvalidProofShape _ _ _ _), _) => true | _ => false end.
Example C76_example_chunks : exists t, tree_air ex_cubic = Some t /\ StarkModel.get_log_quotient_degree BabyBearT t 0 = Some 1 /\
  forall H, is_shape (script_verify H my_gadgets 0 ex_mmcs0 ex_mmcs ex_words ex_words (ex_config 2) true ex_cubic (ex_proof 2) [] 0) = true.
Proof. eexists. split; [reflexivity|]. split; [reflexivity|]. intros H. lazy. reflexivity. Qed.
(** The same proof for a trace with one row, and an AIR that constrains nothing. *)
Definition ex_short : StarkModel.proof BabyBearT ExtT ex_mmcs0 ex_mmcs (stark_ch ex_mmcs ex_words) :=
  StarkModel.Build_proof BabyBearT ExtT ex_mmcs0 ex_mmcs (stark_ch ex_mmcs ex_words) (commit_of 1) (commit_of 2)
    [ex_zero] [ex_zero] [[ex_zero; ex_zero; ex_zero; ex_zero]] (ex_fri 2) 0.
Example C76_example_never : forall H n n', script_verify H my_gadgets 0 ex_mmcs0 ex_mmcs ex_words ex_words (ex_config 2) true ex_air ex_short [] n <> Some (Ok tt, n') /\
  script_verify H my_gadgets 0 ex_mmcs0 ex_mmcs ex_words ex_words (ex_config 2) true (mksair 1 [SLocal 0; SNext 0; SSub 1 0]) (ex_proof 2) [] n <> Some (Ok tt, n').
Proof.
  intros H n n'. split.
  - apply C76_one_row; [exact (gadgets_satisfiable H)| |cbn; lia|cbn; lia|reflexivity].
    constructor; [apply commit_of_ok; reflexivity|apply commit_of_ok; reflexivity|exact fri_commits|exact word_of_5].
  - apply C76_no_constraints; [exact (gadgets_satisfiable H)|reflexivity|]. unfold fits_stack. cbn [length ex_proof StarkModel.p_local sa_eval]. lia.
Qed.
