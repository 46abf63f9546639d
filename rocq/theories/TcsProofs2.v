(** Leaf scripts, commitment, opening and verification. *)
From Coq Require Import ZArith NArith List Bool Lia Permutation Arith Sorted.
From Verif Require Import ScriptNum ScriptVM VMLemmas U32Model Lift TaptreeModel TaptreeProofs PropTaptree TcsModel TcsProofs.
Import ListNotations.
Open Scope nat_scope.

Section Tcs.
  Variable H : bytes -> bytes.
  Variables (F bc : Type).
  Variable as_u32_vec : F -> list Z.
  Variable u32_size : nat.
  Variable new_bc : nat -> bool -> bc.
  Variable lock : bc -> script.
  Variable bc_witness : bc -> list Z -> list bytes.
  Variable leaf_hash : script -> hash.
  Variable branch_hash : hash -> hash -> hash.

  (** Contract of the bit commitments of the external crate: [opens b vs m rest] says that [m]
      starts with a valid opening of [b] to the words [vs]; the locking script accepts exactly
      these stacks and leaves the words, the last one on top; the honest witness is an opening. *)
  Variable opens : bc -> list Z -> list bytes -> list bytes -> Prop.
  Variable words_of : bc -> nat.
  Definition u31 (z : Z) : Prop := (0 <= z < 2 ^ 31)%Z.
  Record bc_contract : Prop := {
    bc_lock : forall b m a s, brun H (lock b) (mk m a []) = Some s <->
      exists vs rest, opens b vs m rest /\ s = mk (nums (rev vs) ++ rest) a [];
    bc_words : forall b vs m rest, opens b vs m rest -> length vs = words_of b;
    bc_honest : forall b vs rest, length vs = words_of b -> Forall u31 vs ->
      opens b vs (rev (bc_witness b vs) ++ rest) rest;
    bc_narrow : forall n, words_of (new_bc n false) = 1;
    bc_wide : forall n, words_of (new_bc n true) = 4 }.
  Hypothesis BC : bc_contract.
  Hypothesis size_ok : u32_size = 1 \/ u32_size = 4.
  Hypothesis vec_ok : forall x, length (as_u32_vec x) = u32_size /\ Forall u31 (as_u32_vec x).

  Notation bc_values := (bc_values F bc as_u32_vec).
  Notation gen_script := (generate_script F bc as_u32_vec lock).
  Notation gen_witness := (generate_witness F bc as_u32_vec bc_witness).
  Notation execute_success := (execute_success H).

  Lemma nums_app_inj a b x y : length a = length b -> nums a ++ x = nums b ++ y -> a = b /\ x = y.
  Proof.
    revert b. induction a as [|z a IH]; intros [|w b] L E; try discriminate; [auto|].
    cbn in E. injection E as Ez E. apply enc_inj in Ez. destruct (IH b ltac:(cbn in L; lia) E). subst. auto.
  Qed.
  Lemma opens_fun b vs vs' m rest rest' : opens b vs m rest -> opens b vs' m rest' -> vs = vs' /\ rest = rest'.
  Proof.
    intros O O'.
    pose proof (proj2 (bc_lock BC b m [] _) (ex_intro _ vs (ex_intro _ rest (conj O eq_refl)))) as E.
    pose proof (proj2 (bc_lock BC b m [] _) (ex_intro _ vs' (ex_intro _ rest' (conj O' eq_refl)))) as E'.
    rewrite E in E'. apply (f_equal (fun o => match o with Some s => main s | None => [] end)) in E'. cbn in E'.
    apply nums_app_inj in E' as [Q ->].
    - split; [|reflexivity]. rewrite <- (rev_involutive vs), Q. apply rev_involutive.
    - rewrite !rev_length. rewrite (bc_words BC _ _ _ _ O), (bc_words BC _ _ _ _ O'). reflexivity.
  Qed.

  (** [m] opens the commitments of [bvs], in order, to the given words, leaving [rest]. *)
  Fixpoint opens_all (bvs : list (bc * list Z)) (m rest : list bytes) : Prop :=
    match bvs with
    | [] => m = rest
    | (b, vs) :: bvs => exists m1, opens b vs m m1 /\ opens_all bvs m1 rest
    end.

  Lemma brun_app p q s : brun H (p ++ q) s = match brun H p s with Some s' => brun H q s' | None => None end.
  Proof. apply runM_app. Qed.
  Lemma check_rev : forall vs us m a, length us = length vs ->
    brun H (flat_map (fun v => [PUSHN v; OP_EQUALVERIFY]) us) (mk (nums vs ++ m) a []) =
    if list_eq_dec Z.eq_dec us vs then Some (mk m a []) else None.
  Proof.
    induction vs as [|v vs IH]; intros [|u us] m a L; try discriminate L; [reflexivity|].
    cbn [flat_map]. rewrite brun_app. change (nums (v :: vs) ++ m) with (enc v :: nums vs ++ m).
    assert (brun H [PUSHN u; OP_EQUALVERIFY] (mk (enc v :: nums vs ++ m) a []) =
            if bytes_eqb (enc v) (enc u) then Some (mk (nums vs ++ m) a []) else None) as ->.
    { unfold brun. cbn. destruct (bytes_eqb _ _); reflexivity. }
    destruct (bytes_eqb (enc v) (enc u)) eqn:E.
    - apply bytes_eqb_eq, enc_inj in E. subst v. rewrite IH by (cbn in L; lia).
      destruct (list_eq_dec Z.eq_dec us vs), (list_eq_dec Z.eq_dec (u :: us) (u :: vs)); congruence.
    - destruct (list_eq_dec Z.eq_dec (u :: us) (v :: vs)) as [Q|]; [|reflexivity].
      injection Q as -> _. rewrite bytes_eqb_refl in E. discriminate.
  Qed.
  Lemma lock_check_iff b vs m a s : length vs = words_of b ->
    (brun H (lock b ++ check_values vs) (mk m a []) = Some s <-> exists rest, opens b vs m rest /\ s = mk rest a []).
  Proof.
    intros L. rewrite brun_app. destruct (brun H (lock b) (mk m a [])) as [s1|] eqn:E.
    - apply (bc_lock BC) in E as (us & rest & O & ->). unfold check_values.
      rewrite check_rev by (rewrite !rev_length, L; symmetry; apply (bc_words BC _ _ _ _ O)).
      destruct (list_eq_dec Z.eq_dec (rev vs) (rev us)) as [Q|Q].
      + assert (vs = us) as <- by (rewrite <- (rev_involutive vs), Q; apply rev_involutive).
        split; [intros [= <-]; eauto|]. intros (r & O' & ->). destruct (opens_fun _ _ _ _ _ _ O O') as [_ ->]. reflexivity.
      + split; [discriminate|]. intros (r & O' & ->). destruct (opens_fun _ _ _ _ _ _ O O') as [-> _]. congruence.
    - split; [discriminate|]. intros (r & O & ->).
      pose proof (proj2 (bc_lock BC b m a _) (ex_intro _ vs (ex_intro _ r (conj O eq_refl)))) as E'. congruence.
  Qed.
  Lemma locks_iff bvs : Forall (fun p => length (snd p) = words_of (fst p)) bvs -> forall m a s,
    (brun H (flat_map (fun p => lock (fst p) ++ check_values (snd p)) bvs) (mk m a []) = Some s <->
     exists rest, opens_all bvs m rest /\ s = mk rest a []).
  Proof.
    induction 1 as [|[b vs] bvs L _ IH]; intros m a s.
    - cbn [flat_map opens_all]. unfold brun. cbn [runM]. split; [intros [= <-]; eauto|]. now intros (r & -> & ->).
    - cbn [flat_map opens_all fst snd] in *. rewrite brun_app. split.
      + destruct (brun H (lock b ++ check_values vs) (mk m a [])) as [s1|] eqn:E; [|discriminate].
        apply lock_check_iff in E as (r1 & O & ->); [|exact L]. rewrite IH. intros (r & Oa & ->). eauto.
      + intros (r & (m1 & O & Oa) & ->).
        rewrite (proj2 (lock_check_iff b vs m a (mk m1 a []) L)) by eauto. apply IH. eauto.
  Qed.

  (** A leaf script succeeds exactly on the witnesses that open the index commitment to the leaf's
      index and every evaluation commitment to the leaf's evaluation, with nothing left. *)
  Definition good_bcs (u : use_bcomm bc) : Prop :=
    words_of (index_bc bc u) = 1 /\ Forall (fun b => words_of b = u32_size) (evaluations_bc bc u).
  Lemma bc_values_words bcs : Forall (fun b => words_of b = u32_size) bcs -> forall ys bvs,
    bc_values bcs ys = Some bvs -> Forall (fun p => length (snd p) = words_of (fst p)) bvs.
  Proof.
    induction 1 as [|b bcs Hb _ IH]; intros ys bvs E; cbn in E; [injection E as <-; constructor|].
    destruct ys as [|y ys]; [discriminate|]. destruct (bc_values bcs ys) as [r|] eqn:E'; [|discriminate].
    injection E as <-. constructor; [cbn; rewrite Hb; apply vec_ok|eauto].
  Qed.
  Lemma leaf_script_iff u index ys s bvs m : good_bcs u ->
    bc_values (evaluations_bc bc u) ys = Some bvs ->
    gen_script {| cl_bcs := u; cl_index := index; cl_evaluations := ys |} = Some s ->
    (bsucceeds (brun H s (mk m [] [])) = true <-> opens_all ((index_bc bc u, [Z.of_nat index]) :: bvs) m []).
  Proof.
    intros [G1 G2] Ev Es. unfold generate_script in Es. cbn [cl_bcs cl_evaluations cl_index] in Es. rewrite Ev in Es.
    injection Es as <-.
    pose proof (locks_iff ((index_bc bc u, [Z.of_nat index]) :: bvs)) as X.
    specialize (X ltac:(constructor; [cbn [fst snd]; now rewrite G1|eapply bc_values_words; eassumption])).
    cbn [flat_map fst snd] in X. unfold check_values at 1 in X. cbn [rev app flat_map] in X.
    set (p := flat_map _ bvs) in *.
    match goal with |- bsucceeds (brun H ?q _) = true <-> _ =>
      assert (Eq : q = ((lock (index_bc bc u) ++ [PUSHN (Z.of_nat index); OP_EQUALVERIFY]) ++ p) ++ [PUSHN 1])
        by (rewrite <- !app_assoc; reflexivity) end.
    rewrite Eq, brun_app. clear Eq. split.
    - destruct (brun H _ (mk m [] [])) as [s1|] eqn:E; [|discriminate].
      apply X in E as (r & O & ->). unfold brun. cbn. destruct r; [auto|discriminate].
    - intros O. rewrite (proj2 (X m [] _) (ex_intro _ [] (conj O eq_refl))). reflexivity.
  Qed.

  Lemma opens_all_fun : forall bvs bvs' m rest rest', map fst bvs = map fst bvs' ->
    opens_all bvs m rest -> opens_all bvs' m rest' -> bvs = bvs' /\ rest = rest'.
  Proof.
    induction bvs as [|[b vs] bvs IH]; intros [|[b' vs'] bvs'] m rest rest' E O O'; try discriminate E.
    - cbn in *. subst. auto.
    - cbn [map fst] in E. injection E as <- E. cbn [opens_all] in *.
      destruct O as (m1 & O & Oa), O' as (m1' & O' & Oa').
      destruct (opens_fun _ _ _ _ _ _ O O') as [<- <-].
      destruct (IH _ _ _ _ E Oa Oa') as [<- <-]. auto.
  Qed.
  Lemma opens_all_honest bvs : Forall (fun p => length (snd p) = words_of (fst p) /\ Forall u31 (snd p)) bvs ->
    forall rest, opens_all bvs (rev (flat_map (fun p => bc_witness (fst p) (snd p)) (rev bvs)) ++ rest) rest.
  Proof.
    induction 1 as [|[b vs] bvs [L U] _ IH]; intros rest; cbn [rev opens_all]; [reflexivity|].
    rewrite flat_map_app, rev_app_distr, <- app_assoc. cbn [flat_map fst snd] in *. rewrite app_nil_r.
    eexists. split; [apply (bc_honest BC); assumption|]. apply IH.
  Qed.
  Lemma as_u32_small n : (Z.of_nat n < 2 ^ 31)%Z -> as_u32 n = Z.of_nat n.
  Proof. intros L. unfold as_u32. apply Z.mod_small. change (2^31)%Z with 2147483648%Z in L. change (2^32)%Z with 4294967296%Z. lia. Qed.

  Lemma bc_values_some bcs : forall ys, length bcs <= length ys -> exists bvs, bc_values bcs ys = Some bvs /\ map fst bvs = bcs /\
    map snd bvs = map as_u32_vec (firstn (length bcs) ys).
  Proof.
    induction bcs as [|b bcs IH]; intros ys L; [exists []; auto|].
    destruct ys as [|y ys]; [cbn in L; lia|]. destruct (IH ys ltac:(cbn in L; lia)) as (bvs & E & M1 & M2).
    cbn [TcsModel.bc_values]. rewrite E. eexists. split; [reflexivity|]. cbn [map length firstn]. rewrite M1, M2. auto.
  Qed.
  Lemma bc_values_inv bcs ys bvs : bc_values bcs ys = Some bvs -> map fst bvs = bcs /\ length bcs <= length ys /\
    map snd bvs = map as_u32_vec (firstn (length bcs) ys).
  Proof.
    intros E. destruct (le_lt_dec (length bcs) (length ys)) as [L|L].
    - destruct (bc_values_some bcs ys L) as (b' & E' & M1 & M2). assert (b' = bvs) by congruence. subst. auto.
    - exfalso. revert ys bvs E L. induction bcs as [|b bcs IH]; intros [|y ys] bvs E L; cbn in *; try lia; [discriminate|].
      destruct (bc_values bcs ys) eqn:E'; [|discriminate]. eapply IH; [exact E'|lia].
  Qed.

  (** The generated witness of (index', ys') makes the script of (index, ys) succeed exactly when
      they agree on the index and on the first [length evaluations_bc] values. *)
  Lemma witness_iff u index index' ys ys' s w : good_bcs u ->
    (Z.of_nat index < 2 ^ 31)%Z -> (Z.of_nat index' < 2 ^ 31)%Z ->
    gen_script {| cl_bcs := u; cl_index := index; cl_evaluations := ys |} = Some s ->
    gen_witness {| cl_bcs := u; cl_index := index'; cl_evaluations := ys' |} = Some w ->
    (execute_success s w = true <->
     index = index' /\ map as_u32_vec (firstn (length (evaluations_bc bc u)) ys) =
                       map as_u32_vec (firstn (length (evaluations_bc bc u)) ys')).
  Proof.
    intros G I1 I2 Es Ew. unfold TcsModel.execute_success.
    destruct (bc_values (evaluations_bc bc u) ys) as [bvs|] eqn:Ev;
      [|unfold generate_script in Es; cbn [cl_bcs cl_evaluations] in Es; rewrite Ev in Es; discriminate].
    rewrite (leaf_script_iff u index ys s bvs (rev w) G Ev Es).
    unfold generate_witness in Ew. cbn [cl_bcs cl_evaluations cl_index] in Ew.
    destruct (bc_values (evaluations_bc bc u) ys') as [bvs'|] eqn:Ev'; [|discriminate].
    injection Ew as <-. rewrite (as_u32_small _ I2).
    assert (opens_all ((index_bc bc u, [Z.of_nat index']) :: bvs')
              (rev (flat_map (fun p => bc_witness (fst p) (snd p)) (rev bvs') ++ bc_witness (index_bc bc u) [Z.of_nat index'])) []) as O'.
    { pose proof (opens_all_honest ((index_bc bc u, [Z.of_nat index']) :: bvs')) as X.
      cbn [rev] in X. rewrite flat_map_app in X. cbn [flat_map fst snd] in X. rewrite !app_nil_r in X.
      assert (X' : forall rest, opens_all ((index_bc bc u, [Z.of_nat index']) :: bvs')
        (rev (flat_map (fun p => bc_witness (fst p) (snd p)) (rev bvs') ++ bc_witness (index_bc bc u) [Z.of_nat index']) ++ rest) rest).
      { apply X. constructor.
        - cbn [fst snd]. split; [now rewrite (proj1 G)|]. repeat constructor; lia.
        - pose proof (bc_values_words _ (proj2 G) _ _ Ev') as Wd.
          destruct (bc_values_inv _ _ _ Ev') as (_ & _ & M2).
          rewrite Forall_forall in *. intros p Hp. split; [auto|].
          apply (in_map snd) in Hp. rewrite M2 in Hp. apply in_map_iff in Hp as (y & <- & _). apply vec_ok. }
      specialize (X' []). rewrite app_nil_r in X'. exact X'. }
    destruct (bc_values_inv _ _ _ Ev) as (F1 & L1 & S1). destruct (bc_values_inv _ _ _ Ev') as (F2 & L2 & S2).
    rewrite <- S1, <- S2. split.
    - intros O. destruct (opens_all_fun ((index_bc bc u, [Z.of_nat index]) :: bvs) ((index_bc bc u, [Z.of_nat index']) :: bvs')
        _ _ _ ltac:(cbn [map fst]; rewrite F1, F2; reflexivity) O O') as [E _].
      injection E as E1 E2. split; [lia|congruence].
    - intros [<- Es']. assert (bvs = bvs') as ->; [|exact O'].
      clear - Es' F1 F2. rewrite <- F2 in F1. clear F2. revert bvs' F1 Es'.
      induction bvs as [|[b v] bvs IH]; intros [|[b' v'] bvs'] F1 E; try discriminate; [reflexivity|].
      cbn in *. injection F1 as -> F1. injection E as -> E. f_equal. auto.
  Qed.

  Notation matrix := (matrix F).
  Notation leaf_scripts := (leaf_scripts F bc as_u32_vec lock).
  Notation commit_polys := (commit_polys F bc as_u32_vec u32_size new_bc lock leaf_hash branch_hash).
  Notation open := (TcsModel.open F bc).
  Notation verify := (verify H F bc as_u32_vec bc_witness leaf_hash branch_hash).

  Lemma leaf_scripts_ok u : forall ys start, Forall (fun y => y <> [] /\ length y = length (evaluations_bc bc u)) ys ->
    exists scripts, leaf_scripts u start ys = Some scripts /\ length scripts = length ys /\
      forall q y, nth_error ys q = Some y ->
        exists s, nth_error scripts q = Some s /\
          gen_script {| cl_bcs := u; cl_index := start + q; cl_evaluations := y |} = Some s.
  Proof.
    intros ys. induction ys as [|y ys IH]; intros start Fy.
    - exists []. split; [reflexivity|]. split; [reflexivity|]. intros [|q]; discriminate.
    - inversion_clear Fy as [|? ? [Ny Ly] Fy']. destruct (IH (S start) Fy') as (r & E & L & N).
      cbn [TcsModel.leaf_scripts]. rewrite E.
      destruct (bc_values_some (evaluations_bc bc u) y ltac:(lia)) as (bvs & Eb & _).
      assert (exists s, gen_script {| cl_bcs := u; cl_index := start; cl_evaluations := y |} = Some s) as [s Es]
        by (unfold generate_script; cbn [cl_bcs cl_evaluations]; rewrite Eb; eauto).
      destruct y as [|y0 y']; [congruence|]. rewrite Es. exists (s :: r).
      split; [reflexivity|]. split; [cbn; lia|]. intros [|q] z Hz; cbn in Hz.
      + injection Hz as <-. rewrite Nat.add_0_r. exists s. auto.
      + replace (start + S q) with (S start + q) by lia. cbn [nth_error]. auto.
  Qed.

  Definition rows (K q : nat) (ms : list matrix) : list F := concat (map (row_at F K q) (sorted_desc F ms)).
  (** what a commitment to [ms] with 2^K leaves is *)
  Definition commits (d : commited_data F bc) (K : nat) (ms : list matrix) : Prop :=
    cd_leaves F bc d = ms /\ good_bcs (cd_bcs F bc d) /\
    length (evaluations_bc bc (cd_bcs F bc d)) = total_width F ms /\
    exists scripts, made script leaf_hash branch_hash (cd_taptree F bc d) scripts /\ length scripts = 2 ^ K /\
      forall q, q < 2 ^ K -> exists s, nth_error scripts q = Some s /\
        gen_script {| cl_bcs := cd_bcs F bc d; cl_index := q; cl_evaluations := rows K q ms |} = Some s.

  Lemma total_width_pos ms K : Exists (fun m => rect F m K) ms -> total_width F ms > 0.
  Proof. unfold total_width. induction 1 as [m ms [W _]|m ms _ IH]; cbn [fold_right]; lia. Qed.
  Lemma small_pow K : K <= 31 -> (N.of_nat (2 ^ K) < 2 ^ 32)%N.
  Proof.
    intros HK.
    assert (forall n, N.of_nat (2 ^ n) = (2 ^ N.of_nat n)%N) as P.
    { intros n. induction n; [reflexivity|].
      rewrite Nat.pow_succ_r', Nat2N.inj_mul, IHn, (Nat2N.inj_succ n), N.pow_succ_r'. reflexivity. }
    rewrite P. apply N.pow_lt_mono_r; lia.
  Qed.

  Lemma commit_ok ms K next : K <= 31 -> Forall (fun m => exists k, rect F m k /\ k <= K) ms -> Exists (fun m => rect F m K) ms ->
    exists d next', commit_polys next ms = Some (d, next') /\ commits d K ms.
  Proof.
    intros HK Fm Ex. destruct (padding_ok F ms K Fm Ex) as (ys & E & L & N).
    assert (Forall (fun m => exists k, rect F m k /\ k <= K) (sorted_desc F ms)) as Fs
      by (eapply Permutation_Forall; [symmetry; apply sorted_perm|exact Fm]).
    assert (forall q y, nth_error ys q = Some y -> q < 2 ^ K /\ y = rows K q ms /\ length y = total_width F ms) as Ny.
    { intros q y Hq. assert (q < 2 ^ K) as Hq' by (rewrite <- L; apply nth_error_Some; congruence).
      rewrite (N _ Hq') in Hq. injection Hq as <-. split; [exact Hq'|]. split; [reflexivity|].
      rewrite (rows_len F K q _ Hq' Fs). apply total_width_perm, sorted_perm. }
    assert (2 ^ K <> 0) as P0 by (apply Nat.pow_nonzero; lia).
    unfold TcsModel.commit_polys. rewrite E.
    assert (negb ((u32_size =? 1) || (u32_size =? 4)) = false) as -> by (destruct size_ok as [->| ->]; reflexivity).
    destruct ys as [|y0 ys0]; [cbn in L; lia|].
    set (ys := y0 :: ys0) in *.
    destruct (Ny 0 y0 eq_refl) as (_ & _ & Ly0).
    match goal with |- context [leaf_scripts ?u0 0 ys] => set (u := u0) end.
    assert (good_bcs u) as G.
    { split; [apply (bc_narrow BC)|]. cbn [u evaluations_bc]. apply Forall_forall. intros b Hb.
      apply in_map_iff in Hb as (i & <- & _).
      destruct size_ok as [E1|E4]; rewrite ?E1, ?E4; cbn [Nat.eqb]; [apply (bc_narrow BC)|apply (bc_wide BC)]. }
    assert (length (evaluations_bc bc u) = total_width F ms) as Lu
      by (cbn [u evaluations_bc]; rewrite map_length, seq_length; exact Ly0).
    pose proof (total_width_pos ms K Ex) as Tp.
    destruct (leaf_scripts_ok u ys 0) as (scripts & Es & Ls & Ns).
    { apply Forall_forall. intros y Hy. apply In_nth_error in Hy as [q Hq].
      destruct (Ny q y Hq) as (_ & _ & Lq). rewrite Lu. split; [|exact Lq]. intros ->. cbn in Lq. lia. }
    rewrite Es.
    destruct (build_wf script leaf_hash branch_hash scripts K ltac:(lia) HK) as (t & Et & _). rewrite Et.
    do 2 eexists. split; [reflexivity|]. split; [reflexivity|]. split; [exact G|]. split; [exact Lu|].
    exists scripts. cbn [cd_taptree cd_bcs].
    split; [apply made_build; [rewrite Ls, L; now apply small_pow|exact Et]|].
    split; [lia|]. intros q Hq. specialize (N q Hq). destruct (Ns q _ N) as (s & H1 & H2). eauto.
  Qed.

  Lemma commits_leaf d K ms q : commits d K ms -> q < 2 ^ K -> exists l s,
    get_tapleaf script (cd_taptree F bc d) q = Some (Some l) /\ leaf_script script l = s /\
    gen_script {| cl_bcs := cd_bcs F bc d; cl_index := q; cl_evaluations := rows K q ms |} = Some s.
  Proof.
    intros (_ & _ & _ & scripts & M & L & N) Hq. destruct (N q Hq) as (s & Hs & Gs).
    destruct (C26_sequence _ _ _ _ _ M) as (_ & _ & S). specialize (S q). rewrite Hs in S.
    unfold script_at in S. destruct (get_tapleaf script (cd_taptree F bc d) q) as [[l|]|]; [|discriminate..].
    injection S as S. exists l, s. auto.
  Qed.

  Lemma open_ok d K ms q : Forall (fun m => exists k, rect F m k /\ k <= K) ms -> Exists (fun m => rect F m K) ms ->
    commits d K ms -> q < 2 ^ K ->
    exists l, get_tapleaf script (cd_taptree F bc d) q = Some (Some l) /\
      open q d = Some ({| cp_leaf := l; cp_bcs := cd_bcs F bc d; cp_query_index := q |}, rows K q ms).
  Proof.
    intros Fm Ex C Hq. destruct (commits_leaf _ _ _ _ C Hq) as (l & s & Gl & _ & _). exists l. split; [exact Gl|].
    unfold TcsModel.open, query_proof. rewrite (proj1 C), Gl.
    destruct (padding_ok F ms K Fm Ex) as (ys & E & L & N). rewrite E, (N q Hq). reflexivity.
  Qed.

  (** verification of an opening that uses the committed bit commitments and any leaf of the tree *)
  Lemma verify_iff d K ms q q' l ys : K <= 30 -> K > 0 ->
    Forall (fun m => exists k, rect F m k /\ k <= K) ms ->
    commits d K ms -> q < 2 ^ K -> (Z.of_nat q' < 2 ^ 31)%Z ->
    get_tapleaf script (cd_taptree F bc d) q = Some (Some l) ->
    total_width F ms <= length ys ->
    exists b, verify (node_hash script (root_node script (cd_taptree F bc d)))
      {| cp_leaf := l; cp_bcs := cd_bcs F bc d; cp_query_index := q' |} ys = Some b /\
      (b = true <-> q = q' /\ map as_u32_vec (rows K q ms) = map as_u32_vec (firstn (total_width F ms) ys)).
  Proof.
    intros HK K0 Fm C Hq Hq' Gl Ly. pose proof C as (_ & G & Lu & scripts & M & Ls & _).
    destruct (commits_leaf _ _ _ _ C Hq) as (l' & s & Gl' & El & Gs).
    assert (l' = l) as -> by congruence.
    unfold TcsModel.verify. cbn [cp_leaf cp_bcs cp_query_index].
    destruct (bc_values_some (evaluations_bc bc (cd_bcs F bc d)) ys ltac:(lia)) as (bvs & Eb & _).
    assert (exists w, gen_witness {| cl_bcs := cd_bcs F bc d; cl_index := q'; cl_evaluations := ys |} = Some w) as [w Ew]
      by (unfold generate_witness; cbn [cl_bcs cl_evaluations]; rewrite Eb; eauto).
    rewrite Ew. unfold verify_proof.
    rewrite (C27_verify_inclusion script leaf_hash branch_hash _ scripts q l M); [|rewrite Ls|exact Gl].
    2:{ destruct K; [lia|]. pose proof (Nat.pow_nonzero 2 K ltac:(lia)). rewrite Nat.pow_succ_r'. lia. }
    cbn [option_map andb]. eexists. split; [reflexivity|]. rewrite El.
    assert (Z.of_nat q < 2 ^ 31)%Z as Hqz.
    { assert (forall n, Z.of_nat (2 ^ n) = (2 ^ Z.of_nat n)%Z) as P
        by (intros n; induction n; [reflexivity|]; rewrite Nat.pow_succ_r', Nat2Z.inj_mul, IHn, (Nat2Z.inj_succ n), Z.pow_succ_r by lia; reflexivity).
      apply Z.lt_le_trans with (Z.of_nat (2 ^ K)); [lia|]. rewrite P. apply Z.pow_le_mono_r; lia. }
    rewrite (witness_iff (cd_bcs F bc d) q q' (rows K q ms) ys s w G Hqz Hq' Gs Ew), Lu.
    rewrite (firstn_all2 (rows K q ms)); [reflexivity|].
    unfold rows. rewrite (rows_len F K q _ Hq).
    - rewrite (total_width_perm F _ _ (sorted_perm F ms)). lia.
    - eapply Permutation_Forall; [symmetry; apply sorted_perm|exact Fm].
  Qed.
End Tcs.
