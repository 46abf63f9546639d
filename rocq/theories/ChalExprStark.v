(** The challenges of the STARK script verifier. *)
From Coq Require Import ZArith List Bool Arith Lia Permutation.
From Verif Require Import ScriptNum ScriptVM Lift U32Model Field BabyBear HelperModel PropWords DslModel DslSpec DslProofs DslDag DslMain DslOpSpec DslOps DslGadgets
  DslBuild DslIds DslDenote DslManager DslSession PropDsl PropManager Blake3Spec ChallengerModel PropChallenger
  ChalExprModel ChalExprGraph ChalExprProofs ChalExprState ChalExprRun ChalExprSync ChalExprFri.
Import ListNotations.
Local Open Scope nat_scope.
Local Opaque b3_hash.

Section Stark.
  Variable G : gadgets.
  Notation next_elt f bits := (fmul (felt f) (from_base (of_Z (HelperModel.two_adic_generator bits)))).

  (** zeta_next: a node for [zeta * g^1]; the index 1 is out of range for one row *)
  Lemma gives_rou : forall i j bits, 1 <= bits <= 27 ->
    gives G (Node i (IndexToRou false bits) 1 [Node j (Constant [1%Z]) 1 []]) [limbs 1 (from_base (of_Z (HelperModel.two_adic_generator bits)))] 1.
  Proof.
    intros i j bits B.
    assert (Sh : forall gt, shape G gt (Node i (IndexToRou false bits) 1 [Node j (Constant [1%Z]) 1 []]) = Some [1]).
    { intros gt. cbn [shape map all_some]. cbn. unfold HelperModel.index_to_rou. destruct (Nat.leb_spec bits 27); [reflexivity|lia]. }
    constructor; [|exact Sh|reflexivity|].
    - intros env. cbn [eval map]. cbn [collect fold_right seq_res app then_res node_sem op_sem e_size].
      assert (P1 : (2 ^ 1 <= 2 ^ Z.of_nat bits)%Z) by (apply Z.pow_le_mono_r; lia).
      change (num32 1) with true. cbn [andb]. destruct (Z.ltb_spec 1 (2 ^ Z.of_nat bits)); [|lia]. cbn [andb Z.leb Z.compare].
      change (Z.to_nat 1) with 1. now rewrite fpow_1_r.
    - intros gt. cbn [need map needs]. unfold outsize. rewrite Sh. cbn. lia.
  Qed.
  Lemma need_rou : forall i j bits gt, need G gt (Node i (IndexToRou false bits) 1 [Node j (Constant [1%Z]) 1 []]) <= 4.
  Proof. intros i j bits gt. cbn [need map needs]. unfold outsize. cbn. destruct (HelperModel.index_to_rou false _ bits); cbn; lia. Qed.
  Lemma gives_mul_base : forall i a b y z, gives G a [y] 4 -> is_elt 4 y = true -> gives G b [limbs 1 (from_base z)] 1 -> (forall gt, need G gt b <= 4) ->
    gives G (Node i Mul 4 [a; b]) [limbs 4 (fmul (felt y) (from_base z))] 4.
  Proof.
    intros i a b y z Ga Ey Gb Nb.
    assert (Ly : length y = 4) by (unfold is_elt in Ey; apply andb_true_iff in Ey as [Ey _]; apply andb_true_iff in Ey as [_ Ey]; now apply Nat.eqb_eq).
    assert (Sh : forall gt, shape G gt (Node i Mul 4 [a; b]) = Some [4]).
    { intros gt. cbn [shape map all_some]. rewrite (g_shape _ _ _ _ Ga), (g_shape _ _ _ _ Gb), (g_size _ _ _ _ Ga), (g_size _ _ _ _ Gb). reflexivity. }
    constructor; [| |reflexivity|].
    - intros env. cbn [eval map]. rewrite (g_eval _ _ _ _ Ga), (g_eval _ _ _ _ Gb), (size_of _ _ (g_size _ _ _ _ Ga)), (size_of _ _ (g_size _ _ _ _ Gb)).
      cbn [collect fold_right seq_res app then_res node_sem op_sem bin]. rewrite Ey.
      rewrite limbs_elt by now left. cbn [andb Nat.max]. rewrite limbs_1_base, felt_1, of_Z_as. reflexivity.
    - intros gt. rewrite Sh. cbn [map]. now rewrite limbs_length.
    - intros gt. cbn [need map needs]. unfold outsize at 1. rewrite Sh.
      rewrite (gives_outsize _ _ _ _ gt Ga), (gives_outsize _ _ _ _ gt Gb). cbn [map list_sum fold_right]. rewrite Ly, limbs_length by lia.
      pose proof (g_need _ _ _ _ Ga gt). specialize (Nb gt). lia.
  Qed.

  Lemma next_checks : forall i j k m q a y v bits, gives G a [y] 4 -> is_elt 4 y = true -> bits <= 27 -> length v = 4 ->
    checks G (Node i Equal 1 [Node j Mul 4 [a; Node k (IndexToRou false bits) 1 [Node m (Constant [1%Z]) 1 []]]; Node q (Constant v) (length v) []]) 4
      ((1 <=? bits) && list_eqb (limbs 4 (next_elt y bits)) v).
  Proof.
    intros i j k m q a y v bits Ga Ey B Lv. destruct (Nat.leb_spec 1 bits) as [B1|B0].
    - cbn [andb]. assert (L4 : length (limbs 4 (next_elt y bits)) = 4) by now apply limbs_length.
      pose proof (gives_equal G i (Node j Mul 4 [a; Node k (IndexToRou false bits) 1 [Node m (Constant [1%Z]) 1 []]]) q (limbs 4 (next_elt y bits)) v) as Q.
      rewrite L4 in Q. apply Q; [|now rewrite Lv|now right]. eapply gives_mul_base; eauto using need_rou. apply gives_rou. lia.
    - assert (bits = 0) by lia. subst bits. cbn [andb].
      assert (Ly : length y = 4) by (unfold is_elt in Ey; apply andb_true_iff in Ey as [Ey _]; apply andb_true_iff in Ey as [_ Ey]; now apply Nat.eqb_eq).
      set (r := Node k (IndexToRou false 0) 1 [Node m (Constant [1%Z]) 1 []]). set (u := Node j Mul 4 [a; r]).
      assert (Sr : forall gt, shape G gt r = Some [1]) by reflexivity.
      assert (Su : forall gt, shape G gt u = Some [4]).
      { intros gt. unfold u. cbn [shape map all_some]. rewrite (g_shape _ _ _ _ Ga), Sr, (g_size _ _ _ _ Ga). reflexivity. }
      assert (Se : forall gt, shape G gt (Node i Equal 1 [u; Node q (Constant v) (length v) []]) = Some [1]).
      { intros gt. cbn [shape map all_some]. rewrite Su, Lv. reflexivity. }
      constructor; [|exact Se|reflexivity|].
      + intros env. unfold u, r. cbn [eval map]. rewrite (g_eval _ _ _ _ Ga). reflexivity.
      + intros gt. assert (Ou : outsize G gt u = 4) by (unfold outsize; now rewrite Su).
        assert (Or : outsize G gt r = 1) by (unfold outsize; now rewrite Sr).
        assert (Nr : need G gt r <= 4) by (cbn [need map needs]; unfold outsize; cbn; lia).
        assert (Oa : outsize G gt a = 4) by (rewrite (gives_outsize _ _ _ _ gt Ga); cbn; now rewrite Ly).
        assert (Nu : need G gt u <= 64) by (pose proof (g_need _ _ _ _ Ga gt); unfold u; cbn [need map needs]; fold u; rewrite Ou, Or, Oa; lia).
        assert (Oc : outsize G gt (Node q (Constant v) (length v) []) = 4) by (rewrite Lv; unfold outsize; cbn; now rewrite ?Lv).
        assert (Oe : outsize G gt (Node i Equal 1 [u; Node q (Constant v) (length v) []]) = 1) by (unfold outsize; now rewrite Se).
        change (Nat.max (outsize G gt (Node i Equal 1 [u; Node q (Constant v) (length v) []])) (Nat.max (need G gt u) (outsize G gt u + Nat.max (Nat.max (outsize G gt (Node q (Constant v) (length v) [])) 0) (outsize G gt (Node q (Constant v) (length v) []) + 0))) <= 64).
        rewrite Oe, Oc, Ou. lia.
  Qed.

  Lemma elt4 : forall f, length f = 4 -> Forall (fun z => (0 <= z < BP)%Z) f -> is_elt 4 f = true.
  Proof.
    intros f L F. unfold is_elt. rewrite L. cbn [Nat.eqb orb andb]. apply forallb_forall. rewrite Forall_forall in F. intros z Iz.
    specialize (F z Iz). unfold canonical. apply andb_true_iff. split; [now apply Z.leb_le|apply Z.ltb_lt; apply F].
  Qed.
  Lemma sample_elt : forall p, is_elt 4 (fst (h_sample true p)) = true.
  Proof.
    intros p. destruct (sample_shape true p) as (z & _ & _ & L). apply elt4; [exact L|]. apply Forall_forall. intros y Iy.
    unfold h_sample in Iy. cbn [fst] in Iy. apply firstn_in in Iy. eapply draws_range, Iy.
  Qed.

  (** ** A builder that may panic *)
  Definition goes_or {A} (b : builder A) (all l : list expr) (Q : A -> list expr -> list expr -> Prop) (P : Prop) : Prop :=
    forall n, world n all l -> (exists a n' all' l', b n = Some (a, n') /\ world n' all' l' /\ incl all all' /\ Q a all' l') \/ (b n = None /\ P).
  Lemma goes_or_bind : forall A B (b : builder A) (f : A -> builder B) all l (Q : A -> list expr -> list expr -> Prop) R P, goes b all l Q ->
    (forall a all' l', incl all all' -> Q a all' l' -> goes_or (f a) all' l' R P) -> goes_or (bind b f) all l R P.
  Proof.
    intros A B b f all l Q R P Gb Gf n W. destruct (Gb n W) as (a & n1 & all1 & l1 & E1 & W1 & I1 & Q1). unfold bind. rewrite E1.
    destruct (Gf a all1 l1 I1 Q1 n1 W1) as [(c & n2 & all2 & l2 & E2 & W2 & I2 & R2)|[E2 X]]; [left|now right].
    exists c, n2, all2, l2. split; [exact E2|]. split; [exact W2|]. split; [eapply incl_tran; eauto|exact R2].
  Qed.
  Lemma goes_or_ret : forall A (a : A) all l (Q : A -> list expr -> list expr -> Prop) P, Q a all l -> goes_or (ret a) all l Q P.
  Proof. intros A a all l Q P q n W. left. exists a, n, all, l. split; [reflexivity|]. split; [exact W|]. split; [apply incl_refl|exact q]. Qed.

  (** state of the byte machine when zeta has been sampled *)
  Definition after_zeta (trace quotient : list word4) : machine := absorb true (absorb true h_new trace) quotient.
  (** the hash the query phase starts from *)
  Definition query_hash (trace quotient : list word4) (commits : list (list word4)) (pow_bits : nat) (w : word4) : list Z :=
    h_last (snd (h_check_witness true (fold_left (absorb true) commits (after_zeta trace quotient)) pow_bits w)).
  Definition pow_ok (h : list Z) (pow_bits : nat) : Prop := top pow_bits (from_pf (nth 7 (words h) [])) = 0%Z.

  Lemma follow_stark : forall nq pow_bits log_blowup degree_bits trace quotient commits nproofs w all l c x,
    synced c h_new -> follows G true x h_new all l -> commit_ok trace -> commit_ok quotient -> Forall commit_ok commits -> word_ok w ->
    1 <= pow_bits <= 31 -> 1 <= length commits + log_blowup <= 31 -> degree_bits <= 27 ->
    let h := query_hash trace quotient commits pow_bits w in
    goes_or (stark_challenges 16 native nq pow_bits log_blowup degree_bits trace quotient commits nproofs w c x) all l (fun r all' l' =>
      In (ch_zeta_expr r) all' /\ nproofs = nq /\ pow_ok h pow_bits /\ length (ch_betas r) = length commits /\
      ch_indices r = native_indices h true (length commits + log_blowup) nq /\
      exists vs, Forall2 (fun e v => checks G e (fst v) (snd v)) (ch_checks r) (vs ++ compared (ch_indices r) (script_indices h (length commits + log_blowup) nq)) /\
        Forall (placed all') (ch_checks r) /\ ch_checks r <> [] /\
        (degree_bits = 0 -> existsb fatal vs = true) /\
        (1 <= degree_bits -> clean (sample_input (ch_native r)) -> Forall (fun v => snd v = true) vs))
      (~ (nproofs = nq /\ pow_ok h pow_bits)).
  Proof.
    intros nq pow_bits log_blowup degree_bits trace quotient commits nproofs w all l c x Sy F Wt Wq Wc Ww Bp Bi Bd h. unfold stark_challenges.
    assert (A0 : any c h_new) by (destruct Sy as [Gd N]; split; eauto).
    destruct (round_native true c h_new trace A0 Wt) as (c1 & fa & c2 & E1 & E2 & B2 & [m2 M2] & Lf & Rf & Cf). cbn [u32_size] in *.
    eapply goes_or_bind; [apply goes_get, E1|]. intros ? ? ? _ (-> & -> & ->).
    eapply goes_or_bind; [apply (follow_observe_all G true); [exact F|apply Wt]|]. intros x1 all1 l1 I1 F1.
    eapply goes_or_bind; [apply goes_get, E2|]. intros ? ? ? _ (-> & -> & ->). cbn [fst snd].
    eapply goes_or_bind; [apply (follow_sample G true), F1|]. intros [e x2] all2 l2 I2 (F2 & Ge & Ie & Ne & _). cbn [fst snd u32_size] in *.
    destruct (sample_shape true (h_observe_all h_new trace)) as (z0 & _ & _ & Ls). cbn [u32_size] in Ls.
    eapply goes_or_bind; [apply (follow_equal_f G true true e _ (felt fa) x2 _ all2 l2 F2 Ge Ls); split; auto|]. cbv beta. intros ka all3 l3 I3 (F3 & K3 & P3).
    cbn [u32_size] in K3. rewrite (limbs_felt true) in K3 by assumption.
    fold (absorb true h_new trace) in F3.
    destruct (round_native true c2 _ quotient (behind_is_any true _ _ B2) Wq) as (c3 & fz & c4 & E3 & E4 & B4 & [m4 M4] & Lz & Rz & Cz). cbn [u32_size] in *.
    eapply goes_or_bind; [apply goes_get, E3|]. intros ? ? ? _ (-> & -> & ->).
    eapply goes_or_bind; [apply (follow_observe_all G true); [exact F3|apply Wq]|]. intros x4 all4 l4 I4 F4.
    eapply goes_or_bind; [apply goes_get, E4|]. intros ? ? ? _ (-> & -> & ->). cbn [fst snd].
    eapply goes_or_bind; [apply (follow_sample G true), F4|]. intros [ez x5] all5 l5 I5 (F5 & Gz & Iz & Nz & Sz). cbn [fst snd u32_size] in *.
    set (pz := h_observe_all (absorb true h_new trace) quotient) in *.
    destruct (sample_shape true pz) as (z1 & _ & _ & Lsz). cbn [u32_size] in Lsz.
    eapply goes_or_bind; [apply (follow_equal_f G true true ez _ (felt fz) x5 _ all5 l5 F5 Gz Lsz); split; auto|]. cbv beta. intros kz all6 l6 I6 (F6 & K6 & P6).
    cbn [u32_size] in K6. rewrite (limbs_felt true) in K6 by assumption.
    eapply goes_or_bind with (Q := fun _ all' l' => all' = all6 /\ l' = l6).
    { replace (degree_bits <=? 27) with true by (symmetry; now apply Nat.leb_le). apply goes_ret. auto. }
    intros _ ? ? _ [-> ->]. cbv zeta. set (zn := fmul (felt fz) _).
    eapply goes_or_bind; [apply goes_rou|]. intros rou all7 l7 I7 (-> & Ir & ir & jr & Er).
    eapply goes_or_bind with (Q := fun e all' l' => l' = l6 /\ In e all' /\ exists i, e = Node i Mul 4 [ez; rou]).
    { unfold binary_base. cbn [u32_size Nat.eqb]. eapply goes_bind; [apply goes_ret with (Q := fun _ all' l' => all' = all7 /\ l' = l6); auto|]. intros _ ? ? _ [-> ->].
      eapply goes_bind; [apply goes_ret with (Q := fun _ all' l' => all' = all7 /\ l' = l6); auto|]. intros _ ? ? _ [-> ->].
      apply goes_world. intros n7 W7. eapply goes_node with (l' := l6); [|reflexivity| |discriminate|apply (sp_nodup _ _ (w_spare _ _ _ W7))|apply incl_refl|].
      - intros y [<-|[<-|[]]]; auto.
      - intros y [<-|[<-|[]]] [v Q]; [now elim (Nz v)|rewrite Er in Q; discriminate Q].
      - intros y Iy [<-|[<-|[]]]; destruct (sp_const _ _ (w_spare _ _ _ W7) _ Iy) as [[v Q] _]; [now elim (Nz v)|rewrite Er in Q; discriminate Q]. }
    intros nx all8 l8 I8 (-> & In8 & i8 & E8).
    eapply goes_or_bind; [apply (goes_equal_vec nx (limbs 4 zn) all8 l6 In8); rewrite E8; discriminate|]. cbv beta. intros kn all9 l9 I9 (-> & P9 & i9 & j9 & E9).
    assert (K9 : checks G kn 4 ((1 <=? degree_bits) && list_eqb (limbs 4 (next_elt (fst (h_sample true pz)) degree_bits)) (limbs 4 zn))).
    { rewrite E9, E8, Er. apply next_checks; [exact Gz|apply sample_elt|exact Bd|now apply limbs_length]. }
    destruct B4 as (Gd4 & Nr4 & Eb4 & N4). cbn [u32_size Nat.sub] in N4.
    destruct (sample_rest true c4 _ _ N4) as (c5 & E5 & N5 & M5); [reflexivity|]. cbn [u32_size] in E5.
    eapply goes_or_bind; [apply goes_get, E5|]. intros ? ? ? _ (-> & -> & ->). cbn [fst snd].
    fold (absorb true (absorb true h_new trace) quotient) in N5, F6. fold (after_zeta trace quotient) in N5, F6.
    assert (A5 : any c5 (after_zeta trace quotient)).
    { split; [exact Gd4|]. unfold after_zeta. unfold absorb at 2. fold pz. rewrite Eb4. eexists. exact N5. }
    assert (F9 : follows G true x5 (after_zeta trace quotient) all9 l6).
    { eapply follows_incl; [|exact F6]. eapply incl_tran; [exact I7|]. eapply incl_tran; [exact I8|exact I9]. }
    pose proof (follow_bf G true nq pow_bits log_blowup commits nproofs w c5 _ x5 all9 l6 A5 F9 Wc Ww Bp Bi) as Bf. cbv zeta in Bf.
    assert (Eh : h_last (snd (h_check_witness true (fold_left (absorb true) commits (after_zeta trace quotient)) pow_bits w)) = h) by exact eq_refl.
    rewrite Eh in Bf. clearbody h. eapply goes_or_bind; [exact Bf|].
    intros [| |bs is_ es c6 x6] all10 l10 I10 Q.
    - intros n _. right. split; [reflexivity|]. intros [Q1 _]. now apply Q.
    - intros n _. right. split; [reflexivity|]. intros [_ Q1]. now apply Q.
    - destruct Q as (En & Pw & Lb & Li & vs & Fe & Pe & [m6 M6] & Cv & Ni). apply goes_or_ret. cbn [ch_betas ch_indices ch_checks ch_native ch_zeta_expr app].
      split; [apply I10, I9, I8, I7, I6, Iz|]. split; [exact En|]. split; [exact Pw|]. split; [exact Lb|]. split; [now apply Ni|].
      exists ((4, list_eqb (fst (h_sample true (h_observe_all h_new trace))) fa) :: (4, list_eqb (fst (h_sample true pz)) fz) ::
        (4, (1 <=? degree_bits) && list_eqb (limbs 4 (next_elt (fst (h_sample true pz)) degree_bits)) (limbs 4 zn)) :: vs).
      split; [repeat (constructor; [assumption|]); exact Fe|].
      assert (Pl : forall e all1 all2, incl all1 all2 -> placed all1 e -> placed all2 e) by (intros ? ? ? J0 [J1 J2]; split; auto).
      split; [|split; [discriminate|split]].
      + constructor; [|constructor; [|constructor; [|exact Pe]]].
        * eapply Pl; [|exact P3]. eapply incl_tran; [exact I4|]. eapply incl_tran; [exact I5|]. eapply incl_tran; [exact I6|]. eapply incl_tran; [exact I7|].
          eapply incl_tran; [exact I8|]. eapply incl_tran; [exact I9|exact I10].
        * eapply Pl; [|exact P6]. eapply incl_tran; [exact I7|]. eapply incl_tran; [exact I8|]. eapply incl_tran; [exact I9|exact I10].
        * eapply Pl; [|exact P9]. exact I10.
      + intros ->. cbn [Nat.leb andb existsb]. unfold fatal. cbn [fst snd Nat.eqb negb andb]. now rewrite !orb_true_r.
      + intros D1 C. assert (C5 : clean (sample_input c5)) by (rewrite M6 in C; apply clean_app in C as [C _]; exact C).
        assert (C4 : clean (sample_input c4)) by (rewrite M5 in C5; apply clean_app in C5 as [C5 _]; exact C5).
        assert (C2 : clean (sample_input c2)) by (rewrite M4 in C4; apply clean_app in C4 as [C4 _]; exact C4).
        specialize (Cf C2). specialize (Cz C4). fold pz in Cz.
        constructor; [cbn [snd]; apply list_eqb_ok; now symmetry|]. constructor; [cbn [snd]; apply list_eqb_ok; now symmetry|].
        constructor; [|now apply Cv]. cbn [snd]. replace (1 <=? degree_bits) with true by (symmetry; now apply Nat.leb_le). cbn [andb]. apply list_eqb_ok. unfold zn. now rewrite Cz.
  Qed.
End Stark.
