(** Sampling of the FRI and STARK challenges with both challengers. *)
From Coq Require Import ZArith List Bool Arith Lia Permutation.
From Verif Require Import ScriptNum ScriptVM Lift U32Model Field BabyBear HelperModel PropWords DslModel DslSpec DslProofs DslDag DslMain DslOpSpec DslOps DslGadgets
  DslBuild DslIds DslDenote DslManager DslSession PropDsl PropManager Blake3Spec ChallengerModel PropChallenger
  ChalExprModel ChalExprGraph ChalExprProofs ChalExprState ChalExprRun ChalExprSync.
Import ListNotations.
Local Open Scope nat_scope.
Local Opaque b3_hash.

(** ** Query indices *)
(** hash again without new input *)
Definition rehash (h : list Z) : list Z := b3_hash (zeros_of 32 ++ h).
(** top [bits] bits of a 32-bit value *)
Definition top (bits : nat) (z : Z) : Z := Z.shiftr z (Z.of_nat (32 - bits)).
(** the script hashes again for every index and uses the last word *)
Fixpoint script_indices (h : list Z) (bits n : nat) : list Z :=
  match n with
  | O => []
  | S n => top bits (sample_of (le_u32 (nth 7 (words (rehash h)) []))) :: script_indices (rehash h) bits n
  end.
(** the native challenger (extension field) serves two indices from every hash, from
    word 7 and then from word 3 ([left]: words 3 to 0 of [h] are not used yet) *)
Fixpoint native_indices (h : list Z) (left : bool) (bits n : nat) : list Z :=
  match n with
  | O => []
  | S n => if left then top bits (from_pf (nth 3 (words h) [])) :: native_indices h false bits n
           else top bits (from_pf (nth 7 (words (rehash h)) [])) :: native_indices (rehash h) true bits n
  end.
Definition compared (i s : list Z) : list (nat * bool) := map (fun p => (1, (fst p =? snd p)%Z)) (combine i s).
(** positions where two lists differ *)
Definition mismatches (i s : list Z) : nat := length (filter (fun p => negb (fst p =? snd p)%Z) (combine i s)).

Lemma limbs_felt : forall (ext : bool) f, length f = u32_size ext -> Forall (fun z => (0 <= z < BP)%Z) f -> limbs (u32_size ext) (felt f) = f.
Proof.
  intros ext f L F. unfold limbs, limbs4, felt, BabyBear.ext. destruct ext; cbn [u32_size] in *.
  - destruct f as [|a [|b [|c [|d [|? ?]]]]]; try discriminate L. cbn [nth map firstn]. rewrite !as_of_Z.
    repeat match goal with X : Forall _ (_ :: _) |- _ => inversion_clear X end. now rewrite !Z.mod_small by assumption.
  - destruct f as [|a [|? ?]]; try discriminate L. cbn [nth map firstn]. rewrite as_of_Z. inversion_clear F. now rewrite Z.mod_small by assumption.
Qed.
Lemma from_pf_range : forall ws, Forall (fun z => (0 <= z < BP)%Z) (map from_pf ws).
Proof. intros ws. apply Forall_forall. intros z I0. apply in_map_iff in I0 as (w & <- & _). unfold from_pf. rewrite order_is. apply Z.mod_pos_bound. reflexivity. Qed.

Section Fri.
  Variable G : gadgets.
  Variable ext : bool.
  Notation sz := (u32_size ext).

  (** *** native samples never fail *)
  Lemma pop_any : forall k c h out, natv c h [] out -> exists ws c' h' out', pop_words 16 native k c = Some (ws, c') /\
    natv c' h' [] out' /\ sample_input c' = sample_input c /\ length ws = k.
  Proof.
    induction k as [|k IH]; intros c h out N; cbn [pop_words]; [exists [], c, h, out; auto|].
    assert (One : exists w c1 h1 out1, pop_word 16 native c = Some (w, c1) /\ natv c1 h1 [] out1 /\ sample_input c1 = sample_input c).
    { assert (P : exists ws c1 h1 out1, pop_words 16 native 1 c = Some (ws, c1) /\ natv c1 h1 [] out1 /\ sample_input c1 = sample_input c).
      { destruct out as [|w out].
        - destruct (pop_words_hash 1 c h [] [] N (or_intror eq_refl)) as (c1 & E & N1 & S1); [lia|]. eauto 10.
        - destruct (pop_words_some 1 c h (w :: out) N) as (c1 & E & N1 & S1); [cbn; lia|]. eauto 10. }
      destruct P as (ws & c1 & h1 & out1 & E & N1 & S1). cbn [pop_words] in E. destruct (pop_word 16 native c) as [[w c2]|]; [|discriminate E].
      injection E as <- <-. eauto 10. }
    destruct One as (w & c1 & h1 & out1 & -> & N1 & S1). destruct (IH c1 h1 out1 N1) as (ws & c2 & h2 & out2 & -> & N2 & S2 & L).
    exists (w :: ws), c2, h2, out2. split; [reflexivity|]. split; [exact N2|]. split; [congruence|]. cbn. now rewrite L.
  Qed.
  Lemma bits_any : forall c h out bits, natv c h [] out -> bits <= 32 -> exists z c' h' out', sample_bits 16 native sz c bits = Some (z, c') /\
    natv c' h' [] out' /\ exists l, sample_input c' = sample_input c ++ l.
  Proof.
    intros c h out bits N B. destruct (pop_any sz c h out N) as (ws & c1 & h1 & out1 & E & N1 & S1 & L). unfold sample_bits, sample. rewrite E.
    replace (bits <=? 32) with true by (symmetry; now apply Nat.leb_le). do 2 eexists. exists h1, out1. split; [reflexivity|].
    split; [destruct N1; constructor; auto|]. cbn [sample_input]. rewrite S1. eauto.
  Qed.

  Lemma nth_words : forall k h, (k < 8) -> hd [] (skipn (7 - k) (rev (words h))) = nth k (words h) [].
  Proof.
    intros k h K. do 8 (destruct k as [|k]; [reflexivity|]). lia.
  Qed.
  (** where they come from, extension field *)
  Lemma bits_left : forall c h bits, ext = true -> natv c h [] (firstn 4 (words h)) -> bits <= 32 -> exists c',
    sample_bits 16 native sz c bits = Some (top bits (from_pf (nth 3 (words h) [])), c') /\ natv c' h [] [] /\ exists l, sample_input c' = sample_input c ++ l.
  Proof.
    intros c h bits -> N B. destruct (sample_rest true c h _ N) as (c' & E & N' & S'); [reflexivity|]. exists c'. unfold sample_bits. cbn [u32_size] in *. rewrite E.
    replace (bits <=? 32) with true by (symmetry; now apply Nat.leb_le). split; [reflexivity|]. split; [exact N'|]. eauto.
  Qed.
  Lemma bits_next : forall c h bits, ext = true -> natv c h [] [] -> bits <= 32 -> exists c',
    sample_bits 16 native sz c bits = Some (top bits (from_pf (nth 7 (words (rehash h)) [])), c') /\
    natv c' (rehash h) [] (firstn 4 (words (rehash h))) /\ exists l, sample_input c' = sample_input c ++ l.
  Proof.
    intros c h bits -> N B. destruct (pop_words_hash 4 c h [] [] N (or_intror eq_refl)) as (c1 & E & N1 & S1); [lia|].
    cbn [app length Nat.sub] in E, N1. fold (rehash h) in E, N1. unfold sample_bits, sample. cbn [u32_size]. rewrite E.
    replace (bits <=? 32) with true by (symmetry; now apply Nat.leb_le). eexists. split; [reflexivity|]. split; [destruct N1; constructor; auto|].
    cbn [sample_input]. rewrite S1. eauto.
  Qed.

  Lemma first_draw : forall h, length h = 32 -> hd 0%Z (firstn sz (draws h)) = sample_of (le_u32 (nth 7 (words h) [])).
  Proof. intros h L. rewrite draws_words by exact L. unfold words. cbn [map seq rev app nth]. now destruct ext. Qed.
  Lemma script_bits : forall p bits, good p -> h_ready p = false -> h_buf p = [] ->
    fst (h_sample_bits ext p bits) = top bits (sample_of (le_u32 (nth 7 (words (rehash (h_last p))) []))) /\
    snd (h_sample_bits ext p bits) = Machine (rehash (h_last p)) [] false.
  Proof.
    intros p bits Gd Nr Eb. unfold h_sample_bits, h_sample, h_next. rewrite Nr, Eb. cbn [fst snd app length Nat.sub]. fold (rehash (h_last p)). split; [|reflexivity].
    unfold top. f_equal. apply first_draw. unfold rehash. exact (hash_len _).
  Qed.

  (** *** a comparison node *)
  Lemma goes_equal_vec : forall a v all l, In a all -> (forall v, e_op a <> Constant v) ->
    goes (equal_for_u32_vec a v) all l (fun e all' l' => l' = l /\ placed all' e /\ exists i j, e = Node i Equal 1 [a; Node j (Constant v) (length v) []]).
  Proof.
    intros a v all l Ia Na. unfold equal_for_u32_vec. eapply goes_bind; [apply goes_constant|].
    intros c all1 l1 I1 (-> & Eo & Ep & Ic & i & Ec). eapply goes_weaken.
    { unfold equal. apply goes_world. intros n W. pose proof (sp_nodup _ _ (w_spare _ _ _ W)) as N. inversion N as [|? ? Nc N']; subst.
      eapply goes_node with (l' := l); [|reflexivity| |discriminate|exact N'|apply incl_tl, incl_refl|].
      - intros z [<-|[<-|[]]]; auto.
      - intros z [<-|[<-|[]]] [w E]; [now elim (Na w)|now left].
      - intros z Iz [<-|[<-|[]]].
        + destruct (sp_const _ _ (w_spare _ _ _ W) a) as [[w E] _]; [now right|]. now elim (Na w).
        + now apply Nc. }
    cbv beta. intros e all2 l2 I2 (-> & Ie & j & Ee). split; [reflexivity|]. split; [split; [exact Ie|rewrite Ee; discriminate]|]. exists j, i. now rewrite Ee, Ec.
  Qed.
  Lemma follow_equal_f : forall (e2 : bool) a y z x p all l, follows G ext x p all l -> gives G a [y] (u32_size e2) -> length y = u32_size e2 -> placed all a ->
    goes (equal_for_f e2 a z) all l (fun e all' l' => follows G ext x p all' l' /\ checks G e (u32_size e2) (list_eqb y (limbs (u32_size e2) z)) /\ placed all' e).
  Proof.
    intros e2 a y z x p all l F Ga Ly [Ia Na]. change (equal_for_f e2 a z) with (equal_for_u32_vec a (limbs (u32_size e2) z)).
    assert (Lz : length (limbs (u32_size e2) z) = length y) by (rewrite Ly; apply limbs_length; destruct e2; cbn; lia).
    eapply goes_weaken; [apply (follow_equal G ext a y _ x p all l F); [now rewrite Ly|exact Ia|exact Na|exact Lz|rewrite Ly; destruct e2; auto]|].
    cbv beta. intros e all' l' _ (F' & K & Ie & Ne). rewrite Ly in K. split; [exact F'|]. split; [exact K|]. split; auto.
  Qed.

  (** *** indices *)
  Lemma follow_indices : forall nq bits c h out x p all l, natv c h [] out -> follows G ext x p all l -> h_ready p = false -> h_buf p = [] -> 1 <= bits <= 31 ->
    goes (sample_indices ext 64 16 native nq bits c x) all l (fun r all' l' => let '(is_, es, c', x') := r in
      length is_ = nq /\ Forall2 (fun e v => checks G e (fst v) (snd v)) es (compared is_ (script_indices (h_last p) bits nq)) /\ Forall (placed all') es /\
      (exists l, sample_input c' = sample_input c ++ l) /\
      (ext = true -> forall left : bool, out = (if left then firstn 4 (words h) else []) -> is_ = native_indices h left bits nq)).
  Proof.
    induction nq as [|nq IH]; intros bits c h out x p all l N F Nr Eb B; cbn [sample_indices].
    { apply goes_ret. split; [reflexivity|]. split; [constructor|]. split; [constructor|]. split; [exists []; now rewrite app_nil_r|]. reflexivity. }
    assert (B32 : bits <= 32) by lia.
    assert (St : exists z c1 h1 out1, sample_bits 16 native sz c bits = Some (z, c1) /\ natv c1 h1 [] out1 /\ (exists l, sample_input c1 = sample_input c ++ l) /\
      (ext = true -> forall left : bool, out = (if left then firstn 4 (words h) else []) ->
        native_indices h left bits (S nq) = z :: native_indices h1 (negb left) bits nq /\ out1 = (if negb left then firstn 4 (words h1) else []))).
    { destruct (bits_any c h out bits N B32) as (z & c1 & h1 & out1 & E & N1 & S1).
      assert (Dec : (ext = true /\ (out = firstn 4 (words h) \/ out = [])) \/ ~ (ext = true /\ (out = firstn 4 (words h) \/ out = []))).
      { destruct ext; [|right; intros [Q _]; discriminate Q]. destruct (list_eq_dec (list_eq_dec Z.eq_dec) out (firstn 4 (words h))) as [->|D1]; [now left; auto|].
        destruct out; [now left; auto|right]. intros [_ [Q|Q]]; [now apply D1|discriminate Q]. }
      destruct Dec as [[X [Y|Y]]|Dec]; [| |].
      - subst out. destruct (bits_left c h bits X N B32) as (c2 & E2 & N2 & S2). do 2 eexists. exists h, []. split; [exact E2|]. split; [exact N2|]. split; [exact S2|].
        intros _ left Q. destruct left; [auto|]. exfalso. discriminate Q.
      - subst out. destruct (bits_next c h bits X N B32) as (c2 & E2 & N2 & S2). do 2 eexists. exists (rehash h), (firstn 4 (words (rehash h))).
        split; [exact E2|]. split; [exact N2|]. split; [exact S2|].
        intros _ left Q. destruct left; [discriminate Q|]. auto.
      - exists z, c1, h1, out1. split; [exact E|]. split; [exact N1|]. split; [exact S1|]. intros X left Q. elim Dec. split; [exact X|]. destruct left; auto. }
    destruct St as (z & c1 & h1 & out1 & E & N1 & [l1' S1] & Cl).
    eapply goes_bind; [apply goes_get, E|]. intros ? ? ? _ (-> & -> & ->). cbn [fst snd].
    eapply goes_bind; [apply follow_bits; [exact F|exact B]|]. intros [e x1] all1 l1 I1 (F1 & Ge & Ie & Ne). cbn [fst snd] in *.
    destruct (script_bits p bits (fw_good _ _ _ _ _ _ F) Nr Eb) as [V M]. rewrite V in Ge. rewrite M in F1.
    eapply goes_bind; [apply (follow_equal G ext e _ [z] x1 _ all1 l1 F1 Ge Ie Ne); auto|]. cbv beta. intros k all2 l2 I2 (F2 & K2 & Ik & Nk).
    eapply goes_bind; [eapply (IH bits c1 h1 out1 x1 _ all2 l2 N1 F2); auto|]. intros [[[is_ es] c2] x2] all3 l3 I3 (L3 & Fe & Pe & [l3' S3] & Cl3).
    apply goes_ret. split; [cbn; now rewrite L3|]. split; [|split; [|split]].
    - cbn [script_indices compared combine map]. constructor; [|exact Fe]. cbn [fst snd list_eqb length] in *. rewrite andb_true_r in K2. rewrite Z.eqb_sym. exact K2.
    - constructor; [split; auto|exact Pe].
    - exists (l1' ++ l3'). now rewrite S3, S1, app_assoc.
    - intros X left Q. destruct (Cl X left Q) as [-> Q1]. f_equal. now apply Cl3.
  Qed.

  (** *** betas *)
  Definition any (c : chal) (p : machine) : Prop := good p /\ exists out, natv c (h_last p) (h_buf p) out.
  Lemma behind_is_any : forall c p, behind ext c p -> any c p.
  Proof. intros c p B. destruct (behind_any ext c p B) as (out & Gd & N). split; eauto. Qed.
  Definition commit_ok (ws : list word4) : Prop := length ws = 8 /\ Forall word_ok ws.
  Definition absorb (p : machine) (ws : list word4) : machine := snd (h_sample ext (h_observe_all p ws)).

  (** observing a commitment and sampling, both sides *)
  Lemma round_native : forall c p ws, any c p -> commit_ok ws -> exists c1 f c2, observe_all 16 native c ws = Some c1 /\
    sample 16 native sz c1 = Some (f, c2) /\ behind ext c2 (absorb p ws) /\ (exists l, sample_input c2 = sample_input c ++ l) /\
    length f = sz /\ Forall (fun z => (0 <= z < BP)%Z) f /\ (clean (sample_input c2) -> f = fst (h_sample ext (h_observe_all p ws))).
  Proof.
    intros c p ws [Gd [out N]] [L8 W]. destruct ws as [|w ws]; [discriminate L8|].
    destruct (observe_all_any ws w c p out Gd N W) as (c1 & E1 & S1 & M1).
    destruct (sample_synced ext c1 _ S1) as (c2 & E2 & _ & B2 & V2 & M2).
    exists c1. do 2 eexists. split; [exact E1|]. split; [exact E2|]. split; [exact B2|]. split; [rewrite M2, M1; eauto|].
    split; [|split; [apply from_pf_range|]].
    - rewrite map_length, firstn_length, rev_length, words_len. destruct ext; reflexivity.
    - intros C. rewrite M2 in C. apply clean_app in C as [_ C]. rewrite V2. symmetry. now apply clean_map.
  Qed.

  Lemma follow_betas : forall commits c p x all l, any c p -> follows G ext x p all l -> Forall commit_ok commits ->
    goes (sample_betas ext 64 16 native commits c x) all l (fun r all' l' => let '(bs, es, c', x') := r in
      exists p' vs, any c' p' /\ follows G ext x' p' all' l' /\ p' = fold_left absorb commits p /\
        Forall2 (fun e v => checks G e (fst v) (snd v)) es vs /\ Forall (placed all') es /\ (exists l, sample_input c' = sample_input c ++ l) /\
        length bs = length commits /\ (clean (sample_input c') -> Forall (fun v => snd v = true) vs)).
  Proof.
    induction commits as [|ws commits IH]; intros c p x all l A F W; cbn [sample_betas].
    { apply goes_ret. exists p, []. split; [exact A|]. split; [exact F|]. split; [reflexivity|]. split; [constructor|]. split; [constructor|].
      split; [exists []; now rewrite app_nil_r|]. split; [reflexivity|]. constructor. }
    inversion_clear W as [|? ? W1 W2]. destruct (round_native c p ws A W1) as (c1 & f & c2 & E1 & E2 & B2 & [l2 M2] & Lf & Rf & Cf).
    eapply goes_bind; [apply goes_get, E1|]. intros ? ? ? _ (-> & -> & ->).
    eapply goes_bind; [apply goes_get, E2|]. intros ? ? ? _ (-> & -> & ->). cbn [fst snd].
    eapply goes_bind; [apply follow_observe_all; [exact F|apply W1]|]. intros x1 all1 l1 I1 F1.
    eapply goes_bind; [apply follow_sample, F1|]. intros [e x2] all2 l2' I2 (F2 & Ge & Ie & Ne & _). cbn [fst snd] in *.
    destruct (sample_shape ext (h_observe_all p ws)) as (z0 & _ & _ & Ls).
    eapply goes_bind; [apply (follow_equal_f ext e _ (felt f) x2 _ all2 l2' F2 Ge Ls); split; auto|]. cbv beta. intros k all3 l3 I3 (F3 & K3 & Pk).
    rewrite limbs_felt in K3 by assumption.
    eapply goes_bind; [eapply (IH c2 _ x2 all3 l3 (behind_is_any _ _ B2) F3 W2)|]. intros [[[bs es] c4] x4] all4 l4 I4 (p4 & vs & A4 & F4 & Ep & Fe & Pe & [l4' M4] & Lb & Cv).
    apply goes_ret. exists p4, ((sz, list_eqb (fst (h_sample ext (h_observe_all p ws))) f) :: vs).
    split; [exact A4|]. split; [exact F4|]. split; [exact Ep|]. split; [constructor; assumption|].
    split; [constructor; [destruct Pk as [Ik Nk]; split; auto|exact Pe]|].
    split; [exists (l2 ++ l4'); now rewrite M4, M2, app_assoc|]. split; [cbn; now rewrite Lb|].
    intros C. constructor; [|now apply Cv]. cbn [snd]. apply list_eqb_ok. symmetry. apply Cf. rewrite M4 in C. apply clean_app in C as [C _]. exact C.
  Qed.

  (** *** everything *)
  Definition pow_passes (p : machine) (pow_bits : nat) (w : word4) : bool := fst (h_check_witness ext p pow_bits w).
  Lemma follow_bf : forall nq pow_bits log_blowup commits nproofs w c p x all l, any c p -> follows G ext x p all l -> Forall commit_ok commits -> word_ok w ->
    1 <= pow_bits <= 31 -> 1 <= length commits + log_blowup <= 31 ->
    let p1 := fold_left absorb commits p in
    let h := h_last (snd (h_check_witness ext p1 pow_bits w)) in
    goes (bf_sample_challenges ext 64 16 native nq pow_bits log_blowup commits nproofs w c x) all l (fun r all' l' =>
      match r with
      | InvalidProofShape => nproofs <> nq
      | InvalidPowWitness => top pow_bits (from_pf (nth 7 (words h) [])) <> 0%Z
      | Sampled bs is_ es c' x' => nproofs = nq /\ top pow_bits (from_pf (nth 7 (words h) [])) = 0%Z /\ length bs = length commits /\ length is_ = nq /\
          exists vs, Forall2 (fun e v => checks G e (fst v) (snd v)) es (vs ++ compared is_ (script_indices h (length commits + log_blowup) nq)) /\
            Forall (placed all') es /\ (exists l, sample_input c' = sample_input c ++ l) /\
            (clean (sample_input c') -> Forall (fun v => snd v = true) vs) /\
            (ext = true -> is_ = native_indices h true (length commits + log_blowup) nq)
      end).
  Proof.
    intros nq pow_bits log_blowup commits nproofs w c p x all l A F Wc Ww Bp Bi p1 h. unfold bf_sample_challenges.
    eapply goes_bind; [apply (follow_betas commits c p x all l A F Wc)|]. intros [[[bs es] c1] x1] all1 l1 I1 (p1' & vs & A1 & F1 & Ep & Fe & Pe & [m1 M1] & Lb & Cv).
    fold p1 in Ep. subst p1'. destruct (Nat.eqb_spec nproofs nq) as [En|En]; cbn [negb]; [|now apply goes_ret].
    destruct A1 as [Gd1 [out1 N1]]. assert (B32 : pow_bits <= 32) by lia.
    destruct (witness_agrees ext c1 p1 out1 pow_bits w Gd1 N1 B32 Ww) as (b & c2 & E2 & B2 & [m2 M2] & V2).
    eapply goes_bind; [apply goes_get, E2|]. intros ? ? ? _ (-> & -> & ->). cbn [fst snd].
    assert (Eb : b = (top pow_bits (from_pf (nth 7 (words h) [])) =? 0)%Z).
    { destruct (witness_native ext c1 p1 out1 pow_bits w Gd1 N1 B32 Ww) as [c2' E2']. rewrite E2 in E2'. apply (f_equal (fun o => match o with Some q => fst q | None => b end)) in E2'. cbn [fst] in E2'. unfold top, h. exact E2'. }
    destruct b; cbn [negb]; [|apply goes_ret; now apply Z.eqb_neq].
    eapply goes_bind; [apply follow_witness; [exact F1|exact Bp|exact Ww]|]. intros [q x2] all2 l2 I2 (F2 & K2 & Iq & Nq). cbn [fst snd] in *.
    destruct B2 as (Gd2 & Nr2 & Eb2 & N2).
    eapply goes_bind; [apply (follow_indices nq (length commits + log_blowup) c2 _ _ x2 _ all2 l2 N2 F2 Nr2 Eb2 Bi)|].
    intros [[[is_ es'] c3] x3] all3 l3 I3 (L3 & F3 & P3 & [m3 M3] & Cl3). apply goes_ret. split; [exact En|]. split; [now apply Z.eqb_eq|]. split; [exact Lb|]. split; [exact L3|].
    exists (vs ++ [(1, fst (h_check_witness ext p1 pow_bits w))]). split; [|split; [|split; [|split]]].
    - rewrite <- app_assoc. apply Forall2_app; [exact Fe|]. constructor; [exact K2|exact F3].
    - apply Forall_app. split; [|constructor; [split; auto|exact P3]]. eapply Forall_impl; [|exact Pe]. intros e [Ie Ne]. split; auto.
    - exists (m1 ++ m2 ++ m3). now rewrite M3, M2, M1, !app_assoc.
    - intros C. rewrite M3 in C. apply clean_app in C as [C _]. apply Forall_app. split.
      + apply Cv. rewrite M2 in C. apply clean_app in C as [C _]. exact C.
      + constructor; [|constructor]. cbn [snd]. symmetry. apply V2. exact C.
    - intros X. apply (Cl3 X true). clear -X. destruct ext; [reflexivity|discriminate X].
  Qed.
End Fri.
