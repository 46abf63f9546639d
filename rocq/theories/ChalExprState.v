(** The script-side challenger as a machine on bytes. *)
From Coq Require Import ZArith List Bool Arith Lia Permutation.
From Verif Require Import ScriptNum ScriptVM Lift U32Model Field BabyBear HelperModel PropWords DslModel DslSpec DslProofs DslDag DslMain DslOpSpec DslOps DslBuild DslIds DslDenote
  Blake3Spec ChallengerModel PropChallenger ChalExprModel ChalExprGraph ChalExprProofs.
Import ListNotations.
Local Open Scope nat_scope.

(** ** The machine *)
(** last hash, observed bytes not yet hashed, whether the last hash has not been
    sampled yet *)
Record machine := Machine { h_last : list Z; h_buf : list Z; h_ready : bool }.
Definition h_new : machine := Machine (zeros_of 32) [] false.
Definition h_next (p : machine) : list Z := b3_hash (h_buf p ++ zeros_of (32 - length (h_buf p)) ++ h_last p).
Definition h_observe (p : machine) (w : word4) : machine :=
  let p := Machine (h_last p) (h_buf p ++ w) false in
  if length (h_buf p) =? 32 then Machine (h_next p) [] true else p.
Definition h_observe_all (p : machine) (ws : list word4) : machine := fold_left h_observe ws p.
(** words of the hash as field elements, last word first *)
Definition h_sample (ext : bool) (p : machine) : list Z * machine :=
  let h := if h_ready p then h_last p else h_next p in
  (firstn (u32_size ext) (draws h), Machine h [] false).
Definition h_sample_bits (ext : bool) (p : machine) (bits : nat) : Z * machine :=
  let r := h_sample ext p in (Z.shiftr (hd 0%Z (fst r)) (Z.of_nat (32 - bits)), snd r).
Definition h_check_witness (ext : bool) (p : machine) (bits : nat) (w : word4) : bool * machine :=
  let r := h_sample_bits ext (h_observe_all p (w :: repeat (from_u64 0) 7)) bits in ((fst r =? 0)%Z, snd r).

Definition word_ok (w : word4) : Prop := length w = 4 /\ forallb byteb w = true.
Lemma word_zero : word_ok (from_u64 0). Proof. split; reflexivity. Qed.

(** ** The expressions follow the machine *)
Section Follow.
  Variable G : gadgets.
  Variable ext : bool.
  Notation sz := (u32_size ext).
  Lemma sz_cases : sz = 1 \/ sz = 4. Proof. destruct ext; auto. Qed.

  Record good (p : machine) : Prop := mkgood {
    gd_len : length (h_last p) = 32; gd_bytes : forallb byteb (h_last p) = true;
    gd_buf : forallb byteb (h_buf p) = true; gd_lt : length (h_buf p) < 32; gd_four : exists k, length (h_buf p) = 4 * k;
    gd_ready : h_ready p = true -> h_buf p = [] }.
  Lemma good_new : good h_new.
  Proof. constructor; try reflexivity; [cbn; lia|now exists 0]. Qed.

  Record follows (x : chal_expr) (p : machine) (all l : list expr) : Prop := mkfollows {
    fw_good : good p;
    fw_sponge : exists zs b k, x_sponge x = zs ++ [b] /\ Forall2 const_of (zeros_of 32) zs /\ gives G b (singletons (h_last p)) k /\
      single (e_op b) = false /\ In b all /\ Permutation l (zs ++ x_in x);
    fw_in : Forall2 const_of (h_buf p) (x_in x);
    fw_out : if h_ready p then exists t, x_out x = [t] /\ gives G t (singletons (draws (h_last p))) sz /\ single (e_op t) = false /\ In t all
             else x_out x = [] }.

  Lemma follows_incl : forall x p all all' l, incl all all' -> follows x p all l -> follows x p all' l.
  Proof.
    intros x p all all' l I0 [Gd (zs & b & k & A & B & C & D & E & F) Fi Fo]. constructor; auto.
    - exists zs, b, k. auto 10.
    - destruct (h_ready p); [|exact Fo]. destruct Fo as (t & ? & ? & ? & ?). exists t. auto.
  Qed.

  Lemma goes_perm : forall A (b : builder A) all l l' Q, Permutation l l' -> goes b all l' Q -> goes b all l Q.
  Proof.
    intros A b all l l' Q P Gb n W. apply Gb. eapply world_less; [exact W| |].
    - eapply Permutation_NoDup; [exact P|]. apply (sp_nodup _ _ (w_spare _ _ _ W)).
    - intros x Ix. eapply Permutation_in; [symmetry; exact P|exact Ix].
  Qed.
  Lemma goes_consts : forall ws all l, goes (byte_consts ws) all l
    (fun cs all' l' => Forall2 const_of ws cs /\ incl cs all' /\ Permutation l' (cs ++ l)).
  Proof.
    induction ws as [|b ws IH]; intros all l; cbn [byte_consts].
    - apply goes_ret. split; [constructor|]. split; [easy|reflexivity].
    - eapply goes_bind; [apply goes_constant|]. intros c all1 l1 I1 (-> & _ & _ & Ic & i & Ec).
      eapply goes_bind; [apply IH|]. intros cs all2 l2 I2 (F & I3 & P). apply goes_ret. split; [|split].
      + constructor; [exists i; exact Ec|exact F].
      + intros y [<-|Iy]; auto.
      + rewrite P. cbn [app]. symmetry. apply Permutation_middle.
  Qed.
  Lemma zero_byte_consts : forall k, zero_consts k = byte_consts (zeros_of k).
  Proof. induction k as [|k IH]; [reflexivity|]. cbn [zero_consts zeros_of repeat byte_consts]. now rewrite IH. Qed.

  Lemma const_single : forall z c, const_of z c -> is_const c /\ single (e_op c) = true.
  Proof. intros z c [i ->]. repeat split. now exists [z]. Qed.
  Lemma nodup_occ : forall x l, NoDup (map e_id l) -> In x l -> occ (e_id x) l = 1.
  Proof.
    intros x l N I0. unfold occ. induction l as [|y l IH]; [easy|]. cbn [map] in N. inversion N as [|? ? F N']; subst. cbn [filter].
    destruct I0 as [->|I0].
    - rewrite Nat.eqb_refl. cbn [length]. f_equal. apply occ_none. intros z Iz E. apply F. rewrite <- E. now apply in_map.
    - destruct (Nat.eqb_spec (e_id y) (e_id x)) as [E|E]; [|auto]. exfalso. apply F. rewrite E. now apply in_map.
  Qed.
  Lemma nodup_map_ids : forall all l, NoDup (map e_id all) -> incl l all -> NoDup l -> NoDup (map e_id l).
  Proof.
    intros all l N I0 Nl. induction Nl as [|x l F Nl IH]; [constructor|]. cbn. constructor; [|apply IH; intros y Iy; apply I0; now right].
    intros J. apply in_map_iff in J as (y & E & Iy). apply F. replace x with y; [exact Iy|].
    apply (nodup_ids all); auto; apply I0; [now right|now left].
  Qed.
  Lemma forall2_skipn : forall A B (P : A -> B -> Prop) k l r, Forall2 P l r -> Forall2 P (skipn k l) (skipn k r).
  Proof. intros A B P. induction k as [|k IH]; intros l r F; [exact F|]. destruct F; [constructor|]. cbn. auto. Qed.
  Lemma zeros_bytes : forall k, forallb byteb (zeros_of k) = true.
  Proof. induction k; [reflexivity|exact IHk]. Qed.
  Lemma skipn_zeros : forall k n, skipn k (zeros_of n) = zeros_of (n - k).
  Proof. induction k as [|k IH]; intros [|n]; try reflexivity. cbn [zeros_of repeat skipn]. apply IH. Qed.

  (** hashing *)
  Lemma follow_duplex : forall x zs b k hs bs all l, x_sponge x = zs ++ [b] -> Forall2 const_of (zeros_of 32) zs ->
    gives G b (singletons hs) k -> single (e_op b) = false -> In b all -> Permutation l (zs ++ x_in x) ->
    Forall2 const_of bs (x_in x) -> length hs = 32 -> forallb byteb hs = true -> forallb byteb bs = true -> length bs <= 32 -> x_out x = [] ->
    goes (x_duplexing ext 64 x) all l (fun x' all' l' =>
      follows x' (Machine (b3_hash (bs ++ zeros_of (32 - length bs) ++ hs)) [] true) all' l').
  Proof.
    intros x zs b k hs bs all l Es Fz Gb Sb Ib Pl Fi Lh Bh Bb Lb Eo.
    assert (Li : length (x_in x) = length bs) by (symmetry; eapply forall2_len; eauto).
    assert (Lz : length zs = 32) by (rewrite <- (forall2_len _ _ _ _ _ Fz); apply repeat_length).
    unfold x_duplexing. apply goes_world. intros n0 W0.
    assert (C1 : (length (x_in x) <=? 64 / 2) = true) by (apply Nat.leb_le; rewrite Li; exact Lb). rewrite C1.
    assert (C2 : (length (x_in x) <=? length (x_sponge x)) = true) by (apply Nat.leb_le; rewrite Li, Es, app_length, Lz; cbn; lia). rewrite C2.
    eapply goes_bind; [apply goes_ret with (Q := fun _ all' l' => all' = all /\ l' = l); auto|]. intros _ ? ? _ [-> ->].
    eapply goes_bind; [apply goes_ret with (Q := fun _ all' l' => all' = all /\ l' = l); auto|]. intros _ ? ? _ [-> ->].
    set (cs := x_in x ++ skipn (length (x_in x)) zs).
    assert (Ecs : x_in x ++ skipn (length (x_in x)) (x_sponge x) = cs ++ [b]).
    { unfold cs. rewrite Es, skipn_app. replace (length (x_in x) - length zs) with 0 by lia. cbn [skipn]. now rewrite app_assoc. }
    rewrite Ecs. clear C1 C2.
    assert (Fcs : Forall2 const_of (bs ++ zeros_of (32 - length bs)) cs).
    { apply Forall2_app; [exact Fi|]. rewrite Li, <- skipn_zeros. now apply forall2_skipn. }
    assert (Lcs : length (bs ++ zeros_of (32 - length bs)) = 32) by (rewrite app_length; unfold zeros_of; rewrite repeat_length; lia).
    assert (Ccs : forall c, In c cs -> is_const c /\ single (e_op c) = true).
    { intros c Ic. clear -Fcs Ic. induction Fcs as [|z d bs' cs' Q F IH]; [easy|]. destruct Ic as [->|Ic]; [eapply const_single; eauto|auto]. }
    assert (Icl : incl cs l).
    { intros c Ic. eapply Permutation_in; [symmetry; exact Pl|]. unfold cs in Ic. apply in_app_iff. apply in_app_iff in Ic as [Ic|Ic]; [now right|left].
      rewrite <- (firstn_skipn (length (x_in x)) zs). apply in_app_iff. now right. }
    pose proof (w_spare _ _ _ W0) as Sp. pose proof (w_made _ _ _ W0) as Md.
    assert (Ncs : NoDup (cs ++ [b])).
    { apply (Permutation_NoDup (l := b :: cs)); [apply Permutation_cons_append|]. constructor.
      - intros J. destruct (Ccs _ J) as [_ Q]. congruence.
      - assert (NN : NoDup (zs ++ x_in x)) by (eapply Permutation_NoDup; [exact Pl|apply Sp]).
        unfold cs. eapply Permutation_NoDup; [apply Permutation_app_comm|]. rewrite <- (firstn_skipn (length (x_in x)) zs), <- app_assoc in NN.
        clear -NN. induction (firstn (length (x_in x)) zs) as [|a r IH]; [exact NN|]. inversion NN; auto. }
    assert (Iall : incl (rev (cs ++ [b])) all).
    { intros c Ic. apply in_rev in Ic. apply in_app_iff in Ic as [Ic|[<-|[]]]; [|exact Ib]. apply (sp_in _ _ Sp), Icl, Ic. }
    unfold blake3. eapply goes_bind; [eapply goes_node with (l' := []); [exact Iall|reflexivity| | |constructor|easy|easy]|].
    { intros c Ic [v Ev]. apply in_rev in Ic. apply in_app_iff in Ic as [Ic|[<-|[]]]; [now apply Icl|]. rewrite Ev in Sb. discriminate Sb. }
    { intros _ c Ic. assert (Jc : In c (cs ++ [b])) by now apply in_rev.
      apply in_app_iff in Jc as [Jc|[<-|[]]]; [right|now left]. split; [apply (Ccs c Jc)|]. apply nodup_occ; [|exact Ic].
      eapply nodup_map_ids; [exact (md_nodup _ _ Md)|exact Iall|]. eapply Permutation_NoDup; [apply Permutation_rev|exact Ncs]. }
    intros h all1 l1 I1 (-> & Ih & i & Eh).
    assert (Gh : gives G h (singletons (b3_hash (bs ++ zeros_of (32 - length bs) ++ hs))) sz).
    { rewrite Eh. rewrite app_assoc. eapply gives_blake3; eauto using sz_cases. now rewrite forallb_app, Bb, zeros_bytes. }
    eapply goes_bind; [rewrite zero_byte_consts; apply goes_consts|]. intros zs' all2 l2 I2 (Fz' & Iz' & P2). rewrite app_nil_r in P2.
    eapply goes_bind. { unfold to_sample. apply goes_world. intros n2 W2. apply goes_unary; [apply I2, Ih|reflexivity|rewrite Eh; discriminate|now rewrite Eh|apply (sp_nodup _ _ (w_spare _ _ _ W2))]. }
    intros t all3 l3 I3 (-> & It & j & Et).
    apply goes_ret. constructor; cbn [h_last h_buf h_ready x_in x_out x_sponge].
    - constructor; cbn [h_last h_buf h_ready]; auto using hash_len, hash_bytes; [cbn; lia|now exists 0].
    - exists zs', h, sz. split; [reflexivity|]. split; [exact Fz'|]. split; [exact Gh|]. split; [now rewrite Eh|]. split; [auto|now rewrite app_nil_r].
    - constructor.
    - exists t. rewrite Eo. split; [reflexivity|]. rewrite Et. split; [|split; [reflexivity|rewrite <- Et; exact It]].
      eapply gives_to_sample; eauto using hash_len, hash_bytes, sz_cases.
  Qed.

  Lemma follow_new : forall all, goes x_new all [] (fun x all' l' => follows x h_new all' l').
  Proof.
    intros all. unfold x_new. rewrite zero_byte_consts. eapply goes_bind; [apply goes_consts|]. intros zs all1 l1 I1 (Fz & Iz & P1). rewrite app_nil_r in P1.
    eapply goes_bind. { unfold sponge_state_init. apply goes_world. intros n W. eapply goes_node with (l' := l1); [easy|reflexivity|easy|easy|apply (sp_nodup _ _ (w_spare _ _ _ W))|apply incl_refl|easy]. }
    intros b all2 l2 I2 (-> & Ib & i & Eb). apply goes_ret. constructor; cbn [h_last h_buf h_ready h_new x_sponge x_in x_out].
    - exact good_new.
    - exists zs, b, 1. rewrite app_nil_r. split; [reflexivity|]. split; [exact Fz|].
      split; [rewrite Eb; exact (gives_init G i)|]. split; [now rewrite Eb|]. auto.
    - constructor.
    - reflexivity.
  Qed.

  Lemma follow_observe : forall x p w all l, follows x p all l -> word_ok w ->
    goes (x_observe ext 64 x w) all l (fun x' all' l' => follows x' (h_observe p w) all' l').
  Proof.
    intros x p w all l [Gd (zs & b & k & Es & Fz & Gb & Sb & Ib & Pl) Fi Fo] [Lw Bw]. unfold x_observe.
    eapply goes_bind; [apply goes_consts|]. intros cs all1 l1 I1 (Fc & Ic & P1).
    assert (Fi' : Forall2 const_of (h_buf p ++ w) (x_in x ++ cs)) by now apply Forall2_app.
    assert (Pl' : Permutation l1 (zs ++ x_in x ++ cs)).
    { rewrite P1, Pl. rewrite (Permutation_app_comm cs), <- app_assoc. reflexivity. }
    assert (Eb : forallb byteb (h_buf p ++ w) = true) by now rewrite forallb_app, (gd_buf _ Gd), Bw.
    cbn [x_in]. rewrite <- (forall2_len _ _ _ _ _ Fi').
    destruct (gd_four _ Gd) as [q Eq]. pose proof (gd_lt _ Gd) as Lt. assert (L4 : length (h_buf p ++ w) = 4 * S q) by (rewrite app_length, Eq, Lw; lia).
    assert (L32 : length (h_buf p ++ w) <= 32) by (rewrite L4; lia).
    unfold h_observe. cbn [h_buf h_last]. destruct (Nat.eqb_spec (length (h_buf p ++ w)) 32) as [E|E].
    - unfold h_next. cbn [h_buf h_last].
      eapply (follow_duplex (ChalExpr (x_sponge x) (x_in x ++ cs) []) zs b k (h_last p) (h_buf p ++ w)); auto; [apply Gd|apply Gd].
    - apply goes_ret. constructor; cbn [h_last h_buf h_ready x_sponge x_in x_out]; auto.
      + constructor; cbn [h_last h_buf h_ready]; auto; [apply Gd|apply Gd|lia|eauto|discriminate].
      + exists zs, b, k. auto 10.
  Qed.
  Lemma follow_observe_all : forall ws x p all l, follows x p all l -> Forall word_ok ws ->
    goes (x_observe_all ext 64 x ws) all l (fun x' all' l' => follows x' (h_observe_all p ws) all' l').
  Proof.
    induction ws as [|w ws IH]; intros x p all l Fw Wk; cbn [x_observe_all h_observe_all fold_left]; [now apply goes_ret|].
    inversion_clear Wk as [|? ? W1 W2]. eapply goes_bind; [apply follow_observe; eauto|]. intros x' all' l' _ F'. now apply IH.
  Qed.

  Lemma follow_sample : forall x p all l, follows x p all l ->
    goes (x_sample ext 64 x) all l (fun q all' l' => follows (snd q) (snd (h_sample ext p)) all' l' /\
      gives G (fst q) [fst (h_sample ext p)] sz /\ In (fst q) all' /\ (forall v, e_op (fst q) <> Constant v) /\ single (e_op (fst q)) = true).
  Proof.
    intros x p all l Fw. pose proof Fw as [Gd (zs & b & k & Es & Fz & Gb & Sb & Ib & Pl) Fi Fo]. unfold x_sample.
    apply goes_bind with (P := fun x' all' l' => follows x' (Machine (if h_ready p then h_last p else h_next p) [] true) all' l').
    { destruct (h_ready p) eqn:Er.
      - destruct Fo as (t & Eo & Gt & St & It). pose proof (gd_ready _ Gd Er) as Eb.
        assert (Ei : x_in x = []) by (rewrite Eb in Fi; now inversion Fi). rewrite Ei, Eo. cbn [is_nil negb orb]. apply goes_ret.
        destruct p as [hl hb hr]. cbn in Er, Eb. subst hr hb. exact Fw.
      - rewrite Fo. cbn [is_nil]. rewrite orb_true_r. unfold h_next.
        apply (follow_duplex x zs b k (h_last p) (h_buf p)); auto; try apply Gd. pose proof (gd_lt _ Gd). lia. }
    intros x' all1 l1 I1 [Gd1 (zs1 & b1 & k1 & Es1 & Fz1 & Gb1 & Sb1 & Ib1 & Pl1) Fi1 (t & Eo & Gt & St & It)].
    cbn [h_last h_buf h_ready] in *. rewrite Eo. cbn [rev app].
    set (h := if h_ready p then h_last p else h_next p) in *.
    apply goes_bind with (P := fun s all' l' => l' = l1 /\ In s all' /\ exists i, s = Node i (if ext then SampleExt else SampleBase) sz [t]).
    { apply goes_world. intros n W. pose proof (sp_nodup _ _ (w_spare _ _ _ W)) as N.
      destruct ext; apply goes_unary; auto; try reflexivity; try discriminate; intros v E; rewrite E in St; discriminate St. }
    intros s all2 l2 I2 (-> & Is & i & Ei). apply goes_ret. cbn [fst snd h_sample]. fold h. split; [|split; [|split; [exact Is|]]].
    - constructor; cbn [h_last h_buf h_ready x_sponge x_in x_out]; auto.
      + constructor; cbn [h_last h_buf h_ready]; try apply Gd1; auto.
      + exists zs1, b1, k1. auto 10.
    - rewrite Ei. apply gives_sample; [exact Gt|apply draws_len].
    - rewrite Ei. split; [intros v|]; destruct ext; easy.
  Qed.

  Lemma draws_range : forall hs z, In z (draws hs) -> (0 <= z < BP)%Z.
  Proof.
    intros hs z I0. unfold draws in I0. apply in_map_iff in I0 as (i & <- & _). unfold sample_of.
    destruct (_ =? _)%Z; [split; [lia|reflexivity]|]. apply Z.mod_pos_bound. reflexivity.
  Qed.
  Lemma sample_shape : forall p, exists z, hd_error (fst (h_sample ext p)) = Some z /\ (0 <= z < BP)%Z /\
    length (fst (h_sample ext p)) = sz.
  Proof.
    intros p. cbn [h_sample fst]. set (h := if h_ready p then h_last p else h_next p).
    pose proof (draws_len h) as L. pose proof (draws_range h) as R. destruct (draws h) as [|z r] eqn:E; [discriminate L|].
    exists z. split; [now destruct ext|]. split; [apply R; now left|]. rewrite firstn_length, L. now destruct ext.
  Qed.
  Lemma firstn_in : forall A n (l : list A) x, In x (firstn n l) -> In x l.
  Proof. induction n as [|n IH]; intros [|y l] x I0; cbn in *; try easy. destruct I0; auto. Qed.

  Lemma follow_bits : forall x p bits all l, follows x p all l -> 1 <= bits <= 31 ->
    goes (x_sample_bits ext 64 x bits) all l (fun q all' l' => follows (snd q) (snd (h_sample_bits ext p bits)) all' l' /\
      gives G (fst q) [[fst (h_sample_bits ext p bits)]] 1 /\ In (fst q) all' /\ (forall v, e_op (fst q) <> Constant v)).
  Proof.
    intros x p bits all l Fw B. unfold x_sample_bits. eapply goes_bind; [apply follow_sample, Fw|].
    intros [s x1] all1 l1 I1 (F1 & Gs & Is & Ns & _). cbn [fst snd] in *.
    eapply goes_bind; [apply goes_get, (g_size _ _ _ _ Gs)|]. intros ? ? ? _ (-> & -> & ->).
    destruct (sample_shape p) as (z & Ez & Rz & Lz).
    apply goes_bind with (P := fun f all' l' => l' = l1 /\ follows x1 (snd (h_sample ext p)) all' l1 /\ gives G f [[z]] 1 /\ In f all' /\ (forall v, e_op f <> Constant v)).
    { destruct ext; cbn [u32_size Nat.eqb].
      - destruct (fst (h_sample true p)) as [|c0 [|c1 [|c2 [|c3 [|? ?]]]]]; try discriminate Lz. injection Ez as ->.
        unfold four_u32_to_u32. eapply goes_bind; [apply goes_get, (g_size _ _ _ _ Gs)|]. intros ? ? ? _ (-> & -> & ->). cbn [Nat.eqb check].
        eapply goes_bind; [apply goes_ret with (Q := fun _ all' l' => all' = all1 /\ l' = l1); auto|]. intros _ ? ? _ [-> ->].
        eapply goes_weaken. { apply goes_world. intros n W. apply goes_unary; auto; try reflexivity; [discriminate|]. apply (sp_nodup _ _ (w_spare _ _ _ W)). }
        cbv beta. intros e all2 l2 I2 (-> & Ie & i & Ee). split; [reflexivity|]. split; [eapply follows_incl; eauto|]. rewrite Ee. split; [eapply gives_four; eauto|].
        rewrite <- Ee. split; [exact Ie|]. rewrite Ee. discriminate.
      - destruct (fst (h_sample false p)) as [|c0 [|? ?]]; try discriminate Lz. injection Ez as ->. apply goes_ret. auto. }
    intros f all2 l2 I2 (-> & F2 & Gf & If & Nf). unfold extract_bits.
    eapply goes_bind.
    { eapply goes_bind; [apply goes_get, (g_size _ _ _ _ Gf)|]. intros ? ? ? _ (-> & -> & ->).
      apply goes_world. intros n W. apply goes_unary; auto; try reflexivity; [discriminate|]. apply (sp_nodup _ _ (w_spare _ _ _ W)). }
    intros e all3 l3 I3 (-> & Ie & i & Ee). apply goes_ret. cbn [fst snd h_sample_bits]. split; [eapply follows_incl; eauto|].
    assert (Eh : hd 0%Z (fst (h_sample ext p)) = z) by (destruct (fst (h_sample ext p)); [discriminate Ez|now injection Ez]). rewrite Eh.
    rewrite Ee. split; [now apply gives_extract|]. rewrite <- Ee. split; [exact Ie|]. rewrite Ee. discriminate.
  Qed.

  (** comparison with a constant *)
  Lemma follow_equal : forall a y v x p all l, follows x p all l -> gives G a [y] (length y) -> In a all -> (forall v, e_op a <> Constant v) ->
    length v = length y -> length y = 1 \/ length y = 4 ->
    goes (equal_for_u32_vec a v) all l (fun e all' l' => follows x p all' l' /\ checks G e (length y) (list_eqb y v) /\ In e all' /\ (forall v, e_op e <> Constant v)).
  Proof.
    intros a y v x p all l Fw Ga Ia Na Lv Ly. unfold equal_for_u32_vec. eapply goes_bind; [apply goes_constant|].
    intros c all1 l1 I1 (-> & Eo & Ep & Ic & i & Ec). eapply goes_weaken.
    { unfold equal. apply goes_world. intros n W. pose proof (sp_nodup _ _ (w_spare _ _ _ W)) as N. inversion N as [|? ? Nc N']; subst.
      eapply goes_node with (l' := l); [|reflexivity| |discriminate|exact N'|apply incl_tl, incl_refl|].
      - intros z [<-|[<-|[]]]; auto.
      - intros z [<-|[<-|[]]] [w E]; [now elim (Na w)|now left].
      - intros z Iz [<-|[<-|[]]].
        + destruct (sp_const _ _ (w_spare _ _ _ W) a) as [[w E] _]; [now right|]. now elim (Na w).
        + now apply Nc. }
    cbv beta. intros e all2 l2 I2 (-> & Ie & j & Ee). split; [eapply follows_incl; [|exact Fw]; eapply incl_tran; eauto|].
    rewrite Ee. split; [rewrite Ec; apply gives_equal; auto|]. rewrite <- Ee. split; [exact Ie|]. rewrite Ee. discriminate.
  Qed.

  Lemma follow_witness : forall x p bits w all l, follows x p all l -> 1 <= bits <= 31 -> word_ok w ->
    goes (x_check_witness ext 64 x bits w) all l (fun q all' l' => follows (snd q) (snd (h_check_witness ext p bits w)) all' l' /\
      checks G (fst q) 1 (fst (h_check_witness ext p bits w)) /\ In (fst q) all' /\ (forall v, e_op (fst q) <> Constant v)).
  Proof.
    intros x p bits w all l Fw B Ww. unfold x_check_witness, h_check_witness.
    eapply goes_bind. { apply follow_observe_all; [exact Fw|]. constructor; [exact Ww|]. apply Forall_forall. intros u Iu. apply repeat_spec in Iu. subst u. exact word_zero. }
    intros x1 all1 l1 I1 F1. eapply goes_bind; [apply (follow_bits x1 _ bits all1 l1 F1 B)|].
    intros [s x2] all2 l2 I2 (F2 & Gs & Is & Ns). cbn [fst snd] in *.
    set (r := h_sample_bits ext (h_observe_all p (w :: repeat (from_u64 0) 7)) bits) in *.
    eapply goes_bind; [apply (follow_equal s [fst r] [0%Z] x2 (snd r)); auto|].
    intros e all3 l3 I3 (F3 & Ke & Ie & Ne). apply goes_ret. cbn [fst snd]. split; [exact F3|]. split; [|auto].
    cbn [length list_eqb] in Ke. now rewrite andb_true_r in Ke.
  Qed.
End Follow.
