(** What the scripts of the expression language need on the two stacks, from above: the values
    below, the values of the operands that are still waiting, the kept copies of shared values
    and the scratch space of one opcode. *)
From Coq Require Import ZArith List Bool Arith Lia.
From Verif Require Import ScriptNum ScriptVM VMLemmas U32Model Lift HelperModel DslModel DslStack DslSpec DslProofs DslDag DslMain StackModel StackProofs PropDsl.
Import ListNotations.
Local Open Scope nat_scope.

Lemma list_sum_rev : forall l, list_sum (rev l) = list_sum l.
Proof. induction l as [|x l IH]; [reflexivity|]. cbn [rev]. rewrite list_sum_app, IH. unfold list_sum. cbn [fold_right]. lia. Qed.

Section Peak.
  Variable G : gadgets.
  Variable gt : getter.
  Variable R : expr.
  Hypothesis uniq : unique_ids R.
  Variable N0 : nat.
  Hypothesis gt_old : forall x v, gt x = Some v -> fst v < N0.
  Variable a0 K : nat.
  Hypothesis K1 : 1 <= K.
  Notation M := (refs R).

  (** the scripts of the nodes, above their operands *)
  Definition node_fits (e : expr) : Prop := forall sizes em,
    all_some (map var_size (e_ops e)) = Some sizes -> generate G (e_op e) sizes = Some em ->
    heights (em_script em) (Z.of_nat (list_sum (em_outs em)) - Z.of_nat (list_sum (map (outsize G gt) (e_ops e)))) 0 (Z.of_nat K).
  Hypothesis fits : forall e, sub e R -> node_fits e.

  Variable nodes : list expr.
  Hypothesis nodes_sub : forall d, In d nodes -> sub d R.
  Hypothesis nodes_all : forall d, sub d R -> In d nodes.
  Hypothesis nodes_once : NoDup (map e_id nodes).
  Definition is_shared (d : expr) : bool := single (e_op d) && (1 <? M (e_id d)).
  Definition shared_size : nat := list_sum (map (outsize G gt) (filter is_shared nodes)).
  Definition is_kept (m : idmap) (d : expr) : bool := match m (e_id d) with Some c => match stack_var c with Some _ => true | None => false end | None => false end.
  Definition kept_size (m : idmap) : nat := list_sum (map (outsize G gt) (filter (fun d => is_shared d && is_kept m d) nodes)).

  Lemma kept_le : forall m, kept_size m <= shared_size.
  Proof.
    intros m. unfold kept_size, shared_size. clear. induction nodes as [|d l IH]; cbn; [lia|].
    cbn [filter] in *. destruct (is_shared d); cbn [andb]; [|exact IH]. destruct (is_kept m d); cbn [map]; unfold list_sum in *; cbn [fold_right]; lia.
  Qed.
  Definition tot (T : tracker) : nat := items (t_main T) + items (t_alt T).

  Record inv (T : tracker) (m : idmap) : Prop := mkinv {
    in_gt : forall x v w, gt x = Some v -> In w (t_main T) -> fst w = fst v -> snd w = snd v;
    in_n0 : N0 <= t_next T;
    in_alt : Forall (fun v => fst v < t_next T) (t_alt T);
    in_counts : forall d c, sub d R -> m (e_id d) = Some c -> count c = M (e_id d) /\
               forall v, stack_var c = Some v -> shape G gt d = Some [snd v] /\ fst v < t_next T /\ forall w, In w (t_alt T) -> fst w = fst v -> snd w = snd v;
    in_size : items (t_alt T) <= a0 + kept_size m }.

  Definition bound (T : tracker) (n : nat) : Z := Z.of_nat (items (t_main T) + n + K + shared_size + a0) - Z.of_nat (tot T).
  (** [l'] is [l] without some of the inputs *)
  Inductive thin : list svar -> list svar -> Prop :=
  | thin_nil : thin [] []
  | thin_keep : forall v l l', thin l l' -> thin (v :: l) (v :: l')
  | thin_drop : forall v l l', fst v < N0 -> thin l l' -> thin (v :: l) l'.
  Lemma thin_refl : forall l, thin l l. Proof. induction l; constructor; auto. Qed.
  Lemma thin_trans : forall a b, thin a b -> forall c, thin b c -> thin a c.
  Proof.
    induction 1 as [|v a b Tb IH|v a b Lv Tb IH]; intros c Tc; [exact Tc| |constructor; auto].
    inversion_clear Tc; [apply thin_keep|apply thin_drop]; auto.
  Qed.
  Lemma thin_in : forall a b, thin a b -> forall v, In v b -> In v a.
  Proof. induction 1 as [|v a b Tb IH|v a b Lv Tb IH]; intros w I; [exact I| |right; auto]. destruct I as [->|I]; [now left|right; auto]. Qed.
  Lemma thin_items : forall a b, thin a b -> items b <= items a.
  Proof. clear. unfold items, list_sum. induction 1; cbn [map fold_right]; lia. Qed.
  Lemma thin_fresh : forall ov b c, Forall (fun v => N0 <= fst v) ov -> thin (ov ++ b) c -> exists b', c = ov ++ b' /\ thin b b'.
  Proof.
    induction ov as [|v ov IH]; intros b c F Tc; [exists c; auto|]. inversion_clear F as [|? ? Lv F'].
    cbn [app] in Tc. inversion Tc as [|? ? l' Tl|? ? l' L2 Tl]; subst; [|lia]. destruct (IH _ _ F' Tl) as (b' & -> & Tb). exists b'. auto.
  Qed.
  Record peaks (T T' : tracker) (ov base : list svar) (n : nat) : Prop := mkpeaks {
    pk_main : t_main T' = ov ++ base;
    pk_base : thin (t_main T) base;
    pk_next : t_next T <= t_next T';
    pk_fresh : Forall (fun v => N0 <= fst v) ov;
    pk_script : exists p, t_script T' = t_script T ++ p /\ heights p (Z.of_nat (tot T') - Z.of_nat (tot T)) 0 (bound T n) }.

  Lemma find_var_in : forall i l o s r, find_var i l = Some (o, s, r) -> In (i, s) l /\ items l = items r + s /\ (forall v, In v r -> In v l) /\ (i < N0 -> thin l r).
  Proof.
    intros i. induction l as [|[j t] l IH]; intros o s r E; [discriminate E|]. cbn [find_var] in E.
    destruct (Nat.eqb_spec j i) as [->|Ne].
    - injection E as <- <- <-. split; [now left|]. split; [unfold items, list_sum; cbn [map fold_right snd]; lia|]. split; [intros v I; now right|].
      intros Li. apply thin_drop; [exact Li|apply thin_refl].
    - destruct (find_var i l) as [[[o' s'] r']|]; [|discriminate E]. injection E as <- <- <-. destruct (IH _ _ _ eq_refl) as (A & B & C & D).
      split; [now right|]. split; [unfold items, list_sum in *; cbn [map fold_right snd]; lia|]. split; [intros v [->|I]; [now left|right; now apply C]|].
      intros Li. apply thin_keep; auto.
  Qed.

  Lemma pick_heights : forall s k, heights (repeat_script s [pushnat k; OP_PICK]) (Z.of_nat s) 0 (Z.of_nat s + 1).
  Proof.
    intros s k. assert (P : heights [pushnat k; OP_PICK] 1 1 1) by (apply profile_heights; reflexivity).
    eapply heights_weaken; [apply (heights_repeat _ _ _ _ P ltac:(lia) s)|lia|destruct s; lia|destruct s; lia].
  Qed.
  Lemma roll_heights : forall s k, heights (repeat_script s [pushnat k; OP_ROLL]) 0 0 1.
  Proof.
    intros s k. assert (P : heights [pushnat k; OP_ROLL] 0 1 1) by (apply profile_heights; reflexivity).
    eapply heights_weaken; [apply (heights_repeat _ _ _ _ P ltac:(lia) s)|lia|destruct s; lia|destruct s; lia].
  Qed.
  Lemma toalt_heights : forall s, heights (repeat_script s [OP_TOALTSTACK]) 0 0 0.
  Proof.
    intros s. assert (P : heights [OP_TOALTSTACK] 0 0 0) by (apply profile_heights; reflexivity).
    eapply heights_weaken; [apply (heights_repeat _ _ _ _ P ltac:(lia) s)|lia|destruct s; lia|destruct s; lia].
  Qed.
  Lemma fromalt_heights : forall s, heights (repeat_script s [OP_FROMALTSTACK]) 0 0 0.
  Proof.
    intros s. assert (P : heights [OP_FROMALTSTACK] 0 0 0) by (apply profile_heights; reflexivity).
    eapply heights_weaken; [apply (heights_repeat _ _ _ _ P ltac:(lia) s)|lia|destruct s; lia|destruct s; lia].
  Qed.
  Lemma restore_heights : forall o s, heights (alt_restore o s) 0 0 1.
  Proof.
    intros o s. unfold alt_restore. assert (P : heights [pushnat s; OP_ROLL; OP_TOALTSTACK] 0 1 1) by (apply profile_heights; reflexivity).
    eapply heights_weaken; [apply (heights_repeat _ _ _ _ P ltac:(lia) o)|lia|destruct o; lia|destruct o; lia].
  Qed.
  Lemma heights_seq : forall p q d1 h1 d2 h2, heights p d1 0 h1 -> heights q d2 0 h2 -> heights (p ++ q) (d1 + d2) 0 (Z.max h1 (d1 + h2)).
  Proof. intros p q d1 h1 d2 h2 P Q. eapply heights_weaken; [apply (heights_app _ _ _ _ _ _ _ _ P Q)|lia|lia|lia]. Qed.

  (** *** Reuse of a kept value *)
  Lemma kept_same : forall m id c c', m id = Some c -> (stack_var c = None <-> stack_var c' = None) -> kept_size (map_insert id c' m) = kept_size m.
  Proof.
    intros m id c c' E I. unfold kept_size. f_equal. f_equal. apply filter_ext. intros d. f_equal. unfold is_kept, map_insert.
    destruct (Nat.eqb_spec (e_id d) id) as [->|Ne]; [|reflexivity]. rewrite E. destruct (stack_var c), (stack_var c'); try reflexivity; destruct I as [I1 I2]; [now discriminate I2|now discriminate I1].
  Qed.
  Lemma alt_le : forall T m, inv T m -> items (t_alt T) <= a0 + shared_size.
  Proof. clear. intros T m I. pose proof (in_size _ _ I). pose proof (kept_le m). lia. Qed.
  Lemma outsize_need : forall e, outsize G gt e <= need G gt e.
  Proof. clear. intros [id o s ops]. cbn [need]. lia. Qed.

  Lemma reuse_peaks : forall e T m T' m' vars, sub e R -> inv T m -> reuse (e_id e) T m = Some (Some (T', m', vars)) ->
    inv T' m' /\ Some (map snd (rev vars)) = shape G gt e /\ exists base, peaks T T' (rev vars) base (need G gt e).
  Proof.
    intros e T m T' m' vars Se I E. unfold reuse in E. destruct (m (e_id e)) as [c|] eqn:Ec; [|discriminate E].
    destruct (in_counts _ _ I e c Se Ec) as [Cc Cv]. destruct (stack_var c) as [v|] eqn:Ev; [|discriminate E].
    destruct (1 <? count c); [|discriminate E]. destruct (Cv v eq_refl) as (Sh & Lv & Sv).
    pose proof (outsize_need e) as On. unfold outsize in On. rewrite Sh in On. unfold list_sum in On. cbn [fold_right] in On. pose proof (alt_le _ _ I) as Al. pose proof (in_n0 _ _ I) as Ln.
    destruct (copied c =? count c - 2).
    - destruct (move_var_from_altstack v T) as [[T1 n]|] eqn:Em; [|discriminate E]. injection E as <- <- <-.
      unfold move_var_from_altstack in Em. destruct (find_var (fst v) (t_alt T)) as [[[o s] r]|] eqn:Ef; [|discriminate Em]. injection Em as <- <-.
      apply find_var_in in Ef as (Fi & Fs & Fr & _). pose proof (Sv _ Fi eq_refl) as Es. cbn [snd] in Es. subst s.
      split; [|split; [now rewrite Sh|exists (t_main T); constructor]].
      + constructor; cbn [t_main t_alt t_next].
        * intros x u w Eg [<-|Iw] Ew; [|eapply (in_gt _ _ I); eauto]. cbn [fst] in Ew. pose proof (gt_old _ _ Eg). lia.
        * lia.
        * rewrite Forall_forall. intros w Iw. pose proof (in_alt _ _ I) as Fa. rewrite Forall_forall in Fa. specialize (Fa w (Fr w Iw)). cbn beta in *. lia.
        * intros d c' Sd Ed. destruct (in_counts _ _ I d c' Sd Ed) as [C1 C2]. split; [exact C1|]. intros u Eu. destruct (C2 u Eu) as (U1 & U2 & U3). split; [exact U1|]. split; [lia|]. intros w Iw. apply U3. now apply Fr.
        * pose proof (in_size _ _ I). lia.
      + reflexivity.
      + apply thin_refl.
      + cbn [t_next]. lia.
      + constructor; [exact Ln|constructor].
      + cbn [t_script]. eexists. split; [reflexivity|]. eapply heights_weaken; [apply heights_seq; [apply fromalt_heights|apply restore_heights]| | |].
        * unfold tot. cbn [t_main t_alt]. unfold items, list_sum in *. cbn [map fold_right snd]. lia.
        * lia.
        * unfold bound, tot. lia.
    - destruct (copy_var_from_altstack v T) as [[T1 n]|] eqn:Em; [|discriminate E]. injection E as <- <- <-.
      unfold copy_var_from_altstack in Em. destruct (find_var (fst v) (t_alt T)) as [[[o s] r]|] eqn:Ef; [|discriminate Em]. injection Em as <- <-.
      apply find_var_in in Ef as (Fi & Fs & Fr & _). pose proof (Sv _ Fi eq_refl) as Es. cbn [snd] in Es. subst s.
      split; [|split; [now rewrite Sh|exists (t_main T); constructor]].
      + constructor; cbn [t_main t_alt t_next].
        * intros x u w Eg [<-|Iw] Ew; [|eapply (in_gt _ _ I); eauto]. cbn [fst] in Ew. pose proof (gt_old _ _ Eg). lia.
        * lia.
        * eapply Forall_impl; [|apply (in_alt _ _ I)]. cbn beta. intros; lia.
        * intros d c' Sd Ed. unfold map_insert in Ed. destruct (Nat.eqb_spec (e_id d) (e_id e)) as [Eid|Nid].
          -- injection Ed as <-. assert (d = e) by (apply uniq; auto). subst d. cbn [count stack_var]. split; [exact Cc|]. intros u Eu. injection Eu as <-. split; [exact Sh|]. split; [lia|exact Sv].
          -- destruct (in_counts _ _ I d c' Sd Ed) as [C1 C2]. split; [exact C1|]. intros u Eu. destruct (C2 u Eu) as (U1 & U2 & U3). split; [exact U1|]. split; [lia|exact U3].
        * rewrite (kept_same m _ c) by (try exact Ec; rewrite Ev; cbn; split; discriminate). apply (in_size _ _ I).
      + reflexivity.
      + apply thin_refl.
      + cbn [t_next]. lia.
      + constructor; [exact Ln|constructor].
      + cbn [t_script]. eexists. split; [reflexivity|]. eapply heights_weaken; [apply heights_seq; [apply fromalt_heights|apply heights_seq; [apply pick_heights|apply heights_seq; [apply toalt_heights|apply restore_heights]]]| | |].
        * unfold tot. cbn [t_main t_alt]. unfold items, list_sum in *. cbn [map fold_right snd]. lia.
        * lia.
        * unfold bound, tot. lia.
  Qed.

  Lemma kept_more : forall m e c c', sub e R -> is_shared e = true -> m (e_id e) = Some c -> stack_var c = None -> stack_var c' <> None ->
    kept_size (map_insert (e_id e) c' m) = kept_size m + outsize G gt e.
  Proof.
    intros m e c c' Se Sh Em Ec Ec'. unfold kept_size. pose proof (nodes_all e Se) as I.
    assert (Ke : is_kept m e = false) by (unfold is_kept; now rewrite Em, Ec).
    assert (Ke' : is_kept (map_insert (e_id e) c' m) e = true) by (unfold is_kept, map_insert; rewrite Nat.eqb_refl; destruct (stack_var c'); congruence).
    assert (Ot : forall d, e_id d <> e_id e -> is_kept (map_insert (e_id e) c' m) d = is_kept m d) by (intros d Nd; unfold is_kept, map_insert; apply Nat.eqb_neq in Nd; now rewrite Nd).
    clear - nodes_once I Sh Ke Ke' Ot.
    induction nodes as [|d l IH]; [easy|]. cbn [map] in nodes_once. inversion_clear nodes_once as [|? ? Ni Nd]. cbn [filter].
    destruct I as [->|I].
    - rewrite Sh, Ke, Ke'. cbn [andb map]. unfold list_sum. cbn [fold_right]. rewrite Nat.add_comm. f_equal. f_equal. f_equal.
      assert (X : forall d, In d l -> is_kept (map_insert (e_id e) c' m) d = is_kept m d) by (intros d Id; apply Ot; intros Ed; apply Ni; rewrite <- Ed; now apply in_map).
      clear - X. induction l as [|d l IH]; [reflexivity|]. cbn [filter]. rewrite (X d (or_introl eq_refl)), IH by (intros x Ix; apply X; now right). reflexivity.
    - assert (Ne : e_id d <> e_id e) by (intros Ed; apply Ni; rewrite Ed; now apply in_map). rewrite (Ot d Ne). specialize (IH Nd I).
      destruct (is_shared d && is_kept m d); [|exact IH]. cbn [map]. unfold list_sum in *. cbn [fold_right]. lia.
  Qed.

  Lemma keep_peaks : forall e v base T m T' m' vars', sub e R -> single (e_op e) = true -> inv T m -> shape G gt e = Some [snd v] -> t_main T = v :: base ->
    keep_copy (e_id e) [v] T m = Some (T', m', vars') ->
    inv T' m' /\ vars' = [v] /\ t_main T' = t_main T /\ t_next T <= t_next T' /\
    exists p, t_script T' = t_script T ++ p /\ heights p (Z.of_nat (tot T') - Z.of_nat (tot T)) 0 (Z.of_nat (tot T') - Z.of_nat (tot T) + 1).
  Proof.
    intros e v base T m T' m' vars' Se Sg I Sh Em E. unfold keep_copy in E. destruct (m (e_id e)) as [c|] eqn:Ec; [|discriminate E].
    destruct (in_counts _ _ I e c Se Ec) as [Cc Cv].
    assert (Same : (T, m, [v]) = (T', m', vars') -> inv T' m' /\ vars' = [v] /\ t_main T' = t_main T /\ t_next T <= t_next T' /\
      exists p, t_script T' = t_script T ++ p /\ heights p (Z.of_nat (tot T') - Z.of_nat (tot T)) 0 (Z.of_nat (tot T') - Z.of_nat (tot T) + 1)).
    { intros Q. injection Q as <- <- <-. split; [exact I|]. split; [reflexivity|]. split; [reflexivity|]. split; [lia|]. exists []. split; [now rewrite app_nil_r|].
      eapply heights_weaken; [apply heights_nil|lia|lia|lia]. }
    destruct (stack_var c) as [w|] eqn:Ev; [now apply Same; injection E as <- <- <-|].
    destruct ((1 <? count c) && (copied c =? 0)) eqn:Ck; [|now apply Same; injection E as <- <- <-]. clear Same. apply andb_true_iff in Ck as [Ck _].
    assert (Shd : is_shared e = true) by (unfold is_shared; now rewrite Sg, <- Cc).
    assert (Fv : find_var (fst v) (t_main T) = Some (0, snd v, base)) by (rewrite Em; destruct v; cbn [find_var fst snd]; now rewrite Nat.eqb_refl).
    unfold copy_var in E. rewrite Fv in E. unfold to_altstack in E. cbn [t_main t_alt t_next t_script snd] in E. injection E as <- <- <-.
    split; [|split; [reflexivity|split; [reflexivity|split; [cbn [t_next]; lia|]]]].
    - constructor; cbn [t_main t_alt t_next].
      + exact (in_gt _ _ I).
      + pose proof (in_n0 _ _ I). lia.
      + constructor; [cbn [fst]; lia|]. eapply Forall_impl; [|apply (in_alt _ _ I)]. cbn beta. intros; lia.
      + intros d c' Sd Ed. unfold map_insert in Ed. destruct (Nat.eqb_spec (e_id d) (e_id e)) as [Eid|Nid].
        * injection Ed as <-. assert (d = e) by (apply uniq; auto). subst d. cbn [count stack_var]. split; [exact Cc|]. intros u Eu. injection Eu as <-. cbn [fst snd].
          split; [exact Sh|]. split; [lia|]. intros w [<-|Iw] Ew; [reflexivity|]. pose proof (in_alt _ _ I) as Fa. rewrite Forall_forall in Fa. specialize (Fa w Iw). cbn beta in Fa. lia.
        * destruct (in_counts _ _ I d c' Sd Ed) as [C1 C2]. split; [exact C1|]. intros u Eu. destruct (C2 u Eu) as (U1 & U2 & U3). split; [exact U1|]. split; [lia|].
          intros w [<-|Iw] Ew; [cbn [fst] in Ew; lia|now apply U3].
      + rewrite (kept_more m e c) by (auto; cbn; congruence). pose proof (in_size _ _ I) as Is. unfold outsize. rewrite Sh. unfold items, list_sum in *. cbn [map fold_right snd]. lia.
    - cbn [t_script]. rewrite <- app_assoc. eexists. split; [reflexivity|]. eapply heights_weaken; [apply heights_seq; [apply pick_heights|apply toalt_heights]| | |];
        unfold tot; cbn [t_main t_alt]; unfold items, list_sum in *; cbn [map fold_right snd]; lia.
  Qed.

  Lemma map_snd_fresh : forall outs n, map snd (fresh_vars n outs) = outs.
  Proof. induction outs as [|s outs IH]; intros n; cbn [fresh_vars map snd]; [reflexivity|]. now rewrite IH. Qed.
  Lemma fresh_ge : forall outs n, Forall (fun v => n <= fst v) (fresh_vars n outs).
  Proof. induction outs as [|s outs IH]; intros n; cbn [fresh_vars]; constructor; [cbn; lia|]. eapply Forall_impl; [|apply IH]. cbn beta. intros; lia. Qed.
  Lemma items_cat : forall a b, items (a ++ b) = items a + items b.
  Proof. intros. unfold items. now rewrite map_app, list_sum_app. Qed.
  (** *** The script of a node, above its operands *)
  Lemma generator_peaks : forall e ss sizes sh T m T' vars iv base, sub e R -> inv T m ->
    all_some (map (shape G gt) (e_ops e)) = Some ss -> all_some (map var_size (e_ops e)) = Some sizes -> shape G gt e = Some sh ->
    t_main T = iv ++ base -> length iv = length (concat ss) -> items iv = list_sum (map (outsize G gt) (e_ops e)) ->
    run_generator G gt (e_op e) sizes T = Some (T', vars) ->
    inv T' m /\ map snd (rev vars) = sh /\ (exists base', t_main T' = rev vars ++ base' /\ thin base base') /\ Forall (fun v => N0 <= fst v) (rev vars) /\
    t_next T <= t_next T' /\ t_alt T' = t_alt T /\
    exists p, t_script T' = t_script T ++ p /\ heights p (Z.of_nat (tot T') - Z.of_nat (tot T)) 0
      (match input_of (e_op e) with Some _ => Z.of_nat (list_sum sh) + 1 | None => Z.of_nat K end).
  Proof.
    intros e ss sizes sh T m T' vars iv base Se I Ess Esz Esh Em Li Ii E. pose proof (in_n0 _ _ I) as Ln.
    assert (Kp : forall T', (forall w, In w (t_main T') -> N0 <= fst w \/ In w (t_main T)) -> t_alt T' = t_alt T -> t_next T <= t_next T' -> inv T' m).
    { intros T2 M2 A2 N2. constructor.
      - intros x v w Eg Iw Ew. destruct (M2 w Iw) as [Lw|Iw']; [pose proof (gt_old _ _ Eg); lia|eapply (in_gt _ _ I); eauto].
      - lia.
      - rewrite A2. eapply Forall_impl; [|apply (in_alt _ _ I)]. cbn beta. intros; lia.
      - intros d c Sd Ed. destruct (in_counts _ _ I d c Sd Ed) as [C1 C2]. split; [exact C1|]. intros u Eu. destruct (C2 u Eu) as (U1 & U2 & U3). rewrite A2. split; [exact U1|]. split; [lia|exact U3].
      - rewrite A2. apply (in_size _ _ I). }
    pose proof (fits e Se) as Fe. destruct e as [id o sz ops]. cbn [e_op e_ops] in *. cbn [shape] in Esh. rewrite Ess, Esz in Esh.
    destruct (number_ok (input_number o) (length ops)) eqn:No; [|discriminate Esh].
    assert (Cu : input_of o = None -> match generate G o sizes with Some em => custom (em_script em) (em_consumes em) (em_outs em) T | None => None end = Some (T', vars) ->
      inv T' m /\ map snd (rev vars) = sh /\ (exists base', t_main T' = rev vars ++ base' /\ thin base base') /\ Forall (fun v => N0 <= fst v) (rev vars) /\
      t_next T <= t_next T' /\ t_alt T' = t_alt T /\
      exists p, t_script T' = t_script T ++ p /\ heights p (Z.of_nat (tot T') - Z.of_nat (tot T)) 0 (Z.of_nat K)).
    { intros Ino Q. rewrite Ino in Esh. destruct (generate G o sizes) as [em|] eqn:Eg; [|discriminate Q].
      destruct ((em_consumes em =? length (concat ss)) && number_ok (output_number o) (length (em_outs em))) eqn:Ck; [|discriminate Esh].
      apply andb_true_iff in Ck as [Ck _]. apply Nat.eqb_eq in Ck. injection Esh as <-. unfold custom in Q. destruct (em_consumes em <=? length (t_main T)); [|discriminate Q].
      injection Q as <- <-. cbn [t_main t_alt t_next t_script].
      assert (Sk : skipn (em_consumes em) (t_main T) = base) by (rewrite Em, Ck, <- Li, skipn_app, skipn_all, Nat.sub_diag; reflexivity).
      rewrite Sk. assert (Fr : Forall (fun v : svar => N0 <= fst v) (rev (fresh_vars (t_next T) (em_outs em)))).
      { apply Forall_rev. eapply Forall_impl; [|apply fresh_ge]. cbn beta. intros; lia. }
      split; [|split; [|split; [|split; [|split; [|split]]]]].
      - apply Kp; cbn [t_main t_alt t_next]; [|reflexivity|lia]. intros w Iw. apply in_app_or in Iw as [Iw|Iw]; [left|right].
        + rewrite Forall_forall in Fr. now apply Fr.
        + rewrite Em. apply in_or_app. now right.
      - rewrite map_rev, map_snd_fresh. reflexivity.
      - exists base. split; [reflexivity|apply thin_refl].
      - exact Fr.
      - lia.
      - reflexivity.
      - eexists. split; [reflexivity|]. eapply heights_weaken; [apply (Fe sizes em Esz Eg)| |lia|lia].
        unfold tot. cbn [t_main t_alt]. rewrite Em, !items_cat. rewrite Ii.
        assert (X : items (rev (fresh_vars (t_next T) (em_outs em))) = list_sum (em_outs em)) by (unfold items; rewrite map_rev, map_snd_fresh; apply list_sum_rev). cbn [e_ops]. rewrite X. lia. }
    assert (Nil : input_of o <> None -> ops = [] /\ iv = []).
    { intros Ni. destruct o; cbn in Ni; try congruence; cbn in No; destruct ops; try discriminate No; cbn in Ess; injection Ess as <-; cbn in Li; destruct iv; try discriminate Li; auto. }
    destruct o; try exact (Cu eq_refl E); clear Cu; cbn [input_of] in *; cbn [run_generator] in E; destruct (Nil ltac:(discriminate)) as [-> ->]; cbn in Esz; injection Esz as <-;
      destruct (gt v) as [u|] eqn:Eu; try discriminate E; injection Esh as <-; cbn [app] in Em; subst base.
    - (* InputVarMove *)
      destruct (move_var u T) as [[T1 n]|] eqn:Ev; [|discriminate E]. injection E as <- <-. unfold move_var in Ev.
      destruct (find_var (fst u) (t_main T)) as [[[o s] r]|] eqn:Ef; [|discriminate Ev]. injection Ev as <- <-. apply find_var_in in Ef as (Fi & Fs & Fr & Ft).
      pose proof (in_gt _ _ I _ _ _ Eu Fi eq_refl) as Es. cbn [snd] in Es. subst s. specialize (Ft (gt_old _ _ Eu)). cbn [rev app map snd t_main t_alt t_next t_script].
      split; [|split; [|split; [|split; [|split; [|split]]]]].
      + apply Kp; cbn [t_main t_alt t_next]; [|reflexivity|lia]. intros w [<-|Iw]; [left; exact Ln|right; now apply Fr].
      + reflexivity.
      + exists r. split; [reflexivity|exact Ft].
      + constructor; [exact Ln|constructor].
      + lia.
      + reflexivity.
      + eexists. split; [reflexivity|]. eapply heights_weaken; [apply roll_heights| |lia|lia].
        unfold tot. cbn [t_main t_alt]. unfold items, list_sum in *. cbn [map fold_right snd]. lia.
    - (* InputVarCopy *)
      destruct (copy_var u T) as [[T1 n]|] eqn:Ev; [|discriminate E]. injection E as <- <-. unfold copy_var in Ev.
      destruct (find_var (fst u) (t_main T)) as [[[o s] r]|] eqn:Ef; [|discriminate Ev]. injection Ev as <- <-. apply find_var_in in Ef as (Fi & Fs & Fr & Ft).
      pose proof (in_gt _ _ I _ _ _ Eu Fi eq_refl) as Es. cbn [snd] in Es. subst s. cbn [rev app map snd t_main t_alt t_next t_script].
      split; [|split; [|split; [|split; [|split; [|split]]]]].
      + apply Kp; cbn [t_main t_alt t_next]; [|reflexivity|lia]. intros w [<-|Iw]; [left; exact Ln|right; exact Iw].
      + reflexivity.
      + exists (t_main T). split; [reflexivity|apply thin_refl].
      + constructor; [exact Ln|constructor].
      + lia.
      + reflexivity.
      + eexists. split; [reflexivity|]. eapply heights_weaken; [apply pick_heights| | |];
        unfold tot; cbn [t_main t_alt]; unfold items, list_sum in *; cbn [map fold_right snd]; lia.
  Qed.

  Definition peak_at (e : expr) : Prop := sub e R -> forall T m T' m' vars sh,
    shape G gt e = Some sh -> inv T m -> express_to_script G gt true e T m = Some (T', m', vars) ->
    inv T' m' /\ map snd (rev vars) = sh /\ exists base, peaks T T' (rev vars) base (need G gt e).

  Lemma peak_ops : forall ops, Forall peak_at ops -> (forall x, In x ops -> sub x R) -> forall T m T' m' ss sizes,
    all_some (map (shape G gt) ops) = Some ss -> inv T m -> operands G gt true ops T m = Some (T', m', sizes) ->
    all_some (map var_size ops) = Some sizes /\ inv T' m' /\
    exists iv base, length iv = length (concat ss) /\ items iv = list_sum (map (outsize G gt) ops) /\
      peaks T T' iv base (needs (map (fun x => (need G gt x, outsize G gt x)) ops)).
  Proof.
    intros ops F. induction F as [|x ops Fx F IH]; intros Sub T m T' m' ss sizes Ess I E.
    - cbn in Ess, E. injection Ess as <-. injection E as <- <- <-. split; [reflexivity|]. split; [exact I|]. exists [], (t_main T). split; [reflexivity|]. split; [reflexivity|].
      constructor; [reflexivity|apply thin_refl|lia|constructor|]. exists []. split; [now rewrite app_nil_r|]. pose proof (alt_le _ _ I) as Al.
      eapply heights_weaken; [apply heights_nil|lia|lia|unfold bound, tot; lia].
    - cbn [map all_some] in Ess. destruct (shape G gt x) as [sh|] eqn:Esh; [|discriminate].
      destruct (all_some (map (shape G gt) ops)) as [ss'|] eqn:Ess'; [|discriminate]. injection Ess as <-.
      cbn [operands] in E. fold (operands G gt true) in E. destruct (express_to_script G gt true x T m) as [[[T1 m1] vars]|] eqn:E1; [|discriminate E].
      destruct (var_size x) as [s|] eqn:Es; [|discriminate]. destruct (operands G gt true ops T1 m1) as [[[T2 m2] sz']|] eqn:E2; [|discriminate E]. injection E as <- <- <-.
      destruct (Fx (Sub x (or_introl eq_refl)) T m T1 m1 vars sh Esh I E1) as (I1 & Sh1 & b1 & P1).
      destruct (IH (fun y Iy => Sub y (or_intror Iy)) T1 m1 T2 m2 ss' sz' eq_refl I1 E2) as (Z2 & I2 & iv & b2 & L2 & S2 & P2).
      cbn [map all_some]. rewrite Es, Z2. split; [reflexivity|]. split; [exact I2|].
      pose proof (pk_base _ _ _ _ _ P2) as Tb. rewrite (pk_main _ _ _ _ _ P1) in Tb. destruct (thin_fresh _ _ _ (pk_fresh _ _ _ _ _ P1) Tb) as (b3 & -> & Tb3).
      assert (Ox : outsize G gt x = items (rev vars)) by (unfold outsize; rewrite Esh, <- Sh1; reflexivity).
      exists (iv ++ rev vars), b3. split; [|split].
      + assert (X : length (rev vars) = length sh) by (rewrite <- Sh1; symmetry; apply map_length). rewrite app_length, concat_cons, app_length, L2, X. lia.
      + rewrite items_cat, S2, <- Ox. unfold list_sum. cbn [fold_right map]. lia.
      + constructor.
        * rewrite (pk_main _ _ _ _ _ P2), app_assoc. reflexivity.
        * eapply thin_trans; [apply (pk_base _ _ _ _ _ P1)|exact Tb3].
        * pose proof (pk_next _ _ _ _ _ P1). pose proof (pk_next _ _ _ _ _ P2). lia.
        * apply Forall_app. split; [apply P2|apply P1].
        * destruct (pk_script _ _ _ _ _ P1) as (p1 & Q1 & H1), (pk_script _ _ _ _ _ P2) as (p2 & Q2 & H2). exists (p1 ++ p2). split; [now rewrite Q2, Q1, app_assoc|].
          eapply heights_weaken; [apply heights_seq; [exact H1|exact H2]|lia|lia|]. cbn [map needs].
          pose proof (thin_items _ _ (pk_base _ _ _ _ _ P1)) as Ti. pose proof (pk_main _ _ _ _ _ P1) as Em. assert (Im : items (t_main T1) = items (rev vars) + items b1) by now rewrite Em, items_cat.
          unfold bound. rewrite <- Ox in Im. lia.
  Qed.

  Lemma sum_needs : forall ops, list_sum (map (outsize G gt) ops) <= needs (map (fun x => (need G gt x, outsize G gt x)) ops).
  Proof. induction ops as [|x ops IH]; cbn [map needs]; unfold list_sum in *; cbn [fold_right]; lia. Qed.

  Lemma peak : forall e, peak_at e.
  Proof.
    induction e as [id o sz ops IH] using expr_ind'. intros Se T m T' m' vars sh Esh I E. rewrite express_unfold in E. set (e := Node id o sz ops) in *.
    cbn [andb] in E. destruct (if single o then reuse id T m else None) as [r|] eqn:Er.
    - subst r. destruct (single o); [|discriminate Er]. destruct (reuse_peaks e T m T' m' vars Se I Er) as (I' & Sh & b & P). rewrite Esh in Sh. injection Sh as Sh.
      split; [exact I'|]. split; [exact Sh|]. exists b. exact P.
    - clear Er. destruct (number_ok (input_number o) (length ops)) eqn:No; [|discriminate E].
      destruct (operands G gt true ops T m) as [[[T1 m1] sizes]|] eqn:E1; [|discriminate E]. destruct (run_generator G gt o sizes T1) as [[T2 vars2]|] eqn:E2; [|discriminate E].
      destruct (number_ok (output_number o) (length vars2)) eqn:Nv; [|discriminate E].
      assert (Ess : exists ss, all_some (map (shape G gt) ops) = Some ss) by (unfold e in Esh; cbn [shape] in Esh; destruct (all_some (map (shape G gt) ops)); [eauto|discriminate Esh]).
      destruct Ess as [ss Ess].
      destruct (peak_ops ops IH (fun x Ix => sub_trans _ _ _ (sub_op x (Node id o sz ops) Ix) Se) T m T1 m1 ss sizes Ess I E1) as (Esz & I1 & iv & b1 & L1 & S1 & P1).
      destruct (generator_peaks e ss sizes sh T1 m1 T2 vars2 iv b1 Se I1 Ess Esz Esh (pk_main _ _ _ _ _ P1) L1 S1 E2) as (I2 & Sh2 & (b2 & M2 & Th2) & F2 & N2 & A2 & p2 & Q2 & H2).
      assert (Oe : outsize G gt e = items (rev vars2)) by (unfold outsize; rewrite Esh, <- Sh2; reflexivity).
      assert (Ne : outsize G gt e <= need G gt e) by apply outsize_need.
      assert (No2 : needs (map (fun x => (need G gt x, outsize G gt x)) ops) <= need G gt e) by (unfold e; cbn [need]; lia).
      pose proof (sum_needs ops) as Sn. pose proof (thin_items _ _ (pk_base _ _ _ _ _ P1)) as Ti1. pose proof (thin_items _ _ Th2) as Ti2.
      assert (Im1 : items (t_main T1) = items iv + items b1) by now rewrite (pk_main _ _ _ _ _ P1), items_cat.
      assert (Im2 : items (t_main T2) = items (rev vars2) + items b2) by now rewrite M2, items_cat.
      pose proof (alt_le _ _ I1) as Al1. destruct (pk_script _ _ _ _ _ P1) as (p1 & Q1 & H1). pose proof (pk_next _ _ _ _ _ P1) as N1.
      assert (Os : list_sum sh = outsize G gt e) by (unfold outsize; now rewrite Esh).
      assert (P2 : peaks T T2 (rev vars2) b2 (need G gt e)).
      { constructor; [exact M2|eapply thin_trans; [apply (pk_base _ _ _ _ _ P1)|exact Th2]|lia|exact F2|]. exists (p1 ++ p2). split; [now rewrite Q2, Q1, app_assoc|].
        eapply heights_weaken; [apply heights_seq; [exact H1|exact H2]|lia|lia|]. rewrite Os. unfold bound, tot in *. destruct (input_of (e_op e)) eqn:Ei; [|lia].
        assert (Zi : items iv = 0) by (rewrite S1; unfold e in Ei; cbn [e_op] in Ei; destruct o; try discriminate Ei; cbn in No; destruct ops; try discriminate No; reflexivity). lia. }
      destruct (single o) eqn:So.
      + assert (Lv : exists v, vars2 = [v]) by (unfold single in So; destruct (output_number o) as [[|[|k]]|]; try discriminate So; cbn in Nv;  destruct vars2 as [|v [|]]; try discriminate Nv; eauto).
        destruct Lv as [v ->]. cbn [rev app] in *.
        destruct (keep_peaks e v b2 T2 m1 T' m' vars Se So I2 (eq_trans Esh (f_equal Some (eq_sym Sh2))) M2 E) as (I3 & -> & M3 & N3 & p3 & Q3 & H3).
        split; [exact I3|]. split; [exact Sh2|]. exists b2. destruct (pk_script _ _ _ _ _ P2) as (q & Qq & Hq). constructor; [now rewrite M3, M2|apply P2|lia|exact F2|].
        exists (q ++ p3). split; [now rewrite Q3, Qq, app_assoc|]. eapply heights_weaken; [apply heights_seq; [exact Hq|exact H3]|lia|lia|]. pose proof (alt_le _ _ I3) as Al3.
        cbn [rev app] in *. unfold bound, tot in *. rewrite M3, M2 in *. change (v :: b2) with ([v] ++ b2) in *. rewrite !items_cat in *. lia.
      + injection E as <- <- <-. split; [exact I2|]. split; [exact Sh2|]. exists b2. exact P2.
  Qed.
End Peak.

(** ** Expressions *)
(** Each identifier once. *)
Fixpoint by_id (l : list expr) : list expr :=
  match l with
  | [] => []
  | d :: r => if existsb (fun x => e_id x =? e_id d) r then by_id r else d :: by_id r
  end.
Lemma by_id_in : forall l d, In d (by_id l) -> In d l.
Proof.
  induction l as [|x l IH]; intros d I; [exact I|]. cbn [by_id] in I. destruct (existsb _ l); [right; auto|]. destruct I as [->|I]; [now left|right; auto].
Qed.
Lemma by_id_all : forall l, (forall a b, In a l -> In b l -> e_id a = e_id b -> a = b) -> forall d, In d l -> In d (by_id l).
Proof.
  induction l as [|x l IH]; intros U d I; [exact I|]. specialize (IH (fun a b Ia Ib => U a b (or_intror Ia) (or_intror Ib))). cbn [by_id].
  destruct (existsb (fun y => e_id y =? e_id x) l) eqn:E.
  - destruct I as [->|I]; [|auto]. apply existsb_exists in E as (y & Iy & Ey). apply Nat.eqb_eq in Ey. rewrite <- (U y d (or_intror Iy) (or_introl eq_refl) Ey). auto.
  - destruct I as [->|I]; [now left|right; auto].
Qed.
Lemma by_id_once : forall l, NoDup (map e_id (by_id l)).
Proof.
  induction l as [|x l IH]; [constructor|]. cbn [by_id]. destruct (existsb (fun y => e_id y =? e_id x) l) eqn:E; [exact IH|]. cbn [map]. constructor; [|exact IH].
  intros I. apply in_map_iff in I as (y & Ey & Iy). apply by_id_in in Iy. assert (X : existsb (fun y => e_id y =? e_id x) l = true); [|congruence].
  apply existsb_exists. exists y. split; [exact Iy|now apply Nat.eqb_eq].
Qed.

Section Top.
  Variable G : gadgets.
  Variable gt : getter.
  Variable R : expr.
  (** Sizes of the values that are used more than once. *)
  Definition shared_words : nat := shared_size G gt R (by_id (nodes R)).

  Lemma express_peak : forall K T T' m' vars, unique_ids R -> (forall x v, gt x = Some v -> fst v < t_next T) ->
    (forall x v w, gt x = Some v -> In w (t_main T) -> fst w = fst v -> snd w = snd v) -> t_alt T = [] -> 1 <= K ->
    (forall e, sub e R -> node_fits G gt K e) -> shape G gt R <> None -> express G gt true R T = Some (T', m', vars) ->
    tot T' <= tot T + need G gt R + shared_words /\
    exists p, t_script T' = t_script T ++ p /\ heights p (Z.of_nat (tot T') - Z.of_nat (tot T)) 0 (Z.of_nat (need G gt R + shared_words + K)).
  Proof.
    intros K T T' m' vars U Go Gs Al K1 F Sh E. destruct (shape G gt R) as [sh|] eqn:Esh; [|congruence]. unfold express in E.
    destruct (simulate_refs R U) as [Fm Cm].
    assert (I : inv G gt R (t_next T) 0 (by_id (nodes R)) T (simulate_express R map_empty)).
    { constructor; [exact Gs|lia|rewrite Al; constructor| |rewrite Al; cbn; lia]. intros d c Sd Ed. specialize (Cm (e_id d)). unfold cnt in Cm. rewrite Ed in Cm. split; [exact Cm|].
      intros v Ev. destruct (Fm _ _ Ed) as (_ & F2 & _). congruence. }
    destruct (peak G gt R U (t_next T) Go 0 K K1 F (by_id (nodes R))) with (e := R) (6 := I) (7 := E) (sh := sh) as (I' & Sv & base & P).
    - intros d Sd. apply nodes_sub. now apply by_id_in.
    - intros d Sd. apply by_id_all; [|now apply nodes_sub]. intros a b Ia Ib Ei. apply U; try apply nodes_sub; assumption.
    - apply by_id_once.
    - apply sub_refl.
    - exact Esh.
    - destruct P as [Pm Pb _ _ (p & Q & Hp)]. split.
      + apply thin_items in Pb. apply alt_le in I'. assert (Ov : items (rev vars) = outsize G gt R) by (unfold outsize; rewrite Esh, <- Sv; reflexivity).
        pose proof (outsize_need G gt R) as On. unfold tot. rewrite Pm, items_app. unfold shared_words. lia.
      + exists p. split; [exact Q|]. eapply heights_weaken; [exact Hp|lia|lia|]. unfold bound, tot, shared_words. rewrite Al. cbn. lia.
  Qed.
End Top.
