(** Stack discipline of script generation: tracker invariants and single steps. *)
From Coq Require Import ZArith List Bool Arith Lia.
From Verif Require Import ScriptNum ScriptVM VMLemmas Lift U32Model HelperModel DslModel DslStack DslSpec.
Import ListNotations.
Local Open Scope nat_scope.

(** ** The tracker *)
Definition twf (T : tracker) : Prop :=
  NoDup (map fst (t_main T ++ t_alt T)) /\ Forall (fun v => fst v < t_next T) (t_main T ++ t_alt T).

Lemma items_app : forall a b, items (a ++ b) = items a + items b.
Proof. unfold items. intros. rewrite map_app, list_sum_app. reflexivity. Qed.
Lemma items_cons : forall v a, items (v :: a) = snd v + items a.
Proof. reflexivity. Qed.
Lemma items_filter : forall f l, items (filter f l) <= items l.
Proof. intros f l. induction l as [|v l IH]; [apply le_n|]. cbn [filter]. destruct (f v); rewrite !items_cons; lia. Qed.

Lemma find_var_spec : forall (l : list svar) (v : svar), NoDup (map fst l) -> In v l ->
  exists l1 l2 : list svar, l = l1 ++ v :: l2 /\ find_var (fst v) l = Some (items l1, snd v, l1 ++ l2).
Proof.
  induction l as [|w l IH]; intros v N I0; [easy|].
  inversion N as [|x y Nw Nl]; subst. destruct I0 as [->|I0].
  - exists [], l. split; [reflexivity|]. destruct v as [i s]. cbn. now rewrite Nat.eqb_refl.
  - destruct (IH v Nl I0) as (l1 & l2 & E & F). exists (w :: l1), l2. split; [now rewrite E|].
    destruct w as [i s]. cbn [find_var]. destruct (Nat.eqb_spec i (fst v)) as [Ei|Ei].
    + exfalso. apply Nw. cbn. rewrite Ei. apply in_map. exact I0.
    + rewrite F. reflexivity.
Qed.

Lemma filter_mid : forall (l1 l2 : list svar) v, NoDup (map fst (l1 ++ v :: l2)) ->
  filter (fun w => negb (fst w =? fst v)) (l1 ++ v :: l2) = l1 ++ l2.
Proof.
  intros l1 l2 v N. rewrite filter_app. cbn [filter]. rewrite Nat.eqb_refl. cbn [negb].
  rewrite map_app in N. cbn in N.
  assert (K : forall l : list svar, ~ In (fst v) (map fst l) -> filter (fun w => negb (fst w =? fst v)) l = l).
  { induction l as [|w l IH]; intros Hn; [reflexivity|]. cbn [filter].
    destruct (Nat.eqb_spec (fst w) (fst v)) as [E|E]; [exfalso; apply Hn; left; exact E|].
    cbn. f_equal. apply IH. intros X. apply Hn. right. exact X. }
  apply NoDup_remove_2 in N.
  rewrite !K; [reflexivity| |]; intros X; apply N; apply in_or_app; auto.
Qed.

Lemma fresh_vars_length : forall l n, length (fresh_vars n l) = length l.
Proof. induction l; intros; cbn; auto. Qed.
Lemma fresh_vars_snd : forall l n, map snd (fresh_vars n l) = l.
Proof. induction l; intros; cbn; f_equal; auto. Qed.
Lemma fresh_vars_fst : forall l n, map fst (fresh_vars n l) = seq n (length l).
Proof. induction l; intros; cbn; f_equal; auto. Qed.

(** ** Values of variables *)
Definition values := nat -> list Z.
Definition vals_of (val : values) (l : list svar) : list (list Z) := map (fun v => val (fst v)) l.
Definition img (val : values) (l : list svar) : list bytes := nums (concat (vals_of val l)).
Definition aimg (val : values) (l : list svar) : list bytes := nums (concat (map (@rev Z) (vals_of val l))).
Definition sized (val : values) (l : list svar) : Prop := Forall (fun v => length (val (fst v)) = snd v) l.
Definition agree (n : nat) (val val' : values) : Prop := forall i, i < n -> val' i = val i.

Lemma agree_refl : forall n v, agree n v v. Proof. intros n v i L. reflexivity. Qed.
Lemma agree_trans : forall n m a b c, n <= m -> agree n a b -> agree m b c -> agree n a c.
Proof. intros n m a b c L X Y i Li. rewrite Y by lia. apply X; exact Li. Qed.

Lemma vals_of_app : forall val a b, vals_of val (a ++ b) = vals_of val a ++ vals_of val b.
Proof. intros. apply map_app. Qed.
Lemma nums_app : forall a b, nums (a ++ b) = nums a ++ nums b.
Proof. intros. apply map_app. Qed.
Lemma img_app : forall val a b, img val (a ++ b) = img val a ++ img val b.
Proof. intros. unfold img. now rewrite vals_of_app, concat_app, nums_app. Qed.
Lemma img_cons : forall val v b, img val (v :: b) = nums (val (fst v)) ++ img val b.
Proof. intros. unfold img. cbn. now rewrite nums_app. Qed.
Lemma aimg_app : forall val a b, aimg val (a ++ b) = aimg val a ++ aimg val b.
Proof. intros. unfold aimg. now rewrite vals_of_app, map_app, concat_app, nums_app. Qed.
Lemma aimg_cons : forall val v b, aimg val (v :: b) = rev (nums (val (fst v))) ++ aimg val b.
Proof. intros. unfold aimg. cbn. rewrite nums_app. f_equal. unfold nums. now rewrite map_rev. Qed.
Lemma img_length : forall val l, sized val l -> length (img val l) = items l.
Proof.
  intros val l S. induction S as [|v l E S IH]; [reflexivity|].
  rewrite img_cons, app_length, IH, items_cons. unfold nums. rewrite map_length. lia.
Qed.
Lemma aimg_length : forall val l, sized val l -> length (aimg val l) = items l.
Proof.
  intros val l S. induction S as [|v l E S IH]; [reflexivity|].
  rewrite aimg_cons, app_length, IH, items_cons, rev_length. unfold nums. rewrite map_length. lia.
Qed.

Lemma agree_vals : forall n val val' l, agree n val val' -> Forall (fun v => fst v < n) l -> vals_of val' l = vals_of val l.
Proof. intros n val val' l A F. apply map_ext_in. intros v I0. rewrite Forall_forall in F. apply A, F, I0. Qed.
Lemma agree_img : forall n val val' l, agree n val val' -> Forall (fun v => fst v < n) l -> img val' l = img val l.
Proof. intros n val val' l A F. unfold img. now rewrite (agree_vals n val val' l A F). Qed.
Lemma agree_aimg : forall n val val' l, agree n val val' -> Forall (fun v => fst v < n) l -> aimg val' l = aimg val l.
Proof. intros n val val' l A F. unfold aimg. now rewrite (agree_vals n val val' l A F). Qed.
Lemma agree_sized : forall n val val' l, agree n val val' -> Forall (fun v => fst v < n) l -> sized val l -> sized val' l.
Proof.
  intros n val val' l A F S. unfold sized in *. rewrite Forall_forall in *. intros v I0.
  rewrite A by (apply F, I0). apply S, I0.
Qed.

(** values of the variables numbered from [n] *)
Definition extend (n : nat) (vs : list (list Z)) (val : values) : values :=
  fun i => if i <? n then val i else nth (i - n) vs [].
Lemma extend_agree : forall n vs val, agree n val (extend n vs val).
Proof. intros n vs val i L. unfold extend. apply Nat.ltb_lt in L. now rewrite L. Qed.
Lemma extend_fresh : forall sizes vs n val, length vs = length sizes ->
  vals_of (extend n vs val) (fresh_vars n sizes) = vs.
Proof.
  intros sizes vs n val L. unfold vals_of. rewrite <- (map_map fst (fun i => extend n vs val i)), fresh_vars_fst, <- L.
  clear L sizes. assert (K : forall k l, (forall j, nth (k + j) vs [] = nth j l []) ->
    map (fun i => extend n vs val i) (seq (n + k) (length l)) = l).
  { intros k l. revert k. induction l as [|x l IH]; intros k Hn; [reflexivity|].
    cbn [length seq map]. f_equal.
    - unfold extend. destruct (Nat.ltb_spec (n + k) n); [lia|].
      replace (n + k - n) with (k + 0) by lia. rewrite Hn. reflexivity.
    - replace (S (n + k)) with (n + S k) by lia. apply IH. intros j.
      replace (S k + j) with (k + S j) by lia. rewrite Hn. reflexivity. }
  specialize (K 0 vs). rewrite Nat.add_0_r in K. apply K. reflexivity.
Qed.

Section Steps.
  Variable H : bytes -> bytes.

  Definition sim (val val' : values) (T T' : tracker) (p : script) : Prop :=
    forall rest arest, exec H p (img val (t_main T) ++ rest) (aimg val (t_alt T) ++ arest)
                               (img val' (t_main T') ++ rest) (aimg val' (t_alt T') ++ arest).
  Definition bad (val : values) (T : tracker) (p : script) : Prop :=
    forall rest arest, fails H p (img val (t_main T) ++ rest) (aimg val (t_alt T) ++ arest).

  (** The tracker moved from [T] to [T'] emitting [p]; [ov] are the new variables,
      on top of [base]. *)
  Record stepped (T T' : tracker) (ov base alt' : list svar) (p : script) : Prop := mkstepped {
    st_main : t_main T' = ov ++ base;
    st_alt : t_alt T' = alt';
    st_wf : twf T';
    st_next : t_next T <= t_next T';
    st_fresh : Forall (fun v => t_next T <= fst v) ov;
    st_script : t_script T' = t_script T ++ p }.

  Definition runs (Q : values -> Prop) (r : option res) (T T' : tracker) (ov : list svar) (p : script) (val : values) : Prop :=
    match r with
    | None => True
    | Some Fails => bad val T p
    | Some (Leaves outs) =>
        exists val', agree (t_next T) val val' /\ sized val' (t_main T' ++ t_alt T') /\
                     vals_of val' ov = outs /\ Q val' /\ sim val val' T T' p
    end.

  Lemma runs_weaken : forall (Q Q' : values -> Prop) r T T' ov p val, (forall v, agree (t_next T) val v -> sized v (t_main T' ++ t_alt T') -> Q v -> Q' v) ->
    runs Q r T T' ov p val -> runs Q' r T T' ov p val.
  Proof.
    intros Q Q' [[outs|]|] T T' ov p val HQ R; cbn in *; auto.
    destruct R as (val' & A & S & E & q & si). exists val'. repeat split; auto.
  Qed.

  Lemma sim_seq : forall v1 v2 v3 T1 T2 T3 p q, sim v1 v2 T1 T2 p -> sim v2 v3 T2 T3 q -> sim v1 v3 T1 T3 (p ++ q).
  Proof. intros v1 v2 v3 T1 T2 T3 p q A B rest arest. eapply exec_seq; [apply A|apply B]. Qed.

  (** one run after another, both leaving their variables *)
  Lemma runs_seq : forall (Q1 Q2 : values -> Prop) r1 r2 T T1 T2 ov1 ov2 b1 b2 a1 a2 p1 p2 val,
    stepped T T1 ov1 b1 a1 p1 -> stepped T1 T2 ov2 b2 a2 p2 ->
    runs Q1 r1 T T1 ov1 p1 val ->
    (forall val1 outs, r1 = Some (Leaves outs) -> agree (t_next T) val val1 -> sized val1 (t_main T1 ++ t_alt T1) -> Q1 val1 ->
       runs Q2 r2 T1 T2 ov2 p2 val1) ->
    runs Q2 (seq_res r1 r2) T T2 (ov2 ++ ov1) (p1 ++ p2) val.
  Proof.
    intros Q1 Q2 r1 r2 T T1 T2 ov1 ov2 b1 b2 a1 a2 p1 p2 val S1 S2 R1 R2.
    destruct r1 as [[o1|]|]; cbn [seq_res runs] in *; [| |exact Logic.I].
    2:{ intros rest arest. apply fails_app, R1. }
    destruct R1 as (v1 & A1 & Z1 & E1 & q1 & si1).
    specialize (R2 v1 o1 eq_refl A1 Z1 q1). destruct r2 as [[o2|]|]; cbn [runs] in *; [| |exact Logic.I].
    2:{ intros rest arest. eapply fails_seq; [apply si1|apply R2]. }
    destruct R2 as (v2 & A2 & Z2 & E2 & q2 & si2).
    exists v2. repeat split; auto.
    - eapply agree_trans; [apply (st_next _ _ _ _ _ _ S1)|exact A1|exact A2].
    - rewrite vals_of_app, E2. f_equal. rewrite <- E1. eapply agree_vals; [exact A2|].
      destruct (st_wf _ _ _ _ _ _ S1) as [_ F]. rewrite (st_main _ _ _ _ _ _ S1) in F.
      rewrite <- app_assoc in F. apply Forall_app in F. apply F.
    - eapply sim_seq; eauto.
  Qed.

  (** one run after another, the second one consuming the variables of the first *)
  Lemma runs_then : forall (Q1 Q2 : values -> Prop) r1 f T T1 T2 ov1 ov2 b1 a1 p1 p2 val,
    stepped T T1 ov1 b1 a1 p1 ->
    runs Q1 r1 T T1 ov1 p1 val ->
    (forall val1, agree (t_next T) val val1 -> sized val1 (t_main T1 ++ t_alt T1) -> Q1 val1 ->
       r1 = Some (Leaves (vals_of val1 ov1)) ->
       runs Q2 (f (vals_of val1 ov1)) T1 T2 ov2 p2 val1) ->
    runs Q2 (then_res r1 f) T T2 ov2 (p1 ++ p2) val.
  Proof.
    intros Q1 Q2 r1 f T T1 T2 ov1 ov2 b1 a1 p1 p2 val S1 R1 R2.
    destruct r1 as [[o1|]|]; cbn [then_res runs] in *; [| |exact Logic.I].
    2:{ intros rest arest. apply fails_app, R1. }
    destruct R1 as (v1 & A1 & Z1 & E1 & q1 & si1). subst o1.
    specialize (R2 v1 A1 Z1 q1 eq_refl).
    destruct (f (vals_of v1 ov1)) as [[o2|]|]; cbn [runs] in *; [| |exact Logic.I].
    2:{ intros rest arest. eapply fails_seq; [apply si1|apply R2]. }
    destruct R2 as (v2 & A2 & Z2 & E2 & q2 & si2).
    exists v2. repeat split; auto.
    - eapply agree_trans; [apply (st_next _ _ _ _ _ _ S1)|exact A1|exact A2].
    - eapply sim_seq; eauto.
  Qed.

  (** *** Single steps *)
  Lemma twf_push : forall T l1 l2 n sizes p,
    twf T -> n = t_next T -> (forall v, In v (l1 ++ l2) -> In v (t_main T ++ t_alt T)) -> NoDup (map fst (l1 ++ l2)) ->
    twf (mktracker (n + length sizes) (rev (fresh_vars n sizes) ++ l1) l2 p).
  Proof.
    intros T l1 l2 n sizes p [N F] -> Sub N2. unfold twf. cbn. rewrite Forall_forall in F. split.
    - rewrite <- app_assoc, map_app, map_rev, fresh_vars_fst.
      assert (K : forall (a b : list nat), NoDup a -> NoDup b -> (forall x, In x a -> ~ In x b) -> NoDup (a ++ b)).
      { clear. induction a as [|x a IH]; intros b Na Nb D; [exact Nb|]. inversion Na; subst. cbn. constructor.
        - intros X. apply in_app_or in X. destruct X as [X|X]; [contradiction|]. apply (D x); [now left|exact X].
        - apply IH; auto. intros y Iy. apply D. now right. }
      apply K; [apply NoDup_rev, seq_NoDup|exact N2|].
      intros x Ix Iy. apply in_rev in Ix. apply in_seq in Ix. apply in_map_iff in Iy as (v & <- & Iv).
      apply Sub in Iv. apply F in Iv. lia.
    - rewrite Forall_forall. intros v Iv. rewrite <- app_assoc in Iv. apply in_app_or in Iv as [Iv|Iv].
      + apply in_rev in Iv. apply (in_map fst) in Iv. rewrite fresh_vars_fst in Iv. apply in_seq in Iv. lia.
      + apply Sub in Iv. apply F in Iv. lia.
  Qed.
  Lemma fresh_ge : forall n sizes, Forall (fun v => n <= fst v) (rev (fresh_vars n sizes)).
  Proof.
    intros. rewrite Forall_forall. intros v Iv. apply in_rev in Iv. apply (in_map fst) in Iv.
    rewrite fresh_vars_fst in Iv. apply in_seq in Iv. lia.
  Qed.

  Lemma NoDup_app_l : forall A (a b : list A), NoDup (a ++ b) -> NoDup a.
  Proof. induction a as [|x a IH]; intros b N; [constructor|]. inversion N; subst. constructor; [|eapply IH; eauto]. intros X. apply H2. apply in_or_app. now left. Qed.
  Lemma NoDup_app_r : forall A (a b : list A), NoDup (a ++ b) -> NoDup b.
  Proof. induction a as [|x a IH]; intros b N; [exact N|]. inversion N; subst. eapply IH; eauto. Qed.

  Lemma custom_step : forall T ins base p k outs,
    twf T -> t_main T = ins ++ base -> length ins = k ->
    exists T', custom p k outs T = Some (T', fresh_vars (t_next T) outs) /\
      stepped T T' (rev (fresh_vars (t_next T) outs)) base (t_alt T) p.
  Proof.
    intros T ins base p k outs W E L. unfold custom.
    replace (k <=? length (t_main T)) with true by (symmetry; apply Nat.leb_le; rewrite E, app_length; lia).
    assert (Sk : skipn k (t_main T) = base).
    { rewrite E, <- L, skipn_app, skipn_all, Nat.sub_diag. reflexivity. }
    rewrite Sk. eexists. split; [reflexivity|]. constructor; cbn; auto; try lia.
    - eapply twf_push; [exact W|reflexivity| |].
      + intros v Iv. rewrite E, <- app_assoc. apply in_or_app. now right.
      + destruct W as [N _]. rewrite E, <- app_assoc, map_app in N. apply NoDup_app_r in N. exact N.
    - apply fresh_ge.
  Qed.

  Lemma copy_step : forall T v, twf T -> In v (t_main T) ->
    exists T' o, copy_var v T = Some (T', (t_next T, snd v)) /\
      o + snd v <= items (t_main T) /\
      stepped T T' [(t_next T, snd v)] (t_main T) (t_alt T) (repeat_script (snd v) [pushnat (o + snd v - 1); OP_PICK]) /\
      exists l1 l2, t_main T = l1 ++ v :: l2 /\ o = items l1.
  Proof.
    intros T v W Iv. assert (N : NoDup (map fst (t_main T))).
    { destruct W as [N _]. rewrite map_app in N. eapply NoDup_app_l; eauto. }
    destruct (find_var_spec _ _ N Iv) as (l1 & l2 & E & F). unfold copy_var. rewrite F.
    eexists. exists (items l1). split; [reflexivity|]. split; [rewrite E, items_app, items_cons; lia|]. split.
    - constructor; cbn; auto; try lia.
      + pose proof (twf_push T (t_main T) (t_alt T) (t_next T) [snd v] (t_script T ++ repeat_script (snd v) [pushnat (items l1 + snd v - 1); OP_PICK]) W eq_refl) as K.
        cbn in K. rewrite Nat.add_1_r in K. apply K; [auto|apply W].
    - exists l1, l2. split; [exact E|reflexivity].
  Qed.

  Lemma move_step : forall T v, twf T -> In v (t_main T) ->
    exists T' o, move_var v T = Some (T', (t_next T, snd v)) /\
      o + snd v <= items (t_main T) /\
      stepped T T' [(t_next T, snd v)] (filter (fun w => negb (fst w =? fst v)) (t_main T)) (t_alt T)
        (repeat_script (snd v) [pushnat (o + snd v - 1); OP_ROLL]) /\
      exists l1 l2, t_main T = l1 ++ v :: l2 /\ o = items l1 /\
        filter (fun w => negb (fst w =? fst v)) (t_main T) = l1 ++ l2.
  Proof.
    intros T v W Iv. assert (N : NoDup (map fst (t_main T))).
    { destruct W as [N _]. rewrite map_app in N. eapply NoDup_app_l; eauto. }
    destruct (find_var_spec _ _ N Iv) as (l1 & l2 & E & F). unfold move_var. rewrite F.
    assert (FE : filter (fun w => negb (fst w =? fst v)) (t_main T) = l1 ++ l2).
    { rewrite E in N |- *. apply filter_mid. exact N. }
    eexists. exists (items l1). split; [reflexivity|]. split; [rewrite E, items_app, items_cons; lia|]. rewrite FE. split.
    - constructor; cbn; auto; try lia.
      pose proof (twf_push T (l1 ++ l2) (t_alt T) (t_next T) [snd v] (t_script T ++ repeat_script (snd v) [pushnat (items l1 + snd v - 1); OP_ROLL]) W eq_refl) as K.
      cbn in K. rewrite Nat.add_1_r in K. apply K.
      + intros w Iw. rewrite E. rewrite in_app_iff in *. destruct Iw as [Iw|Iw]; [left|now right].
        rewrite in_app_iff in *. cbn. tauto.
      + destruct W as [N2 _]. rewrite E in N2. rewrite !map_app in *. cbn in N2. rewrite <- app_assoc in N2. cbn in N2.
        apply NoDup_remove_1 in N2. rewrite app_assoc in N2. exact N2.
    - exists l1, l2. auto.
  Qed.

  Lemma nums_length : forall l, length (nums l) = length l.
  Proof. intros. apply map_length. Qed.

  Lemma sized_in : forall val l v, sized val l -> In v l -> length (val (fst v)) = snd v.
  Proof. intros val l v S Iv. unfold sized in S. rewrite Forall_forall in S. apply S, Iv. Qed.
  Lemma sized_app : forall val a b, sized val (a ++ b) <-> sized val a /\ sized val b.
  Proof. intros. unfold sized. apply Forall_app. Qed.

  (** values after pushing the single variable [(n, s)] *)
  Lemma extend_one : forall n x val, extend n [x] val n = x.
  Proof. intros. unfold extend. rewrite Nat.ltb_irrefl, Nat.sub_diag. reflexivity. Qed.

  Lemma twf_main : forall T, twf T -> Forall (fun v => fst v < t_next T) (t_main T).
  Proof. intros T [_ F]. apply Forall_app in F. apply F. Qed.
  Lemma twf_alt : forall T, twf T -> Forall (fun v => fst v < t_next T) (t_alt T).
  Proof. intros T [_ F]. apply Forall_app in F. apply F. Qed.

  Lemma Forall_sub : forall A (P : A -> Prop) a b, (forall x, In x a -> In x b) -> Forall P b -> Forall P a.
  Proof. intros A P a b S F. rewrite Forall_forall in *. auto. Qed.

  (** The step pushes one variable with value [x]: enough to check the stacks with
      the old values of the old variables. *)
  Lemma runs_one : forall T T' s x base alt' p val,
    twf T -> stepped T T' [(t_next T, s)] base alt' p -> length x = s ->
    (forall v, In v base -> In v (t_main T)) ->
    (forall v, In v alt' -> In v (t_alt T)) ->
    sized val (t_main T ++ t_alt T) ->
    (forall rest arest, exec H p (img val (t_main T) ++ rest) (aimg val (t_alt T) ++ arest)
                          (nums x ++ img val base ++ rest) (aimg val alt' ++ arest)) ->
    runs (fun _ => True) (Some (Leaves [x])) T T' [(t_next T, s)] p val.
  Proof.
    intros T T' s x base alt' p val W S L Sb Sa Z E. cbn [runs].
    exists (extend (t_next T) [x] val).
    pose proof (extend_agree (t_next T) [x] val) as A.
    assert (Fb : Forall (fun v => fst v < t_next T) base) by (eapply Forall_sub; [exact Sb|apply twf_main, W]).
    assert (Fa : Forall (fun v => fst v < t_next T) alt') by (eapply Forall_sub; [exact Sa|apply twf_alt, W]).
    split; [exact A|]. split; [|split; [|split; [exact Logic.I|]]].
    - rewrite (st_main _ _ _ _ _ _ S), (st_alt _ _ _ _ _ _ S). cbn [app]. constructor.
      + cbn [fst snd]. rewrite extend_one. exact L.
      + apply sized_app in Z as [Zm Za]. apply sized_app. split.
        * eapply agree_sized; [exact A|exact Fb|]. unfold sized in *. eapply Forall_sub; [exact Sb|exact Zm].
        * eapply agree_sized; [exact A|exact Fa|]. unfold sized in *. eapply Forall_sub; [exact Sa|exact Za].
    - cbn. rewrite extend_one. reflexivity.
    - intros rest arest. rewrite (st_main _ _ _ _ _ _ S), (st_alt _ _ _ _ _ _ S). cbn [app].
      rewrite img_cons. cbn [fst]. rewrite extend_one.
      rewrite (agree_img _ _ _ _ A Fb), (agree_aimg _ _ _ _ A Fa), <- app_assoc. apply E.
  Qed.

  Lemma copy_runs : forall T T' o v l1 l2 val,
    twf T -> stepped T T' [(t_next T, snd v)] (t_main T) (t_alt T) (repeat_script (snd v) [pushnat (o + snd v - 1); OP_PICK]) ->
    t_main T = l1 ++ v :: l2 -> o = items l1 -> (Z.of_nat (items (t_main T)) < 2 ^ 31)%Z ->
    sized val (t_main T ++ t_alt T) ->
    runs (fun _ => True) (Some (Leaves [val (fst v)])) T T' [(t_next T, snd v)]
      (repeat_script (snd v) [pushnat (o + snd v - 1); OP_PICK]) val.
  Proof.
    intros T T' o v l1 l2 val W S E Eo L Z.
    pose proof (proj1 (proj1 (sized_app _ _ _) Z)) as Zm. rewrite E in Zm. apply sized_app in Zm as [Z1 Z2].
    inversion Z2 as [|? ? Zv Z3]; subst. eapply runs_one; eauto.
    intros rest arest. rewrite E, img_app, img_cons. rewrite <- !app_assoc.
    pose proof (exec_copy H (img val l1) (nums (val (fst v))) (img val l2 ++ rest) (aimg val (t_alt T) ++ arest)) as X.
    rewrite img_length, nums_length, Zv in X by exact Z1. apply X.
    rewrite E, items_app, items_cons in L. lia.
  Qed.

  Lemma move_runs : forall T T' o v l1 l2 val,
    twf T -> stepped T T' [(t_next T, snd v)] (l1 ++ l2) (t_alt T) (repeat_script (snd v) [pushnat (o + snd v - 1); OP_ROLL]) ->
    t_main T = l1 ++ v :: l2 -> o = items l1 -> (Z.of_nat (items (t_main T)) < 2 ^ 31)%Z ->
    sized val (t_main T ++ t_alt T) ->
    runs (fun _ => True) (Some (Leaves [val (fst v)])) T T' [(t_next T, snd v)]
      (repeat_script (snd v) [pushnat (o + snd v - 1); OP_ROLL]) val.
  Proof.
    intros T T' o v l1 l2 val W S E Eo L Z.
    pose proof (proj1 (proj1 (sized_app _ _ _) Z)) as Zm. rewrite E in Zm. apply sized_app in Zm as [Z1 Z2].
    inversion Z2 as [|? ? Zv Z3]; subst. eapply runs_one; eauto.
    { intros w Iw. rewrite E. rewrite in_app_iff in *. cbn. tauto. }
    intros rest arest. rewrite E, !img_app, img_cons. rewrite <- !app_assoc.
    pose proof (exec_move H (img val l1) (nums (val (fst v))) (img val l2 ++ rest) (aimg val (t_alt T) ++ arest)) as X.
    rewrite img_length, nums_length, Zv in X by exact Z1. apply X.
    rewrite E, items_app, items_cons in L. lia.
  Qed.

  (** *** Alt stack *)
  Lemma alt_copy_step : forall T v, twf T -> In v (t_alt T) ->
    exists T' p, copy_var_from_altstack v T = Some (T', (t_next T, snd v)) /\
      stepped T T' [(t_next T, snd v)] (t_main T) (t_alt T) p /\
      forall val, (Z.of_nat (snd v) < 2 ^ 31)%Z -> sized val (t_main T ++ t_alt T) ->
        runs (fun _ => True) (Some (Leaves [val (fst v)])) T T' [(t_next T, snd v)] p val.
  Proof.
    intros T v W Iv. assert (N : NoDup (map fst (t_alt T))).
    { destruct W as [N _]. rewrite map_app in N. eapply NoDup_app_r; eauto. }
    destruct (find_var_spec _ _ N Iv) as (l1 & l2 & E & F). unfold copy_var_from_altstack. rewrite F.
    do 2 eexists. split; [reflexivity|].
    match goal with |- stepped _ ?t _ _ _ _ /\ _ => set (T' := t) end.
    assert (S : stepped T T' [(t_next T, snd v)] (t_main T) (t_alt T)
       (alt_fetch (items l1) (snd v) ++ repeat_script (snd v) [pushnat (snd v - 1); OP_PICK] ++
        repeat_script (snd v) [OP_TOALTSTACK] ++ alt_restore (items l1) (snd v))).
    { constructor; cbn; auto; try lia.
      pose proof (twf_push T (t_main T) (t_alt T) (t_next T) [snd v] (t_script T' ) W eq_refl) as K.
      cbn in K. rewrite Nat.add_1_r in K. apply K; [auto|apply W]. }
    split; [exact S|]. intros val L Z.
    pose proof (proj2 (proj1 (sized_app _ _ _) Z)) as Za. rewrite E in Za. apply sized_app in Za as [Z1 Z2].
    inversion Z2 as [|? ? Zv Z3]; subst. eapply runs_one; eauto.
    intros rest arest. rewrite E, aimg_app, aimg_cons. rewrite <- !app_assoc.
    pose proof (exec_alt_copy H (aimg val l1) (nums (val (fst v))) (img val (t_main T) ++ rest) (aimg val l2 ++ arest)) as X.
    rewrite aimg_length, nums_length, Zv in X by exact Z1. apply X. exact L.
  Qed.

  Lemma alt_move_step : forall T v, twf T -> In v (t_alt T) ->
    exists T' p, move_var_from_altstack v T = Some (T', (t_next T, snd v)) /\
      stepped T T' [(t_next T, snd v)] (t_main T) (filter (fun w => negb (fst w =? fst v)) (t_alt T)) p /\
      forall val, (Z.of_nat (snd v) < 2 ^ 31)%Z -> sized val (t_main T ++ t_alt T) ->
        runs (fun _ => True) (Some (Leaves [val (fst v)])) T T' [(t_next T, snd v)] p val.
  Proof.
    intros T v W Iv. assert (N : NoDup (map fst (t_alt T))).
    { destruct W as [N _]. rewrite map_app in N. eapply NoDup_app_r; eauto. }
    destruct (find_var_spec _ _ N Iv) as (l1 & l2 & E & F). unfold move_var_from_altstack. rewrite F.
    assert (FE : filter (fun w => negb (fst w =? fst v)) (t_alt T) = l1 ++ l2).
    { rewrite E in N |- *. apply filter_mid. exact N. }
    rewrite FE. do 2 eexists. split; [reflexivity|].
    match goal with |- stepped _ ?t _ _ _ _ /\ _ => set (T' := t) end.
    assert (S : stepped T T' [(t_next T, snd v)] (t_main T) (l1 ++ l2)
       (alt_fetch (items l1) (snd v) ++ alt_restore (items l1) (snd v))).
    { constructor; cbn; auto; try lia.
      pose proof (twf_push T (t_main T) (l1 ++ l2) (t_next T) [snd v] (t_script T' ) W eq_refl) as K.
      cbn in K. rewrite Nat.add_1_r in K. apply K.
      - intros w Iw. rewrite E. rewrite !in_app_iff in *. cbn. tauto.
      - destruct W as [N2 _]. rewrite E in N2. rewrite !map_app in *. cbn in N2. rewrite app_assoc in N2.
        apply NoDup_remove_1 in N2. rewrite <- app_assoc in N2. exact N2. }
    split; [exact S|]. intros val L Z.
    pose proof (proj2 (proj1 (sized_app _ _ _) Z)) as Za. rewrite E in Za. apply sized_app in Za as [Z1 Z2].
    inversion Z2 as [|? ? Zv Z3]; subst. eapply runs_one; eauto.
    { intros w Iw. rewrite E. rewrite in_app_iff in *. cbn. tauto. }
    intros rest arest. rewrite E, !aimg_app, aimg_cons. rewrite <- !app_assoc.
    pose proof (exec_alt_move H (aimg val l1) (nums (val (fst v))) (img val (t_main T) ++ rest) (aimg val l2 ++ arest)) as X.
    rewrite aimg_length, nums_length, Zv in X by exact Z1. apply X. exact L.
  Qed.

  (** [keep_copy] after a node left [v] on top *)
  Lemma keep_step : forall T v base, twf T -> t_main T = v :: base ->
    exists T1 T2 p, copy_var v T = Some (T1, (t_next T, snd v)) /\
      to_altstack T1 = Some (T2, (t_next T, snd v)) /\
      t_main T2 = t_main T /\ t_alt T2 = (t_next T, snd v) :: t_alt T /\ twf T2 /\
      t_next T2 = S (t_next T) /\ t_script T2 = t_script T ++ p /\
      forall val, (Z.of_nat (snd v) < 2 ^ 31)%Z -> sized val (t_main T ++ t_alt T) ->
        exists val', agree (t_next T) val val' /\ sized val' (t_main T2 ++ t_alt T2) /\
          val' (t_next T) = val (fst v) /\ sim val val' T T2 p.
  Proof.
    intros T v base W E. unfold copy_var, to_altstack. rewrite E. destruct v as [i s]. cbn [fst snd find_var].
    rewrite Nat.eqb_refl. cbn [t_main]. do 3 eexists. split; [reflexivity|]. split; [reflexivity|].
    split; [reflexivity|]. split; [reflexivity|]. cbn [t_next t_script t_main t_alt].
    assert (W2 : forall q, twf (mktracker (S (t_next T)) ((i, s) :: base) ((t_next T, s) :: t_alt T) q)).
    { destruct W as [N F]. intros q. unfold twf. cbn [t_main t_alt t_next]. rewrite E in N, F. split.
      - rewrite map_app in *. cbn [map app] in N |- *. apply NoDup_cons_iff in N as [N1 N2].
        assert (Nt : ~ In (t_next T) (i :: map fst base ++ map fst (t_alt T))).
        { intros X. rewrite <- map_app in X. change (i :: map fst (base ++ t_alt T)) with (map fst (((i, s) :: base) ++ t_alt T)) in X.
          apply in_map_iff in X as (w & Ew & Iw). rewrite Forall_forall in F. apply F in Iw. lia. }
        constructor.
        + intros X. apply in_app_or in X as [X|[X|X]].
          * apply N1. apply in_or_app. now left.
          * apply Nt. left. symmetry. exact X.
          * apply N1. apply in_or_app. now right.
        + apply NoDup_Add with (a := t_next T) (l := map fst base ++ map fst (t_alt T)).
          * apply Add_app.
          * split; [exact N2|]. intros X. apply Nt. now right.
      - apply Forall_app in F as [F1 F2]. apply Forall_app. split.
        + eapply Forall_impl; [|exact F1]. cbn. intros; lia.
        + constructor; [cbn; lia|]. eapply Forall_impl; [|exact F2]. cbn. intros; lia. }
    split; [apply W2|]. split; [reflexivity|]. split; [rewrite <- app_assoc; reflexivity|].
    intros val L Z. exists (extend (t_next T) [val i] val).
    pose proof (extend_agree (t_next T) [val i] val) as A.
    split; [exact A|].
    pose proof Z as Z0. apply sized_app in Z0 as [Zm Za]. pose proof Zm as Zm0.
    inversion Zm0 as [|? ? Zv Zb]; subst. cbn in Zv.
    pose proof (twf_main T W) as Fm. rewrite E in Fm. pose proof (twf_alt T W) as Fa.
    split; [|split].
    - apply sized_app. split; [eapply agree_sized; eauto|]. constructor; [cbn; rewrite extend_one; exact Zv|eapply agree_sized; eauto].
    - apply extend_one.
    - intros rest arest. cbn [t_main t_alt]. rewrite E, (agree_img _ _ _ _ A Fm), aimg_cons. cbn [fst].
      rewrite extend_one, (agree_aimg _ _ _ _ A Fa), img_cons, <- !app_assoc. cbn [fst].
      eapply exec_seq.
      + pose proof (exec_copy H [] (nums (val i)) (img val base ++ rest) (aimg val (t_alt T) ++ arest)) as X.
        rewrite nums_length, Zv in X. cbn [app length] in X. apply X. cbn in L |- *. lia.
      + pose proof (exec_toalt H (nums (val i)) (nums (val i) ++ img val base ++ rest) (aimg val (t_alt T) ++ arest)) as X.
        rewrite nums_length, Zv in X. exact X.
  Qed.

  Lemma stepped_seq : forall T T1 T2 ov1 ov2 b1 a1 b2 a2 b p1 p2,
    stepped T T1 ov1 b1 a1 p1 -> stepped T1 T2 ov2 b2 a2 p2 -> b2 = ov1 ++ b ->
    stepped T T2 (ov2 ++ ov1) b a2 (p1 ++ p2).
  Proof.
    intros T T1 T2 ov1 ov2 b1 a1 b2 a2 b p1 p2 [M1 A1 W1 N1 F1 S1] [M2 A2 W2 N2 F2 S2] E.
    constructor; auto.
    - rewrite M2, E. apply app_assoc.
    - lia.
    - apply Forall_app. split; [|exact F1]. eapply Forall_impl; [|exact F2]. cbn. intros; lia.
    - rewrite S2, S1. symmetry. apply app_assoc.
  Qed.
  Lemma stepped_then : forall T T1 T2 ov1 ov2 b1 a1 b2 a2 p1 p2,
    stepped T T1 ov1 b1 a1 p1 -> stepped T1 T2 ov2 b2 a2 p2 ->
    stepped T T2 ov2 b2 a2 (p1 ++ p2).
  Proof.
    intros T T1 T2 ov1 ov2 b1 a1 b2 a2 p1 p2 [M1 A1 W1 N1 F1 S1] [M2 A2 W2 N2 F2 S2].
    constructor; auto.
    - lia.
    - eapply Forall_impl; [|exact F2]. cbn. intros; lia.
    - rewrite S2, S1. symmetry. apply app_assoc.
  Qed.
End Steps.

Fixpoint expr_ind' (P : expr -> Prop) (f : forall id o s ops, Forall P ops -> P (Node id o s ops)) (e : expr) : P e :=
  match e with
  | Node id o s ops => f id o s ops ((fix go l : Forall P l :=
      match l with [] => Forall_nil P | x :: r => Forall_cons x (expr_ind' P f x) (go r) end) ops)
  end.

Lemma var_size_eq : forall e s, var_size e = Some s -> s = e_size e.
Proof. intros e s. unfold var_size. destruct (_ || _); intros E; inversion E; reflexivity. Qed.
Lemma sizes_eq : forall ops sizes, all_some (map var_size ops) = Some sizes -> sizes = map e_size ops.
Proof.
  induction ops as [|x ops IH]; intros sizes E; cbn in E; [inversion E; reflexivity|].
  destruct (var_size x) as [s|] eqn:Es; [|discriminate].
  destruct (all_some (map var_size ops)) as [ss|]; [|discriminate]. inversion E; subst.
  cbn. f_equal; [apply var_size_eq, Es|apply IH; reflexivity].
Qed.

(** ** Lists of input variables *)
Definition moved_of (ins : list (bool * svar)) : list nat := map (fun p => fst (snd p)) (filter fst ins).
Lemma moved_of_app : forall a b, moved_of (a ++ b) = moved_of a ++ moved_of b.
Proof. intros. unfold moved_of. now rewrite filter_app, map_app. Qed.
Lemma memb_In : forall i l, memb i l = true <-> In i l.
Proof.
  intros. unfold memb. rewrite existsb_exists. split.
  - intros (x & I0 & E). apply Nat.eqb_eq in E. now subst.
  - intros I0. exists i. split; [exact I0|apply Nat.eqb_refl].
Qed.
Lemma memb_app : forall i a b, memb i (a ++ b) = memb i a || memb i b.
Proof. intros. apply existsb_app. Qed.
Lemma without_app_l : forall m a b, without m (a ++ b) = without m a ++ without m b.
Proof. intros. apply filter_app. Qed.
Lemma without_without : forall a b l, without b (without a l) = without (a ++ b) l.
Proof.
  intros a b l. unfold without. induction l as [|v l IH]; [reflexivity|]. cbn [filter].
  rewrite memb_app. destruct (memb (fst v) a); cbn [negb orb filter]; [exact IH|].
  destruct (memb (fst v) b); cbn [negb]; [exact IH|]. f_equal. exact IH.
Qed.
Lemma items_without : forall m l, items (without m l) <= items l.
Proof. intros. apply items_filter. Qed.
Lemma without_nil : forall l, without [] l = l.
Proof. induction l as [|v l IH]; [reflexivity|]. cbn. f_equal. exact IH. Qed.
Lemma without_fresh : forall m l n, Forall (fun i => i < n) m -> Forall (fun v : svar => n <= fst v) l -> without m l = l.
Proof.
  intros m l n Fm Fl. induction Fl as [|v l Hv Fl IH]; [reflexivity|]. cbn [without filter].
  destruct (memb (fst v) m) eqn:E.
  - apply memb_In in E. rewrite Forall_forall in Fm. apply Fm in E. lia.
  - cbn. f_equal. exact IH.
Qed.
Lemma without_one : forall i l, without [i] l = filter (fun w => negb (fst w =? i)) l.
Proof. intros. apply filter_ext. intros v. cbn. now rewrite orb_false_r. Qed.

Definition ins_ok (vs : list svar) (ins : list (bool * svar)) : Prop :=
  Forall (fun p => In (snd p) vs) ins /\ NoDup (moved_of ins) /\
  (forall v, In (false, v) ins -> ~ In (fst v) (moved_of ins)).

Lemma in_moved_of : forall v ins, In (true, v) ins -> In (fst v) (moved_of ins).
Proof.
  intros v ins I0. unfold moved_of. change (fst v) with ((fun p : bool * svar => fst (snd p)) (true, v)).
  apply in_map. apply filter_In. split; [exact I0|reflexivity].
Qed.

Lemma ins_ok_app : forall vs a b, ins_ok vs (a ++ b) ->
  ins_ok vs a /\ forall ov, ins_ok (ov ++ without (moved_of a) vs) b.
Proof.
  intros vs a b (F & N & D). rewrite moved_of_app in N. apply Forall_app in F as [Fa Fb]. split.
  - split; [exact Fa|]. split; [eapply NoDup_app_l; eauto|]. intros v Iv X. eapply D; [apply in_or_app; left; exact Iv|].
    rewrite moved_of_app. apply in_or_app. now left.
  - intros ov. split; [|split; [eapply NoDup_app_r; eauto|]].
    + rewrite Forall_forall in *. intros [b0 v] Iv. apply in_or_app. right.
      unfold without. apply filter_In. split; [apply (Fb _ Iv)|]. cbn [snd].
      destruct (memb (fst v) (moved_of a)) eqn:E; [exfalso|reflexivity]. apply memb_In in E.
      destruct b0.
      * apply in_moved_of in Iv. clear - N E Iv. induction (moved_of a) as [|x l IH]; [easy|].
        cbn in N. inversion N; subst. destruct E as [->|E]; [apply H1; apply in_or_app; now right|auto].
      * eapply (D v); [apply in_or_app; right; exact Iv|]. rewrite moved_of_app. apply in_or_app. now left.
    + intros v Iv X. eapply D; [apply in_or_app; right; exact Iv|]. rewrite moved_of_app. apply in_or_app. now right.
Qed.

(** ** Generation of one node *)
Section Gen.
  Variable H : bytes -> bytes.
  Variable G : gadgets.
  Variable gt : getter.
  Variable op_sem : opcode -> list nat -> list (list Z) -> option res.

  (** The script of each opcode computes the meaning of the opcode. *)
  Definition op_contract : Prop := forall o sizes em ins r rest alt,
    generate G o sizes = Some em -> op_sem o sizes ins = Some r -> length ins = em_consumes em ->
    match r with
    | Leaves outs => map (@length Z) outs = rev (em_outs em) /\
        exec H (em_script em) (nums (concat ins) ++ rest) alt (nums (concat outs) ++ rest) alt
    | Fails => fails H (em_script em) (nums (concat ins) ++ rest) alt
    end.
  Hypothesis ops_ok : op_contract.

  Lemma sized_of_lengths : forall val l, map (@length Z) (vals_of val l) = map snd l -> sized val l.
  Proof.
    intros val l. unfold sized, vals_of. induction l as [|v l IH]; intros E; [constructor|].
    cbn in E. inversion E. constructor; auto.
  Qed.

  Lemma gen_op : forall o sizes em T iv base,
    input_of o = None -> generate G o sizes = Some em -> twf T -> t_main T = iv ++ base -> length iv = em_consumes em ->
    exists T' vars p, run_generator G gt o sizes T = Some (T', vars) /\
      map snd (rev vars) = rev (em_outs em) /\
      stepped T T' (rev vars) base (t_alt T) p /\
      forall val, sized val (t_main T ++ t_alt T) ->
        runs H (fun _ => True) (op_sem o sizes (vals_of val iv)) T T' (rev vars) p val.
  Proof.
    intros o sizes em T iv base No Eg W Em L.
    assert (R : run_generator G gt o sizes T = custom (em_script em) (em_consumes em) (em_outs em) T).
    { destruct o; try discriminate No; unfold run_generator; rewrite Eg; reflexivity. }
    destruct (custom_step T iv base (em_script em) (em_consumes em) (em_outs em) W Em L) as (T' & EC & S).
    rewrite R, EC. exists T', (fresh_vars (t_next T) (em_outs em)), (em_script em).
    split; [reflexivity|]. split; [rewrite map_rev, fresh_vars_snd; reflexivity|]. split; [exact S|].
    intros val Zs. destruct (op_sem o sizes (vals_of val iv)) as [r|] eqn:Er; [|exact Logic.I].
    assert (Li : length (vals_of val iv) = em_consumes em) by (unfold vals_of; rewrite map_length; exact L).
    destruct r as [outs|]; cbn [runs].
    - pose proof (fun rest alt => ops_ok o sizes em _ _ rest alt Eg Er Li) as K. cbn beta iota in K.
      assert (Lo : map (@length Z) outs = rev (em_outs em)) by (apply (K [] [])).
      set (n := t_next T) in *. set (vs := fresh_vars n (em_outs em)) in *.
      exists (extend n (rev outs) val).
      assert (A : agree n val (extend n (rev outs) val)) by apply extend_agree.
      assert (Lr : length (rev outs) = length (em_outs em)).
      { rewrite rev_length, <- (map_length (@length Z)), Lo, rev_length. reflexivity. }
      assert (Ev : vals_of (extend n (rev outs) val) (rev vs) = outs).
      { pose proof (extend_fresh (em_outs em) (rev outs) n val Lr) as Ev0. fold vs in Ev0.
        etransitivity; [apply map_rev|]. etransitivity; [apply (f_equal (@rev _)); exact Ev0|]. apply rev_involutive. }
      pose proof (twf_main T W) as Fm. rewrite Em in Fm. apply Forall_app in Fm as [Fi Fb].
      pose proof (twf_alt T W) as Fa. pose proof Zs as Z0. rewrite Em in Z0. apply sized_app in Z0 as [Zm Za].
      apply sized_app in Zm as [Zi Zb].
      split; [exact A|]. split; [|split; [exact Ev|split; [exact Logic.I|]]].
      + rewrite (st_main _ _ _ _ _ _ S), (st_alt _ _ _ _ _ _ S). apply sized_app. split; [apply sized_app; split|].
        * apply sized_of_lengths. rewrite Ev, Lo. unfold vs. rewrite map_rev, fresh_vars_snd. reflexivity.
        * eapply agree_sized; eauto.
        * eapply agree_sized; eauto.
      + intros rest arest. rewrite (st_main _ _ _ _ _ _ S), (st_alt _ _ _ _ _ _ S), Em.
        rewrite !img_app, (agree_img _ _ _ _ A Fb), (agree_aimg _ _ _ _ A Fa), <- !app_assoc.
        unfold img at 3. rewrite Ev. unfold img at 1. apply K.
    - intros rest arest. rewrite Em, img_app, <- app_assoc. unfold img at 1.
      apply (ops_ok o sizes em _ _ _ _ Eg Er Li).
  Qed.

  Lemma gen_input : forall o b x v T,
    input_of o = Some (b, x) -> gt x = Some v -> twf T -> In v (t_main T) -> (Z.of_nat (items (t_main T)) < 2 ^ 31)%Z ->
    exists T' p, run_generator G gt o [] T = Some (T', [(t_next T, snd v)]) /\
      stepped T T' [(t_next T, snd v)] (without (if b then [fst v] else []) (t_main T)) (t_alt T) p /\
      forall val, sized val (t_main T ++ t_alt T) ->
        runs H (fun _ => True) (Some (Leaves [val (fst v)])) T T' [(t_next T, snd v)] p val.
  Proof.
    intros o b x v T Ei Eg W Iv L. destruct o; try discriminate Ei; inversion Ei; subst; cbn [run_generator]; rewrite Eg.
    - destruct (move_step T v W Iv) as (T' & o & E & Lo & S & l1 & l2 & E1 & E2 & E3). rewrite E.
      exists T'. eexists. split; [reflexivity|]. rewrite without_one. split; [exact S|].
      intros val Z. rewrite E3 in S. eapply move_runs; eauto.
    - destruct (copy_step T v W Iv) as (T' & o & E & Lo & S & l1 & l2 & E1 & E2). rewrite E.
      exists T'. eexists. split; [reflexivity|]. rewrite without_nil. split; [exact S|].
      intros val Z. eapply copy_runs; eauto.
  Qed.

  (** The operands loop of [express_to_script], by itself. *)
  Definition operands (optimize : bool) : list expr -> tracker -> idmap -> option (tracker * idmap * list nat) :=
    fix operands (l : list expr) (T : tracker) (m : idmap) : option (tracker * idmap * list nat) :=
    match l with
    | [] => Some (T, m, [])
    | x :: r =>
        match express_to_script G gt optimize x T m with
        | Some (T1, m1, _) =>
            match var_size x with
            | Some s =>
                match operands r T1 m1 with
                | Some (T2, m2, ss) => Some (T2, m2, s :: ss)
                | None => None
                end
            | None => None
            end
        | None => None
        end
    end.
  Lemma express_unfold : forall optimize id o sz ops T m,
    express_to_script G gt optimize (Node id o sz ops) T m =
    match (if optimize && single o then reuse id T m else None) with
    | Some r => r
    | None =>
        if number_ok (input_number o) (length ops) then
          match operands optimize ops T m with
          | Some (T1, m1, sizes) =>
              match run_generator G gt o sizes T1 with
              | Some (T2, vars) =>
                  if number_ok (output_number o) (length vars) then
                    if optimize && single o then keep_copy id vars T2 m1
                    else Some (T2, m1, vars)
                  else None
              | None => None
              end
          | None => None
          end
        else None
    end.
  Proof. reflexivity. Qed.

  (** Variables of the getter were allocated before generation. *)
  Variable N0 : nat.
  Hypothesis gt_old : forall x v, gt x = Some v -> fst v < N0.
  Definition env_ok (env : environment) (val : values) : Prop :=
    forall x v, gt x = Some v -> env x = Some (val (fst v)).
  Lemma env_ok_agree : forall env n val val', N0 <= n -> agree n val val' -> env_ok env val -> env_ok env val'.
  Proof. intros env n val val' L A E x v Ex. rewrite (E x v Ex). f_equal. symmetry. apply A. apply gt_old in Ex. lia. Qed.

  Lemma inputs_old : forall e, Forall (fun p => fst (snd p) < N0) (inputs gt e).
  Proof.
    apply expr_ind'. intros id o s ops IH. cbn [inputs]. apply Forall_app. split.
    - destruct (input_of o) as [[b x]|]; [|constructor]. destruct (gt x) as [v|] eqn:E; [|constructor].
      constructor; [cbn; eapply gt_old; eauto|constructor].
    - induction IH as [|x l Hx Hl IHl]; [constructor|]. cbn. apply Forall_app. split; assumption.
  Qed.
  Lemma moved_old : forall l, Forall (fun i => i < N0) (moved_of (flat_map (inputs gt) l)).
  Proof.
    intros l. rewrite Forall_forall. intros i Ii. unfold moved_of in Ii. apply in_map_iff in Ii as (p & <- & Ip).
    apply filter_In in Ip as [Ip _]. apply in_flat_map in Ip as (e & _ & Ip).
    pose proof (inputs_old e) as F. rewrite Forall_forall in F. apply F, Ip.
  Qed.
  Lemma moved_old1 : forall e, Forall (fun i => i < N0) (moved_of (inputs gt e)).
  Proof. intros e. pose proof (moved_old [e]) as K. cbn in K. rewrite app_nil_r in K. exact K. Qed.

  (** ** Without caching *)
  Definition tree_gen_at (e : expr) : Prop := forall T m sh,
    shape G gt e = Some sh -> twf T -> N0 <= t_next T -> ins_ok (t_main T) (inputs gt e) ->
    (Z.of_nat (items (t_main T) + need G gt e) < 2 ^ 31)%Z ->
    exists T' vars p, express_to_script G gt false e T m = Some (T', m, vars) /\ map snd (rev vars) = sh /\
      stepped T T' (rev vars) (without (moved gt e) (t_main T)) (t_alt T) p /\
      forall val env, sized val (t_main T ++ t_alt T) -> env_ok env val ->
        runs H (fun _ => True) (eval op_sem env e) T T' (rev vars) p val.

  Lemma items_sizes : forall l sh, map snd l = sh -> items l = list_sum sh.
  Proof. intros l sh <-. reflexivity. Qed.

  Lemma tree_ops : forall ops, Forall tree_gen_at ops -> forall T m ss sizes,
    all_some (map (shape G gt) ops) = Some ss -> all_some (map var_size ops) = Some sizes ->
    twf T -> N0 <= t_next T -> ins_ok (t_main T) (flat_map (inputs gt) ops) ->
    (Z.of_nat (items (t_main T) + needs (map (fun x => (need G gt x, outsize G gt x)) ops)) < 2 ^ 31)%Z ->
    exists T' iv p, operands false ops T m = Some (T', m, sizes) /\ length iv = length (concat ss) /\
      stepped T T' iv (without (moved_of (flat_map (inputs gt) ops)) (t_main T)) (t_alt T) p /\
      forall val env, sized val (t_main T ++ t_alt T) -> env_ok env val ->
        runs H (fun _ => True) (collect (map (eval op_sem env) ops)) T T' iv p val.
  Proof.
    intros ops F. induction F as [|x ops Fx F IH]; intros T m ss sizes Ess Esz W LN I0 Ln.
    - cbn in Ess, Esz. inversion Ess; inversion Esz; subst. exists T, [], []. split; [reflexivity|]. split; [reflexivity|]. split.
      + constructor; auto; [cbn; now rewrite without_nil|symmetry; apply app_nil_r].
      + intros val env Z _. cbn. exists val. repeat split; auto.
    - cbn [map all_some] in Ess, Esz. destruct (shape G gt x) as [sh|] eqn:Esh; [|discriminate].
      destruct (all_some (map (shape G gt) ops)) as [ss'|] eqn:Ess'; [|discriminate].
      destruct (var_size x) as [s|] eqn:Es; [|discriminate].
      destruct (all_some (map var_size ops)) as [sz'|] eqn:Esz'; [|discriminate].
      inversion Ess; inversion Esz; subst. clear Ess Esz.
      cbn [flat_map] in I0. cbn [map needs] in Ln.
      destruct (ins_ok_app _ _ _ I0) as [Ix Irest].
      destruct (Fx T m sh Esh W LN Ix) as (T1 & vars & p1 & E1 & Sh1 & S1 & R1). { lia. }
      assert (Irest' : ins_ok (t_main T1) (flat_map (inputs gt) ops)) by (rewrite (st_main _ _ _ _ _ _ S1); apply Irest).
      destruct (IH T1 m ss' sz' eq_refl eq_refl (st_wf _ _ _ _ _ _ S1)) as (T2 & iv & p2 & E2 & L2 & S2 & R2).
      { pose proof (st_next _ _ _ _ _ _ S1). lia. }
      { exact Irest'. }
      { rewrite (st_main _ _ _ _ _ _ S1), items_app, (items_sizes _ _ Sh1).
        assert (Eo : outsize G gt x = list_sum sh) by (unfold outsize; now rewrite Esh).
        pose proof (items_without (moved gt x) (t_main T)). rewrite Eo in Ln. lia. }
      rewrite (st_alt _ _ _ _ _ _ S1) in S2.
      exists T2, (iv ++ rev vars), (p1 ++ p2). split; [|split; [|split]].
      + cbn [operands]. rewrite E1, Es, E2. reflexivity.
      + assert (X : length (rev vars) = length sh) by (rewrite <- Sh1; symmetry; apply map_length).
        rewrite app_length, concat_cons, app_length, L2, X. lia.
      + eapply stepped_seq; [exact S1|exact S2|].
        rewrite (st_main _ _ _ _ _ _ S1), without_app_l, without_without.
        cbn [flat_map]. rewrite moved_of_app. f_equal.
        eapply without_fresh; [apply moved_old|]. eapply Forall_impl; [|apply (st_fresh _ _ _ _ _ _ S1)].
        cbn. intros; lia.
      + intros val env Z Ev. cbn [map collect fold_right]. eapply runs_seq; [exact S1|exact S2|apply R1; auto|].
        intros val1 outs _ A1 Z1 _. cbn beta. apply R2; [exact Z1|].
        eapply env_ok_agree; [|exact A1|exact Ev]. exact LN.
  Qed.

  Lemma number_ok_len : forall (A : Type) n (l1 : list A) k, length l1 = k -> number_ok n (length l1) = number_ok n k.
  Proof. intros. now subst. Qed.

  Lemma tree_gen : forall e, tree_gen_at e.
  Proof.
    apply expr_ind'. intros id o sz ops F T m sh Esh W LN I0 Ln.
    pose proof (tree_ops ops F T m) as K. cbn [shape] in Esh.
    destruct (all_some (map (shape G gt) ops)) as [ss|]; [|discriminate].
    destruct (all_some (map var_size ops)) as [sizes|] eqn:Esz; [|discriminate].
    destruct (number_ok (input_number o) (length ops)) eqn:Hin; [|discriminate].
    specialize (K ss sizes eq_refl eq_refl W LN).
    cbn [need] in Ln. cbn [inputs] in I0.
    destruct (input_of o) as [[b x]|] eqn:Eio.
    - (* input variable *)
      destruct (gt x) as [v|] eqn:Eg; [|discriminate]. inversion Esh; subst sh.
      assert (Eops : ops = []).
      { destruct o; try discriminate Eio; destruct ops; auto; discriminate Hin. }
      subst ops. cbn in Esz. inversion Esz; subst sizes. cbn [flat_map] in *. rewrite app_nil_r in I0.
      destruct I0 as (Fi & _ & _). inversion Fi as [|? ? Iv _]; subst. cbn in Iv.
      destruct (gen_input o b x v T Eio Eg W Iv) as (T' & p & E & S & R). { lia. }
      exists T', [(t_next T, snd v)], p. rewrite express_unfold. cbn [andb operands]. rewrite Hin, E.
      assert (Ho : number_ok (output_number o) 1 = true).
      { destruct o; try discriminate Eio; reflexivity. }
      cbn [length]. rewrite Ho. split; [reflexivity|]. split; [reflexivity|]. split.
      + cbn [rev app]. unfold moved. cbn [inputs]. rewrite Eio, Eg. cbn [flat_map app]. destruct b; exact S.
      + intros val env Z Ev. cbn [eval map collect fold_right then_res].
        assert (En : node_sem op_sem env o [] [] = Some (Leaves [val (fst v)])).
        { destruct o; try discriminate Eio; cbn in Eio |- *; inversion Eio; subst; rewrite (Ev _ _ Eg); reflexivity. }
        rewrite En. apply R; assumption.
    - destruct (generate G o sizes) as [em|] eqn:Eg; [|discriminate].
      destruct ((em_consumes em =? length (concat ss)) && number_ok (output_number o) (length (em_outs em))) eqn:Ec; [|discriminate].
      apply andb_true_iff in Ec as [Ec Eo]. apply Nat.eqb_eq in Ec. inversion Esh; subst sh. clear Esh.
      cbn [app] in I0. specialize (K I0). destruct K as (T1 & iv & p1 & E1 & L1 & S1 & R1). { lia. }
      destruct (gen_op o sizes em T1 iv _ Eio Eg (st_wf _ _ _ _ _ _ S1) (st_main _ _ _ _ _ _ S1)) as (T2 & vars & p2 & E2 & Sh2 & S2 & R2).
      { congruence. }
      exists T2, vars, (p1 ++ p2). rewrite express_unfold. cbn [andb]. rewrite Hin, E1, E2.
      assert (Lv : length vars = length (em_outs em)).
      { apply (f_equal (@length nat)) in Sh2. rewrite map_length, !rev_length in Sh2. exact Sh2. }
      rewrite Lv, Eo. split; [reflexivity|]. split; [exact Sh2|].
      assert (S3 : stepped T1 T2 (rev vars) (without (moved_of (flat_map (inputs gt) ops)) (t_main T)) (t_alt T) p2).
      { rewrite <- (st_alt _ _ _ _ _ _ S1). exact S2. }
      split.
      + unfold moved. cbn [inputs]. rewrite Eio. cbn [app]. eapply stepped_then; [exact S1|exact S3].
      + intros val env Z Ev. cbn [eval]. eapply runs_then; [exact S1|apply R1; auto|].
        intros val1 A1 Z1 _ _. rewrite <- (sizes_eq _ _ Esz).
        assert (En : node_sem op_sem env o sizes (vals_of val1 iv) = op_sem o sizes (vals_of val1 iv)).
        { destruct o; try discriminate Eio; reflexivity. }
        rewrite En. apply R2. exact Z1.
  Qed.
End Gen.
