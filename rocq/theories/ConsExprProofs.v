(** Proofs about the constraint script. *)
From Coq Require Import ZArith List Bool Arith Lia Field.
From Verif Require Import ScriptNum ScriptVM U32Model Lift Field BabyBear HelperModel TcsModel DslModel DslStack DslSpec DslOpSpec DslProofs DslDag DslMain DslOps DslGadgets
  DslBuild DslIds DslDenote DslManager DslSession DslWork PropDsl FriExprModel FriExprProofs StarkExprModel ConsExprModel.
From Verif Require StarkModel.
Import ListNotations.
Local Open Scope nat_scope.

(** ** The native folder and the one on trees *)
Section NativeTrees.
  Variable w : StarkModel.window BabyBearT ExtT.
  Variable alpha : ExtT.
  Notation ev := (StarkModel.eval (from_base : BabyBearT -> ExtT) w).
  Definition pools (trees : list (StarkModel.expr BabyBearT)) (vals : list ExtT) : Prop := Forall2 (fun t v => ev t = Some v) trees vals.
  Lemma pools_nth : forall ts vs i v, pools ts vs -> nth_error vs i = Some v -> exists t, nth_error ts i = Some t /\ ev t = Some v.
  Proof.
    intros ts vs i v P. revert i. induction P as [|t u ts vs E P IH]; intros [|i] N; try discriminate N; cbn in *.
    - injection N as <-. eauto.
    - now apply IH.
  Qed.
  Lemma pools_snoc : forall ts vs t v, pools ts vs -> ev t = Some v -> pools (ts ++ [t]) (vs ++ [v]).
  Proof. intros ts vs t v P E. apply Forall2_app; [exact P|]. now constructor. Qed.
  Lemma native_trees : forall p ts vs acc r, pools ts vs -> eval_native w alpha p vs acc = Some r ->
    exists l, assertions p ts = Some l /\ StarkModel.fold_constraints (from_base : BabyBearT -> ExtT) (fun x : ExtT => x) alpha w acc l = Some r /\
      (existsb is_assert p = true <-> l <> []).
  Proof.
    induction p as [|s p IH]; intros ts vs acc r P E.
    - exists []. split; [reflexivity|]. split; [exact E|]. cbn. split; [discriminate|congruence].
    - destruct s; cbn [eval_native assertions existsb is_assert orb] in *;
        repeat match type of E with
               | match nth_error vs ?i with _ => _ end = _ =>
                   let v := fresh "v" in let t := fresh "t" in let Ev := fresh "Ev" in let Et := fresh "Et" in let Ht := fresh "Ht" in
                   destruct (nth_error vs i) as [v|] eqn:Ev; [|discriminate E]; destruct (pools_nth ts vs i v P Ev) as (t & Et & Ht); rewrite Et
               | match ?o with Some _ => _ | None => None end = _ => let v := fresh "v" in let Ev := fresh "Ev" in destruct o as [v|] eqn:Ev; [|discriminate E]
               end;
        try (eapply IH; [|exact E]; apply pools_snoc; [exact P|]; cbn [StarkModel.eval]; rewrite ?Ht, ?Ht0; first [reflexivity|assumption|rewrite Ev; reflexivity]);
        destruct (IH _ _ _ _ P E) as (l & El & Fl & _); rewrite El; eexists; (split; [reflexivity|]);
        (split; [cbn [StarkModel.fold_constraints StarkModel.as_zero StarkModel.eval]; rewrite ?Ht, ?Ht0; exact Fl|easy]).
  Qed.
End NativeTrees.

Lemma smap_nth : forall A (f : nat -> A) n i, nth_error (map f (seq 0 n)) i = if i <? n then Some (f i) else None.
Proof.
  intros A f n i. destruct (Nat.ltb_spec i n) as [L|L].
  - rewrite nth_error_map, (nth_error_nth' _ 0) by now rewrite seq_length. now rewrite seq_nth.
  - apply nth_error_None. now rewrite map_length, seq_length.
Qed.

(** ** Building nodes *)
Section Build.
  Variable G : gadgets.
  Variable gt : getter.
  Variable env : environment.
  Variable vs : list svar.     (* the variables on the stack *)
  Variable n0 : nat.           (* identifiers up to here are not ours *)
  Notation den := (denotes G gt env).

  Record fine (x : expr) : Prop := mkfine {
    fi_single : single (e_op x) = true;
    fi_input : forall b y, input_of (e_op x) = Some (b, y) -> b = false /\ exists v, gt y = Some v /\ In v vs;
    fi_out : outsize G gt x <= 4;
    fi_need : need G gt x <= 4 * (e_id x - n0);
    fi_new : n0 < e_id x }.
  Record st (n : nat) (all : list expr) : Prop := mkst {
    s_made : made n all;
    s_le : n0 <= n;
    s_fine : Forall fine all }.

  (** [b] makes at most [k] nodes *)
  Definition gets {A} (b : builder A) (all : list expr) (k : nat) (Q : A -> list expr -> Prop) : Prop :=
    forall n, st n all -> exists a n' all', b n = Some (a, n') /\ st n' all' /\ incl all all' /\ n' <= n + k /\ Q a all'.
  Definition stuck {A} (b : builder A) (all : list expr) : Prop := forall n, st n all -> b n = None.

  Lemma gets_ret : forall A (a : A) all k (Q : A -> list expr -> Prop), Q a all -> gets (ret a) all k Q.
  Proof. intros A a all k Q q n S0. exists a, n, all. repeat split; auto using incl_refl; try apply S0. lia. Qed.
  Lemma gets_bind : forall A B (b : builder A) (f : A -> builder B) all k l P Q, gets b all k P ->
    (forall a all', incl all all' -> P a all' -> gets (f a) all' l Q) -> gets (bind b f) all (k + l) Q.
  Proof.
    intros A B b f all k l P Q Gb Gf n S0. destruct (Gb n S0) as (a & n1 & all1 & E & S1 & C1 & L1 & Pa).
    destruct (Gf a all1 C1 Pa n1 S1) as (c & n2 & all2 & E2 & S2 & C2 & L2 & Qc). exists c, n2, all2.
    split; [unfold bind; now rewrite E|]. split; [exact S2|]. split; [eapply incl_tran; eauto|]. split; [lia|exact Qc].
  Qed.
  Lemma gets_le : forall A (b : builder A) all k k' Q, gets b all k Q -> k <= k' -> gets b all k' Q.
  Proof. intros A b all k k' Q Gb L n S0. destruct (Gb n S0) as (a & n1 & all1 & E & S1 & C1 & L1 & Pa). exists a, n1, all1. repeat split; auto; try apply S1. lia. Qed.
  Lemma gets_get : forall A B (a : A) (o : option A) (f : A -> builder B) all k Q, o = Some a -> gets (f a) all k Q -> gets (bind (get o) f) all k Q.
  Proof. intros A B a o f all k Q -> Gf n S0. exact (Gf n S0). Qed.
  Lemma stuck_get : forall A B (o : option A) (f : A -> builder B) all, o = None -> stuck (bind (get o) f) all.
  Proof. intros A B o f all -> n S0. reflexivity. Qed.
  Lemma stuck_some : forall A B (a : A) (o : option A) (f : A -> builder B) all, o = Some a -> stuck (f a) all -> stuck (bind (get o) f) all.
  Proof. intros A B a o f all -> Gf n S0. exact (Gf n S0). Qed.
  Lemma stuck_bind : forall A B (b : builder A) (f : A -> builder B) all k P, gets b all k P ->
    (forall a all', incl all all' -> P a all' -> stuck (f a) all') -> stuck (bind b f) all.
  Proof.
    intros A B b f all k P Gb Gf n S0. destruct (Gb n S0) as (a & n1 & all1 & E & S1 & C1 & L1 & Pa). unfold bind. rewrite E. eapply Gf; eauto.
  Qed.

  (** one new node *)
  Definition one_node (b : builder expr) (all : list expr) : Prop := forall n e n', b n = Some (e, n') ->
    n' = S n /\ e_id e = S n /\ incl (e_ops e) all /\ length (e_ops e) <= 2 /\ single (e_op e) = true /\
    (forall b y, input_of (e_op e) = Some (b, y) -> b = false /\ exists v, gt y = Some v /\ In v vs).
  Lemma one_node_node : forall o sz ops all, incl ops all -> length ops <= 2 -> single o = true ->
    (forall b y, input_of o = Some (b, y) -> b = false /\ exists v, gt y = Some v /\ In v vs) -> one_node (node o sz ops) all.
  Proof. intros o sz ops all C L So I0 n e n' E. unfold node, bind, get_opid, ret in E. injection E as <- <-. cbn. repeat split; auto; eapply I0; eauto. Qed.
  Lemma one_node_get : forall A (o : option A) f all, (forall a, one_node (f a) all) -> one_node (bind (get o) f) all.
  Proof. intros A [a|] f all O n e n' E; [|discriminate E]. eapply O. exact E. Qed.
  Lemma one_node_check : forall c f all, one_node f all -> one_node (run check c; f) all.
  Proof. intros [|] f all O n e n' E; [|discriminate E]. eapply O. exact E. Qed.

  Lemma fine_in : forall all x, Forall fine all -> In x all -> fine x.
  Proof. intros all x F. rewrite Forall_forall in F. apply F. Qed.
  Lemma gets_one : forall b all P, one_node b all -> yields b P -> (forall e, P e -> outsize G gt e <= 4) ->
    gets b all 1 (fun e all' => In e all' /\ P e).
  Proof.
    intros b all P O Y Sz n S0. destruct (Y n) as (e & n' & E & Pe). destruct (O n e n' E) as (-> & Ei & Co & Lo & So & Io).
    exists e, (S n), (e :: all). split; [exact E|]. destruct S0 as [M L F]. split; [|split; [apply incl_tl, incl_refl|split; [lia|split; [now left|exact Pe]]]].
    assert (Fe : fine e).
    { constructor; auto; [|lia]. rewrite Ei. pose proof (Sz e Pe) as Ze. destruct e as [i o sz ops]. cbn [e_id e_ops need] in *. subst i.
      assert (Q : forall x, In x ops -> need G gt x <= 4 * (n - n0) /\ outsize G gt x <= 4 /\ n0 < n).
      { intros x Ix. pose proof (fine_in _ _ F (Co x Ix)) as [_ _ Ox Nx Wx]. pose proof (md_le _ _ M x (Co x Ix)). lia. }
      apply Nat.max_lub; [lia|]. destruct ops as [|x [|y [|]]]; cbn in Lo; try lia; cbn [map needs].
      - lia.
      - specialize (Q x (or_introl eq_refl)). lia.
      - pose proof (Q x (or_introl eq_refl)). pose proof (Q y (or_intror (or_introl eq_refl))). lia. }
    constructor; [|lia|now constructor]. destruct e as [i o sz ops]. cbn [e_id e_ops] in *. subst i. apply made_cons; auto.
    - eapply made_mono; eauto.
    - eapply made_fresh; eauto.
  Qed.
  Lemma den_out : forall e k z, den e k z -> outsize G gt e <= 4.
  Proof.
    intros e k z [Ez [_ Sh _]]. unfold outsize. rewrite Sh. rewrite elt_of_len by exact Ez. cbn. destruct (elt_of_n _ _ Ez) as [-> | ->]; lia.
  Qed.
  Definition isz (k : nat) (z : BB4) (e : expr) (all : list expr) : Prop := In e all /\ den e k z.
  Lemma isz_mono : forall k z e all all', incl all all' -> isz k z e all -> isz k z e all'.
  Proof. intros k z e all all' C [I0 D]. split; auto. Qed.

  Lemma gets_const4 : forall z all, gets (const_f bf_ext4 z) all 1 (isz 4 z).
  Proof.
    intros z all. refine (gets_one _ all (fun e => den e 4 z) _ _ _).
    - apply one_node_node; [easy|cbn; lia|reflexivity|discriminate].
    - apply (denotes_constant G gt env true). apply elt_of_4.
    - intros e D. eapply den_out; eauto.
  Qed.
  Lemma gets_const1 : forall z all, gets (const_f bf_base z) all 1 (isz 1 (from_base z)).
  Proof.
    intros z all. refine (gets_one _ all (fun e => den e 1 (from_base z)) _ _ _).
    - apply one_node_node; [easy|cbn; lia|reflexivity|discriminate].
    - apply (denotes_constant G gt env false). apply elt_of_base.
    - intros e D. eapply den_out; eauto.
  Qed.
  Lemma incl2 : forall (x y : expr) all, In x all -> In y all -> incl [x; y] all.
  Proof. intros x y all Ix Iy z [<-|[<-|[]]]; auto. Qed.
  Lemma gets_bin : forall o f a b y z all, bin_op o = Some f -> isz 4 y a all -> isz 4 z b all -> gets (binary o a b) all 1 (isz 4 (f y z)).
  Proof.
    intros o f a b y z all Eo [Ia Da] [Ib Db]. refine (gets_one _ all (fun e => den e 4 (f y z)) _ _ _).
    - unfold binary. apply one_node_get. intros s. apply one_node_get. intros s'. apply one_node_node; [now apply incl2|cbn; lia| |];
        destruct o; try discriminate Eo; try reflexivity; discriminate.
    - exact (denotes_binary G gt env o f a b 4 4 y z Eo Da Db).
    - intros e D. eapply den_out; eauto.
  Qed.
  Lemma gets_neg : forall a y all, isz 4 y a all -> gets (neg a) all 1 (isz 4 (fopp y)).
  Proof.
    intros a y all [Ia Da]. refine (gets_one _ all (fun e => den e 4 (fopp y)) _ _ _).
    - unfold neg, unary. apply one_node_get. intros s. apply one_node_node; [intros z [<-|[]]; exact Ia|cbn; lia|reflexivity|discriminate].
    - exact (denotes_unary G gt env Neg fopp a 4 y eq_refl Da).
    - intros e D. eapply den_out; eauto.
  Qed.
  Lemma gets_base : forall o f a b y z all, bin_op o = Some f -> isz 4 y a all -> isz 1 z b all -> gets (binary_base o true false a b) all 1 (isz 4 (f y z)).
  Proof.
    intros o f a b y z all Eo [Ia Da] [Ib Db]. refine (gets_one _ all (fun e => den e 4 (f y z)) _ _ _).
    - unfold binary_base. apply one_node_node; [now apply incl2|cbn; lia| |]; destruct o; try discriminate Eo; try reflexivity; discriminate.
    - exact (denotes_base G gt env o f a b y z Eo Da Db).
    - intros e D. eapply den_out; eauto.
  Qed.
  Lemma gets_exp : forall a y p all, isz 4 y a all -> gets (exp_constant true a p) all 1 (fun e all' => In e all').
  Proof.
    intros a y p all [Ia [Ey [_ _ Za]]].
    rewrite elt_of_len in Za by exact Ey.
    assert (Gg : gets (exp_constant true a p) all 1 (fun e all' => In e all' /\ (e_op e = ExpConst true p /\ e_ops e = [a]))).
    { apply gets_one.
      - unfold exp_constant. apply one_node_get. intros s. apply one_node_node; [intros z [<-|[]]; exact Ia|cbn; lia|reflexivity|discriminate].
      - unfold exp_constant. eapply yields_bind; [apply yields_get, Za|]. intros ? <-. apply yields_node. auto.
      - intros [i o s ops] [Eo Es]. cbn in Eo, Es. subst o ops. unfold outsize. cbn [shape map all_some]. rewrite Za.
        destruct (shape G gt a); [|cbn; lia]. cbn [number_ok input_number length Nat.eqb input_of generate].
        destruct (log2_strict p) as [lp|]; [|cbn; lia]. cbv beta iota. cbn -[value_exp]. destruct l as [|? [|]]; cbn; lia. }
    intros n S0. destruct (Gg n S0) as (e & n1 & all1 & E & S1 & C1 & L1 & I1 & _). exists e, n1, all1. auto.
  Qed.
  Lemma gets_copy : forall x z k all, gt x = Some (k, 4) -> In (k, 4) vs -> env x = Some (limbs 4 z) -> gets (copy_input x 4) all 1 (isz 4 z).
  Proof.
    intros x z k all Eg Iv Ee. refine (gets_one _ all (fun e => den e 4 z) _ _ _).
    - apply one_node_node; [easy|cbn; lia|reflexivity|]. intros b y Q. cbn in Q. injection Q as <- <-. split; [reflexivity|eauto].
    - eapply yields_weaken.
      + pose proof (holds_copy G gt env x (limbs 4 z) k) as Hc. rewrite elt_of_len in Hc by apply elt_of_4. apply Hc; auto.
      + intros e He. split; [apply elt_of_4|exact He].
    - intros e D. eapply den_out; eauto.
  Qed.
End Build.

(** ** Air::eval on the two builders *)
Section Sim.
  Variable public_row : nat.
  Variable G : gadgets.
  Variable gt : getter.
  Variable env : environment.
  Variable vs : list svar.
  Variable n0 : nat.
  Variable w : StarkModel.window BabyBearT ExtT.
  Variable alpha : ExtT.
  Notation isz := (isz G gt env).
  Notation gets := (gets G gt vs n0).
  Notation stuck := (stuck G gt vs n0).
  Notation width := (length (StarkModel.w_local w)).
  Hypothesis same_width : length (StarkModel.w_next w) = width.
  Definition given_as (x : variable) (z : BB4) : Prop := exists k, gt x = Some (k, 4) /\ In (k, 4) vs /\ env x = Some (limbs 4 z).
  Hypothesis has_local : forall i z, nth_error (StarkModel.w_local w) i = Some z -> given_as (mkvar 0 i (Some 4)) z.
  Hypothesis has_next : forall i z, nth_error (StarkModel.w_next w) i = Some z -> given_as (mkvar 1 i (Some 4)) z.
  Hypothesis has_public : forall i z, nth_error (StarkModel.w_public w) i = Some z -> given_as (mkvar public_row i None) (from_base z).

  Definition all_isz (es : list expr) (zs : list ExtT) (all : list expr) : Prop := Forall2 (fun e z => isz 4 z e all) es zs.
  Lemma all_isz_mono : forall es zs all all', incl all all' -> all_isz es zs all -> all_isz es zs all'.
  Proof. intros es zs all all' C F. induction F; constructor; auto. eapply isz_mono; eauto. Qed.
  Lemma all_isz_nth : forall es zs all i, all_isz es zs all ->
    match nth_error zs i with Some z => exists e, nth_error es i = Some e /\ isz 4 z e all | None => nth_error es i = None end.
  Proof. intros es zs all i F. revert i. induction F as [|e z es zs D F IH]; intros [|i]; cbn; eauto. exact (IH i). Qed.
  Lemma all_isz_snoc : forall es zs all all' e z, incl all all' -> all_isz es zs all -> isz 4 z e all' -> all_isz (es ++ [e]) (zs ++ [z]) all'.
  Proof. intros es zs all all' e z C F D. apply Forall2_app; [eapply all_isz_mono; eauto|]. constructor; [exact D|constructor]. Qed.

  Record cbok (cb : cbuilder) (cs : list ExtT) (all : list expr) : Prop := mkcbok {
    co_local : cb_local cb = row_vars 0 width;
    co_next : cb_next cb = row_vars 1 width;
    co_public : cb_public cb = public_vars public_row (length (StarkModel.w_public w));
    co_first : isz 4 (StarkModel.w_first w) (cb_first cb) all;
    co_last : isz 4 (StarkModel.w_last w) (cb_last cb) all;
    co_trans : isz 4 (StarkModel.w_transition w) (cb_transition cb) all;
    co_alpha : isz 4 alpha (cb_alpha cb) all;
    co_cs : all_isz (cb_constraints cb) cs all }.
  Lemma cbok_mono : forall cb cs all all', incl all all' -> cbok cb cs all -> cbok cb cs all'.
  Proof. intros cb cs all all' C [A1 A2 A3 A4 A5 A6 A7 A8]. constructor; auto; try (eapply isz_mono; eauto). eapply all_isz_mono; eauto. Qed.
  Lemma cbok_assert : forall cb cs all all' e z, incl all all' -> cbok cb cs all -> isz 4 z e all' -> cbok (assert_zero e cb) (cs ++ [z]) all'.
  Proof.
    intros cb cs all all' e z C O D. apply (cbok_mono _ _ _ _ C) in O. destruct O as [A1 A2 A3 A4 A5 A6 A7 A8]. constructor; auto.
    cbn [assert_zero cb_constraints]. eapply all_isz_snoc; [apply incl_refl|exact A8|exact D].
  Qed.

  Definition horner (acc : ExtT) (cs : list ExtT) : ExtT := fold_left (fun a x => fadd (fmul a alpha) x) cs acc.
  Definition nasserts (p : list stmt) : nat := length (filter is_assert p).
  Definition sim (p : list stmt) (pool : list expr) (vals : list ExtT) (cb : cbuilder) (cs : list ExtT) (all : list expr) : Prop :=
    match eval_native w alpha p vals (horner f0 cs) with
    | Some r => gets (eval_script p pool cb) all (length p) (fun cb' all' => exists cs', cbok cb' cs' all' /\ r = horner f0 cs' /\
                  length cs' = length cs + nasserts p /\ cb_values cb' = cb_values cb)
    | None => stuck (eval_script p pool cb) all
    end.

  Lemma sim_push : forall p pool vals cb cs all (b : builder expr) z,
    (forall pool vals cb cs all, all_isz pool vals all -> cbok cb cs all -> sim p pool vals cb cs all) ->
    all_isz pool vals all -> cbok cb cs all -> gets b all 1 (isz 4 z) ->
    match eval_native w alpha p (vals ++ [z]) (horner f0 cs) with
    | Some r => gets (do e <- b; eval_script p (pool ++ [e]) cb) all (S (length p)) (fun cb' all' => exists cs', cbok cb' cs' all' /\ r = horner f0 cs' /\
                  length cs' = length cs + nasserts p /\ cb_values cb' = cb_values cb)
    | None => stuck (do e <- b; eval_script p (pool ++ [e]) cb) all
    end.
  Proof.
    intros p pool vals cb cs all b z IH P O Gb.
    assert (K : forall e all', incl all all' -> isz 4 z e all' -> sim p (pool ++ [e]) (vals ++ [z]) cb cs all').
    { intros e all' C D. apply IH; [eapply all_isz_snoc; [exact C|exact P|exact D]|eapply cbok_mono; eauto]. }
    unfold sim in K. destruct (eval_native w alpha p (vals ++ [z]) (horner f0 cs)) as [r|].
    - eapply (gets_bind G gt vs n0 _ _ b _ all 1 (length p)); [exact Gb|]. intros e all' C D. now apply K.
    - eapply stuck_bind; [exact Gb|]. intros e all' C D. now apply K.
  Qed.
  Lemma sim_here : forall p pool vals cb cs all e z,
    (forall pool vals cb cs all, all_isz pool vals all -> cbok cb cs all -> sim p pool vals cb cs all) ->
    all_isz pool vals all -> cbok cb cs all -> isz 4 z e all ->
    match eval_native w alpha p (vals ++ [z]) (horner f0 cs) with
    | Some r => gets (eval_script p (pool ++ [e]) cb) all (S (length p)) (fun cb' all' => exists cs', cbok cb' cs' all' /\ r = horner f0 cs' /\
                  length cs' = length cs + nasserts p /\ cb_values cb' = cb_values cb)
    | None => stuck (eval_script p (pool ++ [e]) cb) all
    end.
  Proof.
    intros p pool vals cb cs all e z IH P O D. apply (sim_push p pool vals cb cs all (ret e) z IH P O). apply gets_ret. exact D.
  Qed.
  Lemma sim_assert : forall p pool vals cb cs all (b : builder expr) z,
    (forall pool vals cb cs all, all_isz pool vals all -> cbok cb cs all -> sim p pool vals cb cs all) ->
    all_isz pool vals all -> cbok cb cs all -> gets b all 1 (isz 4 z) ->
    match eval_native w alpha p vals (fadd (fmul (horner f0 cs) alpha) z) with
    | Some r => gets (do e <- b; eval_script p pool (assert_zero e cb)) all (S (length p)) (fun cb' all' => exists cs', cbok cb' cs' all' /\ r = horner f0 cs' /\
                  length cs' = length cs + S (nasserts p) /\ cb_values cb' = cb_values cb)
    | None => stuck (do e <- b; eval_script p pool (assert_zero e cb)) all
    end.
  Proof.
    intros p pool vals cb cs all b z IH P O Gb.
    assert (K : forall e all', incl all all' -> isz 4 z e all' -> sim p pool vals (assert_zero e cb) (cs ++ [z]) all').
    { intros e all' C D. apply IH; [eapply all_isz_mono; eauto|eapply cbok_assert; eauto]. }
    unfold sim in K. assert (Eh : horner f0 (cs ++ [z]) = fadd (fmul (horner f0 cs) alpha) z) by (unfold horner; now rewrite fold_left_app).
    rewrite Eh in K. destruct (eval_native w alpha p vals (fadd (fmul (horner f0 cs) alpha) z)) as [r|].
    - eapply (gets_bind G gt vs n0 _ _ b _ all 1 (length p)); [exact Gb|]. intros e all' C D. specialize (K e all' C D).
      intros n S0. destruct (K n S0) as (a & n1 & all1 & E & S1 & C1 & L1 & cs' & O' & Er & Lc & Ev). exists a, n1, all1.
      split; [exact E|]. split; [exact S1|]. split; [exact C1|]. split; [exact L1|]. exists cs'. split; [exact O'|]. split; [exact Er|].
      split; [rewrite Lc, app_length; cbn; lia|exact Ev].
    - eapply stuck_bind; [exact Gb|]. intros e all' C D. now apply K.
  Qed.
  Ltac known := match goal with |- context [bind (get (Some ?e)) ?f] => change (bind (get (Some e)) f) with (f e); cbv beta end.
  Ltac operand i P z e De :=
    match type of P with all_isz ?pool ?vals ?all =>
      let Q := fresh "Q" in let Ee := fresh "Ee" in pose proof (all_isz_nth pool vals all i P) as Q;
      destruct (nth_error vals i) as [z|]; [destruct Q as (e & Ee & De); rewrite Ee; known|now apply stuck_get] end.
  Lemma rows_nth : forall r i z (l : list ExtT), nth_error l i = Some z -> nth_error (row_vars r (length l)) i = Some (mkvar r i (Some 4)).
  Proof. intros r i z l E. unfold row_vars. rewrite smap_nth. assert (L : i < length l) by (apply nth_error_Some; congruence). apply Nat.ltb_lt in L. now rewrite L. Qed.
  Lemma rows_out : forall r i (l : list ExtT), nth_error l i = None -> nth_error (row_vars r (length l)) i = None.
  Proof. intros r i l E. unfold row_vars. rewrite smap_nth. apply nth_error_None in E. apply Nat.ltb_ge in E. now rewrite E. Qed.
  Lemma publics_nth : forall i z (l : list BabyBearT), nth_error l i = Some z -> nth_error (public_vars public_row (length l)) i = Some (mkvar public_row i None).
  Proof. intros i z l E. unfold public_vars. rewrite smap_nth. assert (L : i < length l) by (apply nth_error_Some; congruence). apply Nat.ltb_lt in L. now rewrite L. Qed.
  Lemma publics_out : forall i (l : list BabyBearT), nth_error l i = None -> nth_error (public_vars public_row (length l)) i = None.
  Proof. intros i l E. unfold public_vars. rewrite smap_nth. apply nth_error_None in E. apply Nat.ltb_ge in E. now rewrite E. Qed.
  Lemma gets_given : forall x z all, given_as x z -> gets (copy_input x 4) all 1 (isz 4 z).
  Proof. intros x z all (k & E1 & E2 & E3). eapply gets_copy; eauto. Qed.

  Lemma sim_step : forall p, (forall pool vals cb cs all, all_isz pool vals all -> cbok cb cs all -> sim p pool vals cb cs all) ->
    forall pool vals cb cs all s, all_isz pool vals all -> cbok cb cs all -> sim (s :: p) pool vals cb cs all.
  Proof.
    intros p IH pool vals cb cs all s P O. unfold sim, nasserts. destruct s; cbn [eval_native eval_script length filter is_assert];
      fold (nasserts p).
    - rewrite (co_local _ _ _ O). destruct (nth_error (StarkModel.w_local w) i) as [z|] eqn:Ez.
      + rewrite (rows_nth 0 i z _ Ez). known. apply sim_push; auto. apply gets_given, has_local, Ez.
      + apply stuck_get. now apply rows_out.
    - rewrite (co_next _ _ _ O), <- same_width. destruct (nth_error (StarkModel.w_next w) i) as [z|] eqn:Ez.
      + rewrite (rows_nth 1 i z _ Ez). known. apply sim_push; auto. apply gets_given, has_next, Ez.
      + apply stuck_get. now apply rows_out.
    - rewrite (co_public _ _ _ O). destruct (nth_error (StarkModel.w_public w) i) as [z|] eqn:Ez.
      + rewrite (publics_nth i z _ Ez). known. apply sim_push; auto. apply gets_given, has_public, Ez.
      + apply stuck_get. now apply publics_out.
    - apply sim_here; auto. apply O.
    - apply sim_here; auto. apply O.
    - apply sim_here; auto. apply O.
    - apply sim_push; auto. apply gets_const4.
    - operand i P x e1 Dx. operand j P y e2 Dy. apply sim_push; auto. now apply gets_bin.
    - operand i P x e1 Dx. operand j P y e2 Dy. apply sim_push; auto. now apply gets_bin.
    - operand i P x e1 Dx. operand j P y e2 Dy. apply sim_push; auto. now apply gets_bin.
    - operand i P x e1 Dx. apply sim_push; auto. now apply gets_neg.
    - operand i P x e1 Dx. apply (sim_assert p pool vals cb cs all (ret e1) x IH P O). now apply gets_ret.
    - operand i P x e1 Dx. operand j P y e2 Dy. apply (sim_assert p pool vals cb cs all (subtract e1 e2) (fsub x y) IH P O). now apply gets_bin.
  Qed.
  Lemma sim_all : forall p pool vals cb cs all, all_isz pool vals all -> cbok cb cs all -> sim p pool vals cb cs all.
  Proof.
    induction p as [|s p IH]; intros pool vals cb cs all P O; [|now apply sim_step].
    unfold sim. cbn [eval_native eval_script]. apply gets_ret. exists cs. split; [exact O|]. split; [reflexivity|]. split; [cbn; lia|reflexivity].
  Qed.

  (** get_accmulator_expr *)
  Lemma gets_accumulate : forall es zs all a alphae acc, all_isz es zs all -> isz 4 acc a all -> isz 4 alpha alphae all ->
    gets (accumulate alphae a es) all (2 * length es) (isz 4 (horner acc zs)).
  Proof.
    clear same_width has_local has_next has_public.
    induction es as [|e es IH]; intros zs all a alphae acc F Da Dl; inversion F as [|? z ? zs' De F']; subst; cbn [accumulate].
    - apply gets_ret. exact Da.
    - replace (2 * length (e :: es)) with (1 + (1 + 2 * length es)) by (cbn; lia).
      eapply gets_bind; [apply (gets_bin G gt env vs n0 Mul fmul a alphae acc alpha); auto|]. intros p all1 C1 Dp.
      eapply gets_bind; [apply (gets_bin G gt env vs n0 Add fadd p e (fmul acc alpha) z); [reflexivity|exact Dp|eapply isz_mono; eauto]|].
      intros q all2 C2 Dq. change (horner acc (z :: zs')) with (horner (fadd (fmul acc alpha) z) zs'). apply IH.
      + eapply all_isz_mono; [|exact F']. eapply incl_tran; eauto.
      + exact Dq.
      + eapply isz_mono; [|exact Dl]. eapply incl_tran; eauto.
  Qed.
End Sim.

(** ** The variables on the stack *)
Section Inputs.
  Variable L : list (variable * list Z).
  Hypothesis nodup : NoDup (map fst L).
  Hypothesis four : Forall (fun p => length (snd p) = 4) L.
  Variable T : tracker.
  Variable gt : getter.
  Hypothesis pushed_L : fold_left push_input L (tracker_new, fun _ => None) = (T, gt).
  Definition env_L : environment := fun x => lookup_var x L.

  Lemma four_at : forall k x v, nth_error L k = Some (x, v) -> length v = 4.
  Proof. intros k x v E. rewrite Forall_forall in four. apply nth_error_In in E. exact (four _ E). Qed.
  Lemma gt_at : forall k x v, nth_error L k = Some (x, v) -> gt x = Some (k, 4).
  Proof.
    intros k x v E. destruct (push_inputs_ok _ _ _ pushed_L) as (_ & _ & _ & _ & Gt & Pr).
    destruct (gt x) as [[k' s]|] eqn:Eg; [|exfalso; apply (Pr x); [apply nth_error_In in E; now apply (in_map fst) in E|exact Eg]].
    destruct (Gt _ _ _ Eg) as [Iv (v' & E')]. apply svars_in in Iv as (x' & v'' & E'' & ->). rewrite (four_at _ _ _ E'').
    assert (Q : k' = k); [|now rewrite Q]. rewrite NoDup_nth_error in nodup. apply nodup.
    - rewrite map_length. apply nth_error_Some. congruence.
    - rewrite !nth_error_map, E, E'. reflexivity.
  Qed.
  Lemma given_L : forall x z, In (x, limbs 4 z) L -> given_as gt env_L (rev (svars L)) x z.
  Proof.
    intros x z I0. apply In_nth_error in I0 as (k & E). exists k. split; [eapply gt_at; eauto|]. split.
    - rewrite <- in_rev. apply svars_in. exists x, (limbs 4 z). split; [exact E|]. symmetry. eapply four_at; eauto.
    - apply lookup_given; [exact nodup|]. eapply nth_error_In; eauto.
  Qed.
  Lemma env_L_ok : env_ok gt env_L (vals_given L).
  Proof.
    intros x [k s] Eg. destruct (push_inputs_ok _ _ _ pushed_L) as (_ & _ & _ & _ & Gt & _). destruct (Gt _ _ _ Eg) as [_ (v & E)].
    cbn [fst]. unfold env_L, vals_given. rewrite (lookup_given _ x v nodup); [|eapply nth_error_In; eauto]. now rewrite (nth_error_nth _ _ _ E).
  Qed.
  Lemma sized_L : sized (vals_given L) (t_main T ++ t_alt T).
  Proof.
    destruct (push_inputs_ok _ _ _ pushed_L) as (_ & Mn & Al & _). rewrite Mn, Al, app_nil_r. unfold sized. apply Forall_rev. rewrite Forall_forall.
    intros [k s] I0. apply svars_in in I0 as (x & v & E & ->). cbn [fst snd]. unfold vals_given. now rewrite (nth_error_nth _ _ _ E).
  Qed.
  Lemma twf_L : twf T.
  Proof.
    destruct (push_inputs_ok _ _ _ pushed_L) as (Nx & Mn & Al & _). split; rewrite Al, app_nil_r, Mn.
    - rewrite map_rev. apply NoDup_rev. rewrite (svars_fst L). apply seq_NoDup.
    - apply Forall_rev. apply Forall_forall. intros [k s] I0. apply svars_in in I0 as (x & v & Ev & ->). cbn. rewrite Nx. apply nth_error_Some. congruence.
  Qed.
  Lemma getter_L : forall x v, gt x = Some v -> fst v < t_next T.
  Proof.
    intros x [k s] Eg. destruct (push_inputs_ok _ _ _ pushed_L) as (Nx & _ & _ & _ & Gt & _). destruct (Gt _ _ _ Eg) as [_ (v & E)].
    cbn. rewrite Nx. apply nth_error_Some. congruence.
  Qed.
  Lemma items_L : items (t_main T) = 4 * length L.
  Proof.
    destruct (push_inputs_ok _ _ _ pushed_L) as (_ & Mn & _). rewrite Mn. clear - four. unfold items.
    induction L as [|p l IH] using rev_ind; [reflexivity|]. apply Forall_app in four as [Fl Fp]. inversion Fp as [|? ? Ep _]; subst.
    rewrite svars_snoc, rev_app_distr, app_length. cbn [rev app map list_sum fold_right snd length]. change (fold_right Nat.add 0 (map snd (rev (svars l)))) with (list_sum (map snd (rev (svars l)))).
    rewrite (IH Fl), Ep. lia.
  Qed.
End Inputs.

(** drop_variable_values *)
Lemma drop_app : forall gt a b T, drop_vars gt (a ++ b) T = match drop_vars gt a T with Some T' => drop_vars gt b T' | None => None end.
Proof.
  intros gt. induction a as [|x a IH]; intros b T; [reflexivity|]. cbn. destruct (gt x) as [v|]; [|reflexivity].
  destruct (drop_var v T) as [T'|]; [apply IH|reflexivity].
Qed.
Lemma drops : forall H gt L T, (forall k x v, nth_error L k = Some (x, v) -> gt x = Some (k, 4)) -> Forall (fun p => length (snd p) = 4) L ->
  t_main T = rev (svars L) ->
  exists T' q, drop_vars gt (rev (map fst L)) T = Some T' /\ t_main T' = [] /\ t_script T' = t_script T ++ q /\
    forall r a, exec H q (nums (concat (rev (map snd L))) ++ r) a r a.
Proof.
  intros H gt L. induction L as [|[x v] L IH] using rev_ind; intros T Gt F Mn.
  - exists T, []. split; [reflexivity|]. split; [exact Mn|]. split; [symmetry; apply app_nil_r|]. intros r a. reflexivity.
  - apply Forall_app in F as [F Fv]. inversion Fv as [|? ? Lv _]; subst. cbn [snd] in Lv. rewrite svars_snoc, rev_app_distr in Mn. cbn [rev app snd] in Mn. rewrite Lv in Mn.
    rewrite map_app, rev_app_distr. cbn [map rev app fst drop_vars].
    rewrite (Gt (length L) x v) by (rewrite nth_error_app2, Nat.sub_diag by lia; reflexivity).
    unfold drop_var. rewrite Mn. cbn [fst snd]. rewrite Nat.eqb_refl.
    destruct (IH (mktracker (t_next T) (rev (svars L)) (t_alt T) (t_script T ++ repeat_script 4 [OP_DROP]))) as (T' & q & Ed & Mn' & Sc & Ex); auto.
    { intros k y u Ek. apply (Gt k y u). rewrite nth_error_app1; [exact Ek|]. apply nth_error_Some. congruence. }
    exists T', (repeat_script 4 [OP_DROP] ++ q). split; [exact Ed|]. split; [exact Mn'|]. split; [rewrite Sc; cbn [t_script]; now rewrite app_assoc|].
    intros r a. rewrite map_app, rev_app_distr. cbn [map rev app snd concat]. rewrite nums_app, <- app_assoc.
    eapply exec_seq; [|apply Ex]. replace 4 with (length (nums v)) by (unfold nums; now rewrite map_length). apply exec_drop.
Qed.

Section Zero.
  Variable K : field.
  Add Field KF : (fth K).
  Lemma zero_step : forall a z : K, fadd (fmul f0 a) z = z.
  Proof. intros a z. ring. Qed.
End Zero.

(** ** The whole script *)
Section Whole.
  Variable public_row : nat.
  Variable H : bytes -> bytes.
  Variable G : gadgets.
  Hypothesis OK : gadgets_ok H G.
  Variable w : StarkModel.window BabyBearT ExtT.
  Variable alpha : ExtT.
  Notation local := (StarkModel.w_local w).
  Notation next := (StarkModel.w_next w).
  Notation pubs := (StarkModel.w_public w).
  Hypothesis same_width : length next = length local.

  Definition public_inputs : list (variable * list Z) :=
    List.combine (public_vars public_row (length pubs)) (map (fun v : BabyBear => limbs 4 (from_base v)) pubs).
  Definition row_inputs : list (variable * list Z) :=
    List.combine (row_vars 0 (length local)) (map (limbs 4) local) ++ List.combine (row_vars 1 (length local)) (map (limbs 4) next).
  Definition cons_inputs : list (variable * list Z) := public_inputs ++ row_inputs.

  Lemma combine_fst : forall A B (a : list A) (b : list B), length a = length b -> map fst (List.combine a b) = a.
  Proof. induction a as [|x a IH]; intros [|y b] E; try discriminate E; [reflexivity|]. cbn. f_equal. apply IH. now injection E. Qed.
  Lemma combine_nth' : forall A B (a : list A) (b : list B) i x y, nth_error a i = Some x -> nth_error b i = Some y -> In (x, y) (List.combine a b).
  Proof.
    induction a as [|u a IH]; intros [|v b] [|i] x y Ea Eb; try discriminate; cbn in *.
    - injection Ea as <-. injection Eb as <-. now left.
    - right. eapply IH; eauto.
  Qed.
  Lemma combine_snd_all : forall A B (Q : B -> Prop) (a : list A) (b : list B), Forall Q b -> Forall (fun p => Q (snd p)) (List.combine a b).
  Proof. induction a as [|u a IH]; intros [|v b] F; try constructor; inversion F; subst; cbn; auto. Qed.
  Lemma public_fst : map fst public_inputs = public_vars public_row (length pubs).
  Proof. apply combine_fst. unfold public_vars. now rewrite !map_length, seq_length. Qed.
  Lemma row_fst : map fst row_inputs = row_vars 0 (length local) ++ row_vars 1 (length local).
  Proof.
    unfold row_inputs. rewrite map_app. f_equal; apply combine_fst; unfold row_vars; rewrite !map_length, seq_length; auto.
  Qed.
  Lemma nodup_map_seq : forall A (f : nat -> A) n, (forall i j, f i = f j -> i = j) -> NoDup (map f (seq 0 n)).
  Proof. intros A f n Inj. apply FinFun.Injective_map_NoDup; [exact Inj|apply seq_NoDup]. Qed.
  Lemma nodup_app' : forall A (a b : list A), NoDup a -> NoDup b -> (forall x, In x a -> In x b -> False) -> NoDup (a ++ b).
  Proof.
    induction a as [|x a IH]; intros b Na Nb D; [exact Nb|]. inversion Na; subst. cbn. constructor.
    - rewrite in_app_iff. intros [Q|Q]; [auto|]. apply (D x); [now left|exact Q].
    - apply IH; auto. intros y Ia Ib. apply (D y); [now right|exact Ib].
  Qed.
  Lemma cons_nodup : NoDup (map fst cons_inputs).
  Proof.
    unfold cons_inputs. rewrite map_app, public_fst, row_fst. apply nodup_app'.
    - apply nodup_map_seq. intros i j E. now injection E.
    - apply nodup_app'.
      + apply nodup_map_seq. intros i j E. now injection E.
      + apply nodup_map_seq. intros i j E. now injection E.
      + intros x I0 I1. unfold row_vars in *. apply in_map_iff in I0 as (i & <- & _). apply in_map_iff in I1 as (j & E & _). discriminate E.
    - intros x I0 I1. unfold public_vars, row_vars in *. apply in_map_iff in I0 as (i & <- & _). apply in_app_or in I1 as [I1|I1];
        apply in_map_iff in I1 as (j & E & _); discriminate E.
  Qed.
  Lemma limbs4 : forall z, length (limbs 4 z) = 4. Proof. intros z. apply elt_of_len, elt_of_4. Qed.
  Lemma cons_four : Forall (fun p => length (snd p) = 4) cons_inputs.
  Proof.
    unfold cons_inputs, public_inputs, row_inputs. apply Forall_app. split; [|apply Forall_app; split];
      apply (combine_snd_all _ _ (fun v => length v = 4)); apply Forall_forall; intros x I0; apply in_map_iff in I0 as (z & <- & _); apply limbs4.
  Qed.
  Lemma cons_length : length cons_inputs = length pubs + 2 * length local.
  Proof.
    rewrite <- (map_length fst). unfold cons_inputs. rewrite map_app, public_fst, row_fst, !app_length. unfold public_vars, row_vars.
    rewrite !map_length, !seq_length. lia.
  Qed.

  Definition T0 : tracker := fst (fold_left push_input cons_inputs (tracker_new, fun _ => None)).
  Definition gt0 : getter := snd (fold_left push_input cons_inputs (tracker_new, fun _ => None)).
  Lemma pushed0 : fold_left push_input cons_inputs (tracker_new, fun _ => None) = (T0, gt0).
  Proof. unfold T0, gt0. now destruct (fold_left _ _ _). Qed.
  Notation env0 := (env_L cons_inputs).
  Notation vs0 := (rev (svars cons_inputs)).
  Lemma has_local0 : forall i z, nth_error local i = Some z -> given_as gt0 env0 vs0 (mkvar 0 i (Some 4)) z.
  Proof.
    intros i z E. apply (given_L _ cons_nodup cons_four _ _ pushed0). unfold cons_inputs, row_inputs. apply in_or_app; right. apply in_or_app; left.
    apply (combine_nth' _ _ _ _ i); [now apply (rows_nth 0 i z)|]. now apply map_nth_error.
  Qed.
  Lemma has_next0 : forall i z, nth_error next i = Some z -> given_as gt0 env0 vs0 (mkvar 1 i (Some 4)) z.
  Proof.
    intros i z E. apply (given_L _ cons_nodup cons_four _ _ pushed0). unfold cons_inputs, row_inputs. apply in_or_app; right. apply in_or_app; right.
    rewrite <- same_width. apply (combine_nth' _ _ _ _ i); [now apply (rows_nth 1 i z)|]. now apply map_nth_error.
  Qed.
  Lemma has_public0 : forall i z, nth_error pubs i = Some z -> given_as gt0 env0 vs0 (mkvar public_row i None) (from_base z).
  Proof.
    intros i z E. apply (given_L _ cons_nodup cons_four _ _ pushed0). unfold cons_inputs, public_inputs. apply in_or_app; left.
    apply (combine_nth' _ _ _ _ i); [now apply (publics_nth public_row i z)|]. now apply (map_nth_error (fun v : BabyBear => limbs 4 (from_base v))).
  Qed.
  Notation isz0 := (isz G gt0 env0).
  Notation st0 := (st G gt0 vs0).

  (** the comparison *)
  Lemma verify_runs : forall n0 n all acc c y z k, st0 n0 n all -> isz0 4 y acc all -> isz0 4 z c all -> n <= n0 + k ->
    (Z.of_nat (4 * (length pubs + 2 * length local + k + 1)) < 2 ^ 31)%Z ->
    exists T' m' vars q, express G gt0 true (Node (S n) EqualVerify 0 [acc; c]) T0 = Some (T', m', vars) /\
      t_main T' = vs0 /\ t_script T' = t_script T0 ++ q /\
      (y = z -> exec H q (img (vals_given cons_inputs) vs0) [] (img (vals_given cons_inputs) vs0) []) /\
      (y <> z -> fails H q (img (vals_given cons_inputs) vs0) []).
  Proof.
    intros n0 n all acc c y z k S0 [Ia Da] [Ic Dc] Lk Rm. set (R := Node (S n) EqualVerify 0 [acc; c]).
    destruct (push_inputs_ok _ _ _ pushed0) as (Nx & Mn & Al & Sc & _ & _). destruct S0 as [Md Le Fi].
    assert (Sub : forall d, sub d R -> d = R \/ In d all).
    { intros d Sd. destruct (sub_cases d R Sd) as [->|(x & [<-|[<-|[]]] & Sx)]; [now left| |]; right; [exact (made_sub _ _ _ _ Md Ia Sx)|exact (made_sub _ _ _ _ Md Ic Sx)]. }
    destruct Da as [Ey Ha], Dc as [Ez Hc].
    assert (Sa : shape G gt0 acc = Some [4] /\ var_size acc = Some 4) by (destruct Ha as [_ A1 A2]; rewrite limbs4 in A1, A2; auto).
    assert (Sc' : shape G gt0 c = Some [4] /\ var_size c = Some 4) by (destruct Hc as [_ A1 A2]; rewrite limbs4 in A1, A2; auto).
    assert (Sh : shape G gt0 R = Some []).
    { cbn [R shape map all_some]. destruct Sa as [-> ->], Sc' as [-> ->]. reflexivity. }
    destruct (C48_optimised_generation H G gt0 R T0 OK) as (T' & m' & vars & q & sh & Ex & Es & Ev & Em & Ea & Et & Mean).
    { constructor.
      - apply (twf_L _ _ _ pushed0).
      - apply (getter_L _ _ _ pushed0).
      - rewrite Sh. discriminate.
      - rewrite (items_L _ cons_four _ _ pushed0), cons_length.
        assert (Nd : need G gt0 R <= 4 * (k + 1)); [|lia].
        pose proof (fine_in _ _ _ _ _ _ Fi Ia) as [_ _ Oa Na Wa]. pose proof (fine_in _ _ _ _ _ _ Fi Ic) as [_ _ Oc Nc Wc].
        pose proof (md_le _ _ Md _ Ia). pose proof (md_le _ _ Md _ Ic).
        assert (Or : outsize G gt0 R = 0) by (unfold outsize; now rewrite Sh).
        cbn [R need map needs] in *. fold R. rewrite Or. lia. }
    { assert (M' : made (S n) (R :: all)).
      { apply made_cons; [eapply made_mono; eauto|eapply made_fresh; eauto|lia|now apply incl2]. }
      intros a b Sa' Sb E. eapply (made_unique _ _ R R); eauto; now left. }
    { intros d b x Sd Ei. destruct (Sub d Sd) as [->|Id]; [discriminate Ei|]. rewrite Mn. eapply fi_input; [eapply fine_in; eauto|exact Ei]. }
    { intros d d' x b x' v v' Sd Sd' Ei _ _ _ _. destruct (Sub d Sd) as [->|Id]; [discriminate Ei|].
      destruct (fi_input _ _ _ _ _ (fine_in _ _ _ _ _ _ Fi Id) _ _ Ei) as [Q _]. discriminate Q. }
    { intros d x d' Sd So Rf. destruct (Sub d Sd) as [->|Id]; [|rewrite (fi_single _ _ _ _ _ (fine_in _ _ _ _ _ _ Fi Id)) in So; discriminate So].
      exfalso. unfold refs in Rf. cbn [R visit e_id Nat.eqb] in Rf. unfold upd at 1 in Rf. rewrite Nat.eqb_refl in Rf. lia. }
    assert (Mv : moved gt0 R = []).
    { destruct (moved gt0 R) as [|i l] eqn:Q; [reflexivity|]. exfalso. assert (Ii : In i (moved gt0 R)) by (rewrite Q; now left).
      apply moved_move_node in Ii as (d & Sd & x & v & Ei & _). destruct (Sub d Sd) as [->|Id]; [discriminate Ei|].
      destruct (fi_input _ _ _ _ _ (fine_in _ _ _ _ _ _ Fi Id) _ _ Ei) as [Q' _]. discriminate Q'. }
    rewrite Sh in Es. injection Es as <-. apply map_eq_nil in Ev. rewrite Mv, without_nil in Em, Mean. rewrite Ev in Em. cbn [app] in Em.
    exists T', m', vars, q. split; [exact Ex|]. split; [rewrite Em; exact Mn|]. split; [exact Et|].
    specialize (Mean _ _ (sized_L _ _ _ pushed0) (env_L_ok _ cons_nodup _ _ pushed0)).
    assert (Er : eval op_sem env0 R = Some (if list_eqb (limbs 4 y) (limbs 4 z) then Leaves [] else Fails)).
    { cbn [R eval map]. rewrite (h_eval _ _ _ _ _ Ha), (h_eval _ _ _ _ _ Hc). cbn [collect fold_right seq_res app then_res node_sem op_sem].
      rewrite (size_of _ _ (proj2 Sa)), (size_of _ _ (proj2 Sc')). rewrite !limbs4. cbn [Nat.eqb andb].
      destruct (list_eqb (limbs 4 y) (limbs 4 z)) eqn:Q; [|]; reflexivity. }
    rewrite Er in Mean. rewrite Mn, Al in Mean. split.
    - intros E. rewrite E in Mean. rewrite (proj2 (list_eqb_ok (limbs 4 z) (limbs 4 z)) eq_refl) in Mean.
      specialize (Mean [] []). cbn [aimg vals_of map concat app nums] in Mean. rewrite !app_nil_r in Mean. exact Mean.
    - intros N. assert (Q : list_eqb (limbs 4 y) (limbs 4 z) = false).
      { apply list_eqb_no. intros Q. apply N. eapply elt_of_inj; eauto. }
      rewrite Q in Mean. specialize (Mean [] []). cbn [aimg vals_of map concat app nums] in Mean. rewrite !app_nil_r in Mean. exact Mean.
  Qed.

  Lemma run_script : forall n0 n all k first last trans alphae p accumulator, st0 n0 n all -> n <= n0 + k ->
    isz0 4 (StarkModel.w_first w) first all -> isz0 4 (StarkModel.w_last w) last all -> isz0 4 (StarkModel.w_transition w) trans all ->
    isz0 4 alpha alphae all ->
    (Z.of_nat (4 * (length pubs + 2 * length local + (k + 3 * length p + 1) + 1)) < 2 ^ 31)%Z ->
    match eval_native w alpha p [] f0 with
    | None => constraint_script public_row G p local next pubs first last trans alphae accumulator n = None
    | Some acc =>
        if existsb is_assert p then
          exists s n', constraint_script public_row G p local next pubs first last trans alphae accumulator n = Some (s, n') /\
            bsucceeds (brun H s (mk [] [] [])) = feqb acc (accumulator : ExtT)
        else constraint_script public_row G p local next pubs first last trans alphae accumulator n = None
    end.
  Proof.
    intros n0 n all k first last trans alphae p accumulator S0 Lk Df Dl Dt Da Rm.
    set (cb := mkcb (row_vars 0 (length local)) (row_vars 1 (length local)) row_inputs (public_vars public_row (length pubs)) first last trans [] alphae).
    assert (Ecb : new_with_expr public_row local next (length pubs) first last trans alphae = Some cb).
    { unfold new_with_expr. match goal with |- (if ?c then _ else _) = _ => assert (Q : c = true) by (apply Nat.leb_le; apply Nat.eq_le_incl; symmetry; exact same_width) end.
      rewrite Q. reflexivity. }
    set (body := constraint_script public_row G p local next pubs first last trans alphae accumulator).
    set (tail := fun cb1 s => do acc <- get_accumulator_expr cb1; do c <- const_f bf_ext4 accumulator; do e <- equal_verify acc c;
      do r <- get (express G (snd s) true e (fst s)); do T <- get (drop_variable_values (snd s) cb1 (fst (fst r))); ret (t_script T ++ [PUSHN 1])).
    assert (Eb : body n = (do cb1 <- eval_script p [] cb; do s <- get (set_variable_values pubs cb1); tail cb1 s) n).
    { unfold body, constraint_script.
      match goal with |- context [new_with_expr ?a ?b ?c ?d ?e ?f ?g ?h] => replace (new_with_expr a b c d e f g h) with (Some cb) by (symmetry; exact Ecb) end.
      reflexivity. }
    rewrite Eb. clear Eb body.
    assert (O : cbok public_row G gt0 env0 w alpha cb [] all) by (constructor; auto; constructor).
    assert (Sm := sim_all public_row G gt0 env0 vs0 n0 w alpha same_width has_local0 has_next0 has_public0 p [] [] cb [] all (Forall2_nil _) O).
    unfold sim in Sm. change (horner alpha f0 []) with (f0 : ExtT) in Sm.
    destruct (eval_native w alpha p [] f0) as [r|]; [|unfold bind at 1; now rewrite (Sm n S0)].
    destruct (Sm n S0) as (cb' & n1 & all1 & E1 & S1 & C1 & L1 & cs & O1 & Er & Lc & Ev). cbn [length Nat.add] in Lc.
    assert (Eset : set_variable_values pubs cb' = Some (T0, gt0)).
    { unfold set_variable_values. rewrite (co_public _ _ _ _ _ _ _ _ _ O1), Ev. unfold public_vars at 1. rewrite map_length, seq_length, Nat.eqb_refl.
      rewrite <- pushed0. unfold cons_inputs. now rewrite fold_left_app. }
    assert (Et : (do cb1 <- eval_script p [] cb; do s <- get (set_variable_values pubs cb1); tail cb1 s) n = tail cb' (T0, gt0) n1).
    { unfold bind at 1. rewrite E1. unfold bind at 1. now rewrite Eset. }
    rewrite Et. clear Et. unfold tail, get_accumulator_expr. cbn [fst snd]. pose proof (co_cs _ _ _ _ _ _ _ _ _ O1) as Fc. pose proof (co_alpha _ _ _ _ _ _ _ _ _ O1) as Dal.
    assert (Na : existsb is_assert p = true <-> cs <> []).
    { unfold nasserts in Lc. clear - Lc. split.
      - intros X. apply existsb_exists in X as (s & Is & Es). intros ->. cbn in Lc. symmetry in Lc. apply length_zero_iff_nil in Lc.
        assert (Q : In s (filter is_assert p)) by (apply filter_In; auto). now rewrite Lc in Q.
      - intros Nc. destruct (filter is_assert p) as [|s l] eqn:Q; [destruct cs; [congruence|discriminate Lc]|].
        assert (Is : In s (filter is_assert p)) by (rewrite Q; now left). apply filter_In in Is as [Is Es]. apply existsb_exists. eauto. }
    assert (Lcs : length cs <= length p).
    { rewrite Lc. unfold nasserts. clear. induction p as [|s p IH]; [cbn; lia|]. cbn. destruct (is_assert s); cbn; lia. }
    remember (cb_constraints cb') as cons eqn:Ec. destruct Fc as [|c z es zs Dc Fc].
    { destruct (existsb is_assert p); [exfalso; now apply Na|]. reflexivity. }
    destruct (existsb is_assert p); [|exfalso; assert (Q : z :: zs <> []) by discriminate; apply Na in Q; discriminate Q].
    destruct (gets_accumulate G gt0 env0 vs0 n0 alpha es zs all1 c (cb_alpha cb') z Fc Dc Dal n1 S1) as (acc & n2 & all2 & E2 & S2 & C2 & L2 & Dacc).
    unfold bind at 1. rewrite E2. unfold bind at 1. destruct (gets_const4 G gt0 env0 vs0 n0 accumulator all2 n2 S2) as (ce & n3 & all3 & E3 & S3 & C3 & L3 & Dce).
    rewrite E3. assert (Les : length es = length zs) by (clear - Fc; induction Fc; cbn; auto). cbn [length] in Lcs.
    assert (Lz : S (length es) <= length p) by (rewrite Les; exact Lcs).
    assert (Ez : r = horner alpha z zs).
    { rewrite Er. unfold horner. cbn [fold_left]. f_equal. apply zero_step. }
    assert (Dacc' := isz_mono _ _ _ _ _ _ _ _ C3 Dacc).
    destruct (verify_runs n0 n3 all3 acc ce (horner alpha z zs) accumulator (k + 3 * length p + 1) S3 Dacc' Dce) as (T' & m' & vars & q & Ex & Mn & Sc & Run1 & Run0); [lia|exact Rm|].
    unfold bind at 1. cbn [equal_verify node get_opid bind ret]. unfold bind at 1. rewrite Ex. cbn [get ret fst snd]. unfold bind at 1.
    destruct (drops H gt0 cons_inputs T' (gt_at _ cons_nodup cons_four _ _ pushed0) cons_four Mn) as (T2 & q2 & Ed & _ & Sc2 & Run2).
    assert (Edv : drop_variable_values gt0 cb' T' = Some T2).
    { unfold drop_variable_values. rewrite Ev, (co_public _ _ _ _ _ _ _ _ _ O1). change (cb_values cb) with row_inputs. rewrite <- public_fst.
      rewrite <- Ed. unfold cons_inputs. rewrite map_app, rev_app_distr, drop_app. reflexivity. }
    rewrite Edv. cbn [get ret]. exists (t_script T2 ++ [PUSHN 1]), (S n3). split; [reflexivity|].
    destruct (push_inputs_ok _ _ _ pushed0) as (_ & _ & _ & Sc0 & _ & _). rewrite Sc2, Sc, Sc0.
    pose proof (pushes_img H cons_inputs) as P0.
    assert (Ei : img (vals_given cons_inputs) vs0 = nums (concat (rev (map snd cons_inputs)))).
    { unfold img, vals_of. now rewrite map_rev, vals_svars. }
    rewrite <- !app_assoc. destruct (feqb_spec ExtT r accumulator) as [E|N].
    - assert (X : exec H (flat_map push_vec (map snd cons_inputs) ++ q ++ q2 ++ [PUSHN 1]) [] [] (nums [1%Z]) []).
      { eapply exec_seq; [exact P0|]. eapply exec_seq; [apply Run1; rewrite <- Ez; exact E|]. eapply exec_seq; [rewrite Ei, <- (app_nil_r (nums _)); apply Run2|]. reflexivity. }
      unfold exec in X. rewrite X. reflexivity.
    - assert (X : fails H (flat_map push_vec (map snd cons_inputs) ++ q ++ q2 ++ [PUSHN 1]) [] []).
      { eapply fails_seq; [exact P0|]. apply fails_app. apply Run0. rewrite <- Ez. exact N. }
      unfold fails in X. rewrite X. reflexivity.
  Qed.
End Whole.
