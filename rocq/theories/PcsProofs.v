(** The reduced openings of the PCS prover and verifier. *)
From Coq Require Import List Arith Bool Lia Field Sorted.
From Verif Require Import Field TcsModel TcsProofs PropTcs FriModel FriProofs FriProofs2 PolyExt PcsModel.
Import ListNotations.
Open Scope nat_scope.

(** The values f(n-1), ..., f(0) that are present. *)
Fixpoint desc {A} (n : nat) (f : nat -> option A) : list A :=
  match n with O => [] | S n => match f n with Some v => v :: desc n f | None => desc n f end end.
Lemma desc_ext {A} n (f f' : nat -> option A) : (forall k, k < n -> f k = f' k) -> desc n f = desc n f'.
Proof. induction n as [|n IH]; intros E; [reflexivity|]. cbn. rewrite (E n) by lia. rewrite IH; [reflexivity|]. intros; apply E; lia. Qed.
Lemma desc_map {A B} (g : A -> B) n f : map g (desc n f) = desc n (fun k => option_map g (f k)).
Proof. induction n as [|n IH]; [reflexivity|]. cbn. destruct (f n); cbn; now rewrite IH. Qed.
Lemma desc_app {A} n f (P : forall k, n <= k -> f k = @None A) : forall d, desc (n + d) f = desc n f.
Proof. induction d as [|d IH]; [now rewrite Nat.add_0_r|]. rewrite Nat.add_succ_r. cbn. rewrite P by lia. exact IH. Qed.
Lemma desc_bound {A} n n' f : (forall k, n <= k -> f k = @None A) -> (forall k, n' <= k -> f k = @None A) -> desc n f = desc n' f.
Proof.
  intros P P'. destruct (Nat.le_ge_cases n n') as [L|L].
  - replace n' with (n + (n' - n)) by lia. symmetry. now apply desc_app.
  - replace n with (n' + (n - n')) by lia. now apply desc_app.
Qed.
Lemma fold_max_le {A} (f : A -> nat) l b : (forall x, In x l -> f x <= b) -> forall a, a <= b -> fold_left (fun a x => Nat.max a (f x)) l a <= b.
Proof.
  induction l as [|x l IH]; intros H a La; cbn; [exact La|]. pose proof (H x (or_introl eq_refl)).
  apply IH; [intros; apply H; now right|lia].
Qed.
Lemma fold_max_ge {A} (f : A -> nat) l : forall a, a <= fold_left (fun a x => Nat.max a (f x)) l a /\
  forall x, In x l -> f x <= fold_left (fun a x => Nat.max a (f x)) l a.
Proof.
  induction l as [|x l IH]; intros a; cbn; [split; [lia|easy]|]. destruct (IH (Nat.max a (f x))) as [L H]. split; [lia|].
  intros y [<-|I]; [lia|auto].
Qed.
Lemma traverse_map {A B} (f : A -> option B) (g : A -> B) l : (forall a, In a l -> f a = Some (g a)) -> traverse f l = Some (map g l).
Proof.
  induction l as [|a l IH]; intros E; [reflexivity|]. cbn. rewrite (E a (or_introl eq_refl)), IH; [reflexivity|]. intros; apply E; now right.
Qed.
Lemma traverse_length {A B} (f : A -> option B) l r : traverse f l = Some r -> length r = length l.
Proof.
  revert r. induction l as [|a l IH]; intros r; cbn; [intros [= <-]; reflexivity|].
  destruct (f a); [|discriminate]. destruct (traverse f l); [|discriminate]. intros [= <-]. cbn. now rewrite (IH _ eq_refl).
Qed.

Section Pcs.
  Variables V T : two_adic.
  Variable emb : V -> T.
  Variable generator : V.
  Variable config : fri_config.
  Hypothesis E : embedding V T emb.
  Add Field VF : (fth V).
  Add Field TF : (fth T).
  Notation lb := (log_blowup config).

  (** Point j of the coset generator * <gen k> in bit-reversed order. *)
  Definition cpoint (k j : nat) : V := fmul generator (fpow (gen k) (reverse_bits_len j k)).
  Lemma cpoint_prefix k n j : k <= n -> n <= two_adicity V -> j < 2 ^ k -> cpoint n j = cpoint k j.
  Proof.
    intros Lk Ln Hj. unfold cpoint. f_equal. replace n with (n - k + k) by lia. rewrite rbl_short by exact Hj.
    rewrite Nat.mul_comm, fpow_mul, gen_pow by lia. reflexivity.
  Qed.

  (** ** Summands *)
  (** (p_i(x) - y_i) / (x - z) for the columns of one matrix row and the points it is opened at. *)
  Definition quotients (x : V) (row : list V) (pts : list (T * list T)) : list T :=
    flat_map (fun pt => map (fun py => fdiv (fsub (emb (fst py)) (snd py)) (fsub (emb x) (fst pt))) (List.combine row (snd pt))) pts.

  (** ** Verifier *)
  Section Verifier.
    Variable alpha : T.
    Lemma acc_values_ok : forall xs ys n acc,
      acc_values V T emb alpha (fpow alpha n) acc xs ys =
      (fpow alpha (n + length (List.combine xs ys)),
       fadd acc (fmul (fpow alpha n) (peval (map (fun py => fsub (emb (fst py)) (snd py)) (List.combine xs ys)) alpha))).
    Proof.
      induction xs as [|x xs IH]; intros [|y ys] n acc; cbn [acc_values List.combine length map peval];
        rewrite ?Nat.add_0_r; try (f_equal; ring).
      replace (fmul (fpow alpha n) alpha) with (fpow alpha (S n)) by (cbn; ring). rewrite IH. f_equal; [f_equal; lia|].
      cbn [fpow fst snd]. ring.
    Qed.
    Lemma peval_div l d x : peval (map (fun py : V * T => fdiv (fsub (emb (fst py)) (snd py)) d) l) x =
      fdiv (peval (map (fun py => fsub (emb (fst py)) (snd py)) l) x) d.
    Proof.
      assert (forall a b : T, fdiv a b = fmul a (finv b)) as D by (intros; apply (Fdiv_def (fth T))).
      induction l as [|[p y] l IH]; cbn [map peval]; rewrite ?IH, !D; ring.
    Qed.
    Lemma reduce_points_ok x row pts : (forall pt, In pt pts -> emb x <> fst pt) -> forall ts,
      reduce_points V T emb alpha x row pts (fpow alpha (length ts), peval ts alpha) =
      Some (fpow alpha (length (ts ++ quotients x row pts)), peval (ts ++ quotients x row pts) alpha).
    Proof.
      induction pts as [|[z ys] pts IH]; intros N ts; cbn [reduce_points quotients flat_map].
      - now rewrite app_nil_r.
      - cbn [fst snd]. rewrite acc_values_ok.
        assert (fsub (emb x) z <> f0) as Nz by (apply fsub_nz, (N (z, ys)); now left).
        assert (fadd (fopp z) (emb x) = fsub (emb x) z) as -> by ring.
        rewrite checked_div_nz by exact Nz.
        set (new := map (fun py => fdiv (fsub (emb (fst py)) (snd py)) (fsub (emb x) z)) (List.combine row ys)).
        replace (length ts + length (List.combine row ys)) with (length (ts ++ new)) by (unfold new; now rewrite app_length, map_length).
        replace (fadd (peval ts alpha) _) with (peval (ts ++ new) alpha).
        + rewrite IH by (intros; apply N; now right). rewrite <- app_assoc. reflexivity.
        + rewrite peval_app. unfold new. rewrite peval_div.
          assert (forall a b : T, fdiv a b = fmul a (finv b)) as D by (intros; apply (Fdiv_def (fth T))). rewrite !D. ring.
    Qed.

    (** [f k] is the list of summands collected for height 2^k. *)
    Definition rep (l : ro_map T) (f : nat -> option (list T)) : Prop :=
      StronglySorted (fun a b => fst a < fst b) l /\
      forall k e, In (k, e) l <-> exists ts, f k = Some ts /\ e = (fpow alpha (length ts), peval ts alpha).
    Definition the (o : option (list T)) : list T := match o with Some l => l | None => [] end.
    Lemma sorted_head (k : nat) (e : T * T) (l : ro_map T) : Forall (fun b => k < fst b) l -> forall k' e', In (k', e') l -> k < k'.
    Proof. intros F k' e' I. rewrite Forall_forall in F. exact (F _ I). Qed.
    Lemma entry_in (l : ro_map T) k : StronglySorted (fun a b => fst a < fst b) l ->
      (In (k, entry T k l) l \/ (entry T k l = (f1, f0) /\ forall e, ~ In (k, e) l)).
    Proof.
      induction 1 as [|[k' e'] l S IH F]; cbn [entry]; [right; split; [reflexivity|easy]|].
      destruct (Nat.eqb_spec k k') as [->|N]; [left; now left|].
      destruct IH as [I|[Ee I]]; [left; now right|right]. split; [exact Ee|]. intros e [X|X]; [congruence|]. exact (I _ X).
    Qed.
    Lemma rep_entry l f k : rep l f -> entry T k l = (fpow alpha (length (the (f k))), peval (the (f k)) alpha).
    Proof.
      intros [S R]. destruct (entry_in l k S) as [I|[-> I]].
      - apply R in I as (ts & -> & ->). reflexivity.
      - destruct (f k) as [ts|] eqn:Ef; [exfalso|reflexivity]. eapply I. apply R. exists ts. split; [exact Ef|reflexivity].
    Qed.
    Lemma put_sorted k e (l : ro_map T) : StronglySorted (fun a b => fst a < fst b) l -> StronglySorted (fun a b => fst a < fst b) (put T k e l) /\
      forall k' e', In (k', e') (put T k e l) <-> (k' = k /\ e' = e) \/ (k' <> k /\ In (k', e') l).
    Proof.
      induction 1 as [|[k1 e1] l S IH F]; cbn [put].
      - split; [repeat constructor|]. intros k' e'. cbn. split; [intros [[= -> ->]|[]]; auto|intros [[-> ->]|[_ []]]; auto].
      - destruct (Nat.ltb_spec k k1) as [L|L]; [|destruct (Nat.eqb_spec k k1) as [->|N]].
        + split.
          * constructor; [constructor; assumption|]. constructor; [exact L|]. eapply Forall_impl; [|exact F]. cbn. intros [k2 e2]. cbn. lia.
          * intros k' e'. cbn [In]. split.
            -- intros [[= -> ->]|I]; [now left|]. right. split; [|exact I]. destruct I as [[= -> ->]|I]; [lia|].
               pose proof (sorted_head k1 e1 l F _ _ I). lia.
            -- intros [[-> ->]|[_ I]]; [now left|now right].
        + split.
          * constructor; assumption.
          * intros k' e'. cbn [In]. split.
            -- intros [[= -> ->]|I]; [now left|]. right. pose proof (sorted_head k1 e1 l F _ _ I). split; [lia|now right].
            -- intros [[-> ->]|[N [[= <- <-]|I]]]; [now left|congruence|now right].
        + destruct IH as [S1 I1]. split.
          * constructor; [exact S1|]. apply Forall_forall. intros [k2 e2] I. apply I1 in I as [[-> ->]|[_ I]]; [cbn; lia|].
            exact (sorted_head k1 e1 l F _ _ I).
          * intros k' e'. cbn [In]. rewrite I1. split.
            -- intros [[= -> ->]|[X|[N2 X]]]; [right; split; [lia|now left]|now left|right; split; [exact N2|now right]].
            -- intros [X|[N2 [X|X]]]; [right; now left|now left|right; right; auto].
    Qed.
    Lemma rep_put l f k ts : rep l f -> rep (put T k (fpow alpha (length ts), peval ts alpha) l) (upd f k (Some ts)).
    Proof.
      intros [S R]. destruct (put_sorted k (fpow alpha (length ts), peval ts alpha) l S) as [S1 I1]. split; [exact S1|].
      intros k' e'. rewrite I1. unfold upd. destruct (Nat.eqb_spec k' k) as [->|N].
      - split; [intros [[_ ->]|[N _]]; [eauto|congruence]|]. intros (ts' & [= <-] & ->). now left.
      - rewrite R. split; [intros [[X _]|[_ X]]; [congruence|exact X]|]. intros X. now right.
    Qed.
    Lemma sorted_rev_desc (l : ro_map T) : StronglySorted (fun a b => fst a < fst b) l -> forall n, (forall k e, In (k, e) l -> k < n) ->
      rev l = desc n (fun k => option_map snd (find (fun p => fst p =? k) (map (fun p => (fst p, p)) l))).
    Proof.
      induction l as [|[k e] l IH] using rev_ind; intros So n B.
      - cbn. clear. induction n as [|n IH]; [reflexivity|]. exact IH.
      - assert (StronglySorted (fun a b => fst a < fst b) l /\ forall k' e', In (k', e') l -> k' < k) as [S1 B1].
        { clear - So. induction l as [|[k1 e1] l IH]; [split; [constructor|easy]|]. cbn in So. inversion_clear So as [|? ? S' F].
          destruct (IH S') as [S1 B1]. rewrite Forall_app in F. destruct F as [F1 F2]. split; [constructor; assumption|].
          intros k' e' [[= <- <-]|I]; [inversion_clear F2; assumption|now apply (B1 k' e')]. }
        rewrite rev_app_distr. cbn [rev app]. specialize (B k e ltac:(apply in_or_app; right; now left)) as Bk.
        assert (forall k', find (fun p => fst p =? k') (map (fun p => (fst p, p)) (l ++ [(k, e)])) =
                  if k' =? k then Some (k, (k, e)) else find (fun p => fst p =? k') (map (fun p => (fst p, p)) l)) as Fe.
        { intros k'. clear - B1. induction l as [|[k1 e1] l IH]; cbn.
          - rewrite Nat.eqb_sym. now destruct (k' =? k).
          - destruct (Nat.eqb_spec k1 k') as [->|N].
            + pose proof (B1 k' e1 (or_introl eq_refl)). destruct (Nat.eqb_spec k' k); [lia|reflexivity].
            + apply IH. intros k2 e2 I. apply (B1 k2 e2). now right. }
        rewrite (desc_ext n _ (fun k' => if k' =? k then Some (k, e) else
          option_map snd (find (fun p => fst p =? k') (map (fun p => (fst p, p)) l)))) by (intros k' _; rewrite Fe; now destruct (k' =? k)).
        replace n with (S k + (n - S k)) by lia. rewrite desc_app.
        + cbn [desc]. rewrite Nat.eqb_refl. f_equal. rewrite (IH S1 k B1). apply desc_ext. intros k' Hk.
          destruct (Nat.eqb_spec k' k); [lia|reflexivity].
        + intros k' Hk. destruct (Nat.eqb_spec k' k); [lia|].
          destruct (find _ _) as [[k2 p2]|] eqn:Ef; [|reflexivity]. apply find_some in Ef as [I Ek]. apply in_map_iff in I as ([k3 e3] & [= <- <-] & I).
          cbn in Ek. apply Nat.eqb_eq in Ek. pose proof (B1 k3 e3 I). lia.
    Qed.
    Lemma rep_list l f n : rep l f -> (forall k, n <= k -> f k = None) ->
      map (fun p => (fst p, snd (snd p))) (rev l) = desc n (fun k => option_map (fun ts => (k, peval ts alpha)) (f k)).
    Proof.
      intros [S R] B. rewrite (sorted_rev_desc l S n).
      - rewrite desc_map. apply desc_ext. intros k Hk.
        destruct (find (fun p => fst p =? k) (map (fun p => (fst p, p)) l)) as [[k1 p1]|] eqn:Ef.
        + apply find_some in Ef as [I Ek]. apply in_map_iff in I as ([k2 e2] & [= <- <-] & I). cbn in Ek. apply Nat.eqb_eq in Ek. subst k2.
          apply R in I as (ts & -> & ->). reflexivity.
        + destruct (f k) as [ts|] eqn:Efk; [exfalso|reflexivity].
          assert (In (k, (fpow alpha (length ts), peval ts alpha)) l) as I by (apply R; eauto).
          pose proof (find_none _ _ Ef (k, (k, (fpow alpha (length ts), peval ts alpha))) (in_map (fun p => (fst p, p)) _ _ I)) as N.
          cbn in N. rewrite Nat.eqb_refl in N. discriminate.
      - intros k e I. apply R in I as (ts & Ef & _). destruct (Nat.le_gt_cases n k) as [L|L]; [rewrite B in Ef by exact L; discriminate|exact L].
    Qed.
  End Verifier.

  (** ** Entries: the matrices that are opened, in the order they are visited *)
  Record ent := { e_k : nat; e_row : nat -> list V; e_pts : list (T * list T) }.
  Definition at_k (k : nat) (es : list ent) : list ent := filter (fun e => e_k e =? k) es.
  (** all summands for height 2^k at point j *)
  Definition terms (es : list ent) (k j : nat) : list T :=
    flat_map (fun e => quotients (cpoint k j) (e_row e j) (e_pts e)) (at_k k es).
  Definition oterms (es : list ent) (k j : nat) : option (list T) :=
    match at_k k es with [] => None | _ => Some (terms es k j) end.
  Lemma at_k_snoc k es e : at_k k (es ++ [e]) = at_k k es ++ (if e_k e =? k then [e] else []).
  Proof. unfold at_k. rewrite filter_app. cbn. now destruct (e_k e =? k). Qed.
  Lemma terms_snoc es e k j : terms (es ++ [e]) k j = terms es k j ++ (if e_k e =? k then quotients (cpoint k j) (e_row e j) (e_pts e) else []).
  Proof. unfold terms. rewrite at_k_snoc, flat_map_app. destruct (e_k e =? k); cbn; now rewrite ?app_nil_r. Qed.
  Lemma the_oterms es k j : the (oterms es k j) = terms es k j.
  Proof. unfold oterms, terms. now destruct (at_k k es). Qed.
  Lemma oterms_snoc es e k j : oterms (es ++ [e]) k j = if e_k e =? k then Some (terms (es ++ [e]) k j) else oterms es k j.
  Proof.
    unfold oterms. rewrite terms_snoc, at_k_snoc. destruct (e_k e =? k); [now destruct (at_k k es)|]. now rewrite !app_nil_r.
  Qed.

  (** *** Verifier *)
  Section Verify.
    Variables (alpha : T) (lg q : nat).
    Definition vstate (es : list ent) : nat -> option (list T) := fun k => oterms es k (q / 2 ^ (lg - k)).
    Lemma rep_ext l f f' : (forall k, f k = f' k) -> rep alpha l f -> rep alpha l f'.
    Proof. intros X [So R]. split; [exact So|]. intros k e. now rewrite R, X. Qed.
    Definition vmat (de : coset V * ent) : coset V * list (T * list T) := (fst de, e_pts (snd de)).
    Definition vrow (de : coset V * ent) : list V := e_row (snd de) (q / 2 ^ (lg - e_k (snd de))).
    Definition vok (de : coset V * ent) : Prop :=
      e_k (snd de) = log_n (fst de) + lb /\ e_k (snd de) <= lg /\ e_k (snd de) <= two_adicity V /\
        forall pt, In pt (e_pts (snd de)) -> emb (cpoint (e_k (snd de)) (q / 2 ^ (lg - e_k (snd de)))) <> fst pt.
    Lemma reduce_mats_ok des : Forall vok des -> forall es l, rep alpha l (vstate es) ->
      exists l', reduce_mats V T emb generator config alpha lg q (map vrow des) (map vmat des) l = Some l' /\
        rep alpha l' (vstate (es ++ map snd des)).
    Proof.
      induction 1 as [|[dom e] des (Ek & Lg & La & N) F IH]; intros es l R.
      - exists l. split; [reflexivity|]. now rewrite app_nil_r.
      - cbn [fst snd] in *. cbn [map]. unfold vmat at 1. cbn [reduce_mats fst snd]. rewrite <- Ek.
        rewrite (proj2 (Nat.ltb_ge _ _) Lg), tag_some by exact La.
        fold (cpoint (e_k e) (q / 2 ^ (lg - e_k e))). rewrite (rep_entry alpha l (vstate es) (e_k e) R).
        unfold vstate at 1 2. rewrite !the_oterms. unfold vrow at 1. cbn [snd].
        rewrite reduce_points_ok by exact N.
        assert (rep alpha (put T (e_k e) (fpow alpha (length (terms (es ++ [e]) (e_k e) (q / 2 ^ (lg - e_k e)))), peval (terms (es ++ [e]) (e_k e) (q / 2 ^ (lg - e_k e))) alpha) l)
          (vstate (es ++ [e]))) as R1.
        { eapply rep_ext; [|apply rep_put, R]. intros k. unfold upd, vstate. rewrite oterms_snoc.
          rewrite Nat.eqb_sym. destruct (Nat.eqb_spec (e_k e) k) as [<-|]; reflexivity. }
        rewrite terms_snoc, Nat.eqb_refl in R1. destruct (IH _ _ R1) as (l' & E1 & R2). exists l'. split; [exact E1|].
        rewrite <- app_assoc in R2. exact R2.
    Qed.
    Variable M0 : mmcs V.
    Variable qt : nat.
    (** a round: commitment, opening proof, matrices *)
    Definition vround : Type := m_comm M0 * m_proof M0 * list (coset V * ent).
    Definition vbatch (r : vround) : m_comm M0 * list (coset V * list (T * list T)) := (fst (fst r), map vmat (snd r)).
    Definition vopening (r : vround) : batch_opening V M0 := (map vrow (snd r), snd (fst r)).
    Definition vround_ok (r : vround) : Prop :=
      snd r <> [] /\ Forall vok (snd r) /\ m_verify_batch M0 qt (map vrow (snd r)) (snd (fst r)) (fst (fst r)) = Ok tt.
    Lemma reduce_batches_ok rs : Forall vround_ok rs -> forall es l, rep alpha l (vstate es) ->
      exists l', reduce_batches V T emb generator M0 config alpha lg qt q (map vopening rs) (map vbatch rs) l = Ok l' /\
        rep alpha l' (vstate (es ++ flat_map (fun r => map snd (snd r)) rs)).
    Proof.
      induction 1 as [|[[c pf] des] rs (Ne & F & Vb) Fr IH]; intros es l R.
      - exists l. split; [reflexivity|]. now rewrite app_nil_r.
      - cbn [fst snd] in *. cbn [map]. unfold vopening at 1, vbatch at 1. cbn [reduce_batches fst snd].
        destruct (map vmat des) as [|d0 ds0] eqn:Em; [destruct des; [contradiction|discriminate]|]. rewrite <- Em.
        assert (lg <? fold_left (fun a (d : coset V * list (T * list T)) => Nat.max a (log_n (fst d))) (map vmat des) 0 + lb = false) as ->.
        { apply Nat.ltb_ge. destruct des as [|de0 des0] eqn:Ed; [contradiction|]. rewrite <- Ed in *.
          assert (forall de, In de des -> log_n (fst de) + lb <= lg) as B.
          { intros de I. rewrite Forall_forall in F. destruct (F _ I) as (Ek & Lg & _). lia. }
          assert (lb <= lg) as Lb by (pose proof (B de0 ltac:(rewrite Ed; now left)); lia).
          enough (fold_left (fun a (d : coset V * list (T * list T)) => Nat.max a (log_n (fst d))) (map vmat des) 0 <= lg - lb) by lia.
          apply (fold_max_le (fun d : coset V * list (T * list T) => log_n (fst d))); [|lia].
          intros x I. apply in_map_iff in I as (de & <- & I). specialize (B _ I). cbn. lia. }
        rewrite Vb. destruct (reduce_mats_ok des F es l R) as (l1 & -> & R1).
        destruct (IH _ _ R1) as (l' & E1 & R2). exists l'. split; [exact E1|]. cbn [flat_map snd]. now rewrite app_assoc.
    Qed.
    Lemma open_input_ok rs : Forall vround_ok rs ->
      pcs_open_input V T emb generator M0 config alpha lg (map vbatch rs) qt q (map vopening rs) =
      Ok (desc (S lg) (fun k => option_map (fun ts => (k, peval ts alpha)) (oterms (flat_map (fun r => map snd (snd r)) rs) k (q / 2 ^ (lg - k))))).
    Proof.
      intros F. unfold pcs_open_input. destruct (reduce_batches_ok rs F [] []) as (l' & -> & R).
      { split; [constructor|]. intros k e. split; [intros []|]. intros (ts & X & _). discriminate. }
      f_equal. apply (rep_list alpha l' _ (S lg) R). intros k Hk. unfold vstate, oterms.
      destruct (at_k k ([] ++ flat_map (fun r => map snd (snd r)) rs)) as [|e es] eqn:Ea; [reflexivity|exfalso].
      assert (In e (at_k k (flat_map (fun r => map snd (snd r)) rs))) as I by (rewrite app_nil_l in Ea; rewrite Ea; now left).
      apply filter_In in I as [I Ek]. apply Nat.eqb_eq in Ek. apply in_flat_map in I as (r & Ir & I). apply in_map_iff in I as (de & <- & I).
      rewrite Forall_forall in F. destruct (F _ Ir) as (_ & Fo & _). rewrite Forall_forall in Fo. destruct (Fo _ I) as (_ & Lg & _). lia.
    Qed.
  End Verify.

  (** *** Prover *)
  Section Open.
    Variable interpolate_coset : matrix V -> V -> T -> option (list T).
    Variable alpha : T.
    Hypothesis gen_nz0 : generator <> f0.

    Lemma dot_powers_ok : forall ys p, dot_powers T alpha p ys = fmul p (peval ys alpha).
    Proof. induction ys as [|y ys IH]; intros p; cbn [dot_powers peval]; [ring|]. rewrite IH. ring. Qed.
    Lemma reduce_rows_ok off ry (a b : nat -> T) ds : forall n s, n <= length ds ->
      reduce_rows T off ry (map a (seq s n)) (map b (seq s n)) ds =
      map (fun j => fadd (b j) (fmul (fmul off (fsub (a j) ry)) (nth (j - s) ds f0))) (seq s n).
    Proof.
      revert ds. intros ds n. revert ds. induction n as [|n IH]; intros ds s L; [reflexivity|].
      destruct ds as [|d ds]; [cbn in L; lia|]. cbn [seq map reduce_rows]. f_equal; [now rewrite Nat.sub_diag|].
      rewrite IH by (cbn in L; lia). apply map_ext_in. intros j Hj. apply in_seq in Hj.
      replace (j - s) with (S (j - S s)) by lia. reflexivity.
    Qed.
    (** 1/(x_j - z) for the points of the coset of size 2^k *)
    Definition denoms_ok (inv : list (T * list T)) (z : T) (k : nat) : Prop :=
      exists ds, lookup T z inv = Some ds /\ 2 ^ k <= length ds /\
        forall j, j < 2 ^ k -> emb (cpoint k j) <> z /\ nth j ds f0 = finv (fsub (emb (cpoint k j)) z).
    Definition prep (s : reduced T) (es : list ent) : Prop :=
      forall k, r_open T s k = match at_k k es with [] => None | _ => Some (map (fun j => peval (terms es k j) alpha) (seq 0 (2 ^ k))) end /\
        forall j, j < 2 ^ k -> length (terms es k j) = r_num T s k.
    Definition low (m : matrix V) : option (matrix V) := bit_reverse_rows V (top_rows V (height V m / 2 ^ lb) m).
    Lemma row_length (m : matrix V) k j : has_rows m k -> j < 2 ^ k -> length (row_of m j) = width V m.
    Proof. intros [W L] Hj. unfold row_of. rewrite firstn_length, skipn_length, L. nia. Qed.
    Lemma fsub_pevals : forall xs ys x, length xs = length ys ->
      peval (map (fun py => fsub (emb (fst py)) (snd py)) (List.combine xs ys)) x = fsub (peval (map emb xs) x) (peval ys x).
    Proof. induction xs as [|a xs IH]; intros [|b ys] x L; try discriminate; cbn [List.combine map peval fst snd]; [ring|]. rewrite IH by (cbn in L; lia). ring. Qed.
    Lemma quotients_app x row pts pts' : quotients x row (pts ++ pts') = quotients x row pts ++ quotients x row pts'.
    Proof. unfold quotients. apply flat_map_app. Qed.
    Lemma open_point_ok inv m k es pts z ys lo s : has_rows m k ->
      low m = Some lo -> interpolate_coset lo generator z = Some ys -> length ys = width V m ->
      denoms_ok inv z k -> prep s (es ++ [{| e_k := k; e_row := row_of m; e_pts := pts |}]) ->
      exists s', open_point V T emb generator config interpolate_coset alpha inv m k z s = Some (ys, s') /\
        prep s' (es ++ [{| e_k := k; e_row := row_of m; e_pts := pts ++ [(z, ys)] |}]).
    Proof.
      intros Hm Hl Hi Ly (ds & Ed & Lds & Nd) P. unfold open_point. unfold low in Hl. rewrite Hl, Hi, Ed.
      set (e1 := {| e_k := k; e_row := row_of m; e_pts := pts |}) in *.
      set (e2 := {| e_k := k; e_row := row_of m; e_pts := pts ++ [(z, ys)] |}).
      assert (forall k', at_k k' (es ++ [e2]) = [] <-> at_k k' (es ++ [e1]) = []) as An.
      { intros k'. rewrite !at_k_snoc. cbn. destruct (k =? k'); [|reflexivity].
        split; intros X; apply app_eq_nil in X as [_ X]; discriminate. }
      assert (at_k k (es ++ [e1]) <> []) as Ne.
      { rewrite at_k_snoc. cbn. rewrite Nat.eqb_refl. intros X. apply app_eq_nil in X as [_ X]. discriminate. }
      pose proof (P k) as [Po Pn]. destruct (at_k k (es ++ [e1])) as [|a0 as0] eqn:Ea; [contradiction|]. rewrite Po.
      eexists. split; [reflexivity|].
      assert (forall j, terms (es ++ [e2]) k j = terms (es ++ [e1]) k j ++ quotients (cpoint k j) (row_of m j) [(z, ys)]) as Tn.
      { intros j. rewrite !terms_snoc. cbn [e1 e2 e_k e_row e_pts]. rewrite Nat.eqb_refl, quotients_app, app_assoc. reflexivity. }
      intros k'. cbn [r_open r_num]. unfold upd. rewrite (Nat.eqb_sym k' k).
      destruct (Nat.eqb_spec k k') as [<-|Nk].
      - split.
        + destruct (at_k k (es ++ [e2])) eqn:E2; [apply An in E2; congruence|]. f_equal.
          rewrite (rect_height V m k Hm). rewrite reduce_rows_ok by exact Lds.
          apply map_ext_in. intros j Hj. apply in_seq in Hj. rewrite Nat.sub_0_r.
          destruct (Nd j) as [Nz ->]; [lia|]. rewrite Tn, peval_app, (Pn j) by lia. f_equal.
          unfold quotients. cbn [flat_map fst snd]. rewrite app_nil_r, peval_div, fsub_pevals by (rewrite (row_length m k) by (assumption || lia); now symmetry).
          unfold dot_ext_row. rewrite !dot_powers_ok. rewrite (Fdiv_def (fth T)). ring.
        + intros j Hj. rewrite Tn, app_length, (Pn j Hj). f_equal. unfold quotients. cbn [flat_map fst snd].
          rewrite app_nil_r, map_length, combine_length, (row_length m k) by assumption. lia.
      - destruct (P k') as [Po' Pn']. split.
        + rewrite Po'. destruct (at_k k' (es ++ [e1])) eqn:E1.
          * rewrite (proj2 (An k') E1). reflexivity.
          * destruct (at_k k' (es ++ [e2])) eqn:E2; [apply An in E2; congruence|]. f_equal. apply map_ext. intros j.
            rewrite !terms_snoc. cbn. apply Nat.eqb_neq in Nk. now rewrite Nk.
        + intros j Hj. rewrite <- (Pn' j Hj). rewrite !terms_snoc. cbn. apply Nat.eqb_neq in Nk. now rewrite Nk.
    Qed.

    (** the values [interpolate_coset] gives for a matrix at a point *)
    Variable ys_of : matrix V -> T -> list T.
    Definition pts_of (m : matrix V) (zs : list T) : list (T * list T) := map (fun z => (z, ys_of m z)) zs.
    (** a matrix, its log height, its points *)
    Definition pmat : Type := matrix V * nat * list T.
    Definition ent_of (pm : pmat) : ent :=
      {| e_k := snd (fst pm); e_row := row_of (fst (fst pm)); e_pts := pts_of (fst (fst pm)) (snd pm) |}.
    Definition interp_ok (m : matrix V) (z : T) : Prop :=
      exists lo, low m = Some lo /\ interpolate_coset lo generator z = Some (ys_of m z) /\ length (ys_of m z) = width V m.
    Definition pmat_ok (inv : list (T * list T)) (pm : pmat) : Prop :=
      has_rows (fst (fst pm)) (snd (fst pm)) /\ snd (fst pm) < 32 /\
      forall z, In z (snd pm) -> interp_ok (fst (fst pm)) z /\ denoms_ok inv z (snd (fst pm)).
    Lemma open_points_ok inv m k es : has_rows m k -> forall zs done s,
      (forall z, In z zs -> interp_ok m z /\ denoms_ok inv z k) ->
      prep s (es ++ [{| e_k := k; e_row := row_of m; e_pts := pts_of m done |}]) ->
      exists s', open_points V T emb generator config interpolate_coset alpha inv m k zs s = Some (map (ys_of m) zs, s') /\
        prep s' (es ++ [{| e_k := k; e_row := row_of m; e_pts := pts_of m (done ++ zs) |}]).
    Proof.
      intros Hm. induction zs as [|z zs IH]; intros done s Hz P.
      - exists s. split; [reflexivity|]. now rewrite app_nil_r.
      - cbn [open_points map]. destruct (Hz z (or_introl eq_refl)) as [(lo & Hl & Hi & Ly) D].
        destruct (open_point_ok inv m k es _ z (ys_of m z) lo s Hm Hl Hi Ly D P) as (s1 & -> & P1).
        destruct (IH (done ++ [z]) s1) as (s' & -> & P').
        + intros; apply Hz; now right.
        + unfold pts_of in *. rewrite map_app. exact P1.
        + exists s'. split; [reflexivity|]. rewrite <- app_assoc in P'. exact P'.
    Qed.
    Lemma open_mat_ok inv pm es s : pmat_ok inv pm -> prep s es ->
      exists s', open_mat V T emb generator config interpolate_coset alpha inv (fst (fst pm)) (snd pm) s =
        Some (map (ys_of (fst (fst pm))) (snd pm), s') /\ prep s' (es ++ [ent_of pm]).
    Proof.
      destruct pm as [[m k] zs]. unfold pmat_ok, ent_of. cbn [fst snd]. intros (Hm & Lk & Hz) P. unfold open_mat.
      rewrite (rect_height V m k Hm), log2_strict_pow. rewrite (proj2 (Nat.leb_gt _ _)) by exact Lk.
      apply (open_points_ok inv m k es Hm zs []); [exact Hz|].
      intros k'. destruct (P k') as [Po Pn]. cbn [r_open r_num]. unfold upd. rewrite (Nat.eqb_sym k' k), at_k_snoc. cbn [e_k].
      split.
      - destruct (Nat.eqb_spec k k') as [<-|Nk].
        + destruct (at_k k es ++ _) eqn:Ea; [apply app_eq_nil in Ea as [_ Ea]; discriminate|]. f_equal.
          rewrite Po. destruct (at_k k es) as [|a0 as0] eqn:Ek.
          * apply nth_ext with (d := f0) (d' := f0); [now rewrite repeat_length, map_length, seq_length|].
            intros j Hj. rewrite repeat_length in Hj. rewrite nth_map_seq by exact Hj. rewrite nth_repeat.
            unfold terms. rewrite at_k_snoc, Ek. cbn. rewrite Nat.eqb_refl. reflexivity.
          * apply map_ext. intros j. rewrite terms_snoc. cbn. rewrite Nat.eqb_refl, app_nil_r. reflexivity.
        + rewrite app_nil_r, Po. destruct (at_k k' es); [reflexivity|]. f_equal. apply map_ext. intros j. rewrite terms_snoc. cbn.
          apply Nat.eqb_neq in Nk. now rewrite Nk, app_nil_r.
      - intros j Hj. rewrite terms_snoc. cbn. rewrite <- (Pn j Hj). destruct (k =? k'); now rewrite app_nil_r.
    Qed.
    Lemma open_mats_ok inv : forall pms es s, Forall (pmat_ok inv) pms -> prep s es ->
      exists s', open_mats V T emb generator config interpolate_coset alpha inv (map (fun pm => fst (fst pm)) pms) (map snd pms) s =
        Some (map (fun pm : pmat => map (ys_of (fst (fst pm))) (snd pm)) pms, s') /\ prep s' (es ++ map ent_of pms).
    Proof.
      induction pms as [|pm pms IH]; intros es s F P.
      - exists s. split; [reflexivity|]. now rewrite app_nil_r.
      - inversion_clear F as [|? ? Hp F']. cbn [map open_mats].
        destruct (open_mat_ok inv pm es s Hp P) as (s1 & -> & P1). destruct (IH _ _ F' P1) as (s' & -> & P').
        exists s'. split; [reflexivity|]. rewrite <- app_assoc in P'. exact P'.
    Qed.
    Definition mp_of (rounds : list (list pmat)) : list (list (matrix V) * list (list T)) :=
      map (fun pms => (map (fun pm => fst (fst pm)) pms, map snd pms)) rounds.
    Definition opened_of (rounds : list (list pmat)) : list (list (list (list T))) :=
      map (map (fun pm : pmat => map (ys_of (fst (fst pm))) (snd pm))) rounds.
    Lemma open_rounds_ok inv : forall rounds es s, Forall (Forall (pmat_ok inv)) rounds -> prep s es ->
      exists s', open_rounds V T emb generator config interpolate_coset alpha inv (mp_of rounds) s = Some (opened_of rounds, s') /\
        prep s' (es ++ map ent_of (concat rounds)).
    Proof.
      induction rounds as [|pms rounds IH]; intros es s F P.
      - exists s. split; [reflexivity|]. now rewrite app_nil_r.
      - inversion_clear F as [|? ? Hp F']. cbn [mp_of map open_rounds concat opened_of].
        destruct (open_mats_ok inv pms es s Hp P) as (s1 & -> & P1). destruct (IH _ _ F' P1) as (s' & E' & P').
        unfold mp_of in E'. rewrite E'. exists s'. split; [reflexivity|]. rewrite map_app, app_assoc. exact P'.
    Qed.

    (** *** compute_inverse_denominators *)
    Variable K : nat.
    Hypothesis K_small : K <= two_adicity V.
    (** not on the coset of size 2^K *)
    Definition off_coset (z : T) : Prop := forall j, j < 2 ^ K -> emb (cpoint K j) <> z.
    Lemma off_coset_le z k j : off_coset z -> k <= K -> j < 2 ^ k -> emb (cpoint k j) <> z.
    Proof.
      clear interpolate_coset ys_of. intros O Lk Hj. rewrite <- (cpoint_prefix k K j Lk K_small Hj). apply O.
      eapply Nat.lt_le_trans; [exact Hj|apply Nat.pow_le_mono_r; lia].
    Qed.
    Definition note_ok (l : list (T * nat)) : Prop := Forall (fun p => off_coset (fst p) /\ snd p <= K) l.
    Definition noted (l : list (T * nat)) (z : T) (k : nat) : Prop := exists lh, lookup T z l = Some lh /\ k <= lh.
    Lemma note_height_ok z k : off_coset z -> k <= K -> forall l, note_ok l ->
      note_ok (note_height T z k l) /\ noted (note_height T z k l) z k /\
      forall z' k', noted l z' k' -> noted (note_height T z k l) z' k'.
    Proof.
      intros O Lk. induction l as [|[z1 k1] l IH]; intros N; cbn [note_height].
      - split; [repeat constructor; assumption|]. split; [exists k; cbn; rewrite feqb_refl; auto|]. intros z' k' (lh & X & _). discriminate.
      - inversion_clear N as [|? ? [O1 L1] N']. cbn [fst snd] in *. destruct (feqb_spec T z z1) as [<-|Nz].
        + split; [constructor; [split; cbn; [assumption|lia]|assumption]|]. split; [exists (Nat.max k1 k); cbn; rewrite feqb_refl; split; [reflexivity|lia]|].
          intros z' k' (lh & X & L). cbn in X. unfold noted. cbn. destruct (feqb z' z); [|eauto]. injection X as <-. exists (Nat.max k1 k). split; [reflexivity|lia].
        + destruct (IH N') as (N1 & (lh & X & L) & M1). split; [constructor; [split; assumption|exact N1]|]. split.
          * exists lh. cbn. rewrite (proj2 (feqb_neq T z z1) Nz). auto.
          * intros z' k' (lh' & X' & L'). cbn in X'. unfold noted. cbn. destruct (feqb z' z1); [eauto|]. apply M1. exists lh'. auto.
    Qed.
    Lemma note_points_ok k zs : k <= K -> (forall z, In z zs -> off_coset z) -> forall l, note_ok l ->
      let l' := fold_left (fun l z => note_height T z k l) zs l in
      note_ok l' /\ (forall z, In z zs -> noted l' z k) /\ (forall z' k', noted l z' k' -> noted l' z' k').
    Proof.
      intros Lk. induction zs as [|z zs IH]; intros O l N; cbn [fold_left]; [split; [exact N|]; split; [easy|auto]|].
      destruct (note_height_ok z k (O z (or_introl eq_refl)) Lk l N) as (N1 & Z1 & M1).
      destruct (IH (fun z' I => O z' (or_intror I)) _ N1) as (N2 & Z2 & M2). split; [exact N2|]. split; [|auto].
      intros z' [<-|I]; auto.
    Qed.
    Definition pnote_ok (pm : pmat) : Prop :=
      has_rows (fst (fst pm)) (snd (fst pm)) /\ snd (fst pm) <= K /\ forall z, In z (snd pm) -> off_coset z.
    Lemma note_mats_ok : forall pms l, Forall pnote_ok pms -> note_ok l ->
      exists l', note_mats V T (map (fun pm => fst (fst pm)) pms) (map snd pms) l = Some l' /\ note_ok l' /\
        (forall pm z, In pm pms -> In z (snd pm) -> noted l' z (snd (fst pm))) /\ (forall z' k', noted l z' k' -> noted l' z' k').
    Proof.
      induction pms as [|[[m k] zs] pms IH]; intros l F N.
      - exists l. split; [reflexivity|]. split; [exact N|]. split; [easy|auto].
      - inversion_clear F as [|? ? (Hm & Lk & O) F']. cbn [fst snd] in *. cbn [map note_mats fst snd].
        rewrite (rect_height V m k Hm), log2_strict_pow.
        destruct (note_points_ok k zs Lk O l N) as (N1 & Z1 & M1). destruct (IH _ F' N1) as (l' & E1 & N2 & Z2 & M2).
        exists l'. split; [exact E1|]. split; [exact N2|]. split; [|auto].
        intros pm z [<-|I] Iz; [apply M2, Z1; exact Iz|eauto].
    Qed.
    Lemma note_rounds_ok : forall rounds l, Forall (Forall pnote_ok) rounds -> note_ok l ->
      exists l', note_rounds V T (mp_of rounds) l = Some l' /\ note_ok l' /\
        (forall pm z, In pm (concat rounds) -> In z (snd pm) -> noted l' z (snd (fst pm))) /\ (forall z' k', noted l z' k' -> noted l' z' k').
    Proof.
      induction rounds as [|pms rounds IH]; intros l F N.
      - exists l. split; [reflexivity|]. split; [exact N|]. split; [easy|auto].
      - inversion_clear F as [|? ? Hp F']. cbn [mp_of map note_rounds concat].
        destruct (note_mats_ok pms l Hp N) as (l1 & -> & N1 & Z1 & M1). destruct (IH _ F' N1) as (l' & E1 & N2 & Z2 & M2).
        exists l'. split; [exact E1|]. split; [exact N2|]. split; [|auto].
        intros pm z I Iz. apply in_app_or in I as [I|I]; eauto.
    Qed.
    Lemma coset_points_ok n : n <= two_adicity V -> coset_points V generator n = Some (map (cpoint n) (seq 0 (2 ^ n))).
    Proof.
      intros L. unfold coset_points. rewrite tag_some by exact L. rewrite (reverse_slice_ok _ n f0) by apply shifted_powers_length.
      f_equal. apply map_ext_in. intros j _. rewrite shifted_powers_nth by apply rbl_lt. reflexivity.
    Qed.
    Lemma lookup_map {A B} (g : T * A -> B) z (l : list (T * A)) :
      lookup T z (map (fun p => (fst p, g p)) l) = match find (fun p => feqb z (fst p)) l with Some p => Some (g p) | None => None end.
    Proof. induction l as [|[z1 a] l IH]; cbn; [reflexivity|]. now destruct (feqb z z1). Qed.
    Lemma lookup_find {A} z (l : list (T * A)) a : lookup T z l = Some a -> find (fun p => feqb z (fst p)) l = Some (z, a) /\ In (z, a) l.
    Proof.
      induction l as [|[z1 a1] l IH]; cbn; [discriminate|]. destruct (feqb_spec T z z1) as [<-|N].
      - intros [= <-]. auto.
      - intros X. destruct (IH X). auto.
    Qed.
    Lemma denominators_ok rounds : Forall (Forall pnote_ok) rounds -> (exists pm z, In pm (concat rounds) /\ In z (snd pm)) ->
      exists inv, compute_inverse_denominators V T emb generator (mp_of rounds) = Some inv /\
        forall pm z, In pm (concat rounds) -> In z (snd pm) -> denoms_ok inv z (snd (fst pm)).
    Proof.
      intros F (pm0 & z0 & I0 & Iz0). unfold compute_inverse_denominators.
      destruct (note_rounds_ok rounds [] F (Forall_nil _)) as (l & -> & N & Z & _).
      destruct l as [|p0 l0] eqn:El; [destruct (Z _ _ I0 Iz0) as (lh & X & _); discriminate|]. rewrite <- El in *.
      set (n := fold_left (fun a p => Nat.max a (snd p)) l 0).
      assert (n <= K) as Ln.
      { apply (fold_max_le (fun p : T * nat => snd p)); [|lia]. intros p I. unfold note_ok in N. rewrite Forall_forall in N. apply (N _ I). }
      rewrite coset_points_ok by lia.
      assert (forall p, In p l -> option_map (pair (fst p)) (traverse (fun x => inverse (fsub (emb x) (fst p))) (firstn (2 ^ snd p) (map (cpoint n) (seq 0 (2 ^ n))))) =
        Some (fst p, map (fun j => finv (fsub (emb (cpoint (snd p) j)) (fst p))) (seq 0 (2 ^ snd p)))) as G.
      { intros p I. unfold note_ok in N. rewrite Forall_forall in N. destruct (N _ I) as [O L].
        pose proof (proj2 (fold_max_ge (fun p : T * nat => snd p) l 0) p I) as Lp. fold n in Lp.
        assert (firstn (2 ^ snd p) (map (cpoint n) (seq 0 (2 ^ n))) = map (cpoint (snd p)) (seq 0 (2 ^ snd p))) as ->.
        { assert (2 ^ snd p <= 2 ^ n) as Lw by (apply Nat.pow_le_mono_r; lia).
          replace (2 ^ n) with (2 ^ snd p + (2 ^ n - 2 ^ snd p)) by lia. rewrite seq_app, map_app, firstn_app, map_length, seq_length, Nat.sub_diag, firstn_O, app_nil_r.
          rewrite firstn_all2 by (rewrite map_length, seq_length; lia). apply map_ext_in. intros j Hj. apply in_seq in Hj. apply cpoint_prefix; lia. }
        rewrite (traverse_map _ (fun x => finv (fsub (emb x) (fst p)))).
        - cbn [option_map]. now rewrite map_map.
        - intros x Ix. apply in_map_iff in Ix as (j & <- & Hj). apply in_seq in Hj. apply inverse_nz, fsub_nz.
          apply (off_coset_le (fst p) (snd p) j O L). lia. }
      eexists. split.
      - rewrite (traverse_map _ (fun p : T * nat => (fst p, map (fun j => finv (fsub (emb (cpoint (snd p) j)) (fst p))) (seq 0 (2 ^ snd p)))) l G). reflexivity.
      - intros pm z I Iz. destruct (Z pm z I Iz) as (lh & X & Lh). destruct (lookup_find z l lh X) as [Ff Il].
        rewrite Forall_forall in F. assert (pnote_ok pm) as (_ & Lk & O).
        { apply in_concat in I as (pms & Ip & I). specialize (F _ Ip). rewrite Forall_forall in F. auto. }
        unfold denoms_ok. rewrite lookup_map, Ff. eexists. split; [reflexivity|]. cbn [fst snd]. rewrite map_length, seq_length.
        assert (2 ^ snd (fst pm) <= 2 ^ lh) as Lw by (apply Nat.pow_le_mono_r; lia). split; [exact Lw|].
        intros j Hj. split; [apply (off_coset_le z _ j (O z Iz) Lk Hj)|]. rewrite nth_map_seq by lia.
        unfold note_ok in N. rewrite Forall_forall in N. destruct (N _ Il) as [_ L]. cbn in L.
        now rewrite (cpoint_prefix (snd (fst pm)) lh j) by lia.
    Qed.

    Lemma flatten_desc_desc n f : flatten_desc T n f = desc n f.
    Proof. induction n as [|n IH]; [reflexivity|]. cbn. destruct (f n); now rewrite IH. Qed.
    (** What [open] hands to FRI. *)
    Lemma open_reduce_ok rounds : K < 32 -> Forall (Forall pnote_ok) rounds -> (exists pm z, In pm (concat rounds) /\ In z (snd pm)) ->
      (forall pm z, In pm (concat rounds) -> In z (snd pm) -> interp_ok (fst (fst pm)) z) ->
      open_reduce V T emb generator config interpolate_coset alpha (mp_of rounds) =
      Some (opened_of rounds, desc 32 (fun k => match at_k k (map ent_of (concat rounds)) with [] => None
        | _ => Some (map (fun j => peval (terms (map ent_of (concat rounds)) k j) alpha) (seq 0 (2 ^ k))) end)).
    Proof.
      intros K32 F Ex Hi. unfold open_reduce. destruct (denominators_ok rounds F Ex) as (inv & -> & D).
      destruct (open_rounds_ok inv rounds [] (no_openings T)) as (s' & -> & P).
      - apply Forall_forall. intros pms Ip. apply Forall_forall. intros pm I.
        assert (In pm (concat rounds)) as Ic by (apply in_concat; eauto).
        rewrite Forall_forall in F. specialize (F _ Ip). rewrite Forall_forall in F. destruct (F _ I) as (Hm & Lk & O).
        split; [exact Hm|]. split; [lia|]. intros z Iz. split; [now apply Hi|now apply D].
      - intros k. cbn. split; reflexivity.
      - f_equal. f_equal. rewrite flatten_desc_desc. apply desc_ext. intros k _. apply P.
    Qed.
  End Open.
End Pcs.
