(** The zerofier tables, the quotient polynomial and its chunks. *)
From Coq Require Import List Arith Bool Lia Field.
From Verif Require Import Field TcsModel TcsProofs PropTcs FriModel FriProofs PcsModel PolyExt StarkModel StarkPoly.
Import ListNotations.
Open Scope nat_scope.

Section Zf.
  Variable F : two_adic.
  Add Field FF : (fth F).
  Local Open Scope F_scope.
  Lemma shifted_powers_map (g s : F) c : shifted_powers F g s c = map (fun i => s * g ^ i) (seq 0 c).
  Proof.
    revert s. induction c as [|c IH]; intros s; cbn [shifted_powers seq map]; [reflexivity|]. f_equal; [cbn; ring|].
    rewrite IH, <- seq_shift, map_map. apply map_ext. intros i. cbn. ring.
  Qed.
  Lemma batch_inverse_ok (l : list F) : Forall (fun x => x <> 0) l -> batch_inverse F l = Some (map finv l).
  Proof. unfold batch_inverse. induction 1 as [|x l N Nl IH]; cbn [traverse map]; [reflexivity|]. now rewrite inverse_nz, IH. Qed.
  Lemma batch_inverse_none (l : list F) : Exists (fun x => x = 0) l -> batch_inverse F l = None.
  Proof.
    unfold batch_inverse. induction 1 as [x l E|x l _ IH]; cbn [traverse].
    - subst. unfold inverse. now rewrite feqb_refl.
    - rewrite IH. now destruct (inverse x).
  Qed.
  Variables (k a : nat) (s : F).
  Hypothesis L : (k + a <= two_adicity F)%nat.
  Notation n := (2 ^ k)%nat. Notation m := (2 ^ a)%nat.
  Notation w := (gen (k + a) : F).
  (** Z_H at the i-th point of the coset *)
  Definition zh (i : nat) : F := (s * w ^ i) ^ n - 1.
  Lemma zh_table i : zh i = s ^ n * gen a ^ i - 1.
  Proof.
    unfold zh. rewrite fpow_mul_l, <- fpow_mul, (Nat.mul_comm i), fpow_mul, gen_pow by exact L. reflexivity.
  Qed.
  Lemma gen_mod i : gen a ^ i = (gen a ^ (i mod m) : F).
  Proof.
    rewrite (Nat.div_mod i m) at 1 by (apply Nat.pow_nonzero; lia).
    rewrite fpow_add, fpow_mul, gen_order, fpow_1_l by lia. ring.
  Qed.
  Lemma zh_mod i : zh (i mod m) = zh i.
  Proof. rewrite !zh_table. now rewrite (gen_mod i). Qed.
  Lemma zf_evals_eq : map (fun x => s ^ n * x - 1) (shifted_powers F (gen a) 1 m) = map zh (seq 0 m).
  Proof. rewrite shifted_powers_map, map_map. apply map_ext. intros i. rewrite zh_table. ring. Qed.
  Definition zf : zerofier F :=
    {| zf_log_n := k; zf_rate_bits := a; zf_coset_shift := s; zf_evals := map zh (seq 0 m); zf_inverses := map (fun i => / zh i) (seq 0 m) |}.
  Lemma zerofier_new_ok : (forall i, (i < m)%nat -> zh i <> 0) -> zerofier_new F k a s = Some zf.
  Proof.
    intros N. unfold zerofier_new. rewrite tag_some by lia. rewrite zf_evals_eq, batch_inverse_ok.
    - cbn [option_map]. unfold zf. now rewrite map_map.
    - apply Forall_forall. intros x I. apply in_map_iff in I as (i & <- & I). apply in_seq in I. apply N. lia.
  Qed.
  Lemma zerofier_new_none i : (i < m)%nat -> zh i = 0 -> zerofier_new F k a s = None.
  Proof.
    intros Hi Z. unfold zerofier_new. rewrite tag_some by lia. rewrite zf_evals_eq, batch_inverse_none; [reflexivity|].
    apply Exists_exists. exists (zh i). split; [apply in_map; apply in_seq; lia|exact Z].
  Qed.
  Lemma nth_error_map_seq {A} (f : nat -> A) c i : (i < c)%nat -> nth_error (map f (seq 0 c)) i = Some (f i).
  Proof.
    intros H. rewrite nth_error_map. rewrite (nth_error_nth' _ 0%nat) by now rewrite seq_length. now rewrite seq_nth.
  Qed.
  Lemma mod_m i : (i mod m < m)%nat. Proof. apply Nat.mod_upper_bound, Nat.pow_nonzero. lia. Qed.
  Lemma zf_eval_ok i : zerofier_eval F zf i = Some (zh i).
  Proof. unfold zerofier_eval. cbn [zf zf_evals zf_rate_bits]. rewrite nth_error_map_seq by apply mod_m. now rewrite zh_mod. Qed.
  Lemma zf_inverse_ok i : zerofier_eval_inverse F zf i = Some (/ zh i).
  Proof. unfold zerofier_eval_inverse. cbn [zf zf_inverses zf_rate_bits]. rewrite nth_error_map_seq by apply mod_m. now rewrite zh_mod. Qed.

  Lemma cycle_mul_ok (all b : list F) : all <> [] -> forall r, (r <= length all)%nat ->
    cycle_mul F all (skipn r all) b = map (fun i => nth ((r + i) mod length all) all 0 * nth i b 0) (seq 0 (length b)).
  Proof.
    intros Na. assert (1 <= length all)%nat as La by (destruct all; [contradiction|cbn; lia]).
    induction b as [|y b IH]; intros r Lr; cbn [length seq map cycle_mul]; [reflexivity|].
    assert (forall r, (r < length all)%nat -> exists x, skipn r all = x :: skipn (S r) all /\ nth r all 0 = x) as Sk.
    { clear. induction all as [|x all IH]; intros r Lr; [cbn in Lr; lia|]. destruct r as [|r]; [exists x; split; reflexivity|].
      cbn [skipn nth]. apply (IH r). cbn in Lr. lia. }
    assert (forall r x, (r < length all)%nat -> nth r all 0 = x -> x * y :: cycle_mul F all (skipn (S r) all) b =
      nth ((r + 0) mod length all) all 0 * nth 0 (y :: b) 0 :: map (fun i => nth ((r + i) mod length all) all 0 * nth i (y :: b) 0) (seq 1 (length b))) as G.
    { intros r' x Hr' Hx. rewrite IH by lia. f_equal.
      - rewrite Nat.add_0_r, Nat.mod_small by exact Hr'. cbn [nth]. now rewrite Hx.
      - rewrite <- seq_shift, map_map. apply map_ext. intros i. cbn [nth]. f_equal. f_equal. f_equal. lia. }
    destruct (Nat.eq_dec r (length all)) as [->|Nr].
    - rewrite skipn_all. destruct (Sk 0%nat ltac:(lia)) as (x & Ex & Hx). 
      assert (forall f : F -> list F -> list F, match all with [] => [] | x :: rest => f x rest end = f x (skipn 1 all)) as M.
      { intros f. destruct all as [|z all']; [contradiction|]. cbn in Ex. injection Ex as ->. reflexivity. }
      rewrite (M (fun x rest => x * y :: cycle_mul F all rest b)). rewrite (G 0%nat x ltac:(lia) Hx).
      f_equal.
      + do 2 f_equal. rewrite !Nat.add_0_r, Nat.mod_same, Nat.mod_0_l by lia. reflexivity.
      + apply map_ext. intros i. f_equal. f_equal. pose proof (Nat.mod_add i 1 (length all) ltac:(lia)) as Q. rewrite Nat.mul_1_l, Nat.add_comm in Q. rewrite Nat.add_0_l. symmetry. exact Q.
    - destruct (Sk r ltac:(lia)) as (x & -> & Hx). apply G; [lia|exact Hx].
  Qed.
  Lemma lagrange_ok j : (forall i, (i < n * m)%nat -> s * w ^ i <> gen k ^ j) ->
    lagrange_basis_unnormalized F zf j = Some (map (fun i => zh i * / (s * w ^ i - gen k ^ j)) (seq 0 (n * m))).
  Proof.
    intros N. unfold lagrange_basis_unnormalized. cbn [zf zf_log_n zf_rate_bits zf_coset_shift zf_evals]. rewrite !tag_some by lia.
    rewrite shifted_powers_map, map_map, Nat.pow_add_r. rewrite batch_inverse_ok.
    2:{ apply Forall_forall. intros x I. apply in_map_iff in I as (i & <- & I). apply in_seq in I. apply fsub_nz, N. lia. }
    cbn [option_map]. f_equal. rewrite map_map.
    rewrite (cycle_mul_ok (map zh (seq 0 m)) _) with (r := 0%nat).
    - rewrite !map_length, !seq_length. apply map_ext_in. intros i I. apply in_seq in I. rewrite Nat.add_0_l.
      rewrite !nth_map_seq by (try apply mod_m; lia). now rewrite zh_mod.
    - pose proof (Nat.pow_nonzero 2 a). destruct m; [lia|]. cbn. discriminate.
    - lia.
  Qed.
  Lemma lagrange_none i j : (i < n * m)%nat -> s * w ^ i = gen k ^ j -> lagrange_basis_unnormalized F zf j = None.
  Proof.
    intros Hi Ei. unfold lagrange_basis_unnormalized. cbn [zf zf_log_n zf_rate_bits zf_coset_shift zf_evals]. rewrite !tag_some by lia.
    rewrite shifted_powers_map, map_map, Nat.pow_add_r. rewrite batch_inverse_none; [reflexivity|].
    apply Exists_exists. exists (s * w ^ i - gen k ^ j). split; [|rewrite Ei; ring].
    apply in_map_iff. exists i. split; [reflexivity|apply in_seq; lia].
  Qed.
End Zf.

(** ** Folding *)
Section Folding.
  Variables V T : two_adic.
  Variable emb : V -> T.
  Hypothesis E : embedding V T emb.
  Add Field VF5 : (fth V).
  Add Field TF5 : (fth T).
  Local Open Scope F_scope.
  (** Horner's rule, first value with the highest power *)
  Definition horner (alpha : T) (l : list T) : T := fold_left (fun acc x => acc * alpha + x) l 0.
  Lemma fold_traverse {K : field} (const : V -> K) (into : K -> T) alpha w l : forall acc,
    fold_constraints const into alpha w acc l =
    option_map (fun vs => fold_left (fun acc x => acc * alpha + x) (map into vs) acc) (traverse (fun c => eval const w (as_zero c)) l).
  Proof.
    induction l as [|c l IH]; intros acc; cbn [fold_constraints traverse]; [reflexivity|].
    destruct (eval const w (as_zero c)) as [x|]; [|reflexivity]. rewrite IH.
    now destruct (traverse _ l).
  Qed.
  Lemma horner_from alpha l : forall acc, fold_left (fun acc x => acc * alpha + x) l acc = acc * alpha ^ length l + horner alpha l.
  Proof.
    unfold horner. induction l as [|x l IH]; intros acc; cbn [fold_left length fpow]; [ring|].
    rewrite (IH (acc * alpha + x)), (IH (0 * alpha + x)). ring.
  Qed.
  Lemma horner_poly alpha l : horner alpha l = peval (rev l) alpha.
  Proof.
    induction l as [|x l IH] using rev_ind; [reflexivity|]. unfold horner. rewrite fold_left_app, rev_app_distr. cbn [fold_left rev app peval].
    rewrite <- IH. unfold horner. ring.
  Qed.

  (** the polynomial whose value at x is the folded constraints *)
  Variable k : nat.
  Hypothesis Lk : (k <= two_adicity V)%nat.
  Notation n := (2 ^ k)%nat.
  Variable ps : list (list V).
  Variable pv : list V.
  Notation cp := (cpoly V k ps pv).
  Definition folded (alpha : T) (l : list (assertion V)) : list T :=
    fold_left (fun acc c => padd (pscale alpha acc) (map emb (cp (as_zero c)))) l [].
  Lemma folded_from alpha l x : forall acc,
    peval (fold_left (fun acc c => padd (pscale alpha acc) (map emb (cp (as_zero c)))) l acc) x =
    fold_left (fun acc y => acc * alpha + y) (map (fun c => hpeval V T emb (cp (as_zero c)) x) l) (peval acc x).
  Proof.
    induction l as [|c l IH]; intros acc; cbn [fold_left map]; [reflexivity|]. rewrite IH. rewrite peval_padd, peval_pscale. f_equal.
    unfold hpeval. ring.
  Qed.
  Lemma folded_ok alpha l x : peval (folded alpha l) x = horner alpha (map (fun c => hpeval V T emb (cp (as_zero c)) x) l).
  Proof. unfold folded. rewrite folded_from. reflexivity. Qed.
  Lemma folded_length alpha l N : Forall (fun c => (length (cp (as_zero c)) <= N)%nat) l -> (length (folded alpha l) <= N)%nat.
  Proof.
    intros F. unfold folded. assert (forall acc, (length acc <= N)%nat ->
      (length (fold_left (fun acc c => padd (pscale alpha acc) (map emb (cp (as_zero c)))) l acc) <= N)%nat) as G.
    { induction F as [|c l Lc F IH]; intros acc La; cbn [fold_left]; [exact La|]. apply IH. rewrite padd_length, pscale_length, map_length. lia. }
    apply G. cbn. lia.
  Qed.
  Lemma traverse_eval {A B} (f : A -> option B) (h : A -> B) l : (forall x, In x l -> f x = Some (h x)) -> traverse f l = Some (map h l).
  Proof.
    induction l as [|x l IH]; intros H; cbn [traverse map]; [reflexivity|]. rewrite (H x) by now left. rewrite IH by (intros; apply H; now right). reflexivity.
  Qed.
  Definition indices_ok (l : list (assertion V)) : Prop :=
    Forall (fun c => exists s, symbolic_of V (length ps) (length pv) (as_zero c) = Some s) l.
  (** the verifier's folder *)
  Lemma fold_at alpha l x : indices_ok l ->
    fold_constraints emb (fun y => y) alpha (poly_window V k ps pv T emb x) 0 l = Some (peval (folded alpha l) x).
  Proof.
    intros F. rewrite fold_traverse. rewrite (traverse_eval _ (fun c => hpeval V T emb (cp (as_zero c)) x)).
    - cbn [option_map]. rewrite folded_ok. f_equal. unfold horner. f_equal. now rewrite map_id.
    - intros c I. unfold indices_ok in F. rewrite Forall_forall in F. destruct (F c I) as (s & Es). exact (cpoly_eval V k ps pv T emb E _ s x Es).
  Qed.
  (** the prover's folder *)
  Lemma fold_base alpha l (x : V) : indices_ok l ->
    fold_constraints (fun c => c) emb alpha (poly_window V k ps pv V (fun y => y) x) 0 l = Some (peval (folded alpha l) (emb x)).
  Proof.
    intros F. rewrite fold_traverse. rewrite (traverse_eval _ (fun c => hpeval V V (fun y => y) (cp (as_zero c)) x)).
    - cbn [option_map]. rewrite folded_ok. f_equal. unfold horner. f_equal. rewrite map_map. apply map_ext. intros c.
      unfold hpeval. rewrite map_id. apply (emb_peval _ _ _ E).
    - intros c I. unfold indices_ok in F. rewrite Forall_forall in F. destruct (F c I) as (s & Es). exact (cpoly_eval V k ps pv V (fun y => y) (id_embedding V) _ s x Es).
  Qed.

  (** *** Selectors on the trace domain *)
  Notation g := (gen k : V).
  Fixpoint natf (j : nat) : V := match j with O => 0 | S j => 1 + natf j end.
  Lemma n_nz : natf n <> 0.
  Proof.
    clear Lk. assert (forall a b, natf (a + b) = natf a + natf b) as G.
    { induction a as [|a IH]; intros b; cbn [natf Nat.add]; [ring|]. rewrite IH. ring. }
    induction k as [|j IH].
    - cbn [Nat.pow natf]. intros Z. apply (f1_nz V). rewrite <- Z. ring.
    - replace (2 ^ S j)%nat with (2 ^ j + 2 ^ j)%nat by (rewrite Nat.pow_succ_r'; lia). rewrite G. intros Z.
      assert ((1 + 1) * natf (2 ^ j) = (0 : V)) as Z' by (rewrite <- Z; ring).
      apply fmul_integral in Z' as [Z'|Z']; [now apply (two_nz V)|contradiction].
  Qed.
  Lemma pfirst_1 : peval (pfirst V k) 1 = natf n.
  Proof. unfold pfirst, geom. induction n as [|j IH]; [reflexivity|]. cbn [repeat peval]. rewrite IH. cbn [natf]. ring. Qed.
  Lemma hid p (x : V) : hpeval V V (fun y => y) p x = peval p x.
  Proof. unfold hpeval. now rewrite map_id. Qed.
  Lemma g_pow_n i : (g ^ i) ^ n = 1.
  Proof. rewrite <- fpow_mul, Nat.mul_comm, fpow_mul, gen_order, fpow_1_l by exact Lk. reflexivity. Qed.
  Lemma pfirst_row i : (i < n)%nat -> (i = 0%nat /\ peval (pfirst V k) (g ^ i) <> 0) \/ (i <> 0%nat /\ peval (pfirst V k) (g ^ i) = 0).
  Proof.
    intros Hi. destruct (Nat.eq_dec i 0) as [->|N]; [left|right]; (split; [try reflexivity; try assumption|]).
    - cbn [fpow]. rewrite pfirst_1. exact n_nz.
    - pose proof (pfirst_ok V k V (fun y => y) (id_embedding V) (g ^ i)) as X. rewrite hid, g_pow_n in X.
      assert ((g ^ i - 1) * peval (pfirst V k) (g ^ i) = 0) as X' by (rewrite X; ring).
      apply fmul_integral in X' as [Z|Z]; [|exact Z]. exfalso. apply N.
      apply (gen_pow_eq_1 V k Lk i Hi). now apply fsub_0.
  Qed.
  Lemma g_last : g ^ (n - 1) = / g.
  Proof.
    pose proof (gen_nz V k Lk) as Ng. apply (fmul_cancel_l V g _ _ Ng). replace (g * / g) with (1 : V) by (field; exact Ng).
    change (g * g ^ (n - 1)) with (g ^ S (n - 1)). replace (S (n - 1)) with n by (pose proof (Nat.pow_nonzero 2 k); lia). now apply gen_order.
  Qed.
  Lemma plast_row i : (i < n)%nat -> (i = (n - 1)%nat /\ peval (plast V k) (g ^ i) <> 0) \/ (i <> (n - 1)%nat /\ peval (plast V k) (g ^ i) = 0).
  Proof.
    intros Hi. pose proof (gen_nz V k Lk) as Ng. destruct (Nat.eq_dec i (n - 1)) as [->|N]; [left|right]; (split; [try reflexivity; try assumption|]).
    - unfold plast. rewrite peval_pscale, pcomp_ok. rewrite g_last. replace (g * / g) with (1 : V) by (field; exact Ng).
      fold (pfirst V k). rewrite pfirst_1. apply fmul_nz; [exact Ng|exact n_nz].
    - pose proof (plast_ok V k Lk V (fun y => y) (id_embedding V) (g ^ i)) as X. rewrite hid, g_pow_n in X.
      assert ((g ^ i - / g) * peval (plast V k) (g ^ i) = 0) as X' by (rewrite X; ring).
      apply fmul_integral in X' as [Z|Z]; [|exact Z]. exfalso. apply N. apply fsub_0 in Z. rewrite <- g_last in Z.
      apply (gen_pow_inj V k Lk) in Z; [exact Z|exact Hi|lia].
  Qed.
  Lemma ptrans_row i : (i < n)%nat -> (i <> (n - 1)%nat /\ peval (ptrans V k) (g ^ i) <> 0) \/ (i = (n - 1)%nat /\ peval (ptrans V k) (g ^ i) = 0).
  Proof.
    intros Hi. pose proof (ptrans_ok V k V (fun y => y) (id_embedding V) (g ^ i)) as X. rewrite hid in X. rewrite X.
    destruct (Nat.eq_dec i (n - 1)) as [->|N]; [right; split; [reflexivity|]; rewrite g_last; ring|left; split; [exact N|]].
    apply fsub_nz. rewrite <- g_last. intros Z. apply (gen_pow_inj V k Lk) in Z; [contradiction|exact Hi|lia].
  Qed.
End Folding.

(** ** From the row-by-row check to vanishing on the trace domain *)
Section Vanish.
  Variable V : two_adic.
  Add Field VF6 : (fth V).
  Local Open Scope F_scope.
  (** How often each selector occurs in a term, when that is the same in all terms. *)
  Fixpoint selector_degree (e : expr V) : option (nat * nat * nat) :=
    match e with
    | Local _ | Next _ | Pub _ | Const _ => Some (0, 0, 0)%nat
    | IsFirstRow => Some (1, 0, 0)%nat
    | IsLastRow => Some (0, 1, 0)%nat
    | IsTransition => Some (0, 0, 1)%nat
    | Neg x => selector_degree x
    | Mul x y => match selector_degree x, selector_degree y with
                 | Some (a, b, c), Some (a', b', c') => Some (a + a', b + b', c + c')%nat
                 | _, _ => None
                 end
    | Add x y | Sub x y => match selector_degree x, selector_degree y with
                 | Some (a, b, c), Some (a', b', c') =>
                     if ((a =? a') && (b =? b') && (c =? c'))%nat then Some (a, b, c) else None
                 | _, _ => None
                 end
    end.
  Lemma scaled (w w' : window V V) c1 c2 c3 : w_local w' = w_local w -> w_next w' = w_next w -> w_public w' = w_public w ->
    w_first w' = c1 * w_first w -> w_last w' = c2 * w_last w -> w_transition w' = c3 * w_transition w ->
    forall e a b c v, selector_degree e = Some (a, b, c) -> eval (fun x => x) w e = Some v ->
    eval (fun x => x) w' e = Some (c1 ^ a * c2 ^ b * c3 ^ c * v).
  Proof.
    intros E1 E2 E3 E4 E5 E6.
    induction e as [i|i|i| | | |c0|x IHx y IHy|x IHx y IHy|x IHx|x IHx y IHy]; intros a b c v Ed Ev; cbn [selector_degree eval] in *.
    1,2,3,7: injection Ed as <- <- <-; rewrite ?E1, ?E2, ?E3; rewrite Ev; f_equal; cbn; ring.
    1,2,3: injection Ed as <- <- <-; injection Ev as <-; rewrite ?E4, ?E5, ?E6; f_equal; cbn; ring.
    - destruct (selector_degree x) as [[[ax bx] cx]|], (selector_degree y) as [[[ay b_y] cy]|]; try discriminate.
      destruct (Nat.eqb_spec ax ay) as [<-|], (Nat.eqb_spec bx b_y) as [<-|], (Nat.eqb_spec cx cy) as [<-|]; try discriminate.
      injection Ed as <- <- <-. destruct (eval _ w x) as [vx|], (eval _ w y) as [vy|]; try discriminate. injection Ev as <-.
      rewrite (IHx _ _ _ _ eq_refl eq_refl), (IHy _ _ _ _ eq_refl eq_refl). cbn [opt2]. f_equal. ring.
    - destruct (selector_degree x) as [[[ax bx] cx]|], (selector_degree y) as [[[ay b_y] cy]|]; try discriminate.
      destruct (Nat.eqb_spec ax ay) as [<-|], (Nat.eqb_spec bx b_y) as [<-|], (Nat.eqb_spec cx cy) as [<-|]; try discriminate.
      injection Ed as <- <- <-. destruct (eval _ w x) as [vx|], (eval _ w y) as [vy|]; try discriminate. injection Ev as <-.
      rewrite (IHx _ _ _ _ eq_refl eq_refl), (IHy _ _ _ _ eq_refl eq_refl). cbn [opt2]. f_equal. ring.
    - destruct (eval _ w x) as [vx|]; try discriminate. injection Ev as <-. rewrite (IHx _ _ _ _ Ed eq_refl). cbn [option_map]. f_equal. ring.
    - destruct (selector_degree x) as [[[ax bx] cx]|], (selector_degree y) as [[[ay b_y] cy]|]; try discriminate.
      injection Ed as <- <- <-. destruct (eval _ w x) as [vx|], (eval _ w y) as [vy|]; try discriminate. injection Ev as <-.
      rewrite (IHx _ _ _ _ eq_refl eq_refl), (IHy _ _ _ _ eq_refl eq_refl). cbn [opt2]. f_equal. rewrite !fpow_add. ring.
  Qed.
  Variable k : nat.
  Hypothesis Lk : (k <= two_adicity V)%nat.
  Notation n := (2 ^ k)%nat.
  Notation g := (gen k : V).
  Variable ps : list (list V).
  Variable pv : list V.
  Definition row_window (i : nat) (local next : list V) : window V V :=
    {| w_local := local; w_next := next; w_public := pv;
       w_first := from_bool V (i =? 0)%nat; w_last := from_bool V (i =? n - 1)%nat;
       w_transition := from_bool V (negb (i =? n - 1)%nat) |}.
  Lemma row_scaled i e d v : (i < n)%nat -> selector_degree e = Some d ->
    eval (fun x => x) (row_window i (map (fun p => peval p (g ^ i)) ps) (map (fun p => peval p (g * g ^ i)) ps)) e = Some v ->
    exists c, c <> 0 /\ eval (fun x => x) (poly_window V k ps pv V (fun y => y) (g ^ i)) e = Some (c * v).
  Proof.
    intros Hi Ed Ev. destruct d as [[a b] c].
    assert (exists c1, c1 <> 0 /\ peval (pfirst V k) (g ^ i) = c1 * from_bool V (i =? 0)%nat) as (c1 & N1 & E1).
    { destruct (pfirst_row V k Lk i Hi) as [[-> N]|[N Z]].
      - exists (peval (pfirst V k) (g ^ 0)). split; [exact N|]. cbn [Nat.eqb from_bool]. ring.
      - exists 1. split; [apply f1_nz|]. rewrite Z, (proj2 (Nat.eqb_neq i 0) N). cbn [from_bool]. ring. }
    assert (exists c1, c1 <> 0 /\ peval (plast V k) (g ^ i) = c1 * from_bool V (i =? n - 1)%nat) as (c2 & N2 & E2).
    { destruct (plast_row V k Lk i Hi) as [[Ei N]|[N Z]].
      - exists (peval (plast V k) (g ^ i)). split; [exact N|]. rewrite (proj2 (Nat.eqb_eq i _) Ei). cbn [from_bool]. ring.
      - exists 1. split; [apply f1_nz|]. rewrite Z, (proj2 (Nat.eqb_neq i _) N). cbn [from_bool]. ring. }
    assert (exists c1, c1 <> 0 /\ peval (ptrans V k) (g ^ i) = c1 * from_bool V (negb (i =? n - 1)%nat)) as (c3 & N3 & E3).
    { destruct (ptrans_row V k Lk i Hi) as [[Ni N]|[Ei Z]].
      - exists (peval (ptrans V k) (g ^ i)). split; [exact N|]. rewrite (proj2 (Nat.eqb_neq i _) Ni). cbn [negb from_bool]. ring.
      - exists 1. split; [apply f1_nz|]. rewrite Z, (proj2 (Nat.eqb_eq i _) Ei). cbn [negb from_bool]. ring. }
    exists (c1 ^ a * c2 ^ b * c3 ^ c). split.
    { apply fmul_nz; [apply fmul_nz|]; now apply fpow_nz. }
    eapply scaled; [| | | | | |exact Ed|exact Ev]; cbn [poly_window row_window w_local w_next w_public w_first w_last w_transition].
    - apply map_ext. intros p. apply hid.
    - apply map_ext. intros p. apply hid.
    - reflexivity.
    - rewrite hid. exact E1.
    - rewrite hid. exact E2.
    - rewrite hid. exact E3.
  Qed.
  Lemma debug_assert_zero w c : debug_assert V w c = true <-> eval (fun x => x) w (as_zero c) = Some 0.
  Proof.
    destruct c as [x|x y]; cbn [debug_assert as_zero eval].
    - destruct (eval _ w x) as [v|]; [|split; discriminate]. split; [intros E; apply feqb_ok in E; now subst|intros [= ->]; apply feqb_refl].
    - destruct (eval _ w x) as [v|], (eval _ w y) as [v'|]; cbn [opt2]; try (split; discriminate).
      split; [intros E; apply feqb_ok in E; subst; f_equal; ring|intros [= Z]; apply fsub_0 in Z; subst; apply feqb_refl].
  Qed.
  Lemma check_rows (a : air V) trace : height V trace = n ->
    (check_constraints V a trace pv = true <->
     forall i, (i < n)%nat -> exists local next, row V trace i = Some local /\ row V trace ((i + 1) mod n) = Some next /\
       Forall (fun c => eval (fun x => x) (row_window i local next) (as_zero c) = Some 0) (air_eval a)).
  Proof.
    intros H. unfold check_constraints. rewrite H. rewrite forallb_forall. split.
    - intros F i Hi. assert (In i (seq 0 n)) as Ii by (apply in_seq; lia). specialize (F i Ii).
      destruct (row V trace i) as [local|], (row V trace ((i + 1) mod n)) as [next|]; try discriminate.
      exists local, next. split; [reflexivity|]. split; [reflexivity|]. rewrite forallb_forall in F. apply Forall_forall.
      intros c Ic. apply debug_assert_zero. exact (F c Ic).
    - intros F i Hi. apply in_seq in Hi. destruct (F i ltac:(lia)) as (local & next & -> & -> & G). rewrite forallb_forall.
      intros c Ic. rewrite Forall_forall in G. apply debug_assert_zero. exact (G c Ic).
  Qed.
  Lemma g_mod i : g ^ (i mod n) = g ^ i.
  Proof.
    rewrite (Nat.div_mod i n) at 2 by (apply Nat.pow_nonzero; lia).
    rewrite fpow_add, fpow_mul, gen_order, fpow_1_l by exact Lk. ring.
  Qed.
  Lemma row_of_some (m : matrix V) i l : row V m i = Some l -> l = row_of m i.
  Proof. unfold row, row_of. destruct (_ <=? _)%nat; [now intros [= <-]|discriminate]. Qed.
  Lemma check_vanish (a : air V) trace : has_rows trace k ->
    tabulates trace n (fun i => 1 * g ^ i) ps -> check_constraints V a trace pv = true ->
    Forall (fun c => exists d, selector_degree (as_zero c) = Some d) (air_eval a) ->
    indices_ok V ps pv (air_eval a) ->
    Forall (fun c => forall i, (i < n)%nat -> peval (cpoly V k ps pv (as_zero c)) (g ^ i) = 0) (air_eval a).
  Proof.
    intros Hr Tb Ck Hom Ix. apply Forall_forall. intros c Ic i Hi.
    rewrite check_rows in Ck by exact (rect_height V _ _ Hr). destruct (Ck i Hi) as (local & next & R1 & R2 & F).
    apply row_of_some in R1. apply row_of_some in R2. rewrite (tab_row V _ _ _ _ _ Tb) in R1 by exact Hi.
    rewrite (tab_row V _ _ _ _ _ Tb) in R2 by (apply Nat.mod_upper_bound, Nat.pow_nonzero; lia).
    subst. unfold indices_ok in Ix. rewrite Forall_forall in F, Hom, Ix. specialize (F c Ic). destruct (Hom c Ic) as (d & Ed). destruct (Ix c Ic) as (s & Es).
    assert (map (fun p : list V => peval p (1 * g ^ i)) ps = map (fun p => peval p (g ^ i)) ps) as X1.
    { apply map_ext. intros p. f_equal. ring. }
    assert (map (fun p : list V => peval p (1 * g ^ ((i + 1) mod n))) ps = map (fun p => peval p (g * g ^ i)) ps) as X2.
    { apply map_ext. intros p. f_equal. rewrite g_mod, fpow_add, fpow_1_r. ring. }
    rewrite X1, X2 in F. destruct (row_scaled i _ d 0 Hi Ed F) as (cc & _ & Ev).
    rewrite (cpoly_eval V k ps pv V (fun y => y) (id_embedding V) _ s _ Es) in Ev. injection Ev as Ev. rewrite hid in Ev. rewrite Ev. ring.
  Qed.
End Vanish.

(** ** The quotient *)
Section Quotient.
  Variables V T : two_adic.
  Variable emb : V -> T.
  Hypothesis E : embedding V T emb.
  Add Field VF7 : (fth V).
  Add Field TF7 : (fth T).
  Local Open Scope F_scope.
  Variables (k a : nat) (s : V).
  Hypothesis L : (k + a <= two_adicity V)%nat.
  Hypothesis Ns : s <> 0.
  Hypothesis Ng : s ^ (2 ^ (k + a)) <> 1.
  Notation n := (2 ^ k)%nat. Notation m := (2 ^ a)%nat.
  Notation w := (gen (k + a) : V).
  Notation pt i := (s * w ^ i).
  Variable ps : list (list V).
  Variable pv : list V.
  Notation cp := (cpoly V k ps pv).
  Lemma n1 : (1 <= n)%nat. Proof. pose proof (Nat.pow_nonzero 2 k). lia. Qed.
  Lemma m1 : (1 <= m)%nat. Proof. pose proof (Nat.pow_nonzero 2 a). lia. Qed.
  Lemma quotient_exists alpha l N : (N <= n + m * n)%nat -> Forall (fun c => (length (cp (as_zero c)) <= N)%nat) l ->
    Forall (fun c => forall i, (i < n)%nat -> peval (cp (as_zero c)) (gen k ^ i) = 0) l ->
    exists Q, (length Q <= m * n)%nat /\ forall x, peval (folded V T emb k ps pv alpha l) x = (x ^ n - 1) * peval Q x.
  Proof.
    intros LN FL FZ. pose proof (folded_length V T emb k ltac:(lia) ps pv alpha l N FL) as Lf.
    destruct (pdiv_zh T n n1 _ (folded V T emb k ps pv alpha l) (le_n _)) as (Q & r & Lr & LQ & EQ).
    exists Q. split; [lia|]. intros x. rewrite EQ.
    assert (peval r x = 0) as ->; [|ring].
    apply (poly_roots T (map (fun i => emb (gen k ^ i)) (seq 0 n))).
    - assert (forall l, NoDup l -> (forall t, In t l -> (t < n)%nat) -> NoDup (map (fun t => emb (gen k ^ t)) l)) as G.
      { clear - E L. induction l as [|t l IH]; intros ND Hl; cbn [map]; [constructor|]. inversion_clear ND as [|? ? N1 N2]. constructor.
        - intros I. apply in_map_iff in I as (t' & Eq & I'). apply (emb_inj _ _ _ E) in Eq.
          apply (gen_pow_inj V k ltac:(lia)) in Eq; [subst; contradiction| |]; apply Hl; [now right|now left].
        - apply IH; [exact N2|]. intros; apply Hl; now right. }
      apply G; [apply seq_NoDup|]. intros t Ht. apply in_seq in Ht. lia.
    - rewrite map_length, seq_length. exact Lr.
    - intros y I. apply in_map_iff in I as (i & <- & I). apply in_seq in I.
      pose proof (EQ (emb (gen k ^ i))) as Z. rewrite folded_ok in Z.
      rewrite <- (emb_pow _ _ _ E), (g_pow_n V k ltac:(lia)), (emb_1 _ _ _ E) in Z.
      assert (map (fun c => hpeval V T emb (cp (as_zero c)) (emb (gen k ^ i))) l = repeat 0 (length l)) as ER.
      { clear - FZ I E. induction FZ as [|c l Hc F IH]; cbn [map length repeat]; [reflexivity|]. rewrite IH. f_equal.
        unfold hpeval. rewrite <- (emb_peval _ _ _ E), Hc by lia. apply (emb_0 _ _ _ E). }
      rewrite ER in Z. assert (forall j, horner T alpha (repeat 0 j) = 0) as H0.
      { clear. unfold horner. induction j as [|j IH]; [reflexivity|]. cbn [repeat fold_left]. replace (0 * alpha + 0) with (0 : T) by ring. exact IH. }
      rewrite H0 in Z. transitivity ((1 - 1) * peval Q (emb (gen k ^ i)) + peval r (emb (gen k ^ i))); [ring|now rewrite <- Z].
  Qed.

  Notation zhi i := (zh V k a s i).
  Lemma w_order : w ^ (n * m) = 1. Proof. rewrite <- Nat.pow_add_r. now apply gen_order. Qed.
  Lemma zh_nz i : zhi i <> 0.
  Proof.
    unfold zh. intros Z. apply fsub_0 in Z. apply Ng. rewrite Nat.pow_add_r, fpow_mul.
    assert (((pt i) ^ n) ^ m = 1) as X by (rewrite Z; apply fpow_1_l).
    rewrite <- fpow_mul, fpow_mul_l, <- (fpow_mul V w), (Nat.mul_comm i), (fpow_mul V w), w_order, fpow_1_l in X. rewrite <- fpow_mul, <- X. ring.
  Qed.
  Lemma pt_off i j : pt i <> gen k ^ j.
  Proof. intros X. apply (zh_nz i). unfold zh. rewrite X, (g_pow_n V k ltac:(lia)). ring. Qed.
  Definition td : coset V := {| log_n := k; shift := 1 |}.
  Definition qd : coset V := {| log_n := k + a; shift := s |}.
  Definition sels : selectors (list V) :=
    {| is_first_row := map (fun i => peval (pfirst V k) (pt i)) (seq 0 (n * m));
       is_last_row := map (fun i => peval (plast V k) (pt i)) (seq 0 (n * m));
       is_transition := map (fun i => peval (ptrans V k) (pt i)) (seq 0 (n * m));
       inv_zeroifier := map (fun i => / zhi i) (seq 0 (n * m)) |}.
  Lemma s_ne1 : s <> 1. Proof. intros ->. apply Ng, fpow_1_l. Qed.
  Lemma sels_ok : selectors_on_coset V td qd = Some sels.
  Proof.
    unfold selectors_on_coset. cbn [td qd shift log_n]. rewrite feqb_refl, (proj2 (feqb_neq V _ _) s_ne1).
    destruct (Nat.ltb_spec (k + a) k); [lia|]. cbn [negb orb]. replace (k + a - k)%nat with a by lia.
    rewrite zerofier_new_ok by (try exact L; intros; apply zh_nz). unfold coset_gen. cbn [td qd log_n]. rewrite !tag_some by lia.
    rewrite !lagrange_ok by (try exact L; intros; apply pt_off). pose proof (gen_nz V k ltac:(lia)) as Nk. rewrite inverse_nz by exact Nk.
    f_equal. unfold sels. f_equal.
    - apply map_ext. intros i. pose proof (pfirst_ok V k V (fun y => y) (id_embedding V) (pt i)) as X. rewrite hid in X.
      fold (zhi i) in X. rewrite <- X. cbn [fpow]. field. apply fsub_nz. exact (pt_off i 0).
    - apply map_ext. intros i. pose proof (plast_ok V k ltac:(lia) V (fun y => y) (id_embedding V) (pt i)) as X. rewrite hid in X.
      fold (zhi i) in X. rewrite (g_last V k ltac:(lia)). rewrite <- X. pose proof (pt_off i (n - 1)) as O. rewrite (g_last V k ltac:(lia)) in O.
      apply fsub_nz in O. set (d := pt i - / gen k) in *. field. exact O.
    - rewrite shifted_powers_map, map_map, Nat.pow_add_r. apply map_ext. intros i.
      pose proof (ptrans_ok V k V (fun y => y) (id_embedding V) (pt i)) as X. rewrite hid in X. now rewrite X.
    - unfold cycle_take. cbn [zf zf_inverses]. rewrite map_length, seq_length, Nat.pow_add_r. apply map_ext. intros i.
      rewrite nth_map_seq by (apply Nat.mod_upper_bound, Nat.pow_nonzero; lia). now rewrite zh_mod.
  Qed.

  Lemma w_mod i : w ^ (i mod (n * m)) = w ^ i.
  Proof.
    pose proof n1. pose proof m1. rewrite (Nat.div_mod i (n * m)) at 2 by nia. rewrite fpow_add, fpow_mul, w_order, fpow_1_l. ring.
  Qed.
  Lemma quotient_values_ok (ar : air V) alpha tq Q : ps <> [] -> tabulates tq (n * m) (fun i => pt i) ps ->
    indices_ok V ps pv (air_eval ar) ->
    (forall x, peval (folded V T emb k ps pv alpha (air_eval ar)) x = (x ^ n - 1) * peval Q x) ->
    quotient_values V T emb ar pv td qd tq alpha = Some (map (fun i => peval Q (emb (pt i))) (seq 0 (n * m))).
  Proof.
    intros Nps Tb Ix HQ. unfold quotient_values. rewrite sels_ok. unfold coset_size. cbn [qd td log_n].
    replace (k + a - k)%nat with a by lia. rewrite Nat.pow_add_r. apply traverse_eval. intros i Hi. apply in_seq in Hi. cbn [Nat.add] in Hi. destruct Hi as [_ Hi].
    cbn [sels is_first_row is_last_row is_transition inv_zeroifier]. rewrite !nth_error_map_seq by exact Hi.
    assert (height V tq = n * m)%nat as Hh.
    { rewrite <- Nat.pow_add_r in *. apply rect_height. exact (tab_rows V _ _ _ ps Nps Tb). }
    rewrite Hh. pose proof n1. pose proof m1.
    rewrite (tab_row V _ _ _ _ _ Tb) by (apply Nat.mod_upper_bound; nia).
    rewrite (tab_row V _ _ _ _ _ Tb) by (apply Nat.mod_upper_bound; nia).
    rewrite !w_mod.
    match goal with |- context [fold_constraints _ _ _ ?wd] => assert (wd = poly_window V k ps pv V (fun y => y) (pt i)) as -> end.
    { unfold poly_window. rewrite !hid. f_equal.
      - apply map_ext. intros p. now rewrite hid.
      - apply map_ext. intros p. rewrite hid. f_equal. rewrite fpow_add. rewrite (Nat.add_comm k a), gen_pow by lia. ring. }
    rewrite (fold_base V T emb E k ps pv) by exact Ix. cbn [option_map]. f_equal. rewrite HQ.
    rewrite (emb_inv V T emb E) by apply zh_nz. unfold zh. rewrite (emb_sub _ _ _ E), (emb_1 _ _ _ E), (emb_pow _ _ _ E).
    field. intros Z. apply (emb_nz _ _ _ E _ (zh_nz i)). unfold zh. rewrite (emb_sub _ _ _ E), (emb_1 _ _ _ E), (emb_pow _ _ _ E). exact Z.
  Qed.

  (** *** Chunks *)
  Variable D : nat.
  Variable as_base_slice : T -> list V.
  Variable monomial : nat -> T.
  Hypothesis HD : (1 <= D)%nat.
  Hypothesis Hlen : forall t, length (as_base_slice t) = D.
  Hypothesis Hsum : forall t, sum T (map (fun ec => monomial (fst ec) * emb (snd ec)) (List.combine (seq 0 D) (as_base_slice t))) = t.
  Variable Q : list T.
  Hypothesis LQ : (length Q <= m * n)%nat.
  Notation fl := (flatten_to_base V T D as_base_slice (map (fun i => peval Q (emb (pt i))) (seq 0 (n * m)))).
  Lemma flat_row i : (i < n * m)%nat -> row_of fl i = as_base_slice (peval Q (emb (pt i))).
  Proof.
    intros Hi. unfold row_of, flatten_to_base. cbn [width values].
    rewrite (proj2 (flat_map_rows as_base_slice D _ (fun t _ => Hlen t)) i 0) by now rewrite map_length, seq_length.
    now rewrite nth_map_seq.
  Qed.
  Lemma flat_height : height V fl = (n * m)%nat.
  Proof.
    unfold height, flatten_to_base. cbn [width values]. destruct (Nat.eqb_spec D 0); [lia|].
    rewrite (proj1 (flat_map_rows as_base_slice D _ (fun t _ => Hlen t))), map_length, seq_length.
    rewrite Nat.mul_comm. now apply Nat.div_mul.
  Qed.
  Definition chunk (c : nat) : matrix V :=
    {| width := D; values := flat_map (fun j => as_base_slice (peval Q (emb (sh V k a s c * gen k ^ j)))) (seq 0 n) |}.
  Lemma split_evals_ok : split_evals V m fl = map chunk (seq 0 m).
  Proof.
    unfold split_evals. rewrite flat_height. rewrite Nat.div_mul by (pose proof m1; lia). apply map_ext_in. intros c Hc. apply in_seq in Hc.
    unfold chunk. f_equal. rewrite !flat_map_concat_map. f_equal. apply map_ext_in. intros j Hj. apply in_seq in Hj.
    rewrite flat_row by nia. f_equal. f_equal. f_equal. unfold sh. rewrite fpow_add, (Nat.mul_comm j), fpow_mul. rewrite (Nat.add_comm k a), gen_pow by lia. ring.
  Qed.
  Lemma split_domains_ok : split_domains V qd m = Some (map (qdom V k a s) (seq 0 m)).
  Proof.
    unfold split_domains, coset_gen. cbn [qd log_n shift]. rewrite log2_strict_pow, tag_some by exact L.
    destruct (Nat.ltb_spec (k + a) a); [lia|]. f_equal. apply map_ext. intros i. unfold qdom. f_equal. lia.
  Qed.
  Lemma chunk_rows c : has_rows (chunk c) k.
  Proof.
    split; [cbn; lia|]. unfold chunk. cbn [width values].
    rewrite (proj1 (flat_map_rows (fun j => as_base_slice (peval Q (emb (sh V k a s c * gen k ^ j)))) D _ (fun t _ => Hlen _))), seq_length. reflexivity.
  Qed.
  (** the claimed value at zeta of the whole quotient, from the chunks' values at zeta *)
  Lemma quotient_at_ok (pss : nat -> list (list V)) zeta :
    (forall c, (c < m)%nat -> Forall (fun p => (length p <= n)%nat) (pss c) /\
      tabulates (chunk c) n (fun i => sh V k a s c * gen k ^ i) (pss c)) ->
    quotient_at T monomial (map (fun c => weight V T emb k a s c (seq 0 m) zeta) (seq 0 m))
      (map (fun c => map (fun p => peval (map emb p) zeta) (pss c)) (seq 0 m)) = Some (peval Q zeta).
  Proof.
    intros HP.
    assert (forall b cnt, quotient_at T monomial (map (fun c => weight V T emb k a s c (seq 0 m) zeta) (seq b cnt))
      (map (fun c => map (fun p => peval (map emb p) zeta) (pss c)) (seq b cnt)) =
      Some (sum T (map (fun c => chunk_value T monomial (weight V T emb k a s c (seq 0 m) zeta) (map (fun p => peval (map emb p) zeta) (pss c))) (seq b cnt)))) as G.
    { intros b cnt. revert b. induction cnt as [|cnt IH]; intros b; cbn [seq map quotient_at sum]; [reflexivity|]. now rewrite IH. }
    rewrite G. f_equal.
    set (P := fun c => psums (map (fun ep => pscale (monomial (fst ep)) (map emb (snd ep))) (List.combine (seq 0 (length (pss c))) (pss c)))).
    assert (forall c x, peval (P c) x = sum T (map (fun ep => monomial (fst ep) * peval (map emb (snd ep)) x) (List.combine (seq 0 (length (pss c))) (pss c)))) as EP.
    { intros c x. unfold P. rewrite peval_psums, map_map. f_equal. apply map_ext. intros ep. apply peval_pscale. }
    rewrite <- (recombine V T emb E k a s L Ns P Q).
    - f_equal. apply map_ext_in. intros c Hc. apply in_seq in Hc. unfold chunk_value. rewrite EP.
      generalize (weight V T emb k a s c (seq 0 m) zeta) as z. intros z.
      rewrite map_length. generalize (seq 0 (length (pss c))) as es. intros es. revert es.
      induction (pss c) as [|p q IH]; intros [|e es]; cbn [map List.combine sum fst snd]; try ring. rewrite IH. ring.
    - intros c Hc. destruct (HP c Hc) as [F _]. apply psums_length. apply Forall_forall. intros q I. apply in_map_iff in I as ([e p] & <- & I).
      rewrite pscale_length, map_length. apply in_combine_r in I. rewrite Forall_forall in F. exact (F _ I).
    - exact LQ.
    - intros c j Hc Hj. rewrite EP. destruct (HP c Hc) as [_ Tb]. pose proof (tab_row V _ _ _ _ _ Tb Hj) as R.
      assert (row_of (chunk c) j = as_base_slice (peval Q (emb (sh V k a s c * gen k ^ j)))) as R'.
      { unfold row_of, chunk. cbn [width values].
        rewrite (proj2 (flat_map_rows (fun j => as_base_slice (peval Q (emb (sh V k a s c * gen k ^ j)))) D _ (fun t _ => Hlen _)) j 0%nat) by now rewrite seq_length.
        now rewrite seq_nth. }
      rewrite R' in R. rewrite <- (Hsum (peval Q (emb (sh V k a s c * gen k ^ j)))). rewrite R.
      assert (length (pss c) = D) as Lc by (rewrite <- (proj1 Tb); reflexivity). rewrite Lc. f_equal.
      generalize (seq 0 D) as es. intros es. clear - E. revert es.
      induction (pss c) as [|p q IH]; intros [|e es]; cbn [map List.combine fst snd]; try reflexivity. rewrite IH. f_equal. f_equal.
      symmetry. apply (emb_peval _ _ _ E).
  Qed.
End Quotient.
