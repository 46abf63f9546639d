(** Property C89: an opening is accepted only with the committed keys, index and values.

    C60 says what an accepted opening contains when it is made with the committed bit commitments.
    A proof object carries its own bit commitments, though, and verify_batch signs the claimed
    values with them.  Here the bit commitments are those of this repository (lists of Winternitz
    secrets) and the proof object is arbitrary. *)
From Coq Require Import ZArith NArith List Bool Lia Permutation Arith Sorted.
From Verif Require Import ScriptNum ScriptVM VMLemmas U32Model Lift WinternitzModel WinternitzSpec PropSign
  TaptreeModel TaptreeProofs PropTaptree TcsModel TcsProofs TcsProofs2 PropTcs.
Import ListNotations.
Open Scope nat_scope.

(** ** What a stack says does not depend on the key it is checked with *)
Lemma pairs_inj {A} (D x D' x' : nat -> A) : forall l r r',
  flat_map (fun i => [D i; x i]) l ++ r = flat_map (fun i => [D' i; x' i]) l ++ r' ->
  r = r' /\ forall i, In i l -> D i = D' i /\ x i = x' i.
Proof.
  induction l as [|j l IH]; intros r r' E; [split; [exact E|intros i []]|].
  cbn [flat_map app] in E. injection E as E1 E2 E. destruct (IH _ _ E) as [-> F]. split; [reflexivity|].
  intros i [<- |Hi]; auto.
Qed.
Lemma sig_read H pks pks' v v' m r r' : is_u32 v -> is_u32 v' -> length pks = 10 -> length pks' = 10 ->
  valid_sig H pks v m r -> valid_sig H pks' v' m r' -> v = v' /\ r = r' /\ pks = pks'.
Proof.
  intros U U' L L' (D & x & -> & P) (D' & x' & E & P').
  apply pairs_inj in E as [-> E].
  assert (forall i, i < 10 -> D i = D' i /\ x i = x' i) as Q
    by (intros i Hi; apply E; apply -> in_rev; apply in_seq; lia).
  assert (forall i, i < 10 -> wdigit v i = wdigit v' i) as Wd.
  { intros i Hi. destruct (P i Hi) as [(z & Dz & Mz) _], (P' i Hi) as [(z' & Dz' & Mz') _].
    rewrite (proj1 (Q i Hi)) in Dz. rewrite Dz in Dz'. injection Dz' as <-. congruence. }
  assert (v = v') as <-.
  { destruct (Z.eq_dec v v') as [|N]; [assumption|]. exfalso.
    destruct (C11_incomparable v v' U U' N) as (i & Hi & Lt). rewrite (Wd i Hi) in Lt. lia. }
  split; [reflexivity|]. split; [reflexivity|].
  apply (nth_ext _ _ [] []); [transitivity 10; [exact L|symmetry; exact L']|]. intros i Hi.
  assert (i < 10) as Hi' by (rewrite <- L; exact Hi). clear Hi. rename Hi' into Hi.
  destruct (P i Hi) as [_ A], (P' i Hi) as [_ A']. rewrite (proj2 (Q i Hi)) in A.
  etransitivity; [symmetry; exact A|exact A'].
Qed.
Lemma pub_key_len H sk : length (pub_key H sk) = 10.
Proof. unfold pub_key. now rewrite map_length, seq_length. Qed.
Lemma sigs_read H : forall sks sks' ws ws' m r r', length sks = length sks' ->
  valid_sigs H sks ws m r -> valid_sigs H sks' ws' m r' ->
  ws = ws' /\ r = r' /\ map (pub_key H) sks = map (pub_key H) sks'.
Proof.
  induction sks as [|sk sks IH]; intros [|sk' sks'] [|w ws] [|w' ws'] m r r' L V V'; try discriminate L;
    cbn [valid_sigs] in V, V'; try contradiction.
  - subst. auto.
  - destruct V as (U & m1 & V & Vs), V' as (U' & m1' & V' & Vs').
    destruct (sig_read H _ _ _ _ _ _ _ U U' (pub_key_len H sk) (pub_key_len H sk') V V') as (<- & <- & Ep).
    destruct (IH sks' _ _ _ _ _ ltac:(cbn in L; congruence) Vs Vs') as (<- & <- & Es). cbn [map]. rewrite Ep, Es. auto.
Qed.
Lemma sigs_shorter H : forall sks ws m r, sks <> [] -> valid_sigs H sks ws m r -> length r < length m.
Proof.
  assert (forall sks ws m r, valid_sigs H sks ws m r -> length r + 20 * length sks <= length m) as X.
  { induction sks as [|sk sks IH]; intros [|w ws] m r V; cbn [valid_sigs] in V; try contradiction.
    - subst. cbn. lia.
    - destruct V as (_ & m1 & (D & x & -> & _) & Vs). apply IH in Vs. rewrite app_length. cbn. lia. }
  intros [|sk sks] ws m r N V; [congruence|]. apply X in V. cbn [length] in V. lia.
Qed.

(** Two commitments with the same public keys, word by word. *)
Definition same_keys (H : bytes -> bytes) (b b' : list bytes) : Prop := map (pub_key H) b = map (pub_key H) b'.

Lemma w_read H b b' vs vs' m r r' : length b = length b' ->
  w_opens H b vs m r -> w_opens H b' vs' m r' -> vs = vs' /\ r = r' /\ same_keys H b b'.
Proof.
  intros L (ws & V & ->) (ws' & V' & ->).
  destruct (sigs_read H (rev b) (rev b') _ _ _ _ _ ltac:(rewrite !rev_length; exact L) V V') as (<- & <- & E).
  split; [reflexivity|]. split; [reflexivity|]. unfold same_keys. rewrite !map_rev in E.
  rewrite <- (rev_involutive (map (pub_key H) b)), E. apply rev_involutive.
Qed.
Lemma w_shorter H b vs m r : b <> [] -> w_opens H b vs m r -> length r < length m.
Proof.
  intros N (ws & V & _). eapply sigs_shorter; [|exact V]. intros E. apply N.
  rewrite <- (rev_involutive b), E. reflexivity.
Qed.
Lemma smag_words : forall H b ws m r, valid_sigs H b ws m r -> Forall is_u32 ws.
Proof.
  intros H b. induction b as [|k b IH]; intros [|w ws] m r V; cbn [valid_sigs] in V; try contradiction; [constructor|].
  destruct V as (U & m1 & _ & V). constructor; eauto.
Qed.
(** Signing and checking do not need the same secret, only the same public key. *)
Lemma sigs_same_keys H : forall sks sks' ws m r, map (pub_key H) sks = map (pub_key H) sks' ->
  valid_sigs H sks ws m r -> valid_sigs H sks' ws m r.
Proof.
  induction sks as [|sk sks IH]; intros [|sk' sks'] [|w ws] m r E V; try discriminate E; cbn [valid_sigs] in *; try contradiction.
  - exact V.
  - pose proof (f_equal (hd []) E) as E1. apply (f_equal (@tl _)) in E. cbn [map hd tl] in E1, E. destruct V as (U & m1 & V & Vs). split; [exact U|].
    exists m1. split; [rewrite <- E1; exact V|]. eapply IH; eassumption.
Qed.
Lemma w_same_keys H b b' vs m r : same_keys H b b' -> w_opens H b vs m r -> w_opens H b' vs m r.
Proof.
  intros E (ws & V & ->). exists ws. split; [|reflexivity]. eapply sigs_same_keys; [|exact V].
  rewrite !map_rev. unfold same_keys in E. now rewrite E.
Qed.
(** The generated witness opens its own commitment, for all 32-bit words. *)
Lemma w_honest H b vs rest : (forall x, H x <> [0%Z]) -> length vs = length b -> Forall is_u32 vs ->
  w_opens H b (map smag vs) (rev (w_witness H b vs) ++ rest) rest.
Proof.
  intros NZ L Fv.
  destruct (C12_vector_honest H (rev b) (rev vs) rest [] NZ ltac:(rewrite !rev_length; auto) ltac:(apply Forall_rev; exact Fv))
    as (sig & Es & E).
  unfold w_witness. rewrite Es. apply C12_vector_iff in E as (_ & ws & rest' & Em & Vs).
  rewrite secrets_of in Vs by (rewrite !rev_length; auto).
  pose proof (valid_sigs_len _ _ _ _ _ Vs) as Lw.
  apply (nums_app_inj 1 (fun a _ => a) (or_introl eq_refl)) in Em as [Em ->]; [|rewrite !map_length, Lw, !rev_length; auto].
  exists ws. split; [exact Vs|]. rewrite <- Em, map_rev, rev_involutive. reflexivity.
Qed.

Lemma opens_all_read H sz : forall bvs bvs' m, sz > 0 ->
  Forall (fun p => length (fst p) = sz) bvs -> Forall (fun p => length (fst p) = sz) bvs' ->
  opens_all (list bytes) (w_opens H) bvs m [] -> opens_all (list bytes) (w_opens H) bvs' m [] ->
  map snd bvs = map snd bvs' /\ Forall2 (same_keys H) (map fst bvs) (map fst bvs').
Proof.
  intros bvs bvs' m Hs F. revert bvs' m.
  assert (forall b, length b = sz -> b <> @nil bytes) as Ne by (intros [|? ?] L; [cbn in L; lia|discriminate]).
  induction F as [|[b vs] bvs Lb _ IH]; intros bvs' m F'; destruct F' as [|[b' vs'] bvs' Lb' F'];
    cbn [opens_all map fst snd] in *; intros O O'.
  - auto.
  - subst m. destruct O' as (m1 & O' & _). apply w_shorter in O'; [cbn in O'; lia|auto].
  - subst m. destruct O as (m1 & O & _). apply w_shorter in O; [cbn in O; lia|auto].
  - destruct O as (m1 & O & Oa), O' as (m1' & O' & Oa').
    destruct (w_read H b b' vs vs' m m1 m1' ltac:(congruence) O O') as (<- & <- & K).
    destruct (IH bvs' m1 F' Oa Oa') as [-> Ks]. split; [reflexivity|]. constructor; assumption.
Qed.
Lemma opens_all_keys H : forall bvs bvs' m r, map snd bvs = map snd bvs' ->
  Forall2 (same_keys H) (map fst bvs) (map fst bvs') ->
  opens_all (list bytes) (w_opens H) bvs m r -> opens_all (list bytes) (w_opens H) bvs' m r.
Proof.
  induction bvs as [|[b vs] bvs IH]; intros [|[b' vs'] bvs'] m r E K O; try discriminate E; [exact O|].
  cbn [opens_all map fst snd] in *. injection E as <- E. inversion_clear K as [|? ? ? ? K1 K2].
  destruct O as (m1 & O & Oa). exists m1. split; [eapply w_same_keys; eassumption|]. eapply IH; eassumption.
Qed.

(** There is one way to list matrices tallest first. *)
Lemma tallest_unique {F} : forall l l' : list (matrix F),
  StronglySorted (fun a b => nrows b <= nrows a) l -> StronglySorted (fun a b => nrows b <= nrows a) l' ->
  (forall h, filter (fun m => nrows m =? h) l = filter (fun m => nrows m =? h) l') -> l = l'.
Proof.
  assert (forall (l l' : list (matrix F)) x, (forall h, filter (fun m => nrows m =? h) l = filter (fun m => nrows m =? h) l') ->
    In x l -> In x l') as In_eq.
  { intros l l' x E Hx. assert (In x (filter (fun m => nrows m =? nrows x) l')) as Hi
      by (rewrite <- E; apply filter_In; split; [exact Hx|apply Nat.eqb_refl]).
    apply filter_In in Hi. tauto. }
  induction l as [|x l IH]; intros [|y l'] S S' E; [reflexivity| | |].
  - destruct (In_eq (y :: l') [] y ltac:(auto) ltac:(now left)).
  - destruct (In_eq (x :: l) [] x ltac:(auto) ltac:(now left)).
  - pose proof (In_eq _ _ y ltac:(intros h; symmetry; apply E) (or_introl eq_refl)) as Hy.
    pose proof (In_eq _ _ x E (or_introl eq_refl)) as Hx.
    inversion_clear S as [|? ? S1 F1]. inversion_clear S' as [|? ? S1' F1'].
    rewrite Forall_forall in F1, F1'.
    assert (nrows y = nrows x) as Q.
    { apply Nat.le_antisymm; [destruct Hy as [-> |Hy]|destruct Hx as [-> |Hx]]; auto. }
    pose proof (E (nrows x)) as Ex. cbn [filter] in Ex. rewrite Q, Nat.eqb_refl in Ex. injection Ex as <- Ex.
    f_equal. apply IH; [assumption..|]. intros h. specialize (E h). cbn [filter] in E.
    destruct (nrows x =? h); [injection E as E|]; exact E.
Qed.

Section Keys.
  Variable H : bytes -> bytes.
  Variable F : Type.
  Variable as_u32_vec : F -> list Z.
  Variable u32_size : nat.
  (** the secrets handed out for the n-th commitment, one per word *)
  Variable secrets : nat -> bool -> list bytes.
  Variable leaf_hash : script -> hash.
  Variable branch_hash : hash -> hash -> hash.

  Hypothesis no_zero : forall x, H x <> [0%Z].
  Hypothesis size_ok : u32_size = 1 \/ u32_size = 4.
  Hypothesis narrow : forall n, length (secrets n false) = 1.
  Hypothesis wide : forall n, length (secrets n true) = 4.
  Hypothesis vec_ok : forall x, length (as_u32_vec x) = u32_size /\ Forall u31 (as_u32_vec x).
  Hypothesis vec_inj : forall x y, as_u32_vec x = as_u32_vec y -> x = y.

  Notation bc := (list bytes).
  Definition k_commit := t_commit F bc as_u32_vec u32_size secrets (w_lock H) leaf_hash branch_hash.
  Definition k_verify := t_verify_batch H F bc as_u32_vec (w_witness H) leaf_hash branch_hash.

  (** A proof object whose commitments have the number of words of the values signed with them
      (set_commit_value panics otherwise, C71). *)
  Definition fitting (p : commited_proof bc) : Prop :=
    length (index_bc bc (cp_bcs bc p)) = 1 /\
    Forall (fun b => length b = u32_size) (evaluations_bc bc (cp_bcs bc p)).

  Lemma contract : bc_contract H bc secrets (w_lock H) (w_witness H) (w_opens H) (@length bytes).
  Proof.
    destruct (C31_contract_winternitz H no_zero) as [C1 C2 C3 _ _]. constructor; assumption.
  Qed.

  Lemma own_witness u qi ys bvs : length (index_bc bc u) = 1 -> Forall (fun b => length b = u32_size) (evaluations_bc bc u) ->
    bc_values F bc as_u32_vec (evaluations_bc bc u) ys = Some bvs ->
    opens_all bc (w_opens H) ((index_bc bc u, [smag (as_u32 qi)]) :: bvs)
      (rev (flat_map (fun p => w_witness H (fst p) (snd p)) (rev bvs) ++ w_witness H (index_bc bc u) [as_u32 qi])) [].
  Proof.
    intros L1 Le Eb.
    pose proof (bc_values_words F bc as_u32_vec u32_size (@length bytes) vec_ok _ Le _ _ Eb) as Wd.
    destruct (bc_values_inv F bc as_u32_vec u32_size size_ok vec_ok _ _ _ Eb) as (_ & _ & M2).
    rewrite rev_app_distr. cbn [opens_all]. eexists. split.
    - change [smag (as_u32 qi)] with (map smag [as_u32 qi]). apply w_honest; [exact no_zero|now rewrite L1|].
      repeat constructor; unfold as_u32; apply Z.mod_pos_bound; reflexivity.
    - pose proof (opens_all_honest H bc secrets (w_lock H) (w_witness H) (w_opens H) (@length bytes) contract bvs) as X.
      specialize (X ltac:(rewrite Forall_forall in *; intros p Hp; split; [auto|];
        apply (in_map snd) in Hp; rewrite M2 in Hp; apply in_map_iff in Hp as (y & <- & _); apply vec_ok) []).
      rewrite app_nil_r in X. exact X.
  Qed.

  Lemma words_eq : forall a b, map as_u32_vec a = map as_u32_vec b -> a = b.
  Proof.
    induction a as [|x a IH]; intros [|y b] E; try discriminate; [reflexivity|].
    cbn in E. injection E as E1 E2. apply vec_inj in E1. subst. f_equal. auto.
  Qed.

  (** The proof [p] names leaf [q] of the tree of [d], its commitments have the public keys the
      matrices were committed with, and the values start with the rows of that leaf.  The index is
      signed as a 32-bit word, and the word 2^31 reads as 0 in a script (C12). *)
  Definition opened (ms : list (matrix F)) (K : nat) (d : commited_data F bc) (openings : list (list F))
    (p : commited_proof bc) (q : nat) : Prop :=
    q < 2 ^ K /\ get_tapleaf script (cd_taptree F bc d) q = Some (Some (cp_leaf bc p)) /\
    (as_u32 (cp_query_index bc p) = Z.of_nat q \/ q = 0 /\ as_u32 (cp_query_index bc p) = (2 ^ 31)%Z) /\
    same_keys H (index_bc bc (cp_bcs bc p)) (index_bc bc (cd_bcs F bc d)) /\
    Forall2 (same_keys H) (evaluations_bc bc (cp_bcs bc p)) (evaluations_bc bc (cd_bcs F bc d)) /\
    exists order extra, tallest_first ms order /\
      concat openings = concat (map (row_for K q) order) ++ extra.

  Lemma setting_ok : setting H F bc as_u32_vec u32_size secrets (w_lock H) (w_witness H) (w_opens H) (@length bytes)
    (fun x y => if list_eq_dec Z.eq_dec (as_u32_vec x) (as_u32_vec y) then true else false).
  Proof.
    split; [exact contract|]. split; [exact size_ok|]. split; [exact vec_ok|]. split; [|exact vec_inj].
    intros x y. destruct (list_eq_dec Z.eq_dec (as_u32_vec x) (as_u32_vec y)) as [E|E]; split; intros Q; auto.
    - discriminate.
    - destruct E. congruence.
  Qed.
  Lemma small_index K q : K <= 30 -> q < 2 ^ K -> (Z.of_nat q < 2 ^ 31)%Z.
  Proof.
    clear. intros HK Hq.
    assert (forall n, Z.of_nat (2 ^ n) = (2 ^ Z.of_nat n)%Z) as P
      by (intros n; induction n; [reflexivity|]; rewrite Nat.pow_succ_r', Nat2Z.inj_mul, IHn, (Nat2Z.inj_succ n), Z.pow_succ_r by lia; reflexivity).
    apply Z.lt_le_trans with (Z.of_nat (2 ^ K)); [lia|]. rewrite P. apply Z.pow_le_mono_r; lia.
  Qed.
  Lemma read_index q z : (Z.of_nat q < 2 ^ 31)%Z -> is_u32 z ->
    (Z.of_nat q = smag z <-> z = Z.of_nat q \/ q = 0 /\ z = (2 ^ 31)%Z).
  Proof.
    clear. unfold is_u32, smag. intros Hq Hz. change (2 ^ 31)%Z with 2147483648%Z in *. change (2 ^ 32)%Z with 4294967296%Z in *.
    destruct (Z.ltb_spec z 2147483648); lia.
  Qed.

  (** ** C89 *)

  (** Acceptance of any proof object with any values, for one leaf of the committed tree. *)
  Lemma leaf_iff ms K d openings p q :
    0 < K <= 30 -> batch ms K ->
    commits F bc as_u32_vec u32_size (w_lock H) leaf_hash branch_hash (@length bytes) d K ms ->
    fitting p -> q < 2 ^ K -> get_tapleaf script (cd_taptree F bc d) q = Some (Some (cp_leaf bc p)) ->
    (verify H F bc as_u32_vec (w_witness H) leaf_hash branch_hash
       (node_hash script (root_node script (cd_taptree F bc d))) p (concat openings) = Some true <->
     opened ms K d openings p q).
  Proof.
    intros HK Bm C [L1 Le] Hq Gl.
    pose proof C as (_ & [G1 G2] & Lu & scripts & M & Ls & _).
    pose proof (small_index K q ltac:(lia) Hq) as Sq.
    destruct p as [l u qi]. cbn [cp_leaf cp_bcs cp_query_index] in *.
    assert (is_u32 (as_u32 qi)) as Uq by (unfold as_u32; apply Z.mod_pos_bound; reflexivity).
    destruct (commits_leaf F bc as_u32_vec u32_size (w_lock H) leaf_hash branch_hash (@length bytes) d K ms q C Hq)
      as (l' & s & Gl' & El & Gs). assert (l' = l) as -> by congruence.
    assert (exists bvs, bc_values F bc as_u32_vec (evaluations_bc bc (cd_bcs F bc d)) (rows F K q ms) = Some bvs) as [bvs Eb].
    { unfold generate_script in Gs. cbn [cl_bcs cl_evaluations] in Gs. destruct (bc_values F bc as_u32_vec _ _); [eauto|discriminate]. }
    pose proof (fun m => leaf_script_iff H F bc as_u32_vec u32_size secrets (w_lock H) (w_witness H) branch_hash (w_opens H) (@length bytes)
      contract size_ok vec_ok (cd_bcs F bc d) q (rows F K q ms) s bvs m) as Iff.
    destruct (bc_values_inv F bc as_u32_vec u32_size size_ok vec_ok _ _ _ Eb) as (F1 & Lr & S1).
    assert (length (rows F K q ms) = total_width F ms) as Lrows.
    { rewrite (rows_spec F ms K q Bm). apply sorted_width; assumption. }
    rewrite Lu, <- Lrows, firstn_all in S1.
    unfold verify, generate_witness. cbn [cp_leaf cp_bcs cp_query_index cl_bcs cl_evaluations cl_index].
    unfold verify_proof.
    rewrite (C27_verify_inclusion script leaf_hash branch_hash _ scripts q l M); [|rewrite Ls|exact Gl].
    2:{ destruct K; [lia|]. pose proof (Nat.pow_nonzero 2 K ltac:(lia)). rewrite Nat.pow_succ_r'. lia. }
    cbn [option_map andb]. rewrite El. unfold execute_success.
    split.
    - destruct (bc_values F bc as_u32_vec (evaluations_bc bc u) (concat openings)) as [bvs'|] eqn:Eb'; [|discriminate].
      intros Q. injection Q as Q. apply (Iff _ (conj G1 G2) Eb Gs) in Q.
      pose proof (own_witness u qi _ _ L1 Le Eb') as O'.
      destruct (bc_values_inv F bc as_u32_vec u32_size size_ok vec_ok _ _ _ Eb') as (F2 & L2 & S2).
      assert (exists m1, w_opens H (index_bc bc (cd_bcs F bc d)) [Z.of_nat q] (rev (flat_map (fun p => w_witness H (fst p) (snd p)) (rev bvs') ++
        w_witness H (index_bc bc u) [as_u32 qi])) m1 /\ opens_all bc (w_opens H) bvs m1 []) as (m1 & O1 & O2) by exact Q.
      destruct O' as (m1' & O1' & O2').
      destruct (w_read H _ _ _ _ _ _ _ (eq_trans G1 (eq_sym L1)) O1 O1') as (Ei & <- & K1).
      destruct (opens_all_read H u32_size bvs bvs' m1 ltac:(lia)) as [Ev K2]; try assumption.
      { rewrite <- F1 in G2. apply Forall_map in G2. exact G2. }
      { rewrite <- F2 in Le. apply Forall_map in Le. exact Le. }
      rewrite F1, F2 in K2.
      unfold opened. cbn [cp_leaf cp_bcs cp_query_index].
      split; [exact Hq|]. split; [exact Gl|]. split; [apply read_index; [exact Sq|exact Uq|]; congruence|].
      split; [symmetry; exact K1|]. split.
      { clear - K2. induction K2; constructor; [symmetry; assumption|assumption]. }
      rewrite S1, S2 in Ev. apply words_eq in Ev.
      exists (sorted_desc F ms), (skipn (length (evaluations_bc bc u)) (concat openings)).
      split; [eapply tallest_sorted; eassumption|].
      rewrite <- (rows_spec F ms K q Bm), Ev. symmetry. apply firstn_skipn.
    - intros (_ & _ & Ix & K1 & K2 & order & extra & T & Eo). cbn [cp_leaf cp_bcs cp_query_index] in *.
      assert (order = sorted_desc F ms) as ->.
      { pose proof (tallest_sorted F ms K Bm) as T'.
        destruct T as (_ & T1 & T2), T' as (_ & T1' & T2'). apply tallest_unique; [assumption..|]. intros h. now rewrite T2, T2'. }
      rewrite <- (rows_spec F ms K q Bm) in Eo.
      assert (length (evaluations_bc bc u) = length (evaluations_bc bc (cd_bcs F bc d))) as Lk by (clear - K2; induction K2; cbn; congruence).
      destruct (bc_values_some F bc as_u32_vec u32_size size_ok vec_ok (evaluations_bc bc u) (concat openings)) as (bvs' & Eb' & F2 & S2).
      { rewrite Eo, app_length. lia. }
      rewrite Eb'. f_equal. apply (Iff _ (conj G1 G2) Eb Gs).
      eapply opens_all_keys; [| |eapply own_witness; eassumption].
      + cbn [map snd]. rewrite S1, S2, Eo, firstn_app, Lk, Lu, <- Lrows, firstn_all, Nat.sub_diag.
        cbn [firstn]. rewrite app_nil_r. f_equal. f_equal. symmetry. apply read_index; assumption.
      + cbn [map fst]. rewrite F1, F2. constructor; assumption.
  Qed.

  (** An accepted proof, whatever commitments, leaf, index and values it was put together from, opens
      a leaf of the committed tree with the committed public keys and values, unless an input
      hashed for its leaf collides with one hashed for a leaf of the tree. *)
  Theorem C89_accepted : forall ms K nq next roots ds next' qt d openings p,
    0 < K <= 30 -> batch ms K -> k_commit nq next ms = Some (roots, ds, next') -> nth_error ds qt = Some d ->
    fitting p -> k_verify qt openings p roots = Some true ->
    (exists q, opened ms K d openings p q) \/ tree_collision script leaf_hash branch_hash (cd_taptree F bc d) (cp_leaf bc p).
  Proof.
    intros ms K nq next roots ds next' qt d openings p HK Bm E Ed Fp V.
    destruct (commit_all H F bc as_u32_vec u32_size secrets (w_lock H) (w_witness H) leaf_hash branch_hash (w_opens H) (@length bytes) _ setting_ok ms K ltac:(lia) Bm nq next) as (roots' & ds' & n' & E' & L & Er & Fd).
    unfold k_commit in E. assert (roots' = roots /\ ds' = ds) as [-> ->] by (split; congruence).
    assert (commits F bc as_u32_vec u32_size (w_lock H) leaf_hash branch_hash (@length bytes) d K ms) as C
      by (rewrite Forall_forall in Fd; apply Fd; eapply nth_error_In; eassumption).
    unfold k_verify, t_verify_batch, verify_batch in V. rewrite Er, nth_error_map, Ed in V. cbn [option_map] in V.
    assert (exists w, generate_witness F bc as_u32_vec (w_witness H)
      {| cl_bcs := cp_bcs bc p; cl_index := cp_query_index bc p; cl_evaluations := concat openings |} = Some w) as [w Ew].
    { unfold verify in V. destruct (generate_witness _ _ _ _ _); [eauto|discriminate]. }
    pose proof V as V0. unfold verify in V0. rewrite Ew in V0. unfold verify_proof in V0.
    destruct (verify_inclusion script leaf_hash branch_hash _ (cp_leaf bc p)) as [i|] eqn:Ei; [|discriminate].
    cbn [option_map] in V0. destruct i; [|discriminate]. clear V0.
    pose proof C as (_ & _ & _ & scripts & M & Ls & _).
    destruct (C29_binding script leaf_hash branch_hash _ scripts _ script_dec M Ei) as [(q & Hq & Gl)|Hc]; [|right; exact Hc].
    left. rewrite Ls in Hq. exists q. eapply leaf_iff; eassumption.
  Qed.

  (** Conversely such a proof is accepted: the secrets themselves need not be the committed ones. *)
  Theorem C89_accepts : forall ms K nq next roots ds next' qt d openings p q,
    0 < K <= 30 -> batch ms K -> k_commit nq next ms = Some (roots, ds, next') -> nth_error ds qt = Some d ->
    fitting p -> opened ms K d openings p q -> k_verify qt openings p roots = Some true.
  Proof.
    intros ms K nq next roots ds next' qt d openings p q HK Bm E Ed Fp O.
    destruct (commit_all H F bc as_u32_vec u32_size secrets (w_lock H) (w_witness H) leaf_hash branch_hash (w_opens H) (@length bytes) _ setting_ok ms K ltac:(lia) Bm nq next) as (roots' & ds' & n' & E' & L & Er & Fd).
    unfold k_commit in E. assert (roots' = roots /\ ds' = ds) as [-> ->] by (split; congruence).
    assert (commits F bc as_u32_vec u32_size (w_lock H) leaf_hash branch_hash (@length bytes) d K ms) as C
      by (rewrite Forall_forall in Fd; apply Fd; eapply nth_error_In; eassumption).
    unfold k_verify, t_verify_batch, verify_batch. rewrite Er, nth_error_map, Ed. cbn [option_map].
    pose proof O as (Hq & Gl & _). eapply leaf_iff; eassumption.
  Qed.
End Keys.

(** ** A concrete case *)
Definition ex_H (b : bytes) : bytes := 7%Z :: b.
Definition ex_ms : list (matrix bb) := [{| width := 1; values := [bb1; bb2] |}].
Definition ex_commit := k_commit ex_H bb bb_vec 1 w_new (fun _ => 0%Z) (fun a b => (a + b + 1)%Z).
Definition ex_verify := k_verify ex_H bb bb_vec (fun _ => 0%Z) (fun a b => (a + b + 1)%Z).
(** The hypotheses hold of an honest opening of leaf 1; the same opening is rejected when the value is
    signed with another key, when another index is claimed, and with a commitment too many. *)
Definition ex_answers : option (list (option bool)) :=
  match ex_commit 1 0 ex_ms with
  | Some (roots, [d], _) =>
      option_map (fun p =>
        let with_bcs (i : nat) (es : list (list bytes)) : commited_proof (list bytes) :=
          {| cp_leaf := cp_leaf _ p; cp_bcs := {| index_bc := index_bc _ (cp_bcs _ p); evaluations_bc := es |};
             cp_query_index := i |} in
        let es := evaluations_bc _ (cp_bcs _ p) in
        [ex_verify 0 [[bb2]] (with_bcs 1 es) roots;
         ex_verify 0 [[bb2]] (with_bcs 1 [[[5%Z]]]) roots;
         ex_verify 0 [[bb2]] (with_bcs 0 es) roots;
         ex_verify 0 [[bb2]; [bb2]] (with_bcs 1 (es ++ [[[5%Z]]])) roots]) (query_proof bb (list bytes) d 1)
  | _ => None
  end.
Example C89_example : ex_answers = Some [Some true; Some false; Some false; Some false].
Proof. vm_compute. reflexivity. Qed.
Example C89_example_hypotheses : (forall x, ex_H x <> [0%Z]) /\ (forall n, length (w_new n false) = 1) /\
  (forall n, length (w_new n true) = 4) /\
  (forall x, length (bb_vec x) = 1 /\ Forall u31 (bb_vec x)) /\ (forall x y, bb_vec x = bb_vec y -> x = y) /\
  batch ex_ms 1 /\ exists roots ds next' openings p d, ex_commit 1 0 ex_ms = Some (roots, ds, next') /\
    nth_error ds 0 = Some d /\ fitting 1 p /\ ex_verify 0 openings p roots = Some true.
Proof.
  destruct C31_example_setting as (_ & _ & Vo & _ & Inj).
  split; [discriminate|]. do 2 (split; [reflexivity|]). split; [exact Vo|]. split; [exact Inj|].
  destruct C31_example as (Bm & Ss & _). split; [exact Bm|].
  destruct (commit_all _ _ _ _ _ _ _ _ (fun _ => 0%Z) (fun a b => (a + b + 1)%Z) _ _ _ C31_example_setting
    _ 1 ltac:(lia) Bm 1 0) as (roots & ds & n' & E & L & Er & Fd).
  destruct (open_batch_iff _ _ _ _ _ _ _ _ bb_eqb _ 1 1 ds 0 1 Bm ltac:(cbn; lia) L ltac:(lia) Fd) as (d & l & Ed & Gl & Eo).
  destruct C60_example as (roots1 & ds1 & n1 & openings & p & E1 & Eo1 & -> & V).
  assert (roots1 = roots /\ ds1 = ds) as [-> ->] by (split; congruence).
  exists roots, ds, n', [[bb2]], p, d. split; [exact E|]. split; [exact Ed|]. split; [|exact V].
  assert (p = {| cp_leaf := l; cp_bcs := cd_bcs _ _ d; cp_query_index := 1 |}) as ->.
  { rewrite Eo in Eo1. destruct (list_eqb _ _ _ _); [congruence|discriminate]. }
  rewrite Forall_forall in Fd. apply nth_error_In in Ed. apply Fd in Ed as (_ & [G1 G2] & _). split; assumption.
Qed.
