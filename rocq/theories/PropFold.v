(** Property C93: folding a word that is no codeword, and words of different lengths that cancel
    (fri/src/fold_even_odd.rs, prover.rs 84-141, verifier.rs 100-165). *)
From Coq Require Import ZArith List Arith Bool Lia Field.
From Verif Require Import TcsModel TcsProofs Field BabyBear PolyExt FriModel FriProofs FriProofs2 PropFri.
Import ListNotations.
Local Open Scope nat_scope.

(** ** Specification *)

(** The word v of length 2^k holds the values of a polynomial with at most d coefficients. *)
Definition low (T : two_adic) (k d : nat) (v : list T) : Prop :=
  exists p, length p <= d /\ evaluations T k (value p) v.

Section Spec.
  Variable T : two_adic.
  Variable lb : nat.
  (** What the blowup 2^lb asks of a word of length 2^k. *)
  Definition codeword_of (k : nat) (v : list T) : Prop := low T k (2 ^ (k - lb)) v.
  (** The challenge b makes a codeword of a word that is none. *)
  Definition unlucky (k : nat) (w : list T) (b : T) : Prop :=
    length w = 2 ^ S k /\ ~ codeword_of (S k) w /\ exists r, fold_even_odd T w b = Some r /\ codeword_of k r.
  (** Entrywise sum. *)
  Definition plus (v u : list T) : list T := map (fun i => fadd (nth i v f0) (nth i u f0)) (seq 0 (length v)).
  (** An input is added to a layer of its length. *)
  Definition add_input (r : list T) (inputs : list (list T)) : list T * list (list T) :=
    match inputs with
    | u :: rest => if length u =? length r then (plus r u, rest) else (r, inputs)
    | [] => (r, [])
    end.
  (** The word of the layer reached from v with the challenges bs. *)
  Fixpoint layer_word (v : list T) (inputs : list (list T)) (bs : list T) : option (list T) :=
    match bs with
    | [] => Some v
    | b :: bs =>
        match fold_even_odd T v b with
        | None => None
        | Some r => let (r, rest) := add_input r inputs in layer_word r rest bs
        end
    end.
  (** On the path of position q through the words of the layers, every entry is the fold of the layer
      above plus the input of that length, and the last fold is the final value. *)
  Fixpoint path_ok (q : nat) (w : list T) (words : list (list T)) (inputs : list (list T)) (bs : list T) (final : T) : Prop :=
    match words, bs with
    | [], [b] => exists r, fold_even_odd T w b = Some r /\ nth (q / 2) r f0 = final
    | w' :: words, b :: bs =>
        exists r, fold_even_odd T w b = Some r /\
          nth (q / 2) w' f0 = nth (q / 2) (fst (add_input r inputs)) f0 /\
          path_ok (q / 2) w' words (snd (add_input r inputs)) bs final
    | _, _ => False
    end.
  (** The words have lengths 2^k, 2^(k-1), and so on. *)
  Fixpoint halving (k : nat) (words : list (list T)) : Prop :=
    match words with [] => True | w :: words => length w = 2 ^ k /\ halving (k - 1) words end.
  (** Inputs shorter than 2^k and longer than the blowup, of decreasing lengths, all codewords. *)
  Fixpoint codewords_below (k : nat) (inputs : list (list T)) : Prop :=
    match inputs with
    | [] => True
    | u :: rest => exists j, lb < j < k /\ length u = 2 ^ j /\ codeword_of j u /\ codewords_below j rest
    end.
End Spec.

(** ** Codewords and their coefficients *)
Section Low.
  Variable T : two_adic.
  Add Field TT : (fth T).

  Lemma low_iff k d v : low T k d v <-> exists p, length p <= d /\ v = codeword T k p.
  Proof.
    split; intros (p & L & E); exists p; (split; [exact L|]); now apply (evaluations_codeword T k (value p) p v (value_peval T p)).
  Qed.
  Lemma psub_eval (p q : list T) x : peval (padd p (pscale (fopp f1) q)) x = fsub (peval p x) (peval q x).
  Proof. rewrite peval_padd, peval_pscale. ring. Qed.
  Lemma nth_pscale (c : T) p i : nth i (pscale c p) f0 = fmul c (nth i p f0).
  Proof. revert i. induction p as [|a p IH]; intros [|i]; cbn; try ring. apply IH. Qed.
  Lemma nth_padd (p q : list T) i : nth i (padd p q) f0 = fadd (nth i p f0) (nth i q f0).
  Proof.
    revert q i. induction p as [|a p IH]; intros [|b q] [|i]; cbn; try ring. apply IH.
  Qed.
  (** a polynomial that vanishes everywhere on the subgroup and has at most as many coefficients is zero *)
  Lemma peval_all_zero (p : list T) : forall rs, NoDup rs -> length p <= length rs -> (forall r, In r rs -> peval p r = f0) ->
    forall i, nth i p f0 = f0.
  Proof.
    induction p as [|c p IH]; intros rs ND L R i; [now destruct i|].
    pose proof (poly_roots T rs (c :: p) ND L R) as Z.
    assert (c = f0) as C0.
    { pose proof (Z f0) as E. cbn in E. transitivity (fadd c (fmul f0 (peval p f0))); [ring|exact E]. }
    destruct i as [|i]; [exact C0|]. cbn [nth].
    assert (forall r, r <> f0 -> peval p r = f0) as Zp.
    { intros r Nr. pose proof (Z r) as E. cbn in E. rewrite C0 in E.
      apply (fmul_cancel_l T r); [exact Nr|]. transitivity (fadd f0 (fmul r (peval p r))); [ring|]. rewrite E. ring. }
    (* drop one root: zero if it is there, any other otherwise *)
    destruct (in_dec (f_dec T) f0 rs) as [I0|N0].
    - destruct (in_split _ _ I0) as (l1 & l2 & E). subst rs. apply (IH (l1 ++ l2)).
      + eapply NoDup_remove_1; exact ND.
      + rewrite app_length in *. cbn in L. lia.
      + intros r Ir. apply Zp. intros ->. apply NoDup_remove_2 in ND. contradiction.
    - destruct rs as [|r0 rs]; [cbn in L; lia|]. apply (IH rs).
      + now inversion ND.
      + cbn in L. lia.
      + intros r Ir. apply Zp. intros ->. apply N0. now right.
  Qed.
  Lemma nodup_map_in {A B} (f : A -> B) l : NoDup l -> (forall a b, In a l -> In b l -> f a = f b -> a = b) -> NoDup (map f l).
  Proof.
    induction l as [|a l IH]; intros ND I; [constructor|]. inversion ND as [|? ? Na ND']; subst. cbn [map]. constructor.
    - intros H. apply in_map_iff in H as (b & E & Ib). apply Na. rewrite (I a b); [exact Ib|now left|now right|now symmetry].
    - apply IH; [exact ND'|]. intros x y Ix Iy. apply I; now right.
  Qed.
  Definition subgroup (k : nat) : list T := map (fun i => fpow (gen k) i) (seq 0 (2 ^ k)).
  Lemma subgroup_nodup k : k <= two_adicity T -> NoDup (subgroup k).
  Proof.
    intros L. unfold subgroup. apply nodup_map_in; [apply seq_NoDup|].
    intros i j Hi Hj E. apply in_seq in Hi, Hj. apply (gen_pow_inj T k L); [lia|lia|exact E].
  Qed.
  (** the coefficients are determined by the word *)
  Lemma codeword_inj k p q : k <= two_adicity T -> length p <= 2 ^ k -> length q <= 2 ^ k -> codeword T k p = codeword T k q ->
    forall i, nth i p f0 = nth i q f0.
  Proof.
    intros L Lp Lq E i.
    assert (nth i (padd p (pscale (fopp f1) q)) f0 = f0) as Z.
    { apply (peval_all_zero _ (subgroup k)); [now apply subgroup_nodup| |].
      - rewrite padd_length, pscale_length. unfold subgroup. rewrite map_length, seq_length. lia.
      - intros r Ir. apply in_map_iff in Ir as (j & <- & Ij). apply in_seq in Ij. rewrite psub_eval.
        pose proof (f_equal (fun l => nth (reverse_bits_len j k) l f0) E) as En. cbv beta in En.
        rewrite !codeword_nth, rbl_invol in En by (try apply rbl_lt; lia). rewrite En. ring. }
    rewrite nth_padd, nth_pscale in Z. apply fsub_0. transitivity (fadd (nth i p f0) (fmul (fopp f1) (nth i q f0))); [ring|exact Z].
  Qed.
  Lemma codeword_ext k p q : (forall i, nth i p f0 = nth i q f0) -> codeword T k p = codeword T k q.
  Proof. intros E. unfold codeword. apply map_ext. intros i. now apply peval_ext. Qed.
  Lemma firstn_coeffs (p : list T) d : (forall i, d <= i -> nth i p f0 = f0) -> forall i, nth i (firstn d p) f0 = nth i p f0.
  Proof.
    intros Z i. destruct (Nat.lt_ge_cases i d) as [Hi|Hi].
    - rewrite <- (firstn_skipn d p) at 2. destruct (Nat.lt_ge_cases i (length p)).
      + rewrite app_nth1; [reflexivity|]. rewrite firstn_length. lia.
      + rewrite !nth_overflow; [reflexivity| |]; [rewrite app_length, firstn_length, skipn_length|rewrite firstn_length]; lia.
    - rewrite (Z i Hi). apply nth_overflow. rewrite firstn_length. lia.
  Qed.
  (** low in terms of the coefficients *)
  Lemma low_coeffs k d p : k <= two_adicity T -> length p <= 2 ^ k -> low T k d (codeword T k p) <-> forall i, d <= i -> nth i p f0 = f0.
  Proof.
    intros L Lp. rewrite low_iff. split.
    - intros (q & Lq & E) i Hi. destruct (Nat.lt_ge_cases (2 ^ k) (length q)) as [B|B].
      + apply nth_overflow. lia.
      + rewrite (codeword_inj k p q L Lp B E). apply nth_overflow. lia.
    - intros Z. exists (firstn d p). split; [rewrite firstn_length; lia|]. apply codeword_ext. intros i. symmetry. now apply firstn_coeffs.
  Qed.
  Lemma low_dec k d v : k <= two_adicity T -> length v = 2 ^ k -> low T k d v \/ ~ low T k d v.
  Proof.
    intros L Lv. destruct (every_codeword T k v L Lv) as (p & Lp & ->). rewrite (low_coeffs k d p L) by lia.
    destruct (forallb (fun x => feqb x f0) (skipn d p)) eqn:E.
    - left. intros i Hi. rewrite forallb_forall in E. destruct (Nat.lt_ge_cases i (length p)) as [B|B]; [|now apply nth_overflow].
      apply feqb_ok, E. replace i with (d + (i - d)) by lia. rewrite <- (firstn_skipn d p) at 1. rewrite app_nth2; rewrite firstn_length; [|lia].
      replace (d + (i - d) - Nat.min d (length p)) with (i - d) by lia. apply nth_In. rewrite skipn_length. lia.
    - right. intros Z. rewrite <- not_true_iff_false in E. apply E, forallb_forall. intros x Ix. apply feqb_ok.
      apply (In_nth _ _ f0) in Ix as (j & Hj & <-). rewrite skipn_length in Hj.
      transitivity (nth (d + j) p f0); [|apply Z; lia]. rewrite <- (firstn_skipn d p) at 2.
      rewrite app_nth2; rewrite firstn_length; [|lia]. f_equal. lia.
  Qed.
  Lemma plus_codeword k p q : plus T (codeword T k p) (codeword T k q) = codeword T k (padd p q).
  Proof.
    unfold plus. rewrite codeword_length. unfold codeword at 3. apply map_ext_in. intros i Hi. apply in_seq in Hi.
    rewrite !codeword_nth by lia. now rewrite peval_padd.
  Qed.
  Lemma plus_length v u : length (plus T v u) = length v.
  Proof. unfold plus. now rewrite map_length, seq_length. Qed.
  Lemma plus_add_into v u : length u = length v -> add_into T v u = plus T v u.
  Proof.
    intros L. apply nth_ext with (d := f0) (d' := f0); [now rewrite add_into_length, plus_length|].
    intros i Hi. rewrite add_into_length in Hi. rewrite add_into_nth by lia. unfold plus. now rewrite nth_map_seq.
  Qed.
  Lemma low_plus k d r u : k <= two_adicity T -> length r = 2 ^ k -> low T k d u -> low T k d (plus T r u) -> low T k d r.
  Proof.
    intros L Lr Hu Hs. destruct (every_codeword T k r L Lr) as (p & Lp & ->). apply low_iff in Hu as (q & Lq & ->).
    rewrite plus_codeword in Hs. apply low_iff in Hs as (s & Ls & Es). apply low_iff.
    exists (padd s (pscale (fopp f1) q)). split; [rewrite padd_length, pscale_length; lia|].
    unfold codeword in *. apply map_ext_in. intros i Hi.
    pose proof (ext_in_map Es i Hi) as Ei. cbv beta in Ei. rewrite peval_padd in Ei. rewrite psub_eval, <- Ei. ring.
  Qed.
  Lemma fold_of k v b : S k <= two_adicity T -> length v = 2 ^ S k ->
    exists p, length p = 2 ^ S k /\ v = codeword T (S k) p /\ fold_even_odd T v b = Some (codeword T k (pfold T b p)).
  Proof.
    intros L Lv. destruct (every_codeword T (S k) v L Lv) as (p & Lp & ->). exists p. split; [exact Lp|]. split; [reflexivity|].
    rewrite (fold_even_odd_ok T _ k b L (codeword_length T (S k) p)). f_equal. now apply folded_codeword.
  Qed.

  (** ** At most one challenge per layer makes a codeword of a word that is none. *)
  Theorem C93_one_unlucky_challenge : forall k d (v r1 r2 : list T) b1 b2, S k <= two_adicity T -> length v = 2 ^ S k ->
    ~ low T (S k) (2 * d) v ->
    fold_even_odd T v b1 = Some r1 -> low T k d r1 ->
    fold_even_odd T v b2 = Some r2 -> low T k d r2 -> b1 = b2.
  Proof.
    intros k d v r1 r2 b1 b2 L Lv N E1 L1 E2 L2. destruct (f_dec T b1 b2) as [|Nb]; [assumption|]. exfalso. apply N. clear N.
    destruct (fold_of k v b1 L Lv) as (p & Lp & -> & F1). rewrite F1 in E1. injection E1 as <-.
    rewrite (fold_even_odd_ok T _ k b2 L (codeword_length T (S k) p)), folded_codeword in E2 by exact L. injection E2 as <-.
    assert (forall b, length (pfold T b p) <= 2 ^ k) as Lf by (intros b; apply pfold_length; rewrite Lp, Nat.pow_succ_r'; lia).
    rewrite (low_coeffs k d _ ltac:(lia) (Lf b1)) in L1. rewrite (low_coeffs k d _ ltac:(lia) (Lf b2)) in L2. apply (low_coeffs (S k) (2 * d) p L ltac:(lia)).
    assert (forall i, d <= i -> nth (2 * i) p f0 = f0 /\ nth (2 * i + 1) p f0 = f0) as Z.
    { intros i Hi. pose proof (L1 i Hi) as Z1. pose proof (L2 i Hi) as Z2. unfold pfold in Z1, Z2.
      rewrite nth_padd, nth_pscale, evens_nth, odds_nth in Z1, Z2.
      set (e := nth (2 * i) p f0) in *. set (o := nth (2 * i + 1) p f0) in *.
      assert (o = f0) as Zo.
      { apply (fmul_cancel_l T (fsub b1 b2)); [now apply fsub_nz|].
        transitivity (fsub (fadd e (fmul b1 o)) (fadd e (fmul b2 o))); [ring|]. rewrite Z1, Z2. ring. }
      split; [|exact Zo]. rewrite Zo in Z1. transitivity (fadd e (fmul b1 f0)); [ring|exact Z1]. }
    intros i Hi. destruct (Nat.Even_or_Odd i) as [(j & ->)|(j & ->)]; apply Z; lia.
  Qed.
  (** Every challenge makes a codeword of a codeword. *)
  Theorem C93_codewords_stay : forall k d (v : list T) b, S k <= two_adicity T -> low T (S k) (2 * d) v ->
    exists r, fold_even_odd T v b = Some r /\ low T k d r.
  Proof.
    intros k d v b L Lv. apply low_iff in Lv as (p & Lp & ->). exists (codeword T k (pfold T b p)).
    rewrite (fold_even_odd_ok T _ k b L (codeword_length T (S k) p)), folded_codeword by exact L. split; [reflexivity|].
    apply low_iff. exists (pfold T b p). split; [now apply pfold_length|reflexivity].
  Qed.
End Low.

(** ** Prover and verifier *)
Section Run.
  Variable T : two_adic.
  Variable M : mmcs T.
  Variable Ch : challenger (m_comm M) T.
  Variables (IP IE : Type).
  Variable config : fri_config.
  Notation lb := (log_blowup config).
  Add Field TR : (fth T).

  Lemma add_input_take r inputs : take_input T r inputs = add_input T r inputs.
  Proof.
    destruct inputs as [|u rest]; [reflexivity|]. cbn [take_input add_input]. destruct (Nat.eqb_spec (length u) (length r)) as [E|E]; [|reflexivity].
    now rewrite plus_add_into.
  Qed.
  Lemma add_input_length r inputs : length (fst (add_input T r inputs)) = length r.
  Proof. destruct inputs as [|u rest]; [reflexivity|]. cbn [add_input]. destruct (length u =? length r); [apply plus_length|reflexivity]. Qed.
  Lemma below_weaken k k' inputs : k <= k' -> codewords_below T lb k inputs -> codewords_below T lb k' inputs.
  Proof. destruct inputs as [|u rest]; [easy|]. intros L (j & B & R). exists j. split; [lia|exact R]. Qed.
  Lemma below_ins k inputs : codewords_below T lb (S k) inputs -> ins_ok T config k inputs.
  Proof.
    revert k. induction inputs as [|u rest IH]; intros k; [easy|]. intros (j & B & L & _ & R). exists j. split; [lia|]. split; [exact L|].
    apply IH. replace (S (j - 1)) with j by lia. exact R.
  Qed.
  (** adding the input of a layer: the other inputs stay below, and the sum is a codeword only if the
      fold is one *)
  Lemma add_below k r inputs : k <= two_adicity T -> length r = 2 ^ k -> codewords_below T lb (S k) inputs ->
    codewords_below T lb k (snd (add_input T r inputs)) /\
    (codeword_of T lb k (fst (add_input T r inputs)) -> codeword_of T lb k r).
  Proof.
    intros L Lr I. destruct inputs as [|u rest]; [now split|]. destruct I as (j & B & Lu & Cu & R). cbn [add_input].
    rewrite Lu, Lr. destruct (Nat.eqb_spec (2 ^ j) (2 ^ k)) as [E|E].
    - apply Nat.pow_inj_r in E; [|lia]. subst j. cbn [fst snd]. split; [exact R|]. intros C. exact (low_plus T k _ r u L Lr Cu C).
    - cbn [fst snd]. split; [|auto]. exists j. assert (j <> k) by congruence. split; [lia|]. auto.
  Qed.
  Lemma constant_low k (v : list T) x : length v = 2 ^ k -> (forall y, In y v -> y = x) -> low T k 1 v.
  Proof.
    intros L A. apply low_iff. exists [x]. split; [cbn; lia|]. apply nth_ext with (d := f0) (d' := f0); [now rewrite codeword_length|].
    intros i Hi. rewrite codeword_nth by lia. rewrite (A (nth i v f0)) by now apply nth_In. cbn. ring.
  Qed.
  Lemma fold_length k (w : list T) b r : S k <= two_adicity T -> length w = 2 ^ S k -> fold_even_odd T w b = Some r -> length r = 2 ^ k.
  Proof. intros L Lw E. rewrite (fold_even_odd_ok T w k b L Lw) in E. injection E as <-. now rewrite map_length, seq_length. Qed.

  Lemma fold_some k (w : list T) b : S k <= two_adicity T -> length w = 2 ^ S k -> exists r, fold_even_odd T w b = Some r.
  Proof. intros L Lw. rewrite (fold_even_odd_ok T w k b L Lw). eauto. Qed.

  (** *** The prover *)
  Lemma loop_unlucky (mm : mmcs_contract M (num_queries config) 1 (two_adicity T)) (lb1 : 1 <= lb) x :
    forall k fuel v rest st ch s, lb <= k <= two_adicity T -> length v = 2 ^ k -> codewords_below T lb k rest ->
    commit_loop T M Ch config fuel st ch v rest = Some s -> (forall y, In y (cs_folded T M Ch s) -> y = x) ->
    exists bs, sample_betas T M Ch ch (cs_commits T M Ch s) = Some (bs, cs_chal T M Ch s) /\
      (~ codeword_of T lb k v -> exists i b w, nth_error bs i = Some b /\ layer_word T v rest (firstn i bs) = Some w /\ unlucky T lb (k - S i) w b).
  Proof.
    induction k as [|k IH]; intros fuel v rest st ch s Hk Lv I E A; [lia|].
    destruct (Nat.eq_dec (S k) lb) as [Ek|Nk].
    - assert (s = {| cs_commits := []; cs_data := []; cs_folded := v; cs_mmcs := st; cs_chal := ch |}) as ->.
      { destruct fuel; cbn [commit_loop] in E; rewrite (proj2 (Nat.leb_le _ _)) in E
          by (rewrite Lv; apply pow_le_blowup; lia); congruence. }
      exists []. split; [reflexivity|]. intros N. elim N. unfold codeword_of. replace (S k - lb) with 0 by lia.
      apply constant_low with (x := x); [exact Lv|exact A].
    - assert (blowup config < 2 ^ S k) as Gt by (apply Nat.nle_gt; rewrite pow_le_blowup; lia).
      destruct fuel as [|fuel]; cbn [commit_loop] in E; destruct (Nat.leb_spec (length v) (blowup config)) as [Bd|_];
        try (exfalso; lia); [discriminate|].
      rewrite (new2_ok T config lb1 v k Lv) in E.
      destruct (commit2 T M config mm lb1 st v k ltac:(lia) Lv) as (c & d & st' & Ec & Gm & _). rewrite Ec in E.
      destruct (c_observe Ch ch c) as [ch1|] eqn:Eo; [|discriminate].
      destruct (c_sample Ch ch1) as [[beta ch2]|] eqn:Es; [|discriminate].
      rewrite Gm in E. cbn [rev app] in E.
      pose proof (fold_even_odd_ok T v k beta ltac:(lia) Lv) as Ef. rewrite (fold_matrix_ok T v k beta ltac:(lia) Lv) in E.
      set (r := map _ (seq 0 (2 ^ k))) in *. clearbody r.
      pose proof (fold_length k v beta r ltac:(lia) Lv Ef) as Lr.
      rewrite add_input_take in E. pose proof (add_input_length r rest) as La.
      destruct (add_below k r rest ltac:(lia) Lr I) as [Ib Cb].
      destruct (add_input T r rest) as [r' rest'] eqn:Ea. cbn [fst snd] in *.
      destruct (commit_loop T M Ch config fuel st' ch2 r' rest') as [s1|] eqn:El; [|discriminate]. injection E as <-.
      cbn [cs_folded cs_commits cs_chal] in *.
      destruct (IH fuel r' rest' st' ch2 s1 ltac:(lia) ltac:(lia) Ib El A) as (bs & Eb & U).
      exists (beta :: bs). cbn [sample_betas]. rewrite Eo, Es, Eb. split; [reflexivity|]. intros N.
      destruct (low_dec T k (2 ^ (k - lb)) r' ltac:(lia) ltac:(lia)) as [Cr|Nr].
      + exists 0, beta, v. split; [reflexivity|]. split; [reflexivity|]. unfold unlucky. replace (S k - 1) with k by lia.
        split; [exact Lv|]. split; [exact N|]. exists r. split; [exact Ef|]. now apply Cb.
      + destruct (U Nr) as (i & b & w & Hb & Hw & Hu). exists (S i), b, w. split; [exact Hb|]. split; [|exact Hu].
        cbn [firstn layer_word]. now rewrite Ef, Ea.
  Qed.
  (** The commit phase succeeds on a word that is no codeword, with codewords as the other inputs, only
      if some challenge is the unlucky one of its layer. *)
  Theorem C93_prover : forall st ch v rest k commits data final st' ch',
    mmcs_contract M (num_queries config) 1 (two_adicity T) -> 1 <= lb <= k -> k <= two_adicity T ->
    length v = 2 ^ k -> codewords_below T lb k rest -> ~ codeword_of T lb k v ->
    commit_phase T M Ch config st ch (v :: rest) = Some (commits, data, final, st', ch') ->
    exists bs, sample_betas T M Ch ch commits = Some (bs, ch') /\
      exists i b w, nth_error bs i = Some b /\ layer_word T v rest (firstn i bs) = Some w /\ unlucky T lb (k - S i) w b.
  Proof.
    intros st ch v rest k commits data final st' ch' mm Hl Hk Lv I N E. unfold commit_phase in E.
    destruct (commit_loop T M Ch config (length v) st ch v rest) as [s|] eqn:El; [|discriminate].
    destruct (length (cs_folded T M Ch s) =? blowup config); [|discriminate].
    destruct (cs_folded T M Ch s) as [|x xs] eqn:Ex; [discriminate|].
    destruct (forallb (fun y => feqb y x) (x :: xs)) eqn:A; [|discriminate]. injection E as <- <- <- <- <-.
    rewrite forallb_forall in A.
    destruct (loop_unlucky mm ltac:(lia) x k (length v) v rest st ch s ltac:(lia) Lv I El) as (bs & Eb & U).
    { rewrite Ex. intros y Iy. now apply feqb_ok, A. }
    exists bs. split; [exact Eb|]. exact (U N).
  Qed.

  (** *** The verifier *)
  (** Every layer opens the pair of its word that holds the position, and the opening verifies. *)
  Fixpoint opened (qt q : nat) (words : list (list T)) (cs : list (m_comm M)) (os : list (list (list T) * m_proof M)) : Prop :=
    match words, cs, os with
    | [], [], [] => True
    | w :: words, c :: cs, (vals, pf) :: os =>
        vals = [[nth (2 * (q / 2)) w f0; nth (2 * (q / 2) + 1) w f0]] /\ m_verify_batch M qt vals pf c = Ok tt /\
        opened qt (q / 2) words cs os
    | _, _, _ => False
    end.
  Lemma fold_at k (w : list T) b r q : S k <= two_adicity T -> length w = 2 ^ S k -> q < 2 ^ k -> fold_even_odd T w b = Some r ->
    fold_row T q k b [nth (2 * q) w f0; nth (2 * q + 1) w f0] = Some (nth q r f0).
  Proof.
    intros L Lw Hq E. rewrite (fold_even_odd_ok T w k b L Lw) in E. injection E as <-. rewrite (fold_row_ok T q k b _ _ L). f_equal.
    now rewrite nth_map_seq.
  Qed.
  Lemma pair_at q (w : list T) : nth_error [nth (2 * (q / 2)) w f0; nth (2 * (q / 2) + 1) w f0] (q mod 2) = Some (nth q w f0).
  Proof.
    pose proof (Nat.div_mod q 2 ltac:(lia)) as D. pose proof (Nat.mod_upper_bound q 2 ltac:(lia)) as B.
    destruct (q mod 2) as [|[|x]] eqn:E; [| |lia]; cbn [nth_error]; f_equal; f_equal; lia.
  Qed.
  Lemma consistent_path qt final : forall words k q w cs os bs inputs ro fe first, S k <= two_adicity T -> length words + lb = k ->
    q < 2 ^ S k -> halving T (S k) (w :: words) -> opened qt q (w :: words) cs os -> length bs = S (length words) ->
    ins_ok T config k inputs -> snd (next_opening T k fe ro) = ros T (q / 2) k inputs ->
    consistent T M first q fe (layers T M (S k) cs os bs) ro qt final <->
    (first = false -> nth q w f0 = fst (next_opening T k fe ro)) /\ path_ok T q w words inputs bs final.
  Proof.
    induction words as [|w' words IH]; intros k q w cs os bs inputs ro fe first L Hk Hq Hh Ho Lb I En;
      (destruct cs as [|c cs]; [destruct Ho|]); (destruct os as [|[vals pf] os]; [destruct Ho|]); (destruct bs as [|b bs]; [discriminate|]);
      destruct Ho as (-> & Ev & Ho); destruct Hh as [Lw Hh]; cbn [layers consistent];
      assert (Hq2 : q / 2 < 2 ^ k) by (apply Nat.div_lt_upper_bound; [lia|]; rewrite Nat.pow_succ_r' in Hq; lia);
      destruct (fold_some k w b L Lw) as (r & Ef);
      pose proof (fold_at k w b r (q / 2) L Lw Hq2 Ef) as Efr; pose proof (fold_length k w b r L Lw Ef) as Lr; rewrite En.
    - destruct cs as [|? ?]; [|destruct Ho]. destruct os as [|? ?]; [|destruct Ho]. destruct bs as [|? ?]; [|discriminate].
      replace (layers T M k [] [] []) with (@nil (nat * m_comm M * (list (list T) * m_proof M) * T)) by now destruct k.
      cbn [consistent path_ok]. split.
      + intros (r1 & fe' & folded & Hv & Hn & Hf & _ & Hr & Hl). apply (f_equal (hd [])) in Hv. cbn [hd] in Hv. subst r1.
        rewrite pair_at in Hn. injection Hn as <-.
        rewrite Efr in Hr. injection Hr as <-. split; [exact Hf|]. exists r. auto.
      + intros [Hf (r' & Er & Hl)]. rewrite Ef in Er. injection Er as <-.
        exists [nth (2 * (q / 2)) w f0; nth (2 * (q / 2) + 1) w f0], (nth q w f0), (nth (q / 2) r f0). split; [reflexivity|]. split; [apply pair_at|]. auto.
    - cbn [length] in *. destruct k as [|k]; [lia|]. cbn [halving] in Hh. replace (S (S k) - 1) with (S k) in Hh by lia.
      destruct (take_input T r inputs) as [r' rest] eqn:Et.
      destruct (take_next T config k r inputs r' rest ltac:(lia) Lr I Et) as (Lr' & Ir & N). specialize (N _ Hq2).
      specialize (IH k (q / 2) w' cs os bs rest (ros T (q / 2) (S k) inputs) (nth (q / 2) r f0) false ltac:(lia) ltac:(lia) Hq2 Hh Ho ltac:(lia) Ir).
      rewrite N in IH. cbn [fst snd] in IH. specialize (IH eq_refl).
      rewrite add_input_take in Et. cbn [path_ok]. split.
      + intros (r1 & fe' & folded & Hv & Hn & Hf & _ & Hr & Hl). apply (f_equal (hd [])) in Hv. cbn [hd] in Hv. subst r1.
        rewrite pair_at in Hn. injection Hn as <-.
        rewrite Efr in Hr. injection Hr as <-. split; [exact Hf|]. apply IH in Hl as [H1 H2]. exists r. rewrite Et. cbn [fst snd]. auto.
      + intros [Hf (r1 & Er & H1 & H2)]. rewrite Ef in Er. injection Er as <-. rewrite Et in H1, H2. cbn [fst snd] in H1, H2.
        exists [nth (2 * (q / 2)) w f0; nth (2 * (q / 2) + 1) w f0], (nth q w f0), (nth (q / 2) r f0). split; [reflexivity|]. split; [apply pair_at|]. split; [exact Hf|]. split; [exact Ev|].
        split; [exact Efr|]. apply IH. auto.
  Qed.
  Lemma layers_full : forall k cs os bs, length cs <= k -> length os = length cs -> length bs = length cs -> length (layers T M k cs os bs) = length cs.
  Proof.
    induction k as [|k IH]; intros [|c cs] [|o os] [|b bs]; cbn; try lia. intros. rewrite IH; lia.
  Qed.
  Lemma opened_length qt : forall words q cs os, opened qt q words cs os -> length cs = length words /\ length os = length words.
  Proof.
    induction words as [|w words IH]; intros q [|c cs] [|[vals pf] os] H; cbn in *; try easy. destruct H as (_ & _ & H). apply IH in H. lia.
  Qed.
  (** A query against the words of the layers is accepted with the final value exactly if its path is
      consistent. The first input v0 does not matter. *)
  Theorem C93_query_iff : forall debug qt q v0 w words cs os ip bs rest final k, k = length cs + lb -> k <= two_adicity T ->
    halving T k (w :: words) -> opened qt q (w :: words) cs os -> length bs = length cs ->
    length v0 = 2 ^ k -> ins_ok T config (k - 1) rest -> q < 2 ^ k ->
    verify_query T M IP IE config debug cs q qt {| input_proof := ip; commit_phase_openings := os |} bs (ros T q k (v0 :: rest)) k = Ok final <->
    path_ok T q w words rest bs final.
  Proof.
    intros debug qt q v0 w words cs os ip bs rest final k Ek L Hh Ho Lb Lv I Hq.
    destruct (opened_length qt _ _ _ _ Ho) as [Lc Lo]. cbn [length] in Lc, Lo. destruct k as [|k]; [lia|].
    unfold verify_query. cbn [commit_phase_openings].
    set (ls := layers T M (S k) cs os bs). set (ro := ros T q (S k) (v0 :: rest)).
    assert (length ls = length cs) as Ll by (apply layers_full; lia).
    assert (snd (next_opening T k f0 ro) = ros T (q / 2) k rest) as En.
    { unfold ro, ros. cbn [map next_opening]. rewrite Lv, Nat.log2_pow2, Nat.add_1_r, Nat.eqb_refl by lia. cbn [snd].
      symmetry. apply (ros_half T config q k rest). replace (S k - 1) with k in I by lia. exact I. }
    replace (S k - 1) with k in I by lia.
    pose proof (consistent_path qt final words k q w cs os bs rest ro f0 true L ltac:(lia) Hq Hh Ho ltac:(lia) I En) as C.
    fold ls in C.
    assert (path_ok T q w words rest bs final <-> consistent T M true q f0 ls ro qt final) as -> by (rewrite C; intuition discriminate).
    clear C.
    split.
    - intros E. destruct (query_loop T M IE (S k) qt ls q f0 ro) as [[fe q']| |] eqn:El; try discriminate.
      destruct (debug && negb (q' <? blowup config)); [discriminate|]. injection E as ->.
      apply (loop_consistent T M IE (S k) qt ls (S k) q f0 ro final q' (layers_desc T M _ _ _ _) (le_n _)) in El as [El _].
      now rewrite Nat.eqb_refl in El.
    - intros C. pose proof (proj2 (loop_consistent T M IE (S k) qt ls (S k) q f0 ro final (q / 2 ^ length ls) (layers_desc T M _ _ _ _) (le_n _))) as El.
      rewrite Nat.eqb_refl in El. rewrite (El (conj C eq_refl)).
      assert (q / 2 ^ length ls < blowup config) as B.
      { apply Nat.div_lt_upper_bound; [apply Nat.pow_nonzero; lia|]. unfold blowup. rewrite <- Nat.pow_add_r, Ll, <- Ek. exact Hq. }
      rewrite (proj2 (Nat.ltb_lt _ _) B). now rewrite andb_false_r.
  Qed.
  (** If every position is consistent, the other inputs are codewords and the first layer is none,
      then some challenge is the unlucky one of its layer. *)
  Theorem C93_all_positions : forall words k w rest bs final, k = length bs + lb -> k <= two_adicity T ->
    halving T k (w :: words) -> codewords_below T lb k rest -> ~ codeword_of T lb k w ->
    (forall q, q < 2 ^ k -> path_ok T q w words rest bs final) ->
    exists i b w', nth_error bs i = Some b /\ nth_error (w :: words) i = Some w' /\ unlucky T lb (k - S i) w' b.
  Proof.
    induction words as [|w1 words IH]; intros k w rest bs final Ek L Hh I N P.
    - assert (exists b, bs = [b]) as (b & ->).
      { pose proof (P 0 ltac:(apply Nat.neq_0_lt_0, Nat.pow_nonzero; lia)) as P0. destruct bs as [|b [|? ?]]; try destruct P0. eauto. }
      cbn [length] in Ek. destruct k as [|k]; [lia|]. destruct Hh as [Lw _].
      destruct (fold_some k w b L Lw) as (r & Ef).
      exists 0, b, w. split; [reflexivity|]. split; [reflexivity|]. unfold unlucky. replace (S k - 1) with k by lia.
      split; [exact Lw|]. split; [exact N|]. exists r. split; [exact Ef|]. unfold codeword_of. replace (k - lb) with 0 by lia.
      pose proof (fold_length k w b r L Lw Ef) as Lr.
      apply constant_low with (x := final); [exact Lr|]. intros y Iy. apply (In_nth _ _ f0) in Iy as (j & Hj & <-).
      destruct (P (2 * j)) as (r' & Er & En); [rewrite Nat.pow_succ_r'; lia|]. rewrite Ef in Er. injection Er as <-.
      now rewrite (Nat.mul_comm 2), Nat.div_mul in En by lia.
    - assert (exists b bs', bs = b :: bs') as (b & bs' & ->).
      { pose proof (P 0 ltac:(apply Nat.neq_0_lt_0, Nat.pow_nonzero; lia)) as P0. destruct bs as [|b bs']; [destruct P0|]. eauto. }
      cbn [length] in Ek. destruct k as [|k]; [lia|]. destruct Hh as [Lw Hh]. replace (S k - 1) with k in Hh by lia.
      destruct (fold_some k w b L Lw) as (r & Ef).
      pose proof (fold_length k w b r L Lw Ef) as Lr.
      destruct (add_below k r rest ltac:(lia) Lr I) as [Ib Cb].
      assert (forall j, j < 2 ^ k -> nth j w1 f0 = nth j (fst (add_input T r rest)) f0 /\ path_ok T j w1 words (snd (add_input T r rest)) bs' final) as Pj.
      { intros j Hj. destruct (P (2 * j)) as (r' & Er & E1 & E2); [rewrite Nat.pow_succ_r'; lia|]. rewrite Ef in Er. injection Er as <-.
        rewrite (Nat.mul_comm 2), Nat.div_mul in E1, E2 by lia. auto. }
      assert (w1 = fst (add_input T r rest)) as Ew.
      { destruct Hh as [L1 _]. apply nth_ext with (d := f0) (d' := f0); [now rewrite add_input_length, L1|]. intros j Hj. apply Pj. lia. }
      destruct (low_dec T k (2 ^ (k - lb)) w1 ltac:(lia) ltac:(apply Hh)) as [C1|N1].
      + exists 0, b, w. split; [reflexivity|]. split; [reflexivity|]. unfold unlucky. replace (S k - 1) with k by lia.
        split; [exact Lw|]. split; [exact N|]. exists r. split; [exact Ef|]. apply Cb. rewrite <- Ew. exact C1.
      + destruct (IH k w1 _ bs' final ltac:(lia) ltac:(lia) Hh Ib N1 (fun j Hj => proj2 (Pj j Hj))) as (i & b' & w' & E1 & E2 & U).
        exists (S i), b', w'. auto.
  Qed.
End Run.

(** ** Words of different lengths that cancel *)
Section Cancel.
  Variable T : two_adic.
  Add Field TC : (fth T).
  (** X^(2^k - 1) *)
  Definition high (k : nat) : list T := repeat f0 (2 ^ k - 1) ++ [f1].
  Lemma high_length k : length (high k) = 2 ^ k.
  Proof. unfold high. rewrite app_length, repeat_length. cbn. pose proof (Nat.pow_nonzero 2 k). lia. Qed.
  Lemma high_nth k : nth (2 ^ k - 1) (high k) f0 = f1.
  Proof. unfold high. rewrite app_nth2; rewrite repeat_length; [|lia]. now rewrite Nat.sub_diag. Qed.
  (** the even polynomial high(X^2) *)
  Definition high2 (k : nat) : list T := interleave (high k) (repeat f0 (2 ^ k)).
  Lemma high2_length k : length (high2 k) = 2 ^ S k.
  Proof. unfold high2. rewrite interleave_length; rewrite high_length, ?repeat_length, ?Nat.pow_succ_r'; lia. Qed.
  Lemma repeat_zero n x : peval (repeat (@f0 T) n) x = f0.
  Proof. induction n as [|n IH]; [reflexivity|]. cbn. rewrite IH. ring. Qed.
  Lemma fold_high2 k b x : peval (pfold T b (high2 k)) x = peval (high k) x.
  Proof.
    unfold pfold, high2. rewrite peval_padd, peval_pscale, evens_interleave, odds_interleave by now rewrite high_length, repeat_length.
    rewrite repeat_zero. ring.
  Qed.
  Lemma high_not_low k d : k <= two_adicity T -> d < 2 ^ k -> ~ low T k d (codeword T k (high k)).
  Proof.
    intros L Hd C. apply (low_coeffs T k d (high k) L ltac:(rewrite high_length; lia)) with (i := 2 ^ k - 1) in C; [|lia].
    rewrite high_nth in C. now apply f1_nz in C.
  Qed.
  Lemma neg_not_low k d : k <= two_adicity T -> d < 2 ^ k -> ~ low T k d (codeword T k (pscale (fopp f1) (high k))).
  Proof.
    intros L Hd C. apply (low_coeffs T k d (pscale (fopp f1) (high k)) L ltac:(rewrite pscale_length, high_length; lia)) with (i := 2 ^ k - 1) in C; [|lia].
    rewrite nth_pscale, high_nth in C. apply (f1_nz T). transitivity (fmul (fopp f1) (fmul (fopp f1) (@f1 T))); [ring|]. rewrite C. ring.
  Qed.
  Lemma high2_not_low k d : S k <= two_adicity T -> d < 2 ^ S k - 1 -> ~ low T (S k) d (codeword T (S k) (high2 k)).
  Proof.
    intros L Hd C. apply (low_coeffs T (S k) d (high2 k) L ltac:(rewrite high2_length; lia)) with (i := 2 * (2 ^ k - 1)) in C;
      [|rewrite Nat.pow_succ_r' in Hd; lia].
    rewrite <- evens_nth in C. unfold high2 in C. rewrite evens_interleave, high_nth in C by now rewrite high_length, repeat_length.
    now apply f1_nz in C.
  Qed.

  Lemma const_word k (p : list T) x : length p <= 1 -> In x (codeword T k p) -> x = nth 0 p f0.
  Proof.
    intros L H. apply in_map_iff in H as (i & <- & _). destruct p as [|c [|c' p]]; cbn in *; [reflexivity|ring|lia].
  Qed.

  (** Finding: lower inputs are added in without a random factor. There are two words, neither a codeword, that FRI
      proves and accepts whatever the challenges are. *)
  Theorem C93_cancelling_inputs_accepted : forall (config : fri_config) k, 1 <= log_blowup config < k -> S k <= two_adicity T ->
    exists v u : list T, length v = 2 ^ S k /\ length u = 2 ^ k /\
      ~ codeword_of T (log_blowup config) (S k) v /\ ~ codeword_of T (log_blowup config) k u /\
      forall (M : mmcs T) (Ch : challenger (m_comm M) T) (IP IE : Type) (sync : c_state Ch -> c_state Ch -> Prop) (okst : c_state Ch -> Prop)
        open_input_p (open_input : nat -> nat -> IP -> outcome IE (list (nat * T))) debug st ch d,
        mmcs_contract M (num_queries config) 1 (two_adicity T) -> chal_contract Ch sync ->
        (forall c x, okst c -> exists c', c_observe Ch c x = Some c' /\ okst c') ->
        (forall c, okst c -> exists a c', c_sample Ch c = Some (a, c') /\ okst c') ->
        (forall c n, okst c -> n <= two_adicity T -> exists i c', c_sample_bits Ch c n = Some (i, c') /\ okst c') ->
        (forall c, okst c -> exists w c', c_grind Ch c (proof_of_work_bits config) w c' /\ okst c') ->
        (forall qt q, qt < num_queries config -> q < 2 ^ S k ->
           exists ip, open_input_p qt q = Some ip /\ open_input qt q ip = Ok (ros T q (S k) [v; u])) ->
        okst ch -> sync ch d ->
        exists proof st' ch' challenges d',
          bf_prove T M Ch IP config open_input_p st ch [v; u] proof st' ch' /\
          verify_shape_and_sample_challenges T M Ch IP IE config proof d = Ok (challenges, d') /\ sync ch' d' /\
          verify_challenges T M Ch IP IE config debug open_input proof challenges = Ok tt.
  Proof.
    intros config k Hl L. set (lb := log_blowup config) in *.
    set (v := codeword T (S k) (high2 k)). set (u := codeword T k (pscale (fopp f1) (high k))).
    assert (2 ^ (k - lb) <= 2 ^ (k - 1)) as P1 by (apply Nat.pow_le_mono_r; lia).
    assert (2 ^ (S k - lb) <= 2 ^ k) as P2 by (apply Nat.pow_le_mono_r; lia).
    assert (2 ^ k = 2 * 2 ^ (k - 1)) as P3 by (rewrite <- Nat.pow_succ_r'; f_equal; lia).
    pose proof (Nat.pow_nonzero 2 (k - 1) ltac:(lia)) as P4.
    assert (length v = 2 ^ S k) as Lv by apply codeword_length. assert (length u = 2 ^ k) as Lu by apply codeword_length.
    assert (k <> 1 -> 2 <= 2 ^ (k - 1)) as P5 by (intros; replace (k - 1) with (S (k - 2)) by lia; rewrite Nat.pow_succ_r'; pose proof (Nat.pow_nonzero 2 (k - 2)); lia).
    exists v, u. split; [exact Lv|]. split; [exact Lu|].
    split; [apply high2_not_low; [exact L|rewrite Nat.pow_succ_r'; lia]|]. split; [apply neg_not_low; lia|].
    intros M Ch IP IE sync okst open_input_p open_input debug st ch d mm cc ob sa bits gr opn Oc Sy.
    assert (ins_ok T config (S k) [v; u]) as I.
    { exists (S k). fold lb. split; [lia|]. split; [exact Lv|]. exists k. fold lb. split; [lia|]. split; [exact Lu|exact Logic.I]. }
    (* the commit phase *)
    assert (exists s pf, commit_loop T M Ch config (length v) st ch v [u] = Some s /\ okst (cs_chal T M Ch s) /\
              cs_folded T M Ch s = codeword T lb pf /\ length pf <= 1) as (s & pf & El & Os & Ef & Lpf).
    { assert (exists n, length v = S n /\ k - lb <= n) as (n & En & Hn).
      { exists (2 ^ S k - 1). rewrite Lv, Nat.pow_succ_r'. pose proof (Nat.pow_gt_lin_r 2 k ltac:(lia)). lia. }
      rewrite En. cbn [commit_loop].
      assert (blowup config < 2 ^ S k) as Gt by (apply Nat.nle_gt; rewrite (pow_le_blowup config); fold lb; lia).
      destruct (Nat.leb_spec (length v) (blowup config)) as [Bd|_]; [lia|].
      rewrite (new2_ok T config ltac:(fold lb; lia) v k Lv).
      destruct (commit2 T M config mm ltac:(fold lb; lia) st v k ltac:(lia) Lv) as (c & dt & st' & -> & Gm & _).
      destruct (ob ch c Oc) as (ch1 & -> & O1). destruct (sa ch1 O1) as (beta & ch2 & -> & O2).
      rewrite Gm. cbn [rev app]. rewrite (fold_matrix_ok T v k beta ltac:(lia) Lv). unfold v at 1 2.
      rewrite folded_codeword by lia. cbn [take_input]. rewrite Lu, codeword_length, Nat.eqb_refl. unfold u.
      rewrite add_codeword.
      assert (codeword T k (padd (pfold T beta (high2 k)) (pscale (fopp f1) (high k))) = codeword T k []) as ->.
      { unfold codeword. apply map_ext. intros i. rewrite peval_padd, peval_pscale, fold_high2. cbn [peval]. ring. }
      destruct (loop_total T M Ch IP IE config mm ltac:(fold lb; lia) open_input_p open_input okst ob sa k n [] [] st' ch2) as (s & -> & Os & pf & Ef & Lpf);
        [fold lb; lia|fold lb; lia|cbn; lia|intros; exact Logic.I|exact O2|].
      eexists. exists pf. split; [reflexivity|]. cbn [cs_chal cs_folded]. auto. }
    assert (take_input T (repeat f0 (2 ^ S k)) [v; u] = (v, [u])) as Et.
    { cbn [take_input]. rewrite repeat_length, Lv, Nat.eqb_refl. f_equal. rewrite <- Lv. clear.
      induction v as [|x v IH]; [reflexivity|]. cbn. rewrite IH. f_equal. ring. }
    destruct (loop_chain T M Ch IE config mm ltac:(fold lb; lia) (S k) (length v) (repeat f0 (2 ^ S k)) [v; u] v [u] st ch s ltac:(fold lb; lia)
                (repeat_length _ _) I Et El) as (_ & _ & bs & _ & _ & Q).
    assert (exists final, commit_phase T M Ch config st ch [v; u] = Some (cs_commits T M Ch s, cs_data T M Ch s, final, cs_mmcs T M Ch s, cs_chal T M Ch s)) as (final & Ep).
    { unfold commit_phase. rewrite El, Ef, codeword_length. unfold blowup. fold lb. rewrite Nat.eqb_refl.
      destruct (codeword T lb pf) as [|x xs] eqn:Ex.
      - pose proof (codeword_length T lb pf) as Lx. rewrite Ex in Lx. cbn in Lx. pose proof (Nat.pow_nonzero 2 lb). lia.
      - assert (forallb (fun y => feqb y x) (x :: xs) = true) as ->; [|eauto].
        apply forallb_forall. intros y Hy. apply feqb_ok. rewrite <- Ex in Hy.
        rewrite (const_word lb pf y Lpf Hy). symmetry. apply (const_word lb pf x Lpf). rewrite Ex. now left. }
    destruct (gr _ Os) as (wit & ch2 & Eg & O2).
    destruct (query_total T M Ch IP IE config ltac:(fold lb; lia) sync cc open_input_p open_input okst ob sa bits (S k) (cs_data T M Ch s) L) with
      (n := num_queries config) (qt := 0) (c := ch2) as (qs & ch3 & Eq).
    - intros qt q Hqt Hq. destruct (opn qt q Hqt Hq) as (ip & -> & _). discriminate.
    - intros qt q Hqt Hq. destruct (Q qt q 0 Hqt) as (os & Eo & _); [rewrite Nat.pow_0_r, Nat.div_1_r; exact Hq|]. eauto.
    - exact O2.
    - lia.
    - set (proof := {| commit_phase_commits := cs_commits T M Ch s; query_proofs := qs; final_poly := final; pow_witness := wit |} : fri_proof T M Ch IP).
      assert (bf_prove T M Ch IP config open_input_p st ch [v; u] proof (cs_mmcs T M Ch s) ch3) as Pr.
      { split; [cbn [sorted_descending]; rewrite Lv, Lu, Nat.pow_succ_r'; apply andb_true_intro; split; [apply Nat.leb_le; lia|reflexivity]|].
        exists (S k), (cs_data T M Ch s), (cs_chal T M Ch s), ch2. cbn [hd]. rewrite Lv. split; [apply log2_strict_pow|].
        split; [exact Ep|]. split; [exact Eg|exact Eq]. }
      destruct (C35_accepted T M Ch IP IE config sync open_input_p open_input debug st ch d [v; u] proof (cs_mmcs T M Ch s) ch3 (S k) mm cc) as (challenges & d' & V1 & V2 & V3);
        [fold lb; lia|exact L|discriminate|exact Lv|exact I| |exact Sy|exact Pr|].
      + intros qt q ip Hqt Ei Hq. destruct (opn qt q Hqt Hq) as (ip' & E1 & E2). rewrite E1 in Ei. injection Ei as <-. exact E2.
      + exists proof, (cs_mmcs T M Ch s), ch3, challenges, d'. auto.
  Qed.
End Cancel.

(** ** Concrete cases *)

Lemma coeffs_eq (l l' : list BabyBearT) : map as_canonical l = map as_canonical l' -> l = l'.
Proof.
  revert l'. induction l as [|a l IH]; intros [|b l'] E; try discriminate; [reflexivity|]. injection E as E1 E2. f_equal; [now apply bb_eq|now apply IH].
Qed.
Lemma fold_codeword (T : two_adic) k p b : S k <= two_adicity T -> fold_even_odd T (codeword T (S k) p) b = Some (codeword T k (pfold T b p)).
Proof. intros L. rewrite (fold_even_odd_ok T _ k b L (codeword_length _ _ _)). f_equal. now apply folded_codeword. Qed.

(** X^2 + X^3 on four points is no codeword for blowup 2; it folds to one exactly for the challenge -1. *)
Example C93_example_unlucky : let v := codeword BabyBearT 2 (ints [0; 0; 1; 1]%Z) in
  ~ low BabyBearT 2 (2 * 1) v /\
  (exists r, fold_even_odd BabyBearT v (of_Z (-1)) = Some r /\ low BabyBearT 1 1 r) /\
  unlucky BabyBearT 1 1 v (of_Z (-1)) /\
  (forall b r, fold_even_odd BabyBearT v b = Some r -> low BabyBearT 1 1 r -> b = of_Z (-1)).
Proof.
  intros v. assert (~ low BabyBearT 2 (2 * 1) v) as N.
  { intros C. apply low_coeffs with (i := 2) in C; [|cbn; lia|cbn; lia|lia]. exact (f1_nz BabyBearT C). }
  assert (exists r, fold_even_odd BabyBearT v (of_Z (-1)) = Some r /\ low BabyBearT 1 1 r) as (r & Er & Lr).
  { exists (codeword BabyBearT 1 (pfold BabyBearT (of_Z (-1)) (ints [0; 0; 1; 1]%Z))).
    split.
    - apply fold_codeword. cbn. lia.
    - apply low_coeffs; [cbn; lia|cbn; lia|]. intros [|[|[|i]]] Hi; [lia| |reflexivity|reflexivity]. apply feqb_ok. vm_compute. reflexivity. }
  split; [exact N|]. split; [exists r; auto|]. split.
  - split; [reflexivity|]. split; [exact N|]. exists r. auto.
  - intros b r' Eb Lb. exact (C93_one_unlucky_challenge BabyBearT 1 1 v r' r b (of_Z (-1)) ltac:(cbn; lia) (codeword_length _ _ _) N Eb Lb Er Lr).
Qed.
(** A challenger that samples -1 lets the prover through on that word. *)
Definition minus_challenger (C : Type) : challenger C BabyBear :=
  {| c_state := nat; c_wit := unit; c_observe := fun s _ => Some s; c_sample := fun s => Some (of_Z (-1), s);
     c_sample_bits := fun s _ => Some (0, s); c_check_witness := fun s _ _ => Some (true, s); c_grind := fun s _ _ s' => s' = s |}.
Example C93_example_prover : let M := plain_mmcs BabyBear in let Ch := minus_challenger (m_comm M) in
  let v := codeword BabyBearT 2 (ints [0; 0; 1; 1]%Z) in
  exists commits data final st' ch', commit_phase BabyBearT M Ch cfg2 tt 0 [v] = Some (commits, data, final, st', ch') /\
    mmcs_contract M (num_queries cfg2) 1 (two_adicity BabyBearT) /\ ~ codeword_of BabyBearT (log_blowup cfg2) 2 v.
Proof.
  intros M Ch v. destruct (commit_phase BabyBearT M Ch cfg2 tt 0 [v]) as [[[[[commits data] final] st'] ch']|] eqn:E.
  - exists commits, data, final, st', ch'. split; [reflexivity|]. split; [apply plain_contract|]. exact (proj1 C93_example_unlucky).
  - exfalso. assert (match commit_phase BabyBearT M Ch cfg2 tt 0 [v] with Some _ => true | None => false end = true) as X by (vm_compute; reflexivity).
    rewrite E in X. discriminate.
Qed.
(** The two cancelling words of lengths 8 and 4 are proved and accepted. *)
Example C93_example_cancel : let M := plain_mmcs BabyBear in let Ch := count_challenger (m_comm M) in
  exists v u, ~ codeword_of BabyBearT 1 3 v /\ ~ codeword_of BabyBearT 1 2 u /\ exists proof st' ch' challenges d',
    bf_prove BabyBearT M Ch unit cfg2 (fun _ _ => Some tt) tt 0 [v; u] proof st' ch' /\
    verify_shape_and_sample_challenges BabyBearT M Ch unit unit cfg2 proof 0 = Ok (challenges, d') /\
    verify_challenges BabyBearT M Ch unit unit cfg2 true (fun _ q _ => Ok (ros BabyBearT q 3 [v; u])) proof challenges = Ok tt.
Proof.
  intros M Ch. destruct (C93_cancelling_inputs_accepted BabyBearT cfg2 2 ltac:(cbn; lia) ltac:(cbn; lia)) as (v & u & Lv & Lu & Nv & Nu & R).
  exists v, u. split; [exact Nv|]. split; [exact Nu|].
  destruct (R M Ch unit unit eq (fun _ => True) (fun _ _ => Some tt) (fun _ q _ => Ok (ros BabyBearT q 3 [v; u])) true tt 0 0)
    as (proof & st' & ch' & challenges & d' & P & V1 & _ & V2);
    [apply plain_contract|apply count_contract|cbn; eauto|cbn; eauto|cbn; eauto|cbn; eauto| |exact Logic.I|reflexivity|].
  { intros qt q _ _. exists tt. auto. }
  exists proof, st', ch', challenges, d'. auto.
Qed.
(** The path of position 5 through two layers, with an input added in: consistent for the honest second layer,
    and not for a layer of zeros. *)
Example C93_example_path : let w0 := codeword BabyBearT 3 (ints [1; 2; 3; 4]%Z) in let u := codeword BabyBearT 2 (ints [7; 9]%Z) in
  let w1 := codeword BabyBearT 2 (ints [18; 32]%Z) in
  path_ok BabyBearT 5 w0 [w1] [u] [of_Z 5; of_Z 6] (of_Z 210) /\
  ~ path_ok BabyBearT 5 w0 [codeword BabyBearT 2 []] [u] [of_Z 5; of_Z 6] (of_Z 210).
Proof.
  intros w0 u w1.
  assert (fold_even_odd BabyBearT w0 (of_Z 5) = Some (codeword BabyBearT 2 (ints [11; 23]%Z))) as E0.
  { rewrite <- (coeffs_eq (pfold BabyBearT (of_Z 5) (ints [1; 2; 3; 4]%Z)) (ints [11; 23]%Z)) by (vm_compute; reflexivity).
    apply fold_codeword. cbn. lia. }
  assert (fold_even_odd BabyBearT w1 (of_Z 6) = Some (codeword BabyBearT 1 (ints [210]%Z))) as E1.
  { rewrite <- (coeffs_eq (pfold BabyBearT (of_Z 6) (ints [18; 32]%Z)) (ints [210]%Z)) by (vm_compute; reflexivity).
    apply fold_codeword. cbn. lia. }
  assert (add_input BabyBearT (codeword BabyBearT 2 (ints [11; 23]%Z)) [u] = (w1, [])) as Ea.
  { cbn [add_input]. unfold u. rewrite !codeword_length, Nat.eqb_refl, plus_codeword.
    rewrite (coeffs_eq (padd (ints [11; 23]%Z) (ints [7; 9]%Z)) (ints [18; 32]%Z)) by (vm_compute; reflexivity). reflexivity. }
  split.
  - exists (codeword BabyBearT 2 (ints [11; 23]%Z)). split; [exact E0|]. rewrite Ea. cbn [fst snd]. split; [reflexivity|].
    exists (codeword BabyBearT 1 (ints [210]%Z)). split; [exact E1|]. rewrite codeword_nth by (vm_compute; lia).
    apply feqb_ok. vm_compute. reflexivity.
  - intros (r & Er & En & _). pose proof (eq_trans (eq_sym E0) Er) as Q.
    apply (f_equal (fun o => match o with Some l => l | None => [] end)) in Q. cbv beta iota in Q. rewrite <- Q, Ea in En.
    change (fst (w1, @nil (list BabyBearT))) with w1 in En. clear E0 E1 Ea Er Q. unfold w1 in En.
    assert (5 / 2 < 2 ^ 2) as L by (vm_compute; lia).
    rewrite (codeword_nth BabyBearT 2 _ _ L), (codeword_nth BabyBearT 2 _ _ L) in En.
    apply feqb_ok in En. vm_compute in En. discriminate.
Qed.
