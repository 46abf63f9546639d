(** Property C96: how many query positions notice an inconsistent layer (fri/src/verifier.rs 60-165). *)
From Coq Require Import ZArith List Arith Bool Lia Field Sorted.
From Verif Require Import ScriptNum ScriptVM TaptreeModel TcsModel TcsProofs PropTcs ChallengerModel ChallengerProofs PropChallenger
  Field BabyBear FriModel FriProofs FriProofs2 FriInst PropFri PcsModel PolyExt PcsProofs PcsProofs2 PropFold.
Import ListNotations.
Open Scope nat_scope.

(** ** Counting *)
Section Count.
  Fixpoint tuples (n : nat) (l : list nat) : list (list nat) :=
    match n with O => [[]] | S n => flat_map (fun q => map (cons q) (tuples n l)) l end.
  Lemma tuples_length n l : length (tuples n l) = length l ^ n.
  Proof.
    assert (forall l (t : list (list nat)), length (flat_map (fun q => map (cons q) t) l) = length l * length t) as G.
    { intros l' t. induction l' as [|q l' IHl]; [reflexivity|]. cbn [flat_map length]. rewrite app_length, map_length, IHl. lia. }
    induction n as [|n IH]; [reflexivity|]. cbn [tuples]. now rewrite G, IH, Nat.pow_succ_r'.
  Qed.
  Lemma tuples_in l : forall t, (forall q, In q t -> In q l) -> In t (tuples (length t) l).
  Proof.
    induction t as [|q t IH]; intros H; [now left|]. cbn [length tuples]. apply in_flat_map. exists q. split; [apply H; now left|]. apply in_map, IH. intros; apply H; now right.
  Qed.
  Lemma nodup_app {A} (a b : list A) : NoDup a -> NoDup b -> (forall x, In x a -> ~ In x b) -> NoDup (a ++ b).
  Proof.
    induction 1 as [|x a N _ IH]; intros Nb D; [exact Nb|]. cbn. constructor.
    - intros I. apply in_app_iff in I as [I|I]; [contradiction|]. exact (D x (or_introl eq_refl) I).
    - apply IH; [exact Nb|]. intros y Iy. apply D. now right.
  Qed.
  Lemma tuples_nodup n l : NoDup l -> NoDup (tuples n l).
  Proof.
    intros N. induction n as [|n IH]; [constructor; [intros []|constructor]|]. cbn [tuples]. revert IH. generalize (tuples n l). intros ts0 IH.
    induction N as [|q l' Nq _ IHl]; [constructor|]. cbn [flat_map].
    apply nodup_app; [|exact IHl|].
    - clear - IH. induction IH as [|t ts Nt _ IHt]; [constructor|]. cbn [map]. constructor; [|exact IHt]. intros I. apply in_map_iff in I as (t' & E & I). injection E as ->. contradiction.
    - intros t I I'. apply in_map_iff in I as (t1 & <- & _). apply in_flat_map in I' as (q' & Iq & I'). apply in_map_iff in I' as (t2 & E & _). injection E as -> _. contradiction.
  Qed.
  Lemma tuples_all n l t : In t (tuples n l) -> length t = n /\ forall q, In q t -> In q l.
  Proof.
    revert t. induction n as [|n IH]; intros t I; [destruct I as [<-|[]]; split; [reflexivity|contradiction]|]. cbn [tuples] in I.
    apply in_flat_map in I as (q & Iq & I). apply in_map_iff in I as (t' & <- & I). destruct (IH t' I) as (L & H). split; [cbn; now rewrite L|]. intros x [<-|Ix]; [exact Iq|auto].
  Qed.
  Lemma rest_length l bad : NoDup bad -> NoDup l -> (forall q, In q bad -> In q l) -> length (filter (fun q => negb (existsb (Nat.eqb q) bad)) l) = length l - length bad.
  Proof.
    intros Nb Nl I. assert (length (filter (fun q => negb (existsb (Nat.eqb q) bad)) l) + length bad = length l) as H; [|lia].
    transitivity (length (filter (fun q => negb (existsb (Nat.eqb q) bad)) l ++ bad)); [now rewrite app_length|].
    apply Nat.le_antisymm; apply NoDup_incl_length.
    - apply nodup_app; [now apply NoDup_filter|exact Nb|]. intros q H1 H2. apply filter_In in H1 as [_ H1].
      assert (existsb (Nat.eqb q) bad = true) as X by (apply existsb_exists; exists q; split; [exact H2|apply Nat.eqb_refl]). rewrite X in H1. discriminate.
    - intros q H. apply in_app_iff in H as [H|H]; [now apply filter_In in H|now apply I].
    - exact Nl.
    - intros q H. apply in_app_iff. destruct (existsb (Nat.eqb q) bad) eqn:X.
      + right. apply existsb_exists in X as (y & Iy & Ey). apply Nat.eqb_eq in Ey. now subst.
      + left. apply filter_In. split; [exact H|now rewrite X].
  Qed.
End Count.

(** ** C96 *)
Section C96.
  Variable T : two_adic.
  Add Field TQ : (fth T).
  (** For each layer: the word it should be (the fold of the layer above plus the input of that length), and
      the word that is there; at the end the fold of the last layer and the final value. *)
  Fixpoint links (w : list T) (words : list (list T)) (inputs : list (list T)) (bs : list T) (final : T) : list (list T * list T) :=
    match bs with
    | [] => []
    | b :: bs =>
        match fold_even_odd T w b with
        | None => []
        | Some r =>
            match words with
            | [] => [(r, repeat final (length r))]
            | w' :: words => (fst (add_input T r inputs), w') :: links w' words (snd (add_input T r inputs)) bs final
            end
        end
    end.
  (** Entry p of link j is broken. *)
  Definition broken (ls : list (list T * list T)) (j p : nat) : Prop :=
    exists e a, nth_error ls j = Some (e, a) /\ nth p e f0 <> nth p a f0.

  Lemma half_lt q k : q < 2 ^ S k -> q / 2 < 2 ^ k.
  Proof. intros H. apply Nat.div_lt_upper_bound; [lia|]. rewrite Nat.pow_succ_r' in H. lia. Qed.
  Lemma div_step q j : q / 2 / 2 ^ j = q / 2 ^ S j.
  Proof. rewrite Nat.div_div by (try apply Nat.pow_nonzero; lia). now rewrite Nat.pow_succ_r'. Qed.
  Lemma add_length k (r : list T) inputs : length r = 2 ^ k -> length (fst (add_input T r inputs)) = 2 ^ k.
  Proof. intros L. unfold add_input. destruct inputs as [|u rest]; [exact L|]. destruct (length u =? length r); [|exact L]. cbn [fst]. unfold plus. now rewrite map_length, seq_length. Qed.

  (** A path is consistent exactly if it meets no broken entry. *)
  Lemma path_links : forall words w k inputs bs final q, S (length words) = length bs -> length bs <= k -> k <= two_adicity T -> halving T k (w :: words) -> q < 2 ^ k ->
    (path_ok T q w words inputs bs final <-> forall j, j < length bs -> ~ broken (links w words inputs bs final) j (q / 2 ^ S j)) /\
    length (links w words inputs bs final) = length bs.
  Proof.
    induction words as [|w' words IH]; intros w k inputs bs final q Lb Lk L Hh Hq; (destruct bs as [|b bs]; [discriminate|]);
      (destruct k as [|k]; [cbn in Lk; lia|]); destruct Hh as [Lw Hh]; pose proof (half_lt q k Hq) as Hq2;
      pose proof (fold_even_odd_ok T w k b L Lw) as Ef; set (r := map _ (seq 0 (2 ^ k))) in Ef;
      (assert (length r = 2 ^ k) as Lr by (unfold r; now rewrite map_length, seq_length)); clearbody r.
    - destruct bs as [|? ?]; [|discriminate]. cbn [links path_ok length]. rewrite Ef. split; [|reflexivity].
      assert (nth (q / 2) (repeat final (length r)) f0 = final) as Er.
      { apply (repeat_spec (length r)). apply nth_In. now rewrite repeat_length, Lr. }
      split.
      + intros (r' & Er' & En) j Hj (e & a & Ea & Na). injection Er' as <-. destruct j as [|j]; [|lia]. cbn [nth_error] in Ea. injection Ea as <- <-.
        change (2 ^ 1) with 2 in Na. apply Na. congruence.
      + intros H. exists r. split; [reflexivity|]. specialize (H 0 ltac:(lia)). change (2 ^ 1) with 2 in H. destruct (f_dec T (nth (q / 2) r f0) final) as [|N]; [assumption|].
        exfalso. apply H. exists r, (repeat final (length r)). split; [reflexivity|]. now rewrite Er.
    - cbn [links path_ok]. rewrite Ef. set (r1 := fst (add_input T r inputs)). set (rest := snd (add_input T r inputs)).
      cbn [length] in Lb. replace (S k - 1) with k in Hh by lia. cbn [length] in Lk.
      destruct (IH w' k rest bs final (q / 2) ltac:(cbn; lia) ltac:(lia) ltac:(lia) Hh Hq2) as (P & Ll). split; [|cbn [length]; now rewrite Ll].
      split.
      + intros (r' & Er' & En & Pq) j Hj (e & a & Ea & Na). injection Er' as <-. fold r1 in En. fold rest in Pq. destruct j as [|j].
        * cbn [nth_error] in Ea. injection Ea as <- <-. change (2 ^ 1) with 2 in Na. congruence.
        * cbn [nth_error] in Ea. apply (proj1 P Pq j ltac:(cbn in Hj; lia)). exists e, a. split; [exact Ea|]. now rewrite div_step.
      + intros H. exists r. split; [reflexivity|]. fold r1 rest. split.
        * specialize (H 0 ltac:(cbn; lia)). change (2 ^ 1) with 2 in H. destruct (f_dec T (nth (q / 2) w' f0) (nth (q / 2) r1 f0)) as [|N]; [assumption|].
          exfalso. apply H. exists r1, w'. split; [reflexivity|]. congruence.
        * apply P. intros j Hj (e & a & Ea & Na). apply (H (S j) ltac:(cbn; lia)). exists e, a. split; [exact Ea|]. now rewrite <- div_step.
  Qed.
  Lemma broken_dec ls j p : {broken ls j p} + {~ broken ls j p}.
  Proof.
    unfold broken. destruct (nth_error ls j) as [[e a]|] eqn:E; [|right; intros (? & ? & X & _); discriminate].
    destruct (f_dec T (nth p e f0) (nth p a f0)) as [Eq|N]; [right|left; eauto]. intros (e' & a' & X & Nq). injection X as <- <-. contradiction.
  Qed.
  Lemma path_dec words w k inputs bs final q : S (length words) = length bs -> length bs <= k -> k <= two_adicity T -> halving T k (w :: words) -> q < 2 ^ k ->
    {path_ok T q w words inputs bs final} + {exists j, j < length bs /\ broken (links w words inputs bs final) j (q / 2 ^ S j)}.
  Proof.
    intros Lb Lk L Hh Hq. destruct (path_links words w k inputs bs final q Lb Lk L Hh Hq) as (P & _).
    set (ls := links w words inputs bs final) in *.
    assert (forall n, {forall j, j < n -> ~ broken ls j (q / 2 ^ S j)} + {exists j, j < n /\ broken ls j (q / 2 ^ S j)}) as D.
    { induction n as [|n [H|H]]; [left; lia| |right; destruct H as (j & ? & ?); exists j; auto].
      destruct (broken_dec ls n (q / 2 ^ S n)) as [B|B]; [right; exists n; auto|left]. intros j Hj. destruct (Nat.eq_dec j n) as [->|]; [exact B|]. apply H. lia. }
    destruct (D (length bs)) as [H|H]; [left; now apply P|right; exact H].
  Qed.

  (** ** Theorems *)
  (** Each broken entry of the link from layer j to layer j + 1 is noticed by 2^(j+1) positions. *)
  Theorem C96_broken_noticed : forall words w k inputs bs final j ps, S (length words) = length bs -> length bs <= k -> k <= two_adicity T -> halving T k (w :: words) ->
    NoDup ps -> Forall (fun p => p < 2 ^ (k - S j) /\ broken (links w words inputs bs final) j p) ps ->
    exists qs, NoDup qs /\ length qs = length ps * 2 ^ S j /\ Forall (fun q => q < 2 ^ k /\ ~ path_ok T q w words inputs bs final) qs.
  Proof.
    intros words w k inputs bs final j ps Lb Lk L Hh Np F.
    exists (flat_map (fun p => seq (p * 2 ^ S j) (2 ^ S j)) ps).
    assert (2 ^ S j <> 0) as Nz by (apply Nat.pow_nonzero; lia). set (m := 2 ^ S j) in *.
    assert (forall q, In q (flat_map (fun p => seq (p * m) m) ps) <-> In (q / m) ps) as Iq.
    { intros q. rewrite in_flat_map. split.
      - intros (p & Ip & I). apply in_seq in I. replace (q / m) with p; [exact Ip|]. apply (Nat.div_unique q m p (q - p * m)); lia.
      - intros I. exists (q / m). split; [exact I|]. apply in_seq. pose proof (Nat.div_mod q m Nz). pose proof (Nat.mod_upper_bound q m Nz). lia. }
    split; [|split].
    - clear - Np Nz. induction Np as [|p ps N Np IH]; [constructor|]. cbn [flat_map]. apply nodup_app; [apply seq_NoDup|exact IH|].
      intros q I I'. apply in_seq in I. apply in_flat_map in I' as (p' & Ip & I'). apply in_seq in I'.
      assert (p = p') as ->; [|contradiction]. destruct (Nat.lt_trichotomy p p') as [H|[H|H]]; [exfalso|exact H|exfalso]; nia.
    - clear. induction ps as [|p ps IH]; [reflexivity|]. cbn [flat_map length]. rewrite app_length, seq_length, IH. lia.
    - apply Forall_forall. intros q I. apply Iq in I. rewrite Forall_forall in F. destruct (F _ I) as (Hp & B).
      assert (S j <= k) as Hj.
      { destruct B as (e & a & Ea & _). destruct (path_links words w k inputs bs final 0 Lb Lk L Hh ltac:(apply Nat.neq_0_lt_0, Nat.pow_nonzero; lia)) as (_ & Ll).
        assert (j < length (links w words inputs bs final)) by (apply nth_error_Some; congruence). lia. }
      assert (q < 2 ^ k) as Hq.
      { replace k with (k - S j + S j) by lia. rewrite Nat.pow_add_r. fold m. pose proof (Nat.div_mod q m Nz). pose proof (Nat.mod_upper_bound q m Nz). nia. }
      split; [exact Hq|]. intros P. destruct (path_links words w k inputs bs final q Lb Lk L Hh Hq) as (PL & Ll). apply (proj1 PL P j); [|exact B].
      destruct B as (e & a & Ea & _). rewrite <- Ll. apply nth_error_Some. congruence.
  Qed.
  (** With m positions that notice, at most (2^k - m)^n of the lists of n positions are accepted. *)
  Theorem C96_accepted_lists : forall words w k inputs bs final qs n qss, NoDup qs -> Forall (fun q => q < 2 ^ k /\ ~ path_ok T q w words inputs bs final) qs ->
    NoDup qss -> Forall (fun l => length l = n /\ Forall (fun q => q < 2 ^ k /\ path_ok T q w words inputs bs final) l) qss ->
    length qss <= (2 ^ k - length qs) ^ n.
  Proof.
    intros words w k inputs bs final qs n qss Nq Fq Nl Fl. rewrite Forall_forall in Fq, Fl.
    set (ok := filter (fun q => negb (existsb (Nat.eqb q) qs)) (seq 0 (2 ^ k))).
    assert (length ok = 2 ^ k - length qs) as Lo.
    { unfold ok. rewrite rest_length; [now rewrite seq_length|exact Nq|apply seq_NoDup|]. intros q I. apply in_seq. destruct (Fq q I). lia. }
    rewrite <- Lo, <- tuples_length. apply NoDup_incl_length; [exact Nl|]. intros t It. destruct (Fl t It) as (<- & Ft). rewrite Forall_forall in Ft.
    apply tuples_in. intros q I. destruct (Ft q I) as (Hq & P). unfold ok. apply filter_In. split; [apply in_seq; lia|].
    destruct (existsb (Nat.eqb q) qs) eqn:X; [|reflexivity]. apply existsb_exists in X as (y & Iy & Ey). apply Nat.eqb_eq in Ey. subst y. destruct (Fq q Iy). contradiction.
  Qed.
  Variable config : fri_config.
  Notation lb := (log_blowup config).
  (** If the first layer is no codeword, the other inputs are, and no challenge is the unlucky one of its
      layer, at most (2^k - 2)^n of the lists of n positions are accepted. *)
  Theorem C96_not_a_codeword : forall words w k rest bs final n qss, 1 <= length bs -> k = length bs + lb -> k <= two_adicity T -> S (length words) = length bs ->
    halving T k (w :: words) -> codewords_below T lb k rest -> ~ codeword_of T lb k w ->
    (forall i b w', nth_error bs i = Some b -> nth_error (w :: words) i = Some w' -> ~ unlucky T lb (k - S i) w' b) ->
    NoDup qss -> Forall (fun l => length l = n /\ Forall (fun q => q < 2 ^ k /\ path_ok T q w words rest bs final) l) qss ->
    length qss <= (2 ^ k - 2) ^ n.
  Proof.
    intros words w k rest bs final n qss Lb1 Ek L Lb Hh I N U Nq Fq.
    assert (exists q j, q < 2 ^ k /\ j < length bs /\ broken (links w words rest bs final) j (q / 2 ^ S j)) as (q & j & Hq & Hj & B).
    { assert (forall m, m <= 2 ^ k -> {forall q, q < m -> path_ok T q w words rest bs final} +
        {exists q j, q < 2 ^ k /\ j < length bs /\ broken (links w words rest bs final) j (q / 2 ^ S j)}) as D.
      { induction m as [|m IH]; intros Hm; [left; lia|]. destruct (IH ltac:(lia)) as [H|H]; [|right; exact H].
        destruct (path_dec words w k rest bs final m Lb ltac:(lia) L Hh ltac:(lia)) as [P|B]; [left|right; destruct B as (j & Hj & B); exists m, j; auto].
        intros q Hq. destruct (Nat.eq_dec q m) as [->|]; [exact P|]. apply H. lia. }
      destruct (D (2 ^ k) (le_n _)) as [H|H]; [|exact H]. exfalso.
      destruct (C93_all_positions T config words k w rest bs final Ek L Hh I N H) as (i & b & w' & Eb & Ew & Un). exact (U i b w' Eb Ew Un). }
    destruct (C96_broken_noticed words w k rest bs final j [q / 2 ^ S j] Lb ltac:(lia) L Hh) as (qs & Nqs & Lqs & Fqs).
    - constructor; [intros []|constructor].
    - constructor; [|constructor]. split; [|exact B]. apply Nat.div_lt_upper_bound; [apply Nat.pow_nonzero; lia|]. rewrite <- Nat.pow_add_r. now replace (S j + (k - S j)) with k by lia.
    - pose proof (C96_accepted_lists words w k rest bs final qs n qss Nqs Fqs Nq Fq) as H. rewrite Lqs in H. cbn [length] in H.
      eapply Nat.le_trans; [exact H|]. apply Nat.pow_le_mono_l. assert (2 <= 2 ^ S j) by (rewrite Nat.pow_succ_r'; pose proof (Nat.pow_nonzero 2 j); lia). lia.
  Qed.
  (** The queries of a proof against committed layers are accepted exactly if all their paths are consistent. *)
  Variable M : mmcs T.
  Variable Ch : challenger (m_comm M) T.
  Variables (IP IE : Type).
  Theorem C96_verify_iff : forall debug open_input (proof : fri_proof T M Ch IP) challenges v0 w words rest k,
    let commits := commit_phase_commits T M Ch IP proof in
    k = length commits + lb -> k <= two_adicity T -> halving T k (w :: words) -> length (betas T challenges) = length commits -> length v0 = 2 ^ k ->
    ins_ok T config (k - 1) rest ->
    Forall2 (fun tq qp => snd tq < 2 ^ k /\ opened T M (fst tq) (snd tq) (w :: words) commits (commit_phase_openings T M IP qp) /\
        open_input (fst tq) (snd tq) (input_proof T M IP qp) = Ok (ros T (snd tq) k (v0 :: rest)))
      (query_indices T challenges) (query_proofs T M Ch IP proof) ->
    verify_challenges T M Ch IP IE config debug open_input proof challenges = Ok tt <->
    Forall (fun tq => path_ok T (snd tq) w words rest (betas T challenges) (final_poly T M Ch IP proof)) (query_indices T challenges).
  Proof.
    intros debug open_input proof challenges v0 w words rest k commits Ek L Hh Lb Lv I F. unfold verify_challenges. fold commits. rewrite <- Ek.
    induction F as [|[qt q] qp tqs qps (Hq & Ho & Eo) F IH]; [split; [constructor|reflexivity]|]. cbn [List.combine verify_queries fst snd] in *. fold commits. rewrite Eo.
    destruct qp as [ip os]. cbn [commit_phase_openings] in Ho.
    assert (forall x, verify_query T M IP IE config debug commits q qt {| input_proof := ip; commit_phase_openings := os |} (betas T challenges) (ros T q k (v0 :: rest)) k = Ok x <->
      path_ok T q w words rest (betas T challenges) x) as Q.
    { intros x. exact (C93_query_iff T M IP IE config debug qt q v0 w words commits os ip (betas T challenges) rest x k Ek L Hh Ho Lb Lv I Hq). }
    destruct (verify_query T M IP IE config debug commits q qt _ (betas T challenges) (ros T q k (v0 :: rest)) k) as [x|e|] eqn:Ev.
    - destruct (feqb x (final_poly T M Ch IP proof)) eqn:Ex.
      + apply feqb_ok in Ex. subst x. rewrite IH. split; [intros H; constructor; [now apply Q|exact H]|intros H; now inversion H].
      + split; [discriminate|]. intros H. inversion_clear H as [|? ? P _]. cbn [snd] in P. apply Q in P. injection P as ->. rewrite feqb_refl in Ex. discriminate.
    - split; [discriminate|]. intros H. inversion_clear H as [|? ? P _]. cbn [snd] in P. apply Q in P. discriminate.
    - split; [discriminate|]. intros H. inversion_clear H as [|? ? P _]. cbn [snd] in P. apply Q in P. discriminate.
  Qed.
End C96.

(** ** A word one entry away from a codeword is missed by all but two positions *)
Section Near.
  Variable T : two_adic.
  Add Field TN : (fth T).
  Definition delta (k : nat) : list T := f1 :: repeat f0 (2 ^ k - 1).
  Fixpoint zero_words (k n : nat) : list (list T) := match n with O => [] | S n => repeat f0 (2 ^ k) :: zero_words (k - 1) n end.
  Lemma pow_pos k : 1 <= 2 ^ k.
  Proof. pose proof (Nat.pow_nonzero 2 k). lia. Qed.
  Lemma delta_length k : length (delta k) = 2 ^ k.
  Proof. unfold delta. cbn [length]. rewrite repeat_length. pose proof (pow_pos k). lia. Qed.
  Lemma nth_zeros n j : nth j (repeat (@f0 T) n) f0 = f0.
  Proof. revert j. induction n as [|n IH]; intros [|j]; cbn; auto. Qed.
  Lemma nth_delta k j : nth (S j) (delta k) f0 = f0.
  Proof. apply nth_zeros. Qed.
  Lemma delta_not_low lb k : 1 <= lb <= k -> k <= two_adicity T -> ~ codeword_of T lb k (delta k).
  Proof.
    intros Hl L H. apply low_iff in H as (p & Lp & Ep).
    assert (forall x, peval p x = f0) as Z.
    { apply (poly_roots T (map (fun j => fpow (gen k) (reverse_bits_len j k)) (seq 1 (2 ^ k - 1)))).
      - apply nodup_map_in; [apply seq_NoDup|]. intros i j Hi Hj E. apply in_seq in Hi, Hj. apply (gen_pow_inj T k L) in E; [|apply rbl_lt|apply rbl_lt].
        rewrite <- (rbl_invol i k), <- (rbl_invol j k) by lia. now rewrite E.
      - rewrite map_length, seq_length. eapply Nat.le_trans; [exact Lp|]. pose proof (Nat.pow_le_mono_r 2 (k - lb) (k - 1) ltac:(lia) ltac:(lia)).
        destruct k as [|k]; [lia|]. rewrite Nat.pow_succ_r'. replace (S k - 1) with k in * by lia. pose proof (pow_pos k). lia.
      - intros r I. apply in_map_iff in I as (j & <- & I). apply in_seq in I. rewrite <- codeword_nth by lia. rewrite <- Ep. destruct j as [|j]; [lia|]. apply nth_delta. }
    apply (f1_nz T). change (@f1 T) with (nth 0 (delta k) f0). rewrite Ep, codeword_nth by apply pow_pos. apply Z.
  Qed.
  Lemma delta_halving n : forall k w, n <= k -> length w = 2 ^ k -> halving T k (w :: zero_words (k - 1) n).
  Proof.
    induction n as [|n IH]; intros k w Hk Lw; (split; [exact Lw|]); [exact Logic.I|]. cbn [zero_words]. apply IH; [lia|]. apply repeat_length.
  Qed.
  Lemma fold_zero k w b r i : S k <= two_adicity T -> length w = 2 ^ S k -> i < 2 ^ k -> nth (2 * i) w f0 = f0 -> nth (2 * i + 1) w f0 = f0 ->
    fold_even_odd T w b = Some r -> nth i r f0 = f0.
  Proof.
    intros L Lw Hi E0 E1 E. rewrite (fold_even_odd_ok T w k b L Lw) in E.
    apply (f_equal (fun o => match o with Some l => l | None => [] end)) in E. cbv beta iota in E. rewrite <- E, nth_map_seq by exact Hi. cbv beta. rewrite E0, E1.
    unfold folded_pair. field. split; [now apply point_nz|apply two_nz].
  Qed.
  Lemma zero_path n : forall k w q bs, n < k -> k <= two_adicity T -> length bs = S n -> length w = 2 ^ k -> q < 2 ^ k ->
    nth (2 * (q / 2)) w f0 = f0 -> nth (2 * (q / 2) + 1) w f0 = f0 -> path_ok T q w (zero_words (k - 1) n) [] bs f0.
  Proof.
    induction n as [|n IH]; intros k w q bs Hk L Lb Lw Hq E0 E1; (destruct bs as [|b bs]; [discriminate|]); (destruct k as [|k]; [lia|]);
      pose proof (half_lt q k Hq) as Hq2; destruct (fold_some T k w b L Lw) as (r & Er); pose proof (fold_zero k w b r (q / 2) L Lw Hq2 E0 E1 Er) as Ez.
    - destruct bs; [|discriminate]. exists r. auto.
    - cbn [zero_words path_ok]. exists r. cbn [add_input fst snd]. split; [exact Er|]. replace (S k - 1) with k by lia. split; [now rewrite nth_zeros|].
      apply IH; try apply nth_zeros; try lia; [cbn in Lb; lia|apply repeat_length].
  Qed.
  (** The word 1, 0, 0, ... is no codeword, but with zero words as the other layers and the final value 0 all
      positions but the first two are consistent, whatever the challenges are. *)
  Theorem C96_near_miss : forall lb bs, 1 <= lb -> 1 <= length bs -> length bs + lb <= two_adicity T ->
    let k := length bs + lb in let w := delta k in let words := zero_words (k - 1) (length bs - 1) in
    halving T k (w :: words) /\ S (length words) = length bs /\ ~ codeword_of T lb k w /\
    (forall q, 2 <= q < 2 ^ k -> path_ok T q w words [] bs f0) /\
    forall n, exists qss, NoDup qss /\ length qss = (2 ^ k - 2) ^ n /\
      Forall (fun l => length l = n /\ Forall (fun q => q < 2 ^ k /\ path_ok T q w words [] bs f0) l) qss.
  Proof.
    intros lb bs Hl Hb L k w words. split; [apply delta_halving; [lia|apply delta_length]|]. split.
    - assert (forall n k, length (zero_words k n) = n) as Z by (induction n as [|n IH]; intros; cbn; auto). unfold words. rewrite Z. lia.
    - split; [apply delta_not_low; lia|].
      assert (forall q, 2 <= q < 2 ^ k -> path_ok T q w words [] bs f0) as P; [|split; [exact P|]]; cycle 1.
      { intros n. exists (tuples n (seq 2 (2 ^ k - 2))). split; [apply tuples_nodup, seq_NoDup|]. split; [now rewrite tuples_length, seq_length|].
        apply Forall_forall. intros t It. apply tuples_all in It as (Lt & Ht). split; [exact Lt|]. apply Forall_forall. intros q Iq. apply Ht, in_seq in Iq. split; [lia|]. apply P. lia. }
      intros q [Hq Hq']. pose proof (Nat.div_le_mono 2 q 2 ltac:(lia) Hq) as H. rewrite Nat.div_same in H by lia.
      apply zero_path; try lia; [apply delta_length| |].
      + destruct (q / 2) as [|i]; [lia|]. replace (2 * S i) with (S (2 * i + 1)) by lia. apply nth_delta.
      + rewrite Nat.add_1_r. apply nth_delta.
  Qed.
  Lemma rbl_zero k : reverse_bits_len 0 k = 0.
  Proof. induction k as [|k IH]; [reflexivity|]. exact IH. Qed.
  (** The challenge 1 keeps this word. *)
  Lemma fold_delta k : S k <= two_adicity T -> fold_even_odd T (delta (S k)) f1 = Some (delta k).
  Proof.
    intros L. rewrite (fold_even_odd_ok T _ k f1 L (delta_length (S k))). f_equal. apply nth_ext with (d := f0) (d' := f0); [rewrite map_length, seq_length; symmetry; apply delta_length|].
    intros j Hj. rewrite map_length, seq_length in Hj. rewrite nth_map_seq by exact Hj. cbv beta. destruct j as [|j].
    - change (2 * 0) with 0. change (0 + 1) with 1. rewrite nth_delta. change (nth 0 (delta (S k)) f0) with (@f1 T). change (nth 0 (delta k) f0) with (@f1 T).
      unfold folded_pair, point. rewrite rbl_zero. cbn [fpow].
      assert (forall a : T, fadd (fdiv (fadd a f0) (fadd f1 f1)) (fmul f1 (fdiv (fsub a f0) (fmul (fadd f1 f1) f1))) = a) as H by (intros a; field; apply two_nz).
      apply H.
    - rewrite nth_delta. replace (2 * S j) with (S (2 * j + 1)) by lia. rewrite !Nat.add_1_r, !nth_delta. unfold folded_pair. field. split; [now apply point_nz|apply two_nz].
  Qed.
End Near.

(** ** Examples *)
(** Eight positions, blowup 2, challenges 1 and 5: the word 1, 0, ... is accepted for at most, and for exactly
    these, 6^n lists of n positions. *)
Example C96_example : let w := delta BabyBearT 3 in let words := zero_words BabyBearT 2 1 in let bs := ints [1; 5]%Z in
  let accepted n l := length l = n /\ Forall (fun q => q < 8 /\ path_ok BabyBearT q w words [] bs f0) l in
  forall n, (forall qss, NoDup qss -> Forall (accepted n) qss -> length qss <= 6 ^ n) /\
    exists qss, NoDup qss /\ Forall (accepted n) qss /\ length qss = 6 ^ n.
Proof.
  intros w words bs accepted n. destruct (C96_near_miss BabyBearT 1 bs ltac:(lia) ltac:(cbn; lia) ltac:(cbn; lia)) as (Hh & Lw & N & _ & Q). split.
  - intros qss Nq F. refine (C96_not_a_codeword BabyBearT cfg2 words w 3 [] bs f0 n qss ltac:(cbn; lia) eq_refl ltac:(cbn; lia) eq_refl Hh Logic.I N _ Nq F).
    intros i b w' Eb Ew (_ & Nl & r & Er & Lr). destruct i as [|[|i]].
    + injection Eb as <-. injection Ew as <-. change (3 - 1) with 2 in *. pose proof (eq_trans (eq_sym (fold_delta BabyBearT 2 ltac:(cbn; lia))) Er) as E.
      apply (f_equal (fun o => match o with Some l => l | None => [] end)) in E. cbv beta iota in E. rewrite <- E in Lr.
      exact (delta_not_low BabyBearT 1 2 ltac:(lia) ltac:(cbn; lia) Lr).
    + injection Ew as <-. apply Nl. apply low_iff. exists []. split; [cbn; lia|]. reflexivity.
    + cbn in Ew. destruct i; discriminate.
  - destruct (Q n) as (qss & Nq & L & F). exists qss. auto.
Qed.
(** The same word of four entries, committed as a matrix of pairs: queries at 2 and 3 are accepted, a query at 0
    is not. *)
Definition exQ : mmcs BabyBearT := plain_mmcs BabyBear.
Definition exQC : challenger (m_comm exQ) BabyBearT := count_challenger (m_comm exQ).
Definition query_at (q : nat) : query_proof BabyBearT exQ nat :=
  {| input_proof := q;
     commit_phase_openings := [([[nth (2 * (q / 2)) (delta BabyBearT 2) f0; nth (2 * (q / 2) + 1) (delta BabyBearT 2) f0]], q / 2 : m_proof exQ)] |}.
Definition proof_at (qs : list nat) : fri_proof BabyBearT exQ exQC nat :=
  {| commit_phase_commits := ([[{| width := 2; values := delta BabyBearT 2 |}]] : list (m_comm exQ)); query_proofs := map query_at qs; final_poly := f0; pow_witness := 0 : c_wit exQC |}.
Definition accepted_at (qs : list nat) : Prop :=
  verify_challenges BabyBearT exQ exQC nat unit cfg2 true (fun _ q _ => Ok (ros BabyBearT q 2 [delta BabyBearT 2])) (proof_at qs)
    {| query_indices := map (fun q => (0, q)) qs; betas := [f1] |} = Ok tt.
Lemma accepted_at_iff qs : Forall (fun q => q < 4) qs ->
  accepted_at qs <-> Forall (fun q => path_ok BabyBearT q (delta BabyBearT 2) [] [] [f1] f0) qs.
Proof.
  intros F. unfold accepted_at. rewrite (C96_verify_iff BabyBearT cfg2 exQ exQC nat unit true _ (proof_at qs) _ (delta BabyBearT 2) (delta BabyBearT 2) [] [] 2).
  - cbn [query_indices betas final_poly proof_at]. rewrite Forall_map. cbn [snd]. reflexivity.
  - reflexivity.
  - cbn; lia.
  - split; [apply delta_length|exact Logic.I].
  - reflexivity.
  - apply delta_length.
  - exact Logic.I.
  - cbn [query_indices query_proofs proof_at commit_phase_commits]. clear - F. induction F as [|q qs Hq F IH]; cbn [map]; constructor; [|exact IH]. cbn [fst snd].
    split; [exact Hq|]. split; [|reflexivity]. cbn [opened query_at commit_phase_openings]. split; [reflexivity|]. split; [|exact Logic.I].
    destruct q as [|[|[|[|q]]]]; [vm_compute; reflexivity..|lia].
Qed.
Example C96_example_verify : accepted_at [2; 3; 2] /\ ~ accepted_at [2; 0].
Proof.
  destruct (C96_near_miss BabyBearT 1 [f1] ltac:(lia) ltac:(cbn; lia) ltac:(cbn; lia)) as (_ & _ & _ & P & _). split.
  - apply accepted_at_iff; [repeat constructor; lia|]. repeat (constructor; [apply P; cbn; lia|]). constructor.
  - intros H. apply accepted_at_iff in H; [|repeat constructor; lia]. inversion_clear H as [|? ? _ H']. inversion_clear H' as [|? ? (r & Er & En) _].
    pose proof (eq_trans (eq_sym (fold_delta BabyBearT 1 ltac:(cbn; lia))) Er) as E.
    apply (f_equal (fun o => match o with Some l => l | None => [] end)) in E. cbv beta iota in E. rewrite <- E in En. exact (f1_nz BabyBearT En).
Qed.
(** The broken first entry is noticed at positions 0 and 1. *)
Example C96_example_broken : broken BabyBearT (links BabyBearT (delta BabyBearT 2) [] [] [f1] f0) 0 0 /\
  exists qs, NoDup qs /\ length qs = 2 /\ Forall (fun q => q < 2 ^ 2 /\ ~ path_ok BabyBearT q (delta BabyBearT 2) [] [] [f1] f0) qs.
Proof.
  assert (broken BabyBearT (links BabyBearT (delta BabyBearT 2) [] [] [f1] f0) 0 0) as B.
  { exists (delta BabyBearT 1), (repeat f0 2). cbn [links]. rewrite (fold_delta BabyBearT 1) by (cbn; lia). split; [reflexivity|]. exact (f1_nz BabyBearT). }
  split; [exact B|].
  apply (C96_broken_noticed BabyBearT [] (delta BabyBearT 2) 2 [] [f1] f0 0 [0]); [reflexivity|cbn; lia|cbn; lia|split; [apply delta_length|exact Logic.I]| |].
  - constructor; [intros []|constructor].
  - constructor; [split; [cbn; lia|exact B]|constructor].
Qed.
