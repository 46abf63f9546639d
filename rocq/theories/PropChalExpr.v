(** Properties of the script-side challenger (C23) and of the sampling of the FRI
    challenges with both challengers (C51). *)
From Coq Require Import ZArith List Bool Arith Lia Permutation.
From Verif Require Import ScriptNum ScriptVM Lift U32Model Field BabyBear HelperModel PropWords DslModel DslSpec DslProofs DslDag DslMain DslOpSpec DslOps DslGadgets
  DslBuild DslIds DslDenote DslManager DslSession PropDsl PropManager Blake3Spec ChallengerModel PropChallenger
  ChalExprModel ChalExprGraph ChalExprProofs ChalExprState ChalExprRun ChalExprSync ChalExprFri ChalExprStark.
Import ListNotations.
Local Open Scope nat_scope.

(** ** Histories *)
(** answer of the script-side challenger to a call *)
Inductive xanswer := XNone | XField (e : expr) | XNum (e : expr) | XBool (e : expr).
Definition x_call (ext : bool) (x : chal_expr) (k : call) : builder (xanswer * chal_expr) :=
  match k with
  | Observe w => do x <- x_observe ext 64 x w; ret (XNone, x)
  | Sample => do p <- x_sample ext 64 x; ret (XField (fst p), snd p)
  | SampleBits b => do p <- x_sample_bits ext 64 x b; ret (XNum (fst p), snd p)
  | CheckWitness b w => do p <- x_check_witness ext 64 x b w; ret (XBool (fst p), snd p)
  end.
Fixpoint x_drive (ext : bool) (x : chal_expr) (ks : list call) : builder (list xanswer * chal_expr) :=
  match ks with
  | [] => ret ([], x)
  | k :: ks => do p <- x_call ext x k; do q <- x_drive ext (snd p) ks; ret (fst p :: fst q, snd q)
  end.
Definition native_drive (ext : bool) (ks : list call) : option (list answer * chal) :=
  drive 16 (blake3_perm b3_hash) (u32_size ext) (new 16 (u32_size ext)) ks.
Definition script_drive (ext : bool) (ks : list call) : builder (list xanswer * chal_expr) :=
  do x <- x_new; x_drive ext x ks.

(** every sample is the first one since the last observation (checking a witness
    observes it) *)
Fixpoint spaced (fresh : bool) (ks : list call) : Prop :=
  match ks with
  | [] => True
  | Observe _ :: ks => spaced true ks
  | Sample :: ks | SampleBits _ :: ks => fresh = true /\ spaced false ks
  | CheckWitness _ _ :: ks => spaced false ks
  end.
Fixpoint fresh_after (fresh : bool) (ks : list call) : bool :=
  match ks with
  | [] => fresh
  | Observe _ :: ks => fresh_after true ks
  | _ :: ks => fresh_after false ks
  end.
Definition call_ok (k : call) : Prop :=
  match k with
  | Observe w => word_ok w
  | Sample => True
  | SampleBits b => 1 <= b <= 31
  | CheckWitness b w => 1 <= b <= 31 /\ word_ok w
  end.
(** no sampled word is 0x80000000 (the words are recorded by the native challenger) *)
Definition no_sign_word (c : chal) : Prop := forall ws w, In ws (sample_input c) -> In w ws -> le_u32 w <> (2 ^ 31)%Z.

(** value and expression of an answer *)
Definition value_of (a : answer) : option (list Z) :=
  match a with ANone => None | AField f => Some f | ANum z => Some [z] | ABool b => Some [if b then 1%Z else 0%Z] end.
Definition expr_of (y : xanswer) : option expr :=
  match y with XNone => None | XField e | XNum e | XBool e => Some e end.

(** the comparisons of the script verifier: an answer with a value; the check of a
    witness is a comparison already *)
Fixpoint x_compare (l : list (xanswer * list Z)) : builder (list expr) :=
  match l with
  | [] => ret []
  | (XNone, _) :: l => x_compare l
  | (XBool e, _) :: l => do r <- x_compare l; ret (e :: r)
  | (XField e, v) :: l | (XNum e, v) :: l => do c <- equal_for_u32_vec e v; do r <- x_compare l; ret (c :: r)
  end.

Lemma clean_iff : forall c, clean (sample_input c) <-> no_sign_word c.
Proof.
  intros c. unfold clean, no_sign_word. rewrite Forall_forall. split.
  - intros F ws w I1 I2. apply F. apply in_concat. eauto.
  - intros F w I0. apply in_concat in I0 as (ws & I1 & I2). exact (F ws w I1 I2).
Qed.

Lemma forall2_impl : forall A B (P Q : A -> B -> Prop), (forall a b, P a b -> Q a b) -> forall l r, Forall2 P l r -> Forall2 Q l r.
Proof. intros A B P Q I0 l r F. induction F; constructor; auto. Qed.

Section Histories.
  Variable H : bytes -> bytes.
  Variable G : gadgets.
  Hypothesis OK : gadgets_ok H G.
  Variable ext : bool.
  Notation sz := (u32_size ext).
  Notation deg := (u32_size ext).

  (** what is proved of one answer *)
  Definition means (all : list expr) (a : answer) (y : xanswer) : Prop :=
    match a, y with
    | ANone, XNone => True
    | AField f, XField e => gives G e [f] sz /\ length f = sz /\ placed all e
    | ANum z, XNum e => gives G e [[z]] 1 /\ placed all e
    | ABool b, XBool e => checks G e 1 b /\ placed all e
    | _, _ => False
    end.
  Lemma placed_incl : forall all all' e, incl all all' -> placed all e -> placed all' e.
  Proof. intros all all' e I0 [J N]. split; auto. Qed.
  Lemma means_incl : forall all all' a y, incl all all' -> means all a y -> means all' a y.
  Proof. intros all all' [|f|z|b] [|e|e|e] I0; cbn [means]; try easy; intuition eauto using placed_incl. Qed.

  Definition tracks (fresh : bool) (c : chal) (p : machine) : Prop := if fresh then synced c p else behind ext c p.
  Lemma tracks_any : forall fresh c p, tracks fresh c p -> exists out, good p /\ natv c (h_last p) (h_buf p) out.
  Proof. intros [|] c p T; [now apply synced_any|now apply (behind_any ext)]. Qed.

  Lemma drive_input : forall W perm d ks c ans c', drive W perm d c ks = Some (ans, c') -> exists l, sample_input c' = sample_input c ++ l.
  Proof.
    intros W perm d. assert (D : forall c c', duplexing W perm c = Some c' -> sample_input c' = sample_input c).
    { intros c c' E. unfold duplexing in E. destruct (_ <=? _); [|discriminate E]. now injection E as <-. }
    assert (O : forall c v c', observe W perm c v = Some c' -> sample_input c' = sample_input c).
    { intros c v c' E. unfold observe in E. cbn [inbuf] in E. destruct (_ =? _); [apply D in E; exact E|]. now injection E as <-. }
    assert (OA : forall vs c c', observe_all W perm c vs = Some c' -> sample_input c' = sample_input c).
    { induction vs as [|v vs IH]; intros c c' E; cbn [observe_all] in E; [now injection E as <-|].
      destruct (observe W perm c v) as [c1|] eqn:E1; [|discriminate E]. apply O in E1. apply IH in E. congruence. }
    assert (P : forall c v c', pop_word W perm c = Some (v, c') -> sample_input c' = sample_input c).
    { intros c v c' E. unfold pop_word in E. destruct (negb _ || _).
      - destruct (duplexing W perm c) as [c1|] eqn:E1; [|discriminate E]. apply D in E1. destruct (rev (outbuf c1)); [discriminate E|]. now injection E as <- <-.
      - destruct (rev (outbuf c)); [discriminate E|]. now injection E as <- <-. }
    assert (PS : forall k c v c', pop_words W perm k c = Some (v, c') -> sample_input c' = sample_input c).
    { induction k as [|k IH]; intros c v c' E; cbn [pop_words] in E; [now injection E as <- <-|].
      destruct (pop_word W perm c) as [[w c1]|] eqn:E1; [|discriminate E]. destruct (pop_words W perm k c1) as [[ws c2]|] eqn:E2; [|discriminate E].
      injection E as <- <-. apply P in E1. apply IH in E2. congruence. }
    assert (S0 : forall c f c', sample W perm d c = Some (f, c') -> exists l, sample_input c' = sample_input c ++ l).
    { intros c f c' E. unfold sample in E. destruct (pop_words W perm d c) as [[vs c1]|] eqn:E1; [|discriminate E]. apply PS in E1.
      injection E as <- <-. cbn [sample_input]. rewrite E1. eauto. }
    assert (SB : forall c b z c', sample_bits W perm d c b = Some (z, c') -> exists l, sample_input c' = sample_input c ++ l).
    { intros c b z c' E. unfold sample_bits in E. destruct (sample W perm d c) as [[f c1]|] eqn:E1; [|discriminate E]. apply S0 in E1.
      destruct (b <=? 32); [|discriminate E]. now injection E as <- <-. }
    induction ks as [|k ks IH]; intros c ans c' E; cbn [drive] in E; [injection E as <- <-; exists []; now rewrite app_nil_r|].
    destruct (do_call W perm d c k) as [[a c1]|] eqn:E1; [|discriminate E]. destruct (drive W perm d c1 ks) as [[as_ c2]|] eqn:E2; [|discriminate E].
    cbn [option_map fst snd] in E. injection E as <- <-. destruct (IH _ _ _ E2) as [l El].
    assert (X : exists l, sample_input c1 = sample_input c ++ l).
    { destruct k as [v| |b|b w]; cbn [do_call] in E1.
      - destruct (observe W perm c v) as [c3|] eqn:E3; [|discriminate E1]. injection E1 as <- <-. apply O in E3. exists []. now rewrite app_nil_r.
      - destruct (sample W perm d c) as [[f c3]|] eqn:E3; [|discriminate E1]. injection E1 as <- <-. eauto.
      - destruct (sample_bits W perm d c b) as [[f c3]|] eqn:E3; [|discriminate E1]. injection E1 as <- <-. eauto.
      - unfold check_witness in E1. destruct (observe_all W perm c _) as [c3|] eqn:E3; [|discriminate E1].
        destruct (sample_bits W perm d c3 b) as [[f c4]|] eqn:E4; [|discriminate E1]. injection E1 as <- <-. apply OA in E3. apply SB in E4. now rewrite E3 in E4. }
    destruct X as [l' El']. exists (l' ++ l). now rewrite El, El', app_assoc.
  Qed.

  Lemma drive_follows : forall ks fresh c p x all l ans c', tracks fresh c p -> follows G ext x p all l -> spaced fresh ks -> Forall call_ok ks ->
    drive 16 (blake3_perm b3_hash) deg c ks = Some (ans, c') -> clean (sample_input c') ->
    goes (x_drive ext x ks) all l (fun r all' l' => (exists p', tracks (fresh_after fresh ks) c' p' /\ follows G ext (snd r) p' all' l') /\ Forall2 (means all') ans (fst r)).
  Proof.
    induction ks as [|k ks IH]; intros fresh c p x all l ans c' T F Sp K D C; cbn [drive x_drive] in *.
    { injection D as <- <-. apply goes_ret. cbn [fst snd]. eauto. }
    inversion_clear K as [|? ? K1 K2].
    destruct (do_call 16 (blake3_perm b3_hash) deg c k) as [[a c1]|] eqn:E1; [|discriminate D].
    destruct (drive 16 (blake3_perm b3_hash) deg c1 ks) as [[as_ c2]|] eqn:E2; [|discriminate D].
    cbn [option_map fst snd] in D. injection D as <- <-.
    destruct (drive_input _ _ _ _ _ _ _ E2) as [l2 El2].
    assert (C1 : clean (sample_input c1)) by (rewrite El2 in C; now apply clean_app in C).
    assert (Step : exists fresh' p', tracks fresh' c1 p' /\ spaced fresh' ks /\ fresh_after fresh (k :: ks) = fresh_after fresh' ks /\
      goes (x_call ext x k) all l (fun r all' l' => follows G ext (snd r) p' all' l' /\ means all' a (fst r))).
    { destruct (tracks_any _ _ _ T) as (out & Gd & N).
      destruct k as [v| |b|b w]; cbn [do_call x_call call_ok spaced] in *.
      - destruct (observe_any c p v out Gd N K1) as (c3 & E3 & S3 & _). rewrite E3 in E1. injection E1 as <- <-.
        exists true, (h_observe p v). split; [exact S3|]. split; [exact Sp|]. split; [reflexivity|].
        eapply goes_bind; [apply follow_observe; [exact F|exact K1]|]. intros x1 all1 l1 _ F1. apply goes_ret. cbn [fst snd means]. auto.
      - destruct Sp as [-> Sp]. destruct (sample_agrees ext c p T) as (f & c3 & E3 & B3 & _ & V). rewrite E3 in E1. injection E1 as <- <-.
        exists false, (snd (h_sample ext p)). split; [exact B3|]. split; [exact Sp|]. split; [reflexivity|]. specialize (V C1). subst f.
        eapply goes_bind; [apply follow_sample, F|]. intros [e x1] all1 l1 _ (F1 & Ge & Ie & Ne & _). apply goes_ret. cbn [fst snd means] in *.
        split; [exact F1|]. destruct (sample_shape ext p) as (z & _ & _ & L). split; [exact Ge|]. split; [exact L|]. split; auto.
      - destruct Sp as [-> Sp]. assert (B32 : b <= 32) by lia. destruct (bits_agree ext c p b T B32) as (f & c3 & E3 & B3 & _ & V). rewrite E3 in E1. injection E1 as <- <-.
        exists false, (snd (h_sample_bits ext p b)). split; [exact B3|]. split; [exact Sp|]. split; [reflexivity|]. specialize (V C1). subst f.
        eapply goes_bind; [apply follow_bits; [exact F|exact K1]|]. intros [e x1] all1 l1 _ (F1 & Ge & Ie & Ne). apply goes_ret. cbn [fst snd means] in *.
        split; [exact F1|]. split; [exact Ge|]. split; auto.
      - destruct K1 as [Kb Kw]. assert (B32 : b <= 32) by lia. destruct (witness_agrees ext c p out b w Gd N B32 Kw) as (f & c3 & E3 & B3 & _ & V). rewrite E3 in E1. injection E1 as <- <-.
        exists false, (snd (h_check_witness ext p b w)). split; [exact B3|]. split; [exact Sp|]. split; [reflexivity|]. specialize (V C1). subst f.
        eapply goes_bind; [apply follow_witness; [exact F|exact Kb|exact Kw]|]. intros [e x1] all1 l1 _ (F1 & Ge & Ie & Ne). apply goes_ret. cbn [fst snd means] in *.
        split; [exact F1|]. split; [exact Ge|]. split; auto. }
    destruct Step as (fresh' & p' & T' & Sp' & Ef & Gs). rewrite Ef.
    eapply goes_bind; [exact Gs|]. intros [y x1] all1 l1 I1 (F1 & M1). cbn [fst snd] in *.
    eapply goes_bind; [exact (IH fresh' c1 p' x1 all1 l1 as_ c2 T' F1 Sp' K2 E2 C)|]. intros [ys x2] all2 l2' I2 (F2 & M2). cbn [fst snd] in *.
    apply goes_ret. cbn [fst snd]. split; [exact F2|]. constructor; [eapply means_incl; eauto|exact M2].
  Qed.

  Lemma script_follows : forall ks ans c, spaced true ks -> Forall call_ok ks -> native_drive ext ks = Some (ans, c) -> no_sign_word c ->
    goes (script_drive ext ks) [] [] (fun r all' l' => (exists p', tracks (fresh_after true ks) c p' /\ follows G ext (snd r) p' all' l') /\ Forall2 (means all') ans (fst r)).
  Proof.
    intros ks ans c Sp K D C. unfold script_drive. eapply goes_bind; [apply (follow_new G ext)|]. intros x all1 l1 _ F.
    eapply (drive_follows ks true); [apply synced_new|exact F|exact Sp|exact K|exact D|now apply clean_iff].
  Qed.

  (** ** C23: same answers *)
  Theorem C23_agree : forall ks ans c n, spaced true ks -> Forall call_ok ks -> native_drive ext ks = Some (ans, c) -> no_sign_word c ->
    exists ys x n', script_drive ext ks n = Some (ys, x, n') /\
      Forall2 (fun a y => match value_of a, expr_of y with
                          | Some v, Some e => forall env, eval op_sem env e = Some (Leaves [v])
                          | None, None => True
                          | _, _ => False
                          end) ans ys.
  Proof.
    intros ks ans c n Sp K D C. destruct (script_follows ks ans c Sp K D C n (world_nil n)) as ([ys x] & n' & all & l & E & _ & _ & _ & M).
    exists ys, x, n'. split; [exact E|]. cbn [fst] in M. eapply forall2_impl; [|exact M].
    intros [|f|z|b] [|e|e|e]; cbn [means value_of expr_of]; try easy; intros [Q _]; apply Q || (intros env; rewrite (k_eval _ _ _ _ Q); now destruct b).
  Qed.

  (** verdict of comparing the answers with values *)
  Fixpoint verdicts (ans : list answer) (vs : list (list Z)) : list (nat * bool) :=
    match ans, vs with
    | ANone :: ans, _ :: vs => verdicts ans vs
    | ABool b :: ans, _ :: vs => (1, b) :: verdicts ans vs
    | AField f :: ans, v :: vs => (sz, list_eqb f v) :: verdicts ans vs
    | ANum z :: ans, v :: vs => (1, list_eqb [z] v) :: verdicts ans vs
    | _, _ => []
    end.
  Definition same_size (a : answer) (v : list Z) : Prop :=
    match a with AField f => length v = sz | ANum _ => length v = 1 | _ => True end.

  Lemma compare_follows : forall ans ys vs x p all l, follows G ext x p all l -> Forall2 (means all) ans ys -> Forall2 same_size ans vs ->
    goes (x_compare (combine ys vs)) all l (fun es all' l' => Forall2 (fun e v => checks G e (fst v) (snd v)) es (verdicts ans vs) /\ Forall (placed all') es).
  Proof.
    induction ans as [|a ans IH]; intros ys vs x p all l F M Z0; inversion M as [|? y ? ys' M1 M2]; subst; inversion Z0 as [|? v ? vs' Z1 Z2]; subst; cbn [combine x_compare verdicts].
    - apply goes_ret. split; constructor.
    - destruct a as [|f|z|b], y as [|e|e|e]; cbn [means same_size] in *; try easy.
      + eapply IH; eauto.
      + destruct M1 as (Ge & Lf & Ie & Ne).
        eapply goes_bind. { apply (follow_equal G ext e f v x p all l F); [now rewrite Lf|exact Ie|exact Ne|congruence|rewrite Lf; destruct ext; auto]. }
        cbv beta. intros k all1 l1 I1 (F1 & K1 & Ik & Nk). eapply goes_bind; [eapply (IH ys' vs' x p all1 l1 F1); [|exact Z2]|].
        { clear -M2 I1. induction M2; constructor; eauto using means_incl. }
        cbv beta. intros es all2 l2 I2 (Fe & Pe). apply goes_ret. rewrite Lf in K1. split; constructor; auto. split; auto.
      + destruct M1 as (Ge & Ie & Ne).
        eapply goes_bind. { apply (follow_equal G ext e [z] v x p all l F); auto. }
        cbv beta. intros k all1 l1 I1 (F1 & K1 & Ik & Nk). eapply goes_bind; [eapply (IH ys' vs' x p all1 l1 F1); [|exact Z2]|].
        { clear -M2 I1. induction M2; constructor; eauto using means_incl. }
        cbv beta. intros es all2 l2 I2 (Fe & Pe). apply goes_ret. split; constructor; auto. split; auto.
      + destruct M1 as (Ge & Pl). eapply goes_bind; [eapply IH; eauto|]. cbv beta. intros es all2 l2 I2 (Fe & Pe). apply goes_ret.
        split; constructor; auto. eapply placed_incl; eauto.
  Qed.

  (** ** C23: verdict of the script *)
  (** the comparisons of the answers with the values [vs], put in a manager as the
      script verifier does *)
  Definition script_compares (ks : list call) (vs : list (list Z)) : builder (list expr) :=
    do r <- script_drive ext ks; x_compare (combine (fst r) vs).
  Lemma compare_run : forall ks ans c vs n, spaced true ks -> Forall call_ok ks -> native_drive ext ks = Some (ans, c) -> no_sign_word c ->
    Forall2 same_size ans vs -> verdicts ans vs <> [] ->
    exists es n1 m m' n2, script_compares ks vs n = Some (es, n1) /\ manager_of es = Some m /\ embed_hint_verify m n1 = Some (m', n2) /\
      run_manager H G m' = verdict_of (verdicts ans vs).
  Proof.
    intros ks ans c vs n Sp K D C Z0 Ne.
    assert (Go : goes (script_compares ks vs) [] [] (fun es all' l' => Forall2 (fun e v => checks G e (fst v) (snd v)) es (verdicts ans vs) /\ Forall (placed all') es)).
    { unfold script_compares. eapply goes_bind; [exact (script_follows ks ans c Sp K D C)|]. intros [ys x] all1 l1 _ ([p [_ F]] & M). eapply compare_follows; eauto. }
    destruct (Go n (world_nil n)) as (es & n1 & all & l & E & W & _ & Fe & Pe).
    destruct (run_checks H G OK n1 all l es _ W Fe Pe) as (m & m' & n2 & E1 & E2 & E3).
    { intros ->. inversion Fe as [Q|]; subst. now elim Ne. }
    exists es, n1, m, m', n2. auto.
  Qed.

  (** the value is the native answer (a witness must pass) *)
  Definition right (a : answer) (v : list Z) : Prop :=
    match a with ANone => True | ABool b => b = true | AField f => v = f | ANum z => v = [z] end.
  (** the value differs from the native answer, or the witness does not pass *)
  Definition differs (a : answer) (v : list Z) : Prop :=
    match a with ANone => False | ABool b => b = false | AField f => v <> f | ANum z => v <> [z] end.
  Definition compares (ks : list call) (vs : list (list Z)) (accepted : bool) : Prop :=
    forall n, exists es n1 m m' n2, script_compares ks vs n = Some (es, n1) /\ manager_of es = Some m /\
      embed_hint_verify m n1 = Some (m', n2) /\ run_manager H G m' = accepted.

  Lemma verdicts_app : forall a1 v1 a2 v2, length a1 = length v1 -> verdicts (a1 ++ a2) (v1 ++ v2) = verdicts a1 v1 ++ verdicts a2 v2.
  Proof.
    induction a1 as [|a a1 IH]; intros [|v v1] a2 v2 L; try discriminate L; [reflexivity|]. injection L as L.
    destruct a; cbn [app verdicts]; rewrite IH by exact L; reflexivity.
  Qed.
  Lemma verdicts_right : forall ans vs, Forall2 right ans vs -> Forall (fun v => snd v = true) (verdicts ans vs).
  Proof.
    induction 1 as [|a v ans vs R _ IH]; [constructor|]. destruct a; cbn [verdicts right] in *; auto; constructor; auto; cbn [snd]; auto;
      subst v; now apply list_eqb_ok.
  Qed.
  Lemma all_true : forall l, Forall (fun v : nat * bool => snd v = true) l -> existsb fatal l = false /\ filter wrong l = [].
  Proof.
    induction 1 as [|[k b] l E _ [I1 I2]]; [auto|]. cbn [snd] in E. subst b. cbn [existsb filter]. unfold fatal at 1, wrong at 1. cbn [fst snd negb].
    rewrite !andb_false_r. auto.
  Qed.

  (** the native answers are accepted *)
  Theorem C23_accepts_native : forall ks ans c vs, spaced true ks -> Forall call_ok ks -> native_drive ext ks = Some (ans, c) -> no_sign_word c ->
    Forall2 same_size ans vs -> Forall2 right ans vs -> Exists (fun a => a <> ANone) ans -> compares ks vs true.
  Proof.
    intros ks ans c vs Sp K D C Z0 R Ex n.
    destruct (compare_run ks ans c vs n Sp K D C Z0) as (es & n1 & m & m' & n2 & E1 & E2 & E3 & E4).
    { clear -Ex Z0. induction Z0 as [|a v ans vs Za Z0 IH]; [inversion Ex|]. destruct a; cbn [verdicts]; try discriminate. apply IH. now inversion Ex. }
    exists es, n1, m, m', n2. split; [exact E1|]. split; [exact E2|]. split; [exact E3|]. rewrite E4. unfold verdict_of.
    destruct (all_true _ (verdicts_right _ _ R)) as [-> ->]. reflexivity.
  Qed.

  (** a single wrong value is rejected *)
  Theorem C23_rejects_other : forall ks a1 a a2 c v1 v v2, spaced true ks -> Forall call_ok ks -> native_drive ext ks = Some (a1 ++ a :: a2, c) ->
    no_sign_word c -> Forall2 same_size (a1 ++ a :: a2) (v1 ++ v :: v2) -> Forall2 right a1 v1 -> Forall2 right a2 v2 -> differs a v ->
    compares ks (v1 ++ v :: v2) false.
  Proof.
    intros ks a1 a a2 c v1 v v2 Sp K D C Z0 R1 R2 Df n.
    assert (Lv : length a1 = length v1) by (eapply forall2_len; eauto).
    assert (Ev : exists k, verdicts (a1 ++ a :: a2) (v1 ++ v :: v2) = verdicts a1 v1 ++ (k, false) :: verdicts a2 v2).
    { rewrite verdicts_app by exact Lv. destruct a as [|f|z|b]; cbn [verdicts differs] in *; [easy| | |subst b; eauto].
      - destruct (list_eqb f v) eqn:E; [apply list_eqb_ok in E; congruence|eauto].
      - destruct (list_eqb [z] v) eqn:E; [apply list_eqb_ok in E; congruence|eauto]. }
    destruct Ev as [k Ev].
    destruct (compare_run ks _ c _ n Sp K D C Z0) as (es & n1 & m & m' & n2 & E1 & E2 & E3 & E4).
    { rewrite Ev. now destruct (verdicts a1 v1). }
    exists es, n1, m, m', n2. split; [exact E1|]. split; [exact E2|]. split; [exact E3|]. rewrite E4, Ev. unfold verdict_of.
    destruct (all_true _ (verdicts_right _ _ R1)) as [A1 B1], (all_true _ (verdicts_right _ _ R2)) as [A2 B2].
    rewrite existsb_app, filter_app, app_length. cbn [existsb filter]. rewrite A1, A2, B1. cbn [length orb Nat.add].
    replace (fatal (k, false)) with (negb (k =? 1)) by (unfold fatal; cbn [fst snd]; now rewrite andb_true_r).
    replace (wrong (k, false)) with (k =? 1) by (unfold wrong; cbn [fst snd negb]; now rewrite andb_true_r).
    destruct (k =? 1); cbn [negb andb orb]; [now rewrite B2|reflexivity].
  Qed.

  (** ** C23: a second sample differs *)
  (** A sample right after another one: the native challenger serves the next words of
      the last hash, the script-side challenger hashes again and serves the last words. *)
  Theorem C23_second_sample : forall ks ans c1 n, spaced true (ks ++ [Sample]) -> Forall call_ok ks -> native_drive ext (ks ++ [Sample]) = Some (ans, c1) -> no_sign_word c1 ->
    let hash := skipn 8 (sponge c1) in
    (exists c2, do_call 16 (blake3_perm b3_hash) deg c1 Sample = Some (AField (map from_pf (firstn sz (skipn sz (rev hash)))), c2)) /\
    (exists ys x n1 e x' n2, script_drive ext (ks ++ [Sample]) n = Some (ys, x, n1) /\ x_call ext x Sample n1 = Some (XField e, x', n2) /\
      forall env, eval op_sem env e = Some (Leaves [map (fun w => sample_of (le_u32 w)) (firstn sz (rev (u256_to_u32 (b3_hash (repeat 0%Z 32 ++ concat hash)))))])).
  Proof.
    intros ks ans c1 n Sp K D C hash.
    assert (K' : Forall call_ok (ks ++ [Sample])) by (apply Forall_app; split; [exact K|]; constructor; [exact Logic.I|constructor]).
    destruct (script_follows _ ans c1 Sp K' D C n (world_nil n)) as ([ys x] & n1 & all & l & E & W & _ & (p & T & F) & _). cbn [fst snd] in *.
    assert (Fr : forall l b, fresh_after b (l ++ [Sample]) = false) by (induction l0 as [|[| | |] l0 IH]; intros b; cbn [app fresh_after]; auto).
    rewrite Fr in T. cbn [tracks] in T. destruct T as (Gd & Nr & Eb & N).
    assert (Eh : hash = u256_to_u32 (h_last p)).
    { unfold hash. rewrite (nv_sponge _ _ _ _ N), skipn_app, repeat_length, skipn_repeat. reflexivity. }
    assert (Ec : concat hash = h_last p) by (rewrite Eh; apply concat_words, Gd).
    split.
    - destruct (sample_rest ext c1 _ _ N) as (c2 & E2 & _); [rewrite firstn_length, words_len; destruct ext; cbn; lia|].
      exists c2. cbn [do_call]. rewrite E2. cbn [option_map fst snd]. rewrite Eh. do 3 f_equal.
      generalize (h_last p). intros h. unfold u256_to_u32. clear. destruct ext; reflexivity.
    - destruct (follow_sample G ext x p all l F n1 W) as ([e x'] & n2 & all2 & l2 & E2 & _ & _ & _ & Ge & _). cbn [fst snd] in *.
      exists ys, x, n1, e, x', n2. split; [exact E|]. split; [unfold x_call, bind; now rewrite E2|]. intros env. rewrite (g_eval _ _ _ _ Ge), Ec.
      unfold h_sample. rewrite Nr. cbn [fst]. unfold h_next. rewrite Eb. cbn [app length Nat.sub].
      rewrite draws_words by exact (hash_len _). now rewrite firstn_map.
  Qed.
End Histories.

(** Without spacing the answers differ. *)
Theorem C23_two_samples_refuted : exists ks ans c n ys x n' v e,
  Forall call_ok ks /\ native_drive true ks = Some (ans, c) /\ no_sign_word c /\ script_drive true ks n = Some (ys, x, n') /\
  nth_error ans 2 = Some (AField v) /\ nth_error ys 2 = Some (XField e) /\ forall env, eval op_sem env e <> Some (Leaves [v]).
Proof.
  exists [Observe [1; 2; 3; 4]%Z; Sample; Sample]. eexists _, _, 0, _, _, _, _, _.
  split; [repeat constructor; cbn; lia|].
  split; [vm_compute; reflexivity|].
  split; [apply clean_iff; unfold clean; cbn [sample_input concat app]; repeat constructor; intros Q; vm_compute in Q; discriminate Q|].
  split; [vm_compute; reflexivity|]. split; [reflexivity|]. split; [reflexivity|].
  intros env Q. vm_compute in Q. discriminate Q.
Qed.

Example C23_example_hyps :
  let ks := [Observe [1; 2; 3; 4]; Sample; Observe [5; 6; 7; 8]; CheckWitness 1 [9; 0; 0; 0]; Observe [1; 1; 1; 1]; SampleBits 5]%Z in
  spaced true ks /\ Forall call_ok ks /\ exists ans c, native_drive true ks = Some (ans, c) /\ no_sign_word c /\ Exists (fun a => a <> ANone) ans /\
    Forall2 (same_size true) ans (map (fun a => match value_of a with Some v => v | None => [] end) ans).
Proof.
  cbv zeta. split; [repeat split|]. split; [repeat constructor; cbn; lia|]. eexists _, _.
  split; [vm_compute; reflexivity|].
  split; [apply clean_iff; unfold clean; cbn [sample_input concat app]; repeat constructor; intros Q; vm_compute in Q; discriminate Q|].
  split; [right; left; discriminate|]. cbn [map value_of]. repeat constructor.
Qed.

(** ** C51: the challenges of the script verifier *)
(** the challenges with new challengers on both sides *)
Definition stark_session (nq pow_bits log_blowup degree_bits : nat) (trace quotient : list word4) (commits : list (list word4)) (nproofs : nat) (w : word4) : builder challenged :=
  do x <- x_new; stark_challenges 16 (blake3_perm b3_hash) nq pow_bits log_blowup degree_bits trace quotient commits nproofs w (new 16 4) x.

Lemma verdict_compared : forall vs i s, Forall (fun v : nat * bool => snd v = true) vs -> verdict_of (vs ++ compared i s) = Nat.even (mismatches i s).
Proof.
  intros vs i s A. destruct (all_true _ A) as [A1 A2]. unfold verdict_of, mismatches, compared. rewrite existsb_app, filter_app, app_length, A1, A2. cbn [length Nat.add orb].
  generalize (combine i s). intros l.
  assert (E1 : existsb fatal (map (fun p => (1, (fst p =? snd p)%Z)) l) = false).
  { induction l as [|q l IH]; [reflexivity|]. cbn [map existsb]. now rewrite IH. }
  assert (E2 : length (filter wrong (map (fun p => (1, (fst p =? snd p)%Z)) l)) = length (filter (fun p => negb (fst p =? snd p)%Z) l)).
  { clear. induction l as [|q l IH]; [reflexivity|]. cbn [map filter]. unfold wrong at 1. cbn [fst snd Nat.eqb andb]. destruct (fst q =? snd q)%Z; cbn [negb length]; auto. }
  now rewrite E1, E2.
Qed.

Section Challenges.
  Variable H : bytes -> bytes.
  Variable G : gadgets.
  Hypothesis OK : gadgets_ok H G.
  Variables (nq pow_bits log_blowup degree_bits : nat) (trace quotient : list word4) (commits : list (list word4)) (nproofs : nat) (w : word4).
  Hypothesis Wt : commit_ok trace.
  Hypothesis Wq : commit_ok quotient.
  Hypothesis Wc : Forall commit_ok commits.
  Hypothesis Ww : word_ok w.
  Hypothesis Bp : 1 <= pow_bits <= 31.
  Hypothesis Bi : 1 <= length commits + log_blowup <= 31.
  Hypothesis Bd : degree_bits <= 27.
  Let bits := length commits + log_blowup.
  Let h := query_hash trace quotient commits pow_bits w.
  Let session := stark_session nq pow_bits log_blowup degree_bits trace quotient commits nproofs w.
  (** the checks, put in a manager as the script verifier does *)
  Definition checks_verdict (r : challenged) (n : nat) (accepted : bool) : Prop :=
    exists m m' n2, manager_of (ch_checks r) = Some m /\ embed_hint_verify m n = Some (m', n2) /\ run_manager H G m' = accepted.

  Lemma session_goes : forall n,
    (exists r n' all l vs, session n = Some (r, n') /\ world n' all l /\ In (ch_zeta_expr r) all /\ nproofs = nq /\ pow_ok h pow_bits /\ length (ch_betas r) = length commits /\
      ch_indices r = native_indices h true bits nq /\
      Forall2 (fun e v => checks G e (fst v) (snd v)) (ch_checks r) (vs ++ compared (ch_indices r) (script_indices h bits nq)) /\
      Forall (placed all) (ch_checks r) /\ ch_checks r <> [] /\ (degree_bits = 0 -> existsb fatal vs = true) /\
      (1 <= degree_bits -> clean (sample_input (ch_native r)) -> Forall (fun v => snd v = true) vs)) \/
    (session n = None /\ ~ (nproofs = nq /\ pow_ok h pow_bits)).
  Proof.
    intros n. destruct (follow_new G true [] n (world_nil n)) as (x & n1 & all & l & E & W & _ & F).
    pose proof (follow_stark G nq pow_bits log_blowup degree_bits trace quotient commits nproofs w all l _ x (synced_new true) F Wt Wq Wc Ww Bp Bi Bd) as Go.
    cbv zeta in Go. fold h in Go. fold bits in Go. destruct (Go n1 W) as [(r & n2 & all2 & l2 & E2 & W2 & _ & Q0 & Q1 & Q2 & Q3 & Q4 & vs & Q5 & Q6 & Q7 & Q8 & Q9)|[E2 Q]].
    - left. exists r, n2, all2, l2, vs. split; [unfold session, stark_session, bind; rewrite E; exact E2|].
      split; [exact W2|]. split; [exact Q0|]. split; [exact Q1|]. split; [exact Q2|]. split; [exact Q3|]. split; [exact Q4|]. split; [exact Q5|]. split; [exact Q6|]. split; [exact Q7|]. split; [exact Q8|exact Q9].
    - right. split; [|exact Q]. unfold session, stark_session, bind. rewrite E. exact E2.
  Qed.

  (** the verifier generates a script exactly when the number of query proofs is right
      and the native proof-of-work check passes *)
  Theorem C51_generates : forall n, (exists r n', session n = Some (r, n')) <-> nproofs = nq /\ pow_ok h pow_bits.
  Proof.
    intros n. destruct (session_goes n) as [(r & n' & all & l & vs & E & _ & _ & Q1 & Q2 & _)|[E Q]].
    - split; [auto|]. intros _. eauto.
    - rewrite E. split; [intros (r & n' & D); discriminate D|]. intros P. now elim Q.
  Qed.

  (** the query indices are the native ones; the checks are accepted exactly when an
      even number of them differs from the indices sampled by the script *)
  Theorem C51_verdict : forall n r n', session n = Some (r, n') -> 1 <= degree_bits -> no_sign_word (ch_native r) ->
    length (ch_betas r) = length commits /\ ch_indices r = native_indices h true bits nq /\
    checks_verdict r n' (Nat.even (mismatches (native_indices h true bits nq) (script_indices h bits nq))).
  Proof.
    intros n r n' E D C. destruct (session_goes n) as [(r' & n1 & all & l & vs & E1 & W & _ & _ & _ & Lb & Ei & Fe & Pe & Ne & _ & Q)|[E1 _]]; rewrite E1 in E; [|discriminate E].
    injection E as <- <-. split; [exact Lb|]. split; [exact Ei|].
    destruct (run_checks H G OK n1 all l _ _ W Fe Pe Ne) as (m & m' & n2 & M1 & M2 & M3). exists m, m', n2. split; [exact M1|]. split; [exact M2|].
    rewrite M3, verdict_compared by (apply Q; [exact D|now apply clean_iff]). now rewrite Ei.
  Qed.

  (** a trace with one row is never accepted: the generator of the group of order one is
      not computed *)
  Theorem C51_one_row : forall n r n', session n = Some (r, n') -> degree_bits = 0 -> checks_verdict r n' false.
  Proof.
    intros n r n' E D. destruct (session_goes n) as [(r' & n1 & all & l & vs & E1 & W & _ & _ & _ & Lb & Ei & Fe & Pe & Ne & Q & _)|[E1 _]]; rewrite E1 in E; [|discriminate E].
    injection E as <- <-.
    destruct (run_checks H G OK n1 all l _ _ W Fe Pe Ne) as (m & m' & n2 & M1 & M2 & M3). exists m, m', n2. split; [exact M1|]. split; [exact M2|].
    rewrite M3. unfold verdict_of. rewrite existsb_app, (Q D). reflexivity.
  Qed.
End Challenges.

Section Witness.
  Variable H : bytes -> bytes.
  Variable G : gadgets.
  Hypothesis OK : gadgets_ok H G.
  Definition commit_of (z : Z) : list word4 := repeat [z; 0; 0; 0]%Z 8.
  Notation sample_session nq := (stark_session nq 1 1 3 (commit_of 1) (commit_of 2) [commit_of 3; commit_of 4] nq [5; 0; 0; 0]%Z).
  Lemma commit_of_ok : forall z, byteb z = true -> commit_ok (commit_of z).
  Proof. intros z B. split; [reflexivity|]. repeat constructor; cbn; now rewrite B. Qed.

  Lemma word_of_5 : word_ok [5; 0; 0; 0]%Z. Proof. split; reflexivity. Qed.
  Lemma fri_commits : Forall commit_ok [commit_of 3; commit_of 4]. Proof. repeat (constructor; [apply commit_of_ok; reflexivity|]). constructor. Qed.
  Lemma bound_1 : 1 <= 1 <= 31. Proof. lia. Qed.
  Lemma bound_3 : 1 <= 3 <= 31. Proof. lia. Qed.
  Lemma bound_27 : 3 <= 27. Proof. lia. Qed.
  Local Opaque b3_hash.
  Lemma sample_run : forall nq, pow_ok (query_hash (commit_of 1) (commit_of 2) [commit_of 3; commit_of 4] 1 [5; 0; 0; 0]%Z) 1 -> exists r n', sample_session nq 0 = Some (r, n').
  Proof.
    intros nq P. apply (C51_generates G nq 1 1 3 (commit_of 1) (commit_of 2) [commit_of 3; commit_of 4] nq [5; 0; 0; 0]%Z
      (commit_of_ok 1 eq_refl) (commit_of_ok 2 eq_refl) fri_commits word_of_5 bound_1 bound_3 bound_27 0). split; [reflexivity|exact P].
  Qed.
  Lemma sample_verdict : forall nq r n', sample_session nq 0 = Some (r, n') -> no_sign_word (ch_native r) ->
    let h := query_hash (commit_of 1) (commit_of 2) [commit_of 3; commit_of 4] 1 [5; 0; 0; 0]%Z in
    let bits := length [commit_of 3; commit_of 4] + 1 in
    checks_verdict H G r n' (Nat.even (mismatches (native_indices h true bits nq) (script_indices h bits nq))).
  Proof.
    intros nq r n' E C. pose proof (C51_verdict H G OK nq 1 1 3 (commit_of 1) (commit_of 2) [commit_of 3; commit_of 4] nq [5; 0; 0; 0]%Z
      (commit_of_ok 1 eq_refl) (commit_of_ok 2 eq_refl) fri_commits word_of_5 bound_1 bound_3 bound_27) as V. cbv zeta in V. destruct (V 0 r n' E (proj1 bound_3) C) as (_ & _ & V1). exact V1.
  Qed.
  Local Transparent b3_hash.
  Lemma sample_pow : pow_ok (query_hash (commit_of 1) (commit_of 2) [commit_of 3; commit_of 4] 1 [5; 0; 0; 0]%Z) 1.
  Proof. unfold pow_ok. vm_compute. reflexivity. Qed.

  Lemma sample_clean : forall nq r n', sample_session nq 0 = Some (r, n') ->
    match sample_session nq 0 with Some (r, _) => forallb (fun w => negb (le_u32 w =? 2 ^ 31)%Z) (concat (sample_input (ch_native r))) | None => false end = true ->
    no_sign_word (ch_native r).
  Proof.
    intros nq r n' E B. rewrite E in B. apply clean_iff. unfold clean. rewrite forallb_forall in B. apply Forall_forall. intros w Iw. specialize (B w Iw).
    unfold plain_word. intros Q. rewrite Q in B. discriminate B.
  Qed.

  (** an honest transcript with one query is rejected *)
  Theorem C51_honest_accepted_refuted : exists r n', sample_session 1 0 = Some (r, n') /\ no_sign_word (ch_native r) /\ checks_verdict H G r n' false.
  Proof.
    destruct (sample_run 1 sample_pow) as (r & n' & E). exists r, n'. split; [exact E|].
    assert (C : no_sign_word (ch_native r)) by (apply (sample_clean 1 r n' E); vm_compute; reflexivity).
    split; [exact C|]. pose proof (sample_verdict 1 r n' E C) as V. vm_compute Nat.even in V. exact V.
  Qed.
  (** with two queries it is accepted though both indices differ *)
  Theorem C51_accepted_consistent_refuted : exists r n' i1 i2 s1 s2, sample_session 2 0 = Some (r, n') /\ no_sign_word (ch_native r) /\
    ch_indices r = [i1; i2] /\
    script_indices (query_hash (commit_of 1) (commit_of 2) [commit_of 3; commit_of 4] 1 [5; 0; 0; 0]%Z) (length [commit_of 3; commit_of 4] + 1) 2 = [s1; s2] /\
    i1 <> s1 /\ i2 <> s2 /\ checks_verdict H G r n' true.
  Proof.
    destruct (sample_run 2 sample_pow) as (r & n' & E). exists r, n', 0%Z, 3%Z, 3%Z, 2%Z. split; [exact E|].
    assert (C : no_sign_word (ch_native r)) by (apply (sample_clean 2 r n' E); vm_compute; reflexivity).
    split; [exact C|]. split.
    { assert (B : match sample_session 2 0 with Some (r, _) => ch_indices r = [0; 3]%Z | None => False end) by (vm_compute; reflexivity). rewrite E in B. exact B. }
    split; [vm_compute; reflexivity|]. split; [discriminate|]. split; [discriminate|].
    pose proof (sample_verdict 2 r n' E C) as V. vm_compute Nat.even in V. exact V.
  Qed.
End Witness.
