(** Soundness of the height analysis of StackModel, and its composition. *)
From Coq Require Import ZArith List Bool Lia.
From Verif Require Import ScriptNum ScriptVM U32Model StackModel.
Import ListNotations.
Open Scope Z_scope.

Lemma lrun_app : forall L H p q s,
  lrun L H (p ++ q) s = match lrun L H p s with Some s' => lrun L H q s' | None => None end.
Proof.
  intros L H p. induction p as [|o p IH]; intros q s.
  - cbn [app]. destruct q; cbn [lrun]; destruct (sheight s <=? L) eqn:G; cbn; rewrite ?G; reflexivity.
  - cbn [app lrun]. destruct (sheight s <=? L); [|reflexivity]. destruct (bstep H o s); [apply IH|reflexivity].
Qed.

(** The limited machine only ever does less. *)
Lemma lrun_run : forall L H p s s', lrun L H p s = Some s' -> brun H p s = Some s'.
Proof.
  intros L H p. induction p as [|o p IH]; intros s s' E; cbn [lrun] in E;
    destruct (sheight s <=? L); try discriminate E; [exact E|].
  unfold brun. cbn [runM]. fold (bstep H). destruct (bstep H o s) as [s1|]; [|discriminate E].
  apply IH, E.
Qed.

Lemma lrun_start : forall L H p s s', lrun L H p s = Some s' -> sheight s <= L.
Proof. intros L H [|o p] s s' E; cbn [lrun] in E; destruct (sheight s <=? L) eqn:G; try discriminate; lia. Qed.

Lemma lrun_end : forall L H p s s', lrun L H p s = Some s' -> sheight s' <= L.
Proof.
  intros L H p. induction p as [|o p IH]; intros s s' E; cbn [lrun] in E;
    destruct (sheight s <=? L) eqn:G; try discriminate E; [injection E as <-; lia|].
  destruct (bstep H o s); [eapply IH, E|discriminate E].
Qed.

(** *** One opcode *)
Definition is_cond (o : op) : bool :=
  match o with OP_IF | OP_NOTIF | OP_ELSE | OP_ENDIF => true | _ => false end.

Lemma extract_length : forall {A} n (l : list A) x r, extract n l = Some (x, r) -> length l = S (length r).
Proof.
  intros A n l x r E. apply extract_spec in E as (a & b & -> & _ & ->).
  rewrite !app_length. cbn. lia.
Qed.

Lemma step_exec : forall H o s s', is_cond o = false -> executing (cond s) = true ->
  bstep H o s = Some s' -> cond s' = cond s /\ sheight s' = sheight s + delta o.
Proof.
  intros H o [m a c] s' Nc X E. unfold bstep, step in E. cbn [cond main alt] in *. rewrite X in E. unfold sheight.
  assert (G : forall f, match step_main bytes dec enc (fun b => b) bytes_eqb btruthy H o m with
                  | Some m' => Some (mk m' a c) | None => None end = Some s' ->
              (forall m', step_main bytes dec enc (fun b => b) bytes_eqb btruthy H o m = Some m' ->
                 Z.of_nat (length m') = Z.of_nat (length m) + f) ->
              cond s' = c /\ Z.of_nat (length (main s')) + Z.of_nat (length (alt s')) =
                Z.of_nat (length m) + Z.of_nat (length a) + f).
  { intros f E' K. destruct (step_main _ _ _ _ _ _ _ _ _) as [m'|]; [|discriminate E'].
    injection E' as <-. cbn. specialize (K m' eq_refl). split; [reflexivity|lia]. }
  destruct o; try discriminate Nc; cbn [delta];
    try (apply (G _ E); clear; intros m' E; cbn [step_main] in E; unfold un, bin in E;
         repeat match type of E with
                | match ?x with _ => _ end = _ => destruct x eqn:?; try discriminate E
                end;
         injection E as <-; cbn [length]; try lia).
  - match goal with E : extract _ _ = Some _ |- _ => apply extract_length in E end. lia.
  - destruct m; [discriminate E|]. injection E as <-. cbn [main alt cond length]. split; [reflexivity|lia].
  - destruct a; [discriminate E|]. injection E as <-. cbn [main alt cond length]. split; [reflexivity|lia].
Qed.

Lemma step_skip : forall H o s s', is_cond o = false -> executing (cond s) = false ->
  bstep H o s = Some s' -> s' = s.
Proof.
  intros H o [m a c] s' Nc X E. unfold bstep, step in E. cbn [cond main alt] in *. rewrite X in E.
  destruct o; try discriminate Nc; congruence.
Qed.

(** *** The invariant.  [r] is the real height relative to the start. *)
Definition rel_top (b : bool) (f : frame) (d r : Z) : Prop :=
  if b then r = d else match snd f with None => r = fst f | Some dt => r = dt end.

Fixpoint rel (cs : list bool) (fs : list frame) (d r : Z) : Prop :=
  match cs, fs with
  | [], [] => r = d
  | b :: cs, f :: fs => if executing cs then rel_top b f d r else rel cs fs d r
  | _, _ => False
  end.

Lemma rel_exec : forall cs fs d r, rel cs fs d r -> executing cs = true -> r = d.
Proof.
  intros [|b cs] [|f fs] d r R X; cbn [rel] in R; try easy.
  cbn in X. apply andb_true_iff in X as [-> X]. unfold executing in R. rewrite X in R. exact R.
Qed.

(** Whether the frames fit the conditions does not depend on the height. *)
Fixpoint fits (cs : list bool) (fs : list frame) : Prop :=
  match cs, fs with [], [] => True | _ :: cs, _ :: fs => fits cs fs | _, _ => False end.

Lemma rel_set : forall cs fs d, fits cs fs -> executing cs = true -> rel cs fs d d.
Proof.
  intros [|b cs] [|f fs] d R X; cbn [fits] in R; try easy.
  cbn in X. apply andb_true_iff in X as [-> X]. cbn [rel]. unfold executing. rewrite X. reflexivity.
Qed.

Lemma rel_skip : forall cs fs d d' r, rel cs fs d r -> executing cs = false -> rel cs fs d' r.
Proof.
  induction cs as [|b cs IH]; intros [|f fs] d d' r R X; cbn [rel] in *; try easy.
  destruct (executing cs) eqn:Y.
  - destruct b; [exfalso; cbn in X; unfold executing in Y; congruence|exact R].
  - eapply IH; [exact R|reflexivity].
Qed.

Lemma rel_any : forall cs fs d r, rel cs fs d r -> fits cs fs -> executing cs = true -> forall d', rel cs fs d' d'.
Proof. intros. now apply rel_set. Qed.

Lemma exec_cons : forall b cs, executing (b :: cs) = b && executing cs.
Proof. reflexivity. Qed.

(** The abstract step: what [ana] does on one opcode. *)
Lemma ana_sound : forall H p fs d lo hi fs' d' lo' hi', ana p fs d lo hi = Some (fs', d', lo', hi') ->
  forall h s s', fits (cond s) fs -> rel (cond s) fs d (sheight s - h) ->
  lo <= hi -> sheight s - h <= hi -> brun H p s = Some s' ->
  fits (cond s') fs' /\ rel (cond s') fs' d' (sheight s' - h) /\
  lo <= lo' /\ hi <= hi' /\ sheight s' - h <= hi' /\
  (forall L, h + hi' <= L -> lrun L H p s = Some s') /\
  (forall L, h + lo <= L -> L < h + lo' -> lrun L H p s = None).
Proof.
  intros H. induction p as [|o p IH]; intros fs d lo hi fs' d' lo' hi' A h s s' W R LH B E.
  - injection A as <- <- <- <-. injection E as <-. repeat split; try lia; try assumption.
    intros L HL. cbn [lrun]. destruct (Z.leb_spec (sheight s) L); [reflexivity|lia].
  - unfold brun in E. cbn [runM] in E. fold (bstep H) in E.
    destruct (bstep H o s) as [s1|] eqn:S1; [|discriminate E]. fold (brun H) in E.
    (* the rest of the script, given the new abstract state *)
    assert (K : forall fs1 d1 lo1 hi1, ana p fs1 d1 lo1 hi1 = Some (fs', d', lo', hi') ->
              fits (cond s1) fs1 -> rel (cond s1) fs1 d1 (sheight s1 - h) ->
              lo <= lo1 -> hi <= hi1 -> lo1 <= hi1 -> sheight s1 - h <= hi1 ->
              (lo < lo1 -> sheight s1 = h + lo1) ->
              fits (cond s') fs' /\ rel (cond s') fs' d' (sheight s' - h) /\
              lo <= lo' /\ hi <= hi' /\ sheight s' - h <= hi' /\
              (forall L, h + hi' <= L -> lrun L H (o :: p) s = Some s') /\
              (forall L, h + lo <= L -> L < h + lo' -> lrun L H (o :: p) s = None)).
    { intros fs1 d1 lo1 hi1 A1 W1 R1 L1 H1 LH1 B1 At.
      destruct (IH _ _ _ _ _ _ _ _ A1 h s1 s' W1 R1 LH1 B1 E) as (F & R' & Ll & Hh & Be & Up & Dn).
      repeat split; try assumption; try lia.
      - intros L HL. cbn [lrun]. destruct (Z.leb_spec (sheight s) L); [|lia]. rewrite S1. now apply Up.
      - intros L HL HL'. cbn [lrun]. destruct (sheight s <=? L); [|reflexivity]. rewrite S1.
        destruct (Z.lt_ge_cases L (h + lo1)) as [Lt|Ge].
        + assert (sheight s1 > L) by lia. destruct p; cbn [lrun]; destruct (Z.leb_spec (sheight s1) L); try reflexivity; lia.
        + apply Dn; assumption. }
    destruct (is_cond o) eqn:Co.
    + destruct o; try discriminate Co; cbn [ana] in A.
      * (* IF *)
        unfold bstep, step in S1. destruct (executing (cond s)) eqn:X.
        -- pose proof (rel_exec _ _ _ _ R X) as Rd. destruct s as [m a c]. cbn [main alt cond] in *.
           destruct m as [|x m]; [discriminate S1|]. destruct (bminbool x) as [b|]; [|discriminate S1].
           injection S1 as <-. apply (K _ _ _ _ A); unfold sheight in *; cbn [main alt cond length fits rel] in *; try lia; try assumption.
           rewrite X. unfold rel_top. cbn [fst snd]. destruct b; lia.
        -- destruct s as [m a c]. cbn [main alt cond] in *. injection S1 as <-.
           apply (K _ _ _ _ A); unfold sheight in *; cbn [main alt cond length fits rel] in *; try lia; try assumption.
           rewrite X. eapply rel_skip; eassumption.
      * unfold bstep, step in S1. destruct (executing (cond s)) eqn:X.
        -- pose proof (rel_exec _ _ _ _ R X) as Rd. destruct s as [m a c]. cbn [main alt cond] in *.
           destruct m as [|x m]; [discriminate S1|]. destruct (bminbool x) as [b|]; [|discriminate S1].
           injection S1 as <-. apply (K _ _ _ _ A); unfold sheight in *; cbn [main alt cond length fits rel] in *; try lia; try assumption.
           rewrite X. unfold rel_top. cbn [fst snd]. destruct b; cbn [negb]; lia.
        -- destruct s as [m a c]. cbn [main alt cond] in *. injection S1 as <-.
           apply (K _ _ _ _ A); unfold sheight in *; cbn [main alt cond length fits rel] in *; try lia; try assumption.
           rewrite X. eapply rel_skip; eassumption.
      * (* ELSE *)
        destruct fs as [|[d0 [dt|]] fs]; try discriminate A.
        unfold bstep, step in S1. destruct s as [m a [|b c]]; cbn [main alt cond] in *; [discriminate S1|].
        injection S1 as <-. apply (K _ _ _ _ A); unfold sheight in *; cbn [main alt cond fits rel] in *; try lia; try assumption.
        destruct (executing c) eqn:X.
        -- unfold rel_top in *. cbn [fst snd] in *. destruct b; cbn [negb]; lia.
        -- eapply rel_skip; eassumption.
      * (* ENDIF *)
        destruct fs as [|[d0 e] fs]; try discriminate A.
        destruct (match e with None => d0 =? d | Some dt => dt =? d end) eqn:Q; [|discriminate A].
        unfold bstep, step in S1. destruct s as [m a [|b c]]; cbn [main alt cond] in *; [discriminate S1|].
        injection S1 as <-. apply (K _ _ _ _ A); unfold sheight in *; cbn [main alt cond fits rel] in *; try lia; try assumption.
        destruct (executing c) eqn:X.
        -- unfold rel_top in R. cbn [fst snd] in R.
           replace (Z.of_nat (length m) + Z.of_nat (length a) - h) with d
             by (destruct b; [lia|]; destruct e; lia).
           apply rel_set; assumption.
        -- exact R.
    + assert (A' : ana p fs (d + delta o) (match fs with [] => Z.max lo (d + delta o) | _ => lo end)
                     (Z.max hi (d + delta o)) = Some (fs', d', lo', hi'))
        by (destruct o; try discriminate Co; exact A).
      destruct (executing (cond s)) eqn:X.
      * pose proof (rel_exec _ _ _ _ R X) as Rd.
        destruct (step_exec H o s s1 Co X S1) as [Ec Eh].
        apply (K _ _ _ _ A'); rewrite ?Ec; try assumption; try lia.
        -- replace (sheight s1 - h) with (d + delta o) by lia. apply rel_set; assumption.
        -- destruct fs; lia.
        -- destruct fs; lia.
        -- destruct fs; lia.
      * pose proof (step_skip H o s s1 Co X S1) as ->.
        apply (K _ _ _ _ A'); try assumption; try lia.
        -- eapply rel_skip; eassumption.
        -- destruct fs; lia.
        -- destruct fs; [|lia]. exfalso. destruct (cond s); [discriminate X|exact W].
        -- destruct fs; [|lia]. exfalso. destruct (cond s); [discriminate X|exact W].
Qed.

(** *** Profiles *)

(** [heights p d lo hi]: every complete run of [p] changes the height by [d]; it stays within a
    limit that leaves room for [hi] more elements, and exceeds one that does not leave room for [lo]. *)
Definition heights (p : script) (d lo hi : Z) : Prop :=
  forall H s s', cond s = [] -> brun H p s = Some s' ->
    cond s' = [] /\ sheight s' = sheight s + d /\
    (forall L, sheight s + hi <= L -> lrun L H p s = Some s') /\
    (forall L, L < sheight s + lo -> lrun L H p s = None).

Lemma profile_heights : forall p d lo hi, profile p = Some (d, lo, hi) -> heights p d lo hi.
Proof.
  intros p d lo hi A H s s' C E. unfold profile in A.
  destruct (ana p [] 0 0 0) as [[[[[|f fs] d1] lo1] hi1]|] eqn:An; try discriminate A.
  injection A as <- <- <-.
  destruct (ana_sound H p _ _ _ _ _ _ _ _ An (sheight s) s s') as (F & R & Ll & Hh & Be & Up & Dn);
    rewrite ?C; cbn [fits rel]; try lia; try easy.
  destruct (cond s') eqn:C'; [|destruct F]. cbn [rel] in R. split; [reflexivity|]. split; [lia|]. split.
  - intros L HL. apply Up. lia.
  - intros L HL. destruct (Z.lt_ge_cases L (sheight s)) as [Lt|Ge].
    + destruct p; cbn [lrun]; destruct (Z.leb_spec (sheight s) L); try reflexivity; lia.
    + apply Dn; lia.
Qed.

Lemma heights_nil : heights [] 0 0 0.
Proof. apply profile_heights. reflexivity. Qed.

Lemma brun_app : forall H p q s,
  brun H (p ++ q) s = match brun H p s with Some s' => brun H q s' | None => None end.
Proof. intros. apply runM_app. Qed.

Lemma heights_app : forall p q d1 l1 h1 d2 l2 h2, heights p d1 l1 h1 -> heights q d2 l2 h2 ->
  heights (p ++ q) (d1 + d2) (Z.max l1 (d1 + l2)) (Z.max h1 (d1 + h2)).
Proof.
  intros p q d1 l1 h1 d2 l2 h2 P Q H s s' C E. rewrite brun_app in E.
  destruct (brun H p s) as [s1|] eqn:E1; [|discriminate E].
  destruct (P H s s1 C E1) as (C1 & D1 & U1 & N1). destruct (Q H s1 s' C1 E) as (C2 & D2 & U2 & N2).
  split; [exact C2|]. split; [lia|]. split; intros L HL; rewrite lrun_app.
  - rewrite U1 by lia. apply U2. lia.
  - destruct (Z.lt_ge_cases L (sheight s + l1)) as [Lt|Ge]; [now rewrite N1 by lia|].
    destruct (lrun L H p s) as [t|] eqn:El; [|reflexivity].
    pose proof (lrun_run _ _ _ _ _ El) as El'. rewrite E1 in El'. injection El' as <-. apply N2. lia.
Qed.

(** Weakening of the bounds. *)
Lemma heights_weaken : forall p d l h d' l' h', heights p d l h -> d = d' -> l' <= l -> h <= h' -> heights p d' l' h'.
Proof.
  intros p d l h d' l' h' P <- Ll Hh H s s' C E. destruct (P H s s' C E) as (C1 & D & U & N).
  split; [exact C1|]. split; [exact D|]. split; intros L HL; [apply U|apply N]; lia.
Qed.

Lemma heights_repeat : forall p d l h, heights p d l h -> d <= h -> forall n,
  heights (repeat_script n p) (Z.of_nat n * d)
    (match n with O => 0 | _ => Z.max l ((Z.of_nat n - 1) * d + l) end)
    (match n with O => 0 | _ => Z.max h ((Z.of_nat n - 1) * d + h) end).
Proof.
  intros p d l h P Dh n. induction n as [|n IH]; [exact heights_nil|]. cbn [repeat_script].
  eapply heights_weaken; [exact (heights_app _ _ _ _ _ _ _ _ P IH)|lia| |].
  - destruct n; [lia|]. rewrite !Nat2Z.inj_succ. set (m := Z.of_nat n). assert (0 <= m) by lia. clearbody m.
    destruct (Z.le_gt_cases 0 d); [assert (0 <= m * d) by nia|assert (m * d <= 0) by nia]; lia.
  - destruct n; [lia|]. rewrite !Nat2Z.inj_succ. set (m := Z.of_nat n). assert (0 <= m) by lia. clearbody m.
    destruct (Z.le_gt_cases 0 d); [assert (0 <= m * d) by nia|assert (m * d <= 0) by nia]; lia.
Qed.
