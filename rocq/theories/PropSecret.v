(** Property C81: secret keys of bit commitments. *)
From Coq Require Import ZArith List Bool Lia.
From Verif Require Import ScriptNum ScriptVM VMLemmas U32Model Lift WinternitzModel WinternitzSpec PropWords WinternitzProofs PropSign SecretModel.
Import ListNotations.
Open Scope Z_scope.

(** The keys a generator gives in its next [n] calls. *)
Fixpoint keys_from {S} (gen : secret_gen S) (n : nat) (s : S) : list bytes :=
  match n with O => [] | Datatypes.S n => fst (gen s) :: keys_from gen n (snd (gen s)) end.
Lemma keys_len : forall S (gen : secret_gen S) n s, length (keys_from gen n s) = n.
Proof. induction n as [|n IH]; intros s; cbn; [reflexivity|]. now rewrite IH. Qed.

Lemma new_gen_keys : forall S (gen : secret_gen S) vs s, fst (new_gen gen vs s) = bcs_new (keys_from gen (length vs) s) vs.
Proof.
  intros S gen. induction vs as [|v vs IH]; intros s; [reflexivity|]. cbn [new_gen length keys_from].
  specialize (IH (snd (gen s))). destruct (gen s) as [k s1]. cbn [fst snd] in *. destruct (new_gen gen vs s1) as [cs s2].
  cbn [fst] in *. rewrite IH. reflexivity.
Qed.

(** Whatever the generator: the commitment keeps the words, uses one key per word,
    and its honest witness is accepted and gives the words back. *)
Theorem C81_new : forall H S (gen : secret_gen S) vs s rest alt, (forall x, H x <> [0]) -> Forall is_u32 vs ->
  let cs := fst (new_gen gen vs s) in
  map bc_value cs = vs /\ map bc_secret cs = keys_from gen (length vs) s /\
  exists sig, bcs_signature H cs = Some sig /\
    exec H (check_and_recover H cs) (rev sig ++ rest) alt (nums (map smag vs) ++ rest) alt.
Proof.
  intros H S gen vs s rest al NZ F cs. unfold cs. rewrite new_gen_keys. pose proof (keys_len S gen (length vs) s) as L.
  split; [|split].
  - clear - L. revert L. generalize (keys_from gen (length vs) s). induction vs as [|v vs IH]; intros [|k ks] L; try discriminate L; [reflexivity|].
    cbn in *. f_equal. apply IH. congruence.
  - clear - L. revert L. generalize (keys_from gen (length vs) s). induction vs as [|v vs IH]; intros [|k ks] L; try discriminate L; [reflexivity|].
    cbn in *. f_equal. apply IH. congruence.
  - apply C12_vector_honest; assumption.
Qed.

(** The locking script depends on the keys alone: two commitments made from equal
    keys accept the same witnesses with the same result, whatever their values. *)
Theorem C81_script_by_keys : forall H cs cs', map bc_secret cs = map bc_secret cs' -> check_and_recover H cs = check_and_recover H cs'.
Proof.
  intros H cs cs' E. assert (L : length cs = length cs') by (rewrite <- (map_length bc_secret cs), E; apply map_length).
  unfold check_and_recover, message_from_altstack. rewrite L. f_equal. clear L. revert cs' E.
  induction cs as [|c cs IH]; intros [|c' cs'] E; try discriminate E; [reflexivity|]. injection E as E1 E2.
  unfold recover_message_at_altstack in *. cbn [flat_map]. rewrite (IH cs' E2). do 2 f_equal.
  unfold recover_message_at_stack, checksig_verify_script. now rewrite E1.
Qed.
Lemma constant_keys : forall vs s, map bc_secret (fst (new_gen constant_secret_gen vs s)) = repeat [0; 0] (length vs).
Proof.
  induction vs as [|v vs IH]; intros s; [reflexivity|]. cbn [new_gen constant_secret_gen length repeat].
  specialize (IH s). destruct (new_gen constant_secret_gen vs s). cbn [fst map bc_new bc_secret] in *. now rewrite IH.
Qed.

(** With ConstantSecretGen the commitment binds nothing: the script made for a value
    [vs] accepts the witness made for any other value [ws] of the same number of
    words, and gives back [ws]. *)
Theorem C81_constant_gen_accepts_any : forall H vs ws s rest alt, (forall x, H x <> [0]) ->
  length ws = length vs -> Forall is_u32 ws ->
  exists sig, bcs_signature H (fst (new_gen constant_secret_gen ws s)) = Some sig /\
    exec H (check_and_recover H (fst (new_gen constant_secret_gen vs s))) (rev sig ++ rest) alt (nums (map smag ws) ++ rest) alt.
Proof.
  intros H vs ws s rest al NZ L F. destruct (C81_new H unit constant_secret_gen ws s rest al NZ F) as (_ & _ & sig & Es & X).
  exists sig. split; [exact Es|]. rewrite (C81_script_by_keys H _ (fst (new_gen constant_secret_gen ws s))); [exact X|].
  rewrite !constant_keys. now rewrite L.
Qed.

(** Nor does it need the signer's key: the witness of a value made of words that
    were already revealed is made of signatures already revealed.  Here for a
    permutation of the words, e.g. a query opening with its values swapped. *)
Theorem C81_constant_gen_reuse : forall H vs ws s sv sw, incl ws vs ->
  bcs_signature H (fst (new_gen constant_secret_gen vs s)) = Some sv ->
  bcs_signature H (fst (new_gen constant_secret_gen ws s)) = Some sw -> incl sw sv.
Proof.
  intros H vs ws s sv sw I0 Ev Ew.
  set (one := fun v => u32_signature H (bc_new [0; 0] v)).
  assert (A : forall vs s sv, bcs_signature H (fst (new_gen constant_secret_gen vs s)) = Some sv ->
    (forall x, In x sv <-> exists v sg, In v vs /\ one v = Some sg /\ In x sg)).
  { clear. induction vs as [|v vs IH]; intros s sv E x.
    - cbn in E. injection E as <-. split; [intros []|intros (v & sg & [] & _)].
    - cbn [new_gen constant_secret_gen] in E. specialize (IH s). destruct (new_gen constant_secret_gen vs s) as [cs s2]. cbn [fst bcs_signature] in E, IH.
      fold (one v) in E. destruct (bcs_signature H cs) as [a|]; [|discriminate E]. specialize (IH a eq_refl x).
      destruct (one v) as [b|] eqn:Eb; [|discriminate E]. injection E as <-. rewrite in_app_iff, IH. split.
      + intros [(w & sg & Iw & X)|Ib]; [exists w, sg; cbn; tauto|exists v, b; cbn; tauto].
      + intros (w & sg & [<-|Iw] & Es & Ix); [right; congruence|left; exists w, sg; tauto]. }
  intros x Ix. apply (A ws s sw Ew) in Ix as (v & sg & Iv & Es & Ix). apply (A vs s sv Ev). exists v, sg. auto.
Qed.

(** Example: the four words of an extension element, revealed as (1,2,3,4), and the
    element (4,3,2,1). *)
Example C81_example : forall H, (forall x, H x <> [0]) ->
  exists sv sw, bcs_signature H (fst (new_gen constant_secret_gen [1; 2; 3; 4] tt)) = Some sv /\
    bcs_signature H (fst (new_gen constant_secret_gen [4; 3; 2; 1] tt)) = Some sw /\ incl sw sv /\
    exec H (check_and_recover H (fst (new_gen constant_secret_gen [1; 2; 3; 4] tt))) (rev sw) [] (nums [4; 3; 2; 1]) [].
Proof.
  intros H NZ. assert (F1 : Forall is_u32 [1; 2; 3; 4]) by (repeat constructor; unfold is_u32; lia).
  assert (F2 : Forall is_u32 [4; 3; 2; 1]) by (repeat constructor; unfold is_u32; lia).
  destruct (C81_new H unit constant_secret_gen _ tt [] [] NZ F1) as (_ & _ & sv & Ev & _).
  destruct (C81_constant_gen_accepts_any H [1; 2; 3; 4] [4; 3; 2; 1] tt [] [] NZ eq_refl F2) as (sw & Ew & X).
  exists sv, sw. split; [exact Ev|]. split; [exact Ew|]. split.
  - eapply C81_constant_gen_reuse; [|exact Ev|exact Ew]. intros x. cbn. tauto.
  - rewrite !app_nil_r in X. exact X.
Qed.
