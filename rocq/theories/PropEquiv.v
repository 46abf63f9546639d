(** Property C98: the script [equivocation] and what it accepts, scripts/src/bit_comm/winternitz.rs 299-304. *)
From Coq Require Import ZArith List Bool Lia.
From Verif Require Import ScriptNum ScriptVM VMLemmas U32Model Macros HelperModel WinternitzModel WinternitzSpec Lift PropWords PropSign.
Import ListNotations.
Open Scope Z_scope.

(** winternitz.rs 302-304: [script! {}]; the public key is not used. *)
Definition equivocation (pks : list bytes) : script := [].

(** *** Specification: evidence that the owner of the keys signed two messages.  The two signatures lie on the stack one
    after the other, each in the form the check script reads (C10). *)
Definition evidence (H : bytes -> bytes) (pks : list bytes) (m : list bytes) : Prop :=
  exists v w m2, v <> w /\ is_u32 v /\ is_u32 w /\ valid_sig H pks v m m2 /\ valid_sig H pks w m2 [].
(** a tapscript spend with witness [m], top first *)
Definition accepted (H : bytes -> bytes) (s : script) (m : list bytes) : bool := bsucceeds (brun H s (mk m [] [])).

Lemma sig_length : forall H pks v m rest, valid_sig H pks v m rest -> (length m = 20 + length rest)%nat.
Proof. intros H pks v m rest (D & x & -> & _). rewrite app_length. reflexivity. Qed.

(** It accepts the witnesses of one true element, whatever the keys. *)
Theorem C98_accepts_iff : forall H pks m, accepted H (equivocation pks) m = true <-> exists x, m = [x] /\ btruthy x = true.
Proof.
  intros H pks m. unfold accepted, equivocation. change (brun H [] (mk m [] [])) with (Some (mk m [] [] : bst)). cbn.
  split; [|intros (x & -> & T); exact T]. destruct m as [|x [|y m]]; try discriminate. intros T. exists x. auto.
Qed.
(** Claim: the script accepts exactly the evidence of equivocation.  It accepts no evidence at all, for any keys ... *)
Theorem C98_evidence_rejected : forall H pks m, evidence H pks m -> accepted H (equivocation pks) m = false.
Proof.
  intros H pks m (v & w & m2 & _ & _ & _ & S1 & S2). destruct (accepted H (equivocation pks) m) eqn:E; [|reflexivity].
  apply C98_accepts_iff in E as (x & -> & _). apply sig_length in S1. apply sig_length in S2. cbn [length] in *. lia.
Qed.
(** ... and accepts without any, so that a spend through it proves nothing. *)
Theorem C98_sound_refuted : forall H pks, exists m, accepted H (equivocation pks) m = true /\ ~ evidence H pks m.
Proof.
  intros H pks. exists [[1]]. split; [apply C98_accepts_iff; exists [1]; split; reflexivity|].
  intros E. apply (C98_evidence_rejected H) in E. assert (accepted H (equivocation pks) [[1]] = true) by reflexivity. congruence.
Qed.
(** Evidence exists whenever two messages are signed: the two witnesses one after the other. *)
Theorem C98_signed_twice : forall H sk v w, (forall x, H x <> [0]) -> is_u32 v -> is_u32 w -> v <> w ->
  exists s t, u32_signature H (bc_new sk v) = Some s /\ u32_signature H (bc_new sk w) = Some t /\
    evidence H (pub_key H sk) (rev s ++ rev t).
Proof.
  intros H sk v w NZ V W N.
  destruct (C09_witness_accepted H sk w [] [] NZ W) as (t & Et & Xt). destruct (C09_witness_accepted H sk v (rev t) [] NZ V) as (s & Es & Xs).
  exists s, t. split; [exact Es|]. split; [exact Et|]. rewrite app_nil_r in Xt.
  assert (L : length (pub_key H sk) = 10%nat) by reflexivity.
  assert (Q : forall u m r, is_u32 u -> exec H (checksig_verify (pub_key H sk)) m [] (bword u ++ r) [] -> valid_sig H (pub_key H sk) u m r).
  { intros u m r U X. apply C10_accepts_iff_valid in X as (_ & u' & r' & U' & Em & S); [|exact L].
    destruct (bword_app_inj u u' r r' U U' Em) as [-> ->]. exact S. }
  exists v, w, (rev t). split; [exact N|]. split; [exact V|]. split; [exact W|]. split; [apply (Q v); [exact V|exact Xs]|apply (Q w); [exact W|exact Xt]].
Qed.
(** Evidence is what the check script run twice accepts: the script that the comment above [equivocation] describes could
    consist of it and a comparison of the two messages it leaves. *)
Theorem C98_checkable : forall H pks m, length pks = 10%nat ->
  (evidence H pks m <-> exists v w m2, v <> w /\ is_u32 v /\ is_u32 w /\
     exec H (checksig_verify pks) m [] (bword v ++ m2) [] /\ exec H (checksig_verify pks) m2 [] (bword w) []).
Proof.
  intros H pks m L. split; intros (v & w & m2 & N & V & W & S1 & S2); exists v, w, m2; (split; [exact N|]); (split; [exact V|]); (split; [exact W|]).
  - split; apply C10_accepts_iff_valid; try exact L; (split; [reflexivity|]).
    + exists v, m2. auto.
    + exists w, []. rewrite app_nil_r. auto.
  - apply C10_accepts_iff_valid in S1 as (_ & v' & r' & V' & Em & S1); [|exact L]. apply C10_accepts_iff_valid in S2 as (_ & w' & r2 & W' & Em2 & S2); [|exact L].
    destruct (bword_app_inj v v' m2 r' V V' Em) as [-> ->]. rewrite <- (app_nil_r (bword w)) in Em2.
    destruct (bword_app_inj w w' [] r2 W W' Em2) as [-> ->]. auto.
Qed.

(** Two signed messages are evidence, which the script refuses; it takes the one-element witness [1] instead. *)
Example C98_example : let H := fun b : bytes => 7 :: b in exists s t, u32_signature H (bc_new [18; 52] 1) = Some s /\ u32_signature H (bc_new [18; 52] 2) = Some t /\
  evidence H (pub_key H [18; 52]) (rev s ++ rev t) /\ accepted H (equivocation (pub_key H [18; 52])) (rev s ++ rev t) = false /\
  accepted H (equivocation (pub_key H [18; 52])) [[1]] = true.
Proof.
  intros H. destruct (C98_signed_twice H [18; 52] 1 2) as (s & t & Es & Et & E); [intros [|] Q; discriminate Q|unfold is_u32; lia|unfold is_u32; lia|lia|].
  exists s, t. split; [exact Es|]. split; [exact Et|]. split; [exact E|]. split; [exact (C98_evidence_rejected _ _ _ E)|reflexivity].
Qed.
