(** Invariants of the challenger. *)
From Coq Require Import ZArith List Bool Lia.
From Coq Require Import ZifyBool ZifyNat.
From Verif Require Import ChallengerModel.
Import ListNotations.
Open Scope Z_scope.

Ltac Zify.zify_post_hook ::= Z.div_mod_to_equations.

Lemma skipn_all_exact : forall A (l r : list A), skipn (length l) (l ++ r) = r.
Proof. intros. rewrite skipn_app, skipn_all, Nat.sub_diag. reflexivity. Qed.
Lemma firstn_all_exact : forall A (l r : list A), firstn (length l) (l ++ r) = l.
Proof. intros. rewrite firstn_app, firstn_all, Nat.sub_diag. apply app_nil_r. Qed.

Local Opaque Nat.div.

Section C.
  Variable WIDTH : nat.
  Variable perm : list word4 -> list word4.
  Variable deg : nat.
  Notation duplexing := (duplexing WIDTH perm).
  Notation observe := (observe WIDTH perm).
  Notation observe_all := (observe_all WIDTH perm).
  Notation pop_word := (pop_word WIDTH perm).
  Notation pop_words := (pop_words WIDTH perm).
  Notation sample := (sample WIDTH perm deg).
  Notation sample_bits := (sample_bits WIDTH perm deg).
  Notation check_witness := (check_witness WIDTH perm deg).
  Notation new := (new WIDTH deg).

  (** *** Forgetting the two grinding records *)
  Definition erase (c : chal) : chal :=
    Chal (sponge c) (inbuf c) (outbuf c) (pin c) (pout c) None []
         (sample_input c) (sample_output c).

  Lemma erase_duplexing : forall c, duplexing (erase c) = option_map erase (duplexing c).
  Proof. intros c. unfold duplexing. cbn. destruct (_ <=? _)%nat; reflexivity. Qed.
  Lemma erase_observe : forall c v, observe (erase c) v = option_map erase (observe c v).
  Proof.
    intros c v. unfold observe. cbn [inbuf erase].
    destruct (length (inbuf c ++ [v]) =? WIDTH / 2)%nat; [|reflexivity].
    exact (erase_duplexing (Chal (sponge c) (inbuf c ++ [v]) [] (pin c) (pout c)
                  (grind_bits c) (grind_output c) (sample_input c) (sample_output c))).
  Qed.
  Lemma erase_observe_all : forall vs c,
    observe_all (erase c) vs = option_map erase (observe_all c vs).
  Proof.
    induction vs as [|v vs IH]; intros c; [reflexivity|]. cbn.
    rewrite erase_observe. destruct (observe c v); cbn; [apply IH|reflexivity].
  Qed.
  Definition erase2 {A} (p : A * chal) : A * chal := (fst p, erase (snd p)).
  Lemma erase_pop : forall c, pop_word (erase c) = option_map erase2 (pop_word c).
  Proof.
    intros c. unfold pop_word. rewrite erase_duplexing. cbn [inbuf outbuf erase].
    destruct (_ || _); [destruct (duplexing c) as [d|]; [|reflexivity]|];
      cbn; destruct (rev (outbuf _)); reflexivity.
  Qed.
  Lemma erase_pops : forall n c, pop_words n (erase c) = option_map erase2 (pop_words n c).
  Proof.
    induction n as [|n IH]; intros c; [reflexivity|]. cbn. rewrite erase_pop.
    destruct (pop_word c) as [[v d]|]; [|reflexivity]. cbn. rewrite IH.
    destruct (pop_words n d) as [[vs e]|]; reflexivity.
  Qed.
  Lemma erase_sample : forall c, sample (erase c) = option_map erase2 (sample c).
  Proof.
    intros c. unfold sample. rewrite erase_pops.
    destruct (pop_words deg c) as [[vs e]|]; reflexivity.
  Qed.
  Lemma erase_bits : forall c b, sample_bits (erase c) b = option_map erase2 (sample_bits c b).
  Proof.
    intros c b. unfold sample_bits. rewrite erase_sample.
    destruct (sample c) as [[f d]|]; [|reflexivity]. cbn. destruct (b <=? 32)%nat; reflexivity.
  Qed.
  Lemma erase_check : forall c b w,
    check_witness (erase c) b w = option_map erase2 (check_witness c b w).
  Proof.
    intros c b w. unfold check_witness. rewrite erase_observe_all.
    destruct (observe_all c _) as [d|]; [|reflexivity]. cbn [option_map].
    rewrite erase_bits. destruct (sample_bits d b) as [[v e]|]; reflexivity.
  Qed.

  (** *** No panics: shapes of the buffers *)
  Definition wf (c : chal) : Prop :=
    length (sponge c) = WIDTH /\ (length (inbuf c) < WIDTH / 2)%nat.

  Hypothesis W2 : (2 <= WIDTH)%nat.
  Hypothesis perm_len : forall s, length s = WIDTH -> length (perm s) = WIDTH.

  Lemma half : (1 <= WIDTH / 2 < WIDTH)%nat.
  Proof. clear perm_len. lia. Qed.

  Lemma wf_new : wf new.
  Proof. split; cbn; [apply repeat_length|]. pose proof half. lia. Qed.

  Definition absorbed (c : chal) : list word4 := inbuf c ++ skipn (length (inbuf c)) (sponge c).

  Lemma absorbed_len : forall c, length (sponge c) = WIDTH -> (length (inbuf c) <= WIDTH)%nat ->
    length (absorbed c) = WIDTH.
  Proof. intros c E L. unfold absorbed. rewrite app_length, skipn_length. lia. Qed.

  Lemma duplexing_some : forall c, length (sponge c) = WIDTH -> (length (inbuf c) <= WIDTH)%nat ->
    exists d, duplexing c = Some d /\ wf d /\ sponge d = perm (absorbed c) /\ inbuf d = [] /\
      outbuf d = skipn (WIDTH / 2) (perm (absorbed c)) /\ pin d = pin c ++ [absorbed c] /\
      outbuf d <> [].
  Proof.
    intros c E L. unfold duplexing. destruct (_ <=? _)%nat eqn:Q; [|lia].
    eexists. split; [reflexivity|]. fold (absorbed c). unfold wf. cbn.
    pose proof half. rewrite perm_len by (now apply absorbed_len). repeat split; try lia.
    intros N. apply (f_equal (@length _)) in N. rewrite skipn_length, perm_len in N by
      (now apply absorbed_len). cbn in N. lia.
  Qed.

  Lemma observe_some : forall c v, wf c -> exists d, observe c v = Some d /\ wf d.
  Proof.
    intros c v [E L]. unfold observe. cbn [inbuf].
    destruct (length (inbuf c ++ [v]) =? WIDTH / 2)%nat eqn:Q.
    - match goal with |- context [duplexing ?x] => destruct (duplexing_some x) as (d & D & F & _) end.
      + exact E.
      + cbn. pose proof half. lia.
      + eauto.
    - eexists. split; [reflexivity|]. split; [exact E|]. cbn. rewrite app_length in *. cbn in *. lia.
  Qed.
  Lemma observe_all_some : forall vs c, wf c -> exists d, observe_all c vs = Some d /\ wf d.
  Proof.
    induction vs as [|v vs IH]; intros c F; [cbn; eauto|]. cbn.
    destruct (observe_some c v F) as (d & -> & F'). now apply IH.
  Qed.
  Lemma pop_some : forall c, wf c -> exists v d, pop_word c = Some (v, d) /\ wf d.
  Proof.
    intros c F. unfold pop_word. destruct (_ || _) eqn:Q.
    - destruct F as [E L]. pose proof half.
      destruct (duplexing_some c E) as (d & -> & F & _ & _ & _ & _ & N); [lia|].
      destruct (rev (outbuf d)) as [|v r] eqn:R.
      + apply (f_equal (@rev _)) in R. rewrite rev_involutive in R. contradiction.
      + do 2 eexists. split; [reflexivity|]. exact F.
    - destruct (rev (outbuf c)) as [|v r] eqn:R.
      + apply (f_equal (@rev _)) in R. rewrite rev_involutive in R. cbn in R.
        rewrite R in Q. cbn in Q. rewrite orb_true_r in Q. easy.
      + do 2 eexists. split; [reflexivity|]. exact F.
  Qed.
  Lemma pops_some : forall n c, wf c -> exists vs d, pop_words n c = Some (vs, d) /\ wf d.
  Proof.
    induction n as [|n IH]; intros c F; [cbn; eauto|]. cbn.
    destruct (pop_some c F) as (v & d & -> & F'). destruct (IH d F') as (vs & e & -> & F2). eauto.
  Qed.
  Lemma sample_some : forall c, wf c -> exists f d, sample c = Some (f, d) /\ wf d.
  Proof.
    intros c F. unfold sample. destruct (pops_some deg c F) as (vs & d & -> & F').
    do 2 eexists. split; [reflexivity|]. exact F'.
  Qed.
  Lemma bits_some : forall c b, wf c -> (b <= 32)%nat ->
    exists v d, sample_bits c b = Some (v, d) /\ wf d.
  Proof.
    intros c b F L. unfold sample_bits. destruct (sample_some c F) as (f & d & -> & F').
    destruct (b <=? 32)%nat eqn:Q; [eauto|lia].
  Qed.
  Lemma check_some : forall c b w, wf c -> (b <= 32)%nat ->
    exists r d, check_witness c b w = Some (r, d) /\ wf d.
  Proof.
    intros c b w F L. unfold check_witness.
    destruct (observe_all_some (w :: repeat (from_u64 0) 7) c F) as (d & -> & F').
    destruct (bits_some d b F' L) as (v & e & -> & F2). eauto.
  Qed.
End C.

(** Samples are canonical. *)
Lemma from_pf_range : forall w, 0 <= from_pf w < ORDER.
Proof. intros. unfold from_pf. apply Z.mod_pos_bound. reflexivity. Qed.

Lemma hd_range : forall ws, 0 <= hd 0 (map from_pf ws) < ORDER.
Proof. intros [|w ws]; [cbn; unfold ORDER; lia|]. apply from_pf_range. Qed.
