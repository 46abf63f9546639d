(** From the proof machine to the byte machine. *)
From Coq Require Import ZArith List Bool Lia.
From Verif Require Import ScriptNum ScriptVM VMLemmas U32Model U32Proofs.
Import ListNotations.
Open Scope Z_scope.

(** [exec H p m a m' a']: the byte machine, started outside any conditional with
    main stack [m] and alt stack [a] (top first), runs [p] to the end and leaves
    main stack [m'], alt stack [a'] and no open conditional. *)
Definition exec (H : bytes -> bytes) (p : script) (m a m' a' : list bytes) : Prop :=
  brun H p (mk m a []) = Some (mk m' a' []).

(** [fails H p m a]: some opcode of [p] fails. *)
Definition fails (H : bytes -> bytes) (p : script) (m a : list bytes) : Prop :=
  brun H p (mk m a []) = None.

(** Stack image of numbers and of 32-bit words (low byte on top). *)
Definition nums (zs : list Z) : list bytes := map enc zs.
Definition bword (w : Z) : list bytes := nums (wbytes w).
Definition bwords (ws : list Z) : list bytes := flat_map bword ws.

Lemma map_vB : forall l, map vbytes (map B l) = l.
Proof. intros. rewrite map_map. apply map_id. Qed.
Lemma map_vI : forall l, map vbytes (map I l) = nums l.
Proof. intros. rewrite map_map. reflexivity. Qed.
Lemma map_word : forall w, map vbytes (word w) = bword w.
Proof. reflexivity. Qed.
Lemma map_words : forall ws, map vbytes (words ws) = bwords ws.
Proof.
  induction ws as [|w ws IH]; [reflexivity|].
  unfold words, bwords in *. cbn [flat_map]. rewrite map_app, IH. reflexivity.
Qed.
Lemma map_repeat : forall v n, map vbytes (repeat v n) = repeat (vbytes v) n.
Proof. induction n; cbn; congruence. Qed.

Section Lift.
  Variable H : bytes -> bytes.

  Lemma exec_of_run : forall p m a m' a',
    run H p (mk m a []) = Some (mk m' a' []) ->
    exec H p (map vbytes m) (map vbytes a) (map vbytes m') (map vbytes a').
  Proof.
    intros p m a m' a' E. unfold exec.
    change (mk (map vbytes m) (map vbytes a) []) with (bof (mk m a [])).
    rewrite brun_run, E. reflexivity.
  Qed.

  Lemma fails_of_run : forall p m a,
    run H p (mk m a []) = None -> fails H p (map vbytes m) (map vbytes a).
  Proof.
    intros p m a E. unfold fails.
    change (mk (map vbytes m) (map vbytes a) []) with (bof (mk m a [])).
    rewrite brun_run, E. reflexivity.
  Qed.

  (** Conversely, what the byte machine does on any byte stack is what the proof
      machine does on the same stack. *)
  Lemma exec_run : forall p m a m' a',
    exec H p m a m' a' ->
    exists s, run H p (mk (map B m) (map B a) []) = Some s /\ bof s = mk m' a' [].
  Proof.
    intros p m a m' a' E. unfold exec in E.
    rewrite <- (map_vB m), <- (map_vB a) in E.
    change (mk (map vbytes (map B m)) (map vbytes (map B a)) []) with
      (bof (mk (map B m) (map B a) [])) in E.
    rewrite brun_run in E. destruct (run H p (mk (map B m) (map B a) [])) as [s|]; [|easy].
    exists s. split; [reflexivity|]. cbn [option_map] in E. congruence.
  Qed.

  Lemma exec_seq : forall p q m a m1 a1 m2 a2,
    exec H p m a m1 a1 -> exec H q m1 a1 m2 a2 -> exec H (p ++ q) m a m2 a2.
  Proof.
    unfold exec, brun. intros p q m a m1 a1 m2 a2 E1 E2. rewrite runM_app, E1. exact E2.
  Qed.
End Lift.

Ltac tobytes E :=
  first [apply exec_of_run in E | apply fails_of_run in E];
  repeat (progress (
    rewrite ?map_app, ?map_cons, ?map_words, ?map_word, ?map_vI, ?map_vB, ?map_repeat in E;
    cbn [vbytes] in E));
  cbn [map vbytes] in E.
