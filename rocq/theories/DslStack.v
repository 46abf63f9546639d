(** What the scripts emitted by the stack tracker do on the byte machine. *)
From Coq Require Import ZArith List Bool Lia.
From Coq Require Import ZifyBool ZifyNat.
From Verif Require Import ScriptNum ScriptVM VMLemmas U32Model U32Proofs U31Model U31Proofs Macros
  HelperModel HelperProofs HelperRou Lift DslModel.
Import ListNotations.
Local Open Scope nat_scope.

Section Stack.
  Variable H : bytes -> bytes.

  Lemma exec_nil : forall m a, exec H [] m a m a. Proof. reflexivity. Qed.
  Lemma fails_seq : forall p q m a m1 a1, exec H p m a m1 a1 -> fails H q m1 a1 -> fails H (p ++ q) m a.
  Proof. unfold exec, fails, brun. intros. rewrite runM_app, H0. exact H1. Qed.
  Lemma fails_app : forall p q m a, fails H p m a -> fails H (p ++ q) m a.
  Proof. unfold fails, brun. intros. rewrite runM_app, H0. reflexivity. Qed.

  Lemma exec_pick : forall l x r a, (Z.of_nat (length l) < 2 ^ 31)%Z ->
    exec H [pushnat (length l); OP_PICK] (l ++ x :: r) a (x :: l ++ x :: r) a.
  Proof.
    intros l x r a L.
    assert (E : run H [pushnat (length l); OP_PICK] (mk (map B (l ++ x :: r)) (map B a) []) =
      Some (mk (map B (x :: l ++ x :: r)) (map B a) [])).
    { rewrite run1. unfold pushnat.
      unfold ScriptVM.run at 1. cbn [runM step main alt cond executing forallb step_main].
      rewrite map_app. cbn [map]. rewrite vpick_mid by (rewrite ?map_length; lia).
      rewrite map_app. reflexivity. }
    apply exec_of_run in E. rewrite !map_vB in E. exact E.
  Qed.
  Lemma exec_roll : forall l x r a, (Z.of_nat (length l) < 2 ^ 31)%Z ->
    exec H [pushnat (length l); OP_ROLL] (l ++ x :: r) a (x :: l ++ r) a.
  Proof.
    intros l x r a L.
    assert (E : run H [pushnat (length l); OP_ROLL] (mk (map B (l ++ x :: r)) (map B a) []) =
      Some (mk (map B (x :: l ++ r)) (map B a) [])).
    { rewrite run1. unfold pushnat.
      unfold ScriptVM.run at 1. cbn [runM step main alt cond executing forallb step_main].
      rewrite map_app. cbn [map]. rewrite vroll_mid by (rewrite ?map_length; lia).
      rewrite map_app. reflexivity. }
    apply exec_of_run in E. rewrite !map_vB in E. exact E.
  Qed.

  Lemma repeat_script_snoc : forall n p, repeat_script (S n) p = repeat_script n p ++ p.
  Proof. induction n; intros p; [cbn; now rewrite app_nil_r|]. change (repeat_script (S (S n)) p) with (p ++ repeat_script (S n) p). rewrite IHn at 1. cbn [repeat_script]. apply app_assoc. Qed.
  Lemma repeat_script_app : forall n m p, repeat_script (n + m) p = repeat_script n p ++ repeat_script m p.
  Proof. induction n; intros; cbn; [reflexivity|]. rewrite IHn. apply app_assoc. Qed.

  (** Copy of the block [v] that lies under [o]. *)
  Lemma exec_copy : forall o v r a, (Z.of_nat (length o + length v) < 2 ^ 31)%Z ->
    exec H (repeat_script (length v) [pushnat (length o + length v - 1); OP_PICK])
      (o ++ v ++ r) a (v ++ o ++ v ++ r) a.
  Proof.
    intros o v r a L.
    assert (K : forall n w u, v = u ++ w -> length u = n ->
      exec H (repeat_script n [pushnat (length o + length v - 1); OP_PICK])
        (w ++ o ++ v ++ r) a (v ++ o ++ v ++ r) a).
    { induction n as [|n IH]; intros w u E Lu.
      - destruct u; [|discriminate]. subst v. apply exec_nil.
      - destruct u as [|y u0] using rev_ind; [discriminate|]. clear IHu0.
        rewrite app_length in Lu. cbn in Lu.
        cbn [repeat_script]. eapply exec_seq; [|apply (IH (y :: w) u0); [rewrite E, <- app_assoc; reflexivity|lia]].
        replace (length o + length v - 1) with (length (w ++ o ++ u0)).
        2:{ rewrite E, !app_length. cbn. lia. }
        replace (w ++ o ++ v ++ r) with ((w ++ o ++ u0) ++ y :: w ++ r).
        2:{ rewrite E, <- !app_assoc. cbn. reflexivity. }
        eapply eq_trans; [apply exec_pick|].
        { rewrite !app_length. rewrite E, !app_length in L. lia. }
        rewrite E, <- !app_assoc. reflexivity. }
    apply (K (length v) [] v); [now rewrite app_nil_r|reflexivity].
  Qed.
  Lemma exec_move : forall o v r a, (Z.of_nat (length o + length v) < 2 ^ 31)%Z ->
    exec H (repeat_script (length v) [pushnat (length o + length v - 1); OP_ROLL])
      (o ++ v ++ r) a (v ++ o ++ r) a.
  Proof.
    intros o v r a L.
    assert (K : forall n w u, v = u ++ w -> length u = n ->
      exec H (repeat_script n [pushnat (length o + length v - 1); OP_ROLL])
        (w ++ o ++ u ++ r) a (v ++ o ++ r) a).
    { induction n as [|n IH]; intros w u E Lu.
      - destruct u; [|discriminate]. subst v. apply exec_nil.
      - destruct u as [|y u0] using rev_ind; [discriminate|]. clear IHu0.
        rewrite app_length in Lu. cbn in Lu.
        cbn [repeat_script]. eapply exec_seq; [|apply (IH (y :: w) u0); [rewrite E, <- app_assoc; reflexivity|lia]].
        replace (length o + length v - 1) with (length (w ++ o ++ u0)).
        2:{ rewrite E, !app_length. cbn. lia. }
        replace (w ++ o ++ (u0 ++ [y]) ++ r) with ((w ++ o ++ u0) ++ y :: r).
        2:{ rewrite <- !app_assoc. cbn. reflexivity. }
        eapply eq_trans; [apply exec_roll|].
        { rewrite !app_length. rewrite E, !app_length in L. lia. }
        cbn [app]. rewrite <- !app_assoc. reflexivity. }
    apply (K (length v) [] v); [now rewrite app_nil_r|reflexivity].
  Qed.

  Lemma exec_toalt : forall v r a,
    exec H (repeat_script (length v) [OP_TOALTSTACK]) (v ++ r) a r (rev v ++ a).
  Proof.
    induction v as [|x v IH]; intros r a; [apply exec_nil|].
    cbn [length repeat_script]. eapply exec_seq; [reflexivity|].
    cbn [rev]. rewrite <- app_assoc. apply IH.
  Qed.
  Lemma exec_fromalt : forall v r a,
    exec H (repeat_script (length v) [OP_FROMALTSTACK]) r (v ++ a) (rev v ++ r) a.
  Proof.
    induction v as [|x v IH]; intros r a; [apply exec_nil|].
    cbn [length repeat_script]. eapply exec_seq; [reflexivity|].
    cbn [rev]. rewrite <- app_assoc. apply IH.
  Qed.

  (** [alt_restore]: put the items under [v] back on the alt stack. *)
  Lemma exec_restore : forall o v r a, (Z.of_nat (length v) < 2 ^ 31)%Z ->
    exec H (alt_restore (length o) (length v)) (v ++ o ++ r) a (v ++ r) (rev o ++ a).
  Proof.
    unfold alt_restore. induction o as [|x o IH]; intros v r a L; [apply exec_nil|].
    change (exec H (([pushnat (length v); OP_ROLL] ++ [OP_TOALTSTACK]) ++
      repeat_script (length o) [pushnat (length v); OP_ROLL; OP_TOALTSTACK])
      (v ++ x :: o ++ r) a (v ++ r) (rev (x :: o) ++ a)).
    cbn [rev]. rewrite <- (app_assoc (rev o)). cbn [app].
    eapply (exec_seq H (_ :: _ :: [_])); [|apply IH; exact L].
    change [pushnat (length v); OP_ROLL; OP_TOALTSTACK] with ([pushnat (length v); OP_ROLL] ++ [OP_TOALTSTACK]).
    eapply exec_seq; [apply exec_roll; exact L|]. reflexivity.
  Qed.

  Lemma exec_fetch : forall o v r a,
    exec H (alt_fetch (length o) (length v)) r (o ++ rev v ++ a) (v ++ rev o ++ r) a.
  Proof.
    intros o v r a. unfold alt_fetch.
    pose proof (exec_fromalt (o ++ rev v) r a) as E. rewrite app_length, rev_length in E.
    rewrite rev_app_distr, rev_involutive, <- !app_assoc in E. exact E.
  Qed.

  Lemma exec_alt_move : forall o v r a, (Z.of_nat (length v) < 2 ^ 31)%Z ->
    exec H (alt_fetch (length o) (length v) ++ alt_restore (length o) (length v))
      r (o ++ rev v ++ a) (v ++ r) (o ++ a).
  Proof.
    intros o v r a L. eapply exec_seq; [apply exec_fetch|].
    pose proof (exec_restore (rev o) v r a L) as E. rewrite rev_length, rev_involutive in E. exact E.
  Qed.

  Lemma exec_alt_copy : forall o v r a, (Z.of_nat (length v) < 2 ^ 31)%Z ->
    exec H (alt_fetch (length o) (length v) ++ repeat_script (length v) [pushnat (length v - 1); OP_PICK] ++
            repeat_script (length v) [OP_TOALTSTACK] ++ alt_restore (length o) (length v))
      r (o ++ rev v ++ a) (v ++ r) (o ++ rev v ++ a).
  Proof.
    intros o v r a L. eapply exec_seq; [apply exec_fetch|].
    eapply exec_seq; [apply (exec_copy [] v (rev o ++ r) a L)|]. cbn [app].
    eapply exec_seq; [apply exec_toalt|].
    pose proof (exec_restore (rev o) v r (rev v ++ a) L) as E. rewrite rev_length, rev_involutive in E. exact E.
  Qed.

  Lemma exec_push_vec : forall v r a, exec H (push_vec v) r a (nums v ++ r) a.
  Proof.
    intros v r a. pose proof (push_vec_ok H v (map B r) (map B a)) as E. tobytes E. exact E.
  Qed.
  Lemma exec_drop : forall l r a, exec H (repeat_script (length l) [OP_DROP]) (l ++ r) a r a.
  Proof.
    induction l as [|x l IH]; intros r a; [apply exec_nil|].
    cbn [length repeat_script app]. eapply (exec_seq H [OP_DROP]); [reflexivity|]. apply IH.
  Qed.
End Stack.
