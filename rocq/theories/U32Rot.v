(** Right rotation of 32-bit words. *)
From Coq Require Import ZArith List Bool Lia.
From Coq Require Import ZifyBool ZifyNat.
From Verif Require Import ScriptNum ScriptVM VMLemmas U32Model U32Proofs U32Proofs2.
Import ListNotations.
Open Scope Z_scope.

Ltac Zify.zify_post_hook ::= Z.div_mod_to_equations.

Section Proofs.
  Variable H : bytes -> bytes.
  Notation run := (run H).

  (** Extraction of the top [h] bits of a byte. *)
  Lemma extract_hbit_ok : forall h e v r a,
    u8_extract_hbit h = Some e -> byte v ->
    run e (mk (I v :: r) a []) =
    Some (mk (I (v / 2 ^ (8 - Z.of_nat h)) :: I ((v * 2 ^ Z.of_nat h) mod 256) :: r) a []).
  Proof.
    assert (C : forallb (fun h => match u8_extract_hbit h with
      | None => true
      | Some e => forallb (fun v =>
          match run e (mk [I v] [] []) with
          | Some (mk [I p; I q] [] []) =>
              (p =? v / 2 ^ (8 - Z.of_nat h)) && (q =? (v * 2 ^ Z.of_nat h) mod 256)
          | _ => false
          end) bytes256
      end) (seq 0 8) = true) by (vm_compute; reflexivity).
    intros h e v r a He Hv.
    assert (Lh : (h < 8)%nat).
    { unfold u8_extract_hbit in He. destruct (h <? 8)%nat eqn:E; [lia|discriminate]. }
    rewrite forallb_forall in C. specialize (C h). rewrite He in C.
    assert (C' := C ltac:(apply in_seq; lia)). clear C.
    rewrite forallb_forall in C'. specialize (C' v (in_bytes256 v Hv)).
    destruct (run e (mk [I v] [] [])) as [[[|[p|] [|[q|] [|]]] [|] [|]]|] eqn:E; try discriminate C'.
    apply andb_true_iff in C' as [C1 C2]. apply Z.eqb_eq in C1, C2. subst p q.
    exact (run_frame0 H _ _ _ _ _ r a E).
  Qed.

  (** State after the four extractions and additions, before reordering. *)
  Lemma rrot_core : forall h e x0 x1 x2 x3 rd r a,
    u8_extract_hbit h = Some e -> byte x0 -> byte x1 -> byte x2 -> byte x3 ->
    let p v := v / 2 ^ (8 - Z.of_nat h) in
    let q v := (v * 2 ^ Z.of_nat h) mod 256 in
    run (e ++ [OP_ROT] ++ e ++ [PUSHN 4; OP_ROLL] ++ e ++ [PUSHN 6; OP_ROLL] ++ e ++
            [PUSHN 7; OP_ROLL; OP_ADD; OP_TOALTSTACK;
             OP_ADD; OP_TOALTSTACK; OP_ADD; OP_TOALTSTACK; OP_ADD; OP_TOALTSTACK;
             OP_FROMALTSTACK; OP_FROMALTSTACK; OP_FROMALTSTACK; OP_FROMALTSTACK] ++ rd)
        (mk (I x0 :: I x1 :: I x2 :: I x3 :: r) a []) =
    run rd (mk (I (p x3 + q x0) :: I (p x2 + q x3) :: I (p x1 + q x2) :: I (p x0 + q x1) :: r) a []).
  Proof.
    intros h e x0 x1 x2 x3 rd r a He X0 X1 X2 X3 p q.
    pose proof (fun v r a => extract_hbit_ok h e v r a He) as Ee.
    assert (Hp : forall v, byte v -> 0 <= p v < 256).
    { intros v Hv. unfold p, byte in *.
      assert (1 <= 2 ^ (8 - Z.of_nat h)).
      { assert (Lh : (h < 8)%nat).
        { unfold u8_extract_hbit in He. destruct (h <? 8)%nat eqn:E; [lia|discriminate]. }
        apply (Z.pow_le_mono_r 2 0); lia. }
      split; [apply Z.div_pos; lia|]. apply Z.div_lt_upper_bound; nia. }
    assert (Hq : forall v, 0 <= q v < 256) by (intros; unfold q; apply Z.mod_pos_bound; lia).
    pose proof (Hp _ X0). pose proof (Hp _ X1). pose proof (Hp _ X2). pose proof (Hp _ X3).
    pose proof (Hq x0). pose proof (Hq x1). pose proof (Hq x2). pose proof (Hq x3).
    fold (p x0) (q x0) in *.
    rewrite run_app, Ee by assumption.
    eapply run_seq; [reflexivity|].
    rewrite run_app, Ee by assumption.
    eapply run_seq; [vmgo; reflexivity|].
    rewrite run_app, Ee by assumption.
    eapply run_seq; [vmgo; reflexivity|].
    rewrite run_app, Ee by assumption.
    repeat match goal with |- context [?v / 2 ^ (8 - Z.of_nat h)] =>
      change (v / 2 ^ (8 - Z.of_nat h)) with (p v) end.
    repeat match goal with |- context [(?v * 2 ^ Z.of_nat h) mod 256] =>
      change ((v * 2 ^ Z.of_nat h) mod 256) with (q v) end.
    clearbody p q.
    eapply run_seq; [vmgo; reflexivity|]. reflexivity.
  Qed.

  Lemma split_byte : forall h v, (0 < h < 8)%nat -> byte v ->
    exists p s, v = p * 2 ^ (8 - Z.of_nat h) + s /\ 0 <= s < 2 ^ (8 - Z.of_nat h) /\
      0 <= p < 2 ^ Z.of_nat h /\
      v / 2 ^ (8 - Z.of_nat h) = p /\ (v * 2 ^ Z.of_nat h) mod 256 = s * 2 ^ Z.of_nat h.
  Proof.
    intros h v Hh Hv. unfold byte in Hv.
    exists (v / 2 ^ (8 - Z.of_nat h)), (v mod 2 ^ (8 - Z.of_nat h)).
    do 8 (destruct h as [|h]; [try lia; cbn -[Z.mul Z.div Z.modulo]; repeat split; try lia|]); lia.
  Qed.

  Definition rot_bytes (o : nat) (b0 b1 b2 b3 : Z) : list Z :=
    match o with
    | 0 => [b0; b1; b2; b3]
    | 1 => [b1; b2; b3; b0]
    | 2 => [b2; b3; b0; b1]
    | _ => [b3; b0; b1; b2]
    end%nat.

  Lemma byte_reorder_ok : forall o b0 b1 b2 b3 r a, (o < 4)%nat ->
    exists p, byte_reorder o = Some p /\
    run p (mk (I b3 :: I b2 :: I b1 :: I b0 :: r) a []) =
    Some (mk (map I (rot_bytes o b0 b1 b2 b3) ++ r) a []).
  Proof.
    intros o b0 b1 b2 b3 r a Ho.
    do 4 (destruct o as [|o]; [eexists; split; [reflexivity|]; vmgo; reflexivity|]). lia.
  Qed.

  Lemma rot_arith : forall h o x0 x1 x2 x3, (0 < h < 8)%nat -> (o < 4)%nat ->
    byte x0 -> byte x1 -> byte x2 -> byte x3 ->
    let p v := v / 2 ^ (8 - Z.of_nat h) in
    let q v := (v * 2 ^ Z.of_nat h) mod 256 in
    word (rotr32 (of_bytes x0 x1 x2 x3) (8 * Z.of_nat o + (8 - Z.of_nat h))) =
    map I (rot_bytes o (p x0 + q x1) (p x1 + q x2) (p x2 + q x3) (p x3 + q x0)).
  Proof.
    intros h o x0 x1 x2 x3 Hh Ho X0 X1 X2 X3 p q.
    destruct (split_byte h x0 Hh X0) as (p0 & s0 & E0 & S0 & P0 & D0 & M0).
    destruct (split_byte h x1 Hh X1) as (p1 & s1 & E1 & S1 & P1 & D1 & M1).
    destruct (split_byte h x2 Hh X2) as (p2 & s2 & E2 & S2 & P2 & D2 & M2).
    destruct (split_byte h x3 Hh X3) as (p3 & s3 & E3 & S3 & P3 & D3 & M3).
    unfold p, q. rewrite D0, D1, D2, D3, M0, M1, M2, M3. clear p q D0 D1 D2 D3 M0 M1 M2 M3.
    unfold word. f_equal.
    set (W := of_bytes x0 x1 x2 x3).
    set (L := rot_bytes _ _ _ _ _).
    assert (G : forall b0 b1 b2 b3, L = [b0; b1; b2; b3] ->
      0 <= b0 < 256 -> 0 <= b1 < 256 -> 0 <= b2 < 256 -> 0 <= b3 < 256 ->
      rotr32 W (8 * Z.of_nat o + (8 - Z.of_nat h)) = of_bytes b0 b1 b2 b3 ->
      wbytes (rotr32 W (8 * Z.of_nat o + (8 - Z.of_nat h))) = L).
    { intros b0 b1 b2 b3 -> B0 B1 B2 B3 ->.
      assert (E := word_of_bytes b0 b1 b2 b3 B0 B1 B2 B3).
      unfold word in E. change [I b0; I b1; I b2; I b3] with (map I [b0; b1; b2; b3]) in E.
      assert (forall l l', map I l = map I l' -> l = l') as Inj.
      { induction l; intros [|]; cbn; intros; try congruence. injection H0 as -> ?. f_equal; auto. }
      now apply Inj. }
    assert (Hh' : In h (seq 1 7)) by (apply in_seq; lia).
    assert (Ho' : In o (seq 0 4)) by (apply in_seq; lia).
    clear Hh Ho. cbn in Hh', Ho'.
    repeat destruct Hh' as [<-|Hh']; [..|contradiction];
      cbn -[Z.mul Z.add] in E0, E1, E2, E3, S0, S1, S2, S3, P0, P1, P2, P3;
      (repeat destruct Ho' as [<-|Ho']; [..|contradiction]);
      (eapply G; [reflexivity|..]).
    all: try (cbn -[Z.mul Z.add]; lia).
    all: subst W L; unfold rotr32, of_bytes; cbn -[Z.mul Z.add Z.div Z.modulo]; subst; lia.
  Qed.

  Definition split128 : script :=
    [PUSHN 128; OP_2DUP; OP_GREATERTHANOREQUAL;
     OP_IF; OP_SUB; PUSHN 1; OP_ELSE; OP_DROP; PUSHN 0; OP_ENDIF].

  Lemma split128_ok : forall v r a, 0 <= v < 256 ->
    run split128 (mk (I v :: r) a []) = Some (mk (I (v / 128) :: I (v mod 128) :: r) a []).
  Proof.
    intros v r a Hv. unfold split128. vmgo.
    destruct (128 <=? v) eqn:E; cbn [b2z]; vmgo.
    - replace (v / 128) with 1 by lia. replace (v mod 128) with (v - 128) by lia. reflexivity.
    - replace (v / 128) with 0 by lia. replace (v mod 128) with v by lia. reflexivity.
  Qed.

  Lemma rrot7_ok : forall w r a, is_u32 w ->
    run u32_rrot7 (mk (word w ++ r) a []) = Some (mk (word (rotr32 w 7) ++ r) a []).
  Proof.
    intros w r a Ww.
    destruct (word_inv w Ww) as (x0 & x1 & x2 & x3 & X0 & X1 & X2 & X3 & -> & ->).
    change 7 with (8 * Z.of_nat 0 + (8 - Z.of_nat 1)) at 1.
    rewrite rot_arith by (assumption || lia). cbn [rot_bytes map app].
    change (2 ^ (8 - Z.of_nat 1)) with 128. change (2 ^ Z.of_nat 1) with 2.
    unfold byte in *.
    change u32_rrot7 with
      (split128 ++ [OP_ROT] ++ split128 ++ [OP_TOALTSTACK; OP_DUP; OP_ADD; OP_ADD; OP_FROMALTSTACK;
       PUSHN 3; OP_ROLL] ++ split128 ++ [OP_TOALTSTACK; OP_DUP; OP_ADD; OP_ADD; OP_FROMALTSTACK;
       PUSHN 4; OP_ROLL] ++ split128 ++ [OP_TOALTSTACK; OP_DUP; OP_ADD; OP_ADD; OP_FROMALTSTACK;
       PUSHN 4; OP_ROLL; OP_DUP; OP_ADD; OP_ADD; OP_SWAP; OP_2SWAP; OP_SWAP]).
    rewrite run_app, split128_ok by lia. eapply run_seq; [reflexivity|].
    rewrite run_app, split128_ok by lia.
    eapply run_seq; [vmgo; reflexivity|].
    rewrite run_app, split128_ok by lia.
    eapply run_seq; [vmgo; reflexivity|].
    rewrite run_app, split128_ok by lia.
    vmgo. repeat (f_equal; try lia).
  Qed.

  Lemma rot_comp : forall w, is_u32 w -> is_u32 (rotr32 w 16) /\ rotr32 (rotr32 w 16) 7 = rotr32 w 23.
  Proof.
    unfold is_u32, rotr32. cbn -[Z.mul Z.add Z.div Z.modulo]. intros. lia.
  Qed.

  Lemma generic_ok : forall n w r a, is_u32 w -> (n < 32)%nat -> (n mod 8 <> 0)%nat ->
    exists p, u32_rrot_generic n = Some p /\
    run p (mk (word w ++ r) a []) = Some (mk (word (rotr32 w (Z.of_nat n)) ++ r) a []).
  Proof.
    intros n w r a Ww Hn Hr.
    destruct (word_inv w Ww) as (x0 & x1 & x2 & x3 & X0 & X1 & X2 & X3 & -> & ->).
    unfold u32_rrot_generic.
    set (h := (8 - n mod 8)%nat). set (o := ((n - n mod 8) / 8)%nat).
    assert (Hh : (0 < h < 8)%nat) by (subst h; lia).
    assert (Ho : (o < 4)%nat) by (subst o; lia).
    assert (En : Z.of_nat n = 8 * Z.of_nat o + (8 - Z.of_nat h)) by (subst h o; lia).
    destruct (u8_extract_hbit h) as [e|] eqn:Ee.
    2:{ exfalso. clearbody h. do 8 (destruct h as [|h]; [lia || discriminate Ee|]). lia. }
    set (p := fun v => v / 2 ^ (8 - Z.of_nat h)).
    set (q := fun v => (v * 2 ^ Z.of_nat h) mod 256).
    destruct (byte_reorder_ok o (p x0 + q x1) (p x1 + q x2) (p x2 + q x3) (p x3 + q x0) r a Ho)
      as (rd & Erd & Err).
    rewrite Erd. eexists. split; [reflexivity|].
    change ([I x0; I x1; I x2; I x3] ++ r) with (I x0 :: I x1 :: I x2 :: I x3 :: r).
    etransitivity; [apply (rrot_core h e); assumption|].
    etransitivity; [exact Err|]. rewrite En, rot_arith by assumption. reflexivity.
  Qed.

  Theorem u32_rrot_ok : forall n w r a, is_u32 w -> (n < 32)%nat ->
    exists p, u32_rrot n = Some p /\
    run p (mk (word w ++ r) a []) = Some (mk (word (rotr32 w (Z.of_nat n)) ++ r) a []).
  Proof.
    intros n w r a Ww Hn. unfold u32_rrot. destruct (n <? 32)%nat eqn:En; [clear En|lia].
    destruct (specific_optimize n) as [p|] eqn:Es.
    - exists p. split; [reflexivity|].
      assert (K : (n = 0 \/ n = 7 \/ n = 8 \/ n = 16 \/ n = 23 \/ n = 24)%nat).
      { do 25 (destruct n as [|n]; [try discriminate Es; tauto|]). discriminate Es. }
      destruct K as [->|[->|[->|[->|[->| ->]]]]]; injection Es as <-.
      + unfold rotr32. cbn [Z.of_nat]. rewrite Z.pow_0_r, Z.div_1_r, Z.mod_1_r.
        rewrite Z.mul_0_l, Z.add_0_r. reflexivity.
      + now apply rrot7_ok.
      + destruct (word_inv w Ww) as (x0 & x1 & x2 & x3 & X0 & X1 & X2 & X3 & -> & ->).
        replace (rotr32 _ _) with (of_bytes x1 x2 x3 x0).
        * rewrite word_of_bytes by assumption. unfold u32_rrot8. cbn [app]. vmgo. reflexivity.
        * unfold rotr32, of_bytes, byte in *. cbn -[Z.mul Z.add Z.div Z.modulo]. lia.
      + destruct (word_inv w Ww) as (x0 & x1 & x2 & x3 & X0 & X1 & X2 & X3 & -> & ->).
        replace (rotr32 _ _) with (of_bytes x2 x3 x0 x1).
        * rewrite word_of_bytes by assumption. unfold u32_rrot16. cbn [app]. vmgo. reflexivity.
        * unfold rotr32, of_bytes, byte in *. cbn -[Z.mul Z.add Z.div Z.modulo]. lia.
      + destruct (rot_comp w Ww) as [W1 W2].
        change (Z.of_nat 23) with 23. rewrite <- W2.
        eapply (run_seq H u32_rrot16 u32_rrot7); [|apply rrot7_ok; exact W1].
        destruct (word_inv w Ww) as (x0 & x1 & x2 & x3 & X0 & X1 & X2 & X3 & -> & ->).
        replace (rotr32 _ _) with (of_bytes x2 x3 x0 x1).
        * rewrite word_of_bytes by assumption. unfold u32_rrot16. cbn [app]. vmgo. reflexivity.
        * unfold rotr32, of_bytes, byte in *. cbn -[Z.mul Z.add Z.div Z.modulo]. lia.
      + destruct (word_inv w Ww) as (x0 & x1 & x2 & x3 & X0 & X1 & X2 & X3 & -> & ->).
        replace (rotr32 _ _) with (of_bytes x3 x0 x1 x2).
        * rewrite word_of_bytes by assumption. cbn [app]. vmgo. reflexivity.
        * unfold rotr32, of_bytes, byte in *. cbn -[Z.mul Z.add Z.div Z.modulo]. lia.
    - apply generic_ok; [assumption|assumption|].
      intros K. assert (n = 0 \/ n = 8 \/ n = 16 \/ n = 24)%nat by lia.
      destruct H0 as [->|[->|[->| ->]]]; discriminate Es.
  Qed.
End Proofs.
