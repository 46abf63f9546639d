(** Heights reached by the scripts of the [scripts] crate. *)
From Coq Require Import ZArith List Bool Lia.
From Verif Require Import ScriptNum ScriptVM U32Model U31Model HelperModel Blake3Model WinternitzModel
  StackModel StackProofs.
Import ListNotations.
Open Scope Z_scope.

Ltac prof := apply profile_heights; lazy; reflexivity.


(** *** Words *)
Lemma copy_zip_heights : forall a b z, u32_copy_zip a b = Some z -> heights z 4 4 5.
Proof.
  intros a b z E. unfold u32_copy_zip in E.
  destruct (a <? b)%nat; [injection E as <-; eapply heights_weaken; [prof|lia..]|].
  destruct (b <? a)%nat; [injection E as <-; eapply heights_weaken; [prof|lia..]|discriminate E].
Qed.
Lemma u32_add_heights : forall a b s, u32_add a b = Some s -> heights s 0 4 6.
Proof.
  intros a b s E. unfold u32_add in E. destruct (a =? b)%nat; [discriminate E|].
  destruct (u32_copy_zip a b) as [z|] eqn:Z; [|discriminate E]. injection E as <-.
  assert (B : heights u32_add_body (-4) 0 2) by (eapply heights_weaken; [prof|lia..]).
  eapply heights_weaken; [exact (heights_app _ _ _ _ _ _ _ _ (copy_zip_heights _ _ _ Z) B)|lia..].
Qed.
Lemma u32_xor_heights : forall a b n s, u32_xor a b n = Some s -> heights s 0 8 8.
Proof.
  intros a b n s E. unfold u32_xor in E. destruct (a =? b)%nat; [discriminate E|].
  destruct (n <? 2)%nat; [discriminate E|].
  destruct (u32_copy_zip a b) as [z|] eqn:Z; [|discriminate E]. injection E as <-.
  assert (B : heights (u32_xor_body n) (-4) 4 4) by (eapply heights_weaken; [prof|lia..]).
  eapply heights_weaken; [exact (heights_app _ _ _ _ _ _ _ _ (copy_zip_heights _ _ _ Z) B)|lia..].
Qed.
Lemma rrot_heights : forall k s, In k [16; 12; 8; 7]%nat -> u32_rrot k = Some s -> heights s 0 0 8.
Proof.
  intros k s I E. cbn in I. destruct I as [<-|[<-|[<-|[<-|[]]]]]; cbv in E; injection E as <-;
    (eapply heights_weaken; [prof|lia..]).
Qed.

(** *** BLAKE3 *)
Lemma heights_same : forall p q l1 h1 l2 h2, heights p 0 l1 h1 -> heights q 0 l2 h2 ->
  heights (p ++ q) 0 (Z.max l1 l2) (Z.max h1 h2).
Proof. intros p q l1 h1 l2 h2 P Q. eapply heights_weaken; [exact (heights_app _ _ _ _ _ _ _ _ P Q)|lia..]. Qed.

Lemma some_inj : forall {A} (x y : A), Some x = Some y -> x = y.
Proof. congruence. Qed.

Ltac opt E := repeat match type of E with
  | match ?x with _ => _ end = _ => let q := fresh "Q" in destruct x eqn:q; try discriminate E
  end.

Lemma G_heights : forall e ap a b c d m0 m1 s e', G e ap a b c d m0 m1 = Some (s, e') -> heights s 0 8 8.
Proof.
  intros e ap a b c d m0 m1 s e' E. unfold G in E. opt E. injection E as <- _.
  eapply heights_weaken; [repeat first [eapply heights_same
    | eapply u32_add_heights; eassumption | eapply u32_xor_heights; eassumption
    | eapply rrot_heights; [|eassumption]; cbn; tauto]|lia..].
Qed.
Lemma round_heights : forall e ap s e', round e ap = Some (s, e') -> heights s 0 8 8.
Proof.
  intros e ap s e' E. unfold round in E. opt E. injection E as <- _.
  eapply heights_weaken; [repeat first [eapply heights_same | eapply G_heights; eassumption]|lia..].
Qed.
Lemma permute_heights : forall n e ap s e', permute_round n e ap = Some (s, e') -> heights s 0 0 8.
Proof.
  induction n as [|n IH]; intros e ap s e' E; cbn [permute_round] in E.
  - injection E as <- _. eapply heights_weaken; [exact heights_nil|lia..].
  - opt E. injection E as <- _.
    eapply heights_weaken; [eapply heights_same; [eapply round_heights; eassumption|eapply IH; eassumption]|lia..].
Qed.
Lemma final_heights : forall n i e ap s e', final_xor i n e ap = Some (s, e') -> heights s 0 0 8.
Proof.
  induction n as [|n IH]; intros i e ap s e' E; cbn [final_xor] in E.
  - injection E as <- _. eapply heights_weaken; [exact heights_nil|lia..].
  - opt E. injection E as <- _.
    eapply heights_weaken; [eapply heights_same; [eapply u32_xor_heights; eassumption|eapply IH; eassumption]|lia..].
Qed.
Lemma compress_heights : forall e ap s e', compress e ap = Some (s, e') -> heights s 0 8 8.
Proof.
  intros e ap s e' E. unfold compress in E. opt E. injection E as <- _.
  eapply heights_weaken; [eapply heights_same; [eapply round_heights; eassumption|eapply heights_same;
    [eapply permute_heights; eassumption|eapply final_heights; eassumption]]|lia..].
Qed.
Lemma compress_160_heights : forall e ap s e', compress_160 e ap = Some (s, e') -> heights s 0 8 8.
Proof.
  intros e ap s e' E. unfold compress_160 in E. opt E. injection E as <- _.
  eapply heights_weaken; [eapply heights_same; [eapply round_heights; eassumption|eapply heights_same;
    [eapply permute_heights; eassumption|eapply final_heights; eassumption]]|lia..].
Qed.

Lemma state_heights : forall ws, heights (flat_map u32_push ws) (4 * Z.of_nat (length ws))
  (4 * Z.of_nat (length ws)) (4 * Z.of_nat (length ws)).
Proof.
  induction ws as [|w ws IH]; [exact heights_nil|]. cbn [flat_map].
  assert (P : heights (u32_push w) 4 4 4) by prof.
  eapply heights_weaken; [exact (heights_app _ _ _ _ _ _ _ _ P IH)|cbn [length]; lia..].
Qed.
Lemma table_heights : heights u8_push_xor_table 256 256 256.
Proof. prof. Qed.
Lemma untable_heights : heights u8_drop_xor_table (-256) 0 0.
Proof. prof. Qed.

Lemma blake3_heights : forall q, blake3 = Some q -> heights q (-32) 328 328.
Proof.
  intros q E. unfold blake3 in E. opt E. apply some_inj in E; subst q.
  match goal with Q : compress _ _ = Some _ |- _ => pose proof (compress_heights _ _ _ _ Q) as C end.
  assert (D : heights (repeat_script 8 u32_toaltstack ++ repeat_script 24 u32_drop ++
        u8_drop_xor_table ++ repeat_script 8 u32_fromaltstack) (-352) 0 0) by prof.
  pose proof (state_heights (rev (IV ++ firstn 4 IV ++ [0; 0; 64; 11]))) as S.
  change (Z.of_nat (length _)) with 16 in S.
  eapply heights_weaken; [eapply heights_app; [exact table_heights|eapply heights_app; [exact S|
    eapply heights_app; [exact C|exact D]]]|lia..].
Qed.

Lemma pad_heights : forall k, (k < 64)%nat ->
  heights (push_to_stack 0 k) (Z.of_nat k) (Z.of_nat k) (Z.of_nat k).
Proof.
  intros k L. apply profile_heights.
  assert (T : forallb (fun k => match profile (push_to_stack 0 k) with
    Some (d, lo, hi) => (d =? Z.of_nat k) && (lo =? Z.of_nat k) && (hi =? Z.of_nat k) | None => false end)
    (seq 0 64) = true) by reflexivity.
  rewrite forallb_forall in T. specialize (T k). rewrite in_seq in T. specialize (T ltac:(lia)).
  destruct (profile (push_to_stack 0 k)) as [[[d lo] hi]|]; [|discriminate T].
  apply andb_true_iff in T as [T T3]. apply andb_true_iff in T as [T1 T2].
  apply Z.eqb_eq in T1, T2, T3. congruence.
Qed.

Lemma blake3_160_heights : forall q, blake3_160 = Some q -> heights q (-20) 352 352.
Proof.
  intros q E. unfold blake3_160 in E. opt E. apply some_inj in E; subst q.
  match goal with Q : compress_160 _ _ = Some _ |- _ => pose proof (compress_160_heights _ _ _ _ Q) as C end.
  assert (D : heights (repeat_script 5 u32_toaltstack ++ repeat_script 27 u32_drop ++
        u8_drop_xor_table ++ repeat_script 5 u32_fromaltstack) (-364) 0 0) by prof.
  pose proof (state_heights (rev (IV ++ firstn 4 IV ++ [0; 0; 40; 11]))) as S.
  change (Z.of_nat (length _)) with 16 in S.
  pose proof (pad_heights 24 ltac:(lia)) as P.
  eapply heights_weaken; [eapply heights_app; [exact P|eapply heights_app; [exact table_heights|
    eapply heights_app; [exact S|eapply heights_app; [exact C|exact D]]]]|lia..].
Qed.

Lemma cs_heights : forall cs, compression_script = Some cs -> heights cs (-96) 8 8.
Proof.
  intros cs E. unfold compression_script in E. opt E. apply some_inj in E; subst cs.
  match goal with Q : compress _ _ = Some _ |- _ => pose proof (compress_heights _ _ _ _ Q) as C end.
  assert (D : heights ([PUSHN 321] ++ repeat_script 63 [OP_DUP; OP_ROLL; OP_DROP] ++
        [OP_1SUB; OP_ROLL; OP_DROP] ++ repeat_script 8 u32_toaltstack ++ repeat_script 8 u32_drop) (-96) 2 2) by prof.
  eapply heights_weaken; [eapply heights_app; [exact C|exact D]|lia..].
Qed.

Lemma more_heights : forall cs, heights cs (-96) 8 8 -> forall k i nb n,
  heights (more_blocks k i nb n cs) (-64 * Z.of_nat k) 0 40.
Proof.
  intros cs C. induction k as [|k IH]; intros i nb n; cbn [more_blocks].
  - eapply heights_weaken; [exact heights_nil|lia..].
  - match goal with |- heights (flat_map u32_push ?l ++ _) _ _ _ => pose proof (state_heights l) as S end.
    change (Z.of_nat (length _)) with 8 in S.
    assert (R : heights (repeat_script 8 u32_fromaltstack ++ flat_map u32_roll (seq 1 7)) 0 1 1) by prof.
    specialize (IH (Datatypes.S i) nb (n - 64)%nat).
    pose proof (heights_app _ _ _ _ _ _ _ _ S (heights_app _ _ _ _ _ _ _ _ R (heights_app _ _ _ _ _ _ _ _ C IH))) as K.
    rewrite <- app_assoc in K.
    eapply heights_weaken; [exact K|lia..].
Qed.

(** Number of 64-byte blocks. *)
Definition blocks (n : nat) : nat := ((n + 63) / 64)%nat.

Lemma var_heights : forall n q, (1 <= n <= 512)%nat -> blake3_var_length n = Some q ->
  heights q (32 - Z.of_nat n) (64 * Z.of_nat (blocks n) - Z.of_nat n + 328)
    (64 * Z.of_nat (blocks n) - Z.of_nat n + 328).
Proof.
  intros n q Ln E. unfold blake3_var_length in E.
  destruct (n <=? 512)%nat; [|discriminate E].
  destruct compression_script as [cs|] eqn:Cs; [|discriminate E]. apply some_inj in E; subst q.
  replace (n + 64 - 1)%nat with (n + 63)%nat by lia. fold (blocks n).
  pose proof (cs_heights cs Cs) as C.
  assert (Hb : (n <= 64 * blocks n < n + 64)%nat).
  { unfold blocks. pose proof (Nat.div_mod (n + 63) 64 ltac:(lia)).
    pose proof (Nat.mod_upper_bound (n + 63) 64 ltac:(lia)). lia. }
  set (nb := blocks n) in *. clearbody nb.
  pose proof (pad_heights (nb * 64 - n) ltac:(lia)) as P.
  assert (R : heights (if (nb * 64 - n =? 0)%nat then []
           else repeat_script n [pushnat (n + (nb * 64 - n) - 1); OP_ROLL]) 0 0 1).
  { destruct (nb * 64 - n =? 0)%nat; [eapply heights_weaken; [exact heights_nil|lia..]|].
    assert (T : heights [pushnat (n + (nb * 64 - n) - 1); OP_ROLL] 0 1 1) by prof.
    eapply heights_weaken; [exact (heights_repeat _ _ _ _ T ltac:(lia) n)|destruct n; lia..]. }
  match goal with |- heights (_ ++ _ ++ _ ++ flat_map u32_push ?l ++ _) _ _ _ => pose proof (state_heights l) as S end.
  change (Z.of_nat (length _)) with 16 in S.
  pose proof (more_heights cs C (nb - 1) 1 nb n) as M.
  assert (D : heights (u8_drop_xor_table ++ repeat_script 8 u32_fromaltstack) (-256) 0 0) by prof.
  eapply heights_weaken; [eapply heights_app; [exact P|eapply heights_app; [exact R|eapply heights_app; [exact table_heights|
    eapply heights_app; [exact S|eapply heights_app; [exact C|eapply heights_app; [exact M|exact D]]]]]]|lia..].
Qed.
