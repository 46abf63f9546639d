(** Proofs about the stack macros and the 32-bit word scripts. *)
From Coq Require Import ZArith List Bool Lia.
From Coq Require Import ZifyBool ZifyNat.
From Verif Require Import ScriptNum ScriptVM VMLemmas U32Model.
Import ListNotations.
Open Scope Z_scope.

Ltac Zify.zify_post_hook ::= Z.div_mod_to_equations.

(** Word positions are limited only by the 4-byte operand range. *)
Definition pos_ok (n : nat) : Prop := Z.of_nat n < 2 ^ 28.

Fixpoint remove_nth {A} (n : nat) (l : list A) : list A :=
  match l, n with
  | [], _ => []
  | _ :: l', O => l'
  | x :: l', S n' => x :: remove_nth n' l'
  end.

Lemma nth_error_mid : forall {A} (l : list A) x r, nth_error (l ++ x :: r) (length l) = Some x.
Proof. intros. rewrite nth_error_app2 by lia. now rewrite Nat.sub_diag. Qed.

Lemma remove_nth_mid : forall {A} (l : list A) x r, remove_nth (length l) (l ++ x :: r) = l ++ r.
Proof. induction l; intros; cbn; congruence. Qed.

Lemma remove_nth_app1 : forall {A} (l : list A) r n,
  (n < length l)%nat -> remove_nth n (l ++ r) = remove_nth n l ++ r.
Proof.
  induction l; intros r n L; cbn in *; [lia|]. destruct n; cbn; [reflexivity|].
  rewrite IHl by lia. reflexivity.
Qed.

Lemma extract_mid : forall (l : list val) x r, extract (length l) (l ++ x :: r) = Some (x, l ++ r).
Proof. induction l; intros; cbn; [reflexivity|]. now rewrite IHl. Qed.

Section Proofs.
  Variable H : bytes -> bytes.
  Notation run := (run H).

  Lemma run_cons : forall o p s,
    run (o :: p) s =
    match step val vnum I B veqb vtruthy vminbool (vhash H) o s with
    | Some s' => run p s' | None => None end.
  Proof. reflexivity. Qed.

  Lemma pick_mid : forall n l x r a c p,
    n = length l -> Z.of_nat n < 2^31 -> executing c = true ->
    run (pushnat n :: OP_PICK :: p) (mk (l ++ x :: r) a c) = run p (mk (x :: l ++ x :: r) a c).
  Proof.
    intros n l x r a c p -> L E. unfold pushnat, ScriptVM.run.
    cbn [runM step main alt cond]. rewrite E. cbn [step_main main alt cond]. rewrite E.
    unfold vnum at 1. rewrite in4_true by lia. unfold znat.
    destruct (Z.of_nat (length l) <? 0) eqn:N; [lia|].
    rewrite Nat2Z.id, nth_error_mid. reflexivity.
  Qed.

  Lemma roll_mid : forall n l x r a c p,
    n = length l -> Z.of_nat n < 2^31 -> executing c = true ->
    run (pushnat n :: OP_ROLL :: p) (mk (l ++ x :: r) a c) = run p (mk (x :: l ++ r) a c).
  Proof.
    intros n l x r a c p -> L E. unfold pushnat, ScriptVM.run.
    cbn [runM step main alt cond]. rewrite E. cbn [step_main main alt cond]. rewrite E.
    unfold vnum at 1. rewrite in4_true by lia. unfold znat.
    destruct (Z.of_nat (length l) <? 0) eqn:N; [lia|].
    rewrite Nat2Z.id, extract_mid. reflexivity.
  Qed.

  (** [prefix x M] splits the syntactic stack [M] in front of [x]. *)
  Ltac prefix x M :=
    lazymatch M with
    | x :: ?r => constr:((@nil val, r))
    | ?y :: ?M' => let p := prefix x M' in
                   lazymatch p with (?l, ?r) => constr:((y :: l, r)) end
    | ?L ++ ?M' => let p := prefix x M' in
                   lazymatch p with (?l, ?r) => constr:((L ++ l, r)) end
    end.

  Ltac appnorm := repeat (progress (rewrite <- ?app_assoc; cbn [app])).

  Ltac at_elem x tac :=
    lazymatch goal with
    | |- context [@mk val ?M ?a ?c] =>
        let p := prefix x M in
        lazymatch p with (?l, ?r) =>
          replace M with (l ++ x :: r) by (appnorm; reflexivity);
          tac; [appnorm | repeat (progress (cbn [length]; rewrite ?app_length)); cbn [length]; lia | lia | assumption || reflexivity ]
        end
    end.

  Ltac pick x := at_elem x ltac:(rewrite pick_mid).
  Ltac roll x := at_elem x ltac:(rewrite roll_mid).

  (** *** Word access *)

  Definition quad (a b c d : val) := [a; b; c; d].

  Lemma words_app : forall l r, words (l ++ r) = words l ++ words r.
  Proof. intros. apply flat_map_app. Qed.

  Lemma words_len : forall l, length (words l) = (4 * length l)%nat.
  Proof. induction l; cbn in *; [reflexivity|]. unfold words in *. lia. Qed.

  Lemma nth_split' : forall {A} n (l : list A) x,
    nth_error l n = Some x -> exists l1 l2, l = l1 ++ x :: l2 /\ length l1 = n.
  Proof. intros. now apply nth_error_split. Qed.

  (** A stack seen as [n] complete 4-element groups over a rest. *)
  Lemma split4 : forall n (l : list val),
    (4 * (n + 1) <= length l)%nat ->
    exists g w0 w1 w2 w3 r, l = g ++ w0 :: w1 :: w2 :: w3 :: r /\ length g = (4 * n)%nat.
  Proof.
    intros n l L.
    exists (firstn (4*n) l).
    assert (length (skipn (4*n) l) >= 4)%nat by (rewrite skipn_length; lia).
    destruct (skipn (4*n) l) as [|w0 [|w1 [|w2 [|w3 r]]]] eqn:E; cbn in *; try lia.
    exists w0, w1, w2, w3, r. split.
    - rewrite <- E. symmetry. apply firstn_skipn.
    - rewrite firstn_length. lia.
  Qed.

  Lemma u32_pick_ok : forall n g w0 w1 w2 w3 r a c,
    length g = (4 * n)%nat -> pos_ok n -> executing c = true ->
    run (u32_pick n) (mk (g ++ w0 :: w1 :: w2 :: w3 :: r) a c) =
    Some (mk (w0 :: w1 :: w2 :: w3 :: g ++ w0 :: w1 :: w2 :: w3 :: r) a c).
  Proof.
    unfold pos_ok, u32_pick. intros n g w0 w1 w2 w3 r a c L P E. cbv zeta.
    pick w3. pick w2. pick w1. pick w0. reflexivity.
  Qed.

  Lemma u32_roll_ok : forall n g w0 w1 w2 w3 r a c,
    length g = (4 * n)%nat -> pos_ok n -> executing c = true ->
    run (u32_roll n) (mk (g ++ w0 :: w1 :: w2 :: w3 :: r) a c) =
    Some (mk (w0 :: w1 :: w2 :: w3 :: g ++ r) a c).
  Proof.
    unfold pos_ok, u32_roll. intros n g w0 w1 w2 w3 r a c L P E. cbv zeta.
    roll w3. roll w2. roll w1. roll w0. reflexivity.
  Qed.

  (** *** Zips.  The result interleaves the two words, low bytes on top. *)
  Lemma zip_lt_ok : forall a b g x0 x1 x2 x3 h y0 y1 y2 y3 r al c,
    length g = (4 * a)%nat -> (length g + 4 + length h = 4 * b)%nat -> pos_ok b ->
    executing c = true ->
    run (u32_zip a b)
      (mk (g ++ x0 :: x1 :: x2 :: x3 :: h ++ y0 :: y1 :: y2 :: y3 :: r) al c) =
    Some (mk (y0 :: x0 :: y1 :: x1 :: y2 :: x2 :: y3 :: x3 :: g ++ h ++ r) al c).
  Proof.
    unfold pos_ok, u32_zip. intros a b g x0 x1 x2 x3 h y0 y1 y2 y3 r al c L1 L2 P E.
    destruct (b <? a)%nat eqn:Hlt; [lia|]. cbv zeta.
    roll x3. roll y3. roll x2. roll y2. roll x1. roll y1. roll x0. roll y0. reflexivity.
  Qed.

  Lemma zip_sym : forall a b, u32_zip a b = u32_zip b a.
  Proof.
    intros. unfold u32_zip.
    destruct (b <? a)%nat eqn:E1, (a <? b)%nat eqn:E2; try lia; try reflexivity.
    assert (a = b) by lia. now subst.
  Qed.

  Lemma copy_zip_lt_ok : forall a b g x0 x1 x2 x3 h y0 y1 y2 y3 r al c,
    length g = (4 * a)%nat -> (length g + 4 + length h = 4 * b)%nat -> pos_ok b ->
    executing c = true ->
    run (u32_copy_zip_lt a b)
      (mk (g ++ x0 :: x1 :: x2 :: x3 :: h ++ y0 :: y1 :: y2 :: y3 :: r) al c) =
    Some (mk (y0 :: x0 :: y1 :: x1 :: y2 :: x2 :: y3 :: x3 ::
              g ++ x0 :: x1 :: x2 :: x3 :: h ++ r) al c).
  Proof.
    unfold pos_ok, u32_copy_zip_lt. intros a b g x0 x1 x2 x3 h y0 y1 y2 y3 r al c L1 L2 P E.
    cbv zeta.
    pick x3. roll y3. pick x2. roll y2. pick x1. roll y1. pick x0. roll y0. reflexivity.
  Qed.

  Lemma zip_copy_lt_ok : forall a b g x0 x1 x2 x3 h y0 y1 y2 y3 r al c,
    length g = (4 * a)%nat -> (length g + 4 + length h = 4 * b)%nat -> pos_ok b ->
    executing c = true ->
    run (u32_zip_copy_lt a b)
      (mk (g ++ x0 :: x1 :: x2 :: x3 :: h ++ y0 :: y1 :: y2 :: y3 :: r) al c) =
    Some (mk (y0 :: x0 :: y1 :: x1 :: y2 :: x2 :: y3 :: x3 ::
              g ++ h ++ y0 :: y1 :: y2 :: y3 :: r) al c).
  Proof.
    unfold pos_ok, u32_zip_copy_lt. intros a b g x0 x1 x2 x3 h y0 y1 y2 y3 r al c L1 L2 P E.
    cbv zeta.
    roll x3. pick y3. roll x2. pick y2. roll x1. pick y1. roll x0. pick y0. reflexivity.
  Qed.

  (** *** Addition body *)
  Definition byte (x : Z) : Prop := 0 <= x < 256.

  Lemma u8_add_carry_ok : forall x y r a,
    0 <= x < 512 -> 0 <= y < 512 -> x + y < 512 ->
    run u8_add_carry (mk (I y :: I x :: r) a []) =
    Some (mk (I ((x + y) / 256) :: I ((x + y) mod 256) :: r) a []).
  Proof.
    unfold u8_add_carry. intros x y r a Hx Hy Hs.
    vmgo. destruct (255 <? x + y) eqn:E; cbn [b2z]; vmgo.
    - replace ((x + y) / 256) with 1 by lia. replace ((x + y) mod 256) with (x + y - 256) by lia.
      reflexivity.
    - replace ((x + y) / 256) with 0 by lia. replace ((x + y) mod 256) with (x + y) by lia.
      reflexivity.
  Qed.

  Lemma u8_add_ok : forall x y r a,
    0 <= x < 512 -> 0 <= y < 512 -> x + y < 512 ->
    run u8_add (mk (I y :: I x :: r) a []) = Some (mk (I ((x + y) mod 256) :: r) a []).
  Proof.
    unfold u8_add. intros x y r a Hx Hy Hs.
    vmgo. destruct (255 <? x + y) eqn:E; cbn [b2z]; vmgo.
    - replace ((x + y) mod 256) with (x + y - 256) by lia. reflexivity.
    - replace ((x + y) mod 256) with (x + y) by lia. reflexivity.
  Qed.

  Lemma add_glue : forall x y z r a, 0 <= x < 512 -> 0 <= y < 512 ->
    run [OP_SWAP; OP_TOALTSTACK; OP_ADD] (mk (I x :: z :: I y :: r) a []) =
    Some (mk (I (y + x) :: r) (z :: a) []).
  Proof. intros. vmgo. reflexivity. Qed.

  Definition of_bytes (b0 b1 b2 b3 : Z) : Z := b0 + 2^8 * b1 + 2^16 * b2 + 2^24 * b3.

  Lemma word_of_bytes : forall b0 b1 b2 b3, byte b0 -> byte b1 -> byte b2 -> byte b3 ->
    word (of_bytes b0 b1 b2 b3) = [I b0; I b1; I b2; I b3].
  Proof.
    unfold byte, word, wbytes, of_bytes. intros. cbn [map].
    change (2^8) with 256. change (2^16) with 65536. change (2^24) with 16777216.
    repeat (f_equal; try lia).
  Qed.

  Lemma word_inv : forall w, is_u32 w -> exists b0 b1 b2 b3,
    byte b0 /\ byte b1 /\ byte b2 /\ byte b3 /\ w = of_bytes b0 b1 b2 b3 /\
    word w = [I b0; I b1; I b2; I b3].
  Proof.
    unfold is_u32. intros w W.
    exists (w mod 256), ((w / 2^8) mod 256), ((w / 2^16) mod 256), ((w / 2^24) mod 256).
    change (2^32) with 4294967296 in W. unfold byte, of_bytes.
    change (2^8) with 256. change (2^16) with 65536. change (2^24) with 16777216.
    repeat split; try lia.
  Qed.

  Lemma of_bytes_u32 : forall b0 b1 b2 b3, byte b0 -> byte b1 -> byte b2 -> byte b3 ->
    is_u32 (of_bytes b0 b1 b2 b3).
  Proof.
    unfold byte, is_u32, of_bytes. intros. change (2^32) with 4294967296.
    change (2^8) with 256. change (2^16) with 65536. change (2^24) with 16777216. lia.
  Qed.

  Lemma add_body_ok : forall x0 x1 x2 x3 y0 y1 y2 y3 r a,
    byte x0 -> byte x1 -> byte x2 -> byte x3 -> byte y0 -> byte y1 -> byte y2 -> byte y3 ->
    run u32_add_body
      (mk (I y0 :: I x0 :: I y1 :: I x1 :: I y2 :: I x2 :: I y3 :: I x3 :: r) a []) =
    Some (mk (word ((of_bytes x0 x1 x2 x3 + of_bytes y0 y1 y2 y3) mod 2^32) ++ r) a []).
  Proof.
    unfold byte, u32_add_body. intros.
    rewrite run_app, u8_add_carry_ok by lia.
    set (s0 := x0 + y0) in *. rewrite run_app, add_glue by lia.
    rewrite run_app, u8_add_carry_ok by lia.
    set (s1 := x1 + (y1 + s0 / 256)) in *. rewrite run_app, add_glue by lia.
    rewrite run_app, u8_add_carry_ok by lia.
    set (s2 := x2 + (y2 + s1 / 256)) in *. rewrite run_app, add_glue by lia.
    rewrite run_app, u8_add_ok by lia.
    set (s3 := x3 + (y3 + s2 / 256)) in *.
    vmgo.
    replace ((of_bytes x0 x1 x2 x3 + of_bytes y0 y1 y2 y3) mod 2^32)
      with (of_bytes (s0 mod 256) (s1 mod 256) (s2 mod 256) (s3 mod 256)).
    - rewrite word_of_bytes by (unfold byte; lia). reflexivity.
    - unfold of_bytes. change (2^32) with 4294967296.
      change (2^8) with 256. change (2^16) with 65536. change (2^24) with 16777216. lia.
  Qed.

  (** *** Splitting a word stack around two positions *)
  Lemma two_split : forall (ws : list Z) a b x y,
    (a < b)%nat -> nth_error ws a = Some x -> nth_error ws b = Some y ->
    exists l1 l2 l3, ws = l1 ++ x :: l2 ++ y :: l3 /\ length l1 = a /\
                     (a + 1 + length l2 = b)%nat.
  Proof.
    intros ws a b x y L Ha Hb.
    apply nth_error_split in Ha as (l1 & r & -> & <-).
    rewrite nth_error_app2 in Hb by lia.
    destruct (b - length l1)%nat as [|k] eqn:E; [lia|]. cbn in Hb.
    apply nth_error_split in Hb as (l2 & l3 & -> & <-).
    exists l1, l2, l3. repeat split; lia.
  Qed.

  Lemma words_cons : forall w l, words (w :: l) = word w ++ words l.
  Proof. reflexivity. Qed.

  (** Result stack of the copying zip, at the word level. *)
  Definition zipped (x0 x1 x2 x3 y0 y1 y2 y3 : Z) : list val :=
    [I y0; I x0; I y1; I x1; I y2; I x2; I y3; I x3].

  Lemma copy_zip_ok : forall a b x0 x1 x2 x3 y0 y1 y2 y3 ws rest al,
    a <> b ->
    byte x0 -> byte x1 -> byte x2 -> byte x3 -> byte y0 -> byte y1 -> byte y2 -> byte y3 ->
    nth_error ws a = Some (of_bytes x0 x1 x2 x3) ->
    nth_error ws b = Some (of_bytes y0 y1 y2 y3) ->
    pos_ok a -> pos_ok b ->
    exists p z, u32_copy_zip a b = Some p /\
      (z = zipped x0 x1 x2 x3 y0 y1 y2 y3 \/ z = zipped y0 y1 y2 y3 x0 x1 x2 x3) /\
      run p (mk (words ws ++ rest) al []) =
      Some (mk (z ++ words (remove_nth b ws) ++ rest) al []).
  Proof.
    intros a b x0 x1 x2 x3 y0 y1 y2 y3 ws rest al N Hx0 Hx1 Hx2 Hx3 Hy0 Hy1 Hy2 Hy3 Ha Hb Pa Pb.
    unfold u32_copy_zip. destruct (a <? b)%nat eqn:L1; [|destruct (b <? a)%nat eqn:L2; [|lia]].
    - destruct (two_split _ _ _ _ _ (proj1 (Nat.ltb_lt _ _) L1) Ha Hb)
        as (l1 & l2 & l3 & -> & La & Lb).
      eexists _, _. split; [reflexivity|]. split; [left; reflexivity|].
      replace (remove_nth b _) with ((l1 ++ of_bytes x0 x1 x2 x3 :: l2) ++ l3).
      2:{ replace b with (length (l1 ++ of_bytes x0 x1 x2 x3 :: l2))
            by (rewrite app_length; cbn; lia).
          rewrite app_comm_cons, app_assoc. symmetry. apply remove_nth_mid. }
      repeat rewrite ?words_app, ?words_cons. rewrite !word_of_bytes by assumption.
      appnorm.
      rewrite copy_zip_lt_ok; [reflexivity| | |assumption|reflexivity];
        rewrite ?words_len; lia.
    - destruct (two_split _ _ _ _ _ (proj1 (Nat.ltb_lt _ _) L2) Hb Ha)
        as (l1 & l2 & l3 & -> & La & Lb).
      eexists _, _. split; [reflexivity|]. split; [right; reflexivity|].
      rewrite <- La, remove_nth_mid.
      repeat rewrite ?words_app, ?words_cons. rewrite !word_of_bytes by assumption.
      appnorm.
      rewrite zip_copy_lt_ok; [reflexivity| | |assumption|reflexivity];
        rewrite ?words_len; lia.
  Qed.

  Theorem u32_add_ok : forall a b x y ws rest al,
    a <> b -> is_u32 x -> is_u32 y ->
    nth_error ws a = Some x -> nth_error ws b = Some y -> pos_ok a -> pos_ok b ->
    exists p, u32_add a b = Some p /\
      run p (mk (words ws ++ rest) al []) =
      Some (mk (words ((x + y) mod 2^32 :: remove_nth b ws) ++ rest) al []).
  Proof.
    intros a b x y ws rest al N Wx Wy Ha Hb Pa Pb.
    destruct (word_inv x Wx) as (x0 & x1 & x2 & x3 & X0 & X1 & X2 & X3 & -> & Ex).
    destruct (word_inv y Wy) as (y0 & y1 & y2 & y3 & Y0 & Y1 & Y2 & Y3 & -> & Ey).
    destruct (copy_zip_ok a b x0 x1 x2 x3 y0 y1 y2 y3 ws rest al) as (p & z & Ep & Ez & Er);
      try assumption.
    unfold u32_add. destruct (a =? b)%nat eqn:E; [lia|]. rewrite Ep.
    eexists. split; [reflexivity|]. rewrite run_app, Er.
    rewrite words_cons, <- app_assoc.
    destruct Ez as [-> | ->]; unfold zipped; cbn [app]; rewrite add_body_ok by assumption;
      [|rewrite Z.add_comm]; reflexivity.
  Qed.

  Theorem u32_add_drop_ok : forall a b x y ws rest al,
    a <> b -> is_u32 x -> is_u32 y ->
    nth_error ws a = Some x -> nth_error ws b = Some y -> pos_ok a -> pos_ok b ->
    exists p, u32_add_drop a b = Some p /\
      run p (mk (words ws ++ rest) al []) =
      Some (mk (words ((x + y) mod 2^32 ::
                       remove_nth (Nat.min a b) (remove_nth (Nat.max a b) ws)) ++ rest) al []).
  Proof.
    assert (G : forall a b x y ws rest al,
      (a < b)%nat -> is_u32 x -> is_u32 y ->
      nth_error ws a = Some x -> nth_error ws b = Some y -> pos_ok a -> pos_ok b ->
      run (u32_zip a b ++ u32_add_body) (mk (words ws ++ rest) al []) =
      Some (mk (words ((x + y) mod 2^32 :: remove_nth a (remove_nth b ws)) ++ rest) al [])).
    { intros a b x y ws rest al N Wx Wy Ha Hb Pa Pb.
      destruct (word_inv x Wx) as (x0 & x1 & x2 & x3 & X0 & X1 & X2 & X3 & -> & Ex).
      destruct (word_inv y Wy) as (y0 & y1 & y2 & y3 & Y0 & Y1 & Y2 & Y3 & -> & Ey).
      destruct (two_split _ _ _ _ _ N Ha Hb) as (l1 & l2 & l3 & -> & La & Lb).
      replace (remove_nth b _) with (l1 ++ of_bytes x0 x1 x2 x3 :: l2 ++ l3).
      2:{ replace b with (length (l1 ++ of_bytes x0 x1 x2 x3 :: l2))
            by (rewrite app_length; cbn; lia).
          rewrite !app_comm_cons, !app_assoc. symmetry. apply remove_nth_mid. }
      rewrite <- La at 2. rewrite remove_nth_mid.
      repeat rewrite ?words_app, ?words_cons. rewrite Ex, Ey.
      appnorm.
      rewrite run_app, zip_lt_ok; [|rewrite ?words_len; lia|rewrite ?words_len; lia|assumption|reflexivity].
      rewrite add_body_ok by assumption. reflexivity. }
    intros a b x y ws rest al N Wx Wy Ha Hb Pa Pb.
    unfold u32_add_drop. destruct (a =? b)%nat eqn:E; [lia|].
    eexists. split; [reflexivity|].
    destruct (Nat.lt_ge_cases a b) as [L|L].
    - rewrite Nat.min_l, Nat.max_r by lia. now apply G.
    - rewrite Nat.min_r, Nat.max_l by lia. rewrite zip_sym, Z.add_comm. apply G; auto; lia.
  Qed.

  (** *** Exclusive or *)
  Definition xtab (v : Z) : Z := Z.land v 170 / 2.

  (** [M] holds the lookup table from depth [k] on. *)
  Definition table_at (k : nat) (M : list val) : Prop :=
    forall v, byte v -> nth_error M (k + Z.to_nat v) = Some (I (xtab v)).

  Lemma lookup_ok : forall i k v top M a,
    byte v -> table_at k M -> i = (length top + k)%nat -> Z.of_nat i < 2^31 - 256 ->
    run [pushnat i; OP_ADD; OP_PICK] (mk (I v :: top ++ M) a []) =
    Some (mk (I (xtab v) :: top ++ M) a []).
  Proof.
    unfold byte. intros i k v top M a Hv T Hi L.
    unfold pushnat, ScriptVM.run. cbn [runM step step_main main alt cond executing forallb bin].
    unfold vnum. rewrite !in4_true by lia.
    cbn [runM step step_main main alt cond executing forallb bin]. rewrite !in4_true by lia.
    destruct (v + Z.of_nat i <? 0) eqn:E; [lia|]. unfold znat.
    replace (Z.to_nat (v + Z.of_nat i)) with (length top + (k + Z.to_nat v))%nat by lia.
    rewrite nth_error_app2 by lia.
    replace (length top + (k + Z.to_nat v) - length top)%nat with (k + Z.to_nat v)%nat by lia.
    rewrite (T v Hv). reflexivity.
  Qed.

  Definition bytes256 : list Z := map Z.of_nat (seq 0 256).
  Lemma in_bytes256 : forall v, byte v -> In v bytes256.
  Proof.
    unfold byte, bytes256. intros v Hv. apply in_map_iff. exists (Z.to_nat v).
    split; [lia|]. apply in_seq. lia.
  Qed.

  Lemma xor_arith : forall x y, byte x -> byte y ->
    let ex := xtab x in let ey := xtab y in
    let ox := x - (ex + ex) in let oy := y - (ey + ey) in
    byte (ex + ey) /\ byte (ox + oy) /\
    (ox + oy - (xtab (ox + oy) + xtab (ox + oy))) +
    ((ex + ey - (xtab (ex + ey) + xtab (ex + ey))) + (ex + ey - (xtab (ex + ey) + xtab (ex + ey))))
    = Z.lxor x y.
  Proof.
    assert (C : forallb (fun x => forallb (fun y =>
      let ex := xtab x in let ey := xtab y in
      let ox := x - (ex + ex) in let oy := y - (ey + ey) in
      (0 <=? ex + ey) && (ex + ey <? 256) && (0 <=? ox + oy) && (ox + oy <? 256) &&
      ((ox + oy - (xtab (ox + oy) + xtab (ox + oy))) +
       ((ex + ey - (xtab (ex + ey) + xtab (ex + ey))) + (ex + ey - (xtab (ex + ey) + xtab (ex + ey))))
       =? Z.lxor x y)) bytes256) bytes256 = true) by (vm_compute; reflexivity).
    intros x y Hx Hy. rewrite forallb_forall in C. specialize (C x (in_bytes256 x Hx)).
    rewrite forallb_forall in C. specialize (C y (in_bytes256 y Hy)).
    cbv zeta in *. unfold byte.
    rewrite !andb_true_iff in C. destruct C as ((((C1 & C2) & C3) & C4) & C5).
    apply Z.leb_le in C1, C3. apply Z.ltb_lt in C2, C4. apply Z.eqb_eq in C5.
    repeat split; assumption.
  Qed.

  Lemma xtab_range : forall v, byte v -> 0 <= xtab v < 128.
  Proof.
    assert (C : forallb (fun v => (0 <=? xtab v) && (xtab v <? 128)) bytes256 = true)
      by (vm_compute; reflexivity).
    intros v Hv. rewrite forallb_forall in C. specialize (C v (in_bytes256 v Hv)). lia.
  Qed.

  Lemma u8_xor_ok : forall k i x y M a,
    byte x -> byte y -> table_at k M -> i = (k + 2)%nat -> Z.of_nat i < 2^31 - 512 ->
    run (u8_xor i) (mk (I x :: I y :: M) a []) = Some (mk (I (Z.lxor x y) :: M) a []).
  Proof.
    intros k i x y M a Hx Hy T Hi L.
    change (u8_xor i) with
      ([OP_DUP] ++ [pushnat i; OP_ADD; OP_PICK] ++
       [OP_DUP; OP_DUP; OP_ADD; OP_ROT; OP_SWAP; OP_SUB; OP_ROT; OP_DUP] ++
       [pushnat (i + 1); OP_ADD; OP_PICK] ++
       [OP_DUP; OP_DUP; OP_ADD; OP_ROT; OP_SWAP; OP_SUB; OP_SWAP; PUSHN 3; OP_ROLL; OP_ADD; OP_DUP] ++
       [pushnat (i + 1); OP_ADD; OP_PICK] ++
       [OP_DUP; OP_ADD; OP_SUB; OP_SWAP; OP_ROT; OP_ADD; OP_DUP] ++
       [pushnat i; OP_ADD; OP_PICK] ++
       [OP_DUP; OP_ADD; OP_SUB; OP_SWAP; OP_DUP; OP_ADD; OP_ADD]).
    pose proof (xor_arith x y Hx Hy) as X. cbv zeta in X. destruct X as (Xe & Xo & X).
    pose proof (xtab_range x Hx). pose proof (xtab_range y Hy).
    pose proof (xtab_range _ Xe). pose proof (xtab_range _ Xo).
    rewrite <- X. clear X. unfold byte in *.
    set (ex := xtab x) in *. set (ey := xtab y) in *.
    set (fe := xtab (ex + ey)) in *. set (fo := xtab (x - (ex + ex) + (y - (ey + ey)))) in *.
    eapply run_seq; [vmgo; reflexivity|].
    eapply run_seq; [apply (lookup_ok i k x [I x; I y] M); [exact Hx|exact T|cbn [length]; lia|lia]|].
    eapply run_seq; [cbn [app]; fold ex; vmgo; reflexivity|].
    eapply run_seq; [apply (lookup_ok (i+1) k y [I y; I (x - (ex + ex)); I ex] M); [exact Hy|exact T|cbn [length]; lia|lia]|].
    eapply run_seq; [cbn [app]; fold ey; vmgo; reflexivity|].
    replace (ey + ex) with (ex + ey) by lia.
    eapply run_seq; [apply (lookup_ok (i+1) k (ex + ey) [I (ex + ey); I (y - (ey + ey)); I (x - (ex + ex))] M); [exact Xe|exact T|cbn [length]; lia|lia]|].
    eapply run_seq; [cbn [app]; fold fe; vmgo; reflexivity|].
    replace (y - (ey + ey) + (x - (ex + ex))) with (x - (ex + ex) + (y - (ey + ey))) by lia.
    eapply run_seq; [apply (lookup_ok i k (x - (ex + ex) + (y - (ey + ey)))
      [I (x - (ex + ex) + (y - (ey + ey))); I (ex + ey - (fe + fe))] M); [exact Xo|exact T|cbn [length]; lia|lia]|].
    cbn [app]. fold fo. vmgo. reflexivity.
  Qed.

  Lemma table_at_app : forall k l M, table_at k M -> table_at (length l + k) (l ++ M).
  Proof.
    intros k l M T v Hv. rewrite nth_error_app2 by lia.
    replace (length l + k + Z.to_nat v - length l)%nat with (k + Z.to_nat v)%nat by lia.
    now apply T.
  Qed.

  (** The 256 entries, entry for 0 on top. *)
  Definition xor_table : list Z := map xtab bytes256.

  Lemma table_at_0 : forall rest, table_at 0 (map I xor_table ++ rest).
  Proof.
    intros rest v Hv. cbn [Nat.add].
    assert (L : (Z.to_nat v < 256)%nat) by (unfold byte in Hv; lia).
    rewrite nth_error_app1.
    2:{ unfold xor_table, bytes256. rewrite !map_length, seq_length. exact L. }
    unfold xor_table, bytes256. rewrite !nth_error_map.
    rewrite (nth_error_nth' _ 0%nat) by (rewrite seq_length; exact L).
    rewrite seq_nth by exact L. cbn [option_map Nat.add].
    rewrite Z2Nat.id by (unfold byte in Hv; lia). reflexivity.
  Qed.

  Theorem push_table_ok : forall r a,
    run u8_push_xor_table (mk r a []) = Some (mk (map I xor_table ++ r) a []).
  Proof.
    intros. apply (run_frame0 H u8_push_xor_table [] [] (map I xor_table) [] r a).
    vm_compute. reflexivity.
  Qed.

  Theorem drop_table_ok : forall l r a, length l = 256%nat ->
    run u8_drop_xor_table (mk (l ++ r) a []) = Some (mk r a []).
  Proof.
    intros l r a.
    assert (G : forall n l, length l = (n + n)%nat ->
      run (repeat_script n [OP_2DROP]) (mk (l ++ r) a []) = Some (mk r a [])).
    { induction n as [|n IH]; intros m L; [destruct m; [reflexivity|discriminate]|].
      destruct m as [|u [|v m]]; cbn in L; try lia.
      cbn [repeat_script]. eapply run_seq; [reflexivity|]. apply IH. lia. }
    intros L. apply (G 128%nat). exact L.
  Qed.

  Lemma lxor_byte : forall x y k, 0 <= k ->
    (Z.lxor x y / 2^k) mod 256 = Z.lxor ((x / 2^k) mod 256) ((y / 2^k) mod 256).
  Proof.
    intros x y k Hk. change 256 with (2^8).
    rewrite <- !Z.shiftr_div_pow2 by lia. rewrite <- !Z.land_ones by lia.
    rewrite Z.shiftr_lxor. apply Z.bits_inj'. intros n Hn.
    rewrite !Z.lxor_spec, !Z.land_spec, !Z.lxor_spec.
    destruct (Z.testbit (Z.ones 8) n); rewrite ?andb_true_r, ?andb_false_r; reflexivity.
  Qed.

  Lemma word_lxor : forall x0 x1 x2 x3 y0 y1 y2 y3,
    byte x0 -> byte x1 -> byte x2 -> byte x3 -> byte y0 -> byte y1 -> byte y2 -> byte y3 ->
    word (Z.lxor (of_bytes x0 x1 x2 x3) (of_bytes y0 y1 y2 y3)) =
    [I (Z.lxor x0 y0); I (Z.lxor x1 y1); I (Z.lxor x2 y2); I (Z.lxor x3 y3)].
  Proof.
    intros. unfold word, wbytes. cbn [map].
    replace (Z.lxor (of_bytes x0 x1 x2 x3) (of_bytes y0 y1 y2 y3)) with
      (Z.lxor (of_bytes x0 x1 x2 x3) (of_bytes y0 y1 y2 y3) / 2^0) at 1
      by (rewrite Z.pow_0_r; apply Z.div_1_r).
    rewrite !lxor_byte by lia.
    unfold byte, of_bytes in *. change (2^0) with 1.
    change (2^8) with 256 in *. change (2^16) with 65536 in *. change (2^24) with 16777216 in *.
    repeat (f_equal; try lia).
  Qed.

  Lemma xor_body_ok : forall n x0 x1 x2 x3 y0 y1 y2 y3 M al,
    byte x0 -> byte x1 -> byte x2 -> byte x3 -> byte y0 -> byte y1 -> byte y2 -> byte y3 ->
    table_at (4 * n) M -> pos_ok n ->
    run (u32_xor_body (n + 2)) (mk (zipped x0 x1 x2 x3 y0 y1 y2 y3 ++ M) al []) =
    Some (mk (word (Z.lxor (of_bytes y0 y1 y2 y3) (of_bytes x0 x1 x2 x3)) ++ M) al []).
  Proof.
    unfold pos_ok, zipped, u32_xor_body.
    intros n x0 x1 x2 x3 y0 y1 y2 y3 M al X0 X1 X2 X3 Y0 Y1 Y2 Y3 T P. cbn [app].
    rewrite word_lxor by assumption.
    eapply run_seq.
    { apply (u8_xor_ok (length [I y1; I x1; I y2; I x2; I y3; I x3] + 4 * n));
        [assumption|assumption| |cbn [length]; lia|cbn [length]; lia].
      apply (table_at_app (4*n) [I y1; I x1; I y2; I x2; I y3; I x3] M T). }
    eapply (run_seq H [OP_TOALTSTACK]); [reflexivity|].
    eapply run_seq.
    { apply (u8_xor_ok (length [I y2; I x2; I y3; I x3] + 4 * n));
        [assumption|assumption| |cbn [length]; lia|cbn [length]; lia].
      apply (table_at_app (4*n) [I y2; I x2; I y3; I x3] M T). }
    eapply (run_seq H [OP_TOALTSTACK]); [reflexivity|].
    eapply run_seq.
    { apply (u8_xor_ok (length [I y3; I x3] + 4 * n));
        [assumption|assumption| |cbn [length]; lia|cbn [length]; lia].
      apply (table_at_app (4*n) [I y3; I x3] M T). }
    eapply (run_seq H [OP_TOALTSTACK]); [reflexivity|].
    eapply run_seq.
    { apply (u8_xor_ok (4 * n)); [assumption|assumption|exact T|lia|lia]. }
    reflexivity.
  Qed.

  Lemma remove_nth_length : forall {A} n (l : list A),
    (n < length l)%nat -> length (remove_nth n l) = (length l - 1)%nat.
  Proof.
    induction n; intros [|x l] L; cbn in *; try lia. rewrite IHn by lia. lia.
  Qed.

  Theorem u32_xor_ok : forall a b x y ws rest al,
    a <> b -> is_u32 x -> is_u32 y ->
    nth_error ws a = Some x -> nth_error ws b = Some y -> pos_ok (length ws) ->
    exists p, u32_xor a b (length ws + 1) = Some p /\
      run p (mk (words ws ++ map I xor_table ++ rest) al []) =
      Some (mk (words (Z.lxor x y :: remove_nth b ws) ++ map I xor_table ++ rest) al []).
  Proof.
    intros a b x y ws rest al N Wx Wy Ha Hb P.
    assert (La : (a < length ws)%nat) by (apply nth_error_Some; congruence).
    assert (Lb : (b < length ws)%nat) by (apply nth_error_Some; congruence).
    destruct (word_inv x Wx) as (x0 & x1 & x2 & x3 & X0 & X1 & X2 & X3 & -> & Ex).
    destruct (word_inv y Wy) as (y0 & y1 & y2 & y3 & Y0 & Y1 & Y2 & Y3 & -> & Ey).
    destruct (copy_zip_ok a b x0 x1 x2 x3 y0 y1 y2 y3 ws (map I xor_table ++ rest) al)
      as (p & z & Ep & Ez & Er); try assumption; try (unfold pos_ok in *; lia).
    unfold u32_xor. destruct (a =? b)%nat eqn:E; [lia|].
    destruct (length ws + 1 <? 2)%nat eqn:E2; [lia|]. rewrite Ep.
    eexists. split; [reflexivity|]. rewrite run_app, Er.
    rewrite words_cons, <- app_assoc.
    assert (T : table_at (4 * (length ws - 1)) (words (remove_nth b ws) ++ map I xor_table ++ rest)).
    { replace (4 * (length ws - 1))%nat with (length (words (remove_nth b ws)) + 0)%nat
        by (rewrite words_len, remove_nth_length; lia).
      apply table_at_app, table_at_0. }
    replace (length ws + 1)%nat with ((length ws - 1) + 2)%nat by lia.
    destruct Ez as [-> | ->].
    - rewrite xor_body_ok; try assumption; [|unfold pos_ok in *; lia].
      rewrite Z.lxor_comm. reflexivity.
    - rewrite xor_body_ok; try assumption; [|unfold pos_ok in *; lia]. reflexivity.
  Qed.

End Proofs.
