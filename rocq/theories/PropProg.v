(** Property C83: a field computation written with the expression language has the
    value of the same computation in the field. *)
From Coq Require Import ZArith List Bool Lia Arith.
From Verif Require Import ScriptNum ScriptVM U32Model Lift PropWords.
From Verif Require Import HelperModel.
From Verif Require Import Field BabyBear DslModel DslStack DslSpec DslOpSpec DslProofs DslDag DslMain DslOps DslGadgets DslBuild DslIds DslDenote
  PropDsl FriExprModel FriExprProofs ConsExprProofs RunDslModel PropRunDsl ProgModel.
Import ListNotations.
Local Open Scope nat_scope.

(** ** Specification: the same program in the field.
    A value is an element of the extension together with its number of 32-bit limbs,
    1 for an element of the base field, 4 otherwise.  [None]: no such operand, or
    operands of the wrong kind. *)
Definition value := (nat * BB4)%type.
Definition native2 (f : BB4 -> BB4 -> BB4) (a b : value) : value := (Nat.max (fst a) (fst b), f (snd a) (snd b)).
Definition kinds (n m : nat) (a b : value) (r : value) : option value :=
  if (fst a =? n) && (fst b =? m) then Some r else None.
Definition kind_of (ext : bool) : nat := if ext then 4 else 1.
Definition in_kind (ext : bool) (z : BB4) : Prop := ext = true \/ exists b : BabyBear, z = from_base b.
Fixpoint picks {A} (pool : list A) (is : list nat) : option (list A) :=
  match is with
  | [] => Some []
  | i :: r => match nth_error pool i, picks pool r with Some x, Some xs => Some (x :: xs) | _, _ => None end
  end.
Definition pick1 {A B} (pool : list A) (i : nat) (f : A -> option B) : option B :=
  match nth_error pool i with Some x => f x | None => None end.
Definition pick2 {A B} (pool : list A) (i j : nat) (f : A -> A -> option B) : option B :=
  pick1 pool i (fun x => pick1 pool j (fun y => f x y)).
Definition power2 (z : BB4) (k : nat) : BB4 := Nat.iter k (fun y => fmul y y) z.

Definition native1 (given : variable -> option value) (pool : list value) (s : fstmt) : option value :=
  let bin f i j := pick2 pool i j (fun a b => Some (native2 f a b)) in
  let binF f ext i z := pick1 pool i (fun a => Some (native2 f a (kind_of ext, z))) in
  let bext f i j := pick2 pool i j (fun a b => kinds 1 4 a b (4, f (snd a) (snd b))) in
  let bbase f i j := pick2 pool i j (fun a b => kinds 4 1 a b (4, f (snd a) (snd b))) in
  let una f i := pick1 pool i (fun a => Some (fst a, f (snd a))) in
  match s with
  | FConst ext z => Some (kind_of ext, z)
  | FInput x size => match given x with Some v => if fst v =? size then Some v else None | None => None end
  | FAdd i j => bin fadd i j
  | FSub i j => bin fsub i j
  | FMul i j => bin fmul i j
  | FAddF ext i z => binF fadd ext i z
  | FSubF ext i z => binF fsub ext i z
  | FMulF ext i z => binF fmul ext i z
  | FAddExt i j => bext fadd i j
  | FSubExt i j => bext fsub i j
  | FMulExt i j => bext fmul i j
  | FAddBase i j => bbase fadd i j
  | FSubBase i j => bbase fsub i j
  | FMulBase i j => bbase fmul i j
  | FNeg i => una fopp i
  | FDouble i => una (fun y => fadd y y) i
  | FSquare i => una (fun y => fmul y y) i
  | FExp ext i k => pick1 pool i (fun a => if fst a =? kind_of ext then Some (kind_of ext, power2 (snd a) k) else None)
  | FSum ext is => match picks pool is with
                   | Some [] => Some (kind_of ext, f0)
                   | Some (x :: r) => Some (fold_left (native2 fadd) r x)
                   | None => None
                   end
  | FProduct ext is => match picks pool is with
                       | Some [] => Some (kind_of ext, f1)
                       | Some (x :: r) => Some (fold_left (native2 fmul) r x)
                       | None => None
                       end
  end.
Fixpoint native (given : variable -> option value) (p : list fstmt) (pool : list value) : option (list value) :=
  match p with
  | [] => Some pool
  | s :: p => match native1 given pool s with Some v => native given p (pool ++ [v]) | None => None end
  end.
(** Constants belong to the field they are said to be of. *)
Definition well_typed (s : fstmt) : Prop :=
  match s with FConst ext z | FAddF ext _ z | FSubF ext _ z | FMulF ext _ z => in_kind ext z | _ => True end.
(** Nodes a statement makes. *)
Definition nodes_of (s : fstmt) : nat :=
  match s with
  | FAddF _ _ _ | FSubF _ _ _ | FMulF _ _ _ => 2
  | FSum _ is | FProduct _ is => S (length is)
  | _ => 1
  end.
Definition size_of_prog (p : list fstmt) : nat := list_sum (map nodes_of p).

Lemma same_length : forall A B (R : A -> B -> Prop) a b, Forall2 R a b -> length a = length b.
Proof. intros A B R a b F. induction F; cbn; congruence. Qed.
Lemma in_kind_elt : forall ext z, in_kind ext z -> elt_of (u32_size ext) z.
Proof. intros [|] z [E|[b ->]]; try discriminate E; [apply elt_of_4|apply elt_of_4|apply elt_of_base]. Qed.
Lemma power2_pow : forall k z, power2 z k = fpow z (2 ^ k).
Proof.
  induction k as [|k IH]; intros z; [symmetry; apply (fpow_1_r BB4)|]. 
  change (power2 z (S k)) with (fmul (power2 z k) (power2 z k)). rewrite IH, <- (fpow_add BB4). f_equal. cbn [Nat.pow]. lia.
Qed.

Section Build.
  Variable G : gadgets.
  Variable gt : getter.
  Variable env : environment.
  Variable vs : list svar.
  Variable n0 : nat.
  Notation den := (denotes G gt env).
  Notation isz := (isz G gt env).
  Notation gets := (gets G gt vs n0).

  Lemma gets_const : forall ext z all, in_kind ext z -> gets (constant_f ext z) all 1 (isz (u32_size ext) z).
  Proof.
    intros ext z all K. refine (gets_one G gt vs n0 _ all (fun e => den e (u32_size ext) z) _ _ _).
    - apply one_node_node; [easy|cbn; lia|reflexivity|discriminate].
    - apply (denotes_constant G gt env ext). now apply in_kind_elt.
    - intros e D. eapply den_out; eauto.
  Qed.
  Lemma gets_binary : forall o f a b n m y z all, bin_op o = Some f -> isz n y a all -> isz m z b all ->
    gets (binary o a b) all 1 (isz (Nat.max n m) (f y z)).
  Proof.
    intros o f a b n m y z all Eo [Ia Da] [Ib Db]. refine (gets_one G gt vs n0 _ all (fun e => den e (Nat.max n m) (f y z)) _ _ _).
    - unfold binary. apply one_node_get. intros s. apply one_node_get. intros s'. apply one_node_node; [now apply incl2|cbn; lia| |];
        destruct o; try discriminate Eo; try reflexivity; discriminate.
    - exact (denotes_binary G gt env o f a b n m y z Eo Da Db).
    - intros e D. eapply den_out; eauto.
  Qed.
  Lemma gets_ext : forall o f a b y z all, bin_op o = Some f -> isz 1 y a all -> isz 4 z b all -> gets (binary_ext o false true a b) all 1 (isz 4 (f y z)).
  Proof.
    intros o f a b y z all Eo [Ia Da] [Ib Db]. refine (gets_one G gt vs n0 _ all (fun e => den e 4 (f y z)) _ _ _).
    - unfold binary_ext. apply one_node_node; [now apply incl2|cbn; lia| |]; destruct o; try discriminate Eo; try reflexivity; discriminate.
    - exact (denotes_ext G gt env o f a b y z Eo Da Db).
    - intros e D. eapply den_out; eauto.
  Qed.
  Lemma gets_unary : forall o f a n y all, una_op o = Some f -> isz n y a all -> gets (unary o a) all 1 (isz n (f y)).
  Proof.
    intros o f a n y all Eo [Ia Da]. refine (gets_one G gt vs n0 _ all (fun e => den e n (f y)) _ _ _).
    - unfold unary. apply one_node_get. intros s. apply one_node_node; [intros z [<-|[]]; exact Ia|cbn; lia| |];
        destruct o; try discriminate Eo; try reflexivity; discriminate.
    - exact (denotes_unary G gt env o f a n y Eo Da).
    - intros e D. eapply den_out; eauto.
  Qed.
  Lemma gets_power : forall ext a y k all, isz (u32_size ext) y a all -> gets (exp_constant ext a (2 ^ k)) all 1 (isz (u32_size ext) (fpow y (2 ^ k))).
  Proof.
    intros ext a y k all [Ia Da]. refine (gets_one G gt vs n0 _ all (fun e => den e (u32_size ext) (fpow y (2 ^ k))) _ _ _).
    - unfold exp_constant. apply one_node_get. intros s. apply one_node_node; [intros z [<-|[]]; exact Ia|cbn; lia|reflexivity|discriminate].
    - exact (denotes_exp G gt env ext a y k Da).
    - intros e D. eapply den_out; eauto.
  Qed.

  (** The caller's variables: what the getter knows is on the stack and has the value given. *)
  Variable given : variable -> option value.
  Hypothesis given_ok : forall x n z, given x = Some (n, z) ->
    elt_of n z /\ exists k, gt x = Some (k, n) /\ In (k, n) vs /\ env x = Some (limbs n z).
  Lemma gets_input : forall x n z all, given x = Some (n, z) -> gets (copy_input x n) all 1 (isz n z).
  Proof.
    intros x n z all Ex. destruct (given_ok x n z Ex) as (Ez & k & Eg & Iv & Ee).
    refine (gets_one G gt vs n0 _ all (fun e => den e n z) _ _ _).
    - apply one_node_node; [easy|cbn; lia|reflexivity|]. intros b y Q. cbn in Q. injection Q as <- <-. split; [reflexivity|eauto].
    - eapply yields_weaken.
      + pose proof (holds_copy G gt env x (limbs n z) k) as Hc. rewrite elt_of_len in Hc by exact Ez. apply Hc; auto. eapply elt_of_n; eauto.
      + intros e He. split; [exact Ez|exact He].
    - intros e D. eapply den_out; eauto.
  Qed.

  Definition vals_of_pool (es : list expr) (ws : list value) (all : list expr) : Prop := Forall2 (fun e v => isz (fst v) (snd v) e all) es ws.
  Lemma pool_mono : forall es ws all all', incl all all' -> vals_of_pool es ws all -> vals_of_pool es ws all'.
  Proof. intros es ws all all' C F. induction F; constructor; auto. eapply isz_mono; eauto. Qed.
  Lemma pool_nth : forall es ws all i v, vals_of_pool es ws all -> nth_error ws i = Some v ->
    exists e, nth_error es i = Some e /\ isz (fst v) (snd v) e all.
  Proof. intros es ws all i v F. revert i. induction F as [|e w es ws D F IH]; intros [|i] E; try discriminate E; cbn in *; eauto. injection E as <-. eauto. Qed.
  Lemma pool_picks : forall es ws all is vl, vals_of_pool es ws all -> picks ws is = Some vl ->
    exists xs, handles es is = Some xs /\ vals_of_pool xs vl all.
  Proof.
    intros es ws all is. induction is as [|i is IH]; intros vl F E; cbn in E.
    - injection E as <-. exists []. split; [reflexivity|constructor].
    - destruct (nth_error ws i) as [v|] eqn:Ev; [|discriminate E]. destruct (picks ws is) as [r|]; [|discriminate E]. injection E as <-.
      destruct (pool_nth _ _ _ _ _ F Ev) as (e & Ee & De). destruct (IH r F eq_refl) as (xs & Ex & Fx).
      exists (e :: xs). split; [cbn; now rewrite Ee, Ex|]. now constructor.
  Qed.
  Lemma picks_len : forall A (ws : list A) is vl, picks ws is = Some vl -> length vl = length is.
  Proof.
    intros A ws. induction is as [|i is IH]; intros vl E; cbn in E; [now injection E as <-|].
    destruct (nth_error ws i); [|discriminate E]. destruct (picks ws is) as [r|]; [|discriminate E]. injection E as <-. cbn. now rewrite (IH r).
  Qed.

  Lemma gets_reduce : forall o f, bin_op o = Some f -> forall xs vl all acc v, vals_of_pool xs vl all -> isz (fst v) (snd v) acc all ->
    gets (reduce o acc xs) all (length xs) (isz (fst (fold_left (native2 f) vl v)) (snd (fold_left (native2 f) vl v))).
  Proof.
    intros o f Eo. induction xs as [|x xs IH]; intros vl all acc v F D; inversion F as [|? w ? vl' Dx F']; subst; cbn [reduce fold_left length].
    - apply gets_ret. exact D.
    - change (S (length xs)) with (1 + length xs). eapply gets_bind; [eapply gets_binary; [exact Eo|exact D|exact Dx]|].
      intros e all' C De. apply IH; [eapply pool_mono; eauto|exact De].
  Qed.
  (** sum and product make the neutral element even when it is not used *)
  Lemma gets_fold : forall o f ext z xs vl all, bin_op o = Some f -> in_kind ext z -> vals_of_pool xs vl all ->
    let r := match vl with [] => (u32_size ext, z) | x :: r => fold_left (native2 f) r x end in
    gets (match xs with [] => constant_f ext z | x :: r => do s <- reduce o x r; run constant_f ext z; ret s end) all (S (length xs)) (isz (fst r) (snd r)).
  Proof.
    intros o f ext z xs vl all Eo Kz F r. destruct F as [|x v xs vl D F].
    - apply gets_const; exact Kz.
    - cbn [length]. replace (S (S (length xs))) with (length xs + (1 + 1)) by lia.
      eapply gets_bind; [eapply gets_reduce; eauto|]. intros e all' C De.
      eapply gets_bind; [apply gets_const; exact Kz|]. intros c all2 C2 _. apply gets_ret. eapply isz_mono; eauto.
  Qed.

  Lemma build1_ok : forall s es ws all v, well_typed s -> vals_of_pool es ws all -> native1 given ws s = Some v ->
    gets (build1 es s) all (nodes_of s) (isz (fst v) (snd v)).
  Proof.
    intros s es ws all v Wt F E.
    assert (One : forall i f (b : expr -> builder expr) k, pick1 ws i f = Some v ->
      (forall a x, isz (fst a) (snd a) x all -> f a = Some v -> gets (b x) all k (isz (fst v) (snd v))) ->
      gets (do x <- get (nth_error es i); b x) all k (isz (fst v) (snd v))).
    { intros i f b k Ep Hb. unfold pick1 in Ep. destruct (nth_error ws i) as [a|] eqn:Ea; [|discriminate Ep].
      destruct (pool_nth _ _ _ _ _ F Ea) as (e & Ee & De). rewrite Ee. eapply Hb; eauto. }
    assert (Two : forall i j f (b : expr -> expr -> builder expr) k, pick2 ws i j f = Some v ->
      (forall a x a' y, isz (fst a) (snd a) x all -> isz (fst a') (snd a') y all -> f a a' = Some v -> gets (b x y) all k (isz (fst v) (snd v))) ->
      gets (do x <- get (nth_error es i); do y <- get (nth_error es j); b x y) all k (isz (fst v) (snd v))).
    { intros i j f b k Ep Hb. unfold pick2 in Ep. eapply One; [exact Ep|]. intros a x Dx Ep'. cbv beta in Ep'.
      eapply One; [exact Ep'|]. intros a' y Dy Ef. eapply Hb; eauto. }
    assert (B2 : forall o f, bin_op o = Some f -> forall a x a' y, isz (fst a) (snd a) x all -> isz (fst a') (snd a') y all ->
      Some (native2 f a a') = Some v -> gets (binary o x y) all 1 (isz (fst v) (snd v))).
    { intros o f Eo a x a' y Dx Dy Q. injection Q as <-. cbn [native2 fst snd]. now apply gets_binary. }
    assert (BF : forall o f, bin_op o = Some f -> forall ext z a x, in_kind ext z -> isz (fst a) (snd a) x all ->
      Some (native2 f a (kind_of ext, z)) = Some v -> gets (do c <- constant_f ext z; binary o x c) all 2 (isz (fst v) (snd v))).
    { intros o f Eo ext z a x Kz Dx Q. injection Q as <-. cbn [native2 fst snd]. change 2 with (1 + 1).
      eapply gets_bind; [apply gets_const; exact Kz|]. intros c all' C Dc. change (kind_of ext) with (u32_size ext). eapply gets_binary; [exact Eo| |exact Dc].
      eapply isz_mono; eauto. }
    assert (K2 : forall n m a b r, kinds n m a b r = Some v -> fst a = n /\ fst b = m /\ r = v).
    { intros n m a b r Q. unfold kinds in Q. destruct (Nat.eqb_spec (fst a) n), (Nat.eqb_spec (fst b) m); try discriminate Q. injection Q as <-. auto. }
    assert (BE : forall o f, bin_op o = Some f -> forall a x a' y, isz (fst a) (snd a) x all -> isz (fst a') (snd a') y all ->
      kinds 1 4 a a' (4, f (snd a) (snd a')) = Some v -> gets (binary_ext o false true x y) all 1 (isz (fst v) (snd v))).
    { intros o f Eo a x a' y Dx Dy Q. apply K2 in Q as (Q1 & Q2 & <-). rewrite Q1 in Dx. rewrite Q2 in Dy. now apply gets_ext. }
    assert (BB : forall o f, bin_op o = Some f -> forall a x a' y, isz (fst a) (snd a) x all -> isz (fst a') (snd a') y all ->
      kinds 4 1 a a' (4, f (snd a) (snd a')) = Some v -> gets (binary_base o true false x y) all 1 (isz (fst v) (snd v))).
    { intros o f Eo a x a' y Dx Dy Q. apply K2 in Q as (Q1 & Q2 & <-). rewrite Q1 in Dx. rewrite Q2 in Dy. now apply gets_base. }
    assert (U1 : forall o f, una_op o = Some f -> forall a x, isz (fst a) (snd a) x all -> Some (fst a, f (snd a)) = Some v ->
      gets (unary o x) all 1 (isz (fst v) (snd v))).
    { intros o f Eo a x Dx Q. injection Q as <-. now apply gets_unary. }
    destruct s; cbn [native1 build1 nodes_of well_typed] in *.
    - injection E as <-. now apply gets_const.
    - destruct (given x) as [[n z]|] eqn:Ex; [|discriminate E]. cbn [fst] in E. destruct (Nat.eqb_spec n size) as [->|]; [|discriminate E].
      injection E as <-. now apply gets_input.
    - eapply Two; [exact E|]. now apply (B2 Add fadd).
    - eapply Two; [exact E|]. now apply (B2 Sub fsub).
    - eapply Two; [exact E|]. now apply (B2 Mul fmul).
    - eapply One; [exact E|]. intros a x Dx Q. eapply (BF Add fadd); eauto.
    - eapply One; [exact E|]. intros a x Dx Q. eapply (BF Sub fsub); eauto.
    - eapply One; [exact E|]. intros a x Dx Q. eapply (BF Mul fmul); eauto.
    - eapply Two; [exact E|]. now apply (BE Add fadd).
    - eapply Two; [exact E|]. now apply (BE Sub fsub).
    - eapply Two; [exact E|]. now apply (BE Mul fmul).
    - eapply Two; [exact E|]. now apply (BB Add fadd).
    - eapply Two; [exact E|]. now apply (BB Sub fsub).
    - eapply Two; [exact E|]. now apply (BB Mul fmul).
    - eapply One; [exact E|]. now apply (U1 Neg fopp).
    - eapply One; [exact E|]. now apply (U1 Double (fun y => fadd y y)).
    - eapply One; [exact E|]. now apply (U1 Square (fun y => fmul y y)).
    - eapply One; [exact E|]. cbv beta. intros a x Dx Q. destruct (Nat.eqb_spec (fst a) (kind_of ext)) as [Ek|]; [|discriminate Q].
      injection Q as <-. cbn [fst snd]. rewrite Ek in Dx. rewrite power2_pow. now apply gets_power.
    - destruct (picks ws is) as [vl|] eqn:Ep; [|discriminate E]. destruct (pool_picks _ _ _ _ _ F Ep) as (xs & Ex & Fx). rewrite Ex.
      eapply gets_get; [reflexivity|]. assert (Ll : length is = length xs) by (rewrite <- (picks_len _ _ _ _ Ep); symmetry; exact (same_length _ _ _ _ _ Fx)). rewrite Ll.
      assert (Ev : v = match vl with [] => (u32_size ext, f0) | x :: r => fold_left (native2 fadd) r x end) by (destruct vl; injection E as <-; reflexivity).
      rewrite Ev. apply (gets_fold Add fadd); auto. right. exists f0. reflexivity.
    - destruct (picks ws is) as [vl|] eqn:Ep; [|discriminate E]. destruct (pool_picks _ _ _ _ _ F Ep) as (xs & Ex & Fx). rewrite Ex.
      eapply gets_get; [reflexivity|]. assert (Ll : length is = length xs) by (rewrite <- (picks_len _ _ _ _ Ep); symmetry; exact (same_length _ _ _ _ _ Fx)). rewrite Ll.
      assert (Ev : v = match vl with [] => (u32_size ext, f1) | x :: r => fold_left (native2 fmul) r x end) by (destruct vl; injection E as <-; reflexivity).
      rewrite Ev. apply (gets_fold Mul fmul); auto. right. exists f1. reflexivity.
  Qed.

  Lemma build_ok : forall p es ws all vl, Forall well_typed p -> vals_of_pool es ws all -> native given p ws = Some vl ->
    gets (build p es) all (size_of_prog p) (fun es' all' => vals_of_pool es' vl all').
  Proof.
    induction p as [|s p IH]; intros es ws all vl Wt F E; cbn [native build] in *.
    - injection E as <-. apply gets_ret. exact F.
    - inversion Wt as [|? ? Ws Wp]; subst. destruct (native1 given ws s) as [v|] eqn:Ev; [|discriminate E].
      unfold size_of_prog. cbn [map list_sum fold_right]. eapply gets_bind; [eapply build1_ok; eauto|].
      intros e all' C De. apply (IH (es ++ [e]) (ws ++ [v])); [exact Wp| |exact E].
      apply Forall2_app; [eapply pool_mono; eauto|]. constructor; [exact De|constructor].
  Qed.
End Build.

Lemma st_start : forall G gt vs n, st G gt vs n n [].
Proof. intros G gt vs n. constructor; [apply made_nil|lia|constructor]. Qed.

(** ** C83, without inputs *)
Section Closed.
  Variable H : bytes -> bytes.
  Variable G : gadgets.
  Hypothesis OK : gadgets_ok H G.
  Lemma closed_of : forall n0 n all e ext z, st G no_inputs [] n0 n all -> isz G no_inputs no_values (u32_size ext) z e all ->
    (Z.of_nat (4 * (n - n0) + 8) < 2 ^ 31)%Z -> closed_expr G ext e.
  Proof.
    intros n0 n all e ext z [M L F] [Ie [Ez [_ Sh Vs]]] Rm. rewrite elt_of_len in Sh, Vs by exact Ez.
    pose proof (fine_in _ _ _ _ _ _ F Ie) as Fe. constructor; [exact Sh|exact Vs| |].
    - intros d Sd _. eapply fi_single, fine_in; [exact F|]. eapply made_sub; eauto.
    - pose proof (fi_need _ _ _ _ _ Fe) as Nd. pose proof (md_le _ _ M _ Ie). lia.
  Qed.
End Closed.

(** run_dsl tells whether the native value is the value given; in particular it does
    not panic, and the result does not depend on what was built before. *)
Theorem C83_closed_program : forall H G p n vl i ext z,
  gadgets_ok H G -> Forall well_typed p -> native (fun _ => None) p [] = Some vl -> nth_error vl i = Some (kind_of ext, z) ->
  (Z.of_nat (4 * size_of_prog p + 8) < 2 ^ 31)%Z ->
  exists es n' e, build p [] n = Some (es, n') /\ length es = length vl /\ nth_error es i = Some e /\
    forall v, in_kind ext v ->
      (run_dsl H G ext e v n' = Some (true, S (S n')) <-> v = z) /\
    (run_dsl H G ext e v n' = Some (false, S (S n')) <-> v <> z) /\
    (assert_dsl H G ext e v n' = Some (tt, S (S n')) <-> v = z) /\
    (assert_dsl H G ext e v n' = None <-> v <> z).
Proof.
  intros H G p n vl i ext z OK Wt E Ei Rm.
  assert (Gv : forall x m (y : BB4), (fun _ : variable => @None value) x = Some (m, y) ->
    elt_of m y /\ exists k, no_inputs x = Some (k, m) /\ In (k, m) (@nil svar) /\ no_values x = Some (limbs m y)) by (intros x m y Q; discriminate Q).
  destruct (build_ok G no_inputs no_values [] n _ Gv p [] [] [] vl Wt (Forall2_nil _) E n (st_start _ _ _ _)) as (es & n' & all & Eb & S' & _ & Ln & F).
  destruct (pool_nth _ _ _ _ _ _ _ _ F Ei) as (e & Ee & De). cbn [fst snd] in De. change (kind_of ext) with (u32_size ext) in De.
  exists es, n', e. split; [exact Eb|]. split; [apply (same_length _ _ _ _ _ F)|]. split; [exact Ee|]. intros v Kv. apply in_kind_elt in Kv.
  assert (Cl : closed_expr G ext e) by (eapply (closed_of G); eauto; lia).
  destruct De as [Ie [Ez Hz]].
  assert (Er : run_dsl H G ext e v n' = Some (list_eqb (limbs (u32_size ext) z) (limbs (u32_size ext) v), S (S n'))).
  { rewrite (comparison_runs H G OK ext v n' all e (s_made _ _ _ _ _ _ S') Ie Cl _ (h_eval _ _ _ _ _ Hz)); [reflexivity|].
    intros outs Q. injection Q as <-. exists (limbs (u32_size ext) z). split; [reflexivity|]. now apply elt_of_len. }
  assert (Eq : list_eqb (limbs (u32_size ext) z) (limbs (u32_size ext) v) = true <-> v = z).
  { rewrite list_eqb_ok. split; [intros Q; symmetry; eapply elt_of_inj; eauto|now intros ->]. }
  unfold assert_dsl, bind. rewrite Er. destruct (list_eqb (limbs (u32_size ext) z) (limbs (u32_size ext) v)); cbn [check ret panic];
    (split; [|split; [|split]]); (split; intros Q; [try discriminate Q|try reflexivity]); try (now apply Eq); try (exfalso; now apply Q, Eq).
  all: try (intros Q'; apply Eq in Q'; discriminate Q'). all: apply Eq in Q; discriminate Q.
Qed.

(** Compared with an element of the other field, run_dsl panics. *)
Theorem C83_other_kind : forall H G p n vl i k z ext v es n' e,
  Forall well_typed p -> native (fun _ => None) p [] = Some vl -> nth_error vl i = Some (k, z) -> k <> kind_of ext ->
  build p [] n = Some (es, n') -> nth_error es i = Some e -> run_dsl H G ext e v n' = None.
Proof.
  intros H G p n vl i k z ext v es n' e Wt E Ei Nk Eb Ee.
  assert (Gv : forall x m (y : BB4), (fun _ : variable => @None value) x = Some (m, y) ->
    elt_of m y /\ exists k, no_inputs x = Some (k, m) /\ In (k, m) (@nil svar) /\ no_values x = Some (limbs m y)) by (intros x m y Q; discriminate Q).
  destruct (build_ok G no_inputs no_values [] n _ Gv p [] [] [] vl Wt (Forall2_nil _) E n (st_start _ _ _ _)) as (es' & n2 & all & Eb' & S' & _ & Ln & F).
  rewrite Eb in Eb'. injection Eb' as <- <-. destruct (pool_nth _ _ _ _ _ _ _ _ F Ei) as (e' & Ee' & De). rewrite Ee in Ee'. injection Ee' as <-.
  destruct De as [_ [Ez [_ _ Vs]]]. cbn [fst snd] in *. rewrite elt_of_len in Vs by exact Ez.
  apply C80_wrong_size. rewrite Vs. intros Q. injection Q as Q. now apply Nk.
Qed.

(** ** C83, with the inputs on the stack *)
(** The variables of [given] are on the main stack with these values. *)
Definition on_stack (T : tracker) (gt : getter) (val : values) (given : variable -> option value) : Prop :=
  forall x n z, given x = Some (n, z) -> elt_of n z /\ exists k, gt x = Some (k, n) /\ In (k, n) (t_main T) /\ val k = limbs n z.

(** One script for all values of the inputs: it leaves the native value on top and
    everything else as it was. *)
Theorem C83_script : forall H G gt T p n i val0 given0 vl0 v0,
  gadgets_ok H G -> twf T -> (forall x v, gt x = Some v -> fst v < t_next T) -> Forall well_typed p ->
  on_stack T gt val0 given0 -> native given0 p [] = Some vl0 -> nth_error vl0 i = Some v0 ->
  (Z.of_nat (items (t_main T) + 4 * size_of_prog p) < 2 ^ 31)%Z ->
  exists es n' e T' m' r q,
    build p [] n = Some (es, n') /\ nth_error es i = Some e /\
    express G gt true e T = Some (T', m', [r]) /\ snd r = fst v0 /\
    t_main T' = r :: t_main T /\ t_alt T' = t_alt T /\ t_script T' = t_script T ++ q /\
    forall val given vl k z, sized val (t_main T ++ t_alt T) -> on_stack T gt val given ->
      native given p [] = Some vl -> nth_error vl i = Some (k, z) ->
      k = fst v0 /\
      forall rest arest, exec H q (img val (t_main T) ++ rest) (aimg val (t_alt T) ++ arest)
        (nums (limbs k z) ++ img val (t_main T) ++ rest) (aimg val (t_alt T) ++ arest).
Proof.
  intros H G gt T p n i val0 given0 vl0 v0 OK Tw Gl Wt G0 E0 Ei0 Rm.
  pose (env_of := fun (val : values) (x : variable) => match gt x with Some v => Some (val (fst v)) | None => None end).
  assert (Build : forall val given vl v, on_stack T gt val given -> native given p [] = Some vl -> nth_error vl i = Some v ->
    exists es n' all e, build p [] n = Some (es, n') /\ st G gt (t_main T) n n' all /\ n' <= n + size_of_prog p /\ nth_error es i = Some e /\
      isz G gt (env_of val) (fst v) (snd v) e all).
  { intros val given vl v Gv E Ei.
    assert (Gv' : forall x m z, given x = Some (m, z) -> elt_of m z /\ exists k, gt x = Some (k, m) /\ In (k, m) (t_main T) /\ env_of val x = Some (limbs m z)).
    { intros x m z Q. destruct (Gv x m z Q) as (Ez & k & Eg & Ik & Ev). split; [exact Ez|]. exists k. repeat split; auto. unfold env_of. rewrite Eg. cbn. now rewrite Ev. }
    destruct (build_ok G gt (env_of val) (t_main T) n _ Gv' p [] [] [] vl Wt (Forall2_nil _) E n (st_start _ _ _ _)) as (es & n' & all & Eb & S' & _ & Ln & F).
    destruct (pool_nth _ _ _ _ _ _ _ _ F Ei) as (e & Ee & De). exists es, n', all, e. auto. }
  destruct (Build val0 given0 vl0 v0 G0 E0 Ei0) as (es & n' & all & e & Eb & [M L F] & Ln & Ee & Ie & Ez & Hz).
  destruct Hz as [_ Sh Vs]. rewrite elt_of_len in Sh, Vs by exact Ez.
  assert (Sub : forall d, sub d e -> fine G gt (t_main T) n d) by (intros d Sd; eapply fine_in; [exact F|]; eapply made_sub; eauto).
  destruct (C48_optimised_generation H G gt e T OK) as (T' & m' & vars & q & sh & Ex & Es & Ev & Em & Ea & Et & Mean).
  { constructor; [exact Tw|exact Gl|rewrite Sh; discriminate|].
    pose proof (fi_need _ _ _ _ _ (fine_in _ _ _ _ _ _ F Ie)). pose proof (md_le _ _ M _ Ie). lia. }
  { intros a b Sa Sb Q. eapply (made_unique _ _ e e); eauto. }
  { intros d b x Sd Ei. eapply fi_input; [apply Sub; exact Sd|exact Ei]. }
  { intros d d' x b x' v v' Sd _ Ei. destruct (fi_input _ _ _ _ _ (Sub d Sd) _ _ Ei) as [Q _]. discriminate Q. }
  { intros d x d' Sd So. rewrite (fi_single _ _ _ _ _ (Sub d Sd)) in So. discriminate So. }
  assert (Mv : moved gt e = []).
  { destruct (moved gt e) as [|j l] eqn:Q; [reflexivity|]. exfalso. assert (Ij : In j (moved gt e)) by (rewrite Q; now left).
    apply moved_move_node in Ij as (d & Sd & x & v & Ei & _). destruct (fi_input _ _ _ _ _ (Sub d Sd) _ _ Ei) as [Q' _]. discriminate Q'. }
  rewrite Sh in Es. injection Es as <-. rewrite Mv, without_nil in Em, Mean.
  destruct vars as [|r [|r2 vars]]; [discriminate Ev| |].
  2: { apply (f_equal (@length nat)) in Ev. rewrite map_length, rev_length in Ev. discriminate Ev. }
  cbn in Ev, Em. injection Ev as Er.
  exists es, n', e, T', m', r, q. split; [exact Eb|]. split; [exact Ee|]. split; [exact Ex|]. split; [exact Er|]. split; [exact Em|]. split; [exact Ea|]. split; [exact Et|].
  intros val given vl k z Sz Gv E Ei. destruct (Build val given vl (k, z) Gv E Ei) as (es1 & n1 & all1 & e1 & Eb1 & _ & _ & Ee1 & _ & Ez1 & Hz1).
  rewrite Eb in Eb1. injection Eb1 as <- <-. rewrite Ee in Ee1. injection Ee1 as <-. destruct Hz1 as [Ev1 Sh1 _]. cbn [fst snd] in *.
  rewrite elt_of_len in Sh1 by exact Ez1. rewrite Sh in Sh1. injection Sh1 as <-. split; [reflexivity|]. intros rest arest.
  assert (Eo : env_ok gt (env_of val) val) by (intros x v Q; unfold env_of; now rewrite Q).
  specialize (Mean val (env_of val) Sz Eo). rewrite Ev1 in Mean. specialize (Mean rest arest). cbn [concat] in Mean. now rewrite app_nil_r in Mean.
Qed.

(** Examples.  3 and 5 in the base field, y = (2, 1, 0, 0) in the extension:
    ((3 + 5)^4 y - 5)^2 + the sum of 3, y, 3; the base value 3 is used three times. *)
Definition three : BB4 := from_base (of_Z 3).
Definition five : BB4 := from_base (of_Z 5).
Definition why : BB4 := felt [2; 1; 0; 0]%Z.
Definition pr_prog : list fstmt :=
  [FConst false three; FConst false five; FConst true why; FAdd 0 1; FExp false 3 2; FMulExt 4 2; FSubBase 5 1; FSquare 6; FSum true [0; 2; 0]; FAdd 7 8; FProduct false []].
Definition pr_result (given : variable -> option value) (i : nat) : option value :=
  match native given pr_prog [] with Some vl => nth_error vl i | None => None end.
Lemma pr_native : exists vl z, native (fun _ => None) pr_prog [] = Some vl /\ nth_error vl 9 = Some (kind_of true, z) /\
  z = fadd (let d := fsub (fmul (power2 (fadd three five) 2) why) five in fmul d d) (fadd (fadd three why) three).
Proof. eexists. eexists. split; [reflexivity|]. split; reflexivity. Qed.
Lemma pr_typed : Forall well_typed pr_prog.
Proof.
  unfold pr_prog. repeat apply Forall_cons; try apply Forall_nil; cbn [well_typed]; try exact Logic.I;
    first [right; eexists; reflexivity|left; reflexivity].
Qed.
Example C83_example_closed : forall H n, exists es n' e, build pr_prog [] n = Some (es, n') /\ nth_error es 9 = Some e /\
  exists z, forall v, run_dsl H my_gadgets true e v n' = Some (true, S (S n')) <-> v = z.
Proof.
  intros H n. destruct pr_native as (vl & z & En & Ei & _).
  destruct (C83_closed_program H my_gadgets pr_prog n vl 9 true z (gadgets_satisfiable H) pr_typed En Ei eq_refl) as (es & n' & e & Eb & _ & Ee & R).
  exists es, n', e. split; [exact Eb|]. split; [exact Ee|]. exists z. intros v. apply (R v (or_introl eq_refl)).
Qed.

(** With inputs: x of the base field below y of the extension; y^2 + x y. *)
Definition px : variable := mkvar 0 0 (Some 1).
Definition py : variable := mkvar 0 1 (Some 4).
Definition p_tracker : tracker := mktracker 2 [(1, 4); (0, 1)] [] [].
Definition p_getter : getter := fun v => if variable_eqb v px then Some (0, 1) else if variable_eqb v py then Some (1, 4) else None.
Definition p_given (x : BabyBear) (y : BB4) : variable -> option value :=
  fun v => if variable_eqb v px then Some (1, from_base x) else if variable_eqb v py then Some (4, y) else None.
Definition p_vals (x : BabyBear) (y : BB4) : values := fun k => match k with 0 => limbs 1 (from_base x) | _ => limbs 4 y end.
Definition p_prog : list fstmt := [FInput px 1; FInput py 4; FSquare 1; FMulExt 0 1; FAdd 2 3].
Lemma p_on_stack : forall x y, on_stack p_tracker p_getter (p_vals x y) (p_given x y).
Proof.
  intros x y v n z E. unfold p_given in E. unfold p_getter. destruct (variable_eqb v px).
  - injection E as <- <-. split; [apply elt_of_base|]. exists 0. repeat split; auto. cbn. auto.
  - destruct (variable_eqb v py); [|discriminate E]. injection E as <- <-. split; [apply elt_of_4|]. exists 1. repeat split; auto. cbn. auto.
Qed.
Example C83_example_script : forall H, exists q, forall x y rest,
  exec H q (nums (limbs 4 y) ++ nums (limbs 1 (from_base x)) ++ rest) []
    (nums (limbs 4 (fadd (fmul y y) (fmul (from_base x) y))) ++ nums (limbs 4 y) ++ nums (limbs 1 (from_base x)) ++ rest) [].
Proof.
  intros H.
  pose (v0 := (4, fadd (fmul f0 f0) (fmul (from_base f0) f0)) : value).
  pose (vl0 := [(1, from_base f0); (4, f0); (4, fmul f0 f0); (4, fmul (from_base f0) f0); v0] : list value).
  destruct (C83_script H my_gadgets p_getter p_tracker p_prog 0 4 (p_vals f0 f0) (p_given f0 f0) vl0 v0 (gadgets_satisfiable H))
    as (es & n' & e & T' & m' & r & q & _ & _ & _ & _ & _ & _ & _ & R).
  - split; cbn; repeat constructor; cbn; intuition discriminate.
  - intros v w E. unfold p_getter in E. destruct (variable_eqb v px); [injection E as <-; cbn; lia|]. destruct (variable_eqb v py); [injection E as <-; cbn; lia|discriminate E].
  - unfold p_prog. repeat apply Forall_cons; try apply Forall_nil; exact Logic.I.
  - apply p_on_stack.
  - reflexivity.
  - reflexivity.
  - reflexivity.
  - exists q. intros x y rest.
    destruct (R (p_vals x y) (p_given x y) [(1, from_base x); (4, y); (4, fmul y y); (4, fmul (from_base x) y); (4, fadd (fmul y y) (fmul (from_base x) y))] 4
      (fadd (fmul y y) (fmul (from_base x) y))) as [_ X].
    + apply Forall_cons; [apply (limbs_length 4); lia|]. apply Forall_cons; [apply (limbs_length 1); lia|apply Forall_nil].
    + apply p_on_stack.
    + reflexivity.
    + reflexivity.
    + specialize (X rest []). unfold img, aimg, vals_of in X. cbn [p_tracker t_main t_alt map concat fst p_vals] in X. rewrite app_nil_r in X.
      unfold nums in *. rewrite map_app, <- !app_assoc in X. cbn [map app] in X. exact X.
Qed.
