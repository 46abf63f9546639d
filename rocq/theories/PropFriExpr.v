(** C34 and C72: folding and query verification of FRI as expressions (fri/src/script_verifier.rs,
    fold_row_with_expr of fri/src/two_adic_pcs.rs). *)
From Coq Require Import ZArith List Bool Arith Lia Field.
From Verif Require Import ScriptNum ScriptVM HelperModel PropHelper Field BabyBear TcsModel FriModel FriProofs DslModel DslSpec DslOpSpec DslMain DslOps DslGadgets DslBuild DslIds DslDenote
  DslManager DslSession PropManager DslWork DslAccept FriExprModel FriExprProofs FriExprQuery.
Import ListNotations.
Local Open Scope nat_scope.

(** the two fields the code is used with *)
Definition usual (F : bf_field) : Prop := F = bf_base \/ F = bf_ext4.
Lemma usual_laws : forall F, usual F -> bf_laws F.
Proof. intros F [-> | ->]; [apply bf_base_laws|apply bf_ext4_laws]. Qed.

Section Swap.
  Variable T : two_adic.
  Add Field FT : (fth T).
  Lemma folded_swap : forall (beta x a b : T), x <> f0 -> folded_pair T beta (fopp x) b a = folded_pair T beta x a b.
  Proof.
    intros beta x a b Nx. unfold folded_pair. pose proof (two_nz T) as N2. field.
    split; [exact Nx|]. split; [exact N2|]. intros E. apply Nx. replace x with (fopp (fopp x)) by ring. rewrite E. ring.
  Qed.
End Swap.

(** ** C34 *)
Section C34.
  Variable F : bf_field.
  Hypothesis U : usual F.
  Variable G : gadgets.
  Let L : bf_laws F := usual_laws F U.
  Add Field FF34 : (fth F).

  (** For the pair [i] of height 2^k and the queried point 2i+b, with [folded] and
      [sibling] the values there and at the other point of the pair and [x] the
      point, the expression has the value fold_row gives for the pair in order, and
      the check that is added leaves 1. *)
  Theorem C34_fold_row : forall folded sibling x beta all m n i b k zf zs zb,
    sinv n all m -> In folded all -> In sibling all -> In x all -> In beta all -> b < 2 -> S k <= 27 ->
    let zx := fpow (gen (S k)) (Field.reverse_bits_len (2 * i + b) (S k)) : F in
    valF F G m folded zf -> valF F G m sibling zs -> valF F G m x zx -> valF F G m beta zb ->
    exists e m' n' w c, fold_row_with_expr F folded sibling x zx (1 - b) beta m n = Some ((e, m'), n') /\
      fold_row F i k zb (if b =? 0 then [zf; zs] else [zs; zf]) = Some w /\
      valF F G m' e w /\ mn_checks m' = mn_checks m ++ [c] /\ says G m' c [1%Z].
  Proof.
    intros folded sibling x beta all m n i b k zf zs zb Iv If Is Ix Ib Lb Lk zx Vf Vs Vx Vb. pose proof (bl_adic F L) as Ad.
    assert (Nx : zx <> f0) by (apply fpow_nz, gen_nz; lia).
    destruct (fold_row_works F L G folded sibling x beta all m (1 - b) zf zs zx zx zb If Is Ix Ib Vf Vs Vx Vb Nx n Iv)
      as (e & m' & n' & all' & E & _ & _ & _ & [_ Fv _ _ _ (c & Ec & _ & Jc & _)]).
    exists e, m', n', (folded_pair F zb zx zf zs), c. split; [exact E|]. split; [|split; [now apply Fv|split; [exact Ec|intros gt env Fg; now apply (Jc gt env Fg)]]].
    assert (Cb : b = 0 \/ b = 1) by lia. destruct Cb as [-> | ->]; cbn [Nat.eqb]; rewrite fold_row_ok by lia; f_equal; unfold zx.
    - rewrite Nat.add_0_r, point_even. reflexivity.
    - rewrite point_odd by lia. symmetry. apply folded_swap. apply point_nz. lia.
  Qed.

  (** Any nonzero hint point: the value and the verdict of the check depend on whether it is x. *)
  Theorem C34_hint_checked : forall folded sibling x beta all m n j zf zs zx xh zb,
    sinv n all m -> In folded all -> In sibling all -> In x all -> In beta all ->
    valF F G m folded zf -> valF F G m sibling zs -> valF F G m x zx -> valF F G m beta zb -> xh <> f0 ->
    exists e m' n' c, fold_row_with_expr F folded sibling x xh j beta m n = Some ((e, m'), n') /\
      mn_checks m' = mn_checks m ++ [c] /\ judges G m' c (f_size F) (zx = xh) /\
      (zx = xh -> valF F G m' e (folded_pair F zb zx zf zs)).
  Proof.
    intros folded sibling x beta all m n j zf zs zx xh zb Iv If Is Ix Ib Vf Vs Vx Vb Nx.
    destruct (fold_row_works F L G folded sibling x beta all m j zf zs zx xh zb If Is Ix Ib Vf Vs Vx Vb Nx n Iv)
      as (e & m' & n' & all' & E & _ & _ & _ & [_ Fv _ _ _ (c & Ec & _ & Jc & _)]).
    exists e, m', n', c. auto.
  Qed.
  Theorem C34_zero_point_panics : forall folded sibling x j beta m n, fold_row_with_expr F folded sibling x f0 j beta m n = None.
  Proof.
    intros folded sibling x j beta m n. unfold fold_row_with_expr. rewrite tag_some by (pose proof (bl_adic F L); lia).
    assert (Z0 : forall y : F, y = f0 -> checked_div f1 y = None).
    { intros y ->. unfold checked_div, inverse. replace (feqb (f0 : F) f0) with true; [reflexivity|]. symmetry. now apply feqb_ok. }
    destruct (j mod 2 =? 0); cbn [fst snd]; unfold bind, get, ret at 1; cbv beta iota; rewrite Z0 by ring; reflexivity.
  Qed.
End C34.

(** four inputs, the folding, compared with [want]; the point of the pair 1 of height 4 *)
Definition fold_run (H : bytes -> bytes) (F : bf_field) (zf zs zx xh zb want : F) (j : nat) : option bool :=
  match (do f <- assign_input_var (f_words F zf) manager_new; do s <- assign_input_var (f_words F zs) (snd f);
         do x <- assign_input_var (f_words F zx) (snd s); do b <- assign_input_var (f_words F zb) (snd x);
         do r <- fold_row_with_expr F (fst f) (fst s) (fst x) xh j (fst b) (snd b);
         do w <- const_f F want; do e <- equal (fst r) w; embed_hint_verify (set_exec_dsl e (snd r))) 0 with
  | Some (m, _) => Some (run_manager H my_gadgets m)
  | None => None
  end.
Definition ext_of (z : Z) : bf_ext4 := ext (of_Z z) (of_Z (z + 1)) (of_Z 2) (of_Z (3 * z)).
Definition fold_example (H : bytes -> bytes) (F : bf_field) (zf zs zb : F) (b : nat) : list (option bool) :=
  let zx := fpow (gen 3) (Field.reverse_bits_len (2 + b) 3) : F in
  let row := if b =? 0 then [zf; zs] else [zs; zf] in
  match fold_row F 1 2 zb row, fold_row F 1 2 zb (rev row) with
  | Some w, Some w' => [fold_run H F zf zs zx zx zb w (1 - b); fold_run H F zf zs zx zx zb w' (1 - b); fold_run H F zf zs zx (fopp zx) zb w (1 - b)]
  | _, _ => []
  end.
(** The right value is accepted, the one of the swapped pair is not.  A wrong hint point
    makes the value and the check false: over the base field the two cancel (C50),
    over the extension field the script is rejected. *)
Example C34_example : forall H b, b < 2 ->
  fold_example H bf_base (of_Z 10) (of_Z 11) (of_Z 3) b = [Some true; Some false; Some true].
Proof. intros H [|[|b]] Lb; [| |lia]; vm_compute; reflexivity. Qed.
Example C34_example_ext : forall H b, b < 2 ->
  fold_example H bf_ext4 (ext_of 10) (ext_of 11) (ext_of 3) b = [Some true; Some false; Some false].
Proof. intros H [|[|b]] Lb; [| |lia]; vm_compute; reflexivity. Qed.

(** ** C72 *)

(** identifiers only grow *)
Definition later {A} (b : builder A) : Prop := forall n a n', b n = Some (a, n') -> n <= n'.
Lemma later_ret : forall A (a : A), later (ret a).
Proof. intros A a n x n' E. injection E as _ <-. lia. Qed.
Lemma later_panic : forall A, later (@panic A).
Proof. intros A n x n' E. discriminate E. Qed.
Lemma later_id : later get_opid.
Proof. intros n x n' E. injection E as _ <-. lia. Qed.
Lemma later_bind : forall A B (b : builder A) (k : A -> builder B), later b -> (forall a, later (k a)) -> later (bind b k).
Proof.
  intros A B b k Lb Lk n x n' E. unfold bind in E. destruct (b n) as [[a n1]|] eqn:Eb; [|discriminate E]. apply Lb in Eb. apply Lk in E. lia.
Qed.
Lemma later_get : forall A (o : option A), later (get o).
Proof. intros A [a|]; [apply later_ret|apply later_panic]. Qed.
Lemma later_node : forall o sz ops, later (node o sz ops).
Proof. intros o sz ops. apply later_bind; [apply later_id|]. intros i. apply later_ret. Qed.
Ltac later := repeat first [apply later_ret|apply later_panic|apply later_get|apply later_node|apply later_id|simple apply later_bind; [|intros ?]
  |match goal with |- later (match ?x with _ => _ end) => destruct x end].
Lemma later_binary : forall o a b, later (binary o a b).
Proof. intros o a b. unfold binary. later. Qed.
Lemma later_unary : forall o a, later (unary o a).
Proof. intros o a. unfold unary. later. Qed.
Lemma later_const : forall F z, later (const_f F z).
Proof. intros F z. apply later_node. Qed.
Lemma later_input : forall v m, later (assign_input_var v m).
Proof. intros v m. unfold assign_input_var, assign_input. later. Qed.
Lemma later_hint : forall v m, later (assign_input_hint v m).
Proof. intros v m. unfold assign_input_hint, assign_input. later. Qed.
Ltac later_all := repeat first [apply later_ret|apply later_panic|apply later_get|apply later_const|apply later_binary|apply later_unary|apply later_input|apply later_hint
  |apply later_node|apply later_id|simple apply later_bind; [|intros ?]|match goal with |- later (match ?x with _ => _ end) => destruct x end].
Lemma later_fold : forall F f s x h j b m, later (fold_row_with_expr F f s x h j b m).
Proof. intros. unfold fold_row_with_expr, mul_f, add, subtract, mul, equal. cbv zeta. later_all. Qed.
Lemma later_loop : forall F M IE t ls q f x h ros m, later (query_loop_expr F M IE t ls q f x h ros m).
Proof.
  intros F M IE t ls. induction ls as [|[[[lh c] [vals pf]] beta] ls IH]; intros; cbn [query_loop_expr]; [apply later_ret|].
  unfold next_opening_expr, add, square. cbv zeta. later_all; try apply later_fold; apply IH.
Qed.
Lemma later_query : forall F M IE config debug cs q t os bs ros n m, later (verify_query_expr F M IE config debug cs q t os bs ros n m).
Proof.
  intros. unfold verify_query_expr, DslBuild.reverse_bits_len, index_to_rou_dsl, constant_u32, constant. cbv zeta. later_all. apply later_loop.
Qed.

Section C72.
  Variable H : bytes -> bytes.
  Variable G : gadgets.
  Hypothesis OK : gadgets_ok H G.
  Variable F : bf_field.
  Hypothesis U : usual F.
  Let L : bf_laws F := usual_laws F U.
  Variable M : mmcs F.
  Variables (IP IE : Type).
  Variable config : fri_config.
  Variable debug : bool.
  Variable open_input : nat -> nat -> IP -> manager -> builder (outcome IE (list (nat * expr)) * manager).
  (** what the native open_input gives *)
  Variable native_open : nat -> nat -> IP -> outcome IE (list (nat * F)).

  (** What is required of the closure that builds the reduced openings: started on a
      fresh manager it makes expressions that have the values the native one gives,
      each input it adds is used by one of them or by a check, its checks leave 1. *)
  Definition opens_ok : Prop := forall t q ip, later (open_input t q ip manager_new) /\
    match native_open t q ip with
    | Ok zros => works (open_input t q ip manager_new) [] manager_new (fun r m' all' =>
        exists ros, r = Ok ros /\ ros_ok F G all' m' ros zros /\ covered m' (map snd ros ++ mn_checks m') /\
          Forall (fun c => says G m' c [1%Z] /\ plain c) (mn_checks m') /\ mn_exec m' = None)
    | Err e => works (open_input t q ip manager_new) [] manager_new (fun r _ _ => r = Err e)
    | Panic => True
    end.
  Hypothesis OI : opens_ok.

  (** What a query amounts to: the value the script folds to, if every opened input is consumed. *)
  Inductive folds_to (commits : list (m_comm M)) (bs : list F) (log_max_height t q : nat) (ip : IP) (openings : list (list (list F) * m_proof M)) (v : F) : Prop :=
  | folds_to_intro zros q' : native_open t q ip = Ok zros ->
      chain F M IE t (layers F M log_max_height commits openings bs) q f0 zros = Ok (v, q', []) ->
      debug && negb (q' <? blowup config) = false -> folds_to commits bs log_max_height t q ip openings v.
  (** accepted once its checks are embedded, whenever that is done *)
  Definition accepted_iff (n : nat) (m : manager) (P : Prop) : Prop := forall n1, n <= n1 ->
    exists m' n2, embed_hint_verify m n1 = Some (m', n2) /\ (room G m' -> (run_manager H G m' = true <-> P)).

  Lemma sinv_later : forall n n' all m, sinv n all m -> n <= n' -> sinv n' all m.
  Proof. intros n n' all m [A B C D E I1 I2] Ln. constructor; auto. eapply made_mono; eauto. Qed.

  Theorem C72_query : forall commits final bs log_max_height t q ip openings v n,
    1 <= log_max_height <= 27 -> q < 2 ^ log_max_height -> length commits < log_max_height ->
    folds_to commits bs log_max_height t q ip openings v ->
    exists m n', n <= n' /\ query_manager F M IP IE config debug open_input commits final bs log_max_height t q ip openings n = Some (Ok m, n') /\
      accepted_iff n' m (v = final).
  Proof.
    intros commits final bs lmh t q ip openings v n Ln Lq Lc [zros q' No Ch Db].
    destruct (OI t q ip) as [_ Wo]. rewrite No in Wo.
    set (R := fun (r : unit) (m' : manager) (all' : list expr) => exists e, mn_exec m' = Some e /\ judges G m' e (f_size F) (v = final) /\ In e all' /\
                Forall (fun c => says G m' c [1%Z] /\ plain c) (mn_checks m') /\ covered m' (e :: mn_checks m') /\ plain e).
    set (b := do ro <- open_input t q ip manager_new;
      match fst ro with
      | Ok ros => do r <- verify_query_expr F M IE config debug commits q t openings bs ros lmh (snd ro);
          match fst r with
          | Ok folded_eval => do f <- assign_input_var (f_words F final) (snd r); do q <- equal folded_eval (fst f); ret (tt, set_exec_dsl q (snd f))
          | _ => panic
          end
      | _ => panic
      end : builder (unit * manager)).
    assert (Wb : works b [] manager_new R).
    { unfold b. eapply works_bind; [exact Wo|]. intros r m1 all1 _ _ (ros & -> & Rs & Cv & Ck & Ex). cbn [fst snd].
      eapply works_bind.
      { apply (verify_query_works F L G M IE config debug t commits openings bs lmh q ros zros all1 m1 Rs Cv Ck Ln Lq Lc).
        rewrite Ch. exact Db. }
      rewrite Ch. intros r m2 all2 C2 M2 (e & ros' & -> & Lo & Ex2). cbn [fst snd]. destruct Lo as [Li Lv Lp Lr Lcov Lk].
      inversion Lr; subst. cbn [map app] in Lcov.
      apply (stepF_input F L G). intros f all3 C3 Iff Vf Of Pf. cbn [fst snd]. set (m3 := with_input (f_words F final) m2) in *.
      assert (M3 : incl (given m2) (given m3)) by (intros y Iy; apply given_input; now left).
      apply (stepF_equal F L G _ _ _ _ _ _ _ v final (C3 _ Li) Iff (valF_mono F G _ _ _ _ M3 Lv) Vf). intros eq all4 C4 Ieq Jeq Oeq Peq.
      eapply step_exec with (e := eq); [exact Ieq|]. apply works_ret. exists eq. split; [reflexivity|]. split; [exact Jeq|]. split; [exact Ieq|].
      assert (Pf' : plain f) by (apply plain_node; [now rewrite Of|]; rewrite Pf; constructor).
      split; [|split].
      - exact (checks_mono G m2 m3 _ M3 Lk).
      - intros x Ix. change (In x (map fst (given m3))) in Ix. apply in_map_iff in Ix as (p & <- & Ip). apply given_input in Ip as [Ip| ->].
        + destruct (Lcov (fst p) (in_map fst _ _ Ip)) as (r & [<-|Ir] & Mr).
          * exists eq. split; [now left|]. eapply moves_sub; [|exact Mr]. apply sub_op. rewrite Peq. now left.
          * exists r. split; [now right|exact Mr].
        + exists eq. split; [now left|]. exists f. split; [apply sub_op; rewrite Peq; right; now left|exact Of].
      - apply plain_node; [now rewrite Oeq|]. rewrite Peq. repeat constructor; auto. }
    destruct (Wb n (sinv_new n)) as (u & m & n' & all' & Eb & Iv & _ & _ & (e & Ex & Je & Ie & Ck & Cv & Pl)).
    assert (Eq : query_manager F M IP IE config debug open_input commits final bs lmh t q ip openings n = Some (Ok m, n')).
    { unfold b, query_manager, bind in *. destruct (open_input t q ip manager_new n) as [[[[ros|e0|] m1] n1]|]; try discriminate Eb. cbn [fst snd] in *.
      destruct (verify_query_expr F M IE config debug commits q t openings bs ros lmh m1 n1) as [[[[e1|e1|] m2] n2]|]; try discriminate Eb. cbn [fst snd] in *.
      destruct (assign_input_var (f_words F final) m2 n2) as [[[f m3] n3]|]; try discriminate Eb. cbn [fst snd] in *.
      destruct (equal e1 f n3) as [[q1 n4]|]; try discriminate Eb. unfold ret in *. injection Eb as <- <- <-. reflexivity. }
    exists m, n'. split.
    { assert (Lb : later b) by (unfold b, equal; later_all; [apply OI|apply later_query]). exact (Lb _ _ _ Eb). }
    split; [exact Eq|]. intros n1 L1.
    destruct (manager_accepts H G OK n1 all' m e (f_size F) (v = final) (sinv_later _ _ _ _ Iv L1) Ex Je) as (m' & n2 & Em & _ & Rn); auto.
    - unfold f_size, u32_size. destruct (bf_ext F); auto.
    - eapply Forall_impl; [|exact Ck]. intros c [A _]. exact A.
    - constructor; [exact Pl|]. eapply Forall_impl; [|exact Ck]. intros c [_ A]. exact A.
    - exists m', n2. split; [exact Em|]. intros Rm. destruct (Rn Rm) as [R1 R2]. split; [|exact R1].
      intros Q. destruct (feqb_spec _ v final) as [E|E]; [exact E|]. rewrite (R2 E) in Q. discriminate Q.
  Qed.

  (** All queries: one manager each. *)
  Theorem C72_all_queries : forall commits final bs qs vs n,
    1 <= log_blowup config -> length commits + log_blowup config <= 27 ->
    let log_max_height := length commits + log_blowup config in
    Forall2 (fun p v => snd (fst p) < 2 ^ log_max_height /\
                        folds_to commits bs log_max_height (fst (fst p)) (snd (fst p)) (fst (snd p)) (snd (snd p)) v) qs vs ->
    exists ms n', query_managers F M IP IE config debug open_input commits final bs log_max_height qs n = Some (Ok ms, n') /\
      Forall2 (fun v m => accepted_iff n' m (v = final)) vs ms.
  Proof.
    intros commits final bs qs vs n Lb Lm lmh Fq.
    assert (W : exists ms n', query_managers F M IP IE config debug open_input commits final bs lmh qs n = Some (Ok ms, n') /\
      n <= n' /\ Forall2 (fun v m => accepted_iff n' m (v = final)) vs ms); [|destruct W as (ms & n' & E & _ & Fm); eauto].
    revert n. induction Fq as [|[[t q] [ip os]] v qs vs [Lq Fv] Fq IH]; intros n; cbn [query_managers].
    - exists [], n. split; [reflexivity|]. split; [lia|constructor].
    - cbn [fst snd] in Lq, Fv. destruct (C72_query commits final bs lmh t q ip os v n) as (m & n1 & L1 & E & A); auto; [unfold lmh; lia|unfold lmh; lia|].
      destruct (IH n1) as (ms & n2 & E2 & L2 & Fm). exists (m :: ms), n2. unfold bind. rewrite E, E2. split; [reflexivity|]. split; [lia|].
      constructor; [|exact Fm]. intros n3 L3. apply A. lia.
  Qed.

  (** verify_challenges itself, which pairs the indices with the proofs and takes the height from
      the configuration: one script per pair, each accepting exactly when its query folds to the
      final polynomial. *)
  Theorem C72_verify_challenges : forall commits final bs indices proofs vs n,
    1 <= log_blowup config -> length commits + log_blowup config <= 27 ->
    let log_max_height := length commits + log_blowup config in
    Forall2 (fun p v => snd (fst p) < 2 ^ log_max_height /\
                        folds_to commits bs log_max_height (fst (fst p)) (snd (fst p)) (fst (snd p)) (snd (snd p)) v)
      (List.combine indices proofs) vs ->
    exists ms n', verify_challenges_expr F M IP IE config debug open_input commits final bs indices proofs n = Some (Ok ms, n') /\
      length ms = Nat.min (length indices) (length proofs) /\ Forall2 (fun v m => accepted_iff n' m (v = final)) vs ms.
  Proof.
    intros commits final bs is ps vs n Lb Lm lmh Fq. destruct (C72_all_queries commits final bs _ vs n Lb Lm Fq) as (ms & n' & E & Fm).
    exists ms, n'. split; [exact E|]. split; [|exact Fm].
    rewrite <- combine_length. transitivity (length vs).
    - clear - Fm. induction Fm; cbn; congruence.
    - clear - Fq. induction Fq; cbn; congruence.
  Qed.

  (** *** Against the native verifier *)

  (** the native verifier (FriModel) with the same challenges *)
  Notation native := (verify_query F M IP IE config debug).
  (** reduced openings that no layer takes *)
  Fixpoint leftover (ls : list (nat * m_comm M * (list (list F) * m_proof M) * F)) (ros : list (nat * F)) : list (nat * F) :=
    match ls, ros with
    | (h, _, _, _) :: ls, (lh, _) :: rest => leftover ls (if lh =? h + 1 then rest else ros)
    | _, _ => ros
    end.
  Lemma leftover_nil : forall ls, leftover ls [] = [].
  Proof. now intros [|[[[h c] o] b] ls]. Qed.
  (** the first layer's row has the reduced opening of that height at the queried point *)
  Definition top_consistent (n : nat) (commits : list (m_comm M)) (openings : list (list (list F) * m_proof M)) (bs : list F) (q : nat) (v : F) (ros : list (nat * F)) : Prop :=
    match layers F M n commits openings bs with
    | (h, _, ([r], _), _) :: _ => nth_error r (q mod 2) = Some (fst (next_opening F h v ros))
    | _ => True
    end.

  Lemma pair_cases : forall (r : list F) i k beta w, fold_row F i k beta r = Some w -> exists a b, r = [a; b].
  Proof. intros [|a [|b [|]]] i k beta w E; try discriminate E. eauto. Qed.
  Lemma mod2 : forall q, (q mod 2 = 0 /\ q = 2 * (q / 2)) \/ (q mod 2 = 1 /\ q = 2 * (q / 2) + 1).
  Proof. intros q. pose proof (Nat.div_mod q 2 ltac:(lia)). pose proof (Nat.mod_upper_bound q 2 ltac:(lia)). lia. Qed.
  (** folding the row in order is folding the value at x with the one at -x *)
  Lemma fold_at : forall a b q k beta v, S k <= 27 -> nth_error [a; b] (q mod 2) = Some v ->
    exists s, nth_error [a; b] (1 - q mod 2) = Some s /\
      fold_row F (q / 2) k beta [a; b] = Some (folded_pair F beta (fpow (gen (S k)) (Field.reverse_bits_len q (S k))) v s).
  Proof.
    intros a b q k beta v Lk Nv. pose proof (bl_adic F L) as Ad. rewrite fold_row_ok by lia.
    destruct (mod2 q) as [[Em Eq]|[Em Eq]]; rewrite Em in *; cbn [Nat.sub nth_error] in *; injection Nv as <-.
    - exists b. split; [reflexivity|]. do 2 f_equal. rewrite Eq at 2. now rewrite point_even.
    - exists a. split; [reflexivity|]. f_equal. rewrite Eq at 2. rewrite point_odd by lia. symmetry. apply folded_swap, point_nz. lia.
  Qed.

  Lemma native_chain : forall lmh t commits openings bs n q v ros w q', n <= lmh -> n <= 27 ->
    (n = lmh -> top_consistent n commits openings bs q v ros) ->
    query_loop F M IE lmh t (layers F M n commits openings bs) q v ros = Ok (w, q') ->
    chain F M IE t (layers F M n commits openings bs) q v ros = Ok (w, q', leftover (layers F M n commits openings bs) ros).
  Proof.
    intros lmh t commits. induction commits as [|c commits IH]; intros openings bs n q v ros w q' Ll Ln Tc E.
    - assert (El : layers F M n [] openings bs = []) by (destruct n; reflexivity). rewrite El in *. cbn in *. injection E as <- <-. reflexivity.
    - destruct n as [|n]; [cbn in *; now injection E as <- <-|]. destruct openings as [|[vals pf] openings]; [cbn in *; now injection E as <- <-|].
      destruct bs as [|beta bs]; [cbn in *; now injection E as <- <-|]. unfold top_consistent in Tc.
      cbn [layers query_loop chain leftover] in *.
      destruct (next_opening F n v ros) as [v1 ros1] eqn:En. cbn [fst] in Tc.
      assert (El : (match ros with [] => ros | (lh, _) :: rest => leftover (layers F M n commits openings bs) (if lh =? n + 1 then rest else ros) end) =
                   leftover (layers F M n commits openings bs) ros1).
      { unfold next_opening in En. destruct ros as [|[lh z] rest]; [injection En as _ <-; now rewrite leftover_nil|]. now destruct (lh =? n + 1); injection En as _ <-. }
      rewrite El. clear El En. destruct vals as [|r [|]]; try discriminate E.
      destruct (nth_error r (q mod 2)) as [cv|] eqn:Ev; [|discriminate E].
      destruct ((n <? lmh - 1) && negb (feqb v1 cv)) eqn:Ck; [discriminate E|].
      destruct (m_verify_batch M t [r] pf c) as [u|e|]; try discriminate E.
      destruct (fold_row F (q / 2) n beta r) as [fv|] eqn:Ef; [|discriminate E].
      assert (Ecv : cv = v1).
      { destruct (Nat.eq_dec (S n) lmh) as [Q|Q]; [specialize (Tc Q); now injection Tc|].
        replace (n <? lmh - 1) with true in Ck by (symmetry; apply Nat.ltb_lt; lia). cbn in Ck. apply negb_false_iff, feqb_ok in Ck. now symmetry. }
      subst cv. destruct (pair_cases _ _ _ _ _ Ef) as (a & b & ->).
      destruct (fold_at a b q n beta v1 Ln Ev) as (s & Es & Ef'). rewrite Es. rewrite Ef in Ef'. apply some_inj in Ef'. subst fv.
      apply IH; try lia. exact E.
  Qed.

  (** If the native verifier gets through a query and the first layer agrees with the
      reduced opening, the manager of the query gives the native verdict. *)
  Theorem C72_native_verdict : forall commits final bs log_max_height t q ip openings ros w n,
    1 <= log_max_height <= 27 -> q < 2 ^ log_max_height -> length commits < log_max_height ->
    native_open t q ip = Ok ros ->
    native commits q t (Build_query_proof F M IP ip openings) bs ros log_max_height = Ok w ->
    top_consistent log_max_height commits openings bs q f0 ros -> leftover (layers F M log_max_height commits openings bs) ros = [] ->
    exists m n', n <= n' /\ query_manager F M IP IE config debug open_input commits final bs log_max_height t q ip openings n = Some (Ok m, n') /\
      accepted_iff n' m (w = final).
  Proof.
    intros commits final bs lmh t q ip openings ros w n Ln Lq Lc No Nv Tc Lf.
    apply C72_query; auto. unfold verify_query in Nv. cbn [commit_phase_openings] in Nv.
    destruct (query_loop F M IE lmh t (layers F M lmh commits openings bs) q f0 ros) as [[w' q']|e|] eqn:E; try discriminate Nv.
    destruct (debug && negb (q' <? blowup config)) eqn:Db; [discriminate Nv|]. injection Nv as ->.
    apply native_chain in E; [|lia|lia|auto]. rewrite Lf in E. exact (folds_to_intro _ _ _ _ _ _ _ _ ros q' No E Db).
  Qed.

  (** every row has two values, the one at the queried point being the value carried so far *)
  Fixpoint consistent (ls : list (nat * m_comm M * (list (list F) * m_proof M) * F)) (q : nat) (v : F) (ros : list (nat * F)) : Prop :=
    match ls with
    | [] => True
    | (h, c, (vals, pf), beta) :: ls =>
        exists a b, vals = [[a; b]] /\ nth_error [a; b] (q mod 2) = Some (fst (next_opening F h v ros)) /\
          consistent ls (q / 2) (folded_pair F beta (point F h (q / 2)) a b) (snd (next_opening F h v ros))
    end.
  Lemma chain_native : forall lmh t commits openings bs n q v ros w q' lf, n <= lmh -> n <= 27 ->
    consistent (layers F M n commits openings bs) q v ros ->
    chain F M IE t (layers F M n commits openings bs) q v ros = Ok (w, q', lf) ->
    query_loop F M IE lmh t (layers F M n commits openings bs) q v ros = Ok (w, q').
  Proof.
    intros lmh t commits. induction commits as [|c commits IH]; intros openings bs n q v ros w q' lf Ll Ln Cs E.
    - assert (El : layers F M n [] openings bs = []) by (destruct n; reflexivity). rewrite El in *. cbn in *. injection E as <- <- <-. reflexivity.
    - destruct n as [|n]; [cbn in *; now injection E as <- <- <-|]. destruct openings as [|[vals pf] openings]; [cbn in *; now injection E as <- <- <-|].
      destruct bs as [|beta bs]; [cbn in *; now injection E as <- <- <-|].
      cbn [layers query_loop chain consistent] in *. destruct Cs as (a & b & -> & Ev & Cs).
      destruct (next_opening F n v ros) as [v1 ros1]. cbn [fst snd] in *. rewrite Ev. rewrite feqb_refl, andb_false_r.
      destruct (m_verify_batch M t [[a; b]] pf c) as [u|e|]; try discriminate E.
      destruct (fold_at a b q n beta v1 Ln Ev) as (s & Es & Ef). rewrite Es in E. pose proof Ef as Ef'. rewrite fold_row_ok in Ef' by (pose proof (bl_adic F L); lia). apply some_inj in Ef'.
      rewrite Ef. eapply IH; try eassumption; try lia. now rewrite Ef'.
  Qed.
  Theorem C72_script_native : forall commits bs log_max_height t q ip openings ros v,
    log_max_height <= 27 -> native_open t q ip = Ok ros ->
    consistent (layers F M log_max_height commits openings bs) q f0 ros ->
    folds_to commits bs log_max_height t q ip openings v ->
    native commits q t (Build_query_proof F M IP ip openings) bs ros log_max_height = Ok v.
  Proof.
    intros commits bs lmh t q ip openings ros v Ln No Cs [zros q' No' Ch Db]. rewrite No in No'. injection No' as <-.
    unfold verify_query. cbn [commit_phase_openings]. rewrite (chain_native lmh _ _ _ _ _ _ _ _ _ _ _ (le_n _) Ln Cs Ch). now rewrite Db.
  Qed.
End C72.

(** *** A concrete setting *)
(** a commitment scheme whose proofs are the verdict; reduced openings that are inputs *)
Definition toy_mmcs : mmcs bf_base := mk_mmcs (car bf_base) unit unit bool unit unit
  (fun _ _ => None) (fun _ => None) (fun _ _ _ => None) (fun _ _ pf _ => if pf then Ok tt else Err tt).
Definition toy_config (lb : nat) : fri_config := {| log_blowup := lb; num_queries := 1; proof_of_work_bits := 0 |}.
Fixpoint toy_open_loop (ip : list (nat * bf_base)) (m : manager) : builder (list (nat * expr) * manager) :=
  match ip with
  | [] => ret ([], m)
  | (h, z) :: ip => do e <- assign_input_var (f_words bf_base z) m; do r <- toy_open_loop ip (snd e); ret ((h, fst e) :: fst r, snd r)
  end.
Definition toy_open (t q : nat) (ip : list (nat * bf_base)) (m : manager) : builder (outcome Empty_set (list (nat * expr)) * manager) :=
  do r <- toy_open_loop ip m; ret (Ok (fst r), snd r).
Definition toy_native_open (t q : nat) (ip : list (nat * bf_base)) : outcome Empty_set (list (nat * bf_base)) := Ok ip.

Lemma toy_opens : forall G, opens_ok G bf_base (list (nat * bf_base)) Empty_set toy_open toy_native_open.
Proof.
  intros G t q ip. split.
  { unfold toy_open. later_all. generalize manager_new. induction ip as [|[h z] ip IH]; intros m; cbn [toy_open_loop]; later_all. apply IH. }
  unfold toy_native_open, toy_open.
  assert (W : forall zs all m ros0 zros0, ros_ok bf_base G all m ros0 zros0 -> covered m (map snd ros0) -> mn_checks m = [] -> mn_exec m = None ->
    works (toy_open_loop zs m) all m (fun r m' all' => ros_ok bf_base G all' m' (ros0 ++ r) (zros0 ++ zs) /\ covered m' (map snd (ros0 ++ r)) /\
      mn_checks m' = [] /\ mn_exec m' = None)).
  { intros zs. induction zs as [|[h z] zs IH]; intros all m ros0 zros0 Rs Cv Ck Ex; cbn [toy_open_loop].
    - apply works_ret. rewrite !app_nil_r. auto.
    - apply (stepF_input bf_base bf_base_laws G). intros e all1 C1 Ie Ve Oe Pe. cbn [fst snd].
      set (m1 := with_input (f_words bf_base z) m) in *.
      assert (M1 : incl (given m) (given m1)) by (intros y Iy; apply given_input; now left).
      eapply works_bind.
      { apply (IH all1 m1 (ros0 ++ [(h, e)]) (zros0 ++ [(h, z)])); auto.
        - apply Forall2_app; [exact (ros_mono bf_base G _ _ _ _ _ _ C1 M1 Rs)|]. constructor; [|constructor]. split; [reflexivity|]. split; [exact Ie|]. split; [exact Ve|].
          change (plain e). apply plain_node; [now rewrite Oe|]. rewrite Pe. constructor.
        - intros x Ix. apply in_map_iff in Ix as (p & <- & Ip). apply given_input in Ip as [Ip| ->].
          + destruct (Cv (fst p) (in_map fst _ _ Ip)) as (r & Ir & Mr). exists r. split; [|exact Mr]. rewrite map_app. apply in_app_iff. now left.
          + exists e. split; [rewrite map_app; apply in_app_iff; right; now left|]. exists e. split; [apply sub_refl|exact Oe]. }
      intros r m2 all2 C2 M2 (A & B & C & D). cbn [fst snd]. apply works_ret. rewrite <- !app_assoc in *. auto. }
  eapply works_bind.
  { apply (W ip [] manager_new [] []); try reflexivity; [constructor|]. intros x []. }
  intros ros m' all' C1 M1 (A & B & C & D). cbn [fst snd]. apply works_ret. exists ros. split; [reflexivity|]. split; [exact A|].
  rewrite C, app_nil_r. auto.
Qed.

(** the script of one query, with the checks embedded *)
Definition toy_rows (rows : list (list bf_base)) : list (list (list bf_base) * bool) := map (fun r => ([r], true)) rows.
Definition toy_commits (rows : list (list bf_base)) : list unit := map (fun _ => tt) rows.
Definition toy_betas : list bf_base := [of_Z 3; of_Z 5; of_Z 7].
Definition toy_run (H : bytes -> bytes) (lb q : nat) (ip : list (nat * bf_base)) (rows : list (list bf_base)) (final : bf_base) : option bool :=
  match query_manager bf_base toy_mmcs _ Empty_set (toy_config lb) true toy_open (toy_commits rows) final toy_betas (length rows + lb) 0 q ip (toy_rows rows) 0 with
  | Some (Ok m, n) => match embed_hint_verify m n with Some (m', _) => Some (run_manager H my_gadgets m') | None => None end
  | _ => None
  end.
Definition toy_native (lb q : nat) (ip : list (nat * bf_base)) (rows : list (list bf_base)) : result bf_base toy_mmcs Empty_set bf_base :=
  verify_query bf_base toy_mmcs _ Empty_set (toy_config lb) true (toy_commits rows) q 0
    (Build_query_proof bf_base toy_mmcs (list (nat * bf_base)) ip (toy_rows rows)) toy_betas ip (length rows + lb).
Definition b_ (z : Z) : bf_base := of_Z z.

(** Honest queries: two layers with consistent rows, two reduced openings. *)
Definition toy_honest : list (list bf_base) := [map b_ [10; 11]%Z; [b_ 1324217769; b_ 13]].
Definition toy_ip : list (nat * bf_base) := [(3, b_ 11); (2, b_ 7)].
Lemma base_usual : usual bf_base. Proof. now left. Qed.

(** The hypotheses of C72_query, C72_native_verdict and C72_script_native hold here... *)
Example C72_example_hypotheses :
  toy_native 1 5 toy_ip toy_honest = Ok (b_ 778476389) /\
  top_consistent bf_base toy_mmcs 3 (toy_commits toy_honest) (toy_rows toy_honest) toy_betas 5 f0 toy_ip /\
  leftover bf_base toy_mmcs (layers bf_base toy_mmcs 3 (toy_commits toy_honest) (toy_rows toy_honest) toy_betas) toy_ip = [] /\
  folds_to bf_base toy_mmcs (list (nat * bf_base)) Empty_set (toy_config 1) true toy_native_open (toy_commits toy_honest) toy_betas 3 0 5 toy_ip (toy_rows toy_honest) (b_ 778476389).
Proof.
  assert (E : toy_native 1 5 toy_ip toy_honest = Ok (b_ 778476389)).
  { assert (Q : match toy_native 1 5 toy_ip toy_honest with Ok v => feqb v (b_ 778476389) | _ => false end = true) by (vm_compute; reflexivity).
    destruct (toy_native 1 5 toy_ip toy_honest) as [v| |]; try discriminate Q. apply feqb_ok in Q. now subst v. }
  assert (T : top_consistent bf_base toy_mmcs 3 (toy_commits toy_honest) (toy_rows toy_honest) toy_betas 5 f0 toy_ip).
  { apply (f_equal Some), bb_eq. vm_compute. reflexivity. }
  assert (Lf : leftover bf_base toy_mmcs (layers bf_base toy_mmcs 3 (toy_commits toy_honest) (toy_rows toy_honest) toy_betas) toy_ip = []) by reflexivity.
  split; [exact E|]. split; [exact T|]. split; [exact Lf|].
  unfold toy_native, verify_query in E. cbn [commit_phase_openings] in E. change (length toy_honest + 1) with 3 in E.
  destruct (query_loop bf_base toy_mmcs Empty_set 3 0 (layers bf_base toy_mmcs 3 (toy_commits toy_honest) (toy_rows toy_honest) toy_betas) 5 f0 toy_ip) as [[w q']|e|] eqn:Eq; try discriminate E.
  destruct (true && negb (q' <? blowup (toy_config 1))) eqn:Db; [discriminate E|]. injection E as ->.
  eapply native_chain in Eq; [|exact base_usual|lia|lia|intros _; exact T]. rewrite Lf in Eq.
  exact (folds_to_intro _ _ _ _ _ _ _ _ _ _ _ _ _ _ _ toy_ip q' eq_refl Eq Db).
Qed.
(** ... so its manager accepts exactly this value, if the stack has room (C72_query); run for one right and one wrong value. *)
Example C72_example : forall H,
  toy_run H 1 5 toy_ip toy_honest (b_ 778476389) = Some true /\ toy_run H 1 5 toy_ip toy_honest (b_ 778476390) = Some false.
Proof. intros H. vm_compute. auto. Qed.

(** Claim: if the manager of a query is accepted, the native verifier accepts the
    query.  It does not hold: the script never compares the folded value with the
    value committed at the queried point of the next layer. *)
Theorem C72_accepted_is_native_refuted : forall H, exists q ip rows final,
  toy_run H 1 q ip rows final = Some true /\ toy_native 1 q ip rows = Panic.
Proof.
  intros H. exists 5, [(3, b_ 11)], [map b_ [10; 11]%Z; map b_ [12; 13]%Z], (b_ 826566548). split; [vm_compute; reflexivity|].
  assert (Q : match toy_native 1 5 [(3, b_ 11)] [map b_ [10; 11]%Z; map b_ [12; 13]%Z] with Panic => true | _ => false end = true) by (vm_compute; reflexivity).
  destruct (toy_native 1 5 [(3, b_ 11)] [map b_ [10; 11]%Z; map b_ [12; 13]%Z]); [discriminate Q|discriminate Q|reflexivity].
Qed.
(** Claim: if the native verifier folds a query to the final value, its manager is
    accepted.  It does not hold in three cases: the native verifier does not look at
    the reduced opening of the first layer, the script does; reduced openings no layer
    takes stay on the stack; without blowup the last layer uses the point of the layer before. *)
Lemma native_is : forall lb q ip rows v, (match toy_native lb q ip rows with Ok w => feqb w (b_ v) | _ => false end) = true -> toy_native lb q ip rows = Ok (b_ v).
Proof. intros lb q ip rows v Q. destruct (toy_native lb q ip rows) as [w| |]; try discriminate Q. apply feqb_ok in Q. now subst w. Qed.
Theorem C72_native_is_accepted_refuted : forall H,
  (exists q ip rows final, toy_native 1 q ip rows = Ok final /\ toy_run H 1 q ip rows final = Some false /\
     leftover bf_base toy_mmcs (layers bf_base toy_mmcs (length rows + 1) (toy_commits rows) (toy_rows rows) toy_betas) ip = []) /\
  (exists q ip rows final, toy_native 1 q ip rows = Ok final /\ toy_run H 1 q ip rows final = Some false /\
     consistent bf_base toy_mmcs (layers bf_base toy_mmcs (length rows + 1) (toy_commits rows) (toy_rows rows) toy_betas) q f0 ip) /\
  (exists q ip rows final, toy_native 0 q ip rows = Ok final /\ toy_run H 0 q ip rows final = Some false /\
     leftover bf_base toy_mmcs (layers bf_base toy_mmcs (length rows + 0) (toy_commits rows) (toy_rows rows) toy_betas) ip = [] /\
     consistent bf_base toy_mmcs (layers bf_base toy_mmcs (length rows + 0) (toy_commits rows) (toy_rows rows) toy_betas) q f0 ip).
Proof.
  intros H. split; [|split].
  - exists 1, [(2, b_ 99)], [map b_ [10; 11]%Z], (b_ 9). split; [apply native_is; vm_compute; reflexivity|]. split; [vm_compute; reflexivity|reflexivity].
  - exists 1, [(2, b_ 11); (1, b_ 5)], [map b_ [10; 11]%Z], (b_ 9). split; [apply native_is; vm_compute; reflexivity|]. split; [vm_compute; reflexivity|].
    cbn. exists (b_ 10), (b_ 11). split; [reflexivity|]. split; [|exact Logic.I]. apply (f_equal Some), bb_eq. vm_compute. reflexivity.
  - exists 2, [(2, b_ 10)], [map b_ [10; 11]%Z; map b_ [4; 579340859]%Z], (b_ 854584215). split; [apply native_is; vm_compute; reflexivity|].
    split; [vm_compute; reflexivity|]. split; [reflexivity|]. cbn [consistent layers length map toy_commits toy_rows toy_betas Nat.add].
    exists (b_ 10), (b_ 11). split; [reflexivity|]. split; [apply (f_equal Some), bb_eq; vm_compute; reflexivity|].
    exists (b_ 4), (b_ 579340859). split; [reflexivity|]. split; [|exact Logic.I]. apply (f_equal Some), bb_eq. vm_compute. reflexivity.
Qed.
