(** C74: the reduced openings as expressions (fri/src/two_adic_pcs.rs 591-669). *)
From Coq Require Import ZArith List Bool Arith Lia Field.
From Verif Require Import ScriptNum ScriptVM HelperModel PropHelper Field BabyBear TcsModel FriModel FriProofs StarkModel PcsModel DslModel DslSpec DslOpSpec DslMain DslOps DslGadgets DslBuild DslIds DslDenote
  DslManager DslSession PropManager DslWork DslAccept FriExprModel FriExprProofs FriExprQuery PropFriExpr PropStarkExpr OpenExprModel OpenExprProofs.
Import ListNotations.
Local Open Scope nat_scope.

Notation open_rounds M0 := (list (m_comm M0 * list (coset BabyBearT * list (ExtT * list ExtT)))).
Notation open_proof M0 := (list (list (list BabyBearT) * m_proof M0)).
(** what the native verifier computes, two_adic_pcs.rs 459-529 *)
Notation native_openings M0 config := (pcs_open_input BabyBearT ExtT from_base (of_Z 31) M0 config).

Section Shift.
  Variable T : two_adic.
  Add Field FT74 : (fth T).
  Lemma pair_shift : forall beta x v d s : T, x <> f0 -> folded_pair T beta x (fadd v d) s = fadd (folded_pair T beta x v s) (fmul (folded_pair T beta x f1 f0) d).
  Proof. intros beta x v d s Nx. unfold folded_pair. pose proof (two_nz T) as N2. field. split; [exact Nx|]. exact N2. Qed.
  Lemma pair_slope : forall beta x : T, x <> f0 -> beta <> fopp x -> folded_pair T beta x f1 f0 <> f0.
  Proof.
    intros beta x Nx Nb E. apply Nb. pose proof (two_nz T) as N2.
    assert (E' : fadd x beta = fmul (fmul (fadd f1 f1) x) (folded_pair T beta x f1 f0)) by (unfold folded_pair; field; split; [exact Nx|exact N2]).
    rewrite E in E'. assert (Z0 : fadd x beta = f0) by (rewrite E'; ring). replace beta with (fadd (fopp x) (fadd x beta)) by ring. rewrite Z0. ring.
  Qed.
  Lemma shift_end : forall w d : T, fadd w d = fadd w (fmul f1 d). Proof. intros. ring. Qed.
  Lemma shift_add : forall v d z : T, fadd (fadd v d) z = fadd (fadd v z) d. Proof. intros. ring. Qed.
  Lemma shift_assoc : forall w a b d : T, fadd w (fmul a (fmul b d)) = fadd w (fmul (fmul b a) d). Proof. intros. ring. Qed.
  (** the inverse to put in to get from [v] to [w] *)
  Lemma shift_solve : forall a c v w i : T, a <> f0 -> c <> f0 -> exists i', fadd v (fmul c (fadd (fmul a i') (fopp (fmul a i)))) = w.
  Proof.
    intros a c v w i Na Nc. exists (fadd i (fdiv (fsub w v) (fmul c a))). field. split; assumption.
  Qed.
  Lemma shift_cancel : forall a a0 : T, fadd f0 a = fadd (fadd f0 a0) (fadd a (fopp a0)). Proof. intros. ring. Qed.
  Lemma shift_zero : forall a : T, a = fadd f0 a. Proof. intros. ring. Qed.
  Lemma next_ne : forall a : T, fadd a f1 <> a.
  Proof. intros a E. apply (f1_nz T). replace (f1 : T) with (fsub (fadd a f1) a) by ring. rewrite E. ring. Qed.
  Lemma shift_top : forall a d : T, fadd f0 (fadd a d) = fadd (fadd f0 d) a. Proof. intros. ring. Qed.
End Shift.

(** *** Moving the value of a query *)
Section Chain.
  Variable F : bf_field.
  Hypothesis L : bf_laws F.
  Variable M : mmcs F.
  Variable IE : Type.
  Definition at_point (q h : nat) : F := fpow (gen (S h)) (Field.reverse_bits_len q (S h)).
  (** no challenge is the opposite of the point it folds at *)
  Fixpoint live (ls : list (nat * m_comm M * (list (list F) * m_proof M) * F)) (q : nat) : Prop :=
    match ls with [] => True | (h, _, _, beta) :: ls => beta <> fopp (at_point q h) /\ live ls (q / 2) end.
  Fixpoint slope (ls : list (nat * m_comm M * (list (list F) * m_proof M) * F)) (q : nat) : F :=
    match ls with [] => f1 | (h, _, _, beta) :: ls => fmul (folded_pair F beta (at_point q h) f1 f0) (slope ls (q / 2)) end.
  Definition tops (ls : list (nat * m_comm M * (list (list F) * m_proof M) * F)) : Prop := Forall (fun l => S (fst (fst (fst l))) <= 27) ls.
  Lemma at_point_nz : forall q h, S h <= 27 -> at_point q h <> f0.
  Proof. intros q h Lh. apply fpow_nz, gen_nz. pose proof (bl_adic F L). lia. Qed.
  Lemma slope_nz : forall ls q, tops ls -> live ls q -> slope ls q <> f0.
  Proof.
    induction ls as [|[[[h c] o] beta] ls IH]; intros q T0 Lv; [apply (f1_nz F)|]. inversion T0; subst. destruct Lv as [Nb Lv]. cbn [slope]. apply (fmul_nz F); [|now apply IH].
    apply (pair_slope F); [apply at_point_nz; cbn [fst] in *; lia|exact Nb].
  Qed.
  Lemma chain_shift : forall t ls q v d ros w q' lf, tops ls -> chain F M IE t ls q v ros = Ok (w, q', lf) ->
    chain F M IE t ls q (fadd v d) ros = Ok (fadd w (fmul (slope ls q) d), q', lf).
  Proof.
    intros t. induction ls as [|[[[h c] [vals pf]] beta] ls IH]; intros q v d ros w q' lf T0 E; cbn [chain slope] in *.
    { injection E as <- <- <-. now rewrite <- (shift_end F). }
    inversion T0 as [|? ? Lh T1]; subst. cbn [fst] in Lh.
    assert (En : next_opening F h (fadd v d) ros = (fadd (fst (next_opening F h v ros)) d, snd (next_opening F h v ros))).
    { unfold next_opening. destruct ros as [|[lh z] ros]; [reflexivity|]. destruct (lh =? h + 1); [|reflexivity]. cbn [fst snd]. f_equal. apply (shift_add F). }
    rewrite En. destruct (next_opening F h v ros) as [v1 ros1]. cbn [fst snd]. destruct vals as [|r [|]]; try discriminate E.
    destruct (m_verify_batch M t [r] pf c); try discriminate E. destruct (nth_error r (1 - q mod 2)) as [s|]; [|discriminate E].
    change (fpow (gen (S h)) (Field.reverse_bits_len q (S h))) with (at_point q h) in *.
    rewrite (pair_shift F beta (at_point q h) v1 d s (at_point_nz q h Lh)).
    eapply IH with (d := fmul (folded_pair F beta (at_point q h) f1 f0) d) in E; [|exact T1]. rewrite E. do 3 f_equal. apply (shift_assoc F).
  Qed.
  Lemma chain_top : forall t h c o b ls q r d, chain F M IE t ((h, c, o, b) :: ls) q f0 [(S h, fadd r d)] = chain F M IE t ((h, c, o, b) :: ls) q (fadd f0 d) [(S h, r)].
  Proof.
    intros t h c [vals pf] b ls q r d. cbn [chain]. unfold next_opening. replace (S h =? h + 1) with true by (symmetry; apply Nat.eqb_eq; lia).
    now rewrite (shift_top F).
  Qed.
End Chain.

Definition is_ok {E A} (o : outcome E A) : bool := match o with Ok _ => true | _ => false end.
Section C74.
  Variable H : bytes -> bytes.
  Variable G : gadgets.
  Hypothesis OK : gadgets_ok H G.
  Variable M0 : mmcs BabyBearT.
  Variable M : mmcs ExtT.
  Variable config : fri_config.
  Variable debug : bool.
  Variable alpha : ExtT.
  Notation F := bf_ext4.

  (** The expressions have the values the native verifier computes, whatever the
      commitments, the openings and the challenge; an error of verify_batch is the
      same error. *)
  Theorem C74_openings : forall lg rounds, opens_ok G F _ (m_err M0) (open_input_expr M0 config alpha lg rounds) (native_openings M0 config alpha lg rounds).
  Proof.
    intros lg rounds t q ip. destruct (opens_with G inverse M0 config alpha lg rounds t q ip) as [A B]. split; [exact A|].
    rewrite <- (reduced_native M0 config alpha lg rounds t q ip). exact B.
  Qed.

  (** No script where the native verifier panics. *)
  Lemma points_panic : forall inv x at_x pts e z m n, points_with inv alpha x at_x pts z = None -> points_loop inv alpha x at_x pts e m n = None.
  Proof.
    intros inv x at_x. induction pts as [|[z0 at_z] pts IH]; intros e z m n E; [discriminate E|]. cbn [points_with points_loop] in *. unfold bind at 1.
    destruct (const_f F f0 n) as [[acc n0]|]; [|reflexivity]. unfold bind at 1. destruct (acc_loop alpha (fst e) acc at_x at_z m n0) as [[[r m1] n1]|]; [|reflexivity].
    destruct (inv (fadd (fopp z0) (from_base x))) as [i|]; [|reflexivity].
    unfold bind, get, ret. cbn [fst snd]. destruct (assign_input_var (f_words F i) m1 n1) as [[[h m2] n2]|]; [|reflexivity]. cbn [fst snd].
    destruct (mul (snd r) h n2) as [[p n3]|]; [|reflexivity]. destruct (add (snd e) p n3) as [[ro n4]|]; [|reflexivity]. eapply IH; exact E.
  Qed.
  Lemma mats_panic : forall inv lg index mats ops l zl m n, mats_with inv config alpha lg index ops mats zl = None ->
    mats_loop inv config alpha lg index ops mats l m n = None.
  Proof.
    intros inv lg index. induction mats as [|[d pts] mats IH]; intros [|o ops] l zl m n E; try discriminate E. cbn [mats_with mats_loop] in *. cbv zeta in *.
    destruct (lg <? log_n d + log_blowup config); [reflexivity|]. destruct (two_adic_generator BabyBearT (log_n d + log_blowup config)) as [g|]; [|reflexivity].
    unfold bind, get, ret. destruct (const_f F f1 n) as [[one n0]|]; [|reflexivity]. destruct (const_f F f0 n0) as [[zero n1]|]; [|reflexivity].
    match type of E with match ?p with _ => _ end = _ => destruct p as [z|] eqn:Ep end.
    - match goal with |- match ?p with _ => _ end = _ => destruct p as [[[r m1] n2]|] end; [|reflexivity]. eapply IH; exact E.
    - erewrite points_panic by exact Ep. reflexivity.
  Qed.
  Lemma batches_panic : forall inv lg t index rounds ip l zl m n, batches_with inv M0 config alpha lg t index ip rounds zl = Panic ->
    batches_loop inv M0 config alpha lg t index ip rounds l m n = None.
  Proof.
    intros inv lg t index. induction rounds as [|[c mats] rounds IH]; intros [|[ov pf] ip] l zl m n E; try discriminate E. cbn [batches_with batches_loop] in *.
    destruct mats as [|d mats]; [reflexivity|]. match goal with |- (if ?b then _ else _) _ = _ => destruct b end; [reflexivity|].
    destruct (m_verify_batch M0 t ov pf c); [|discriminate E|reflexivity]. unfold bind.
    destruct (mats_with inv config alpha lg index ov (d :: mats) zl) as [zl1|] eqn:Em.
    - match goal with |- match ?p with _ => _ end = _ => destruct p as [[[r m1] n2]|] end; [|reflexivity]. eapply IH; exact E.
    - erewrite mats_panic by exact Em. reflexivity.
  Qed.
  Theorem C74_panics : forall lg rounds t q ip m n, native_openings M0 config alpha lg rounds t q ip = Panic ->
    open_input_expr M0 config alpha lg rounds t q ip m n = None.
  Proof.
    intros lg rounds t q ip m n E. rewrite <- (reduced_native M0 config alpha lg rounds t q ip) in E. unfold reduced_with in E. unfold open_input_expr, open_input_with, bind.
    destruct (batches_with inverse M0 config alpha lg t q ip rounds []) eqn:Eb; try discriminate E. erewrite batches_panic by exact Eb. reflexivity.
  Qed.

  (** One query of generate_verify_expr against the same query natively. *)
  Theorem C74_query : forall rounds commits final bs log_max_height t q ip openings ros w n,
    1 <= log_max_height <= 27 -> q < 2 ^ log_max_height -> length commits < log_max_height ->
    native_openings M0 config alpha log_max_height rounds t q ip = Ok ros ->
    verify_query F M (open_proof M0) (m_err M0) config debug commits q t (Build_query_proof F M (open_proof M0) ip openings) bs ros log_max_height = Ok w ->
    top_consistent F M log_max_height commits openings bs q f0 ros -> leftover F M (layers F M log_max_height commits openings bs) ros = [] ->
    exists m n', n <= n' /\
      query_manager F M (open_proof M0) (m_err M0) config debug (open_input_expr M0 config alpha log_max_height rounds) commits final bs log_max_height t q ip openings n = Some (Ok m, n') /\
      accepted_iff H G n' m (w = final).
  Proof.
    intros rounds commits final bs lmh t q ip openings ros w n L1 Lq Lc No Nv Tc Lf.
    exact (C72_native_verdict H G OK F (or_intror eq_refl) M _ _ config debug _ _ (C74_openings lmh rounds) commits final bs lmh t q ip openings ros w n L1 Lq Lc No Nv Tc Lf).
  Qed.


  (** *** The input for 1 / (x - z) is not checked *)

  (** one committed matrix of the largest height, opened at one point *)
  Definition one_round (commit : m_comm M0) (domain : coset BabyBearT) (z : ExtT) (at_z : list ExtT) : open_rounds M0 := [(commit, [(domain, [(z, at_z)])])].
  Definition one_proof (at_x : list BabyBearT) (pf : m_proof M0) : open_proof M0 := [([at_x], pf)].
  (** sum of alpha^i (p_i(x) - p_i(z)) *)
  Notation numerator at_x at_z := (snd (acc_values BabyBearT ExtT from_base alpha f1 f0 at_x at_z)).
  Lemma one_reduced : forall inv commit domain z at_z t q at_x pf, let lg := log_n domain + log_blowup config in
    reduced_with inv M0 config alpha lg (one_round commit domain z at_z) t q (one_proof at_x pf) =
    match m_verify_batch M0 t [at_x] pf commit with
    | Ok _ => match two_adic_generator BabyBearT lg with
              | None => Panic
              | Some g => match inv (fadd (fopp z) (from_base (fmul (of_Z 31 : BabyBearT) (fpow g (Field.reverse_bits_len q lg))))) with
                          | None => Panic
                          | Some i => Ok [(lg, fadd f0 (fmul (numerator at_x at_z) i))]
                          end
              end
    | Err e => Err e
    | Panic => Panic
    end.
  Proof.
    intros inv commit domain z at_z t q at_x pf lg. unfold reduced_with, one_round, one_proof. cbn [batches_with fold_left fst]. cbn [Nat.max].
    fold lg. rewrite Nat.ltb_irrefl. destruct (m_verify_batch M0 t [at_x] pf commit); [|reflexivity|reflexivity].
    cbn [mats_with]. fold lg. rewrite Nat.ltb_irrefl, Nat.sub_diag, Nat.pow_0_r, Nat.div_1_r. destruct (two_adic_generator BabyBearT lg) as [g|]; [|reflexivity].
    cbn [points_with entry fst snd]. match goal with |- context [inv ?y] => destruct (inv y) end; reflexivity.
  Qed.
  Lemma one_ok : forall commit domain z at_z t q at_x pf lg, lg = log_n domain + log_blowup config ->
    is_ok (native_openings M0 config alpha lg (one_round commit domain z at_z) t q (one_proof at_x pf)) = true ->
    exists r, native_openings M0 config alpha lg (one_round commit domain z at_z) t q (one_proof at_x pf) = Ok [(lg, r)].
  Proof.
    intros commit domain z at_z t q at_x pf lg -> Q. pose proof (one_reduced inverse commit domain z at_z t q at_x pf) as E. cbv zeta in E. rewrite reduced_native in E. rewrite E in *.
    destruct (m_verify_batch M0 t [at_x] pf commit); try discriminate Q. destruct (two_adic_generator BabyBearT (log_n domain + log_blowup config)); try discriminate Q.
    match type of Q with is_ok match ?y with _ => _ end = _ => destruct y; [|discriminate Q] end. eauto.
  Qed.
  Lemma layers_tops : forall n commits openings bs, n <= 27 -> tops F M (layers F M n commits openings bs).
  Proof.
    induction n as [|n IH]; intros [|c commits] [|o openings] [|b bs] Ln; cbn [layers]; try constructor. { cbn. lia. } apply IH. lia.
  Qed.

  (** If the numerator is not zero and no challenge is the opposite of its point,
      there is for every final value an input in place of the inverse with which the
      query is accepted. *)
  Theorem C74_inverse_free : forall commit domain z at_z at_x pf c commits o openings b bs t q v final n,
    let lg := log_n domain + log_blowup config in let ls := layers F M lg (c :: commits) (o :: openings) (b :: bs) in
    1 <= lg <= 27 -> q < 2 ^ lg -> S (length commits) < lg ->
    folds_to F M _ (m_err M0) config debug (native_openings M0 config alpha lg (one_round commit domain z at_z)) (c :: commits) (b :: bs) lg t q (one_proof at_x pf) (o :: openings) v ->
    live F M ls q -> numerator at_x at_z <> f0 ->
    exists i m n', query_manager F M (open_proof M0) (m_err M0) config debug (open_input_with (fun _ => Some i) M0 config alpha lg (one_round commit domain z at_z))
        (c :: commits) final (b :: bs) lg t q (one_proof at_x pf) (o :: openings) n = Some (Ok m, n') /\
      accepted_iff H G n' m True.
  Proof.
    intros commit domain z at_z at_x pf c commits o openings b bs t q v final n lg ls Lg Lq Lc [zros q' No Ch Db] Lv Na.
    pose proof (one_reduced inverse commit domain z at_z t q at_x pf) as E0. cbv zeta in E0. fold lg in E0. rewrite (reduced_native M0 config alpha lg) in E0. rewrite No in E0.
    destruct (m_verify_batch M0 t [at_x] pf commit) as [u|e|] eqn:Ev; try discriminate E0.
    destruct (two_adic_generator BabyBearT lg) as [g|] eqn:Eg; try discriminate E0.
    match type of E0 with _ = match ?y with _ => _ end => destruct y as [i0|] end; [|discriminate E0]. injection E0 as ->.
    fold ls in Ch. pose proof (layers_tops lg (c :: commits) (o :: openings) (b :: bs) ltac:(lia)) as Tp. fold ls in Tp.
    destruct (shift_solve ExtT (numerator at_x at_z) (slope F M ls q) v final i0 Na (slope_nz F bf_ext4_laws M ls q Tp Lv)) as [i Ei].
    assert (Ch' : chain F M (m_err M0) t ls q f0 [(lg, fadd f0 (fmul (numerator at_x at_z) i) : ExtT)] = Ok (final, q', [])).
    { set (d := fadd (fmul (numerator at_x at_z) i) (fopp (fmul (numerator at_x at_z) i0))) in Ei.
      assert (Ed : fadd f0 (fmul (numerator at_x at_z) i) = fadd (fadd f0 (fmul (numerator at_x at_z) i0)) d).
      { unfold d. clear. set (a := fmul (numerator at_x at_z) i). set (a0 := fmul (numerator at_x at_z) i0). apply (shift_cancel ExtT). }
      pose proof (chain_shift F bf_ext4_laws M (m_err M0) t ls q f0 d _ _ _ _ Tp Ch) as Cs. refine (eq_trans _ (eq_trans Cs _)); [|rewrite <- Ei; reflexivity].
      unfold ls. destruct lg as [|h]; [lia|]. cbn [layers]. rewrite Ed. apply (chain_top F M). }
    destruct (C72_query H G OK F (or_intror eq_refl) M _ (m_err M0) config debug _ _ (opens_with G (fun _ => Some i) M0 config alpha lg (one_round commit domain z at_z))
      (c :: commits) final (b :: bs) lg t q (one_proof at_x pf) (o :: openings) final n Lg Lq Lc) as (m & n' & _ & Eq & A).
    { eapply folds_to_intro; [|exact Ch'|exact Db]. pose proof (one_reduced (fun _ => Some i) commit domain z at_z t q at_x pf) as E1. cbv zeta in E1. fold lg in E1.
      rewrite Ev, Eg in E1. exact E1. }
    exists i, m, n'. split; [exact Eq|]. intros n1 L1. destruct (A n1 L1) as (m' & n2 & Em & R). exists m', n2. split; [exact Em|]. intros Rm.
    specialize (R Rm). split; [auto|]. intros _. now apply R.
  Qed.
End C74.

(** ** A concrete setting *)
Definition toy_mmcs0 : mmcs BabyBearT := mk_mmcs (car BabyBearT) unit unit bool unit unit
  (fun _ _ => None) (fun _ => None) (fun _ _ _ => None) (fun _ _ pf _ => if pf then Ok tt else Err tt).
Definition toy_mmcs4 : mmcs ExtT := mk_mmcs (car ExtT) unit unit bool unit unit
  (fun _ _ => None) (fun _ => None) (fun _ _ _ => None) (fun _ _ pf _ => if pf then Ok tt else Err tt).
Definition toy_domain : coset BabyBearT := {| log_n := 1; shift := of_Z 1 |}.
Definition toy_alpha : ExtT := ext_of 9.
(** two columns of height 2 opened at two points, another matrix of the same height, one of height 1 in a second batch *)
Definition toy_rounds : open_rounds toy_mmcs0 :=
  [(tt, [(toy_domain, [(ext_of 100, [ext_of 1; ext_of 2]); (ext_of 200, [ext_of 3; ext_of 4])]); (toy_domain, [(ext_of 100, [ext_of 5])])]);
   (tt, [({| log_n := 0; shift := of_Z 1 |}, [(ext_of 300, [ext_of 6])])])].
Definition toy_input : open_proof toy_mmcs0 := [([[of_Z 7; of_Z 8]; [of_Z 9]], true); ([[of_Z 10]], true)].
Definition toy_openings (rounds : open_rounds toy_mmcs0) (q : nat) (ip : open_proof toy_mmcs0) : outcome unit (list (nat * ExtT)) :=
  native_openings toy_mmcs0 (toy_config 1) toy_alpha 2 rounds 0 q ip.
Definition same_ros (a b : list (nat * ExtT)) : bool := (length a =? length b) && forallb (fun p => (fst (fst p) =? fst (snd p)) && feqb (snd (fst p)) (snd (snd p))) (combine a b).
Definition words_of (o : outcome unit (list (nat * ExtT))) : list (nat * list Z) := match o with Ok l => map (fun p => (fst p, f_words bf_ext4 (snd p))) l | _ => [] end.
(** Two heights, a height with three points: the native values, and the expressions for both heights. *)
Example C74_example_openings :
  words_of (toy_openings toy_rounds 1 toy_input) = [(2, [498615750; 743829691; 242764672; 1604405404]%Z); (1, [1501726237; 611758510; 1515113631; 1770373558]%Z)] /\
  match open_input_expr toy_mmcs0 (toy_config 1) toy_alpha 2 toy_rounds 0 1 toy_input manager_new 0 with Some ((Ok es, _), _) => map fst es | _ => [] end = [2; 1].
Proof. vm_compute. auto. Qed.
(** A wrong opening proof is an error, no matrix in a batch and a point of the domain are panics. *)
Definition outcome_kind {E A} (o : outcome E A) : nat := match o with Ok _ => 0 | Err _ => 1 | Panic => 2 end.
Example C74_example_errors :
  outcome_kind (toy_openings toy_rounds 1 [([[of_Z 7; of_Z 8]; [of_Z 9]], true); ([[of_Z 10]], false)]) = 1 /\
  outcome_kind (toy_openings [(tt, [])] 1 toy_input) = 2 /\
  outcome_kind (toy_openings [(tt, [(toy_domain, [(from_base (fmul (of_Z 31 : BabyBearT) (fpow (bb_gen 2) 2)), [ext_of 1])])])] 1 toy_input) = 2.
Proof. vm_compute. auto. Qed.

(** One layer whose row has the reduced opening at the queried point 1. *)
Definition toy_round : open_rounds toy_mmcs0 := one_round toy_mmcs0 tt toy_domain (ext_of 100) [ext_of 1; ext_of 2].
Definition toy_proof : open_proof toy_mmcs0 := one_proof toy_mmcs0 [of_Z 7; of_Z 8] true.
Definition toy_beta : ExtT := ext_of 11.
Definition toy_row : list (list ExtT) := match toy_openings toy_round 1 toy_proof with Ok [(_, r)] => [[ext_of 20; r]] | _ => [] end.
(** the manager with its checks embedded *)
Definition embedded (x : option (eresult bf_ext4 toy_mmcs4 unit manager * nat)) : option manager :=
  match x with Some (Ok m, n) => option_map fst (embed_hint_verify m n) | _ => None end.
Definition toy_manager (inv : ExtT -> option ExtT) (final : ExtT) : option manager :=
  embedded (query_manager bf_ext4 toy_mmcs4 _ unit (toy_config 1) true (open_input_with inv toy_mmcs0 (toy_config 1) toy_alpha 2 toy_round) [tt] final [toy_beta] 2 0 1 toy_proof [(toy_row, true)] 0).
Definition toy_query (H : bytes -> bytes) (inv : ExtT -> option ExtT) (final : ExtT) : option bool := option_map (run_manager H my_gadgets) (toy_manager inv final).
Lemma toy_manager_eq : forall inv final x,
  query_manager bf_ext4 toy_mmcs4 _ unit (toy_config 1) true (open_input_with inv toy_mmcs0 (toy_config 1) toy_alpha 2 toy_round) [tt] final [toy_beta] 2 0 1 toy_proof [(toy_row, true)] 0 = x ->
  toy_manager inv final = embedded x.
Proof. intros inv final x E. exact (f_equal embedded E). Qed.
Lemma toy_query_eq : forall H inv final m, toy_manager inv final = Some m -> toy_query H inv final = Some (run_manager H my_gadgets m).
Proof. intros H inv final m E. exact (f_equal (option_map (run_manager H my_gadgets)) E). Qed.
Lemma embedded_eq : forall m n m' n2, embed_hint_verify m n = Some (m', n2) -> embedded (Some (Ok m, n)) = Some m'.
Proof. intros m n m' n2 E. exact (f_equal (option_map fst) E). Qed.
(** what the native verifier folds the query to *)
Definition toy_folded : option ExtT :=
  match toy_openings toy_round 1 toy_proof with
  | Ok ros => match verify_query ExtT toy_mmcs4 _ unit (toy_config 1) true [tt] 1 0 (Build_query_proof ExtT toy_mmcs4 _ toy_proof [(toy_row, true)]) [toy_beta] ros 2 with Ok v => Some v | _ => None end
  | _ => None
  end.
(** The hypotheses of C74_query and C74_inverse_free hold here. *)
Lemma toy_row_ok : exists r, toy_openings toy_round 1 toy_proof = Ok [(2, r)] /\ toy_row = [[ext_of 20; r]].
Proof.
  assert (Q : is_ok (toy_openings toy_round 1 toy_proof) = true) by (vm_compute; reflexivity).
  destruct (one_ok toy_mmcs0 (toy_config 1) toy_alpha tt toy_domain (ext_of 100) [ext_of 1; ext_of 2] 0 1 [of_Z 7; of_Z 8] true 2 eq_refl Q) as [r Er].
  exists r. unfold toy_row. fold toy_round toy_proof in Er. change (toy_openings toy_round 1 toy_proof = Ok [(2, r)]) in Er. rewrite Er. split; reflexivity.
Qed.
Example C74_example_hypotheses : exists r w,
  toy_openings toy_round 1 toy_proof = Ok [(2, r)] /\
  verify_query bf_ext4 toy_mmcs4 (open_proof toy_mmcs0) unit (toy_config 1) true [tt] 1 0 (Build_query_proof bf_ext4 toy_mmcs4 (open_proof toy_mmcs0) toy_proof [(toy_row, true)]) [toy_beta] [(2, r)] 2 = Ok w /\
  top_consistent bf_ext4 toy_mmcs4 2 [tt] [(toy_row, true)] [toy_beta] 1 f0 [(2, r)] /\
  leftover bf_ext4 toy_mmcs4 (layers bf_ext4 toy_mmcs4 2 [tt] [(toy_row, true)] [toy_beta]) [(2, r)] = [] /\
  folds_to bf_ext4 toy_mmcs4 (open_proof toy_mmcs0) unit (toy_config 1) true (native_openings toy_mmcs0 (toy_config 1) toy_alpha 2 toy_round) [tt] [toy_beta] 2 0 1 toy_proof [(toy_row, true)] w /\
  live bf_ext4 toy_mmcs4 (layers bf_ext4 toy_mmcs4 2 [tt] [(toy_row, true)] [toy_beta]) 1 /\
  snd (acc_values BabyBearT ExtT from_base toy_alpha f1 f0 [of_Z 7; of_Z 8] [ext_of 1; ext_of 2]) <> f0.
Proof.
  destruct toy_row_ok as (r & Eo & Er). exists r.
  destruct (toy_folded) as [w|] eqn:Ef.
  2:{ exfalso. assert (Q : match toy_folded with Some _ => true | None => false end = true) by (vm_compute; reflexivity). rewrite Ef in Q. discriminate Q. }
  exists w. unfold toy_folded in Ef. rewrite Eo in Ef.
  match type of Ef with match ?y with _ => _ end = _ => destruct y as [w'| |] eqn:Ev; try discriminate Ef end. injection Ef as ->.
  assert (T : top_consistent bf_ext4 toy_mmcs4 2 [tt] [(toy_row, true)] [toy_beta] 1 f0 [(2, r)]).
  { rewrite Er. cbn. f_equal. apply (shift_zero ExtT). }
  split; [exact Eo|]. split; [exact Ev|]. split; [exact T|]. split; [reflexivity|]. split; [|split].
  - unfold verify_query in Ev. cbn [commit_phase_openings] in Ev.
    match type of Ev with match ?y with _ => _ end = _ => destruct y as [[w' q']|e|] eqn:Eq; try discriminate Ev end.
    match type of Ev with (if ?y then _ else _) = _ => destruct y eqn:Db; try discriminate Ev end. injection Ev as ->.
    eapply (native_chain bf_ext4 (or_intror eq_refl)) in Eq; [|lia|lia|intros _; exact T].
    exact (folds_to_intro bf_ext4 toy_mmcs4 (open_proof toy_mmcs0) unit (toy_config 1) true _ _ _ _ _ _ _ _ _ [(2, r)] q' Eo Eq Db).
  - split; [|exact Logic.I]. intros E. assert (Q : feqb toy_beta (fopp (at_point bf_ext4 1 1) : ExtT) = false) by (vm_compute; reflexivity). rewrite E in Q.
    change (feqb (fopp (at_point bf_ext4 1 1) : ExtT) (fopp (at_point bf_ext4 1 1) : ExtT) = false) in Q. rewrite feqb_refl in Q. discriminate Q.
  - intros E. assert (Q : feqb (snd (acc_values BabyBearT ExtT from_base toy_alpha f1 f0 [of_Z 7; of_Z 8] [ext_of 1; ext_of 2])) f0 = false) by (vm_compute; reflexivity).
    rewrite E, feqb_refl in Q. discriminate Q.
Qed.

(** the scripts of this query fit on the stack, whatever the inverse and the final value *)
Definition room_b (m : manager) : bool :=
  match mn_exec m with Some e => (Z.of_nat (length (flat_map snd (given m)) + need my_gadgets (snd (simulate_input m)) e) <? 2 ^ 31)%Z | None => true end.
Lemma room_b_ok : forall m, room_b m = true -> room my_gadgets m.
Proof. intros m E e Ee. unfold room_b in E. rewrite Ee in E. now apply Z.ltb_lt. Qed.
Definition fits (o : option manager) : bool := match o with Some m => room_b m | None => false end.
Lemma toy_room_with : forall i final : ExtT, fits (toy_manager (fun _ => Some i) final) = true.
Proof. intros [[i0 i2] [i1 i3]] [[k0 k2] [k1 k3]]. vm_compute. reflexivity. Qed.
Lemma toy_room_inverse : forall final : ExtT, fits (toy_manager inverse final) = true.
Proof. intros [[k0 k2] [k1 k3]]. vm_compute. reflexivity. Qed.

(** with the inverse: the value folded natively and no other *)
Lemma toy_inverse : forall H v, toy_folded = Some v -> forall final, toy_query H inverse final = Some (@feqb ExtT v final).
Proof.
  intros H v0 Ev0 final. assert (N1 : 1 <= 2 <= 27) by lia. assert (N2 : 1 < 2 ^ 2) by (cbn; lia). assert (N3 : length [tt] < 2) by (cbn; lia).
  destruct C74_example_hypotheses as (r & v & Eo & Ev & Tc & Lf & Ft & Lv & Nn).
  destruct (C74_query H my_gadgets (gadgets_satisfiable H) toy_mmcs0 toy_mmcs4 (toy_config 1) true toy_alpha toy_round [tt] final [toy_beta] 2 0 1 toy_proof [(toy_row, true)] [(2, r)] v 0
      N1 N2 N3 Eo Ev Tc Lf) as (m & n' & _ & Em & A).
  destruct (A n' (le_n n')) as (m' & n2 & Ee & Q). pose proof (toy_room_inverse final) as R.
  assert (Q2 : v = v0).
  { unfold toy_folded in Ev0. rewrite Eo in Ev0.
    match type of Ev0 with match ?y with _ => _ end = _ => assert (Ev' : y = Ok v) by exact Ev end. rewrite Ev' in Ev0. congruence. }
  pose proof (eq_trans (toy_manager_eq inverse final _ Em) (embedded_eq _ _ _ _ Ee)) as T. rewrite T in R. rewrite (toy_query_eq H _ _ _ T).
  specialize (Q (room_b_ok _ R)). apply (f_equal Some). clear -Q Q2. subst v0.
  destruct (feqb_spec ExtT v final) as [F|F]; destruct (run_manager H my_gadgets m');
    [reflexivity|exfalso|exfalso|reflexivity]; clear -F Q; destruct Q as [Q1 Q2]; [specialize (Q2 F); discriminate Q2|exact (F (Q1 eq_refl))].
Qed.
(** with another input: any value *)
Lemma toy_any : forall H final, exists i, toy_query H (fun _ => Some i) final = Some true.
Proof.
  intros H final. assert (N1 : 1 <= 2 <= 27) by lia. assert (N2 : 1 < 2 ^ 2) by (cbn; lia). assert (N3 : length [tt] < 2) by (cbn; lia).
  destruct C74_example_hypotheses as (r & v & Eo & Ev & Tc & Lf & Ft & Lv & Nn).
  destruct (C74_inverse_free H my_gadgets (gadgets_satisfiable H) toy_mmcs0 toy_mmcs4 (toy_config 1) true toy_alpha tt toy_domain (ext_of 100) [ext_of 1; ext_of 2] [of_Z 7; of_Z 8] true
    tt [] (toy_row, true) [] toy_beta [] 0 1 v final 0 N1 N2 N3 Ft Lv Nn) as (i & m & n' & Em & A).
  exists i. pose proof (toy_room_with i final) as R. destruct (A n' (le_n n')) as (m' & n2 & Ee & Q).
  pose proof (eq_trans (toy_manager_eq (fun _ => Some i) final _ Em) (embedded_eq _ _ _ _ Ee)) as T. rewrite T in R. rewrite (toy_query_eq H _ _ _ T).
  apply (f_equal Some). apply Q; [exact (room_b_ok _ R)|exact Logic.I].
Qed.

(** Claim: a script of a query that is accepted has the final value the native
    verifier folds the query to, whatever the inputs put in for 1 / (x - z).  It does
    not hold. *)
Theorem C74_inverse_bound_refuted : forall H, exists v i final, toy_folded = Some v /\ final <> v /\
  toy_query H inverse v = Some true /\ toy_query H inverse final = Some false /\ toy_query H (fun _ => Some i) final = Some true.
Proof.
  intros H. destruct toy_folded as [v|] eqn:E.
  2:{ exfalso. assert (Q : match toy_folded with Some _ => true | None => false end = true) by (vm_compute; reflexivity). rewrite E in Q. discriminate Q. }
  pose proof (toy_inverse H v E) as Qi. exists v. assert (Nf : fadd (v : ExtT) f1 <> v) by apply (next_ne ExtT). set (final := fadd (v : ExtT) f1) in Nf. clearbody final.
  destruct (toy_any H final) as [i Qa]. exists i, final. split; [reflexivity|]. split; [exact Nf|]. split; [|split; [|exact Qa]]; rewrite Qi; apply (f_equal Some).
  - exact (@feqb_refl ExtT v).
  - destruct (feqb_spec ExtT v final) as [F|F]; [exfalso; exact (Nf (eq_sym F))|reflexivity].
Qed.
