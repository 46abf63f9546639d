(** Property C91: scripts as bytes.

    What a leaf commits to and what the interpreter runs are bytes; the other files speak of lists of
    opcodes.  Here the two are connected: reading the bytes of a script gives back its opcodes, so
    nothing proved about the opcodes is lost, and an opening whose leaf is an arbitrary byte string
    (which may contain opcodes outside the model) is accepted only for a committed leaf. *)
From Coq Require Import ZArith NArith List Bool Lia Arith.
From Verif Require Import ScriptNum ScriptVM VMLemmas U32Model Lift WinternitzModel WinternitzSpec PropSign
  TaptreeModel TaptreeProofs PropTaptree TcsModel TcsProofs TcsProofs2 PropTcs PropTcsKeys ScriptBytes.
Import ListNotations.
Local Open Scope Z_scope.

(** ** Specification *)

(** The pushes a ScriptBuf can hold and the interpreter accepts: integers of 64 bits, byte strings of
    at most 520 bytes, none of which is a number of one byte with an opcode of its own. *)
Definition writable (o : op) : Prop :=
  match o with
  | PUSHN z => - 2 ^ 63 <= z < 2 ^ 63
  | PUSHB b => (length b <= 520)%nat /\ (forall z, z = -1 \/ 1 <= z <= 16 -> b <> enc z)
  | _ => True
  end.
(** Opcodes up to the two ways of writing a push. *)
Definition pushed (o : op) : option bytes := match o with PUSHN z => Some (enc z) | PUSHB b => Some b | _ => None end.
Definition same_op (o o' : op) : Prop := o = o' \/ pushed o <> None /\ pushed o = pushed o'.

(** ** Reading what was written *)
Lemma take_app a r : take (length a) (a ++ r) = Some (a, r).
Proof.
  unfold take. rewrite app_length. destruct (Nat.leb_spec (length a) (length a + length r)); [|lia].
  rewrite firstn_app, firstn_all, Nat.sub_diag, skipn_app, skipn_all, Nat.sub_diag. cbn. now rewrite app_nil_r.
Qed.
Lemma le_length n : forall v, length (le_bytes n v) = n.
Proof. induction n as [|n IH]; intros v; cbn; [|rewrite IH]; reflexivity. Qed.
Lemma le_value_le n : forall v, 0 <= v < 256 ^ Z.of_nat n -> le_value (le_bytes n v) = v.
Proof.
  induction n as [|n IH]; intros v Hv; [cbn in *; lia|].
  cbn [le_bytes le_value]. rewrite Nat2Z.inj_succ, Z.pow_succ_r in Hv by lia.
  rewrite IH; [|split; [apply Z.div_pos; lia|apply Z.div_lt_upper_bound; lia]].
  pose proof (Z.div_mod v 256 ltac:(lia)). lia.
Qed.
Lemma take_len_app k b r : Z.of_nat (length b) < 256 ^ Z.of_nat k ->
  take_len k (le_bytes k (Z.of_nat (length b)) ++ b ++ r) = Some (b, r).
Proof.
  intros L. unfold take_len. rewrite <- (le_length k (Z.of_nat (length b))) at 1. rewrite take_app, le_value_le by lia.
  rewrite app_length, Nat2Z.inj_add. destruct (Z.ltb_spec (Z.of_nat (length b) + Z.of_nat (length r)) (Z.of_nat (length b))); [lia|].
  rewrite Nat2Z.id. apply take_app.
Qed.

(** The instruction read back. *)
Definition norm (o : op) : op :=
  match o with
  | PUSHN z => if small z || (z =? 0) then o else PUSHB (enc z)
  | PUSHB [] => PUSHN 0
  | _ => o
  end.
Lemma small_spec z : small z = true <-> z = -1 \/ 1 <= z <= 16.
Proof. unfold small. destruct (Z.eqb_spec z (-1)), (Z.leb_spec 1 z), (Z.leb_spec z 16); cbn; split; intros; lia || discriminate. Qed.
Lemma minimal_small b : (forall z, z = -1 \/ 1 <= z <= 16 -> b <> enc z) -> minimal_direct b = true.
Proof.
  intros N. destruct b as [|x [|]]; try reflexivity. cbn [minimal_direct].
  destruct (Z.eqb_spec x 129) as [-> |]; [destruct (N (-1)); [auto|reflexivity]|].
  destruct (Z.leb_spec 1 x); [|reflexivity]. destruct (Z.leb_spec x 16); [|reflexivity]. exfalso. apply (N x); [lia|].
  assert (forall k, (k < 16)%nat -> [1 + Z.of_nat k] = enc (1 + Z.of_nat k)) as E
    by (intros k Hk; do 16 (destruct k as [|k]; [reflexivity|]); lia).
  specialize (E (Z.to_nat (x - 1)) ltac:(lia)). rewrite Z2Nat.id in E by lia. replace (1 + (x - 1)) with x in E by lia. exact E.
Qed.
Lemma read_slice strict b r : (length b <= 520)%nat -> (strict = true -> minimal_direct b = true) -> b <> [] ->
  read strict (push_slice b ++ r) = Some (Known (PUSHB b), r).
Proof.
  intros L M Nb. unfold push_slice.
  assert (0 < length b)%nat as P by (destruct b; [congruence|cbn; lia]).
  destruct (Z.ltb_spec (Z.of_nat (length b)) 76); [|destruct (Z.ltb_spec (Z.of_nat (length b)) 256); [|destruct (Z.ltb_spec (Z.of_nat (length b)) 65536); [|lia]]].
  - cbn [app read]. destruct (Z.eqb_spec (Z.of_nat (length b)) 0); [lia|].
    destruct (Z.ltb_spec (Z.of_nat (length b)) 76); [|lia]. rewrite Nat2Z.id, take_app.
    destruct strict; [rewrite M by reflexivity|]; reflexivity.
  - cbn [app]. rewrite <- app_assoc. cbn [read Z.eqb Z.ltb Z.compare Pos.compare Pos.compare_cont Pos.eqb].
    rewrite (take_len_app 1) by (change (256 ^ Z.of_nat 1) with 256; lia).
    unfold minimal_from. destruct (Nat.leb_spec 76 (length b)); [|lia]. now rewrite orb_true_r.
  - cbn [app]. rewrite <- app_assoc. cbn [read Z.eqb Z.ltb Z.compare Pos.compare Pos.compare_cont Pos.eqb].
    rewrite (take_len_app 2) by (change (256 ^ Z.of_nat 2) with 65536; lia).
    unfold minimal_from. destruct (Nat.leb_spec 256 (length b)); [|lia]. now rewrite orb_true_r.
Qed.
Lemma enc_short z : - 2 ^ 63 <= z < 2 ^ 63 -> (length (enc z) <= 9)%nat.
Proof.
  intros Hz. destruct (Z.eq_dec z 0) as [-> |N]; [apply Nat.leb_le; reflexivity|].
  unfold enc. apply set_sign_length_le; [apply mag_bytes_wf; lia|]. rewrite mag_bytes_val by lia.
  change (128 * 256 ^ Z.of_nat 8) with 2361183241434822606848. change (2 ^ 63) with 9223372036854775808 in Hz. lia.
Qed.
Lemma read_op strict o r : writable o -> read strict (ser_op o ++ r) = Some (Known (norm o), r).
Proof.
  destruct o; cbn [writable]; intros W; try reflexivity.
  - cbn [ser_op norm]. unfold push_int. destruct (small z) eqn:S; cbn [orb].
    + cbn [app read]. apply small_spec in S.
      destruct (Z.eqb_spec (80 + z) 0); [lia|]. destruct (Z.ltb_spec (80 + z) 76); [lia|].
      destruct (Z.eqb_spec (80 + z) 76); [lia|]. destruct (Z.eqb_spec (80 + z) 77); [lia|].
      destruct (Z.eqb_spec (80 + z) 78); [lia|].
      replace (80 + z - 80) with z by lia. rewrite (proj2 (small_spec z) S). reflexivity.
    + destruct (Z.eqb_spec z 0) as [-> |N]; [reflexivity|].
      apply read_slice; [pose proof (enc_short z W); lia| |].
      * intros _. apply minimal_small. intros z' Hz E. apply enc_inj in E. subst z'.
        apply small_spec in Hz. congruence.
      * change [] with (enc 0). intros E. apply enc_inj in E. lia.
  - destruct W as [L M]. destruct b as [|x b]; [reflexivity|].
    change (norm (PUSHB (x :: b))) with (PUSHB (x :: b)). cbn [ser_op]. apply read_slice; [exact L| |discriminate].
    intros _. now apply minimal_small.
Qed.
Lemma ser_nonempty o : ser_op o <> [].
Proof.
  destruct o; try discriminate; cbn [ser_op]; unfold push_int, push_slice; repeat destruct (_ <? _); try discriminate;
    destruct (small z); try discriminate; destruct (z =? 0); discriminate.
Qed.
Lemma instructions_serialize strict s : Forall writable s -> forall fuel, (length (serialize s) <= fuel)%nat ->
  instructions strict fuel (serialize s) = (map (fun o => Known (norm o)) s, true).
Proof.
  induction 1 as [|o s W _ IH]; intros fuel L; [destruct fuel; reflexivity|].
  change (serialize (o :: s)) with (ser_op o ++ serialize s) in *. rewrite app_length in L.
  pose proof (ser_nonempty o) as N. destruct (ser_op o) as [|x y] eqn:E; [congruence|]. clear N.
  destruct fuel as [|fuel]; [cbn in L; lia|].
  assert (read strict ((x :: y) ++ serialize s) = Some (Known (norm o), serialize s)) as R
    by (rewrite <- E; apply read_op; exact W).
  cbn [app] in *. cbn [instructions]. rewrite R, IH by (cbn in L; lia). reflexivity.
Qed.
Lemma norm_step H o (s : bst) :
  step bytes dec enc (fun b => b) bytes_eqb btruthy bminbool H (norm o) s =
  step bytes dec enc (fun b => b) bytes_eqb btruthy bminbool H o s.
Proof.
  destruct o; try reflexivity.
  - cbn [norm]. destruct (small z || (z =? 0)); reflexivity.
  - destruct b; reflexivity.
Qed.
Lemma norm_short o : writable o -> short (Known (norm o)) = true.
Proof.
  destruct o; intros W; try reflexivity.
  - cbn [norm]. destruct (small z || (z =? 0)); [reflexivity|]. apply Nat.leb_le. pose proof (enc_short z W). unfold element_limit. lia.
  - destruct W as [L _]. destruct b; [reflexivity|]. apply Nat.leb_le. exact L.
Qed.
Lemma irun_brun H other s : Forall writable s -> forall m,
  irun H other (map (fun o => Known (norm o)) s) m = brun H s m.
Proof.
  induction 1 as [|o s W _ IH]; intros m; [reflexivity|].
  cbn [map irun]. unfold istep. rewrite (norm_short o W), norm_step. unfold brun. cbn [runM].
  destruct (step _ _ _ _ _ _ _ _ o m); [apply IH|reflexivity].
Qed.

(** ** C91 *)

(** Running the bytes of a script is running the script. *)
Theorem C91_bytes_run : forall H other strict s witness,
  Forall writable s -> Forall (fun e => (length e <= 520)%nat) witness ->
  execute_bytes H other strict (serialize s) witness = execute_success H s witness.
Proof.
  intros H other strict s w W Fw. unfold execute_bytes. rewrite (instructions_serialize strict s W) by lia.
  replace (existsb succeeds_at_once (map (fun o => Known (norm o)) s)) with false
    by (symmetry; clear; induction s; [reflexivity|assumption]).
  replace (forallb (fun e => (length e <=? element_limit)%nat) w) with true.
  2:{ symmetry. apply forallb_forall. rewrite Forall_forall in Fw. intros e He. apply Nat.leb_le, Fw, He. }
  cbn [andb]. rewrite (irun_brun H other s W). reflexivity.
Qed.
(** Longer witness elements are refused, so that acceptance of the bytes is acceptance of the script
    without a condition on the witness. *)
Theorem C91_bytes_accept : forall H other strict s witness,
  Forall writable s ->
  (execute_bytes H other strict (serialize s) witness = true <->
   Forall (fun e => (length e <= 520)%nat) witness /\ execute_success H s witness = true).
Proof.
  intros H other strict s w W. split.
  - intros E. assert (Forall (fun e => (length e <= 520)%nat) w) as Fw.
    { unfold execute_bytes in E. rewrite (instructions_serialize strict s W) in E by lia.
      replace (existsb succeeds_at_once (map (fun o => Known (norm o)) s)) with false in E
        by (symmetry; clear; induction s; [reflexivity|assumption]).
      cbn [andb] in E. destruct (forallb (fun e => (length e <=? element_limit)%nat) w) eqn:Ef; [|discriminate].
      rewrite forallb_forall in Ef. apply Forall_forall. intros e He. apply Nat.leb_le, Ef, He. }
    split; [exact Fw|]. now rewrite <- (C91_bytes_run H other strict s w W Fw).
  - intros [Fw E]. now rewrite (C91_bytes_run H other strict s w W Fw).
Qed.
Lemma norm_same o o' : norm o = norm o' -> same_op o o'.
Proof.
  assert (forall o, pushed (norm o) = pushed o) as P.
  { clear. intros o. destruct o; try reflexivity; cbn [norm].
    - destruct (small z || (z =? 0)); reflexivity.
    - destruct b; reflexivity. }
  assert (forall o, pushed o = None -> norm o = o) as Q by (intros x; destruct x; intros; try reflexivity; discriminate).
  intros E. destruct (pushed o) eqn:Eo.
  - right. rewrite Eo. split; [discriminate|]. rewrite <- P, <- E, P. now rewrite Eo.
  - left. rewrite <- (Q o Eo), E. apply Q. rewrite <- P, <- E, P. exact Eo.
Qed.
(** Scripts with the same bytes are the same up to the way of writing pushes, *)
Theorem C91_bytes_determine : forall s s', Forall writable s -> Forall writable s' ->
  serialize s = serialize s' -> Forall2 same_op s s'.
Proof.
  intros s s' W W' E.
  pose proof (instructions_serialize true s W _ (Nat.le_refl _)) as I1.
  pose proof (instructions_serialize true s' W' _ (Nat.le_refl _)) as I2. rewrite <- E, I1 in I2.
  injection I2 as I2. clear - I2. revert s' I2.
  induction s as [|o s IH]; intros [|o' s'] E; try discriminate; constructor.
  - cbn in E. injection E as E _. now apply norm_same.
  - cbn in E. injection E as _ E. auto.
Qed.
(** and do the same. *)
Lemma same_op_step H o o' (s : bst) : same_op o o' ->
  step bytes dec enc (fun b => b) bytes_eqb btruthy bminbool H o s =
  step bytes dec enc (fun b => b) bytes_eqb btruthy bminbool H o' s.
Proof.
  intros [-> |[N E]]; [reflexivity|].
  destruct o, o'; cbn [pushed] in *; try congruence; injection E as E; cbn [step step_main]; now rewrite E.
Qed.
Theorem C91_same_bytes_same_run : forall H s s', Forall writable s -> Forall writable s' ->
  serialize s = serialize s' -> forall m, brun H s m = brun H s' m.
Proof.
  intros H s s' W W' E. apply C91_bytes_determine in E; [|assumption..]. clear W W'.
  induction E as [|o o' s s' S _ IH]; intros m; [reflexivity|]. unfold brun. cbn [runM].
  rewrite (same_op_step H o o' m S). destruct (step _ _ _ _ _ _ _ _ o' m); [apply IH|reflexivity].
Qed.
(** The length prefix of the hashed leaf leaves no ambiguity. *)
Lemma compact_mono n m : 0 <= n <= m -> (length (compact_size n) <= length (compact_size m))%nat.
Proof.
  intros L. unfold compact_size. destruct (Z.ltb_spec n 253), (Z.ltb_spec m 253), (Z.ltb_spec n 65536), (Z.ltb_spec m 65536),
    (Z.ltb_spec n 4294967296), (Z.ltb_spec m 4294967296); try lia; cbn; lia.
Qed.
Theorem C91_leaf_preimage_injective : forall a b, leaf_preimage a = leaf_preimage b -> a = b.
Proof.
  intros a b E. unfold leaf_preimage in E. injection E as E. pose proof (f_equal (@length _) E) as L. rewrite !app_length in L.
  assert (length a = length b) as La.
  { destruct (Nat.lt_trichotomy (length a) (length b)) as [C|[C|C]]; [|exact C|].
    - pose proof (compact_mono (Z.of_nat (length a)) (Z.of_nat (length b)) ltac:(lia)). lia.
    - pose proof (compact_mono (Z.of_nat (length b)) (Z.of_nat (length a)) ltac:(lia)). lia. }
  rewrite La in E. apply (f_equal (skipn (length (compact_size (Z.of_nat (length b)))))) in E.
  rewrite !skipn_app, !skipn_all, !Nat.sub_diag in E. exact E.
Qed.

(** ** Trees of byte strings *)
Section Tmap.
  Context {A B : Type} (f : A -> B).
  Definition lmap (l : leaf A) : leaf B := {| leaf_script := f (leaf_script A l); leaf_branch := leaf_branch A l |}.
  Definition nmap (n : node A) : node B := {| node_hash := node_hash A n; node_leaves := map lmap (node_leaves A n) |}.
  (** The same tree with the scripts replaced by their images. *)
  Definition tmap (t : taptree A) : taptree B :=
    {| root_node := nmap (root_node A t); leaf_count := leaf_count A t; leaf_indices := leaf_indices A t |}.
  Variable lh : B -> hash.
  Variable bh : hash -> hash -> hash.

  Lemma push_all_map h : forall l, push_all B h (map lmap l) = option_map (map lmap) (push_all A h l).
  Proof.
    induction l as [|x l IH]; [reflexivity|]. cbn [map push_all]. rewrite IH. unfold push_branch. cbn [leaf_branch lmap].
    destruct (_ <? _)%nat; [|reflexivity]. destruct (push_all A h l); reflexivity.
  Qed.
  Lemma combine_map a b : combine_with_order B bh (nmap a) (nmap b) =
    option_map (fun p => (nmap (fst p), snd p)) (combine_with_order A bh a b).
  Proof.
    unfold combine_with_order. cbn [node_hash nmap]. destruct (Z.ltb (node_hash A a) (node_hash A b)); cbn [node_hash node_leaves nmap];
      rewrite !push_all_map.
    - destruct (push_all A _ (node_leaves A a)), (push_all A _ (node_leaves A b)); try reflexivity.
      cbn. unfold nmap. cbn. now rewrite map_app.
    - destruct (push_all A _ (node_leaves A b)), (push_all A _ (node_leaves A a)); try reflexivity.
      cbn. unfold nmap. cbn. now rewrite map_app.
  Qed.
  Lemma level_map : forall n nodes start t, (length nodes <= n)%nat -> level B bh (map nmap nodes) start t =
    option_map (fun p => (map nmap (fst p), snd p)) (level A bh nodes start t).
  Proof.
    induction n as [|n IH]; intros [|a [|b nodes]] start t L; try reflexivity; [cbn in L; lia|].
    cbn [map level]. rewrite combine_map. cbn [node_leaves nmap]. rewrite !map_length.
    destruct (combine_with_order A bh a b) as [[c left]|]; [|reflexivity]. cbn [option_map fst snd].
    rewrite IH by (cbn in L; lia). destruct (level A bh nodes _ _) as [[ns t']|]; reflexivity.
  Qed.
  Lemma removelast_map {X Y} (g : X -> Y) l : removelast (map g l) = map g (removelast l).
  Proof. induction l as [|x [|y l] IH]; [reflexivity|reflexivity|]. cbn [map removelast] in *. now rewrite IH. Qed.
  Lemma levels_map : forall fuel nodes t, levels B bh fuel (map nmap nodes) t =
    option_map (fun p => (map nmap (fst p), snd p)) (levels A bh fuel nodes t).
  Proof.
    induction fuel as [|fuel IH]; intros nodes t; [reflexivity|]. cbn [levels]. rewrite map_length.
    destruct (1 <? length nodes)%nat; [|reflexivity].
    replace (if (length nodes mod 2 =? 1)%nat then removelast (map nmap nodes) else map nmap nodes)
      with (map nmap (if (length nodes mod 2 =? 1)%nat then removelast nodes else nodes))
      by (destruct (_ =? _)%nat; [now rewrite removelast_map|reflexivity]).
    rewrite (level_map _ _ _ _ (Nat.le_refl _)).
    destruct (level A bh _ _ _) as [[ns t']|]; [|reflexivity]. cbn [option_map fst snd]. apply IH.
  Qed.
  Lemma build_map scripts : new_with_scripts B lh bh (map f scripts) =
    option_map tmap (new_with_scripts A (fun a => lh (f a)) bh scripts).
  Proof.
    unfold new_with_scripts, build_tree, add_leaves. rewrite !map_map, !map_length.
    change (map (fun x => new_leaf B lh (f x)) scripts) with (map (fun x => nmap (new_leaf A (fun a => lh (f a)) x)) scripts).
    rewrite <- (map_map _ nmap). rewrite levels_map. destruct (is_power_of_two _); [|reflexivity].
    destruct (levels A bh _ _ _) as [[[|n ns] t]|]; [reflexivity| |reflexivity]. cbn [option_map fst snd map].
    destruct (reverse_idx_dict t); reflexivity.
  Qed.
  Lemma combine_tree_map a b : combine B bh (tmap a) (tmap b) = option_map tmap (combine A bh a b).
  Proof.
    unfold combine. cbn [root_node tmap leaf_indices leaf_count]. rewrite combine_map.
    destruct (combine_with_order A bh _ _) as [[n left]|]; reflexivity.
  Qed.
  Lemma made_map t scripts : made A (fun a => lh (f a)) bh t scripts -> made B lh bh (tmap t) (map f scripts).
  Proof.
    induction 1 as [scripts t L E|a b c sa sb _ Ma _ Mb E|a c sa scripts _ Ma L E].
    - apply made_build; [now rewrite map_length|]. now rewrite build_map, E.
    - rewrite map_app. eapply made_combine; [exact Ma|exact Mb|]. now rewrite combine_tree_map, E.
    - rewrite map_app. eapply made_other; [exact Ma|now rewrite map_length|].
      unfold combine_other_script in *. rewrite build_map. destruct (new_with_scripts A _ bh scripts); [|discriminate].
      cbn [option_map]. now rewrite combine_tree_map, E.
  Qed.
  Lemma get_map t i : get_tapleaf B (tmap t) i = option_map (option_map lmap) (get_tapleaf A t i).
  Proof.
    unfold get_tapleaf, index_map. cbn [leaf_indices tmap root_node node_leaves nmap].
    destruct (nth_error (leaf_indices A t) i) as [j|]; [|reflexivity]. cbn [option_map]. now rewrite nth_error_map.
  Qed.
End Tmap.

(** ** The scripts of the leaves can be written *)
Lemma writable_opcodes s : forallb (fun o => match o with PUSHN z => (-1000 <=? z) && (z <? 1000) | PUSHB _ => false | _ => true end) s = true ->
  Forall writable s.
Proof.
  intros E. rewrite forallb_forall in E. apply Forall_forall. intros o Ho. specialize (E o Ho).
  destruct o; try exact Logic.I; [|discriminate]. cbn [writable]. change (2 ^ 63) with 9223372036854775808. lia.
Qed.
Lemma writable_hash (H : bytes -> bytes) x : (forall x, length (H x) = 20%nat) -> writable (PUSHB (H x)).
Proof.
  intros L. split; [rewrite L; lia|]. intros z Hz E. apply (f_equal (@length _)) in E. rewrite L in E.
  pose proof (enc_length_4 z) as E4. rewrite <- E in E4. cbn in E4. unfold in4 in E4. lia.
Qed.
Lemma writable_repeat n s : Forall writable s -> Forall writable (repeat_script n s).
Proof. intros W. induction n; cbn [repeat_script]; [constructor|]. apply Forall_app. auto. Qed.
Lemma writable_checksig pks : (forall i, (i < 10)%nat -> writable (PUSHB (nth i pks []))) -> Forall writable (checksig_verify pks).
Proof.
  intros P. unfold checksig_verify. apply Forall_app. split; [|apply writable_opcodes; vm_compute; reflexivity].
  apply Forall_flat_map, Forall_forall. intros i Hi. apply in_seq in Hi. unfold verify_digit.
  apply Forall_app. split; [apply writable_opcodes; vm_compute; reflexivity|].
  apply Forall_app. split; [apply writable_opcodes; vm_compute; reflexivity|].
  apply Forall_app. split; [|apply writable_opcodes; vm_compute; reflexivity].
  do 2 (constructor; [exact Logic.I|]). constructor; [apply P; unfold N in *; lia|]. repeat constructor.
Qed.

Lemma writable_lock H b : (forall x, length (H x) = 20%nat) -> Forall writable (w_lock H b).
Proof.
  intros L. unfold w_lock, check_and_recover. apply Forall_app. split.
  - unfold recover_message_at_altstack. apply Forall_flat_map, Forall_forall. intros c _.
    apply Forall_app. split; [|repeat constructor]. unfold recover_message_at_stack. apply Forall_app.
    split; [|apply writable_opcodes; vm_compute; reflexivity].
    apply writable_checksig. intros i Hi. unfold pub_key.
    rewrite (nth_indep _ [] (generate_public_key H (bc_secret c) 0)) by (rewrite map_length, seq_length; exact Hi).
    rewrite map_nth. unfold generate_public_key. set (x := H (_ ++ _)); change (hiter H DIGITS x) with (H (hiter H 14 x)). apply writable_hash, L.
  - apply writable_repeat. repeat constructor.
Qed.
Lemma short_witness H b vs : (forall x, length (H x) = 20%nat) -> Forall (fun e => (length e <= 520)%nat) (w_witness H b vs).
Proof.
  intros L. unfold w_witness. generalize (bcs_new (rev b) (rev vs)). intros cs.
  assert (forall n x, (length (hiter H n (H x)) <= 20)%nat) as Lh.
  { intros [|n] x; [cbn; rewrite L; lia|]. cbn. rewrite L. lia. }
  assert (forall e : bytes, (length (match e with [0%Z] => [] | _ => e end) <= length e)%nat) as Le
    by (intros [|[| |] [|]]; cbn [length]; lia).
  induction cs as [|c cs IH]; [constructor|]. cbn [bcs_signature].
  destruct (bcs_signature H cs) as [a|]; [|constructor]. unfold u32_signature.
  destruct (sign H (bc_secret c) (bc_message c)) as [sig|] eqn:E; [|constructor]. apply Forall_app. split; [exact IH|].
  unfold sign in E. destruct (checksum_digits _) as [cd|]; [|discriminate].
  apply (f_equal (fun o => match o with Some l => l | None => [] end)) in E. cbv beta iota in E. rewrite <- E. clear E.
  apply Forall_map, Forall_flat_map, Forall_forall. intros i _. unfold digit_signature.
  constructor; [|constructor; [|constructor]].
  - pose proof (Lh (Z.to_nat (nth (N - 1 - i) cd 0)) (bc_secret c ++ [Z.of_nat i])) as Q.
    eapply Nat.le_trans; [apply Le|]. lia.
  - destruct (nth (N - 1 - i) cd 0) as [| |]; cbn [length]; lia.
Qed.

Section BytesLevel.
  Variable H : bytes -> bytes.
  Variable other : Z -> bst -> option bst.
  Variable strict : bool.
  Variable F : Type.
  Variable as_u32_vec : F -> list Z.
  Variable u32_size : nat.
  Variable secrets : nat -> bool -> list bytes.
  (** the tagged hashes TapLeaf (of a byte string) and TapBranch *)
  Variable tap_leaf : bytes -> hash.
  Variable branch_hash : hash -> hash -> hash.

  Hypothesis hash160 : forall x, length (H x) = 20%nat.
  Hypothesis size_ok : u32_size = 1%nat \/ u32_size = 4%nat.
  Hypothesis narrow : forall n, length (secrets n false) = 1%nat.
  Hypothesis wide : forall n, length (secrets n true) = 4%nat.
  Hypothesis vec_ok : forall x, length (as_u32_vec x) = u32_size /\ Forall u31 (as_u32_vec x).
  Hypothesis vec_inj : forall x y, as_u32_vec x = as_u32_vec y -> x = y.

  Notation bc := (list bytes).
  (** The hash of a leaf as computed from the bytes of its script. *)
  Definition script_hash (b : bytes) : hash := tap_leaf (leaf_preimage b).
  Definition b_commit := k_commit H F as_u32_vec u32_size secrets (fun s => script_hash (serialize s)) branch_hash.
  Definition b_verify := verify_bytes H other strict F bc as_u32_vec (w_witness H) tap_leaf branch_hash.
  (** The proof object with [s] in place of the bytes. *)
  Definition with_script (s : script) (p : bytes_proof bc) : commited_proof bc :=
    {| cp_leaf := {| leaf_script := s; leaf_branch := leaf_branch bytes (bp_leaf bc p) |};
       cp_bcs := bp_bcs bc p; cp_query_index := bp_query_index bc p |}.
  Definition b_fitting (p : bytes_proof bc) : Prop :=
    length (index_bc bc (bp_bcs bc p)) = 1%nat /\ Forall (fun b => length b = u32_size) (evaluations_bc bc (bp_bcs bc p)).
  (** The leaf of [p] is the bytes of leaf [q] of the tree of [d], and the rest is as in C89. *)
  Definition b_opened ms K d openings (p : bytes_proof bc) (q : nat) : Prop :=
    exists s, leaf_script bytes (bp_leaf bc p) = serialize s /\ opened H F ms K d openings (with_script s p) q.

  Lemma not_zero : forall x, H x <> [0].
  Proof. intros x E. apply (f_equal (@length _)) in E. rewrite hash160 in E. discriminate. Qed.
  Lemma in_flat_bvs : forall bcs (es : list F) bvs, bc_values F bc as_u32_vec bcs es = Some bvs ->
    Forall (fun p => Forall u31 (snd p)) bvs.
  Proof.
    induction bcs as [|b bcs IH]; intros [|e es] bvs E; cbn in E; try discriminate; try (injection E as <-; constructor).
    destruct (bc_values F bc as_u32_vec bcs es) as [r|] eqn:Er; [|discriminate]. injection E as <-.
    constructor; [apply vec_ok|]. eapply IH; exact Er.
  Qed.
  Lemma writable_leaf l s : (Z.of_nat (cl_index F bc l) < 2 ^ 63) ->
    generate_script F bc as_u32_vec (w_lock H) l = Some s -> Forall writable s.
  Proof.
    intros Li E. unfold generate_script in E. destruct (bc_values _ _ _ _ _) as [bvs|] eqn:Eb; [|discriminate].
    injection E as <-. apply Forall_app. split; [apply writable_lock, hash160|].
    constructor; [cbn [writable]; lia|]. constructor; [exact Logic.I|].
    apply Forall_app. split; [|repeat constructor; cbn [writable]; lia].
    apply Forall_flat_map. apply in_flat_bvs in Eb. eapply Forall_impl; [|exact Eb].
    intros [b vs] Hv. cbn [fst snd] in *. apply Forall_app. split; [apply writable_lock, hash160|].
    unfold check_values. apply Forall_flat_map. apply Forall_rev. eapply Forall_impl; [|exact Hv].
    intros v Uv. unfold u31 in Uv. repeat constructor; cbn [writable]; lia.
  Qed.

  Lemma b_setting ms K nq next roots ds next' qt d :
    (0 < K <= 30)%nat -> batch ms K -> b_commit nq next ms = Some (roots, ds, next') -> nth_error ds qt = Some d ->
    commits F bc as_u32_vec u32_size (w_lock H) (fun s => script_hash (serialize s)) branch_hash (@length bytes) d K ms /\
    nth_error roots qt = Some (node_hash script (root_node script (cd_taptree F bc d))).
  Proof.
    intros HK Bm E Ed.
    destruct (commit_all H F bc as_u32_vec u32_size secrets (w_lock H) (w_witness H) (fun s => script_hash (serialize s)) branch_hash (w_opens H)
      (@length bytes) _ (setting_ok H F as_u32_vec u32_size secrets not_zero size_ok narrow wide vec_ok vec_inj)
      ms K ltac:(lia) Bm nq next) as (roots' & ds' & n' & E' & L & Er & Fd).
    unfold b_commit, k_commit in E. assert (roots' = roots /\ ds' = ds) as [-> ->] by (split; congruence).
    split; [rewrite Forall_forall in Fd; apply Fd; eapply nth_error_In; eassumption|].
    rewrite Er, nth_error_map, Ed. reflexivity.
  Qed.
  Lemma leaf_writable ms K d q s l : (0 < K <= 30)%nat ->
    commits F bc as_u32_vec u32_size (w_lock H) (fun s => script_hash (serialize s)) branch_hash (@length bytes) d K ms ->
    (q < 2 ^ K)%nat -> get_tapleaf script (cd_taptree F bc d) q = Some (Some l) -> leaf_script script l = s -> Forall writable s.
  Proof.
    intros HK C Hq Gl El.
    destruct (commits_leaf F bc as_u32_vec u32_size (w_lock H) _ branch_hash (@length bytes) d K ms q C Hq)
      as (l' & s' & Gl' & El' & Gs). assert (l' = l) as -> by congruence. assert (s' = s) as -> by congruence.
    eapply writable_leaf; [|exact Gs]. cbn [cl_index].
    pose proof (small_index K q ltac:(lia) Hq). change (2 ^ 31) with 2147483648 in *. change (2 ^ 63) with 9223372036854775808. lia.
  Qed.

  (** An accepted proof, whatever byte string, commitments, index and values it was put together from,
      opens a leaf of the committed tree with the committed keys and values, unless an input hashed
      for its leaf collides with one hashed for a leaf of the tree. *)
  Theorem C91_accepted : forall ms K nq next roots ds next' qt d openings p,
    (0 < K <= 30)%nat -> batch ms K -> b_commit nq next ms = Some (roots, ds, next') -> nth_error ds qt = Some d ->
    b_fitting p -> b_verify qt openings p roots = Some true ->
    (exists q, b_opened ms K d openings p q) \/
    tree_collision bytes script_hash branch_hash (tmap serialize (cd_taptree F bc d)) (bp_leaf bc p).
  Proof.
    intros ms K nq next roots ds next' qt d openings p HK Bm E Ed Fp V.
    destruct (b_setting _ _ _ _ _ _ _ _ _ HK Bm E Ed) as [C Er].
    pose proof C as (_ & _ & _ & scripts & M & Ls & _).
    unfold b_verify, verify_bytes in V. rewrite Er in V.
    destruct (generate_witness F bc as_u32_vec (w_witness H) _) as [w|] eqn:Ew; [|discriminate].
    destruct (verify_inclusion bytes _ branch_hash _ (bp_leaf bc p)) as [i|] eqn:Ei; [|discriminate].
    cbn [option_map] in V. destruct i; [|discriminate]. cbn [andb] in V. injection V as V.
    pose proof (made_map serialize script_hash branch_hash _ _ M) as Mb.
    destruct (C29_binding bytes script_hash branch_hash _ _ (bp_leaf bc p) (list_eq_dec Z.eq_dec) Mb Ei) as [(q & Hq & Gl)|Hc];
      [|right; exact Hc].
    left. exists q. rewrite map_length, Ls in Hq. rewrite get_map in Gl.
    destruct (get_tapleaf script (cd_taptree F bc d) q) as [[l|]|] eqn:G; try discriminate.
    cbn [option_map] in Gl. injection Gl as Gl.
    assert (Forall writable (leaf_script script l)) as W by (eapply leaf_writable; eauto).
    assert (leaf_script bytes (bp_leaf bc p) = serialize (leaf_script script l)) as Es by (rewrite <- Gl; reflexivity).
    exists (leaf_script script l). split; [exact Es|].
    assert (cp_leaf bc (with_script (leaf_script script l) p) = l) as El.
    { cbn. rewrite <- Gl. cbn. now destruct l. }
    eapply (leaf_iff H F as_u32_vec u32_size secrets (fun s => script_hash (serialize s)) branch_hash not_zero size_ok narrow wide vec_ok vec_inj
      ms K d openings (with_script (leaf_script script l) p) q HK Bm C); [exact Fp|exact Hq|rewrite El; exact G|].
    unfold verify. cbn [cp_bcs cp_query_index with_script]. rewrite Ew. unfold verify_proof.
    assert (verify_inclusion script (fun s => script_hash (serialize s)) branch_hash
      (node_hash script (root_node script (cd_taptree F bc d))) (cp_leaf bc (with_script (leaf_script script l) p)) = Some true) as Vi.
    { rewrite <- Ei. unfold verify_inclusion. rewrite El. rewrite <- Gl. reflexivity. }
    rewrite Vi. cbn [option_map andb]. rewrite Es in V.
    apply (C91_bytes_accept H other strict _ _ W) in V. rewrite El. now rewrite (proj2 V).
  Qed.
  (** Conversely such a proof is accepted. *)
  Theorem C91_accepts : forall ms K nq next roots ds next' qt d openings p q,
    (0 < K <= 30)%nat -> batch ms K -> b_commit nq next ms = Some (roots, ds, next') -> nth_error ds qt = Some d ->
    b_fitting p -> b_opened ms K d openings p q -> b_verify qt openings p roots = Some true.
  Proof.
    intros ms K nq next roots ds next' qt d openings p q HK Bm E Ed Fp (s & Es & O).
    destruct (b_setting _ _ _ _ _ _ _ _ _ HK Bm E Ed) as [C Er].
    pose proof O as (Hq & Gl & _).
    pose proof (leaf_writable ms K d q s _ HK C Hq Gl eq_refl) as W.
    apply (leaf_iff H F as_u32_vec u32_size secrets (fun s => script_hash (serialize s)) branch_hash not_zero size_ok narrow wide vec_ok vec_inj
      ms K d openings (with_script s p) q HK Bm C Fp Hq Gl) in O.
    unfold verify in O. cbn [cp_bcs cp_query_index with_script] in O.
    unfold b_verify, verify_bytes. rewrite Er.
    destruct (generate_witness F bc as_u32_vec (w_witness H) _) as [w|] eqn:Ew; [|discriminate].
    assert (Forall (fun e => (length e <= 520)%nat) w) as Fw.
    { unfold generate_witness in Ew. destruct (bc_values _ _ _ _ _); [|discriminate]. injection Ew as <-.
      apply Forall_app. split; [|apply short_witness, hash160]. apply Forall_flat_map, Forall_forall. intros; apply short_witness, hash160. }
    unfold verify_proof in O. unfold verify_inclusion in *. cbn [cp_leaf with_script leaf_branch leaf_script] in O.
    destruct (leaf_branch bytes (bp_leaf bc p)) as [|x path]; [discriminate|].
    rewrite Es. rewrite (C91_bytes_run H other strict s w W Fw). exact O.
  Qed.
End BytesLevel.

(** ** Concrete cases *)
(** A push of every kind: opcodes of their own, one length byte, OP_PUSHDATA1 and OP_PUSHDATA2. *)
Example C91_example_bytes :
  serialize [PUSHN 0; PUSHN (-1); PUSHN 16; PUSHN 17; PUSHN (-1000); PUSHB [7; 8]; OP_ADD; OP_HASH160] =
    [0; 79; 96; 1; 17; 2; 232; 131; 2; 7; 8; 147; 169] /\
  firstn 4 (serialize [PUSHB (repeat 9 200)]) = [76; 200; 9; 9] /\
  firstn 4 (serialize [PUSHB (repeat 9 300)]) = [77; 44; 1; 9] /\
  Forall writable [PUSHN 0; PUSHN 17; PUSHB (repeat 9 300); OP_ADD].
Proof.
  split; [reflexivity|]. split; [reflexivity|]. split; [reflexivity|].
  constructor; [cbn; lia|]. constructor; [cbn; lia|]. constructor; [|repeat constructor].
  split; [apply Nat.leb_le; reflexivity|]. intros z Hz E. apply (f_equal (@length _)) in E.
  pose proof (enc_short z ltac:(lia)) as E4. rewrite <- E, repeat_length in E4. lia.
Qed.
(** A byte string need not be a script of this model: one with an OP_SUCCESS succeeds whatever follows
    it, and what an opcode outside the model does is left open.  A push of one byte that has an opcode of
    its own, a truncated push and a push of 521 bytes are not accepted. *)
Example C91_example_other : forall H other,
  execute_bytes H other true [80; 1] [] = true /\
  execute_bytes H other true [105; 187; 255] [] = true /\
  (forall s, other 172 (mk [] [] []) = Some s -> execute_bytes H other true [172] [] = bsucceeds (Some s)) /\
  execute_bytes H other true [1; 5] [] = false /\ execute_bytes H other false [1; 5] [] = true /\
  execute_bytes H other false [81; 2; 7] [] = false /\
  execute_bytes H other false (serialize [PUSHB (repeat 1 521)]) [] = false /\
  execute_bytes H other false (serialize [PUSHB (repeat 1 520)]) [] = true.
Proof.
  intros H other. split; [reflexivity|]. split; [reflexivity|]. split; [intros s E; cbn; rewrite E; reflexivity|].
  repeat split.
Qed.
(** The two ways of writing a push have the same bytes. *)
Example C91_example_same : serialize [PUSHN 1000] = serialize [PUSHB [232; 3]] /\ Forall writable [PUSHN 1000; PUSHB [232; 3]].
Proof.
  split; [reflexivity|]. constructor; [cbn; lia|]. constructor; [|constructor]. split; [cbn; lia|].
  intros z Hz E. change [232; 3] with (enc 1000) in E. apply enc_inj in E. lia.
Qed.

Definition ex20 (b : bytes) : bytes := firstn 20 (7 :: b ++ repeat 0 20).
Definition ex91_commit := b_commit ex20 bb bb_vec 1 w_new (fold_right Z.add 0) (fun a b => a + 2 * b).
Definition ex91_verify := b_verify ex20 (fun _ _ => None) true bb bb_vec (fold_right Z.add 0) (fun a b => a + 2 * b).
Definition ex91_proof (l : leaf bytes) (p : commited_proof (list bytes)) : bytes_proof (list bytes) :=
  {| bp_leaf := l; bp_bcs := cp_bcs _ p; bp_query_index := cp_query_index _ p |}.
(** An honest opening of leaf 1 is accepted; with another value, or with a leaf that succeeds at once,
    it is not.  A leaf chosen to have the hash of a committed one (easy for this toy hash: the sum of
    the bytes) is accepted: the exception in the theorem is needed. *)
Definition ex91_answers : option (list (option bool)) :=
  match ex91_commit 1 0 ex_ms with
  | Some (roots, [d], _) =>
      option_map (fun p =>
        let l := lmap serialize (cp_leaf _ p) in
        let forged n := {| leaf_script := 80 :: n; leaf_branch := leaf_branch _ l |} in
        let sum := fold_right Z.add 0 (leaf_preimage (leaf_script _ l)) in
        [ex91_verify 0 [[bb2]] (ex91_proof l p) roots; ex91_verify 0 [[bb1]] (ex91_proof l p) roots;
         ex91_verify 0 [[bb1]] (ex91_proof (forged []) p) roots;
         ex91_verify 0 [[bb1]] (ex91_proof (forged [sum - 192 - 2 - 80]) p) roots]) (query_proof bb (list bytes) d 1)
  | _ => None
  end.
Example C91_example : ex91_answers = Some [Some true; Some false; Some false; Some true].
Proof. vm_compute. reflexivity. Qed.
Example C91_example_hypotheses : (forall x, length (ex20 x) = 20%nat) /\ (forall n, length (w_new n false) = 1%nat) /\
  (forall n, length (w_new n true) = 4%nat) /\
  (forall x, length (bb_vec x) = 1%nat /\ Forall u31 (bb_vec x)) /\ (forall x y, bb_vec x = bb_vec y -> x = y) /\
  batch ex_ms 1.
Proof.
  destruct C31_example_setting as (_ & _ & Vo & _ & Inj). destruct C31_example as (Bm & _).
  split; [|split; [reflexivity|split; [reflexivity|split; [exact Vo|split; [exact Inj|exact Bm]]]]].
  intros x. unfold ex20. apply firstn_length_le. cbn [length]. rewrite app_length, repeat_length. lia.
Qed.
