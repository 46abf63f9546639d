(** Property C84: what signing several messages with one Winternitz key discloses. *)
From Coq Require Import ZArith List Bool Lia.
From Coq Require Import ZifyBool ZifyNat.
From Verif Require Import ScriptNum ScriptVM VMLemmas U32Model Lift WinternitzModel WinternitzSpec PropWords WinternitzProofs PropSign SecretModel PropSecret.
Import ListNotations.
Open Scope Z_scope.

(** A byte string obtained by hashing forward from the hashes in published
    signatures of the messages [vs] under the key [sk]. *)
Definition known (H : bytes -> bytes) (sk : bytes) (vs : list Z) (x : bytes) : Prop :=
  exists v sig j n, In v vs /\ sign H sk (to_digits v N0) = Some sig /\ (j < 10)%nat /\ x = Nat.iter n H (nth (2 * j) sig []).
(** Every signed digit of [w] is at least the digit of some message in [vs]. *)
Definition covered (vs : list Z) (w : Z) : Prop :=
  forall i, (i < 10)%nat -> exists v, In v vs /\ wdigit v i <= wdigit w i.

Lemma sig_nth : forall H sk v sig j, sign H sk (to_digits v N0) = Some sig -> (j < 10)%nat ->
  nth (2 * j) sig [] = hiter H (Z.to_nat (wdigit v j)) (H (sk ++ [Z.of_nat j])).
Proof.
  intros H sk v sig j Es Hj. rewrite sign_ok in Es. injection Es as <-.
  do 10 (destruct j as [|j]; [reflexivity|]). lia.
Qed.
Lemma pub_nth : forall H sk i, (i < 10)%nat -> nth i (pub_key H sk) [] = hiter H DIGITS (H (sk ++ [Z.of_nat i])).
Proof. intros H sk i Hi. do 10 (destruct i as [|i]; [reflexivity|]). lia. Qed.

(** choice over the ten keys *)
Lemma ten_choice : forall A (a : A) (P : nat -> A -> Prop), (forall i, (i < 10)%nat -> exists x, P i x) ->
  exists f, forall i, (i < 10)%nat -> P i (f i).
Proof.
  intros A a P. assert (G : forall n, (forall i, (i < n)%nat -> exists x, P i x) -> exists f, forall i, (i < n)%nat -> P i (f i)).
  { induction n as [|n IH]; intros Q.
    - exists (fun _ => a). intros i Hi. lia.
    - destruct IH as [f Hf]; [intros i Hi; apply Q; lia|]. destruct (Q n) as [x Hx]; [lia|].
      exists (fun i => if (i =? n)%nat then x else f i). intros i Hi. destruct (Nat.eqb_spec i n) as [->|N]; [exact Hx|]. apply Hf. lia. }
  apply G.
Qed.

Section Reuse.
  Variable H : bytes -> bytes.
  Variable sk : bytes.

  Lemma covered_valid : forall vs w rest, covered vs w ->
    exists D x, (forall i, (i < 10)%nat -> known H sk vs (x i) /\ D i = enc (wdigit w i)) /\
      valid_sig H (pub_key H sk) w (flat_map (fun i => [D i; x i]) (rev (seq 0 10)) ++ rest) rest.
  Proof.
    intros vs w rest C.
    destruct (ten_choice bytes [] (fun i x => known H sk vs x /\ hiter H (Z.to_nat (15 - wdigit w i)) x = nth i (pub_key H sk) [])) as [x Hx].
    { intros i Hi. destruct (C i Hi) as (v & Iv & Le). pose proof (wdigit_range v i). pose proof (wdigit_range w i).
      pose proof (sign_ok H sk v) as Es. eexists. split.
      - exists v. eexists. exists i, (Z.to_nat (wdigit w i - wdigit v i)). split; [exact Iv|]. split; [exact Es|]. split; [exact Hi|]. reflexivity.
      - rewrite (sig_nth H sk v _ i Es Hi), pub_nth by exact Hi. 
        change (hiter H (Z.to_nat (15 - wdigit w i)) (hiter H (Z.to_nat (wdigit w i - wdigit v i)) (hiter H (Z.to_nat (wdigit v i)) (H (sk ++ [Z.of_nat i])))) =
          hiter H DIGITS (H (sk ++ [Z.of_nat i]))). rewrite <- !hiter_add. f_equal. unfold DIGITS. lia. }
    exists (fun i => enc (wdigit w i)), x. split; [intros i Hi; split; [apply Hx, Hi|reflexivity]|].
    exists (fun i => enc (wdigit w i)), x. split; [reflexivity|]. intros i Hi. split; [|apply Hx, Hi].
    pose proof (wdigit_range w i). exists (wdigit w i). split; [|lia]. rewrite dec_enc, in4_true by lia. reflexivity.
  Qed.

  Lemma valid_covered : forall vs w D x rest m, chains_apart H sk ->
    (forall i, (i < 10)%nat -> known H sk vs (x i)) -> m = flat_map (fun i => [D i; x i]) (rev (seq 0 10)) ++ rest ->
    forall rest', valid_sig H (pub_key H sk) w m rest' -> covered vs w /\ rest' = rest.
  Proof.
    intros vs w D x rest m Ap Kn Em rest' (D' & x' & Ew & P). rewrite Em in Ew.
    assert (Q : rest' = rest /\ forall j, (j < 10)%nat -> x' j = x j).
    { cbn [seq rev app flat_map] in Ew. injection Ew as ? ? ? ? ? ? ? ? ? ? ? ? ? ? ? ? ? ? ? ? ?.
      split; [congruence|]. intros j Hj. do 10 (destruct j as [|j]; [congruence|]). lia. }
    destruct Q as [-> Q]. split; [|reflexivity]. intros i Hi. destruct (P i Hi) as [_ X]. rewrite Q in X by exact Hi.
    destruct (Kn i Hi) as (v & sig & j & n & Iv & Es & Hj & Ex). rewrite Ex, (sig_nth H sk v sig j Es Hj), pub_nth in X by exact Hi.
    change (hiter H (Z.to_nat (15 - wdigit w i)) (hiter H n (hiter H (Z.to_nat (wdigit v j)) (H (sk ++ [Z.of_nat j])))) =
      hiter H DIGITS (H (sk ++ [Z.of_nat i]))) in X.
    rewrite <- !hiter_add in X. apply Ap in X as [-> X]; [|exact Hj|exact Hi].
    exists v. split; [exact Iv|]. pose proof (wdigit_range v i). pose proof (wdigit_range w i). unfold DIGITS in X. lia.
  Qed.
End Reuse.

(** ** C84 *)
(** The messages that can be signed from published signatures by hashing forward are
    exactly the covered ones. *)
Theorem C84_forgeable_iff : forall H sk vs w rest alt, chains_apart H sk -> is_u32 w ->
  ((exists D x, (forall i, (i < 10)%nat -> known H sk vs (x i)) /\
     exec H (checksig_verify (pub_key H sk)) (flat_map (fun i => [D i; x i]) (rev (seq 0 10)) ++ rest) alt (bword w ++ rest) alt) <->
   covered vs w).
Proof.
  intros H sk vs w rest al Ap W. split.
  - intros (D & x & Kn & E). apply C10_accepts_iff_valid in E as (_ & w' & rest' & W' & Em & Vs); [|reflexivity].
    destruct (valid_covered H sk vs w' D x rest _ Ap Kn eq_refl rest' Vs) as [C ->].
    apply bword_app_inj in Em as [_ ->]; auto.
  - intros C. destruct (covered_valid H sk vs w rest C) as (D & x & Kn & Vs). exists D, x. split; [intros i Hi; now apply Kn|].
    apply C10_accepts_iff_valid; [reflexivity|]. split; [reflexivity|]. exists w, rest. auto.
Qed.

(** Forging needs no assumption on the hash function. *)
Theorem C84_forged : forall H sk vs w rest alt, is_u32 w -> covered vs w ->
  exists D x, (forall i, (i < 10)%nat -> known H sk vs (x i)) /\
    exec H (checksig_verify (pub_key H sk)) (flat_map (fun i => [D i; x i]) (rev (seq 0 10)) ++ rest) alt (bword w ++ rest) alt.
Proof.
  intros H sk vs w rest al W C. destruct (covered_valid H sk vs w rest C) as (D & x & Kn & Vs). exists D, x. split; [intros i Hi; now apply Kn|].
  apply C10_accepts_iff_valid; [reflexivity|]. split; [reflexivity|]. exists w, rest. auto.
Qed.

(** One signature covers its message only ... *)
Theorem C84_one : forall v w, is_u32 v -> is_u32 w -> (covered [v] w <-> w = v).
Proof.
  intros v w V W. split.
  - intros C. destruct (Z.eq_dec v w) as [E|N]; [now symmetry|]. destruct (C11_incomparable v w V W N) as (i & Hi & L).
    destruct (C i Hi) as (u & [<-|[]] & Le). lia.
  - intros -> i Hi. exists v. split; [now left|lia].
Qed.
(** ... two can cover many: 15 and 240 cover every word whose hexadecimal digits add
    up to a number from 9 to 15, in whatever positions. *)
Theorem C84_two_cover_many : forall w, 105 <= csum w <= 111 -> covered [15; 240] w.
Proof.
  intros w R i Hi. pose proof (wdigit_range w i) as Wr.
  destruct i as [|[|[|[|[|[|[|[|[|[|i]]]]]]]]]]; [..|lia].
  1,2,3,4,5,6,7: exists 15; (split; [now left|]); apply (Z.le_trans _ 0); [reflexivity|apply Wr].
  - exists 240. split; [right; now left|]. change (0 <= wdigit w 7). lia.
  - exists 15. split; [now left|]. change (6 <= csum w / 16). apply Z.div_le_lower_bound; lia.
  - exists 15. split; [now left|]. change (9 <= csum w mod 16). Z.div_mod_to_equations. lia.
Qed.

(** Keys shared between the words of a value (ConstantSecretGen): once [vs] has been
    revealed, the script accepts every vector of covered words. *)
Theorem C84_constant_gen : forall H vs ws s rest alt, length ws = length vs -> Forall is_u32 ws -> Forall (covered vs) ws ->
  exists wit, Forall (fun y => known H [0; 0] vs y \/ exists d, 0 <= d < 16 /\ y = enc d) wit /\
    exec H (check_and_recover H (fst (new_gen constant_secret_gen vs s))) (wit ++ rest) alt (nums (map smag ws) ++ rest) alt.
Proof.
  intros H vs ws s rest al L F C.
  assert (G : exists wit, Forall (fun y => known H [0; 0] vs y \/ exists d, 0 <= d < 16 /\ y = enc d) wit /\
    valid_sigs H (repeat [0; 0] (length ws)) ws (wit ++ rest) rest).
  { clear L. induction F as [|w ws W F IH]; [exists []; split; [constructor|reflexivity]|].
    inversion_clear C as [|? ? Cw Cs]. destruct (IH Cs) as (wit & Kw & Vs).
    destruct (covered_valid H [0; 0] vs w (wit ++ rest) Cw) as (D & x & Kn & Vw).
    exists (flat_map (fun i => [D i; x i]) (rev (seq 0 10)) ++ wit). split.
    - apply Forall_app. split; [|exact Kw]. apply Forall_forall. intros y Iy. apply in_flat_map in Iy as (i & Ii & Iy).
      apply in_rev, in_seq in Ii. destruct (Kn i) as [K E]; [lia|]. destruct Iy as [<-|[<-|[]]]; [|now left].
      right. exists (wdigit w i). split; [apply wdigit_range|exact E].
    - cbn [length repeat valid_sigs]. split; [exact W|]. exists (wit ++ rest). rewrite <- app_assoc. auto. }
  destruct G as (wit & Kw & Vs). exists wit. split; [exact Kw|]. apply C12_vector_iff. split; [reflexivity|]. exists ws, rest. split; [reflexivity|].
  rewrite constant_keys, <- L. exact Vs.
Qed.

(** Example: the words 15 and 240 of one value, revealed with the constant key, give
    a witness for 0x90000000 and 0x12030004. *)
Example C84_example : forall H rest, exists wit,
  Forall (fun y => known H [0; 0] [15; 240] y \/ exists d, 0 <= d < 16 /\ y = enc d) wit /\
  exec H (check_and_recover H (fst (new_gen constant_secret_gen [15; 240] tt))) (wit ++ rest) []
    (nums [- 268435456; 302186500] ++ rest) [].
Proof.
  intros H rest. apply (C84_constant_gen H [15; 240] [2415919104; 302186500] tt rest []); [reflexivity| |].
  - repeat constructor; unfold is_u32; lia.
  - repeat constructor; apply C84_two_cover_many; vm_compute; split; discriminate.
Qed.
Example C84_example_apart : chains_apart (cons 7) [0; 0] /\ ~ covered [15; 240] 1 /\ covered [15; 240] 9 /\ is_u32 9.
Proof.
  split; [apply chains_apart_cons|]. split; [|split; [apply C84_two_cover_many; vm_compute; split; discriminate|unfold is_u32; lia]].
  intros C. destruct (C 9%nat) as (v & [<-|[<-|[]]] & L); [lia|apply L; reflexivity..].
Qed.
