(** A model of the Bitcoin Script interpreter restricted to the opcodes that the
    scripts of the repository emit.

    Source of the scripts: the [script!{}] macros in /repo/scripts/src and
    /repo/script_expr/src; interpreter entry points
    /repo/scripts/src/lib.rs:97-164 ([execute_script],
    [execute_script_with_inputs]).  The interpreter itself is the external crate
    [bitcoin_scriptexec]; it is modelled from the Bitcoin consensus rules.

    Simplifications (stated once, here):
    - no limit on the number of stack elements (1000, see StackModel.v) nor on
      element size (520);
    - no sigop budget, no signature opcodes, no locktime opcodes;
    - [None] stands for every script failure, without the reason.

    The interpreter is written once, over an abstract element type, and used
    twice: with byte strings ([brun], the real machine) and with values that are
    either numbers or byte strings ([run], convenient for proofs).  The theorem
    [brun_run] shows that both machines do the same. *)
From Coq Require Import ZArith List Bool Lia.
From Verif Require Import ScriptNum.
Import ListNotations.
Open Scope Z_scope.

Inductive op :=
| PUSHN (z : Z)          (* push of an integer literal, minimal encoding *)
| PUSHB (b : bytes)      (* push of a byte string *)
| OP_DUP | OP_2DUP | OP_3DUP | OP_DROP | OP_2DROP | OP_NIP | OP_OVER | OP_2OVER
| OP_PICK | OP_ROLL | OP_ROT | OP_2ROT | OP_SWAP | OP_2SWAP | OP_TUCK
| OP_TOALTSTACK | OP_FROMALTSTACK
| OP_ADD | OP_SUB | OP_1ADD | OP_1SUB | OP_NEGATE | OP_ABS | OP_NOT | OP_0NOTEQUAL
| OP_BOOLAND | OP_BOOLOR | OP_NUMEQUAL | OP_NUMNOTEQUAL
| OP_LESSTHAN | OP_GREATERTHAN | OP_LESSTHANOREQUAL | OP_GREATERTHANOREQUAL
| OP_MIN | OP_MAX
| OP_EQUAL | OP_EQUALVERIFY | OP_VERIFY
| OP_HASH160
| OP_IF | OP_NOTIF | OP_ELSE | OP_ENDIF.

Definition script := list op.

Definition b2z (b : bool) : Z := if b then 1 else 0.

(** Conversion of a PICK/ROLL operand; kept as a separate constant so that
    symbolic execution can control when it is computed. *)
Definition znat (z : Z) : nat := Z.to_nat z.

Section Machine.
  Variable E : Type.
  Variable num : E -> option Z.        (* read a 4-byte script number *)
  Variable ofz : Z -> E.               (* script number to element *)
  Variable ofb : bytes -> E.           (* raw byte string to element *)
  Variable eeqb : E -> E -> bool.      (* byte equality, OP_EQUAL *)
  Variable truthy : E -> bool.         (* CastToBool *)
  Variable minbool : E -> option bool. (* MINIMALIF: exactly [] or [1] *)
  Variable hash160 : E -> E.

  Record st := mk { main : list E; alt : list E; cond : list bool }.

  Fixpoint extract (n : nat) (l : list E) : option (E * list E) :=
    match l with
    | [] => None
    | x :: r => match n with
                | O => Some (x, r)
                | S n' => match extract n' r with
                          | Some (y, r') => Some (y, x :: r')
                          | None => None
                          end
                end
    end.

  Definition un (f : Z -> Z) (m : list E) : option (list E) :=
    match m with
    | x :: r => match num x with Some a => Some (ofz (f a) :: r) | None => None end
    | [] => None
    end.

  Definition bin (f : Z -> Z -> Z) (m : list E) : option (list E) :=
    match m with
    | y :: x :: r =>
        match num x, num y with
        | Some a, Some b => Some (ofz (f a b) :: r)
        | _, _ => None
        end
    | _ => None
    end.

  (** Opcodes acting on the main stack only. *)
  Definition step_main (o : op) (m : list E) : option (list E) :=
    match o with
    | PUSHN z => Some (ofz z :: m)
    | PUSHB b => Some (ofb b :: m)
    | OP_DUP => match m with x :: r => Some (x :: x :: r) | _ => None end
    | OP_2DUP => match m with y :: x :: r => Some (y :: x :: y :: x :: r) | _ => None end
    | OP_3DUP => match m with z :: y :: x :: r => Some (z :: y :: x :: z :: y :: x :: r) | _ => None end
    | OP_DROP => match m with _ :: r => Some r | _ => None end
    | OP_2DROP => match m with _ :: _ :: r => Some r | _ => None end
    | OP_NIP => match m with y :: _ :: r => Some (y :: r) | _ => None end
    | OP_OVER => match m with y :: x :: r => Some (x :: y :: x :: r) | _ => None end
    | OP_2OVER => match m with
                  | d :: c :: b :: a :: r => Some (b :: a :: d :: c :: b :: a :: r)
                  | _ => None
                  end
    | OP_PICK => match m with
                 | n :: r => match num n with
                             | Some k => if k <? 0 then None
                                         else match nth_error r (znat k) with
                                              | Some x => Some (x :: r)
                                              | None => None
                                              end
                             | None => None
                             end
                 | _ => None
                 end
    | OP_ROLL => match m with
                 | n :: r => match num n with
                             | Some k => if k <? 0 then None
                                         else match extract (znat k) r with
                                              | Some (x, r') => Some (x :: r')
                                              | None => None
                                              end
                             | None => None
                             end
                 | _ => None
                 end
    | OP_ROT => match m with z :: y :: x :: r => Some (x :: z :: y :: r) | _ => None end
    | OP_2ROT => match m with
                 | f :: e :: d :: c :: b :: a :: r => Some (b :: a :: f :: e :: d :: c :: r)
                 | _ => None
                 end
    | OP_SWAP => match m with y :: x :: r => Some (x :: y :: r) | _ => None end
    | OP_2SWAP => match m with
                  | d :: c :: b :: a :: r => Some (b :: a :: d :: c :: r)
                  | _ => None
                  end
    | OP_TUCK => match m with y :: x :: r => Some (y :: x :: y :: r) | _ => None end
    | OP_ADD => bin Z.add m
    | OP_SUB => bin Z.sub m
    | OP_1ADD => un (fun a => a + 1) m
    | OP_1SUB => un (fun a => a - 1) m
    | OP_NEGATE => un Z.opp m
    | OP_ABS => un Z.abs m
    | OP_NOT => un (fun a => b2z (a =? 0)) m
    | OP_0NOTEQUAL => un (fun a => b2z (negb (a =? 0))) m
    | OP_BOOLAND => bin (fun a b => b2z (negb (a =? 0) && negb (b =? 0))) m
    | OP_BOOLOR => bin (fun a b => b2z (negb (a =? 0) || negb (b =? 0))) m
    | OP_NUMEQUAL => bin (fun a b => b2z (a =? b)) m
    | OP_NUMNOTEQUAL => bin (fun a b => b2z (negb (a =? b))) m
    | OP_LESSTHAN => bin (fun a b => b2z (a <? b)) m
    | OP_GREATERTHAN => bin (fun a b => b2z (b <? a)) m
    | OP_LESSTHANOREQUAL => bin (fun a b => b2z (a <=? b)) m
    | OP_GREATERTHANOREQUAL => bin (fun a b => b2z (b <=? a)) m
    | OP_MIN => bin Z.min m
    | OP_MAX => bin Z.max m
    | OP_EQUAL => match m with y :: x :: r => Some (ofz (b2z (eeqb x y)) :: r) | _ => None end
    | OP_EQUALVERIFY => match m with
                        | y :: x :: r => if eeqb x y then Some r else None
                        | _ => None
                        end
    | OP_VERIFY => match m with x :: r => if truthy x then Some r else None | _ => None end
    | OP_HASH160 => match m with x :: r => Some (hash160 x :: r) | _ => None end
    | _ => None
    end.

  Definition executing (c : list bool) : bool := forallb (fun b => b) c.

  Definition step (o : op) (s : st) : option st :=
    match o with
    | OP_IF =>
        if executing (cond s) then
          match main s with
          | x :: r => match minbool x with
                      | Some b => Some (mk r (alt s) (b :: cond s))
                      | None => None
                      end
          | [] => None
          end
        else Some (mk (main s) (alt s) (false :: cond s))
    | OP_NOTIF =>
        if executing (cond s) then
          match main s with
          | x :: r => match minbool x with
                      | Some b => Some (mk r (alt s) (negb b :: cond s))
                      | None => None
                      end
          | [] => None
          end
        else Some (mk (main s) (alt s) (false :: cond s))
    | OP_ELSE => match cond s with
                 | b :: c => Some (mk (main s) (alt s) (negb b :: c))
                 | [] => None
                 end
    | OP_ENDIF => match cond s with
                  | _ :: c => Some (mk (main s) (alt s) c)
                  | [] => None
                  end
    | OP_TOALTSTACK =>
        if executing (cond s) then
          match main s with x :: r => Some (mk r (x :: alt s) (cond s)) | [] => None end
        else Some s
    | OP_FROMALTSTACK =>
        if executing (cond s) then
          match alt s with x :: r => Some (mk (x :: main s) r (cond s)) | [] => None end
        else Some s
    | _ =>
        if executing (cond s) then
          match step_main o (main s) with
          | Some m => Some (mk m (alt s) (cond s))
          | None => None
          end
        else Some s
    end.

  Fixpoint runM (p : script) (s : st) : option st :=
    match p with
    | [] => Some s
    | o :: p' => match step o s with Some s' => runM p' s' | None => None end
    end.

  (** Final verdict in a tapscript context: conditionals closed and exactly one
      element, which is true. *)
  Definition succeeds (s : option st) : bool :=
    match s with
    | Some (mk [x] _ []) => truthy x
    | _ => false
    end.

  Lemma runM_app : forall p q s,
    runM (p ++ q) s = match runM p s with Some s' => runM q s' | None => None end.
  Proof.
    induction p as [|o p IH]; intros q s; [reflexivity|].
    cbn [runM app]. destruct (step o s); [apply IH|reflexivity].
  Qed.

  Lemma extract_spec : forall n l x r,
    extract n l = Some (x, r) <-> exists a b, l = a ++ x :: b /\ length a = n /\ r = a ++ b.
  Proof.
    induction n as [|n IH]; intros [|y l] x r; cbn; split; intros H.
    - easy.
    - destruct H as ([|] & b & H & _); easy.
    - injection H as -> ->. exists [], r. easy.
    - destruct H as ([|z a] & b & H & L & R); [|easy]. cbn in *. congruence.
    - easy.
    - destruct H as ([|] & b & H & L & _); easy.
    - destruct (extract n l) as [[z l']|] eqn:F; [|easy].
      injection H as -> <-. apply IH in F as (a & b & -> & <- & ->).
      exists (y :: a), b. easy.
    - destruct H as ([|z a] & b & H & L & R); [easy|].
      cbn in H, L. injection H as -> ->. injection L as L.
      assert (F : extract n (a ++ x :: b) = Some (x, a ++ b)) by (apply IH; eauto).
      rewrite F. subst. reflexivity.
  Qed.
End Machine.

Arguments mk {E}.
Arguments main {E}.
Arguments alt {E}.
Arguments cond {E}.
Arguments extract {E}.

(** *** The real machine: byte strings. *)

(** CastToBool: some byte is nonzero, except that a lone sign bit in the last
    byte is negative zero. *)
Fixpoint btruthy (b : bytes) : bool :=
  match b with
  | [] => false
  | [x] => negb (x =? 0) && negb (x =? 128)
  | x :: r => negb (x =? 0) || btruthy r
  end.

Definition bminbool (b : bytes) : option bool :=
  match b with
  | [] => Some false
  | [x] => if x =? 1 then Some true else None
  | _ => None
  end.

Definition bst := st bytes.

Definition brun (H : bytes -> bytes) : script -> bst -> option bst :=
  runM bytes dec enc (fun b => b) bytes_eqb btruthy bminbool H.

Definition bsucceeds : option bst -> bool := succeeds bytes btruthy.

(** *** The proof machine: numbers kept as numbers. *)
Inductive val := I (z : Z) | B (b : bytes).

Definition vbytes (v : val) : bytes := match v with I z => enc z | B b => b end.

Definition vnum (v : val) : option Z :=
  match v with
  | I z => if in4 z then Some z else None
  | B b => dec b
  end.

Definition veqb (a b : val) : bool :=
  match a, b with
  | I x, I y => x =? y
  | _, _ => bytes_eqb (vbytes a) (vbytes b)
  end.

Definition vtruthy (a : val) : bool :=
  match a with I z => negb (z =? 0) | B b => btruthy b end.

Definition vminbool (a : val) : option bool :=
  match a with
  | I z => if z =? 0 then Some false else if z =? 1 then Some true else None
  | B b => bminbool b
  end.

Definition vst := st val.

Section Run.
  Variable H : bytes -> bytes.
  Definition vhash (v : val) : val := B (H (vbytes v)).
  Definition run : script -> vst -> option vst :=
    runM val vnum I B veqb vtruthy vminbool vhash.
  Definition vsucceeds : option vst -> bool := succeeds val vtruthy.
End Run.

(** *** Both machines agree. *)
Definition bof (s : vst) : bst := mk (map vbytes (main s)) (map vbytes (alt s)) (cond s).

Lemma vnum_ok : forall v, dec (vbytes v) = vnum v.
Proof. intros [z|b]; [apply dec_enc|reflexivity]. Qed.

Lemma veqb_ok : forall a b, bytes_eqb (vbytes a) (vbytes b) = veqb a b.
Proof. intros [x|x] [y|y]; try reflexivity. apply bytes_eqb_enc. Qed.

Lemma btruthy_val : forall b, wfmag b -> forall neg, btruthy (set_sign neg b) = match b with [] => false | _ => true end.
Proof.
  induction b as [|x r IH]; intros W neg; [reflexivity|].
  destruct r as [|y r].
  - cbn in W. cbn [set_sign]. destruct (x <? 128) eqn:E.
    + destruct neg; cbn; lia.
    + destruct neg; cbn; lia.
  - change (set_sign neg (x :: y :: r)) with (x :: set_sign neg (y :: r)).
    assert (W' : wfmag (y :: r)) by (cbn in W |- *; tauto).
    specialize (IH W' neg).
    destruct (set_sign neg (y :: r)) as [|d t] eqn:Es; [easy|].
    change (negb (x =? 0) || btruthy (d :: t) = true).
    rewrite IH. apply orb_true_r.
Qed.

Lemma vtruthy_ok : forall v, btruthy (vbytes v) = vtruthy v.
Proof.
  intros [z|b]; [|reflexivity]. cbn.
  destruct (Z.eq_dec z 0) as [->|N]; [reflexivity|].
  unfold enc. rewrite btruthy_val by (apply mag_bytes_wf; lia).
  unfold mag_bytes. cbn [le_digits].
  destruct (Z.abs z =? 0) eqn:E; [lia|]. lia.
Qed.

Lemma vminbool_ok : forall v, bminbool (vbytes v) = vminbool v.
Proof.
  intros [z|b]; [|reflexivity]. cbn.
  destruct (z =? 0) eqn:E0; [apply Z.eqb_eq in E0; subst; reflexivity|].
  destruct (z =? 1) eqn:E1; [apply Z.eqb_eq in E1; subst; reflexivity|].
  destruct (enc z) as [|x [|y r]] eqn:F; cbn.
  - change [] with (enc 0) in F. apply enc_inj in F. lia.
  - destruct (x =? 1) eqn:E; [|reflexivity]. apply Z.eqb_eq in E. subst x.
    change [1] with (enc 1) in F. apply enc_inj in F. lia.
  - reflexivity.
Qed.

Section Agree.
  Variable H : bytes -> bytes.

  Let bstep := step bytes dec enc (fun b => b) bytes_eqb btruthy bminbool H.
  Let bstep_main := step_main bytes dec enc (fun b => b) bytes_eqb btruthy H.
  Let vstep := step val vnum I B veqb vtruthy vminbool (vhash H).
  Let vstep_main := step_main val vnum I B veqb vtruthy (vhash H).

  Lemma extract_map : forall n l,
    extract n (map vbytes l) =
    option_map (fun p => (vbytes (fst p), map vbytes (snd p))) (extract n l).
  Proof.
    induction n as [|n IH]; intros [|x l]; try reflexivity.
    cbn. rewrite IH. destruct (extract n l) as [[y r]|]; reflexivity.
  Qed.

  Lemma un_map : forall f m,
    un bytes dec enc f (map vbytes m) = option_map (map vbytes) (un val vnum I f m).
  Proof.
    intros f [|x m]; [reflexivity|]. cbn. rewrite vnum_ok. destruct (vnum x); reflexivity.
  Qed.

  Lemma bin_map : forall f m,
    bin bytes dec enc f (map vbytes m) = option_map (map vbytes) (bin val vnum I f m).
  Proof.
    intros f [|x [|y m]]; try reflexivity. cbn. rewrite !vnum_ok.
    destruct (vnum x), (vnum y); reflexivity.
  Qed.

  Lemma step_main_map : forall o m,
    bstep_main o (map vbytes m) = option_map (map vbytes) (vstep_main o m).
  Proof.
    intros o m. unfold bstep_main, vstep_main.
    destruct o; cbn [step_main]; try apply un_map; try apply bin_map;
      try (destruct m as [|? [|? [|? [|? [|? [|? ?]]]]]]; reflexivity).
    - (* PICK *)
      destruct m as [|n r]; [reflexivity|]. cbn [map]. rewrite vnum_ok.
      destruct (vnum n) as [k|]; [|reflexivity].
      destruct (k <? 0); [reflexivity|]. rewrite nth_error_map.
      destruct (nth_error r (znat k)); reflexivity.
    - (* ROLL *)
      destruct m as [|n r]; [reflexivity|]. cbn [map]. rewrite vnum_ok.
      destruct (vnum n) as [k|]; [|reflexivity].
      destruct (k <? 0); [reflexivity|]. rewrite extract_map.
      destruct (extract (znat k) r) as [[x r']|]; reflexivity.
    - (* EQUAL *)
      destruct m as [|y [|x r]]; try reflexivity. cbn. now rewrite veqb_ok.
    - destruct m as [|y [|x r]]; try reflexivity. cbn. rewrite veqb_ok.
      destruct (veqb x y); reflexivity.
    - destruct m as [|x r]; try reflexivity. cbn. rewrite vtruthy_ok.
      destruct (vtruthy x); reflexivity.
  Qed.

  Lemma step_map : forall o s, bstep o (bof s) = option_map bof (vstep o s).
  Proof.
    intros o [m a c]. unfold bof. cbn [main alt cond].
    assert (G : (if executing c then
                   match bstep_main o (map vbytes m) with
                   | Some m' => Some (mk m' (map vbytes a) c)
                   | None => None end
                 else Some (mk (map vbytes m) (map vbytes a) c)) =
                option_map bof
                  (if executing c then
                     match vstep_main o m with
                     | Some m' => Some (mk m' a c)
                     | None => None end
                   else Some (mk m a c))).
    { destruct (executing c); [|reflexivity]. rewrite step_main_map.
      destruct (vstep_main o m); reflexivity. }
    destruct o; try exact G; unfold bstep, vstep; cbn [step main alt cond].
    - destruct (executing c); [|reflexivity]. destruct m; reflexivity.
    - destruct (executing c); [|reflexivity]. destruct a; reflexivity.
    - destruct (executing c); [|reflexivity]. destruct m as [|x m]; [reflexivity|].
      cbn [map]. rewrite vminbool_ok. destruct (vminbool x); reflexivity.
    - destruct (executing c); [|reflexivity]. destruct m as [|x m]; [reflexivity|].
      cbn [map]. rewrite vminbool_ok. destruct (vminbool x); reflexivity.
    - destruct c; reflexivity.
    - destruct c; reflexivity.
  Qed.

  (** The byte machine started on the encoding of a value stack computes the
      encoding of what the value machine computes, failures included. *)
  Theorem brun_run : forall p s, brun H p (bof s) = option_map bof (run H p s).
  Proof.
    unfold brun, run. induction p as [|o p IH]; intros s; [reflexivity|].
    cbn [runM]. fold bstep vstep. rewrite step_map.
    destruct (vstep o s) as [s'|]; [apply IH|reflexivity].
  Qed.

  Theorem bsucceeds_vsucceeds : forall p s,
    bsucceeds (brun H p (bof s)) = vsucceeds (run H p s).
  Proof.
    intros p s. rewrite brun_run. destruct (run H p s) as [[m a c]|]; [|reflexivity].
    cbn. destruct m as [|x [|y m]]; cbn; try reflexivity.
    destruct c; [apply vtruthy_ok|reflexivity].
  Qed.

  Lemma run_app : forall p q s,
    run H (p ++ q) s = match run H p s with Some s' => run H q s' | None => None end.
  Proof. intros. apply runM_app. Qed.
End Agree.
