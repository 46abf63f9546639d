(** Meaning of the opcodes of the expression language, in terms of field elements
    and integers.

    A field element is a list of 1 or 4 canonical limbs (coefficient 0 first); a
    base element counts as the extension element with that constant coefficient. *)
From Coq Require Import ZArith List Bool Arith.
From Verif Require Import Field BabyBear HelperModel DslModel DslSpec Blake3Spec.
Import ListNotations.
Local Open Scope Z_scope.

Definition is_elt (n : nat) (l : list Z) : bool :=
  ((n =? 1)%nat || (n =? 4)%nat) && (length l =? n)%nat && forallb canonical l.
Definition felt (l : list Z) : BB4 :=
  ext (of_Z (nth 0 l 0)) (of_Z (nth 1 l 0)) (of_Z (nth 2 l 0)) (of_Z (nth 3 l 0)).
Definition limbs4 (z : BB4) : list Z :=
  let '((c0, c2), (c1, c3)) := z in map as_canonical [c0; c1; c2; c3].
Definition limbs (n : nat) (z : BB4) : list Z := firstn n (limbs4 z).

(** a 32-bit word from four bytes, low byte first *)
Definition word_of (l : list Z) : Z :=
  nth 0 l 0 + 2 ^ 8 * nth 1 l 0 + 2 ^ 16 * nth 2 l 0 + 2 ^ 24 * nth 3 l 0.
(** field element of a sampled word: the sign-magnitude encoding loses 2^31 *)
Definition sample_of (w : Z) : Z := if w =? 2 ^ 31 then 0 else w mod BP.

(** the [k] low bits of [v] in reverse order *)
Fixpoint bits_reversed (k : nat) (v : Z) : Z :=
  match k with
  | O => 0
  | S k => 2 ^ Z.of_nat k * (v mod 2) + bits_reversed k (v / 2)
  end.

Definition scalars (ins : list (list Z)) : list Z := concat ins.
Definition all_len (n : nat) (ins : list (list Z)) : bool := forallb (fun l => (length l =? n)%nat) ins.
Definition byteb (z : Z) : bool := (0 <=? z) && (z <? 256).
Definition num32 (z : Z) : bool := (- 2 ^ 31 <? z) && (z <? 2 ^ 31).

Fixpoint list_eqb (a b : list Z) : bool :=
  match a, b with
  | [], [] => true
  | x :: a, y :: b => (x =? y) && list_eqb a b
  | _, _ => false
  end.

(** [ins]: operand values, the last operand first. *)
Definition bin (f : BB4 -> BB4 -> BB4) (sizes : list nat) (ins : list (list Z)) : option res :=
  match sizes, ins with
  | [a; b], [y; x] =>
      if is_elt a x && is_elt b y then Some (Leaves [limbs (Nat.max a b) (f (felt x) (felt y))]) else None
  | _, _ => None
  end.
Definition una (f : BB4 -> BB4) (sizes : list nat) (ins : list (list Z)) : option res :=
  match sizes, ins with
  | [a], [x] => if is_elt a x then Some (Leaves [limbs a (f (felt x))]) else None
  | _, _ => None
  end.

Definition op_sem (o : opcode) (sizes : list nat) (ins : list (list Z)) : option res :=
  match o with
  | Add => bin fadd sizes ins
  | Sub => bin fsub sizes ins
  | Mul => bin fmul sizes ins
  | Neg => una fopp sizes ins
  | Double => una (fun x => fadd x x) sizes ins
  | Square => una (fun x => fmul x x) sizes ins
  | Equal =>
      match sizes, ins with
      | [a; b], [y; x] =>
          if (length x =? a)%nat && (length y =? b)%nat then
            if (a =? 1)%nat then Some (Leaves [[if list_eqb x y then 1 else 0]])
            else if (a =? 4)%nat then Some (if list_eqb x y then Leaves [[1]] else Fails) else None
          else None
      | _, _ => None
      end
  | EqualVerify =>
      match sizes, ins with
      | [a; b], [y; x] =>
          if (length x =? a)%nat && (length y =? b)%nat && ((a =? 1)%nat || (a =? 4)%nat) then
            Some (if list_eqb x y then Leaves [] else Fails)
          else None
      | _, _ => None
      end
  | NumToField =>
      match sizes, ins with
      | [1%nat], [[x]] =>
          if num32 x then Some (Leaves [[if 0 <=? x then x mod BP else (2 ^ 31 - x) mod BP]]) else None
      | _, _ => None
      end
  | FieldToNum =>
      match sizes, ins with
      | [1%nat], [[x]] => Some (Leaves [[x]])
      | _, _ => None
      end
  | FourU32ToU32 =>
      match ins with
      | [[c0; _; _; _]] => Some (Leaves [[c0]])
      | _ => None
      end
  | ExtractHighBits n =>
      match ins with
      | [[x]] => if num32 x then Some (Leaves [[Z.shiftr (x mod 2 ^ 32) (32 - Z.of_nat n)]]) else None
      | _ => None
      end
  | Lookup _ n =>
      match ins with
      | [i] :: table =>
          if (0 <=? i) && (i <? Z.of_nat n) && (i <? 2 ^ 31) && all_len 1 table then
            Some (Leaves [nth (Z.to_nat i) table []])
          else None
      | _ => None
      end
  | Table rows => Some (Leaves rows)
  | IndexToRou ext bits =>
      match ins with
      | [[v]] =>
          if num32 v then
            if (0 <=? v) && (v <? 2 ^ Z.of_nat bits) then
              Some (Leaves [limbs (if ext then 4 else 1)
                              (fpow (from_base (of_Z (two_adic_generator bits))) (Z.to_nat v))])
            else Some Fails
          else None
      | _ => None
      end
  | ReverseBitslen bits =>
      match ins with
      | [[v]] => if (0 <=? v) && (v <? 2 ^ Z.of_nat bits) then Some (Leaves [[bits_reversed bits v]]) else None
      | _ => None
      end
  | ExpConst ext power =>
      match sizes, ins with
      | [a], [x] =>
          if is_elt a x && (a =? if ext then 4 else 1)%nat then Some (Leaves [limbs a (fpow (felt x) power)])
          else None
      | _, _ => None
      end
  | Constant v => Some (Leaves [v])
  | Blake3Perm =>
      if all_len 1 ins && (length ins =? 64)%nat && forallb byteb (scalars ins) then
        Some (Leaves (map (fun b => [b]) (b3_hash (scalars ins))))
      else None
  | ToSample =>
      if all_len 1 ins && (length ins =? 32)%nat && forallb byteb (scalars ins) then
        Some (Leaves (map (fun i => [sample_of (word_of (skipn (4 * (7 - i)) (scalars ins)))]) (seq 0 8)))
      else None
  | SampleBase =>
      if all_len 1 ins && (length ins =? 8)%nat then Some (Leaves [firstn 1 (scalars ins)]) else None
  | SampleExt =>
      if all_len 1 ins && (length ins =? 8)%nat then Some (Leaves [firstn 4 (scalars ins)]) else None
  | InputVarMove _ | InputVarCopy _ => None
  end.
