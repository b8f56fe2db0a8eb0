(** Vocabulary for C107-C108: texts of numbers *)
From Coq Require Import Reals ZArith NArith Bool String Ascii List.
From Verif Require Import Num Py MConfig MHelpers MGrid MSpots MFaculae MXoflares MFlares MGranules MStar Spec SpecStar SpecDisk.
Import ListNotations.
Open Scope R_scope.

(** the ten digits *)
Definition digit_of (c : ascii) : option N :=
  match c with
  | "0" => Some 0 | "1" => Some 1 | "2" => Some 2 | "3" => Some 3 | "4" => Some 4
  | "5" => Some 5 | "6" => Some 6 | "7" => Some 7 | "8" => Some 8 | "9" => Some 9
  | _ => None
  end%char%N.
(** the number denoted by a row of digits, [acc] being denoted by the digits before it *)
Fixpoint digits_value (acc : N) (s : string) : option N :=
  match s with
  | EmptyString => Some acc
  | String c t => match digit_of c with Some v => digits_value (10 * acc + v) t | None => None end
  end.
(** no superfluous zero at the beginning, and at least one digit *)
Definition normal_whole (s : string) : Prop :=
  match s with EmptyString => False | String c EmptyString => True | String c _ => c <> "0"%char end.
(** [s] is the sign [neg], a whole part and [d] decimals; without the sign it denotes [k / 10^d] *)
Definition decimal_text (d : nat) (s : string) (neg : bool) (k : N) : Prop :=
  exists whole frac a b,
    s = ((if neg then "-" else "") ++ whole ++ (if Nat.eqb d 0 then "" else "." ++ frac))%string
    /\ String.length frac = d /\ normal_whole whole
    /\ digits_value 0 whole = Some a /\ digits_value 0 frac = Some b /\ (k = a * 10 ^ N.of_nat d + b)%N.
(** [k / 10^d] is the multiple of [1 / 10^d] nearest to [x], halves to even *)
Definition rounds_to (d : nat) (x : R) (k : N) : Prop :=
  Rabs (INR (N.to_nat k) - x * 10 ^ d) <= 1/2 /\ (Rabs (INR (N.to_nat k) - x * 10 ^ d) = 1/2 -> N.even k = true).
(** two numbers that look the same with [d] decimals: the same sign and the same rounding *)
Definition same_print (d : nat) (x y : num) : Prop :=
  match x, y with
  | Fin a, Fin b => (a < 0 <-> b < 0) /\ exists k, rounds_to d (Rabs a) k /\ rounds_to d (Rabs b) k
  | PInf, PInf | NInf, NInf | NaN, NaN => True
  | _, _ => False
  end.
(** a text without the character [c] *)
Fixpoint lacks (c : ascii) (s : string) : Prop :=
  match s with EmptyString => True | String a t => a <> c /\ lacks c t end.
