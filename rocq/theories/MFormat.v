(** Texts: the format specifications [:.0f], [:.1f] and [:.2f] of numbers and of astropy quantities,
    and the text of a spot. *)
From Coq Require Import Reals ZArith NArith Bool String Ascii List.
From Verif Require Import Num Py MConfig MHelpers MGrid MSpots.
Import ListNotations.
Open Scope R_scope.
Open Scope string_scope.

(** Python (star.py:558, spots.py:153-155): the character of a digit *)
Definition digit_char (k : N) : ascii := ascii_of_N (48 + k).
(** Python (star.py:558): the last [d] decimal digits of [k], with leading zeros *)
Fixpoint show_padded (d : nat) (k : N) : string :=
  match d with
  | O => ""
  | S d' => show_padded d' (k / 10) ++ String (digit_char (k mod 10)) ""
  end.
(** Python (star.py:558): the decimal digits of [k] without leading zeros; [fuel] bounds their number *)
Fixpoint show_digits (fuel : nat) (k : N) : string :=
  match fuel with
  | O => ""
  | S f => if (k <? 10)%N then String (digit_char k) ""
           else show_digits f (k / 10) ++ String (digit_char (k mod 10)) ""
  end.
(** Python (star.py:558): a natural number in decimal *)
Definition show_N (k : N) : string := show_digits (S (N.to_nat (N.size k))) k.
(** Python (star.py:558, spots.py:153-155): [f'{x:.df}'] of a float.  The number is rounded to [d]
    decimals, ties to even; the sign of a negative number is kept even if it is rounded to zero
    (SIMPLIFICATION: the float -0.0 is not distinguished from 0.0). *)
Definition fmt_fixed (d : nat) (x : num) : string :=
  match x with
  | Fin r =>
      let k := Z.to_N (rhe (Rabs r * 10 ^ d)) in
      let p := (10 ^ N.of_nat d)%N in
      (if Rltb r 0 then "-" else "") ++ show_N (k / p)
      ++ (match d with O => "" | S _ => "." ++ show_padded d (k mod p) end)
  | PInf => "inf"
  | NInf => "-inf"
  | NaN => "nan"
  end.
(** astropy (star.py:558, spots.py:153-155): a quantity is formatted as its value, a space and the name of
    its unit *)
Definition fmt_quantity (d : nat) (x : num) (unit_name : string) : string :=
  fmt_fixed d x ++ " " ++ unit_name.

(** spots.py:151-156 [StarSpot.__str__].  [tu], [tp] are the temperatures, [lat], [lon] the
    coordinates, each with its unit as given by the user; the area is converted to MSH, whose name
    is 'msh' (config.py:8) *)
Definition spot_str (tu tp : num * string) (area_msh : num) (lat lon : num * string) : string :=
  "StarSpot with "
  ++ "Teff = (" ++ fmt_quantity 0 (fst tu) (snd tu) ++ "," ++ fmt_quantity 0 (fst tp) (snd tp) ++ "), "
  ++ "area = " ++ fmt_quantity 0 area_msh "msh" ++ ", "
  ++ "lat = " ++ fmt_quantity 1 (fst lat) (snd lat) ++ ", lon = " ++ fmt_quantity 1 (fst lon) (snd lon).
