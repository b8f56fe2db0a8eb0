(** Numbers: exact reals extended with the IEEE-754 special values.

    Models the float64 / numpy scalar arithmetic used throughout /repo/vspec_vsm.
    SIMPLIFICATIONS: finite arithmetic is exact (no rounding, no overflow or
    underflow); there is a single zero, treated as +0 when it is a divisor. *)
From Coq Require Import Reals ZArith Bool List.
Import ListNotations.
Open Scope R_scope.

(** ** Boolean comparisons on reals *)
Definition Rltb (x y : R) : bool := if Rlt_dec x y then true else false.
Definition Rleb (x y : R) : bool := if Rle_dec x y then true else false.
Definition Reqb (x y : R) : bool := if Req_EM_T x y then true else false.

Inductive num : Type :=
| Fin (r : R)
| PInf
| NInf
| NaN.

(** comparisons: any comparison with NaN is false (numpy [<], [<=], [==]) *)
Definition nlt (a b : num) : bool :=
  match a, b with
  | NaN, _ | _, NaN => false
  | Fin x, Fin y => Rltb x y
  | Fin _, PInf => true
  | Fin _, NInf => false
  | PInf, _ => false
  | NInf, NInf => false
  | NInf, _ => true
  end.
Definition nle (a b : num) : bool :=
  match a, b with
  | NaN, _ | _, NaN => false
  | Fin x, Fin y => Rleb x y
  | Fin _, PInf => true
  | Fin _, NInf => false
  | PInf, PInf => true
  | PInf, _ => false
  | NInf, _ => true
  end.
Definition ngt a b := nlt b a.
Definition nge a b := nle b a.
Definition neq (a b : num) : bool :=
  match a, b with
  | Fin x, Fin y => Reqb x y
  | PInf, PInf | NInf, NInf => true
  | _, _ => false
  end.
Definition nisnan (a : num) : bool := match a with NaN => true | _ => false end.
Definition is_fin (a : num) : Prop := exists r, a = Fin r.

(** arithmetic *)
Definition nneg (a : num) : num :=
  match a with Fin x => Fin (- x) | PInf => NInf | NInf => PInf | NaN => NaN end.
Definition nadd (a b : num) : num :=
  match a, b with
  | NaN, _ | _, NaN => NaN
  | Fin x, Fin y => Fin (x + y)
  | PInf, NInf | NInf, PInf => NaN
  | PInf, _ | _, PInf => PInf
  | NInf, _ | _, NInf => NInf
  end.
Definition nsub (a b : num) : num := nadd a (nneg b).

(** infinity of the sign of [x] (NaN for 0), [neg] flips it *)
Definition inf_signed (x : R) (neg : bool) : num :=
  if Rlt_dec 0 x then (if neg then NInf else PInf)
  else if Rlt_dec x 0 then (if neg then PInf else NInf)
  else NaN.
Definition nmul (a b : num) : num :=
  match a, b with
  | NaN, _ | _, NaN => NaN
  | Fin x, Fin y => Fin (x * y)
  | Fin x, PInf | PInf, Fin x => inf_signed x false
  | Fin x, NInf | NInf, Fin x => inf_signed x true
  | PInf, PInf | NInf, NInf => PInf
  | PInf, NInf | NInf, PInf => NInf
  end.
(** [x / 0] is +-inf or NaN as in numpy (with warnings), not an exception *)
Definition ndiv (a b : num) : num :=
  match a, b with
  | NaN, _ | _, NaN => NaN
  | Fin x, Fin y => if Req_EM_T y 0 then inf_signed x false else Fin (x / y)
  | Fin _, _ => Fin 0
  | PInf, Fin y => if Rlt_dec y 0 then NInf else PInf
  | NInf, Fin y => if Rlt_dec y 0 then PInf else NInf
  | _, _ => NaN
  end.

(** numpy unary functions *)
Definition nsqrt (a : num) : num :=
  match a with
  | Fin x => if Rlt_dec x 0 then NaN else Fin (sqrt x)
  | PInf => PInf | NInf => NaN | NaN => NaN
  end.
Definition nexp (a : num) : num :=
  match a with Fin x => Fin (exp x) | PInf => PInf | NInf => Fin 0 | NaN => NaN end.
Definition nln (a : num) : num :=
  match a with
  | Fin x => if Rlt_dec x 0 then NaN else if Req_EM_T x 0 then NInf else Fin (ln x)
  | PInf => PInf | NInf => NaN | NaN => NaN
  end.
Definition nacos (a : num) : num :=
  match a with
  | Fin x => if Rle_dec (-1) x then (if Rle_dec x 1 then Fin (acos x) else NaN) else NaN
  | _ => NaN
  end.
Definition nasin (a : num) : num :=
  match a with
  | Fin x => if Rle_dec (-1) x then (if Rle_dec x 1 then Fin (asin x) else NaN) else NaN
  | _ => NaN
  end.
Definition nsin (a : num) : num := match a with Fin x => Fin (sin x) | _ => NaN end.
Definition ncos (a : num) : num := match a with Fin x => Fin (cos x) | _ => NaN end.
(** [np.tan]; exactly at an odd multiple of pi/2 the real tangent has no value: +inf *)
Definition ntan (a : num) : num :=
  match a with
  | Fin x => if Req_EM_T (cos x) 0 then PInf else Fin (tan x)
  | _ => NaN
  end.
Definition nsq (a : num) : num := nmul a a.

(** [a ** p] for a real exponent, base >= 0 (numpy [**] on non-negative floats) *)
Definition npow (a : num) (p : R) : num :=
  match a with
  | Fin x => if Rlt_dec x 0 then NaN
             else if Req_EM_T x 0 then
               (if Rlt_dec p 0 then PInf else if Req_EM_T p 0 then Fin 1 else Fin 0)
             else Fin (Rpower x p)
  | PInf => if Rlt_dec p 0 then Fin 0 else if Req_EM_T p 0 then Fin 1 else PInf
  | NInf => NaN
  | NaN => if Req_EM_T p 0 then Fin 1 else NaN
  end.

(** numpy [sum] over a list *)
Definition nsum (l : list num) : num := fold_right nadd (Fin 0) l.
Definition rsum (l : list R) : R := fold_right Rplus 0 l.

(** ** Python [round]/numpy [round]: nearest integer, ties to even *)
Definition rhe (x : R) : Z :=
  let f := Int_part x in
  let d := x - IZR f in
  if Rlt_dec d (1/2) then f
  else if Rlt_dec (1/2) d then (f + 1)%Z
  else if Z.even f then f else (f + 1)%Z.

Definition deg2rad (d : R) : R := d * PI / 180.
Definition rad2deg (r : R) : R := r * 180 / PI.

(** [int(x)]: truncation toward zero *)
Definition rtrunc (x : R) : Z :=
  if Rle_dec 0 x then Int_part x else (- Int_part (- x))%Z.

(** [np.trapz(y, x)] *)
Fixpoint ntrapz (xs ys : list num) : num :=
  match xs, ys with
  | x0 :: ((x1 :: _) as xt), y0 :: ((y1 :: _) as yt) =>
      nadd (ndiv (nmul (nsub x1 x0) (nadd y1 y0)) (Fin 2)) (ntrapz xt yt)
  | _, _ => Fin 0
  end.

(** [np.linspace(a, b, n)] with possibly non-finite end points *)
Definition nlinspace (a b : num) (n : nat) : list num :=
  map (fun i => nadd a (nmul (Fin (INR i)) (ndiv (nsub b a) (Fin (INR n - 1))))) (seq 0 n).

(** [10 ** x] and [np.log10] *)
Definition npow10 (x : num) : num :=
  match x with Fin r => Fin (Rpower 10 r) | PInf => PInf | NInf => Fin 0 | NaN => NaN end.
Definition nlog10 (x : num) : num := ndiv (nln x) (Fin (ln 10)).
