(** Vocabulary for C130: ageing in double precision *)
From Coq Require Import Reals ZArith Bool List.
From Verif Require Import Num Py MConfig MHelpers MGrid MSpots MFaculae MXoflares MFlares MGranules MStar MSingle MDouble MAge64
  Spec SpecStar SpecDisk SpecSingle SpecDouble.
Import ListNotations.
Open Scope R_scope.

(** an exponential with a relative error of at most 2^-51 before its result is rounded, on the right side of 1 *)
Definition accurate_exp (ex : R -> R) : Prop :=
  forall x, Rabs (ex x - exp x) <= exp x / 2251799813685248 /\ (x <= 0 -> ex x <= 1) /\ (0 <= x -> 1 <= ex x).
(** a logarithm with a relative error of at most 2^-51 before its result is rounded *)
Definition accurate_log (lg : R -> R) : Prop :=
  forall x, 0 < x -> Rabs (lg x - ln x) <= Rabs (ln x) / 2251799813685248.
(** a double from 2^-300 to 2^300 *)
Definition sane64 (x : R) : Prop := f64_value x /\ powerRZ 2 (-300) <= x <= powerRZ 2 300.
(** a double from 0 to 2^300 *)
Definition time64 (t : R) : Prop := f64_value t /\ 0 <= t <= powerRZ 2 300.
(** the facula after the program has aged it by each of the times [ts], with rounding and without *)
Definition aged64 (ex lg : R -> R) (f : facula) (ts : list R) : facula := fold_left (fun x t => fac_age64 ex lg x (Fin t)) ts f.
Definition aged_exactly (f : facula) (ts : list R) : facula := fold_left (fun x t => fac_age x (Fin t)) ts f.
(** the relative error of the radius after [n] steps of together [x] half lifetimes, for a facula that starts [y] below
    its maximum (in the logarithm of its radius) *)
Definition drift64 (n : nat) (x y : R) : R := (INR n + x + y + 2) / 100000000000000.
