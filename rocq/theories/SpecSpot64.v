(** Vocabulary for C131: ageing spots in double precision *)
From Coq Require Import Reals ZArith Bool List.
From Verif Require Import Num Py MConfig MHelpers MGrid MSpots MFaculae MXoflares MFlares MGranules MStar MSingle MDouble MAge64
  Spec SpecStar SpecDisk SpecSingle SpecDouble SpecAge64.
Import ListNotations.
Open Scope R_scope.

(** the spot after the program has aged it by each of the times [ts] *)
Fixpoint spot_aged64 (ex lg : R -> R) (s : spot) (ts : list R) : res spot :=
  match ts with
  | [] => Ok s
  | t :: r => do s' <- spot_age64 ex lg s (Fin t) ;; spot_aged64 ex lg s' r
  end.
(** growth rates from 2^-20 to 2^20 per day *)
Definition growth64 (g : R) : Prop := f64_value g /\ powerRZ 2 (-20) <= g <= powerRZ 2 20.
(** the relative error after [n] steps, for a spot that starts [q] below its maximum (in the logarithm of its area) and
    whose area grows at the rate [tau] (in the logarithm, per day) *)
Definition spot_drift64 (n : nat) (q tau : R) : R := (INR n + q + (q + 1) / tau + 2) / 100000000000000.
