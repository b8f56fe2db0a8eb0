(** Vocabulary for C133: collections of faculae in double precision *)
From Coq Require Import Reals ZArith Bool List.
From Verif Require Import Num Py MConfig MHelpers MGrid MSpots MFaculae MXoflares MFlares MGranules MStar MSingle MDouble MAge64 MClean64
  Spec SpecStar SpecDisk SpecSingle SpecDouble SpecAge64.
Import ListNotations.
Open Scope R_scope.

(** the value of e^2 with a relative error of at most 2^-50 *)
Definition accurate_e2 (e2 : R) : Prop := Rabs (e2 - exp 2) <= exp 2 / 1125899906842624.
(** a facula that can be aged *)
Definition sane_facula (f : facula) (r rm L : R) : Prop :=
  fac_state f r rm L /\ sane64 r /\ sane64 rm /\ sane64 L /\ r <= rm.
(** the age at which its radius has decayed to the maximum divided by e^2 *)
Definition lifespan (f : facula) (r rm L : R) : R :=
  if fc_growing f then time_to_peak r rm L + L else L * (1 - ln (rm / r) / 2).
(** the collection after the program has aged it by each of the times *)
Definition collection64 (ex lg : R -> R) (e2 : R) (c : faccoll) (ts : list R) : faccoll :=
  fold_left (fun x t => fcc_age64 ex lg e2 x (Fin t)) ts c.
