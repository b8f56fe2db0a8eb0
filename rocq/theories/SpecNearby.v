(** Specification vocabulary: observers next to each other *)
From Coq Require Import Reals ZArith Bool List.
From Verif Require Import Num Py MHelpers MGrid MSpots MFaculae MFlares MGranules MStar Spec SpecStar SpecDisk SpecFlux.
Import ListNotations.
Open Scope R_scope.

(** how much the light of a unit area changes, at most, per unit of the cosine of the angle under which it is seen *)
Definition steepness (s : star) : R := 1 + Rabs (st_u1 s) + Rabs (st_u2 s).
(** all temperatures of the report have a brightness between [lo] and [hi] *)
Definition between (F : R -> R) (ts : list R) (lo hi : R) : Prop := forall t, In t ts -> lo <= F t <= hi.
