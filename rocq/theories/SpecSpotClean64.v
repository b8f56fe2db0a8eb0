(** Vocabulary for C134: collections of spots in double precision *)
From Coq Require Import Reals ZArith Bool List.
From Verif Require Import Num Py MConfig MHelpers MGrid MSpots MFaculae MXoflares MFlares MGranules MStar MSingle MDouble MAge64 MSpotClean64
  Spec SpecStar SpecDisk SpecSingle SpecDouble SpecAge64 SpecSpot64.
Import ListNotations.
Open Scope R_scope.

(** the collection after the program has aged it by each of the times *)
Fixpoint spots64 (ex lg : R -> R) (c : spotcoll) (ts : list R) : res spotcoll :=
  match ts with
  | [] => Ok c
  | t :: r => do c' <- sc_age64 ex lg c (Fin t) ;; spots64 ex lg c' r
  end.
(** a spot that can be aged *)
Definition sane_spot (s : spot) (a am g W : R) : Prop :=
  spot_params s a am g W /\ sane64 a /\ sane64 am /\ a <= am /\ growth64 g /\ f64_value W /\ 0 <= W <= powerRZ 2 300.
