(** Specification vocabulary: cosines in double precision *)
From Coq Require Import Reals ZArith Bool List.
From Verif Require Import Num Py MHelpers MGrid MSpots MFaculae MFlares MGranules MStar Spec SpecStar SpecDisk SpecDouble.
Import ListNotations.
Open Scope R_scope.

(** sine and cosine that are at most half a unit in the last place of 1 off, and between -1 and 1 *)
Definition accurate (sn cs : R -> R) : Prop :=
  forall x, (Rabs (sn x - sin x) <= 1/2^53 /\ -1 <= sn x <= 1) /\ (Rabs (cs x - cos x) <= 1/2^53 /\ -1 <= cs x <= 1).
(** 8 degrees in radians, in double precision *)
Definition EIGHT_DEG : R := 5030569068109113 / 2^55.
(** correctly rounded sine and cosine *)
Definition correctly_rounded (rnd sn cs : R -> R) : Prop := forall x, sn x = rnd (sin x) /\ cs x = rnd (cos x).
(** positive radius, finite parameters, wall and floor contrasts that round to different integers *)
Definition paintable (f : facula) : Prop :=
  exists r d fs fm fb ws wi kw kf, fac_thermal f r d fs fm fb ws wi /\ 0 < r /\ 0 <= d
    /\ round_teff (Fin (wall_diff r ws wi)) = Ok kw /\ round_teff (Fin (floor_diff r fs fm fb)) = Ok kf /\ kw <> kf.
(** the facula covers some pixel of the star *)
Definition covers_some (s : star) (f : facula) : Prop := exists j i, pixel (st_grid s) j i /\ fac_covers s f j i.
