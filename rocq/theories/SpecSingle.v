(** Vocabulary for C103-C104: single precision *)
From Coq Require Import Reals ZArith Bool List.
From Verif Require Import Num Py MConfig MHelpers MGrid MSpots MFaculae MXoflares MFlares MGranules MStar MSingle
  Spec SpecStar SpecDisk.
Import ListNotations.
Open Scope R_scope.

(** numbers with 24 binary digits and an exponent of at least -149 *)
Definition f32_value (y : R) : Prop := exists m e : Z, (Z.abs m <= 2 ^ 24)%Z /\ (-149 <= e)%Z /\ y = IZR m * powerRZ 2 e.
(** [y] is such a number, none is nearer to [x], and if another one is as near then [y] is an even
    multiple of the distance between the two *)
Definition nearest32 (x y : R) : Prop :=
  f32_value y /\ (forall z, f32_value z -> Rabs (y - x) <= Rabs (z - x))
  /\ (forall z, f32_value z -> z <> y -> Rabs (z - x) = Rabs (y - x) -> exists m : Z, y = IZR (2 * m) * Rabs (z - y)).
(** rounding to single precision *)
Definition single_rounding (rnd : R -> R) : Prop := forall x, nearest32 x (rnd x).
(** a temperature that does not overflow *)
Definition fits32 (t : num) : Prop := exists x, t = Fin x /\ Rabs x <= powerRZ 2 127.
(** spots whose temperatures do not overflow, the umbra no warmer than the penumbra *)
Definition spot32 (x : spot) : Prop :=
  exists tu tp, sp_teff_umbra x = Fin tu /\ sp_teff_pen x = Fin tp /\ tu <= tp /\ Rabs tu <= powerRZ 2 127 /\ Rabs tp <= powerRZ 2 127.
