(** Specification vocabulary: the side of the star that the observer does not see *)
From Coq Require Import Reals ZArith Bool List.
From Verif Require Import Num Py MHelpers MGrid MSpots MFaculae MFlares MGranules MStar Spec SpecStar SpecDisk SpecFlux.
Import ListNotations.
Open Scope R_scope.

(** what the report needs to know about the star apart from its spots and faculae *)
Definition same_face (s s' : star) : Prop :=
  st_teff s' = st_teff s /\ st_radius s' = st_radius s /\ st_grid s' = st_grid s
  /\ st_gran s' = st_gran s /\ st_u1 s' = st_u1 s /\ st_u2 s' = st_u2 s.
(** the maps agree on the visible hemisphere *)
Definition same_front (s : star) (lat0 lon0 : R) (M M' : arr num) : Prop :=
  forall j i, pixel (st_grid s) j i -> 0 < pix_mu s lat0 lon0 j i -> acell M' j i NaN = acell M j i NaN.
(** the whole spot is on the far side *)
Definition spot_hidden (Rs lat0 lon0 : R) (x : spot) : Prop :=
  exists th q a, spot_angular_radius x Rs = Fin th /\ sp_ratio x = Fin q /\ 1 <= q
    /\ is_angle lat0 lon0 (sp_lat x) (sp_lon x) a /\ PI/2 + th <= a.
(** the whole facula is on the far side *)
Definition fac_hidden (Rs lat0 lon0 : R) (f : facula) : Prop :=
  exists r a, fc_radius f = Fin r
    /\ is_angle lat0 lon0 (fc_lat f) (fc_lon f) a /\ PI/2 + r / (Rs * SUN_KM) <= a.
(** two tables, of the temperatures [L] and [L'], say the same: equal entries for common
    temperatures, entries 0 for the others *)
Definition same_table (label : R -> tkey) (L L' : R -> Prop) (d d' : dict tkey num) : Prop :=
  (forall t, L t -> L' t -> dget tkey_eqb d' (label t) = dget tkey_eqb d (label t))
  /\ (forall t, L' t -> ~ L t -> dget tkey_eqb d' (label t) = Some (Fin 0))
  /\ (forall t, L t -> ~ L' t -> dget tkey_eqb d (label t) = Some (Fin 0)).
