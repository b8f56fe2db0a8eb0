(** Specification vocabulary for spots and faculae as caps of the sphere (no proofs) *)
From Coq Require Import Reals ZArith Bool List.
From Verif Require Import Num Py MHelpers MGrid MSpots MFaculae MStar Spec SpecStar SpecDisk SpecConv SpecWarn.
Import ListNotations.
Open Scope R_scope.

(** centre, angular radius, and angle between the centre and the observer *)
Record cap := mkCap { c_lat : R; c_lon : R; c_radius : R; c_angle : R }.
(** the cap of a spot cooler than the photosphere, its umbra no larger than the spot *)
Definition spot_cap (Rs T : R) (x : spot) (c : cap) : Prop :=
  sp_lat x = c_lat c /\ sp_lon x = c_lon c
  /\ (exists a, sp_area x = Fin a /\ cap_radius Rs a (c_radius c))
  /\ (exists q, sp_ratio x = Fin q /\ 1 <= q)
  /\ (exists tu tp, sp_teff_umbra x = Fin tu /\ sp_teff_pen x = Fin tp /\ tu < T /\ tp < T).
(** the cap of a facula that can be drawn and is painted in other temperatures than [T] *)
Definition fac_cap (Rs lat0 lon0 T : R) (f : facula) (c : cap) : Prop :=
  fc_lat f = c_lat c /\ fc_lon f = c_lon c
  /\ 0 <= c_radius c <= PI /\ fc_radius f = Fin (c_radius c * (Rs * SUN_KM))
  /\ drawable lat0 lon0 f
  /\ (forall k, contrast lat0 lon0 f k -> clip_teff (Fin (IZR k + T)) <> Fin T).
Definition caps_apart (c c' : cap) : Prop :=
  forall a, is_angle (c_lat c) (c_lon c) (c_lat c') (c_lon c') a -> c_radius c + c_radius c' < a.
(** the cap is entirely on the visible or entirely on the hidden side *)
Definition cap_faces (lat0 lon0 : R) (c : cap) : Prop :=
  is_angle lat0 lon0 (c_lat c) (c_lon c) (c_angle c)
  /\ (c_angle c + c_radius c <= PI / 2 \/ PI / 2 <= c_angle c - c_radius c).
(** the fraction of the disk it fills *)
Definition cap_share (c : cap) : R := Rmax 0 (cos (c_angle c)) * sin (c_radius c) ^ 2.
(** the spots and faculae of the star are the caps [scs] and [fcs]; no two of them touch, and
    some pixel is in none *)
Record marked (s : star) (lat0 lon0 T : R) (scs fcs : list cap) : Prop := {
  mk_unified : star_unified s;
  mk_radius : 0 < st_radius s;
  mk_teff : st_teff s = Fin T;
  mk_spots : Forall2 (spot_cap (st_radius s) T) (sc_spots (st_spots s)) scs;
  mk_facs : Forall2 (fac_cap (st_radius s) lat0 lon0 T) (fcc_facs (st_facs s)) fcs;
  mk_apart : ForallOrdPairs caps_apart (scs ++ fcs);
  mk_faces : forall c, In c (scs ++ fcs) -> cap_faces lat0 lon0 c;
  mk_clear : exists j i, pixel (st_grid s) j i /\ forall c, In c (scs ++ fcs) ->
      cos_sep (c_lat c) (c_lon c) (pix_lat (st_grid s) j i) (pix_lon (st_grid s) j i) < cos (c_radius c) }.
