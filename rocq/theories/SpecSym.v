(** Specification vocabulary: rotations and mirror images of the sphere, and stars that
    differ by one of them *)
From Coq Require Import Reals ZArith Bool List.
From Verif Require Import Num Py MGrid MSpots MFaculae MFlares MGranules MStar.
Import ListNotations.
Open Scope R_scope.

(** places on the sphere (latitude, longitude); [q] is [p] turned about the axis by [d] *)
Definition turned (d : R) (p q : R * R) : Prop :=
  fst q = fst p /\ exists m : Z, snd q = snd p + d + 2 * PI * IZR m.
(** mirror images: east and west, north and south exchanged *)
Definition mirrored_ew (p q : R * R) : Prop :=
  fst q = fst p /\ exists m : Z, snd q = - snd p + 2 * PI * IZR m.
Definition mirrored_ns (p q : R * R) : Prop :=
  fst q = - fst p /\ exists m : Z, snd q = snd p + 2 * PI * IZR m.
(** [q] is [p] after half a turn about the axis through the point of the equator at longitude [c] *)
Definition turned_over (c : R) (p q : R * R) : Prop :=
  fst q = - fst p /\ exists m : Z, snd q = 2 * c - snd p + 2 * PI * IZR m.

(** the same spot, facula or star with every feature moved by [rel] *)
Definition moved_spot (rel : R * R -> R * R -> Prop) (x y : spot) : Prop :=
  rel (sp_lat x, sp_lon x) (sp_lat y, sp_lon y)
  /\ sp_area y = sp_area x /\ sp_ratio y = sp_ratio x
  /\ sp_teff_umbra y = sp_teff_umbra x /\ sp_teff_pen y = sp_teff_pen x.
Definition moved_fac (rel : R * R -> R * R -> Prop) (f h : facula) : Prop :=
  rel (fc_lat f, fc_lon f) (fc_lat h, fc_lon h)
  /\ fc_radius h = fc_radius f /\ fc_depth h = fc_depth f
  /\ fc_fslope h = fc_fslope f /\ fc_fminrad h = fc_fminrad f /\ fc_fbase h = fc_fbase f
  /\ fc_wslope h = fc_wslope f /\ fc_wint h = fc_wint f.
Definition moved_star (rel : R * R -> R * R -> Prop) (s s' : star) : Prop :=
  st_grid s' = st_grid s /\ st_teff s' = st_teff s /\ st_radius s' = st_radius s
  /\ gr_dteff (st_gran s') = gr_dteff (st_gran s) /\ st_u1 s' = st_u1 s /\ st_u2 s' = st_u2 s
  /\ Forall2 (moved_spot rel) (sc_spots (st_spots s)) (sc_spots (st_spots s'))
  /\ Forall2 (moved_fac rel) (fcc_facs (st_facs s)) (fcc_facs (st_facs s')).
