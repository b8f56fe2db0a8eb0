(** Specification vocabulary: what lies behind a planet *)
From Coq Require Import Reals ZArith Bool List.
From Verif Require Import Num Py MHelpers MGrid MSpots MFaculae MFlares MGranules MStar Spec SpecStar SpecDisk SpecFlux.
Import ListNotations.
Open Scope R_scope.

(** a pixel of the visible hemisphere, of which the planet hides something ([C] the table of hidden fractions) *)
Definition behind_planet (s : star) (lat0 lon0 : R) (C : arr num) (j i : nat) : Prop :=
  pixel (st_grid s) j i /\ 0 < pix_mu s lat0 lon0 j i /\ cell_val C j i <> 0.
(** brightness of the photosphere: a fraction [f] is granules *)
Definition phot_flux (F : R -> R) (T D f : R) : R := (1 - f) * F T + f * F (T - D).
(** share of the light that the star lacks because of its spots and faculae: shares of the
    disk (from the report [d] without granulation) times contrast *)
Definition deficit (label : R -> tkey) (F : R -> R) (T B : R) (ts : list R) (d : dict tkey num) : R :=
  rsum (map (fun t => if Req_EM_T t T then 0 else entry d (label t) * (1 - F t / B)) ts).
