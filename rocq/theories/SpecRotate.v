(** Specification vocabulary: a star seen from all sides during one rotation *)
From Coq Require Import Reals ZArith Bool List.
From Verif Require Import Num Py MHelpers MGrid MSpots MFaculae MFlares MGranules MStar Spec SpecStar SpecDisk SpecFlux SpecSym SpecConv.
Import ListNotations.
Open Scope R_scope.

(** the longitudes of the observer: one rotation, in as many steps as the grid has longitudes *)
Definition look (lon0 : R) (nlon k : nat) : R := lon0 + 2 * PI * INR k / INR nlon.
(** the part of the disk in the zone of latitude [i] *)
Definition zone (s : star) (lat0 lon0 : R) (A : arr num) (nlon i : nat) : R :=
  rsum (map (fun j => seen s lat0 lon0 A j i) (seq 0 nlon)) / disk s lat0 lon0 A.
(** the mean along the zone of latitude [i] *)
Definition zone_mean (w : nat -> nat -> R) (nlon i : nat) : R := rsum (map (fun j => w j i) (seq 0 nlon)) / INR nlon.
(** the mean over one rotation *)
Definition rotation_mean (x : nat -> R) (nlon : nat) : R := rsum (map x (seq 0 nlon)) / INR nlon.
(** the temperatures along the zone of latitude [i] *)
Definition zone_temps (M : arr num) (nlon i : nat) : list R := map (fun j => cell_val M j i) (seq 0 nlon).
(** what is needed of a star to observe it from all these longitudes, the planet being anywhere in
    each observation; its map [M] does not change (it has no faculae, for example) *)
Record rotation_view (label : R -> tkey) (s : star) (nlat nlon : nat) (lat0 lon0 : R) (orbit planet phase incl : nat -> R)
  (T D : R) (A M : arr num) (C : nat -> arr num) (pf : nat -> num) (ts : list R) : Prop := {
  rv_label : two_decimals label;
  rv_grid : st_grid s = Rect nlat nlon;
  rv_views : forall k, (k < nlon)%nat -> disk_view s lat0 (look lon0 nlon k) (orbit k) (planet k) (phase k) (incl k) T D A M (C k) (pf k);
  rv_disk : disk s lat0 lon0 A <> 0;
  rv_labels : distinct_labels label s M T D;
  rv_photo : appears (st_grid s) M T \/ D = 0;
  rv_temps : lists_temps s M T D ts }.
(** the reports [tot] of that rotation, for the granulation fraction [f] *)
Definition rotation_reports (s : star) (nlon : nat) (lat0 lon0 f : R) (orbit planet phase incl : nat -> R) (tot : nat -> dict tkey num) : Prop :=
  forall k, (k < nlon)%nat -> exists cov pf,
    calc_coverage s lat0 (look lon0 nlon k) (Fin f) (orbit k) (planet k) (phase k) (incl k) = Ok (tot k, cov, pf).
(** the star has no faculae, and its spots, those of [vs], do not overlap *)
Definition separate_spots (s : star) (vs : list spot_view) : Prop :=
  fcc_facs (st_facs s) = [] /\ sc_spots (st_spots s) = map v_spot vs
  /\ (forall v, In v vs -> view_ok (st_radius s) v) /\ ForallOrdPairs apart vs.
(** the same star, with each spot moved along its latitude by some number of grid steps of its own *)
Definition rearranged (nlon : nat) (s s' : star) : Prop :=
  st_radius s' = st_radius s /\ st_u1 s' = st_u1 s /\ st_u2 s' = st_u2 s
  /\ Forall2 (fun x y => exists k : Z, moved_spot (turned (2 * PI * IZR k / INR nlon)) x y) (sc_spots (st_spots s)) (sc_spots (st_spots s')).
(** the temperatures of photosphere, granules and spots *)
Definition own_temp (s : star) (T D t : R) : Prop :=
  t = T \/ t = T - D \/ exists x, In x (sc_spots (st_spots s)) /\ (sp_teff_umbra x = Fin t \/ sp_teff_pen x = Fin t).
