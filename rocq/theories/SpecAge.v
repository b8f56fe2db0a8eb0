(** Specification vocabulary: brightness of a spotted star while its spots grow and decay *)
From Coq Require Import Reals ZArith Bool List.
From Verif Require Import Num Py MHelpers MGrid MSpots MFaculae MFlares MGranules MStar Spec SpecStar SpecDisk SpecFlux.
Import ListNotations.
Open Scope R_scope.

(** a spot whose umbra is no warmer than its penumbra *)
Definition cool_core (x : spot) : Prop :=
  exists u q r, sp_teff_umbra x = Fin u /\ sp_teff_pen x = Fin q /\ u <= q /\ sp_ratio x = Fin r /\ 0 < r.
(** a spot that never gets larger than a star of radius [Rs] (solar radii; areas in millionths of the Sun's hemisphere) *)
Definition fits_star (Rs : R) (x : spot) : Prop :=
  exists m, sp_area_max x = Fin m /\ m * (2 * PI / 1000000) <= 4 * PI * Rs^2.
(** a spot that is growing and will not have passed its maximum after [t] days *)
Definition still_growing (t : R) (x : spot) : Prop :=
  sp_growing x = true /\ forall A M g, sp_area x = Fin A -> sp_area_max x = Fin M -> sp_growth x = Fin g -> 0 < g -> t <= time_to_max A M g.
(** [M'] is the map of a darker star than [M]: no pixel is warmer, less of the disk is photosphere, and whatever the
    spectrum, as long as it does not decrease with temperature, neither the disk nor the part of it that is not
    behind the planet is brighter.  With granulation ([f] of the photosphere is cooler by [D]) the latter needs that
    the spots [l] are no warmer than the granules. *)
Record darker (s : star) (lat0 lon0 T D : R) (A C M M' : arr num) (l : list spot) : Prop := {
  dk_pixel : forall j i, pixel (st_grid s) j i -> exists t t', acell M j i NaN = Fin t /\ acell M' j i NaN = Fin t' /\ t' <= t <= T;
  dk_flux : forall F f, ld_nonneg s -> 0 < disk s lat0 lon0 A -> (forall t t', t <= t' -> F t <= F t') ->
    f = 0 \/ (0 <= f <= 1 /\ 0 <= D /\ forall x t, In x l -> sp_teff_umbra x = Fin t \/ sp_teff_pen x = Fin t -> t <= T - D) ->
    disk_flux s lat0 lon0 A M' F T D f (fun _ _ => 1) <= disk_flux s lat0 lon0 A M F T D f (fun _ _ => 1)
    /\ disk_flux s lat0 lon0 A M' F T D f (fun j i => 1 - cell_val C j i) <= disk_flux s lat0 lon0 A M F T D f (fun j i => 1 - cell_val C j i);
  dk_share : ld_nonneg s -> 0 < disk s lat0 lon0 A ->
    share s lat0 lon0 A M' (fun _ _ => 1) T <= share s lat0 lon0 A M (fun _ _ => 1) T }.
