(** Specification vocabulary: flares on another clock, at other places, of other energies and temperatures *)
From Coq Require Import Reals ZArith Bool List.
From Verif Require Import Num Py MHelpers MGrid MSpots MFaculae MXoflares MFlares MGranules MStar Spec SpecScale.
Import ListNotations.
Open Scope R_scope.

(** [f'] is [f], [dt] later, with [a] times the energy and [c] times the temperature; it is on the second
    observer's side if [f] is on the first observer's side *)
Definition flare_image (a c dt : R) (o o' : R * R) (f f' : flare) : Prop :=
  fl_fwhm f' = fl_fwhm f /\ fl_energy f' = nscale a (fl_energy f) /\ fl_teff f' = nscale c (fl_teff f) /\ fl_tpeak f' = fl_tpeak f + dt
  /\ (0 < cos_sep (fst o') (snd o') (fl_lat f') (fl_lon f') <-> 0 < cos_sep (fst o) (snd o) (fl_lat f) (fl_lon f)).
