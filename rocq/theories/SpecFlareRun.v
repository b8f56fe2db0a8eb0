(** Specification vocabulary: observing the flares of a star without gaps *)
From Coq Require Import Reals ZArith Bool List.
From Verif Require Import Num Py MFlares MStar Spec SpecStar SpecFlare.
Import ListNotations.
Open Scope R_scope.

(** one observation: the star as it is then, beginning and end (days), the point below the observer *)
Record obs : Type := mkObs { ob_star : star; ob_start : R; ob_end : R; ob_lat : R; ob_lon : R }.
(** observations without gaps from [t0] to [t1], each at least [m+1] times 10 minutes long *)
Fixpoint back_to_back (m : nat) (t0 t1 : R) (run : list obs) : Prop :=
  match run with
  | [] => t0 = t1
  | o :: rest => ob_start o = t0 /\ (INR m + 1) * (10 / 1440) <= ob_end o - ob_start o /\ back_to_back m (ob_end o) t1 rest
  end.
(** what an observation reports *)
Definition reports (o : obs) (r : list (num * num)) : Prop :=
  star_flare_int (ob_star o) (ob_start o) (ob_end o) (Some (ob_lat o, ob_lon o)) = Ok r.
(** the flare emits during the observation *)
Definition active (f : flare) (o : obs) : Prop :=
  exists w, fl_fwhm f = Fin w /\ ob_start o < fl_tpeak f + 20 * w /\ fl_tpeak f - w < ob_end o.
(** the energy (erg) that a report stands for: temperatures and time-areas (hr km2) *)
Definition radiated (r : list (num * num)) : R :=
  rsum (map (fun p => match p with (Fin T, Fin v) => STEFAN / 24 * T^4 * v | _ => 0 end) r).
(** the energy of a flare *)
Definition energy (f : flare) : R := match fl_energy f with Fin E => E | _ => 0 end.
(** its energy per unit of its width *)
Definition energy_per_width (f : flare) : R := match fl_energy f, fl_fwhm f with Fin E, Fin w => E / w | _, _ => 0 end.
