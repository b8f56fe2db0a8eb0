(** Specification vocabulary for flares, independent of the model's helper functions. *)
From Coq Require Import Reals ZArith List.
From Verif Require Import Num Py MFlares Spec.
Import ListNotations.
Open Scope R_scope.

(** the Stefan-Boltzmann constant 5.670374419e-8 W m^-2 K^-4 in erg day^-1 km^-2 K^-4 *)
Definition STEFAN : R := 4899203498016 / 100.

(** a flare whose parameters are finite numbers *)
Definition flare_is (f : flare) (w E T : R) : Prop :=
  fl_fwhm f = Fin w /\ fl_energy f = Fin E /\ fl_teff f = Fin T.

(** [c] is the area of the flare as a function of time, as the method reports it *)
Definition area_of (f : flare) (c : R -> R) : Prop :=
  forall ts, areacurve f ts = Ok (map (fun t => Fin (c t)) ts).

(** the trapezoid rule on the points [xs] *)
Fixpoint trapezoid (c : R -> R) (xs : list R) : R :=
  match xs with
  | x0 :: ((x1 :: _) as t) => (x1 - x0) * (c x0 + c x1) / 2 + trapezoid c t
  | _ => 0
  end.

(** the selection rule of a time window *)
Definition in_window (t0 t1 : R) (f : flare) : Prop :=
  exists w, fl_fwhm f = Fin w /\ fl_tpeak f + 20 * w > t0 /\ fl_tpeak f - 10 * w < t1.
(** the flare is less than 90 degrees away from the sub-observer point *)
Definition faces (lat0 lon0 : R) (f : flare) : Prop :=
  exists th, is_angle lat0 lon0 (fl_lat f) (fl_lon f) th /\ th < PI / 2.

(** the flares are grouped into clusters of these sizes: the non-zero draws, in order, as long
    as their total stays below the number of flares; all remaining flares are single *)
Definition clusters_of (n : nat) (draws : nat -> nat) (sizes : list nat) : Prop :=
  let nz := filter (fun k => negb (Nat.eqb k 0)) (map draws (seq 0 n)) in
  exists k, (k <= length nz)%nat /\ (list_sum (firstn k nz) < n)%nat
    /\ ((k < length nz)%nat -> (n <= list_sum (firstn (S k) nz))%nat)
    /\ sizes = firstn k nz ++ repeat 1%nat (n - list_sum (firstn k nz)).
(** peak times [l] made from the exponential draws [e]: the j-th flare of a cluster of size s
    comes [e/N] after the previous flare if it opens the cluster, else [e/(2Ns)], N the number of clusters *)
Definition peaks_of (sizes : list nat) (e : nat -> R) (l : list R) : Prop :=
  length l = list_sum sizes /\
  forall k j, (k < length sizes)%nat -> (j < nth k sizes 0)%nat ->
    let i := (list_sum (firstn k sizes) + j)%nat in
    let N := INR (length sizes) in
    nth i l 0 = match i with O => 0 | S i' => nth i' l 0 end
                + e i * (if Nat.eqb j 0 then 1 / N else 1 / (2 * N * INR (nth k sizes 0%nat))).

(** a generator whose parameters are meaningful *)
Definition flaregen_ok (g : flaregen) (em : R) : Prop :=
  lg_min_energy g = Fin em /\ 0 < em /\ lg_alpha g < 0 /\
  (exists c, lg_cluster g = Fin c /\ 0 <= c) /\
  (exists w, lg_fwhm_mean g = Fin w /\ 0 < w) /\ lg_fwhm_is_time g = true /\
  0 <= lg_fwhm_logsigma g /\ 0 <= lg_teff_sigma g /\ (exists t, lg_teff_mean g = Fin t).
Definition draws_ok (d : ldraws) : Prop :=
  (forall i, 0 <= ld_u d i < 1) /\ (forall i, 0 <= ld_e d i)
  /\ (forall i, 0 <= ld_x d i < 1) /\ (forall i, 0 <= ld_ulon d i < 1).
