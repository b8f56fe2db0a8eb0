(** Model of /repo/vspec_vsm/config.py *)
From Coq Require Import Reals.
From Verif Require Import Num.
Open Scope R_scope.

(** config.py:8  [MSH = 1e-6 * 0.5 * 4*pi*R_sun**2]; one MSH expressed in R_sun^2 *)
Definition MSH_RSUN2 : R := 1/1000000 * (1/2) * (4 * PI).
(** config.py:8: astropy [u.R_sun] in km (nominal solar radius 6.957e8 m) *)
Definition RSUN_KM : R := 695700.
(** config.py:43,52 *)
Definition NLAT : nat := 500.
(** config.py:52 *)
Definition NLON : nat := 1000.
(** config.py:61 [grid_teff_bounds = (2300 K, 3900 K)] *)
Definition TEFF_LO : R := 2300.
(** config.py:61, the upper bound *)
Definition TEFF_HI : R := 3900.
