(** Specification vocabulary for the depth of transits (no proofs) *)
From Coq Require Import Reals.
From Coquelicot Require Import Coquelicot.
From Verif Require Import Num MStar.
Open Scope R_scope.

(** position of the planet on the sky and its radius, in stellar radii *)
Definition sky_x (s : star) (orbit phase : R) : R := - (orbit / st_radius s * sin phase).
Definition sky_y (s : star) (orbit phase incl : R) : R := - (orbit / st_radius s * cos phase * cos incl).
Definition sky_r (s : star) (planet : R) : R := planet / st_radius s.
(** effect, on squared distances from the planet's centre, of rounding to four decimals the
    cosine of the direction in which a pixel is seen *)
Definition rounding (px py rp : R) : R := 2 * Rmin (Rabs px / 100) (1 / 10000 + rp / 100) + Rabs py / 10000.
(** allowed error of the fraction of the disk that is hidden, for a grid of resolution [d] *)
Definition depth_error (px py rp d : R) : R := rounding px py rp + 1000 * sqrt d.
(** fraction of the circle of radius [r] around the centre of the disk that is hidden by a disc of
    radius [rp] centred at distance [b] from it: the points in directions up to [acos ...] away
    from the disc's centre, out of [PI] ([acos] is 0 above 1 and PI below -1) *)
Definition behind (b rp r : R) : R := acos ((r ^ 2 + b ^ 2 - rp ^ 2) / (2 * r * b)) / PI.
(** light hidden by that disc, in the units of [disk_light] *)
Definition hidden_light (u1 u2 b rp : R) : R :=
  RInt (fun r => r * (1 - u1 * (1 - sqrt (1 - r ^ 2)) - u2 * (1 - sqrt (1 - r ^ 2)) ^ 2) * behind b rp r) 0 1.
(** allowed error of the hidden fraction of the light, as a multiple of (brightest possible) / (all light) *)
Definition light_error (px py rp d : R) : R := rounding px py rp / 2 + 1000 * (1 + rp) * sqrt d.
