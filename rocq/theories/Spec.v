(** Small specification vocabulary, independent of the model's helper functions. *)
From Coq Require Import Reals ZArith List.
From Verif Require Import Num Py MGrid.
Import ListNotations.
Open Scope R_scope.

(** ** Geometry of the unit sphere *)
Definition vec (lat lon : R) : R * R * R := (cos lat * cos lon, cos lat * sin lon, sin lat).
Definition dot (a b : R * R * R) : R :=
  let '(a1, a2, a3) := a in let '(b1, b2, b3) := b in a1 * b1 + a2 * b2 + a3 * b3.
(** cosine of the angle between two directions *)
Definition cos_sep (lat1 lon1 lat2 lon2 : R) : R := dot (vec lat1 lon1) (vec lat2 lon2).
(** [th] is the angle between the two directions *)
Definition is_angle (lat1 lon1 lat2 lon2 th : R) : Prop :=
  0 <= th <= PI /\ cos th = cos_sep lat1 lon1 lat2 lon2.
(** exact orthographic projection: components of the point along the sky-plane axes
    "east" and "north" of an observer above [(lat0,lon0)] *)
Definition east (lat0 lon0 : R) : R * R * R := (- sin lon0, cos lon0, 0).
Definition north (lat0 lon0 : R) : R * R * R :=
  (- sin lat0 * cos lon0, - sin lat0 * sin lon0, cos lat0).
Definition ortho_x (lat0 lon0 lat lon : R) : R := dot (east lat0 lon0) (vec lat lon).
Definition ortho_y (lat0 lon0 lat lon : R) : R := dot (north lat0 lon0) (vec lat lon).

(** ** Arrays *)
Definition acell {A} (a : arr A) (j i : nat) (d : A) : A := nth i (nth j (arows a) []) d.
Definition has_shape {A} (a : arr A) (two_d : bool) (rows cols : nat) : Prop :=
  a2d a = two_d /\ length (arows a) = rows /\ (forall r, In r (arows a) -> length r = cols).

(** all partial results of a finite sum *)
Definition num_in (lo hi : R) (x : num) : Prop := exists r, x = Fin r /\ lo <= r <= hi.

(** [y] is [x] moved to the nearest point of [0,1]; NaN stays NaN *)
Definition clamped (x y : num) : Prop :=
  match x with
  | Fin r => (0 <= r <= 1 -> y = Fin r) /\ (r < 0 -> y = Fin 0) /\ (1 < r -> y = Fin 1)
  | PInf => y = Fin 1 | NInf => y = Fin 0 | NaN => y = NaN
  end.

(** ** Discs: length of the vertical slice, at abscissa [t], of the intersection of the
    unit disc at the origin and the disc of radius [r] centred at [(d, 0)];
    the half-height of a disc is 0 outside it ([sqrt] of a negative number is 0 in Coq) *)
Definition overlap_slice (r d t : R) : R :=
  2 * Rmin (sqrt (1 - t^2)) (sqrt (r^2 - (t - d)^2)).

(** grids whose pixel areas are well defined *)
Definition good_grid (g : grid) : Prop :=
  match g with Rect nlat nlon => (3 <= nlat)%nat /\ (1 <= nlon)%nat | Spiral n => (1 <= n)%nat end.
