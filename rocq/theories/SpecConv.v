(** Specification vocabulary for the accuracy of sums over the grid (no proofs) *)
From Coq Require Import Reals ZArith Bool List.
From Coquelicot Require Import Coquelicot.
From Verif Require Import Num Py MGrid MSpots MFaculae MGranules MStar Spec SpecStar SpecDisk.
Import ListNotations.
Open Scope R_scope.

(** [phi lat lon] is a function on the sphere bounded by [B] that varies by at most [L] per
    radian *)
Record sphere_fun (B L : R) (phi : R -> R -> R) : Prop := {
  sf_bound : forall lat lon, Rabs (phi lat lon) <= B;
  sf_lip : forall lat lon lat' lon', Rabs (phi lat lon - phi lat' lon') <= L * (Rabs (lat - lat') + Rabs (lon - lon'));
  sf_per : forall lat lon, phi lat (lon + 2 * PI) = phi lat lon }.
(** mean over the sphere: surface integral divided by the surface of the unit sphere *)
Definition sphere_mean (phi : R -> R -> R) : R :=
  RInt (fun lat => cos lat * RInt (phi lat) 0 (2 * PI)) (- PI / 2) (PI / 2) / (4 * PI).
(** the grid has resolution [d]: rows and columns are at most [d] times half a turn apart; a
    spiral grid has at least [1/d^3] points *)
Definition resolution (g : grid) (d : R) : Prop :=
  0 < d <= 1 /\ match g with
                | Rect nlat nlon => 1 <= d * (INR nlat - 1) /\ 1 <= d * INR nlon
                | Spiral n => 1 <= d ^ 3 * INR n
                end.
(** sum over the pixels, weighted with the table of areas [A] *)
Definition area_sum (g : grid) (A : arr num) (phi : R -> R -> R) : R :=
  grid_sum g (fun j i => cell_val A j i * phi (pix_lat g j i) (pix_lon g j i)).

(** ** Spots as caps *)
(** a cap of angular radius [r] on a star of radius [Rs] (solar radii) has the area [area],
    in millionths of the Sun's hemisphere *)
Definition cap_radius (Rs area r : R) : Prop :=
  0 <= r <= PI /\ 2 * PI * Rs ^ 2 * (1 - cos r) = area / 10 ^ 6 * (2 * PI).
(** a spot together with its area, the angular radii of spot and umbra, and an angle *)
Record spot_view := mkView { v_spot : spot; v_area : R; v_radius : R; v_umbra : R; v_angle : R }.
Definition view_ok (Rs : R) (v : spot_view) : Prop :=
  sp_area (v_spot v) = Fin (v_area v) /\ cap_radius Rs (v_area v) (v_radius v)
  /\ exists q, sp_ratio (v_spot v) = Fin q /\ 1 <= q /\ v_umbra v = v_radius v / sqrt q.
(** the caps of the two spots do not overlap *)
Definition apart (v w : spot_view) : Prop :=
  forall a, is_angle (sp_lat (v_spot v)) (sp_lon (v_spot v)) (sp_lat (v_spot w)) (sp_lon (v_spot w)) a ->
            v_radius v + v_radius w <= a.
(** fraction of the star's surface in a spot *)
Definition surface_fraction (Rs : R) (v : spot_view) : R := v_area v / 10 ^ 6 * (2 * PI) / (4 * PI * Rs ^ 2).

(** value of a dictionary entry, 0 if there is none *)
Definition entry (d : dict tkey num) (k : tkey) : R := match dget tkey_eqb d k with Some (Fin v) => v | _ => 0 end.
(** a star of temperature [T] without faculae whose spots are those of [vs], all of umbra
    temperature [tu] and penumbra temperature [tp], none overlapping another, some pixel in none *)
Record spotted (s : star) (vs : list spot_view) (T D tu tp : R) : Prop := {
  sd_unified : star_unified s;
  sd_radius : 0 < st_radius s;
  sd_teff : st_teff s = Fin T;
  sd_dteff : gr_dteff (st_gran s) = Fin D;
  sd_facs : fcc_facs (st_facs s) = [];
  sd_spots : sc_spots (st_spots s) = map v_spot vs;
  sd_views : forall v, In v vs -> view_ok (st_radius s) v;
  sd_temps : forall v, In v vs -> sp_teff_umbra (v_spot v) = Fin tu /\ sp_teff_pen (v_spot v) = Fin tp;
  sd_order : tu < tp < T;
  sd_apart : ForallOrdPairs apart vs;
  sd_clear : exists j i, pixel (st_grid s) j i /\ forall v, In v vs ->
      cos_sep (sp_lat (v_spot v)) (sp_lon (v_spot v)) (pix_lat (st_grid s) j i) (pix_lon (st_grid s) j i) <= cos (v_radius v) }.
(** [v_angle] is the angle between the observer and the spot, which is entirely on the visible
    or entirely on the hidden side *)
Definition faces (lat0 lon0 : R) (v : spot_view) : Prop :=
  is_angle lat0 lon0 (sp_lat (v_spot v)) (sp_lon (v_spot v)) (v_angle v)
  /\ (v_angle v + v_radius v <= PI / 2 \/ PI / 2 <= v_angle v - v_radius v).
(** foreshortened fraction of the disk covered by a cap of angular radius [r] *)
Definition foreshortened (v : spot_view) (r : R) : R := Rmax 0 (cos (v_angle v)) * sin r ^ 2.
(** brightness integrated over the disk within the angle [acos c] of its centre *)
Definition disk_light (u1 u2 c : R) : R := RInt (fun m => m * (1 - u1 * (1 - m) - u2 * (1 - m) ^ 2)) c 1.
