(** Specification vocabulary for the star as a whole: its grids, what an observer sees. *)
From Coq Require Import Reals ZArith Bool List.
From Verif Require Import Num Py MHelpers MGrid MSpots MFaculae MFlares MGranules MStar Spec SpecStar SpecFlare.
Import ListNotations.
Open Scope R_scope.

(** star, collections, all spots (with their stored distances), all faculae and both
    generators use the star's grid *)
Definition star_unified (s : star) : Prop :=
  let g := st_grid s in
  sc_grid (st_spots s) = g /\ fcc_grid (st_facs s) = g
  /\ (forall x, In x (sc_spots (st_spots s)) -> spot_on g x)
  /\ (forall f, In f (fcc_facs (st_facs s)) -> fc_grid f = g)
  /\ sg_grid (st_spotgen s) = g /\ fg_grid (st_facgen s) = g.

(** one successful public call that changes a star, [add_spot] excepted (it does not
    recompute the distances stored in the spot) *)
Inductive star_step : star -> star -> Prop :=
| step_age : forall s t s', star_age s t = Ok s' -> star_step s s'
| step_add_fac : forall s l s', star_add_fac s l = Ok s' -> star_step s s'
| step_birth_spots : forall s t n d fuel s', star_birth_spots s t n d fuel = Ok s' -> star_step s s'
| step_birth_faculae : forall s t n d s', star_birth_faculae s t n d = Ok s' -> star_step s s'
| step_mature : forall s c d rf f s', star_mature_spots s c d rf f = Ok s' -> star_step s s'
| step_flares : forall s t n d s', star_get_flares s t n d = Ok s' -> star_step s s'
(** spots may be added by hand if they were built on the star's grid *)
| step_add_spot : forall s l, (forall x, In x l -> spot_on (st_grid s) x) ->
    star_step s (star_add_spot s l).
Inductive star_steps : star -> star -> Prop :=
| steps_none : forall s, star_steps s s
| steps_more : forall s s' s'', star_step s s' -> star_steps s' s'' -> star_steps s s''.

(** cosine of the angle between the direction to the observer and the pixel *)
Definition pix_mu (s : star) (lat0 lon0 : R) (j i : nat) : R :=
  cos_sep lat0 lon0 (pix_lat (st_grid s) j i) (pix_lon (st_grid s) j i).
(** solar radius in km *)
Definition SUN_KM : R := 695700.
(** the pixel's centre is within the facula's angular radius of the facula's centre *)
Definition fac_covers (s : star) (f : facula) (j i : nat) : Prop :=
  exists a r, is_angle (fc_lat f) (fc_lon f) (pix_lat (st_grid s) j i) (pix_lon (st_grid s) j i) a
    /\ fc_radius f = Fin r /\ a <= r / (st_radius s * SUN_KM).
(** [l] lists, without repetition, the pixels of the grid satisfying [P] *)
Definition lists_pixels (g : grid) (P : nat -> nat -> Prop) (l : list (nat * nat)) : Prop :=
  NoDup l /\ forall j i, In (j, i) l <-> (pixel g j i /\ P j i).
(** sum over all pixels *)
Definition grid_sum (g : grid) (w : nat -> nat -> R) : R :=
  rsum (map (fun j => rsum (map (w j) (seq 0 (length (nth j (arows (grid_points g)) [])))))
            (seq 0 (length (arows (grid_points g))))).

(** ** transits *)
(** two-dimensional normal density centred at 0 *)
Definition bell (sx sy x y : R) : R := exp (- ((x / sx)^2 + (y / sy)^2) / 2) / (2 * PI * sx * sy).
(** product trapezoid rule, on the points [xs] along both axes, of the density over the disc
    of radius [rp] centred at [(dist, 0)] *)
Definition overlap (sx sy dist rp : R) (xs : list R) : R :=
  trapezoid (fun y => trapezoid (fun x => if Rlt_dec (sqrt ((x - dist)^2 + y^2)) rp then bell sx sy x y else 0) xs) xs.

(** ** what an observer sees *)
Definition cell_val (A : arr num) (j i : nat) : R := match acell A j i NaN with Fin x => x | _ => 0 end.
(** a pixel of the map [M] has temperature [t] *)
Definition appears (g : grid) (M : arr num) (t : R) : Prop :=
  exists j i, pixel g j i /\ acell M j i NaN = Fin t.
(** limb-darkened projected area of a pixel, [A] the table of pixel areas *)
Definition seen (s : star) (lat0 lon0 : R) (A : arr num) (j i : nat) : R :=
  let mu := pix_mu s lat0 lon0 j i in
  if Rlt_dec 0 mu then (1 - st_u1 s * (1 - mu) - st_u2 s * (1 - mu)^2) * mu * cell_val A j i else 0.
Definition disk (s : star) (lat0 lon0 : R) (A : arr num) : R := grid_sum (st_grid s) (seen s lat0 lon0 A).
(** the part of the disk showing temperature [t], each pixel counted with the weight [c] *)
Definition share (s : star) (lat0 lon0 : R) (A M : arr num) (c : nat -> nat -> R) (t : R) : R :=
  grid_sum (st_grid s) (fun j i => match acell M j i NaN with
                                   | Fin x => if Req_EM_T x t then seen s lat0 lon0 A j i * c j i else 0
                                   | _ => 0 end) / disk s lat0 lon0 A.
Definition dict_sum {K} (d : dict K num) : R :=
  rsum (map (fun kv => match snd kv with Fin x => x | _ => 0 end) d).
(** the star, the observer and the planet: the ingredients of the coverage computation *)
Record disk_view (s : star) (lat0 lon0 orbit planet phase incl T D : R) (A M C : arr num) (pf : num) : Prop := {
  dv_unified : star_unified s;
  dv_grid : good_grid (st_grid s);
  dv_radius : 0 < st_radius s;
  dv_lat0 : - PI/2 <= lat0 <= PI/2;
  dv_teff : st_teff s = Fin T;
  dv_dteff : gr_dteff (st_gran s) = Fin D;
  dv_area : grid_area (st_grid s) = Ok A;
  dv_map : add_faculae_to_map s lat0 lon0 = Ok M;
  dv_fin : forall j i, pixel (st_grid s) j i -> is_fin (acell M j i NaN);
  dv_mask : get_transit_mask s lat0 lon0 orbit planet phase incl = Ok (C, pf) }.
(** temperatures of the dictionary: those on the map and that of granulation *)
Definition listed (s : star) (M : arr num) (T D t : R) : Prop := appears (st_grid s) M t \/ t = T - D.
(** a labelling of temperatures by two decimals: the nearest hundredth, halves to even *)
Definition two_decimals (label : R -> tkey) : Prop :=
  forall t, exists c : Z, label t = KCenti c /\ Rabs (IZR c - 100 * t) <= 1/2
                          /\ (Rabs (IZR c - 100 * t) = 1/2 -> Z.even c = true).
Definition distinct_labels (label : R -> tkey) (s : star) (M : arr num) (T D : R) : Prop :=
  forall t t', listed s M T D t -> listed s M T D t' -> label t = label t' -> t = t'.
(** limb darkening that is nowhere negative on the disk *)
Definition ld_nonneg (s : star) : Prop := forall mu, 0 <= mu <= 1 -> 0 <= 1 - st_u1 s * (1 - mu) - st_u2 s * (1 - mu)^2.
(** grids with some points in every open hemisphere *)
Definition fine_grid (g : grid) : Prop :=
  match g with Rect nlat nlon => (4 <= nlat)%nat /\ (3 <= nlon)%nat | Spiral n => (6 <= n)%nat end.
(** limb darkening that is positive on the open disk *)
Definition ld_positive (s : star) : Prop := forall mu, 0 < mu <= 1 -> 0 < 1 - st_u1 s * (1 - mu) - st_u2 s * (1 - mu)^2.
(** a facula the observer can draw: positive radius, wall and floor contrasts that round to
    different integers, centre not exactly on the limb *)
Definition drawable (lat0 lon0 : R) (f : facula) : Prop :=
  exists r d fs fm fb ws wi kw kf, fac_thermal f r d fs fm fb ws wi /\ 0 < r /\ 0 <= d
    /\ round_teff (Fin (wall_diff r ws wi)) = Ok kw /\ round_teff (Fin (floor_diff r fs fm fb)) = Ok kf /\ kw <> kf
    /\ cos_sep lat0 lon0 (fc_lat f) (fc_lon f) <> 0.
