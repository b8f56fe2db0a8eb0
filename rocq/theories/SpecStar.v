(** Specification vocabulary for spots, faculae and histories (no proofs) *)
From Coq Require Import Reals ZArith Bool List.
From Verif Require Import Num Py MGrid MSpots MFaculae Spec.
Import ListNotations.
Open Scope R_scope.

(** [keeps P l l']: [l'] is [l] without exactly the elements violating [P], same order *)
Inductive keeps {A} (P : A -> Prop) : list A -> list A -> Prop :=
| keeps_nil : keeps P [] []
| keeps_in : forall x l l', P x -> keeps P l l' -> keeps P (x :: l) (x :: l')
| keeps_out : forall x l l', ~ P x -> keeps P l l' -> keeps P (x :: l) l'.

(** ** Spots *)
(** [s'] is [s] with area [a] and growth flag [b]; every other attribute is the same *)
Definition aged_to (s s' : spot) (a : R) (b : bool) : Prop :=
  sp_lat s' = sp_lat s /\ sp_lon s' = sp_lon s /\ sp_area_max s' = sp_area_max s
  /\ sp_area s' = Fin a
  /\ sp_teff_umbra s' = sp_teff_umbra s /\ sp_teff_pen s' = sp_teff_pen s
  /\ sp_ratio s' = sp_ratio s /\ sp_growing s' = b
  /\ sp_growth s' = sp_growth s /\ sp_growth_dim s' = sp_growth_dim s
  /\ sp_decay s' = sp_decay s /\ sp_grid s' = sp_grid s /\ sp_r s' = sp_r s.
(** area, maximal area, growth rate (1/day), decay rate (MSH/day) *)
Definition spot_params (s : spot) (A M g W : R) : Prop :=
  sp_area s = Fin A /\ sp_area_max s = Fin M /\ sp_growth s = Fin g
  /\ sp_growth_dim s = (-1)%Z /\ sp_decay s = Fin W.
(** a physically sensible spot *)
Definition spot_wf (s : spot) : Prop :=
  exists A M g W, spot_params s A M g W /\ 0 < A <= M /\ 0 <= g /\ 0 <= W.
(** a spot that is still there: growing, or with positive area *)
Definition spot_alive (s : spot) : Prop :=
  sp_growing s = true \/ match sp_area s with Fin a => 0 < a | PInf | NaN => True | NInf => False end.
(** time (days) for an area growing by the factor [1+g] per day to go from [A] to [M] *)
Definition time_to_max (A M g : R) : R := ln (M / A) / ln (1 + g).

(** ageing a collection by successive time steps (days) *)
Fixpoint sc_run (c : spotcoll) (ts : list R) : res spotcoll :=
  match ts with
  | [] => Ok c
  | t :: r => do c' <- sc_age c (Fin t) ;; sc_run c' r
  end.
Definition all_nonneg (ts : list R) : Prop := forall t, In t ts -> 0 <= t.

(** indices of the pixels of a grid *)
Definition pixel (g : grid) (j i : nat) : Prop :=
  (j < length (arows (grid_points g)))%nat /\ (i < length (nth j (arows (grid_points g)) []))%nat.
Definition pix_lat g j i := fst (acell (grid_points g) j i (0, 0)).
Definition pix_lon g j i := snd (acell (grid_points g) j i (0, 0)).
Definition grid_shaped {A} (g : grid) (a : arr A) : Prop :=
  exists b r c, has_shape (grid_points g) b r c /\ has_shape a b r c.
(** the spot lives on grid [g]: the distances it stores are the angles between its centre
    and the pixels of [g] *)
Definition spot_on (g : grid) (s : spot) : Prop :=
  sp_grid s = g /\ grid_shaped g (sp_r s)
  /\ forall j i, pixel g j i -> exists a, acell (sp_r s) j i NaN = Fin a
       /\ is_angle (sp_lat s) (sp_lon s) (pix_lat g j i) (pix_lon g j i) a.
(** two spots that differ at most in their grid and stored distances *)
Definition same_spot (s s' : spot) : Prop :=
  sp_lat s' = sp_lat s /\ sp_lon s' = sp_lon s /\ sp_area_max s' = sp_area_max s
  /\ sp_area s' = sp_area s
  /\ sp_teff_umbra s' = sp_teff_umbra s /\ sp_teff_pen s' = sp_teff_pen s
  /\ sp_ratio s' = sp_ratio s /\ sp_growing s' = sp_growing s
  /\ sp_growth s' = sp_growth s /\ sp_growth_dim s' = sp_growth_dim s
  /\ sp_decay s' = sp_decay s.
(** [map_pixels] of the spot marks pixel (j,i) as belonging to a region of temperature [t] *)
Definition spot_marks (s : spot) (Rs : R) (j i : nat) (t : num) : Prop :=
  exists mask, In (t, mask) (spot_map_pixels s Rs) /\ acell mask j i false = true.
(** some region of some spot of the collection covers the pixel *)
Definition in_some_spot (c : spotcoll) (Rs : R) (j i : nat) : Prop :=
  exists s t, In s (sc_spots c) /\ spot_marks s Rs j i t.
Definition fin_temps (s : spot) : Prop := is_fin (sp_teff_umbra s) /\ is_fin (sp_teff_pen s).
(** sum over the pixels of [a] selected by [mask] *)
Definition masked_sum (a : arr num) (mask : arr bool) : R :=
  rsum (map (fun p : num * bool => match p with (Fin x, true) => x | _ => 0 end) (combine (cells a) (cells mask))).

(** ** Random positions *)
(** a pair of uniform draws [x], [u] is turned into a position so that the longitude is
    [u] of a full turn and the latitude is at most [phi] exactly when [x] is at most the
    fraction of the sphere's area south of [phi] *)
Definition area_uniform (x u lat lon : R) : Prop :=
  - PI/2 <= lat < PI/2 /\ 0 <= lon < 2 * PI /\ lon = 2 * PI * u
  /\ forall phi, - PI/2 <= phi <= PI/2 -> (lat <= phi <-> x <= (1 + sin phi) / 2).
Definition unit_draw (x : R) : Prop := 0 <= x < 1.

(** ** Spot generators *)
Definition sg_with_coverage (g : spotgen) (c : num) : spotgen :=
  {| sg_mean := sg_mean g; sg_logsigma := sg_logsigma g;
     sg_teff_umbra := sg_teff_umbra g; sg_teff_pen := sg_teff_pen g;
     sg_growth := sg_growth g; sg_growth_dim := sg_growth_dim g;
     sg_decay := sg_decay g; sg_init := sg_init g; sg_dist := sg_dist g;
     sg_coverage := c; sg_grid := sg_grid g |}.
(** mean maximal area, initial area, growth rate, decay rate *)
Definition sg_params (s : spotgen) (M A g W : R) : Prop :=
  sg_mean s = Fin M /\ sg_init s = Fin A /\ sg_growth s = Fin g
  /\ sg_growth_dim s = (-1)%Z /\ sg_decay s = Fin W.
(** a spot as [generate_spots] makes it *)
Definition newborn (g : spotgen) (s : spot) : Prop :=
  sp_growing s = true /\ sp_area s = sg_init g
  /\ sp_teff_umbra s = sg_teff_umbra g /\ sp_teff_pen s = sg_teff_pen g
  /\ sp_growth s = sg_growth g /\ sp_growth_dim s = sg_growth_dim g /\ sp_decay s = sg_decay g
  /\ spot_on (sg_grid g) s /\ sp_grid s = sg_grid g.
(** the sum of the solid angles pi*theta^2 of discs of these angular radii *)
Definition disc_sum (ths : list R) : R := rsum (map (fun th => PI * th^2) ths).
(** angular radii (rad) of spots on a star of radius [Rs] *)
Definition spot_radii (Rs : R) (l : list spot) : list num :=
  map (fun s => spot_angular_radius s Rs) l.
(** the spots reach the solid angle [target], and do not without the last one; a last
    spot larger than the star (radius NaN) ends the search as well *)
Definition reaches_minimally (Rs target : R) (l : list spot) : Prop :=
  (exists ths, spot_radii Rs l = map Fin ths /\ target <= disc_sum ths
     /\ forall k, (k < length ths)%nat -> disc_sum (firstn k ths) < target)
  \/ (exists l0 s ths, l = l0 ++ [s] /\ spot_radii Rs l0 = map Fin ths
        /\ spot_angular_radius s Rs = NaN /\ disc_sum ths < target).

(** ** Faculae *)
Definition fac_state (f : facula) (r rm L : R) : Prop :=
  fc_radius f = Fin r /\ fc_rmax f = Fin rm /\ fc_life f = Fin L.
Definition fac_wf (f : facula) : Prop :=
  exists r rm L, fac_state f r rm L /\ 0 < r <= rm /\ 0 < L.
(** [f'] is [f] with radius [r] and growth flag [b]; every other attribute is the same *)
Definition fac_aged (f f' : facula) (r : R) (b : bool) : Prop :=
  fc_lat f' = fc_lat f /\ fc_lon f' = fc_lon f /\ fc_rmax f' = fc_rmax f /\ fc_radius f' = Fin r
  /\ fc_depth f' = fc_depth f /\ fc_life f' = fc_life f
  /\ fc_fslope f' = fc_fslope f /\ fc_fminrad f' = fc_fminrad f /\ fc_fbase f' = fc_fbase f
  /\ fc_wslope f' = fc_wslope f /\ fc_wint f' = fc_wint f
  /\ fc_growing f' = b /\ fc_grid f' = fc_grid f.
(** time until a growing facula of radius [r] reaches its maximum [rm] *)
Definition time_to_peak (r rm L : R) : R := ln (rm / r) * L / 2.
Definition fcc_run (c : faccoll) (ts : list R) : faccoll :=
  fold_left (fun c t => fcc_age c (Fin t)) ts c.
(** a facula that is still there: growing, or not yet shrunk to 1/e^2 of its maximum *)
Definition fac_alive (f : facula) : Prop :=
  fc_growing f = true \/ nle (fc_radius f) (ndiv (fc_rmax f) (Fin (exp 2))) = false.
(** radius, depth and the two linear temperature laws; the temperature differences *)
Definition fac_thermal (f : facula) (r d fs fm fb ws wi : R) : Prop :=
  fc_radius f = Fin r /\ fc_depth f = Fin d
  /\ fc_fslope f = Fin fs /\ fc_fminrad f = Fin fm /\ fc_fbase f = Fin fb
  /\ fc_wslope f = Fin ws /\ fc_wint f = Fin wi.
Definition floor_diff (r fs fm fb : R) : R := fb + fs * (r - fm).
Definition wall_diff (r ws wi : R) : R := wi + ws * r.
(** two faculae that differ at most in their grid *)
Definition same_fac (f f' : facula) : Prop :=
  fc_lat f' = fc_lat f /\ fc_lon f' = fc_lon f /\ fc_rmax f' = fc_rmax f /\ fc_radius f' = fc_radius f
  /\ fc_depth f' = fc_depth f /\ fc_life f' = fc_life f
  /\ fc_fslope f' = fc_fslope f /\ fc_fminrad f' = fc_fminrad f /\ fc_fbase f' = fc_fbase f
  /\ fc_wslope f' = fc_wslope f /\ fc_wint f' = fc_wint f /\ fc_growing f' = fc_growing f.
Definition fg_with_coverage (g : facgen) (c : num) : facgen :=
  {| fg_rpeak := fg_rpeak g; fg_rlogsigma := fg_rlogsigma g; fg_depth := fg_depth g;
     fg_lifepeak := fg_lifepeak g; fg_lifelogsigma := fg_lifelogsigma g;
     fg_fslope := fg_fslope g; fg_fminrad := fg_fminrad g; fg_fbase := fg_fbase g;
     fg_wslope := fg_wslope g; fg_wint := fg_wint g;
     fg_coverage := c; fg_grid := fg_grid g |}.
