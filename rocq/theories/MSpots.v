(** Model of /repo/vspec_vsm/spots.py
    Units: angles in radians, areas in MSH, times in days, temperatures in K.
    SIMPLIFICATIONS: objects are values (a method that mutates returns the new object;
    aliasing of one spot object in two places is not modelled); random draws are
    arguments; unit conversions are folded into constants except where the code's
    units are wrong (the [growth_rate] of [SpotGenerator.off]). *)
From Coq Require Import Reals ZArith Bool List.
From Verif Require Import Num Py MConfig MHelpers MGrid.
Import ListNotations.
Open Scope R_scope.

(** spots.py:104-133, the attributes of a [StarSpot] *)
Record spot : Type := mkSpot {
  sp_lat : R; sp_lon : R;
  sp_area_max : num; sp_area : num;
  sp_teff_umbra : num; sp_teff_pen : num;
  sp_ratio : num;                 (* total_area_over_umbra_area *)
  sp_growing : bool;
  sp_growth : num;                (* value of growth_rate *)
  sp_growth_dim : Z;              (* its time exponent: -1 for 1/day, +1 for day *)
  sp_decay : num;                 (* MSH/day *)
  sp_grid : grid;
  sp_r : arr num                  (* the precomputed angular distances [r] *)
}.

(** spots.py:145-149 (also faculae.py:177-181): haversine distance from
    [(lat0,lon0)] to a grid point *)
Definition haversine (lat0 lon0 : R) (p : R * R) : num :=
  let (lat, lon) := p in
  nmul (Fin 2) (nasin (nsqrt (Fin
    ((sin (1/2 * (lat0 - lat)))^2
     + cos lat * cos lat0 * (sin (1/2 * (lon0 - lon)))^2)))).

(** spots.py:135-149 [set_gridmaker] *)
Definition spot_set_gridmaker (s : spot) (g : grid) : spot :=
  {| sp_lat := sp_lat s; sp_lon := sp_lon s;
     sp_area_max := sp_area_max s; sp_area := sp_area s;
     sp_teff_umbra := sp_teff_umbra s; sp_teff_pen := sp_teff_pen s;
     sp_ratio := sp_ratio s; sp_growing := sp_growing s;
     sp_growth := sp_growth s; sp_growth_dim := sp_growth_dim s;
     sp_decay := sp_decay s;
     sp_grid := g;
     sp_r := amap (haversine (sp_lat s) (sp_lon s)) (grid_points g) |}.
(** plain attribute assignment [spot.gridmaker = g] (spots.py:393, star.py:180):
    [r] keeps its old value *)
Definition spot_assign_gridmaker (s : spot) (g : grid) : spot :=
  {| sp_lat := sp_lat s; sp_lon := sp_lon s;
     sp_area_max := sp_area_max s; sp_area := sp_area s;
     sp_teff_umbra := sp_teff_umbra s; sp_teff_pen := sp_teff_pen s;
     sp_ratio := sp_ratio s; sp_growing := sp_growing s;
     sp_growth := sp_growth s; sp_growth_dim := sp_growth_dim s;
     sp_decay := sp_decay s;
     sp_grid := g; sp_r := sp_r s |}.
(** spots.py:303-317, 835: attribute assignment to [area_current] and [is_growing] *)
Definition spot_with_area (s : spot) (a : num) (g : bool) : spot :=
  {| sp_lat := sp_lat s; sp_lon := sp_lon s;
     sp_area_max := sp_area_max s; sp_area := a;
     sp_teff_umbra := sp_teff_umbra s; sp_teff_pen := sp_teff_pen s;
     sp_ratio := sp_ratio s; sp_growing := g;
     sp_growth := sp_growth s; sp_growth_dim := sp_growth_dim s;
     sp_decay := sp_decay s;
     sp_grid := sp_grid s; sp_r := sp_r s |}.

(** spots.py:104-133 [StarSpot.__init__] with a [gridmaker] *)
Definition spot_init (lat lon : R) (amax a tu tp ratio : num) (growing : bool)
  (growth : num) (gdim : Z) (decay : num) (g : grid) : spot :=
  spot_set_gridmaker
    {| sp_lat := lat; sp_lon := lon; sp_area_max := amax; sp_area := a;
       sp_teff_umbra := tu; sp_teff_pen := tp; sp_ratio := ratio;
       sp_growing := growing; sp_growth := growth; sp_growth_dim := gdim;
       sp_decay := decay; sp_grid := g; sp_r := mkArr false [] |} g.

(** spots.py:159-170 [radius], in km *)
Definition spot_radius (s : spot) : num :=
  nsqrt (ndiv (nmul (sp_area s) (Fin (MSH_RSUN2 * RSUN_KM^2))) (Fin PI)).

(** spots.py:172-189 [angular_radius] (returned in radians; the code converts to deg).
    [star_rad] in R_sun. *)
Definition spot_angular_radius (s : spot) (star_rad : R) : num :=
  nacos (nsub (Fin 1)
    (ndiv (nmul (sp_area s) (Fin MSH_RSUN2)) (Fin (2 * PI * star_rad^2)))).

(** spots.py:216-217: dictionary keys that are temperatures; equal values are the same
    key; NaN is only identical to itself (same object) *)
Definition teff_key_eqb (a b : num) : bool := neq a b || (nisnan a && nisnan b).

(** spots.py:191-217 [StarSpot.map_pixels] *)
Definition spot_map_pixels (s : spot) (star_rad : R) : dict num (arr bool) :=
  let radius := spot_angular_radius s star_rad in
  let radius_umbra := ndiv radius (nsqrt (sp_ratio s)) in
  let d := dset teff_key_eqb [] (sp_teff_umbra s)
             (amap (fun r => nlt r radius_umbra) (sp_r s)) in
  dset teff_key_eqb d (sp_teff_pen s) (amap (fun r => nlt r radius) (sp_r s)).

(** spots.py:219-253 [surface_fraction]; [lat0],[lon0] the sub-observer point *)
Definition spot_surface_fraction (s : spot) (lat0 lon0 star_rad : R) (n_points : nat) : num :=
  let c0 := rad2deg (acos (law_cos lat0 lon0 (sp_lat s) (sp_lon s))) in
  let c := linspace (-90) 90 n_points in
  let a := nmul (spot_angular_radius s star_rad) (Fin (180 / PI)) in
  let integrand := map (fun ci =>
    let rad := nsub (nsq a) (Fin ((ci - c0)^2)) in
    let rad := if nlt rad (Fin 0) then Fin 0 else rad in
    nmul (Fin (2 * cos (deg2rad ci))) (nsqrt rad)) c in
  (* deg^2 / (2 pi sr) *)
  nmul (ndiv (ntrapz (map Fin c) integrand) (Fin (2 * PI))) (Fin ((PI/180)^2)).

(** spots.py:255-317 [StarSpot.age]; [time] in days *)
Definition spot_age (s : spot) (time : num) : res spot :=
  if sp_growing s then
    if negb (Z.eqb (sp_growth_dim s) (-1)) then Raise UnitConversionError
    else
      let tau := nln (nadd (sp_growth s) (Fin 1)) in
      let time_to_max :=
        if neq tau (Fin 0) then PInf
        else ndiv (nln (ndiv (sp_area_max s) (sp_area s))) tau in
      if ngt time_to_max time then
        Ok (spot_with_area s (nmul (sp_area s) (nexp (nmul tau time))) true)
      else
        let decay_time := nsub time time_to_max in
        let area_decay := nmul decay_time (sp_decay s) in
        if ngt area_decay (sp_area_max s)
        then Ok (spot_with_area s (Fin 0) false)
        else Ok (spot_with_area s (nsub (sp_area_max s) area_decay) false)
  else
    let area_decay := nmul time (sp_decay s) in
    if ngt area_decay (sp_area_max s)
    then Ok (spot_with_area s (Fin 0) false)
    else Ok (spot_with_area s (nsub (sp_area s) area_decay) false).

(** spots.py:320-358 [SpotCollection] *)
Record spotcoll : Type := mkSpotColl { sc_spots : list spot; sc_grid : grid }.

(** spots.py:359-370 [SpotCollection.set_gridmaker] *)
Definition sc_set_gridmaker (c : spotcoll) (g : grid) : spotcoll :=
  mkSpotColl (map (fun s => spot_set_gridmaker s g) (sc_spots c)) g.
(** spots.py:349-358 [SpotCollection.__init__] *)
Definition sc_init (spots : list spot) (g : grid) : spotcoll :=
  sc_set_gridmaker (mkSpotColl spots g) g.
(** spots.py:372-394 [add_spot] *)
Definition sc_add_spot (c : spotcoll) (new : list spot) : spotcoll :=
  mkSpotColl (sc_spots c ++ map (fun s => spot_assign_gridmaker s (sc_grid c)) new) (sc_grid c).
(** spots.py:396-415 [clean_spotlist] *)
Definition spot_dead (s : spot) : bool := nle (sp_area s) (Fin 0) && negb (sp_growing s).
(** spots.py:396-415 [clean_spotlist] *)
Definition sc_clean (c : spotcoll) : spotcoll :=
  mkSpotColl (filter (fun s => negb (spot_dead s)) (sc_spots c)) (sc_grid c).

(** spots.py:439-449, the body of the loop of [SpotCollection.map_pixels] *)
Definition paint_spot (star_rad : R) (m : arr num) (s : spot) : res (arr num) :=
  let d := spot_map_pixels s star_rad in
  do dpen <- dindex teff_key_eqb d (sp_teff_pen s) ;;
  do penumbra <- amap2 andb dpen (amap (fun t => ngt t (sp_teff_pen s)) m) ;;
  do dumb <- dindex teff_key_eqb d (sp_teff_umbra s) ;;
  do umbra <- amap2 andb dumb (amap (fun t => ngt t (sp_teff_umbra s)) m) ;;
  do inner <- awhere penumbra (sp_teff_pen s) m ;;
  awhere umbra (sp_teff_umbra s) inner.
(** spots.py:440-450, the loop *)
Fixpoint paint_spots (star_rad : R) (m : arr num) (l : list spot) : res (arr num) :=
  match l with
  | [] => Ok m
  | s :: t => do m' <- paint_spot star_rad m s ;; paint_spots star_rad m' t
  end.
(** spots.py:417-450 [SpotCollection.map_pixels] *)
Definition sc_map_pixels (c : spotcoll) (star_rad : R) (star_teff : num) : res (arr num) :=
  paint_spots star_rad (amap (fun z => nadd z star_teff) (grid_zeros (sc_grid c))) (sc_spots c).

(** spots.py:452-466 [SpotCollection.age] *)
Definition sc_age (c : spotcoll) (time : num) : res spotcoll :=
  do l <- mapM (fun s => spot_age s time) (sc_spots c) ;;
  Ok (sc_clean (mkSpotColl l (sc_grid c))).

(** spots.py:468-489 [get_coverage] *)
Definition sc_get_coverage (c : spotcoll) (r_star : R) : res num :=
  do area <- grid_area (sc_grid c) ;;
  do tmap <- sc_map_pixels c r_star PInf ;;
  let is_spot := amap (fun t => negb (neq t PInf)) tmap in
  do prod <- amap2 (fun a (b : bool) => nmul a (Fin (if b then 1 else 0))) area is_spot ;;
  Ok (ndiv (nsum (cells prod)) (nsum (cells area))).

(** spots.py:700-712: the values of the [distribution] argument *)
Inductive distribution : Type := Solar | Iso | UnknownDist.

(** spots.py:569-597, the attributes of a [SpotGenerator] *)
Record spotgen : Type := mkSpotGen {
  sg_mean : num;           (* dist_area_mean, MSH *)
  sg_logsigma : R;
  sg_teff_umbra : num; sg_teff_pen : num;
  sg_growth : num; sg_growth_dim : Z;
  sg_decay : num; sg_init : num;
  sg_dist : distribution;
  sg_coverage : num;
  sg_grid : grid
}.

(** spots.py:599-630 [SpotGenerator.off]; note [growth_rate=0*u.day] *)
Definition sg_off (g : grid) : spotgen :=
  {| sg_mean := Fin 10; sg_logsigma := 1; sg_teff_umbra := Fin 0; sg_teff_pen := Fin 0;
     sg_growth := Fin 0; sg_growth_dim := 1; sg_decay := Fin 0; sg_init := Fin 10;
     sg_dist := Iso; sg_coverage := Fin 0; sg_grid := g |}.

(** spots.py:634-643 [is_static] *)
Definition sg_is_static (g : spotgen) : bool := neq (sg_decay g) (Fin 0).

(** spots.py:646-659 [mean_lifetime], days *)
Definition sg_mean_lifetime (g : spotgen) : res num :=
  if sg_is_static g then Ok PInf
  else if negb (Z.eqb (sg_growth_dim g) (-1)) then Raise UnitConversionError
  else Ok (nsub (ndiv (sg_mean g) (sg_decay g))
                (ndiv (nln (ndiv (sg_init g) (sg_mean g))) (sg_growth g))).

(** spots.py:662-677 [mean_area], MSH *)
Definition sg_mean_area (g : spotgen) : res num :=
  if sg_is_static g then Ok (sg_mean g)
  else if negb (Z.eqb (sg_growth_dim g) (-1)) then Raise UnitConversionError
  else
    do life <- sg_mean_lifetime g ;;
    let integrated := nadd (nadd (ndiv (sg_mean g) (sg_growth g))
                                 (ndiv (sg_init g) (sg_growth g)))
                           (ndiv (ndiv (nsq (sg_mean g)) (Fin 2)) (sg_decay g)) in
    Ok (ndiv integrated life).

(** spots.py:700-709, 734-738: the random draws consumed by one call of [generate_spots],
    indexed by spot *)
Record sdraws : Type := mkSDraws {
  d_z : nat -> R;              (* standard normals behind the lognormal areas *)
  d_ratio : nat -> nat -> R;   (* normal(5,1) draws: round, spot *)
  d_ulon : nat -> R;           (* uniform [0,1) *)
  d_x : nat -> R;              (* uniform [0,1) for iso latitudes *)
  d_hemi : nat -> bool;        (* choice of +-1 *)
  d_nlat : nat -> R            (* standard normals for solar latitudes *)
}.

(** spots.py:707-709, degrees *)
Definition iso_lat (x : R) : num := nmul (ndiv (nasin (Fin (2 * x - 1))) (Fin PI)) (Fin 180).
(** spots.py:704, 706, degrees *)
Definition rand_lon (u : R) : R := u * 360.
(** spots.py:702-703, degrees *)
Definition solar_lat (hemi : bool) (z : R) : R := (15 + 5 * z) * (if hemi then 1 else -1).
(** spots.py:709: the latitude as a real number; [arcsin] is finite for draws in [0,1) *)
Definition num_or_0 (x : num) : R := match x with Fin r => r | _ => 0 end.
(** spots.py:679-713 [get_coordinates], the i-th point, radians *)
Definition sg_coords (g : spotgen) (d : sdraws) (i : nat) : res (R * R) :=
  match sg_dist g with
  | Solar => Ok (deg2rad (solar_lat (d_hemi d i) (d_nlat d i)), deg2rad (rand_lon (d_ulon d i)))
  | Iso => Ok (deg2rad (num_or_0 (iso_lat (d_x d i))), deg2rad (rand_lon (d_ulon d i)))
  | UnknownDist => Raise ValueError
  end.

(** spots.py:736-738 the rejection loop; [k] is the round, [fuel] bounds the rounds *)
Fixpoint redraw_ratio (fuel k : nat) (d : sdraws) (n : nat) : res nat :=
  if existsb (fun i => Rleb (d_ratio d k i) 0) (seq 0 n)
  then match fuel with
       | O => Raise OutOfDraws
       | S f => redraw_ratio f (S k) d n
       end
  else Ok k.

(** spots.py:715-757 [generate_spots] *)
Definition sg_generate (g : spotgen) (n : nat) (d : sdraws) (fuel : nat) : res (list spot) :=
  if Rltb (sg_logsigma g) 0 then Raise ValueError else
  let amax := fun i => nexp (nadd (nln (sg_mean g)) (Fin (sg_logsigma g * d_z d i))) in
  do k <- redraw_ratio fuel 0 d n ;;
  (* the coordinates are drawn (and the distribution checked) before the loop *)
  do _ <- sg_coords g d 0 ;;
  mapM (fun i =>
    do ll <- sg_coords g d i ;;
    Ok (spot_init (fst ll) (snd ll) (amax i) (sg_init g)
          (sg_teff_umbra g) (sg_teff_pen g) (Fin (d_ratio d k i)) true
          (sg_growth g) (sg_growth_dim g) (sg_decay g) (sg_grid g))) (seq 0 n).

(** spots.py:759-779 [get_n_spots_to_birth]; [time] days, [rad_star] R_sun *)
Definition sg_n_expected (g : spotgen) (time : num) (rad_star : R) : res num :=
  do ma <- sg_mean_area g ;;
  do ml <- sg_mean_lifetime g ;;
  Ok (ndiv (nmul (ndiv (nmul (sg_coverage g) (Fin (4 * PI * rad_star^2)))
                       (nmul ma (Fin MSH_RSUN2))) time) ml).

(** spots.py:781-803 [birth_spots]; [pdraw] the poisson draw *)
Definition sg_birth (g : spotgen) (time : num) (rad_star : R) (pdraw : nat)
  (d : sdraws) (fuel : nat) : res (list spot) :=
  do ne <- sg_n_expected g time rad_star ;;
  do n <- poisson ne pdraw ;;
  sg_generate g n d fuel.

(** spots.py:830-842, one iteration of the loop of [generate_mature_spots] *)
Definition sg_mature_one (g : spotgen) (d : sdraws) (u : R) (fuel : nat) : res spot :=
  do l <- sg_generate g 1 d fuel ;;
  match l with
  | [s] =>
      if sg_is_static g then
        let area := nadd (nmul (Fin u) (nsub (sp_area_max s) (sg_init g))) (sg_init g) in
        Ok (spot_with_area s area (sp_growing s))
      else
        do life <- sg_mean_lifetime g ;;
        spot_age s (nmul (Fin u) life)
  | _ => Raise IndexError
  end.
(** solid angle of one spot, deg^2 (spots.py:840-841) *)
Definition spot_solid_angle (s : spot) (r_star : R) : num :=
  nmul (nsq (nmul (spot_angular_radius s r_star) (Fin (180/PI)))) (Fin PI).
(** spots.py:829-841, the while loop; [fuel] bounds its iterations *)
Fixpoint mature_loop (g : spotgen) (r_star : R) (target : num)
  (draws : nat -> sdraws * R) (rfuel fuel i : nat) (omega : num) : res (list spot) :=
  if nlt omega target then
    match fuel with
    | O => Raise OutOfDraws
    | S f =>
        let (d, u) := draws i in
        do s <- sg_mature_one g d u rfuel ;;
        do rest <- mature_loop g r_star target draws rfuel f (S i)
                     (nadd omega (spot_solid_angle s r_star)) ;;
        Ok (s :: rest)
    end
  else Ok [].
(** spots.py:805-842 [generate_mature_spots] *)
Definition sg_generate_mature (g : spotgen) (coverage : num) (r_star : R)
  (draws : nat -> sdraws * R) (rfuel fuel : nat) : res (list spot) :=
  if ngt coverage (Fin 1) || nlt coverage (Fin 0) then Raise ValueError
  else mature_loop g r_star (nmul (nmul (Fin (4 * PI)) coverage) (Fin ((180/PI)^2)))
         draws rfuel fuel 0 (Fin 0).
