(** The report of [Star.calc_coverage] with its texts and with the units of the temperatures.
    A temperature is given by its value in kelvin (as in MSpots and MStar) and by the unit in which
    the user wrote it; the numbers that the code handles are the values in these units, and are
    converted where astropy converts them.  Temperature maps carry the unit that astropy gives them:
    [np.where] takes the unit of its first quantity. *)
From Coq Require Import Reals ZArith Bool String List.
From Verif Require Import Num Py MConfig MHelpers MGrid MSpots MFaculae MXoflares MFlares MGranules MStar MFormat.
Import ListNotations.
Open Scope R_scope.

(** astropy (star.py:104-105, spots.py:110-111): a unit of temperature, its name and its size in kelvin *)
Record tunit : Type := mkTUnit { tu_name : string; tu_size : R }.
(** star.py:104, spots.py:110-111: the units in which the temperatures of a star and of its spots (umbra and
    penumbra of the first spot, of the second, ...) are given *)
Record tunits : Type := mkTUnits { us_star : tunit; us_spot : nat -> tunit * tunit }.
(** astropy (star.py:558): the value of the temperature [t], in kelvin, in the unit [u] *)
Definition in_unit (u : tunit) (t : num) : num := ndiv t (Fin (tu_size u)).
(** astropy (spots.py:448-449): the value of a temperature in the unit [v], given its value in the unit [u] *)
Definition convert (u v : tunit) (x : num) : num := nmul x (Fin (tu_size u / tu_size v)).
(** spots.py:216-217: keys of the dictionary; quantities of different units have different hashes *)
Definition qkey_eqb (a b : num * string) : bool :=
  teff_key_eqb (fst a) (fst b) && String.eqb (snd a) (snd b).
(** spots.py:191-217 [StarSpot.map_pixels] *)
Definition spot_map_pixels_u (s : spot) (uu up : tunit) (star_rad : R) : dict (num * string) (arr bool) :=
  let radius := spot_angular_radius s star_rad in
  let radius_umbra := ndiv radius (nsqrt (sp_ratio s)) in
  let d := dset qkey_eqb [] (in_unit uu (sp_teff_umbra s), tu_name uu)
             (amap (fun r => nlt r radius_umbra) (sp_r s)) in
  dset qkey_eqb d (in_unit up (sp_teff_pen s), tu_name up) (amap (fun r => nlt r radius) (sp_r s)).
(** spots.py:439-449, the body of the loop: the map [m] has the unit [u], the new one that of the
    umbra *)
Definition paint_spot_u (star_rad : R) (u uu up : tunit) (m : arr num) (s : spot) : res (arr num) :=
  let d := spot_map_pixels_u s uu up star_rad in
  let vu := in_unit uu (sp_teff_umbra s) in
  let vp := in_unit up (sp_teff_pen s) in
  do dpen <- dindex qkey_eqb d (vp, tu_name up) ;;
  do penumbra <- amap2 andb dpen (amap (fun t => ngt t (convert up u vp)) m) ;;
  do dumb <- dindex qkey_eqb d (vu, tu_name uu) ;;
  do umbra <- amap2 andb dumb (amap (fun t => ngt t (convert uu u vu)) m) ;;
  do inner <- awhere penumbra vp (amap (convert u up) m) ;;
  awhere umbra vu (amap (convert up uu) inner).
(** spots.py:440-450, the loop, from the spot number [i] on: the map and its unit *)
Fixpoint paint_spots_u (star_rad : R) (us : nat -> tunit * tunit) (i : nat) (u : tunit) (m : arr num)
  (l : list spot) : res (arr num * tunit) :=
  match l with
  | [] => Ok (m, u)
  | s :: t =>
      do m' <- paint_spot_u star_rad u (fst (us i)) (snd (us i)) m s ;;
      paint_spots_u star_rad us (S i) (fst (us i)) m' t
  end.
(** spots.py:417-450 [SpotCollection.map_pixels] *)
Definition sc_map_pixels_u (c : spotcoll) (us : tunits) (star_rad : R) (star_teff : num)
  : res (arr num * tunit) :=
  paint_spots_u star_rad (us_spot us) 0 (us_star us)
    (amap (fun z => nadd z (in_unit (us_star us) star_teff)) (grid_zeros (sc_grid c))) (sc_spots c).
(** star.py:347-362, the loop body of [add_faculae_to_map]: the temperatures are converted to the unit [u] of the
    map when they are stored *)
Definition paint_facula_u (s : star) (lat0 lon0 : R) (mu : arr R) (u : tunit) (m : arr num) (f : facula)
  : res (arr num) :=
  let angle := get_angle_between lat0 lon0 (fc_lat f) (fc_lon f) in
  let inside := fac_map_pixels f (st_radius s * RSUN_KM) in
  if negb (any_true inside) then Ok m
  else
    do fracs <- fac_fractional_area f angle ;;
    match fracs with
    | [(dwall, frac); (dfloor, _)] =>
        do z <- zip_same mu inside ;;
        let mu_fac := map fst (filter snd (cells z)) in
        do border <- quantile mu_fac frac ;;
        do wall <- amap2 andb inside (amap (fun x => Rleb x border) mu) ;;
        do floor <- amap2 andb inside (amap (fun x => Rltb border x) mu) ;;
        let teff_wall := clip_teff (nadd (Fin (IZR dwall)) (st_teff s)) in
        let teff_floor := clip_teff (nadd (Fin (IZR dfloor)) (st_teff s)) in
        do m1 <- mask_assign m wall (in_unit u teff_wall) ;;
        mask_assign m1 floor (in_unit u teff_floor)
    | _ => Raise ValueError
    end.
(** star.py:346-362, the loop *)
Fixpoint paint_faculae_u (s : star) (lat0 lon0 : R) (mu : arr R) (u : tunit) (m : arr num) (l : list facula)
  : res (arr num) :=
  match l with
  | [] => Ok m
  | f :: t =>
      do m' <- paint_facula_u s lat0 lon0 mu u m f ;; paint_faculae_u s lat0 lon0 mu u m' t
  end.
(** star.py:323-363 [add_faculae_to_map], with star.py:189-199 [Star.map]: the map and its unit *)
Definition add_faculae_to_map_u (s : star) (us : tunits) (lat0 lon0 : R) : res (arr num * tunit) :=
  do mu <- sc_map_pixels_u (st_spots s) us (st_radius s) (st_teff s) ;;
  do m <- paint_faculae_u s lat0 lon0 (star_mu s lat0 lon0) (snd mu) (fst mu) (fcc_facs (st_facs s)) ;;
  Ok (m, snd mu).

(** star.py:558: [f'{teff:.2f}'] of a value in the unit [u] *)
Definition label_u (u : tunit) (x : num) : string := fmt_quantity 2 x (tu_name u).
(** star.py:555-559: one temperature, a value in the unit [u] of the map *)
Definition coverage_step_u (u : tunit) (smap : arr num) (ld : arr R) (proj covered : arr num) (total : num)
  (acc : dict string num * dict string num) (teff : num) : res (dict string num * dict string num) :=
  let pix := amap (fun t => Fin (if neq t teff then 1 else 0)) smap in
  do a <- amap2 nmul pix (amap Fin ld) ;;
  do a <- amap2 nmul a proj ;;
  do c <- amap2 nmul a covered ;;
  let nominal := nsum (cells a) in
  let cov := nsum (cells c) in
  Ok (dset String.eqb (fst acc) (label_u u teff) (ndiv nominal total),
      dset String.eqb (snd acc) (label_u u teff) (ndiv cov total)).
(** star.py:554-559, the loop *)
Fixpoint coverage_loop_u u smap ld proj covered total acc (teffs : list num)
  : res (dict string num * dict string num) :=
  match teffs with
  | [] => Ok acc
  | t :: rest =>
      do acc' <- coverage_step_u u smap ld proj covered total acc t ;;
      coverage_loop_u u smap ld proj covered total acc' rest
  end.
(** star.py:562-571: move the granulation fraction of the photosphere entry *)
Definition granulate_u (d : dict string num) (kphot kgran : string) (g : num) : res (dict string num) :=
  do phot <- dindex String.eqb d kphot ;;
  let d := dset String.eqb d kphot (nmul phot (nsub (Fin 1) g)) in
  do old <- dindex String.eqb d kgran ;;
  Ok (dset String.eqb d kgran (nadd old (nmul phot g))).
(** star.py:497-573 [calc_coverage]: the labels of the temperatures on the map are in the unit of the map, those of
    the photosphere and of the granulation in the unit of the star's temperature (a difference of quantities takes the
    unit of the first) *)
Definition calc_coverage_u (s : star) (us : tunits) (lat0 lon0 : R) (g : num) (orbit planet phase incl : R)
  : res (dict string num * dict string num * num) :=
  let cos_c := star_mu s lat0 lon0 in
  let ld := amap (ld_plot s) cos_c in
  do jac <- star_jacobian s ;;
  do proj <- amap2 nmul jac (amap (fun m => Fin (area_projection m)) cos_c) ;;
  do mu <- add_faculae_to_map_u s us lat0 lon0 ;;
  let '(smap, u) := mu in
  do tm <- get_transit_mask s lat0 lon0 orbit planet phase incl ;;
  let '(covered, pl_frac) := tm in
  let teffs := nunique (cells smap) in
  do lp <- amap2 nmul (amap Fin ld) proj ;;
  let total := nsum (cells lp) in
  do tc <- coverage_loop_u u smap ld proj covered total ([], []) teffs ;;
  let '(tot, cov) := tc in
  let teff := in_unit (us_star us) (st_teff s) in
  let gteff := nsub teff (in_unit (us_star us) (gr_dteff (st_gran s))) in
  let new := negb (existsb (fun t => neq (convert (us_star us) u gteff) t) teffs) in
  let kphot := label_u (us_star us) teff in
  let kgran := label_u (us_star us) gteff in
  let tot := if new then dset String.eqb tot kgran (Fin 0) else tot in
  let cov := if new then dset String.eqb cov kgran (Fin 0) else cov in
  do tot <- granulate_u tot kphot kgran g ;;
  do cov <- granulate_u cov kphot kgran g ;;
  Ok (tot, cov, pl_frac).
