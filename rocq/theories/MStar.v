(** Model of /repo/vspec_vsm/star.py.  Star radius in R_sun; orbit and planet radii in
    R_sun; angles rad; temperatures K.  [plot_surface] is modelled only up to the data it
    hands to matplotlib. *)
From Coq Require Import Reals ZArith Bool String List.
From Verif Require Import Num Py MConfig MHelpers MGrid MSpots MFaculae MXoflares MFlares MGranules.
Import ListNotations.
Open Scope R_scope.

(** star.py:104-173, the attributes of a [Star] *)
Record star : Type := mkStar {
  st_teff : num; st_radius : R; st_period : R;
  st_spots : spotcoll; st_facs : faccoll;
  st_grid : grid;
  st_flaregen : flaregen; st_flares : option flarecoll;
  st_spotgen : spotgen; st_facgen : facgen;
  st_gran : granulation;
  st_u1 : R; st_u2 : R }.

(** star.py:144-150, 159-165: a generator passed by the caller gets the star's grid; the
    comparison [!=] may raise TypeError, which is caught *)
Definition adopt_grid {G} (get : G -> grid) (set : G -> grid -> G) (gen : G) (g : grid) : G :=
  match grid_ne (get gen) (Some g) with
  | Ok true => set gen g
  | Ok false => gen
  | Raise TypeError => set gen g
  | Raise _ => gen
  end.
(** star.py:148, 150: [spot_generator.gridmaker = g] *)
Definition sg_assign_grid (s : spotgen) (g : grid) : spotgen :=
  {| sg_mean := sg_mean s; sg_logsigma := sg_logsigma s;
     sg_teff_umbra := sg_teff_umbra s; sg_teff_pen := sg_teff_pen s;
     sg_growth := sg_growth s; sg_growth_dim := sg_growth_dim s;
     sg_decay := sg_decay s; sg_init := sg_init s; sg_dist := sg_dist s;
     sg_coverage := sg_coverage s; sg_grid := g |}.
(** star.py:163, 165: [fac_generator.gridmaker = g] *)
Definition fg_assign_grid (f : facgen) (g : grid) : facgen :=
  {| fg_rpeak := fg_rpeak f; fg_rlogsigma := fg_rlogsigma f; fg_depth := fg_depth f;
     fg_lifepeak := fg_lifepeak f; fg_lifelogsigma := fg_lifelogsigma f;
     fg_fslope := fg_fslope f; fg_fminrad := fg_fminrad f; fg_fbase := fg_fbase f;
     fg_wslope := fg_wslope f; fg_wint := fg_wint f;
     fg_coverage := fg_coverage f; fg_grid := g |}.

(** star.py:175-187 [set_spot_grid], [set_fac_grid]: plain attribute assignments *)
Definition set_spot_grid (c : spotcoll) (g : grid) : spotcoll :=
  mkSpotColl (map (fun s => spot_assign_gridmaker s g) (sc_spots c)) (sc_grid c).
(** star.py:182-187 [set_fac_grid] *)
Definition set_fac_grid (c : faccoll) (g : grid) : faccoll :=
  mkFacColl (map (fun f => fac_assign_grid f g) (fcc_facs c)) (fcc_grid c).

(** star.py:104-173 [Star.__init__] *)
Definition star_init (teff : num) (radius period : R) (spots : spotcoll) (facs : faccoll)
  (grid_params : pyval) (flg : option flaregen) (spg : option spotgen) (fcg : option facgen)
  (gran : option granulation) (u1 u2 : R) : res star :=
  do g <- grid_new grid_params ;;
  Ok {| st_teff := teff; st_radius := radius; st_period := period;
        st_spots := set_spot_grid (sc_set_gridmaker spots g) g;
        st_facs := set_fac_grid (fcc_set_gridmaker facs g) g;
        st_grid := g;
        st_flaregen := match flg with Some x => x | None => lg_off end;
        st_flares := None;
        st_spotgen := match spg with
                      | Some x => adopt_grid sg_grid sg_assign_grid x g
                      | None => sg_off g end;
        st_facgen := match fcg with
                     | Some x => adopt_grid fg_grid fg_assign_grid x g
                     | None => fg_off g end;
        st_gran := match gran with Some x => x | None => gran_off end;
        st_u1 := u1; st_u2 := u2 |}.

(** star.py:213, 225, 585: the star after its [spots] object was mutated *)
Definition star_with_spots (s : star) (c : spotcoll) : star :=
  {| st_teff := st_teff s; st_radius := st_radius s; st_period := st_period s;
     st_spots := c; st_facs := st_facs s; st_grid := st_grid s;
     st_flaregen := st_flaregen s; st_flares := st_flares s;
     st_spotgen := st_spotgen s; st_facgen := st_facgen s; st_gran := st_gran s;
     st_u1 := st_u1 s; st_u2 := st_u2 s |}.
(** star.py:214, 237, 598: the star after its [faculae] object was mutated *)
Definition star_with_facs (s : star) (c : faccoll) : star :=
  {| st_teff := st_teff s; st_radius := st_radius s; st_period := st_period s;
     st_spots := st_spots s; st_facs := c; st_grid := st_grid s;
     st_flaregen := st_flaregen s; st_flares := st_flares s;
     st_spotgen := st_spotgen s; st_facgen := st_facgen s; st_gran := st_gran s;
     st_u1 := st_u1 s; st_u2 := st_u2 s |}.
(** star.py:708: assignment to [flares] *)
Definition star_with_flares (s : star) (c : flarecoll) : star :=
  {| st_teff := st_teff s; st_radius := st_radius s; st_period := st_period s;
     st_spots := st_spots s; st_facs := st_facs s; st_grid := st_grid s;
     st_flaregen := st_flaregen s; st_flares := Some c;
     st_spotgen := st_spotgen s; st_facgen := st_facgen s; st_gran := st_gran s;
     st_u1 := st_u1 s; st_u2 := st_u2 s |}.

(** star.py:190-199 [map] *)
Definition star_map (s : star) : res (arr num) :=
  sc_map_pixels (st_spots s) (st_radius s) (st_teff s).
(** star.py:201-214 [age]; [time] in days for spots, faculae lifetimes in the same unit *)
Definition star_age (s : star) (time : num) : res star :=
  do c <- sc_age (st_spots s) time ;;
  Ok (star_with_facs (star_with_spots s c) (fcc_age (st_facs s) time)).
(** star.py:216-225 [add_spot] *)
Definition star_add_spot (s : star) (l : list spot) : star :=
  star_with_spots s (sc_add_spot (st_spots s) l).
(** star.py:227-237 [add_fac] *)
Definition star_add_fac (s : star) (l : list facula) : res star :=
  do c <- fcc_add (st_facs s) l ;; Ok (star_with_facs s c).
(** star.py:239-257 [get_mu] *)
Definition star_mu (s : star) (lat0 lon0 : R) : arr R := grid_mu (st_grid s) lat0 lon0.
(** star.py:259-283 [ld_mask] *)
Definition ld_mask (s : star) (mu : R) : R :=
  if Rltb mu 0 then 0
  else 1 - (st_u1 s + 1) * (1 - mu) - st_u2 s * (1 - mu)^2.
(** star.py:285-300 [area_projection_coefficient] *)
Definition area_projection (mu : R) : R := if Rltb 0 mu then mu else 0.
(** star.py:302-310 [ld_mask_for_plotting] *)
Definition ld_plot (s : star) (mu : R) : R :=
  if Rltb mu 0 then 0
  else 1 - (st_u1 s) * (1 - mu) - st_u2 s * (1 - mu)^2.
(** star.py:312-321 [get_jacobian] *)
Definition star_jacobian (s : star) : res (arr num) := grid_area (st_grid s).

(** star.py:356 ([np.percentile], linear interpolation): insertion into a sorted list *)
Fixpoint rinsert (x : R) (l : list R) : list R :=
  match l with
  | [] => [x]
  | y :: t => if Rle_dec x y then x :: l else y :: rinsert x t
  end.
(** star.py:356: the sorted values *)
Definition rsort (l : list R) : list R := fold_right rinsert [] l.
(** star.py:356: quantile [q] of a non-empty list; ValueError unless 0 <= q <= 1 *)
Definition quantile (l : list R) (q : num) : res R :=
  match q with
  | Fin x =>
      if Rleb 0 x && Rleb x 1 then
        let s := rsort l in
        let idx := x * (INR (length l) - 1) in
        let lo := Z.to_nat (Int_part idx) in
        let t := idx - IZR (Int_part idx) in
        let a := nth lo s 0 in
        let b := nth (Nat.min (lo + 1) (length l - 1)) s 0 in
        Ok (a + t * (b - a))
      else Raise ValueError
  | _ => Raise ValueError
  end.

(** star.py:349 [np.any] *)
Definition any_true (a : arr bool) : bool := existsb (fun b => b) (cells a).
(** star.py:361-362 [m[mask] = v] *)
Definition mask_assign (m : arr num) (mask : arr bool) (v : num) : res (arr num) :=
  do z <- zip_same m mask ;;
  Ok (amap (fun p : num * bool => if snd p then v else fst p) z).
(** star.py:347-362, the loop body of [add_faculae_to_map] *)
Definition paint_facula (s : star) (lat0 lon0 : R) (mu : arr R) (m : arr num) (f : facula)
  : res (arr num) :=
  let angle := get_angle_between lat0 lon0 (fc_lat f) (fc_lon f) in
  let inside := fac_map_pixels f (st_radius s * RSUN_KM) in
  if negb (any_true inside) then Ok m
  else
    do fracs <- fac_fractional_area f angle ;;
    match fracs with
    | [(dwall, frac); (dfloor, _)] =>
        do z <- zip_same mu inside ;;
        let mu_fac := map fst (filter snd (cells z)) in
        do border <- quantile mu_fac frac ;;
        do wall <- amap2 andb inside (amap (fun x => Rleb x border) mu) ;;
        do floor <- amap2 andb inside (amap (fun x => Rltb border x) mu) ;;
        let teff_wall := clip_teff (nadd (Fin (IZR dwall)) (st_teff s)) in
        let teff_floor := clip_teff (nadd (Fin (IZR dfloor)) (st_teff s)) in
        do m1 <- mask_assign m wall teff_wall ;;
        mask_assign m1 floor teff_floor
    | _ => Raise ValueError      (* unpacking a dictionary that does not have 2 keys *)
    end.
(** star.py:346-362, the loop *)
Fixpoint paint_faculae (s : star) (lat0 lon0 : R) (mu : arr R) (m : arr num) (l : list facula)
  : res (arr num) :=
  match l with
  | [] => Ok m
  | f :: t =>
      do m' <- paint_facula s lat0 lon0 mu m f ;; paint_faculae s lat0 lon0 mu m' t
  end.
(** star.py:323-363 [add_faculae_to_map] *)
Definition add_faculae_to_map (s : star) (lat0 lon0 : R) : res (arr num) :=
  do m <- star_map s ;;
  paint_faculae s lat0 lon0 (star_mu s lat0 lon0) m (fcc_facs (st_facs s)).

(** star.py:386-391 and 432-437: planet position in stellar radii, [a] = phase - 180 deg *)
Definition planet_xy (s : star) (orbit a incl : R) : num * num :=
  let ratio := ndiv (Fin orbit) (Fin (st_radius s)) in
  (nmul ratio (Fin (sin a)), nmul (nmul ratio (Fin (cos a))) (Fin (cos incl))).
(** star.py:365-392 [get_pl_frac] *)
Definition get_pl_frac (s : star) (a orbit planet incl : R) : res num :=
  let (x, y) := planet_xy s orbit a incl in
  let rad := ndiv (Fin planet) (Fin (st_radius s)) in
  do c <- circ_fraction x y rad ;;
  Ok (nsub (Fin 1) c).

(** star.py:483-491: gaussian overlap of one pixel by a 100x100 trapezoid rule *)
Definition gauss_overlap (sx sy dist rp : num) : num :=
  let xs := nlinspace (nmul (Fin (-3)) sx) (nmul (Fin 3) sx) 100 in
  let coef := ndiv (Fin 1) (nmul (nmul (Fin (2 * PI)) sx) sy) in
  let cell yy xx :=
    let zz := nmul coef (nexp (nsub (nmul (Fin (-(1/2))) (nsq (ndiv xx sx)))
                                    (nmul (Fin (1/2)) (nsq (ndiv yy sy))))) in
    let d := nsqrt (nadd (nsq (nsub xx dist)) (nsq yy)) in
    if nlt d rp then zz else Fin 0 in
  ntrapz xs (map (fun yy => ntrapz xs (map (cell yy) xs)) xs).
(** star.py:444-492, the value of [covered_value] at one pixel with area [ar] *)
Definition pixel_covered (lat0 lon0 : R) (x y rp : num) (p : R * R) (ar : num) : num :=
  let (xc, yc) := proj_ortho lat0 lon0 p in
  let mu := Fin (law_cos lat0 lon0 (fst p) (snd p)) in
  let pr := nmul (Fin 2) (nsqrt ar) in
  let projr := nmul pr mu in
  let rad := nsqrt (nadd (nsq (nsub xc x)) (nsq (nsub yc y))) in
  if ngt rad (nadd rp (nmul (Fin 2) projr)) || nisnan rad then Fin 0
  else
    let sx := nmul pr mu in
    let sy := pr in
    if ngt rp (nadd rad (nmul (Fin 2) sx)) then Fin 1
    else gauss_overlap sx sy rad rp.
(** star.py:394-495 [get_transit_mask]; for the resolution warning (star.py:459-471) see
    [MWarn.transit_warnings].  The first NaN check (star.py:457) looks at an array of 0/1. *)
Definition get_transit_mask (s : star) (lat0 lon0 orbit planet phase incl : R)
  : res (arr num * num) :=
  let eclipse := Rltb 0 (cos phase) in
  let a := phase - PI in
  let (x, y) := planet_xy s orbit a incl in
  let rp := ndiv (Fin planet) (Fin (st_radius s)) in
  if ngt (nsqrt (nadd (nsq x) (nsq y))) (nadd (Fin 1) (nmul (Fin 2) rp)) then
    Ok (grid_zeros (st_grid s), Fin 1)
  else if eclipse then
    do f <- get_pl_frac s a orbit planet incl ;;
    Ok (grid_zeros (st_grid s), f)
  else
    do area <- grid_area (st_grid s) ;;
    do cov <- amap2 (pixel_covered lat0 lon0 x y rp) (grid_points (st_grid s)) area ;;
    if existsb nisnan (cells cov) then Raise ValueError
    else Ok (cov, Fin 1).

(** ** calc_coverage *)
(** star.py:558, 563, 566: the string key [f'{teff:.2f}'], the temperature to two decimals
    (SIMPLIFICATION: '-0.00' and '0.00' are one key) *)
Inductive tkey : Type := KCenti (z : Z) | KPInf | KNInf | KNaN.
(** star.py:558: [f'{teff:.2f}'] *)
Definition fmt2 (t : num) : tkey :=
  match t with Fin x => KCenti (rhe (x * 100)) | PInf => KPInf | NInf => KNInf | NaN => KNaN end.
(** star.py:558-571: equality of string keys *)
Definition tkey_eqb (a b : tkey) : bool :=
  match a, b with
  | KCenti x, KCenti y => Z.eqb x y
  | KPInf, KPInf | KNInf, KNInf | KNaN, KNaN => true
  | _, _ => false
  end.

(** star.py:550 ([np.unique]): insertion without duplicates, NaNs last and merged *)
Fixpoint uinsert (x : num) (l : list num) : list num :=
  match l with
  | [] => [x]
  | y :: t =>
      if neq x y || (nisnan x && nisnan y) then l
      else if nlt x y || (nisnan y) then x :: l
      else y :: uinsert x t
  end.
(** star.py:550 [np.unique] of the flattened map *)
Definition nunique (l : list num) : list num := fold_right uinsert [] l.

(** star.py:555-559: one temperature *)
Definition coverage_step (smap : arr num) (ld : arr R) (proj covered : arr num) (total : num)
  (acc : dict tkey num * dict tkey num) (teff : num) : res (dict tkey num * dict tkey num) :=
  let pix := amap (fun t => Fin (if neq t teff then 1 else 0)) smap in
  do a <- amap2 nmul pix (amap Fin ld) ;;
  do a <- amap2 nmul a proj ;;
  do c <- amap2 nmul a covered ;;
  let nominal := nsum (cells a) in
  let cov := nsum (cells c) in
  Ok (dset tkey_eqb (fst acc) (fmt2 teff) (ndiv nominal total),
      dset tkey_eqb (snd acc) (fmt2 teff) (ndiv cov total)).
(** star.py:554-559, the loop *)
Fixpoint coverage_loop smap ld proj covered total acc (teffs : list num)
  : res (dict tkey num * dict tkey num) :=
  match teffs with
  | [] => Ok acc
  | t :: rest =>
      do acc' <- coverage_step smap ld proj covered total acc t ;;
      coverage_loop smap ld proj covered total acc' rest
  end.
(** star.py:562-571: move the granulation fraction of the photosphere entry *)
Definition granulate (d : dict tkey num) (kphot kgran : tkey) (g : num) : res (dict tkey num) :=
  do phot <- dindex tkey_eqb d kphot ;;
  let d := dset tkey_eqb d kphot (nmul phot (nsub (Fin 1) g)) in
  do old <- dindex tkey_eqb d kgran ;;
  Ok (dset tkey_eqb d kgran (nadd old (nmul phot g))).
(** star.py:497-573 [calc_coverage]; [g] the granulation fraction *)
Definition calc_coverage (s : star) (lat0 lon0 : R) (g : num) (orbit planet phase incl : R)
  : res (dict tkey num * dict tkey num * num) :=
  let cos_c := star_mu s lat0 lon0 in
  let ld := amap (ld_plot s) cos_c in
  do jac <- star_jacobian s ;;
  do proj <- amap2 nmul jac (amap (fun m => Fin (area_projection m)) cos_c) ;;
  do smap <- add_faculae_to_map s lat0 lon0 ;;
  do tm <- get_transit_mask s lat0 lon0 orbit planet phase incl ;;
  let '(covered, pl_frac) := tm in
  let teffs := nunique (cells smap) in
  do lp <- amap2 nmul (amap Fin ld) proj ;;
  let total := nsum (cells lp) in
  do tc <- coverage_loop smap ld proj covered total ([], []) teffs ;;
  let '(tot, cov) := tc in
  let gteff := nsub (st_teff s) (gr_dteff (st_gran s)) in
  let new := negb (existsb (fun t => neq gteff t) teffs) in
  let tot := if new then dset tkey_eqb tot (fmt2 gteff) (Fin 0) else tot in
  let cov := if new then dset tkey_eqb cov (fmt2 gteff) (Fin 0) else cov in
  do tot <- granulate tot (fmt2 (st_teff s)) (fmt2 gteff) g ;;
  do cov <- granulate cov (fmt2 (st_teff s)) (fmt2 gteff) g ;;
  Ok (tot, cov, pl_frac).

(** star.py:575-585 [birth_spots] *)
Definition star_birth_spots (s : star) (time : num) (pdraw : nat) (d : sdraws) (fuel : nat) : res star :=
  do l <- sg_birth (st_spotgen s) time (st_radius s) pdraw d fuel ;;
  Ok (star_add_spot s l).
(** star.py:587-599 [birth_faculae] *)
Definition star_birth_faculae (s : star) (time : num) (pdraw : nat) (d : fdraws) : res star :=
  do l <- fg_birth (st_facgen s) time (st_radius s * RSUN_KM) pdraw d ;;
  star_add_fac s l.

(** star.py:619-625 [average_teff]: the keys of the dictionary are strings, and
    [str ** int] raises TypeError *)
Definition key_pow4 (k : tkey) : res num := Raise TypeError.
(** star.py:622-624, the loop *)
Fixpoint avg_loop (d : dict tkey num) (num_ den : num) : res (num * num) :=
  match d with
  | [] => Ok (num_, den)
  | (k, v) :: t =>
      do k4 <- key_pow4 k ;;
      avg_loop t (nadd num_ (nmul k4 v)) (nadd den v)
  end.
(** star.py:501, 503-504, default arguments of [calc_coverage]: orbit 1 AU, phase 90 deg,
    inclination 0 deg; lengths in R_sun *)
Definition AU_RSUN : R := 1495978707 / (6957 * 1000).
(** star.py:502: planet 1 R_earth, in R_sun *)
Definition REARTH_RSUN : R := 63781 / 6957000.
(** star.py:601-625 [average_teff] *)
Definition average_teff (s : star) (lat0 lon0 : R) : res num :=
  do r <- calc_coverage s lat0 lon0 (Fin 0) AU_RSUN REARTH_RSUN (PI/2) 0 ;;
  let '(dat, _, _) := r in
  do nd <- avg_loop dat (Fin 0) (Fin 0) ;;
  (* Python int 0/0 if the dictionary is empty *)
  match dat with
  | [] => Raise ZeroDivisionError
  | _ => Ok (npow (ndiv (fst nd) (snd nd)) (1/4))
  end.

(** star.py:691-708 [get_flares_over_observation] *)
Definition star_get_flares (s : star) (time : R) (pdraw : nat) (d : ldraws) : res star :=
  do l <- generate_flare_series (st_flaregen s) time pdraw d ;;
  Ok (star_with_flares s (flc_init l)).
(** star.py:710-741 [get_flare_int_over_timeperiod] *)
Definition star_flare_int (s : star) (tstart tfinish : R) (so : option (R * R))
  : res (list (num * num)) :=
  match st_flares s with
  | None => Raise AttributeError
  | Some c => flc_integral c tstart tfinish so
  end.
(** star.py:743-760 [generate_mature_spots] *)
Definition star_mature_spots (s : star) (coverage : num) (draws : nat -> sdraws * R)
  (rfuel fuel : nat) : res star :=
  do l <- sg_generate_mature (st_spotgen s) coverage (st_radius s) draws rfuel fuel ;;
  Ok (star_add_spot s l).
(** star.py:762-785 [get_granulation_coverage]; note the key 'amp' *)
Definition star_granulation (s : star) (n : nat) (sample : nat -> num) : res (list num) :=
  let gr := st_gran s in
  do off <- (if neq (gr_dteff gr) (Fin 0) then Ok true
             else
               do mean <- dindex String.eqb (gr_params gr) "mean"%string ;;
               if neq mean (Fin 0) then
                 do amp <- dindex String.eqb (gr_params gr) "amp"%string ;;
                 Ok (neq amp (Fin 0))
               else Ok false) ;;
  if off then Ok (repeat (Fin 0) n)
  else Ok (map (fun c => if nisnan c then Fin 0 else c) (gran_get_coverage gr n sample)).
