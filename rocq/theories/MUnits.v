(** The parts of /repo/vspec_vsm that handle units, transcribed with their units.

    The other M files fold unit conversions into constants.  Here the same code is modelled
    again over [qty], a model of astropy's [Quantity] (an external dependency, modelled from
    its documentation): a value, a unit size and a dimension.  SIMPLIFICATIONS: a unit is
    its size in base units (km, day, kg, K, rad) and its dimension, its name is forgotten;
    plain numbers are dimensionless quantities of unit size 1 (astropy also lets the plain
    numbers 0, inf and nan take any unit, which only faculae.py:282 uses, see
    [fq_fractional_area]). *)
From Coq Require Import Reals ZArith Bool List.
From Verif Require Import Num Py MConfig MHelpers MGrid MSpots MFaculae MXoflares MFlares.
Import ListNotations.
Open Scope R_scope.

(** astropy: the exponents of length, time, mass, temperature and angle *)
Record dim : Type := mkDim { e_len : R; e_time : R; e_mass : R; e_temp : R; e_ang : R }.
(** astropy: dimensions of products, quotients and powers *)
Definition dmul (a b : dim) : dim :=
  mkDim (e_len a + e_len b) (e_time a + e_time b) (e_mass a + e_mass b)
        (e_temp a + e_temp b) (e_ang a + e_ang b).
(** astropy: the dimension of a power *)
Definition dpow (a : dim) (p : R) : dim :=
  mkDim (e_len a * p) (e_time a * p) (e_mass a * p) (e_temp a * p) (e_ang a * p).
(** astropy: the dimension of a quotient *)
Definition ddiv (a b : dim) : dim := dmul a (dpow b (-1)).
(** astropy: two units can be converted into each other iff their dimensions agree *)
Definition deqb (a b : dim) : bool :=
  Reqb (e_len a) (e_len b) && Reqb (e_time a) (e_time b) && Reqb (e_mass a) (e_mass b)
  && Reqb (e_temp a) (e_temp b) && Reqb (e_ang a) (e_ang b).

(** dimensions used by the code: spots.py, faculae.py, flares.py, star.py *)
Definition D0 : dim := mkDim 0 0 0 0 0.
(** lengths: faculae.py:166, star.py:432 *)
Definition DLen : dim := mkDim 1 0 0 0 0.
(** times: spots.py:255, flares.py:81 *)
Definition DTime : dim := mkDim 0 1 0 0 0.
(** masses, only inside energies: flares.py:84 *)
Definition DMass : dim := mkDim 0 0 1 0 0.
(** temperatures: faculae.py:158 *)
Definition DTemp : dim := mkDim 0 0 0 1 0.
(** angles: helpers.py:100-102 *)
Definition DAng : dim := mkDim 0 0 0 0 1.
(** areas: config.py:8 *)
Definition DArea : dim := dpow DLen 2.
(** energies: flares.py:84 *)
Definition DEnergy : dim := dmul (dmul DMass (dpow DLen 2)) (dpow DTime (-2)).

(** astropy: a unit *)
Record uni : Type := mkUni { usize : R; udim : dim }.
(** astropy: a quantity, [qv] times a unit of size [qs] and dimension [qd] *)
Record qty : Type := mkQ { qv : num; qs : R; qd : dim }.

(** astropy units named in the code (config.py:8, spots.py, faculae.py, flares.py:182-204) *)
Definition u_km : uni := mkUni 1 DLen.
(** [u.km**2]: flares.py:85 *)
Definition u_km2 : uni := mkUni 1 DArea.
(** [u.R_sun]: config.py:8 *)
Definition u_Rsun : uni := mkUni RSUN_KM DLen.
(** config.py:8 *)
Definition u_MSH : uni := mkUni (1/1000000 * (1/2) * (4 * PI) * RSUN_KM^2) DArea.
(** [u.day]: spots.py:293 *)
Definition u_day : uni := mkUni 1 DTime.
(** [u.hr]: flares.py:556 *)
Definition u_hr : uni := mkUni (1/24) DTime.
(** [u.min]: flares.py:681 *)
Definition u_min : uni := mkUni (1/1440) DTime.
(** [u.K]: faculae.py:158 *)
Definition u_K : uni := mkUni 1 DTemp.
(** [u.rad]: coordinate_grid.py:436 *)
Definition u_rad : uni := mkUni 1 DAng.
(** [u.deg]: spots.py:189 *)
Definition u_deg : uni := mkUni (PI/180) DAng.
(** flares.py: erg = 1e-7 kg m^2 s^-2 *)
Definition u_erg : uni := mkUni (1/10^7 * (1/10^6) * 86400^2) DEnergy.
(** [u.dimensionless_unscaled], [u.Unit('')]: spots.py:292 *)
Definition u_one : uni := mkUni 1 D0.
(** flares.py:131 [u.Unit('hr km2')] *)
Definition u_hrkm2 : uni := mkUni (1/24) (dmul DTime DArea).

(** astropy: [x * unit] and a plain number *)
Definition qmk (x : num) (u : uni) : qty := mkQ x (usize u) (udim u).
(** astropy: a plain number as a quantity *)
Definition qnum (x : num) : qty := mkQ x 1 D0.
(** astropy: products, quotients and powers never fail *)
Definition qmul (a b : qty) : qty := mkQ (nmul (qv a) (qv b)) (qs a * qs b) (dmul (qd a) (qd b)).
(** astropy: quotients *)
Definition qdiv (a b : qty) : qty := mkQ (ndiv (qv a) (qv b)) (qs a / qs b) (ddiv (qd a) (qd b)).
(** astropy: [q**2] *)
Definition qsq (a : qty) : qty := mkQ (nsq (qv a)) (qs a * qs a) (dpow (qd a) 2).
(** astropy: [np.sqrt] *)
Definition qsqrt (a : qty) : qty := mkQ (nsqrt (qv a)) (sqrt (qs a)) (dpow (qd a) (1/2)).
(** astropy: [q**k] for an integer [k] *)
Definition qipow (a : qty) (k : nat) : qty := mkQ (nipow (qv a) k) (qs a ^ k) (dpow (qd a) (INR k)).
(** astropy: [q**p] for a float [p] *)
Definition qpow (a : qty) (p : R) : qty := mkQ (npow (qv a) p) (Rpower (qs a) p) (dpow (qd a) p).
(** astropy: [q.to(unit)] and [q.to_value(unit)] *)
Definition qin (a : qty) (u : uni) : res num :=
  if deqb (qd a) (udim u) then Ok (nmul (qv a) (Fin (qs a / usize u)))
  else Raise UnitConversionError.
(** astropy: [q.to(unit)] *)
Definition qto (a : qty) (u : uni) : res qty := do x <- qin a u ;; Ok (qmk x u).
(** astropy: the value of [b] in the unit of [a] *)
Definition qlike (a b : qty) : res num := qin b (mkUni (qs a) (qd a)).
(** astropy: sums and differences take the unit of the left operand *)
Definition qadd (a b : qty) : res qty := do y <- qlike a b ;; Ok (mkQ (nadd (qv a) y) (qs a) (qd a)).
(** astropy: differences *)
Definition qsub (a b : qty) : res qty := do y <- qlike a b ;; Ok (mkQ (nsub (qv a) y) (qs a) (qd a)).
(** astropy: order comparisons convert the right operand *)
Definition qlt (a b : qty) : res bool := do y <- qlike a b ;; Ok (nlt (qv a) y).
(** astropy: [<=] *)
Definition qle (a b : qty) : res bool := do y <- qlike a b ;; Ok (nle (qv a) y).
(** astropy: [>] *)
Definition qgt (a b : qty) : res bool := do y <- qlike a b ;; Ok (ngt (qv a) y).
(** astropy: quantities of different kinds are unequal, [==] does not raise *)
Definition qeq (a b : qty) : bool := match qlike a b with Ok y => neq (qv a) y | Raise _ => false end.
(** astropy: [np.exp] and [np.log] want dimensionless quantities, trigonometric functions
    angles, their inverses dimensionless quantities *)
Definition qfun (u : uni) (f : num -> num) (v : uni) (a : qty) : res qty :=
  match qin a u with Ok x => Ok (qmk (f x) v) | Raise _ => Raise UnitTypeError end.
(** astropy: [np.exp] *)
Definition qexp : qty -> res qty := qfun u_one nexp u_one.
(** astropy: [np.log] *)
Definition qlog : qty -> res qty := qfun u_one nln u_one.
(** astropy: [np.arccos] *)
Definition qacos : qty -> res qty := qfun u_one nacos u_rad.
(** astropy: [np.arcsin] *)
Definition qasin : qty -> res qty := qfun u_one nasin u_rad.
(** astropy: [np.sin] *)
Definition qsin : qty -> res qty := qfun u_rad nsin u_one.
(** astropy: [np.cos] *)
Definition qcos : qty -> res qty := qfun u_rad ncos u_one.
(** astropy: [np.tan] *)
Definition qtan : qty -> res qty := qfun u_rad ntan u_one.

(** ** Coordinates *)
(** helpers.py:100-102 (also coordinate_grid.py:132-134, spots.py:244-246, flares.py:643-645) *)
Definition q_law_cos (lat1 lon1 lat2 lon2 : qty) : res qty :=
  do s1 <- qsin lat1 ;; do s2 <- qsin lat2 ;;
  do c1 <- qcos lat1 ;; do c2 <- qcos lat2 ;;
  do dl <- qsub lon1 lon2 ;; do cl <- qcos dl ;;
  qadd (qmul s1 s2) (qmul (qmul c1 c2) cl).
(** helpers.py:49-103 [get_angle_between] *)
Definition q_angle_between (lat1 lon1 lat2 lon2 : qty) : res qty :=
  do mu <- q_law_cos lat1 lon1 lat2 lon2 ;; qacos mu.
(** spots.py:145-149 and faculae.py:177-181, at one point of the grid *)
Definition q_haversine (lat0 lon0 lat lon : qty) : res qty :=
  do da <- qsub lat0 lat ;; do sa <- qsin (qmul (qnum (Fin (1/2))) da) ;;
  do cg <- qcos lat ;; do c0 <- qcos lat0 ;;
  do db <- qsub lon0 lon ;; do sb <- qsin (qmul (qnum (Fin (1/2))) db) ;;
  do h <- qadd (qsq sa) (qmul (qmul cg c0) (qsq sb)) ;;
  do a <- qasin (qsqrt h) ;;
  Ok (qmul (qnum (Fin 2)) a).
(** helpers.py:284-314 [clip_teff] *)
Definition q_clip_teff (teff : qty) : res qty :=
  let low := qmk (Fin TEFF_LO) u_K in
  let high := qmk (Fin TEFF_HI) u_K in
  do above <- qgt teff high ;;
  if above then Ok high
  else do below <- qlt teff low ;; if below then Ok low else Ok teff.
(** helpers.py:11-47 [round_teff]: rounds the value in the quantity's own unit *)
Definition q_round_teff (teff : qty) : res qty :=
  do z <- round_teff (qv teff) ;; Ok (mkQ (Fin (IZR z)) (qs teff) (qd teff)).

(** ** Spots *)
(** spots.py:104-133, the quantities of a [StarSpot] *)
Record spotq : Type := mkSpotQ {
  sq_lat : qty; sq_lon : qty; sq_amax : qty; sq_area : qty; sq_ratio : num;
  sq_growing : bool; sq_growth : qty; sq_decay : qty }.
(** spots.py:303-317: assignment to [area_current] and [is_growing] *)
Definition sq_with (s : spotq) (a : qty) (g : bool) : spotq :=
  mkSpotQ (sq_lat s) (sq_lon s) (sq_amax s) a (sq_ratio s) g (sq_growth s) (sq_decay s).
(** spots.py:159-170 [radius] *)
Definition sq_radius (s : spotq) : res qty := qto (qsqrt (qdiv (sq_area s) (qnum (Fin PI)))) u_km.
(** spots.py:172-189 [angular_radius] *)
Definition sq_angular_radius (s : spotq) (star_rad : qty) : res qty :=
  do c <- qsub (qnum (Fin 1)) (qdiv (sq_area s) (qmul (qnum (Fin (2 * PI))) (qsq star_rad))) ;;
  do a <- qacos c ;;
  qto a u_deg.
(** spots.py:212-217 [map_pixels] at the grid point [(lat, lon)]: is it in the umbra, is it
    in the spot *)
Definition sq_covers (s : spotq) (star_rad lat lon : qty) : res (bool * bool) :=
  do r <- q_haversine (sq_lat s) (sq_lon s) lat lon ;;
  do radius <- sq_angular_radius s star_rad ;;
  do u <- qlt r (qdiv radius (qnum (nsqrt (sq_ratio s)))) ;;
  do p <- qlt r radius ;;
  Ok (u, p).
(** spots.py:255-317 [age] *)
Definition sq_age (s : spotq) (time : qty) : res spotq :=
  if sq_growing s then
    do gd <- qto (qmul (sq_growth s) (qmk (Fin 1) u_day)) u_one ;;
    do g1 <- qadd gd (qnum (Fin 1)) ;;
    do tau <- qlog g1 ;;
    do time_to_max <-
      (if qeq tau (qnum (Fin 0)) then Ok (qmk PInf u_day)
       else do l <- qlog (qdiv (sq_amax s) (sq_area s)) ;;
            Ok (qmul (qdiv l tau) (qmk (Fin 1) u_day))) ;;
    do later <- qgt time_to_max time ;;
    if later then
      do e <- qexp (qdiv (qmul tau time) (qmk (Fin 1) u_day)) ;;
      Ok (sq_with s (qmul (sq_area s) e) true)
    else
      do decay_time <- qsub time time_to_max ;;
      let area_decay := qmul decay_time (sq_decay s) in
      do gone <- qgt area_decay (sq_amax s) ;;
      if gone then Ok (sq_with s (qmk (Fin 0) u_MSH) false)
      else do a <- qsub (sq_amax s) area_decay ;; Ok (sq_with s a false)
  else
    let area_decay := qmul time (sq_decay s) in
    do gone <- qgt area_decay (sq_amax s) ;;
    if gone then Ok (sq_with s (qmk (Fin 0) u_MSH) false)
    else do a <- qsub (sq_area s) area_decay ;; Ok (sq_with s a false).
(** spots.py:411 [clean_spotlist], the test of one spot *)
Definition sq_dead (s : spotq) : res bool :=
  do d <- qle (sq_area s) (qmk (Fin 0) u_MSH) ;; Ok (d && negb (sq_growing s)).
(** spots.py:409-415 [clean_spotlist] *)
Fixpoint sq_clean (l : list spotq) : res (list spotq) :=
  match l with
  | [] => Ok []
  | s :: t => do d <- sq_dead s ;; do r <- sq_clean t ;; Ok (if d then r else s :: r)
  end.
(** spots.py:452-466 [SpotCollection.age] *)
Definition sq_collection_age (l : list spotq) (time : qty) : res (list spotq) :=
  do l' <- mapM (fun s => sq_age s time) l ;; sq_clean l'.

(** spots.py:569-597, the quantities of a [SpotGenerator] *)
Record spotgenq : Type := mkSpotGenQ {
  gq_mean : qty; gq_growth : qty; gq_decay : qty; gq_init : qty; gq_coverage : num }.
(** spots.py:634-643 [is_static] *)
Definition gq_is_static (g : spotgenq) : bool :=
  qeq (gq_decay g) (qdiv (qmk (Fin 0) u_MSH) (qmk (Fin 1) u_day)).
(** spots.py:646-659 [mean_lifetime] *)
Definition gq_mean_lifetime (g : spotgenq) : res qty :=
  if gq_is_static g then Ok (qmk PInf u_day)
  else
    do l <- qlog (qdiv (gq_init g) (gq_mean g)) ;;
    do t <- qsub (qdiv (gq_mean g) (gq_decay g)) (qdiv l (gq_growth g)) ;;
    qto t u_day.
(** spots.py:662-677 [mean_area] *)
Definition gq_mean_area (g : spotgenq) : res qty :=
  if gq_is_static g then Ok (gq_mean g)
  else
    do a <- qadd (qdiv (gq_mean g) (gq_growth g)) (qdiv (gq_init g) (gq_growth g)) ;;
    do b <- qadd a (qdiv (qdiv (qsq (gq_mean g)) (qnum (Fin 2))) (gq_decay g)) ;;
    do life <- gq_mean_lifetime g ;;
    Ok (qdiv b life).
(** spots.py:759-779 [get_n_spots_to_birth] *)
Definition gq_n_expected (g : spotgenq) (time rad_star : qty) : res num :=
  do ma <- gq_mean_area g ;;
  do ml <- gq_mean_lifetime g ;;
  qin (qdiv (qmul (qdiv (qmul (qnum (gq_coverage g))
                           (qmul (qnum (Fin (4 * PI))) (qsq rad_star))) ma) time) ml) u_one.
(** spots.py:734-735: the maximum area of a new spot, [z] the standard normal draw *)
Definition gq_max_area (g : spotgenq) (sigma z : R) : res qty :=
  do l <- qlog (qdiv (gq_mean g) (qmk (Fin 1) u_MSH)) ;;
  Ok (qmk (nexp (nadd (qv l) (Fin (sigma * z)))) u_MSH).

(** ** Faculae *)
(** faculae.py:114-147, the quantities of a [Facula] *)
Record facq : Type := mkFacQ {
  fq_lat : qty; fq_lon : qty; fq_rmax : qty; fq_radius : qty; fq_depth : qty; fq_life : qty;
  fq_fslope : qty; fq_fminrad : qty; fq_fbase : qty; fq_wslope : qty; fq_wint : qty;
  fq_growing : bool }.
(** faculae.py:220-226: assignment to [radius] and [is_growing] *)
Definition fq_with (f : facq) (r : qty) (g : bool) : facq :=
  mkFacQ (fq_lat f) (fq_lon f) (fq_rmax f) r (fq_depth f) (fq_life f) (fq_fslope f)
         (fq_fminrad f) (fq_fbase f) (fq_wslope f) (fq_wint f) g.
(** faculae.py:150-158 [floor_dteff] *)
Definition fq_floor_dteff (f : facq) : res qty :=
  do d <- qsub (fq_radius f) (fq_fminrad f) ;;
  do t <- qadd (qmul d (fq_fslope f)) (fq_fbase f) ;;
  qto t u_K.
(** faculae.py:161-168 [wall_dteff] *)
Definition fq_wall_dteff (f : facq) : res qty :=
  do t <- qadd (qmul (fq_wslope f) (fq_radius f)) (fq_wint f) ;;
  qto t u_K.
(** faculae.py:200-226 [age] *)
Definition fq_age (f : facq) (time : qty) : res facq :=
  if fq_growing f then
    do l <- qlog (qdiv (fq_radius f) (fq_rmax f)) ;;
    let time_from_max := qmul (qmul (qmul (qnum (Fin (-1))) l) (fq_life f)) (qnum (Fin (1/2))) in
    do peaked <- qle time_from_max time ;;
    if peaked then
      do time' <- qsub time time_from_max ;;
      do e <- qexp (qdiv (qmul (qnum (Fin (-2))) time') (fq_life f)) ;;
      Ok (fq_with f (qmul (fq_rmax f) e) false)
    else
      do e <- qexp (qdiv (qmul (qnum (Fin 2)) time) (fq_life f)) ;;
      Ok (fq_with f (qmul (fq_radius f) e) true)
  else
    do e <- qexp (qdiv (qmul (qnum (Fin (-2))) time) (fq_life f)) ;;
    Ok (fq_with f (qmul (fq_radius f) e) false).
(** faculae.py:394 [clean_faclist], the test of one facula *)
Definition fq_dead (f : facq) : res bool :=
  do d <- qle (fq_radius f) (qdiv (fq_rmax f) (qnum (Fin (exp 1 ^ 2)))) ;;
  Ok (d && negb (fq_growing f)).
(** faculae.py:392-398 [clean_faclist] *)
Fixpoint fq_clean (l : list facq) : res (list facq) :=
  match l with
  | [] => Ok []
  | f :: t => do d <- fq_dead f ;; do r <- fq_clean t ;; Ok (if d then r else f :: r)
  end.
(** faculae.py:400-413 [FaculaCollection.age] *)
Definition fq_collection_age (l : list facq) (time : qty) : res (list facq) :=
  do l' <- mapM (fun f => fq_age f time) l ;; fq_clean l'.
(** faculae.py:228-262 [effective_area]; the keys, temperatures in K rounded to integers, as
    numbers *)
Definition fq_effective_area (f : facq) (angle : qty) : res (dict Z qty) :=
  do fl <- fq_floor_dteff f ;;
  do wa <- fq_wall_dteff f ;;
  if qeq fl wa then Raise ValueError
  else
    do shallow <- qlt (fq_radius f) (fq_fminrad f) ;;
    if shallow then
      do kw <- round_teff (qv wa) ;;
      do ca <- qcos angle ;;
      do kf <- round_teff (qv fl) ;;
      Ok (dset Z.eqb (dset Z.eqb [] kw (qmul (qmul (qnum (Fin PI)) (qsq (fq_radius f))) ca))
               kf (qmk (Fin 0) u_km2))
    else
      do dr <- qin (qdiv (fq_depth f) (fq_radius f)) u_one ;;
      do ta <- qtan angle ;;
      do tv <- qin ta u_one ;;
      do c <- circ_fraction (nmul dr tv) (Fin 0) (Fin 1) ;;
      let wall_frac := nsub (Fin 1) c in
      do ca <- qcos angle ;;
      let proj := qmul (qmul (qnum (Fin PI)) (qsq (fq_radius f))) ca in
      do kw <- round_teff (qv wa) ;;
      do kf <- round_teff (qv fl) ;;
      Ok (dset Z.eqb (dset Z.eqb [] kw (qmul (qnum wall_frac) proj))
               kf (qmul (qnum (nsub (Fin 1) wall_frac)) proj)).
(** faculae.py:280-283: [total = 0; total = total + area]; the plain 0 takes the unit of the
    first area *)
Fixpoint q_total (acc : qty) (l : list qty) : res qty :=
  match l with [] => Ok acc | a :: t => do s <- qadd acc a ;; q_total s t end.
(** faculae.py:264-288 [fractional_effective_area] *)
Definition fq_fractional_area (f : facq) (angle : qty) : res (dict Z num) :=
  do ea <- fq_effective_area f angle ;;
  match ea with
  | [] => Ok []
  | kv :: t =>
      do total <- q_total (mkQ (nadd (Fin 0) (qv (snd kv))) (qs (snd kv)) (qd (snd kv))) (map snd t) ;;
      mapM (fun kv => do x <- qin (qdiv (snd kv) total) u_one ;; Ok (fst kv, x)) ea
  end.
(** faculae.py:290-304 [angular_radius] *)
Definition fq_angular_radius (f : facq) (star_rad : qty) : qty :=
  qmul (qdiv (qmul (qdiv (fq_radius f) star_rad) (qnum (Fin 180))) (qnum (Fin PI))) (qmk (Fin 1) u_deg).
(** faculae.py:306-322 [map_pixels] at the grid point [(lat, lon)] *)
Definition fq_covers (f : facq) (star_rad lat lon : qty) : res bool :=
  do r <- q_haversine (fq_lat f) (fq_lon f) lat lon ;;
  qle r (fq_angular_radius f star_rad).
(** faculae.py:613-622 [mean_area] *)
Definition gfq_mean_area (r_peak : qty) : qty :=
  qmul (qnum (Fin (1/2 * PI * (1 - exp (-2))))) (qsq r_peak).
(** faculae.py:624-650 [get_n_faculae_expected] *)
Definition gfq_n_expected (coverage : num) (r_peak life_peak time rad_star : qty) : res num :=
  qin (qdiv (qmul (qdiv (qmul (qnum coverage) (qmul (qnum (Fin (4 * PI))) (qsq rad_star)))
                        (gfq_mean_area r_peak)) time)
            (qmul (qnum (Fin 2)) life_peak)) u_one.
(** faculae.py:700-704: maximum and starting radius and the lifetime of a new facula *)
Definition gfq_new (r_peak life_peak : qty) (rs ls mu : R) : qty * qty * qty :=
  let rmax := qmul r_peak (qnum (Fin (Rpower 10 (mu * rs)))) in
  (rmax, qdiv rmax (qnum (Fin (exp 1 ^ 2))), qmul life_peak (qnum (Fin (Rpower 10 (mu * ls))))).

(** ** Flares *)
(** flares.py:66-72, the quantities of a [StellarFlare] *)
Record flareq : Type := mkFlareQ { lq_fwhm : qty; lq_energy : qty; lq_teff : qty; lq_tpeak : qty }.
(** flares.py:84 [const.sigma_sb], 5.670374419e-8 kg s^-3 K^-4 *)
Definition q_sigma_sb : qty :=
  mkQ (Fin (5670374419 / 10^17)) (86400^3) (dmul (dmul DMass (dpow DTime (-3))) (dpow DTemp (-4))).
(** xoflares.py:11-50 [_flareintegralnp] on quantities *)
Definition q_flareintegral (fwhm ampl : qty) : qty :=
  let before := int_before 0 - int_before (-1) in
  let after := int_after 20 - int_after 0 in
  qmul (qmul (qnum (Fin (before + after))) ampl) fwhm.
(** flares.py:74-88 [calc_peak_area] *)
Definition lq_peak_area (f : flareq) : res qty :=
  let time_area := qdiv (qdiv (lq_energy f) q_sigma_sb) (qipow (lq_teff f) 4) in
  let area_std := qmk (Fin 1) u_km2 in
  let time_area_std := q_flareintegral (lq_fwhm f) area_std in
  qto (qmul (qdiv time_area time_area_std) area_std) u_km2.
(** flares.py:106-111: the numbers handed to [get_light_curvenp]: peak time, width, peak area *)
Definition lq_curve_args (f : flareq) : res (num * num * num) :=
  do a <- lq_peak_area f ;;
  do tp <- qin (lq_tpeak f) u_day ;;
  do fw <- qin (lq_fwhm f) u_day ;;
  do ar <- qin a u_km2 ;;
  Ok (tp, fw, ar).
(** flares.py:130-132: [np.trapz] of areas in km^2 over times in the unit of size [s], then
    [.to(hr km2)] *)
Definition q_timearea (areas : list num) (times : list num) (s : R) (d : dim) : res qty :=
  qto (mkQ (ntrapz times areas) s (dmul d DArea)) u_hrkm2.
(** flares.py:263-277 [frequency_greater_than] *)
Definition lgq_frequency (alpha beta : R) (energy : qty) : res qty :=
  do e <- qin energy u_erg ;;
  Ok (qdiv (qnum (nmul (Fin (Rpower 10 beta)) (npow e alpha))) (qmk (Fin 1) u_day)).
(** flares.py:279-296 [get_nexp_greater_than] *)
Definition lgq_nexp (alpha beta : R) (energy time : qty) : res num :=
  do f <- lgq_frequency alpha beta energy ;; qin (qmul f time) u_one.
(** flares.py:314-328 [pdf] *)
Definition lgq_pdf (alpha : R) (min_energy energy : qty) : res num :=
  qin (qdiv (qmul (qnum (Fin (- alpha))) (qpow energy (alpha - 1))) (qpow min_energy alpha)) u_one.
(** flares.py:330-344 [cdf] *)
Definition lgq_cdf (alpha : R) (min_energy energy : qty) : res num :=
  do x <- qin (qdiv energy min_energy) u_one ;; Ok (nsub (Fin 1) (npow x alpha)).
(** flares.py:366 [quantile_func] at one draw *)
Definition lgq_quantile (alpha : R) (min_energy : qty) (x : R) : qty :=
  qmul min_energy (qnum (npow (Fin (1 - x)) (1 / alpha))).
(** flares.py:419-427 [gen_fwhm], one draw *)
Definition lgq_fwhm (mean : qty) (sigma z : R) : res qty :=
  do m <- qin mean u_day ;; Ok (qmk (npow10 (nadd (nlog10 m) (Fin (sigma * z)))) u_day).
(** flares.py:444-448 [gen_teffs], one draw *)
Definition lgq_teff (mean sigma : qty) (z : R) : res qty :=
  do m <- qin mean u_K ;; do s <- qin sigma u_K ;;
  Ok (qmk (nadd m (nmul s (Fin z))) u_K).
(** flares.py:553-565 and 584-589 [index] and [mask], for one flare *)
Definition lq_in_period (f : flareq) (tstart tfinish : qty) : res bool :=
  do p <- qto (lq_tpeak f) u_hr ;;
  do w <- qto (lq_fwhm f) u_hr ;;
  do e <- qadd p (qmul (qnum (Fin 20)) w) ;;
  do after <- qgt e tstart ;;
  do b <- qsub p (qmul (qnum (Fin 10)) w) ;;
  do before <- qlt b tfinish ;;
  Ok (after && before).
(** flares.py:681-682: the number of samples of a window *)
Definition q_samples (tstart tfinish : qty) : res num :=
  do d <- qsub tfinish tstart ;; qin (qdiv d (qmk (Fin 10) u_min)) u_one.

(** ** Transits *)
(** star.py:428-437 (also 386-391): is the planet behind the star, its position and its
    radius in stellar radii *)
Definition q_planet (rad orbit planet phase incl : qty) : res (bool * (num * num * num)) :=
  do cp <- qcos phase ;;
  do behind <- qgt cp (qnum (Fin 0)) ;;
  do a <- qsub phase (qmk (Fin 180) u_deg) ;;
  do sa <- qsin a ;;
  do x <- qin (qmul (qdiv orbit rad) sa) u_one ;;
  do ca <- qcos a ;;
  do ci <- qcos incl ;;
  do y <- qin (qmul (qmul (qdiv orbit rad) ca) ci) u_one ;;
  do r <- qin (qdiv planet rad) u_one ;;
  Ok (behind, (x, y, r)).
