(** Single precision.  The maps made by [gridmaker.zeros()] are float32 (coordinate_grid.py:155-174,
    305-320, 441-442).  With numpy 1.26 (pyproject.toml) an operation between a float32 array and a
    float64 scalar is done in float32: the scalar is rounded first (astropy passes such operations
    on to numpy, and rounds values assigned to the elements of a float32 quantity).  This file models the
    computations on temperature maps with this rounding; everything else (angles, areas, sums) stays
    exact, as in MSpots and MStar. *)
From Coq Require Import Reals ZArith Bool String List.
From Verif Require Import Num Py MConfig MHelpers MGrid MSpots MFaculae MXoflares MFlares MGranules MStar.
Import ListNotations.
Open Scope R_scope.

(** coordinate_grid.py:155, [dtype='float32']: the exponent of the last binary digit of a float32
    near [x] *)
Definition f32_exp (x : R) : Z := Z.max (Int_part (ln (Rabs x) / ln 2) - 23) (-149).
(** coordinate_grid.py:155: the multiple of 2^exponent next to [x], ties to even *)
Definition f32_round (x : R) : R :=
  if Req_EM_T x 0 then 0 else IZR (rhe (x / powerRZ 2 (f32_exp x))) * powerRZ 2 (f32_exp x).
(** coordinate_grid.py:155: the float32 of a number; from 2^128 on it is infinite *)
Definition f32 (x : num) : num :=
  match x with
  | Fin r => let y := f32_round r in
      if Rleb (powerRZ 2 128) y then PInf else if Rleb y (- powerRZ 2 128) then NInf else Fin y
  | y => y
  end.

(** spots.py:439-449: comparing the map with the temperatures of the spot and storing them *)
Definition paint_spot32 (star_rad : R) (m : arr num) (s : spot) : res (arr num) :=
  let d := spot_map_pixels s star_rad in
  do dpen <- dindex teff_key_eqb d (sp_teff_pen s) ;;
  do penumbra <- amap2 andb dpen (amap (fun t => ngt t (f32 (sp_teff_pen s))) m) ;;
  do dumb <- dindex teff_key_eqb d (sp_teff_umbra s) ;;
  do umbra <- amap2 andb dumb (amap (fun t => ngt t (f32 (sp_teff_umbra s))) m) ;;
  do inner <- awhere penumbra (f32 (sp_teff_pen s)) m ;;
  awhere umbra (f32 (sp_teff_umbra s)) inner.
(** spots.py:440-450, the loop *)
Fixpoint paint_spots32 (star_rad : R) (m : arr num) (l : list spot) : res (arr num) :=
  match l with
  | [] => Ok m
  | s :: t => do m' <- paint_spot32 star_rad m s ;; paint_spots32 star_rad m' t
  end.
(** spots.py:417-450 [SpotCollection.map_pixels]; the sum with the zero map is a float32 *)
Definition sc_map_pixels32 (c : spotcoll) (star_rad : R) (star_teff : num) : res (arr num) :=
  paint_spots32 star_rad (amap (fun z => f32 (nadd z (f32 star_teff))) (grid_zeros (sc_grid c))) (sc_spots c).
(** spots.py:468-489 [get_coverage] *)
Definition sc_get_coverage32 (c : spotcoll) (r_star : R) : res num :=
  do area <- grid_area (sc_grid c) ;;
  do tmap <- sc_map_pixels32 c r_star PInf ;;
  let is_spot := amap (fun t => negb (neq t (f32 PInf))) tmap in
  do prod <- amap2 (fun a (b : bool) => nmul a (Fin (if b then 1 else 0))) area is_spot ;;
  Ok (ndiv (nsum (cells prod)) (nsum (cells area))).

(** star.py:347-362, the loop body of [add_faculae_to_map]: the temperatures are computed in double
    precision and rounded when they are stored *)
Definition paint_facula32 (s : star) (lat0 lon0 : R) (mu : arr R) (m : arr num) (f : facula)
  : res (arr num) :=
  let angle := get_angle_between lat0 lon0 (fc_lat f) (fc_lon f) in
  let inside := fac_map_pixels f (st_radius s * RSUN_KM) in
  if negb (any_true inside) then Ok m
  else
    do fracs <- fac_fractional_area f angle ;;
    match fracs with
    | [(dwall, frac); (dfloor, _)] =>
        do z <- zip_same mu inside ;;
        let mu_fac := map fst (filter snd (cells z)) in
        do border <- quantile mu_fac frac ;;
        do wall <- amap2 andb inside (amap (fun x => Rleb x border) mu) ;;
        do floor <- amap2 andb inside (amap (fun x => Rltb border x) mu) ;;
        let teff_wall := clip_teff (nadd (Fin (IZR dwall)) (st_teff s)) in
        let teff_floor := clip_teff (nadd (Fin (IZR dfloor)) (st_teff s)) in
        do m1 <- mask_assign m wall (f32 teff_wall) ;;
        mask_assign m1 floor (f32 teff_floor)
    | _ => Raise ValueError
    end.
(** star.py:346-362, the loop *)
Fixpoint paint_faculae32 (s : star) (lat0 lon0 : R) (mu : arr R) (m : arr num) (l : list facula)
  : res (arr num) :=
  match l with
  | [] => Ok m
  | f :: t =>
      do m' <- paint_facula32 s lat0 lon0 mu m f ;; paint_faculae32 s lat0 lon0 mu m' t
  end.
(** star.py:323-363 [add_faculae_to_map], with star.py:189-199 [Star.map] *)
Definition add_faculae_to_map32 (s : star) (lat0 lon0 : R) : res (arr num) :=
  do m <- sc_map_pixels32 (st_spots s) (st_radius s) (st_teff s) ;;
  paint_faculae32 s lat0 lon0 (star_mu s lat0 lon0) m (fcc_facs (st_facs s)).

(** star.py:497-573 [calc_coverage]: the temperatures of the loop are float32, those of the star and
    of its granulation are doubles (star.py:560-571), except in the test [not in teffs]
    (star.py:562), which rounds them *)
Definition calc_coverage32 (s : star) (lat0 lon0 : R) (g : num) (orbit planet phase incl : R)
  : res (dict tkey num * dict tkey num * num) :=
  let cos_c := star_mu s lat0 lon0 in
  let ld := amap (ld_plot s) cos_c in
  do jac <- star_jacobian s ;;
  do proj <- amap2 nmul jac (amap (fun m => Fin (area_projection m)) cos_c) ;;
  do smap <- add_faculae_to_map32 s lat0 lon0 ;;
  do tm <- get_transit_mask s lat0 lon0 orbit planet phase incl ;;
  let '(covered, pl_frac) := tm in
  let teffs := nunique (cells smap) in
  do lp <- amap2 nmul (amap Fin ld) proj ;;
  let total := nsum (cells lp) in
  do tc <- coverage_loop smap ld proj covered total ([], []) teffs ;;
  let '(tot, cov) := tc in
  let gteff := nsub (st_teff s) (gr_dteff (st_gran s)) in
  let new := negb (existsb (fun t => neq (f32 gteff) t) teffs) in
  let tot := if new then dset tkey_eqb tot (fmt2 gteff) (Fin 0) else tot in
  let cov := if new then dset tkey_eqb cov (fmt2 gteff) (Fin 0) else cov in
  do tot <- granulate tot (fmt2 (st_teff s)) (fmt2 gteff) g ;;
  do cov <- granulate cov (fmt2 (st_teff s)) (fmt2 gteff) g ;;
  Ok (tot, cov, pl_frac).
