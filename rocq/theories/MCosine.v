(** The spherical law of cosines in double precision, and what depends on it: the angle of faculae, the projection of pixels, the
    report.  [rnd] rounds to double precision, [sn] and [cs] are numpy's sine and cosine; all three are arguments.  Angles are in
    radians, as after the conversion of units.  SIMPLIFICATION: other operations (arc cosine, tangent, areas of faculae, distances on
    the disk, sums) are exact. *)
From Coq Require Import Reals ZArith Bool List.
From Verif Require Import Num Py MConfig MHelpers MGrid MSpots MFaculae MFlares MGranules MStar.
Import ListNotations.
Open Scope R_scope.

(** helpers.py:100-102, 188-190, coordinate_grid.py:132-134: each sum and product is rounded, from left to right *)
Definition law_cos64 (rnd sn cs : R -> R) (lat1 lon1 lat2 lon2 : R) : R :=
  rnd (rnd (sn lat1 * sn lat2) + rnd (rnd (cs lat1 * cs lat2) * cs (rnd (lon1 - lon2)))).
(** helpers.py:49-103 [get_angle_between] *)
Definition get_angle_between64 (rnd sn cs : R -> R) (lat1 lon1 lat2 lon2 : R) : num :=
  nacos (Fin (law_cos64 rnd sn cs lat1 lon1 lat2 lon2)).
(** coordinate_grid.py:100-135 [cos_angle_from_disk_center], star.py:239-257 [get_mu] *)
Definition star_mu64 (rnd sn cs : R -> R) (s : star) (lat0 lon0 : R) : arr R :=
  amap (fun p => law_cos64 rnd sn cs lat0 lon0 (fst p) (snd p)) (grid_points (st_grid s)).
(** star.py:347-362, the loop body of [add_faculae_to_map], with the angle given *)
Definition paint_facula_at (s : star) (angle : num) (mu : arr R) (m : arr num) (f : facula)
  : res (arr num) :=
  let inside := fac_map_pixels f (st_radius s * RSUN_KM) in
  if negb (any_true inside) then Ok m
  else
    do fracs <- fac_fractional_area f angle ;;
    match fracs with
    | [(dwall, frac); (dfloor, _)] =>
        do z <- zip_same mu inside ;;
        let mu_fac := map fst (filter snd (cells z)) in
        do border <- quantile mu_fac frac ;;
        do wall <- amap2 andb inside (amap (fun x => Rleb x border) mu) ;;
        do floor <- amap2 andb inside (amap (fun x => Rltb border x) mu) ;;
        let teff_wall := clip_teff (nadd (Fin (IZR dwall)) (st_teff s)) in
        let teff_floor := clip_teff (nadd (Fin (IZR dfloor)) (st_teff s)) in
        do m1 <- mask_assign m wall teff_wall ;;
        mask_assign m1 floor teff_floor
    | _ => Raise ValueError
    end.
(** star.py:346-362, the loop *)
Fixpoint paint_faculae64 (rnd sn cs : R -> R) (s : star) (lat0 lon0 : R) (mu : arr R) (m : arr num) (l : list facula)
  : res (arr num) :=
  match l with
  | [] => Ok m
  | f :: t =>
      do m' <- paint_facula_at s (get_angle_between64 rnd sn cs lat0 lon0 (fc_lat f) (fc_lon f)) mu m f ;;
      paint_faculae64 rnd sn cs s lat0 lon0 mu m' t
  end.
(** star.py:323-363 [add_faculae_to_map] *)
Definition add_faculae_to_map64 (rnd sn cs : R -> R) (s : star) (lat0 lon0 : R) : res (arr num) :=
  do m <- star_map s ;;
  paint_faculae64 rnd sn cs s lat0 lon0 (star_mu64 rnd sn cs s lat0 lon0) m (fcc_facs (st_facs s)).
(** helpers.py:105-220 [proj_ortho] at one point, with the cosine of its distance ([mu], helpers.py:188-190) given *)
Definition proj_ortho_at (mu lat0 lon0 : R) (p : R * R) : num * num :=
  let (lat, lon) := p in
  let b := PI/2 - lat0 in
  let c := PI/2 - lat in
  let '(a, C) :=
    if Req_EM_T b 0 then
      (Fin c, if Rle_dec c (PI/2) then Fin (PI - lon) else NaN)
    else if Req_EM_T b PI then
      (Fin c, if Rle_dec (PI/2) c then Fin lon else NaN)
    else
      let a := nacos (Fin mu) in
      let nume := nsub (Fin (cos c)) (nmul (ncos a) (Fin (cos b))) in
      let den0 := nmul (nsin a) (Fin (sin b)) in
      let den := if neq den0 (Fin 0) then Fin (1/100000000000000000000) else den0 in
      let cosC := if Rlt_dec mu 1 then ndiv nume den else Fin 1 in
      let cosC := nround4 cosC in
      let C := if Req_EM_T lon lon0 then Fin 0 else nacos cosC in
      let C := if Req_EM_T lon lon0 then (if Rlt_dec lat lat0 then Fin PI else C) else C in
      let C := if Rle_dec 0 mu then C else NaN in
      let C := if Rlt_dec (sin (lon - lon0)) 0 then nneg C else C in
      (a, C) in
  (nmul (nsin C) (nsin a), nmul (ncos C) (nsin a)).
(** star.py:444-492, the value of [covered_value] at one pixel with area [ar] *)
Definition pixel_covered64 (rnd sn cs : R -> R) (lat0 lon0 : R) (x y rp : num) (p : R * R) (ar : num) : num :=
  let m := law_cos64 rnd sn cs lat0 lon0 (fst p) (snd p) in
  let (xc, yc) := proj_ortho_at m lat0 lon0 p in
  let mu := Fin m in
  let pr := nmul (Fin 2) (nsqrt ar) in
  let projr := nmul pr mu in
  let rad := nsqrt (nadd (nsq (nsub xc x)) (nsq (nsub yc y))) in
  if ngt rad (nadd rp (nmul (Fin 2) projr)) || nisnan rad then Fin 0
  else
    let sx := nmul pr mu in
    let sy := pr in
    if ngt rp (nadd rad (nmul (Fin 2) sx)) then Fin 1
    else gauss_overlap sx sy rad rp.
(** star.py:394-495 [get_transit_mask] *)
Definition get_transit_mask64 (rnd sn cs : R -> R) (s : star) (lat0 lon0 orbit planet phase incl : R)
  : res (arr num * num) :=
  let eclipse := Rltb 0 (cos phase) in
  let a := phase - PI in
  let (x, y) := planet_xy s orbit a incl in
  let rp := ndiv (Fin planet) (Fin (st_radius s)) in
  if ngt (nsqrt (nadd (nsq x) (nsq y))) (nadd (Fin 1) (nmul (Fin 2) rp)) then
    Ok (grid_zeros (st_grid s), Fin 1)
  else if eclipse then
    do f <- get_pl_frac s a orbit planet incl ;;
    Ok (grid_zeros (st_grid s), f)
  else
    do area <- grid_area (st_grid s) ;;
    do cov <- amap2 (pixel_covered64 rnd sn cs lat0 lon0 x y rp) (grid_points (st_grid s)) area ;;
    if existsb nisnan (cells cov) then Raise ValueError
    else Ok (cov, Fin 1).
(** star.py:497-573 [calc_coverage] *)
Definition calc_coverage64 (rnd sn cs : R -> R) (s : star) (lat0 lon0 : R) (g : num) (orbit planet phase incl : R)
  : res (dict tkey num * dict tkey num * num) :=
  let cos_c := star_mu64 rnd sn cs s lat0 lon0 in
  let ld := amap (ld_plot s) cos_c in
  do jac <- star_jacobian s ;;
  do proj <- amap2 nmul jac (amap (fun m => Fin (area_projection m)) cos_c) ;;
  do smap <- add_faculae_to_map64 rnd sn cs s lat0 lon0 ;;
  do tm <- get_transit_mask64 rnd sn cs s lat0 lon0 orbit planet phase incl ;;
  let '(covered, pl_frac) := tm in
  let teffs := nunique (cells smap) in
  do lp <- amap2 nmul (amap Fin ld) proj ;;
  let total := nsum (cells lp) in
  do tc <- coverage_loop smap ld proj covered total ([], []) teffs ;;
  let '(tot, cov) := tc in
  let gteff := nsub (st_teff s) (gr_dteff (st_gran s)) in
  let new := negb (existsb (fun t => neq gteff t) teffs) in
  let tot := if new then dset tkey_eqb tot (fmt2 gteff) (Fin 0) else tot in
  let cov := if new then dset tkey_eqb cov (fmt2 gteff) (Fin 0) else cov in
  do tot <- granulate tot (fmt2 (st_teff s)) (fmt2 gteff) g ;;
  do cov <- granulate cov (fmt2 (st_teff s)) (fmt2 gteff) g ;;
  Ok (tot, cov, pl_frac).
