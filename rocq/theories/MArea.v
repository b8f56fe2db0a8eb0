(** The areas of the pixels in single precision.  [SpiralGrid.area] is [zeros() + 1/n_points], a float32 array
    (coordinate_grid.py:441-449); [RectangularGrid.area] is an array of doubles, which stays exact here.  The rounding of
    the temperature maps is that of MSingle.  What is computed from float32 and float64 arrays together is a float64
    array, which stays exact; see MDouble for its rounding. *)
From Coq Require Import Reals ZArith Bool String List.
From Verif Require Import Num Py MConfig MHelpers MGrid MSpots MFaculae MXoflares MFlares MGranules MStar MSingle MDouble.
Import ListNotations.
Open Scope R_scope.

(** coordinate_grid.py:137-153 [area]; :444-449 [SpiralGrid._area]: the quotient is a double, and rounded to a float32 before
    it is added to the float32 array *)
Definition grid_area32 (g : grid) : res (arr num) :=
  match g with
  | Rect _ _ => grid_area g
  | Spiral 0 => Raise ZeroDivisionError
  | Spiral n => Ok (amap (fun z => f32 (nadd z (f32 (f64 (Fin (1 / INR n)))))) (grid_zeros g))
  end.
(** star.py:448 [point_radii = 2*np.sqrt(area)]: float32 operations if the area is float32 *)
Definition point_radius32 (g : grid) (ar : num) : num :=
  match g with
  | Rect _ _ => nmul (Fin 2) (nsqrt ar)
  | Spiral _ => f32 (nmul (Fin 2) (f32 (nsqrt ar)))
  end.
(** star.py:444-492, the value of [covered_value] at one pixel with radius [pr] (star.py:448), as
    [MStar.pixel_covered] *)
Definition pixel_covered_radius (lat0 lon0 : R) (x y rp : num) (p : R * R) (pr : num) : num :=
  let (xc, yc) := proj_ortho lat0 lon0 p in
  let mu := Fin (law_cos lat0 lon0 (fst p) (snd p)) in
  let projr := nmul pr mu in
  let rad := nsqrt (nadd (nsq (nsub xc x)) (nsq (nsub yc y))) in
  if ngt rad (nadd rp (nmul (Fin 2) projr)) || nisnan rad then Fin 0
  else
    let sx := nmul pr mu in
    let sy := pr in
    if ngt rp (nadd rad (nmul (Fin 2) sx)) then Fin 1
    else gauss_overlap sx sy rad rp.
(** star.py:394-495 [get_transit_mask] *)
Definition get_transit_mask32 (s : star) (lat0 lon0 orbit planet phase incl : R)
  : res (arr num * num) :=
  let eclipse := Rltb 0 (cos phase) in
  let a := phase - PI in
  let (x, y) := planet_xy s orbit a incl in
  let rp := ndiv (Fin planet) (Fin (st_radius s)) in
  if ngt (nsqrt (nadd (nsq x) (nsq y))) (nadd (Fin 1) (nmul (Fin 2) rp)) then
    Ok (grid_zeros (st_grid s), Fin 1)
  else if eclipse then
    do f <- get_pl_frac s a orbit planet incl ;;
    Ok (grid_zeros (st_grid s), f)
  else
    do area <- grid_area32 (st_grid s) ;;
    do cov <- amap2 (pixel_covered_radius lat0 lon0 x y rp) (grid_points (st_grid s)) (amap (point_radius32 (st_grid s)) area) ;;
    if existsb nisnan (cells cov) then Raise ValueError
    else Ok (cov, Fin 1).
(** star.py:497-573 [calc_coverage], with the areas (star.py:312-321, 537) and the map (star.py:540) in single precision *)
Definition calc_coverage_areas32 (s : star) (lat0 lon0 : R) (g : num) (orbit planet phase incl : R)
  : res (dict tkey num * dict tkey num * num) :=
  let cos_c := star_mu s lat0 lon0 in
  let ld := amap (ld_plot s) cos_c in
  do jac <- grid_area32 (st_grid s) ;;
  do proj <- amap2 nmul jac (amap (fun m => Fin (area_projection m)) cos_c) ;;
  do smap <- add_faculae_to_map32 s lat0 lon0 ;;
  do tm <- get_transit_mask32 s lat0 lon0 orbit planet phase incl ;;
  let '(covered, pl_frac) := tm in
  let teffs := nunique (cells smap) in
  do lp <- amap2 nmul (amap Fin ld) proj ;;
  let total := nsum (cells lp) in
  do tc <- coverage_loop smap ld proj covered total ([], []) teffs ;;
  let '(tot, cov) := tc in
  let gteff := nsub (st_teff s) (gr_dteff (st_gran s)) in
  let new := negb (existsb (fun t => neq (f32 gteff) t) teffs) in
  let tot := if new then dset tkey_eqb tot (fmt2 gteff) (Fin 0) else tot in
  let cov := if new then dset tkey_eqb cov (fmt2 gteff) (Fin 0) else cov in
  do tot <- granulate tot (fmt2 (st_teff s)) (fmt2 gteff) g ;;
  do cov <- granulate cov (fmt2 (st_teff s)) (fmt2 gteff) g ;;
  Ok (tot, cov, pl_frac).

(** numpy (spots.py:489): a sum of two float32 numbers *)
Definition add32 (a b : num) : num := f32 (nadd a b).
(** numpy (spots.py:489): the sum of the elements in a certain order, rounding after each addition *)
Fixpoint sum_tree32 (o : sumtree) (l : list num) : num :=
  match o with
  | SLeaf i => nth i l NaN
  | SNode a b => add32 (sum_tree32 a l) (sum_tree32 b l)
  end.
(** numpy (spots.py:489): [np.sum] of a float32 array; [ord] gives the order for each length *)
Definition sum32 (ord : nat -> sumtree) (l : list num) : num :=
  match l with [] => Fin 0 | _ => sum_tree32 (ord (length l)) l end.
(** spots.py:468-489 [get_coverage]: on a spiral grid areas, products, sums and the quotient are float32 *)
Definition sc_get_coverage_areas32 (ord : nat -> sumtree) (c : spotcoll) (r_star : R) : res num :=
  do area <- grid_area32 (sc_grid c) ;;
  do tmap <- sc_map_pixels32 c r_star PInf ;;
  let is_spot := amap (fun t => negb (neq t (f32 PInf))) tmap in
  do prod <- amap2 (fun a (b : bool) => nmul a (Fin (if b then 1 else 0))) area is_spot ;;
  match sc_grid c with
  | Rect _ _ => Ok (ndiv (nsum (cells prod)) (nsum (cells area)))
  | Spiral _ => Ok (f32 (ndiv (sum32 ord (cells prod)) (sum32 ord (cells area))))
  end.
