(** Model of the warnings issued by /repo/vspec_vsm (calls of [warnings.warn]); each function
    lists, in order, the warnings issued by a call that returns.
    SIMPLIFICATION: the texts are reduced to the values they report; Python's filters (which
    may print a repeated warning only once) are not modelled. *)
From Coq Require Import Reals ZArith Bool List.
From Verif Require Import Num Py MConfig MHelpers MGrid MSpots MFaculae MXoflares MFlares MStar.
Import ListNotations.
Open Scope R_scope.

(** the calls of [warnings.warn] *)
Inductive warning : Type :=
| WClipDeprecated            (* helpers.py:303, DeprecationWarning *)
| WTooHigh (t : num)         (* helpers.py:306-307, RuntimeWarning *)
| WTooLow (t : num)          (* helpers.py:310-311, RuntimeWarning *)
| WResolution (factor : num) (* star.py:469-472, InsufficientResolutionWarning *)
| WGridKinds                 (* coordinate_grid.py:456-457, UserWarning *)
| WSetGridDeprecated         (* faculae.py:197-198, DeprecationWarning *)
| WIndexMapDeprecated        (* faculae.py:438-439, DeprecationWarning *)
| WTexp.                     (* xoflares.py:132, UserWarning *)

(** helpers.py:301-314 [clip_teff] *)
Definition clip_warnings (teff : num) : list warning :=
  WClipDeprecated ::
  (if ngt teff (Fin TEFF_HI) then [WTooHigh teff]
   else if nlt teff (Fin TEFF_LO) then [WTooLow teff] else []).
(** coordinate_grid.py:451-460 [SpiralGrid.__eq__] *)
Definition grid_eq_warnings (self : grid) (other : option grid) : list warning :=
  match self, other with Spiral _, Some (Rect _ _) => [WGridKinds] | _, _ => [] end.
(** faculae.py:370-385 [FaculaCollection.add_faculae]: one comparison per new facula *)
Definition fcc_add_warnings (c : faccoll) (new : list facula) : list warning :=
  flat_map (fun f => grid_eq_warnings (fc_grid f) (Some (fcc_grid c))) new.
(** star.py:144-165 [Star.__init__]: one comparison per generator that was passed *)
Definition star_init_warnings (g : grid) (spg : option spotgen) (fcg : option facgen) : list warning :=
  (match spg with Some x => grid_eq_warnings (sg_grid x) (Some g) | None => [] end)
  ++ (match fcg with Some x => grid_eq_warnings (fg_grid x) (Some g) | None => [] end).
(** xoflares.py:130-132 [get_light_curvenp] *)
Definition light_curve_warnings (texp : option R) : list warning :=
  match texp with Some _ => [WTexp] | None => [] end.

(** star.py:347-362, one facula of [add_faculae_to_map]: both temperatures are clipped *)
Definition paint_warnings (s : star) (lat0 lon0 : R) (f : facula) : res (list warning) :=
  let angle := get_angle_between lat0 lon0 (fc_lat f) (fc_lon f) in
  let inside := fac_map_pixels f (st_radius s * RSUN_KM) in
  if negb (any_true inside) then Ok []
  else
    do fracs <- fac_fractional_area f angle ;;
    match fracs with
    | [(dwall, _); (dfloor, _)] =>
        Ok (clip_warnings (nadd (Fin (IZR dwall)) (st_teff s))
            ++ clip_warnings (nadd (Fin (IZR dfloor)) (st_teff s)))
    | _ => Raise ValueError
    end.
(** star.py:323-363 [add_faculae_to_map] *)
Definition faculae_warnings (s : star) (lat0 lon0 : R) : res (list warning) :=
  do l <- mapM (paint_warnings s lat0 lon0) (fcc_facs (st_facs s)) ;;
  Ok (concat l).

(** star.py:444-455, 460-461: the projected radius of a pixel that the planet may reach *)
Definition pixel_reached (lat0 lon0 : R) (x y rp : num) (p : R * R) (ar : num) : option num :=
  let (xc, yc) := proj_ortho lat0 lon0 p in
  let mu := Fin (law_cos lat0 lon0 (fst p) (snd p)) in
  let projr := nmul (nmul (Fin 2) (nsqrt ar)) mu in
  let rad := nsqrt (nadd (nsq (nsub xc x)) (nsq (nsub yc y))) in
  if ngt rad (nadd rp (nmul (Fin 2) projr)) || nisnan rad then None else Some projr.
(** star.py:461: [proj_radii[~case1]] *)
Fixpoint somes {A} (l : list (option A)) : list A :=
  match l with [] => [] | Some x :: t => x :: somes t | None :: t => somes t end.
(** star.py:459-472: the warning, from the projected radii of the pixels in reach *)
Definition resolution_warnings (radii : list num) (rp : num) : list warning :=
  match radii with
  | [] => []
  | _ =>
      let rad_mean := ndiv (nsum radii) (Fin (INR (length radii))) in
      if ngt rad_mean (nmul (Fin (1/2)) rp) then
        let area_mean := nmul (Fin PI) (nsq rad_mean) in
        let area_pl := nmul (Fin PI) (nsq rp) in
        let target_area := ndiv area_pl (Fin 4) in
        [WResolution (ndiv area_mean target_area)]
      else []
  end.
(** star.py:394-495 [get_transit_mask] *)
Definition transit_warnings (s : star) (lat0 lon0 orbit planet phase incl : R) : res (list warning) :=
  let eclipse := Rltb 0 (cos phase) in
  let a := phase - PI in
  let (x, y) := planet_xy s orbit a incl in
  let rp := ndiv (Fin planet) (Fin (st_radius s)) in
  if ngt (nsqrt (nadd (nsq x) (nsq y))) (nadd (Fin 1) (nmul (Fin 2) rp)) then Ok []
  else if eclipse then do _ <- get_pl_frac s a orbit planet incl ;; Ok []
  else
    do area <- grid_area (st_grid s) ;;
    do radii <- amap2 (pixel_reached lat0 lon0 x y rp) (grid_points (st_grid s)) area ;;
    Ok (resolution_warnings (somes (cells radii)) rp).
(** star.py:497-573 [calc_coverage]: first the map (star.py:537-540), then the transit *)
Definition coverage_warnings (s : star) (lat0 lon0 orbit planet phase incl : R) : res (list warning) :=
  do w <- faculae_warnings s lat0 lon0 ;;
  do w' <- transit_warnings s lat0 lon0 orbit planet phase incl ;;
  Ok (w ++ w').
(** star.py:601-625 [average_teff]: the default arguments of [calc_coverage] *)
Definition default_coverage_warnings (s : star) (lat0 lon0 : R) : res (list warning) :=
  coverage_warnings s lat0 lon0 AU_RSUN REARTH_RSUN (PI/2) 0.
