(** Model of /repo/vspec_vsm/faculae.py
    Units: angles rad, lengths km, times in any one unit, temperatures K. *)
From Coq Require Import Reals ZArith Bool List.
From Verif Require Import Num Py MConfig MHelpers MGrid MSpots.
Import ListNotations.
Open Scope R_scope.

(** faculae.py:114-147, the attributes of a [Facula] *)
Record facula : Type := mkFacula {
  fc_lat : R; fc_lon : R;
  fc_rmax : num; fc_radius : num; fc_depth : num; fc_life : num;
  fc_fslope : num; fc_fminrad : num; fc_fbase : num;
  fc_wslope : num; fc_wint : num;
  fc_growing : bool;
  fc_grid : grid
}.

(** faculae.py:220-226, attribute assignments to [radius] and [is_growing] *)
Definition fac_with (f : facula) (r : num) (g : bool) : facula :=
  {| fc_lat := fc_lat f; fc_lon := fc_lon f; fc_rmax := fc_rmax f; fc_radius := r;
     fc_depth := fc_depth f; fc_life := fc_life f;
     fc_fslope := fc_fslope f; fc_fminrad := fc_fminrad f; fc_fbase := fc_fbase f;
     fc_wslope := fc_wslope f; fc_wint := fc_wint f;
     fc_growing := g; fc_grid := fc_grid f |}.
(** [fac.gridmaker = g] (also faculae.py:183-198 [set_gridmaker]) *)
Definition fac_assign_grid (f : facula) (g : grid) : facula :=
  {| fc_lat := fc_lat f; fc_lon := fc_lon f; fc_rmax := fc_rmax f; fc_radius := fc_radius f;
     fc_depth := fc_depth f; fc_life := fc_life f;
     fc_fslope := fc_fslope f; fc_fminrad := fc_fminrad f; fc_fbase := fc_fbase f;
     fc_wslope := fc_wslope f; fc_wint := fc_wint f;
     fc_growing := fc_growing f; fc_grid := g |}.

(** faculae.py:150-158 [floor_dteff] *)
Definition fac_floor_dteff (f : facula) : num :=
  nadd (nmul (nsub (fc_radius f) (fc_fminrad f)) (fc_fslope f)) (fc_fbase f).
(** faculae.py:161-168 [wall_dteff] *)
Definition fac_wall_dteff (f : facula) : num :=
  nadd (nmul (fc_wslope f) (fc_radius f)) (fc_wint f).

(** faculae.py:171-181 [_r] : recomputed from the current grid *)
Definition fac_r (f : facula) : arr num :=
  amap (haversine (fc_lat f) (fc_lon f)) (grid_points (fc_grid f)).

(** faculae.py:200-226 [Facula.age] *)
Definition fac_age (f : facula) (time : num) : facula :=
  if fc_growing f then
    let time_from_max :=
      nmul (nmul (nmul (Fin (-1)) (nln (ndiv (fc_radius f) (fc_rmax f)))) (fc_life f)) (Fin (1/2)) in
    if nle time_from_max time then
      let time' := nsub time time_from_max in
      fac_with f (nmul (fc_rmax f) (nexp (ndiv (nmul (Fin (-2)) time') (fc_life f)))) false
    else
      fac_with f (nmul (fc_radius f) (nexp (ndiv (nmul (Fin 2) time) (fc_life f)))) true
  else
    fac_with f (nmul (fc_radius f) (nexp (ndiv (nmul (Fin (-2)) time) (fc_life f)))) false.

(** faculae.py:228-262 [effective_area]; keys are the rounded temperature differences,
    values km^2.  [angle] in radians *)
Definition fac_effective_area (f : facula) (angle : num) : res (dict Z num) :=
  if neq (fac_floor_dteff f) (fac_wall_dteff f) then Raise ValueError
  else
    do kw <- round_teff (fac_wall_dteff f) ;;
    if nlt (fc_radius f) (fc_fminrad f) then
      do kf <- round_teff (fac_floor_dteff f) ;;
      let d := dset Z.eqb [] kw (nmul (nmul (Fin PI) (nsq (fc_radius f))) (ncos angle)) in
      Ok (dset Z.eqb d kf (Fin 0))
    else
      let depth_over_radius := ndiv (fc_depth f) (fc_radius f) in
      do c <- circ_fraction (nmul depth_over_radius (ntan angle)) (Fin 0) (Fin 1) ;;
      let wall_frac := nsub (Fin 1) c in
      let proj_area := nmul (nmul (Fin PI) (nsq (fc_radius f))) (ncos angle) in
      do kf <- round_teff (fac_floor_dteff f) ;;
      let d := dset Z.eqb [] kw (nmul wall_frac proj_area) in
      Ok (dset Z.eqb d kf (nmul (nsub (Fin 1) wall_frac) proj_area)).

(** faculae.py:264-288 [fractional_effective_area] *)
Definition fac_fractional_area (f : facula) (angle : num) : res (dict Z num) :=
  do ea <- fac_effective_area f angle ;;
  let total := fold_left (fun t kv => nadd t (snd kv)) ea (Fin 0) in
  Ok (map (fun kv => (fst kv, ndiv (snd kv) total)) ea).

(** faculae.py:290-304 [angular_radius], degrees; [star_rad_km] in km *)
Definition fac_angular_radius (f : facula) (star_rad_km : R) : num :=
  ndiv (nmul (ndiv (fc_radius f) (Fin star_rad_km)) (Fin 180)) (Fin PI).

(** faculae.py:306-322 [map_pixels]; the comparison converts degrees to radians *)
Definition fac_map_pixels (f : facula) (star_rad_km : R) : arr bool :=
  let rad := nmul (fac_angular_radius f star_rad_km) (Fin (PI/180)) in
  amap (fun r => nle r rad) (fac_r f).

(** faculae.py:325-447 [FaculaCollection] *)
Record faccoll : Type := mkFacColl { fcc_facs : list facula; fcc_grid : grid }.
(** faculae.py:356-368 *)
Definition fcc_set_gridmaker (c : faccoll) (g : grid) : faccoll :=
  mkFacColl (map (fun f => fac_assign_grid f g) (fcc_facs c)) g.
(** faculae.py:348-355 *)
Definition fcc_init (l : list facula) (g : grid) : faccoll :=
  fcc_set_gridmaker (mkFacColl l g) g.
(** faculae.py:370-385 [add_faculae]: the comparison uses [__eq__] of the new facula's
    grid and may raise.  SIMPLIFICATION: when it raises, faculae already visited keep
    their new grid in Python; here the failed call returns no state. *)
Definition fcc_add (c : faccoll) (new : list facula) : res faccoll :=
  do l <- mapM (fun f =>
      do same <- grid_eq (fc_grid f) (Some (fcc_grid c)) ;;
      Ok (if same then f else fac_assign_grid f (fcc_grid c))) new ;;
  Ok (mkFacColl (fcc_facs c ++ l) (fcc_grid c)).
(** faculae.py:387-398 [clean_faclist] *)
Definition fac_dead (f : facula) : bool :=
  nle (fc_radius f) (ndiv (fc_rmax f) (Fin (exp 1 ^ 2))) && negb (fc_growing f).
(** faculae.py:387-398 [clean_faclist] *)
Definition fcc_clean (c : faccoll) : faccoll :=
  mkFacColl (filter (fun f => negb (fac_dead f)) (fcc_facs c)) (fcc_grid c).
(** faculae.py:400-413 [age] *)
Definition fcc_age (c : faccoll) (time : num) : faccoll :=
  fcc_clean (mkFacColl (map (fun f => fac_age f time) (fcc_facs c)) (fcc_grid c)).

(** faculae.py:440, [zeros(dtype='int16')]: storing an integer keeps 16 bits, two's complement *)
Definition int16 (z : Z) : Z := ((z + 32768) mod 65536 - 32768)%Z.
(** faculae.py:415-447 [FaculaCollection.map_pixels] (deprecated): integer map of the
    last facula covering each photosphere pixel, and the index dictionary *)
Fixpoint fcc_int_map (i : Z) (l : list facula) (pixmap : arr num) (star_rad_km : R)
  (star_teff : num) (m : arr Z) : res (arr Z) :=
  match l with
  | [] => Ok m
  | f :: t =>
      do sel <- amap2 andb (fac_map_pixels f star_rad_km)
                  (amap (fun x => neq x star_teff) pixmap) ;;
      do z <- zip_same m sel ;;
      fcc_int_map (i + 1) t pixmap star_rad_km star_teff
        (amap (fun p : Z * bool => if snd p then int16 (i + 1) else fst p) z)
  end.
(** faculae.py:415-447, the whole method *)
Definition fcc_map_pixels (c : faccoll) (pixmap : arr num) (star_rad_km : R) (star_teff : num)
  : res (arr Z * dict nat nat) :=
  do m <- fcc_int_map 0 (fcc_facs c) pixmap star_rad_km star_teff
            (amap (fun _ => 0%Z) (grid_zeros (fcc_grid c))) ;;
  Ok (m, map (fun i => (i, S i)) (seq 0 (length (fcc_facs c)))).

(** ** FaculaGenerator (faculae.py:450-749) *)
Record facgen : Type := mkFacGen {
  fg_rpeak : num; fg_rlogsigma : R; fg_depth : num;
  fg_lifepeak : num; fg_lifelogsigma : R;
  fg_fslope : num; fg_fminrad : num; fg_fbase : num;
  fg_wslope : num; fg_wint : num;
  fg_coverage : num;
  fg_grid : grid
}.
(** faculae.py:530-573 [FaculaGenerator.__init__]: coverage must be a number, the
    distribution must be 'iso' *)
Definition fg_init (coverage_is_number : bool) (dist : distribution) (g : facgen) : res facgen :=
  if negb coverage_is_number then Raise TypeError
  else match dist with
       | Solar => Raise NotImplementedError
       | UnknownDist => Raise ValueError
       | Iso => Ok g
       end.
(** faculae.py:575-609 [off]; lifetimes in hours *)
Definition fg_off (g : grid) : facgen :=
  {| fg_rpeak := Fin 100; fg_rlogsigma := 1/10; fg_depth := Fin 10;
     fg_lifepeak := Fin 6; fg_lifelogsigma := 2/10;
     fg_fslope := Fin 0; fg_fminrad := Fin 20; fg_fbase := Fin (-100);
     fg_wslope := Fin 0; fg_wint := Fin 100; fg_coverage := Fin 0; fg_grid := g |}.

(** faculae.py:613-622 [mean_area] *)
Definition fg_mean_area (g : facgen) : num :=
  nmul (Fin (1/2 * PI * (1 - exp (-2)))) (nsq (fg_rpeak g)).

(** faculae.py:624-650 [get_n_faculae_expected]; [rad_star] in km *)
Definition fg_n_expected (g : facgen) (time : num) (rad_star_km : R) : num :=
  ndiv (nmul (ndiv (nmul (fg_coverage g) (Fin (4 * PI * rad_star_km^2))) (fg_mean_area g)) time)
       (nmul (Fin 2) (fg_lifepeak g)).

(** faculae.py:652-685 [get_coords] and 687-726 [generate_faculae]; draws indexed by facula *)
Record fdraws : Type := mkFDraws { fd_z : nat -> R; fd_x : nat -> R; fd_ulon : nat -> R }.
(** faculae.py:687-726 [generate_faculae] (coordinates from faculae.py:652-679) *)
Definition fg_generate (g : facgen) (n : nat) (d : fdraws) : list facula :=
  map (fun i =>
    let rmax := nmul (fg_rpeak g) (Fin (Rpower 10 (fd_z d i * fg_rlogsigma g))) in
    let life := nmul (fg_lifepeak g) (Fin (Rpower 10 (fd_z d i * fg_lifelogsigma g))) in
    {| fc_lat := deg2rad (num_or_0 (iso_lat (fd_x d i)));
       fc_lon := deg2rad (rand_lon (fd_ulon d i));
       fc_rmax := rmax; fc_radius := ndiv rmax (Fin (exp 1 ^ 2));
       fc_depth := fg_depth g; fc_life := life;
       fc_fslope := fg_fslope g; fc_fminrad := fg_fminrad g; fc_fbase := fg_fbase g;
       fc_wslope := fg_wslope g; fc_wint := fg_wint g;
       fc_growing := true; fc_grid := fg_grid g |}) (seq 0 n).
(** faculae.py:728-749 [birth_faculae] *)
Definition fg_birth (g : facgen) (time : num) (rad_star_km : R) (pdraw : nat) (d : fdraws)
  : res (list facula) :=
  do n <- poisson (fg_n_expected g time rad_star_km) pdraw ;;
  Ok (fg_generate g n d).
