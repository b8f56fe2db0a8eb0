(** Specification vocabulary: a star and its surroundings made [k] times as large *)
From Coq Require Import Reals ZArith Bool List.
From Verif Require Import Num Py MGrid MSpots MFaculae MFlares MGranules MStar MHeap.
Import ListNotations.
Open Scope R_scope.

(** [c] times [x], for a positive number [c] *)
Definition nscale (c : R) (x : num) : num := match x with Fin r => Fin (c * r) | y => y end.
(** what a successful call returns, changed by [f] *)
Definition rmap {A B} (f : A -> B) (r : res A) : res B := match r with Ok a => Ok (f a) | Raise e => Raise e end.

(** lengths grow by the factor [k], areas and areas lost per day by [k^2] *)
Definition scale_spot (k : R) (x : spot) : spot :=
  {| sp_lat := sp_lat x; sp_lon := sp_lon x;
     sp_area_max := nscale (k^2) (sp_area_max x); sp_area := nscale (k^2) (sp_area x);
     sp_teff_umbra := sp_teff_umbra x; sp_teff_pen := sp_teff_pen x; sp_ratio := sp_ratio x;
     sp_growing := sp_growing x; sp_growth := sp_growth x; sp_growth_dim := sp_growth_dim x;
     sp_decay := nscale (k^2) (sp_decay x); sp_grid := sp_grid x; sp_r := sp_r x |}.
(** kelvins per kilometre shrink *)
Definition scale_fac (k : R) (f : facula) : facula :=
  {| fc_lat := fc_lat f; fc_lon := fc_lon f; fc_rmax := nscale k (fc_rmax f); fc_radius := nscale k (fc_radius f);
     fc_depth := nscale k (fc_depth f); fc_life := fc_life f;
     fc_fslope := nscale (/ k) (fc_fslope f); fc_fminrad := nscale k (fc_fminrad f); fc_fbase := fc_fbase f;
     fc_wslope := nscale (/ k) (fc_wslope f); fc_wint := fc_wint f;
     fc_growing := fc_growing f; fc_grid := fc_grid f |}.
Definition scale_spotgen (k : R) (g : spotgen) : spotgen :=
  {| sg_mean := nscale (k^2) (sg_mean g); sg_logsigma := sg_logsigma g;
     sg_teff_umbra := sg_teff_umbra g; sg_teff_pen := sg_teff_pen g;
     sg_growth := sg_growth g; sg_growth_dim := sg_growth_dim g;
     sg_decay := nscale (k^2) (sg_decay g); sg_init := nscale (k^2) (sg_init g); sg_dist := sg_dist g;
     sg_coverage := sg_coverage g; sg_grid := sg_grid g |}.
Definition scale_facgen (k : R) (g : facgen) : facgen :=
  {| fg_rpeak := nscale k (fg_rpeak g); fg_rlogsigma := fg_rlogsigma g; fg_depth := nscale k (fg_depth g);
     fg_lifepeak := fg_lifepeak g; fg_lifelogsigma := fg_lifelogsigma g;
     fg_fslope := nscale (/ k) (fg_fslope g); fg_fminrad := nscale k (fg_fminrad g); fg_fbase := fg_fbase g;
     fg_wslope := nscale (/ k) (fg_wslope g); fg_wint := fg_wint g;
     fg_coverage := fg_coverage g; fg_grid := fg_grid g |}.
(** energies grow like the surface that radiates them *)
Definition scale_flare (k : R) (f : flare) : flare :=
  {| fl_fwhm := fl_fwhm f; fl_energy := nscale (k^2) (fl_energy f); fl_lat := fl_lat f; fl_lon := fl_lon f;
     fl_teff := fl_teff f; fl_tpeak := fl_tpeak f |}.
(** the rate above an energy is that of the small star above the energy divided by [k^2] *)
Definition scale_flaregen (k : R) (g : flaregen) : flaregen :=
  {| lg_teff_mean := lg_teff_mean g; lg_teff_sigma := lg_teff_sigma g;
     lg_fwhm_mean := lg_fwhm_mean g; lg_fwhm_is_time := lg_fwhm_is_time g; lg_fwhm_logsigma := lg_fwhm_logsigma g;
     lg_alpha := lg_alpha g; lg_beta := lg_beta g - lg_alpha g * (ln (k^2) / ln 10);
     lg_min_energy := nscale (k^2) (lg_min_energy g); lg_cluster := lg_cluster g |}.
Definition scale_flarecoll (k : R) (c : flarecoll) : flarecoll :=
  mkFlareColl (map (scale_flare k) (flc_flares c)) (flc_peaks c) (flc_fwhms c).
Definition scale_star (k : R) (s : star) : star :=
  {| st_teff := st_teff s; st_radius := k * st_radius s; st_period := st_period s;
     st_spots := mkSpotColl (map (scale_spot k) (sc_spots (st_spots s))) (sc_grid (st_spots s));
     st_facs := mkFacColl (map (scale_fac k) (fcc_facs (st_facs s))) (fcc_grid (st_facs s));
     st_grid := st_grid s;
     st_flaregen := scale_flaregen k (st_flaregen s); st_flares := option_map (scale_flarecoll k) (st_flares s);
     st_spotgen := scale_spotgen k (st_spotgen s); st_facgen := scale_facgen k (st_facgen s);
     st_gran := st_gran s; st_u1 := st_u1 s; st_u2 := st_u2 s |}.
(** a call on the large star: what is added is large, times and random draws are the same *)
Definition scale_cmd (k : R) (c : cmd) : cmd :=
  match c with
  | CAddSpot l => CAddSpot (map (scale_spot k) l)
  | CAddFac l => CAddFac (map (scale_fac k) l)
  | other => other
  end.
