(** Vocabulary for C132: construction of stars *)
From Coq Require Import Reals ZArith Bool List.
From Verif Require Import Num Py MConfig MHelpers MGrid MSpots MFaculae MXoflares MFlares MGranules MStar MArgs SpecArgs MMake.
Import ListNotations.
Open Scope R_scope.

(** what is written, without the arguments of the parts that concern grids; the star's own stays *)
Definition spot_no_grid (a : spot_args) : spot_args :=
  mkSpotArgs (sa_lat a) (sa_lon a) (sa_amax a) (sa_area a) (sa_tu a) (sa_tp a) (sa_ratio a) (sa_growing a) (sa_growth a) (sa_decay a) None None.
Definition fac_no_grid (a : fac_args) : fac_args :=
  mkFacArgs (fa_lat a) (fa_lon a) (fa_rmax a) (fa_rinit a) (fa_depth a) (fa_life a) (fa_fslope a) (fa_fminrad a) (fa_fbase a)
    (fa_wslope a) (fa_wint a) (fa_growing a) None None.
Definition sg_no_grid (a : sg_args) : sg_args :=
  mkSgArgs (ga_mean a) (ga_logsigma a) (ga_tu a) (ga_tp a) (ga_growth a) (ga_decay a) (ga_init a) (ga_dist a) (ga_coverage a) None None.
Definition fg_no_grid (a : fg_args) : fg_args :=
  mkFgArgs (ha_rpeak a) (ha_rlogsigma a) (ha_depth a) (ha_lifepeak a) (ha_lifelogsigma a) (ha_fslope a) (ha_fminrad a) (ha_fbase a)
    (ha_wslope a) (ha_wint a) (ha_coverage a) (ha_dist a) None None.
Definition no_grids (a : star_args) : star_args :=
  mkStarArgs (ta_teff a) (ta_radius a) (ta_period a) (map spot_no_grid (ta_spots a)) None None (map fac_no_grid (ta_facs a)) None None
    (option_map sg_no_grid (ta_sg a)) (option_map fg_no_grid (ta_fg a)) (ta_opts a).
Definition same_but_grids (a b : star_args) : Prop := no_grids a = no_grids b.

(** the documented meaning of [grid_params] *)
Inductive means : gval -> pgrid -> Prop :=
| means_int : forall n, means (GInt n) (PSpiral n)
| means_0 : means (GTuple []) (PRect 500 1000)
| means_1 : forall a, means (GTuple [GInt a]) (PRect a 1000)
| means_2 : forall a b, means (GTuple [GInt a; GInt b]) (PRect a b).
Definition no_meaning (v : gval) : Prop := forall g, ~ means v g.
(** the grid a part gets from its arguments; [None] = left out, then 500 latitudes and 1000 longitudes *)
Definition gets (params : option gval) (gridmaker : option pgrid) (g : pgrid) : Prop :=
  gridmaker = Some g \/ gridmaker = None /\ (params = None /\ g = PRect 500 1000 \/ exists v, params = Some v /\ means v g).
(** neither a grid nor something that means one *)
Definition gets_none (params : option gval) (gridmaker : option pgrid) : Prop :=
  gridmaker = None /\ exists v, params = Some v /\ no_meaning v.
(** a grid whose points can be listed *)
Definition has_points (g : pgrid) : Prop := is_spiral g \/ is_rect g /\ sizes_ok g.

(** the value of an argument that may be left out *)
Definition or_else {A} (o : option A) (d : A) : A := match o with None => d | Some x => x end.
(** the parts on the grid [g], with the documented values for what is left out *)
Definition spot_meant (g : grid) (a : spot_args) : spot :=
  spot_init (sa_lat a) (sa_lon a) (sa_amax a) (sa_area a) (sa_tu a) (sa_tp a) (or_else (sa_ratio a) (Fin 5)) (or_else (sa_growing a) true)
    (fst (or_else (sa_growth a) (Fin (52/100), (-1)%Z))) (snd (or_else (sa_growth a) (Fin (52/100), (-1)%Z)))
    (or_else (sa_decay a) (Fin (1089/100))) g.
Definition fac_meant (g : grid) (a : fac_args) : facula :=
  mkFacula (fa_lat a) (fa_lon a) (fa_rmax a) (fa_rinit a) (fa_depth a) (fa_life a) (fa_fslope a) (fa_fminrad a) (fa_fbase a)
    (fa_wslope a) (fa_wint a) (or_else (fa_growing a) true) g.
Definition sg_meant (g : grid) (a : sg_args) : spotgen :=
  mkSpotGen (ga_mean a) (ga_logsigma a) (ga_tu a) (ga_tp a) (fst (or_else (ga_growth a) (Fin (52/100), (-1)%Z)))
    (snd (or_else (ga_growth a) (Fin (52/100), (-1)%Z))) (or_else (ga_decay a) (Fin (1089/100))) (or_else (ga_init a) (Fin 10))
    (or_else (ga_dist a) Solar) (or_else (ga_coverage a) (Fin (2/10))) g.
Definition cov_num (c : cval) : num := match c with CFloat v => v | CInt z => Fin (IZR z) | COther => NaN end.
Definition fg_meant (g : grid) (a : fg_args) : facgen :=
  mkFacGen (ha_rpeak a) (ha_rlogsigma a) (ha_depth a) (ha_lifepeak a) (ha_lifelogsigma a) (ha_fslope a) (ha_fminrad a) (ha_fbase a)
    (ha_wslope a) (ha_wint a) (cov_num (ha_coverage a)) g.

(** the star [n], whose grids are all [g], is the star [s] of MStar.v *)
Definition spot_is (g : grid) (n : nspot) (s : spot) : Prop :=
  ns_grid n = lift g /\ s = mkSpot (sp_lat (ns_attrs n)) (sp_lon (ns_attrs n)) (sp_area_max (ns_attrs n)) (sp_area (ns_attrs n))
    (sp_teff_umbra (ns_attrs n)) (sp_teff_pen (ns_attrs n)) (sp_ratio (ns_attrs n)) (sp_growing (ns_attrs n))
    (sp_growth (ns_attrs n)) (sp_growth_dim (ns_attrs n)) (sp_decay (ns_attrs n)) g (ns_r n).
Definition fac_is (g : grid) (n : nfac) (f : facula) : Prop := nf_grid n = lift g /\ f = fac_assign_grid (nf_attrs n) g.
Definition star_is (g : grid) (n : nstar) (s : star) : Prop :=
  nst_teff n = st_teff s /\ nst_radius n = st_radius s /\ nst_period n = st_period s
  /\ nsc_grid (nst_spots n) = lift g /\ sc_grid (st_spots s) = g /\ Forall2 (spot_is g) (nsc_spots (nst_spots n)) (sc_spots (st_spots s))
  /\ nfc_grid (nst_facs n) = lift g /\ fcc_grid (st_facs s) = g /\ Forall2 (fac_is g) (nfc_facs (nst_facs n)) (fcc_facs (st_facs s))
  /\ nst_grid n = lift g /\ st_grid s = g /\ nst_flaregen n = st_flaregen s /\ nst_flares n = st_flares s
  /\ nsg_grid (nst_spotgen n) = lift g /\ st_spotgen s = sg_assign_grid (nsg_attrs (nst_spotgen n)) g
  /\ nfg_grid (nst_facgen n) = lift g /\ st_facgen s = fg_assign_grid (nfg_attrs (nst_facgen n)) g
  /\ nst_gran n = st_gran s /\ nst_u1 n = st_u1 s /\ nst_u2 n = st_u2 s.
(** the star meant, on the grid [g]: all parts get it *)
Definition star_meant (g : pyval) (gr : grid) (a : star_args) : res star :=
  star_init (ta_teff a) (ta_radius a) (ta_period a) (sc_init (map (spot_meant gr) (ta_spots a)) gr)
    (fcc_init (map (fac_meant gr) (ta_facs a)) gr) g (so_flaregen (ta_opts a)) (option_map (sg_meant gr) (ta_sg a))
    (option_map (fg_meant gr) (ta_fg a)) (so_gran (ta_opts a)) (or_else (so_u1 (ta_opts a)) 0) (or_else (so_u2 (ta_opts a)) 0).
(** only what has no default is written *)
Definition bare_spot (a : spot_args) : Prop :=
  sa_ratio a = None /\ sa_growing a = None /\ sa_growth a = None /\ sa_decay a = None.
Definition bare_star (a : star_args) : Prop :=
  ta_sg a = None /\ ta_fg a = None /\ ta_opts a = mkStarOpts None None None None None.
