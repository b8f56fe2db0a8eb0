(** Construction of stars and their parts from the arguments that are written, where most can be left out:
    the [__init__] methods of /repo/vspec_vsm/spots.py, faculae.py and star.py with [grid_params], [gridmaker] and
    the other optional arguments.  [None] = the argument is left out.
    SIMPLIFICATIONS: objects are values (MHeap.v has references); units are those of MSpots.v, MFaculae.v and MStar.v. *)
From Coq Require Import Reals ZArith Bool List.
From Verif Require Import Num Py MConfig MHelpers MGrid MSpots MFaculae MXoflares MFlares MGranules MStar MArgs.
Import ListNotations.
Open Scope R_scope.

(** Python (spots.py:104-118 and everywhere): the value of an argument with a default *)
Definition arg {A} (default : A) (o : option A) : A := match o with Some x => x | None => default end.
(** spots.py:130-133, 354-357, 594-597, faculae.py:144-147, 352-354, 568-571: a [gridmaker] is taken as it is, otherwise
    a grid is made from [grid_params] *)
Definition which_grid (default : gval) (params : option gval) (gridmaker : option pgrid) : res pgrid :=
  match gridmaker with Some g => Ok g | None => p_new (arg default params) end.
(** spots.py:116, 352, 579, faculae.py:128: [grid_params = (500, 1000)]; faculae.py:349, 543: [(config.NLAT, config.NLON)] *)
Definition PARTS_PARAMS : gval := GTuple [GInt 500; GInt 1000].
(** star.py:109 [grid_params = 1000] *)
Definition STAR_PARAMS : gval := GInt 1000.

(** ** Spots *)
(** spots.py:104-118, the arguments of [StarSpot]; a growth rate has a time exponent, as in MSpots.v *)
Record spot_args : Type := mkSpotArgs {
  sa_lat : R; sa_lon : R; sa_amax : num; sa_area : num; sa_tu : num; sa_tp : num;
  sa_ratio : option num; sa_growing : option bool; sa_growth : option (num * Z); sa_decay : option num;
  sa_params : option gval; sa_grid : option pgrid }.
(** spots.py:104-149: a [StarSpot] on a grid of any kind; the grid and the distances inside [ns_attrs] are not used *)
Record nspot : Type := mkNspot { ns_attrs : spot; ns_grid : pgrid; ns_r : arr num }.
(** spots.py:120-128: the attributes; the grid is set afterwards *)
Definition spot_attrs (a : spot_args) : spot :=
  {| sp_lat := sa_lat a; sp_lon := sa_lon a; sp_area_max := sa_amax a; sp_area := sa_area a;
     sp_teff_umbra := sa_tu a; sp_teff_pen := sa_tp a; sp_ratio := arg (Fin 5) (sa_ratio a);
     sp_growing := arg true (sa_growing a);
     sp_growth := fst (arg (Fin (52/100), (-1)%Z) (sa_growth a)); sp_growth_dim := snd (arg (Fin (52/100), (-1)%Z) (sa_growth a));
     sp_decay := arg (Fin (1089/100)) (sa_decay a); sp_grid := Spiral 0; sp_r := mkArr false [] |}.
(** spots.py:135-149 [StarSpot.set_gridmaker] *)
Definition ns_set_gridmaker (s : nspot) (g : pgrid) : res nspot :=
  do r <- p_spot_r g (sp_lat (ns_attrs s), sp_lon (ns_attrs s)) ;; Ok (mkNspot (ns_attrs s) g r).
(** spots.py:104-133 [StarSpot.__init__] *)
Definition new_spot (a : spot_args) : res nspot :=
  do g <- which_grid PARTS_PARAMS (sa_params a) (sa_grid a) ;;
  ns_set_gridmaker (mkNspot (spot_attrs a) g (mkArr false [])) g.
(** spots.py:349-370 [SpotCollection.__init__] and [set_gridmaker] *)
Record nspotcoll : Type := mkNspotcoll { nsc_spots : list nspot; nsc_grid : pgrid }.
(** spots.py:359-370 [SpotCollection.set_gridmaker] *)
Definition nsc_set_gridmaker (c : nspotcoll) (g : pgrid) : res nspotcoll :=
  do l <- mapM (fun s => ns_set_gridmaker s g) (nsc_spots c) ;; Ok (mkNspotcoll l g).
(** spots.py:349-358 [SpotCollection.__init__] *)
Definition new_spotcoll (spots : list nspot) (params : option gval) (gridmaker : option pgrid) : res nspotcoll :=
  do g <- which_grid PARTS_PARAMS params gridmaker ;; nsc_set_gridmaker (mkNspotcoll spots g) g.

(** ** Faculae *)
(** faculae.py:114-130, the arguments of [Facula] *)
Record fac_args : Type := mkFacArgs {
  fa_lat : R; fa_lon : R; fa_rmax : num; fa_rinit : num; fa_depth : num; fa_life : num; fa_fslope : num; fa_fminrad : num;
  fa_fbase : num; fa_wslope : num; fa_wint : num; fa_growing : option bool; fa_params : option gval; fa_grid : option pgrid }.
(** faculae.py:114-147: a [Facula] on a grid of any kind; the grid inside [nf_attrs] is not used *)
Record nfac : Type := mkNfac { nf_attrs : facula; nf_grid : pgrid }.
(** faculae.py:131-142: the attributes; the grid is set afterwards *)
Definition fac_attrs (a : fac_args) : facula :=
  {| fc_lat := fa_lat a; fc_lon := fa_lon a; fc_rmax := fa_rmax a; fc_radius := fa_rinit a; fc_depth := fa_depth a;
     fc_life := fa_life a; fc_fslope := fa_fslope a; fc_fminrad := fa_fminrad a; fc_fbase := fa_fbase a;
     fc_wslope := fa_wslope a; fc_wint := fa_wint a; fc_growing := arg true (fa_growing a); fc_grid := Spiral 0 |}.
(** faculae.py:114-147 [Facula.__init__]: nothing is computed from the grid *)
Definition new_facula (a : fac_args) : res nfac :=
  do g <- which_grid PARTS_PARAMS (fa_params a) (fa_grid a) ;; Ok (mkNfac (fac_attrs a) g).
(** faculae.py:325-368 [FaculaCollection] *)
Record nfaccoll : Type := mkNfaccoll { nfc_facs : list nfac; nfc_grid : pgrid }.
(** faculae.py:356-368 [FaculaCollection.set_gridmaker] *)
Definition nfc_set_gridmaker (c : nfaccoll) (g : pgrid) : nfaccoll :=
  mkNfaccoll (map (fun f => mkNfac (nf_attrs f) g) (nfc_facs c)) g.
(** faculae.py:348-355 [FaculaCollection.__init__] *)
Definition new_faccoll (facs : list nfac) (params : option gval) (gridmaker : option pgrid) : res nfaccoll :=
  do g <- which_grid PARTS_PARAMS params gridmaker ;; Ok (nfc_set_gridmaker (mkNfaccoll facs g) g).

(** ** Generators *)
(** spots.py:569-582, the arguments of [SpotGenerator] (without [rng]: MRng.v) *)
Record sg_args : Type := mkSgArgs {
  ga_mean : num; ga_logsigma : R; ga_tu : num; ga_tp : num; ga_growth : option (num * Z); ga_decay : option num;
  ga_init : option num; ga_dist : option distribution; ga_coverage : option num; ga_params : option gval; ga_grid : option pgrid }.
(** spots.py:569-597: a [SpotGenerator] on a grid of any kind; the grid inside [nsg_attrs] is not used *)
Record nspotgen : Type := mkNspotgen { nsg_attrs : spotgen; nsg_grid : pgrid }.
(** spots.py:583-592: the attributes; the grid is set afterwards *)
Definition sg_attrs (a : sg_args) : spotgen :=
  {| sg_mean := ga_mean a; sg_logsigma := ga_logsigma a; sg_teff_umbra := ga_tu a; sg_teff_pen := ga_tp a;
     sg_growth := fst (arg (Fin (52/100), (-1)%Z) (ga_growth a)); sg_growth_dim := snd (arg (Fin (52/100), (-1)%Z) (ga_growth a));
     sg_decay := arg (Fin (1089/100)) (ga_decay a); sg_init := arg (Fin 10) (ga_init a); sg_dist := arg Solar (ga_dist a);
     sg_coverage := arg (Fin (2/10)) (ga_coverage a); sg_grid := Spiral 0 |}.
(** spots.py:569-597 [SpotGenerator.__init__]: the name of the distribution is not checked here *)
Definition new_sg (a : sg_args) : res nspotgen :=
  do g <- which_grid PARTS_PARAMS (ga_params a) (ga_grid a) ;; Ok (mkNspotgen (sg_attrs a) g).
(** faculae.py:558: the kinds of values that can be given as [coverage]: a [float], an [int] (or [bool]), others *)
Inductive cval : Type := CFloat (v : num) | CInt (z : Z) | COther.
(** faculae.py:530-546, the arguments of [FaculaGenerator] (without [rng]: MRng.v) *)
Record fg_args : Type := mkFgArgs {
  ha_rpeak : num; ha_rlogsigma : R; ha_depth : num; ha_lifepeak : num; ha_lifelogsigma : R; ha_fslope : num; ha_fminrad : num;
  ha_fbase : num; ha_wslope : num; ha_wint : num; ha_coverage : cval; ha_dist : option distribution;
  ha_params : option gval; ha_grid : option pgrid }.
(** faculae.py:530-573: a [FaculaGenerator] on a grid of any kind; the grid inside [nfg_attrs] is not used *)
Record nfacgen : Type := mkNfacgen { nfg_attrs : facgen; nfg_grid : pgrid }.
(** faculae.py:547-559: the attributes; the grid is set afterwards *)
Definition fg_attrs (a : fg_args) (coverage : num) : facgen :=
  {| fg_rpeak := ha_rpeak a; fg_rlogsigma := ha_rlogsigma a; fg_depth := ha_depth a; fg_lifepeak := ha_lifepeak a;
     fg_lifelogsigma := ha_lifelogsigma a; fg_fslope := ha_fslope a; fg_fminrad := ha_fminrad a; fg_fbase := ha_fbase a;
     fg_wslope := ha_wslope a; fg_wint := ha_wint a; fg_coverage := coverage; fg_grid := Spiral 0 |}.
(** faculae.py:558-573: the checks of [FaculaGenerator.__init__] in their order *)
Definition new_fg (a : fg_args) : res nfacgen :=
  do c <- match ha_coverage a with CFloat v => Ok v | CInt z => Ok (Fin (IZR z)) | COther => Raise TypeError end ;;
  do _ <- match arg Iso (ha_dist a) with Solar => Raise NotImplementedError | UnknownDist => Raise ValueError | Iso => Ok tt end ;;
  do g <- which_grid PARTS_PARAMS (ha_params a) (ha_grid a) ;; Ok (mkNfacgen (fg_attrs a c) g).

(** ** Stars *)
(** star.py:104-173: a [Star] on a grid of any kind *)
Record nstar : Type := mkNstar {
  nst_teff : num; nst_radius : R; nst_period : R; nst_spots : nspotcoll; nst_facs : nfaccoll; nst_grid : pgrid;
  nst_flaregen : flaregen; nst_flares : option flarecoll; nst_spotgen : nspotgen; nst_facgen : nfacgen; nst_gran : granulation;
  nst_u1 : R; nst_u2 : R }.
(** star.py:104-118: the arguments of [Star] that are not made below *)
Record star_opts : Type := mkStarOpts {
  so_params : option gval; so_flaregen : option flaregen; so_gran : option granulation; so_u1 : option R; so_u2 : option R }.
(** star.py:118-173, 175-187 [Star.__init__], with [set_spot_grid] and [set_fac_grid] *)
Definition new_star (teff : num) (radius period : R) (spots : nspotcoll) (facs : nfaccoll)
  (spg : option nspotgen) (fcg : option nfacgen) (o : star_opts) : res nstar :=
  do g <- p_new (arg STAR_PARAMS (so_params o)) ;;
  let facs := nfc_set_gridmaker facs g in
  do spots <- nsc_set_gridmaker spots g ;;
  do sg <- match spg with
           | Some x => do g' <- p_adopt (nsg_grid x) g ;; Ok (mkNspotgen (nsg_attrs x) g')
           | None => Ok (mkNspotgen (sg_off (Spiral 0)) g) end ;;
  do fg <- match fcg with
           | Some x => do g' <- p_adopt (nfg_grid x) g ;; Ok (mkNfacgen (nfg_attrs x) g')
           | None => Ok (mkNfacgen (fg_off (Spiral 0)) g) end ;;
  Ok {| nst_teff := teff; nst_radius := radius; nst_period := period;
        nst_spots := mkNspotcoll (map (fun s => mkNspot (ns_attrs s) g (ns_r s)) (nsc_spots spots)) (nsc_grid spots);
        nst_facs := mkNfaccoll (map (fun f => mkNfac (nf_attrs f) g) (nfc_facs facs)) (nfc_grid facs);
        nst_grid := g; nst_flaregen := arg lg_off (so_flaregen o); nst_flares := None;
        nst_spotgen := sg; nst_facgen := fg; nst_gran := arg gran_off (so_gran o);
        nst_u1 := arg 0 (so_u1 o); nst_u2 := arg 0 (so_u2 o) |}.

(** spots.py:104-133, 349-358, faculae.py:114-147, 348-355, star.py:104-118: everything that is written to make a star with
    its spots, faculae and generators.  [None] for a generator = [Star] is not given one *)
Record star_args : Type := mkStarArgs {
  ta_teff : num; ta_radius : R; ta_period : R;
  ta_spots : list spot_args; ta_sc_params : option gval; ta_sc_grid : option pgrid;
  ta_facs : list fac_args; ta_fc_params : option gval; ta_fc_grid : option pgrid;
  ta_sg : option sg_args; ta_fg : option fg_args; ta_opts : star_opts }.
(** spots.py:569-597, faculae.py:530-573: a generator, if there is one *)
Definition maybe {A B} (f : A -> res B) (o : option A) : res (option B) :=
  match o with Some a => do b <- f a ;; Ok (Some b) | None => Ok None end.
(** spots.py:104-133, 349-358, 569-597, faculae.py:114-147, 348-355, 530-573: the parts are made first *)
Definition make_parts (a : star_args) : res (nspotcoll * nfaccoll * option nspotgen * option nfacgen) :=
  do ss <- mapM new_spot (ta_spots a) ;;
  do sc <- new_spotcoll ss (ta_sc_params a) (ta_sc_grid a) ;;
  do fs <- mapM new_facula (ta_facs a) ;;
  do fc <- new_faccoll fs (ta_fc_params a) (ta_fc_grid a) ;;
  do sg <- maybe new_sg (ta_sg a) ;;
  do fg <- maybe new_fg (ta_fg a) ;;
  Ok (sc, fc, sg, fg).
(** star.py:104-173: then the star *)
Definition make_star (a : star_args) : res nstar :=
  do p <- make_parts a ;;
  let '(sc, fc, sg, fg) := p in new_star (ta_teff a) (ta_radius a) (ta_period a) sc fc sg fg (ta_opts a).
