(** Specification vocabulary: random streams *)
From Coq Require Import Reals ZArith Bool List.
From Verif Require Import Num Py MGrid MSpots MFaculae MFlares MGranules MStar MHeap MRng Spec SpecStar SpecFlare.
Import ListNotations.
Open Scope R_scope.

(** what numpy promises about single draws *)
Definition numpy_ok {St} (np : numpy St) : Prop :=
  (forall s, unit_draw (fst (np_random np s))) /\ (forall s, 0 <= fst (np_exponential np s)).

(** explicit draws in the range of the distributions *)
Definition sdraws_ok (d : sdraws) : Prop := forall i, unit_draw (d_ulon d i) /\ unit_draw (d_x d i).
Definition fdraws_ok (d : fdraws) : Prop := forall i, unit_draw (fd_ulon d i) /\ unit_draw (fd_x d i).
(** [k] is the call [c] with the values drawn written out *)
Definition spells_out (c : rcall) (k : cmd) : Prop :=
  match c, k with
  | RAge t, CAge t' => t' = t
  | RAddSpot l, CAddSpot l' => l' = l
  | RAddFac l, CAddFac l' => l' = l
  | RBirthSpots t, CBirthSpots t' _ d _ => t' = t /\ sdraws_ok d
  | RBirthFaculae t, CBirthFaculae t' _ d => t' = t /\ fdraws_ok d
  | RMature c, CMature c' d _ _ => c' = c /\ forall i, sdraws_ok (fst (d i)) /\ unit_draw (snd (d i))
  | RFlares t, CFlares t' _ d => t' = t /\ draws_ok d
  | _, _ => False
  end.

(** the streams a star's generators use *)
Definition uses (x : rstar) (l : nat) : Prop := l = rs_spot x \/ l = rs_fac x \/ l = rs_flare x.
(** the calls of a program on one star, and their outcomes *)
Definition calls_on {A} (i : nat) (l : list (nat * A)) : list (nat * A) :=
  filter (fun p => Nat.eqb (fst p) i) l.

(** what a call is about *)
Inductive kind := Spots | Faculae | Flares.
Definition kind_of (c : rcall) : option kind :=
  match c with
  | RAddSpot _ | RBirthSpots _ | RMature _ => Some Spots
  | RAddFac _ | RBirthFaculae _ => Some Faculae
  | RFlares _ => Some Flares
  | RAge _ => None
  end.

(** two spots that differ at most in temperatures *)
Definition alike_spot (s s' : spot) : Prop :=
  sp_lat s' = sp_lat s /\ sp_lon s' = sp_lon s /\ sp_area_max s' = sp_area_max s /\ sp_area s' = sp_area s
  /\ sp_ratio s' = sp_ratio s /\ sp_growing s' = sp_growing s /\ sp_growth s' = sp_growth s
  /\ sp_growth_dim s' = sp_growth_dim s /\ sp_decay s' = sp_decay s /\ sp_grid s' = sp_grid s /\ sp_r s' = sp_r s.
(** two faculae that differ at most in temperatures and depth *)
Definition alike_fac (f f' : facula) : Prop :=
  fc_lat f' = fc_lat f /\ fc_lon f' = fc_lon f /\ fc_rmax f' = fc_rmax f /\ fc_radius f' = fc_radius f
  /\ fc_life f' = fc_life f /\ fc_growing f' = fc_growing f /\ fc_grid f' = fc_grid f.
(** two generators that differ at most in the temperatures (and depth) of their products *)
Definition alike_spotgen (g g' : spotgen) : Prop :=
  sg_mean g' = sg_mean g /\ sg_logsigma g' = sg_logsigma g
  /\ sg_growth g' = sg_growth g /\ sg_growth_dim g' = sg_growth_dim g
  /\ sg_decay g' = sg_decay g /\ sg_init g' = sg_init g /\ sg_dist g' = sg_dist g
  /\ sg_coverage g' = sg_coverage g /\ sg_grid g' = sg_grid g.
Definition alike_facgen (g g' : facgen) : Prop :=
  fg_rpeak g' = fg_rpeak g /\ fg_rlogsigma g' = fg_rlogsigma g
  /\ fg_lifepeak g' = fg_lifepeak g /\ fg_lifelogsigma g' = fg_lifelogsigma g
  /\ fg_coverage g' = fg_coverage g /\ fg_grid g' = fg_grid g.
(** two stars that differ at most in temperatures, limb darkening, granulation, rotation
    period and depths of faculae *)
Definition alike_star (s s' : star) : Prop :=
  st_radius s' = st_radius s /\ st_grid s' = st_grid s
  /\ Forall2 alike_spot (sc_spots (st_spots s)) (sc_spots (st_spots s')) /\ sc_grid (st_spots s') = sc_grid (st_spots s)
  /\ Forall2 alike_fac (fcc_facs (st_facs s)) (fcc_facs (st_facs s')) /\ fcc_grid (st_facs s') = fcc_grid (st_facs s)
  /\ st_flaregen s' = st_flaregen s /\ st_flares s' = st_flares s
  /\ alike_spotgen (st_spotgen s) (st_spotgen s') /\ alike_facgen (st_facgen s) (st_facgen s').
(** ... that also use the same streams *)
Definition alike (x x' : rstar) : Prop :=
  alike_star (rs_star x) (rs_star x')
  /\ rs_rng x' = rs_rng x /\ rs_spot x' = rs_spot x /\ rs_fac x' = rs_fac x /\ rs_flare x' = rs_flare x.
(** two calls that differ at most in the temperatures of the spots and faculae handed over *)
Definition alike_call (c c' : rcall) : Prop :=
  match c, c' with
  | RAddSpot l, RAddSpot l' => Forall2 alike_spot l l'
  | RAddFac l, RAddFac l' => Forall2 alike_fac l l'
  | _, _ => c' = c
  end.

(** what a generator hands to a star, and the star that takes it in *)
Inductive product := PSpots (l : list spot) | PFacs (l : list facula) | PFlares (l : list flare).
Definition product_kind (p : product) : kind :=
  match p with PSpots _ => Spots | PFacs _ => Faculae | PFlares _ => Flares end.
Definition receive (s : star) (p : product) : res star :=
  match p with
  | PSpots l => Ok (star_add_spot s l)
  | PFacs l => star_add_fac s l
  | PFlares l => Ok (star_with_flares s (flc_init l))
  end.
(** the star after a call that returns [r], and the exception *)
Definition with_star (x : rstar) (r : res star) : rstar :=
  match r with Ok y => mkRStar y (rs_rng x) (rs_spot x) (rs_fac x) (rs_flare x) | Raise _ => x end.
Definition outcome (r : res star) : option exn := match r with Ok _ => None | Raise e => Some e end.
(** two stars for which a kind of product is generated in the same way *)
Definition same_source (k : kind) (s s' : star) : Prop :=
  st_radius s' = st_radius s /\
  match k with
  | Spots => st_spotgen s' = st_spotgen s
  | Faculae => st_facgen s' = st_facgen s
  | Flares => st_flaregen s' = st_flaregen s
  end.
