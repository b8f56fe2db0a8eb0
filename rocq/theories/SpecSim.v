(** Specification vocabulary: stars that can be simulated and observed without an exception *)
From Coq Require Import Reals ZArith Bool List.
From Verif Require Import Num Py MHelpers MGrid MSpots MFaculae MFlares MGranules MStar MHeap Spec SpecStar SpecFlare SpecDisk SpecFrame.
Import ListNotations.
Open Scope R_scope.

Definition finite_nonneg (x : num) : Prop := exists r, x = Fin r /\ 0 <= r.
Definition finite_pos (x : num) : Prop := exists r, x = Fin r /\ 0 < r.
(** a spot with finite temperatures, a growth rate per unit time above -100%, a finite decay
    rate, a positive maximal area, and a current area that is positive while it grows *)
Record healthy_spot (x : spot) : Prop := {
  hs_temps : fin_temps x;
  hs_dim : sp_growth_dim x = (-1)%Z;
  hs_growth : exists g, sp_growth x = Fin g /\ -1 < g;
  hs_decay : is_fin (sp_decay x);
  hs_max : finite_pos (sp_area_max x);
  hs_area : exists a, sp_area x = Fin a /\ (sp_growing x = true -> 0 < a)
}.
(** wall and floor contrasts more than 1 K apart at every radius in question *)
Definition two_tone (depth fs fm fb ws wi : num) (P : R -> Prop) : Prop :=
  finite_nonneg depth
  /\ exists a b c d e, fs = Fin a /\ fm = Fin b /\ fb = Fin c /\ ws = Fin d /\ wi = Fin e
     /\ forall r, 0 < r -> P r -> 1 < Rabs (wall_diff r d e - floor_diff r a b c).
Record healthy_fac (f : facula) : Prop := {
  hf_wf : fac_wf f;
  hf_tone : two_tone (fc_depth f) (fc_fslope f) (fc_fminrad f) (fc_fbase f) (fc_wslope f) (fc_wint f)
              (fun r => exists rm, fc_rmax f = Fin rm /\ r <= rm)
}.
(** a spot generator that is static (no decay) or grows and decays its spots *)
Record healthy_spotgen (g : spotgen) : Prop := {
  hg_sigma : 0 <= sg_logsigma g;
  hg_dist : sg_dist g <> UnknownDist;
  hg_temps : is_fin (sg_teff_umbra g) /\ is_fin (sg_teff_pen g);
  hg_coverage : finite_nonneg (sg_coverage g);
  hg_rates : exists M A r W, sg_mean g = Fin M /\ sg_init g = Fin A /\ sg_growth g = Fin r /\ sg_decay g = Fin W
     /\ 0 < A <= M /\ 0 <= r
     /\ (W = 0 \/ 0 < W /\ 0 < r /\ sg_growth_dim g = (-1)%Z)
}.
Record healthy_facgen (g : facgen) : Prop := {
  hfg_radius : finite_pos (fg_rpeak g);
  hfg_life : finite_pos (fg_lifepeak g);
  hfg_sigma : 0 <= fg_rlogsigma g /\ 0 <= fg_lifelogsigma g;
  hfg_coverage : finite_nonneg (fg_coverage g);
  hfg_tone : two_tone (fg_depth g) (fg_fslope g) (fg_fminrad g) (fg_fbase g) (fg_wslope g) (fg_wint g) (fun _ => True)
}.
Record healthy (s : star) : Prop := {
  h_unified : star_unified s;
  h_grid : fine_grid (st_grid s);
  h_radius : 0 < st_radius s;
  h_ld : ld_positive s;
  h_teff : is_fin (st_teff s);
  h_dteff : is_fin (gr_dteff (st_gran s));
  h_spots : forall x, In x (sc_spots (st_spots s)) -> healthy_spot x;
  h_facs : forall f, In f (fcc_facs (st_facs s)) -> healthy_fac f;
  h_spotgen : healthy_spotgen (st_spotgen s);
  h_facgen : healthy_facgen (st_facgen s);
  h_flaregen : st_flaregen s = lg_off \/ exists em, flaregen_ok (st_flaregen s) em
}.

(** a sensible call on the star [s] *)
Definition sensible (s : star) (c : cmd) : Prop :=
  match c with
  | CAge t => finite_nonneg t
  | CAddSpot l => forall x, In x l -> healthy_spot x /\ spot_on (st_grid s) x
  | CAddFac l => forall f, In f l -> healthy_fac f /\ fc_grid f = st_grid s
  | CBirthSpots t _ _ _ => finite_nonneg t
  | CBirthFaculae t _ _ => finite_nonneg t
  | CMature cov draws _ _ => sg_growth_dim (st_spotgen s) = (-1)%Z
      /\ (exists c, cov = Fin c /\ 0 <= c <= 1) /\ forall i, 0 <= snd (draws i) <= 1
  | CFlares t _ d => 0 < t /\ draws_ok d
  end.
(** a call that cannot be kept waiting by its random draws: no search for a coverage, and
    within the first [fuel] rounds one in which all area ratios are positive *)
Definition prompt (c : cmd) : Prop :=
  match c with
  | CBirthSpots _ n d fuel => exists k, (k <= fuel)%nat /\ forall i, (i < n)%nat -> 0 < d_ratio d k i
  | CMature _ _ _ _ => False
  | _ => True
  end.
