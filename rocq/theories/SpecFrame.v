(** Specification vocabulary: what the calls on a star leave alone *)
From Coq Require Import Reals ZArith Bool List.
From Verif Require Import Num Py MGrid MSpots MFaculae MFlares MGranules MStar Spec SpecStar SpecDisk.
Import ListNotations.
Open Scope R_scope.

(** everything about the star itself and its generators; not its spots, faculae and flares *)
Definition same_body (s s' : star) : Prop :=
  st_teff s' = st_teff s /\ st_radius s' = st_radius s /\ st_period s' = st_period s
  /\ st_grid s' = st_grid s /\ st_flaregen s' = st_flaregen s /\ st_spotgen s' = st_spotgen s
  /\ st_facgen s' = st_facgen s /\ st_gran s' = st_gran s /\ st_u1 s' = st_u1 s /\ st_u2 s' = st_u2 s.
(** two generators that differ at most in their grid *)
Definition same_spotgen (g g' : spotgen) : Prop :=
  sg_mean g' = sg_mean g /\ sg_logsigma g' = sg_logsigma g
  /\ sg_teff_umbra g' = sg_teff_umbra g /\ sg_teff_pen g' = sg_teff_pen g
  /\ sg_growth g' = sg_growth g /\ sg_growth_dim g' = sg_growth_dim g
  /\ sg_decay g' = sg_decay g /\ sg_init g' = sg_init g /\ sg_dist g' = sg_dist g
  /\ sg_coverage g' = sg_coverage g.
Definition same_facgen (g g' : facgen) : Prop :=
  fg_rpeak g' = fg_rpeak g /\ fg_rlogsigma g' = fg_rlogsigma g /\ fg_depth g' = fg_depth g
  /\ fg_lifepeak g' = fg_lifepeak g /\ fg_lifelogsigma g' = fg_lifelogsigma g
  /\ fg_fslope g' = fg_fslope g /\ fg_fminrad g' = fg_fminrad g /\ fg_fbase g' = fg_fbase g
  /\ fg_wslope g' = fg_wslope g /\ fg_wint g' = fg_wint g /\ fg_coverage g' = fg_coverage g.
(** the pixel's centre is within the facula's angular radius, on a star of [Rkm] km *)
Definition fac_near (g : grid) (f : facula) (Rkm : R) (j i : nat) : Prop :=
  exists a r, is_angle (fc_lat f) (fc_lon f) (pix_lat g j i) (pix_lon g j i) a
    /\ fc_radius f = Fin r /\ a <= r / Rkm.
(** limb darkening of a pixel, 0 on the far side *)
Definition brightness (s : star) (lat0 lon0 : R) (j i : nat) : R :=
  let mu := pix_mu s lat0 lon0 j i in
  if Rlt_dec mu 0 then 0 else 1 - st_u1 s * (1 - mu) - st_u2 s * (1 - mu)^2.
