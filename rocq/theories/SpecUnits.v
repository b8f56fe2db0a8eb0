(** What it means that two quantities are the same, and that code does not care about units *)
From Coq Require Import Reals ZArith List.
From Verif Require Import Num Py MHelpers MSpots MFaculae MFlares MUnits.
Open Scope R_scope.

(** [q] and [q'] are the same physical quantity, perhaps in different units: same kind, and
    value times unit size agree *)
Definition same (q q' : qty) : Prop :=
  qd q = qd q' /\ 0 < qs q /\ 0 < qs q'
  /\ nmul (qv q) (Fin (qs q)) = nmul (qv q') (Fin (qs q')).
(** [q] is [v] of the unit [u] *)
Definition is_of (q : qty) (v : num) (u : uni) : Prop := same q (qmk v u).

(** outcomes related by [P], or the same exception *)
Definition alike {A B} (P : A -> B -> Prop) (r : res A) (r' : res B) : Prop :=
  match r, r' with Ok a, Ok b => P a b | Raise e, Raise e' => e = e' | _, _ => False end.

(** 1 / unit, and the units of rates and slopes *)
Definition u_per (u : uni) : uni := mkUni (/ usize u) (dpow (udim u) (-1)).
Definition u_times (u v : uni) : uni := mkUni (usize u * usize v) (dmul (udim u) (udim v)).
(** the unit of a time to the power [k] (1/day is [k = -1]) *)
Definition u_daypow (k : Z) : uni := mkUni 1 (dpow DTime (IZR k)).

(** the same spot in other units *)
Definition same_spot (s s' : spotq) : Prop :=
  same (sq_lat s) (sq_lat s') /\ same (sq_lon s) (sq_lon s')
  /\ same (sq_amax s) (sq_amax s') /\ same (sq_area s) (sq_area s')
  /\ sq_ratio s = sq_ratio s' /\ sq_growing s = sq_growing s'
  /\ same (sq_growth s) (sq_growth s') /\ same (sq_decay s) (sq_decay s').
(** [q] has the numbers of the spot [s]: areas in MSH, rates per day *)
Definition spot_of (q : spotq) (s : spot) : Prop :=
  is_of (sq_lat q) (Fin (sp_lat s)) u_rad /\ is_of (sq_lon q) (Fin (sp_lon s)) u_rad
  /\ is_of (sq_amax q) (sp_area_max s) u_MSH /\ is_of (sq_area q) (sp_area s) u_MSH
  /\ sq_ratio q = sp_ratio s /\ sq_growing q = sp_growing s
  /\ is_of (sq_growth q) (sp_growth s) (u_daypow (sp_growth_dim s))
  /\ is_of (sq_decay q) (sp_decay s) (u_times u_MSH (u_per u_day)).

(** the same spot generator in other units *)
Definition same_gen (g g' : spotgenq) : Prop :=
  same (gq_mean g) (gq_mean g') /\ same (gq_growth g) (gq_growth g')
  /\ same (gq_decay g) (gq_decay g') /\ same (gq_init g) (gq_init g')
  /\ gq_coverage g = gq_coverage g'.
(** [q] has the numbers of the generator [g] *)
Definition gen_of (q : spotgenq) (g : spotgen) : Prop :=
  is_of (gq_mean q) (sg_mean g) u_MSH
  /\ is_of (gq_growth q) (sg_growth g) (u_daypow (sg_growth_dim g))
  /\ is_of (gq_decay q) (sg_decay g) (u_times u_MSH (u_per u_day))
  /\ is_of (gq_init q) (sg_init g) u_MSH /\ gq_coverage q = sg_coverage g.

(** the same facula in other units *)
Definition same_fac (f f' : facq) : Prop :=
  same (fq_lat f) (fq_lat f') /\ same (fq_lon f) (fq_lon f')
  /\ same (fq_rmax f) (fq_rmax f') /\ same (fq_radius f) (fq_radius f')
  /\ same (fq_depth f) (fq_depth f') /\ same (fq_life f) (fq_life f')
  /\ same (fq_fslope f) (fq_fslope f') /\ same (fq_fminrad f) (fq_fminrad f')
  /\ same (fq_fbase f) (fq_fbase f') /\ same (fq_wslope f) (fq_wslope f')
  /\ same (fq_wint f) (fq_wint f') /\ fq_growing f = fq_growing f'.
(** [q] has the numbers of the facula [f]: lengths in km, slopes in K/km, the lifetime in the
    unit [t] of time *)
Definition fac_of (t : uni) (q : facq) (f : facula) : Prop :=
  is_of (fq_lat q) (Fin (fc_lat f)) u_rad /\ is_of (fq_lon q) (Fin (fc_lon f)) u_rad
  /\ is_of (fq_rmax q) (fc_rmax f) u_km /\ is_of (fq_radius q) (fc_radius f) u_km
  /\ is_of (fq_depth q) (fc_depth f) u_km /\ is_of (fq_life q) (fc_life f) t
  /\ is_of (fq_fslope q) (fc_fslope f) (u_times u_K (u_per u_km))
  /\ is_of (fq_fminrad q) (fc_fminrad f) u_km /\ is_of (fq_fbase q) (fc_fbase f) u_K
  /\ is_of (fq_wslope q) (fc_wslope f) (u_times u_K (u_per u_km))
  /\ is_of (fq_wint q) (fc_wint f) u_K /\ fq_growing q = fc_growing f.

(** the same flare in other units *)
Definition same_flare (f f' : flareq) : Prop :=
  same (lq_fwhm f) (lq_fwhm f') /\ same (lq_energy f) (lq_energy f')
  /\ same (lq_teff f) (lq_teff f') /\ same (lq_tpeak f) (lq_tpeak f').
(** [q] has the numbers of the flare [f]: days, erg, K *)
Definition flare_of (q : flareq) (f : flare) : Prop :=
  is_of (lq_fwhm q) (fl_fwhm f) u_day /\ is_of (lq_energy q) (fl_energy f) u_erg
  /\ is_of (lq_teff q) (fl_teff f) u_K /\ is_of (lq_tpeak q) (Fin (fl_tpeak f)) u_day.

(** entries of dictionaries: the same key and the same quantity *)
Definition same_kv (p p' : Z * qty) : Prop := fst p = fst p' /\ same (snd p) (snd p').
(** the same key, and so many of the unit [u] *)
Definition kv_of (u : uni) (p : Z * qty) (p' : Z * num) : Prop := fst p = fst p' /\ is_of (snd p) (snd p') u.
