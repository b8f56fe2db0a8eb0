(** Properties C96-C99: units of measure *)
From Coq Require Import Reals ZArith Bool String List Lra Lia.
From Coquelicot Require Import Coquelicot.
From Verif Require Import Num Py MConfig MHelpers MGrid MSpots MFaculae MXoflares MFlares MGranules MStar MUnits
  Spec SpecStar SpecUnits LBase LUnits LUnitSame LUnitEval LUnitFac LUnitFlare LUnitBad LSpotAge LSpotCov LSpotGen LAge
  PropsSpotGen PropsFac PropsFlare PropsStar.
Import ListNotations.
Open Scope R_scope.

(** the same quantity in two units of the same kind *)
Lemma ex_convert : forall v x u w, udim u = udim w -> 0 < usize u -> 0 < usize w -> x * usize u = v * usize w ->
  is_of (qmk (Fin x) u) (Fin v) w.
Proof. intros v x u w D P Q E. unfold is_of, same. cbn [qmk qd qs qv]. repeat split; auto. simpl. now rewrite E. Qed.
Lemma ex_MSH_km2 : forall v, is_of (qmk (Fin (v * usize u_MSH)) u_km2) (Fin v) u_MSH.
Proof. intro v. apply ex_convert; [reflexivity|apply km2_pos|apply msh_pos|simpl; ring]. Qed.
Ltac conv := apply ex_convert; [cbv [udim u_times u_per u_daypow u_deg u_rad u_hr u_day u_MSH u_km u_K u_Rsun u_erg u_min]; try reflexivity
  | | | cbn [usize u_deg u_rad u_hr u_day u_MSH u_per u_times u_daypow u_km u_K u_Rsun u_erg u_min]; unfold RSUN_KM; try field];
  try (cbn [usize u_deg u_rad u_hr u_day u_MSH u_per u_times u_daypow u_km u_K u_Rsun u_erg u_min]; unfold RSUN_KM; pose proof PI_RGT_0; lra).

(** C96: a spot with latitude in degrees, areas in km^2 and rates per hour, aged 12 hours *)
@THM C96_spots C96_spots_lemma
Definition ex_sq : spotq :=
  mkSpotQ (qmk (Fin 30) u_deg) (qmk (Fin 0) u_deg) (qmk (Fin (1000 * usize u_MSH)) u_km2)
    (qmk (Fin (500 * usize u_MSH)) u_km2) (Fin 5) true
    (qmk (Fin (1/48)) (u_per u_hr)) (qmk (Fin (10/24)) (u_times u_MSH (u_per u_hr))).
Definition ex_spot30 : spot :=
  spot_init (PI/6) 0 (Fin 1000) (Fin 500) (Fin 2500) (Fin 2700) (Fin 5) true (Fin (1/2)) (-1) (Fin 10) (Spiral 6).
Lemma ex_sq_of : spot_of ex_sq ex_spot30.
Proof.
  unfold spot_of, ex_sq, ex_spot30, spot_init, spot_set_gridmaker. cbn [sq_lat sq_lon sq_amax sq_area sq_ratio sq_growing sq_growth sq_decay
    sp_lat sp_lon sp_area_max sp_area sp_ratio sp_growing sp_growth sp_growth_dim sp_decay].
  split; [conv|]. split; [conv|]. split; [apply ex_MSH_km2|]. split; [apply ex_MSH_km2|]. split; [reflexivity|].
  split; [reflexivity|]. split; conv.
Qed.
Example C96_nonvacuous :
  spot_of ex_sq ex_spot30 /\ is_of (qmk (Fin 12) u_hr) (Fin (1/2)) u_day
  /\ is_of (qmk (Fin RSUN_KM) u_km) (Fin 1) u_Rsun
  /\ exists q, sq_age ex_sq (qmk (Fin 12) u_hr) = Ok q /\ sq_growing q = true.
Proof.
  split; [apply ex_sq_of|]. split; [conv|]. split; [conv|].
  assert (T : is_of (qmk (Fin 12) u_hr) (Fin (1/2)) u_day) by conv.
  assert (E : exists s', spot_age ex_spot30 (Fin (1/2)) = Ok s' /\ sp_growing s' = true).
  { rewrite (spot_age_growing ex_spot30 500 1000 (1/2) 10); [|repeat split|reflexivity|lra..].
    assert (TM : 1 <= time_to_max 500 1000 (1/2)).
    { unfold time_to_max. replace (1000/500) with 2 by field. apply le_div. rewrite <- ln_1. apply ln_increasing; lra.
      rewrite Rmult_1_l. left. apply ln_increasing; lra. }
    destruct (Rlt_dec (1/2) (time_to_max 500 1000 (1/2))); [|lra]. eexists. split; reflexivity. }
  destruct E as (s' & E & G). pose proof (spot_age_of _ _ _ _ ex_sq_of T) as A. rewrite E in A.
  apply alike_ok in A. destruct A as (q & Q & K). exists q. split; [exact Q|].
  destruct K as (_ & _ & _ & _ & _ & K & _). congruence.
Qed.
@THM C96_generator C96_gen_lemma
Example C96_generator_nonvacuous : exists q, gen_of q ex_sg
  /\ is_of (qmk (Fin 1440) u_min) (Fin 1) u_day /\ is_of (qmk (Fin (RSUN_KM/2)) u_km) (Fin (1/2)) u_Rsun.
Proof.
  exists (mkSpotGenQ (qmk (Fin (500 * usize u_MSH)) u_km2) (qmk (Fin (1/48)) (u_per u_hr))
           (qmk (Fin (10/24)) (u_times u_MSH (u_per u_hr))) (qmk (Fin (100 * usize u_MSH)) u_km2) (sg_coverage ex_sg)).
  split; [|split; conv].
  unfold gen_of. cbn [gq_mean gq_growth gq_decay gq_init gq_coverage].
  split; [apply ex_MSH_km2|]. split; [conv|]. split; [conv|]. split; [apply ex_MSH_km2|reflexivity].
Qed.

(** C97: a facula measured in solar radii, with its lifetime in days and the clock in hours *)
@THM C97_faculae C97_facs_lemma
Definition ex_fq : facq :=
  mkFacQ (qmk (Fin (spiral_lat 6 0)) u_rad) (qmk (Fin 0) u_deg) (qmk (Fin (1000/RSUN_KM)) u_Rsun)
    (qmk (Fin (1000/RSUN_KM)) u_Rsun) (qmk (Fin (100/RSUN_KM)) u_Rsun) (qmk (Fin (6/24)) u_day)
    (qmk (Fin 0) (u_times u_K (u_per u_km))) (qmk (Fin (20/RSUN_KM)) u_Rsun) (qmk (Fin (-100)) u_K)
    (qmk (Fin 0) (u_times u_K (u_per u_km))) (qmk (Fin 300) u_K) false.
Example C97_nonvacuous : fac_of u_hr ex_fq (ex_facula 6 300)
  /\ udim u_hr = DTime /\ 0 < usize u_hr /\ is_of (qmk (Fin (1/12)) u_day) (Fin 2) u_hr.
Proof.
  split; [|split; [reflexivity|split; [apply hr_pos|conv]]].
  unfold fac_of, ex_fq, ex_facula. cbn [fq_lat fq_lon fq_rmax fq_radius fq_depth fq_life fq_fslope fq_fminrad fq_fbase fq_wslope fq_wint fq_growing
    fc_lat fc_lon fc_rmax fc_radius fc_depth fc_life fc_fslope fc_fminrad fc_fbase fc_wslope fc_wint fc_growing].
  repeat match goal with |- _ /\ _ => split end; try conv. reflexivity.
Qed.
@THM C97_generator C97_gen_lemma
Example C97_generator_nonvacuous : exists qr ql f d,
  is_of qr (fg_rpeak ex_fg) u_km /\ is_of ql (fg_lifepeak ex_fg) u_hr /\ nth_error (fg_generate ex_fg 3 d) 1 = Some f.
Proof.
  exists (qmk (Fin (100/RSUN_KM)) u_Rsun), (qmk (Fin (6/24)) u_day). eexists.
  exists (mkFDraws (fun _ => 0) (fun _ => 0) (fun _ => 0)).
  split; [change (fg_rpeak ex_fg) with (Fin 100); conv|]. split; [change (fg_lifepeak ex_fg) with (Fin 6); conv|]. reflexivity.
Qed.

(** C98: a flare with its width in minutes and its energy in joule *)
@THM C98_flares C98_flares_lemma
Definition u_joule : uni := mkUni (10^7 * usize u_erg) DEnergy.
Example C98_flares_nonvacuous : exists q,
  flare_of q ex_flare /\ is_of (qmk (Fin 24) u_hr) (Fin 1) u_day.
Proof.
  exists (mkFlareQ (qmk (Fin 360) u_min) (qmk (Fin (10^27)) u_joule) (qmk (Fin 9000) u_K) (qmk (Fin 24) u_hr)).
  split; [|conv]. unfold flare_of, ex_flare. cbn [lq_fwhm lq_energy lq_teff lq_tpeak fl_fwhm fl_energy fl_teff fl_tpeak].
  split; [conv|]. split; [|split; conv].
  apply ex_convert; [reflexivity|cbn [usize u_joule]; pose proof erg_pos; lra|apply erg_pos|cbn [usize u_joule]; ring].
Qed.
Example C98_timearea_nonvacuous : exists areas, areacurve ex_flare (map (fun t => t * usize u_hr) [0; 12; 24; 36]) = Ok areas
  /\ udim u_hr = DTime /\ 0 < usize u_hr.
Proof. eexists. split; [reflexivity|]. split; [reflexivity|apply hr_pos]. Qed.
@THM C98_flare_generator C98_flaregen_lemma
Example C98_generator_nonvacuous : exists m fw te s X es l l',
  is_of m (lg_min_energy ex_lg) u_erg /\ is_of fw (lg_fwhm_mean ex_lg) u_day
  /\ is_of te (lg_teff_mean ex_lg) u_K /\ is_of s (Fin (lg_teff_sigma ex_lg)) u_K
  /\ quantile_func ex_lg X = Ok es /\ X <> [] /\ gen_fwhm ex_lg 3 (fun _ => 1) = Ok l
  /\ gen_teffs ex_lg 3 (fun _ => 1) = Ok l'.
Proof.
  exists (qmk (Fin (10^26)) u_joule), (qmk (Fin 3) u_hr), (qmk (Fin 9) (mkUni 1000 DTemp)), (qmk (Fin 500) u_K), [1/2].
  do 3 eexists.
  split. { apply ex_convert; [reflexivity|cbn [usize u_joule]; pose proof erg_pos; lra|apply erg_pos|cbn [usize u_joule]; ring]. }
  split; [change (lg_fwhm_mean ex_lg) with (Fin (1/8)); conv|].
  split; [change (lg_teff_mean ex_lg) with (Fin 9000); conv|].
  split; [change (lg_teff_sigma ex_lg) with 500; conv|].
  split. { unfold quantile_func. cbn [forallb]. change (lg_alpha ex_lg) with (- (829/1000)).
    rewrite (proj2 (Rleb_true 0 (1/2))), (proj2 (Rltb_true (1/2) 1)), (proj2 (Reqb_false (- (829/1000)) 0)) by lra. reflexivity. }
  split; [discriminate|]. split.
  - unfold gen_fwhm. change (lg_fwhm_is_time ex_lg) with true. change (lg_fwhm_logsigma ex_lg) with (3/10).
    rewrite (proj2 (Rltb_false (3/10) 0)) by lra. reflexivity.
  - unfold gen_teffs. change (lg_teff_sigma ex_lg) with 500. rewrite (proj2 (Rltb_false 500 0)) by lra. reflexivity.
Qed.
@THM C98_sky C98_sky_lemma
Example C98_sky_nonvacuous : forall s, st_radius s = 1 ->
  is_of (qmk (Fin RSUN_KM) u_km) (Fin (st_radius s)) u_Rsun /\ is_of (qmk (Fin (20 * RSUN_KM)) u_km) (Fin 20) u_Rsun
  /\ is_of (qmk (Fin 180) u_deg) (Fin PI) u_rad /\ is_of (qmk (Fin 90) u_deg) (Fin (PI/2)) u_rad.
Proof. intros s ->. split; [conv|]. split; [conv|]. split; conv. Qed.

(** C99: a growing spot asked to age by 3 km; a planet with its radius in hours *)
@THM C99_wrong_kind C99_wrong_kind_lemma
Example C99_nonvacuous : spot_of ex_sq ex_spot30 /\ sp_growth_dim ex_spot30 = (-1)%Z
  /\ qd (qmk (Fin 3) u_km) <> DTime /\ qd (qmk (Fin 3) u_hr) <> DLen /\ qd (qmk (Fin 3) u_km) <> DAng
  /\ sq_age ex_sq (qmk (Fin 3) u_km) = Raise UnitConversionError.
Proof.
  assert (A : qd (qmk (Fin 3) u_km) <> DTime) by (intro E; apply (f_equal e_len) in E; simpl in E; lra).
  split; [apply ex_sq_of|]. split; [reflexivity|]. split; [exact A|].
  split; [intro E; apply (f_equal e_len) in E; simpl in E; lra|].
  split; [intro E; apply (f_equal e_len) in E; simpl in E; lra|].
  apply (spot_age_bad ex_sq ex_spot30); [apply ex_sq_of|reflexivity|exact A].
Qed.
@THM C99_surprises C99_surprises_lemma
