(** Properties C96-C99: units of measure *)
From Coq Require Import Reals ZArith Bool String List Lra Lia.
From Coquelicot Require Import Coquelicot.
From Verif Require Import Num Py MConfig MHelpers MGrid MSpots MFaculae MXoflares MFlares MGranules MStar MUnits
  Spec SpecStar SpecUnits LBase LUnits LUnitSame LUnitEval LUnitFac LUnitFlare LUnitBad LSpotAge LSpotCov LSpotGen LAge
  PropsSpotGen PropsFac PropsFlare PropsStar.
Import ListNotations.
Open Scope R_scope.

(** the same quantity in two units of the same kind *)
Lemma ex_convert : forall v x u w, udim u = udim w -> 0 < usize u -> 0 < usize w -> x * usize u = v * usize w ->
  is_of (qmk (Fin x) u) (Fin v) w.
Proof. intros v x u w D P Q E. unfold is_of, same. cbn [qmk qd qs qv]. repeat split; auto. simpl. now rewrite E. Qed.
Lemma ex_MSH_km2 : forall v, is_of (qmk (Fin (v * usize u_MSH)) u_km2) (Fin v) u_MSH.
Proof. intro v. apply ex_convert; [reflexivity|apply km2_pos|apply msh_pos|simpl; ring]. Qed.
Ltac conv := apply ex_convert; [cbv [udim u_times u_per u_daypow u_deg u_rad u_hr u_day u_MSH u_km u_K u_Rsun u_erg u_min]; try reflexivity
  | | | cbn [usize u_deg u_rad u_hr u_day u_MSH u_per u_times u_daypow u_km u_K u_Rsun u_erg u_min]; unfold RSUN_KM; try field];
  try (cbn [usize u_deg u_rad u_hr u_day u_MSH u_per u_times u_daypow u_km u_K u_Rsun u_erg u_min]; unfold RSUN_KM; pose proof PI_RGT_0; lra).

(** C96: a spot with latitude in degrees, areas in km^2 and rates per hour, aged 12 hours *)
Theorem C96_spots :
  (forall q q' t t', same_spot q q' -> same t t' -> alike same_spot (sq_age q t) (sq_age q' t'))
  /\ (forall l l' t t', Forall2 same_spot l l' -> same t t' ->
        alike (Forall2 same_spot) (sq_collection_age l t) (sq_collection_age l' t'))
  /\ (forall q q' r r' a a' o o', same_spot q q' -> same r r' -> same a a' -> same o o' ->
        alike same (sq_radius q) (sq_radius q')
        /\ alike same (sq_angular_radius q r) (sq_angular_radius q' r')
        /\ alike eq (sq_covers q r a o) (sq_covers q' r' a' o'))
  /\ (forall q s t d, spot_of q s -> is_of t d u_day -> alike spot_of (sq_age q t) (spot_age s d))
  /\ (forall l c t d, Forall2 spot_of l (sc_spots c) -> is_of t d u_day ->
        alike (fun l' c' => Forall2 spot_of l' (sc_spots c')) (sq_collection_age l t) (sc_age c d))
  /\ (forall q s qr r qa qo p, spot_of q s -> is_of qr (Fin r) u_Rsun ->
        is_of qa (Fin (fst p)) u_rad -> is_of qo (Fin (snd p)) u_rad ->
        alike (fun q v => is_of q v u_km) (sq_radius q) (Ok (spot_radius s))
        /\ alike (fun q v => is_of q v u_rad) (sq_angular_radius q qr) (Ok (spot_angular_radius s r))
        /\ sq_covers q qr qa qo
           = Ok (nlt (haversine (sp_lat s) (sp_lon s) p) (ndiv (spot_angular_radius s r) (nsqrt (sp_ratio s))),
                 nlt (haversine (sp_lat s) (sp_lon s) p) (spot_angular_radius s r))).
Proof. exact C96_spots_lemma. Qed.
Print Assumptions C96_spots.
Definition ex_sq : spotq :=
  mkSpotQ (qmk (Fin 30) u_deg) (qmk (Fin 0) u_deg) (qmk (Fin (1000 * usize u_MSH)) u_km2)
    (qmk (Fin (500 * usize u_MSH)) u_km2) (Fin 5) true
    (qmk (Fin (1/48)) (u_per u_hr)) (qmk (Fin (10/24)) (u_times u_MSH (u_per u_hr))).
Definition ex_spot30 : spot :=
  spot_init (PI/6) 0 (Fin 1000) (Fin 500) (Fin 2500) (Fin 2700) (Fin 5) true (Fin (1/2)) (-1) (Fin 10) (Spiral 6).
Lemma ex_sq_of : spot_of ex_sq ex_spot30.
Proof.
  unfold spot_of, ex_sq, ex_spot30, spot_init, spot_set_gridmaker. cbn [sq_lat sq_lon sq_amax sq_area sq_ratio sq_growing sq_growth sq_decay
    sp_lat sp_lon sp_area_max sp_area sp_ratio sp_growing sp_growth sp_growth_dim sp_decay].
  split; [conv|]. split; [conv|]. split; [apply ex_MSH_km2|]. split; [apply ex_MSH_km2|]. split; [reflexivity|].
  split; [reflexivity|]. split; conv.
Qed.
Example C96_nonvacuous :
  spot_of ex_sq ex_spot30 /\ is_of (qmk (Fin 12) u_hr) (Fin (1/2)) u_day
  /\ is_of (qmk (Fin RSUN_KM) u_km) (Fin 1) u_Rsun
  /\ exists q, sq_age ex_sq (qmk (Fin 12) u_hr) = Ok q /\ sq_growing q = true.
Proof.
  split; [apply ex_sq_of|]. split; [conv|]. split; [conv|].
  assert (T : is_of (qmk (Fin 12) u_hr) (Fin (1/2)) u_day) by conv.
  assert (E : exists s', spot_age ex_spot30 (Fin (1/2)) = Ok s' /\ sp_growing s' = true).
  { rewrite (spot_age_growing ex_spot30 500 1000 (1/2) 10); [|repeat split|reflexivity|lra..].
    assert (TM : 1 <= time_to_max 500 1000 (1/2)).
    { unfold time_to_max. replace (1000/500) with 2 by field. apply le_div. rewrite <- ln_1. apply ln_increasing; lra.
      rewrite Rmult_1_l. left. apply ln_increasing; lra. }
    destruct (Rlt_dec (1/2) (time_to_max 500 1000 (1/2))); [|lra]. eexists. split; reflexivity. }
  destruct E as (s' & E & G). pose proof (spot_age_of _ _ _ _ ex_sq_of T) as A. rewrite E in A.
  apply alike_ok in A. destruct A as (q & Q & K). exists q. split; [exact Q|].
  destruct K as (_ & _ & _ & _ & _ & K & _). congruence.
Qed.
Theorem C96_generator :
  (forall q q' t t' r r' sigma z, same_gen q q' -> same t t' -> same r r' ->
     gq_is_static q = gq_is_static q'
     /\ alike same (gq_mean_lifetime q) (gq_mean_lifetime q') /\ alike same (gq_mean_area q) (gq_mean_area q')
     /\ alike eq (gq_n_expected q t r) (gq_n_expected q' t' r')
     /\ alike same (gq_max_area q sigma z) (gq_max_area q' sigma z))
  /\ (forall q g qt t qr r sigma z, gen_of q g -> is_of qt t u_day -> is_of qr (Fin r) u_Rsun ->
        gq_is_static q = sg_is_static g
        /\ alike (fun q v => is_of q v u_day) (gq_mean_lifetime q) (sg_mean_lifetime g)
        /\ alike (fun q v => is_of q v u_MSH) (gq_mean_area q) (sg_mean_area g)
        /\ alike eq (gq_n_expected q qt qr) (sg_n_expected g t r)
        /\ alike (fun q v => is_of q v u_MSH) (gq_max_area q sigma z)
                 (Ok (nexp (nadd (nln (sg_mean g)) (Fin (sigma * z)))))).
Proof. exact C96_gen_lemma. Qed.
Print Assumptions C96_generator.
Example C96_generator_nonvacuous : exists q, gen_of q ex_sg
  /\ is_of (qmk (Fin 1440) u_min) (Fin 1) u_day /\ is_of (qmk (Fin (RSUN_KM/2)) u_km) (Fin (1/2)) u_Rsun.
Proof.
  exists (mkSpotGenQ (qmk (Fin (500 * usize u_MSH)) u_km2) (qmk (Fin (1/48)) (u_per u_hr))
           (qmk (Fin (10/24)) (u_times u_MSH (u_per u_hr))) (qmk (Fin (100 * usize u_MSH)) u_km2) (sg_coverage ex_sg)).
  split; [|split; conv].
  unfold gen_of. cbn [gq_mean gq_growth gq_decay gq_init gq_coverage].
  split; [apply ex_MSH_km2|]. split; [conv|]. split; [conv|]. split; [apply ex_MSH_km2|reflexivity].
Qed.

(** C97: a facula measured in solar radii, with its lifetime in days and the clock in hours *)
Theorem C97_faculae :
  (forall q q' t t', same_fac q q' -> same t t' -> alike same_fac (fq_age q t) (fq_age q' t'))
  /\ (forall l l' t t', Forall2 same_fac l l' -> same t t' ->
        alike (Forall2 same_fac) (fq_collection_age l t) (fq_collection_age l' t'))
  /\ (forall q q' r r' a a' o o' x x', same_fac q q' -> same r r' -> same a a' -> same o o' -> same x x' ->
        alike same (fq_floor_dteff q) (fq_floor_dteff q') /\ alike same (fq_wall_dteff q) (fq_wall_dteff q')
        /\ alike (Forall2 same_kv) (fq_effective_area q x) (fq_effective_area q' x')
        /\ alike eq (fq_fractional_area q x) (fq_fractional_area q' x')
        /\ same (fq_angular_radius q r) (fq_angular_radius q' r')
        /\ alike eq (fq_covers q r a o) (fq_covers q' r' a' o'))
  /\ (forall u q f t d, udim u = DTime -> 0 < usize u -> fac_of u q f -> is_of t d u ->
        alike (fac_of u) (fq_age q t) (Ok (fac_age f d)))
  /\ (forall u l c t d, udim u = DTime -> 0 < usize u -> Forall2 (fac_of u) l (fcc_facs c) -> is_of t d u ->
        alike (fun l' c' => Forall2 (fac_of u) l' (fcc_facs c')) (fq_collection_age l t) (Ok (fcc_age c d)))
  /\ (forall u q f qr r qa qo p qx x, fac_of u q f -> is_of qr (Fin r) u_km ->
        is_of qa (Fin (fst p)) u_rad -> is_of qo (Fin (snd p)) u_rad -> is_of qx x u_rad ->
        alike (fun q v => is_of q v u_K) (fq_floor_dteff q) (Ok (fac_floor_dteff f))
        /\ alike (fun q v => is_of q v u_K) (fq_wall_dteff q) (Ok (fac_wall_dteff f))
        /\ alike (Forall2 (kv_of u_km2)) (fq_effective_area q qx) (fac_effective_area f x)
        /\ fq_fractional_area q qx = fac_fractional_area f x
        /\ is_of (fq_angular_radius q qr) (fac_angular_radius f r) u_deg
        /\ fq_covers q qr qa qo
           = Ok (nle (haversine (fc_lat f) (fc_lon f) p) (nmul (fac_angular_radius f r) (Fin (PI/180))))).
Proof. exact C97_facs_lemma. Qed.
Print Assumptions C97_faculae.
Definition ex_fq : facq :=
  mkFacQ (qmk (Fin (spiral_lat 6 0)) u_rad) (qmk (Fin 0) u_deg) (qmk (Fin (1000/RSUN_KM)) u_Rsun)
    (qmk (Fin (1000/RSUN_KM)) u_Rsun) (qmk (Fin (100/RSUN_KM)) u_Rsun) (qmk (Fin (6/24)) u_day)
    (qmk (Fin 0) (u_times u_K (u_per u_km))) (qmk (Fin (20/RSUN_KM)) u_Rsun) (qmk (Fin (-100)) u_K)
    (qmk (Fin 0) (u_times u_K (u_per u_km))) (qmk (Fin 300) u_K) false.
Example C97_nonvacuous : fac_of u_hr ex_fq (ex_facula 6 300)
  /\ udim u_hr = DTime /\ 0 < usize u_hr /\ is_of (qmk (Fin (1/12)) u_day) (Fin 2) u_hr.
Proof.
  split; [|split; [reflexivity|split; [apply hr_pos|conv]]].
  unfold fac_of, ex_fq, ex_facula. cbn [fq_lat fq_lon fq_rmax fq_radius fq_depth fq_life fq_fslope fq_fminrad fq_fbase fq_wslope fq_wint fq_growing
    fc_lat fc_lon fc_rmax fc_radius fc_depth fc_life fc_fslope fc_fminrad fc_fbase fc_wslope fc_wint fc_growing].
  repeat match goal with |- _ /\ _ => split end; try conv. reflexivity.
Qed.
Theorem C97_generator :
  (forall c p p' l l' t t' r r', same p p' -> same l l' -> same t t' -> same r r' ->
     alike eq (gfq_n_expected c p l t r) (gfq_n_expected c p' l' t' r'))
  /\ (forall u g qr ql qt t qR r, udim u = DTime -> 0 < usize u ->
        is_of qr (fg_rpeak g) u_km -> is_of ql (fg_lifepeak g) u -> is_of qt t u -> is_of qR (Fin r) u_km ->
        gfq_n_expected (fg_coverage g) qr ql qt qR = Ok (fg_n_expected g t r))
  /\ (forall u qr ql g n d i f, 0 < usize u -> is_of qr (fg_rpeak g) u_km -> is_of ql (fg_lifepeak g) u ->
        nth_error (fg_generate g n d) i = Some f ->
        let '(rmax, r, life) := gfq_new qr ql (fg_rlogsigma g) (fg_lifelogsigma g) (fd_z d i) in
        is_of rmax (fc_rmax f) u_km /\ is_of r (fc_radius f) u_km /\ is_of life (fc_life f) u).
Proof. exact C97_gen_lemma. Qed.
Print Assumptions C97_generator.
Example C97_generator_nonvacuous : exists qr ql f d,
  is_of qr (fg_rpeak ex_fg) u_km /\ is_of ql (fg_lifepeak ex_fg) u_hr /\ nth_error (fg_generate ex_fg 3 d) 1 = Some f.
Proof.
  exists (qmk (Fin (100/RSUN_KM)) u_Rsun), (qmk (Fin (6/24)) u_day). eexists.
  exists (mkFDraws (fun _ => 0) (fun _ => 0) (fun _ => 0)).
  split; [change (fg_rpeak ex_fg) with (Fin 100); conv|]. split; [change (fg_lifepeak ex_fg) with (Fin 6); conv|]. reflexivity.
Qed.

(** C98: a flare with its width in minutes and its energy in joule *)
Theorem C98_flares :
  (forall q q' a a' b b', same_flare q q' -> same a a' -> same b b' ->
     alike same (lq_peak_area q) (lq_peak_area q') /\ alike eq (lq_curve_args q) (lq_curve_args q')
     /\ alike eq (lq_in_period q a b) (lq_in_period q' a' b') /\ alike eq (q_samples a b) (q_samples a' b'))
  /\ (forall q f qa a qb b, flare_of q f -> is_of qa (Fin a) u_day -> is_of qb (Fin b) u_day ->
        alike (fun q v => is_of q v u_km2) (lq_peak_area q) (Ok (peak_area f))
        /\ lq_curve_args q = Ok (Fin (fl_tpeak f), fl_fwhm f, peak_area f)
        /\ lq_in_period q qa qb
           = Ok (ngt (nadd (Fin (fl_tpeak f)) (nmul (Fin 20) (fl_fwhm f))) (Fin a)
                 && nlt (nsub (Fin (fl_tpeak f)) (nmul (Fin 10) (fl_fwhm f))) (Fin b))
        /\ q_samples qa qb = Ok (Fin ((b - a) / TEN_MIN)))
  /\ (forall f u ts areas, udim u = DTime -> 0 < usize u ->
        areacurve f (map (fun t => t * usize u) ts) = Ok areas ->
        exists v, get_timearea f (map (fun t => t * usize u) ts) = Ok v
        /\ alike (fun q v => is_of q v u_hrkm2) (q_timearea areas (map Fin ts) (usize u) (udim u)) (Ok v)).
Proof. exact C98_flares_lemma. Qed.
Print Assumptions C98_flares.
Definition u_joule : uni := mkUni (10^7 * usize u_erg) DEnergy.
Example C98_flares_nonvacuous : exists q,
  flare_of q ex_flare /\ is_of (qmk (Fin 24) u_hr) (Fin 1) u_day.
Proof.
  exists (mkFlareQ (qmk (Fin 360) u_min) (qmk (Fin (10^27)) u_joule) (qmk (Fin 9000) u_K) (qmk (Fin 24) u_hr)).
  split; [|conv]. unfold flare_of, ex_flare. cbn [lq_fwhm lq_energy lq_teff lq_tpeak fl_fwhm fl_energy fl_teff fl_tpeak].
  split; [conv|]. split; [|split; conv].
  apply ex_convert; [reflexivity|cbn [usize u_joule]; pose proof erg_pos; lra|apply erg_pos|cbn [usize u_joule]; ring].
Qed.
Example C98_timearea_nonvacuous : exists areas, areacurve ex_flare (map (fun t => t * usize u_hr) [0; 12; 24; 36]) = Ok areas
  /\ udim u_hr = DTime /\ 0 < usize u_hr.
Proof. eexists. split; [reflexivity|]. split; [reflexivity|apply hr_pos]. Qed.
Theorem C98_flare_generator :
  (forall al be e e' t t' m m', same e e' -> same t t' -> same m m' ->
     alike same (lgq_frequency al be e) (lgq_frequency al be e')
     /\ alike eq (lgq_nexp al be e t) (lgq_nexp al be e' t')
     /\ alike eq (lgq_cdf al m e) (lgq_cdf al m' e')
     /\ (forall x, same (lgq_quantile al m x) (lgq_quantile al m' x))
     /\ (forall s z, alike same (lgq_fwhm t s z) (lgq_fwhm t' s z)))
  /\ (forall m m' s s' z, same m m' -> same s s' -> alike same (lgq_teff m s z) (lgq_teff m' s' z))
  /\ (forall g m e v qt t, is_of m (lg_min_energy g) u_erg -> is_of e v u_erg -> is_of qt t u_day ->
        alike (fun q v => is_of q v (u_per u_day)) (lgq_frequency (lg_alpha g) (lg_beta g) e) (Ok (frequency_gt g v))
        /\ lgq_nexp (lg_alpha g) (lg_beta g) e qt = Ok (nexp_gt g v t)
        /\ lgq_cdf (lg_alpha g) m e = Ok (flare_cdf g v)
        /\ (forall X es, quantile_func g X = Ok es ->
              Forall2 (fun x E => is_of (lgq_quantile (lg_alpha g) m x) E u_erg) X es))
  /\ (forall g m n z l, is_of m (lg_fwhm_mean g) u_day -> gen_fwhm g n z = Ok l ->
        map (fun i => lgq_fwhm m (lg_fwhm_logsigma g) (z i)) (seq 0 n) = map (fun w => Ok (qmk w u_day)) l)
  /\ (forall g m s n z l, is_of m (lg_teff_mean g) u_K -> is_of s (Fin (lg_teff_sigma g)) u_K ->
        gen_teffs g n z = Ok l ->
        map (fun i => lgq_teff m s (z i)) (seq 0 n) = map (fun w => Ok (qmk w u_K)) l).
Proof. exact C98_flaregen_lemma. Qed.
Print Assumptions C98_flare_generator.
Example C98_generator_nonvacuous : exists m fw te s X es l l',
  is_of m (lg_min_energy ex_lg) u_erg /\ is_of fw (lg_fwhm_mean ex_lg) u_day
  /\ is_of te (lg_teff_mean ex_lg) u_K /\ is_of s (Fin (lg_teff_sigma ex_lg)) u_K
  /\ quantile_func ex_lg X = Ok es /\ X <> [] /\ gen_fwhm ex_lg 3 (fun _ => 1) = Ok l
  /\ gen_teffs ex_lg 3 (fun _ => 1) = Ok l'.
Proof.
  exists (qmk (Fin (10^26)) u_joule), (qmk (Fin 3) u_hr), (qmk (Fin 9) (mkUni 1000 DTemp)), (qmk (Fin 500) u_K), [1/2].
  do 3 eexists.
  split. { apply ex_convert; [reflexivity|cbn [usize u_joule]; pose proof erg_pos; lra|apply erg_pos|cbn [usize u_joule]; ring]. }
  split; [change (lg_fwhm_mean ex_lg) with (Fin (1/8)); conv|].
  split; [change (lg_teff_mean ex_lg) with (Fin 9000); conv|].
  split; [change (lg_teff_sigma ex_lg) with 500; conv|].
  split. { unfold quantile_func. cbn [forallb]. change (lg_alpha ex_lg) with (- (829/1000)).
    rewrite (proj2 (Rleb_true 0 (1/2))), (proj2 (Rltb_true (1/2) 1)), (proj2 (Reqb_false (- (829/1000)) 0)) by lra. reflexivity. }
  split; [discriminate|]. split.
  - unfold gen_fwhm. change (lg_fwhm_is_time ex_lg) with true. change (lg_fwhm_logsigma ex_lg) with (3/10).
    rewrite (proj2 (Rltb_false (3/10) 0)) by lra. reflexivity.
  - unfold gen_teffs. change (lg_teff_sigma ex_lg) with 500. rewrite (proj2 (Rltb_false 500 0)) by lra. reflexivity.
Qed.
Theorem C98_sky :
  (forall a a' b b' c c' d d', same a a' -> same b b' -> same c c' -> same d d' ->
     alike same (q_angle_between a b c d) (q_angle_between a' b' c' d')
     /\ alike same (q_haversine a b c d) (q_haversine a' b' c' d')
     /\ alike same (q_clip_teff a) (q_clip_teff a'))
  /\ (forall r r' o o' p p' ph ph' i i',
        same r r' -> same o o' -> same p p' -> same ph ph' -> same i i' ->
        alike eq (q_planet r o p ph i) (q_planet r' o' p' ph' i'))
  /\ (forall qa qb qc qd a b c d,
        is_of qa (Fin a) u_rad -> is_of qb (Fin b) u_rad -> is_of qc (Fin c) u_rad -> is_of qd (Fin d) u_rad ->
        alike (fun q v => is_of q v u_rad) (q_angle_between qa qb qc qd) (Ok (get_angle_between a b c d))
        /\ alike (fun q v => is_of q v u_rad) (q_haversine qa qb qc qd) (Ok (haversine a b (c, d))))
  /\ (forall q t, is_of q t u_K -> alike (fun q v => is_of q v u_K) (q_clip_teff q) (Ok (clip_teff t)))
  /\ (forall s qr qo orbit qp planet qph phase qi incl,
        is_of qr (Fin (st_radius s)) u_Rsun -> is_of qo (Fin orbit) u_Rsun -> is_of qp (Fin planet) u_Rsun ->
        is_of qph (Fin phase) u_rad -> is_of qi (Fin incl) u_rad ->
        q_planet qr qo qp qph qi
        = Ok (Rltb 0 (cos phase), (planet_xy s orbit (phase - PI) incl, ndiv (Fin planet) (Fin (st_radius s))))).
Proof. exact C98_sky_lemma. Qed.
Print Assumptions C98_sky.
Example C98_sky_nonvacuous : forall s, st_radius s = 1 ->
  is_of (qmk (Fin RSUN_KM) u_km) (Fin (st_radius s)) u_Rsun /\ is_of (qmk (Fin (20 * RSUN_KM)) u_km) (Fin 20) u_Rsun
  /\ is_of (qmk (Fin 180) u_deg) (Fin PI) u_rad /\ is_of (qmk (Fin 90) u_deg) (Fin (PI/2)) u_rad.
Proof. intros s ->. split; [conv|]. split; [conv|]. split; conv. Qed.

(** C99: a growing spot asked to age by 3 km; a planet with its radius in hours *)
Theorem C99_wrong_kind :
  (forall q s t, spot_of q s -> sp_growth_dim s = (-1)%Z -> qd t <> DTime ->
     sq_age q t = Raise UnitConversionError)
  /\ (forall q s qr qa a qo o, spot_of q s -> is_of qa (Fin a) u_rad -> is_of qo (Fin o) u_rad -> qd qr <> DLen ->
        sq_angular_radius q qr = Raise UnitConversionError /\ sq_covers q qr qa qo = Raise UnitConversionError)
  /\ (forall q g qt qr, gen_of q g -> qd qt = DTime /\ qd qr <> DLen \/ qd qt <> DTime /\ qd qr = DLen ->
        exists e, gq_n_expected q qt qr = Raise e)
  /\ (forall u q f t, udim u = DTime -> fac_of u q f -> qd t <> DTime ->
        fq_age q t = Raise (if fc_growing f then UnitConversionError else UnitTypeError))
  /\ (forall u q f qr qa a qo o, fac_of u q f -> is_of qa (Fin a) u_rad -> is_of qo (Fin o) u_rad -> qd qr <> DLen ->
        fq_covers q qr qa qo = Raise UnitConversionError)
  /\ (forall u cov qr r ql l qt qR, udim u = DTime -> is_of qr r u_km -> is_of ql l u ->
        qd qt = DTime /\ qd qR <> DLen \/ qd qt <> DTime /\ qd qR = DLen ->
        gfq_n_expected cov qr ql qt qR = Raise UnitConversionError)
  /\ (forall q f qa qb, flare_of q f ->
        qd qa <> DTime \/ (exists a, is_of qa (Fin a) u_day) /\ qd qb <> DTime ->
        lq_in_period q qa qb = Raise UnitConversionError)
  /\ (forall q f e, flare_of q f -> qd e <> DEnergy ->
        lq_curve_args (mkFlareQ (lq_fwhm q) e (lq_teff q) (lq_tpeak q)) = Raise UnitConversionError)
  /\ (forall al be e qt, qd e <> DEnergy \/ (exists v, is_of e v u_erg) /\ qd qt <> DTime ->
        lgq_nexp al be e qt = Raise UnitConversionError)
  /\ (forall qr r qo o qp qph ph qi i,
        is_of qr (Fin r) u_Rsun -> is_of qo (Fin o) u_Rsun -> is_of qph (Fin ph) u_rad -> is_of qi (Fin i) u_rad ->
        (qd qp <> DLen -> q_planet qr qo qp qph qi = Raise UnitConversionError)
        /\ (forall x, qd x <> DLen -> q_planet qr x qp qph qi = Raise UnitConversionError)
        /\ (forall x, qd x <> DAng -> q_planet qr qo qp x qi = Raise UnitTypeError)
        /\ (forall x, qd x <> DAng -> q_planet qr qo qp qph x = Raise UnitTypeError))
  /\ (forall a b c x, qd x <> DAng -> q_angle_between x a b c = Raise UnitTypeError)
  /\ (forall q, qd q <> DTemp -> q_clip_teff q = Raise UnitConversionError).
Proof. exact C99_wrong_kind_lemma. Qed.
Print Assumptions C99_wrong_kind.
Example C99_nonvacuous : spot_of ex_sq ex_spot30 /\ sp_growth_dim ex_spot30 = (-1)%Z
  /\ qd (qmk (Fin 3) u_km) <> DTime /\ qd (qmk (Fin 3) u_hr) <> DLen /\ qd (qmk (Fin 3) u_km) <> DAng
  /\ sq_age ex_sq (qmk (Fin 3) u_km) = Raise UnitConversionError.
Proof.
  assert (A : qd (qmk (Fin 3) u_km) <> DTime) by (intro E; apply (f_equal e_len) in E; simpl in E; lra).
  split; [apply ex_sq_of|]. split; [reflexivity|]. split; [exact A|].
  split; [intro E; apply (f_equal e_len) in E; simpl in E; lra|].
  split; [intro E; apply (f_equal e_len) in E; simpl in E; lra|].
  apply (spot_age_bad ex_sq ex_spot30); [apply ex_sq_of|reflexivity|exact A].
Qed.
Theorem C99_surprises :
  (forall q z, qv q = Fin z ->
     exists n, q_round_teff q = Ok (mkQ (Fin (IZR n)) (qs q) (qd q)) /\ Rabs (IZR n - z) <= 1/2)
  /\ (exists q q' a b, same q q' /\ q_round_teff q = Ok a /\ q_round_teff q' = Ok b /\ ~ same a b)
  /\ (forall g m e v, is_of m (lg_min_energy g) u_erg -> is_of e v u_erg ->
        lgq_pdf (lg_alpha g) m e = Raise UnitConversionError)
  /\ (forall a b, qd a <> qd b -> qeq a b = false)
  /\ (forall u cov qr r ql l, udim u = DTime -> is_of qr r u_km -> is_of ql l u ->
        exists qt qR v, qd qt <> DTime /\ qd qR <> DLen /\ gfq_n_expected cov qr ql qt qR = Ok v).
Proof. exact C99_surprises_lemma. Qed.
Print Assumptions C99_surprises.
