(** The repository's own tests, for the model: /repo/test/test_spots.py.
    Not transcribed: the numerical integrals over fine grids (test_spots.py:127-146, 155-158), and the two assertions that
    some random spot is larger than the initial size (test_spots.py:399, 404), which depend on the draws. *)
From Coq Require Import Reals ZArith Bool String List Lia Lra.
From Verif Require Import Num Py MConfig MHelpers MGrid MArgs MSpots MFormat Spec SpecStar LBase LHelpers LGrid LSpiral LSpotMap LSpotCov LSpotAge.
Import ListNotations.
Open Scope R_scope.

(** test_spots.py:15-47 [init_test_spot], with its default arguments *)
Definition tspot (lat lon : R) (amax a tu tp ratio : num) (growing : bool) (growth decay : num) (g : grid) : spot :=
  spot_init lat lon amax a tu tp ratio growing growth (-1) decay g.
(** test_spots.py:15-47 *)
Definition tdefault (g : grid) : spot :=
  tspot 0 0 (Fin 500) (Fin 400) (Fin 2700) (Fin 2500) (Fin 5) true (Fin 0) (Fin 0) g.
(** test_spots.py:15-47, with an area and a ratio *)
Definition tsized (a ratio : num) : spot := tspot 0 0 (Fin 500) a (Fin 2700) (Fin 2500) ratio true (Fin 0) (Fin 0) (Spiral 1000).

(** ** test_spot_init *)
Lemma tr_eq : forall lat lon amax a tu tp q gr gw d g,
  sp_r (tspot lat lon amax a tu tp q gr gw d g) = amap (fun p => Fin (acos (law_cos lat lon (fst p) (snd p)))) (grid_points g).
Proof. intros. cbn [tspot spot_init spot_set_gridmaker sp_r sp_lat sp_lon]. apply amap_ext. intros. apply haversine_eq. Qed.
Lemma big_INR : forall z, (0 <= z)%Z -> INR (Z.to_nat z) = IZR z.
Proof. intros. rewrite INR_IZR_INZ, Z2Nat.id; auto. Qed.
Lemma lat_sin : forall n i, (i < n)%nat -> sin (spiral_lat n i) = 1 - 2 * (INR i + 1/2) / INR n.
Proof.
  intros n i H. unfold spiral_lat, spiral_colat. rewrite sin_shift. apply cos_acos.
  assert (0 < INR n) by (apply lt_0_INR; lia). assert (INR i + 1 <= INR n) by (rewrite <- S_INR; apply le_INR; lia).
  pose proof (pos_INR i). assert (0 <= 2 * (INR i + 1/2) / INR n <= 2); [|lra].
  split. apply Rmult_le_pos; [lra|left; apply Rinv_0_lt_compat; auto].
  apply Rmult_le_reg_r with (INR n); auto. unfold Rdiv. rewrite Rmult_assoc, Rinv_l by lra. lra.
Qed.
(** test_spots.py:49-56 *)
Example test_spot_init_r : forall n, n = Z.to_nat 20000 ->
  (forall x, In x (cells (sp_r (tdefault (Spiral n)))) -> ngt x (Fin 0) = true /\ nlt x (Fin (deg2rad 180)) = true)
  /\ (exists x, In (Fin x) (cells (sp_r (tdefault (Spiral n)))) /\ 179 <= rad2deg x <= 181).
Proof.
  intros n N. unfold tdefault. rewrite tr_eq, cells_amap, spiral_points_eq. unfold cells. cbn [arows concat]. rewrite app_nil_r, map_map.
  assert (IN : INR n = 20000) by (subst; now apply big_INR).
  pose proof PI_RGT_0 as P. cbn [fst snd].
  assert (LC : forall lat lon, law_cos 0 0 lat lon = cos lat * cos lon).
  { intros. unfold law_cos. rewrite sin_0, cos_0. replace (0 - lon) with (- lon) by lra. rewrite cos_neg. lra. }
  split.
  - intros x I. apply in_map_iff in I. destruct I as (i & <- & I). apply in_seq in I. rewrite LC.
    assert (LI : (i < n)%nat) by lia.
    assert (SN : sin (spiral_lat n i) <> 0).
    { rewrite lat_sin, IN by auto. intro E. assert (Q : INR i * 2 = 19999) by lra. rewrite INR_IZR_INZ in Q.
      rewrite <- mult_IZR in Q. apply eq_IZR in Q. lia. }
    pose proof (spiral_lat_range n i LI) as LR. assert (C0 : 0 < cos (spiral_lat n i)) by (apply cos_gt_0; lra).
    assert (C1 : cos (spiral_lat n i) < 1). { pose proof (sin2_cos2 (spiral_lat n i)) as E. unfold Rsqr in E. nra. }
    pose proof (COS_bound (spiral_lon i)). set (m := cos (spiral_lat n i) * cos (spiral_lon i)).
    assert (M : -1 < m < 1) by (unfold m; nra). unfold ngt. rewrite !nlt_fin. unfold deg2rad.
    replace (180 * PI / 180) with PI by field. split.
    + rewrite <- acos_1. apply acos_lt; lra.
    + replace PI with (acos (-1)) by (replace (-1) with (- (1)) by lra; rewrite acos_opp, acos_1; lra). apply acos_lt; lra.
  - set (i := Z.to_nat 10031). assert (II : INR i = 10031) by (unfold i; now apply big_INR).
    assert (LI : (i < n)%nat) by (unfold i; subst n; apply Z2Nat.inj_lt; lia).
    exists (acos (law_cos 0 0 (spiral_lat n i) (spiral_lon i))). split.
    { apply in_map_iff. exists i. split; [reflexivity|]. apply in_seq. lia. }
    rewrite LC.
    assert (S5 : 2236067977 / 1000000000 < sqrt 5 < 2236067978 / 1000000000).
    { split; [rewrite <- (sqrt_pow2 (2236067977/1000000000)) by lra|rewrite <- (sqrt_pow2 (2236067978/1000000000)) by lra]; apply sqrt_lt_1_alt; lra. }
    assert (G : 1 / GOLDEN_RATIO = (sqrt 5 - 1) / 2).
    { unfold GOLDEN_RATIO. assert (Q : sqrt 5 * sqrt 5 = 5) by (apply sqrt_sqrt; lra). apply Rmult_eq_reg_r with (1/2 * (1 + sqrt 5)); [|lra].
      replace (1 / (1/2 * (1 + sqrt 5)) * (1/2 * (1 + sqrt 5))) with 1 by (field; lra). lra. }
    set (q := 10031 * ((sqrt 5 - 1) / 2)).
    assert (Q : 6199 + 4989/10000 < q < 6199 + 1/2) by (unfold q; lra).
    assert (LO : spiral_lon i = 2 * PI * (q - 6199)).
    { unfold spiral_lon, rmod. rewrite II. replace (2 * PI * 10031 / GOLDEN_RATIO) with (2 * PI * q) by (unfold q; rewrite <- G; field; unfold GOLDEN_RATIO; lra).
      replace (2 * PI * q / (2 * PI)) with q by (field; lra).
      replace (Int_part q) with 6199%Z; [lra|]. destruct (Int_part_spec q). assert (6198 < Int_part q)%Z by (apply lt_IZR; lra). assert (Int_part q < 6200)%Z by (apply lt_IZR; lra). lia. }
    set (d := PI - spiral_lon i). assert (D : 0 <= d <= 22/10000 * PI) by (unfold d; rewrite LO; nra).
    set (e := - spiral_lat n i). pose proof (spiral_lat_range n i LI) as LR.
    assert (SE : sin e = 315/100000). { unfold e. rewrite sin_neg, lat_sin, II, IN by auto. field. }
    assert (E : 0 <= e <= PI / 360).
    { split.
      - apply Rnot_lt_le. intro L. assert (sin e < 0) by (apply sin_lt_0_var; unfold e in *; lra). lra.
      - apply Rnot_lt_le. intro L. assert (sin (PI/360) < sin e) by (apply sin_increasing_1; unfold e in *; lra).
        pose proof (jordan (PI/360) ltac:(lra)) as J. replace (2 * (PI/360) / PI) with (1/180) in J by (field; lra). lra. }
    replace (spiral_lat n i) with (- e) by (unfold e; lra). replace (spiral_lon i) with (PI - d) by (unfold d; lra).
    rewrite cos_neg. replace (cos (PI - d)) with (- cos d) by (rewrite <- (cos_neg (PI - d)); replace (- (PI - d)) with (d - PI) by lra; rewrite cos_minus, cos_PI, sin_PI; lra).
    set (m := cos e * - cos d).
    assert (M : m <= - cos (d + e)). { unfold m. rewrite cos_plus. assert (0 <= sin d) by (apply sin_ge_0; lra). assert (0 <= sin e) by lra. nra. }
    assert (M0 : -1 <= m <= 1). { unfold m. pose proof (COS_bound e). pose proof (COS_bound d). nra. }
    assert (A : PI - (d + e) <= acos m).
    { apply Rnot_lt_le. intro L. pose proof (acos_bound m). assert (C : cos (PI - (d + e)) < cos (acos m)) by (apply cos_decreasing_1; lra).
      rewrite cos_acos in C by lra. rewrite Rtrigo_facts.cos_pi_minus in C. lra. }
    pose proof (acos_bound m). unfold rad2deg. split.
    + apply Rmult_le_reg_r with (PI / 180); [lra|]. replace (acos m * 180 / PI * (PI / 180)) with (acos m) by (field; lra). lra.
    + apply Rmult_le_reg_r with (PI / 180); [lra|]. replace (acos m * 180 / PI * (PI / 180)) with (acos m) by (field; lra). lra.
Qed.
(** test_spots.py:58-61 *)
Example test_spot_init_grid : forall n, n = Z.to_nat 20000 ->
  grid_ne (sp_grid (tdefault (Spiral n))) (Some (sp_grid (tdefault (Rect (500 + 1) 1000)))) = Ok true.
Proof. reflexivity. Qed.
(** test_spots.py:73-83; the radius in km is the square root of the area in km^2 over pi *)
Example test_spot_radius : spot_radius (tsized (Fin 400) (Fin 5)) = Fin (sqrt (400 * (1/1000000 * (1/2) * (4 * PI) * 695700^2) / PI)).
Proof.
  pose proof PI_RGT_0. cbn [spot_radius tsized tspot spot_init spot_set_gridmaker sp_area]. unfold spot_radius.
  cbn [tsized tspot spot_init spot_set_gridmaker sp_area]. unfold MSH_RSUN2, RSUN_KM. rewrite nmul_fin, ndiv_fin by lra. apply nsqrt_fin.
  apply Rmult_le_pos; [|left; apply Rinv_0_lt_compat; lra]. nra.
Qed.
(** test_spots.py:90-91: the surface of a star of radius 1000 km, in MSH *)
Definition km1000 : R := 1000 / RSUN_KM.
(** test_spots.py:91 *)
Definition surface : R := 4 * PI * km1000^2 / MSH_RSUN2.
Lemma cap_radius : forall s f, sp_area s = Fin (f * surface) -> 0 <= f <= 1 -> spot_angular_radius s km1000 = Fin (acos (1 - 2 * f)).
Proof.
  intros s f H F. pose proof PI_RGT_0. unfold spot_angular_radius. rewrite H.
  assert (0 < km1000) by (unfold km1000, RSUN_KM; lra). assert (0 < 2 * PI * km1000^2) by (apply Rmult_lt_0_compat; [lra|now apply pow_lt]).
  rewrite nmul_fin, ndiv_fin, nsub_fin by lra.
  replace (f * surface * MSH_RSUN2 / (2 * PI * km1000^2)) with (2 * f) by (unfold surface, MSH_RSUN2; field; lra). apply nacos_fin. lra.
Qed.
Lemma acos_m1 : acos (-1) = PI.
Proof. replace (-1) with (- (1)) by lra. rewrite acos_opp, acos_1. lra. Qed.
(** test_spots.py:86-103 *)
Example test_spot_angular_radius :
  spot_angular_radius (tsized (Fin surface) (Fin 5)) km1000 = Fin (deg2rad 180)
  /\ spot_angular_radius (tsized (Fin (5/10 * surface)) (Fin 5)) km1000 = Fin (deg2rad 90).
Proof.
  split.
  - rewrite (cap_radius _ 1); [|cbn; f_equal; lra|lra]. f_equal. replace (1 - 2 * 1) with (-1) by lra. rewrite acos_m1. unfold deg2rad. field.
  - rewrite (cap_radius _ (5/10)); [|reflexivity|lra]. f_equal. replace (1 - 2 * (5/10)) with 0 by lra. rewrite acos_0. unfold deg2rad. field.
Qed.
(** test_spots.py:106-125: no cell of the grid of 1000 points is antipodal to the centre of the spot *)
Lemma spiral_even : forall i, (i < 1000)%nat -> acos (law_cos 0 0 (spiral_lat 1000 i) (spiral_lon i)) < PI.
Proof.
  intros i I. assert (LC : law_cos 0 0 (spiral_lat 1000 i) (spiral_lon i) = cos (spiral_lat 1000 i) * cos (spiral_lon i)).
  { unfold law_cos. rewrite sin_0, cos_0. replace (0 - spiral_lon i) with (- spiral_lon i) by lra. rewrite cos_neg. lra. }
  rewrite LC.
  assert (IN : INR 1000 = 1000) by (rewrite INR_IZR_INZ; reflexivity).
  assert (SN : sin (spiral_lat 1000 i) <> 0).
  { rewrite lat_sin, IN by auto. intro E. assert (Q : INR i * 2 = 999) by lra. rewrite INR_IZR_INZ in Q.
    rewrite <- mult_IZR in Q. apply eq_IZR in Q. lia. }
  pose proof (spiral_lat_range 1000 i I) as LR. assert (C0 : 0 < cos (spiral_lat 1000 i)) by (apply cos_gt_0; lra).
  assert (C1 : cos (spiral_lat 1000 i) < 1). { pose proof (sin2_cos2 (spiral_lat 1000 i)) as E. unfold Rsqr in E. nra. }
  pose proof (COS_bound (spiral_lon i)). rewrite <- acos_m1. apply acos_lt; nra.
Qed.
Lemma tsized_cells : forall a q x, In x (cells (sp_r (tsized a q))) -> exists v, x = Fin v /\ 0 <= v < PI.
Proof.
  intros a q x H. unfold tsized in H. rewrite tr_eq, cells_amap, spiral_points_eq in H. unfold cells in H. cbn [arows concat] in H.
  rewrite app_nil_r, map_map in H. apply in_map_iff in H. destruct H as (i & <- & I). apply in_seq in I. cbn [fst snd].
  eexists. split; [reflexivity|]. split; [apply acos_bound|apply spiral_even; lia].
Qed.
(** test_spots.py:110-117 *)
Example test_spot_map_pixels_no_penumbra :
  let s := tsized (Fin surface) (Fin 1) in
  exists umbra penumbra,
    dindex teff_key_eqb (spot_map_pixels s km1000) (sp_teff_umbra s) = Ok umbra
    /\ dindex teff_key_eqb (spot_map_pixels s km1000) (sp_teff_pen s) = Ok penumbra
    /\ (forall b, In b (cells umbra) -> b = true)
    /\ amap2 (fun p u => p && negb u) penumbra umbra = Ok (amap (fun _ => false) (sp_r s)).
Proof.
  intro s. assert (TH : spot_angular_radius s km1000 = Fin PI).
  { rewrite (cap_radius _ 1); [|cbn; f_equal; lra|lra]. f_equal. replace (1 - 2 * 1) with (-1) by lra. apply acos_m1. }
  pose proof PI_RGT_0.
  rewrite dindex_umb, dindex_pen. do 2 eexists. split; [reflexivity|]. split; [reflexivity|].
  assert (U : forall x, In x (cells (sp_r s)) -> umb_b s km1000 x = true).
  { intros x I. destruct (tsized_cells _ _ _ I) as (v & -> & V). unfold umb_b. rewrite TH.
    replace (teff_key_eqb (sp_teff_pen s) (sp_teff_umbra s)) with false.
    2:{ cbn [s tsized tspot spot_init spot_set_gridmaker sp_teff_pen sp_teff_umbra]. unfold teff_key_eqb. cbn [neq nisnan andb orb]. rcase; auto; exfalso; lra. }
    cbn [s tsized tspot spot_init spot_set_gridmaker sp_ratio]. rewrite nsqrt_fin by lra. rewrite sqrt_1, ndiv_fin by lra.
    apply nlt_fin. lra. }
  split.
  - intros b I. rewrite cells_amap in I. apply in_map_iff in I. destruct I as (x & <- & I). auto.
  - rewrite amap2_amap. f_equal. apply amap_ext_in. intros x I. rewrite (U x I). apply andb_false_r.
Qed.
(** test_spots.py:119-124 *)
Example test_spot_map_pixels_no_umbra :
  let s := tsized (Fin surface) PInf in
  exists umbra penumbra,
    dindex teff_key_eqb (spot_map_pixels s km1000) (sp_teff_umbra s) = Ok umbra
    /\ dindex teff_key_eqb (spot_map_pixels s km1000) (sp_teff_pen s) = Ok penumbra
    /\ (forall b, In b (cells penumbra) -> b = true) /\ (forall b, In b (cells umbra) -> b = false).
Proof.
  intro s. assert (TH : spot_angular_radius s km1000 = Fin PI).
  { rewrite (cap_radius _ 1); [|cbn; f_equal; lra|lra]. f_equal. replace (1 - 2 * 1) with (-1) by lra. apply acos_m1. }
  pose proof PI_RGT_0.
  rewrite dindex_umb, dindex_pen. do 2 eexists. split; [reflexivity|]. split; [reflexivity|].
  split; intros b I; rewrite cells_amap in I; apply in_map_iff in I; destruct I as (x & <- & I);
    destruct (tsized_cells _ _ _ I) as (v & -> & V).
  - unfold pen_b. rewrite TH. apply nlt_fin. lra.
  - unfold umb_b. rewrite TH.
    replace (teff_key_eqb (sp_teff_pen s) (sp_teff_umbra s)) with false.
    2:{ cbn [s tsized tspot spot_init spot_set_gridmaker sp_teff_pen sp_teff_umbra]. unfold teff_key_eqb. cbn [neq nisnan andb orb]. rcase; auto; exfalso; lra. }
    cbn [s tsized tspot spot_init spot_set_gridmaker sp_ratio nsqrt ndiv]. apply nlt_fin_false. lra.
Qed.
(** test_spots.py:149-161, the second assertion; 1001 points by default *)
Example test_spot_surface_fraction_far :
  spot_surface_fraction (tsized (Fin (1/100 * surface)) (Fin 5)) (deg2rad 0) (deg2rad 180) km1000 1001 = Fin 0.
Proof.
  pose proof PI_RGT_0. set (s := tsized _ _). assert (TH : spot_angular_radius s km1000 = Fin (acos (1 - 2 * (1/100)))).
  { apply (cap_radius _ (1/100)); [reflexivity|lra]. }
  assert (KM : 0 < km1000) by (unfold km1000, RSUN_KM; lra).
  destruct (C23_lemma s (deg2rad 0) (deg2rad 180) km1000 1001 (1/100 * surface) PI KM eq_refl) as (v & th & E & _ & T & Z & _).
  - replace (2 * PI / 1000000) with MSH_RSUN2 by (unfold MSH_RSUN2; field).
    replace (1/100 * surface * MSH_RSUN2) with (1/100 * (4 * PI * km1000^2)) by (unfold surface, MSH_RSUN2; field; lra).
    assert (0 <= 4 * PI * km1000^2) by (apply Rmult_le_pos; [lra|apply pow2_ge_0]). lra.
  - unfold is_angle. split; [lra|]. cbn. unfold deg2rad. replace (0 * PI / 180) with 0 by field. replace (180 * PI / 180) with PI by field.
    rewrite ?sin_0, ?cos_0. rewrite ?Rminus_0_r, ?cos_PI, ?sin_PI. lra.
  - rewrite E. f_equal. apply Z. rewrite TH in T. injection T as <-. assert (acos (1 - 2 * (1/100)) < acos 0) by (apply acos_lt; lra). rewrite acos_0 in *. lra.
Qed.

(** test_spots.py:168-169, 188-189: a spot that grows by a factor 2 per day to 100 MSH *)
Definition tgrow (a : num) (growing : bool) (g : grid) : spot :=
  tspot 0 0 (Fin 100) a (Fin 2700) (Fin 2500) (Fin 5) growing (Fin 1) (Fin 10) g.
Lemma tgrow_params : forall a b g, spot_params (tgrow (Fin a) b g) a 100 1 10.
Proof. intros. repeat split. Qed.
Lemma tgrow_area : forall a b g a' b', spot_with_area (tgrow a b g) a' b' = tgrow a' b' g.
Proof. reflexivity. Qed.
Lemma ln2_pos : 0 < ln 2.
Proof. rewrite <- ln_1. apply ln_increasing; lra. Qed.
Lemma tgrow_double : forall a g, 0 < a -> 2 * a < 100 -> spot_age (tgrow (Fin a) true g) (Fin 1) = Ok (tgrow (Fin (2 * a)) true g).
Proof.
  intros a g A B. rewrite (spot_age_growing _ a 100 1 10 1 (tgrow_params a true g) eq_refl) by lra. f_equal.
  replace (1 + 1) with 2 by lra. pose proof ln2_pos.
  assert (T : 1 < time_to_max a 100 1).
  { unfold time_to_max. replace (1 + 1) with 2 by lra. apply Rmult_lt_reg_r with (ln 2); auto. unfold Rdiv. rewrite Rmult_assoc, Rinv_l by lra.
    rewrite Rmult_1_l, Rmult_1_r. apply ln_increasing; [lra|]. apply Rmult_lt_reg_r with a; auto. rewrite Rmult_assoc, Rinv_l by lra. lra. }
  destruct (Rlt_dec 1 (time_to_max a 100 1)) as [_|?]; [|lra]. rewrite tgrow_area, Rmult_1_r, exp_ln by lra. do 2 f_equal. lra.
Qed.
(** a spot that reached its maximum and lost more than that is gone *)
Lemma tgrow_gone : forall a t g, 0 < a -> a <= 100 -> (forall x, x = time_to_max a 100 1 -> x + 10 < t) ->
  spot_age (tgrow (Fin a) true g) (Fin t) = Ok (tgrow (Fin 0) false g).
Proof.
  intros a t g A B T. specialize (T _ eq_refl). rewrite (spot_age_growing _ a 100 1 10 t (tgrow_params a true g) eq_refl) by lra. f_equal.
  destruct (Rlt_dec t (time_to_max a 100 1)) as [?|_]; [lra|]. destruct (Rlt_dec 100 _) as [_|?]; [reflexivity|lra].
Qed.
Lemma ttm_ten : time_to_max 10 100 1 < 4.
Proof.
  pose proof ln2_pos. unfold time_to_max. replace (1 + 1) with 2 by lra. replace (100 / 10) with 10 by lra.
  apply Rmult_lt_reg_r with (ln 2); auto. unfold Rdiv. rewrite Rmult_assoc, Rinv_l, Rmult_1_r by lra.
  replace (4 * ln 2) with (ln (2^4)) by (rewrite ln_pow by lra; simpl; lra). apply ln_increasing; lra.
Qed.
Lemma ttm_twenty : time_to_max 20 100 1 < 4.
Proof.
  pose proof ln2_pos. unfold time_to_max. replace (1 + 1) with 2 by lra. replace (100 / 20) with 5 by lra.
  apply Rmult_lt_reg_r with (ln 2); auto. unfold Rdiv. rewrite Rmult_assoc, Rinv_l, Rmult_1_r by lra.
  replace (4 * ln 2) with (ln (2^4)) by (rewrite ln_pow by lra; simpl; lra). apply ln_increasing; lra.
Qed.
(** test_spots.py:164-194 *)
Example test_spot_age : forall g,
  (exists s1 s2 s3 s4, spot_age (tgrow (Fin 10) true g) (Fin 1) = Ok s1 /\ sp_area s1 = Fin 20
     /\ spot_age s1 (Fin 1) = Ok s2 /\ sp_area s2 = Fin 40 /\ spot_age s2 (Fin 1) = Ok s3 /\ sp_area s3 = Fin 80
     /\ spot_age s3 (Fin 1) = Ok s4 /\ sp_growing s4 = false)
  /\ (exists s1 s2, spot_age (tgrow (Fin 100) false g) (Fin 1) = Ok s1 /\ sp_area s1 = Fin 90
     /\ spot_age s1 (Fin 9) = Ok s2 /\ sp_area s2 = Fin 0)
  /\ (exists s1, spot_age (tgrow (Fin 10) true g) (Fin 20) = Ok s1 /\ sp_area s1 = Fin 0).
Proof.
  intro g. split; [|split].
  - pose proof ln2_pos. do 4 eexists. split; [apply tgrow_double; lra|]. split; [cbn; f_equal; lra|].
    split; [apply tgrow_double; lra|]. split; [cbn; f_equal; lra|].
    split; [apply tgrow_double; lra|]. split; [cbn; f_equal; lra|].
    replace (2 * (2 * (2 * 10))) with 80 by lra.
    rewrite (spot_age_growing _ 80 100 1 10 1 (tgrow_params 80 true g) eq_refl) by lra. split; [reflexivity|].
    assert (time_to_max 80 100 1 <= 1).
    { unfold time_to_max. replace (1 + 1) with 2 by lra. apply Rmult_le_reg_r with (ln 2); auto. unfold Rdiv. rewrite (Rmult_assoc (ln _)), Rinv_l by lra.
      rewrite Rmult_1_l, Rmult_1_r. left. apply ln_increasing; lra. }
    destruct (Rlt_dec 1 (time_to_max 80 100 1)) as [?|_]; [lra|]. destruct (Rlt_dec 100 _); reflexivity.
  - exists (tgrow (Fin 90) false g). eexists. rewrite (spot_age_decay _ 100 100 1 10 1 (tgrow_params 100 false g) eq_refl).
    rewrite (spot_age_decay _ 90 100 1 10 9 (tgrow_params 90 false g) eq_refl).
    destruct (Rlt_dec 100 (1 * 10)) as [?|_]; [lra|]. destruct (Rlt_dec 100 (9 * 10)) as [?|_]; [lra|].
    split; [rewrite tgrow_area; do 3 f_equal; lra|]. split; [reflexivity|]. split; [reflexivity|]. cbn. f_equal. lra.
  - eexists. split; [apply tgrow_gone; try lra|reflexivity]. intros x ->. pose proof ttm_ten. lra.
Qed.

(** ** collections *)
(** test_spots.py:197-209 *)
Example test_init_spot_collection :
  let c := sc_init (repeat (tdefault (Spiral 1000)) 4) (Rect 300 600) in
  grid_eq (sc_grid c) (Some (Rect 300 600)) = Ok true
  /\ forall s, In s (sc_spots c) -> grid_eq (sp_grid s) (Some (sc_grid c)) = Ok true.
Proof.
  intro c. assert (E : grid_eq (Rect 300 600) (Some (Rect 300 600)) = Ok true) by (unfold grid_eq; rewrite !Nat.eqb_refl; reflexivity).
  split; [exact E|]. intros s H. cbn [c sc_init sc_set_gridmaker sc_spots] in H. apply in_map_iff in H. destruct H as (s0 & <- & _). exact E.
Qed.
(** test_spots.py:212-227 *)
Example test_spot_collection_add_spot :
  let c := sc_init (repeat (tdefault (Spiral 1000)) 4) (Rect 300 600) in
  let c1 := sc_add_spot c [tdefault (Spiral 1000)] in
  let c2 := sc_add_spot c1 (repeat (tdefault (Spiral 1000)) 4) in
  length (sc_spots c) = 4%nat /\ length (sc_spots c1) = (4 + 1)%nat /\ length (sc_spots c2) = (2 * 4 + 1)%nat
  /\ forall s, In s (sc_spots c2) -> grid_eq (sp_grid s) (Some (sc_grid c2)) = Ok true.
Proof.
  cbv zeta. split; [reflexivity|]. split; [reflexivity|]. split; [reflexivity|]. intros s H.
  assert (E : grid_eq (Rect 300 600) (Some (Rect 300 600)) = Ok true) by (unfold grid_eq; rewrite !Nat.eqb_refl; reflexivity).
  cbn [sc_add_spot sc_init sc_set_gridmaker sc_spots sc_grid] in *. rewrite !in_app_iff, !in_map_iff in H.
  destruct H as [[(s0 & <- & _)|(s0 & <- & _)]|(s0 & <- & _)]; exact E.
Qed.
(** test_spots.py:230-244 *)
Example test_spot_collection_clean_spotlist :
  let z growing := tspot 0 0 (Fin 500) (Fin 0) (Fin 2700) (Fin 2500) (Fin 5) growing (Fin 0) (Fin 0) (Spiral 1000) in
  let c growing := sc_init (repeat (tdefault (Spiral 1000)) 4 ++ [z growing]) (Rect 300 600) in
  length (sc_spots (sc_clean (c true))) = (4 + 1)%nat /\ length (sc_spots (sc_clean (c false))) = 4%nat.
Proof.
  cbv zeta. unfold sc_clean, sc_init, sc_set_gridmaker. cbn [sc_spots sc_grid repeat app map filter].
  unfold spot_dead. cbn [tdefault tspot spot_init spot_set_gridmaker sp_area sp_growing nle negb andb].
  rewrite !andb_false_r. cbn [negb length].
  replace (Rleb 0 0) with true by (symmetry; apply Rleb_true; lra). split; reflexivity.
Qed.
(** test_spots.py:247-267, at any star radius *)
Example test_spot_collection_map_pixels : forall r_star,
  let sp t := tspot 0 0 (Fin 500) (Fin 400) (Fin t) (Fin t) (Fin 5) true (Fin 0) (Fin 0) (Spiral 1000) in
  (exists m, sc_map_pixels (sc_init [sp 2500; sp 2700] (Rect 300 600)) r_star (Fin 3300) = Ok m
     /\ forall x, In x (cells m) -> neq x (Fin 2700) = false)
  /\ (exists m, sc_map_pixels (sc_init [sp 3500; sp 3700] (Rect 300 600)) r_star (Fin 3300) = Ok m
     /\ forall x, In x (cells m) -> neq x (Fin 3300) = true).
Proof.
  intros r sp.
  assert (ON : forall l s, In s (sc_spots (sc_init l (Rect 300 600))) -> spot_on (sc_grid (sc_init l (Rect 300 600))) s).
  { intros l s H. cbn [sc_init sc_set_gridmaker sc_spots sc_grid] in *. apply in_map_iff in H. destruct H as (s0 & <- & _). apply set_gridmaker_on. }
  assert (PV : forall p m t, pv r p (Fin m) (spot_set_gridmaker (sp t) (Rect 300 600))
    = if pen_b (sp t) r (Fin (sep (sp t) p)) && Rltb t m then Fin t else Fin m).
  { intros p m t. unfold pv, umb_b. cbn [sp tspot spot_init spot_set_gridmaker sp_teff_umbra sp_teff_pen].
    rewrite key_refl. cbn [nlt]. change (sep (spot_set_gridmaker (sp t) (Rect 300 600)) p) with (sep (sp t) p).
    change (pen_b (spot_set_gridmaker (sp t) (Rect 300 600)) r (Fin (sep (sp t) p))) with (pen_b (sp t) r (Fin (sep (sp t) p))).
    destruct (pen_b (sp t) r (Fin (sep (sp t) p)) && Rltb t m); reflexivity. }
  split; rewrite sc_map_pixels_eq by apply ON; (eexists; split; [reflexivity|]); intros x H;
    rewrite cells_amap in H; apply in_map_iff in H; destruct H as (p & <- & _);
    cbn [sc_init sc_set_gridmaker sc_spots map fold_left]; rewrite PV.
  - change (pen_b (sp 2500) r (Fin (sep (sp 2500) p))) with (pen_b (sp 2700) r (Fin (sep (sp 2700) p))).
    destruct (pen_b (sp 2700) r (Fin (sep (sp 2700) p))) eqn:B; cbn [andb].
    + replace (Rltb 2500 3300) with true by (symmetry; apply Rltb_true; lra). rewrite PV, B.
      replace (Rltb 2700 2500) with false by (symmetry; apply Rltb_false; lra). cbn [andb]. apply neq_fin_false. lra.
    + rewrite PV, B. cbn [andb]. apply neq_fin_false. lra.
  - replace (Rltb 3500 3300) with false by (symmetry; apply Rltb_false; lra). rewrite andb_false_r, PV.
    replace (Rltb 3700 3300) with false by (symmetry; apply Rltb_false; lra). rewrite andb_false_r. now apply neq_fin.
Qed.
(** test_spots.py:270-282 *)
Example test_spot_collection_age :
  let c := sc_init [tgrow (Fin 10) true (Spiral 1000)] (Rect 300 600) in
  map sp_area (sc_spots c) = [Fin 10]
  /\ exists c1 c2, sc_age c (Fin 1) = Ok c1 /\ map sp_area (sc_spots c1) = [Fin 20]
  /\ sc_age c1 (Fin 20) = Ok c2 /\ length (sc_spots c2) = 0%nat.
Proof.
  cbv zeta. split; [reflexivity|].
  change (sc_init [tgrow (Fin 10) true (Spiral 1000)] (Rect 300 600)) with (mkSpotColl [tgrow (Fin 10) true (Rect 300 600)] (Rect 300 600)).
  exists (mkSpotColl [tgrow (Fin 20) true (Rect 300 600)] (Rect 300 600)), (mkSpotColl [] (Rect 300 600)).
  unfold sc_age. cbn [sc_spots sc_grid mapM bind]. rewrite tgrow_double by lra. cbn [bind].
  replace (2 * 10) with 20 by lra. split.
  { unfold sc_clean. cbn [sc_spots sc_grid filter]. unfold spot_dead. cbn [tgrow tspot spot_init spot_set_gridmaker sp_growing negb andb].
    rewrite andb_false_r. reflexivity. }
  split; [reflexivity|]. rewrite tgrow_gone; [|lra|lra|]. 2:{ intros x ->. pose proof ttm_twenty. lra. }
  cbn [bind]. split; [|reflexivity]. unfold sc_clean. cbn [sc_spots sc_grid filter]. unfold spot_dead.
  cbn [tgrow tspot spot_init spot_set_gridmaker sp_growing sp_area negb andb nle].
  replace (Rleb 0 0) with true by (symmetry; apply Rleb_true; lra). reflexivity.
Qed.

(** ** generators *)
(** test_spots.py:285-301 [init_spot_generator] *)
Definition tgen (growth decay : num) (dist : distribution) (coverage : num) : spotgen :=
  {| sg_mean := Fin 100; sg_logsigma := 1/10; sg_teff_umbra := Fin 2500; sg_teff_pen := Fin 2700; sg_growth := growth; sg_growth_dim := -1;
     sg_decay := decay; sg_init := Fin 10; sg_dist := dist; sg_coverage := coverage; sg_grid := Rect 300 600 |}.
(** test_spots.py:304-311 *)
Example test_spot_generator_init : grid_eq (sg_grid (tgen (Fin 0) (Fin 0) Iso (Fin 0))) (Some (Rect 300 600)) = Ok true.
Proof. unfold grid_eq. cbn [tgen sg_grid]. rewrite !Nat.eqb_refl. reflexivity. Qed.
(** test_spots.py:314-318 *)
Example test_spot_generator_is_static :
  sg_is_static (tgen (Fin 0) (Fin 0) Iso (Fin 0)) = true /\ sg_is_static (tgen (Fin 0) (Fin 10) Iso (Fin 0)) = false.
Proof. unfold sg_is_static. cbn [tgen sg_decay]. split; [now apply neq_fin|apply neq_fin_false; lra]. Qed.
(** test_spots.py:321-330 *)
Example test_spot_generator_mean_lifetime :
  sg_mean_lifetime (tgen (Fin (5/10)) (Fin 10) Iso (Fin 0)) = Ok (Fin (100/10 - ln (10/100) / (5/10))).
Proof.
  unfold sg_mean_lifetime. rewrite (proj2 test_spot_generator_is_static) || idtac.
  replace (sg_is_static (tgen (Fin (5/10)) (Fin 10) Iso (Fin 0))) with false by (symmetry; unfold sg_is_static; apply neq_fin_false; lra).
  cbn [tgen sg_growth_dim sg_mean sg_decay sg_init sg_growth Z.eqb negb Pos.eqb]. rewrite !ndiv_fin by lra. rewrite nln_fin by lra.
  rewrite ndiv_fin by lra. reflexivity.
Qed.
(** test_spots.py:333-343 *)
Example test_spot_generator_n_spots_to_birth :
  sg_n_expected (tgen (Fin (5/10)) (Fin 10) Iso (Fin 0)) (Fin 10) 1 = Ok (Fin 0).
Proof.
  unfold sg_n_expected, sg_mean_area. rewrite test_spot_generator_mean_lifetime.
  replace (sg_is_static (tgen (Fin (5/10)) (Fin 10) Iso (Fin 0))) with false by (symmetry; unfold sg_is_static; apply neq_fin_false; lra).
  cbn [tgen sg_growth_dim sg_mean sg_decay sg_init sg_growth sg_coverage Z.eqb negb Pos.eqb bind].
  pose proof PI_RGT_0.
  assert (L : ln (10/100) < 0) by (rewrite <- ln_1; apply ln_increasing; lra).
  rewrite !nsq_fin, !ndiv_fin by lra. rewrite !nadd_fin. rewrite ndiv_fin by lra. rewrite !nmul_fin.
  set (a := (_ / (100/10 - _)) * MSH_RSUN2). assert (A : 0 < a).
  { unfold a. apply Rmult_lt_0_compat; [|unfold MSH_RSUN2; lra]. apply Rdiv_lt_0_compat; lra. }
  rewrite ndiv_fin by lra. rewrite nmul_fin, ndiv_fin by lra. do 2 f_equal. field. lra.
Qed.
(** test_spots.py:346-360; one point per index for iso, an error otherwise *)
Example test_spot_generator_get_coordinates : forall d,
  (exists l, mapM (sg_coords (tgen (Fin 0) (Fin 0) Iso (Fin 0)) d) (seq 0 3) = Ok l /\ length l = 3%nat)
  /\ forall i, sg_coords (tgen (Fin 0) (Fin 0) UnknownDist (Fin 0)) d i = Raise ValueError.
Proof. intro d. split; [eexists; split; reflexivity|reflexivity]. Qed.
(** test_spots.py:363-372, for every run in which the loop that draws the ratios ends *)
Example test_spot_generator_generate_spots : forall d fuel l,
  sg_generate (tgen (Fin 0) (Fin 0) Iso (Fin 0)) 3 d fuel = Ok l ->
  length l = 3%nat /\ forall s, In s l -> sp_area s = Fin 10.
Proof.
  intros d fuel l H. unfold sg_generate in H. cbn [tgen sg_logsigma] in H.
  replace (Rltb (1/10) 0) with false in H by (symmetry; apply Rltb_false; lra).
  destruct (redraw_ratio fuel 0 d 3) as [k|e]; [|discriminate H]. cbn [bind sg_coords sg_dist tgen seq mapM fst snd] in H. injection H as <-.
  split; [reflexivity|]. intros s [<-|[<-|[<-|[]]]]; reflexivity.
Qed.
(** test_spots.py:375-397, the two errors *)
Example test_spot_generator_generate_mature_spots : forall g r_star draws rfuel fuel,
  sg_generate_mature g (Fin (- (1/10))) r_star draws rfuel fuel = Raise ValueError
  /\ sg_generate_mature g (Fin (11/10)) r_star draws rfuel fuel = Raise ValueError.
Proof.
  intros. unfold sg_generate_mature, ngt. cbn [nlt].
  replace (Rltb 1 (11/10)) with true by (symmetry; apply Rltb_true; lra).
  replace (Rltb (- (1/10)) 0) with true by (symmetry; apply Rltb_true; lra). rewrite orb_true_r. split; reflexivity.
Qed.
