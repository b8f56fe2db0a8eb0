(** Properties C83-C84: warnings *)
From Coq Require Import Reals ZArith Bool String List Lra Lia.
From Verif Require Import Num Py MConfig MHelpers MGrid MSpots MFaculae MXoflares MFlares MGranules MStar MWarn
  Spec SpecStar SpecDisk SpecDepth SpecWarn LBase LGrid LHelpers LSpotMap LSpotCov LFac LStarFac LDisk LStar LStarCov LWarn PropsStar.
Import ListNotations.
Open Scope R_scope.

(** mid-transit of a planet of a tenth of the star's radius, on grids of [n] points *)
Lemma ex_centre : forall n, (1 <= n)%nat -> let s := ex_star n [] [] 3300 300 in forall A, grid_area (st_grid s) = Ok A ->
  pixel (st_grid s) 0 0 /\ pix_mu s (ex_lat n) 0 0 0 = 1 /\ in_reach s (ex_lat n) 0 (sky_x s 100 PI) (sky_y s 100 PI (PI/2)) (sky_r s (1/10)) A 0 0.
Proof.
  intros n Hn s A HA. assert (P : pixel (st_grid s) 0 0) by (apply ex_pixel; lia). split; auto.
  destruct (ex_pt n 0) as [E1 E2]; [lia|]. rewrite ex_lon0 in E2.
  assert (M : pix_mu s (ex_lat n) 0 0 0 = 1). { unfold pix_mu. change (st_grid s) with (Spiral n). rewrite E1, E2. apply cos_sep_self. }
  split; auto. split. lra. change (st_grid s) with (Spiral n). rewrite E1, E2. pose proof (ex_lat_range n Hn) as L.
  destruct (C08_lemma (ex_lat n) 0 (spiral_lat n 0) 0 L L) as [_ X]. unfold ex_lat in *. rewrite cos_sep_self in X. destruct X as [x [y [E [Q _]]]]. lra.
  exists x, y. split; auto. unfold sky_x, sky_y, sky_r. rewrite sin_PI, cos_PI2. change (st_radius s) with 1.
  assert (x = 0) by nra. assert (y = 0) by nra. subst x y.
  match goal with |- sqrt ?e <= _ => replace e with 0 by (field; lra) end. rewrite sqrt_0. unfold sky_size. rewrite M.
  match goal with |- context [sqrt ?e] => pose proof (sqrt_pos e) end. lra.
Qed.
Lemma ex_mid : forall n, let s := ex_star n [] [] 3300 300 in sqrt ((sky_x s 100 PI)^2 + (sky_y s 100 PI (PI/2))^2) <= 1 + 2 * sky_r s (1/10).
Proof.
  intros n s. unfold sky_x, sky_y, sky_r. rewrite sin_PI, cos_PI2. change (st_radius s) with 1.
  match goal with |- sqrt ?e <= _ => replace e with 0 by (field; lra) end. rewrite sqrt_0. lra.
Qed.

(** C83: which transits warn that the grid is too coarse *)
Theorem C83_resolution_warning :
  forall s lat0 lon0 orbit planet phase incl A,
  good_grid (st_grid s) -> - PI/2 <= lat0 <= PI/2 -> 0 < st_radius s -> 0 <= orbit -> 0 < planet ->
  grid_area (st_grid s) = Ok A ->
  let rp := sky_r s planet in let px := sky_x s orbit phase in let py := sky_y s orbit phase incl in
  (* no transit *)
  (1 + 2 * rp < sqrt (px^2 + py^2) \/ (0 < cos phase /\ rp <= 1) ->
     transit_warnings s lat0 lon0 orbit planet phase incl = Ok [])
  (* transit *)
  /\ (sqrt (px^2 + py^2) <= 1 + 2 * rp -> cos phase <= 0 ->
      forall reach, lists_pixels (st_grid s) (in_reach s lat0 lon0 px py rp A) reach ->
      let mean := mean_size s lat0 lon0 A reach in
      (reach = [] \/ mean <= rp / 2 -> transit_warnings s lat0 lon0 orbit planet phase incl = Ok [])
      /\ (reach <> [] -> rp / 2 < mean ->
           transit_warnings s lat0 lon0 orbit planet phase incl = Ok [WResolution (Fin ((mean / (rp / 2))^2))]
           /\ 1 < (mean / (rp / 2))^2)).
Proof. exact C83_lemma. Qed.
Print Assumptions C83_resolution_warning.
Example C83_nonvacuous : exists s A reach, good_grid (st_grid s) /\ - PI/2 <= ex_lat 1 <= PI/2 /\ 0 < st_radius s /\ grid_area (st_grid s) = Ok A
  /\ cos PI <= 0 /\ sqrt ((sky_x s 100 PI)^2 + (sky_y s 100 PI (PI/2))^2) <= 1 + 2 * sky_r s (1/10)
  /\ lists_pixels (st_grid s) (in_reach s (ex_lat 1) 0 (sky_x s 100 PI) (sky_y s 100 PI (PI/2)) (sky_r s (1/10)) A) reach
  /\ reach <> [] /\ sky_r s (1/10) / 2 < mean_size s (ex_lat 1) 0 A reach.
Proof.
  set (s := ex_star 1 [] [] 3300 300). assert (G : good_grid (st_grid s)) by (simpl; lia).
  pose proof (grid_area_good _ G) as HA. destruct (ex_centre 1 ltac:(lia) _ HA) as [P [M I]].
  exists s. eexists. exists [(0, 0)%nat]. split. auto. split. apply ex_lat_range; lia. split. change (st_radius s) with 1; lra. split. exact HA.
  split. rewrite cos_PI; lra. split. apply ex_mid. split.
  { split. constructor; [intros []|constructor]. intros j i. split.
    - intros [E|[]]. injection E as <- <-. split; auto.
    - intros [Pj _]. apply ex_pixel in Pj. destruct Pj as [-> Pj]. assert (i = 0%nat) by lia. subst. left; auto. }
  split. discriminate. unfold mean_size. cbn [map fst snd length]. unfold sky_size. fold s in M. rewrite M. unfold cell_val. rewrite acell_grid by auto.
  change (st_grid s) with (Spiral 1). unfold rarea_at. simpl INR. unfold rsum. cbn [fold_right]. unfold sky_r. change (st_radius s) with 1.
  replace (1 / 1) with 1 by field. rewrite sqrt_1. lra.
Qed.
(** grids that are fine enough never warn *)
Theorem C83_fine_grid :
  forall s lat0 lon0 orbit planet phase incl,
  good_grid (st_grid s) -> - PI/2 <= lat0 <= PI/2 -> 0 < st_radius s -> 0 <= orbit -> 0 < planet -> (0 < cos phase -> planet <= st_radius s) ->
  match st_grid s with
  | Spiral n => 16 * (st_radius s / planet)^2 <= INR n
  | Rect nlat nlon => (11 <= nlat)%nat /\ 80 * (st_radius s / planet)^2 <= (INR nlat - 1) * INR nlon
  end ->
  transit_warnings s lat0 lon0 orbit planet phase incl = Ok [].
Proof. exact C83_quiet_lemma. Qed.
Print Assumptions C83_fine_grid.
Example C83_fine_nonvacuous : exists s, good_grid (st_grid s) /\ 0 < st_radius s /\ (0 < cos PI -> 1/10 <= st_radius s)
  /\ match st_grid s with Spiral n => 16 * (st_radius s / (1/10))^2 <= INR n | Rect nlat nlon => (11 <= nlat)%nat /\ 80 * (st_radius s / (1/10))^2 <= (INR nlat - 1) * INR nlon end.
Proof.
  exists (ex_star (40 * 40) [] [] 3300 300). change (st_grid _) with (Spiral (40 * 40)). change (st_radius _) with 1. split. change (1 <= 40 * 40)%nat. lia.
  split. lra. split. lra. rewrite mult_INR. simpl INR. lra.
Qed.
(** grids that are too coarse do warn *)
Theorem C83_coarse_grid :
  forall s lat0 lon0 orbit planet phase incl A n m j i,
  st_grid s = Spiral n -> (1 <= n)%nat -> - PI/2 <= lat0 <= PI/2 -> 0 < st_radius s -> 0 <= orbit -> 0 < planet ->
  grid_area (st_grid s) = Ok A ->
  let rp := sky_r s planet in let px := sky_x s orbit phase in let py := sky_y s orbit phase incl in
  sqrt (px^2 + py^2) <= 1 + 2 * rp -> cos phase <= 0 ->
  pixel (st_grid s) j i -> in_reach s lat0 lon0 px py rp A j i ->
  (forall j i, pixel (st_grid s) j i -> in_reach s lat0 lon0 px py rp A j i -> m <= pix_mu s lat0 lon0 j i) -> 0 < m ->
  INR n * rp^2 < 16 * m^2 ->
  exists x, transit_warnings s lat0 lon0 orbit planet phase incl = Ok [WResolution (Fin x)] /\ 16 * m^2 / (INR n * rp^2) <= x.
Proof. exact C83_coarse_lemma. Qed.
Print Assumptions C83_coarse_grid.
Example C83_coarse_nonvacuous : exists s A, st_grid s = Spiral 1 /\ 0 < st_radius s /\ grid_area (st_grid s) = Ok A
  /\ - PI/2 <= ex_lat 1 <= PI/2 /\ cos PI <= 0 /\ sqrt ((sky_x s 100 PI)^2 + (sky_y s 100 PI (PI/2))^2) <= 1 + 2 * sky_r s (1/10)
  /\ pixel (st_grid s) 0 0 /\ in_reach s (ex_lat 1) 0 (sky_x s 100 PI) (sky_y s 100 PI (PI/2)) (sky_r s (1/10)) A 0 0
  /\ (forall j i, pixel (st_grid s) j i -> in_reach s (ex_lat 1) 0 (sky_x s 100 PI) (sky_y s 100 PI (PI/2)) (sky_r s (1/10)) A j i -> 1 <= pix_mu s (ex_lat 1) 0 j i)
  /\ INR 1 * (sky_r s (1/10))^2 < 16 * 1^2.
Proof.
  set (s := ex_star 1 [] [] 3300 300). assert (G : good_grid (st_grid s)) by (simpl; lia).
  pose proof (grid_area_good _ G) as HA. destruct (ex_centre 1 ltac:(lia) _ HA) as [P [M I]].
  exists s. eexists. split. reflexivity. split. change (st_radius s) with 1; lra. split. exact HA. split. apply ex_lat_range; lia.
  split. rewrite cos_PI; lra. split. apply ex_mid. split. auto. split. exact I. split.
  { intros j i Pj _. apply ex_pixel in Pj. destruct Pj as [-> Pj]. assert (i = 0%nat) by lia. subst. fold s in M. rewrite M. lra. }
  unfold sky_r. change (st_radius s) with 1. simpl INR. lra.
Qed.
(** a planet beside the star, as in the default arguments *)
Theorem C83_default_planet :
  forall s lat0 lon0 orbit planet incl, good_grid (st_grid s) -> - PI/2 <= lat0 <= PI/2 -> 0 < st_radius s -> 0 <= orbit -> 0 < planet ->
  st_radius s + 2 * planet < orbit ->
  transit_warnings s lat0 lon0 orbit planet (PI/2) incl = Ok [] /\ transit_warnings s lat0 lon0 orbit planet (- (PI/2)) incl = Ok []
  (* calc_coverage with its default planet: only the warnings of the map *)
  /\ (st_radius s <= 215 -> default_coverage_warnings s lat0 lon0 = faculae_warnings s lat0 lon0).
Proof. exact C83_default_lemma. Qed.
Print Assumptions C83_default_planet.
Example C83_default_nonvacuous : exists s, good_grid (st_grid s) /\ 0 < st_radius s /\ 0 < REARTH_RSUN /\ 0 <= AU_RSUN /\ st_radius s + 2 * REARTH_RSUN < AU_RSUN /\ st_radius s <= 215.
Proof.
  exists (ex_star 2 [] [] 3300 300). split. simpl; lia. change (st_radius _) with 1. unfold REARTH_RSUN, AU_RSUN. lra.
Qed.

(** C84: a facula on a star just below the upper limit: the wall is clipped, the floor is not *)
Theorem C84_clip_warnings :
  forall s lat0 lon0 M T, star_unified s -> 0 < st_radius s ->
  (forall f, In f (fcc_facs (st_facs s)) -> is_fin (fc_radius f)) ->
  st_teff s = Fin T -> add_faculae_to_map s lat0 lon0 = Ok M ->
  exists W, faculae_warnings s lat0 lon0 = Ok W
    (* exactly which temperatures are reported *)
    /\ (forall t, In (WTooHigh t) W <-> exists f k, on_map s f /\ contrast lat0 lon0 f k /\ t = Fin (IZR k + T) /\ 3900 < IZR k + T)
    /\ (forall t, In (WTooLow t) W <-> exists f k, on_map s f /\ contrast lat0 lon0 f k /\ t = Fin (IZR k + T) /\ IZR k + T < 2300)
    (* two deprecation warnings per facula that has a pixel *)
    /\ (exists fs, keeps (on_map s) (fcc_facs (st_facs s)) fs /\ clip_calls W = (2 * length fs)%nat)
    /\ (forall w, In w W -> w = WClipDeprecated \/ exists t, w = WTooHigh t \/ w = WTooLow t)
    (* silence means that the map shows the true temperatures *)
    /\ (no_clip_warning W -> forall j i l1 f l2, pixel (st_grid s) j i -> fcc_facs (st_facs s) = l1 ++ f :: l2 ->
          fac_covers s f j i -> (forall f', In f' l2 -> ~ fac_covers s f' j i) ->
          exists k, contrast lat0 lon0 f k /\ acell M j i NaN = Fin (IZR k + T)).
Proof. exact C84_lemma. Qed.
Print Assumptions C84_clip_warnings.
Example C84_nonvacuous : exists s f M, star_unified s /\ 0 < st_radius s /\ (forall f, In f (fcc_facs (st_facs s)) -> is_fin (fc_radius f))
  /\ st_teff s = Fin 3800 /\ add_faculae_to_map s (ex_lat 2) 0 = Ok M /\ on_map s f
  /\ contrast (ex_lat 2) 0 f 150 /\ 3900 < IZR 150 + 3800 /\ contrast (ex_lat 2) 0 f (-100) /\ 2300 <= IZR (-100) + 3800 <= 3900.
Proof.
  destruct (ex_map 2 [] 3800 300) as [M HM].
  exists (ex_star 2 [] [ex_facula 2 150] 3800 300), (fac_assign_grid (ex_facula 2 150) (Spiral 2)), M.
  split. apply ex_unified. split. simpl; lra. split. apply ex_fac_fin. split. reflexivity. split. auto. split.
  { split. left; reflexivity. exists 0%nat, 0%nat. split. apply ex_pixel; lia. apply ex_covers0; lia. }
  destruct ex_rounds as [Q1 Q2].
  assert (K : forall k, contrast (ex_lat 2) 0 (fac_assign_grid (ex_facula 2 150) (Spiral 2)) k <-> k = 150%Z \/ k = (-100)%Z).
  { intros k. apply (C84_contrast_lemma _ _ _ 1000 100 0 20 (-100) 0 150); auto; try lra. repeat split. discriminate.
    cbn [fc_lat fc_lon fac_assign_grid ex_facula]. unfold ex_lat. rewrite cos_sep_self. lra. }
  split. apply K; auto. split. lra. split. apply K; auto. lra.
Qed.
(** the contrasts in terms of the facula's parameters *)
Theorem C84_contrasts :
  forall f lat0 lon0 r d fs fm fb ws wi kw kf k,
  fac_thermal f r d fs fm fb ws wi -> 0 < r -> 0 <= d ->
  round_teff (Fin (wall_diff r ws wi)) = Ok kw -> round_teff (Fin (floor_diff r fs fm fb)) = Ok kf -> kw <> kf ->
  cos_sep lat0 lon0 (fc_lat f) (fc_lon f) <> 0 ->
  (contrast lat0 lon0 f k <-> k = kw \/ k = kf).
Proof. exact C84_contrast_lemma. Qed.
Print Assumptions C84_contrasts.
Example C84_contrasts_nonvacuous : exists f, fac_thermal f 1000 100 0 20 (-100) 0 150 /\ cos_sep (ex_lat 2) 0 (fc_lat f) (fc_lon f) <> 0
  /\ round_teff (Fin (wall_diff 1000 0 150)) = Ok 150%Z /\ round_teff (Fin (floor_diff 1000 0 20 (-100))) = Ok (-100)%Z.
Proof.
  exists (ex_facula 2 150). split. repeat split. split. cbn [fc_lat fc_lon ex_facula]. unfold ex_lat. rewrite cos_sep_self. lra. apply ex_rounds.
Qed.
(** all the warnings of a coverage computation *)
Theorem C84_coverage :
  forall s lat0 lon0 gr orbit planet phase incl T out, star_unified s -> good_grid (st_grid s) -> - PI/2 <= lat0 <= PI/2 -> 0 < st_radius s -> 0 < planet ->
  (forall f, In f (fcc_facs (st_facs s)) -> is_fin (fc_radius f)) -> st_teff s = Fin T ->
  calc_coverage s lat0 lon0 gr orbit planet phase incl = Ok out ->
  exists W W', coverage_warnings s lat0 lon0 orbit planet phase incl = Ok (W ++ W')
    /\ faculae_warnings s lat0 lon0 = Ok W /\ transit_warnings s lat0 lon0 orbit planet phase incl = Ok W'
    /\ (forall w, In w W -> w = WClipDeprecated \/ exists t, w = WTooHigh t \/ w = WTooLow t)
    /\ (W' = [] \/ exists x, W' = [WResolution (Fin x)] /\ 1 < x).
Proof. exact C84_coverage_lemma. Qed.
Print Assumptions C84_coverage.
Example C84_coverage_nonvacuous : exists s out, star_unified s /\ good_grid (st_grid s) /\ 0 < st_radius s /\ - PI/2 <= ex_lat 2 <= PI/2
  /\ (forall f, In f (fcc_facs (st_facs s)) -> is_fin (fc_radius f)) /\ st_teff s = Fin 3300 /\ fcc_facs (st_facs s) <> []
  /\ calc_coverage s (ex_lat 2) 0 (Fin 0) 100 (1/10) PI (PI/2) = Ok out.
Proof.
  destruct (ex_view 2 300 ltac:(lia)) as [A [M [C V]]]. destruct (ex_labels 300 A M C V (or_introl eq_refl)) as [DL AP].
  assert (NW : disk (ex_star 2 [] [ex_facula 2 150] 3300 300) (ex_lat 2) 0 A <> 0).
  { apply Rgt_not_eq, ex_disk. lia. exact (dv_area _ _ _ _ _ _ _ _ _ _ _ _ _ V). }
  destruct (C51_lemma _ _ _ _ _ _ _ _ _ _ _ _ _ V NW DL (or_introl AP)) as [tot [cov [E _]]].
  exists (ex_star 2 [] [ex_facula 2 150] 3300 300). eexists. split. apply ex_unified. split. simpl; lia. split. simpl; lra. split. apply ex_lat_range; lia.
  split. apply ex_fac_fin. split. reflexivity. split. discriminate. exact E.
Qed.

(** C46: the warning about exposure times *)
Theorem C46_warning :
  forall texp k,
  (texp = None /\ light_curve_warnings texp = []
     /\ exists curve : R * num * num -> R -> num, forall l ts,
          get_light_curve ts (map (fun x => fst (fst x)) l) (map (fun x => snd (fst x)) l) (map snd l) texp k
          = Ok (map (fun t => nsum (map (fun x => curve x t) l)) ts))
  \/ (light_curve_warnings texp = [WTexp] /\ exists te, texp = Some te).
Proof. exact C46_warning_lemma. Qed.
Print Assumptions C46_warning.
