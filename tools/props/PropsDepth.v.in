(** Properties C81-C82: the light hidden by a transiting planet *)
From Coq Require Import Reals ZArith Bool String List Lra Lia.
From Coquelicot Require Import Coquelicot.
From Verif Require Import Num Py MConfig MHelpers MGrid MSpots MFaculae MXoflares MFlares MGranules MStar
  Spec SpecStar SpecDisk SpecConv SpecDepth LBase LGrid LSpotMap LSpotCov LDisk LStar LStarCov LObserve LSphere LZonal LSpotDisk LDepth PropsStar PropsConv.
Import ListNotations.
Open Scope R_scope.

(** a star without spots and faculae, with granulation, in front of which a planet may pass *)
Lemma ex_clean_view : forall n u1 u2 lat0 lon0 orbit planet phase incl, (6 <= n)%nat -> ld_positive (ex_spotted n u1 u2 []) -> - PI/2 <= lat0 <= PI/2 ->
  0 <= orbit -> 0 <= planet -> cos phase <= 0 ->
  exists A M C pf, disk_view (ex_spotted n u1 u2 []) lat0 lon0 orbit planet phase incl 3300 200 A M C pf
    /\ (forall t, appears (st_grid (ex_spotted n u1 u2 [])) M t <-> t = 3300)
    /\ distinct_labels (fun t => fmt2 (Fin t)) (ex_spotted n u1 u2 []) M 3300 200.
Proof.
  intros n u1 u2 lat0 lon0 orbit planet phase incl Hn LP L HO HP HC. set (s := ex_spotted n u1 u2 []).
  destruct (C71_lemma s lat0 lon0 orbit planet phase incl 3300 200) as [A [M [C [pf [V _]]]]]; auto.
  - apply ex_spotted_unified.
  - change (st_radius s) with 1. lra.
  - intros x [].
  - intros x [].
  - exists A, M, C, (Fin pf). split; auto.
    assert (EM : M = amap (fun _ => Fin 3300) (grid_points (st_grid s))).
    { pose proof (dv_map _ _ _ _ _ _ _ _ _ _ _ _ _ V) as K. unfold add_faculae_to_map in K. rewrite star_map_eq in K by apply ex_spotted_unified. cbn [bind] in K.
      change (fcc_facs (st_facs s)) with (@nil facula) in K. cbn [paint_faculae] in K. change (sc_spots (st_spots s)) with (@nil spot) in K. cbn [fold_left] in K. change (st_teff s) with (Fin 3300) in K. congruence. }
    assert (AP : forall t, appears (st_grid s) M t <-> t = 3300).
    { intros t. rewrite EM. unfold appears. split.
      - intros [j [i [P K]]]. rewrite acell_grid in K by auto. congruence.
      - intros ->. exists 0%nat, 0%nat. change (st_grid s) with (Spiral n). assert (P : pixel (Spiral n) 0 0) by (apply ex_pixel; lia). split; auto. rewrite acell_grid; auto. }
    split; auto. intros t t' I I' E. apply (ex_labels (fun t => fmt2 (Fin t)) 200 fmt2_two_decimals (or_intror eq_refl)); auto; unfold listed in *; rewrite AP in *; cbn [In]; [destruct I as [-> | ->]|destruct I' as [-> | ->]]; tauto.
Qed.
Lemma ex_ld : forall n sp, ld_positive (ex_spotted n (1/5) (3/10) sp).
Proof. intros n sp x Hx. change (st_u1 _) with (1/5). change (st_u2 _) with (3/10). nra. Qed.
Lemma fine_m : forall e, 0 < e -> exists m, (2 <= m)%nat /\ (6 <= m ^ 3)%nat /\ good_grid (Spiral (m ^ 3)) /\ resolution (Spiral (m ^ 3)) (/ INR m) /\ sqrt (/ INR m) <= e.
Proof.
  intros e He. destruct (fine_d e He) as [m [H2 Hm]]. destruct (cube_ge m H2) as [C1 C2]. exists m. split; auto. split; auto. split. simpl; lia. split; auto. apply res_spiral; lia.
Qed.
Lemma depth_small : forall px py e, Rabs px <= 1 -> Rabs py <= 1 -> 0 < e <= 1 / 10000 -> forall d, sqrt d <= e / 1000 -> depth_error px py (1/10) d <= 3 / 1000.
Proof.
  intros. unfold depth_error, rounding. pose proof (Rmin_r (Rabs px / 100) (1 / 10000 + 1 / 10 / 100)). pose proof (Rabs_pos py). lra.
Qed.

(** C81: a planet of a tenth of the stellar radius, half way between the centre of the disk and
    the limb, in front of stars with and without limb darkening *)
@THM C81_transit_depth C81_lemma
Example C81_nonvacuous : forall e, 0 < e <= 1 / 10000 -> exists label s A M C pf d, two_decimals label
  /\ disk_view s (PI/6) 1 1 (1/10) (5 * PI / 6) (PI/2) 3300 200 A M C pf /\ ld_positive s
  /\ distinct_labels label s M 3300 200 /\ appears (st_grid s) M 3300 /\ resolution (st_grid s) d /\ cos (5 * PI / 6) <= 0
  /\ sky_r s (1/10) = 1/10 /\ sky_x s 1 (5 * PI / 6) = - (1/2) /\ sky_y s 1 (5 * PI / 6) (PI/2) = 0
  /\ st_u1 s = 1/5 /\ st_u2 s = 3/10 /\ depth_error (- (1/2)) 0 (1/10) d <= 2 * (1/10000 + 1/1000) + e
  /\ 1/2 + sqrt ((1/10)^2 + depth_error (- (1/2)) 0 (1/10) d) <= 1
  /\ (forall m, 0 < m <= 1 -> Rabs (sqrt (1 - m^2) - 1/2) <= sqrt ((1/10)^2 + depth_error (- (1/2)) 0 (1/10) d) ->
        1 - 1/5 * (1/2) - 3/10 * (1/2)^2 <= 1 - st_u1 s * (1 - m) - st_u2 s * (1 - m)^2 <= 1).
Proof.
  intros e He. destruct (fine_m (e / 1000)) as [m [H2 [C1 [G [Q Hm]]]]]. lra. pose proof PI_RGT_0 as PP. set (n := (m ^ 3)%nat) in *.
  assert (HS : sin (5 * PI / 6) = 1/2) by (replace (5 * PI / 6) with (PI - PI / 6) by field; rewrite sin_minus, sin_PI, cos_PI, sin_PI6; lra).
  assert (HC : cos (5 * PI / 6) <= 0). { replace (5 * PI / 6) with (PI - PI / 6) by field; rewrite cos_minus, sin_PI, cos_PI. pose proof (cos_ge_0 (PI / 6) ltac:(lra) ltac:(lra)). lra. }
  destruct (ex_clean_view n (1/5) (3/10) (PI/6) 1 1 (1/10) (5 * PI / 6) (PI/2) C1 (ex_ld n []) ltac:(lra) ltac:(lra) ltac:(lra) HC) as [A [M [C [pf [V [AP DL]]]]]].
  exists (fun t => fmt2 (Fin t)), (ex_spotted n (1/5) (3/10) []), A, M, C, pf, (/ INR m). change (st_grid (ex_spotted n (1/5) (3/10) [])) with (Spiral n) in *.
  assert (DE : depth_error (- (1/2)) 0 (1/10) (/ INR m) <= 3 / 1000) by (apply (depth_small _ _ e); auto; rewrite ?Rabs_Ropp, ?Rabs_R0, ?(Rabs_right (1/2)) by lra; lra).
  assert (D0 : 0 <= depth_error (- (1/2)) 0 (1/10) (/ INR m)). { unfold depth_error. pose proof (rounding_nonneg (- (1/2)) 0 (1/10) ltac:(lra)). pose proof (sqrt_pos (/ INR m)). lra. }
  assert (SQ : sqrt ((1/10)^2 + depth_error (- (1/2)) 0 (1/10) (/ INR m)) <= 3/10) by (apply sqrt_le_of_sq; lra).
  split. apply fmt2_two_decimals. split. auto. split. apply ex_ld. split. auto. split. apply AP; auto. split. auto. split. auto.
  split. unfold sky_r. change (st_radius _) with 1. field.
  split. unfold sky_x. change (st_radius _) with 1. rewrite HS. field.
  split. unfold sky_y. change (st_radius _) with 1. rewrite cos_PI2. field.
  split. reflexivity. split. reflexivity. split.
  { unfold depth_error, rounding. pose proof (Rmin_r (Rabs (- (1/2)) / 100) (1 / 10000 + 1 / 10 / 100)). rewrite Rabs_R0. lra. }
  split. lra. intros x Hx K. change (st_u1 _) with (1/5). change (st_u2 _) with (3/10). apply Rabs_le_between in K.
  assert (P : 0 <= 1 - x ^ 2) by nra. pose proof (sqrt_sqrt _ P) as S2. pose proof (sqrt_pos (1 - x ^ 2)) as S0. set (z := sqrt (1 - x ^ 2)) in *.
  assert (z * z <= (8/10) * (8/10)) by nra. assert (1/2 <= x) by nra. split; nra.
Qed.
@THM C81_uniform C81_uniform_lemma
Example C81_uniform_nonvacuous : forall e, 0 < e <= 1 / 10000 -> exists label s A M C pf d, two_decimals label
  /\ disk_view s (PI/6) 1 1 (1/10) (5 * PI / 6) (PI/2) 3300 200 A M C pf /\ st_u1 s = 0 /\ st_u2 s = 0
  /\ distinct_labels label s M 3300 200 /\ appears (st_grid s) M 3300 /\ resolution (st_grid s) d /\ cos (5 * PI / 6) <= 0
  /\ sky_r s (1/10) = 1/10 /\ sky_x s 1 (5 * PI / 6) = - (1/2) /\ sky_y s 1 (5 * PI / 6) (PI/2) = 0
  /\ 1/2 + sqrt ((1/10)^2 + depth_error (- (1/2)) 0 (1/10) d) <= 1
  /\ rounding (- (1/2)) 0 (1/10) + 1320 * sqrt d <= (1/10)^2 / 4 + 2 * e.
Proof.
  intros e He. destruct (fine_m (e / 1000)) as [m [H2 [C1 [G [Q Hm]]]]]. lra. pose proof PI_RGT_0 as PP. set (n := (m ^ 3)%nat) in *.
  assert (HS : sin (5 * PI / 6) = 1/2) by (replace (5 * PI / 6) with (PI - PI / 6) by field; rewrite sin_minus, sin_PI, cos_PI, sin_PI6; lra).
  assert (HC : cos (5 * PI / 6) <= 0). { replace (5 * PI / 6) with (PI - PI / 6) by field; rewrite cos_minus, sin_PI, cos_PI. pose proof (cos_ge_0 (PI / 6) ltac:(lra) ltac:(lra)). lra. }
  assert (LP : ld_positive (ex_spotted n 0 0 [])) by (intros x Hx; change (st_u1 _) with 0; change (st_u2 _) with 0; lra).
  destruct (ex_clean_view n 0 0 (PI/6) 1 1 (1/10) (5 * PI / 6) (PI/2) C1 LP ltac:(lra) ltac:(lra) ltac:(lra) HC) as [A [M [C [pf [V [AP DL]]]]]].
  exists (fun t => fmt2 (Fin t)), (ex_spotted n 0 0 []), A, M, C, pf, (/ INR m). change (st_grid (ex_spotted n 0 0 [])) with (Spiral n) in *.
  assert (DE : depth_error (- (1/2)) 0 (1/10) (/ INR m) <= 3 / 1000) by (apply (depth_small _ _ e); auto; rewrite ?Rabs_Ropp, ?Rabs_R0, ?(Rabs_right (1/2)) by lra; lra).
  assert (D0 : 0 <= depth_error (- (1/2)) 0 (1/10) (/ INR m)). { unfold depth_error. pose proof (rounding_nonneg (- (1/2)) 0 (1/10) ltac:(lra)). pose proof (sqrt_pos (/ INR m)). lra. }
  assert (SQ : sqrt ((1/10)^2 + depth_error (- (1/2)) 0 (1/10) (/ INR m)) <= 3/10) by (apply sqrt_le_of_sq; lra).
  split. apply fmt2_two_decimals. split. auto. split. reflexivity. split. reflexivity. split. auto. split. apply AP; auto. split. auto. split. auto.
  split. unfold sky_r. change (st_radius _) with 1. field.
  split. unfold sky_x. change (st_radius _) with 1. rewrite HS. field.
  split. unfold sky_y. change (st_radius _) with 1. rewrite cos_PI2. field.
  split. lra.
  unfold rounding. pose proof (Rmin_r (Rabs (- (1/2)) / 100) (1 / 10000 + 1 / 10 / 100)). rewrite Rabs_R0. lra.
Qed.

(** C82: the planet in front of the centre of a disk with limb darkening *)
@THM C82_central_transit C82_lemma
Example C82_nonvacuous : forall e, 0 < e -> exists label s A M C pf d, two_decimals label
  /\ disk_view s (PI/6) 1 20 (1/10) PI (PI/2) 3300 200 A M C pf /\ ld_positive s /\ fine_grid (st_grid s)
  /\ distinct_labels label s M 3300 200 /\ appears (st_grid s) M 3300 /\ resolution (st_grid s) d /\ cos PI <= 0
  /\ sky_x s 20 PI = 0 /\ sky_y s 20 PI (PI/2) = 0 /\ sky_r s (1/10) = 1/10 /\ st_u1 s = 1/5 /\ st_u2 s = 3/10
  /\ 562 * (1 + Rabs (st_u1 s) + Rabs (st_u2 s)) * sqrt d <= e.
Proof.
  intros e He. destruct (fine_m (e / 843)) as [m [H2 [C1 [G [Q Hm]]]]]. lra. pose proof PI_RGT_0 as PP. set (n := (m ^ 3)%nat) in *.
  assert (HC : cos PI <= 0) by (rewrite cos_PI; lra).
  destruct (ex_clean_view n (1/5) (3/10) (PI/6) 1 20 (1/10) PI (PI/2) C1 (ex_ld n []) ltac:(lra) ltac:(lra) ltac:(lra) HC) as [A [M [C [pf [V [AP DL]]]]]].
  exists (fun t => fmt2 (Fin t)), (ex_spotted n (1/5) (3/10) []), A, M, C, pf, (/ INR m). change (st_grid (ex_spotted n (1/5) (3/10) [])) with (Spiral n) in *.
  split. apply fmt2_two_decimals. split. auto. split. apply ex_ld. split. exact C1. split. auto. split. apply AP; auto. split. auto. split. auto.
  split. unfold sky_x. rewrite sin_PI. ring.
  split. unfold sky_y. rewrite cos_PI2. ring.
  split. unfold sky_r. change (st_radius _) with 1. field.
  split. reflexivity. split. reflexivity. change (st_u1 _) with (1/5). change (st_u2 _) with (3/10). rewrite !Rabs_right by lra. lra.
Qed.
