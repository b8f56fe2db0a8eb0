(** The repository's own tests, for the model: /repo/test/test_coordinategrid.py, test_helpers.py and
    test_granules.py.  Each assertion of a test is a conjunct; [pytest.approx] is an equation where exact arithmetic
    gives one.  Not transcribed: assertions about Python types, and the six decimal values of the first
    [proj_ortho] case (test_helpers.py:43-49), which would need numerical bounds of sines. *)
From Coq Require Import Reals ZArith Bool String List Lia Lra.
From Verif Require Import Num Py MConfig MHelpers MGrid MArgs MGranules MSingle Spec LBase LHelpers LGrid LCirc LGran.
Import ListNotations.
Open Scope R_scope.

(** ** test_coordinategrid.py *)
(** test_coordinategrid.py:11-17 *)
Example test_rectangulargrid : grid_new (PyTuple [PyInt 100; PyInt 200]) = Ok (Rect 100 200).
Proof. reflexivity. Qed.
(** test_coordinategrid.py:20-27; [PyOther] stands for a float *)
Example test_coodinategrid_typeerror :
  rect_init (PyInt 100) PyOther = Raise TypeError /\ rect_init PyOther (PyInt 200) = Raise TypeError.
Proof. split; reflexivity. Qed.
(** test_coordinategrid.py:30-37 *)
Example test_rectangulargrid_oned :
  let (lats, lons) := rect_oned 100 200 in length lats = 100%nat /\ length lons = 200%nat.
Proof. cbv zeta beta. unfold rect_oned, get_lat_points, get_lon_points. now rewrite linspace_length, linspace_open_length. Qed.
(** test_coordinategrid.py:40-47 *)
Example test_rectangulargrid_grid : has_shape (grid_points (Rect 100 200)) true 200 100.
Proof. exact (grid_points_shape (Rect 100 200)). Qed.
(** test_coordinategrid.py:50-58 *)
Example test_rectangulargrid_zeros :
  has_shape (grid_zeros (Rect 100 200)) true 200 100 /\ forall x, In x (cells (grid_zeros (Rect 100 200))) -> x = Fin 0.
Proof.
  rewrite grid_zeros_eq. split; [apply has_shape_amap; exact (grid_points_shape (Rect 100 200))|].
  intros x H. rewrite cells_amap in H. apply in_map_iff in H. now destruct H as (y & <- & _).
Qed.
(** test_coordinategrid.py:61-76 *)
Example test_rectangulargrid_eq :
  grid_eq (Rect 100 200) (Some (Rect 100 200)) = Ok true /\ grid_eq (Rect 100 200) None = Raise TypeError
  /\ grid_ne (Rect 100 200) (Some (Rect 101 200)) = Ok true /\ grid_ne (Rect 100 200) (Some (Rect 200 100)) = Ok true.
Proof. repeat split; reflexivity. Qed.
(** test_coordinategrid.py:78-96 *)
Example test_rectangulargrid_display :
  let data := amap (fun p => sin (2 * fst p) * cos (2 * snd p)) (grid_points (Rect 100 200)) in
  exists lats lons out, display_grid (Rect 100 200) 100 200 data = Ok (lats, lons, out)
  /\ length lats = 100%nat /\ length lons = 200%nat /\ has_shape out true 200 100.
Proof.
  intro data. assert (H : has_shape data true 200 100) by (apply has_shape_amap; exact (grid_points_shape (Rect 100 200))).
  assert (E : arr_shape data = (true, (200%nat, 100%nat))).
  { clearbody data. destruct data as [b rows]. destruct H as (H1 & H2 & H3). cbn in H1, H2, H3. unfold arr_shape. cbn [a2d arows].
    destruct rows as [|row rows]; [discriminate H2|]. rewrite H2, H1. cbn [hd]. rewrite (H3 row); [reflexivity|now left]. }
  unfold display_grid. rewrite E. cbn [negb Nat.eqb]. unfold rect_oned.
  exists (map deg2rad (get_lat_points 100)), (map deg2rad (get_lon_points 200)), (amap Fin data).
  split; [reflexivity|]. rewrite !map_length. unfold get_lat_points, get_lon_points.
  rewrite linspace_length, linspace_open_length. repeat split; apply (has_shape_amap _ _ Fin) in H; destruct H as (H1 & H2 & H3); auto.
Qed.
(** test_coordinategrid.py:99-104 *)
Example test_spiralgrid : grid_new (PyInt 1000) = Ok (Spiral 1000).
Proof. reflexivity. Qed.
(** test_coordinategrid.py:106-117 *)
Example test_spiralgrid_grid :
  has_shape (grid_points (Spiral 1000)) false 1 1000
  /\ forall p, In p (cells (grid_points (Spiral 1000))) ->
     snd p < 2 * PI /\ 0 <= snd p /\ fst p <= 1/2 * PI /\ - (1/2) * PI <= fst p.
Proof.
  split; [exact (grid_points_shape (Spiral 1000))|]. intros p H. rewrite spiral_points_eq in H.
  unfold cells in H. cbn [arows concat] in H. rewrite app_nil_r in H. apply in_map_iff in H. destruct H as (i & <- & H). apply in_seq in H. cbn [fst snd].
  pose proof (spiral_lat_range 1000 i ltac:(lia)). pose proof PI_RGT_0.
  destruct (rmod_range (2 * PI * INR i / GOLDEN_RATIO) (2 * PI) ltac:(lra)). unfold spiral_lon. lra.
Qed.
(** test_coordinategrid.py:119-127 *)
Example test_spiralgrid_zeros :
  has_shape (grid_zeros (Spiral 1000)) false 1 1000 /\ forall x, In x (cells (grid_zeros (Spiral 1000))) -> x = Fin 0.
Proof.
  rewrite grid_zeros_eq. split; [apply has_shape_amap; exact (grid_points_shape (Spiral 1000))|].
  intros x H. rewrite cells_amap in H. apply in_map_iff in H. now destruct H as (y & <- & _).
Qed.
(** test_coordinategrid.py:129-138 *)
Example test_spiralgrid_eq :
  grid_eq (Spiral 1000) (Some (Spiral 1000)) = Ok true /\ grid_eq (Spiral 1000) None = Raise TypeError.
Proof. split; [unfold grid_eq; now rewrite Nat.eqb_refl|reflexivity]. Qed.
(** test_coordinategrid.py:140-160 *)
Example test_spiralgrid_display :
  let data := amap (fun p => sin (2 * fst p) * cos (2 * snd p)) (grid_points (Spiral 1000)) in
  exists lats lons out, display_grid (Spiral 1000) 100 200 data = Ok (lats, lons, out)
  /\ length lats = 100%nat /\ length lons = 200%nat /\ has_shape out true 200 100.
Proof.
  intro data. assert (H : has_shape data false 1 1000) by (apply has_shape_amap; exact (grid_points_shape (Spiral 1000))).
  assert (E : arr_shape data = (false, (1%nat, 1000%nat))).
  { clearbody data. destruct data as [b rows]. destruct H as (H1 & H2 & H3). cbn in H1, H2, H3. unfold arr_shape. cbn [a2d arows].
    destruct rows as [|row rows]; [discriminate H2|]. rewrite H2, H1. cbn [hd]. rewrite (H3 row); [reflexivity|now left]. }
  unfold display_grid. rewrite E. rewrite Nat.eqb_refl. cbn [negb]. unfold rect_oned.
  do 3 eexists. split; [reflexivity|]. rewrite !map_length. unfold get_lat_points, get_lon_points.
  rewrite linspace_length, linspace_open_length. split; [reflexivity|]. split; [reflexivity|].
  apply has_shape_amap. exact (grid_points_shape (Rect 100 200)).
Qed.

(** ** test_helpers.py *)
(** test_helpers.py:10-15 *)
Example test_round_teff : round_teff (Fin (1003/10)) = Ok 100%Z.
Proof.
  cbn. f_equal. destruct (rhe_spec (1003/10)) as [H _]. apply Rabs_le_inv in H.
  assert (99 < rhe (1003/10))%Z by (apply lt_IZR; lra). assert (rhe (1003/10) < 101)%Z by (apply lt_IZR; lra). lia.
Qed.
Lemma deg_mul : forall a b, deg2rad a - deg2rad b = deg2rad (a - b).
Proof. intros. unfold deg2rad. field. Qed.
Lemma angle_lon : forall x, 0 <= x <= PI -> get_angle_between 0 0 0 x = Fin x.
Proof.
  intros x H. unfold get_angle_between. rewrite nacos_fin by (apply law_cos_bound). f_equal. unfold law_cos.
  rewrite sin_0, cos_0. rewrite !Rmult_0_l, Rplus_0_l, !Rmult_1_l. unfold Rminus. rewrite Rplus_0_l, cos_neg. now apply acos_cos.
Qed.
(** test_helpers.py:17-28 *)
Example test_get_angle_between :
  let angle a b c d := get_angle_between (deg2rad a) (deg2rad b) (deg2rad c) (deg2rad d) in
  angle 0 0 0 0 = Fin (deg2rad 0) /\ angle 0 0 90 0 = Fin (deg2rad 90) /\ angle 0 0 40 0 = Fin (deg2rad 40)
  /\ angle 0 0 0 120 = Fin (deg2rad 120) /\ angle 0 0 0 (-120) = Fin (deg2rad 120) /\ angle 90 0 (-90) 0 = Fin (deg2rad 180).
Proof.
  pose proof PI_RGT_0. cbv zeta.
  assert (Z : deg2rad 0 = 0) by (unfold deg2rad; lra).
  assert (LA : forall x, 0 <= x <= 180 -> get_angle_between (deg2rad 0) (deg2rad 0) (deg2rad x) (deg2rad 0) = Fin (deg2rad x)).
  { intros x X. unfold get_angle_between. rewrite nacos_fin by (apply law_cos_bound). f_equal. unfold law_cos.
    rewrite Z, sin_0, cos_0, Rminus_0_r, cos_0. rewrite Rmult_0_l, Rplus_0_l, Rmult_1_l, Rmult_1_r. apply acos_cos. unfold deg2rad. nra. }
  assert (LO : forall x, 0 <= x <= 180 -> get_angle_between (deg2rad 0) (deg2rad 0) (deg2rad 0) (deg2rad x) = Fin (deg2rad x)).
  { intros x X. rewrite Z. apply angle_lon. unfold deg2rad. nra. }
  split; [apply LA; lra|]. split; [apply LA; lra|]. split; [apply LA; lra|]. split; [apply LO; lra|]. split.
  - rewrite <- (LO 120) by lra. unfold get_angle_between. do 2 f_equal. unfold law_cos. f_equal. f_equal.
    replace (deg2rad 0 - deg2rad (-120)) with (- (deg2rad 0 - deg2rad 120)) by (unfold deg2rad; lra). apply cos_neg.
  - unfold get_angle_between. rewrite nacos_fin by (apply law_cos_bound). f_equal. unfold law_cos.
    replace (deg2rad 90) with (PI/2) by (unfold deg2rad; lra). replace (deg2rad (-90)) with (- (PI/2)) by (unfold deg2rad; lra).
    replace (deg2rad 180) with PI by (unfold deg2rad; lra). rewrite sin_neg, cos_neg, sin_PI2, cos_PI2.
    replace (1 * - (1) + 0 * 0 * cos (deg2rad 0 - deg2rad 0)) with (cos PI) by (rewrite cos_PI; lra). apply acos_cos. lra.
Qed.
(** test_helpers.py:51-53 *)
Example test_proj_ortho_typeerror : forall lats lons, proj_ortho_arg None None lats lons = Raise TypeError.
Proof. reflexivity. Qed.
(** test_helpers.py:55-66 *)
Example test_proj_ortho :
  let proj d := proj_ortho (deg2rad 0) (deg2rad 10) (deg2rad 0, deg2rad d) in
  proj 100 = (Fin 1, Fin 0) /\ proj 40 = (Fin (1/2), Fin 0) /\ proj 10 = (Fin 0, Fin 0).
Proof.
  pose proof PI_RGT_0. cbv zeta.
  assert (Z : deg2rad 0 = 0) by (unfold deg2rad; lra). rewrite Z.
  assert (E : forall d, 10 <= d <= 100 -> proj_ortho 0 (deg2rad 10) (0, deg2rad d) = (Fin (sin (deg2rad (d - 10))), Fin 0)).
  { intros d D. unfold proj_ortho. rewrite Rminus_0_r.
    destruct (Req_EM_T (PI/2) 0) as [?|_]; [lra|]. destruct (Req_EM_T (PI/2) PI) as [?|_]; [lra|].
    cbv zeta.
    assert (M : law_cos 0 (deg2rad 10) 0 (deg2rad d) = cos (deg2rad (d - 10))).
    { unfold law_cos. rewrite sin_0, cos_0. replace (deg2rad 10 - deg2rad d) with (- deg2rad (d - 10)) by (unfold deg2rad; field).
      rewrite cos_neg. lra. }
    rewrite M. set (x := deg2rad (d - 10)). assert (X : 0 <= x <= PI/2) by (unfold x, deg2rad; nra).
    rewrite nacos_fin by (pose proof (COS_bound x); lra). rewrite acos_cos by lra.
    rewrite cos_PI2, sin_PI2. cbn [ncos nsin]. rewrite !nmul_fin, nsub_fin.
    replace (0 - cos x * 0) with 0 by lra. replace (sin x * 1) with (sin x) by lra.
    assert (0 <= cos x) by (apply cos_ge_0; lra).
    assert (S0 : sin (deg2rad d - deg2rad 10) = sin x) by (unfold x, deg2rad; f_equal; field). rewrite S0.
    assert (0 <= sin x) by (apply sin_ge_0; lra).
    destruct (Rle_dec 0 (cos x)) as [_|?]; [|lra]. destruct (Rlt_dec (sin x) 0) as [?|_]; [lra|].
    destruct (Req_EM_T (deg2rad d) (deg2rad 10)) as [Q|Q].
    - destruct (Rlt_dec 0 0); [lra|]. rewrite ?sin_0, ?cos_0. cbn [nsin ncos]. rewrite !nmul_fin, sin_0, cos_0.
      assert (x = 0) by (unfold x; unfold deg2rad in Q |- *; lra). rewrite H2, sin_0. f_equal; f_equal; lra.
    - assert (0 < x). { destruct X as [[?|?] ?]; [assumption|]. exfalso. apply Q. unfold x in H2. unfold deg2rad in H2 |- *. lra. }
      assert (0 < sin x) by (apply sin_gt_0; lra).
      destruct (Rlt_dec (cos x) 1) as [_|N]. 2:{ exfalso. apply N. rewrite <- cos_0. apply cos_decreasing_1; lra. }
      replace (neq (Fin (sin x)) (Fin 0)) with false by (symmetry; apply neq_fin_false; lra).
      rewrite ndiv_fin by lra. replace (0 / sin x) with 0 by (field; lra). unfold nround4, round4.
      replace (0 * 10000) with (IZR 0) by lra. rewrite rhe_IZR. replace (IZR 0 / 10000) with 0 by lra.
      rewrite nacos_fin by lra. rewrite acos_0. cbn [nsin ncos]. rewrite !nmul_fin, sin_PI2, cos_PI2. f_equal; f_equal; lra. }
  rewrite !E by lra.
  replace (deg2rad (100 - 10)) with (PI/2) by (unfold deg2rad; lra). replace (deg2rad (40 - 10)) with (PI/6) by (unfold deg2rad; lra).
  replace (deg2rad (10 - 10)) with 0 by (unfold deg2rad; lra). rewrite sin_PI2, sin_PI6, sin_0. auto.
Qed.
Lemma acos_lt : forall a b, -1 <= a -> a < b -> b <= 1 -> acos b < acos a.
Proof.
  intros a b A L B. pose proof (acos_bound a). pose proof (acos_bound b).
  apply cos_decreasing_0; try tauto. rewrite !cos_acos by lra. assumption.
Qed.
(** test_helpers.py:68-80 *)
Example test_circle_intersection :
  circ_fraction (Fin 0) (Fin 0) (Fin 1) = Ok (Fin 1) /\ circ_fraction (Fin 0) (Fin 0) (Fin (1/2)) = Ok (Fin 1)
  /\ circ_fraction (Fin 0) (Fin (1/2)) (Fin (1/2)) = Ok (Fin 1) /\ circ_fraction (Fin 2) (Fin 0) (Fin (1/2)) = Ok (Fin 0)
  /\ (exists v, circ_fraction (Fin 1) (Fin 0) (Fin 1) = Ok (Fin v) /\ v < 1/2)
  /\ (exists v, circ_fraction (Fin (6/10)) (Fin 0) (Fin (1/2)) = Ok (Fin v) /\ 1/2 < v).
Proof.
  pose proof PI_RGT_0.
  assert (D : forall x, 0 <= x -> sqrt (x^2 + 0^2) = x /\ sqrt (0^2 + x^2) = x).
  { intros x X. split; [replace (x^2 + 0^2) with (x^2) by ring|replace (0^2 + x^2) with (x^2) by ring]; now apply sqrt_pow2. }
  rewrite !circ_fraction_eq by lra.
  rewrite (proj1 (D 0 ltac:(lra))), (proj1 (D 2 ltac:(lra))), (proj1 (D 1 ltac:(lra))), (proj1 (D (6/10) ltac:(lra))), (proj2 (D (1/2) ltac:(lra))).
  rewrite !frac_low by lra. rewrite frac_high by lra.
  repeat (split; [reflexivity|]).
  split; eexists; (split; [reflexivity|]).
  - unfold frac. rewrite lclamp_mid by lra. rewrite lens_unit. unfold gseg.
    replace (acos (1/2)) with (PI/3). 2:{ rewrite <- cos_PI3, acos_cos; lra. }
    assert (8/10 < sqrt (1 - (1/2)^2)). { rewrite <- (sqrt_pow2 (8/10)) by lra. apply sqrt_lt_1_alt. lra. }
    pose proof PI_4. apply Rmult_lt_reg_r with (PI * 1^2); [lra|]. unfold Rdiv at 1. rewrite Rmult_assoc, Rinv_l by lra. lra.
  - unfold frac. rewrite lclamp_mid by lra. unfold lens.
    replace (ld1 (1/2) (6/10)) with (925/1000) by (unfold ld1; field). replace (ld2 (1/2) (6/10) / (1/2)) with (- (65/100)) by (unfold ld2; field).
    rewrite gseg_opp.
    assert (A : 0 < gseg (925/1000)). { unfold gseg. assert (B : 0 < acos (925/1000)). { rewrite <- acos_1 at 1. apply acos_lt; lra. }
      pose proof (sin_lt_x _ B) as C. rewrite sin_acos in C by lra. replace ((925/1000)²) with ((925/1000)^2) in C by (unfold Rsqr; ring).
      pose proof (sqrt_pos (1 - (925/1000)^2)). lra. }
    assert (B : gseg (65/100) <= PI/2). { unfold gseg. pose proof (sqrt_pos (1 - (65/100)^2)). assert (acos (65/100) <= PI/2); [|lra].
      rewrite <- acos_0. left. apply acos_lt; lra. }
    set (X := gseg (925/1000) + _). assert (PI/8 < X) by (unfold X; lra).
    apply Rmult_lt_reg_r with (PI * (1/2)^2); [lra|]. replace (X / (PI * (1/2)^2) * (PI * (1/2)^2)) with X by (field; lra). lra.
Qed.
(** test_helpers.py:82-99 *)
Example test_clip_teff :
  clip_teff (Fin 2000) = Fin 2300 /\ clip_teff (Fin 6500) = Fin 3900 /\ clip_teff (Fin 3000) = Fin 3000.
Proof. unfold clip_teff, ngt, TEFF_HI, TEFF_LO. cbn [nlt]. repeat split; rcase; auto; exfalso; lra. Qed.

(** ** test_granules.py *)
(** test_granules.py:18-29 *)
Example test_build_gp : exists gp,
  build_gp [("mean"%string, Fin (5/10)); ("scale"%string, Fin (1/10)); ("period"%string, Fin 3)] (linspace 0 10 51) = Ok gp.
Proof. eexists. reflexivity. Qed.
(** test_granules.py:31-40 *)
Example test_safe_cast_coverage :
  save_cast_coverage (map Fin (linspace 0 1 5)) = map Fin (linspace 0 1 5)
  /\ save_cast_coverage (repeat (Fin (11/10)) 5) = repeat (Fin 1) 5
  /\ save_cast_coverage (repeat (Fin (- (1/10))) 5) = repeat (Fin 0) 5.
Proof.
  split.
  - unfold save_cast_coverage. rewrite map_map. apply map_ext_in. intros x H. apply save_cast1_id.
    unfold linspace in H. cbn [seq map] in H. cbn [In] in H. simpl INR in H. intuition; subst; lra.
  - unfold save_cast_coverage. cbn [repeat map]. unfold save_cast1, ngt. cbn [nlt]. split; rcase; cbn [nlt]; rcase; auto; exfalso; lra.
Qed.
(** test_granules.py:42-54 *)
Example test_granulation_build_gp : exists gp,
  gran_build_gp (gran_init (Fin (2/10)) (Fin (1/100)) (Fin 3) (Fin 200)) (linspace 0 10 51) = Ok gp.
Proof. eexists. reflexivity. Qed.
(** test_granules.py:56-61, for every sample of the gaussian process that is not NaN *)
Example test_granulation_get_coverage : forall sample, (forall i, sample i <> NaN) ->
  forall c, In c (gran_get_coverage (gran_init (Fin (2/10)) (Fin (1/100)) (Fin 3) (Fin 200)) 51 sample) ->
  ngt c (Fin 1) = false /\ nlt c (Fin 0) = false.
Proof.
  intros sample H c I. unfold gran_get_coverage, save_cast_coverage in I. rewrite map_map in I. apply in_map_iff in I.
  destruct I as (i & <- & _). destruct (save_cast1_range _ (H i)) as (v & -> & V). unfold ngt. cbn [nlt]. split; rcase; auto; exfalso; lra.
Qed.
