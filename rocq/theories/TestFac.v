(** The repository's own tests, for the model: /repo/test/test_faculae.py and test_flares.py.
    Not transcribed: assertions about Python types, and the fractional area at exactly 90 degrees
    (test_faculae.py:137-140): there the floating point cosine is 6e-17 and the two fractions sum to one, while in exact
    arithmetic the projected area is zero and the fractions are 0/0 (C31 asks for a nonzero cosine). *)
From Coq Require Import Reals ZArith Bool String List Lia Lra.
From Coquelicot Require Import Coquelicot.
From Verif Require Import Num Py MConfig MHelpers MGrid MArgs MSpots MFaculae MXoflares MFlares Spec SpecStar SpecFlare
  LBase LHelpers LGrid LCirc LSpotMap LSpotAge LSpiral LFac LFlareGen.
Import ListNotations.
Open Scope R_scope.

(** test_faculae.py:13-32 [init_facula], with its default arguments; lengths in km, times in hours *)
Definition tfac (rmax r : num) (life : num) (growing : bool) (fbase wint : num) (depth minrad : num) (g : grid) : facula :=
  {| fc_lat := 0; fc_lon := 0; fc_rmax := rmax; fc_radius := r; fc_depth := depth; fc_life := life; fc_fslope := Fin 0;
     fc_fminrad := minrad; fc_fbase := fbase; fc_wslope := Fin 0; fc_wint := wint; fc_growing := growing; fc_grid := g |}.
(** test_faculae.py:13-32 *)
Definition tfdefault (r : num) (g : grid) : facula :=
  tfac (Fin 300) r (Fin 10) true (Fin 100) (Fin 0) (Fin 100) (Fin 10) g.

Lemma rect_cells : forall a b p, In p (cells (grid_points (Rect a b))) <->
  exists i j, (i < a)%nat /\ (j < b)%nat /\
    p = (deg2rad (-90 + INR i * ((90 - -90) / INR (a - 1))), deg2rad (0 + INR j * ((360 - 0) / INR b))).
Proof.
  intros a b p. unfold cells. rewrite in_concat. unfold grid_points, rect_oned, get_lat_points, get_lon_points, linspace, linspace_open.
  cbn [arows]. split.
  - intros (row & Q & I). apply in_map_iff in Q. destruct Q as (lon & <- & Q). apply in_map_iff in I. destruct I as (lat & <- & I).
    apply in_map_iff in Q. apply in_map_iff in I. destruct Q as (j & <- & Q), I as (i & <- & I). apply in_seq in Q. apply in_seq in I.
    exists i, j. repeat split; lia.
  - intros (i & j & I & J & ->). eexists. split.
    + apply in_map_iff. eexists. split; [reflexivity|]. apply in_map_iff. exists j. split; [reflexivity|]. apply in_seq. lia.
    + apply in_map_iff. eexists. split; [reflexivity|]. apply in_map_iff. exists i. split; [reflexivity|]. apply in_seq. lia.
Qed.
(** the points of the 300 x 600 grid are neither the point (0,0) nor its antipode *)
Lemma grid_dist : forall p, In p (cells (grid_points (Rect 300 600))) -> 0 < acos (law_cos 0 0 (fst p) (snd p)) < PI.
Proof.
  intros p H. apply rect_cells in H. destruct H as (i & j & I & J & ->). cbn [fst snd]. pose proof PI_RGT_0.
  set (lon := deg2rad (0 + _)). set (lat := deg2rad (-90 + _)).
  assert (LC : law_cos 0 0 lat lon = cos lat * cos lon).
  { unfold law_cos. rewrite sin_0, cos_0. replace (0 - lon) with (- lon) by lra. rewrite cos_neg. lra. }
  rewrite LC. assert (E : INR (300 - 1) = 299) by (rewrite INR_IZR_INZ; reflexivity).
  assert (NZ : INR i * 2 <> 299). { intro Q. rewrite INR_IZR_INZ in Q. rewrite <- mult_IZR in Q. apply eq_IZR in Q. lia. }
  assert (I2 : 0 <= INR i <= 299). { split; [apply pos_INR|]. rewrite <- E. apply le_INR. lia. }
  assert (LA : lat = (INR i * 2 - 299) / 299 * (PI/2)) by (unfold lat, deg2rad; rewrite E; field).
  assert (LR : - (PI/2) <= lat <= PI/2) by (rewrite LA; split; nra).
  assert (LN : lat <> 0). { rewrite LA. intro Q. apply Rmult_integral in Q. destruct Q as [Q|Q]; [|lra]. apply NZ. lra. }
  assert (SN : sin lat <> 0). { intro Q. apply sin_eq_0_0 in Q. destruct Q as (k & Q).
    assert (-1 < IZR k < 1) by (split; apply Rmult_lt_reg_r with PI; lra). destruct H0 as [K1 K2]. apply lt_IZR in K1, K2.
    assert (k = 0%Z) by lia. subst k. lra. }
  assert (C0 : 0 <= cos lat) by (apply cos_ge_0; lra).
  assert (C1 : cos lat < 1). { pose proof (sin2_cos2 lat) as Q. unfold Rsqr in Q. nra. }
  pose proof (COS_bound lon). assert (M : -1 < cos lat * cos lon < 1) by nra. split.
  - rewrite <- acos_1. apply acos_lt; lra.
  - replace PI with (acos (-1)) by (replace (-1) with (- (1)) by lra; rewrite acos_opp, acos_1; lra). apply acos_lt; lra.
Qed.
(** one of them is less than a degree from the antipode *)
Lemma grid_far : exists p, In p (cells (grid_points (Rect 300 600))) /\ deg2rad 179 <= acos (law_cos 0 0 (fst p) (snd p)).
Proof.
  eexists. split. { apply rect_cells. exists 149%nat, 300%nat. split; [lia|]. split; [lia|]. reflexivity. }
  cbn [fst snd]. pose proof PI_RGT_0.
  replace (INR (300 - 1)) with 299 by (rewrite INR_IZR_INZ; reflexivity). replace (INR 149) with 149 by (rewrite INR_IZR_INZ; reflexivity).
  replace (INR 300) with 300 by (rewrite INR_IZR_INZ; reflexivity). replace (INR 600) with 600 by (rewrite INR_IZR_INZ; reflexivity).
  replace (deg2rad (0 + 300 * ((360 - 0) / 600))) with PI by (unfold deg2rad; field).
  set (lat := deg2rad (-90 + _)). assert (LA : lat = - (PI / 598)) by (unfold lat, deg2rad; field).
  assert (LC : law_cos 0 0 lat PI = cos (PI - PI/598)).
  { unfold law_cos. rewrite sin_0, cos_0. replace (0 - PI) with (- PI) by lra. rewrite cos_neg, cos_PI, LA, cos_neg.
    rewrite Rtrigo_facts.cos_pi_minus. lra. }
  rewrite LC, acos_cos by lra. unfold deg2rad. lra.
Qed.
Lemma tfac_r : forall a b l g fb wi d mr gr, fac_r (tfac a b l g fb wi d mr gr) = amap (fun p => Fin (acos (law_cos 0 0 (fst p) (snd p)))) (grid_points gr).
Proof. intros. unfold fac_r. cbn [tfac fc_lat fc_lon fc_grid]. apply amap_ext. intros. apply haversine_eq. Qed.
(** test_faculae.py:35-42 *)
Example test_facula_init :
  let f := tfdefault (Fin 100) (Rect 300 600) in
  (forall x, In x (cells (fac_r f)) -> ngt x (Fin 0) = true /\ nlt x (Fin (deg2rad 180)) = true)
  /\ exists x, In (Fin x) (cells (fac_r f)) /\ 179 <= rad2deg x <= 181.
Proof.
  intro f. pose proof PI_RGT_0. unfold f, tfdefault. rewrite tfac_r, cells_amap. split.
  - intros x I. apply in_map_iff in I. destruct I as (p & <- & I). apply grid_dist in I. unfold ngt. rewrite !nlt_fin.
    unfold deg2rad. lra.
  - destruct grid_far as (p & I & D). eexists. split; [apply in_map_iff; exists p; split; [reflexivity|exact I]|].
    pose proof (acos_bound (law_cos 0 0 (fst p) (snd p))). unfold rad2deg. unfold deg2rad in D.
    split; apply Rmult_le_reg_r with (PI / 180); try lra; replace (acos (law_cos 0 0 (fst p) (snd p)) * 180 / PI * (PI / 180)) with (acos (law_cos 0 0 (fst p) (snd p))) by (field; lra); lra.
Qed.

(** ** age *)
(** test_faculae.py:49-51, 241 *)
Definition tage (r : R) (growing : bool) (g : grid) : facula := tfac (Fin 100) (Fin r) (Fin 10) growing (Fin 100) (Fin 0) (Fin 100) (Fin 10) g.
Lemma tage_state : forall r b g, fac_state (tage r b g) r 100 10.
Proof. intros. repeat split. Qed.
Lemma e_pos : 1 < exp 1.
Proof. pose proof (exp_increasing 0 1 ltac:(lra)) as H. now rewrite exp_0 in H. Qed.
Lemma tage_up : forall g, fac_age (tage (100 / exp 1) true g) (Fin (10 * (5/10))) = tage 100 false g.
Proof.
  intro g. pose proof e_pos. assert (A : 0 < 100 / exp 1) by (apply Rdiv_lt_0_compat; lra).
  assert (B : 100 / exp 1 <= 100). { apply Rmult_le_reg_r with (exp 1); [lra|]. unfold Rdiv. rewrite Rmult_assoc, Rinv_l by lra. lra. }
  rewrite (fac_age_growing _ _ _ _ _ (tage_state (100 / exp 1) true g) eq_refl) by lra.
  assert (T : time_to_peak (100 / exp 1) 100 10 = 5).
  { unfold time_to_peak. replace (100 / (100 / exp 1)) with (exp 1) by (field; lra). rewrite ln_exp. lra. }
  rewrite T. destruct (Rle_dec 5 (10 * (5/10))) as [_|?]; [|lra].
  replace (-2 * (10 * (5/10) - 5) / 10) with 0 by lra. rewrite exp_0, Rmult_1_r. reflexivity.
Qed.
Lemma tage_down : forall r g, fac_age (tage r false g) (Fin (10 * (5/10))) = tage (r / exp 1) false g.
Proof.
  intros r g. rewrite (fac_age_decay _ _ _ _ _ (tage_state r false g) eq_refl) by lra.
  replace (-2 * (10 * (5/10)) / 10) with (- (1)) by lra. rewrite exp_Ropp. reflexivity.
Qed.
(** test_faculae.py:45-56 *)
Example test_facula_age : forall g,
  let f1 := fac_age (tage (100 / exp 1) true g) (Fin (10 * (5/10))) in
  let f2 := fac_age f1 (Fin (10 * (5/10))) in
  fc_radius f1 = Fin 100 /\ fc_growing f1 = false /\ fc_radius f2 = Fin (100 / exp 1).
Proof. intro g. cbv zeta. rewrite tage_up, tage_down. repeat split. Qed.

(** ** effective area *)
(** test_faculae.py:64-70, 80, 90, 110: floor at -200 K, wall at 300 K *)
Definition tea (depth minrad : R) : facula := tfac (Fin 300) (Fin 100) (Fin 10) true (Fin (-200)) (Fin 300) (Fin depth) (Fin minrad) (Rect 300 600).
Lemma tea_thermal : forall d m, fac_thermal (tea d m) 100 d 0 m (-200) 0 300.
Proof. intros. repeat split. Qed.
Lemma tea_area : forall d m a, cos a <> 0 -> fac_effective_area (tea d m) (Fin a)
  = Ok [(300%Z, Fin (wallf 100 d m a * (PI * 100^2 * cos a))); ((-200)%Z, Fin ((1 - wallf 100 d m a) * (PI * 100^2 * cos a)))].
Proof.
  intros d m a C. rewrite (effective_area_eq _ _ _ _ _ _ _ _ a (tea_thermal d m)); [|lra|exact C|unfold wall_diff, floor_diff; lra].
  replace (wall_diff 100 0 300) with (IZR 300) by (unfold wall_diff; lra). replace (floor_diff 100 0 m (-200)) with (IZR (-200)) by (unfold floor_diff; lra).
  rewrite !rhe_IZR. reflexivity.
Qed.
Lemma deg_small : forall x, 0 <= x < 90 -> 0 <= deg2rad x < PI/2 /\ 0 < cos (deg2rad x) /\ 0 <= tan (deg2rad x).
Proof.
  intros x X. pose proof PI_RGT_0. assert (A : 0 <= deg2rad x < PI/2) by (unfold deg2rad; nra).
  split; [exact A|]. split; [apply cos_gt_0; lra|]. destruct (proj1 A) as [L| <-]; [left; apply tan_gt_0; lra|rewrite tan_0; lra].
Qed.
(** test_faculae.py:67-79, a flat facula: all floor *)
Example test_facula_effective_area_flat : forall x, x = 0 \/ x = 5 ->
  fac_effective_area (tea 0 10) (Fin (deg2rad x)) = Ok [(300%Z, Fin 0); ((-200)%Z, Fin (PI * 100^2 * cos (deg2rad x)))].
Proof.
  intros x X. destruct (deg_small x ltac:(lra)) as (_ & C & _). rewrite tea_area by lra.
  assert (W : wallf 100 0 10 (deg2rad x) = 0).
  { unfold wallf. destruct (Rlt_dec 100 10); [lra|]. replace (0 / 100 * tan (deg2rad x)) with 0 by (unfold Rdiv; ring). rewrite Rabs_R0, frac_low by lra. lra. }
  rewrite W. do 2 f_equal; [f_equal; f_equal; ring|]. f_equal. f_equal. f_equal. ring.
Qed.
Lemma tan5 : 1/100 < tan (deg2rad 5).
Proof.
  pose proof PI_RGT_0. destruct (deg_small 5 ltac:(lra)) as (A & C & _). unfold tan. pose proof (COS_bound (deg2rad 5)).
  pose proof (jordan (deg2rad 5) ltac:(lra)) as J. replace (2 * deg2rad 5 / PI) with (1/18) in J by (unfold deg2rad; field; lra).
  apply Rmult_lt_reg_r with (cos (deg2rad 5)); auto. unfold Rdiv at 2. rewrite Rmult_assoc, Rinv_l by lra. nra.
Qed.
(** test_faculae.py:80-88, a very deep facula: all wall *)
Example test_facula_effective_area_deep :
  fac_effective_area (tea 1000000000 10) (Fin (deg2rad 5)) = Ok [(300%Z, Fin (PI * 100^2 * cos (deg2rad 5))); ((-200)%Z, Fin 0)].
Proof.
  destruct (deg_small 5 ltac:(lra)) as (_ & C & _). rewrite tea_area by lra.
  assert (W : wallf 100 1000000000 10 (deg2rad 5) = 1).
  { pose proof tan5. unfold wallf. destruct (Rlt_dec 100 10); [lra|]. rewrite Rabs_right by lra. rewrite frac_high by lra. lra. }
  rewrite W. do 2 f_equal; [f_equal; f_equal; ring|]. f_equal. f_equal. f_equal. ring.
Qed.
(** the fraction of a facula as deep as its radius which is wall, seen at the angle of tangent [t] *)
Lemma wall_slope : forall p q, 0 <= p < q -> q < 1 -> (q - p) / PI <= frac 1 p - frac 1 q <= 2 * (q - p) / PI.
Proof.
  intros p q [P PQ] Q. pose proof PI_RGT_0.
  assert (E : frac 1 p - frac 1 q = (lens 1 p - lens 1 q) / PI) by (unfold frac; rewrite !lclamp_mid by lra; field; lra).
  assert (M : exists c, p <= c <= q /\ lens 1 q - lens 1 p = - 2 * sqrt (1 - (c/2)^2) * (q - p)).
  { rewrite !lens_unit. destruct (MVT_gen gseg (p/2) (q/2) (fun x => - 2 * sqrt (1 - x^2))) as [c [Hc M]].
    - intros x. rewrite Rmin_left, Rmax_right by lra. intro. apply is_derive_gseg. lra.
    - intros x _. apply continuity_pt_filterlim. apply continuous_gseg.
    - rewrite Rmin_left, Rmax_right in Hc by lra. exists (2 * c). split; [lra|].
      replace (2 * c / 2) with c by lra. lra. }
  destruct M as (c & C & M). assert (S1 : sqrt (1 - (c/2)^2) <= 1) by (rewrite <- sqrt_1 at 2; apply sqrt_le_1_alt; nra).
  assert (S2 : 1/2 <= sqrt (1 - (c/2)^2)).
  { replace (1/2) with (sqrt (1/4)) by (replace (1/4) with ((1/2)^2) by lra; apply sqrt_pow2; lra). apply sqrt_le_1_alt. nra. }
  rewrite E. unfold Rdiv. split; (apply Rmult_le_compat_r; [left; apply Rinv_0_lt_compat; lra|nra]).
Qed.
Lemma deg_tiny : forall x, 0 < x <= 6 -> 0 < sin (deg2rad x) < 4/30 /\ 8/9 < cos (deg2rad x) /\ 0 < tan (deg2rad x) < 3/20.
Proof.
  intros x X. pose proof PI_RGT_0. pose proof PI_4. destruct (deg_small x ltac:(lra)) as (A & C & _).
  assert (A0 : 0 < deg2rad x <= 4/30) by (unfold deg2rad; nra). assert (S0 : 0 < sin (deg2rad x)) by (apply sin_gt_0; lra).
  assert (S1 : sin (deg2rad x) < deg2rad x) by (apply sin_lt_x; lra). pose proof (sin2_cos2 (deg2rad x)) as Q. unfold Rsqr in Q.
  assert (C1 : 8/9 < cos (deg2rad x)) by nra. split; [lra|]. split; [exact C1|]. unfold tan. split; [apply Rdiv_lt_0_compat; lra|].
  apply Rmult_lt_reg_r with (cos (deg2rad x)); auto. unfold Rdiv at 1. rewrite Rmult_assoc, Rinv_l by lra. lra.
Qed.
Lemma wall_5_6 : let w x := wallf 100 100 10 (deg2rad x) in
  0 < w 5 < w 6 /\ w 6 < 1 /\ w 5 * cos (deg2rad 5) < w 6 * cos (deg2rad 6).
Proof.
  intro w. pose proof PI_RGT_0 as P0.
  destruct (deg_tiny 5 ltac:(lra)) as (S5 & C5 & T5), (deg_tiny 6 ltac:(lra)) as (S6 & C6 & T6).
  assert (W : forall x, 0 < tan (deg2rad x) -> w x = 1 - frac 1 (tan (deg2rad x))).
  { intros x X. unfold w, wallf. destruct (Rlt_dec 100 10); [lra|]. replace (100 / 100 * tan (deg2rad x)) with (tan (deg2rad x)) by field.
    rewrite Rabs_right by lra. reflexivity. }
  rewrite !W by lra. set (t5 := tan (deg2rad 5)) in *. set (t6 := tan (deg2rad 6)) in *.
  set (b := deg2rad (1/2)). destruct (deg_tiny (1/2) ltac:(lra)) as (SB & CB & _). fold b in SB, CB.
  (* the difference of the tangents and of the cosines *)
  assert (D1 : (t6 - t5) * cos (deg2rad 6) * cos (deg2rad 5) = 2 * sin b * cos b).
  { rewrite <- sin_2a. replace (2 * b) with (deg2rad 6 - deg2rad 5) by (unfold b, deg2rad; field).
    rewrite sin_minus. unfold t6, t5, tan. field. lra. }
  assert (D2 : cos (deg2rad 5) - cos (deg2rad 6) = 2 * sin (deg2rad (11/2)) * sin b).
  { replace (deg2rad 5) with (deg2rad (11/2) - b) by (unfold b, deg2rad; field). replace (deg2rad 6) with (deg2rad (11/2) + b) by (unfold b, deg2rad; field).
    rewrite cos_minus, cos_plus. ring. }
  destruct (deg_tiny (11/2) ltac:(lra)) as (SH & _ & _). pose proof (COS_bound (deg2rad 5)) as B5. pose proof (COS_bound (deg2rad 6)) as B6.
  assert (D : 0 < t6 - t5). { assert (0 < 2 * sin b * cos b) by nra. assert (0 < cos (deg2rad 6) * cos (deg2rad 5)) by nra. nra. }
  pose proof (wall_slope 0 t5 ltac:(lra) ltac:(lra)) as V5. pose proof (wall_slope t5 t6 ltac:(lra) ltac:(lra)) as V6.
  rewrite frac_low with (d := 0) in V5 by lra. set (f5 := frac 1 t5) in *. set (f6 := frac 1 t6) in *.
  assert (I : 0 < / PI) by (apply Rinv_0_lt_compat; lra). unfold Rdiv in V5, V6.
  assert (F6 : 0 < f6). { unfold f6. apply (frac_mid 1 t6); lra. }
  assert (0 < (t6 - t5) * / PI) by (apply Rmult_lt_0_compat; lra). assert (0 < (t5 - 0) * / PI) by (apply Rmult_lt_0_compat; lra).
  split; [lra|]. split; [lra|].
  assert (X1 : (1 - f5) * (cos (deg2rad 5) - cos (deg2rad 6)) <= 2 * t5 * / PI * (cos (deg2rad 5) - cos (deg2rad 6))).
  { apply Rmult_le_compat_r; [rewrite D2; apply Rmult_le_pos; lra|lra]. }
  assert (X2 : (t6 - t5) * / PI * cos (deg2rad 6) <= (f5 - f6) * cos (deg2rad 6)) by (apply Rmult_le_compat_r; lra).
  assert (X3 : 2 * t5 * (cos (deg2rad 5) - cos (deg2rad 6)) < (t6 - t5) * cos (deg2rad 6)).
  { apply Rlt_le_trans with (2 * sin b * cos b).
    - rewrite D2. replace (2 * t5 * (2 * sin (deg2rad (11/2)) * sin b)) with (2 * sin b * (2 * t5 * sin (deg2rad (11/2)))) by ring.
      apply Rmult_lt_compat_l; [lra|]. nra.
    - rewrite <- D1. rewrite <- (Rmult_1_r ((t6 - t5) * cos (deg2rad 6))) at 2. apply Rmult_le_compat_l; [apply Rmult_le_pos; lra|lra]. }
  apply Rmult_lt_compat_l with (r := / PI) in X3; auto.
  replace ((1 - f6) * cos (deg2rad 6)) with ((1 - f5) * cos (deg2rad 6) + (f5 - f6) * cos (deg2rad 6)) by ring.
  replace ((1 - f5) * cos (deg2rad 5)) with ((1 - f5) * cos (deg2rad 6) + (1 - f5) * (cos (deg2rad 5) - cos (deg2rad 6))) by ring.
  lra.
Qed.
(** test_faculae.py:90-99 *)
Example test_facula_effective_area_normal : exists w1 f1 w2 f2,
  fac_effective_area (tea 100 10) (Fin (deg2rad 5)) = Ok [(300%Z, Fin w1); ((-200)%Z, Fin f1)]
  /\ fac_effective_area (tea 100 10) (Fin (deg2rad 6)) = Ok [(300%Z, Fin w2); ((-200)%Z, Fin f2)]
  /\ f1 / w1 > f2 / w2 /\ f1 > f2 /\ w1 < w2.
Proof.
  pose proof PI_RGT_0. destruct (deg_tiny 5 ltac:(lra)) as (S5 & C5 & T5), (deg_tiny 6 ltac:(lra)) as (S6 & C6 & T6).
  destruct wall_5_6 as (W1 & W2 & W3). do 4 eexists. split; [apply tea_area; lra|]. split; [apply tea_area; lra|].
  set (v := wallf 100 100 10 (deg2rad 5)) in *. set (w := wallf 100 100 10 (deg2rad 6)) in *.
  assert (K : cos (deg2rad 6) < cos (deg2rad 5)) by (apply cos_decreasing_1; unfold deg2rad; lra).
  assert (A : 0 < PI * 100^2) by lra.
  assert (F : (1 - w) * cos (deg2rad 6) < (1 - v) * cos (deg2rad 5)).
  { apply Rlt_trans with ((1 - w) * cos (deg2rad 5)); [apply Rmult_lt_compat_l; lra|apply Rmult_lt_compat_r; lra]. }
  split; [|split].
  - apply Rlt_gt.
    replace ((1 - w) * (PI * 100 ^ 2 * cos (deg2rad 6)) / (w * (PI * 100 ^ 2 * cos (deg2rad 6)))) with (1 / w - 1) by (field; lra).
    replace ((1 - v) * (PI * 100 ^ 2 * cos (deg2rad 5)) / (v * (PI * 100 ^ 2 * cos (deg2rad 5)))) with (1 / v - 1) by (field; lra).
    assert (/ w < / v) by (apply Rinv_lt_contravar; nra). lra.
  - apply Rlt_gt. apply Rmult_lt_compat_l with (r := PI * 100^2) in F; auto. lra.
  - apply Rmult_lt_compat_l with (r := PI * 100^2) in W3; auto. lra.
Qed.
(** test_faculae.py:100-105, the critical angle, and one degree less (shown to be positive only, the test asks for more than
    1e-6 square kilometres) *)
Example test_facula_effective_area_critical : exists w w' f',
  fac_effective_area (tea 100 10) (Fin (atan (2 * 100 / 100))) = Ok [(300%Z, Fin w); ((-200)%Z, Fin 0)]
  /\ fac_effective_area (tea 100 10) (Fin (atan (2 * 100 / 100) - deg2rad 1)) = Ok [(300%Z, Fin w'); ((-200)%Z, Fin f')]
  /\ 0 < f'.
Proof.
  pose proof PI_RGT_0. pose proof (atan_bound (2 * 100 / 100)) as [A1 A2]. set (a := atan (2 * 100 / 100)) in *.
  assert (TA : tan a = 2) by (unfold a; rewrite tan_atan; lra).
  assert (A3 : PI/4 < a) by (unfold a; rewrite <- atan_1; apply atan_increasing; lra).
  assert (CA : 0 < cos a) by (apply cos_gt_0; lra). assert (B : 0 < a - deg2rad 1 < a) by (unfold deg2rad; lra).
  assert (CB : 0 < cos (a - deg2rad 1)) by (apply cos_gt_0; lra).
  assert (TB : 0 < tan (a - deg2rad 1) < 2). { split; [apply tan_gt_0; lra|]. rewrite <- TA. apply tan_increasing; lra. }
  assert (WA : wallf 100 100 10 a = 1).
  { unfold wallf. destruct (Rlt_dec 100 10); [lra|]. rewrite TA. rewrite Rabs_right by lra. rewrite frac_high by lra. lra. }
  assert (WB : wallf 100 100 10 (a - deg2rad 1) < 1).
  { unfold wallf. destruct (Rlt_dec 100 10); [lra|]. rewrite Rabs_right by lra.
    pose proof (frac_mid 1 (100 / 100 * tan (a - deg2rad 1)) ltac:(lra) ltac:(lra)). lra. }
  do 3 eexists. split; [|split].
  - rewrite tea_area by lra. rewrite WA. apply list2_eq; [reflexivity|lra].
  - apply tea_area. lra.
  - apply Rmult_lt_0_compat; [lra|]. apply Rmult_lt_0_compat; lra.
Qed.
(** test_faculae.py:108-117, a facula below the threshold: all wall *)
Example test_facula_effective_area_threshold :
  fac_effective_area (tea 100 200) (Fin (deg2rad 5)) = Ok [(300%Z, Fin (PI * 100^2 * cos (deg2rad 5))); ((-200)%Z, Fin 0)].
Proof.
  destruct (deg_small 5 ltac:(lra)) as (_ & C & _). rewrite tea_area by lra.
  assert (W : wallf 100 100 200 (deg2rad 5) = 1) by (unfold wallf; destruct (Rlt_dec 100 200); lra).
  rewrite W. do 2 f_equal; [f_equal; f_equal; ring|]. f_equal. f_equal. f_equal. ring.
Qed.

(** ** the other methods of one facula *)
(** test_faculae.py:119-136; the sum of the two fractions at 0 and 5 degrees *)
Example test_facula_fractional_effective_area : forall x, x = 0 \/ x = 5 ->
  let f := tfac (Fin 300) (Fin 100) (Fin 10) true (Fin 2500) (Fin 3900) (Fin 100) (Fin 10) (Rect 300 600) in
  exists u v, fac_fractional_area f (Fin (deg2rad x)) = Ok [(3900%Z, Fin u); (2500%Z, Fin v)] /\ v + u = 1.
Proof.
  intros x X f. destruct (deg_small x ltac:(lra)) as (_ & C & _).
  assert (T : fac_thermal f 100 100 0 10 2500 0 3900) by repeat split.
  destruct (C31_lemma f 100 100 0 10 2500 0 3900 3900 2500 T) as (w & W & _); [lra|lra| | |discriminate|].
  - replace (wall_diff 100 0 3900) with (IZR 3900) by (unfold wall_diff; lra). cbn. now rewrite rhe_IZR.
  - replace (floor_diff 100 0 10 2500) with (IZR 2500) by (unfold floor_diff; lra). cbn. now rewrite rhe_IZR.
  - destruct (W (deg2rad x)) as (_ & F & _); [lra|]. do 2 eexists. split; [exact F|]. lra.
Qed.
(** test_faculae.py:142-151; the angular radius in degrees is that of an arc of 100 km *)
Example test_facula_angular_radius :
  fac_angular_radius (tfdefault (Fin 100) (Rect 300 600)) (15/100 * RSUN_KM) = Fin (rad2deg (100 / (15/100 * RSUN_KM))).
Proof.
  pose proof PI_RGT_0. unfold fac_angular_radius. cbn [tfdefault tfac fc_radius]. assert (0 < RSUN_KM) by (unfold RSUN_KM; lra).
  rewrite ndiv_fin by lra. rewrite nmul_fin, ndiv_fin by lra. reflexivity.
Qed.
(** test_faculae.py:154-173, for any star *)
Example test_facula_map_pixels : forall star, 0 < star ->
  let m r := fac_map_pixels (tfdefault (Fin r) (Rect 300 600)) star in
  (forall b, In b (cells (m 0)) -> b = false) /\ (forall b, In b (cells (m (PI * star))) -> b = true)
  /\ ~ (forall b, In b (cells (m (PI * star * (9/10)))) -> b = true).
Proof.
  intros star S m. pose proof PI_RGT_0.
  assert (E : forall r, m r = amap (fun p => Rleb (acos (law_cos 0 0 (fst p) (snd p))) (r / star)) (grid_points (Rect 300 600))).
  { intro r. unfold m, fac_map_pixels. unfold tfdefault. rewrite tfac_r. rewrite amap_amap. apply amap_ext. intro p.
    unfold fac_angular_radius. cbn [tfac fc_radius]. rewrite ndiv_fin by lra. rewrite nmul_fin, ndiv_fin by lra. rewrite nmul_fin. cbn [nle].
    f_equal. field. lra. }
  split; [|split].
  - rewrite E, cells_amap. intros b I. apply in_map_iff in I. destruct I as (p & <- & I). apply grid_dist in I. apply Rleb_false.
    replace (0 / star) with 0 by (field; lra). lra.
  - rewrite E, cells_amap. intros b I. apply in_map_iff in I. destruct I as (p & <- & I). apply grid_dist in I. apply Rleb_true.
    replace (PI * star / star) with PI by (field; lra). lra.
  - intro A. rewrite E, cells_amap in A. destruct grid_far as (p & I & D).
    assert (B : Rleb (acos (law_cos 0 0 (fst p) (snd p))) (PI * star * (9/10) / star) = true).
    { apply A. apply in_map_iff. exists p. split; [reflexivity|exact I]. }
    apply Rleb_true in B. replace (PI * star * (9/10) / star) with (PI * (9/10)) in B by (field; lra). unfold deg2rad in D. lra.
Qed.

(** ** collections *)
Lemma eq_refl_grid : forall g, grid_eq g (Some g) = Ok true.
Proof. intros [a b|n]; unfold grid_eq; rewrite !Nat.eqb_refl; reflexivity. Qed.
(** test_faculae.py:176-188 *)
Example test_fac_collection_init :
  let c := fcc_init (repeat (tfdefault (Fin 100) (Rect 400 600)) 4) (Rect 300 600) in
  grid_eq (fcc_grid c) (Some (Rect 300 600)) = Ok true
  /\ forall f, In f (fcc_facs c) -> grid_eq (fc_grid f) (Some (fcc_grid c)) = Ok true.
Proof.
  intro c. split; [apply eq_refl_grid|]. intros f H. cbn [c fcc_init fcc_set_gridmaker fcc_facs fcc_grid] in *.
  apply in_map_iff in H. destruct H as (f0 & <- & _). apply eq_refl_grid.
Qed.
(** test_faculae.py:191-208.  The keyword arguments [Nlat], [Nlon] are ignored by [init_facula]; the statement is for new
    faculae on any rectangular grid *)
Example test_fac_collection_add_facula : forall a b,
  let c := fcc_init (repeat (tfdefault (Fin 100) (Rect 400 600)) 4) (Rect 300 600) in
  let f := tfdefault (Fin 100) (Rect a b) in
  length (fcc_facs c) = 4%nat
  /\ exists c1 c2, fcc_add c [f] = Ok c1 /\ length (fcc_facs c1) = (4 + 1)%nat
  /\ (forall x, In x (fcc_facs c1) -> has_shape (fac_r x) true 600 300 /\ grid_eq (fc_grid x) (Some (fcc_grid c1)) = Ok true)
  /\ fcc_add c1 [f; f] = Ok c2 /\ length (fcc_facs c2) = (4 + 1 + 2)%nat
  /\ (forall x, In x (fcc_facs c2) -> grid_eq (fc_grid x) (Some (fcc_grid c2)) = Ok true).
Proof.
  intros a b c f. split; [reflexivity|].
  assert (G : exists f', fcc_grid c = Rect 300 600 /\ fc_grid f' = Rect 300 600 /\
    (forall l, fcc_add (mkFacColl l (Rect 300 600)) [f] = Ok (mkFacColl (l ++ [f']) (Rect 300 600)))
    /\ (forall l, fcc_add (mkFacColl l (Rect 300 600)) [f; f] = Ok (mkFacColl (l ++ [f'; f']) (Rect 300 600)))).
  { assert (Q : exists v, grid_eq (fc_grid f) (Some (Rect 300 600)) = Ok v /\ (v = true -> fc_grid f = Rect 300 600)).
    { cbn [f tfdefault tfac fc_grid]. unfold grid_eq. eexists. split; [reflexivity|]. intro E. apply andb_true_iff in E.
      destruct E as [E1 E2]. apply Nat.eqb_eq in E1, E2. now subst. }
    destruct Q as (v & Q & V). exists (if v then f else fac_assign_grid f (Rect 300 600)). split; [reflexivity|]. split.
    { destruct v; [auto|reflexivity]. }
    split; intro l; unfold fcc_add; cbn [mapM fcc_grid fcc_facs]; rewrite Q; reflexivity. }
  destruct G as (f' & G1 & G2 & G3 & G4).
  assert (C : c = mkFacColl (repeat (tfdefault (Fin 100) (Rect 300 600)) 4) (Rect 300 600)) by reflexivity. rewrite C.
  do 2 eexists. split; [apply G3|]. split; [reflexivity|]. split.
  - intros x I. assert (X : fc_grid x = Rect 300 600).
    { cbn [fcc_facs] in I. apply in_app_iff in I. destruct I as [I|[<-|[]]]; [|exact G2]. apply repeat_spec in I. now subst x. }
    cbn [fcc_grid]. rewrite X. split; [|apply eq_refl_grid]. unfold fac_r. rewrite X. apply has_shape_amap. exact (grid_points_shape (Rect 300 600)).
  - split; [apply G4|]. split; [reflexivity|]. intros x I. cbn [fcc_facs fcc_grid] in *. rewrite !in_app_iff in I.
    destruct I as [[I|[<-|[]]]|[<-|[<-|[]]]]; rewrite ?G2; try apply eq_refl_grid. apply repeat_spec in I. subst x. apply eq_refl_grid.
Qed.
Lemma e2_bounds : 1/100 < / (exp 1 ^ 2) < 8/10.
Proof.
  pose proof e_pos as A. assert (B : exp 1 <= 3) by (apply exp_le_3). assert (C : 2 <= exp 1) by (pose proof (exp_ineq1_le 1); lra).
  assert (4 <= exp 1 ^ 2 <= 9) by (simpl; nra). split.
  - apply Rmult_lt_reg_r with (exp 1 ^ 2); [lra|]. rewrite Rinv_l by lra. lra.
  - apply Rmult_lt_reg_r with (exp 1 ^ 2); [lra|]. rewrite Rinv_l by lra. lra.
Qed.
(** test_faculae.py:211-231 *)
Example test_fac_collection_clean_faclist :
  let c r growing := fcc_init [tage r growing (Rect 300 600)] (Rect 500 1000) in
  let n r growing := length (fcc_facs (fcc_clean (c r growing))) in
  n (8/10 * 100) true = 1%nat /\ n (8/10 * 100) false = 1%nat /\ n (1/100 * 100) true = 1%nat /\ n (1/100 * 100) false = 0%nat.
Proof.
  pose proof e2_bounds. pose proof e_pos. assert (exp 1 ^ 2 <> 0) by (assert (0 < exp 1 ^ 2) by (apply pow_lt; lra); lra).
  cbv zeta. unfold fcc_clean, fcc_init, fcc_set_gridmaker. cbn [fcc_facs fcc_grid map filter]. unfold fac_dead.
  cbn [fac_assign_grid tage tfac fc_radius fc_rmax fc_growing negb andb]. rewrite !andb_false_r, !andb_true_r. cbn [negb length].
  rewrite !ndiv_fin by auto. cbn [nle].
  assert (Q : 100 / exp 1 ^ 2 = 100 * / exp 1 ^ 2) by reflexivity. rewrite Q.
  replace (Rleb (8/10 * 100) (100 * / exp 1 ^ 2)) with false by (symmetry; apply Rleb_false; lra).
  replace (Rleb (1/100 * 100) (100 * / exp 1 ^ 2)) with true by (symmetry; apply Rleb_true; lra). repeat split.
Qed.
(** test_faculae.py:234-251 *)
Example test_fac_collection_age : forall g,
  let c0 := fcc_init (repeat (tage (100 / exp 1) true (Rect 300 600)) 4) g in
  let c1 := fcc_age c0 (Fin (10 * (5/10))) in
  let c2 := fcc_age c1 (Fin (10 * (5/10))) in
  let c3 := fcc_age c2 (Fin (10 * (5/10))) in
  length (fcc_facs c1) = 4%nat /\ (forall f, In f (fcc_facs c1) -> fc_radius f = Fin 100)
  /\ length (fcc_facs c2) = 4%nat /\ (forall f, In f (fcc_facs c2) -> fc_radius f = Fin (100 / exp 1))
  /\ length (fcc_facs c3) = 0%nat.
Proof.
  intro g. pose proof e_pos as E. assert (E2 : exp 1 ^ 2 <> 0) by (assert (0 < exp 1 ^ 2) by (apply pow_lt; lra); lra).
  assert (D : forall r, Rleb r (100 / exp 1 ^ 2) = false ->
    fac_dead (tage r false g) = false) by (intros r Q; unfold fac_dead; cbn [tage tfac fc_radius fc_rmax fc_growing]; rewrite ndiv_fin by auto; cbn [nle]; now rewrite Q).
  assert (S1 : fcc_age (fcc_init (repeat (tage (100 / exp 1) true (Rect 300 600)) 4) g) (Fin (10 * (5/10))) = mkFacColl (repeat (tage 100 false g) 4) g).
  { unfold fcc_age, fcc_init, fcc_set_gridmaker. cbn [fcc_facs fcc_grid map repeat].
    change (fac_assign_grid (tage (100 / exp 1) true (Rect 300 600)) g) with (tage (100 / exp 1) true g). rewrite !tage_up.
    unfold fcc_clean. cbn [fcc_facs fcc_grid filter]. rewrite D; [reflexivity|]. apply Rleb_false. pose proof e2_bounds. unfold Rdiv. lra. }
  assert (S2 : fcc_age (mkFacColl (repeat (tage 100 false g) 4) g) (Fin (10 * (5/10))) = mkFacColl (repeat (tage (100 / exp 1) false g) 4) g).
  { unfold fcc_age. cbn [fcc_facs fcc_grid map repeat]. rewrite !tage_down.
    unfold fcc_clean. cbn [fcc_facs fcc_grid filter]. rewrite D; [reflexivity|]. apply Rleb_false. unfold Rdiv.
    apply Rmult_lt_compat_l; [lra|]. apply Rinv_lt_contravar; [apply Rmult_lt_0_compat; [lra|apply pow_lt; lra]|]. simpl. nra. }
  assert (S3 : fcc_age (mkFacColl (repeat (tage (100 / exp 1) false g) 4) g) (Fin (10 * (5/10))) = mkFacColl [] g).
  { unfold fcc_age. cbn [fcc_facs fcc_grid map repeat]. rewrite !tage_down.
    unfold fcc_clean. cbn [fcc_facs fcc_grid filter].
    assert (X : fac_dead (tage (100 / exp 1 / exp 1) false g) = true).
    { unfold fac_dead; cbn [tage tfac fc_radius fc_rmax fc_growing]. rewrite ndiv_fin by auto. cbn [nle negb]. rewrite andb_true_r.
      apply Rleb_true. right. field. lra. }
    rewrite X. reflexivity. }
  cbv zeta. rewrite S1, S2, S3. cbn [fcc_facs]. split; [reflexivity|]. split; [|split; [reflexivity|split; [|reflexivity]]].
  - intros f I. apply repeat_spec in I. now subst f.
  - intros f I. apply repeat_spec in I. now subst f.
Qed.
(** test_faculae.py:254-277 *)
Example test_fac_gen_init :
  let g := {| fg_rpeak := Fin 600; fg_rlogsigma := 4/10; fg_depth := Fin 100; fg_lifepeak := Fin 6; fg_lifelogsigma := 2/10;
              fg_fslope := Fin 0; fg_fminrad := Fin 20; fg_fbase := Fin (-100); fg_wslope := Fin 0; fg_wint := Fin 100;
              fg_coverage := Fin (1/100); fg_grid := Rect 300 600 |} in
  exists x, fg_init true Iso g = Ok x /\ grid_eq (fg_grid x) (Some (Rect 300 600)) = Ok true.
Proof. eexists. split; [reflexivity|apply eq_refl_grid]. Qed.

(** ** test_flares.py *)
(** test_flares.py:12-22 [get_generator]; durations in days *)
Definition tlg : flaregen :=
  {| lg_teff_mean := Fin 1000; lg_teff_sigma := 100; lg_fwhm_mean := Fin (3/24); lg_fwhm_is_time := true; lg_fwhm_logsigma := 2/10;
     lg_alpha := -829/1000; lg_beta := 2687/100; lg_min_energy := Fin (10^33); lg_cluster := Fin 2 |}.
Lemma tlg_ok : flaregen_ok tlg (10^33).
Proof.
  unfold flaregen_ok, tlg. cbn [lg_min_energy lg_alpha lg_cluster lg_fwhm_mean lg_fwhm_is_time lg_fwhm_logsigma lg_teff_sigma lg_teff_mean].
  split; [reflexivity|]. split; [lra|]. split; [lra|]. split; [exists 2; split; [reflexivity|lra]|]. split; [exists (3/24); split; [reflexivity|lra]|].
  split; [reflexivity|]. split; [lra|]. split; [lra|]. eauto.
Qed.
(** test_flares.py:35-39, for every number of flares and all draws *)
Example test_generate_flare_series : forall n d, draws_ok d -> exists l, generate_flare_series tlg 10 n d = Ok l /\ length l = n.
Proof. intros n d D. destruct (C44_lemma tlg (10^33) 10 n d tlg_ok D ltac:(lra)) as (l & L & N & _). eauto. Qed.
(** test_flares.py:41-46 and 54-59: the flares selected are flares of the collection *)
Example test_get_flares_in_timeperiod : forall n d, draws_ok d -> exists l c, generate_flare_series tlg 10 n d = Ok l /\ c = flc_init l
  /\ (forall f, In f (flc_in_period c 0 10) -> In f l) /\ (forall f, In f (flc_visible c 0 10 None) -> In f l).
Proof.
  intros n d D. destruct (C44_lemma tlg (10^33) 10 n d tlg_ok D ltac:(lra)) as (l & L & _). exists l. eexists. split; [exact L|]. split; [reflexivity|].
  assert (A : forall f, In f (flc_in_period (flc_init l) 0 10) -> In f l).
  { intros f I. unfold flc_in_period in I. apply in_map_iff in I. destruct I as ((f' & b) & <- & I). apply filter_In in I.
    destruct I as (I & _). apply in_combine_l in I. exact I. }
  split; [exact A|]. intros f I. unfold flc_visible in I. cbn [sub_obs] in I. apply filter_In in I. apply A. tauto.
Qed.
(** test_flares.py:48-52, 61-65, 67-71 *)
Example test_gen_lengths : forall z cl e, (forall i, 0 <= e i) -> exists fw te pk,
  gen_fwhm tlg 10 z = Ok fw /\ length fw = 10%nat /\ gen_teffs tlg 10 z = Ok te /\ length te = 10%nat
  /\ get_peaks tlg 10 cl e = Ok pk /\ length pk = 10%nat.
Proof.
  intros z cl e E. destruct (C41_lemma tlg 10 cl e 2 ltac:(lia) eq_refl ltac:(lra) E) as (sz & pk & P & L & _).
  exists (map (fun i => npow10 (nadd (nlog10 (lg_fwhm_mean tlg)) (Fin (lg_fwhm_logsigma tlg * z i)))) (seq 0 10)),
    (map (fun i => nadd (lg_teff_mean tlg) (Fin (lg_teff_sigma tlg * z i))) (seq 0 10)), pk.
  unfold gen_fwhm, gen_teffs. cbn [tlg lg_fwhm_is_time lg_fwhm_logsigma lg_teff_sigma negb].
  rewrite (proj2 (Rltb_false (2/10) 0)) by lra. rewrite (proj2 (Rltb_false 100 0)) by lra.
  split; [reflexivity|]. split; [reflexivity|]. split; [reflexivity|]. split; [reflexivity|]. split; assumption.
Qed.
