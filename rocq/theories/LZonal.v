(** Sums over the grid of functions of the angle to one direction. *)
From Coq Require Import Reals ZArith Bool List Lra Lia Permutation.
From Coquelicot Require Import Coquelicot.
From Verif Require Import Num Py MConfig MHelpers MGrid MSpots MFaculae MStar Spec SpecStar SpecDisk SpecConv
  LBase LGrid LHelpers LCirc LQuad LGauss LSpotMap LStarFac LDisk LSym LSphere LConv LSpiral LStarCov.
Import ListNotations.
Open Scope R_scope.

(** ** Error of grid sums in terms of the resolution *)
Lemma sf_cosint_ex : forall B L phi a b, sphere_fun B L phi -> ex_RInt (fun lat => cos lat * lonmean phi lat) a b.
Proof.
  intros B L phi a b SF. eapply lip_ex_RInt. apply (lip_cos_mult B L). intros; eapply lonmean_bound; eauto. eapply lonmean_lip; eauto.
Qed.
Lemma smean_eq : forall B L phi, sphere_fun B L phi -> sphere_mean phi = smean phi.
Proof.
  intros B L phi SF. pose proof PI_RGT_0. unfold sphere_mean, smean.
  rewrite (RInt_ext (fun lat => cos lat * RInt (phi lat) 0 (2 * PI)) (fun lat => (2 * PI) * (cos lat * lonmean phi lat))).
  - rewrite (@RInt_scal R_CompleteNormedModule (fun lat => cos lat * lonmean phi lat)) by (eapply sf_cosint_ex; eauto).
    set (I := RInt (fun lat => cos lat * lonmean phi lat) (- PI / 2) (PI / 2)).
    change (2 * PI * I / (4 * PI) = / 2 * I). field. lra.
  - intros x _. unfold lonmean. req. field. lra.
Qed.
Lemma gsum_close : forall B L phi g d, sphere_fun B L phi -> good_grid g -> resolution g d ->
  Rabs (gsum g phi - smean phi) <= 20 * (B + L) * d.
Proof.
  intros B L phi g d SF G [D Q]. destruct (sf_pos _ _ _ SF) as [HB HL]. pose proof PI_RGT_0 as PP. pose proof PI_upper as PU.
  destruct g as [a b|n].
  - destruct G as [G1 G2]. destruct Q as [Q1 Q2]. destruct a as [|n]; [lia|]. rewrite S_INR in Q1.
    eapply Rle_trans. apply (rect_converges B L); auto; lia.
    assert (Pn : 0 < INR n) by (apply lt_0_INR; lia). assert (Pb : 0 < INR b) by (apply lt_0_INR; lia).
    assert (I1 : / INR n <= d). { apply Rmult_le_reg_r with (INR n); auto. rewrite Rinv_l by lra. lra. }
    assert (I2 : / INR b <= d). { apply Rmult_le_reg_r with (INR b); auto. rewrite Rinv_l by lra. lra. }
    assert (X : (2 * B + L) / (2 * INR n) + L / INR b <= (B + 3 / 2 * L) * d).
    { replace ((2 * B + L) / (2 * INR n)) with ((B + L / 2) * / INR n) by (field; lra). unfold Rdiv at 2.
      assert ((B + L / 2) * / INR n <= (B + L / 2) * d) by (apply Rmult_le_compat_l; lra).
      assert (L * / INR b <= L * d) by (apply Rmult_le_compat_l; lra). lra. }
    assert (P2 : PI ^ 2 <= 11) by (simpl; nra). assert (0 <= PI ^ 2) by (apply pow2_ge_0).
    apply Rle_trans with (11 * ((B + 3 / 2 * L) * d)).
    + apply Rmult_le_compat; auto. apply Rplus_le_le_0_compat; apply Rdiv_le_0_compat; lra.
    + assert (0 <= B * d) by (apply Rmult_le_pos; lra). assert (0 <= L * d) by (apply Rmult_le_pos; lra). nra.
  - eapply Rle_trans. apply (spiral_converges B L phi n (/ d)); auto.
    + replace 1 with (/ 1) by field. apply Rinv_le_contravar; lra.
    + rewrite pow_inv. apply Rmult_le_reg_l with (d ^ 3). apply pow_lt; lra. rewrite Rinv_r. auto. apply pow_nonzero; lra.
    + unfold Rdiv. rewrite Rinv_inv.
      assert (0 <= B * d) by (apply Rmult_le_pos; lra). assert (0 <= L * d) by (apply Rmult_le_pos; lra). nra.
Qed.
Lemma gsum_area_sum : forall g A phi, good_grid g -> grid_area g = Ok A -> area_sum g A phi = gsum g phi.
Proof.
  intros g A phi G HA. rewrite grid_area_good in HA by auto. injection HA as <-.
  unfold area_sum, gsum. apply grid_sum_pt. intros j i P. unfold cell_val. rewrite acell_grid by auto. reflexivity.
Qed.
Lemma C76_lemma : forall B L phi g d, sphere_fun B L phi -> good_grid g -> resolution g d ->
  exists A, grid_area g = Ok A /\ Rabs (area_sum g A phi - sphere_mean phi) <= 20 * (B + L) * d.
Proof.
  intros B L phi g d SF G Q. exists (amap (fun p => Fin (rarea_at g p)) (grid_points g)). split. apply grid_area_good; auto.
  rewrite gsum_area_sum by (auto; apply grid_area_good; auto). rewrite (smean_eq B L) by auto. apply gsum_close; auto.
Qed.

(** ** Functions of the angle to a direction *)
Definition mu (th l : R) (lat lon : R) : R := law_cos th l lat lon.
Lemma sq_le_1_abs : forall x, x * x <= 1 -> Rabs x <= 1.
Proof. intros. apply Rabs_le. split; nra. Qed.
Lemma mu_lat_lip : forall th l lon x y, Rabs (mu th l y lon - mu th l x lon) <= 1 * Rabs (y - x).
Proof.
  intros. unfold mu, law_cos. apply (mvt_lip (fun t => sin th * sin t + cos th * cos t * cos (l - lon)) (fun t => sin th * cos t - cos th * cos (l - lon) * sin t)).
  - intros t _. auto_derive; auto. ring.
  - intros t _. apply sq_le_1_abs. set (k := cos (l - lon)). pose proof (COS_bound (l - lon)) as K. fold k in K.
    pose proof (sin2_cos2 th) as A1. pose proof (sin2_cos2 t) as A2. unfold Rsqr in *.
    set (s := sin th) in *. set (c := cos th) in *. set (st := sin t) in *. set (ct := cos t) in *.
    assert (E : (s * ct - c * k * st) * (s * ct - c * k * st) + (s * st + c * k * ct) * (s * st + c * k * ct) = (s * s + c * c * (k * k)) * (st * st + ct * ct)) by ring.
    rewrite A2 in E. pose proof (Rle_0_sqr (s * st + c * k * ct)) as E0. unfold Rsqr in E0.
    assert (c * c * (k * k) <= c * c * 1) by (apply Rmult_le_compat_l; nra). lra.
Qed.
Lemma mu_lon_lip : forall th l lat x y, Rabs (mu th l lat y - mu th l lat x) <= 1 * Rabs (y - x).
Proof.
  intros. unfold mu, law_cos. apply (mvt_lip (fun t => sin th * sin lat + cos th * cos lat * cos (l - t)) (fun t => cos th * cos lat * sin (l - t))).
  - intros t _. auto_derive; auto. unfold Rminus; ring.
  - intros t _. rewrite !Rabs_mult. pose proof (rabs_cos th). pose proof (rabs_cos lat). pose proof (rabs_sin (l - t)).
    pose proof (Rabs_pos (cos th)). pose proof (Rabs_pos (cos lat)). pose proof (Rabs_pos (sin (l - t))).
    assert (Rabs (cos th) * Rabs (cos lat) <= 1 * 1) by (apply Rmult_le_compat; auto).
    replace 1 with (1 * 1 * 1) by ring. apply Rmult_le_compat; auto. apply Rmult_le_pos; auto.
Qed.
Lemma zonal_sf : forall K B F th l, lip K F -> (forall m, -1 <= m <= 1 -> Rabs (F m) <= B) -> sphere_fun B K (fun lat lon => F (mu th l lat lon)).
Proof.
  intros K B F th l H Hb. pose proof (lip_pos _ _ H). split; intros.
  - apply Hb, law_cos_bound.
  - eapply Rle_trans. apply H. apply Rmult_le_compat_l; auto.
    replace (mu th l lat lon - mu th l lat' lon') with ((mu th l lat lon - mu th l lat' lon) + (mu th l lat' lon - mu th l lat' lon')) by ring.
    eapply Rle_trans. apply Rabs_triang. pose proof (mu_lat_lip th l lon lat' lat). pose proof (mu_lon_lip th l lat' lon' lon). lra.
  - f_equal. unfold mu, law_cos. f_equal. f_equal. replace (l - (lon + 2 * PI)) with (l - lon - 2 * PI) by ring.
    rewrite <- (cos_period (l - lon - 2 * PI) 1). f_equal. simpl. ring.
Qed.
Lemma mu_sf : forall th l, sphere_fun 1 1 (mu th l).
Proof.
  intros. apply (zonal_sf 1 1 (fun m => m)). intros x y; lra. intros m Hm. apply Rabs_le; lra.
Qed.
Lemma mult_sf : forall B L C M f g, sphere_fun B L f -> sphere_fun C M g -> sphere_fun (B * C) (B * M + C * L) (fun lat lon => f lat lon * g lat lon).
Proof.
  intros B L C M f g F G. destruct (sf_pos _ _ _ F). destruct (sf_pos _ _ _ G). split; intros.
  - rewrite Rabs_mult. apply Rmult_le_compat; auto using Rabs_pos. apply F. apply G.
  - replace (f lat lon * g lat lon - f lat' lon' * g lat' lon') with (f lat lon * (g lat lon - g lat' lon') + (f lat lon - f lat' lon') * g lat' lon') by ring.
    eapply Rle_trans. apply Rabs_triang. rewrite !Rabs_mult.
    pose proof (sf_bound _ _ _ F lat lon). pose proof (sf_bound _ _ _ G lat' lon'). pose proof (sf_lip _ _ _ F lat lon lat' lon'). pose proof (sf_lip _ _ _ G lat lon lat' lon').
    set (x := Rabs (lat - lat') + Rabs (lon - lon')) in *.
    assert (Rabs (f lat lon) * Rabs (g lat lon - g lat' lon') <= B * (M * x)) by (apply Rmult_le_compat; auto using Rabs_pos).
    assert (Rabs (f lat lon - f lat' lon') * Rabs (g lat' lon') <= (L * x) * C) by (apply Rmult_le_compat; auto using Rabs_pos). lra.
  - rewrite (sf_per _ _ _ F), (sf_per _ _ _ G). auto.
Qed.
Lemma smean_zonal : forall K F th l, lip K F -> smean (fun lat lon => F (mu th l lat lon)) = / 2 * RInt F (-1) 1.
Proof.
  intros K F th l H. pose proof PI_RGT_0. unfold smean, lonmean.
  rewrite (RInt_ext _ (fun lat => / (2 * PI) * (cos lat * lonint F th l lat))).
  - rewrite (@RInt_scal R_CompleteNormedModule (fun lat => cos lat * lonint F th l lat)) by (eapply lip_coslonint_ex; eauto).
    fold (sphint F th l). rewrite (sphint_lip K) by auto. change (/ 2 * (/ (2 * PI) * (2 * PI * RInt F (-1) 1)) = / 2 * RInt F (-1) 1). field. lra.
  - intros x _. unfold lonint, mu. req. ring.
Qed.
Lemma smean_lin : forall B L C M f g a b, sphere_fun B L f -> sphere_fun C M g ->
  smean (fun lat lon => a * f lat lon + b * g lat lon) = a * smean f + b * smean g.
Proof.
  intros B L C M f g a b F G. pose proof PI_RGT_0.
  assert (E : forall lat, lonmean (fun lat lon => a * f lat lon + b * g lat lon) lat = a * lonmean f lat + b * lonmean g lat).
  { intros. unfold lonmean. 
    rewrite (@RInt_plus R_CompleteNormedModule (fun lon => a * f lat lon) (fun lon => b * g lat lon)).
    2-3: apply (@ex_RInt_scal R_NormedModule); eapply sf_lon_ex; eauto.
    rewrite (@RInt_scal R_CompleteNormedModule (f lat)), (@RInt_scal R_CompleteNormedModule (g lat)) by (eapply sf_lon_ex; eauto).
    change (/ (2 * PI) * (a * RInt (f lat) 0 (2 * PI) + b * RInt (g lat) 0 (2 * PI)) = a * (/ (2 * PI) * RInt (f lat) 0 (2 * PI)) + b * (/ (2 * PI) * RInt (g lat) 0 (2 * PI))). ring. }
  unfold smean. rewrite (RInt_ext _ (fun lat => a * (cos lat * lonmean f lat) + b * (cos lat * lonmean g lat))).
  - rewrite (@RInt_plus R_CompleteNormedModule (fun lat => a * (cos lat * lonmean f lat)) (fun lat => b * (cos lat * lonmean g lat))).
    2-3: apply (@ex_RInt_scal R_NormedModule); eapply sf_cosint_ex; eauto.
    rewrite (@RInt_scal R_CompleteNormedModule (fun lat => cos lat * lonmean f lat)), (@RInt_scal R_CompleteNormedModule (fun lat => cos lat * lonmean g lat)) by (eapply sf_cosint_ex; eauto).
    set (I := RInt (fun lat => cos lat * lonmean f lat) (- PI / 2) (PI / 2)). set (J := RInt (fun lat => cos lat * lonmean g lat) (- PI / 2) (PI / 2)).
    change (/ 2 * (a * I + b * J) = a * (/ 2 * I) + b * (/ 2 * J)). ring.
  - intros x _. rewrite E. req. ring.
Qed.
Lemma smean_ext : forall f g, (forall lat lon, f lat lon = g lat lon) -> smean f = smean g.
Proof.
  intros f g E. unfold smean. f_equal. apply RInt_ext. intros x _. f_equal. unfold lonmean. f_equal. apply RInt_ext. intros; apply E.
Qed.

(** ** The component along another direction *)
(** unit vectors orthogonal to the direction (th, l) *)
Definition e1 (th l : R) := mu (th + PI / 2) l.
Definition e2 (l : R) := mu 0 (l - PI / 2).
Lemma e1_eq : forall th l lat lon, e1 th l lat lon = mth th l lat lon.
Proof. intros. unfold e1, mu, law_cos, mth. rewrite sin_plus, cos_plus, sin_PI2, cos_PI2. ring. Qed.
Lemma e2_eq : forall l lat lon, e2 l lat lon = cos lat * sin (l - lon).
Proof.
  intros. unfold e2, mu, law_cos. rewrite sin_0, cos_0. replace (l - PI / 2 - lon) with (l - lon - PI / 2) by ring.
  rewrite cos_minus, cos_PI2, sin_PI2. ring.
Qed.
Lemma frame_norm : forall th l lat lon, mu th l lat lon ^ 2 + e1 th l lat lon ^ 2 + e2 l lat lon ^ 2 = 1.
Proof.
  intros. rewrite e1_eq, e2_eq. unfold mu, law_cos, mth. set (A := l - lon).
  pose proof (sin2_cos2 th) as E1. pose proof (sin2_cos2 lat) as E2. pose proof (sin2_cos2 A) as E3. unfold Rsqr in *.
  set (s := sin th) in *. set (c := cos th) in *. set (x := sin lat) in *. set (y := cos lat) in *. set (p := sin A) in *. set (q := cos A) in *.
  replace ((s * x + c * y * q) ^ 2 + (x * c - y * q * s) ^ 2 + (y * p) ^ 2) with ((x * x + y * y * (q * q)) * (s * s + c * c) + y * y * (p * p)) by ring.
  rewrite E1. replace ((x * x + y * y * (q * q)) * 1 + y * y * (p * p)) with (x * x + y * y * (p * p + q * q)) by ring. rewrite E3. lra.
Qed.
Lemma frame_split : forall th l th' l' lat lon,
  mu th' l' lat lon = mu th l th' l' * mu th l lat lon + e1 th l th' l' * e1 th l lat lon + e2 l th' l' * e2 l lat lon.
Proof.
  intros. rewrite !e1_eq, !e2_eq. unfold mu, law_cos, mth. set (A := l - lon). set (A' := l - l').
  replace (l' - lon) with (A - A') by (unfold A, A'; ring). rewrite cos_minus.
  pose proof (sin2_cos2 th) as E1. unfold Rsqr in *.
  set (s := sin th) in *. set (c := cos th) in *.
  replace (sin th' * sin lat + cos th' * cos lat * (cos A * cos A' + sin A * sin A'))
    with ((sin th' * sin lat + cos th' * cos lat * (cos A * cos A')) * 1 + cos th' * cos lat * (sin A * sin A')) by ring.
  rewrite <- E1. ring.
Qed.
Lemma lip_antideriv : forall K B F, lip K F -> (forall m, -1 <= m <= 1 -> Rabs (F m) <= B) -> exists C, smooth C (fun m => RInt F 0 m) F.
Proof.
  intros K B F H Hb. pose proof (lip_pos _ _ H) as HK. assert (HB : 0 <= B) by (pose proof (Hb 0 ltac:(lra)); pose proof (Rabs_pos (F 0)); lra).
  assert (E : forall a b, ex_RInt F a b) by (intros; eapply lip_ex_RInt; eauto).
  assert (P : forall x, is_derive (fun x => RInt F 0 x) x (F x)).
  { intros. apply (@is_derive_RInt R_NormedModule F (fun x => RInt F 0 x) 0).
    - exists (mkposreal 1 Rlt_0_1). intros y _. apply (@RInt_correct R_CompleteNormedModule). apply E.
    - eapply lip_continuous; eauto. }
  exists (B + K). assert (L : forall m n, -1 <= m <= 1 -> -1 <= n <= 1 -> Rabs (RInt F 0 n - RInt F 0 m) <= B * Rabs (n - m)).
  { intros. apply (mvt_lip (fun m => RInt F 0 m) F B m n). intros; apply P. intros t Ht. apply Hb.
    pose proof (Rmin_l m n). pose proof (Rmax_l m n). unfold Rmin, Rmax in Ht. destruct (Rle_dec m n); lra. }
  split; intros.
  - pose proof (L 0 m ltac:(lra) H0) as X. rewrite (@RInt_point R_CompleteNormedModule) in X.
    change (@zero R_CompleteNormedModule) with 0 in X. rewrite !Rminus_0_r in X.
    assert (Rabs m <= 1) by (apply Rabs_le; lra). eapply Rle_trans. apply X. nra.
  - pose proof (Hb m H0). lra.
  - eapply Rle_trans. apply L; auto. apply Rmult_le_compat_r. apply Rabs_pos. lra.
  - eapply Rle_trans. apply H. apply Rmult_le_compat_r. apply Rabs_pos. lra.
  - eapply Rle_trans. apply (taylor_quad (fun m => RInt F 0 m) F K); auto. apply Rmult_le_compat_r. apply pow2_ge_0. lra.
Qed.
Lemma smean_e1 : forall K B F th l, lip K F -> (forall m, -1 <= m <= 1 -> Rabs (F m) <= B) ->
  smean (fun lat lon => F (mu th l lat lon) * e1 th l lat lon) = 0.
Proof.
  intros K B F th l H Hb. destruct (lip_antideriv K B F H Hb) as [C S]. pose proof (jint_zero C _ _ th l S) as Z.
  unfold smean. rewrite (RInt_ext _ (fun lat => / (2 * PI) * (cos lat * jint F th l lat))).
  - rewrite (@RInt_scal R_CompleteNormedModule (fun lat => cos lat * jint F th l lat)).
    + change (/ 2 * (/ (2 * PI) * RInt (fun lat => cos lat * jint F th l lat) (- PI / 2) (PI / 2)) = 0). rewrite Z. ring.
    + destruct (lonint_lip C _ F th l S) as [B' [_ [_ LJ]]]. eapply lipb_ex_RInt. apply lipb_coslonint. eauto.
  - intros x _. unfold lonmean, jint. req.
    rewrite (RInt_ext (fun lon => F (mu th l x lon) * e1 th l x lon) (fun lon => F (law_cos th l x lon) * mth th l x lon)) by (intros; rewrite e1_eq; auto). ring.
Qed.
Lemma smean_e2 : forall K B F th l, lip K F -> (forall m, -1 <= m <= 1 -> Rabs (F m) <= B) ->
  smean (fun lat lon => F (mu th l lat lon) * e2 l lat lon) = 0.
Proof.
  intros K B F th l H Hb. pose proof PI_RGT_0.
  assert (SF : sphere_fun (B * 1) (B * 1 + 1 * K) (fun lat lon => F (mu th l lat lon) * e2 l lat lon)).
  { apply mult_sf. apply zonal_sf; auto. apply mu_sf. }
  assert (Z : forall lat, lonmean (fun lat lon => F (mu th l lat lon) * e2 l lat lon) lat = 0).
  { intros. unfold lonmean. set (h := fun lon => F (mu th l lat lon) * e2 l lat lon).
    assert (P : forall x, h (x + 2 * PI) = h x) by (intros; apply (sf_per _ _ _ SF)).
    assert (E : forall a b, ex_RInt h a b) by (intros; apply (sf_lon_ex _ _ _ lat a b SF)).
    assert (O : forall x, h (-1 * x + 2 * l) = - h x).
    { intros. unfold h. rewrite !e2_eq. unfold mu, law_cos. replace (l - (-1 * x + 2 * l)) with (- (l - x)) by ring. rewrite cos_neg, sin_neg. ring. }
    rewrite <- (per_RInt h P E (l - PI)). replace (l - PI + 2 * PI) with (l + PI) by ring.
    pose proof (@RInt_comp_lin R_CompleteNormedModule h (-1) (2 * l) (l - PI) (l + PI) (E _ _)) as C.
    rewrite (RInt_ext (fun y => scal (-1) (h (-1 * y + 2 * l))) h) in C.
    2:{ intros x _. rewrite O. change (-1 * - h x = h x). ring. }
    replace (-1 * (l - PI) + 2 * l) with (l + PI) in C by ring. replace (-1 * (l + PI) + 2 * l) with (l - PI) in C by ring.
    rewrite <- (@opp_RInt_swap R_CompleteNormedModule h (l - PI) (l + PI)) in C by apply E.
    change (RInt h (l - PI) (l + PI) = - RInt h (l - PI) (l + PI)) in C.
    assert (RInt h (l - PI) (l + PI) = 0) by lra. rewrite H1. ring. }
  unfold smean. rewrite (RInt_ext _ (fun _ => 0)). rewrite (@RInt_const R_CompleteNormedModule).
  change (/ 2 * ((PI / 2 - - PI / 2) * 0) = 0). ring. intros. rewrite Z. req. ring.
Qed.
Lemma lip_ext : forall K f g, (forall x, f x = g x) -> lip K f -> lip K g.
Proof. intros K f g E H x y. rewrite <- !E. apply H. Qed.
Lemma lip_mult : forall K L B C f g, lip K f -> lip L g -> (forall x, Rabs (f x) <= B) -> (forall x, Rabs (g x) <= C) -> lip (B * L + C * K) (fun x => f x * g x).
Proof.
  intros K L B C f g F G Hf Hg x y. replace (f y * g y - f x * g x) with (f y * (g y - g x) + (f y - f x) * g x) by ring.
  eapply Rle_trans. apply Rabs_triang. rewrite !Rabs_mult. specialize (F x y). specialize (G x y). pose proof (Hf y). pose proof (Hg x).
  assert (Rabs (f y) * Rabs (g y - g x) <= B * (L * Rabs (y - x))) by (apply Rmult_le_compat; auto using Rabs_pos).
  assert (Rabs (f y - f x) * Rabs (g x) <= K * Rabs (y - x) * C) by (apply Rmult_le_compat; auto using Rabs_pos). lra.
Qed.
(** clamping *)
Definition clamp (a b x : R) : R := Rmax a (Rmin b x).
Lemma clamp_range : forall a b x, a <= b -> a <= clamp a b x <= b.
Proof. intros. unfold clamp, Rmax, Rmin. destruct (Rle_dec b x); destruct (Rle_dec a _); lra. Qed.
Lemma clamp_id : forall a b x, a <= x <= b -> clamp a b x = x.
Proof. intros. unfold clamp, Rmax, Rmin. destruct (Rle_dec b x); destruct (Rle_dec a _); lra. Qed.
Lemma clamp_lip : forall a b, a <= b -> lip 1 (clamp a b).
Proof.
  intros a b H x y. rewrite Rmult_1_l. unfold clamp, Rmax, Rmin. destruct (Rle_dec b x), (Rle_dec b y), (Rle_dec a b); try lra;
  repeat destruct (Rle_dec a _); apply Rabs_le; split; unfold Rabs; destruct (Rcase_abs (y - x)); lra.
Qed.
Lemma smean_dipole : forall K B F th l th' l', lip K F -> (forall m, Rabs (F m) <= B) ->
  smean (fun lat lon => F (mu th l lat lon) * mu th' l' lat lon) = mu th l th' l' * (/ 2 * RInt (fun m => F m * m) (-1) 1).
Proof.
  intros K B F th l th' l' H Hb. assert (Hb' : forall m, -1 <= m <= 1 -> Rabs (F m) <= B) by auto.
  pose proof (zonal_sf K B F th l H Hb') as SF.
  pose proof (mult_sf _ _ _ _ _ _ SF (mu_sf th l)) as S0. pose proof (mult_sf _ _ _ _ _ _ SF (mu_sf (th + PI / 2) l)) as S1. pose proof (mult_sf _ _ _ _ _ _ SF (mu_sf 0 (l - PI / 2))) as S2.
  change (mu (th + PI / 2) l) with (e1 th l) in S1. change (mu 0 (l - PI / 2)) with (e2 l) in S2.
  assert (S12 : sphere_fun (2 * B) (2 * (B + K)) (fun lat lon => e1 th l th' l' * (F (mu th l lat lon) * e1 th l lat lon) + e2 l th' l' * (F (mu th l lat lon) * e2 l lat lon))).
  { assert (A1 : Rabs (e1 th l th' l') <= 1) by apply (sf_bound _ _ _ (mu_sf (th + PI / 2) l)).
    assert (A2 : Rabs (e2 l th' l') <= 1) by apply (sf_bound _ _ _ (mu_sf 0 (l - PI / 2))).
    set (p := e1 th l th' l') in *. set (q := e2 l th' l') in *. split; intros.
    - eapply Rle_trans. apply Rabs_triang. rewrite (Rabs_mult p), (Rabs_mult q).
      pose proof (sf_bound _ _ _ S1 lat lon) as X1. pose proof (sf_bound _ _ _ S2 lat lon) as X2. cbv beta in X1, X2.
      pose proof (Rmult_le_compat _ _ _ _ (Rabs_pos _) (Rabs_pos _) A1 X1). pose proof (Rmult_le_compat _ _ _ _ (Rabs_pos _) (Rabs_pos _) A2 X2). lra.
    - match goal with |- Rabs (?a + ?b - (?c + ?d)) <= _ => replace (a + b - (c + d)) with ((a - c) + (b - d)) by ring end.
      rewrite <- !Rmult_minus_distr_l.
      eapply Rle_trans. apply Rabs_triang. rewrite (Rabs_mult p), (Rabs_mult q).
      pose proof (sf_lip _ _ _ S1 lat lon lat' lon') as X1. pose proof (sf_lip _ _ _ S2 lat lon lat' lon') as X2. cbv beta in X1, X2.
      pose proof (Rmult_le_compat _ _ _ _ (Rabs_pos _) (Rabs_pos _) A1 X1). pose proof (Rmult_le_compat _ _ _ _ (Rabs_pos _) (Rabs_pos _) A2 X2). lra.
    - pose proof (sf_per _ _ _ S1 lat lon) as X1. pose proof (sf_per _ _ _ S2 lat lon) as X2. cbv beta in X1, X2. rewrite X1, X2. auto. }
  rewrite (smean_ext _ (fun lat lon => mu th l th' l' * (F (mu th l lat lon) * mu th l lat lon)
     + 1 * (e1 th l th' l' * (F (mu th l lat lon) * e1 th l lat lon) + e2 l th' l' * (F (mu th l lat lon) * e2 l lat lon)))).
  2:{ intros. rewrite (frame_split th l th' l' lat lon). ring. }
  rewrite (smean_lin _ _ _ _ _ _ _ _ S0 S12).
  rewrite (smean_lin _ _ _ _ _ _ (e1 th l th' l') (e2 l th' l') S1 S2).
  rewrite (smean_e1 K B F th l) by auto. rewrite (smean_e2 K B F th l) by auto.
  assert (LM : lip (B * 1 + 1 * K) (fun m => F m * clamp (-1) 1 m)).
  { apply lip_mult; auto. apply clamp_lip; lra. intros. pose proof (clamp_range (-1) 1 x ltac:(lra)). apply Rabs_le; lra. }
  rewrite (smean_ext _ (fun lat lon => (fun m => F m * clamp (-1) 1 m) (mu th l lat lon))).
  2:{ intros. rewrite clamp_id. auto. apply law_cos_bound. }
  rewrite (smean_zonal _ _ th l LM). 
  rewrite (RInt_ext (fun m => F m * clamp (-1) 1 m) (fun m => F m * m)).
  2:{ intros m Hm. rewrite Rmin_left, Rmax_right in Hm by lra. rewrite clamp_id by lra. auto. }
  req. ring.
Qed.
(** a point within [r] of a spot centre at [a] from the observer, [a + r <= PI/2], is on the visible side *)
Lemma visible_cap : forall th l th' l' lat lon r, cos r < mu th l lat lon -> 0 <= r <= PI -> acos (mu th l th' l') + r <= PI / 2 -> 0 <= mu th' l' lat lon.
Proof.
  intros th l th' l' lat lon r Hc Hr Hv.
  rewrite (frame_split th l). pose proof (frame_norm th l th' l') as N1. pose proof (frame_norm th l lat lon) as N2.
  pose proof (law_cos_bound th l th' l') as B1. pose proof (law_cos_bound th l lat lon) as B2. fold (mu th l th' l') in B1. fold (mu th l lat lon) in B2.
  set (a := acos (mu th l th' l')) in *. set (b := acos (mu th l lat lon)).
  assert (Ea : mu th l th' l' = cos a) by (unfold a; rewrite cos_acos; auto). assert (Eb : mu th l lat lon = cos b) by (unfold b; rewrite cos_acos; auto).
  pose proof (acos_bound (mu th l th' l')) as Ba. fold a in Ba. pose proof (acos_bound (mu th l lat lon)) as Bb. fold b in Bb.
  rewrite Ea in *. rewrite Eb in *.
  assert (b < r). { apply Rnot_le_lt. intro C. destruct (Req_dec b r) as [E|E]. rewrite E in Hc; lra. pose proof (cos_decreasing_1 r b ltac:(lra) ltac:(lra) ltac:(lra) ltac:(lra) ltac:(lra)). lra. }
  assert (C : 0 <= cos (a + b)) by (apply cos_ge_0; lra). rewrite cos_plus in C.
  assert (Sa : 0 <= sin a) by (apply sin_ge_0; lra). assert (Sb : 0 <= sin b) by (apply sin_ge_0; lra).
  pose proof (sin2_cos2 a) as Qa. pose proof (sin2_cos2 b) as Qb. unfold Rsqr in *.
  set (x := e1 th l th' l') in *. set (y := e2 l th' l') in *. set (u := e1 th l lat lon) in *. set (v := e2 l lat lon) in *.
  assert (X : (x * u + y * v) * (x * u + y * v) <= (sin a * sin b) * (sin a * sin b)).
  { replace ((sin a * sin b) * (sin a * sin b)) with ((sin a * sin a) * (sin b * sin b)) by ring.
    replace (sin a * sin a) with (x * x + y * y) by (simpl in N1; lra). replace (sin b * sin b) with (u * u + v * v) by (simpl in N2; lra).
    pose proof (Rle_0_sqr (x * v - y * u)) as E0. unfold Rsqr in E0. lra. }
  assert (0 <= sin a * sin b) by (apply Rmult_le_pos; auto).
  assert (- (sin a * sin b) <= x * u + y * v) by nra. lra.
Qed.
