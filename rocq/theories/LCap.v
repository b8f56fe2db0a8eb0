(** Sums over the grid points inside a spherical cap. *)
From Coq Require Import Reals ZArith Bool List Lra Lia Permutation.
From Coquelicot Require Import Coquelicot.
From Verif Require Import Num Py MConfig MHelpers MGrid MSpots MFaculae MStar Spec SpecStar SpecDisk SpecConv
  LBase LGrid LHelpers LCirc LQuad LGauss LSpotMap LSpotCov LStarFac LDisk LSym LSphere LConv LSpiral LStarCov LZonal.
Import ListNotations.
Open Scope R_scope.

Definition ramp (c w m : R) : R := clamp 0 1 ((m - c) / w).
Lemma ramp_range : forall c w m, 0 <= ramp c w m <= 1.
Proof. intros. apply clamp_range. lra. Qed.
Lemma ramp_abs : forall c w m, Rabs (ramp c w m) <= 1.
Proof. intros. pose proof (ramp_range c w m). apply Rabs_le; lra. Qed.
Lemma ramp_lip : forall c w, 0 < w -> lip (/ w) (ramp c w).
Proof.
  intros c w H x y. unfold ramp. eapply Rle_trans. apply (clamp_lip 0 1 ltac:(lra)).
  replace ((y - c) / w - (x - c) / w) with (/ w * (y - x)) by (field; lra). rewrite Rabs_mult, (Rabs_right (/ w)). lra.
  apply Rle_ge, Rlt_le, Rinv_0_lt_compat; auto.
Qed.
Lemma ramp_zero : forall c w m, 0 < w -> m <= c -> ramp c w m = 0.
Proof.
  intros. unfold ramp. assert ((m - c) / w <= 0). { apply Rmult_le_reg_r with w; auto. unfold Rdiv. rewrite Rmult_assoc, Rinv_l by lra. lra. }
  unfold clamp, Rmax, Rmin. destruct (Rle_dec 1 _); destruct (Rle_dec 0 _); lra.
Qed.
Lemma ramp_one : forall c w m, 0 < w -> c + w <= m -> ramp c w m = 1.
Proof.
  intros. unfold ramp. assert (1 <= (m - c) / w). { apply Rmult_le_reg_r with w; auto. unfold Rdiv. rewrite Rmult_assoc, Rinv_l by lra. lra. }
  unfold clamp, Rmax, Rmin. destruct (Rle_dec 1 _); destruct (Rle_dec 0 _); lra.
Qed.
Lemma ramp_shift : forall c w m, 0 < w -> ramp (c - w) w m = ramp c w (m + w).
Proof. intros. unfold ramp. f_equal. field. lra. Qed.
Lemma clamp_mono : forall a b x y, a <= b -> x <= y -> clamp a b x <= clamp a b y.
Proof. intros. unfold clamp, Rmax, Rmin. destruct (Rle_dec b x), (Rle_dec b y); repeat destruct (Rle_dec a _); lra. Qed.
Lemma ramp_mono : forall c w x y, 0 < w -> x <= y -> ramp c w x <= ramp c w y.
Proof.
  intros. apply clamp_mono. lra. apply Rmult_le_compat_r. apply Rlt_le, Rinv_0_lt_compat; auto. lra.
Qed.
Definition bump (c w m : R) : R := ramp (c - w) w m - ramp c w m.
Lemma bump_range : forall c w m, 0 < w -> 0 <= bump c w m <= 1.
Proof.
  intros. unfold bump. rewrite ramp_shift by auto. pose proof (ramp_mono c w m (m + w) H ltac:(lra)).
  pose proof (ramp_range c w m). pose proof (ramp_range c w (m + w)). lra.
Qed.
Lemma bump_lip : forall c w, 0 < w -> lip (2 / w) (bump c w).
Proof.
  intros c w H x y. unfold bump. pose proof (ramp_lip (c - w) w H x y) as A. pose proof (ramp_lip c w H x y) as B.
  replace (ramp (c - w) w y - ramp c w y - (ramp (c - w) w x - ramp c w x)) with ((ramp (c - w) w y - ramp (c - w) w x) + - (ramp c w y - ramp c w x)) by ring.
  eapply Rle_trans. apply Rabs_triang. rewrite Rabs_Ropp. unfold Rdiv. lra.
Qed.
Lemma bump_one : forall c w m, 0 < w -> c <= m -> bump c w m = 1 - ramp c w m.
Proof. intros. unfold bump. rewrite (ramp_one (c - w)) by lra. auto. Qed.
Lemma bump_int : forall c w, 0 < w -> RInt (bump c w) (-1) 1 <= w.
Proof.
  intros c w H. assert (E : forall a b, ex_RInt (ramp c w) a b) by (intros; eapply lip_ex_RInt; apply ramp_lip; auto).
  assert (E' : forall a b, ex_RInt (ramp (c - w) w) a b) by (intros; eapply lip_ex_RInt; apply ramp_lip; auto).
  unfold bump. rewrite (@RInt_minus R_CompleteNormedModule (ramp (c - w) w) (ramp c w)) by auto.
  pose proof (@RInt_comp_lin R_CompleteNormedModule (ramp c w) 1 w (-1) 1 (E _ _)) as C.
  rewrite (RInt_ext (fun y => scal 1 (ramp c w (1 * y + w))) (ramp (c - w) w)) in C.
  2:{ intros x _. rewrite ramp_shift by auto. change (1 * ramp c w (1 * x + w) = ramp c w (x + w)). rewrite !Rmult_1_l. auto. }
  rewrite C. replace (1 * -1 + w) with (-1 + w) by ring. replace (1 * 1 + w) with (1 + w) by ring.
  pose proof (@RInt_Chasles R_CompleteNormedModule (ramp c w) (-1) (-1 + w) (1 + w) (E _ _) (E _ _)) as C1.
  pose proof (@RInt_Chasles R_CompleteNormedModule (ramp c w) (-1) 1 (1 + w) (E _ _) (E _ _)) as C2.
  set (A := RInt (ramp c w) (-1) (-1 + w)) in *. set (B := RInt (ramp c w) (-1 + w) (1 + w)) in *.
  set (D := RInt (ramp c w) (-1) 1) in *. set (F := RInt (ramp c w) 1 (1 + w)) in *. set (G := RInt (ramp c w) (-1) (1 + w)) in *.
  change (A + B = G) in C1. change (D + F = G) in C2. change (B - D <= w).
  assert (0 <= A). { apply RInt_ge_0. lra. apply E. intros; apply ramp_range. }
  assert (F <= w).
  { replace w with (RInt (fun _ => 1) 1 (1 + w)). apply RInt_le. lra. apply E. apply ex_RInt_const. intros; apply ramp_range.
    rewrite (@RInt_const R_CompleteNormedModule). change ((1 + w - 1) * 1 = w). ring. }
  lra.
Qed.
Lemma bump_int_pos : forall c w, 0 < w -> 0 <= RInt (bump c w) (-1) 1.
Proof.
  intros. apply RInt_ge_0. lra. eapply lip_ex_RInt. apply bump_lip; auto. intros; apply bump_range; auto.
Qed.

(** sums *)
Lemma gsum_le : forall g f h, good_grid g -> (forall lat lon, f lat lon <= h lat lon) -> gsum g f <= gsum g h.
Proof.
  intros g f h G H. unfold gsum. apply rsum_map_le. intros p I. apply Rmult_le_compat_l. apply rarea_nonneg; auto. apply H.
Qed.
Lemma gsum_plus : forall g f h, gsum g (fun lat lon => f lat lon + h lat lon) = gsum g f + gsum g h.
Proof. intros. unfold gsum. rewrite <- rsum_map_plus. apply rsum_map_ext. intros; ring. Qed.
Lemma gsum_scal : forall g a f, gsum g (fun lat lon => a * f lat lon) = a * gsum g f.
Proof. intros. unfold gsum. rewrite <- rsum_map_scal. apply rsum_map_ext. intros; ring. Qed.
Lemma lip_bound_lip : forall K f a b, lip K f -> ex_RInt f a b.
Proof. intros. eapply lip_ex_RInt; eauto. Qed.
Definition above (c m : R) : R := if Rlt_dec c m then 1 else 0.
(** [I] is 1 above and 0 below [c] *)
Definition step_at (c : R) (I : R -> R) : Prop := (forall m, c < m -> I m = 1) /\ (forall m, m < c -> I m = 0) /\ 0 <= I c <= 1.
Lemma step_above : forall c, step_at c (above c).
Proof. intros c. unfold above. split; [|split]; intros; destruct (Rlt_dec _ _); lra. Qed.
Lemma cap_sum_step : forall I g d th l psi Bp Lp k Kk c, step_at c I -> good_grid g -> resolution g d -> sphere_fun Bp Lp psi ->
  (forall lat lon, 0 <= psi lat lon) -> -1 <= c <= 1 -> lip Kk k -> (forall m, -1 <= m <= 1 -> Rabs (k m) <= Bp) ->
  (forall w, 0 < w -> smean (fun lat lon => ramp c w (mu th l lat lon) * psi lat lon) = / 2 * RInt (fun m => ramp c w m * k m) (-1) 1) ->
  Rabs (gsum g (fun lat lon => I (mu th l lat lon) * psi lat lon) - / 2 * RInt k c 1) <= (101 * Bp + 20 * Lp) * sqrt d.
Proof.
  intros I g d th l psi Bp Lp k Kk c [St1 [St2 St3]] G Q SF Pos Hc Hk Hkb HM. destruct (sf_pos _ _ _ SF) as [HB HL].
  assert (D : 0 < d <= 1) by apply Q. set (w := sqrt d). assert (W : 0 < w) by (apply sqrt_lt_R0; lra).
  assert (WW : w * w = d) by (apply sqrt_sqrt; lra). assert (W1 : w <= 1) by (rewrite <- sqrt_1; apply sqrt_le_1_alt; lra).
  set (S := gsum g (fun lat lon => I (mu th l lat lon) * psi lat lon)).
  set (Slo := gsum g (fun lat lon => ramp c w (mu th l lat lon) * psi lat lon)).
  set (Sb := gsum g (fun lat lon => bump c w (mu th l lat lon))).
  assert (L1 : Slo <= S).
  { apply gsum_le; auto. intros. apply Rmult_le_compat_r; auto. set (m := mu th l lat lon). destruct (Rtotal_order c m) as [K|[K|K]].
    rewrite St1 by auto. apply ramp_range. rewrite <- K, ramp_zero; lra. rewrite St2, ramp_zero; lra. }
  assert (L2 : S <= Slo + Bp * Sb).
  { unfold Slo, Sb. rewrite <- gsum_scal, <- gsum_plus. apply gsum_le; auto. intros. set (m := mu th l lat lon).
    pose proof (Pos lat lon). pose proof (sf_bound _ _ _ SF lat lon) as B1. rewrite Rabs_right in B1 by lra.
    destruct (Rtotal_order c m) as [K|[K|K]].
    - rewrite St1 by auto. rewrite bump_one by lra. pose proof (ramp_range c w m). nra.
    - rewrite <- K. rewrite bump_one by lra. rewrite (ramp_zero c w c) by lra. nra.
    - rewrite St2 by auto. pose proof (ramp_range c w m). pose proof (bump_range c w m W). nra. }
  assert (I1 : Rabs (Slo - / 2 * RInt (fun m => ramp c w m * k m) (-1) 1) <= 20 * (1 * Bp + (1 * Lp + Bp * / w)) * d).
  { rewrite <- HM by auto. apply gsum_close; auto. apply mult_sf; auto. apply zonal_sf. apply ramp_lip; auto. intros; apply ramp_abs. }
  assert (I2 : Rabs (Sb - / 2 * RInt (bump c w) (-1) 1) <= 20 * (1 + 2 / w) * d).
  { rewrite <- (smean_zonal (2 / w) (bump c w) th l) by (apply bump_lip; auto). apply gsum_close; auto. apply zonal_sf. apply bump_lip; auto.
    intros. pose proof (bump_range c w m W). apply Rabs_le; lra. }
  pose proof (bump_int c w W) as BI. pose proof (bump_int_pos c w W) as BP.
  set (IB := RInt (bump c w) (-1) 1) in *.
  (* the integral *)
  assert (EK : forall a b, ex_RInt k a b) by (intros; eapply lip_ex_RInt; eauto).
  assert (ER : forall a b, ex_RInt (fun m => ramp c w m * k m) a b).
  { intros. apply (@ex_RInt_continuous R_CompleteNormedModule). intros. apply (@continuous_mult R_UniformSpace R_AbsRing (ramp c w) k).
    eapply lip_continuous. apply ramp_lip; auto. eapply lip_continuous; eauto. }
  assert (EB : forall a b, ex_RInt (bump c w) a b) by (intros; eapply lip_ex_RInt; apply bump_lip; auto).
  assert (I3 : Rabs (RInt (fun m => ramp c w m * k m) (-1) 1 - RInt k c 1) <= Bp * w).
  { pose proof (@RInt_Chasles R_CompleteNormedModule (fun m => ramp c w m * k m) (-1) c 1 (ER _ _) (ER _ _)) as C.
    rewrite (RInt_ext (fun m => ramp c w m * k m) (fun _ => 0) (-1) c) in C.
    2:{ intros x Hx. rewrite Rmin_left, Rmax_right in Hx by lra. rewrite ramp_zero by lra. req; ring. }
    rewrite (@RInt_const R_CompleteNormedModule) in C.
    change ((c - -1) * 0 + RInt (fun m => ramp c w m * k m) c 1 = RInt (fun m => ramp c w m * k m) (-1) 1) in C.
    rewrite <- C. replace ((c - -1) * 0 + RInt (fun m => ramp c w m * k m) c 1 - RInt k c 1) with (- (RInt k c 1 - RInt (fun m => ramp c w m * k m) c 1)) by ring.
    rewrite Rabs_Ropp. replace (RInt k c 1 - RInt (fun m => ramp c w m * k m) c 1) with (RInt (fun m => bump c w m * k m) c 1).
    - assert (EBK : forall a b, ex_RInt (fun m => bump c w m * k m) a b).
      { intros. apply (@ex_RInt_continuous R_CompleteNormedModule). intros. apply (@continuous_mult R_UniformSpace R_AbsRing (bump c w) k).
        eapply lip_continuous. apply bump_lip; auto. eapply lip_continuous; eauto. }
      assert (UB : RInt (fun m => Bp * bump c w m) c 1 <= Bp * w).
      { rewrite (@RInt_scal R_CompleteNormedModule (bump c w)) by auto. change (Bp * RInt (bump c w) c 1 <= Bp * w).
        apply Rmult_le_compat_l; auto. eapply Rle_trans; [|apply BI].
        pose proof (@RInt_Chasles R_CompleteNormedModule (bump c w) (-1) c 1 (EB _ _) (EB _ _)) as C2.
        change (RInt (bump c w) (-1) c + RInt (bump c w) c 1 = IB) in C2.
        assert (0 <= RInt (bump c w) (-1) c) by (apply RInt_ge_0; auto; [lra|intros; apply bump_range; auto]). lra. }
      apply Rabs_le. split.
      + apply Rle_trans with (- RInt (fun m => Bp * bump c w m) c 1). lra.
        rewrite <- (@RInt_opp R_CompleteNormedModule) by (apply (@ex_RInt_scal R_NormedModule); auto).
        apply RInt_le; auto. lra. apply (@ex_RInt_opp R_NormedModule). apply (@ex_RInt_scal R_NormedModule); auto.
        intros x Hx. change (- (Bp * bump c w x) <= bump c w x * k x). pose proof (Hkb x ltac:(lra)) as K. apply Rabs_le_between in K.
        pose proof (bump_range c w x W). nra.
      + eapply Rle_trans; [|apply UB]. apply RInt_le; auto. lra. apply (@ex_RInt_scal R_NormedModule); auto.
        intros x Hx. pose proof (Hkb x ltac:(lra)) as K. apply Rabs_le_between in K. pose proof (bump_range c w x W). nra.
    - rewrite <- (RInt_ext (fun m => k m - ramp c w m * k m)).
      rewrite (@RInt_minus R_CompleteNormedModule k (fun m => ramp c w m * k m)) by auto. reflexivity.
      intros x Hx. rewrite Rmin_left, Rmax_right in Hx by lra. rewrite bump_one by lra. req; ring. }
  set (IR := RInt (fun m => ramp c w m * k m) (-1) 1) in *. set (IK := RInt k c 1) in *.
  apply Rabs_le_between in I1. apply Rabs_le_between in I2. apply Rabs_le_between in I3.
  replace (20 * (1 * Bp + (1 * Lp + Bp * / w)) * d) with (20 * (Bp + Lp) * d + 20 * Bp * w) in I1 by (rewrite <- WW; field; lra).
  replace (20 * (1 + 2 / w) * d) with (20 * d + 40 * w) in I2 by (rewrite <- WW; field; lra).
  assert (DW : d <= w) by nra.
  assert (J1 : (Bp + Lp) * d <= (Bp + Lp) * w) by (apply Rmult_le_compat_l; lra).
  assert (J2 : Bp * Sb <= Bp * (w / 2 + 60 * w)) by (apply Rmult_le_compat_l; lra).
  apply Rabs_le. lra.
Qed.
Lemma cap_sum : forall g d th l psi Bp Lp k Kk c, good_grid g -> resolution g d -> sphere_fun Bp Lp psi ->
  (forall lat lon, 0 <= psi lat lon) -> -1 <= c <= 1 -> lip Kk k -> (forall m, -1 <= m <= 1 -> Rabs (k m) <= Bp) ->
  (forall w, 0 < w -> smean (fun lat lon => ramp c w (mu th l lat lon) * psi lat lon) = / 2 * RInt (fun m => ramp c w m * k m) (-1) 1) ->
  Rabs (gsum g (fun lat lon => above c (mu th l lat lon) * psi lat lon) - / 2 * RInt k c 1) <= (101 * Bp + 20 * Lp) * sqrt d.
Proof. intros. eapply cap_sum_step; eauto. apply step_above. Qed.

(** ** Full coverage of a cap *)
Lemma one_sf : sphere_fun 1 0 (fun _ _ => 1).
Proof. split; intros; auto. rewrite Rabs_R1; lra. replace (1 - 1) with 0 by ring. rewrite Rabs_R0. lra. Qed.
Lemma const_lip : forall c, lip 0 (fun _ => c).
Proof. intros c x y. replace (c - c) with 0 by ring. rewrite Rabs_R0. lra. Qed.
Lemma cap_area : forall g d th l c, good_grid g -> resolution g d -> -1 <= c <= 1 ->
  Rabs (gsum g (fun lat lon => above c (mu th l lat lon)) - (1 - c) / 2) <= 101 * sqrt d.
Proof.
  intros g d th l c G Q Hc. pose proof (cap_sum g d th l (fun _ _ => 1) 1 0 (fun _ => 1) 0 c G Q one_sf) as X.
  replace (gsum g (fun lat lon => above c (mu th l lat lon))) with (gsum g (fun lat lon => above c (mu th l lat lon) * 1)).
  2:{ unfold gsum. apply rsum_map_ext. intros; ring. }
  replace ((1 - c) / 2) with (/ 2 * RInt (fun _ => 1) c 1).
  2:{ rewrite (@RInt_const R_CompleteNormedModule). change (/ 2 * ((1 - c) * 1) = (1 - c) / 2). field. }
  eapply Rle_trans. apply X; auto. intros; lra. apply const_lip. intros; rewrite Rabs_R1; lra. 2: right; ring.
  intros w W. rewrite (smean_ext _ (fun lat lon => ramp c w (mu th l lat lon))) by (intros; ring).
  rewrite (smean_zonal (/ w)) by (apply ramp_lip; auto). f_equal. apply RInt_ext. intros; req; ring.
Qed.
(** projected area of a cap on the visible side *)
Lemma maxmu_sf : forall th l, sphere_fun 1 1 (fun lat lon => clamp 0 1 (mu th l lat lon)).
Proof. intros. apply zonal_sf. apply clamp_lip; lra. intros. pose proof (clamp_range 0 1 m ltac:(lra)). apply Rabs_le; lra. Qed.
Lemma mult_lip_const : forall a, Rabs a <= 1 -> lip 1 (fun m => a * m).
Proof. intros a H x y. rewrite <- Rmult_minus_distr_l, Rabs_mult. apply Rmult_le_compat_r; auto. apply Rabs_pos. Qed.
Lemma int_id : forall a c, RInt (fun m => a * m) c 1 = a * ((1 - c * c) / 2).
Proof.
  intros. apply is_RInt_unique. replace (a * ((1 - c * c) / 2)) with (minus (a * 1 ^ 2 / 2) (a * c ^ 2 / 2)).
  2:{ change (a * 1 ^ 2 / 2 - a * c ^ 2 / 2 = a * ((1 - c * c) / 2)). field. }
  apply (@is_RInt_derive R_CompleteNormedModule (fun m => a * m ^ 2 / 2)). intros; auto_derive; auto; field.
  intros. apply (@ex_derive_continuous R_AbsRing R_NormedModule). auto_derive; auto.
Qed.
Lemma cap_projected_step : forall I g d th l th' l' r, step_at (cos r) I -> good_grid g -> resolution g d -> 0 <= r <= PI -> acos (mu th l th' l') + r <= PI / 2 ->
  Rabs (gsum g (fun lat lon => I (mu th l lat lon) * clamp 0 1 (mu th' l' lat lon)) - mu th l th' l' * (sin r * sin r) / 4) <= 121 * sqrt d.
Proof.
  intros I g d th l th' l' r St G Q Hr Hv. pose proof (COS_bound r) as CB.
  pose proof (cap_sum_step I g d th l (fun lat lon => clamp 0 1 (mu th' l' lat lon)) 1 1 (fun m => mu th l th' l' * m) 1 (cos r) St G Q (maxmu_sf th' l')) as X.
  assert (MB : Rabs (mu th l th' l') <= 1) by (pose proof (law_cos_bound th l th' l'); apply Rabs_le; auto).
  rewrite int_id in X. pose proof (sin2_cos2 r) as E. unfold Rsqr in E.
  replace (mu th l th' l' * (sin r * sin r) / 4) with (/ 2 * (mu th l th' l' * ((1 - cos r * cos r) / 2))) by (replace (sin r * sin r) with (1 - cos r * cos r) by lra; field).
  eapply Rle_trans. apply X; auto. intros; apply clamp_range; lra. apply mult_lip_const; auto.
  intros. rewrite Rabs_mult. replace 1 with (1 * 1) by ring. apply Rmult_le_compat; auto using Rabs_pos. apply Rabs_le; auto.
  2: right; ring.
  intros w W. rewrite (smean_ext _ (fun lat lon => ramp (cos r) w (mu th l lat lon) * mu th' l' lat lon)).
  - rewrite (smean_dipole (/ w) 1) by (try apply ramp_lip; auto; intros; apply ramp_abs).
    assert (EX : ex_RInt (fun m => ramp (cos r) w m * m) (-1) 1).
    { apply (@ex_RInt_continuous R_CompleteNormedModule). intros. apply (@continuous_mult R_UniformSpace R_AbsRing (ramp (cos r) w) (fun m => m)).
      eapply lip_continuous. apply ramp_lip; auto. apply continuous_id. }
    rewrite (RInt_ext (fun m => ramp (cos r) w m * (mu th l th' l' * m)) (fun m => mu th l th' l' * (ramp (cos r) w m * m))) by (intros; req; ring).
    rewrite (@RInt_scal R_CompleteNormedModule (fun m => ramp (cos r) w m * m)) by auto.
    set (J := RInt (fun m => ramp (cos r) w m * m) (-1) 1). change (mu th l th' l' * (/ 2 * J) = / 2 * (mu th l th' l' * J)). ring.
  - intros lat lon. destruct (Rle_dec (mu th l lat lon) (cos r)) as [N|N].
    + rewrite ramp_zero by auto. ring.
    + f_equal. apply clamp_id. split. apply (visible_cap th l th' l' lat lon r); auto; lra. apply law_cos_bound.
Qed.
Lemma cap_projected : forall g d th l th' l' r, good_grid g -> resolution g d -> 0 <= r <= PI -> acos (mu th l th' l') + r <= PI / 2 ->
  Rabs (gsum g (fun lat lon => above (cos r) (mu th l lat lon) * clamp 0 1 (mu th' l' lat lon)) - mu th l th' l' * (sin r * sin r) / 4) <= 121 * sqrt d.
Proof. intros. apply cap_projected_step; auto. apply step_above. Qed.
(** limb-darkened brightness *)
Definition bright (u1 u2 m : R) : R := let x := clamp 0 1 m in x * (1 - u1 * (1 - x) - u2 * (1 - x) ^ 2).
Definition brightB (u1 u2 : R) := 1 + Rabs u1 + Rabs u2.
Definition brightL (u1 u2 : R) := 1 + 2 * Rabs u1 + 3 * Rabs u2.
Lemma ld_abs : forall u1 u2 x, 0 <= x <= 1 -> Rabs (1 - u1 * (1 - x) - u2 * (1 - x) ^ 2) <= brightB u1 u2.
Proof.
  intros u1 u2 x H. unfold brightB. unfold Rminus at 1 2.
  eapply Rle_trans. apply Rabs_triang. apply Rplus_le_compat. eapply Rle_trans. apply Rabs_triang. apply Rplus_le_compat.
  rewrite Rabs_R1; lra.
  - rewrite Rabs_Ropp, Rabs_mult, (Rabs_right (1 - x)) by lra. pose proof (Rabs_pos u1). nra.
  - rewrite Rabs_Ropp, Rabs_mult, (Rabs_right ((1 - x) ^ 2)) by (apply Rle_ge, pow2_ge_0). pose proof (Rabs_pos u2). assert ((1 - x) ^ 2 <= 1) by (simpl; nra). nra.
Qed.
Lemma bright_abs : forall u1 u2 m, Rabs (bright u1 u2 m) <= brightB u1 u2.
Proof.
  intros. unfold bright. pose proof (clamp_range 0 1 m ltac:(lra)) as C. set (x := clamp 0 1 m) in *. rewrite Rabs_mult, (Rabs_right x) by lra.
  pose proof (ld_abs u1 u2 x C). pose proof (Rabs_pos (1 - u1 * (1 - x) - u2 * (1 - x) ^ 2)). nra.
Qed.
Lemma bright_lip : forall u1 u2, lip (brightL u1 u2) (bright u1 u2).
Proof.
  intros u1 u2 a b. unfold bright. pose proof (clamp_range 0 1 a ltac:(lra)) as C. pose proof (clamp_range 0 1 b ltac:(lra)) as C'.
  pose proof (clamp_lip 0 1 ltac:(lra) a b) as L. set (x := clamp 0 1 a) in *. set (y := clamp 0 1 b) in *. cbv zeta.
  pose proof (Rabs_pos u1). pose proof (Rabs_pos u2).
  replace (y * (1 - u1 * (1 - y) - u2 * (1 - y) ^ 2) - x * (1 - u1 * (1 - x) - u2 * (1 - x) ^ 2))
    with ((y - x) * (1 - u1 * (1 - x - y) - u2 * ((1 - y) ^ 2 - x * (2 - x - y)))) by ring.
  rewrite Rabs_mult, Rmult_comm.
  assert (B : Rabs (1 - u1 * (1 - x - y) - u2 * ((1 - y) ^ 2 - x * (2 - x - y))) <= brightL u1 u2).
  { unfold brightL. unfold Rminus at 1 2. eapply Rle_trans. apply Rabs_triang. apply Rplus_le_compat. eapply Rle_trans. apply Rabs_triang. apply Rplus_le_compat.
    rewrite Rabs_R1; lra.
    - rewrite Rabs_Ropp, Rabs_mult. assert (Rabs (1 - x - y) <= 1) by (apply Rabs_le; lra). pose proof (Rabs_pos (1 - x - y)). nra.
    - rewrite Rabs_Ropp, Rabs_mult. assert (X : Rabs ((1 - y) ^ 2 - x * (2 - x - y)) <= 3) by (apply Rabs_le; simpl; split; nra). pose proof (Rabs_pos ((1 - y) ^ 2 - x * (2 - x - y))). nra. }
  apply Rmult_le_compat; auto using Rabs_pos. lra.
Qed.
Lemma bright_sf : forall u1 u2 th l, sphere_fun (brightB u1 u2) (brightL u1 u2) (fun lat lon => bright u1 u2 (mu th l lat lon)).
Proof. intros. apply zonal_sf. apply bright_lip. intros; apply bright_abs. Qed.
(** integral of the brightness over the disk within the angle [acos c] of its centre *)
Definition brint (u1 u2 c : R) : R :=
  (1 - c ^ 2) / 2 - u1 * (1 - 3 * c ^ 2 + 2 * c ^ 3) / 6 - u2 * (1 - 6 * c ^ 2 + 8 * c ^ 3 - 3 * c ^ 4) / 12.
Lemma bright_int : forall u1 u2 c, 0 <= c <= 1 -> RInt (bright u1 u2) c 1 = brint u1 u2 c.
Proof.
  intros u1 u2 c Hc. rewrite (RInt_ext _ (fun x => x * (1 - u1 * (1 - x) - u2 * (1 - x) ^ 2))).
  2:{ intros x Hx. rewrite Rmin_left, Rmax_right in Hx by lra. unfold bright. rewrite clamp_id by lra. auto. }
  apply is_RInt_unique. set (P := fun x => x ^ 2 / 2 - u1 * (x ^ 2 / 2 - x ^ 3 / 3) - u2 * (x ^ 2 / 2 - 2 * x ^ 3 / 3 + x ^ 4 / 4)).
  replace (brint u1 u2 c) with (minus (P 1) (P c)).
  2:{ change (P 1 - P c = brint u1 u2 c). unfold P, brint. field. }
  apply (@is_RInt_derive R_CompleteNormedModule P). intros; unfold P; auto_derive; auto; field.
  intros. apply (@ex_derive_continuous R_AbsRing R_NormedModule). auto_derive; auto.
Qed.
Lemma bright_neg : forall u1 u2 m, m <= 0 -> bright u1 u2 m = 0.
Proof. intros. unfold bright. replace (clamp 0 1 m) with 0. ring. unfold clamp, Rmax, Rmin. destruct (Rle_dec 1 m); destruct (Rle_dec 0 _); lra. Qed.
Lemma bright_int_full : forall u1 u2, RInt (bright u1 u2) (-1) 1 = brint u1 u2 0.
Proof.
  intros. assert (E : forall a b, ex_RInt (bright u1 u2) a b) by (intros; eapply lip_ex_RInt; apply bright_lip).
  rewrite <- (@RInt_Chasles R_CompleteNormedModule (bright u1 u2) (-1) 0 1 (E _ _) (E _ _)). rewrite bright_int by lra.
  rewrite (RInt_ext _ (fun _ => 0) (-1) 0). rewrite (@RInt_const R_CompleteNormedModule). change ((0 - -1) * 0 + brint u1 u2 0 = brint u1 u2 0). ring.
  intros x Hx. rewrite Rmin_left, Rmax_right in Hx by lra. apply bright_neg. lra.
Qed.
Lemma disk_total : forall g d u1 u2 th l, good_grid g -> resolution g d ->
  Rabs (gsum g (fun lat lon => bright u1 u2 (mu th l lat lon)) - brint u1 u2 0 / 2) <= 20 * (brightB u1 u2 + brightL u1 u2) * d.
Proof.
  intros. replace (brint u1 u2 0 / 2) with (/ 2 * RInt (bright u1 u2) (-1) 1) by (rewrite bright_int_full; field).
  rewrite <- (smean_zonal (brightL u1 u2) (bright u1 u2) th l) by apply bright_lip. apply gsum_close; auto. apply bright_sf.
Qed.
Lemma cap_centre : forall g d u1 u2 th l c, good_grid g -> resolution g d -> 0 <= c <= 1 -> (forall m, 0 <= bright u1 u2 m) ->
  Rabs (gsum g (fun lat lon => above c (mu th l lat lon) * bright u1 u2 (mu th l lat lon)) - brint u1 u2 c / 2)
   <= (101 * brightB u1 u2 + 20 * brightL u1 u2) * sqrt d.
Proof.
  intros g d u1 u2 th l c G Q Hc P. replace (brint u1 u2 c / 2) with (/ 2 * RInt (bright u1 u2) c 1) by (rewrite bright_int by auto; field).
  apply (cap_sum g d th l (fun lat lon => bright u1 u2 (mu th l lat lon)) _ _ (bright u1 u2) (brightL u1 u2) c G Q (bright_sf u1 u2 th l)); auto.
  lra. apply bright_lip. intros; apply bright_abs.
  intros w W. pose proof (lip_mult _ _ 1 (brightB u1 u2) _ _ (ramp_lip c w W) (bright_lip u1 u2) (ramp_abs c w) (bright_abs u1 u2)) as LM.
  apply (smean_zonal _ (fun m => ramp c w m * bright u1 u2 m) th l LM).
Qed.
