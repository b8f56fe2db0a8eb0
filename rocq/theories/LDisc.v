(** Grid sums over a disc on the sky. *)
From Coq Require Import Reals ZArith Bool List Lra Lia Permutation.
From Coquelicot Require Import Coquelicot.
From Verif Require Import Num Py MConfig MHelpers MGrid MSpots MFaculae MStar Spec SpecStar SpecDisk SpecConv
  LBase LGrid LHelpers LCirc LQuad LGauss LSpotMap LSpotCov LStarFac LDisk LSym LSphere LConv LSpiral LStarCov LZonal LCap LRot.
Import ListNotations.
Open Scope R_scope.

(** ** A smooth step *)
Definition step (t : R) : R := avg (clamp 0 1) 1 t.
Definition step1 (t : R) : R := clamp 0 1 (t + 1) - clamp 0 1 t.
Lemma clamp01 : lip 1 (clamp 0 1).
Proof. apply clamp_lip; lra. Qed.
Lemma clamp_lo : forall x, x <= 0 -> clamp 0 1 x = 0.
Proof. intros. unfold clamp, Rmax, Rmin. destruct (Rle_dec 1 x); destruct (Rle_dec 0 _); lra. Qed.
Lemma clamp_hi : forall x, 1 <= x -> clamp 0 1 x = 1.
Proof. intros. unfold clamp, Rmax, Rmin. destruct (Rle_dec 1 x); destruct (Rle_dec 0 _); lra. Qed.
Lemma step_int : forall t, step t = RInt (clamp 0 1) t (t + 1).
Proof. intros. unfold step. rewrite (avg_RInt 1) by (try apply clamp01; lra). field. Qed.
Lemma clamp_ex : forall a b, ex_RInt (clamp 0 1) a b.
Proof. intros. eapply lip_ex_RInt. apply clamp01. Qed.
Lemma step_range : forall t, 0 <= step t <= 1.
Proof.
  intros. rewrite step_int. split.
  - apply RInt_ge_0. lra. apply clamp_ex. intros; apply clamp_range; lra.
  - apply Rle_trans with (RInt (fun _ => 1) t (t + 1)).
    + apply RInt_le. lra. apply clamp_ex. apply ex_RInt_const. intros; apply clamp_range; lra.
    + rewrite (@RInt_const R_CompleteNormedModule). change ((t + 1 - t) * 1 <= 1). lra.
Qed.
Lemma step_lo : forall t, t <= -1 -> step t = 0.
Proof.
  intros. rewrite step_int. rewrite (RInt_ext _ (fun _ => 0)). rewrite (@RInt_const R_CompleteNormedModule). change ((t + 1 - t) * 0 = 0). ring.
  intros x Hx. rewrite Rmin_left, Rmax_right in Hx by lra. apply clamp_lo. lra.
Qed.
Lemma step_hi : forall t, 1 <= t -> step t = 1.
Proof.
  intros. rewrite step_int. rewrite (RInt_ext _ (fun _ => 1)). rewrite (@RInt_const R_CompleteNormedModule). change ((t + 1 - t) * 1 = 1). ring.
  intros x Hx. rewrite Rmin_left, Rmax_right in Hx by lra. apply clamp_hi. lra.
Qed.
Lemma step1_zero : forall t, t <= -1 \/ 1 <= t -> step1 t = 0.
Proof. intros t [H|H]; unfold step1. rewrite !clamp_lo; lra. rewrite !clamp_hi; lra. Qed.
Lemma step1_range : forall t, 0 <= step1 t <= 1.
Proof.
  intros. unfold step1. pose proof (clamp_mono 0 1 t (t + 1) ltac:(lra) ltac:(lra)). pose proof (clamp_range 0 1 t ltac:(lra)). pose proof (clamp_range 0 1 (t + 1) ltac:(lra)). lra.
Qed.
Lemma step1_lip : lip 2 step1.
Proof.
  intros x y. unfold step1. replace (_ - _ - _) with ((clamp 0 1 (y + 1) - clamp 0 1 (x + 1)) + - (clamp 0 1 y - clamp 0 1 x)) by ring.
  eapply Rle_trans. apply Rabs_triang. rewrite Rabs_Ropp. pose proof (clamp01 (x + 1) (y + 1)) as A. replace (y + 1 - (x + 1)) with (y - x) in A by ring.
  pose proof (clamp01 x y). lra.
Qed.
Lemma step_derive : forall t, is_derive step t (step1 t).
Proof. intros. pose proof (avg_derive 1 (clamp 0 1) 1 t clamp01 Rlt_0_1) as D. replace (step1 t) with ((clamp 0 1 (t + 1) - clamp 0 1 t) / 1) by (unfold step1; field). auto. Qed.
Lemma step_lip : lip 1 step.
Proof. apply avg_lip. apply clamp01. lra. Qed.
Lemma step_bend : bend 2 step step1.
Proof.
  split; intros.
  - pose proof (step_range x). apply Rabs_le; lra.
  - pose proof (step1_range x). apply Rabs_le; lra.
  - intros x y. pose proof (step_lip x y). pose proof (Rabs_pos (y - x)). lra.
  - apply step1_lip.
  - apply taylor_quad; intros. apply step_derive. apply step1_lip. lra.
Qed.

(** ** Means over the sphere *)
Lemma smean_abs : forall B L f e, sphere_fun B L f -> (forall lat lon, Rabs (f lat lon) <= e) -> Rabs (smean f) <= e.
Proof.
  intros B L f e SF He. assert (SF' : sphere_fun e L f) by (destruct SF; split; auto). clear SF B.
  assert (PE : 0 <= e) by apply (sf_pos _ _ _ SF'). pose proof PI_RGT_0 as PP.
  assert (E0 : ex_RInt (fun lat => cos lat * lonmean f lat) (- PI / 2) (PI / 2)) by (eapply sf_cosint_ex; eauto).
  assert (EC : ex_RInt (fun lat => e * cos lat) (- PI / 2) (PI / 2)).
  { apply (@ex_RInt_continuous R_CompleteNormedModule). intros. apply (@ex_derive_continuous R_AbsRing R_NormedModule). auto_derive; auto. }
  assert (IC : RInt (fun lat => e * cos lat) (- PI / 2) (PI / 2) = 2 * e).
  { apply is_RInt_unique. replace (2 * e) with (minus (e * sin (PI / 2)) (e * sin (- PI / 2))).
    apply (@is_RInt_derive R_CompleteNormedModule (fun x => e * sin x)). intros; auto_derive; auto; ring.
    intros. apply (@ex_derive_continuous R_AbsRing R_NormedModule). auto_derive; auto.
    change (e * sin (PI / 2) - e * sin (- PI / 2) = 2 * e). replace (- PI / 2) with (- (PI / 2)) by field. rewrite sin_neg, sin_PI2. ring. }
  assert (CP : forall x, - PI / 2 < x < PI / 2 -> 0 <= cos x) by (intros; apply cos_ge_0; lra).
  assert (U : RInt (fun lat => cos lat * lonmean f lat) (- PI / 2) (PI / 2) <= 2 * e).
  { rewrite <- IC. apply RInt_le; auto. lra. intros x Hx. pose proof (lonmean_bound e L f x SF') as K. apply Rabs_le_between in K. specialize (CP x Hx). nra. }
  assert (D : - (2 * e) <= RInt (fun lat => cos lat * lonmean f lat) (- PI / 2) (PI / 2)).
  { rewrite <- IC. rewrite <- (@RInt_opp R_CompleteNormedModule) by auto. apply RInt_le; auto. lra. apply (@ex_RInt_opp R_NormedModule); auto.
    intros x Hx. change (- (e * cos x) <= cos x * lonmean f x). pose proof (lonmean_bound e L f x SF') as K. apply Rabs_le_between in K. specialize (CP x Hx). nra. }
  unfold smean. set (I := RInt (fun lat => cos lat * lonmean f lat) (- PI / 2) (PI / 2)) in *. apply Rabs_le. lra.
Qed.
Lemma lin_sf : forall B L C M f g a b, sphere_fun B L f -> sphere_fun C M g ->
  sphere_fun (Rabs a * B + Rabs b * C) (Rabs a * L + Rabs b * M) (fun lat lon => a * f lat lon + b * g lat lon).
Proof.
  intros B L C M f g a b F G. pose proof (Rabs_pos a). pose proof (Rabs_pos b). split; intros.
  - eapply Rle_trans. apply Rabs_triang. rewrite !Rabs_mult. pose proof (sf_bound _ _ _ F lat lon). pose proof (sf_bound _ _ _ G lat lon).
    apply Rplus_le_compat; apply Rmult_le_compat_l; auto.
  - replace (_ - _) with (a * (f lat lon - f lat' lon') + b * (g lat lon - g lat' lon')) by ring.
    eapply Rle_trans. apply Rabs_triang. rewrite !Rabs_mult. pose proof (sf_lip _ _ _ F lat lon lat' lon') as X1. pose proof (sf_lip _ _ _ G lat lon lat' lon') as X2.
    apply (Rmult_le_compat_l (Rabs a)) in X1; auto. apply (Rmult_le_compat_l (Rabs b)) in X2; auto. lra.
  - rewrite (sf_per _ _ _ F), (sf_per _ _ _ G). auto.
Qed.
Lemma comp_sf : forall B L K C G f, sphere_fun B L f -> lip K G -> (forall x, Rabs (G x) <= C) -> sphere_fun C (K * L) (fun lat lon => G (f lat lon)).
Proof.
  intros B L K C G f F H Hb. pose proof (lip_pos _ _ H). split; intros; auto.
  - eapply Rle_trans. apply H. rewrite Rmult_assoc. apply Rmult_le_compat_l; auto. apply (sf_lip _ _ _ F lat lon lat' lon').
  - rewrite (sf_per _ _ _ F). auto.
Qed.
Lemma const_sf : forall c, sphere_fun (Rabs c) 0 (fun _ _ => c).
Proof. intros. split; intros; auto. lra. replace (c - c) with 0 by ring. rewrite Rabs_R0. lra. Qed.
(** [f - g - k h] small and [h] of mean zero *)
Lemma smean_quad : forall f g h k e, (exists B L, sphere_fun B L f) -> (exists B L, sphere_fun B L g) -> (exists B L, sphere_fun B L h) ->
  smean h = 0 -> (forall lat lon, Rabs (f lat lon - g lat lon - k * h lat lon) <= e) -> Rabs (smean f - smean g) <= e.
Proof.
  intros f g h k e [B [L F]] [C [M G]] [D [N H]] Z He.
  pose proof (lin_sf _ _ _ _ _ _ 1 (-1) F G) as S1. pose proof (lin_sf _ _ _ _ _ _ 1 (- k) S1 H) as S2.
  pose proof (smean_abs _ _ _ e S2) as X. cbv beta in X.
  rewrite (smean_lin _ _ _ _ _ _ 1 (- k) S1 H), (smean_lin _ _ _ _ _ _ 1 (-1) F G), Z in X.
  replace (smean f - smean g) with (1 * (1 * smean f + -1 * smean g) + - k * 0) by ring. apply X.
  intros. replace (_ + _) with (f lat lon - g lat lon - k * h lat lon) by ring. auto.
Qed.

(** ** Discs *)
Definition vdir (th l a1 a2 lat lon : R) : R := a1 * e1 th l lat lon + a2 * e2 l lat lon.
(** squared distance on the sky from the point [c] times the direction [(a1, a2)] *)
Definition qd (th l a1 a2 c lat lon : R) : R := 1 - mu th l lat lon ^ 2 - 2 * c * vdir th l a1 a2 lat lon + c ^ 2.
Definition kap (w m : R) : R := step (2 * m / w - 1).
Definition inside (th l a1 a2 R2 w c lat lon : R) : R := step ((R2 - qd th l a1 a2 c lat lon) / w).
Definition disc (th l a1 a2 R2 w c lat lon : R) : R := mu th l lat lon * (kap w (mu th l lat lon) * inside th l a1 a2 R2 w c lat lon).
Definition disc1 (th l a1 a2 R2 w c lat lon : R) : R :=
  mu th l lat lon * (kap w (mu th l lat lon) * (step1 ((R2 - qd th l a1 a2 c lat lon) / w) * (2 * (vdir th l a1 a2 lat lon - c) / w))).
Lemma qd_dist : forall th l a1 a2 c lat lon, a1 ^ 2 + a2 ^ 2 = 1 ->
  qd th l a1 a2 c lat lon = (e1 th l lat lon - c * a1) ^ 2 + (e2 l lat lon - c * a2) ^ 2.
Proof.
  intros. unfold qd, vdir. pose proof (frame_norm th l lat lon) as N.
  replace (1 - mu th l lat lon ^ 2) with (e1 th l lat lon ^ 2 + e2 l lat lon ^ 2) by lra.
  replace (c ^ 2) with (c ^ 2 * (a1 ^ 2 + a2 ^ 2)) by (rewrite H; ring). ring.
Qed.
Lemma vdir_bound : forall th l a1 a2 lat lon, a1 ^ 2 + a2 ^ 2 = 1 -> Rabs (vdir th l a1 a2 lat lon) <= 1.
Proof.
  intros. apply sq_le_1_abs. unfold vdir. pose proof (frame_norm th l lat lon) as N. set (x := e1 th l lat lon) in *. set (y := e2 l lat lon) in *.
  pose proof (pow2_ge_0 (mu th l lat lon)). pose proof (pow2_ge_0 (a1 * y - a2 * x)).
  assert ((a1 * x + a2 * y) * (a1 * x + a2 * y) + (a1 * y - a2 * x) ^ 2 = (a1 ^ 2 + a2 ^ 2) * (x ^ 2 + y ^ 2)) by ring. rewrite H in H2. lra.
Qed.
Lemma vdir_sf : forall th l a1 a2, exists B L, sphere_fun B L (vdir th l a1 a2).
Proof. intros. do 2 eexists. apply (lin_sf _ _ _ _ _ _ a1 a2 (mu_sf (th + PI / 2) l) (mu_sf 0 (l - PI / 2))). Qed.
(** the partial derivatives *)
Definition v_a th l a1 a2 lat lon := a1 * mu_a (th + PI / 2) l lat lon + a2 * mu_a 0 (l - PI / 2) lat lon.
Definition v_o th l a1 a2 lat lon := a1 * mu_o (th + PI / 2) l lat lon + a2 * mu_o 0 (l - PI / 2) lat lon.
Lemma fld_vdir : forall th l a1 a2, fld (vdir th l a1 a2) (v_a th l a1 a2) (v_o th l a1 a2).
Proof.
  intros. eapply fld_ext. apply (fld_plus _ _ _ _ _ _ (fld_mult _ _ _ _ _ _ (fld_const a1) (fld_mu (th + PI / 2) l)) (fld_mult _ _ _ _ _ _ (fld_const a2) (fld_mu 0 (l - PI / 2)))).
  all: intros; unfold vdir, e1, e2, v_a, v_o; ring.
Qed.
Lemma fld_arg : forall th l a1 a2 R2 w c, 0 < w ->
  fld (fun lat lon => (R2 - qd th l a1 a2 c lat lon) / w)
      (fun lat lon => (2 * mu th l lat lon * mu_a th l lat lon + 2 * c * v_a th l a1 a2 lat lon) / w)
      (fun lat lon => (2 * mu th l lat lon * mu_o th l lat lon + 2 * c * v_o th l a1 a2 lat lon) / w).
Proof.
  intros. eapply fld_ext. apply (fld_mult _ _ _ _ _ _ (fld_const (/ w)) (fld_plus _ _ _ _ _ _ (fld_const (R2 - 1 - c ^ 2)) (fld_plus _ _ _ _ _ _ (fld_mult _ _ _ _ _ _ (fld_mu th l) (fld_mu th l)) (fld_mult _ _ _ _ _ _ (fld_const (2 * c)) (fld_vdir th l a1 a2))))).
  all: intros; unfold qd; field; lra.
Qed.
Lemma fld_kap : forall th l w, 0 < w -> 
  fld (fun lat lon => kap w (mu th l lat lon)) (fun lat lon => step1 (2 * mu th l lat lon / w - 1) * (2 / w * mu_a th l lat lon))
      (fun lat lon => step1 (2 * mu th l lat lon / w - 1) * (2 / w * mu_o th l lat lon)).
Proof.
  intros. pose proof (fld_plus _ _ _ _ _ _ (fld_mult _ _ _ _ _ _ (fld_const (2 / w)) (fld_mu th l)) (fld_const (-1))) as F.
  assert (F' : fld (fun lat lon => 2 * mu th l lat lon / w - 1) (fun lat lon => 2 / w * mu_a th l lat lon) (fun lat lon => 2 / w * mu_o th l lat lon)).
  { eapply fld_ext. apply F. all: intros; cbv beta; field; lra. }
  apply (fld_bend 2 step step1 _ _ _ step_bend F').
Qed.
Lemma fld_inside : forall th l a1 a2 R2 w c, 0 < w ->
  fld (inside th l a1 a2 R2 w c)
      (fun lat lon => step1 ((R2 - qd th l a1 a2 c lat lon) / w) * ((2 * mu th l lat lon * mu_a th l lat lon + 2 * c * v_a th l a1 a2 lat lon) / w))
      (fun lat lon => step1 ((R2 - qd th l a1 a2 c lat lon) / w) * ((2 * mu th l lat lon * mu_o th l lat lon + 2 * c * v_o th l a1 a2 lat lon) / w)).
Proof. intros. apply (fld_bend 2 step step1 _ _ _ step_bend (fld_arg th l a1 a2 R2 w c H)). Qed.
(** moving towards the direction [(a1, a2)] *)
Definition drift (th l a1 a2 : R) (fa fo : R -> R -> R) (lat lon : R) : R :=
  (- a1 * cos (l - lon) + a2 * sin th * sin (l - lon)) * cos lat * fa lat lon
  + (a2 * cos th * cos lat - sin lat * (- a1 * sin (l - lon) - a2 * sin th * cos (l - lon))) * fo lat lon.
Lemma drift_mu : forall th l a1 a2 lat lon, drift th l a1 a2 (mu_a th l) (mu_o th l) lat lon = cos lat * vdir th l a1 a2 lat lon.
Proof.
  intros. unfold drift, vdir, mu_a, mu_o. rewrite e1_eq, e2_eq. unfold mth. pose proof (sin2_cos2 (l - lon)) as E. pose proof (sin2_cos2 th) as E'. unfold Rsqr in *.
  set (s := sin (l - lon)) in *. set (k := cos (l - lon)) in *. set (st := sin th) in *. set (ct := cos th) in *. set (x := sin lat). set (y := cos lat).
  replace (y * (a1 * (x * ct - y * k * st) + a2 * (y * s))) with (y * (a1 * (x * ct * (s * s + k * k) - y * k * st) + a2 * (y * s * (st * st + ct * ct)))) by (rewrite E, E'; ring).
  ring.
Qed.
Lemma drift_e1 : forall th l a1 a2 lat lon, drift th l a1 a2 (mu_a (th + PI / 2) l) (mu_o (th + PI / 2) l) lat lon = - a1 * (cos lat * mu th l lat lon).
Proof.
  intros. unfold drift, mu_a, mu_o. rewrite sin_plus, cos_plus, cos_PI2, sin_PI2. unfold mu, law_cos. pose proof (sin2_cos2 (l - lon)) as E. unfold Rsqr in *.
  set (s := sin (l - lon)) in *. set (k := cos (l - lon)) in *. set (st := sin th). set (ct := cos th). set (x := sin lat). set (y := cos lat).
  replace (st * x + ct * y * k) with (st * x * (s * s + k * k) + ct * y * k) by (rewrite E; ring). ring.
Qed.
Lemma drift_e2 : forall th l a1 a2 lat lon, drift th l a1 a2 (mu_a 0 (l - PI / 2)) (mu_o 0 (l - PI / 2)) lat lon = - a2 * (cos lat * mu th l lat lon).
Proof.
  intros. unfold drift, mu_a, mu_o. rewrite sin_0, cos_0. replace (l - PI / 2 - lon) with (l - lon - PI / 2) by ring.
  rewrite (cos_minus (l - lon) (PI / 2)), (sin_minus (l - lon) (PI / 2)), cos_PI2, sin_PI2. unfold mu, law_cos. pose proof (sin2_cos2 (l - lon)) as E. unfold Rsqr in *.
  set (s := sin (l - lon)) in *. set (k := cos (l - lon)) in *. set (st := sin th). set (ct := cos th). set (x := sin lat). set (y := cos lat).
  replace (st * x + ct * y * k) with (st * x * (s * s + k * k) + ct * y * k) by (rewrite E; ring). ring.
Qed.
Lemma drift_v : forall th l a1 a2 lat lon, a1 ^ 2 + a2 ^ 2 = 1 -> drift th l a1 a2 (v_a th l a1 a2) (v_o th l a1 a2) lat lon = - (cos lat * mu th l lat lon).
Proof.
  intros th l a1 a2 lat lon H.
  transitivity (a1 * drift th l a1 a2 (mu_a (th + PI / 2) l) (mu_o (th + PI / 2) l) lat lon + a2 * drift th l a1 a2 (mu_a 0 (l - PI / 2)) (mu_o 0 (l - PI / 2)) lat lon).
  unfold drift, v_a, v_o. ring. rewrite drift_e1, drift_e2. transitivity (- ((a1 ^ 2 + a2 ^ 2) * (cos lat * mu th l lat lon))). ring. rewrite H. ring.
Qed.
(** the disc keeps away from the limb *)
Definition clear_of_limb (R2 w c : R) : Prop := exists rho, 0 <= rho /\ R2 + w <= rho ^ 2 /\ (c + rho) ^ 2 <= 1 - w ^ 2.
Lemma clear_mu : forall th l a1 a2 R2 w c lat lon, 0 < w -> 0 <= c -> a1 ^ 2 + a2 ^ 2 = 1 -> clear_of_limb R2 w c ->
  -1 < (R2 - qd th l a1 a2 c lat lon) / w -> w ^ 2 < mu th l lat lon ^ 2.
Proof.
  intros th l a1 a2 R2 w c lat lon W Hc Ha [rho [P [H1 H2]]] H.
  assert (Q : qd th l a1 a2 c lat lon < rho ^ 2).
  { assert (-1 * w < (R2 - qd th l a1 a2 c lat lon) / w * w) by (apply Rmult_lt_compat_r; auto). 
    replace ((R2 - qd th l a1 a2 c lat lon) / w * w) with (R2 - qd th l a1 a2 c lat lon) in H0 by (field; lra). lra. }
  pose proof (vdir_bound th l a1 a2 lat lon Ha) as V. unfold qd in Q.
  (* |p| < c + rho *)
  pose proof (frame_norm th l lat lon) as N. set (m := mu th l lat lon) in *.
  assert (VV : vdir th l a1 a2 lat lon ^ 2 <= 1 - m ^ 2).
  { unfold vdir. set (x := e1 th l lat lon) in *. set (y := e2 l lat lon) in *. pose proof (pow2_ge_0 (a1 * y - a2 * x)).
    assert (X : (a1 * x + a2 * y) ^ 2 + (a1 * y - a2 * x) ^ 2 = (a1 ^ 2 + a2 ^ 2) * (x ^ 2 + y ^ 2)) by ring. rewrite Ha in X. lra. }
  set (v := vdir th l a1 a2 lat lon) in *. assert (P2 : 0 <= 1 - m ^ 2) by (pose proof (pow2_ge_0 v); lra).
  set (p := sqrt (1 - m ^ 2)). assert (PP : p * p = 1 - m ^ 2) by (apply sqrt_sqrt; auto). pose proof (sqrt_pos (1 - m ^ 2)) as P0. fold p in P0.
  assert (v <= p) by nra. assert ((p - c) ^ 2 < rho ^ 2) by nra. assert (p - c < rho) by nra. assert (p * p < (c + rho) ^ 2) by nra. lra.
Qed.
Lemma drift_disc : forall th l a1 a2 R2 w c, 0 < w -> 0 <= c -> a1 ^ 2 + a2 ^ 2 = 1 -> clear_of_limb R2 w c -> smean (disc1 th l a1 a2 R2 w c) = 0.
Proof.
  intros th l a1 a2 R2 w c W Hc Ha CL.
  pose proof (fld_mult _ _ _ _ _ _ (fld_kap th l w W) (fld_inside th l a1 a2 R2 w c W)) as F.
  apply (rot_zero _ _ _ (- a1) (a2 * sin th) (a2 * cos th) l _ F).
  - intros. set (K := kap w (mu th l lat lon)). set (K1 := step1 (2 * mu th l lat lon / w - 1)). set (I := inside th l a1 a2 R2 w c lat lon). set (I1 := step1 ((R2 - qd th l a1 a2 c lat lon) / w)).
    transitivity (K1 * (2 / w) * I * drift th l a1 a2 (mu_a th l) (mu_o th l) lat lon + K * I1 / w * (2 * mu th l lat lon * drift th l a1 a2 (mu_a th l) (mu_o th l) lat lon + 2 * c * drift th l a1 a2 (v_a th l a1 a2) (v_o th l a1 a2) lat lon)).
    + rewrite drift_mu, drift_v by auto.
      assert (Z : K1 * I = 0).
      { unfold I, inside. destruct (Rle_dec ((R2 - qd th l a1 a2 c lat lon) / w) (-1)) as [X|X]. rewrite step_lo by auto. ring.
        unfold K1. rewrite step1_zero. ring. apply Rnot_le_lt in X. pose proof (clear_mu th l a1 a2 R2 w c lat lon W Hc Ha CL X) as Y.
        set (m := mu th l lat lon) in *. destruct (Rle_dec 0 m).
        - right. assert (w < m) by nra. assert (2 * w / w <= 2 * m / w) by (apply Rmult_le_compat_r; [apply Rlt_le, Rinv_0_lt_compat; auto|lra]). replace (2 * w / w) with 2 in H0 by (field; lra). lra.
        - left. assert (2 * m / w <= 0). { unfold Rdiv. assert (0 < / w) by (apply Rinv_0_lt_compat; auto). nra. } lra. }
      replace (K1 * (2 / w) * I * (cos lat * vdir th l a1 a2 lat lon)) with (K1 * I * (2 / w * (cos lat * vdir th l a1 a2 lat lon))) by ring. rewrite Z.
      unfold disc1. fold K I1. field. lra.
    + unfold drift. field. lra.
  - intros. destruct (vdir_sf th l a1 a2) as [B [L V]].
    assert (SV : exists B L, sphere_fun B L (fun lat lon => 2 * (vdir th l a1 a2 lat lon - c) / w)).
    { pose proof (lin_sf _ _ _ _ _ _ (2 / w) (- (2 * c / w)) V one_sf) as X. do 2 eexists. destruct X as [X1 X2 X3]. 
      assert (Eq : forall lat lon, 2 * (vdir th l a1 a2 lat lon - c) / w = 2 / w * vdir th l a1 a2 lat lon + - (2 * c / w) * 1) by (intros; field; lra).
      split; intros; rewrite !Eq; [apply X1|apply X2|apply X3]. }
    destruct SV as [B1 [L1 SV]].
    destruct (fld_sf _ _ _ (fld_arg th l a1 a2 R2 w c W)) as [B2 [L2 SA]].
    assert (S1 : sphere_fun 1 (2 * L2) (fun lat lon => step1 ((R2 - qd th l a1 a2 c lat lon) / w))).
    { apply (comp_sf B2 L2 2 1 step1 (fun lat lon => (R2 - qd th l a1 a2 c lat lon) / w) SA). apply step1_lip. intros. pose proof (step1_range x). apply Rabs_le; lra. }
    destruct (fld_sf _ _ _ (fld_kap th l w W)) as [B3 [L3 SK]].
    pose proof (mult_sf _ _ _ _ _ _ (mu_sf th l) (mult_sf _ _ _ _ _ _ SK (mult_sf _ _ _ _ _ _ S1 SV))) as X.
    eexists. apply (sf_lip_lon _ _ _ lat X).
Qed.
Lemma disc1_sf : forall th l a1 a2 R2 w c, 0 < w -> exists B L, sphere_fun B L (disc1 th l a1 a2 R2 w c).
Proof.
  intros th l a1 a2 R2 w c W. destruct (vdir_sf th l a1 a2) as [B [L V]].
  assert (SV : exists B L, sphere_fun B L (fun lat lon => 2 * (vdir th l a1 a2 lat lon - c) / w)).
  { pose proof (lin_sf _ _ _ _ _ _ (2 / w) (- (2 * c / w)) V one_sf) as X. do 2 eexists. destruct X as [X1 X2 X3]. 
    assert (Eq : forall lat lon, 2 * (vdir th l a1 a2 lat lon - c) / w = 2 / w * vdir th l a1 a2 lat lon + - (2 * c / w) * 1) by (intros; field; lra).
    split; intros; rewrite !Eq; [apply X1|apply X2|apply X3]. }
  destruct SV as [B1 [L1 SV]].
  destruct (fld_sf _ _ _ (fld_arg th l a1 a2 R2 w c W)) as [B2 [L2 SA]].
  assert (S1 : sphere_fun 1 (2 * L2) (fun lat lon => step1 ((R2 - qd th l a1 a2 c lat lon) / w))).
  { apply (comp_sf B2 L2 2 1 step1 (fun lat lon => (R2 - qd th l a1 a2 c lat lon) / w) SA). apply step1_lip. intros. pose proof (step1_range x). apply Rabs_le; lra. }
  destruct (fld_sf _ _ _ (fld_kap th l w W)) as [B3 [L3 SK]].
  pose proof (mult_sf _ _ _ _ _ _ (mu_sf th l) (mult_sf _ _ _ _ _ _ SK (mult_sf _ _ _ _ _ _ S1 SV))) as X.
  do 2 eexists. apply X.
Qed.
Lemma disc_sf : forall th l a1 a2 R2 w c, 0 < w -> exists B L, sphere_fun B L (disc th l a1 a2 R2 w c).
Proof.
  intros. apply (fld_sf _ _ _ (fld_mult _ _ _ _ _ _ (fld_mu th l) (fld_mult _ _ _ _ _ _ (fld_kap th l w H) (fld_inside th l a1 a2 R2 w c H)))).
Qed.
Lemma disc_quad : forall th l a1 a2 R2 w x y, 0 < w -> 0 <= x <= 1 -> 0 <= y <= 1 -> a1 ^ 2 + a2 ^ 2 = 1 -> clear_of_limb R2 w x ->
  Rabs (smean (disc th l a1 a2 R2 w y) - smean (disc th l a1 a2 R2 w x)) <= (32 / w ^ 2 + / w) * (y - x) ^ 2.
Proof.
  intros th l a1 a2 R2 w x y W Hx Hy Ha CL.
  apply (smean_quad _ _ (disc1 th l a1 a2 R2 w x) (y - x)); try (apply disc_sf; auto). apply disc1_sf; auto. apply drift_disc; auto; lra.
  intros. unfold disc, disc1, inside. set (m := mu th l lat lon). set (K := kap w m).
  set (s := fun c => (R2 - qd th l a1 a2 c lat lon) / w). fold (s x) (s y). set (v := vdir th l a1 a2 lat lon).
  assert (Es : s y - s x = (y - x) * ((2 * v - x - y) / w)). { unfold s, qd. fold v. field. lra. }
  replace (m * (K * step (s y)) - m * (K * step (s x)) - (y - x) * (m * (K * (step1 (s x) * (2 * (v - x) / w)))))
    with (m * K * ((step (s y) - step (s x) - (s y - s x) * step1 (s x)) + (- ((y - x) ^ 2 / w)) * step1 (s x))).
  2:{ rewrite Es. field. lra. }
  assert (M1 : Rabs (m * K) <= 1).
  { apply rabs_prod1. pose proof (law_cos_bound th l lat lon). apply Rabs_le. auto. unfold K, kap. pose proof (step_range (2 * m / w - 1)). apply Rabs_le; lra. }
  pose proof (vdir_bound th l a1 a2 lat lon Ha) as V. fold v in V. apply Rabs_le_between in V.
  rewrite Rabs_mult.
  assert (B1 : Rabs ((step (s y) - step (s x) - (s y - s x) * step1 (s x)) + (- ((y - x) ^ 2 / w)) * step1 (s x)) <= (32 / w ^ 2 + / w) * (y - x) ^ 2).
  { eapply Rle_trans. apply Rabs_triang. pose proof (bd_t _ _ _ step_bend (s x) (s y)) as T. rewrite Es in T at 2.
    assert (IW : 0 < / w) by (apply Rinv_0_lt_compat; auto). pose proof (pow2_ge_0 (y - x)) as P.
    assert (T' : ((y - x) * ((2 * v - x - y) / w)) ^ 2 <= 16 / w ^ 2 * (y - x) ^ 2).
    { replace (((y - x) * ((2 * v - x - y) / w)) ^ 2) with ((2 * v - x - y) ^ 2 * (/ w ^ 2 * (y - x) ^ 2)) by (field; lra).
      unfold Rdiv. rewrite Rmult_assoc. apply Rmult_le_compat_r. apply Rmult_le_pos; auto. apply Rlt_le, Rinv_0_lt_compat, pow_lt; auto. nra. }
    assert (T2 : Rabs (- ((y - x) ^ 2 / w) * step1 (s x)) <= / w * (y - x) ^ 2).
    { rewrite Rabs_mult, Rabs_Ropp. pose proof (step1_range (s x)). rewrite (Rabs_right (step1 (s x))) by lra.
      assert (0 <= (y - x) ^ 2 / w) by (apply Rmult_le_pos; auto; lra). rewrite Rabs_right by lra. unfold Rdiv in *. nra. }
    rewrite Es in T. replace (32 / w ^ 2) with (2 * (16 / w ^ 2)) by (field; lra). rewrite Es. lra. }
  pose proof (Rabs_pos (m * K)). pose proof (Rabs_pos ((step (s y) - step (s x) - (s y - s x) * step1 (s x)) + (- ((y - x) ^ 2 / w)) * step1 (s x))). nra.
Qed.
Lemma clear_less : forall R2 w c c', 0 <= c' <= c -> clear_of_limb R2 w c -> clear_of_limb R2 w c'.
Proof. intros R2 w c c' H [rho [P [A B]]]. exists rho. repeat split; auto. assert (c' + rho <= c + rho) by lra. nra. Qed.
Lemma disc_shift : forall th l a1 a2 R2 w c, 0 < w -> 0 <= c -> a1 ^ 2 + a2 ^ 2 = 1 -> clear_of_limb R2 w c ->
  smean (disc th l a1 a2 R2 w c) = smean (disc th l a1 a2 R2 w 0).
Proof.
  intros th l a1 a2 R2 w c W Hc Ha CL. assert (C1 : c <= 1). { destruct CL as [rho [P [A B]]]. pose proof (pow2_ge_0 w). nra. }
  destruct (Req_dec c 0) as [->|N]; auto.
  set (J := fun t => smean (disc th l a1 a2 R2 w (clamp 0 c t))).
  assert (Q : forall x y, Rabs (J y - J x - (y - x) * 0) <= (32 / w ^ 2 + / w) * (y - x) ^ 2).
  { intros. rewrite Rmult_0_r, Rminus_0_r. pose proof (clamp_range 0 c x Hc). pose proof (clamp_range 0 c y Hc). unfold J.
    eapply Rle_trans. apply disc_quad; auto; try lra. apply (clear_less R2 w c); auto.
    apply Rmult_le_compat_l. apply Rplus_le_le_0_compat. apply Rdiv_le_0_compat. lra. apply pow_lt; auto. apply Rlt_le, Rinv_0_lt_compat; auto.
    rewrite !sq_abs. pose proof (clamp_lip 0 c Hc x y) as L. pose proof (Rabs_pos (clamp 0 c y - clamp 0 c x)). apply Rmult_le_compat; auto; lra. }
  assert (D : forall x, is_derive J x 0).
  { intros. apply quad_derive with (32 / w ^ 2 + / w); auto. apply Rplus_le_le_0_compat. apply Rdiv_le_0_compat. lra. apply pow_lt; auto. apply Rlt_le, Rinv_0_lt_compat; auto. }
  assert (E : J 0 = J c). { apply (@eq_is_derive R_NormedModule J). intros; apply D. lra. }
  unfold J in E. rewrite !clamp_id in E by lra. auto.
Qed.
(** ** The disc at the centre *)
Lemma kap_hi : forall w m, 0 < w -> w <= m -> kap w m = 1.
Proof.
  intros. unfold kap. apply step_hi. assert (2 * w / w <= 2 * m / w) by (apply Rmult_le_compat_r; [apply Rlt_le, Rinv_0_lt_compat; auto|lra]).
  replace (2 * w / w) with 2 in H1 by (field; lra). lra.
Qed.
Lemma kap_lo : forall w m, 0 < w -> m <= 0 -> kap w m = 0.
Proof. intros. unfold kap. apply step_lo. assert (0 < / w) by (apply Rinv_0_lt_compat; auto). unfold Rdiv. nra. Qed.
Lemma kap_range : forall w m, 0 <= kap w m <= 1.
Proof. intros. apply step_range. Qed.
Lemma div_le_lo : forall x w, 0 < w -> x <= - w -> x / w <= -1.
Proof. intros. apply Rmult_le_reg_r with w; auto. unfold Rdiv. rewrite Rmult_assoc, Rinv_l by lra. lra. Qed.
Lemma div_ge_hi : forall x w, 0 < w -> w <= x -> 1 <= x / w.
Proof. intros. apply Rmult_le_reg_r with w; auto. unfold Rdiv. rewrite Rmult_assoc, Rinv_l by lra. lra. Qed.
Definition disc0 (R2 w m : R) : R := let x := clamp (-1) 1 m in x * (kap w x * step ((R2 - 1 + x * x) / w)).
Lemma disc0_lip : forall R2 w, 0 < w -> exists K, lip K (disc0 R2 w).
Proof.
  intros R2 w W. pose proof (clamp_lip (-1) 1 ltac:(lra)) as C. assert (CB : forall x, Rabs (clamp (-1) 1 x) <= 1) by (intros; pose proof (clamp_range (-1) 1 x ltac:(lra)); apply Rabs_le; lra).
  assert (SB : forall t, Rabs (step t) <= 1) by (intros; pose proof (step_range t); apply Rabs_le; lra).
  assert (LC : forall K K' f g, lip K f -> lip K' g -> lip (K * K') (fun x => f (g x))).
  { intros K K' f g F G x y. pose proof (lip_pos _ _ F). eapply Rle_trans. apply F. rewrite Rmult_assoc. apply Rmult_le_compat_l; auto. }
  assert (LA : forall K f b, lip K f -> lip (/ w * K) (fun x => (b + f x) / w)).
  { intros K f b F x y. replace ((b + f y) / w - (b + f x) / w) with (/ w * (f y - f x)) by (field; lra).
    assert (0 < / w) by (apply Rinv_0_lt_compat; auto). rewrite Rabs_mult, (Rabs_right (/ w)) by lra. rewrite Rmult_assoc. apply Rmult_le_compat_l. lra. apply F. }
  pose proof (lip_mult _ _ _ _ _ _ C C CB CB) as C2. pose proof (LC _ _ _ _ step_lip (LA _ _ (R2 - 1) C2)) as L1. cbv beta in L1.
  assert (L2 : lip (2 / w) (kap w)).
  { intros x y. unfold kap. eapply Rle_trans. apply step_lip. replace (2 * y / w - 1 - (2 * x / w - 1)) with (2 / w * (y - x)) by (field; lra).
    assert (0 < 2 / w) by (apply Rdiv_lt_0_compat; lra). rewrite Rabs_mult, (Rabs_right (2 / w)) by lra. lra. }
  pose proof (LC _ _ _ _ L2 C) as L3. cbv beta in L3.
  assert (L4 := lip_mult _ _ 1 1 _ _ L3 L1 (fun x => SB _) (fun x => SB _)). cbv beta in L4.
  eexists. apply (lip_mult _ _ 1 1 _ _ C L4 CB). intros. apply rabs_prod1; apply SB.
Qed.
Lemma disc0_range : forall R2 w m, 0 < w -> -1 <= m <= 1 -> 0 <= disc0 R2 w m.
Proof.
  intros R2 w m W H. unfold disc0. cbv zeta. rewrite clamp_id by auto. destruct (Rle_dec m 0). rewrite kap_lo by auto. lra.
  apply Rmult_le_pos. lra. apply Rmult_le_pos. apply kap_range. apply step_range.
Qed.
Lemma int_m : forall a, 0 <= a <= 1 -> RInt (fun m => m) a 1 = (1 - a * a) / 2.
Proof. intros. pose proof (int_id 1 a) as X. rewrite Rmult_1_l in X. rewrite <- X. apply RInt_ext. intros; req; ring. Qed.
Lemma disc_centre : forall th l a1 a2 R2 w, 0 < w -> 0 <= R2 + w -> clear_of_limb R2 w 0 ->
  (R2 - w) / 4 <= smean (disc th l a1 a2 R2 w 0) <= (R2 + w) / 4.
Proof.
  intros th l a1 a2 R2 w W H0 [rho [P [A B]]]. destruct (disc0_lip R2 w W) as [K LK].
  rewrite (smean_ext _ (fun lat lon => disc0 R2 w (mu th l lat lon))).
  2:{ intros. unfold disc0, disc, inside, qd. cbv zeta. rewrite clamp_id by apply law_cos_bound. do 4 f_equal. ring. }
  rewrite (smean_zonal K) by auto.
  assert (E : forall a b, ex_RInt (disc0 R2 w) a b) by (intros; eapply lip_ex_RInt; eauto).
  assert (N1 : R2 + w <= 1 - w ^ 2). { replace (0 + rho) with rho in B by ring. lra. }
  assert (Z : 0 <= RInt (disc0 R2 w) (-1) 1). { apply RInt_ge_0; auto. lra. intros; apply disc0_range; auto; lra. }
  split.
  - destruct (Rle_dec (R2 - w) 0). lra.
    set (a := sqrt (1 - (R2 - w))). pose proof (pow2_ge_0 w). assert (AA : a * a = 1 - (R2 - w)) by (apply sqrt_sqrt; lra). assert (A0 : 0 <= a) by apply sqrt_pos.
    assert (A1 : a <= 1) by nra.
    pose proof (@RInt_Chasles R_CompleteNormedModule (disc0 R2 w) (-1) a 1 (E _ _) (E _ _)) as C.
    change (RInt (disc0 R2 w) (-1) a + RInt (disc0 R2 w) a 1 = RInt (disc0 R2 w) (-1) 1) in C. rewrite <- C.
    assert (0 <= RInt (disc0 R2 w) (-1) a) by (apply RInt_ge_0; auto; [lra|intros; apply disc0_range; auto; lra]).
    rewrite (RInt_ext (disc0 R2 w) (fun m => m) a 1). rewrite int_m by lra. lra.
    intros x Hx. rewrite Rmin_left, Rmax_right in Hx by lra. unfold disc0. cbv zeta. rewrite clamp_id by lra.
    assert (a * a < x * x) by nra. rewrite kap_hi by (auto; nra). rewrite step_hi. req; ring. apply div_ge_hi; auto. lra.
  - set (b := sqrt (1 - (R2 + w))). pose proof (pow2_ge_0 w). assert (BB : b * b = 1 - (R2 + w)) by (apply sqrt_sqrt; lra). assert (B0 : 0 <= b) by apply sqrt_pos.
    assert (B1 : b <= 1) by nra.
    pose proof (@RInt_Chasles R_CompleteNormedModule (disc0 R2 w) (-1) b 1 (E _ _) (E _ _)) as C.
    change (RInt (disc0 R2 w) (-1) b + RInt (disc0 R2 w) b 1 = RInt (disc0 R2 w) (-1) 1) in C. rewrite <- C.
    rewrite (RInt_ext (disc0 R2 w) (fun _ => 0) (-1) b).
    + rewrite (@RInt_const R_CompleteNormedModule). assert (U : RInt (disc0 R2 w) b 1 <= (1 - b * b) / 2).
      { rewrite <- int_m by lra. apply RInt_le; auto. apply (@ex_RInt_continuous R_CompleteNormedModule). intros; apply continuous_id.
        intros x Hx. unfold disc0. cbv zeta. rewrite clamp_id by lra. pose proof (kap_range w x). pose proof (step_range ((R2 - 1 + x * x) / w)).
        assert (kap w x * step ((R2 - 1 + x * x) / w) <= 1 * 1) by (apply Rmult_le_compat; lra). nra. }
      change (/ 2 * ((b - -1) * 0 + RInt (disc0 R2 w) b 1) <= (R2 + w) / 4). lra.
    + intros x Hx. rewrite Rmin_left, Rmax_right in Hx by lra. unfold disc0. cbv zeta. rewrite clamp_id by lra.
      destruct (Rle_dec x 0). rewrite kap_lo by auto. req; ring. rewrite step_lo. req; ring. apply div_le_lo; auto. nra.
Qed.
(** grid sums *)
Lemma disc_grid : forall g d th l a1 a2 R2 c w, good_grid g -> resolution g d -> w = sqrt d -> 0 <= c <= 1 -> a1 ^ 2 + a2 ^ 2 = 1 ->
  0 <= R2 + w -> clear_of_limb R2 w c -> (R2 - w) / 4 - 200 * w <= gsum g (disc th l a1 a2 R2 w c) <= (R2 + w) / 4 + 200 * w.
Proof.
  intros g d th l a1 a2 R2 c w G Q Ew Hc Ha HR CL. assert (D : 0 < d <= 1) by apply Q.
  assert (W : 0 < w) by (subst w; apply sqrt_lt_R0; lra). assert (WW : w * w = d) by (subst w; apply sqrt_sqrt; lra). assert (W1 : w <= 1) by (subst w; rewrite <- sqrt_1; apply sqrt_le_1_alt; lra).
  assert (A1 : Rabs a1 <= 1) by (apply sq_le_1_abs; pose proof (pow2_ge_0 a2); lra). assert (A2 : Rabs a2 <= 1) by (apply sq_le_1_abs; pose proof (pow2_ge_0 a1); lra).
  assert (IW : 0 < / w) by (apply Rinv_0_lt_compat; auto).
  assert (SV : sphere_fun 2 2 (vdir th l a1 a2)).
  { pose proof (lin_sf _ _ _ _ _ _ a1 a2 (mu_sf (th + PI / 2) l) (mu_sf 0 (l - PI / 2))) as X. destruct X as [X1 X2 X3]. split; intros.
    - eapply Rle_trans. apply X1. lra.
    - eapply Rle_trans. apply X2. pose proof (Rabs_pos (lat - lat')). pose proof (Rabs_pos (lon - lon')). apply Rmult_le_compat_r; lra.
    - apply X3. }
  pose proof (mult_sf _ _ _ _ _ _ (mu_sf th l) (mu_sf th l)) as SM.
  assert (SA : sphere_fun ((5 + Rabs (R2 - 1 - c ^ 2)) / w) (6 / w) (fun lat lon => (R2 - qd th l a1 a2 c lat lon) / w)).
  { assert (Eq : forall lat lon, (R2 - qd th l a1 a2 c lat lon) / w = / w * (mu th l lat lon * mu th l lat lon + 2 * c * vdir th l a1 a2 lat lon + (R2 - 1 - c ^ 2))) by (intros; unfold qd; field; lra).
    split; intros; rewrite !Eq.
    - rewrite Rabs_mult, (Rabs_right (/ w)) by lra. unfold Rdiv. rewrite Rmult_comm. apply Rmult_le_compat_r. lra.
      eapply Rle_trans. apply Rabs_triang. apply Rplus_le_compat_r. eapply Rle_trans. apply Rabs_triang.
      pose proof (sf_bound _ _ _ SM lat lon) as X1. pose proof (sf_bound _ _ _ SV lat lon) as X2. cbv beta in X1. rewrite (Rabs_mult (2 * c)), (Rabs_right (2 * c)) by lra.
      pose proof (Rabs_pos (vdir th l a1 a2 lat lon)). nra.
    - rewrite <- Rmult_minus_distr_l, Rabs_mult, (Rabs_right (/ w)) by lra. replace (6 / w * (Rabs (lat - lat') + Rabs (lon - lon'))) with (/ w * (6 * (Rabs (lat - lat') + Rabs (lon - lon')))) by (field; lra). apply Rmult_le_compat_l. lra.
      replace (_ - _) with ((mu th l lat lon * mu th l lat lon - mu th l lat' lon' * mu th l lat' lon') + 2 * c * (vdir th l a1 a2 lat lon - vdir th l a1 a2 lat' lon')) by ring.
      eapply Rle_trans. apply Rabs_triang. rewrite (Rabs_mult (2 * c)), (Rabs_right (2 * c)) by lra.
      pose proof (sf_lip _ _ _ SM lat lon lat' lon') as X1. pose proof (sf_lip _ _ _ SV lat lon lat' lon') as X2. cbv beta in X1.
      pose proof (Rabs_pos (vdir th l a1 a2 lat lon - vdir th l a1 a2 lat' lon')). nra.
    - pose proof (sf_per _ _ _ SM lat lon) as X1. cbv beta in X1. rewrite X1. rewrite (sf_per _ _ _ SV). auto. }
  assert (SB : forall t, Rabs (step t) <= 1) by (intros; pose proof (step_range t); apply Rabs_le; lra).
  pose proof (comp_sf _ _ _ _ _ _ SA step_lip SB) as SI.
  assert (SK : sphere_fun 1 (2 / w) (fun lat lon => kap w (mu th l lat lon))).
  { apply (zonal_sf (2 / w) 1 (kap w)). 2: intros; apply SB.
    intros x y. unfold kap. eapply Rle_trans. apply step_lip. replace (2 * y / w - 1 - (2 * x / w - 1)) with (2 / w * (y - x)) by (field; lra).
    assert (0 < 2 / w) by (apply Rdiv_lt_0_compat; lra). rewrite Rabs_mult, (Rabs_right (2 / w)) by lra. lra. }
  pose proof (mult_sf _ _ _ _ _ _ (mu_sf th l) (mult_sf _ _ _ _ _ _ SK SI)) as SD.
  pose proof (gsum_close _ _ _ _ _ SD G Q) as X.
  match type of X with Rabs (_ - smean ?f) <= _ => change f with (disc th l a1 a2 R2 w c) in X end.
  rewrite disc_shift in X by (auto; lra).
  pose proof (disc_centre th l a1 a2 R2 w W HR (clear_less R2 w c 0 ltac:(lra) CL)) as Y.
  assert (Z : 20 * (1 * (1 * 1) + (1 * (1 * (1 * (6 / w)) + 1 * (2 / w)) + 1 * 1 * 1)) * d <= 200 * w).
  { rewrite <- WW. replace (20 * (1 * (1 * 1) + (1 * (1 * (1 * (6 / w)) + 1 * (2 / w)) + 1 * 1 * 1)) * (w * w)) with (40 * (w * w) + 160 * w) by (field; lra). nra. }
  apply Rabs_le_between in X. lra.
Qed.
