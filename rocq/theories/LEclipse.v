(** Lemmas for C119-C120: the eclipse of the planet through its orbit *)
From Coq Require Import Reals ZArith Bool List Lra Lia.
From Coquelicot Require Import Coquelicot.
From Verif Require Import Num Py MConfig MHelpers MGrid MSpots MFaculae MXoflares MFlares MGranules MStar
  Spec SpecStar SpecDisk LBase LGrid LHelpers LCirc LSpotMap LSpotCov LSpotGen LFac LStar.
Import ListNotations.
Open Scope R_scope.

(** the distance of the planet from the centre of the disk, in stellar radii *)
Definition pdist (a incl phase : R) : R := a * sqrt ((sin phase)^2 + (cos phase)^2 * (cos incl)^2).
Definition pvis (a rp incl phase : R) : R :=
  if Rlt_dec 0 (cos phase) then 1 - frac rp (pdist a incl phase) else 1.

Lemma pdist_arg : forall incl phase,
  (sin phase)^2 + (cos phase)^2 * (cos incl)^2 = (cos incl)^2 + (sin phase)^2 * (sin incl)^2.
Proof.
  intros. pose proof (sin2_cos2 phase) as A. pose proof (sin2_cos2 incl) as B. unfold Rsqr in *.
  replace ((cos phase)^2) with (1 - (sin phase)^2) by nra. replace ((sin incl)^2) with (1 - (cos incl)^2) by nra. ring.
Qed.
Lemma pdist_arg_pos : forall incl phase, 0 <= (sin phase)^2 + (cos phase)^2 * (cos incl)^2.
Proof. intros. pose proof (pow2_ge_0 (sin phase)). pose proof (pow2_ge_0 (cos phase * cos incl)). nra. Qed.
Lemma pdist_pos : forall a incl phase, 0 <= a -> 0 <= pdist a incl phase.
Proof. intros. apply Rmult_le_pos; auto. apply sqrt_pos. Qed.
Lemma pdist_sq : forall a incl phase, (pdist a incl phase)^2 = a^2 * ((cos incl)^2 + (sin phase)^2 * (sin incl)^2).
Proof.
  intros. unfold pdist. rewrite Rpow_mult_distr. f_equal. rewrite <- pdist_arg. rewrite pow2_sqrt; auto. apply pdist_arg_pos.
Qed.
Lemma sq_lt_iff : forall x y, 0 <= x -> 0 <= y -> (x < y <-> x^2 < y^2).
Proof. intros. split; intros; nra. Qed.
Lemma sq_le_iff : forall x y, 0 <= x -> 0 <= y -> (x <= y <-> x^2 <= y^2).
Proof. intros. split; intros; nra. Qed.
Lemma pdist_mono : forall a incl p q, 0 <= a -> 0 <= p -> p <= q -> q <= PI/2 -> pdist a incl p <= pdist a incl q.
Proof.
  intros a incl p q A P Q B. apply sq_le_iff; try apply pdist_pos; auto. rewrite !pdist_sq.
  assert (0 <= sin p). { apply sin_ge_0; pose proof PI_RGT_0; lra. }
  assert (sin p <= sin q). { destruct (Req_dec p q) as [->|N]. lra. left. apply sin_increasing_1; pose proof PI_RGT_0; lra. }
  pose proof (pow2_ge_0 a). pose proof (pow2_ge_0 (sin incl)). assert ((sin p)^2 <= (sin q)^2) by nra.
  apply Rmult_le_compat_l; auto. apply Rplus_le_compat_l. apply Rmult_le_compat_r; auto.
Qed.
Lemma pdist_strict : forall a incl p q, 0 < a -> sin incl <> 0 -> 0 <= p -> p < q -> q <= PI/2 -> pdist a incl p < pdist a incl q.
Proof.
  intros a incl p q A N P Q B. apply sq_lt_iff; try (apply pdist_pos; lra). rewrite !pdist_sq.
  assert (0 <= sin p). { apply sin_ge_0; pose proof PI_RGT_0; lra. }
  assert (sin p < sin q). { apply sin_increasing_1; pose proof PI_RGT_0; lra. }
  assert (0 < a^2) by nra. assert (0 < (sin incl)^2) by (apply pow2_gt_0; auto). assert ((sin p)^2 < (sin q)^2) by nra.
  apply Rmult_lt_compat_l; auto. apply Rplus_lt_compat_l. apply Rmult_lt_compat_r; auto.
Qed.
Lemma frac_range : forall r d, 0 < r <= 1 -> 0 <= frac r d <= 1.
Proof.
  intros. destruct (Rle_dec d (1 - r)). rewrite frac_low; auto; lra.
  destruct (Rle_dec (1 + r) d). rewrite frac_high; auto; lra.
  pose proof (frac_mid r d H). lra.
Qed.
Lemma frac_strict : forall r d d', 0 < r <= 1 -> 1 - r <= d -> d < d' -> d' <= 1 + r -> frac r d' < frac r d.
Proof.
  intros. unfold frac. rewrite !lclamp_mid by lra. pose proof (pir2_pos r ltac:(lra)).
  apply Rmult_lt_compat_r. apply Rinv_0_lt_compat; auto. apply lens_strict; lra.
Qed.
Lemma cos_pos_iff : forall p, 0 <= p <= PI -> (0 < cos p <-> p < PI/2).
Proof.
  intros p P. split; intros H.
  - destruct (Rlt_dec p (PI/2)); auto. assert (cos p <= 0). { apply cos_le_0; lra. } lra.
  - apply cos_gt_0; lra.
Qed.
Lemma continuous_pdist : forall a incl p, continuous (pdist a incl) p.
Proof.
  intros. unfold pdist. apply (continuous_mult (fun _ => a) (fun p => sqrt ((sin p)^2 + (cos p)^2 * (cos incl)^2))).
  apply continuous_const.
  apply (continuous_comp (fun p => (sin p)^2 + (cos p)^2 * (cos incl)^2) sqrt). 2: apply continuous_sqrt'.
  apply (ex_derive_continuous (fun p => (sin p)^2 + (cos p)^2 * (cos incl)^2)). auto_derive. auto.
Qed.
(** away from [cos phase = 0] the formula is locally constant in its case; at [cos phase = 0] the planet is at its
    greatest distance *)
Lemma pdist_quarter : forall a incl p, 0 <= a -> cos p = 0 -> pdist a incl p = a.
Proof.
  intros a incl p A C. pose proof (sin2_cos2 p) as E. unfold Rsqr in E. rewrite C in E. unfold pdist. rewrite C.
  replace ((sin p)^2 + 0^2 * (cos incl)^2) with 1 by nra. rewrite sqrt_1. ring.
Qed.
Lemma pvis_continuous : forall a rp incl p, 0 < rp <= 1 -> 1 + rp <= a -> continuous (pvis a rp incl) p.
Proof.
  intros a rp incl p RP A.
  assert (CF : continuous (fun p => 1 - frac rp (pdist a incl p)) p).
  { apply (continuous_minus (fun _ => 1) (fun p => frac rp (pdist a incl p))). apply continuous_const.
    apply (continuous_comp (pdist a incl) (frac rp)). apply continuous_pdist. apply frac_continuous; auto. }
  assert (CC : continuous cos p). { apply (ex_derive_continuous cos). auto_derive. auto. }
  destruct (Rtotal_order (cos p) 0) as [L|[E|G]].
  - apply (continuous_ext_loc _ (fun _ => 1)). 2: apply continuous_const.
    assert (LL : locally p (fun q => cos q < 0)). { apply (CC (fun y => y < 0)). exists (mkposreal (- cos p) ltac:(lra)). intros y B.
      unfold ball in B; simpl in B; unfold AbsRing_ball, abs, minus, plus, opp in B; simpl in B. apply Rabs_def2 in B. lra. }
    revert LL. apply filter_imp. intros q Q. unfold pvis. destruct (Rlt_dec 0 (cos q)); auto; lra.
  - intros P [eps HP]. assert (V1 : pvis a rp incl p = 1). { unfold pvis. destruct (Rlt_dec 0 (cos p)); auto; lra. }
    assert (F1 : 1 - frac rp (pdist a incl p) = 1). { rewrite pdist_quarter, frac_high; auto; lra. }
    assert (LL : locally p (fun q => ball 1 eps (1 - frac rp (pdist a incl q)))).
    { apply (CF (fun y => ball 1 eps y)). rewrite F1. exists eps. auto. }
    unfold filtermap. revert LL. apply filter_imp. intros q B. apply HP. rewrite V1. unfold pvis. destruct (Rlt_dec 0 (cos q)); auto. apply ball_center.
  - apply (continuous_ext_loc _ (fun p => 1 - frac rp (pdist a incl p))); auto.
    assert (LL : locally p (fun q => 0 < cos q)). { apply (CC (fun y => 0 < y)). exists (mkposreal (cos p) ltac:(lra)). intros y B.
      unfold ball in B; simpl in B; unfold AbsRing_ball, abs, minus, plus, opp in B; simpl in B. apply Rabs_def2 in B. lra. }
    revert LL. apply filter_imp. intros q Q. unfold pvis. destruct (Rlt_dec 0 (cos q)); auto; lra.
Qed.

Lemma transit_mask_pvis : forall s lat0 lon0 orbit planet phase incl, 0 < st_radius s -> 0 <= orbit -> 0 < planet <= st_radius s ->
  let V := pvis (orbit / st_radius s) (planet / st_radius s) incl phase in
  (0 < cos phase -> get_transit_mask s lat0 lon0 orbit planet phase incl = Ok (grid_zeros (st_grid s), Fin V))
  /\ (forall m v, get_transit_mask s lat0 lon0 orbit planet phase incl = Ok (m, v) -> v = Fin V).
Proof.
  intros s lat0 lon0 orbit planet phase incl HR HO HP V.
  assert (RP : 0 < planet / st_radius s <= 1).
  { split. apply Rdiv_lt_0_compat; lra. apply Rmult_le_reg_r with (st_radius s); auto. unfold Rdiv. rewrite Rmult_assoc, Rinv_l by lra. lra. }
  assert (K : 0 < cos phase -> get_transit_mask s lat0 lon0 orbit planet phase incl = Ok (grid_zeros (st_grid s), Fin V)).
  { intros C. unfold get_transit_mask. rewrite planet_xy_eq by auto.
    pose proof (sky_dist_eq s orbit phase incl HR HO) as SD. change (sky_dist s orbit phase incl) with (pdist (orbit / st_radius s) incl phase) in SD.
    assert (PF : get_pl_frac s (phase - PI) orbit planet incl = Ok (Fin V)).
    { unfold get_pl_frac. rewrite planet_xy_eq by auto. rewrite ndiv_fin by lra. rewrite circ_fraction_eq by auto. rewrite SD.
      cbn [bind]. rewrite nsub_fin. unfold V, pvis. destruct (Rlt_dec 0 (cos phase)); [auto|lra]. }
    rewrite !ndiv_fin by lra. rewrite !nsq_fin, nmul_fin, !nadd_fin.
    set (x := orbit / st_radius s * (- sin phase)) in *. set (y := orbit / st_radius s * (- cos phase) * cos incl) in *.
    replace (x * x + y * y) with (x^2 + y^2) by ring. rewrite nsqrt_fin by nra. rewrite SD.
    unfold ngt. cbn [nlt].
    rewrite (proj2 (Rltb_true 0 _)) by auto. rewrite PF. cbn [bind].
    destruct (Rltb (1 + 2 * (planet / st_radius s)) (pdist (orbit / st_radius s) incl phase)) eqn:B; auto.
    apply Rltb_true in B. unfold V, pvis. destruct (Rlt_dec 0 (cos phase)); [|lra]. rewrite frac_high by lra. do 3 f_equal. lra. }
  split; auto. intros m v E. destruct (Rlt_dec 0 (cos phase)) as [C|C].
  - rewrite K in E by auto. congruence.
  - destruct (C57_lemma s lat0 lon0 orbit planet phase incl HR HO ltac:(lra)) as [_ [_ [_ D]]].
    rewrite (D ltac:(lra) m v E). unfold V, pvis. destruct (Rlt_dec 0 (cos phase)); [lra|auto].
Qed.
Lemma calc_coverage_transit : forall s lat0 lon0 g o p ph inc tot cov f,
  calc_coverage s lat0 lon0 g o p ph inc = Ok (tot, cov, f) -> exists m, get_transit_mask s lat0 lon0 o p ph inc = Ok (m, f).
Proof.
  intros s lat0 lon0 g o p ph inc tot cov f H. unfold calc_coverage in H. cbv zeta in H.
  apply bind_ok in H. destruct H as [j [_ H]]. apply bind_ok in H. destruct H as [pr [_ H]].
  apply bind_ok in H. destruct H as [sm [_ H]]. apply bind_ok in H. destruct H as [[m v] [E H]].
  apply bind_ok in H. destruct H as [lp [_ H]]. apply bind_ok in H. destruct H as [[t1 c1] [_ H]].
  apply bind_ok in H. destruct H as [t2 [_ H]]. apply bind_ok in H. destruct H as [c2 [_ H]].
  exists m. congruence.
Qed.

Lemma C119_lemma :
  forall radius orbit planet incl, 0 < radius -> 0 <= orbit -> 0 < planet <= radius ->
  let rp := planet / radius in
  let d phase := orbit / radius * sqrt ((sin phase)^2 + (cos phase)^2 * (cos incl)^2) in
  exists V : R -> R,
  (forall s lat0 lon0 phase m v, st_radius s = radius ->
     get_transit_mask s lat0 lon0 orbit planet phase incl = Ok (m, v) -> v = Fin (V phase))
  /\ (forall s lat0 lon0 g phase tot cov v, st_radius s = radius ->
     calc_coverage s lat0 lon0 g orbit planet phase incl = Ok (tot, cov, v) -> v = Fin (V phase))
  /\ (forall s lat0 lon0 phase, st_radius s = radius -> 0 < cos phase ->
     exists m, get_transit_mask s lat0 lon0 orbit planet phase incl = Ok (m, Fin (V phase)))
  /\ (forall phase, 0 <= V phase <= 1)
  /\ (forall phase, V phase = 0 <-> 0 < cos phase /\ d phase <= 1 - rp)
  /\ (forall phase, V phase = 1 <-> cos phase <= 0 \/ 1 + rp <= d phase)
  /\ (forall phase, V (- phase) = V phase /\ V (phase + 2 * PI) = V phase)
  /\ (forall p q, 0 <= p -> p <= q -> q <= PI -> V p <= V q)
  /\ (0 < orbit -> sin incl <> 0 -> forall p q, 0 <= p -> p < q -> q <= PI -> 0 < V q -> V p < 1 -> V p < V q)
  /\ (radius + planet <= orbit -> forall phase, continuous V phase).
Proof.
  intros radius orbit planet incl HR HO HP rp d.
  assert (RP : 0 < rp <= 1).
  { unfold rp. split. apply Rdiv_lt_0_compat; lra. apply Rmult_le_reg_r with radius; auto. unfold Rdiv. rewrite Rmult_assoc, Rinv_l by lra. lra. }
  set (a := orbit / radius). assert (A : 0 <= a). { unfold a. apply Rmult_le_pos; auto. apply Rlt_le, Rinv_0_lt_compat; auto. }
  assert (V0 : forall p, pvis a rp incl p = 0 <-> 0 < cos p /\ d p <= 1 - rp).
  { intros p. unfold pvis. change (d p) with (pdist a incl p). destruct (Rlt_dec 0 (cos p)). 2: split; [lra|intros [? _]; lra].
    split. intros E. split; auto. destruct (Rle_dec (pdist a incl p) (1 - rp)); auto.
    destruct (Rle_dec (1 + rp) (pdist a incl p)). rewrite frac_high in E by auto. lra.
    pose proof (frac_mid rp (pdist a incl p) RP). lra.
    intros [_ L]. rewrite frac_low by auto. lra. }
  assert (V1 : forall p, pvis a rp incl p = 1 <-> cos p <= 0 \/ 1 + rp <= d p).
  { intros p. unfold pvis. change (d p) with (pdist a incl p). destruct (Rlt_dec 0 (cos p)). 2: split; [left; lra|auto].
    split. intros E. right. destruct (Rle_dec (1 + rp) (pdist a incl p)); auto.
    destruct (Rle_dec (pdist a incl p) (1 - rp)). rewrite frac_low in E by auto. lra.
    pose proof (frac_mid rp (pdist a incl p) RP). lra.
    intros [L|L]. lra. rewrite frac_high by auto. lra. }
  exists (pvis a rp incl).
  split. { intros s lat0 lon0 phase m v E H. subst radius. eapply transit_mask_pvis; eauto. }
  split. { intros s lat0 lon0 g phase tot cov v E H. apply calc_coverage_transit in H. destruct H as [m H]. subst radius.
    eapply transit_mask_pvis; eauto. }
  split. { intros s lat0 lon0 phase E C. subst radius. eexists. apply transit_mask_pvis; auto. }
  split. { intros p. unfold pvis. pose proof (frac_range rp (pdist a incl p) RP). destruct (Rlt_dec 0 (cos p)); lra. }
  split; auto. split; auto.
  split. { intros p. unfold pvis, pdist. rewrite cos_neg, sin_neg, cos_plus, sin_plus, cos_2PI, sin_2PI.
    replace ((- sin p)^2) with ((sin p)^2) by ring. replace (cos p * 1 - sin p * 0) with (cos p) by ring.
    replace (sin p * 1 + cos p * 0) with (sin p) by ring. auto. }
  split. { intros p q P Q B. unfold pvis. pose proof PI_RGT_0. destruct (Rlt_dec 0 (cos q)) as [Cq|Cq].
    - assert (q < PI/2) by (apply cos_pos_iff; auto; lra). destruct (Rlt_dec 0 (cos p)) as [Cp|Cp].
      2:{ exfalso; apply Cp. apply cos_pos_iff; lra. }
      pose proof (frac_mono rp (pdist a incl p) (pdist a incl q) RP (pdist_mono a incl p q A P Q ltac:(lra))). lra.
    - pose proof (frac_range rp (pdist a incl p) RP). destruct (Rlt_dec 0 (cos p)); lra. }
  split. { intros PO NI p q P Q B Hq Hp. pose proof PI_RGT_0.
    assert (A0 : 0 < a) by (unfold a; apply Rdiv_lt_0_compat; auto).
    destruct (Req_dec (pvis a rp incl q) 1) as [E|N]. lra.
    assert (N1 : 0 < cos q /\ d q < 1 + rp). { split; apply Rnot_le_lt; intros X; apply N, V1; auto. }
    destruct N1 as [Cq Dq]. assert (Q2 : q < PI/2) by (apply cos_pos_iff; auto; lra).
    assert (Cp : 0 < cos p) by (apply cos_pos_iff; lra).
    pose proof (pdist_strict a incl p q A0 NI P Q ltac:(lra)) as LT. change (d q) with (pdist a incl q) in Dq.
    assert (Dq2 : 1 - rp < pdist a incl q). { apply Rnot_le_lt. intros X. assert (pvis a rp incl q = 0) by (apply V0; auto). lra. }
    unfold pvis. destruct (Rlt_dec 0 (cos p)); [|lra]. destruct (Rlt_dec 0 (cos q)); [|lra].
    destruct (Rle_dec (1 - rp) (pdist a incl p)).
    - pose proof (frac_strict rp (pdist a incl p) (pdist a incl q) RP r1 LT ltac:(lra)). lra.
    - rewrite (frac_low rp (pdist a incl p)) by (auto; lra). pose proof (frac_mid rp (pdist a incl q) RP). lra. }
  intros L phase. apply pvis_continuous; auto. unfold rp, a. apply Rmult_le_reg_r with radius; auto.
  field_simplify; lra.
Qed.

(** ** the contacts *)
Lemma sin_lt_asin : forall p x, 0 <= p < PI/2 -> 0 <= x <= 1 -> (sin p < x <-> p < asin x).
Proof.
  intros p x P X. pose proof (asin_bound x). pose proof (sin_asin x ltac:(lra)) as E. split; intros H0.
  - rewrite <- E in H0. apply sin_increasing_0; lra.
  - rewrite <- E. apply sin_increasing_1; lra.
Qed.
Lemma sin_le_asin : forall p x, 0 <= p < PI/2 -> 0 <= x <= 1 -> (sin p <= x <-> p <= asin x).
Proof.
  intros p x P X. pose proof (asin_bound x). pose proof (sin_asin x ltac:(lra)) as E. split; intros H0.
  - apply Rnot_lt_le. intros L. assert (sin (asin x) < sin p) by (apply sin_increasing_1; lra). lra.
  - rewrite <- E. destruct (Req_dec p (asin x)) as [->|]. lra. left. apply sin_increasing_1; lra.
Qed.
Lemma asin_lt_half : forall x, -1 <= x < 1 -> asin x < PI/2.
Proof.
  intros x X. pose proof (asin_bound x). destruct (Req_dec (asin x) (PI/2)) as [E|]; [|lra].
  pose proof (sin_asin x ltac:(lra)) as F. rewrite E, sin_PI2 in F. lra.
Qed.
(** the phase at which the planet is [b] from the centre of the disk (same unit as the orbit) *)
Lemma contact_ratio : forall orbit incl b, 0 < orbit -> sin incl <> 0 -> orbit * Rabs (cos incl) <= b -> b <= orbit ->
  let x := sqrt (b^2 - (orbit * cos incl)^2) / (orbit * Rabs (sin incl)) in
  0 <= x <= 1 /\ forall p, 0 <= sin p ->
    (orbit^2 * ((cos incl)^2 + (sin p)^2 * (sin incl)^2) < b^2 <-> sin p < x)
    /\ (orbit^2 * ((cos incl)^2 + (sin p)^2 * (sin incl)^2) <= b^2 <-> sin p <= x).
Proof.
  intros orbit incl b O NI B1 B2 x.
  pose proof (Rabs_pos (cos incl)) as AC. pose proof (Rabs_pos_lt _ NI) as AS.
  assert (B0 : 0 <= b) by nra.
  assert (E1 : (orbit * cos incl)^2 = (orbit * Rabs (cos incl))^2). { rewrite !Rpow_mult_distr, pow2_abs. auto. }
  assert (Q : 0 <= b^2 - (orbit * cos incl)^2). { rewrite E1. assert (0 <= orbit * Rabs (cos incl)) by nra. nra. }
  set (k := orbit * Rabs (sin incl)). assert (K : 0 < k) by (unfold k; nra).
  assert (K2 : k^2 = orbit^2 * (sin incl)^2) by (unfold k; rewrite Rpow_mult_distr, pow2_abs; auto).
  assert (X0 : 0 <= x). { unfold x. apply Rmult_le_pos. apply sqrt_pos. left; apply Rinv_0_lt_compat; auto. }
  assert (X2 : x^2 * k^2 = b^2 - (orbit * cos incl)^2).
  { unfold x. fold k. rewrite <- Rpow_mult_distr. unfold Rdiv. rewrite Rmult_assoc, Rinv_l, Rmult_1_r by lra. apply pow2_sqrt; auto. }
  pose proof (sin2_cos2 incl) as SC. unfold Rsqr in SC.
  assert (KO : k^2 + (orbit * cos incl)^2 = orbit^2). { rewrite K2. transitivity (orbit^2 * (sin incl * sin incl + cos incl * cos incl)). ring. rewrite SC. ring. }
  assert (K20 : 0 < k^2) by nra.
  split. { split; auto. apply sq_le_iff; try lra. apply Rmult_le_reg_r with (k^2); auto. rewrite X2. nra. }
  intros p SP.
  assert (E : orbit^2 * ((cos incl)^2 + (sin p)^2 * (sin incl)^2) = b^2 + ((sin p)^2 - x^2) * k^2).
  { transitivity ((orbit * cos incl)^2 + (sin p)^2 * k^2). rewrite K2; ring.
    replace (((sin p)^2 - x^2) * k^2) with ((sin p)^2 * k^2 - x^2 * k^2) by ring. rewrite X2. ring. }
  rewrite E, (sq_lt_iff (sin p) x), (sq_le_iff (sin p) x) by auto.
  split; split; intros; nra.
Qed.
Lemma pdist_scale : forall radius orbit incl p b, 0 < radius -> 0 <= orbit -> 0 <= b ->
  (pdist (orbit / radius) incl p < b / radius <-> orbit^2 * ((cos incl)^2 + (sin p)^2 * (sin incl)^2) < b^2)
  /\ (pdist (orbit / radius) incl p <= b / radius <-> orbit^2 * ((cos incl)^2 + (sin p)^2 * (sin incl)^2) <= b^2).
Proof.
  intros radius orbit incl p b HR HO HB.
  assert (0 <= orbit / radius) by (apply Rmult_le_pos; auto; apply Rlt_le, Rinv_0_lt_compat; auto).
  assert (0 <= b / radius) by (apply Rmult_le_pos; auto; apply Rlt_le, Rinv_0_lt_compat; auto).
  rewrite sq_lt_iff, sq_le_iff by (auto; apply pdist_pos; auto). rewrite pdist_sq.
  set (z := (cos incl)^2 + (sin p)^2 * (sin incl)^2).
  replace ((orbit / radius)^2 * z) with (orbit^2 * z * / radius^2) by (field; lra).
  replace ((b / radius)^2) with (b^2 * / radius^2) by (field; lra).
  assert (I : 0 < / radius^2) by (apply Rinv_0_lt_compat; nra).
  split; split; intros X.
  - apply Rmult_lt_reg_r with (/ radius^2); auto.
  - apply Rmult_lt_compat_r; auto.
  - apply Rmult_le_reg_r with (/ radius^2); auto.
  - apply Rmult_le_compat_r; auto. lra.
Qed.
Lemma cos_Rabs : forall p, cos (Rabs p) = cos p.
Proof. intros. unfold Rabs. destruct (Rcase_abs p); auto. apply cos_neg. Qed.
Lemma sin_Rabs_sq : forall p, (sin (Rabs p))^2 = (sin p)^2.
Proof. intros. unfold Rabs. destruct (Rcase_abs p); auto. rewrite sin_neg. ring. Qed.

Lemma C120_lemma :
  forall radius orbit planet incl, 0 < radius -> 0 < planet <= radius -> radius + planet <= orbit ->
  let dist := orbit * Rabs (cos incl) in
  let contact b := asin (sqrt (b^2 - dist^2) / (orbit * Rabs (sin incl))) in
  forall s lat0 lon0 phase m v, st_radius s = radius -> - PI <= phase <= PI ->
  get_transit_mask s lat0 lon0 orbit planet phase incl = Ok (m, Fin v) ->
  (radius + planet <= dist -> v = 1)
  /\ (radius - planet < dist -> 0 < v)
  /\ (dist < radius + planet ->
        0 < contact (radius + planet) <= PI/2 /\ (v < 1 <-> Rabs phase < contact (radius + planet)))
  /\ (dist <= radius - planet ->
        0 <= contact (radius - planet) < contact (radius + planet)
        /\ (v = 0 <-> Rabs phase <= contact (radius - planet))).
Proof.
  intros radius orbit planet incl HR HP HO dist contact s lat0 lon0 phase m v SR PH E.
  destruct (C119_lemma radius orbit planet incl HR ltac:(lra) HP) as [V [V1 [_ [_ [VR [VZ [VO _]]]]]]].
  pose proof (V1 s lat0 lon0 phase m (Fin v) SR E) as Ev. injection Ev as ->.
  set (a := orbit / radius) in *. specialize (VZ phase). specialize (VO phase). specialize (VR phase).
  change (a * sqrt ((sin phase)^2 + (cos phase)^2 * (cos incl)^2)) with (pdist a incl phase) in *.
  pose proof PI_RGT_0.
  assert (D2 : dist^2 = (orbit * cos incl)^2). { unfold dist. rewrite !Rpow_mult_distr, pow2_abs. auto. }
  assert (PP : 0 <= (sin phase)^2 * (sin incl)^2) by (apply Rmult_le_pos; apply pow2_ge_0).
  assert (DD : 0 <= dist). { unfold dist. pose proof (Rabs_pos (cos incl)). nra. }
  assert (R1' : 1 + planet / radius = (radius + planet) / radius) by (field; lra).
  assert (R2' : 1 - planet / radius = (radius - planet) / radius) by (field; lra).
  rewrite R1' in VO. rewrite R2' in VZ.
  destruct (pdist_scale radius orbit incl phase (radius + planet) HR ltac:(lra) ltac:(lra)) as [SL1 _].
  destruct (pdist_scale radius orbit incl phase (radius - planet) HR ltac:(lra) ltac:(lra)) as [_ SL2]. fold a in SL1, SL2.
  assert (OE : orbit^2 * ((cos incl)^2 + (sin phase)^2 * (sin incl)^2) = dist^2 + orbit^2 * ((sin phase)^2 * (sin incl)^2)).
  { rewrite D2. ring. }
  assert (O2 : 0 <= orbit^2 * ((sin phase)^2 * (sin incl)^2)) by (apply Rmult_le_pos; [apply pow2_ge_0|auto]).
  split. { intros L. apply VO. right. apply Rnot_lt_le. intros X. apply SL1 in X. rewrite OE in X. nra. }
  split. { intros L. destruct VR as [[VR|VR] _]; auto. symmetry in VR. apply VZ in VR. destruct VR as [_ X]. apply SL2 in X. rewrite OE in X. nra. }
  assert (NI : dist < radius + planet -> sin incl <> 0).
  { intros L Z. pose proof (sin2_cos2 incl) as SC. rewrite Z in SC. unfold Rsqr in SC.
    assert (C1 : Rabs (cos incl) = 1). { unfold Rabs. destruct (Rcase_abs (cos incl)); nra. }
    unfold dist in L. rewrite C1 in L. lra. }
  assert (AP : 0 <= Rabs phase <= PI). { unfold Rabs. destruct (Rcase_abs phase); lra. }
  assert (SA : 0 <= sin (Rabs phase)) by (apply sin_ge_0; lra).
  assert (G : forall b, dist <= b -> b <= orbit -> sin incl <> 0 ->
    0 <= sqrt (b^2 - dist^2) / (orbit * Rabs (sin incl)) <= 1
    /\ (0 < cos phase /\ orbit^2 * ((cos incl)^2 + (sin phase)^2 * (sin incl)^2) < b^2 <-> Rabs phase < contact b)
    /\ (b < orbit -> (0 < cos phase /\ orbit^2 * ((cos incl)^2 + (sin phase)^2 * (sin incl)^2) <= b^2 <-> Rabs phase <= contact b))).
  { intros b B1 B2 N. destruct (contact_ratio orbit incl b ltac:(lra) N B1 B2) as [X K].
    rewrite D2. specialize (K (Rabs phase) SA). rewrite sin_Rabs_sq in K. destruct K as [K1 K2]. split; auto.
    rewrite K1, K2. unfold contact. rewrite D2.
    set (x := sqrt (b^2 - (orbit * cos incl)^2) / (orbit * Rabs (sin incl))) in *.
    pose proof (asin_bound x) as AB. rewrite <- (cos_Rabs phase). pose proof (cos_pos_iff (Rabs phase) AP) as CP. rewrite CP.
    split.
    - split. intros [C1 C2]. apply sin_lt_asin; auto; lra. intros C2. assert (Rabs phase < PI/2) by lra. split; auto.
      apply sin_lt_asin; auto; lra.
    - intros BO. assert (X1 : x < 1).
      { destruct X as [X0 [X1|X1]]; auto. exfalso. pose proof (sin2_cos2 incl) as SC. unfold Rsqr in SC.
        destruct (contact_ratio orbit incl b ltac:(lra) N B1 B2) as [_ Q]. specialize (Q (PI/2)). fold x in Q. rewrite sin_PI2 in Q.
        destruct (Q ltac:(lra)) as [_ Q2]. assert (X : orbit^2 * ((cos incl)^2 + 1^2 * (sin incl)^2) <= b^2) by (apply Q2; lra).
        replace ((cos incl)^2 + 1^2 * (sin incl)^2) with 1 in X by lra.
        assert (b^2 < orbit^2) by (apply (proj1 (sq_lt_iff b orbit ltac:(lra) ltac:(lra))); lra). lra. }
      pose proof (asin_lt_half x ltac:(lra)). split. intros [C1 C2]. apply sin_le_asin; auto; lra.
      intros C2. assert (Rabs phase < PI/2) by lra. split; auto. apply sin_le_asin; auto; lra. }
  split.
  - intros L. pose proof (NI L) as N. destruct (G (radius + planet) ltac:(lra) HO N) as [X [K _]].
    split. { split. 2: unfold contact; apply asin_bound. unfold contact. rewrite <- asin_0.
      pose proof (Rabs_pos_lt _ N).
      assert (P : 0 < sqrt ((radius + planet)^2 - dist^2) / (orbit * Rabs (sin incl))).
      { apply Rdiv_lt_0_compat. apply sqrt_lt_R0. pose proof (proj1 (sq_lt_iff dist (radius + planet) DD ltac:(lra)) L). lra.
        apply Rmult_lt_0_compat; lra. }
      rewrite asin_0. apply (sin_lt_asin 0); try lra. rewrite sin_0. auto. }
    rewrite <- K. rewrite <- SL1. split.
    + intros Y. split; apply Rnot_le_lt; intros Z; apply (Rlt_not_eq _ _ Y), VO; [left|right]; auto.
    + intros [Y1 Y2]. destruct VR as [_ [?|Q]]; auto. apply VO in Q. lra.
  - intros L. assert (L2 : dist < radius + planet) by lra. pose proof (NI L2) as N.
    destruct (G (radius - planet) ltac:(lra) ltac:(lra) N) as [X [_ K]]. specialize (K ltac:(lra)).
    destruct (G (radius + planet) ltac:(lra) HO N) as [X' _].
    pose proof (Rabs_pos_lt _ N).
    split.
    + split. unfold contact. apply (sin_le_asin 0); try lra. rewrite sin_0; lra.
      unfold contact.
      set (x := sqrt ((radius - planet)^2 - dist^2) / (orbit * Rabs (sin incl))) in *.
      set (x' := sqrt ((radius + planet)^2 - dist^2) / (orbit * Rabs (sin incl))) in *.
      assert (XX : x < x'). { unfold x, x'. apply Rmult_lt_compat_r. apply Rinv_0_lt_compat, Rmult_lt_0_compat; lra. apply sqrt_lt_1_alt.
        pose proof (proj1 (sq_le_iff dist (radius - planet) DD ltac:(lra)) L).
        pose proof (proj1 (sq_lt_iff (radius - planet) (radius + planet) ltac:(lra) ltac:(lra)) ltac:(lra)). lra. }
      pose proof (asin_bound x). assert (asin x < PI/2) by (apply asin_lt_half; lra).
      apply sin_lt_asin; auto. split; auto. apply (sin_le_asin 0); try lra. rewrite sin_0; lra. rewrite sin_asin; lra.
    + rewrite <- K, <- SL2. rewrite VZ. tauto.
Qed.
