(** Light hidden by a planet anywhere in front of the star (C91). *)
From Coq Require Import Reals ZArith Bool List Lra Lia Permutation.
From Coquelicot Require Import Coquelicot.
From Verif Require Import Num Py MConfig MHelpers MGrid MSpots MFaculae MStar Spec SpecStar SpecDisk SpecConv SpecDepth
  LBase LGrid LHelpers LCirc LQuad LGauss LSpotMap LSpotCov LStarFac LDisk LSym LSphere LConv LSpiral LStarCov LZonal LCap LRot LDisc LSpotDisk LTurn LLens LTransit LStar LObserve LDepth.
Import ListNotations.
Open Scope R_scope.

(** ** One circle *)
Lemma ring_ex : forall R2 w c r a b, 0 < w -> ex_RInt (fun t => step ((R2 - r ^ 2 - c ^ 2 + 2 * c * r * cos t) / w)) a b.
Proof. intros. apply (@ex_RInt_continuous R_CompleteNormedModule). intros; apply ring_cont; auto. Qed.
Lemma ring_split : forall R2 w c r a, 0 < w -> 0 <= a <= PI ->
  (forall t, 0 < t < a -> step ((R2 - r ^ 2 - c ^ 2 + 2 * c * r * cos t) / w) = 1) -> a / PI <= ringm R2 w c r.
Proof.
  intros R2 w c r a W A H. pose proof PI_RGT_0. unfold ringm. set (h := fun t => step ((R2 - r ^ 2 - c ^ 2 + 2 * c * r * cos t) / w)) in *.
  pose proof (@RInt_Chasles R_CompleteNormedModule h 0 a PI (ring_ex _ _ _ _ _ _ W) (ring_ex _ _ _ _ _ _ W)) as C. change (RInt h 0 a + RInt h a PI = RInt h 0 PI) in C. rewrite <- C.
  assert (E1 : RInt h 0 a = a). { rewrite (RInt_ext _ (fun _ => 1)). rewrite (@RInt_const R_CompleteNormedModule). unfold scal; simpl; unfold mult; simpl. ring. intros t Ht. rewrite Rmin_left, Rmax_right in Ht by lra. apply H; auto. }
  assert (E2 : 0 <= RInt h a PI). { apply RInt_ge_0. lra. apply ring_ex; auto. intros. apply step_range. }
  rewrite E1. unfold Rdiv. rewrite Rmult_comm. apply Rmult_le_compat_l. left; apply Rinv_0_lt_compat; auto. lra.
Qed.
Lemma ring_split' : forall R2 w c r a, 0 < w -> 0 <= a <= PI ->
  (forall t, a < t < PI -> step ((R2 - r ^ 2 - c ^ 2 + 2 * c * r * cos t) / w) = 0) -> ringm R2 w c r <= a / PI.
Proof.
  intros R2 w c r a W A H. pose proof PI_RGT_0. unfold ringm. set (h := fun t => step ((R2 - r ^ 2 - c ^ 2 + 2 * c * r * cos t) / w)) in *.
  pose proof (@RInt_Chasles R_CompleteNormedModule h 0 a PI (ring_ex _ _ _ _ _ _ W) (ring_ex _ _ _ _ _ _ W)) as C. change (RInt h 0 a + RInt h a PI = RInt h 0 PI) in C. rewrite <- C.
  assert (E1 : RInt h a PI = 0). { rewrite (RInt_ext _ (fun _ => 0)). rewrite (@RInt_const R_CompleteNormedModule). unfold scal; simpl; unfold mult; simpl. ring. intros t Ht. rewrite Rmin_left, Rmax_right in Ht by lra. apply H; auto. }
  assert (E2 : RInt h 0 a <= a).
  { apply Rle_trans with (RInt (fun _ => 1) 0 a). apply RInt_le. lra. apply ring_ex; auto. apply (@ex_RInt_const R_NormedModule). intros. apply step_range.
    rewrite (@RInt_const R_CompleteNormedModule). unfold scal; simpl; unfold mult; simpl. lra. }
  rewrite E1. unfold Rdiv. rewrite (Rmult_comm a). apply Rmult_le_compat_l. left; apply Rinv_0_lt_compat; auto. lra.
Qed.
Lemma ringm_nonneg : forall R2 w c r, 0 < w -> 0 <= ringm R2 w c r.
Proof. intros. pose proof PI_RGT_0. replace 0 with (0 / PI) by (field; lra). apply ring_split; auto. lra. intros; lra. Qed.
Lemma ringm_ge : forall R2 w c r q, 0 < w -> 0 < c -> 0 < r -> q ^ 2 <= R2 - w -> behind c q r <= ringm R2 w c r.
Proof.
  intros R2 w c r q W C P H. unfold behind. apply ring_split; auto. apply acos_bound. intros t Ht. pose proof (acos_bound ((r ^ 2 + c ^ 2 - q ^ 2) / (2 * r * c))).
  pose proof (below_acos _ t ltac:(lra) (proj2 Ht)) as B. assert (X : 0 < 2 * r * c) by (apply Rmult_lt_0_compat; lra).
  apply div_le in B; auto. apply step_hi. apply div_ge_hi; auto. lra.
Qed.
Lemma ringm_le : forall R2 w c r q, 0 < w -> 0 < c -> 0 < r -> R2 + w <= q ^ 2 -> ringm R2 w c r <= behind c q r.
Proof.
  intros R2 w c r q W C P H. unfold behind. apply ring_split'; auto. apply acos_bound. intros t Ht. pose proof (acos_bound ((r ^ 2 + c ^ 2 - q ^ 2) / (2 * r * c))).
  pose proof (above_acos _ t ltac:(lra) (proj1 Ht)) as B. assert (X : 0 < 2 * r * c) by (apply Rmult_lt_0_compat; lra).
  apply le_div in B; auto. apply step_lo. apply div_le_lo; auto. lra.
Qed.
(** ** The whole disk *)
Definition hlf (u1 u2 b rp r : R) : R := r * (1 - u1 * (1 - sqrt (1 - r ^ 2)) - u2 * (1 - sqrt (1 - r ^ 2)) ^ 2) * behind b rp r.
Lemma hlf_larc : forall u1 u2 b rp r, hlf u1 u2 b rp r = (1 - u1 * (1 - sqrt (1 - r ^ 2)) - u2 * (1 - sqrt (1 - r ^ 2)) ^ 2) * larc rp b r / (2 * PI).
Proof. intros. pose proof PI_RGT_0. unfold hlf, behind, larc, xq. field. lra. Qed.
Lemma sqrt_cont : forall x, continuous sqrt x.
Proof.
  intros. destruct (Rle_dec 0 x). apply continuity_pt_filterlim. apply continuity_pt_sqrt; auto.
  apply (continuous_ext_loc _ (fun _ => 0)); [|apply continuous_const]. assert (P : 0 < - x) by lra. exists (mkposreal _ P). intros y Hy.
  unfold ball in Hy; simpl in Hy. unfold AbsRing_ball, abs, minus, plus, opp in Hy; simpl in Hy. apply Rabs_def2 in Hy. symmetry. apply sqrt_neg_0. lra.
Qed.
Lemma hlf_cont : forall u1 u2 b rp r, 0 < b -> 0 <= r -> continuous (hlf u1 u2 b rp) r.
Proof.
  intros. apply (continuous_ext (fun r => (1 - u1 * (1 - sqrt (1 - r ^ 2)) - u2 * (1 - sqrt (1 - r ^ 2)) ^ 2) * larc rp b r / (2 * PI))). intros; symmetry; apply hlf_larc.
  apply (continuous_mult (fun r => (1 - u1 * (1 - sqrt (1 - r ^ 2)) - u2 * (1 - sqrt (1 - r ^ 2)) ^ 2) * larc rp b r) (fun _ => / (2 * PI))).
  2: apply continuous_const. apply (continuous_mult (fun r => 1 - u1 * (1 - sqrt (1 - r ^ 2)) - u2 * (1 - sqrt (1 - r ^ 2)) ^ 2) (larc rp b)). 2: apply larc_cont; auto.
  apply (continuous_comp (fun r => sqrt (1 - r ^ 2)) (fun m => 1 - u1 * (1 - m) - u2 * (1 - m) ^ 2)).
  - apply (continuous_comp (fun r => 1 - r ^ 2) sqrt). apply (@ex_derive_continuous R_AbsRing R_NormedModule). auto_derive; auto. apply sqrt_cont.
  - apply (@ex_derive_continuous R_AbsRing R_NormedModule). auto_derive; auto.
Qed.
Lemma hlf_ex : forall u1 u2 b rp, 0 < b -> ex_RInt (hlf u1 u2 b rp) 0 1.
Proof. intros. apply (@ex_RInt_continuous R_CompleteNormedModule). intros z Hz. rewrite Rmin_left, Rmax_right in Hz by lra. apply hlf_cont; lra. Qed.
(** in terms of the angle from the centre *)
Definition hang (u1 u2 b rp lat : R) : R := cos lat * (bright u1 u2 (sin lat) * behind b rp (cos lat)).
Lemma hang_eq : forall u1 u2 b rp lat, 0 <= lat <= PI / 2 -> hang u1 u2 b rp lat = sin lat * hlf u1 u2 b rp (cos lat).
Proof.
  intros u1 u2 b rp lat H. assert (S0 : 0 <= sin lat) by (apply sin_ge_0; lra). pose proof (SIN_bound lat).
  unfold hang, hlf, bright. rewrite clamp_id by lra. replace (1 - cos lat ^ 2) with (sin lat ^ 2). rewrite sqrt_pow2 by auto. ring.
  pose proof (sin2_cos2 lat) as E. unfold Rsqr in E. simpl. lra.
Qed.
Lemma hang_int : forall u1 u2 b rp, 0 < b -> is_RInt (hang u1 u2 b rp) 0 (PI / 2) (hidden_light u1 u2 b rp).
Proof.
  intros u1 u2 b rp Hb. pose proof PI_RGT_0. change (hidden_light u1 u2 b rp) with (RInt (hlf u1 u2 b rp) 0 1).
  apply (is_RInt_ext (fun lat => opp (scal (- sin lat) (hlf u1 u2 b rp (cos lat))))).
  { intros x Hx. rewrite Rmin_left, Rmax_right in Hx by lra. rewrite hang_eq by lra. unfold opp, scal; simpl; unfold mult; simpl. ring. }
  replace (RInt (hlf u1 u2 b rp) 0 1) with (opp (RInt (hlf u1 u2 b rp) 1 0)).
  2: apply (@opp_RInt_swap R_CompleteNormedModule (hlf u1 u2 b rp) 1 0); apply (@ex_RInt_swap R_NormedModule), hlf_ex; auto.
  apply (@is_RInt_opp R_NormedModule (fun lat => scal (- sin lat) (hlf u1 u2 b rp (cos lat)))).
  replace (RInt (hlf u1 u2 b rp) 1 0) with (RInt (hlf u1 u2 b rp) (cos 0) (cos (PI / 2))) by (rewrite cos_0, cos_PI2; auto).
  apply (@is_RInt_comp R_CompleteNormedModule (hlf u1 u2 b rp) cos (fun x => - sin x)).
  - intros x Hx. rewrite Rmin_left, Rmax_right in Hx by lra. apply hlf_cont; auto. apply cos_ge_0; lra.
  - intros x Hx. split. apply is_derive_Reals. replace (- sin x) with (- (sin x)) by ring. apply derivable_pt_lim_cos.
    apply (@ex_derive_continuous R_AbsRing R_NormedModule). auto_derive; auto.
Qed.
Lemma cos_pos_in : forall x, 0 < x < PI / 2 -> 0 < cos x.
Proof. intros. apply cos_gt_0; lra. Qed.
Lemma smean_half : forall u1 u2 l a1 a2 R2 w c th, 0 < w -> a1 ^ 2 + a2 ^ 2 = 1 ->
  smean (turn (bright u1 u2) l a1 a2 R2 w c th) = / 2 * RInt (fun lat => cos lat * (bright u1 u2 (sin lat) * ringm R2 w c (cos lat))) 0 (PI / 2).
Proof.
  intros u1 u2 l a1 a2 R2 w c th W Ha. pose proof PI_RGT_0.
  rewrite (smean_turn (brightL u1 u2) (brightB u1 u2)) by (auto using bright_lip, bright_abs). f_equal.
  set (F := fun lat => cos lat * (bright u1 u2 (sin lat) * ringm R2 w c (cos lat))).
  assert (EX : forall a b, ex_RInt F a b) by (intros; apply (ring_int_ex (brightL u1 u2) (brightB u1 u2) (bright u1 u2)); auto using bright_lip, bright_abs).
  rewrite <- (@RInt_Chasles R_CompleteNormedModule F (- PI / 2) 0 (PI / 2)) by apply EX.
  rewrite (RInt_ext F (fun _ => 0) (- PI / 2) 0).
  - rewrite (@RInt_const R_CompleteNormedModule). unfold plus, scal; simpl; unfold mult; simpl. ring.
  - intros x Hx. rewrite Rmin_left, Rmax_right in Hx by lra. unfold F. rewrite bright_neg. req. ring. left. apply sin_lt_0_var; lra.
Qed.
Lemma smean_light_le : forall u1 u2 l a1 a2 R2 w c th q, (forall m, 0 <= bright u1 u2 m) -> 0 < w -> a1 ^ 2 + a2 ^ 2 = 1 -> 0 < c -> R2 + w <= q ^ 2 ->
  smean (turn (bright u1 u2) l a1 a2 R2 w c th) <= hidden_light u1 u2 c q / 2.
Proof.
  intros u1 u2 l a1 a2 R2 w c th q BN W Ha C H. pose proof PI_RGT_0. rewrite smean_half by auto.
  pose proof (hang_int u1 u2 c q C) as I. unfold Rdiv. rewrite Rmult_comm. apply Rmult_le_compat_r. lra.
  rewrite <- (is_RInt_unique _ _ _ _ I). apply RInt_le. lra. apply (ring_int_ex (brightL u1 u2) (brightB u1 u2) (bright u1 u2)); auto using bright_lip, bright_abs. eexists; apply I.
  intros x Hx. pose proof (cos_pos_in x Hx). unfold hang. apply Rmult_le_compat_l. lra. apply Rmult_le_compat_l; auto. apply ringm_le; auto.
Qed.
Lemma smean_light_ge : forall u1 u2 l a1 a2 R2 w c th q, (forall m, 0 <= bright u1 u2 m) -> 0 < w -> a1 ^ 2 + a2 ^ 2 = 1 -> 0 < c -> q ^ 2 <= R2 - w ->
  hidden_light u1 u2 c q / 2 <= smean (turn (bright u1 u2) l a1 a2 R2 w c th).
Proof.
  intros u1 u2 l a1 a2 R2 w c th q BN W Ha C H. pose proof PI_RGT_0. rewrite smean_half by auto.
  pose proof (hang_int u1 u2 c q C) as I. unfold Rdiv. rewrite (Rmult_comm (hidden_light _ _ _ _)). apply Rmult_le_compat_l. lra.
  rewrite <- (is_RInt_unique _ _ _ _ I). apply RInt_le. lra. eexists; apply I. apply (ring_int_ex (brightL u1 u2) (brightB u1 u2) (bright u1 u2)); auto using bright_lip, bright_abs.
  intros x Hx. pose proof (cos_pos_in x Hx). unfold hang. apply Rmult_le_compat_l. lra. apply Rmult_le_compat_l; auto. apply ringm_ge; auto.
Qed.
(** ** Dependence on the planet's radius *)
Lemma larc_total : forall q c, 0 <= q -> 0 < c -> RInt (larc q c) 0 1 = larea q c 1.
Proof.
  intros q c [Q|<-] C. apply larea_int; auto; lra.
  rewrite larea_sym, larea_0 by lra. rewrite (RInt_ext _ (fun _ => 0)). rewrite (@RInt_const R_CompleteNormedModule). unfold scal; simpl; unfold mult; simpl. ring.
  intros x Hx. rewrite Rmin_left, Rmax_right in Hx by lra. unfold larc. rewrite acos_ge_1 by (apply xq_small; lra). req. ring.
Qed.
Lemma hl_lip : forall u1 u2 c q q', (forall x, 0 < x <= 1 -> 0 <= 1 - u1 * (1 - x) - u2 * (1 - x) ^ 2) -> 0 < c -> 0 <= q <= q' ->
  0 <= hidden_light u1 u2 c q' - hidden_light u1 u2 c q <= brightB u1 u2 * (q' ^ 2 - q ^ 2) / 2.
Proof.
  intros u1 u2 c q q' LP C H. pose proof PI_RGT_0 as PP.
  change (hidden_light u1 u2 c q') with (RInt (hlf u1 u2 c q') 0 1). change (hidden_light u1 u2 c q) with (RInt (hlf u1 u2 c q) 0 1).
  pose proof (@RInt_minus R_CompleteNormedModule (hlf u1 u2 c q') (hlf u1 u2 c q) 0 1 (hlf_ex u1 u2 c q' C) (hlf_ex u1 u2 c q C)) as E.
  change (RInt (fun r => hlf u1 u2 c q' r - hlf u1 u2 c q r) 0 1 = RInt (hlf u1 u2 c q') 0 1 - RInt (hlf u1 u2 c q) 0 1) in E. rewrite <- E.
  assert (EX : ex_RInt (fun r => hlf u1 u2 c q' r - hlf u1 u2 c q r) 0 1) by (apply (@ex_RInt_minus R_NormedModule (hlf u1 u2 c q') (hlf u1 u2 c q)); apply hlf_ex; auto).
  assert (AM : forall r, 0 < r < 1 -> 0 <= larc q' c r - larc q c r).
  { intros r Hr. unfold larc. rewrite <- Rmult_minus_distr_l. apply Rmult_le_pos. lra. assert (acos (xq q c r) <= acos (xq q' c r)). 2: lra.
    apply acos_antitone. unfold xq, Rdiv. apply Rmult_le_compat_r. left. apply Rinv_0_lt_compat. apply Rmult_lt_0_compat; lra. nra. }
  assert (SB : forall r, 0 < r < 1 -> 0 < sqrt (1 - r ^ 2) <= 1).
  { intros r Hr. split. apply sqrt_lt_R0. nra. rewrite <- sqrt_1 at 2. apply sqrt_le_1_alt. pose proof (pow2_ge_0 r). lra. }
  assert (ED : forall r, hlf u1 u2 c q' r - hlf u1 u2 c q r = (1 - u1 * (1 - sqrt (1 - r ^ 2)) - u2 * (1 - sqrt (1 - r ^ 2)) ^ 2) * (larc q' c r - larc q c r) / (2 * PI)).
  { intros. rewrite !hlf_larc. field. lra. }
  assert (IP : 0 < / (2 * PI)) by (apply Rinv_0_lt_compat; lra).
  split.
  - apply RInt_ge_0; auto. lra. intros r Hr. rewrite ED. unfold Rdiv. apply Rmult_le_pos; [apply Rmult_le_pos|]; auto. lra.
  - pose proof (@RInt_minus R_CompleteNormedModule (larc q' c) (larc q c) 0 1 (larc_ex q' c 0 1 C ltac:(lra) ltac:(lra)) (larc_ex q c 0 1 C ltac:(lra) ltac:(lra))) as EL.
    change (RInt (fun r => larc q' c r - larc q c r) 0 1 = RInt (larc q' c) 0 1 - RInt (larc q c) 0 1) in EL. rewrite !larc_total in EL by lra.
    pose proof (larea_diff q q' c ltac:(lra) ltac:(lra) C) as LD. rewrite <- EL in LD.
    assert (EX2 : ex_RInt (fun r => larc q' c r - larc q c r) 0 1) by (apply (@ex_RInt_minus R_NormedModule (larc q' c) (larc q c)); apply larc_ex; lra).
    assert (B0 : 0 < brightB u1 u2) by (unfold brightB; pose proof (Rabs_pos u1); pose proof (Rabs_pos u2); lra).
    apply Rle_trans with (RInt (fun r => scal (brightB u1 u2 / (2 * PI)) (larc q' c r - larc q c r)) 0 1).
    + apply RInt_le; auto. lra. apply (@ex_RInt_scal R_NormedModule (fun r => larc q' c r - larc q c r)); auto.
      intros r Hr. rewrite ED. unfold scal; simpl; unfold mult; simpl. replace (brightB u1 u2 / (2 * PI) * (larc q' c r - larc q c r)) with (brightB u1 u2 * (larc q' c r - larc q c r) / (2 * PI)) by (field; lra). unfold Rdiv.
      apply Rmult_le_compat_r. lra. apply Rmult_le_compat_r; auto. eapply Rle_trans. apply Rle_abs. apply (ld_abs u1 u2). exact (conj (Rlt_le _ _ (proj1 (SB r Hr))) (proj2 (SB r Hr))).
    + eapply Rle_trans. right. apply (@RInt_scal R_CompleteNormedModule (fun r => larc q' c r - larc q c r)); auto. unfold scal; simpl; unfold mult; simpl.
      apply Rle_trans with (brightB u1 u2 / (2 * PI) * (PI * (q' ^ 2 - q ^ 2))).
      * apply Rmult_le_compat_l. unfold Rdiv. apply Rmult_le_pos; lra. apply LD.
      * right. field. lra.
Qed.
(** ** On a grid *)
Lemma vdir_sf2 : forall th l a1 a2, Rabs a1 <= 1 -> Rabs a2 <= 1 -> sphere_fun 2 2 (vdir th l a1 a2).
Proof.
  intros th l a1 a2 A1 A2. pose proof (lin_sf _ _ _ _ _ _ a1 a2 (mu_sf (th + PI / 2) l) (mu_sf 0 (l - PI / 2))) as X. destruct X as [X1 X2 X3]. split; intros.
  - eapply Rle_trans. apply X1. lra.
  - eapply Rle_trans. apply X2. pose proof (Rabs_pos (lat - lat')). pose proof (Rabs_pos (lon - lon')). apply Rmult_le_compat_r; lra.
  - apply X3.
Qed.
Lemma targ_sf : forall th l a1 a2 R2 w c, 0 < w -> 0 <= c -> a1 ^ 2 + a2 ^ 2 = 1 -> exists C, sphere_fun C ((2 + 4 * c) / w) (fun lat lon => targ l a1 a2 R2 w c lat lon th).
Proof.
  intros th l a1 a2 R2 w c W Hc Ha.
  assert (A1 : Rabs a1 <= 1) by (apply sq_le_1_abs; pose proof (pow2_ge_0 a2); lra). assert (A2 : Rabs a2 <= 1) by (apply sq_le_1_abs; pose proof (pow2_ge_0 a1); lra).
  assert (IW : 0 < / w) by (apply Rinv_0_lt_compat; auto). pose proof (vdir_sf2 th l a1 a2 A1 A2) as SV. pose proof (mult_sf _ _ _ _ _ _ (mu_sf th l) (mu_sf th l)) as SM.
  exists ((1 + 4 * c + Rabs (R2 - 1 - c ^ 2)) / w).
  assert (Eq : forall lat lon, targ l a1 a2 R2 w c lat lon th = / w * (mu th l lat lon * mu th l lat lon + 2 * c * vdir th l a1 a2 lat lon + (R2 - 1 - c ^ 2))) by (intros; unfold targ, qd; field; lra).
  split; intros; rewrite !Eq.
  - rewrite Rabs_mult, (Rabs_right (/ w)) by lra. unfold Rdiv. rewrite Rmult_comm. apply Rmult_le_compat_r. lra.
    eapply Rle_trans. apply Rabs_triang. apply Rplus_le_compat_r. eapply Rle_trans. apply Rabs_triang.
    pose proof (sf_bound _ _ _ SM lat lon) as X1. pose proof (sf_bound _ _ _ SV lat lon) as X2. cbv beta in X1. rewrite (Rabs_mult (2 * c)), (Rabs_right (2 * c)) by lra.
    pose proof (Rabs_pos (vdir th l a1 a2 lat lon)). nra.
  - rewrite <- Rmult_minus_distr_l, Rabs_mult, (Rabs_right (/ w)) by lra. replace ((2 + 4 * c) / w * (Rabs (lat - lat') + Rabs (lon - lon'))) with (/ w * ((2 + 4 * c) * (Rabs (lat - lat') + Rabs (lon - lon')))) by (field; lra). apply Rmult_le_compat_l. lra.
    replace (_ - _) with ((mu th l lat lon * mu th l lat lon - mu th l lat' lon' * mu th l lat' lon') + 2 * c * (vdir th l a1 a2 lat lon - vdir th l a1 a2 lat' lon')) by ring.
    eapply Rle_trans. apply Rabs_triang. rewrite (Rabs_mult (2 * c)), (Rabs_right (2 * c)) by lra.
    pose proof (sf_lip _ _ _ SM lat lon lat' lon') as X1. pose proof (sf_lip _ _ _ SV lat lon lat' lon') as X2. cbv beta in X1.
    pose proof (Rabs_pos (vdir th l a1 a2 lat lon - vdir th l a1 a2 lat' lon')). nra.
  - pose proof (sf_per _ _ _ SM lat lon) as X1. cbv beta in X1. rewrite X1. rewrite (sf_per _ _ _ SV). auto.
Qed.
Lemma turn_grid : forall g d u1 u2 th l a1 a2 R2 c w, good_grid g -> resolution g d -> w = sqrt d -> 0 <= c -> a1 ^ 2 + a2 ^ 2 = 1 ->
  Rabs (gsum g (turn (bright u1 u2) l a1 a2 R2 w c th) - smean (turn (bright u1 u2) l a1 a2 R2 w c th)) <= brightB u1 u2 * (120 + 80 * c) * w.
Proof.
  intros g d u1 u2 th l a1 a2 R2 c w G Q Ew Hc Ha. assert (D : 0 < d <= 1) by apply Q.
  assert (W : 0 < w) by (subst w; apply sqrt_lt_R0; lra). assert (WW : w * w = d) by (subst w; apply sqrt_sqrt; lra). assert (W1 : w <= 1) by (subst w; rewrite <- sqrt_1; apply sqrt_le_1_alt; lra).
  assert (SB : forall t, Rabs (step t) <= 1) by (intros; pose proof (step_range t); apply Rabs_le; lra).
  destruct (targ_sf th l a1 a2 R2 w c W Hc Ha) as [C SA].
  pose proof (comp_sf _ _ _ _ _ _ SA step_lip SB) as SI.
  pose proof (mult_sf _ _ _ _ _ _ (bright_sf u1 u2 th l) SI) as SD.
  pose proof (gsum_close _ _ _ _ _ SD G Q) as X.
  eapply Rle_trans. apply X. rewrite <- WW.
  assert (BL : brightL u1 u2 <= 3 * brightB u1 u2) by (unfold brightL, brightB; pose proof (Rabs_pos u1); pose proof (Rabs_pos u2); lra).
  assert (B0 : 0 < brightB u1 u2) by (unfold brightB; pose proof (Rabs_pos u1); pose proof (Rabs_pos u2); lra).
  replace (20 * (brightB u1 u2 * 1 + (brightB u1 u2 * (1 * ((2 + 4 * c) / w)) + 1 * brightL u1 u2)) * (w * w))
    with (20 * ((brightB u1 u2 + brightL u1 u2) * (w * w) + brightB u1 u2 * (2 + 4 * c) * w)) by (field; lra).
  assert ((brightB u1 u2 + brightL u1 u2) * (w * w) <= 4 * brightB u1 u2 * w).
  { apply Rle_trans with (4 * brightB u1 u2 * (w * w)). apply Rmult_le_compat_r; nra. rewrite !Rmult_assoc. apply Rmult_le_compat_l. lra. apply Rmult_le_compat_l. lra. nra. }
  nra.
Qed.
Lemma hl_zero : forall u1 u2 c, 0 < c -> hidden_light u1 u2 c 0 = 0.
Proof.
  intros. change (RInt (hlf u1 u2 c 0) 0 1 = 0). rewrite (RInt_ext _ (fun _ => 0)). rewrite (@RInt_const R_CompleteNormedModule). unfold scal; simpl; unfold mult; simpl. ring.
  intros x Hx. rewrite Rmin_left, Rmax_right in Hx by lra. rewrite hlf_larc. unfold larc. rewrite (acos_ge_1 (xq 0 c x)) by (apply xq_small; lra). req. unfold Rdiv. ring.
Qed.
Lemma light_sandwich : forall g d lat0 lon0 px py rp cm u1 u2, good_grid g -> resolution g d -> - PI / 2 <= lat0 <= PI / 2 -> 0 <= rp ->
  (forall p, In p (cells (grid_points g)) -> px_cov lat0 lon0 px py rp p (rarea_at g p) (cm p)) ->
  let c := sqrt (px ^ 2 + py ^ 2) in
  0 < c <= 1 + 2 * rp -> sqrt d <= 1 / 1000 -> (forall x, 0 < x <= 1 -> 0 <= 1 - u1 * (1 - x) - u2 * (1 - x) ^ 2) ->
  (forall m, 0 <= bright u1 u2 m) ->
  let e := brightB u1 u2 * (rounding px py rp / 2 + 402 * (1 + rp) * sqrt d) in
  (hidden_light u1 u2 c rp - e) / 2 <= hidden g u1 u2 lat0 lon0 cm <= (hidden_light u1 u2 c rp + e) / 2.
Proof.
  intros g d lat0 lon0 px py rp cm u1 u2 G Q L HR HM c Hc W3 LP BN e. unfold e. clear e.
  assert (D : 0 < d <= 1) by apply Q. set (w := sqrt d) in *. assert (W : 0 < w) by (apply sqrt_lt_R0; lra). assert (WW : w * w = d) by (apply sqrt_sqrt; lra).
  assert (C0 : 0 < c) by apply Hc. assert (CC : c * c = px ^ 2 + py ^ 2) by (apply sqrt_sqrt; pose proof (pow2_ge_0 px); pose proof (pow2_ge_0 py); lra).
  pose proof (rounding_nonneg px py rp HR) as E0. set (e0 := rounding px py rp) in *.
  set (h := 40 * d). assert (H0 : 0 < h) by (unfold h; lra).
  assert (H1 : h <= w / 25) by (unfold h; nra).
  destruct (seen_frame lat0 lon0 L) as [l [EM SF]].
  assert (EA : exists a1 a2, a1 ^ 2 + a2 ^ 2 = 1 /\ c * a1 = py /\ c * a2 = - px).
  { exists (py / c), (- px / c). repeat split; try (field; lra).
    transitivity ((px ^ 2 + py ^ 2) / (c * c)). field; lra. rewrite <- CC. field; lra. }
  destruct EA as [a1 [a2 [Ha [A1 A2]]]].
  set (Q2 := fun p => qd lat0 l a1 a2 c (fst p) (snd p)).
  assert (EQ : forall p, Q2 p = (- e2 l (fst p) (snd p) - px) ^ 2 + (e1 lat0 l (fst p) (snd p) - py) ^ 2).
  { intros. unfold Q2. rewrite qd_dist by auto. rewrite A1, A2. ring. }
  assert (PIX : forall p, In p (cells (grid_points g)) -> 0 < mu lat0 l (fst p) (snd p) ->
     0 <= cm p <= 1 /\ (cm p <> 0 -> Q2 p <= (rp + h) ^ 2 + (e0 + h / 50)) /\ (0 <= rp - h -> Q2 p < (rp - h) ^ 2 - (e0 + h / 50) -> cm p = 1)).
  { intros p I Mp. rewrite EM in Mp. pose proof (cell_lat_range g p G I) as LR. destruct (HM p I) as [B [_ K]].
    destruct (SF p LR ltac:(lra)) as [x [y [Exy SA]]]. destruct (K x y Exy) as [K1 [K2 _]]. clear K.
    set (q' := (x - px) ^ 2 + (y - py) ^ 2) in *. 
    assert (Q0 : 0 <= q') by (unfold q'; pose proof (pow2_ge_0 (x - px)); pose proof (pow2_ge_0 (y - py)); lra).
    assert (SS : 2 * (2 * sqrt (rarea_at g p) * cos_sep lat0 lon0 (fst p) (snd p)) <= h).
    { rewrite <- law_cos_dot. fold (mu lat0 lon0 (fst p) (snd p)). pose proof (pixel_size g d p G Q I) as PS. pose proof (sqrt_pos (rarea_at g p)).
      pose proof (law_cos_bound lat0 lon0 (fst p) (snd p)) as LB. fold (mu lat0 lon0 (fst p) (snd p)) in LB.
      apply Rle_trans with (4 * (sqrt (rarea_at g p) * 1)). assert (sqrt (rarea_at g p) * mu lat0 lon0 (fst p) (snd p) <= sqrt (rarea_at g p) * 1) by (apply Rmult_le_compat_l; lra). lra. unfold h. lra. }
    set (sg := 2 * (2 * sqrt (rarea_at g p) * cos_sep lat0 lon0 (fst p) (snd p))) in *.
    split; auto. split.
    - intros NZ. assert (T : sqrt q' <= rp + h) by (destruct (Rle_dec (sqrt q') (rp + h)); auto; exfalso; apply NZ, K1; lra).
      assert (T' : q' <= (rp + h) ^ 2) by (rewrite <- (sqrt_sqrt q') by auto; pose proof (sqrt_pos q'); nra).
      pose proof (seen_dist lat0 l p x y px py (rp + h) ltac:(lra) SA (or_introl T')) as Z. rewrite <- EQ in Z. fold q' in Z.
      pose proof (rounding_grow px py rp h ltac:(lra)) as Gr. fold e0 in Gr. apply Rabs_le_between in Z. lra.
    - intros Hh T. apply K2. assert (T1 : Q2 p <= rp ^ 2) by nra. rewrite EQ in T1.
      pose proof (seen_dist lat0 l p x y px py rp HR SA (or_intror T1)) as Z. rewrite <- EQ in Z. fold q' e0 in Z. apply Rabs_le_between in Z.
      assert (T2 : q' < (rp - h) ^ 2) by lra. assert (sqrt q' < rp - h). { pose proof (sqrt_sqrt q' Q0). pose proof (sqrt_pos q'). nra. } lra. }
  assert (B0 : 1 <= brightB u1 u2) by (unfold brightB; pose proof (Rabs_pos u1); pose proof (Rabs_pos u2); lra). set (B := brightB u1 u2) in *.
  assert (RW : 0 <= rp * w) by (apply Rmult_le_pos; lra).
  assert (RH : 0 <= rp * h <= rp * w / 25). { split. apply Rmult_le_pos; lra. replace (rp * w / 25) with (rp * (w / 25)) by field. apply Rmult_le_compat_l; lra. }
  assert (HH : 0 <= h * h <= w / 25). { split. apply Rmult_le_pos; lra. assert (h <= 1) by lra. nra. }
  assert (CW : (120 + 80 * c) * w <= 200 * w + 160 * (rp * w)). { replace (200 * w + 160 * (rp * w)) with ((200 + 160 * rp) * w) by ring. apply Rmult_le_compat_r; lra. }
  assert (HN : 0 <= hidden g u1 u2 lat0 lon0 cm).
  { apply rsum_nonneg. intros z J. apply in_map_iff in J. destruct J as [p [<- I]]. apply Rmult_le_pos. apply Rmult_le_pos; auto. apply rarea_nonneg; auto. apply (HM p I). }
  split.
  - set (lo := (rp - h) ^ 2 - (e0 + h / 50) - w). destruct (Rle_dec 0 (lo - w)) as [P|P].
    + assert (P1 : 0 <= rp - h). { unfold lo in P. assert ((rp - h) ^ 2 >= 2 * w) by lra. nra. }
      set (q := sqrt (lo - w)). assert (QQ : q ^ 2 = lo - w) by (simpl; rewrite Rmult_1_r; apply sqrt_sqrt; auto). assert (q0 : 0 <= q) by apply sqrt_pos.
      assert (qr : q <= rp) by (unfold lo in QQ; nra).
      pose proof (turn_grid g d u1 u2 lat0 l a1 a2 lo c w G Q eq_refl ltac:(lra) Ha) as TG. fold B in TG.
      pose proof (smean_light_ge u1 u2 l a1 a2 lo w c lat0 q BN W Ha C0 ltac:(lra)) as SL.
      pose proof (hl_lip u1 u2 c q rp LP C0 (conj q0 qr)) as HL. fold B in HL.
      assert (KEY : gsum g (turn (bright u1 u2) l a1 a2 lo w c lat0) <= hidden g u1 u2 lat0 lon0 cm).
      { unfold gsum, hidden. apply rsum_map_le. intros p I. pose proof (rarea_nonneg g p G I) as AN. rewrite Rmult_assoc. apply Rmult_le_compat_l; auto.
        unfold turn, targ. fold (Q2 p). rewrite <- EM. set (m := mu lat0 l (fst p) (snd p)) in *. destruct (HM p I) as [CB _].
        destruct (Rle_dec m 0) as [M0|M0]. rewrite bright_neg by auto. lra. apply Rmult_le_compat_l; auto.
        destruct (Rle_dec (lo + w) (Q2 p)) as [K|K]. rewrite step_lo by (apply div_le_lo; lra). lra. apply Rnot_le_lt in K.
        pose proof (step_range ((lo - Q2 p) / w)).
        apply Rnot_le_lt in M0. destruct (PIX p I M0) as [_ [_ B2]]. rewrite B2; auto. lra. unfold lo in K. lra. }
      apply Rabs_le_between in TG. assert (RQ : rp ^ 2 - q ^ 2 <= e0 + 3 * w + rp * w). { rewrite QQ. unfold lo. replace ((rp - h) ^ 2) with (rp ^ 2 - 2 * (rp * h) + h * h) by ring. lra. }
      assert (T1 : B * (rp ^ 2 - q ^ 2) / 2 <= B * (e0 + 3 * w + rp * w) / 2) by (apply Rmult_le_compat_r; [lra|]; apply Rmult_le_compat_l; lra).
      assert (T2 : B * (120 + 80 * c) * w <= B * (200 * w + 160 * (rp * w))) by (rewrite Rmult_assoc; apply Rmult_le_compat_l; lra).
      assert (BW : 0 <= B * w) by (apply Rmult_le_pos; lra). assert (BRW : 0 <= B * (rp * w)) by (apply Rmult_le_pos; lra). nra.
    + apply Rnot_le_lt in P. pose proof (hl_lip u1 u2 c 0 rp LP C0 ltac:(lra)) as HL. fold B in HL. rewrite hl_zero in HL by auto.
      assert (RQ : rp ^ 2 <= e0 + 3 * w + rp * w). { unfold lo in P. replace ((rp - h) ^ 2) with (rp ^ 2 - 2 * (rp * h) + h * h) in P by ring. lra. }
      assert (T1 : B * (rp ^ 2 - 0 ^ 2) / 2 <= B * (e0 + 3 * w + rp * w) / 2) by (apply Rmult_le_compat_r; [lra|]; apply Rmult_le_compat_l; lra).
      assert (BW : 0 <= B * w) by (apply Rmult_le_pos; lra). assert (BRW : 0 <= B * (rp * w)) by (apply Rmult_le_pos; lra). nra.
  - set (up := (rp + h) ^ 2 + (e0 + h / 50) + w).
    assert (P : 0 <= up + w) by (unfold up; pose proof (pow2_ge_0 (rp + h)); lra).
    set (q := sqrt (up + w)). assert (QQ : q ^ 2 = up + w) by (simpl; rewrite Rmult_1_r; apply sqrt_sqrt; auto). assert (q0 : 0 <= q) by apply sqrt_pos.
    assert (qr : rp <= q) by (unfold up in QQ; nra).
    pose proof (turn_grid g d u1 u2 lat0 l a1 a2 up c w G Q eq_refl ltac:(lra) Ha) as TG. fold B in TG.
    pose proof (smean_light_le u1 u2 l a1 a2 up w c lat0 q BN W Ha C0 ltac:(lra)) as SL.
    pose proof (hl_lip u1 u2 c rp q LP C0 (conj HR qr)) as HL. fold B in HL.
    assert (KEY : hidden g u1 u2 lat0 lon0 cm <= gsum g (turn (bright u1 u2) l a1 a2 up w c lat0)).
    { unfold gsum, hidden. apply rsum_map_le. intros p I. pose proof (rarea_nonneg g p G I) as AN. rewrite Rmult_assoc. apply Rmult_le_compat_l; auto.
      unfold turn, targ. fold (Q2 p). rewrite <- EM. set (m := mu lat0 l (fst p) (snd p)) in *. destruct (HM p I) as [CB _].
      destruct (Rle_dec m 0) as [M0|M0]. rewrite bright_neg by auto. lra. apply Rmult_le_compat_l; auto.
      pose proof (step_range ((up - Q2 p) / w)). destruct (Req_dec (cm p) 0) as [Z|Z]. lra.
      apply Rnot_le_lt in M0. destruct (PIX p I M0) as [_ [B1 _]]. specialize (B1 Z). rewrite step_hi. lra. apply div_ge_hi; auto. unfold up. lra. }
    apply Rabs_le_between in TG. assert (RQ : q ^ 2 - rp ^ 2 <= e0 + 3 * w + rp * w). { rewrite QQ. unfold up. replace ((rp + h) ^ 2) with (rp ^ 2 + 2 * (rp * h) + h * h) by ring. lra. }
    assert (T1 : B * (q ^ 2 - rp ^ 2) / 2 <= B * (e0 + 3 * w + rp * w) / 2) by (apply Rmult_le_compat_r; [lra|]; apply Rmult_le_compat_l; lra).
    assert (T2 : B * (120 + 80 * c) * w <= B * (200 * w + 160 * (rp * w))) by (rewrite Rmult_assoc; apply Rmult_le_compat_l; lra).
    assert (BW : 0 <= B * w) by (apply Rmult_le_pos; lra). assert (BRW : 0 <= B * (rp * w)) by (apply Rmult_le_pos; lra). nra.
Qed.
(** ** The specification of the hidden light *)
Lemma behind_range : forall b rp r, 0 <= behind b rp r <= 1.
Proof.
  intros. pose proof PI_RGT_0. pose proof (acos_bound ((r ^ 2 + b ^ 2 - rp ^ 2) / (2 * r * b))). unfold behind. split. apply Rdiv_le_0_compat; lra. apply div_le; lra.
Qed.
Lemma C91_behind_lemma : forall b rp r t, 0 < b -> 0 < r -> 0 <= t <= PI ->
  (t < PI * behind b rp r -> (r * cos t - b) ^ 2 + (r * sin t) ^ 2 <= rp ^ 2)
  /\ (PI * behind b rp r < t -> rp ^ 2 <= (r * cos t - b) ^ 2 + (r * sin t) ^ 2).
Proof.
  intros b rp r t B P T. pose proof PI_RGT_0. assert (X : 0 < 2 * r * b) by (apply Rmult_lt_0_compat; lra).
  replace ((r * cos t - b) ^ 2 + (r * sin t) ^ 2) with (r ^ 2 + b ^ 2 - cos t * (2 * r * b)).
  2: { pose proof (sin2_cos2 t) as E. unfold Rsqr in E. replace (r ^ 2) with (r ^ 2 * (sin t * sin t + cos t * cos t)) by (rewrite E; ring). ring. }
  unfold behind. replace (PI * (acos ((r ^ 2 + b ^ 2 - rp ^ 2) / (2 * r * b)) / PI)) with (acos ((r ^ 2 + b ^ 2 - rp ^ 2) / (2 * r * b))) by (field; lra). split; intros.
  - pose proof (below_acos _ t ltac:(lra) H0) as K. apply div_le in K; auto. lra.
  - pose proof (above_acos _ t ltac:(lra) H0) as K. apply le_div in K; auto. lra.
Qed.
Lemma behind_none : forall b rp r, 0 < b -> 0 < r <= 1 -> 0 <= rp -> 1 + rp <= b -> behind b rp r = 0.
Proof.
  intros b rp r B P R H. unfold behind. rewrite acos_ge_1. unfold Rdiv; ring. apply le_div. apply Rmult_lt_0_compat; lra.
  assert (0 <= rp <= b - r) by lra. assert (rp ^ 2 <= (b - r) ^ 2) by nra. nra.
Qed.
Lemma behind_all : forall b rp r, 0 < b -> 0 < r <= 1 -> 1 + b <= rp -> behind b rp r = 1.
Proof.
  intros b rp r B P H. pose proof PI_RGT_0. unfold behind. rewrite acos_le_m1. field; lra. apply div_le. apply Rmult_lt_0_compat; lra.
  assert (0 <= r + b <= rp) by lra. assert ((r + b) ^ 2 <= rp ^ 2) by nra. nra.
Qed.
Lemma hl_none : forall u1 u2 b rp, 0 < b -> 0 <= rp -> 1 + rp <= b -> hidden_light u1 u2 b rp = 0.
Proof.
  intros. change (RInt (hlf u1 u2 b rp) 0 1 = 0). rewrite (RInt_ext _ (fun _ => 0)). rewrite (@RInt_const R_CompleteNormedModule). unfold scal; simpl; unfold mult; simpl. ring.
  intros x Hx. rewrite Rmin_left, Rmax_right in Hx by lra. unfold hlf. rewrite behind_none by lra. req. ring.
Qed.
Lemma hl_all : forall u1 u2 b rp, 0 < b -> 1 + b <= rp -> hidden_light u1 u2 b rp = disk_light u1 u2 0.
Proof.
  intros u1 u2 b rp B H. pose proof PI_RGT_0. rewrite <- (is_RInt_unique _ _ _ _ (hang_int u1 u2 b rp B)). rewrite light_brint by lra. rewrite <- bright_int by lra.
  pose proof (@RInt_comp R_CompleteNormedModule (bright u1 u2) sin cos 0 (PI / 2)) as X. rewrite sin_0, sin_PI2 in X. rewrite <- X.
  - apply RInt_ext. intros x Hx. rewrite Rmin_left, Rmax_right in Hx by lra. pose proof (cos_pos_in x Hx). pose proof (COS_bound x). unfold hang. rewrite behind_all by lra. unfold scal; simpl; unfold mult; simpl. ring.
  - intros. eapply lip_continuous. apply bright_lip.
  - intros. split. apply is_derive_Reals. apply derivable_pt_lim_sin. apply (@ex_derive_continuous R_AbsRing R_NormedModule). auto_derive; auto.
Qed.
Lemma C91_range_lemma : forall u1 u2 b rp rp', (forall x, 0 < x <= 1 -> 0 <= 1 - u1 * (1 - x) - u2 * (1 - x) ^ 2) -> 0 < b -> 0 <= rp <= rp' ->
  (1 + rp <= b -> hidden_light u1 u2 b rp = 0)
  /\ (1 + b <= rp -> hidden_light u1 u2 b rp = disk_light u1 u2 0)
  /\ 0 <= hidden_light u1 u2 b rp <= hidden_light u1 u2 b rp' /\ hidden_light u1 u2 b rp' <= disk_light u1 u2 0.
Proof.
  intros u1 u2 b rp rp' LP B H. split; [|split; [|split; [split|]]]; intros.
  - apply hl_none; lra.
  - apply hl_all; auto.
  - pose proof (hl_lip u1 u2 b 0 rp LP B ltac:(lra)) as X. rewrite hl_zero in X by auto. lra.
  - pose proof (hl_lip u1 u2 b rp rp' LP B H) as X. lra.
  - rewrite <- (hl_all u1 u2 b (Rmax rp' (1 + b))) by (auto; apply Rmax_r). pose proof (hl_lip u1 u2 b rp' (Rmax rp' (1 + b)) LP B ltac:(split; [lra|apply Rmax_l])). lra.
Qed.
Lemma hl_uniform : forall b rp, 0 < b -> 0 <= rp -> hidden_light 0 0 b rp = larea rp b 1 / (2 * PI).
Proof.
  intros b rp B P. pose proof PI_RGT_0. rewrite <- larc_total by auto. change (hidden_light 0 0 b rp) with (RInt (hlf 0 0 b rp) 0 1).
  rewrite (RInt_ext _ (fun r => scal (/ (2 * PI)) (larc rp b r))).
  - eapply eq_trans. apply (@RInt_scal R_CompleteNormedModule (larc rp b)). apply larc_ex; lra. unfold scal; simpl; unfold mult; simpl. req. field. lra.
  - intros. rewrite hlf_larc. unfold scal; simpl; unfold mult; simpl. req. field. lra.
Qed.
Lemma larea_frac : forall b rp, 0 < b -> 0 < rp <= 1 -> larea rp b 1 = frac rp b * (PI * rp ^ 2).
Proof.
  intros b rp B P. pose proof PI_RGT_0. assert (P2 : 0 < PI * rp ^ 2) by (apply Rmult_lt_0_compat; nra).
  destruct (Rle_dec b (1 - rp)) as [L|L]; [|destruct (Rle_dec (1 + rp) b) as [K|K]].
  - rewrite frac_low by auto. unfold larea. rewrite (gseg_ge_1 (xq rp b 1)), (gseg_le_m1 (xq 1 b rp)). ring.
    + unfold xq. apply div_le. apply Rmult_lt_0_compat; lra. assert ((rp + b) ^ 2 <= 1 ^ 2) by (assert (0 <= rp + b <= 1) by lra; nra). nra.
    + unfold xq. apply le_div. lra. assert (rp ^ 2 <= (1 - b) ^ 2) by (assert (0 <= rp <= 1 - b) by lra; nra). nra.
  - rewrite frac_high by auto. unfold larea. rewrite (gseg_ge_1 (xq rp b 1)), (gseg_ge_1 (xq 1 b rp)). ring.
    + unfold xq. apply le_div. apply Rmult_lt_0_compat; lra. assert (1 ^ 2 <= (b - rp) ^ 2) by nra. nra.
    + unfold xq. apply le_div. lra. assert (rp ^ 2 <= (b - 1) ^ 2) by nra. nra.
  - unfold frac. rewrite lclamp_mid by lra. unfold lens, larea. replace (ld1 rp b) with (xq rp b 1) by (unfold xq, ld1; field; lra).
    replace (ld2 rp b / rp) with (xq 1 b rp) by (unfold xq, ld2, ld1; field; lra). field. lra.
Qed.
(** ** The light curve *)
Lemma far_mask : forall s lat0 lon0 orbit planet phase incl C pf, 0 < st_radius s ->
  let rp := sky_r s planet in let px := sky_x s orbit phase in let py := sky_y s orbit phase incl in
  1 + 2 * rp < sqrt (px^2 + py^2) -> get_transit_mask s lat0 lon0 orbit planet phase incl = Ok (C, pf) ->
  pf = Fin 1 /\ C = amap (fun p => Fin 0) (grid_points (st_grid s)).
Proof.
  intros s lat0 lon0 orbit planet phase incl C pf HR rp px py Hd HM. unfold get_transit_mask in HM. rewrite planet_xy_eq in HM by auto.
  replace (orbit / st_radius s * - sin phase) with px in HM by (unfold px, sky_x; ring).
  replace (orbit / st_radius s * - cos phase * cos incl) with py in HM by (unfold py, sky_y; ring).
  rewrite ndiv_fin in HM by lra. fold (sky_r s planet) in HM. fold rp in HM. cbv zeta in HM. rewrite !nsq_fin, nmul_fin, !nadd_fin in HM.
  replace (px * px + py * py) with (px^2 + py^2) in HM by ring.
  rewrite nsqrt_fin in HM by (pose proof (pow2_ge_0 px); pose proof (pow2_ge_0 py); lra).
  unfold ngt in HM. cbn [nlt] in HM. rewrite (proj2 (Rltb_true _ _)) in HM by auto. rewrite grid_zeros_eq in HM. split; congruence.
Qed.
Lemma hidden_none : forall g u1 u2 lat0 lon0, hidden g u1 u2 lat0 lon0 (fun _ => 0) = 0.
Proof.
  intros. unfold hidden. rewrite (map_ext _ (fun _ => 0)) by (intros; ring). induction (cells (grid_points g)) as [|p ps IH]; auto. simpl. rewrite IH. ring.
Qed.
Lemma C91_lemma : forall label s lat0 lon0 orbit planet phase incl T D A M C pf f d,
  two_decimals label -> disk_view s lat0 lon0 orbit planet phase incl T D A M C pf -> ld_positive s ->
  distinct_labels label s M T D -> (appears (st_grid s) M T \/ D = 0) ->
  resolution (st_grid s) d -> d <= 1 / 1000000 -> 0 <= orbit -> 0 <= planet -> cos phase <= 0 ->
  let rp := sky_r s planet in
  let px := sky_x s orbit phase in let py := sky_y s orbit phase incl in
  let b0 := sqrt (px^2 + py^2) in
  0 < b0 ->
  exists tot cov, calc_coverage s lat0 lon0 (Fin f) orbit planet phase incl = Ok (tot, cov, Fin 1)
    /\ let whole := disk_light (st_u1 s) (st_u2 s) 0 in
       0 < whole
       /\ Rabs (dict_sum cov - hidden_light (st_u1 s) (st_u2 s) b0 rp / whole)
            <= (1 + Rabs (st_u1 s) + Rabs (st_u2 s)) * light_error px py rp d / whole.
Proof.
  intros label s lat0 lon0 orbit planet phase incl T D A M C pf f d TD V LP DL PH Q Hd HO HP HC rp px py b0 Hb.
  rewrite (two_decimals_eq label) in DL by auto. destruct V as [Vu Vg Vr Vl Vt Vd Va Vm Vf Vk] eqn:EV. assert (V' := V). clear EV.
  assert (D1 : 0 < d <= 1) by apply Q.
  assert (HRP : 0 <= rp) by (apply Rdiv_le_0_compat; auto).
  assert (E0 : 0 <= rounding px py rp) by (apply rounding_nonneg; auto).
  assert (W3 : sqrt d <= 1 / 1000) by (apply sqrt_le_of_sq; lra).
  assert (FG := fine_of_res _ _ Vg Q ltac:(lra)).
  assert (DP := disk_pos s lat0 lon0 A FG Vl LP Va).
  assert (SP := sqrt_pos d).
  assert (B1 : 1 <= brightB (st_u1 s) (st_u2 s)) by (unfold brightB; pose proof (Rabs_pos (st_u1 s)); pose proof (Rabs_pos (st_u2 s)); lra).
  assert (MS : exists cm, pf = Fin 1 /\ C = amap (fun p => Fin (cm p)) (grid_points (st_grid s)) /\ (forall p, In p (cells (grid_points (st_grid s))) -> 0 <= cm p <= 1)
    /\ let e := brightB (st_u1 s) (st_u2 s) * (rounding px py rp / 2 + 402 * (1 + rp) * sqrt d) in
       (hidden_light (st_u1 s) (st_u2 s) b0 rp - e) / 2 <= hidden (st_grid s) (st_u1 s) (st_u2 s) lat0 lon0 cm <= (hidden_light (st_u1 s) (st_u2 s) b0 rp + e) / 2).
  { destruct (Rle_dec b0 (1 + 2 * rp)) as [N|N].
    - destruct (px_cov_mask s lat0 lon0 orbit planet phase incl C pf Vg Vl Vr HO HP N HC Vk) as [-> [cm [EC HM]]].
      exists cm. split; auto. split; auto. split. intros p I; apply (HM p I).
      apply (light_sandwich (st_grid s) d lat0 lon0 px py rp cm (st_u1 s) (st_u2 s)); auto. intros x Hx. left. apply LP; auto. apply bright_nonneg; auto.
    - apply Rnot_le_lt in N. destruct (far_mask s lat0 lon0 orbit planet phase incl C pf Vr N Vk) as [-> EC].
      exists (fun _ => 0). split; auto. split; auto. split. intros; lra. rewrite hidden_none. rewrite hl_none by lra.
      set (e := brightB (st_u1 s) (st_u2 s) * (rounding px py rp / 2 + 402 * (1 + rp) * sqrt d)). cbv zeta.
      assert (0 <= e). { unfold e. apply Rmult_le_pos. lra. apply Rplus_le_le_0_compat. lra. apply Rmult_le_pos; lra. } lra. }
  destruct MS as [cm [-> [EC [CB MS]]]]. cbv zeta in MS.
  destruct (covered_sum s lat0 lon0 orbit planet phase incl T D A M C (Fin 1) f cm V' ltac:(lra) DL PH EC) as [tot [cov [E ES]]].
  exists tot, cov. split; auto. rewrite ES. intros whole.
  destruct (covered_ratio s lat0 lon0 d cm _ _ Vg Q Vl LP FG CB MS) as [WP K]. fold whole in WP, K. split; auto.
  set (HL := hidden_light (st_u1 s) (st_u2 s) b0 rp) in *. fold (brightB (st_u1 s) (st_u2 s)) in *. set (B := brightB (st_u1 s) (st_u2 s)) in *. unfold light_error.
  set (X := hidden _ _ _ _ _ _ / _) in *. set (e0 := rounding px py rp) in *. set (w := sqrt d) in *.
  assert (BRW : 0 <= B * (rp * w)) by (apply Rmult_le_pos; [lra|]; apply Rmult_le_pos; lra). assert (BW : 0 <= B * w) by (apply Rmult_le_pos; lra).
  assert (IW : 0 < / whole) by (apply Rinv_0_lt_compat; auto).
  assert (KEY : (B * (e0 / 2 + 402 * (1 + rp) * w) + 160 * B * w) / whole <= B * (e0 / 2 + 1000 * (1 + rp) * w) / whole).
  { apply Rmult_le_compat_r. lra. nra. }
  replace ((HL - B * (e0 / 2 + 402 * (1 + rp) * w)) / whole - 160 * B * w / whole) with (HL / whole - (B * (e0 / 2 + 402 * (1 + rp) * w) + 160 * B * w) / whole) in K by (field; lra).
  replace ((HL + B * (e0 / 2 + 402 * (1 + rp) * w)) / whole + 160 * B * w / whole) with (HL / whole + (B * (e0 / 2 + 402 * (1 + rp) * w) + 160 * B * w) / whole) in K by (field; lra).
  apply Rabs_le. lra.
Qed.
(** a star of uniform brightness: the area of the lens computed by [circ_fraction] *)
Lemma C91_uniform_lemma : forall label s lat0 lon0 orbit planet phase incl T D A M C pf f d,
  two_decimals label -> disk_view s lat0 lon0 orbit planet phase incl T D A M C pf -> st_u1 s = 0 -> st_u2 s = 0 ->
  distinct_labels label s M T D -> (appears (st_grid s) M T \/ D = 0) ->
  resolution (st_grid s) d -> d <= 1 / 1000000 -> 0 <= orbit -> cos phase <= 0 ->
  let rp := sky_r s planet in
  let px := sky_x s orbit phase in let py := sky_y s orbit phase incl in
  0 < rp <= 1 -> 0 < sqrt (px^2 + py^2) ->
  exists tot cov v, calc_coverage s lat0 lon0 (Fin f) orbit planet phase incl = Ok (tot, cov, Fin 1)
    /\ circ_fraction (Fin px) (Fin py) (Fin rp) = Ok (Fin v)
    /\ Rabs (dict_sum cov - v * rp^2) <= rounding px py rp + 4000 * sqrt d.
Proof.
  intros label s lat0 lon0 orbit planet phase incl T D A M C pf f d TD V U1 U2 DL PH Q Hd HO HC rp px py HR Hb.
  assert (LP : ld_positive s) by (intros m Hm; rewrite U1, U2; lra).
  assert (HP : 0 <= planet). { assert (0 < st_radius s) by apply V. replace planet with (rp * st_radius s) by (unfold rp, sky_r; field; lra). apply Rmult_le_pos; lra. }
  destruct (C91_lemma label s lat0 lon0 orbit planet phase incl T D A M C pf f d TD V LP DL PH Q Hd HO HP HC Hb) as [tot [cov [E [_ K]]]].
  exists tot, cov, (frac rp (sqrt (px ^ 2 + py ^ 2))). split; auto. split. apply circ_fraction_eq; auto.
  fold rp px py in K. rewrite U1, U2 in K. rewrite light_brint in K by lra. unfold brint in K. rewrite Rabs_R0 in K. rewrite hl_uniform, larea_frac in K by (auto; lra).
  pose proof PI_RGT_0. set (fr := frac rp (sqrt (px ^ 2 + py ^ 2))) in *. unfold light_error in K. pose proof (sqrt_pos d).
  replace ((1 - 0 ^ 2) / 2 - 0 * (1 - 3 * 0 ^ 2 + 2 * 0 ^ 3) / 6 - 0 * (1 - 6 * 0 ^ 2 + 8 * 0 ^ 3 - 3 * 0 ^ 4) / 12) with (1 / 2) in K by field.
  replace (fr * (PI * rp ^ 2) / (2 * PI) / (1 / 2)) with (fr * rp ^ 2) in K by (field; lra).
  eapply Rle_trans. apply K. replace ((1 + 0 + 0) * (rounding px py rp / 2 + 1000 * (1 + rp) * sqrt d) / (1 / 2)) with (rounding px py rp + 2000 * (1 + rp) * sqrt d) by field. nra.
Qed.
