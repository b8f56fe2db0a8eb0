(** Means over the sphere do not change when the observer is moved to the pole. *)
From Coq Require Import Reals ZArith Bool List Lra Lia Permutation.
From Coquelicot Require Import Coquelicot.
From Verif Require Import Num Py MConfig MHelpers MGrid MSpots MFaculae MStar Spec SpecStar SpecDisk SpecConv
  LBase LGrid LHelpers LCirc LQuad LGauss LSpotMap LSpotCov LStarFac LDisk LSym LSphere LConv LSpiral LStarCov LZonal LCap LRot LDisc.
Import ListNotations.
Open Scope R_scope.

(** ** Change with the observer's latitude *)
Lemma tame_mu_turn : forall l lat lon, tame 6 (fun th => mu th l lat lon) (fun th => e1 th l lat lon).
Proof.
  intros. eapply tame_ext; [| |apply (tame_mu_th l lat lon)]; intros; auto. rewrite e1_eq. auto.
Qed.
Lemma tame_shift : forall B f f1 c, tame B f f1 -> tame B (fun x => f (x + c)) (fun x => f1 (x + c)).
Proof.
  intros B f f1 c [[H1 H2] [H3 H4]]. split; [split|split]; intros; auto.
  - eapply Rle_trans. apply H2. replace (y + c - (x + c)) with (y - x) by ring. lra.
  - specialize (H4 (x + c) (y + c)). replace (y + c - (x + c)) with (y - x) in H4 by ring. auto.
Qed.
Lemma e1_turn : forall th l lat lon, e1 (th + PI / 2) l lat lon = - mu th l lat lon.
Proof.
  intros. rewrite e1_eq. unfold mth, mu, law_cos. rewrite sin_plus, cos_plus, sin_PI2, cos_PI2. ring.
Qed.
Lemma tame_e1_turn : forall l lat lon, tame 6 (fun th => e1 th l lat lon) (fun th => - mu th l lat lon).
Proof.
  intros. eapply tame_ext; [| |apply (tame_shift _ _ _ (PI / 2) (tame_mu_turn l lat lon))]; intros; cbv beta; auto.
  rewrite e1_turn. auto.
Qed.
Definition targ (l a1 a2 R2 w c lat lon th : R) : R := (R2 - qd th l a1 a2 c lat lon) / w.
Definition targ1 (l a1 a2 R2 w c lat lon th : R) : R := (2 * mu th l lat lon * e1 th l lat lon - 2 * c * a1 * mu th l lat lon) / w.
Lemma tame_targ : forall l a1 a2 R2 w c, 0 < w -> exists B, forall lat lon, tame B (targ l a1 a2 R2 w c lat lon) (targ1 l a1 a2 R2 w c lat lon).
Proof.
  intros l a1 a2 R2 w c W. eexists. intros lat lon.
  pose proof (tame_mu_turn l lat lon) as TM. pose proof (tame_e1_turn l lat lon) as TE.
  assert (E2 : Rabs (a2 * e2 l lat lon) <= Rabs a2).
  { rewrite Rabs_mult. pose proof (Rabs_pos a2). assert (Rabs (e2 l lat lon) <= 1) by (apply Rabs_le, law_cos_bound). nra. }
  pose proof (tame_weaken _ _ _ _ E2 (tame_const (a2 * e2 l lat lon))) as T2.
  pose proof (tame_mult _ _ _ _ _ _ (tame_const (/ w)) (tame_plus _ _ _ _ _ _ (tame_const (R2 - 1 - c ^ 2)) (tame_plus _ _ _ _ _ _ (tame_mult _ _ _ _ _ _ TM TM)
    (tame_mult _ _ _ _ _ _ (tame_const (2 * c)) (tame_plus _ _ _ _ _ _ (tame_mult _ _ _ _ _ _ (tame_const a1) TE) T2))))) as T.
  eapply tame_ext; [| |apply T]; intros; cbv beta.
  - unfold targ, qd, vdir. field. lra.
  - unfold targ1. field. lra.
Qed.
Definition turn (G : R -> R) (l a1 a2 R2 w c th lat lon : R) : R := G (mu th l lat lon) * step (targ l a1 a2 R2 w c lat lon th).
Definition turn1 (G G1 : R -> R) (l a1 a2 R2 w c th lat lon : R) : R :=
  G1 (mu th l lat lon) * e1 th l lat lon * step (targ l a1 a2 R2 w c lat lon th)
  + G (mu th l lat lon) * (step1 (targ l a1 a2 R2 w c lat lon th) * targ1 l a1 a2 R2 w c lat lon th).
Lemma tame_turn : forall K G G1 l a1 a2 R2 w c, bend K G G1 -> 0 < w -> exists B, forall lat lon,
  tame B (fun th => turn G l a1 a2 R2 w c th lat lon) (fun th => turn1 G G1 l a1 a2 R2 w c th lat lon).
Proof.
  intros K G G1 l a1 a2 R2 w c BG W. destruct (tame_targ l a1 a2 R2 w c W) as [B TA]. eexists. intros lat lon.
  pose proof (tame_mult _ _ _ _ _ _ (tame_bend _ _ _ _ _ _ BG (tame_mu_turn l lat lon)) (tame_bend _ _ _ _ _ _ step_bend (TA lat lon))) as T.
  apply T.
Qed.
Lemma fld_turn : forall K G G1 l a1 a2 R2 w c th, bend K G G1 -> 0 < w ->
  fld (turn G l a1 a2 R2 w c th)
   (fun lat lon => G1 (mu th l lat lon) * mu_a th l lat lon * step (targ l a1 a2 R2 w c lat lon th)
      + G (mu th l lat lon) * (step1 (targ l a1 a2 R2 w c lat lon th) * ((2 * mu th l lat lon * mu_a th l lat lon + 2 * c * v_a th l a1 a2 lat lon) / w)))
   (fun lat lon => G1 (mu th l lat lon) * mu_o th l lat lon * step (targ l a1 a2 R2 w c lat lon th)
      + G (mu th l lat lon) * (step1 (targ l a1 a2 R2 w c lat lon th) * ((2 * mu th l lat lon * mu_o th l lat lon + 2 * c * v_o th l a1 a2 lat lon) / w))).
Proof.
  intros K G G1 l a1 a2 R2 w c th BG W.
  apply (fld_mult _ _ _ _ _ _ (fld_bend _ _ _ _ _ _ BG (fld_mu th l)) (fld_bend _ _ _ _ _ _ step_bend (fld_arg th l a1 a2 R2 w c W))).
Qed.
Lemma turn_sf : forall K G G1 l a1 a2 R2 w c th, bend K G G1 -> 0 < w -> exists B L, sphere_fun B L (turn G l a1 a2 R2 w c th).
Proof. intros. eapply fld_sf. eapply fld_turn; eauto. Qed.
Lemma turn1_sf : forall K G G1 l a1 a2 R2 w c th, bend K G G1 -> 0 < w -> exists B L, sphere_fun B L (turn1 G G1 l a1 a2 R2 w c th).
Proof.
  intros K G G1 l a1 a2 R2 w c th BG W.
  destruct (fld_sf _ _ _ (fld_arg th l a1 a2 R2 w c W)) as [B2 [L2 SA]].
  assert (SS : sphere_fun 1 (1 * L2) (fun lat lon => step ((R2 - qd th l a1 a2 c lat lon) / w))).
  { apply (comp_sf B2 L2 1 1 step _ SA step_lip). intros. pose proof (step_range x). apply Rabs_le; lra. }
  assert (S1 : sphere_fun 1 (2 * L2) (fun lat lon => step1 ((R2 - qd th l a1 a2 c lat lon) / w))).
  { apply (comp_sf B2 L2 2 1 step1 _ SA step1_lip). intros. pose proof (step1_range x). apply Rabs_le; lra. }
  pose proof (zonal_sf K K G th l (bd_l _ _ _ BG) (fun m _ => bd_b _ _ _ BG m)) as SG.
  pose proof (zonal_sf K K G1 th l (bd_l1 _ _ _ BG) (fun m _ => bd_b1 _ _ _ BG m)) as SG1.
  pose proof (mu_sf th l) as SM. pose proof (mu_sf (th + PI / 2) l) as SE. fold (e1 th l) in SE.
  pose proof (lin_sf _ _ _ _ _ _ (2 / w) (- (2 * c * a1) / w) (mult_sf _ _ _ _ _ _ SM SE) SM) as ST.
  assert (ST' : exists B L, sphere_fun B L (fun lat lon => targ1 l a1 a2 R2 w c lat lon th)).
  { do 2 eexists. destruct ST as [X1 X2 X3].
    assert (Eq : forall lat lon, targ1 l a1 a2 R2 w c lat lon th = 2 / w * (mu th l lat lon * e1 th l lat lon) + - (2 * c * a1) / w * mu th l lat lon) by (intros; unfold targ1; field; lra).
    split; intros; rewrite !Eq; [apply X1|apply X2|apply X3]. }
  destruct ST' as [B3 [L3 ST']].
  pose proof (lin_sf _ _ _ _ _ _ 1 1 (mult_sf _ _ _ _ _ _ (mult_sf _ _ _ _ _ _ SG1 SE) SS) (mult_sf _ _ _ _ _ _ SG (mult_sf _ _ _ _ _ _ S1 ST'))) as X.
  do 2 eexists. destruct X as [X1 X2 X3].
  assert (Eq : forall lat lon, turn1 G G1 l a1 a2 R2 w c th lat lon = 1 * (G1 (mu th l lat lon) * e1 th l lat lon * step ((R2 - qd th l a1 a2 c lat lon) / w))
     + 1 * (G (mu th l lat lon) * (step1 ((R2 - qd th l a1 a2 c lat lon) / w) * targ1 l a1 a2 R2 w c lat lon th))) by (intros; unfold turn1, targ; ring).
  split; intros; rewrite !Eq; [apply X1|apply X2|apply X3].
Qed.
Lemma turn1_zero : forall K G G1 l a1 a2 R2 w c th, bend K G G1 -> 0 < w -> smean (turn1 G G1 l a1 a2 R2 w c th) = 0.
Proof.
  intros K G G1 l a1 a2 R2 w c th BG W.
  apply (rot_zero _ _ _ (- (1)) 0 0 l _ (fld_turn K G G1 l a1 a2 R2 w c th BG W)).
  - intros. set (g1 := G1 (mu th l lat lon)). set (g := G (mu th l lat lon)). set (s := step (targ l a1 a2 R2 w c lat lon th)). set (s1 := step1 (targ l a1 a2 R2 w c lat lon th)).
    assert (DM : drift th l 1 0 (mu_a th l) (mu_o th l) lat lon = cos lat * e1 th l lat lon) by (rewrite drift_mu; unfold vdir; ring).
    assert (DV : drift th l 1 0 (v_a th l a1 a2) (v_o th l a1 a2) lat lon = - (a1 * (cos lat * mu th l lat lon))).
    { transitivity (a1 * drift th l 1 0 (mu_a (th + PI / 2) l) (mu_o (th + PI / 2) l) lat lon + a2 * drift th l 1 0 (mu_a 0 (l - PI / 2)) (mu_o 0 (l - PI / 2)) lat lon).
      unfold drift, v_a, v_o. ring. rewrite drift_e1, drift_e2. ring. }
    transitivity (g1 * s * drift th l 1 0 (mu_a th l) (mu_o th l) lat lon + g * s1 / w * (2 * mu th l lat lon * drift th l 1 0 (mu_a th l) (mu_o th l) lat lon + 2 * c * drift th l 1 0 (v_a th l a1 a2) (v_o th l a1 a2) lat lon)).
    + rewrite DM, DV. unfold turn1, targ1. fold g1 g s s1. field. lra.
    + unfold drift. field. lra.
  - intros. destruct (turn1_sf K G G1 l a1 a2 R2 w c th BG W) as [B [L X]]. eexists. apply (sf_lip_lon _ _ _ lat X).
Qed.
Lemma turn_const : forall K G G1 l a1 a2 R2 w c th th', bend K G G1 -> 0 < w ->
  smean (turn G l a1 a2 R2 w c th) = smean (turn G l a1 a2 R2 w c th').
Proof.
  intros K G G1 l a1 a2 R2 w c th th' BG W. destruct (tame_turn K G G1 l a1 a2 R2 w c BG W) as [B T].
  assert (PB : 0 <= B) by apply (lipb_pos _ _ (proj1 (T 0 0))).
  set (J := fun th => smean (turn G l a1 a2 R2 w c th)).
  assert (D : forall x, is_derive J x 0).
  { intros. apply quad_derive with B; auto. intros y. rewrite Rmult_0_r, Rminus_0_r. unfold J.
    apply (smean_quad _ _ (turn1 G G1 l a1 a2 R2 w c x) (y - x)).
    eapply turn_sf; eauto. eapply turn_sf; eauto. eapply turn1_sf; eauto. eapply turn1_zero; eauto.
    intros. apply (proj2 (proj2 (T lat lon))). }
  destruct (Rtotal_order th th') as [H|[->|H]]; auto.
  - apply (@eq_is_derive R_NormedModule J); auto.
  - symmetry. apply (@eq_is_derive R_NormedModule J); auto.
Qed.
(** ** Lipschitz brightness *)
Lemma avg_bound : forall L B F d m, lip L F -> 0 < d -> (forall x, Rabs (F x) <= B) -> Rabs (avg F d m) <= B.
Proof.
  intros L B F d m H Hd Hb. rewrite (avg_RInt L) by auto.
  assert (E : ex_RInt F m (m + d)) by (eapply lip_ex_RInt; eauto).
  pose proof (abs_RInt_le_const F m (m + d) B ltac:(lra) E (fun t _ => Hb t)) as X. replace (m + d - m) with d in X by ring.
  rewrite Rabs_div by lra. rewrite (Rabs_right d) by lra. apply Rmult_le_reg_r with d; auto. unfold Rdiv. rewrite Rmult_assoc, Rinv_l by lra. lra.
Qed.
Lemma avg_bend : forall L B F d, lip L F -> 0 < d <= 1 -> (forall x, Rabs (F x) <= B) ->
  bend (B + L + 2 * L / d) (avg F d) (fun m => (F (m + d) - F m) / d).
Proof.
  intros L B F d H Hd Hb. pose proof (lip_pos _ _ H) as HL. assert (HB : 0 <= B) by (pose proof (Hb 0); pose proof (Rabs_pos (F 0)); lra).
  assert (PD : 0 <= 2 * L / d) by (apply Rdiv_le_0_compat; lra).
  assert (B1 : forall m, Rabs ((F (m + d) - F m) / d) <= L).
  { intros. rewrite Rabs_div by lra. rewrite (Rabs_right d) by lra. apply (Rmult_le_reg_r d); [lra|].
    unfold Rdiv. rewrite Rmult_assoc, Rinv_l, Rmult_1_r by lra. specialize (H m (m + d)). replace (m + d - m) with d in H by ring.
    rewrite (Rabs_right d) in H by lra. auto. }
  assert (L1 : forall m n, Rabs ((F (n + d) - F n) / d - (F (m + d) - F m) / d) <= 2 * L / d * Rabs (n - m)).
  { intros. replace (_ - _) with (((F (n + d) - F (m + d)) - (F n - F m)) / d) by (field; lra).
    rewrite Rabs_div by lra. rewrite (Rabs_right d) by lra.
    replace (2 * L / d * Rabs (n - m)) with ((2 * L * Rabs (n - m)) / d) by (field; lra).
    apply Rmult_le_compat_r. left; apply Rinv_0_lt_compat; lra.
    unfold Rminus at 1. eapply Rle_trans. apply Rabs_triang. rewrite Rabs_Ropp.
    pose proof (H m n). pose proof (H (m + d) (n + d)). replace (n + d - (m + d)) with (n - m) in H1 by ring. lra. }
  split; intros.
  - eapply Rle_trans. apply (avg_bound L B); auto; lra. lra.
  - eapply Rle_trans. apply B1. lra.
  - intros x y. eapply Rle_trans. apply (avg_lip L F d H Hd). apply Rmult_le_compat_r. apply Rabs_pos. lra.
  - intros x y. eapply Rle_trans. apply L1. apply Rmult_le_compat_r. apply Rabs_pos. lra.
  - eapply Rle_trans. apply (taylor_quad (avg F d) (fun m => (F (m + d) - F m) / d) (2 * L / d)); auto. intros; eapply avg_derive; eauto; lra.
    apply Rmult_le_compat_r. apply pow2_ge_0. lra.
Qed.
Lemma turn_lip_sf : forall L B G l a1 a2 R2 w c th, lip L G -> (forall x, Rabs (G x) <= B) -> 0 < w -> exists C M, sphere_fun C M (turn G l a1 a2 R2 w c th).
Proof.
  intros L B G l a1 a2 R2 w c th H Hb W.
  destruct (fld_sf _ _ _ (fld_arg th l a1 a2 R2 w c W)) as [B2 [L2 SA]].
  assert (SS : sphere_fun 1 (1 * L2) (fun lat lon => step ((R2 - qd th l a1 a2 c lat lon) / w))).
  { apply (comp_sf B2 L2 1 1 step _ SA step_lip). intros. pose proof (step_range x). apply Rabs_le; lra. }
  pose proof (zonal_sf L B G th l H (fun m _ => Hb m)) as SG.
  do 2 eexists. apply (mult_sf _ _ _ _ _ _ SG SS).
Qed.
Lemma smean_near : forall f g e, (exists B L, sphere_fun B L f) -> (exists B L, sphere_fun B L g) ->
  (forall lat lon, Rabs (f lat lon - g lat lon) <= e) -> Rabs (smean f - smean g) <= e.
Proof.
  intros f g e F G H. pose proof one_sf as O.
  apply (smean_quad f g (fun _ _ => 0) 0 e); auto.
  - exists (Rabs 0), 0. apply const_sf.
  - unfold smean, lonmean. rewrite (RInt_ext _ (fun _ => 0)). rewrite (@RInt_const R_CompleteNormedModule). change (/ 2 * ((PI / 2 - - PI / 2) * 0) = 0). ring.
    intros. rewrite (@RInt_const R_CompleteNormedModule). change (cos x * (/ (2 * PI) * ((2 * PI - 0) * 0)) = 0). ring.
  - intros. replace (f lat lon - g lat lon - 0 * 0) with (f lat lon - g lat lon) by ring. auto.
Qed.
Lemma small_zero : forall x C, 0 <= C -> (forall d, 0 < d <= 1 -> Rabs x <= C * d) -> x = 0.
Proof.
  intros x C HC H. destruct (Req_dec x 0) as [|N]; auto. exfalso. assert (P : 0 < Rabs x) by (apply Rabs_pos_lt; auto).
  pose proof (H 1 ltac:(lra)) as H1. set (d := Rabs x / (2 * C)). assert (0 < C) by lra.
  assert (D : 0 < d <= 1). { unfold d. split. apply Rdiv_lt_0_compat; lra. apply Rmult_le_reg_r with (2 * C). lra. unfold Rdiv. rewrite Rmult_assoc, Rinv_l by lra. lra. }
  specialize (H d D). replace (C * d) with (Rabs x / 2) in H by (unfold d; field; lra). lra.
Qed.
Lemma turn_inv : forall L B G l a1 a2 R2 w c th th', lip L G -> (forall x, Rabs (G x) <= B) -> 0 < w ->
  smean (turn G l a1 a2 R2 w c th) = smean (turn G l a1 a2 R2 w c th').
Proof.
  intros L B G l a1 a2 R2 w c th th' H Hb W. pose proof (lip_pos _ _ H) as HL.
  apply Rminus_diag_uniq. apply small_zero with (2 * L). lra. intros d Hd.
  pose proof (avg_bend L B G d H Hd Hb) as BG.
  assert (N : forall t, Rabs (smean (turn G l a1 a2 R2 w c t) - smean (turn (avg G d) l a1 a2 R2 w c t)) <= L * d).
  { intros. apply smean_near. eapply turn_lip_sf; eauto. eapply turn_sf; eauto.
    intros. unfold turn. rewrite <- Rmult_minus_distr_r, Rabs_mult. pose proof (avg_near L G d (mu t l lat lon) H ltac:(lra)) as X.
    rewrite Rabs_minus_sym in X. pose proof (step_range (targ l a1 a2 R2 w c lat lon t)) as Sr. rewrite (Rabs_right (step _)) by lra.
    pose proof (Rabs_pos (G (mu t l lat lon) - avg G d (mu t l lat lon))). nra. }
  pose proof (N th) as N1. pose proof (N th') as N2. rewrite (turn_const _ _ _ l a1 a2 R2 w c th th' BG W) in N1.
  apply Rabs_le_between in N1. apply Rabs_le_between in N2. apply Rabs_le. lra.
Qed.
(** ** Seen from above the pole *)
Lemma unit_angle : forall x y, x ^ 2 + y ^ 2 = 1 -> exists a, cos a = x /\ sin a = y.
Proof.
  intros x y H. assert (X : -1 <= x <= 1) by nra.
  assert (S2 : sin (acos x) * sin (acos x) = y * y). { pose proof (sin2_cos2 (acos x)) as E. unfold Rsqr in E. rewrite cos_acos in E by auto. nra. }
  assert (S0 : 0 <= sin (acos x)) by (pose proof (acos_bound x); apply sin_ge_0; lra).
  destruct (Rle_dec 0 y).
  - exists (acos x). rewrite cos_acos by auto. split; auto. nra.
  - exists (- acos x). rewrite cos_neg, sin_neg, cos_acos by auto. split; auto. nra.
Qed.
Lemma turn_pole : forall G l a1 a2 R2 w c, 0 < w -> a1 ^ 2 + a2 ^ 2 = 1 -> exists K, forall lat lon,
  turn G l a1 a2 R2 w c (PI / 2) lat lon = G (sin lat) * step ((R2 - cos lat ^ 2 - c ^ 2 + 2 * c * cos lat * cos (K - lon)) / w).
Proof.
  intros G l a1 a2 R2 w c W Ha. destruct (unit_angle (- a1) a2 ltac:(nra)) as [al [C A]].
  exists (l - al). intros. unfold turn, targ. f_equal.
  - f_equal. unfold mu, law_cos. rewrite sin_PI2, cos_PI2. ring.
  - f_equal. f_equal. unfold qd, vdir. rewrite e1_eq, e2_eq. unfold mth, mu, law_cos. rewrite sin_PI2, cos_PI2.
    replace (l - al - lon) with (l - lon - al) by ring. rewrite (cos_minus (l - lon) al), C, A.
    pose proof (sin2_cos2 lat) as E. unfold Rsqr in E. simpl. nra.
Qed.
(** integral over a period *)
Lemma period_int : forall (h : R -> R) K, (forall t, continuous h t) -> (forall t, h (t + 2 * PI) = h t) -> (forall t, h (- t) = h t) ->
  RInt (fun t => h (K - t)) 0 (2 * PI) = 2 * RInt h 0 PI.
Proof.
  intros h K Ch Ph Eh. pose proof PI_RGT_0.
  assert (E : forall a b, ex_RInt h a b) by (intros; apply (@ex_RInt_continuous R_CompleteNormedModule); intros; auto).
  assert (S1 : forall a b, RInt h (a + 2 * PI) (b + 2 * PI) = RInt h a b).
  { intros. pose proof (@RInt_comp_lin R_CompleteNormedModule h 1 (2 * PI) a b) as X.
    rewrite !Rmult_1_l in X. rewrite <- X by apply E. apply RInt_ext. intros. unfold scal; simpl; unfold mult; simpl. rewrite !Rmult_1_l. apply Ph. }
  assert (S2 : forall a b, RInt h (- a) (- b) = - RInt h a b).
  { intros. pose proof (@RInt_comp_lin R_CompleteNormedModule h (-1) 0 a b) as X.
    replace (-1 * a + 0) with (- a) in X by ring. replace (-1 * b + 0) with (- b) in X by ring. rewrite <- X by apply E.
    rewrite (RInt_ext _ (fun y => opp (h y))). rewrite (@RInt_opp R_CompleteNormedModule) by apply E. reflexivity.
    intros. unfold scal, opp; simpl; unfold mult; simpl. replace (-1 * x + 0) with (- x) by ring. rewrite Eh. ring. }
  assert (S3 : RInt (fun t => h (K - t)) 0 (2 * PI) = RInt h (K - 2 * PI) K).
  { pose proof (@RInt_comp_lin R_CompleteNormedModule h (-1) K 0 (2 * PI)) as X.
    replace (-1 * 0 + K) with K in X by ring. replace (-1 * (2 * PI) + K) with (K - 2 * PI) in X by ring.
    rewrite <- (@opp_RInt_swap R_CompleteNormedModule h K (K - 2 * PI)) by apply E. rewrite <- X by apply E.
    rewrite <- (@RInt_opp R_CompleteNormedModule). apply RInt_ext. intros. unfold scal, opp; simpl; unfold mult; simpl. replace (-1 * x + K) with (K - x) by ring. req. ring.
    apply (@ex_RInt_comp_lin R_NormedModule h (-1) K). apply E. }
  rewrite S3.
  assert (C3 : forall a b c, RInt h a b + RInt h b c = RInt h a c) by (intros; apply (@RInt_Chasles R_CompleteNormedModule h); apply E).
  rewrite <- (C3 _ (- PI) K). rewrite <- (S1 (K - 2 * PI) (- PI)). replace (K - 2 * PI + 2 * PI) with K by ring. replace (- PI + 2 * PI) with PI by ring.
  rewrite Rplus_comm, C3. rewrite <- (C3 (- PI) 0 PI). replace (RInt h (- PI) 0) with (RInt h 0 PI). req. ring.
  pose proof (S2 0 PI) as X. rewrite Ropp_0 in X. pose proof (C3 (- PI) 0 (- PI)) as Y. rewrite X in Y.
  pose proof (@RInt_point R_CompleteNormedModule (- PI) h) as Z. change (RInt h (- PI) (- PI) = 0) in Z. lra.
Qed.
(** mean over the circle at distance [r] from the centre of the disk *)
Definition ringm (R2 w c r : R) : R := / PI * RInt (fun t => step ((R2 - r ^ 2 - c ^ 2 + 2 * c * r * cos t) / w)) 0 PI.
Lemma ring_cont : forall R2 w c r, 0 < w -> forall t, continuous (fun t => step ((R2 - r ^ 2 - c ^ 2 + 2 * c * r * cos t) / w)) t.
Proof.
  intros. apply (continuous_comp (fun t => (R2 - r ^ 2 - c ^ 2 + 2 * c * r * cos t) / w) step).
  apply (@ex_derive_continuous R_AbsRing R_NormedModule). auto_derive; auto. eapply lip_continuous. apply step_lip.
Qed.
Lemma lonmean_pole : forall G l a1 a2 R2 w c, 0 < w -> a1 ^ 2 + a2 ^ 2 = 1 -> forall lat,
  lonmean (turn G l a1 a2 R2 w c (PI / 2)) lat = G (sin lat) * ringm R2 w c (cos lat).
Proof.
  intros G l a1 a2 R2 w c W Ha lat. destruct (turn_pole G l a1 a2 R2 w c W Ha) as [K E].
  pose proof PI_RGT_0. unfold lonmean, ringm.
  rewrite (RInt_ext _ (fun lon => scal (G (sin lat)) (step ((R2 - cos lat ^ 2 - c ^ 2 + 2 * c * cos lat * cos (K - lon)) / w)))) by (intros; rewrite E; reflexivity).
  rewrite (@RInt_scal R_CompleteNormedModule).
  - rewrite (period_int (fun t => step ((R2 - cos lat ^ 2 - c ^ 2 + 2 * c * cos lat * cos t) / w)) K).
    + unfold scal; simpl; unfold mult; simpl. req. field. lra.
    + intros. apply ring_cont; auto.
    + intros. do 4 f_equal. pose proof (cos_period t 1) as X. simpl in X. rewrite Rmult_1_r in X. rewrite <- X. f_equal. 
    + intros. rewrite cos_neg. auto.
  - apply (@ex_RInt_continuous R_CompleteNormedModule). intros.
    apply (continuous_comp (fun t => K - t) (fun t => step ((R2 - cos lat ^ 2 - c ^ 2 + 2 * c * cos lat * cos t) / w))).
    apply (@ex_derive_continuous R_AbsRing R_NormedModule). auto_derive; auto. apply ring_cont; auto.
Qed.
Lemma smean_turn : forall L B G l a1 a2 R2 w c th, lip L G -> (forall x, Rabs (G x) <= B) -> 0 < w -> a1 ^ 2 + a2 ^ 2 = 1 ->
  smean (turn G l a1 a2 R2 w c th) = / 2 * RInt (fun lat => cos lat * (G (sin lat) * ringm R2 w c (cos lat))) (- PI / 2) (PI / 2).
Proof.
  intros L B G l a1 a2 R2 w c th H Hb W Ha. rewrite (turn_inv L B G l a1 a2 R2 w c th (PI / 2)) by auto.
  unfold smean. f_equal. apply RInt_ext. intros lat _. f_equal. apply lonmean_pole; auto.
Qed.
Lemma ring_int_ex : forall L B G R2 w c a b, lip L G -> (forall x, Rabs (G x) <= B) -> 0 < w -> ex_RInt (fun lat => cos lat * (G (sin lat) * ringm R2 w c (cos lat))) a b.
Proof.
  intros L B G R2 w c a b H Hb W. destruct (turn_lip_sf L B G 0 1 0 R2 w c (PI / 2) H Hb W) as [C [M SF]].
  apply (ex_RInt_ext (fun lat => cos lat * lonmean (turn G 0 1 0 R2 w c (PI / 2)) lat)).
  - intros. rewrite lonmean_pole by (auto; ring). auto.
  - eapply sf_cosint_ex; eauto.
Qed.
