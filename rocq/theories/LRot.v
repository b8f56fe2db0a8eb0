(** Derivatives along rotations have mean zero over the sphere, and the consequence that
    the foreshortened area of a disc on the sky does not depend on where the disc is. *)
From Coq Require Import Reals ZArith Bool List Lra Lia Permutation.
From Coquelicot Require Import Coquelicot.
From Verif Require Import Num Py MConfig MHelpers MGrid MSpots MFaculae MStar Spec SpecStar SpecDisk SpecConv
  LBase LGrid LHelpers LCirc LQuad LGauss LSpotMap LSpotCov LStarFac LDisk LSym LSphere LConv LSpiral LStarCov LZonal LCap.
Import ListNotations.
Open Scope R_scope.

(** ** Smooth functions on the sphere, with their partial derivatives *)
Record fldb (B : R) (f fa fo : R -> R -> R) : Prop := {
  fl_lat : forall lon, tame B (fun lat => f lat lon) (fun lat => fa lat lon);
  fl_lon : forall lat, tame B (f lat) (fo lat);
  fl_a_lat : forall lon, lipb B (fun lat => fa lat lon);
  fl_a_lon : forall lat, lipb B (fa lat);
  fl_o_lat : forall lon, lipb B (fun lat => fo lat lon);
  fl_o_lon : forall lat, lipb B (fo lat);
  fl_per : forall lat lon, f lat (lon + 2 * PI) = f lat lon }.
Definition fld (f fa fo : R -> R -> R) : Prop := exists B, fldb B f fa fo.
Lemma fldb_weaken : forall B C f fa fo, B <= C -> fldb B f fa fo -> fldb C f fa fo.
Proof.
  intros B C f fa fo L H; destruct H; split; intros; auto.
  1-2: apply tame_weaken with B; auto. all: apply lipb_weaken with B; auto.
Qed.
Lemma fldb_pos : forall B f fa fo, fldb B f fa fo -> 0 <= B.
Proof. intros. destruct (fl_lon _ _ _ _ H 0) as [X _]. apply (lipb_pos _ _ X). Qed.
Lemma fld_sf : forall f fa fo, fld f fa fo -> exists B L, sphere_fun B L f.
Proof.
  intros f fa fo [B H]. exists B, B. split; intros.
  - apply (proj1 (proj1 (fl_lon _ _ _ _ H lat))).
  - replace (f lat lon - f lat' lon') with ((f lat lon - f lat' lon) + (f lat' lon - f lat' lon')) by ring.
    eapply Rle_trans. apply Rabs_triang.
    pose proof (proj2 (proj1 (fl_lat _ _ _ _ H lon)) lat' lat). pose proof (proj2 (proj1 (fl_lon _ _ _ _ H lat')) lon' lon). cbv beta in *. lra.
  - apply (fl_per _ _ _ _ H).
Qed.
Lemma fld_ext : forall f fa fo g ga go, fld f fa fo -> (forall x y, g x y = f x y) -> (forall x y, ga x y = fa x y) -> (forall x y, go x y = fo x y) -> fld g ga go.
Proof.
  intros f fa fo g ga go [B H] E Ea Eo. exists B. destruct H. split; intros.
  - eapply tame_ext; [intros; apply E|intros; apply Ea|apply (fl_lat0 lon)].
  - eapply tame_ext; [intros; apply E|intros; apply Eo|apply (fl_lon0 lat)].
  - eapply lipb_ext; [intros; apply Ea|apply (fl_a_lat0 lon)].
  - eapply lipb_ext; [intros; apply Ea|apply (fl_a_lon0 lat)].
  - eapply lipb_ext; [intros; apply Eo|apply (fl_o_lat0 lon)].
  - eapply lipb_ext; [intros; apply Eo|apply (fl_o_lon0 lat)].
  - rewrite !E. auto.
Qed.
Lemma fld_const : forall c, fld (fun _ _ => c) (fun _ _ => 0) (fun _ _ => 0).
Proof.
  intros c. exists (Rabs c). assert (Z : lipb (Rabs c) (fun _ => 0)).
  { apply lipb_weaken with (Rabs 0). rewrite Rabs_R0. apply Rabs_pos. apply lipb_const. }
  split; intros; auto; apply tame_const.
Qed.
Lemma fld_plus : forall f fa fo g ga go, fld f fa fo -> fld g ga go ->
  fld (fun x y => f x y + g x y) (fun x y => fa x y + ga x y) (fun x y => fo x y + go x y).
Proof.
  intros f fa fo g ga go [B F] [C G]. exists (B + C). destruct F, G. split; intros.
  - apply (tame_plus B C (fun lat => f lat lon) (fun lat => fa lat lon) (fun lat => g lat lon) (fun lat => ga lat lon)); auto.
  - apply (tame_plus B C (f lat) (fo lat) (g lat) (go lat)); auto.
  - apply (lipb_plus B C (fun lat => fa lat lon) (fun lat => ga lat lon)); auto.
  - apply (lipb_plus B C (fa lat) (ga lat)); auto.
  - apply (lipb_plus B C (fun lat => fo lat lon) (fun lat => go lat lon)); auto.
  - apply (lipb_plus B C (fo lat) (go lat)); auto.
  - rewrite fl_per0, fl_per1. auto.
Qed.
Lemma fld_mult : forall f fa fo g ga go, fld f fa fo -> fld g ga go ->
  fld (fun x y => f x y * g x y) (fun x y => fa x y * g x y + f x y * ga x y) (fun x y => fo x y * g x y + f x y * go x y).
Proof.
  intros f fa fo g ga go [B F] [C G]. pose proof (fldb_pos _ _ _ _ F) as PB. pose proof (fldb_pos _ _ _ _ G) as PC.
  assert (PBC : 0 <= B * C) by (apply Rmult_le_pos; auto). exists (2 * B * C + 2 * B * C). destruct F, G. split; intros.
  - apply tame_weaken with (3 * B * C). lra. apply (tame_mult B C (fun lat => f lat lon) (fun lat => fa lat lon) (fun lat => g lat lon) (fun lat => ga lat lon)); auto.
  - apply tame_weaken with (3 * B * C). lra. apply (tame_mult B C (f lat) (fo lat) (g lat) (go lat)); auto.
  - apply (lipb_plus (2 * B * C) (2 * B * C) (fun lat => fa lat lon * g lat lon) (fun lat => f lat lon * ga lat lon)).
    apply (lipb_mult B C (fun lat => fa lat lon) (fun lat => g lat lon)); auto. apply fl_lat1.
    apply (lipb_mult B C (fun lat => f lat lon) (fun lat => ga lat lon)); auto. apply fl_lat0.
  - apply (lipb_plus (2 * B * C) (2 * B * C) (fun lon => fa lat lon * g lat lon) (fun lon => f lat lon * ga lat lon)).
    apply (lipb_mult B C (fa lat) (g lat)); auto. apply fl_lon1.
    apply (lipb_mult B C (f lat) (ga lat)); auto. apply fl_lon0.
  - apply (lipb_plus (2 * B * C) (2 * B * C) (fun lat => fo lat lon * g lat lon) (fun lat => f lat lon * go lat lon)).
    apply (lipb_mult B C (fun lat => fo lat lon) (fun lat => g lat lon)); auto. apply fl_lat1.
    apply (lipb_mult B C (fun lat => f lat lon) (fun lat => go lat lon)); auto. apply fl_lat0.
  - apply (lipb_plus (2 * B * C) (2 * B * C) (fun lon => fo lat lon * g lat lon) (fun lon => f lat lon * go lat lon)).
    apply (lipb_mult B C (fo lat) (g lat)); auto. apply fl_lon1.
    apply (lipb_mult B C (f lat) (go lat)); auto. apply fl_lon0.
  - rewrite fl_per0, fl_per1. auto.
Qed.
(** composition with a function whose derivative is Lipschitz *)
Record bend (K : R) (G G1 : R -> R) : Prop := {
  bd_b : forall x, Rabs (G x) <= K;
  bd_b1 : forall x, Rabs (G1 x) <= K;
  bd_l : lip K G;
  bd_l1 : lip K G1;
  bd_t : forall x y, Rabs (G y - G x - (y - x) * G1 x) <= K * (y - x) ^ 2 }.
Lemma lipb_bend : forall K B G h, (forall x, Rabs (G x) <= K) -> lip K G -> lipb B h -> lipb (K * (B + 1)) (fun x => G (h x)).
Proof.
  intros K B G h Gb Gl H. pose proof (lipb_pos _ _ H) as PB. pose proof (lip_pos _ _ Gl) as PK. destruct H as [H1 H2]. split; intros.
  - specialize (Gb (h x)). assert (0 <= K * B) by (apply Rmult_le_pos; auto). lra.
  - eapply Rle_trans. apply Gl. specialize (H2 x y). pose proof (Rabs_pos (y - x)).
    apply Rle_trans with (K * (B * Rabs (y - x))). apply Rmult_le_compat_l; auto.
    rewrite <- Rmult_assoc. apply Rmult_le_compat_r; auto. lra.
Qed.
Lemma tame_bend : forall K B G G1 h h1, bend K G G1 -> tame B h h1 -> tame (K * (B * B + B + 1)) (fun x => G (h x)) (fun x => G1 (h x) * h1 x).
Proof.
  intros K B G G1 h h1 S T. pose proof (lip_pos _ _ (bd_l _ _ _ S)) as PK. pose proof (lipb_pos _ _ (proj1 T)) as PB.
  destruct T as [T1 [T2 T3]]. assert (KB : 0 <= K * B) by (apply Rmult_le_pos; auto). assert (KBB : 0 <= K * (B * B)) by (apply Rmult_le_pos; auto; nra).
  split; [|split]; intros.
  - apply lipb_weaken with (K * (B + 1)). lra. apply lipb_bend; auto. apply S. apply S.
  - rewrite Rabs_mult. apply Rle_trans with (K * B). apply Rmult_le_compat; auto using Rabs_pos. apply S. lra.
  - replace (G (h y) - G (h x) - (y - x) * (G1 (h x) * h1 x))
      with ((G (h y) - G (h x) - (h y - h x) * G1 (h x)) + G1 (h x) * (h y - h x - (y - x) * h1 x)) by ring.
    eapply Rle_trans. apply Rabs_triang. rewrite Rabs_mult.
    pose proof (bd_t _ _ _ S (h x) (h y)) as X1. pose proof (T3 x y) as X2. pose proof (bd_b1 _ _ _ S (h x)) as X3.
    assert (X4 : Rabs (G1 (h x)) * Rabs (h y - h x - (y - x) * h1 x) <= K * (B * (y - x) ^ 2)) by (apply Rmult_le_compat; auto using Rabs_pos).
    assert (X5 : (h y - h x) ^ 2 <= (B * B) * (y - x) ^ 2).
    { rewrite !sq_abs. pose proof (proj2 T1 x y) as X6. pose proof (Rabs_pos (h y - h x)). 
      replace (B * B * (Rabs (y - x) * Rabs (y - x))) with ((B * Rabs (y - x)) * (B * Rabs (y - x))) by ring. apply Rmult_le_compat; auto. }
    pose proof (pow2_ge_0 (y - x)). assert (K * (h y - h x) ^ 2 <= K * (B * B * (y - x) ^ 2)) by (apply Rmult_le_compat_l; auto).
    assert (0 <= K * (y - x) ^ 2) by (apply Rmult_le_pos; auto). lra.
Qed.
Lemma fld_bend : forall K G G1 f fa fo, bend K G G1 -> fld f fa fo ->
  fld (fun x y => G (f x y)) (fun x y => G1 (f x y) * fa x y) (fun x y => G1 (f x y) * fo x y).
Proof.
  intros K G G1 f fa fo S [B F]. pose proof (fldb_pos _ _ _ _ F) as PB. pose proof (lip_pos _ _ (bd_l _ _ _ S)) as PK.
  assert (KB : 0 <= K * B) by (apply Rmult_le_pos; auto). assert (KBB : 0 <= K * (B * B)) by (apply Rmult_le_pos; auto; nra).
  exists (2 * (K * (B * B + B + 1)) + 2 * (K * (B + 1)) * B). assert (PP : 0 <= 2 * (K * (B + 1)) * B) by (apply Rmult_le_pos; lra). destruct F. split; intros.
  - apply tame_weaken with (K * (B * B + B + 1)). lra. apply (tame_bend K B G G1 (fun lat => f lat lon) (fun lat => fa lat lon)); auto.
  - apply tame_weaken with (K * (B * B + B + 1)). lra. apply (tame_bend K B G G1 (f lat) (fo lat)); auto.
  - apply lipb_weaken with (2 * (K * (B + 1)) * B). lra. apply (lipb_mult (K * (B + 1)) B (fun lat => G1 (f lat lon)) (fun lat => fa lat lon)); auto.
    apply (lipb_bend K B G1 (fun lat => f lat lon)). apply S. apply S. apply fl_lat0.
  - apply lipb_weaken with (2 * (K * (B + 1)) * B). lra. apply (lipb_mult (K * (B + 1)) B (fun lon => G1 (f lat lon)) (fa lat)); auto.
    apply (lipb_bend K B G1 (f lat)). apply S. apply S. apply fl_lon0.
  - apply lipb_weaken with (2 * (K * (B + 1)) * B). lra. apply (lipb_mult (K * (B + 1)) B (fun lat => G1 (f lat lon)) (fun lat => fo lat lon)); auto.
    apply (lipb_bend K B G1 (fun lat => f lat lon)). apply S. apply S. apply fl_lat0.
  - apply lipb_weaken with (2 * (K * (B + 1)) * B). lra. apply (lipb_mult (K * (B + 1)) B (fun lon => G1 (f lat lon)) (fo lat)); auto.
    apply (lipb_bend K B G1 (f lat)). apply S. apply S. apply fl_lon0.
  - rewrite fl_per0. auto.
Qed.
(** the cosine of the angle to a direction *)
Definition mu_a (th l lat lon : R) : R := sin th * cos lat - cos th * cos (l - lon) * sin lat.
Definition mu_o (th l lat lon : R) : R := cos th * cos lat * sin (l - lon).
Lemma fld_mu : forall th l, fld (mu th l) (mu_a th l) (mu_o th l).
Proof.
  intros. pose proof (proj1 tame_cos) as LC. pose proof (proj1 tame_sin) as LS.
  pose proof (proj1 (tame_refl _ _ _ l tame_cos)) as LCl. pose proof (proj1 (tame_refl _ _ _ l tame_sin)) as LSl.
  assert (C1 : forall c, Rabs c <= 1 -> lipb 1 (fun _ => c)) by (intros c H; apply lipb_weaken with (Rabs c); auto; apply lipb_const).
  exists 6. split; intros.
  - apply tame_mu_lat.
  - apply tame_mu_lon.
  - pose proof (lipb_plus _ _ _ _ (lipb_mult _ _ _ _ (C1 (sin th) (rabs_sin _)) LC) (lipb_mult _ _ _ _ (C1 (- (cos th * cos (l - lon))) ltac:(rewrite Rabs_Ropp; apply rabs_prod1; apply rabs_cos)) LS)) as X.
    eapply lipb_ext; [|apply lipb_weaken with (2 * 1 * 1 + 2 * 1 * 1); [lra|apply X]]. intros; unfold mu_a; ring.
  - pose proof (lipb_plus _ _ _ _ (C1 (sin th * cos lat) (rabs_prod1 _ _ (rabs_sin _) (rabs_cos _))) (lipb_mult _ _ _ _ (C1 (- (cos th * sin lat)) ltac:(rewrite Rabs_Ropp; apply rabs_prod1; [apply rabs_cos|apply rabs_sin])) LCl)) as X.
    eapply lipb_ext; [|apply lipb_weaken with (1 + 2 * 1 * 1); [lra|apply X]]. intros; unfold mu_a; ring.
  - pose proof (lipb_mult _ _ _ _ (C1 (cos th * sin (l - lon)) (rabs_prod1 _ _ (rabs_cos _) (rabs_sin _))) LC) as X.
    eapply lipb_ext; [|apply lipb_weaken with (2 * 1 * 1); [lra|apply X]]. intros; unfold mu_o; ring.
  - pose proof (lipb_mult _ _ _ _ (C1 (cos th * cos lat) (rabs_prod1 _ _ (rabs_cos _) (rabs_cos _))) LSl) as X.
    eapply lipb_ext; [|apply lipb_weaken with (2 * 1 * 1); [lra|apply X]]. intros; unfold mu_o; ring.
  - apply (sf_per _ _ _ (mu_sf th l)).
Qed.
(** ** Rotations *)
Lemma rot_zero : forall f fa fo a b c l psi, fld f fa fo ->
  (forall lat lon, cos lat * psi lat lon = (a * cos (l - lon) + b * sin (l - lon)) * cos lat * fa lat lon
      + (c * cos lat - sin lat * (a * sin (l - lon) - b * cos (l - lon))) * fo lat lon) ->
  (forall lat, exists K, lip K (psi lat)) ->
  smean psi = 0.
Proof.
  intros f fa fo a b c l psi [B F] E LP. pose proof PI_RGT_0 as PP. pose proof (fldb_pos _ _ _ _ F) as PB.
  pose proof (tame_refl _ _ _ l tame_cos) as TC. pose proof (tame_refl _ _ _ l tame_sin) as TS.
  set (A := fun lon => a * cos (l - lon) + b * sin (l - lon)). set (A1 := fun lon => a * sin (l - lon) - b * cos (l - lon)).
  set (M := Rabs a + Rabs b). assert (PM : 0 <= M) by (unfold M; pose proof (Rabs_pos a); pose proof (Rabs_pos b); lra).
  assert (AB : forall lon, Rabs (A lon) <= M).
  { intros. unfold A, M. eapply Rle_trans. apply Rabs_triang. rewrite !Rabs_mult. pose proof (rabs_cos (l - lon)). pose proof (rabs_sin (l - lon)).
    pose proof (Rabs_pos a). pose proof (Rabs_pos b). nra. }
  set (hh := fun lat lon => A lon * (cos lat * f lat lon)). set (hh1 := fun lat lon => A lon * (- sin lat * f lat lon + cos lat * fa lat lon)).
  set (kk := fun lat lon => (c * cos lat - sin lat * A1 lon) * f lat lon).
  set (kk1 := fun lat lon => sin lat * A lon * f lat lon + (c * cos lat - sin lat * A1 lon) * fo lat lon).
  assert (EI : forall lat lon, cos lat * psi lat lon = hh1 lat lon + kk1 lat lon).
  { intros. rewrite E. unfold hh1, kk1, A, A1. ring. }
  (* hh in lat *)
  assert (TH : forall lon, tame (3 * M * (3 * 1 * B)) (fun lat => hh lat lon) (fun lat => hh1 lat lon)).
  { intros. pose proof (tame_mult _ _ _ _ _ _ tame_cos (fl_lat _ _ _ _ F lon)) as T1.
    pose proof (tame_mult _ _ _ _ _ _ (tame_weaken _ M _ _ (AB lon) (tame_const (A lon))) T1) as T2.
    eapply tame_ext; [| |apply T2]; intros; unfold hh, hh1; ring. }
  assert (LA : exists K, lipb K A /\ lipb K A1).
  { pose proof (lipb_plus _ _ _ _ (lipb_mult _ _ _ _ (lipb_const a) (proj1 TC)) (lipb_mult _ _ _ _ (lipb_const b) (proj1 TS))) as X1.
    pose proof (lipb_plus _ _ _ _ (lipb_mult _ _ _ _ (lipb_const a) (proj1 TS)) (lipb_mult _ _ _ _ (lipb_const (- b)) (proj1 TC))) as X2.
    match type of X1 with lipb ?B1 _ => match type of X2 with lipb ?B2 _ => exists (Rmax B1 B2); split;
    [apply lipb_weaken with B1; [apply Rmax_l|]|apply lipb_weaken with B2; [apply Rmax_r|]] end end.
    eapply lipb_ext; [|apply X1]; intros; unfold A; ring. eapply lipb_ext; [|apply X2]; intros; unfold A1; ring. }
  destruct LA as [KA [LA LA1]].
  assert (Hh1 : forall lat, exists K, lipb K (hh1 lat)).
  { intros. pose proof (lipb_mult _ _ _ _ LA (lipb_plus _ _ _ _ (lipb_mult _ _ _ _ (lipb_const (- sin lat)) (proj1 (fl_lon _ _ _ _ F lat))) (lipb_mult _ _ _ _ (lipb_const (cos lat)) (fl_a_lon _ _ _ _ F lat)))) as X.
    eexists. eapply lipb_ext; [|apply X]. intros; unfold hh1; ring. }
  assert (Hh : forall lat, exists K, lipb K (hh lat)).
  { intros. pose proof (lipb_mult _ _ _ _ LA (lipb_mult _ _ _ _ (lipb_const (cos lat)) (proj1 (fl_lon _ _ _ _ F lat)))) as X.
    eexists. eapply lipb_ext; [|apply X]. intros; unfold hh; ring. }
  assert (Hk1 : forall lat, exists K, lipb K (kk1 lat)).
  { intros. pose proof (lipb_plus _ _ _ _ (lipb_mult _ _ _ _ (lipb_mult _ _ _ _ (lipb_const (sin lat)) LA) (proj1 (fl_lon _ _ _ _ F lat)))
      (lipb_mult _ _ _ _ (lipb_plus _ _ _ _ (lipb_const (c * cos lat)) (lipb_mult _ _ _ _ (lipb_const (- sin lat)) LA1)) (fl_o_lon _ _ _ _ F lat))) as X.
    eexists. eapply lipb_ext; [|apply X]. intros; unfold kk1; ring. }
  assert (L1 : forall lon, lipb (2 * M * (2 * 1 * B + 2 * 1 * B)) (fun lat => hh1 lat lon)).
  { intros. assert (X0 : lipb M (fun _ : R => A lon)) by (apply lipb_weaken with (Rabs (A lon)); auto; apply lipb_const).
    assert (X1 : lipb 1 (fun t => - sin t)).
    { split; intros. rewrite Rabs_Ropp. apply rabs_sin.
      replace (- sin y - - sin x) with (- (sin y - sin x)) by ring. rewrite Rabs_Ropp. apply sin_lip. }
    pose proof (lipb_mult _ _ _ _ X0 (lipb_plus _ _ _ _ (lipb_mult _ _ _ _ X1 (proj1 (fl_lat _ _ _ _ F lon))) (lipb_mult _ _ _ _ (proj1 tame_cos) (fl_a_lat _ _ _ _ F lon)))) as X.
    eapply lipb_ext; [|apply X]. intros; unfold hh1; ring. }
  (* no contribution from kk *)
  assert (KZ : forall lat, RInt (kk1 lat) 0 (2 * PI) = 0).
  { intros. destruct (Hk1 lat) as [K LK]. replace 0 with (minus (kk lat (2 * PI)) (kk lat 0)) at 2.
    - apply is_RInt_unique. apply (@is_RInt_derive R_CompleteNormedModule (kk lat)). 2: intros; eapply lipb_continuous; eauto.
      intros x _. pose proof (tame_plus _ _ _ _ _ _ (tame_const (c * cos lat)) (tame_mult _ _ _ _ _ _ (tame_const (- sin lat)) (tame_plus _ _ _ _ _ _ (tame_mult _ _ _ _ _ _ (tame_const a) TS) (tame_mult _ _ _ _ _ _ (tame_const (- b)) TC)))) as T1.
      pose proof (tame_mult _ _ _ _ _ _ T1 (fl_lon _ _ _ _ F lat)) as T2.
      match type of T2 with tame ?Q _ _ => apply (tame_derive Q) end. eapply tame_ext; [| |apply T2]; intros; unfold kk, kk1, A, A1; ring.
    - unfold minus, plus, opp; cbn. replace (2 * PI) with (0 + 2 * PI) by ring. unfold kk, A1. rewrite (fl_per _ _ _ _ F).
      replace (l - (0 + 2 * PI)) with (l - 0 - 2 * PI) by ring.
      replace (cos (l - 0 - 2 * PI)) with (cos (l - 0)). replace (sin (l - 0 - 2 * PI)) with (sin (l - 0)). ring.
      rewrite <- (sin_period (l - 0 - 2 * PI) 1). f_equal. simpl; ring. rewrite <- (cos_period (l - 0 - 2 * PI) 1). f_equal. simpl; ring. }
  (* total *)
  set (H := fun lat => RInt (hh lat) 0 (2 * PI)). set (H1 := fun lat => RInt (hh1 lat) 0 (2 * PI)).
  assert (EL : forall lat, cos lat * lonmean psi lat = / (2 * PI) * H1 lat).
  { intros. unfold lonmean. destruct (LP lat) as [K LK]. assert (EP : ex_RInt (psi lat) 0 (2 * PI)) by (eapply lip_ex_RInt; apply LK).
    pose proof (@RInt_scal R_CompleteNormedModule (psi lat) 0 (2 * PI) (cos lat) EP) as X.
    change (RInt (fun x => cos lat * psi lat x) 0 (2 * PI) = cos lat * RInt (psi lat) 0 (2 * PI)) in X.
    rewrite (RInt_ext _ (fun x => hh1 lat x + kk1 lat x)) in X by (intros; apply EI).
    destruct (Hh1 lat) as [K1 L1']. destruct (Hk1 lat) as [K2 L2'].
    rewrite (@RInt_plus R_CompleteNormedModule (hh1 lat) (kk1 lat)) in X by (eapply lipb_ex_RInt; eauto).
    change (RInt (hh1 lat) 0 (2 * PI) + RInt (kk1 lat) 0 (2 * PI) = cos lat * RInt (psi lat) 0 (2 * PI)) in X. rewrite KZ in X.
    unfold H1. rewrite <- (Rplus_0_r (RInt (hh1 lat) 0 (2 * PI))), X. ring. }
  unfold smean. rewrite (RInt_ext _ (fun lat => / (2 * PI) * H1 lat)) by (intros; apply EL).
  assert (LH1 : exists K, lip K H1).
  { eexists. intros x y. destruct (Hh1 x) as [K1 Lx]. destruct (Hh1 y) as [K2 Ly].
    apply (lip_param hh1 0 (2 * PI) (2 * M * (2 * 1 * B + 2 * 1 * B)) x y). lra. intros; apply (proj2 (L1 t)). eapply lipb_ex_RInt; eauto. eapply lipb_ex_RInt; eauto. }
  destruct LH1 as [K1 LH1].
  rewrite (@RInt_scal R_CompleteNormedModule H1) by (eapply lip_ex_RInt; eauto).
  replace (RInt H1 (- PI / 2) (PI / 2)) with 0. change (/ 2 * (/ (2 * PI) * 0) = 0). ring.
  symmetry. apply is_RInt_unique. replace 0 with (minus (H (PI / 2)) (H (- PI / 2))).
  - apply (@is_RInt_derive R_CompleteNormedModule H). 2: intros; eapply lip_continuous; eauto.
    intros x _. unfold H, H1. apply quad_derive with ((2 * PI - 0) * (3 * M * (3 * 1 * B))).
    apply Rmult_le_pos; [lra|]. apply Rmult_le_pos; lra.
    apply (derive_param hh (hh1 x) 0 (2 * PI) (3 * M * (3 * 1 * B)) x). lra. intros; apply (proj2 (proj2 (TH t))).
    intros y. destruct (Hh y). eapply lipb_ex_RInt; eauto. destruct (Hh1 x). eapply lipb_ex_RInt; eauto.
  - assert (Z : forall x, cos x = 0 -> H x = 0).
    { intros. unfold H. rewrite (RInt_ext _ (fun _ => 0)). rewrite (@RInt_const R_CompleteNormedModule). change ((2 * PI - 0) * 0 = 0). ring.
      intros. unfold hh. rewrite H0. req. ring. }
    rewrite !Z. change (0 - 0 = 0). ring. replace (- PI / 2) with (- (PI / 2)) by field. rewrite cos_neg. apply cos_PI2. apply cos_PI2.
Qed.
