(** Resolution of the grids (C100) and accuracy of the resampled maps (C101). *)
From Coq Require Import Reals ZArith Bool List Lra Lia.
From Coquelicot Require Import Coquelicot.
From Verif Require Import Num Py MConfig MHelpers MGrid MSpots MFaculae Spec SpecStar SpecDisk SpecConv SpecFrame LBase LGrid LHelpers LCirc LGauss LGran LObserve LSphere LSpiral LZonal LCap LDisk LSpotMap LSpotCov LSpotDisk LFacDisk LRes LPack.
Import ListNotations.
Open Scope R_scope.

(** ** Angles and their half-chords *)
Lemma angle_small : forall a n, 0 < n -> 0 <= a <= PI -> sin (a / 2) ^ 2 <= 52 / n -> a <= 24 / sqrt n.
Proof.
  intros a n N A H. pose proof PI_RGT_0. pose proof PI_upper. pose proof (sqrt_lt_R0 n N) as Q. pose proof (sqrt_sqrt n ltac:(lra)) as QQ.
  pose proof (jordan (a / 2) ltac:(lra)) as J. replace (2 * (a / 2) / PI) with (a / PI) in J by (field; lra).
  assert (P : 0 <= a / PI) by (apply Rdiv_le_0_compat; lra).
  apply Rmult_le_reg_r with (sqrt n); auto. unfold Rdiv. rewrite Rmult_assoc, Rinv_l by lra.
  assert (X : a * sqrt n = PI * (a / PI * sqrt n)) by (field; lra).
  assert (Y : (a / PI * sqrt n) ^ 2 <= 52).
  { replace ((a / PI * sqrt n) ^ 2) with ((a / PI) ^ 2 * (sqrt n * sqrt n)) by ring. rewrite QQ.
    assert ((a / PI) ^ 2 <= sin (a / 2) ^ 2) by (apply pow_incr; lra).
    apply Rle_trans with (52 / n * n). apply Rmult_le_compat_r; lra. right. field. lra. }
  assert (Z : a / PI * sqrt n <= 73/10). { apply Rnot_lt_le. intro. nra. }
  rewrite X. assert (0 <= a / PI * sqrt n) by (apply Rmult_le_pos; lra). nra.
Qed.
Lemma angle_large : forall a n, 0 < n -> 0 <= a -> 1 / n <= sin (a / 2) ^ 2 -> 2 / sqrt n <= a.
Proof.
  intros a n N A H. pose proof (sqrt_lt_R0 n N) as Q. pose proof (sqrt_sqrt n ltac:(lra)) as QQ.
  assert (S : sin (a / 2) ^ 2 <= (a / 2) ^ 2).
  { rewrite <- (pow2_abs (sin (a / 2))). apply pow_incr. split. apply Rabs_pos.
    destruct (MVT_abs sin cos 0 (a / 2)) as [c0 [M _]]. intros; apply derivable_pt_lim_sin.
    rewrite sin_0, !Rminus_0_r in M. rewrite M, (Rabs_right (a / 2)) by lra. rewrite <- (Rmult_1_l (a / 2)) at 2. apply Rmult_le_compat_r. lra.
    apply Rabs_le. pose proof (COS_bound c0). lra. }
  apply Rmult_le_reg_r with (sqrt n); auto. unfold Rdiv. rewrite Rmult_assoc, Rinv_l by lra.
  assert (1 <= (a / 2) ^ 2 * n). { apply Rle_trans with (1 / n * n). right. field. lra. apply Rmult_le_compat_r; lra. }
  assert (H1 : 1 <= (a / 2) ^ 2 * (sqrt n * sqrt n)) by (rewrite QQ; auto). apply Rnot_lt_le. intro C. assert (0 <= a * sqrt n) by (apply Rmult_le_pos; lra). nra.
Qed.
Lemma some_angle : forall l o l' o', exists a, is_angle l o l' o' a.
Proof. intros. exists (acos (law_cos l o l' o')). split. apply acos_bound. rewrite cos_acos by apply law_cos_bound. apply law_cos_dot. Qed.
Lemma norm_dir : forall lat lon, exists lat' lon', - PI / 2 <= lat' <= PI / 2 /\ forall l o, cos_sep l o lat' lon' = cos_sep l o lat lon.
Proof.
  intros. exists (asin (sin lat)). pose proof (asin_bound (sin lat)) as B. pose proof (SIN_bound lat) as S.
  assert (E : sin (asin (sin lat)) = sin lat) by (apply sin_asin; auto).
  assert (C : cos (asin (sin lat)) = Rabs (cos lat)).
  { assert (0 <= cos (asin (sin lat))) by (apply cos_ge_0; lra). pose proof (sin2_cos2 (asin (sin lat))) as A1. pose proof (sin2_cos2 lat) as A2. rewrite E in A1. unfold Rsqr in *.
    destruct (Rcase_abs (cos lat)). rewrite Rabs_left by auto. nra. rewrite Rabs_right by auto. nra. }
  destruct (Rcase_abs (cos lat)).
  - exists (lon + PI). split. lra. intros. unfold cos_sep, dot, vec. rewrite E, C, Rabs_left, neg_cos, neg_sin by auto. ring.
  - exists lon. split. lra. intros. unfold cos_sep, dot, vec. rewrite E, C, Rabs_right by auto. ring.
Qed.
Lemma C100_spiral_lemma : forall n, (1 <= n)%nat ->
  (forall i j a, (i < n)%nat -> (j < n)%nat -> i <> j ->
     is_angle (pix_lat (Spiral n) 0 i) (pix_lon (Spiral n) 0 i) (pix_lat (Spiral n) 0 j) (pix_lon (Spiral n) 0 j) a -> 2 / sqrt (INR n) <= a)
  /\ (forall lat lon, exists i a, (i < n)%nat
        /\ is_angle (pix_lat (Spiral n) 0 i) (pix_lon (Spiral n) 0 i) lat lon a /\ a <= 24 / sqrt (INR n)).
Proof.
  intros n Hn. assert (N0 : 0 < INR n) by (apply lt_0_INR; lia). unfold pix_lat, pix_lon. split.
  - intros i j a Hi Hj D A. rewrite !spiral_point_cell in A by auto. cbn [fst snd] in A.
    pose proof (C100_sep n i j a Hi Hj D A) as S. destruct A as [A _]. apply angle_large; auto. lra.
  - intros lat lon. destruct (norm_dir lat lon) as [lat' [lon' [Hl EQ]]]. destruct (C100_cover n lat' lon' Hn Hl) as [i [Hi C]]. rewrite EQ in C. destruct (some_angle (spiral_lat n i) (spiral_lon i) lat lon) as [a A].
    exists i, a. rewrite spiral_point_cell by auto. cbn [fst snd]. split; auto. split; auto. destruct A as [A1 A2].
    apply angle_small; auto. rewrite half_hav, A2. auto.
Qed.

(** ** Rectangular grids *)
Lemma angle_meridian : forall l l' o a, is_angle l o l' o a -> Rabs (l - l') <= PI -> a = Rabs (l - l').
Proof.
  intros l l' o a [A1 A2] B. apply cos_inj; auto. split; auto. apply Rabs_pos.
  rewrite A2, <- law_cos_dot. unfold law_cos. replace (o - o) with 0 by ring. rewrite cos_0.
  assert (cos (Rabs (l - l')) = cos (l - l')). { destruct (Rcase_abs (l - l')). rewrite Rabs_left, cos_neg; auto. rewrite Rabs_right; auto. }
  rewrite H, cos_minus. ring.
Qed.
Lemma angle_parallel : forall l o o' a, is_angle l o l o' a -> sin (a / 2) ^ 2 = (cos l * sin ((o - o') / 2)) ^ 2.
Proof.
  intros l o o' a [A1 A2]. rewrite half_hav, A2, hav_split. replace ((l - l) / 2) with 0 by field. rewrite sin_0. ring.
Qed.
Lemma small_parallel : forall l o d (m : Z), Rabs d <= PI -> acos (law_cos l (o + d + IZR m * (2 * PI)) l o) <= Rabs d.
Proof.
  intros l o d m D. pose proof PI_RGT_0. set (a := acos _).
  assert (A : is_angle l (o + d + IZR m * (2 * PI)) l o a). { split. apply acos_bound. unfold a. rewrite cos_acos by apply law_cos_bound. apply law_cos_dot. }
  assert (E : cos_sep l (o + d + IZR m * (2 * PI)) l o = cos_sep l (o + d) l o).
  { rewrite <- !law_cos_dot. unfold law_cos. f_equal. f_equal. replace (o + d + IZR m * (2 * PI) - o) with ((o + d - o) + IZR m * (2 * PI)) by ring.
    apply (per_Z cos). intros. rewrite cos_plus, sin_2PI, cos_2PI. ring. }
  assert (A' : is_angle l (o + d) l o a) by (destruct A as [A1 A2]; split; [auto|lra]).
  apply angle_parallel in A'. destruct A as [[A0 A1] _]. replace ((o + d - o) / 2) with (d / 2) in A' by field.
  assert (S : sin (a / 2) ^ 2 <= sin (Rabs d / 2) ^ 2).
  { rewrite A'. replace (sin (Rabs d / 2) ^ 2) with (sin (d / 2) ^ 2).
    2:{ destruct (Rcase_abs d). rewrite Rabs_left by auto. replace (- d / 2) with (- (d / 2)) by field. rewrite sin_neg. ring. rewrite Rabs_right; auto. }
    replace ((cos l * sin (d / 2)) ^ 2) with (cos l ^ 2 * sin (d / 2) ^ 2) by ring. pose proof (pow2_ge_0 (sin (d / 2))).
    assert (cos l ^ 2 <= 1) by (pose proof (COS_bound l); nra). nra. }
  pose proof (Rabs_pos d). apply Rnot_lt_le. intro C.
  pose proof (sin_increasing_1 (Rabs d / 2) (a / 2) ltac:(lra) ltac:(lra) ltac:(lra) ltac:(lra) ltac:(lra)).
  pose proof (sin_ge_0 (Rabs d / 2) ltac:(lra) ltac:(lra)). nra.
Qed.
Lemma C100_rect_lemma : forall nlat nlon, (2 <= nlat)%nat -> (1 <= nlon)%nat ->
  let g := Rect nlat nlon in
  (forall j i a, (j < nlon)%nat -> (S i < nlat)%nat ->
     is_angle (pix_lat g j i) (pix_lon g j i) (pix_lat g j (S i)) (pix_lon g j (S i)) a -> a = PI / (INR nlat - 1))
  /\ (forall j i a, (S j < nlon)%nat -> (i < nlat)%nat ->
     is_angle (pix_lat g j i) (pix_lon g j i) (pix_lat g (S j) i) (pix_lon g (S j) i) a ->
       sin (a / 2) = cos (pix_lat g j i) * sin (PI / INR nlon) /\ a <= 2 * PI / INR nlon)
  /\ (forall j j' i a, (j < nlon)%nat -> (j' < nlon)%nat -> i = 0%nat \/ i = (nlat - 1)%nat ->
     is_angle (pix_lat g j i) (pix_lon g j i) (pix_lat g j' i) (pix_lon g j' i) a -> a = 0)
  /\ (forall lat lon, exists j i a, (j < nlon)%nat /\ (i < nlat)%nat
        /\ is_angle (pix_lat g j i) (pix_lon g j i) lat lon a /\ a <= PI / (2 * (INR nlat - 1)) + PI / INR nlon).
Proof.
  intros nlat nlon H1 H2 g. pose proof PI_RGT_0 as PP. unfold g, pix_lat, pix_lon.
  assert (Nl : INR (nlat - 1) = INR nlat - 1) by (rewrite minus_INR by lia; auto).
  assert (N1 : 1 <= INR nlat - 1) by (rewrite <- Nl; change 1 with (INR 1); apply le_INR; lia).
  assert (N2 : 1 <= INR nlon) by (change 1 with (INR 1); apply le_INR; lia).
  assert (Q1 : 0 < PI / (INR nlat - 1) <= PI). { split. apply Rdiv_lt_0_compat; lra. apply Rmult_le_reg_r with (INR nlat - 1). lra. unfold Rdiv. rewrite Rmult_assoc, Rinv_l by lra. nra. }
  assert (Q2 : 0 < PI / INR nlon <= PI). { split. apply Rdiv_lt_0_compat; lra. apply Rmult_le_reg_r with (INR nlon). lra. unfold Rdiv. rewrite Rmult_assoc, Rinv_l by lra. nra. }
  repeat split.
  - intros j i a Hj Hi A. rewrite !rect_point_cell in A by lia. cbn [fst snd] in A.
    assert (E : lat_i nlat i - lat_i nlat (S i) = - (PI / (INR nlat - 1))) by (unfold lat_i; rewrite S_INR, Nl; field; lra).
    apply angle_meridian in A; rewrite E, Rabs_Ropp, Rabs_right in *; lra.
  - rewrite !rect_point_cell in H3 by lia. cbn [fst snd] in *. rewrite rect_point_cell by lia. cbn [fst].
    pose proof (angle_parallel _ _ _ _ H3) as P. destruct H3 as [A _].
    assert (E : (lon_j nlon j - lon_j nlon (S j)) / 2 = - (PI / INR nlon)) by (unfold lon_j; rewrite S_INR; field; lra).
    rewrite E, sin_neg in P.
    assert (0 <= sin (a / 2)) by (apply sin_ge_0; lra).
    assert (0 <= cos (lat_i nlat i) * sin (PI / INR nlon)) by (apply Rmult_le_pos; [apply cos_lat_i_nonneg; auto|apply sin_ge_0; lra]).
    apply Rsqr_inj; auto. rewrite !Rsqr_pow2, P. ring.
  - rewrite !rect_point_cell in H3 by lia. cbn [fst snd] in *.
    replace a with (acos (law_cos (lat_i nlat i) (lon_j nlon j) (lat_i nlat i) (lon_j nlon (S j)))).
    2:{ destruct H3 as [A1 A2]. rewrite law_cos_dot, <- A2. apply acos_cos. auto. }
    pose proof (small_parallel (lat_i nlat i) (lon_j nlon (S j)) (- (2 * (PI / INR nlon))) 0) as P.
    assert (N3 : 2 <= INR nlon) by (replace 2 with (INR 2) by (simpl; lra); apply le_INR; lia).
    assert (Q3 : PI / INR nlon <= PI / 2) by (unfold Rdiv; apply Rmult_le_compat_l; [lra|apply Rinv_le_contravar; lra]).
    rewrite Rabs_Ropp, Rabs_right in P by lra. replace (lon_j nlon (S j) + - (2 * (PI / INR nlon)) + IZR 0 * (2 * PI)) with (lon_j nlon j) in P by (unfold lon_j; rewrite S_INR; field; lra).
    specialize (P ltac:(lra)). replace (2 * PI / INR nlon) with (2 * (PI / INR nlon)) by (field; lra). auto.
  - intros j j' i a Hj Hj' Hi A. rewrite !rect_point_cell in A by lia. cbn [fst snd] in A. pose proof (angle_parallel _ _ _ _ A) as P.
    assert (C : cos (lat_i nlat i) = 0) by (apply cos_lat_i_zero; auto; lia). rewrite C in P. destruct A as [A _].
    assert (Z : sin (a / 2) = 0) by (apply Rsqr_0_uniq; rewrite Rsqr_pow2, P; ring).
    destruct (Req_dec a 0) as [|N]; auto. pose proof (sin_gt_0 (a / 2) ltac:(lra) ltac:(lra)). lra.
  - intros lat1 lon1. destruct (norm_dir lat1 lon1) as [lat [lon [Hl EQ]]].
    set (y := (lat + PI / 2) / PI * (INR nlat - 1)).
    assert (Hy : 0 <= y <= INR nlat - 1).
    { unfold y. assert (0 <= (lat + PI / 2) / PI <= 1). split. apply Rdiv_le_0_compat; lra. apply Rmult_le_reg_r with PI; auto. unfold Rdiv at 1. rewrite Rmult_assoc, Rinv_l by lra. lra. nra. }
    destruct (nfloor_ex (y + 1/2) ltac:(lra)) as [i [I1 I2]].
    assert (Hi : (i < nlat)%nat) by (apply INR_lt; lra).
    destruct (nearest_Z (lon / (2 * PI) * INR nlon)) as [q Q].
    set (Nz := Z.of_nat nlon). pose proof (Z.mod_pos_bound q Nz ltac:(unfold Nz; lia)) as MB. pose proof (Z.div_mod q Nz ltac:(unfold Nz; lia)) as DM.
    set (j := Z.to_nat (q mod Nz)). assert (Hj : (j < nlon)%nat) by (unfold j, Nz in *; lia).
    exists j, i. rewrite rect_point_cell by auto. cbn [fst snd].
    exists (acos (law_cos (lat_i nlat i) (lon_j nlon j) lat lon)). split; auto. split; auto. split.
    { split. apply acos_bound. rewrite cos_acos by apply law_cos_bound. rewrite <- EQ. apply law_cos_dot. }
    assert (Ej : INR j = IZR q - INR nlon * IZR (q / Nz)).
    { rewrite INR_IZR_INZ. unfold j. rewrite Z2Nat.id by lia. rewrite (INR_IZR_INZ nlon), <- mult_IZR, <- minus_IZR. f_equal. unfold Nz in *. lia. }
    set (d := 2 * PI / INR nlon * (IZR q - lon / (2 * PI) * INR nlon)).
    assert (Ed : lon_j nlon j = lon + d + IZR (- (q / Nz)) * (2 * PI)). { unfold lon_j. rewrite Ej, opp_IZR. unfold d. field. lra. }
    assert (Dd : Rabs d <= PI / INR nlon).
    { unfold d. rewrite Rabs_mult, Rabs_right by (apply Rle_ge; apply Rdiv_le_0_compat; lra). rewrite Rabs_minus_sym in Q.
      apply Rle_trans with (2 * PI / INR nlon * (1 / 2)). apply Rmult_le_compat_l; auto. apply Rdiv_le_0_compat; lra. right. field. lra. }
    pose proof (tri (lat_i nlat i) (lon_j nlon j) lat lon (lat_i nlat i) lon) as T. unfold mu in T.
    eapply Rle_trans. apply T. rewrite Rplus_comm. apply Rplus_le_compat.
    + set (b := acos _). assert (B : is_angle lat lon (lat_i nlat i) lon b). { split. apply acos_bound. unfold b. rewrite cos_acos by apply law_cos_bound. apply law_cos_dot. }
      assert (Dl : Rabs (lat - lat_i nlat i) <= PI / (2 * (INR nlat - 1))).
      { replace (lat - lat_i nlat i) with (PI / (INR nlat - 1) * (y - INR i)) by (unfold lat_i, y; rewrite Nl; field; lra).
        rewrite Rabs_mult, Rabs_right by lra. apply Rle_trans with (PI / (INR nlat - 1) * (1/2)). apply Rmult_le_compat_l. lra. apply Rabs_le. lra. right. field. lra. }
      assert (PI / (2 * (INR nlat - 1)) <= PI). { replace (PI / (2 * (INR nlat - 1))) with (PI / (INR nlat - 1) / 2) by (field; lra). lra. }
      rewrite (angle_meridian _ _ _ _ B) by lra. auto.
    + rewrite Ed. eapply Rle_trans; [|apply Dd]. apply small_parallel. lra.
Qed.

(** ** Sums over all points *)
Lemma rsum_cover : forall A (t : A -> R) (Ps : list (A -> bool)) l, (forall x, In x l -> 0 <= t x) ->
  (forall x, In x l -> exists P, In P Ps /\ P x = true) ->
  rsum (map t l) <= rsum (map (fun P => rsum (map t (filter P l))) Ps).
Proof.
  intros A t Ps l. induction l as [|x l IH]; intros T C.
  - simpl. rewrite (rsum_zero _ (fun _ => 0)). lra. auto.
  - change (rsum (map t (x :: l))) with (t x + rsum (map t l)). specialize (IH (fun y Y => T y (or_intror Y)) (fun y Y => C y (or_intror Y))).
    eapply Rle_trans. apply Rplus_le_compat_l. apply IH.
    rewrite (rsum_map_ext _ (fun P => rsum (map t (filter P (x :: l)))) (fun P => (if P x then t x else 0) + rsum (map t (filter P l)))).
    2:{ intros P _. simpl. destruct (P x); simpl; unfold rsum; simpl; lra. }
    rewrite rsum_map_plus. apply Rplus_le_compat_r.
    destruct (C x (or_introl eq_refl)) as [P [I E]]. destruct (in_split _ _ I) as [l1 [l2 ->]].
    rewrite map_app, rsum_app. cbn [map]. rewrite E.
    assert (N : forall l', 0 <= rsum (map (fun P0 : A -> bool => if P0 x then t x else 0) l')).
    { intros. apply rsum_map_nonneg. intros P0 _. destruct (P0 x). apply T; simpl; auto. lra. }
    pose proof (N l1). pose proof (N l2).
    change (rsum (t x :: map (fun P0 : A -> bool => if P0 x then t x else 0) l2)) with (t x + rsum (map (fun P0 : A -> bool => if P0 x then t x else 0) l2)). lra.
Qed.
Definition vx (p : R * R) : R := cos (fst p) * cos (snd p).
Definition vy (p : R * R) : R := cos (fst p) * sin (snd p).
Definition vz (p : R * R) : R := sin (fst p).
Lemma v_unit : forall p, vx p ^ 2 + vy p ^ 2 + vz p ^ 2 = 1.
Proof.
  intros. unfold vx, vy, vz. pose proof (sin2_cos2 (fst p)). pose proof (sin2_cos2 (snd p)). unfold Rsqr in *.
  replace ((cos (fst p) * cos (snd p)) ^ 2 + (cos (fst p) * sin (snd p)) ^ 2) with (cos (fst p) * cos (fst p) * (sin (snd p) * sin (snd p) + cos (snd p) * cos (snd p))) by ring.
  rewrite H0. lra.
Qed.
Definition chord2 (p q : R * R) : R := (vx p - vx q) ^ 2 + (vy p - vy q) ^ 2 + (vz p - vz q) ^ 2.
Lemma chord2_sep : forall p q, chord2 p q = 2 - 2 * cos_sep (fst p) (snd p) (fst q) (snd q).
Proof.
  intros. pose proof (v_unit p). pose proof (v_unit q).
  replace (cos_sep (fst p) (snd p) (fst q) (snd q)) with (vx p * vx q + vy p * vy q + vz p * vz q) by (unfold cos_sep, dot, vec, vx, vy, vz; simpl; ring).
  unfold chord2. nra.
Qed.
Definition infaceb (W U V : R * R -> R) (p : R * R) : bool := Rleb (Rabs (U p)) (W p) && Rleb (Rabs (V p)) (W p).
Lemma face_axis : forall (W U V : R * R -> R) p, Rabs (U p) <= Rabs (W p) -> Rabs (V p) <= Rabs (W p) ->
  infaceb W U V p = true \/ infaceb (fun p => - W p) U V p = true.
Proof.
  intros W U V p A B. unfold infaceb. destruct (Rle_dec 0 (W p)).
  - left. rewrite (Rabs_right (W p)) in * by lra. apply andb_true_intro; split; apply Rleb_true; auto.
  - right. rewrite (Rabs_left1 (W p)) in * by lra. apply andb_true_intro; split; apply Rleb_true; auto.
Qed.
Definition sp_pt (n i : nat) : R * R := (spiral_lat n i, spiral_lon i).
Lemma face_total : forall n q (W U V : R * R -> R), (1 <= n)%nat ->
  (forall p, W p ^ 2 + U p ^ 2 + V p ^ 2 = 1) -> (forall p p', chord2 p p' = (W p - W p') ^ 2 + (U p - U p') ^ 2 + (V p - V p') ^ 2) ->
  rsum (map (fun i => / (1 + INR n * chord2 (sp_pt n i) q) ^ 2) (filter (fun i => infaceb W U V (sp_pt n i)) (seq 0 n))) <= 352.
Proof.
  intros n q W U V Hn Un Ch. assert (N0 : 0 < INR n) by (apply lt_0_INR; lia).
  eapply Rle_trans with (rsum (map (fun i => / (1 + INR n * (U (sp_pt n i) - U q) ^ 2) * / (1 + INR n * (V (sp_pt n i) - V q) ^ 2)) (filter (fun i => infaceb W U V (sp_pt n i)) (seq 0 n)))).
  - apply rsum_map_le. intros i _. rewrite Ch. set (a := W _ - W q). set (b := U _ - U q). set (c := V _ - V q).
    pose proof (pow2_ge_0 a). pose proof (pow2_ge_0 b). pose proof (pow2_ge_0 c).
    rewrite <- Rinv_mult. apply Rinv_le_contravar. apply Rmult_lt_0_compat; nra.
    assert (1 + INR n * b ^ 2 <= 1 + INR n * (a ^ 2 + b ^ 2 + c ^ 2)) by nra. assert (1 + INR n * c ^ 2 <= 1 + INR n * (a ^ 2 + b ^ 2 + c ^ 2)) by nra.
    simpl (_ ^ 2) at 3. rewrite Rmult_1_r. apply Rmult_le_compat; nra.
  - apply (face_sum _ (fun i => W (sp_pt n i)) (fun i => U (sp_pt n i)) (fun i => V (sp_pt n i)) (INR n)); auto.
    + apply NoDup_filter, seq_NoDup.
    + intros i I. apply filter_In in I. destruct I as [_ I]. unfold infaceb in I. apply andb_prop in I. destruct I as [I1 I2].
      apply Rleb_true in I1. apply Rleb_true in I2. auto.
    + intros i j I J D. apply filter_In in I. apply filter_In in J. destruct I as [I _]. destruct J as [J _]. apply in_seq in I. apply in_seq in J.
      rewrite <- Ch, chord2_sep. destruct (some_angle (fst (sp_pt n i)) (snd (sp_pt n i)) (fst (sp_pt n j)) (snd (sp_pt n j))) as [a A].
      pose proof (C100_sep n i j a ltac:(lia) ltac:(lia) D A) as S. rewrite half_hav in S. destruct A as [_ A]. rewrite A in S.
      replace (4 / INR n) with (4 * (1 / INR n)) by (field; lra). lra.
Qed.
Lemma all_sum : forall n q, (1 <= n)%nat -> rsum (map (fun i => / (1 + INR n * chord2 (sp_pt n i) q) ^ 2) (seq 0 n)) <= 2112.
Proof.
  intros n q Hn.
  set (Ps := [infaceb vz vx vy; infaceb (fun p => - vz p) vx vy; infaceb vx vy vz; infaceb (fun p => - vx p) vy vz; infaceb vy vx vz; infaceb (fun p => - vy p) vx vz]).
  eapply Rle_trans. apply (rsum_cover _ _ (map (fun P i => P (sp_pt n i)) Ps)).
  - intros i _. apply Rlt_le, Rinv_0_lt_compat. apply pow_lt. unfold chord2. pose proof (pos_INR n).
    assert (0 <= INR n * ((vx (sp_pt n i) - vx q) ^ 2 + (vy (sp_pt n i) - vy q) ^ 2 + (vz (sp_pt n i) - vz q) ^ 2)) by (apply Rmult_le_pos; auto; repeat apply Rplus_le_le_0_compat; apply pow2_ge_0). lra.
  - intros i _. assert (C : exists P, In P Ps /\ P (sp_pt n i) = true).
    { set (x := Rabs (vx (sp_pt n i))). set (y := Rabs (vy (sp_pt n i))). set (z := Rabs (vz (sp_pt n i))).
      destruct (Rle_dec x z) as [A|A]; [destruct (Rle_dec y z) as [B|B]|destruct (Rle_dec x y) as [B|B]].
      - destruct (face_axis vz vx vy (sp_pt n i) A B) as [E|E]; eexists; (split; [|exact E]); simpl; tauto.
      - destruct (face_axis vy vx vz (sp_pt n i)) as [E|E]; try (unfold x, y, z in *; lra); eexists; (split; [|exact E]); simpl; tauto.
      - destruct (face_axis vy vx vz (sp_pt n i)) as [E|E]; try (unfold x, y, z in *; lra); eexists; (split; [|exact E]); simpl; tauto.
      - destruct (face_axis vx vy vz (sp_pt n i)) as [E|E]; try (unfold x, y, z in *; lra); eexists; (split; [|exact E]); simpl; tauto. }
    destruct C as [P [C1 C2]]. exists (fun i => P (sp_pt n i)). split; auto. apply in_map_iff. exists P. auto.
  - assert (F : forall P, In P (map (fun P i => P (sp_pt n i)) Ps) -> rsum (map (fun i => / (1 + INR n * chord2 (sp_pt n i) q) ^ 2) (filter P (seq 0 n))) <= 352).
    { intros P I. apply in_map_iff in I. destruct I as [P' [<- I]]. unfold Ps in I.
      repeat destruct I as [<-|I]; try contradiction; apply face_total; auto; intros; try (unfold chord2; ring); pose proof (v_unit p); nra. }
    eapply Rle_trans. apply (rsum_map_le _ _ (fun _ => 352)). apply F. unfold Ps. unfold rsum. simpl. lra.
Qed.

(** ** Accuracy of the resampled map *)
Lemma weight_bound : forall n r, 0 < n -> 0 <= r -> r * exp (- (r ^ 2 * n / (4 * PI))) <= 90000 / sqrt n * / (1 + n * r ^ 2) ^ 2.
Proof.
  intros n r N R0'. pose proof PI_RGT_0 as PP. pose proof PI_upper as PU. pose proof (sqrt_lt_R0 n N) as Q. pose proof (sqrt_sqrt n ltac:(lra)) as QQ.
  set (t := r ^ 2 * n / (4 * PI)). set (y := r * sqrt n).
  assert (Y0 : 0 <= y) by (apply Rmult_le_pos; lra).
  assert (Y2 : n * r ^ 2 = y ^ 2) by (unfold y; replace ((r * sqrt n) ^ 2) with (r ^ 2 * (sqrt n * sqrt n)) by ring; rewrite QQ; ring).
  assert (T : y ^ 2 = 4 * PI * t) by (rewrite <- Y2; unfold t; field; lra).
  assert (T0 : 0 <= t) by (unfold t; apply Rdiv_le_0_compat; [apply Rmult_le_pos; [apply pow2_ge_0|lra]|lra]).
  assert (T1 : y ^ 2 <= 13 * t) by (rewrite T; nra).
  assert (E3 : (1 + t) ^ 3 <= 27 * (3 * exp t)).
  { assert (A : (1 + t) / 3 <= exp ((1 + t) / 3)) by (pose proof (exp_ineq1_le ((1 + t) / 3)); lra).
    assert (B : ((1 + t) / 3) ^ 3 <= exp ((1 + t) / 3) ^ 3) by (apply pow_incr; lra).
    assert (C : exp ((1 + t) / 3) ^ 3 = exp 1 * exp t) by (simpl; rewrite Rmult_1_r, <- !exp_plus; f_equal; field).
    rewrite C in B. pose proof exp_le_3. pose proof (exp_pos t). replace ((1 + t) ^ 3) with (27 * ((1 + t) / 3) ^ 3) by field. nra. }
  rewrite Y2. apply Rmult_le_reg_r with (sqrt n * (1 + y ^ 2) ^ 2 * exp t).
  { apply Rmult_lt_0_compat; [|apply exp_pos]. apply Rmult_lt_0_compat; auto. apply pow_lt. pose proof (pow2_ge_0 y); lra. }
  replace (90000 / sqrt n * / (1 + y ^ 2) ^ 2 * (sqrt n * (1 + y ^ 2) ^ 2 * exp t)) with (90000 * exp t).
  2:{ field. pose proof (pow2_ge_0 y). split; lra. }
  replace (r * exp (- t) * (sqrt n * (1 + y ^ 2) ^ 2 * exp t)) with (y * (1 + y ^ 2) ^ 2 * (exp (- t) * exp t)) by (unfold y; ring).
  rewrite <- exp_plus. replace (- t + t) with 0 by ring. rewrite exp_0, Rmult_1_r.
  assert (A1 : y <= (1 + y ^ 2) / 2) by (pose proof (pow2_ge_0 (1 - y)); nra).
  assert (A2 : y * (1 + y ^ 2) ^ 2 <= (1 + y ^ 2) / 2 * (1 + y ^ 2) ^ 2) by (apply Rmult_le_compat_r; auto; apply pow2_ge_0).
  assert (A3 : (1 + y ^ 2) ^ 3 <= (13 * (1 + t)) ^ 3) by (apply pow_incr; pose proof (pow2_ge_0 y); lra).
  replace ((1 + y ^ 2) / 2 * (1 + y ^ 2) ^ 2) with ((1 + y ^ 2) ^ 3 / 2) in A2 by field. rewrite Rpow_mult_distr in A3.
  pose proof (exp_pos t). lra.
Qed.
Lemma combine_map2 : forall A (f g : A -> R) l, combine (map f l) (map g l) = map (fun x => (f x, g x)) l.
Proof. induction l; simpl; auto. f_equal; auto. Qed.
Lemma nth_list : forall (ws : list R) n, length ws = n -> ws = map (fun k => nth k ws 0) (seq 0 n).
Proof.
  intros ws n H. subst. induction ws; simpl; auto. f_equal. rewrite <- seq_shift, map_map. auto.
Qed.
Definition show_const : R := 190080000 * exp 48.
Lemma show_core : forall n phi L q (ws ths : nat -> R), (1 <= n)%nat -> 0 <= L ->
  (forall p a, is_angle (fst p) (snd p) (fst q) (snd q) a -> Rabs (phi p - phi q) <= L * a) ->
  (forall k, (k < n)%nat -> is_angle (spiral_lat n k) (spiral_lon k) (fst q) (snd q) (ths k) /\ ws k = exp (- (ths k ^ 2 * INR n / (4 * PI)))) ->
  Rabs (rsum (map (fun k => ws k * phi (sp_pt n k)) (seq 0 n)) / rsum (map ws (seq 0 n)) - phi q) <= show_const * L / sqrt (INR n).
Proof.
  intros n phi L q ws ths Hn HL Lip W. assert (N0 : 0 < INR n) by (apply lt_0_INR; lia). pose proof PI_RGT_0 as PP. pose proof PI_upper as PU.
  pose proof (sqrt_lt_R0 _ N0) as Q. pose proof (sqrt_sqrt (INR n) ltac:(lra)) as QQ.
  destruct (proj2 (C100_spiral_lemma n Hn) (fst q) (snd q)) as [i [a [Hi [A1 A2]]]].
  unfold pix_lat, pix_lon in A1. rewrite spiral_point_cell in A1 by auto. cbn [fst snd] in A1.
  destruct (W i Hi) as [B1 B2].
  assert (E : ths i = a). { destruct A1 as [A1 A1']. destruct B1 as [B1 B1']. apply cos_inj; auto. congruence. }
  assert (D : exp (-48) <= rsum (map ws (seq 0 n))).
  { apply Rle_trans with (ws i).
    - rewrite B2, E. apply Raux_exp_le || idtac. destruct A1 as [[A0 _] _].
      assert (S2 : a * sqrt (INR n) <= 24) by (apply Rmult_le_compat_r with (r := sqrt (INR n)) in A2; [|lra]; unfold Rdiv in A2; rewrite Rmult_assoc, Rinv_l in A2 by lra; lra).
      assert (S3 : a ^ 2 * INR n <= 576). { rewrite <- QQ at 1. replace (a ^ 2 * (sqrt (INR n) * sqrt (INR n))) with ((a * sqrt (INR n)) * (a * sqrt (INR n))) by ring. assert (0 <= a * sqrt (INR n)) by (apply Rmult_le_pos; lra). nra. }
      assert (PI3 : 3 <= PI) by (pose proof PI2_3_2; lra).
      assert (a ^ 2 * INR n / (4 * PI) <= 48). { apply Rmult_le_reg_r with (4 * PI). lra. unfold Rdiv. rewrite Rmult_assoc, Rinv_l by lra. lra. }
      set (u := a ^ 2 * INR n / (4 * PI)) in *. destruct (Req_dec u 48) as [U|]. rewrite U. apply Rle_refl. left. apply exp_increasing. lra.
    - pose proof (rsum_incl _ ws [i] (seq 0 n)) as I. unfold rsum at 1 in I. simpl in I. rewrite Rplus_0_r in I. apply I.
      constructor; [intros []|constructor]. intros x [<-|[]]. apply in_seq. lia.
      intros x X. apply in_seq in X. rewrite (proj2 (W x ltac:(lia))). apply Rlt_le, exp_pos. }
  pose proof (exp_pos (-48)) as E48. set (den := rsum (map ws (seq 0 n))) in *.
  replace (rsum (map (fun k => ws k * phi (sp_pt n k)) (seq 0 n)) / den - phi q) with (rsum (map (fun k => ws k * (phi (sp_pt n k) - phi q)) (seq 0 n)) / den).
  2:{ rewrite (rsum_map_ext _ (fun k => ws k * (phi (sp_pt n k) - phi q)) (fun k => ws k * phi (sp_pt n k) + - phi q * ws k)) by (intros; ring).
      rewrite rsum_map_plus, rsum_map_scal. fold den. field. lra. }
  assert (NU : Rabs (rsum (map (fun k => ws k * (phi (sp_pt n k) - phi q)) (seq 0 n))) <= L * (90000 / sqrt (INR n)) * 2112).
  { eapply Rle_trans. apply (rsum_abs_le _ _ (fun k => L * (90000 / sqrt (INR n)) * / (1 + INR n * chord2 (sp_pt n k) q) ^ 2)).
    - intros k K. apply in_seq in K. destruct (W k ltac:(lia)) as [C1 C2]. pose proof (Lip (sp_pt n k) _ C1) as LL. rewrite Rabs_mult, C2, (Rabs_right (exp _)) by (apply Rle_ge, Rlt_le, exp_pos).
      pose proof (proj1 (proj1 C1)) as T0. pose proof (weight_bound (INR n) (ths k) N0 T0) as WB. rewrite <- C2 in *.
      assert (W0 : 0 < ws k) by (rewrite C2; apply exp_pos).
      assert (CH : chord2 (sp_pt n k) q <= ths k ^ 2).
      { rewrite chord2_sep. destruct C1 as [_ C1]. cbn [sp_pt fst snd]. rewrite <- C1.
        replace (2 - 2 * cos (ths k)) with (4 * sin (ths k / 2) ^ 2) by (rewrite half_hav; field).
        assert (S : Rabs (sin (ths k / 2)) <= ths k / 2).
        { destruct (MVT_abs sin cos 0 (ths k / 2)) as [c0 [M _]]. intros; apply derivable_pt_lim_sin.
          rewrite sin_0, !Rminus_0_r in M. rewrite M, (Rabs_right (ths k / 2)) by lra. rewrite <- (Rmult_1_l (ths k / 2)) at 2. apply Rmult_le_compat_r. lra. apply Rabs_le. pose proof (COS_bound c0). lra. }
        rewrite <- (pow2_abs (sin (ths k / 2))). pose proof (Rabs_pos (sin (ths k / 2))). nra. }
      assert (C0 : 0 <= chord2 (sp_pt n k) q) by (unfold chord2; repeat apply Rplus_le_le_0_compat; apply pow2_ge_0).
      assert (I : / (1 + INR n * ths k ^ 2) ^ 2 <= / (1 + INR n * chord2 (sp_pt n k) q) ^ 2).
      { apply Rinv_le_contravar. apply pow_lt. nra. apply pow_incr. nra. }
      assert (P9 : 0 < 90000 / sqrt (INR n)) by (apply Rdiv_lt_0_compat; lra).
      apply Rle_trans with (L * (ths k * ws k)). { replace (L * (ths k * ws k)) with (ws k * (L * ths k)) by ring. apply Rmult_le_compat_l; lra. }
      rewrite Rmult_assoc. apply Rmult_le_compat_l; auto. eapply Rle_trans. apply WB. apply Rmult_le_compat_l; lra.
    - rewrite rsum_map_scal. apply Rmult_le_compat_l. apply Rmult_le_pos; auto. apply Rlt_le, Rdiv_lt_0_compat; lra. apply all_sum; auto. }
  unfold Rdiv at 1. rewrite Rabs_mult, (Rabs_right (/ den)) by (apply Rle_ge, Rlt_le, Rinv_0_lt_compat; lra).
  assert (ID : / den <= exp 48). { replace (exp 48) with (/ exp (- 48)). apply Rinv_le_contravar; lra. rewrite <- exp_Ropp. f_equal. lra. }
  replace (show_const * L / sqrt (INR n)) with (L * (90000 / sqrt (INR n)) * 2112 * exp 48) by (unfold show_const; field; lra).
  apply Rmult_le_compat; auto. apply Rabs_pos. apply Rlt_le, Rinv_0_lt_compat; lra.
Qed.
Lemma C101_lemma : exists K, 0 < K /\ forall n nlat nlon phi L, (1 <= n)%nat -> 0 <= L ->
  (forall p q a, is_angle (fst p) (snd p) (fst q) (snd q) a -> Rabs (phi p - phi q) <= L * a) ->
  exists lats lons out, display_grid (Spiral n) nlat nlon (amap phi (grid_points (Spiral n))) = Ok (lats, lons, out)
  /\ forall j i, (j < nlon)%nat -> (i < nlat)%nat ->
     exists v, acell out j i NaN = Fin v /\ Rabs (v - phi (nth i lats 0, nth j lons 0)) <= K * L / sqrt (INR n).
Proof.
  exists show_const. split. { unfold show_const. pose proof (exp_pos 48). lra. }
  intros n nlat nlon phi L Hn HL Lip.
  set (d := map (fun k => phi (sp_pt n k)) (seq 0 n)).
  assert (Ed : amap phi (grid_points (Spiral n)) = mkArr false [d]) by (rewrite spiral_points_eq; unfold amap; simpl; rewrite map_map; auto).
  assert (Ld : length d = n) by (unfold d; rewrite map_length, seq_length; auto).
  destruct (C61_lemma n nlat nlon d Hn Ld) as [lats [lons [out [E [L1 [L2 [Sh C]]]]]]].
  exists lats, lons, out. rewrite Ed. split; auto. intros j i Hj Hi. destruct (C j i Hj Hi) as [v [ws [V1 [_ [V3 [V4 V5]]]]]].
  exists v. split; auto. rewrite rect_point_cell in V4 by auto. cbn [fst snd] in V4.
  assert (El : (nth i lats 0, nth j lons 0) = (lat_i nlat i, lon_j nlon j)).
  { unfold display_grid, arr_shape in E. simpl in E. rewrite Ld, Nat.eqb_refl in E. simpl in E. inversion E.
    f_equal.
    - unfold get_lat_points. rewrite (nth_indep _ 0 (deg2rad 0)) by (rewrite map_length, linspace_length; auto). rewrite map_nth, linspace_nth by auto. apply lat_i_eq.
    - unfold get_lon_points. rewrite (nth_indep _ 0 (deg2rad 0)) by (rewrite map_length, linspace_open_length; auto). rewrite map_nth, linspace_open_nth by auto. apply lon_j_eq. }
  rewrite El. set (q := (lat_i nlat i, lon_j nlon j)).
  assert (ths : exists ths, forall k, (k < n)%nat -> is_angle (spiral_lat n k) (spiral_lon k) (fst q) (snd q) (ths k) /\ nth k ws 0 = exp (- (ths k ^ 2 * INR n / (4 * PI)))).
  { exists (fun k => acos (law_cos (spiral_lat n k) (spiral_lon k) (fst q) (snd q))). intros k Hk. destruct (V4 k Hk) as [th [A B]].
    rewrite spiral_point_cell in A by auto. cbn [fst snd] in A. change (lat_i nlat i) with (fst q) in A. change (lon_j nlon j) with (snd q) in A.
    assert (Et : acos (law_cos (spiral_lat n k) (spiral_lon k) (fst q) (snd q)) = th). { destruct A as [A1 A2]. rewrite law_cos_dot, <- A2. apply acos_cos; auto. }
    rewrite Et. auto. }
  destruct ths as [ths T].
  rewrite V5. rewrite (nth_list ws n V3) at 1 2. unfold d. rewrite combine_map2, map_map. cbn [fst snd].
  apply (show_core n phi L q (fun k => nth k ws 0) ths); auto.
Qed.

(** ** What a grid can see *)
Lemma cells_spiral : forall n, cells (grid_points (Spiral n)) = map (sp_pt n) (seq 0 n).
Proof. intros. rewrite spiral_points_eq. unfold cells. simpl. rewrite app_nil_r. auto. Qed.
Lemma filter_one : forall A (P : A -> bool) l, NoDup l -> (forall x y, In x l -> In y l -> P x = true -> P y = true -> x = y) -> (length (filter P l) <= 1)%nat.
Proof.
  intros A P l N U. assert (N' : NoDup (filter P l)) by (apply NoDup_filter; auto).
  destruct (filter P l) as [|x [|y l']] eqn:E; simpl; try lia. exfalso.
  assert (X : In x (filter P l)) by (rewrite E; simpl; auto). assert (Y : In y (filter P l)) by (rewrite E; simpl; auto).
  apply filter_In in X. apply filter_In in Y. inversion N'; subst. apply H1. left. symmetry. apply U; tauto.
Qed.
Definition vin (v : spot_view) (p : R * R) : bool := Rltb (cos (v_radius v)) (vmu v (fst p) (snd p)).
Lemma C102_lemma : forall c Rs n vs, sc_grid c = Spiral n -> (1 <= n)%nat -> 0 < Rs -> sc_spots c = map v_spot vs ->
  (forall v, In v vs -> view_ok Rs v /\ spot_on (sc_grid c) (v_spot v) /\ fin_temps (v_spot v)) ->
  exists x, sc_get_coverage c Rs = Ok (Fin x)
    /\ (forall v, In v vs -> 24 / sqrt (INR n) < v_radius v -> 1 / INR n <= x)
    /\ ((forall v, In v vs -> v_radius v <= 1 / sqrt (INR n)) -> x <= INR (length vs) / INR n).
Proof.
  intros c Rs n vs Eg Hn HR Es H. assert (N0 : 0 < INR n) by (apply lt_0_INR; lia). pose proof (sqrt_lt_R0 _ N0) as SQ.
  assert (IN : 0 < 1 / INR n) by (apply Rdiv_lt_0_compat; lra).
  assert (G : good_grid (sc_grid c)) by (rewrite Eg; simpl; lia).
  assert (On : forall s, In s (sc_spots c) -> spot_on (sc_grid c) s /\ fin_temps s).
  { intros s I. rewrite Es in I. apply in_map_iff in I. destruct I as [v [<- I]]. apply H; auto. }
  exists (covsum (sc_grid c) Rs (sc_spots c)). split. apply sc_get_coverage_eq; auto.
  assert (V : forall v, In v vs -> view_ok Rs v) by (intros; apply H; auto).
  assert (E : covsum (sc_grid c) Rs (sc_spots c) = 1 / INR n * rsum (map (fun i => if covb Rs (sc_spots c) (sp_pt n i) then 1 else 0) (seq 0 n))).
  { unfold covsum. rewrite Eg, cells_spiral, map_map. cbn [rarea_at]. rewrite rsum_map_scal. auto. }
  rewrite E. split.
  - intros v I R. destruct (proj2 (C100_spiral_lemma n Hn) (sp_lat (v_spot v)) (sp_lon (v_spot v))) as [i [a [Hi [A1 A2]]]].
    unfold pix_lat, pix_lon in A1. rewrite spiral_point_cell in A1 by auto. cbn [fst snd] in A1.
    rewrite <- (Rmult_1_r (1 / INR n)) at 1. apply Rmult_le_compat_l. lra.
    assert (C : covb Rs (sc_spots c) (sp_pt n i) = true).
    { rewrite Es. apply covb_view; auto. exists v. split; auto. unfold vmu, mu, sp_pt. cbn [fst snd]. rewrite law_cos_dot, cos_sep_sym.
      destruct A1 as [A1 <-]. destruct (V v I) as [_ [[[Q1 Q2] _] _]]. apply cos_decreasing_1; lra. }
    pose proof (rsum_incl _ (fun i => if covb Rs (sc_spots c) (sp_pt n i) then 1 else 0) [i] (seq 0 n)) as RI. unfold rsum at 1 in RI. simpl in RI. rewrite C, Rplus_0_r in RI. apply RI.
    + constructor; [intros []|constructor].
    + intros x [<-|[]]. apply in_seq; lia.
    + intros x _. destruct (covb Rs (sc_spots c) (sp_pt n x)); lra.
  - intros R. unfold Rdiv. rewrite Rmult_1_l, (Rmult_comm (INR (length vs))). apply Rmult_le_compat_l. apply Rlt_le, Rinv_0_lt_compat; auto.
    apply Rle_trans with (rsum (map (fun _ : nat => 1) (filter (fun i => covb Rs (sc_spots c) (sp_pt n i)) (seq 0 n)))).
    { right. generalize (seq 0 n). intros l. induction l; simpl; auto. destruct (covb _ _ _); simpl; rewrite <- IHl; unfold rsum; simpl; ring. }
    eapply Rle_trans. apply (rsum_cover _ _ (map (fun v i => vin v (sp_pt n i)) vs)).
    + intros; lra.
    + intros i I. apply filter_In in I. destruct I as [_ I]. rewrite Es in I. apply covb_view in I; auto. destruct I as [v [I C]].
      exists (fun i => vin v (sp_pt n i)). split. apply in_map_iff. eauto. unfold vin. apply Rltb_true. auto.
    + eapply Rle_trans. apply (rsum_map_le _ _ (fun _ => 1)).
      * intros P I. apply in_map_iff in I. destruct I as [v [<- I]].
        rewrite rsum_map_const, Rmult_1_r. change 1 with (INR 1). apply le_INR. apply filter_one. apply NoDup_filter, seq_NoDup.
        intros i j X Y C1 C2. apply filter_In in X. apply filter_In in Y. destruct X as [X _]. destruct Y as [Y _]. apply in_seq in X. apply in_seq in Y.
        destruct (Nat.eq_dec i j) as [|D]; auto. exfalso. unfold vin in *. apply Rltb_true in C1. apply Rltb_true in C2. cbn [sp_pt fst snd] in *.
        unfold vmu in *. destruct (V v I) as [_ [[[Q1 Q2] _] _]].
        apply (acos_lt_iff _ _ (law_cos_bound _ _ _ _)) in C1; auto. apply (acos_lt_iff _ _ (law_cos_bound _ _ _ _)) in C2; auto.
        pose proof (tri (spiral_lat n i) (spiral_lon i) (spiral_lat n j) (spiral_lon j) (sp_lat (v_spot v)) (sp_lon (v_spot v))) as T.
        rewrite (mu_sym (spiral_lat n i) _ (sp_lat _)), (mu_sym (spiral_lat n j) _ (sp_lat _)) in T. unfold mu in T.
        pose proof (proj1 (C100_spiral_lemma n Hn) i j (acos (law_cos (spiral_lat n i) (spiral_lon i) (spiral_lat n j) (spiral_lon j))) ltac:(lia) ltac:(lia) D) as S.
        unfold pix_lat, pix_lon in S. rewrite !spiral_point_cell in S by lia. cbn [fst snd] in S.
        specialize (S ltac:(split; [apply acos_bound|rewrite cos_acos by apply law_cos_bound; apply law_cos_dot])).
        specialize (R v I). replace (2 / sqrt (INR n)) with (2 * (1 / sqrt (INR n))) in S by (field; lra). lra.
      * rewrite rsum_map_const, map_length, Rmult_1_r. lra.
Qed.
Lemma C102_fac_lemma : forall n f Rkm r, (1 <= n)%nat -> fc_radius f = Fin r -> 24 / sqrt (INR n) <= r / Rkm ->
  exists i, pixel (Spiral n) 0 i /\ fac_near (Spiral n) f Rkm 0 i.
Proof.
  intros n f Rkm r Hn Er R. destruct (proj2 (C100_spiral_lemma n Hn) (fc_lat f) (fc_lon f)) as [i [a [Hi [A1 A2]]]].
  exists i. split. unfold pixel. simpl. rewrite map_length, seq_length. lia. exists a, r. split; [|split; auto; lra].
  destruct A1 as [A B]. split; auto. rewrite B. apply cos_sep_sym.
Qed.
