(** Lemmas for C71: a well-formed star can always be observed *)
From Coq Require Import Reals ZArith Bool List Lra Lia.
From Verif Require Import Num Py MConfig MHelpers MGrid MSpots MFaculae MFlares MGranules MStar
  Spec SpecStar SpecDisk LBase LGrid LHelpers LSpotMap LSpotCov LFac LDisk LStar LStarFac LTransit LStarCov.
Import ListNotations.
Open Scope R_scope.

(** ** every hemisphere contains a point *)
Lemma mu_pos : forall lat0 lon0 lat lon, - PI/2 <= lat0 <= PI/2 -> 0 < cos lat -> 0 < cos (lon0 - lon) ->
  (0 <= sin lat0 /\ 0 < sin lat \/ sin lat0 <= 0 /\ sin lat < 0) -> 0 < law_cos lat0 lon0 lat lon.
Proof.
  intros lat0 lon0 lat lon L C D S. unfold law_cos.
  assert (C0 : 0 <= cos lat0) by (apply cos_ge_0; lra).
  pose proof (sin2_cos2 lat0) as Q. unfold Rsqr in Q.
  assert (0 < cos lat * cos (lon0 - lon)) by (apply Rmult_lt_0_compat; auto).
  assert (0 <= sin lat0 * sin lat) by (destruct S as [[A B]|[A B]]; nra).
  destruct (Req_dec (cos lat0) 0) as [Z|Z].
  - rewrite Z in *. assert (sin lat0 * sin lat <> 0).
    { intros K. apply Rmult_integral in K. destruct K as [K|K]; [rewrite K in Q; lra|]. rewrite K in S. lra. }
    lra.
  - assert (0 < cos lat0 * (cos lat * cos (lon0 - lon))) by (apply Rmult_lt_0_compat; lra). lra.
Qed.
Lemma rect_lon : forall nlon x, (3 <= nlon)%nat -> exists j, (j < nlon)%nat /\ 0 < cos (x - lon_j nlon j).
Proof.
  intros nlon x N. pose proof PI_RGT_0 as Pp. assert (N3 : 3 <= INR nlon) by (apply (le_INR 3) in N; simpl in N; lra).
  set (g := 2 * PI / INR nlon).
  assert (Gn : g * INR nlon = 2 * PI) by (unfold g; field; lra).
  assert (G0 : 0 < g) by (unfold g; apply Rdiv_lt_0_compat; lra).
  assert (G1 : g <= 2 * PI / 3) by nra.
  set (m := Int_part (x / g + 1/2)). destruct (base_Int_part (x / g + 1/2)) as [B1 B2]. fold m in B1, B2.
  assert (X : x = x / g * g) by (field; lra).
  assert (M1 : - (g / 2) <= x - IZR m * g <= g / 2) by nra.
  pose proof (Z.mod_pos_bound m (Z.of_nat nlon) ltac:(lia)) as Bm.
  exists (Z.to_nat (m mod Z.of_nat nlon)). split. lia.
  assert (E : x - lon_j nlon (Z.to_nat (m mod Z.of_nat nlon)) = x - IZR m * g + 2 * PI * IZR (m / Z.of_nat nlon)).
  { unfold lon_j. fold g. rewrite INR_IZR_INZ, Z2Nat.id by lia.
    assert (Q : IZR m = INR nlon * IZR (m / Z.of_nat nlon) + IZR (m mod Z.of_nat nlon)).
    { rewrite INR_IZR_INZ, <- mult_IZR, <- plus_IZR. f_equal. apply Z.div_mod. lia. }
    rewrite Q, <- Gn. ring. }
  rewrite E, cos_2kPI. apply cos_gt_0; lra.
Qed.
Lemma three_turns : forall x g, cos g < 0 -> sin g <> 0 -> 0 < cos x \/ 0 < cos (x - g) \/ 0 < cos (x - 2 * g).
Proof.
  intros x g C S. destruct (Rlt_dec 0 (cos x)) as [|N1]; auto. destruct (Rlt_dec 0 (cos (x - g))) as [|N2]; auto.
  destruct (Rlt_dec 0 (cos (x - 2 * g))) as [|N3]; auto. exfalso. apply Rnot_lt_le in N1, N2, N3.
  assert (E : cos x + cos (x - 2 * g) = 2 * cos (x - g) * cos g).
  { pose proof (cos_plus (x - g) g) as A. pose proof (cos_minus (x - g) g) as B.
    replace (x - g + g) with x in A by ring. replace (x - g - g) with (x - 2 * g) in B by ring. lra. }
  assert (Z : cos (x - g) = 0) by nra. rewrite Z in E.
  assert (Z0 : cos x = 0) by lra.
  pose proof (cos_plus (x - g) g) as A. replace (x - g + g) with x in A by ring. rewrite Z0, Z in A.
  pose proof (sin2_cos2 (x - g)) as Q. unfold Rsqr in Q. rewrite Z in Q.
  assert (K : sin (x - g) * sin g = 0) by lra. apply Rmult_integral in K. destruct K as [K|K]; [rewrite K in Q; lra|auto].
Qed.
Definition golden_turn : R := 2 * PI / GOLDEN_RATIO.
Lemma golden_range : PI < golden_turn < 3 * (PI / 2).
Proof.
  pose proof PI_RGT_0. unfold golden_turn, GOLDEN_RATIO.
  assert (Q : sqrt 5 * sqrt 5 = 5) by (apply sqrt_sqrt; lra). pose proof (sqrt_pos 5).
  assert (A : 11/5 < sqrt 5 < 9/4) by (split; nra).
  assert (E : 2 * PI / (1/2 * (1 + sqrt 5)) = PI * (sqrt 5 - 1)).
  { apply (Rmult_eq_reg_r (1/2 * (1 + sqrt 5))); [|lra]. unfold Rdiv at 1. rewrite Rmult_assoc, Rinv_l by lra. nra. }
  rewrite E. nra.
Qed.
Lemma spiral_lon_cos : forall x k, cos (x - spiral_lon k) = cos (x - INR k * golden_turn).
Proof.
  intros. unfold spiral_lon, rmod, golden_turn. set (z := Int_part _).
  replace (x - (2 * PI * INR k / GOLDEN_RATIO - 2 * PI * IZR z)) with (x - INR k * (2 * PI / GOLDEN_RATIO) + 2 * PI * IZR z).
  apply cos_2kPI. unfold Rdiv; ring.
Qed.
Lemma spiral_three : forall x i, exists k, (i <= k <= i + 2)%nat /\ 0 < cos (x - spiral_lon k).
Proof.
  intros. pose proof golden_range as [G1 G2]. pose proof PI_RGT_0 as Pp.
  assert (C : cos golden_turn < 0) by (apply cos_lt_0; lra).
  assert (S : sin golden_turn <> 0). { pose proof (sin_lt_0 golden_turn G1 ltac:(lra)). lra. }
  destruct (three_turns (x - INR i * golden_turn) golden_turn C S) as [H|[H|H]].
  - exists i. split. lia. rewrite spiral_lon_cos; auto.
  - exists (i + 1)%nat. split. lia. rewrite spiral_lon_cos, plus_INR. simpl.
    replace (x - (INR i + 1) * golden_turn) with (x - INR i * golden_turn - golden_turn) by ring. auto.
  - exists (i + 2)%nat. split. lia. rewrite spiral_lon_cos, plus_INR. simpl.
    replace (x - (INR i + (1 + 1)) * golden_turn) with (x - INR i * golden_turn - 2 * golden_turn) by ring. auto.
Qed.
Lemma hemisphere : forall g lat0 lon0, fine_grid g -> - PI/2 <= lat0 <= PI/2 ->
  exists j i, pixel g j i /\ 0 < law_cos lat0 lon0 (fst (pt g (j, i))) (snd (pt g (j, i))) /\ 0 < cos (fst (pt g (j, i))).
Proof.
  intros [nlat nlon|n] lat0 lon0 F L; simpl in F; pose proof PI_RGT_0 as Pp.
  - destruct F as [F1 F2]. destruct (rect_lon nlon lon0 F2) as [j [Hj Cj]].
    assert (N3 : 3 <= INR (nlat - 1)) by (replace 3 with (INR 3) by (simpl; lra); apply le_INR; lia).
    assert (H : PI / INR (nlat - 1) <= PI / 3). { unfold Rdiv. apply Rmult_le_compat_l. lra. apply Rinv_le_contravar; lra. }
    assert (H0 : 0 < PI / INR (nlat - 1)) by (apply Rdiv_lt_0_compat; lra).
    assert (K : exists i, (0 < i)%nat /\ (i < nlat - 1)%nat /\ (0 <= sin lat0 /\ 0 < sin (lat_i nlat i) \/ sin lat0 <= 0 /\ sin (lat_i nlat i) < 0)).
    { destruct (Rle_dec 0 (sin lat0)) as [Sg|Sg].
      - exists (nlat - 2)%nat. split. lia. split. lia. left. split; auto.
        assert (E : lat_i nlat (nlat - 2) = PI/2 - PI / INR (nlat - 1)).
        { assert (E1 : INR (nlat - 2) = INR (nlat - 1) - 1) by (rewrite !minus_INR by lia; simpl; lra).
          unfold lat_i. rewrite E1. field. lra. }
        rewrite E. apply sin_gt_0; lra.
      - exists 1%nat. split. lia. split. lia. right. split. lra. unfold lat_i. simpl (INR 1).
        replace (- PI/2 + 1 * (PI / INR (nlat - 1))) with (- (PI/2 - PI / INR (nlat - 1))) by lra. rewrite sin_neg.
        assert (0 < sin (PI/2 - PI / INR (nlat - 1))) by (apply sin_gt_0; lra). lra. }
    destruct K as [i [I1 [I2 S]]]. exists j, i. split. { apply pixel_iff. simpl. lia. }
    unfold pt. cbn [fst snd]. rewrite rect_point_cell by lia. cbn [fst snd].
    pose proof (cos_lat_i_pos nlat i I1 I2). split; auto. apply mu_pos; auto.
  - assert (N6 : 6 <= INR n) by (apply (le_INR 6) in F; simpl in F; lra).
    assert (K : exists i, (i < n)%nat /\ 0 < cos (lon0 - spiral_lon i) /\ (0 <= sin lat0 /\ 0 < sin (spiral_lat n i) \/ sin lat0 <= 0 /\ sin (spiral_lat n i) < 0)).
    { destruct (Rle_dec 0 (sin lat0)) as [Sg|Sg].
      - destruct (spiral_three lon0 0) as [k [[K1 K2] Ck]]. exists k. split. lia. split; auto. left. split; auto.
        rewrite spiral_sin_lat by lia. apply le_INR in K2. simpl in K2.
        assert (2 * (INR k + 1/2) / INR n < 1). apply div_lt; lra. lra.
      - destruct (spiral_three lon0 (n - 3)) as [k [[K1 K2] Ck]]. exists k. split. lia. split; auto. right. split. lra.
        rewrite spiral_sin_lat by lia. apply le_INR in K1. rewrite minus_INR in K1 by lia. simpl in K1.
        assert (1 < 2 * (INR k + 1/2) / INR n). apply lt_div; lra. lra. }
    destruct K as [i [Hi [Ci S]]]. exists 0%nat, i. split. { apply pixel_iff. simpl. lia. }
    unfold pt. cbn [fst snd]. rewrite spiral_point_cell by lia. cbn [fst snd].
    assert (0 < cos (spiral_lat n i)). { pose proof (spiral_lat_range n i Hi). apply cos_gt_0; lra. }
    split; auto. apply mu_pos; auto.
Qed.
Lemma fine_good : forall g, fine_grid g -> good_grid g.
Proof. intros []; simpl; lia. Qed.
Lemma ld_positive_nonneg : forall s, ld_positive s -> ld_nonneg s.
Proof.
  intros s H mu [[M| <-] M1]. apply Rlt_le, H; lra.
  destruct (Rle_dec 0 (1 - st_u1 s * (1 - 0) - st_u2 s * (1 - 0)^2)) as [|N]; auto. exfalso. apply Rnot_le_lt in N.
  set (a := st_u1 s) in *. set (b := st_u2 s) in *.
  set (e := - (1 - a * (1 - 0) - b * (1 - 0)^2)) in *. assert (E : 0 < e) by (unfold e; lra).
  set (K := 1 + e + Rabs a + 2 * Rabs b). pose proof (Rabs_pos a). pose proof (Rabs_pos b).
  pose proof (Rle_abs a). pose proof (Rle_abs b). pose proof (Rle_abs (- b)) as Nb. rewrite Rabs_Ropp in Nb.
  assert (K0 : 0 < K) by (unfold K; lra).
  set (m := e / K). assert (Mk : m * K = e) by (unfold m; field; lra).
  assert (M0 : 0 < m) by (unfold m; apply Rdiv_lt_0_compat; lra).
  assert (m <= 1). { apply div_le; auto. unfold K. lra. }
  pose proof (H m ltac:(lra)) as P. fold a b in P.
  assert (Q : 1 - a * (1 - m) - b * (1 - m)^2 = - e + (a * m + 2 * b * m - b * (m * m))) by (unfold e; ring).
  rewrite Q in P.
  assert (m * m <= m) by nra.
  assert (a * m <= Rabs a * m) by nra.
  assert (2 * b * m - b * (m * m) <= 2 * Rabs b * m).
  { destruct (Rle_dec 0 b). nra. assert (Rabs b = - b) by (apply Rabs_left; lra). nra. }
  unfold K in Mk. nra.
Qed.
Lemma disk_pos : forall s lat0 lon0 A, fine_grid (st_grid s) -> - PI/2 <= lat0 <= PI/2 -> ld_positive s ->
  grid_area (st_grid s) = Ok A -> 0 < disk s lat0 lon0 A.
Proof.
  intros s lat0 lon0 A F L LP HA. assert (G := fine_good _ F). rewrite grid_area_good in HA by auto. injection HA as <-.
  unfold disk. rewrite (grid_sum_pt (st_grid s) (wgt s lat0 lon0)) by (intros; apply seen_pt; auto).
  destruct (hemisphere (st_grid s) lat0 lon0 F L) as [j [i [P [M C]]]].
  apply (rsum_map_pos _ _ _ (pt (st_grid s) (j, i))).
  - intros. apply wgt_nonneg; auto. apply ld_positive_nonneg; auto.
  - apply pt_In; auto.
  - unfold wgt. fold (mup lat0 lon0 (pt (st_grid s) (j, i))) in M. set (mu := mup _ _ _) in *.
    assert (M1 : mu <= 1) by (unfold mu, mup; apply law_cos_bound).
    unfold ld_plot, area_projection. rewrite (proj2 (Rltb_false mu 0)), (proj2 (Rltb_true 0 mu)) by lra.
    apply Rmult_lt_0_compat. { apply LP. lra. } apply Rmult_lt_0_compat; auto.
    clearbody mu. unfold rarea_at. destruct (st_grid s) as [nlat nlon|n]; simpl in G.
    + apply Rdiv_lt_0_compat; auto. apply rect_norm_pos; apply G.
    + apply Rdiv_lt_0_compat. lra. apply INR_pos; auto.
Qed.

(** ** C71 *)
Lemma map_finite : forall s lat0 lon0 M T, star_unified s -> 0 < st_radius s -> st_teff s = Fin T ->
  (forall x, In x (sc_spots (st_spots s)) -> fin_temps x) ->
  (forall f, In f (fcc_facs (st_facs s)) -> is_fin (fc_radius f)) ->
  add_faculae_to_map s lat0 lon0 = Ok M ->
  forall j i, pixel (st_grid s) j i -> is_fin (acell M j i NaN).
Proof.
  intros s lat0 lon0 M T U HR HT HS HF HM j i P. assert (HM0 := star_map_eq s U).
  destruct (C54_lemma s lat0 lon0 _ M U HR HF HM0 HM) as [_ [A _]].
  destruct (existsb (fun f => insidep s f (pt (st_grid s) (j, i))) (fcc_facs (st_facs s))) eqn:E.
  - apply existsb_exists in E. destruct E as [f [I C]]. apply insidep_covers in C; auto.
    destruct (C56_lemma s lat0 lon0 M f j i T U HR HF HM HT P I C) as [v [-> _]]. exists v; auto.
  - rewrite A; auto.
    + rewrite acell_grid by auto. apply fold_pv_fin; auto. exists T; auto.
    + intros f I C. apply insidep_covers in C; auto. assert (X : existsb (fun f => insidep s f (pt (st_grid s) (j, i))) (fcc_facs (st_facs s)) = true).
      { apply existsb_exists. eauto. } congruence.
Qed.
Lemma C71_lemma : forall s lat0 lon0 orbit planet phase incl T D,
  star_unified s -> fine_grid (st_grid s) -> 0 < st_radius s -> ld_positive s -> st_teff s = Fin T -> gr_dteff (st_gran s) = Fin D ->
  (forall x, In x (sc_spots (st_spots s)) -> fin_temps x) ->
  - PI/2 <= lat0 <= PI/2 -> (forall f, In f (fcc_facs (st_facs s)) -> drawable lat0 lon0 f) ->
  0 <= orbit -> 0 <= planet -> (planet <= st_radius s \/ cos phase <= 0) ->
  exists A M C pf, disk_view s lat0 lon0 orbit planet phase incl T D A M C (Fin pf) /\ 0 <= pf <= 1
    /\ 0 < disk s lat0 lon0 A
    /\ (appears (st_grid s) M T \/ D = 0 -> forall f, exists tot cov,
          calc_coverage s lat0 lon0 (Fin f) orbit planet phase incl = Ok (tot, cov, Fin pf)).
Proof.
  intros s lat0 lon0 orbit planet phase incl T D U F HR LP HT HD HS L HF HO HP HC.
  assert (G := fine_good _ F).
  destruct (C54_total_lemma s lat0 lon0 U HF) as [M HM].
  set (A := amap (fun p => Fin (rarea_at (st_grid s) p)) (grid_points (st_grid s))).
  assert (HA : grid_area (st_grid s) = Ok A) by (apply grid_area_good; auto).
  assert (X : exists C pf, get_transit_mask s lat0 lon0 orbit planet phase incl = Ok (C, Fin pf) /\ 0 <= pf <= 1).
  { destruct (C57_lemma s lat0 lon0 orbit planet phase incl HR HO HP) as [X1 [X2 _]].
    set (d := orbit / st_radius s * sqrt (sin phase ^ 2 + cos phase ^ 2 * cos incl ^ 2)) in *.
    destruct (Rlt_dec (1 + 2 * (planet / st_radius s)) d) as [N|N].
    - destruct (X1 N) as [m [E _]]. exists m, 1. split; auto. lra.
    - apply Rnot_lt_le in N. destruct (Rlt_dec 0 (cos phase)) as [K|K].
      + destruct HC as [HC|HC]; [|lra]. destruct X2 as [m [v [E [_ [B _]]]]]; auto. apply div_le; lra. exists m, v. auto.
      + destruct (C58_lemma s lat0 lon0 orbit planet phase incl A G L HR HO HP) as [m [E _]]; auto.
        2: lra. 2: { exists m, 1. split; auto. lra. }
        pose proof (sky_dist_eq s orbit phase incl HR HO) as SD. unfold sky_dist in SD. fold d in SD.
        replace ((- (orbit / st_radius s * sin phase))^2 + (- (orbit / st_radius s * cos phase * cos incl))^2)
          with ((orbit / st_radius s * - sin phase)^2 + (orbit / st_radius s * - cos phase * cos incl)^2) by ring.
        rewrite SD. auto. }
  destruct X as [C [pf [HM' B]]].
  assert (V : disk_view s lat0 lon0 orbit planet phase incl T D A M C (Fin pf)).
  { constructor; auto. apply (map_finite s lat0 lon0 M T); auto.
    intros f I. destruct (HF f I) as [r [d [fs [fm [fb [ws [wi [kw [kf [X _]]]]]]]]]]. exists r. apply X. }
  exists A, M, C, pf. split; auto. split; auto.
  assert (DP : 0 < disk s lat0 lon0 A) by (apply disk_pos; auto). split; auto.
  intros K f. destruct (C52_keyerror_lemma s lat0 lon0 orbit planet phase incl T D A M C (Fin pf) f V ltac:(lra)) as [Y _].
  apply Y. destruct K as [K| ->].
  - exists T. split; auto. left; auto.
  - exists T. split; auto. right. lra.
Qed.
