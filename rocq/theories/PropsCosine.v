(** Property C128: cosines in double precision *)
From Coq Require Import Reals ZArith Bool String List Lra Lia.
From Verif Require Import Num Py MConfig MHelpers MGrid MSpots MFaculae MXoflares MFlares MGranules MStar MDouble MCosine
  Spec SpecStar SpecDisk SpecDouble SpecCosine LBase LGrid LSpotMap LDisk LStar LStarFac LHelpers LDouble LDoubleSum LTransit LArea LCosine PropsStar.
Import ListNotations.
Open Scope R_scope.

(** C128 *)
Theorem C128_exact :
  forall s lat0 lon0 g orbit planet phase incl,
  calc_coverage64 (fun x => x) sin cos s lat0 lon0 g orbit planet phase incl = calc_coverage s lat0 lon0 g orbit planet phase incl.
Proof. exact C128_exact_lemma. Qed.
Print Assumptions C128_exact.
Theorem C128_error :
  forall rnd sn cs lat1 lon1 lat2 lon2 th, double_rounding rnd -> accurate sn cs -> Rabs (lon1 - lon2) <= 7 -> is_angle lat1 lon1 lat2 lon2 th ->
  Rabs (law_cos64 rnd sn cs lat1 lon1 lat2 lon2 - cos th) <= 2 / 10^15
  /\ ((exists a, get_angle_between64 rnd sn cs lat1 lon1 lat2 lon2 = Fin a /\ Rabs (a - th) <= 2 / 10^7)
      \/ (get_angle_between64 rnd sn cs lat1 lon1 lat2 lon2 = NaN /\ (th <= 2 / 10^7 \/ PI - 2 / 10^7 <= th))).
Proof. exact C128_error_lemma. Qed.
Print Assumptions C128_error.
Theorem C128_crash :
  forall rnd sn cs s lat0 lon0, star_unified s -> 0 < st_radius s ->
  (forall f, In f (fcc_facs (st_facs s)) -> paintable f /\ (covers_some s f -> law_cos64 rnd sn cs lat0 lon0 (fc_lat f) (fc_lon f) <> 0)) ->
  ((exists f, In f (fcc_facs (st_facs s)) /\ covers_some s f /\ get_angle_between64 rnd sn cs lat0 lon0 (fc_lat f) (fc_lon f) = NaN) ->
     add_faculae_to_map64 rnd sn cs s lat0 lon0 = Raise ValueError
     /\ forall g orbit planet phase incl, calc_coverage64 rnd sn cs s lat0 lon0 g orbit planet phase incl = Raise ValueError)
  /\ ((forall f, In f (fcc_facs (st_facs s)) -> covers_some s f -> get_angle_between64 rnd sn cs lat0 lon0 (fc_lat f) (fc_lon f) <> NaN) ->
     exists M, add_faculae_to_map64 rnd sn cs s lat0 lon0 = Ok M).
Proof. exact C128_crash_lemma. Qed.
Print Assumptions C128_crash.
Theorem C128_transit :
  forall rnd sn cs s lat0 lon0 orbit planet phase incl m pf j i, - PI/2 < lat0 < PI/2 -> pixel (st_grid s) j i ->
  get_angle_between64 rnd sn cs lat0 lon0 (pix_lat (st_grid s) j i) (pix_lon (st_grid s) j i) = NaN ->
  get_transit_mask64 rnd sn cs s lat0 lon0 orbit planet phase incl = Ok (m, pf) -> acell m j i NaN = Fin 0.
Proof. exact C128_transit_lemma. Qed.
Print Assumptions C128_transit.
Theorem C128_happens :
  forall rnd sn cs, double_rounding rnd -> correctly_rounded rnd sn cs ->
  accurate sn cs
  /\ (forall lon, law_cos64 rnd sn cs EIGHT_DEG lon EIGHT_DEG lon = 1 + 1/2^52
        /\ get_angle_between64 rnd sn cs EIGHT_DEG lon EIGHT_DEG lon = NaN)
  /\ (forall s lon0 f, star_unified s -> 0 < st_radius s ->
        (forall h, In h (fcc_facs (st_facs s)) -> paintable h /\ (covers_some s h -> law_cos64 rnd sn cs EIGHT_DEG lon0 (fc_lat h) (fc_lon h) <> 0)) ->
        In f (fcc_facs (st_facs s)) -> covers_some s f -> fc_lat f = EIGHT_DEG -> fc_lon f = lon0 ->
        forall g orbit planet phase incl, calc_coverage64 rnd sn cs s EIGHT_DEG lon0 g orbit planet phase incl = Raise ValueError).
Proof. exact C128_happens_lemma. Qed.
Print Assumptions C128_happens.
(** correctly rounded functions *)
Definition ex_sn (x : R) : R := f64_round (sin x).
Definition ex_cs (x : R) : R := f64_round (cos x).
Lemma ex_correct : double_rounding f64_round /\ correctly_rounded f64_round ex_sn ex_cs.
Proof. split. exact f64_round_nearest. split; reflexivity. Qed.
Example C128_error_nonvacuous : double_rounding f64_round /\ accurate ex_sn ex_cs
  /\ Rabs (1 - 3) <= 7 /\ (exists th, is_angle (1/2) 1 (-1) 3 th)
  /\ get_angle_between64 f64_round ex_sn ex_cs EIGHT_DEG 1 EIGHT_DEG 1 = NaN.
Proof.
  destruct ex_correct as [D C]. destruct (C128_happens f64_round ex_sn ex_cs D C) as [A [B _]].
  split; auto. split; auto. split. { apply Rabs_le. lra. } split; [|apply B].
  exists (acos (cos_sep (1/2) 1 (-1) 3)). pose proof (law_cos_bound (1/2) 1 (-1) 3) as L. rewrite law_cos_dot in L. split. apply acos_bound. apply cos_acos; auto.
Qed.
(** a facula that covers the star, at latitude 8 degrees: the report fails, without rounding it does not *)
Definition ex_fac8 : facula :=
  {| fc_lat := EIGHT_DEG; fc_lon := 1; fc_rmax := Fin 3000000; fc_radius := Fin 3000000; fc_depth := Fin 100; fc_life := Fin 6;
     fc_fslope := Fin 0; fc_fminrad := Fin 20; fc_fbase := Fin (-100); fc_wslope := Fin 0; fc_wint := Fin 120;
     fc_growing := false; fc_grid := Spiral 5 |}.
Definition ex_star8 : star := ex_star 4 [] [ex_fac8] 3300 0.
Definition ex_fac8' : facula := fac_assign_grid ex_fac8 (Spiral 4).
Lemma ex_paintable : paintable ex_fac8'.
Proof.
  exists 3000000, 100, 0, 20, (-100), 0, 120, 120%Z, (-100)%Z. split. repeat split. split. lra. split. lra. split; [|split; [|lia]].
  - unfold wall_diff. replace (120 + 0 * 3000000) with (IZR 120) by ring. cbn [round_teff]. rewrite rhe_IZR. auto.
  - unfold floor_diff. replace (-100 + 0 * (3000000 - 20)) with (IZR (-100)) by ring. cbn [round_teff]. rewrite rhe_IZR. auto.
Qed.
Lemma ex_covers8 : covers_some ex_star8 ex_fac8'.
Proof.
  exists 0%nat, 0%nat. split. { change (st_grid ex_star8) with (Spiral 4). apply ex_pixel. lia. }
  pose proof (law_cos_bound EIGHT_DEG 1 (pix_lat (st_grid ex_star8) 0 0) (pix_lon (st_grid ex_star8) 0 0)) as L. rewrite law_cos_dot in L.
  exists (acos (cos_sep EIGHT_DEG 1 (pix_lat (st_grid ex_star8) 0 0) (pix_lon (st_grid ex_star8) 0 0))), 3000000. split; [|split].
  - split. apply acos_bound. cbn [ex_fac8' fac_assign_grid ex_fac8 fc_lat fc_lon]. apply cos_acos; auto.
  - reflexivity.
  - change (st_radius ex_star8) with 1. unfold SUN_KM. pose proof (acos_bound (cos_sep EIGHT_DEG 1 (pix_lat (st_grid ex_star8) 0 0) (pix_lon (st_grid ex_star8) 0 0))). pose proof PI_4. lra.
Qed.
Example C128_happens_nonvacuous : star_unified ex_star8 /\ 0 < st_radius ex_star8
  /\ (forall h, In h (fcc_facs (st_facs ex_star8)) -> paintable h /\ (covers_some ex_star8 h -> law_cos64 f64_round ex_sn ex_cs EIGHT_DEG 1 (fc_lat h) (fc_lon h) <> 0))
  /\ In ex_fac8' (fcc_facs (st_facs ex_star8)) /\ covers_some ex_star8 ex_fac8' /\ fc_lat ex_fac8' = EIGHT_DEG /\ fc_lon ex_fac8' = 1
  /\ (exists M, add_faculae_to_map ex_star8 EIGHT_DEG 1 = Ok M)
  /\ calc_coverage64 f64_round ex_sn ex_cs ex_star8 EIGHT_DEG 1 (Fin 0) 0 0 0 0 = Raise ValueError.
Proof.
  destruct ex_correct as [D C]. destruct (C128_happens f64_round ex_sn ex_cs D C) as [_ [B K]].
  assert (U : star_unified ex_star8) by apply (ex_unified 4 [] [ex_fac8] 3300 0).
  assert (HR : 0 < st_radius ex_star8) by (cbn; lra).
  assert (HF : forall h, In h (fcc_facs (st_facs ex_star8)) -> paintable h /\ (covers_some ex_star8 h -> law_cos64 f64_round ex_sn ex_cs EIGHT_DEG 1 (fc_lat h) (fc_lon h) <> 0)).
  { intros h [<-|[]]. split. exact ex_paintable. intros _. change (law_cos64 f64_round ex_sn ex_cs EIGHT_DEG 1 EIGHT_DEG 1 <> 0). destruct (B 1) as [-> _].
    assert (0 < 1/2^52) by (apply Rdiv_lt_0_compat; [lra|apply pow_lt; lra]). lra. }
  assert (I : In ex_fac8' (fcc_facs (st_facs ex_star8))) by (left; reflexivity).
  split; auto. split; auto. split; auto. split; auto. split; [exact ex_covers8|]. split; auto. split; auto. split.
  - apply C54_total_lemma; auto. intros f [<-|[]]. destruct ex_paintable as [r [d [fs [fm [fb [ws [wi [kw [kf [T [A1 [A2 [A3 [A4 A5]]]]]]]]]]]]]].
    exists r, d, fs, fm, fb, ws, wi, kw, kf. split; auto. split; auto. split; auto. split; auto. split; auto. split; auto.
    change (cos_sep EIGHT_DEG 1 EIGHT_DEG 1 <> 0). rewrite cos_sep_self. lra.
  - apply (K ex_star8 1 ex_fac8'); auto. exact ex_covers8.
Qed.
Example C128_crash_nonvacuous :
  (exists f, In f (fcc_facs (st_facs ex_star8)) /\ covers_some ex_star8 f /\ get_angle_between64 f64_round ex_sn ex_cs EIGHT_DEG 1 (fc_lat f) (fc_lon f) = NaN)
  /\ (forall f, In f (fcc_facs (st_facs ex_star8)) -> covers_some ex_star8 f -> get_angle_between64 (fun x => x) sin cos EIGHT_DEG 1 (fc_lat f) (fc_lon f) <> NaN).
Proof.
  destruct ex_correct as [D C]. destruct (C128_happens f64_round ex_sn ex_cs D C) as [_ [B _]]. split.
  - exists ex_fac8'. split. left; reflexivity. split. exact ex_covers8. apply (B 1).
  - intros f _ _. unfold get_angle_between64. rewrite exact_law. rewrite nacos_fin by apply law_cos_bound. discriminate.
Qed.
(** sine and cosine rounded up: the pixel in the middle of the disk, behind the planet, is not covered *)
Definition ex_up (f : R -> R) (x : R) : R := Rmin 1 (f x + 1/2^53).
Lemma ex_up_accurate : accurate (ex_up sin) (ex_up cos).
Proof.
  assert (P : 0 < 1/2^53) by (apply Rdiv_lt_0_compat; [lra|apply pow_lt; lra]). set (d := 1/2^53) in *.
  assert (K : forall y, -1 <= y <= 1 -> Rabs (Rmin 1 (y + d) - y) <= d /\ -1 <= Rmin 1 (y + d) <= 1).
  { intros y Y. unfold Rmin. destruct (Rle_dec 1 (y + d)); (split; [apply Rabs_le|]); lra. }
  intros x. split; apply K. apply SIN_bound. apply COS_bound.
Qed.
Definition ex_star1 : star := ex_star 1 [] [] 3300 0.
Lemma ex_pt1 : acell (grid_points (st_grid ex_star1)) 0 0 (0, 0) = (0, 0).
Proof.
  change (st_grid ex_star1) with (Spiral 1). destruct (ex_pt 1 0) as [A B]; [lia|]. unfold pix_lat, pix_lon in A, B.
  destruct (acell (grid_points (Spiral 1)) 0 0 (0, 0)) as [a b]. cbn [fst snd] in A, B. rewrite A, B, ex_lon0. f_equal. unfold spiral_lat, spiral_colat.
  cbn [INR]. replace (1 - 2 * (0 + 1 / 2) / 1) with 0 by field. rewrite acos_0. lra.
Qed.
Example C128_transit_nonvacuous : - PI/2 < 0 < PI/2 /\ pixel (st_grid ex_star1) 0 0
  /\ get_angle_between64 (fun x => x) (ex_up sin) (ex_up cos) 0 0 (pix_lat (st_grid ex_star1) 0 0) (pix_lon (st_grid ex_star1) 0 0) = NaN
  /\ (exists m, get_transit_mask64 (fun x => x) (ex_up sin) (ex_up cos) ex_star1 0 0 100 5 PI (PI/2) = Ok (m, Fin 1))
  /\ (exists m, get_transit_mask ex_star1 0 0 100 5 PI (PI/2) = Ok (m, Fin 1) /\ acell m 0 0 NaN = Fin 1).
Proof.
  pose proof PI_RGT_0 as PP. split. lra. assert (PX : pixel (st_grid ex_star1) 0 0). { change (st_grid ex_star1) with (Spiral 1). apply ex_pixel. lia. }
  split; auto. pose proof ex_pt1 as PT.
  assert (CL : cells (grid_points (st_grid ex_star1)) = [(0, 0)]).
  { change (st_grid ex_star1) with (Spiral 1) in *. cbn in PT |- *. rewrite <- PT. reflexivity. }
  assert (P : 0 < 1/2^53) by (apply Rdiv_lt_0_compat; [lra|apply pow_lt; lra]).
  assert (MU : 1 < law_cos64 (fun x => x) (ex_up sin) (ex_up cos) 0 0 0 0).
  { unfold law_cos64, ex_up. rewrite Rminus_diag_eq by auto. rewrite sin_0, cos_0. set (d := 1/2^53) in *.
    assert (D : d <= 1). { unfold d. apply Rmult_le_reg_r with (2^53). apply pow_lt; lra. unfold Rdiv. rewrite Rmult_assoc, Rinv_l by (apply pow_nonzero; lra). pose proof (pow_R1_Rle 2 53 ltac:(lra)). lra. }
    unfold Rmin. destruct (Rle_dec 1 (0 + d)), (Rle_dec 1 (1 + d)); nra. }
  assert (AN : nacos (Fin (law_cos64 (fun x => x) (ex_up sin) (ex_up cos) 0 0 0 0)) = NaN).
  { unfold nacos. destruct (Rle_dec (-1) _); auto. destruct (Rle_dec _ 1); auto. lra. }
  split. { unfold pix_lat, pix_lon. rewrite PT. exact AN. }
  assert (HR : 0 < st_radius ex_star1) by (cbn; lra).
  assert (XY : planet_xy ex_star1 100 (PI - PI) (PI/2) = (Fin 0, Fin 0)).
  { rewrite planet_xy_eq by auto. rewrite sin_PI, cos_PI2. f_equal; f_equal; ring. }
  assert (EC : Rltb 0 (cos PI) = false) by (unfold Rltb; destruct (Rlt_dec 0 (cos PI)); auto; rewrite cos_PI in r; lra).
  assert (RP : ndiv (Fin 5) (Fin (st_radius ex_star1)) = Fin 5) by (rewrite ndiv_fin by lra; f_equal; change (st_radius ex_star1) with 1; field).
  assert (NG : ngt (nsqrt (nadd (nsq (Fin 0)) (nsq (Fin 0)))) (nadd (Fin 1) (nmul (Fin 2) (Fin 5))) = false).
  { cbn. destruct (Rlt_dec _ 0) as [K|K]; [exfalso; lra|]. replace (0 * 0 + 0 * 0) with 0 by ring. rewrite sqrt_0. cbn. unfold Rltb. destruct (Rlt_dec _ _); auto. lra. }
  split.
  - unfold get_transit_mask64. rewrite XY, RP, NG, EC. rewrite grid_area_eq by discriminate. cbn [bind]. rewrite amap2_amap_r. cbn [bind].
    rewrite cells_amap, CL. cbn [map existsb]. unfold pixel_covered64, proj_ortho_at. cbn [fst snd]. rewrite AN.
    destruct (Req_EM_T (PI/2 - 0) 0); [lra|]. destruct (Req_EM_T (PI/2 - 0) PI); [lra|].
    cbn [nsin]. rewrite !nmul_nan_r. cbn [nsub nadd nsq nmul nsqrt nisnan]. rewrite orb_true_r. cbn [nisnan orb]. eexists. reflexivity.
  - assert (PC : pixel_covered 0 0 (Fin 0) (Fin 0) (Fin 5) (0, 0) (area_at (st_grid ex_star1) (0, 0)) = Fin 1).
    { assert (AR : area_at (st_grid ex_star1) (0, 0) = Fin 1). { change (st_grid ex_star1) with (Spiral 1). cbn. f_equal. field. }
      assert (LC : law_cos 0 0 0 0 = 1) by (rewrite law_cos_dot; apply cos_sep_self).
      assert (PO : proj_ortho 0 0 (0, 0) = (Fin 0, Fin 0)).
      { unfold proj_ortho. destruct (Req_EM_T (PI/2 - 0) 0); [lra|]. destruct (Req_EM_T (PI/2 - 0) PI); [lra|]. rewrite LC.
        rewrite nacos_fin by lra. rewrite acos_1. destruct (Req_EM_T 0 0); [|lra]. destruct (Rlt_dec 0 0); [lra|]. destruct (Rle_dec 0 1); [|lra].
        replace (0 - 0) with 0 by ring. rewrite sin_0. destruct (Rlt_dec 0 0); [lra|]. cbn [nsin ncos nmul]. rewrite sin_0. f_equal; f_equal; ring. }
      unfold pixel_covered. rewrite PO, AR. cbn [fst snd]. rewrite LC.
      replace (nsqrt (Fin 1)) with (Fin 1) by (rewrite nsqrt_fin by lra; rewrite sqrt_1; auto).
      cbn [nsub nneg nadd nsq nmul]. replace ((0 + - 0) * (0 + - 0) + (0 + - 0) * (0 + - 0)) with 0 by ring.
      rewrite nsqrt_fin by lra. rewrite sqrt_0. unfold ngt. cbn [nlt nisnan orb].
      replace (Rltb (5 + 2 * (2 * 1 * 1)) 0) with false by (unfold Rltb; destruct (Rlt_dec _ 0); auto; lra). cbn [orb nadd nlt].
      replace (Rltb (0 + 2 * (2 * 1 * 1)) 5) with true by (unfold Rltb; destruct (Rlt_dec _ 5); auto; lra). reflexivity. }
    unfold get_transit_mask. rewrite XY, RP, NG, EC. rewrite grid_area_eq by discriminate. cbn [bind]. rewrite amap2_amap_r. cbn [bind].
    rewrite cells_amap, CL. cbn [map existsb]. rewrite PC. cbn [nisnan orb]. eexists. split. reflexivity.
    rewrite acell_grid by auto. rewrite PT. exact PC.
Qed.
