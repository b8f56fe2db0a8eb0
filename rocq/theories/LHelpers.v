(** Lemmas about MHelpers.v (C07-C10, C12) *)
From Coq Require Import Reals ZArith Bool List Lra Lia Psatz.
From Verif Require Import Num Py MConfig MHelpers MGrid MSpots Spec LBase LGrid.
Import ListNotations.
Open Scope R_scope.

Lemma Rabs_le_inv : forall x a, Rabs x <= a -> - a <= x <= a.
Proof.
  intros. pose proof (Rle_abs x). pose proof (Rle_abs (- x)). rewrite Rabs_Ropp in H1. lra.
Qed.

(** ** C12: rounding and clipping *)
Lemma Int_part_spec : forall x, IZR (Int_part x) <= x < IZR (Int_part x) + 1.
Proof. intros. destruct (base_Int_part x). lra. Qed.
Lemma rhe_spec : forall x, Rabs (IZR (rhe x) - x) <= 1/2
  /\ (Rabs (IZR (rhe x) - x) = 1/2 -> Z.even (rhe x) = true).
Proof.
  intros. unfold rhe. pose proof (Int_part_spec x).
  destruct (Rlt_dec (x - IZR (Int_part x)) (1/2)).
  - rewrite Rabs_left1 by lra. split; [lra | intros; lra].
  - destruct (Rlt_dec (1/2) (x - IZR (Int_part x))).
    + rewrite plus_IZR. rewrite Rabs_right by lra. split; [lra | intros; lra].
    + destruct (Z.even (Int_part x)) eqn:E.
      * rewrite Rabs_left1 by lra. split; [lra | auto].
      * rewrite plus_IZR. rewrite Rabs_right by lra. split; [lra | intros].
        rewrite Z.even_add, E. reflexivity.
Qed.
Lemma rhe_IZR : forall z, rhe (IZR z) = z.
Proof.
  intros. pose proof (proj1 (rhe_spec (IZR z))). rewrite <- minus_IZR in H.
  destruct (Z.eq_dec (rhe (IZR z) - z) 0) as [|n]; [lia|].
  exfalso. assert (1 <= Rabs (IZR (rhe (IZR z) - z))).
  { rewrite <- abs_IZR. apply IZR_le. lia. } lra.
Qed.
Lemma rhe_mono : forall x y, x <= y -> (rhe x <= rhe y)%Z.
Proof.
  intros. destruct (Z_le_gt_dec (rhe x) (rhe y)); auto. exfalso.
  pose proof (proj1 (rhe_spec x)) as A. pose proof (proj1 (rhe_spec y)) as B.
  apply Rabs_le_inv in A. apply Rabs_le_inv in B.
  assert (IZR (rhe y) + 1 <= IZR (rhe x)) by (rewrite <- plus_IZR; apply IZR_le; lia).
  assert (x = y) by lra. subst. lra.
Qed.
Lemma C12_lemma :
  (forall x, exists z, round_teff (Fin x) = Ok z
     /\ Rabs (IZR z - x) <= 1/2
     /\ (Rabs (IZR z - x) = 1/2 -> Z.even z = true)
     /\ round_teff (Fin (IZR z)) = Ok z)
  /\ (forall x y zx zy, x <= y -> round_teff (Fin x) = Ok zx -> round_teff (Fin y) = Ok zy -> (zx <= zy)%Z)
  /\ (forall x, exists v, clip_teff (Fin x) = Fin v /\ 2300 <= v <= 3900
        /\ (2300 <= x <= 3900 -> v = x) /\ clip_teff (Fin v) = Fin v)
  /\ (forall x y vx vy, x <= y -> clip_teff (Fin x) = Fin vx -> clip_teff (Fin y) = Fin vy -> vx <= vy).
Proof.
  split; [|split; [|split]].
  - intros. exists (rhe x). simpl. destruct (rhe_spec x). repeat split; auto. f_equal. apply rhe_IZR.
  - simpl; intros. inversion H0; inversion H1; subst. apply rhe_mono; auto.
  - intros. unfold clip_teff, ngt, TEFF_HI, TEFF_LO. simpl. rcase.
    + exists 3900. repeat split; try lra. unfold clip_teff, ngt, TEFF_HI, TEFF_LO. simpl. rcase; auto; exfalso; lra.
    + exists 2300. repeat split; try lra. unfold clip_teff, ngt, TEFF_HI, TEFF_LO. simpl. rcase; auto; exfalso; lra.
    + exists x. repeat split; try lra. unfold clip_teff, ngt, TEFF_HI, TEFF_LO. simpl. rcase; auto; exfalso; lra.
  - unfold clip_teff, ngt, TEFF_HI, TEFF_LO. simpl. intros x y vx vy H.
    rcase; intros A B; inversion A; inversion B; subst; lra.
Qed.

(** ** C07: angle between directions, haversine *)
Lemma hav_arg : forall lat0 lon0 lat lon,
  (sin (1/2 * (lat0 - lat)))^2 + cos lat * cos lat0 * (sin (1/2 * (lon0 - lon)))^2
  = (1 - law_cos lat0 lon0 lat lon) / 2.
Proof.
  intros. unfold law_cos.
  assert (D : forall x, (sin (1/2 * x))^2 = (1 - cos x) / 2).
  { intros. replace x with (2 * (1/2 * x)) at 2 by field. rewrite cos_2a_sin. simpl; field. }
  rewrite !D. rewrite cos_minus at 1. field.
Qed.
Lemma two_asin_sqrt : forall m, -1 <= m <= 1 -> 2 * asin (sqrt ((1 - m) / 2)) = acos m.
Proof.
  intros. assert (0 <= (1 - m) / 2 <= 1) by lra.
  assert (0 <= sqrt ((1 - m) / 2) <= 1).
  { split. apply sqrt_pos. rewrite <- sqrt_1 at 2. apply sqrt_le_1_alt; lra. }
  assert (0 <= asin (sqrt ((1 - m) / 2)) <= PI/2).
  { pose proof (asin_bound (sqrt ((1 - m) / 2))). split; [|lra].
    destruct (Req_dec (sqrt ((1 - m) / 2)) 0) as [->|]. rewrite asin_0; lra.
    destruct (Rle_dec 0 (asin (sqrt ((1 - m) / 2)))); auto. exfalso.
    assert (sin (asin (sqrt ((1 - m) / 2))) < 0).
    { apply sin_lt_0_var; lra. }
    rewrite sin_asin in H4 by lra. lra. }
  rewrite <- (acos_cos (2 * asin (sqrt ((1 - m) / 2)))) by lra. f_equal.
  rewrite cos_2a_sin. rewrite sin_asin by lra.
  replace (2 * sqrt ((1 - m) / 2) * sqrt ((1 - m) / 2)) with (2 * (sqrt ((1 - m) / 2) * sqrt ((1 - m) / 2))) by ring.
  rewrite sqrt_sqrt by lra. lra.
Qed.
Lemma haversine_eq : forall lat0 lon0 p,
  haversine lat0 lon0 p = Fin (acos (law_cos lat0 lon0 (fst p) (snd p))).
Proof.
  intros. destruct p as [lat lon]. unfold haversine. rewrite hav_arg.
  pose proof (law_cos_bound lat0 lon0 lat lon).
  rewrite nsqrt_fin by lra. rewrite nasin_fin.
  - rewrite nmul_fin, two_asin_sqrt by auto. reflexivity.
  - split. pose proof (sqrt_pos ((1 - law_cos lat0 lon0 lat lon) / 2)); lra.
    replace 1 with (sqrt 1) at 2 by apply sqrt_1. apply sqrt_le_1_alt; lra.
Qed.
Lemma acos_eq_0 : forall m, -1 <= m <= 1 -> acos m = 0 -> m = 1.
Proof. intros. rewrite <- (cos_acos m) by auto. rewrite H0. apply cos_0. Qed.
Lemma dot_1_eq : forall a b, dot a a = 1 -> dot b b = 1 -> dot a b = 1 -> a = b.
Proof.
  intros [[a1 a2] a3] [[b1 b2] b3]. unfold dot. intros.
  assert ((a1 - b1)^2 + (a2 - b2)^2 + (a3 - b3)^2 = 0) by nra.
  pose proof (pow2_ge_0 (a1 - b1)). pose proof (pow2_ge_0 (a2 - b2)). pose proof (pow2_ge_0 (a3 - b3)).
  assert (a1 - b1 = 0) by (apply Rsqr_0_uniq; unfold Rsqr; nra).
  assert (a2 - b2 = 0) by (apply Rsqr_0_uniq; unfold Rsqr; nra).
  assert (a3 - b3 = 0) by (apply Rsqr_0_uniq; unfold Rsqr; nra).
  repeat f_equal; lra.
Qed.
Lemma C07_lemma : forall lat1 lon1 lat2 lon2, exists th,
  get_angle_between lat1 lon1 lat2 lon2 = Fin th
  /\ is_angle lat1 lon1 lat2 lon2 th
  /\ get_angle_between lat2 lon2 lat1 lon1 = Fin th
  /\ (th = 0 <-> vec lat1 lon1 = vec lat2 lon2)
  /\ haversine lat1 lon1 (lat2, lon2) = Fin th.
Proof.
  intros. pose proof (law_cos_bound lat1 lon1 lat2 lon2) as B.
  exists (acos (law_cos lat1 lon1 lat2 lon2)). unfold get_angle_between.
  rewrite !nacos_fin by apply law_cos_bound.
  split; auto. split. { split. apply acos_bound. rewrite cos_acos by auto. apply law_cos_dot. }
  split. { do 2 f_equal. unfold law_cos. replace (lon2 - lon1) with (- (lon1 - lon2)) by ring.
    rewrite cos_neg. ring. }
  split. { split; intros.
    - apply acos_eq_0 in H; auto. apply dot_1_eq; try apply vec_norm. rewrite <- H. symmetry; apply law_cos_dot.
    - replace (law_cos lat1 lon1 lat2 lon2) with 1. apply acos_1.
      rewrite law_cos_dot. unfold cos_sep. rewrite H. symmetry; apply vec_norm. }
  apply haversine_eq.
Qed.

(** ** C08, C09: orthographic projection *)
Lemma ortho_pyth : forall lat0 lon0 lat lon,
  (ortho_x lat0 lon0 lat lon)^2 + (ortho_y lat0 lon0 lat lon)^2 + (cos_sep lat0 lon0 lat lon)^2 = 1.
Proof.
  intros. unfold ortho_x, ortho_y, cos_sep, dot, east, north, vec.
  pose proof (sin2_cos2 lat0). pose proof (sin2_cos2 lon0).
  pose proof (sin2_cos2 lat). pose proof (sin2_cos2 lon).
  unfold Rsqr in *.
  set (s0 := sin lat0) in *. set (c0 := cos lat0) in *. set (sl0 := sin lon0) in *. set (cl0 := cos lon0) in *.
  set (s := sin lat) in *. set (c := cos lat) in *. set (sl := sin lon) in *. set (cl := cos lon) in *.
  transitivity (c*c*(cl*cl+sl*sl)*(cl0*cl0+sl0*sl0) * 1 + s*s
     + (s0*s0+c0*c0 - 1) * (s*s + (c*cl*cl0 + c*sl*sl0)^2) + 0).
  ring. replace (cl*cl+sl*sl) with 1 by lra. replace (cl0*cl0+sl0*sl0) with 1 by lra.
  replace (s0*s0+c0*c0-1) with 0 by lra. lra.
Qed.
Lemma ortho_y_eq : forall lat0 lon0 lat lon,
  ortho_y lat0 lon0 lat lon * cos lat0 = sin lat - law_cos lat0 lon0 lat lon * sin lat0.
Proof.
  intros. unfold ortho_y, law_cos, dot, north, vec. rewrite cos_minus.
  pose proof (sin2_cos2 lat0). unfold Rsqr in H.
  transitivity (sin lat * (cos lat0 * cos lat0) - sin lat0 * cos lat0 * cos lat * (cos lon0 * cos lon + sin lon0 * sin lon)).
  ring. replace (cos lat0 * cos lat0) with (1 - sin lat0 * sin lat0) by lra. ring.
Qed.
Lemma ortho_x_eq : forall lat0 lon0 lat lon, ortho_x lat0 lon0 lat lon = cos lat * sin (lon - lon0).
Proof. intros. unfold ortho_x, dot, east, vec. rewrite sin_minus. ring. Qed.
Lemma round4_err : forall x, Rabs (round4 x - x) <= 1/20000.
Proof.
  intros. unfold round4. pose proof (proj1 (rhe_spec (x * 10000))).
  replace (IZR (rhe (x * 10000)) / 10000 - x) with ((IZR (rhe (x * 10000)) - x * 10000) * (/ 10000)) by field.
  rewrite Rabs_mult. rewrite (Rabs_right (/ 10000)) by lra. lra.
Qed.
Lemma round4_bound : forall x, -1 <= x <= 1 -> -1 <= round4 x <= 1.
Proof.
  intros. unfold round4.
  assert (-10000 <= rhe (x * 10000) <= 10000)%Z.
  { assert (rhe (x * 10000) <= rhe (IZR 10000))%Z by (apply rhe_mono; lra).
    assert (rhe (IZR (-10000)) <= rhe (x * 10000))%Z by (apply rhe_mono; lra).
    rewrite rhe_IZR in *. lia. }
  destruct H0 as [A B]. apply IZR_le in A. apply IZR_le in B. lra.
Qed.
Lemma sin_acos_nn : forall m, -1 <= m <= 1 -> 0 <= sin (acos m).
Proof. intros. rewrite sin_acos by auto. apply sqrt_pos. Qed.
Lemma sin_acos_sq : forall m, -1 <= m <= 1 -> (sin (acos m))^2 = 1 - m^2.
Proof.
  intros. rewrite sin_acos by auto. unfold Rsqr. rewrite pow2_sqrt. ring. nra.
Qed.

(** what the general branch computes, at a visible point *)
Definition po_ratio lat0 lon0 lat lon : R :=
  ortho_y lat0 lon0 lat lon / sin (acos (law_cos lat0 lon0 lat lon)).
Definition po_cosC lat0 lon0 lat lon : R :=
  if Rlt_dec (law_cos lat0 lon0 lat lon) 1 then round4 (po_ratio lat0 lon0 lat lon) else 1.
Definition po_C lat0 lon0 lat lon : R :=
  let C0 := if Req_EM_T lon lon0 then (if Rlt_dec lat lat0 then PI else 0)
            else acos (po_cosC lat0 lon0 lat lon) in
  if Rlt_dec (sin (lon - lon0)) 0 then - C0 else C0.

Lemma po_ratio_bound : forall lat0 lon0 lat lon, law_cos lat0 lon0 lat lon < 1 ->
  -1 < law_cos lat0 lon0 lat lon ->
  0 < sin (acos (law_cos lat0 lon0 lat lon)) /\ -1 <= po_ratio lat0 lon0 lat lon <= 1.
Proof.
  intros. set (m := law_cos lat0 lon0 lat lon) in *.
  assert (B : -1 <= m <= 1) by lra.
  pose proof (sin_acos_sq m B) as S. pose proof (sin_acos_nn m B) as P.
  assert (0 < sin (acos m)).
  { destruct P as [|P]; auto. rewrite <- P in S. nra. }
  split; auto. unfold po_ratio. fold m.
  pose proof (ortho_pyth lat0 lon0 lat lon) as Y. rewrite <- law_cos_dot in Y. fold m in Y.
  set (y := ortho_y lat0 lon0 lat lon) in *. set (x := ortho_x lat0 lon0 lat lon) in *.
  assert (y^2 <= (sin (acos m))^2) by (pose proof (pow2_ge_0 x); lra).
  assert (- sin (acos m) <= y <= sin (acos m)).
  { split; nra. }
  split. apply le_div; auto; lra. apply div_le; auto; lra.
Qed.
Lemma po_cosC_bound : forall lat0 lon0 lat lon, -1 < law_cos lat0 lon0 lat lon ->
  -1 <= po_cosC lat0 lon0 lat lon <= 1.
Proof.
  intros. unfold po_cosC. destruct (Rlt_dec _ 1); [|lra].
  apply round4_bound. apply po_ratio_bound; auto.
Qed.
Lemma proj_ortho_visible : forall lat0 lon0 lat lon, - PI/2 < lat0 < PI/2 ->
  0 <= cos_sep lat0 lon0 lat lon ->
  proj_ortho lat0 lon0 (lat, lon)
  = (Fin (sin (po_C lat0 lon0 lat lon) * sin (acos (law_cos lat0 lon0 lat lon))),
     Fin (cos (po_C lat0 lon0 lat lon) * sin (acos (law_cos lat0 lon0 lat lon)))).
Proof.
  intros. rewrite <- law_cos_dot in H0.
  pose proof (law_cos_bound lat0 lon0 lat lon) as B. pose proof PI_RGT_0.
  unfold proj_ortho.
  destruct (Req_EM_T (PI/2 - lat0) 0); [lra|]. destruct (Req_EM_T (PI/2 - lat0) PI); [lra|].
  destruct (Rle_dec 0 (law_cos lat0 lon0 lat lon)) as [Hv|Hv]; [|lra].
  rewrite nacos_fin by auto.
  assert (Hc : (if Rlt_dec (law_cos lat0 lon0 lat lon) 1
      then ndiv (nsub (Fin (cos (PI / 2 - lat))) (nmul (ncos (Fin (acos (law_cos lat0 lon0 lat lon)))) (Fin (cos (PI / 2 - lat0)))))
         (if neq (nmul (nsin (Fin (acos (law_cos lat0 lon0 lat lon)))) (Fin (sin (PI / 2 - lat0)))) (Fin 0)
          then Fin (1 / 100000000000000000000)
          else nmul (nsin (Fin (acos (law_cos lat0 lon0 lat lon)))) (Fin (sin (PI / 2 - lat0))))
      else Fin 1) = Fin (if Rlt_dec (law_cos lat0 lon0 lat lon) 1 then po_ratio lat0 lon0 lat lon else 1)).
  { destruct (Rlt_dec (law_cos lat0 lon0 lat lon) 1); auto.
    destruct (po_ratio_bound lat0 lon0 lat lon) as [P Q]; auto; [lra|].
    assert (0 < cos lat0) by (apply cos_gt_0; lra).
    simpl. rewrite cos_acos by auto. rewrite <- !sin_cos_sym || idtac.
    replace (cos (PI/2 - lat)) with (sin lat) by (symmetry; apply cos_shift).
    replace (cos (PI/2 - lat0)) with (sin lat0) by (symmetry; apply cos_shift).
    replace (sin (PI/2 - lat0)) with (cos lat0) by (symmetry; apply sin_shift).
    assert (0 < sin (acos (law_cos lat0 lon0 lat lon)) * cos lat0) by (apply Rmult_lt_0_compat; auto).
    rcase; [lra|]. destruct (Req_EM_T _ 0); [lra|]. f_equal. unfold po_ratio.
    pose proof (ortho_y_eq lat0 lon0 lat lon).
    replace (sin lat + - (law_cos lat0 lon0 lat lon * sin lat0)) with (ortho_y lat0 lon0 lat lon * cos lat0) by lra.
    field. lra. }
  rewrite Hc. clear Hc.
  assert (Hr : nround4 (Fin (if Rlt_dec (law_cos lat0 lon0 lat lon) 1 then po_ratio lat0 lon0 lat lon else 1))
     = Fin (po_cosC lat0 lon0 lat lon)).
  { unfold po_cosC. simpl. destruct (Rlt_dec _ 1); auto. f_equal. unfold round4.
    replace (1 * 10000) with (IZR 10000) by lra. rewrite rhe_IZR. lra. }
  rewrite Hr. clear Hr.
  rewrite nacos_fin by (apply po_cosC_bound; lra).
  unfold po_C. destruct (Req_EM_T lon lon0); [destruct (Rlt_dec lat lat0)|];
    destruct (Rlt_dec (sin (lon - lon0)) 0); simpl; auto.
Qed.
Lemma po_C_meridian : forall lat0 lon0 lat, 
  po_C lat0 lon0 lat lon0 = if Rlt_dec lat lat0 then PI else 0.
Proof.
  intros. unfold po_C. destruct (Req_EM_T lon0 lon0); [|congruence].
  rewrite Rminus_diag_eq by auto. rewrite sin_0. destruct (Rlt_dec 0 0); [lra|]. auto.
Qed.
Lemma po_C_cos : forall lat0 lon0 lat lon, lon <> lon0 -> -1 < law_cos lat0 lon0 lat lon ->
  cos (po_C lat0 lon0 lat lon) = po_cosC lat0 lon0 lat lon
  /\ 0 <= sin (po_C lat0 lon0 lat lon) * sin (lon - lon0).
Proof.
  intros. unfold po_C. destruct (Req_EM_T lon lon0); [congruence|].
  pose proof (po_cosC_bound lat0 lon0 lat lon H0) as B.
  pose proof (sin_acos_nn _ B).
  destruct (Rlt_dec (sin (lon - lon0)) 0).
  - rewrite cos_neg, cos_acos, sin_neg by auto. split; auto. nra.
  - rewrite cos_acos by auto. split; auto. nra.
Qed.

Lemma proj_ortho_pole : forall lat0 lon0 lat lon, lat0 = PI/2 \/ lat0 = - PI/2 ->
  - PI/2 <= lat <= PI/2 ->
  (0 <= cos_sep lat0 lon0 lat lon ->
     proj_ortho lat0 lon0 (lat, lon) = (Fin (ortho_x lat0 0 lat lon), Fin (ortho_y lat0 0 lat lon)))
  /\ (cos_sep lat0 lon0 lat lon < 0 -> proj_ortho lat0 lon0 (lat, lon) = (NaN, NaN)).
Proof.
  intros. pose proof PI_RGT_0.
  assert (S : 0 <= lat -> 0 <= sin lat) by (intros; apply sin_ge_0; lra).
  assert (S' : lat < 0 -> sin lat < 0) by (intros; apply sin_lt_0_var; lra).
  assert (S2 : lat <= 0 -> sin lat <= 0) by (intros [?| ->]; [left; auto | rewrite sin_0; lra]).
  assert (S3 : 0 < lat -> 0 < sin lat) by (intros; apply sin_gt_0; lra).
  unfold cos_sep, dot, vec, proj_ortho, ortho_x, ortho_y, east, north, dot, vec.
  rewrite sin_0, cos_0.
  assert (HP : - PI / 2 = - (PI/2)) by lra.
  destruct H as [-> | ->].
  - rewrite sin_PI2, cos_PI2. destruct (Req_EM_T (PI/2 - PI/2) 0); [|lra].
    split; intros.
    + destruct (Rle_dec (PI/2 - lat) (PI/2)); [|assert (lat < 0) by lra; apply S' in H2; lra].
      simpl. replace (sin (PI/2 - lat)) with (cos lat) by (symmetry; apply sin_shift).
      rewrite Rtrigo_facts.sin_pi_minus, Rtrigo_facts.cos_pi_minus. f_equal; f_equal; ring.
    + destruct (Rle_dec (PI/2 - lat) (PI/2)); [assert (0 <= lat) by lra; apply S in H2; lra|].
      reflexivity.
  - rewrite HP. rewrite sin_neg, cos_neg, sin_PI2, cos_PI2.
    destruct (Req_EM_T (PI/2 - - (PI/2)) 0); [lra|].
    destruct (Req_EM_T (PI/2 - - (PI/2)) PI); [|lra].
    split; intros.
    + destruct (Rle_dec (PI/2) (PI/2 - lat)); [|assert (0 < lat) by lra; apply S3 in H2; lra].
      simpl. replace (sin (PI/2 - lat)) with (cos lat) by (symmetry; apply sin_shift).
      f_equal; f_equal; ring.
    + destruct (Rle_dec (PI/2) (PI/2 - lat)); [assert (lat <= 0) by lra; apply S2 in H2; lra|].
      reflexivity.
Qed.
Lemma proj_ortho_hidden : forall lat0 lon0 lat lon, - PI/2 < lat0 < PI/2 ->
  cos_sep lat0 lon0 lat lon < 0 -> proj_ortho lat0 lon0 (lat, lon) = (NaN, NaN).
Proof.
  intros. rewrite <- law_cos_dot in H0. pose proof PI_RGT_0. unfold proj_ortho.
  destruct (Req_EM_T (PI/2 - lat0) 0); [lra|]. destruct (Req_EM_T (PI/2 - lat0) PI); [lra|].
  destruct (Rle_dec 0 (law_cos lat0 lon0 lat lon)) as [Hv|Hv]; [lra|].
  destruct (Rlt_dec (sin (lon - lon0)) 0); reflexivity.
Qed.

Lemma C08_lemma : forall lat0 lon0 lat lon,
  - PI/2 <= lat0 <= PI/2 -> - PI/2 <= lat <= PI/2 ->
  (cos_sep lat0 lon0 lat lon < 0 -> proj_ortho lat0 lon0 (lat, lon) = (NaN, NaN))
  /\ (0 <= cos_sep lat0 lon0 lat lon -> exists x y,
        proj_ortho lat0 lon0 (lat, lon) = (Fin x, Fin y)
        /\ x^2 + y^2 = 1 - (cos_sep lat0 lon0 lat lon)^2
        /\ x^2 + y^2 <= 1
        /\ (- PI/2 < lat0 < PI/2 -> 0 <= x * sin (lon - lon0))).
Proof.
  intros. destruct (Rle_lt_or_eq_dec (-PI/2) lat0); try lra;
    [destruct (Rle_lt_or_eq_dec lat0 (PI/2)); try lra|].
  - split; intros. apply proj_ortho_hidden; auto.
    do 2 eexists. split. apply proj_ortho_visible; auto.
    pose proof (law_cos_bound lat0 lon0 lat lon) as B.
    assert (E : (sin (po_C lat0 lon0 lat lon) * sin (acos (law_cos lat0 lon0 lat lon)))^2
      + (cos (po_C lat0 lon0 lat lon) * sin (acos (law_cos lat0 lon0 lat lon)))^2
      = 1 - (cos_sep lat0 lon0 lat lon)^2).
    { rewrite <- law_cos_dot. rewrite <- sin_acos_sq by auto.
      pose proof (sin2_cos2 (po_C lat0 lon0 lat lon)) as Q. unfold Rsqr in Q.
      set (t := sin (acos (law_cos lat0 lon0 lat lon))) in *.
      transitivity ((sin (po_C lat0 lon0 lat lon) * sin (po_C lat0 lon0 lat lon)
         + cos (po_C lat0 lon0 lat lon) * cos (po_C lat0 lon0 lat lon)) * t^2); [ring|]. rewrite Q; ring. }
    split; auto. split. rewrite E. pose proof (pow2_ge_0 (cos_sep lat0 lon0 lat lon)); lra.
    intros _. destruct (Req_dec lon lon0).
    + subst. rewrite Rminus_diag_eq by auto. rewrite sin_0. lra.
    + destruct (po_C_cos lat0 lon0 lat lon) as [_ P]; auto. rewrite law_cos_dot. lra.
      pose proof (sin_acos_nn _ B). nra.
  - subst. destruct (proj_ortho_pole (PI/2) lon0 lat lon) as [A C]; auto.
    split; auto. intros. do 2 eexists. split; auto.
    pose proof (ortho_pyth (PI/2) 0 lat lon).
    assert ((cos_sep (PI/2) 0 lat lon)^2 = (cos_sep (PI/2) lon0 lat lon)^2).
    { unfold cos_sep, dot, vec. rewrite cos_PI2; ring. }
    pose proof (pow2_ge_0 (cos_sep (PI/2) lon0 lat lon)).
    split; [lra|]. split; [lra|]. intros; lra.
  - subst. destruct (proj_ortho_pole (-PI/2) lon0 lat lon) as [A C]; auto.
    split; auto. intros. do 2 eexists. split; auto.
    pose proof (ortho_pyth (-PI/2) 0 lat lon).
    assert ((cos_sep (-PI/2) 0 lat lon)^2 = (cos_sep (-PI/2) lon0 lat lon)^2).
    { unfold cos_sep, dot, vec. replace (-PI/2) with (- (PI/2)) by lra. rewrite cos_neg, cos_PI2; ring. }
    pose proof (pow2_ge_0 (cos_sep (-PI/2) lon0 lat lon)).
    split; [lra|]. split; [lra|]. intros; lra.
Qed.

Lemma C09_lemma : forall lat0 lon0 lat lon, - PI/2 < lat0 < PI/2 -> - PI/2 <= lat <= PI/2 ->
  0 <= cos_sep lat0 lon0 lat lon ->
  exists x y th, proj_ortho lat0 lon0 (lat, lon) = (Fin x, Fin y)
   /\ is_angle lat0 lon0 lat lon th
   /\ Rabs (y - ortho_y lat0 lon0 lat lon) <= 5/100000 * sin th
   /\ Rabs (x^2 - (ortho_x lat0 lon0 lat lon)^2) <= 1/10000 * (sin th)^2
   /\ (lon = lon0 -> x = ortho_x lat0 lon0 lat lon /\ y = ortho_y lat0 lon0 lat lon).
Proof.
  intros. exists (sin (po_C lat0 lon0 lat lon) * sin (acos (law_cos lat0 lon0 lat lon))).
  exists (cos (po_C lat0 lon0 lat lon) * sin (acos (law_cos lat0 lon0 lat lon))).
  exists (acos (law_cos lat0 lon0 lat lon)).
  pose proof (law_cos_bound lat0 lon0 lat lon) as B.
  split. apply proj_ortho_visible; auto.
  split. { split. apply acos_bound. rewrite cos_acos by auto. apply law_cos_dot. }
  assert (Hm : lon = lon0 -> sin (po_C lat0 lon0 lat lon) * sin (acos (law_cos lat0 lon0 lat lon)) = ortho_x lat0 lon0 lat lon
     /\ cos (po_C lat0 lon0 lat lon) * sin (acos (law_cos lat0 lon0 lat lon)) = ortho_y lat0 lon0 lat lon).
  { intros ->. rewrite po_C_meridian, ortho_x_eq. rewrite Rminus_diag_eq by auto. rewrite sin_0.
    assert (Y : ortho_y lat0 lon0 lat lon0 = sin (lat - lat0)).
    { unfold ortho_y, dot, north, vec. rewrite sin_minus. pose proof (sin2_cos2 lon0). unfold Rsqr in H2.
      transitivity (sin lat * cos lat0 - cos lat * sin lat0 * (sin lon0 * sin lon0 + cos lon0 * cos lon0)). ring. rewrite H2; ring. }
    assert (M : law_cos lat0 lon0 lat lon0 = cos (lat - lat0)).
    { unfold law_cos. rewrite Rminus_diag_eq by auto. rewrite cos_0, cos_minus. ring. }
    rewrite Y, M. destruct (Rlt_dec lat lat0).
    - rewrite <- (cos_neg (lat - lat0)). rewrite acos_cos by lra. rewrite sin_PI, cos_PI, sin_neg. split; lra.
    - rewrite acos_cos by lra. rewrite sin_0, cos_0. split; lra. }
  pose proof (sin_acos_nn _ B) as N.
  destruct (Req_dec lon lon0) as [E|E].
  - destruct (Hm E) as [-> ->]. rewrite !Rminus_diag_eq by auto. rewrite Rabs_R0.
    pose proof (pow2_ge_0 (sin (acos (law_cos lat0 lon0 lat lon)))).
    repeat split; auto; try lra; intros; lra.
  - assert (Hy : Rabs (cos (po_C lat0 lon0 lat lon) * sin (acos (law_cos lat0 lon0 lat lon)) - ortho_y lat0 lon0 lat lon)
       <= 5/100000 * sin (acos (law_cos lat0 lon0 lat lon))).
    { destruct (po_C_cos lat0 lon0 lat lon) as [-> _]; auto. rewrite law_cos_dot; lra.
      unfold po_cosC. destruct (Rlt_dec (law_cos lat0 lon0 lat lon) 1).
      - destruct (po_ratio_bound lat0 lon0 lat lon) as [P _]; auto. rewrite law_cos_dot; lra.
        set (t := sin (acos (law_cos lat0 lon0 lat lon))) in *.
        replace (ortho_y lat0 lon0 lat lon) with (po_ratio lat0 lon0 lat lon * t).
        2:{ unfold po_ratio. fold t. field. lra. }
        rewrite <- Rmult_minus_distr_r. rewrite Rabs_mult, (Rabs_right t) by lra.
        apply Rmult_le_compat_r; auto. pose proof (round4_err (po_ratio lat0 lon0 lat lon)). lra.
      - assert (law_cos lat0 lon0 lat lon = 1) by lra.
        pose proof (ortho_pyth lat0 lon0 lat lon). rewrite <- law_cos_dot in H3. rewrite H2 in H3.
        pose proof (pow2_ge_0 (ortho_x lat0 lon0 lat lon)). pose proof (pow2_ge_0 (ortho_y lat0 lon0 lat lon)).
        assert (ortho_y lat0 lon0 lat lon = 0) by (apply Rsqr_0_uniq; unfold Rsqr; nra).
        rewrite H2, H6, acos_1, sin_0. rewrite Rabs_right; lra. }
    split; auto. split; [|intros; contradiction].
    destruct (C08_lemma lat0 lon0 lat lon) as [_ D]; try lra.
    destruct (D H1) as [x [y [P [Q _]]]]. rewrite proj_ortho_visible in P by auto.
    inversion P as [[P1 P2]]. rewrite P1. rewrite P2 in Hy. clear D P.
    pose proof (ortho_pyth lat0 lon0 lat lon) as O.
    pose proof (sin_acos_sq _ B) as S. rewrite law_cos_dot in S at 2.
    set (t := sin (acos (law_cos lat0 lon0 lat lon))) in *.
    assert (Z : x^2 - (ortho_x lat0 lon0 lat lon)^2 = - ((y - ortho_y lat0 lon0 lat lon) * (y + ortho_y lat0 lon0 lat lon))) by nra.
    rewrite P1 in *. rewrite Z, Rabs_Ropp, Rabs_mult.
    assert (Rabs (y + ortho_y lat0 lon0 lat lon) <= 2 * t).
    { assert (- t <= y <= t) by (pose proof (pow2_ge_0 x); split; nra).
      assert (- t <= ortho_y lat0 lon0 lat lon <= t)
        by (pose proof (pow2_ge_0 (ortho_x lat0 lon0 lat lon)); split; nra).
      apply Rabs_le; lra. }
    pose proof (Rabs_pos (y - ortho_y lat0 lon0 lat lon)). pose proof (Rabs_pos (y + ortho_y lat0 lon0 lat lon)).
    replace (1/10000 * t^2) with ((5/100000 * t) * (2 * t)) by (simpl; field).
    apply Rmult_le_compat; auto.
Qed.
Lemma C09_pole_lemma : forall lat0 lon0 lat lon, lat0 = PI/2 \/ lat0 = - PI/2 ->
  - PI/2 <= lat <= PI/2 -> 0 <= cos_sep lat0 lon0 lat lon ->
  proj_ortho lat0 lon0 (lat, lon) = (Fin (ortho_x lat0 0 lat lon), Fin (ortho_y lat0 0 lat lon))
  /\ (ortho_x lat0 0 lat lon = ortho_x lat0 lon0 lat lon
       /\ ortho_y lat0 0 lat lon = ortho_y lat0 lon0 lat lon
       <-> cos lat = 0 \/ exists k : Z, lon0 = 2 * PI * IZR k).
Proof.
  intros. split. apply proj_ortho_pole; auto.
  assert (HP : - PI / 2 = - (PI/2)) by lra.
  assert (K : (sin lon = sin (lon - lon0) /\ cos lon = cos (lon - lon0)) <-> exists k : Z, lon0 = 2 * PI * IZR k).
  { split.
    - intros [A C]. rewrite sin_minus in A. rewrite cos_minus in C.
      pose proof (sin2_cos2 lon) as S. pose proof (sin2_cos2 lon0) as S0. unfold Rsqr in *.
      assert (cos lon0 = 1).
      { assert (sin lon * sin lon + cos lon * cos lon
          = (sin lon * cos lon0 - cos lon * sin lon0) * sin lon + (cos lon * cos lon0 + sin lon * sin lon0) * cos lon)
          by (rewrite <- A, <- C; ring).
        rewrite S in H2. assert ((sin lon * sin lon + cos lon * cos lon) * cos lon0 = 1) by lra.
        rewrite S in H3. lra. }
      assert (sin (lon0 / 2) = 0).
      { replace lon0 with (2 * (lon0/2)) in H2 by field. rewrite cos_2a_sin in H2.
        apply Rsqr_0_uniq. unfold Rsqr. nra. }
      apply sin_eq_0_0 in H3. destruct H3 as [k H3]. exists k. lra.
    - intros [k ->]. rewrite <- (sin_2kPI (lon - 2 * PI * IZR k) k), <- (cos_2kPI (lon - 2 * PI * IZR k) k).
      replace (lon - 2 * PI * IZR k + 2 * PI * IZR k) with lon by ring. auto. }
  rewrite <- K. clear K.
  rewrite !ortho_x_eq. rewrite Rminus_0_r. unfold ortho_y, dot, north, vec. rewrite sin_0, cos_0, cos_minus.
  assert (E : sin lat0 * sin lat0 = 1 /\ cos lat0 = 0).
  { destruct H as [-> | ->]; rewrite ?HP, ?sin_neg, ?cos_neg, sin_PI2, cos_PI2; split; lra. }
  destruct E as [E1 E2]. rewrite E2. split.
  - intros [A C]. destruct (Req_dec (cos lat) 0); auto. right. split.
    + apply Rmult_eq_reg_l in A; auto.
    + assert (cos lat * (cos lon * (sin lat0 * sin lat0)) = cos lat * ((cos lon * cos lon0 + sin lon * sin lon0) * (sin lat0 * sin lat0))).
      { transitivity (- sin lat0 * (- sin lat0 * 1 * (cos lat * cos lon) + - sin lat0 * 0 * (cos lat * sin lon) + 0 * sin lat)). ring.
        rewrite C. ring. }
      rewrite E1 in H3. apply Rmult_eq_reg_l in H3; auto. lra.
  - intros [A | [A C]]. rewrite A. split; ring. rewrite <- A. split; auto.
    transitivity (- sin lat0 * cos lat * (cos lon * cos lon0 + sin lon * sin lon0)); [rewrite <- C|]; ring.
Qed.
