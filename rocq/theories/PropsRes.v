(** Properties C100-C102: the resolution of the grids, and what they can and cannot show *)
From Coq Require Import Reals ZArith Bool String List Lra Lia.
From Coquelicot Require Import Coquelicot.
From Verif Require Import Num Py MConfig MHelpers MGrid MSpots MFaculae MXoflares MFlares MGranules MStar
  Spec SpecStar SpecDisk SpecConv SpecFrame LBase LGrid LSpiral LSpotMap LSpotCov LSpotDisk LRes LShow PropsStar PropsConv.
Import ListNotations.
Open Scope R_scope.

(** C100: a million points: no two closer than 1/500, none missed by more than 24/1000; the
    10-degree rectangular grid of the example script *)
Theorem C100_spiral_even :
  forall n, (1 <= n)%nat ->
  (forall i j a, (i < n)%nat -> (j < n)%nat -> i <> j ->
     is_angle (pix_lat (Spiral n) 0 i) (pix_lon (Spiral n) 0 i) (pix_lat (Spiral n) 0 j) (pix_lon (Spiral n) 0 j) a -> 2 / sqrt (INR n) <= a)
  /\ (forall lat lon, exists i a, (i < n)%nat
        /\ is_angle (pix_lat (Spiral n) 0 i) (pix_lon (Spiral n) 0 i) lat lon a /\ a <= 24 / sqrt (INR n)).
Proof. exact C100_spiral_lemma. Qed.
Print Assumptions C100_spiral_even.
Theorem C100_rect_even :
  forall nlat nlon, (2 <= nlat)%nat -> (1 <= nlon)%nat ->
  let g := Rect nlat nlon in
  (forall j i a, (j < nlon)%nat -> (S i < nlat)%nat ->
     is_angle (pix_lat g j i) (pix_lon g j i) (pix_lat g j (S i)) (pix_lon g j (S i)) a -> a = PI / (INR nlat - 1))
  /\ (forall j i a, (S j < nlon)%nat -> (i < nlat)%nat ->
     is_angle (pix_lat g j i) (pix_lon g j i) (pix_lat g (S j) i) (pix_lon g (S j) i) a ->
       sin (a / 2) = cos (pix_lat g j i) * sin (PI / INR nlon) /\ a <= 2 * PI / INR nlon)
  /\ (forall j j' i a, (j < nlon)%nat -> (j' < nlon)%nat -> i = 0%nat \/ i = (nlat - 1)%nat ->
     is_angle (pix_lat g j i) (pix_lon g j i) (pix_lat g j' i) (pix_lon g j' i) a -> a = 0)
  /\ (forall lat lon, exists j i a, (j < nlon)%nat /\ (i < nlat)%nat
        /\ is_angle (pix_lat g j i) (pix_lon g j i) lat lon a /\ a <= PI / (2 * (INR nlat - 1)) + PI / INR nlon).
Proof. exact C100_rect_lemma. Qed.
Print Assumptions C100_rect_even.
Lemma ex_sqrt_sq : forall m, sqrt (INR (m * m)) = INR m.
Proof. intros. rewrite mult_INR. apply sqrt_square, pos_INR. Qed.
Example C100_nonvacuous : forall m, (1 <= m)%nat -> (1 <= m * m)%nat /\ 24 / sqrt (INR (m * m)) = 24 / INR m /\ 2 / sqrt (INR (m * m)) = 2 / INR m.
Proof. intros. rewrite ex_sqrt_sq. split; auto. nia. Qed.
Example C100_rect_nonvacuous : (2 <= 18)%nat /\ (1 <= 36)%nat
  /\ is_angle (pix_lat (Rect 18 36) 0 0) (pix_lon (Rect 18 36) 0 0) (pix_lat (Rect 18 36) 0 1) (pix_lon (Rect 18 36) 0 1) (PI / 17)
  /\ PI / (2 * (INR 18 - 1)) + PI / INR 36 <= 2 * (10 * PI / 180).
Proof.
  split. lia. split. lia. pose proof PI_RGT_0 as PP. assert (E18 : INR 18 = 18) by (simpl; lra). assert (E36 : INR 36 = 36) by (simpl; lra). split.
  - destruct (some_angle (pix_lat (Rect 18 36) 0 0) (pix_lon (Rect 18 36) 0 0) (pix_lat (Rect 18 36) 0 1) (pix_lon (Rect 18 36) 0 1)) as [a A].
    pose proof (proj1 (C100_rect_even 18 36 ltac:(lia) ltac:(lia)) 0%nat 0%nat a ltac:(lia) ltac:(lia) A) as E.
    rewrite E18 in E. replace (PI / 17) with a by (rewrite E; f_equal; lra). auto.
  - rewrite E18, E36. lra.
Qed.

(** C101: the sine of the latitude *)
Theorem C101_display :
  exists K, 0 < K /\ forall n nlat nlon phi L, (1 <= n)%nat -> 0 <= L ->
  (forall p q a, is_angle (fst p) (snd p) (fst q) (snd q) a -> Rabs (phi p - phi q) <= L * a) ->
  exists lats lons out, display_grid (Spiral n) nlat nlon (amap phi (grid_points (Spiral n))) = Ok (lats, lons, out)
  /\ forall j i, (j < nlon)%nat -> (i < nlat)%nat ->
     exists v, acell out j i NaN = Fin v /\ Rabs (v - phi (nth i lats 0, nth j lons 0)) <= K * L / sqrt (INR n).
Proof. exact C101_lemma. Qed.
Print Assumptions C101_display.
Lemma ex_sin_lip : forall p q a, is_angle (fst p) (snd p) (fst q) (snd q) a -> Rabs (sin (fst p) - sin (fst q)) <= 1 * a.
Proof.
  intros p q a [A B]. pose proof (chord2_sep p q) as C. rewrite <- B in C. unfold chord2 in C.
  assert (a * a >= 2 - 2 * cos a).
  { replace (cos a) with (cos (2 * (a / 2))) by (f_equal; field). rewrite cos_2a_sin. assert (0 <= sin (a / 2)) by (apply sin_ge_0; lra).
    assert (sin (a / 2) <= a / 2). { destruct (Req_dec a 0) as [-> | D]. replace (0/2) with 0 by field. rewrite sin_0. lra. apply Rlt_le, sin_lt_x. lra. } nra. }
  rewrite Rmult_1_l. apply Rabs_le. pose proof (pow2_ge_0 (vx p - vx q)). pose proof (pow2_ge_0 (vy p - vy q)). fold (vz p) (vz q).
  assert ((vz p - vz q) * (vz p - vz q) <= a * a) by lra. split; nra.
Qed.
Example C101_nonvacuous : exists phi : R * R -> R, (forall p q a, is_angle (fst p) (snd p) (fst q) (snd q) a -> Rabs (phi p - phi q) <= 1 * a)
  /\ phi (PI/2, 0) = 1 /\ phi (- (PI/2), 0) = -1.
Proof.
  exists (fun p => sin (fst p)). split. apply ex_sin_lip. cbn [fst]. rewrite sin_neg, sin_PI2. split; auto.
Qed.

(** C102: two polar spots of 60 degrees, seen by every grid of 25*25 points and more; a spot of
    angular radius 1/m missed or seen once by a grid of m*m points *)
Theorem C102_spots_seen :
  forall c Rs n vs, sc_grid c = Spiral n -> (1 <= n)%nat -> 0 < Rs -> sc_spots c = map v_spot vs ->
  (forall v, In v vs -> view_ok Rs v /\ spot_on (sc_grid c) (v_spot v) /\ fin_temps (v_spot v)) ->
  exists x, sc_get_coverage c Rs = Ok (Fin x)
    /\ (forall v, In v vs -> 24 / sqrt (INR n) < v_radius v -> 1 / INR n <= x)
    /\ ((forall v, In v vs -> v_radius v <= 1 / sqrt (INR n)) -> x <= INR (length vs) / INR n).
Proof. exact C102_lemma. Qed.
Print Assumptions C102_spots_seen.
Theorem C102_faculae_seen :
  forall n f Rkm r, (1 <= n)%nat -> fc_radius f = Fin r -> 24 / sqrt (INR n) <= r / Rkm ->
  exists i, pixel (Spiral n) 0 i /\ fac_near (Spiral n) f Rkm 0 i.
Proof. exact C102_fac_lemma. Qed.
Print Assumptions C102_faculae_seen.
Example C102_nonvacuous : forall m, (25 <= m)%nat -> let n := (m * m)%nat in
  let c := mkSpotColl [ex_polar (PI/2) n; ex_polar (- (PI/2)) n] (Spiral n) in let vs := [ex_view (PI/2) 0 n; ex_view (- (PI/2)) PI n] in
  sc_grid c = Spiral n /\ (1 <= n)%nat /\ sc_spots c = map v_spot vs
  /\ (forall v, In v vs -> view_ok 1 v /\ spot_on (sc_grid c) (v_spot v) /\ fin_temps (v_spot v))
  /\ forall v, In v vs -> 24 / sqrt (INR n) < v_radius v.
Proof.
  intros m Hm n c vs. assert (25 <= INR m) by (replace 25 with (INR 25) by (simpl; lra); apply le_INR; auto). pose proof PI2_3_2 as P3.
  split. reflexivity. split. unfold n; nia. split. reflexivity. split.
  { intros v [<-|[<-|[]]]; (split; [apply ex_view_ok|split; [apply spot_init_on|split; eexists; reflexivity]]). }
  intros v [<-|[<-|[]]]; cbn [v_radius ex_view]; unfold n; rewrite ex_sqrt_sq; apply (Rmult_lt_reg_r (INR m)); try lra; unfold Rdiv; rewrite Rmult_assoc, Rinv_l by lra; nra.
Qed.
Definition ex_tiny_view (n : nat) (r : R) : spot_view :=
  mkView (spot_init (PI/6) 0 (Fin 600000) (Fin (1000000 * (1 - cos r))) (Fin 2500) (Fin 2700) (Fin 4) false (Fin (1/2)) (-1) (Fin 10) (Spiral n))
    (1000000 * (1 - cos r)) r (r / sqrt 4) 0.
Example C102_small_nonvacuous : forall m, (1 <= m)%nat -> let n := (m * m)%nat in
  let v := ex_tiny_view n (1 / INR m) in let c := mkSpotColl [v_spot v] (Spiral n) in
  view_ok 1 v /\ spot_on (sc_grid c) (v_spot v) /\ fin_temps (v_spot v) /\ v_radius v <= 1 / sqrt (INR n).
Proof.
  intros m Hm n v c. assert (1 <= INR m) by (change 1 with (INR 1); apply le_INR; auto). pose proof PI2_3_2 as P3.
  assert (0 < 1 / INR m <= 1). { split. apply Rdiv_lt_0_compat; lra. apply (Rmult_le_reg_r (INR m)). lra. unfold Rdiv. rewrite Rmult_assoc, Rinv_l by lra. lra. }
  split; [|split; [apply spot_init_on|split; [split; eexists; reflexivity|]]].
  - split. reflexivity. split. split. cbn [v_radius v ex_tiny_view]. lra. cbn [v_radius v_area v ex_tiny_view]. lra.
    exists 4. split. reflexivity. split. lra. reflexivity.
  - cbn [v_radius v ex_tiny_view]. unfold n. rewrite ex_sqrt_sq. lra.
Qed.
Example C102_faculae_nonvacuous : exists f r, fc_radius f = Fin r /\ 24 / sqrt (INR (100 * 100)) <= r / 100000.
Proof.
  exists (mkFacula (PI/6) 0 (Fin 50000) (Fin 50000) (Fin 3000) (Fin 100) (Fin 1) (Fin 50) (Fin 3400) (Fin 1) (Fin 50) true (Spiral (100 * 100))), 50000.
  split. reflexivity. rewrite ex_sqrt_sq. assert (INR 100 = 100) by (simpl; lra). rewrite H. lra.
Qed.
