(** Lemmas for C123: areas in single precision *)
From Coq Require Import Reals ZArith Bool List Lra Lia Permutation Sorted.
From Coquelicot Require Import Coquelicot.
From Verif Require Import Num Py MConfig MHelpers MGrid MSpots MFaculae MXoflares MFlares MGranules MStar MSingle MDouble MArea
  Spec SpecStar SpecDisk SpecSingle SpecDouble LBase LGrid LHelpers LSpotMap LSpotCov LFac LDisk LStar LStarFac LTransit LStarCov LCovered
  LSingle LSingleRep LDouble LDoubleSum LDoubleRep.
Import ListNotations.
Open Scope R_scope.

Definition u32 : R := / 16777216.
Lemma u32_pos : 0 < u32.
Proof. unfold u32. lra. Qed.
(** ** the area of a pixel *)
Lemma p100 : powerRZ 2 100 = 2 ^ 100.
Proof. rewrite pow_powerRZ. auto. Qed.
Lemma inv_n : forall n, (1 <= n)%nat -> INR n <= 2 ^ 100 -> powerRZ 2 (-100) <= 1 / INR n <= 1.
Proof.
  intros n H B. assert (N : 1 <= INR n) by (apply (le_INR 1); auto). unfold Rdiv. rewrite Rmult_1_l. split.
  - change (-100)%Z with (- (100))%Z. rewrite powerRZ_neg', p100. apply Rinv_le_contravar; lra.
  - rewrite <- Rinv_1. apply Rinv_le_contravar; lra.
Qed.
Definition area32 (n : nat) : R := f32_round (f64_round (1 / INR n)).
Lemma p2_le_inv : forall e k, powerRZ 2 e <= powerRZ 2 k -> (e <= k)%Z.
Proof.
  intros e k H. destruct (Z_le_gt_dec e k); auto. assert (L : powerRZ 2 (k + 1) <= powerRZ 2 e) by (apply p2_le; lia).
  rewrite p2_add in L. pose proof (p2_pos k). change (powerRZ 2 1) with (2 * 1) in L. lra.
Qed.
Lemma area32_near : forall n, (1 <= n)%nat -> INR n <= 2 ^ 100 ->
  Rabs (area32 n - 1 / INR n) <= 1 / INR n / 8388608 /\ powerRZ 2 (-101) <= area32 n <= 2 /\ f32_value (area32 n)
  /\ f64 (Fin (1 / INR n)) = Fin (f64_round (1 / INR n)) /\ f32 (Fin (f64_round (1 / INR n))) = Fin (area32 n).
Proof.
  intros n H B. destruct (inv_n n H B) as [L U]. set (x := 1 / INR n) in *. pose proof (p2_pos (-100)) as P.
  assert (A1 : powerRZ 2 (-1022) <= Rabs x). { rewrite Rabs_right by lra. eapply Rle_trans; [|exact L]. apply p2_le; lia. }
  assert (E1 := f64_round_err x A1). rewrite (Rabs_right x) in E1 by lra.
  assert (M : 1 <= powerRZ 2 1023) by (change 1 with (powerRZ 2 0); apply p2_le; lia).
  assert (F1 : f64 (Fin x) = Fin (f64_round x)). { apply f64_fin. rewrite Rabs_right by lra. lra. }
  set (y := f64_round x) in *.
  assert (Y : x * (1 - / 9007199254740992) <= y <= x * (1 + / 9007199254740992)) by (revert E1; unfold Rabs; destruct (Rcase_abs _); lra).
  assert (P101 : powerRZ 2 (-100) = 2 * powerRZ 2 (-101)).
  { change (-100)%Z with (-101 + 1)%Z. rewrite p2_add. change (powerRZ 2 1) with (2 * 1). ring. }
  assert (P126 : powerRZ 2 (-126) <= powerRZ 2 (-101)) by (apply p2_le; lia).
  assert (A2 : powerRZ 2 (-126) <= Rabs y) by (rewrite Rabs_right; lra).
  assert (E2 := f32_round_err y A2). rewrite (Rabs_right y) in E2 by lra.
  assert (F2 : f32 (Fin y) = Fin (f32_round y)). { apply f32_fin. rewrite Rabs_right by lra. pose proof p127_big. lra. }
  change (area32 n) with (f32_round y).
  assert (Z : y * (1 - / 16777216) <= f32_round y <= y * (1 + / 16777216)) by (revert E2; unfold Rabs; destruct (Rcase_abs _); lra).
  split. { unfold Rabs. destruct (Rcase_abs _); lra. }
  split. lra. split. apply f32_round_value. auto.
Qed.
Lemma area32_eq : forall n, (1 <= n)%nat -> INR n <= 2 ^ 100 ->
  grid_area32 (Spiral n) = Ok (amap (fun _ => Fin (area32 n)) (grid_points (Spiral n))).
Proof.
  intros n H B. destruct (area32_near n H B) as [_ [Bd [V [E1 E2]]]]. destruct n as [|n]; [lia|].
  cbn [grid_area32]. rewrite grid_zeros_eq, amap_amap. f_equal. apply amap_ext. intros p. rewrite E1, E2, nadd_fin, Rplus_0_l.
  rewrite (proj1 (f32_fin (area32 (S n)) ltac:(rewrite Rabs_right; pose proof p127_big; pose proof (p2_pos (-101)); lra))). rewrite f32_round_id; auto.
Qed.
Lemma C123_areas_lemma : forall n, (1 <= n)%nat -> INR n <= 2 ^ 100 ->
  exists A a, grid_area32 (Spiral n) = Ok A /\ grid_shaped (Spiral n) A
    /\ (forall j i, pixel (Spiral n) j i -> acell A j i NaN = Fin a)
    /\ f32_value a /\ 0 < a /\ Rabs (a * INR n - 1) <= / 2 ^ 23
    /\ ((exists k, n = (2 ^ k)%nat) -> a = 1 / INR n).
Proof.
  intros n H B. destruct (area32_near n H B) as [Nr [Bd [V _]]].
  assert (N : 1 <= INR n) by (apply (le_INR 1); auto).
  exists (amap (fun _ => Fin (area32 n)) (grid_points (Spiral n))), (area32 n). split. apply area32_eq; auto.
  split. apply grid_shaped_amap. split. { intros j i P. rewrite acell_grid by auto. auto. }
  split; auto. split. { pose proof (p2_pos (-101)). lra. }
  split. { replace (area32 n * INR n - 1) with ((area32 n - 1 / INR n) * INR n) by (field; lra).
    rewrite Rabs_mult, (Rabs_right (INR n)) by lra. apply Rle_trans with (1 / INR n / 8388608 * INR n). apply Rmult_le_compat_r; lra.
    right. simpl. field. lra. }
  intros [k ->]. unfold area32.
  assert (E : INR (2 ^ k) = powerRZ 2 (Z.of_nat k)). { rewrite <- pow_powerRZ. rewrite pow_INR. f_equal. }
  assert (K : (Z.of_nat k <= 100)%Z). { apply p2_le_inv. rewrite <- E, p100. auto. }
  assert (I : 1 / INR (2 ^ k) = powerRZ 2 (- Z.of_nat k)). { rewrite powerRZ_neg', E. unfold Rdiv. ring. }
  rewrite I. rewrite f64_round_id by (apply f64_p2; lia). apply f32_round_id. exists 1%Z, (- Z.of_nat k)%Z. split. simpl; lia. split. lia. ring.
Qed.

(** ** the radius of a pixel *)
Definition rad32 (n : nat) : R := 2 * f32_round (sqrt (area32 n)).
Lemma f32_double : forall y, f32_value y -> f32_value (2 * y).
Proof.
  intros y [m [e [H [He ->]]]]. exists m, (e + 1)%Z. split; auto. split. lia. rewrite p2_add. change (powerRZ 2 1) with (2 * 1). ring.
Qed.
Lemma rad32_near : forall n, (1 <= n)%nat -> INR n <= 2 ^ 100 ->
  point_radius32 (Spiral n) (Fin (area32 n)) = Fin (rad32 n) /\ 0 < rad32 n /\ Rabs (INR n * (rad32 n / 2) ^ 2 - 1) <= / 2 ^ 21.
Proof.
  intros n H B. destruct (area32_near n H B) as [Nr [Bd _]]. assert (N : 1 <= INR n) by (apply (le_INR 1); auto).
  pose proof (p2_pos (-101)) as P101. set (a := area32 n) in *.
  assert (SL : powerRZ 2 (-101) <= sqrt a). { apply Rle_trans with (powerRZ 2 (-101) * 1). lra.
    destruct (Rle_dec 1 a). - apply Rle_trans with 1. rewrite Rmult_1_r. change 1 with (powerRZ 2 0). apply p2_le. lia. rewrite <- sqrt_1. apply sqrt_le_1; lra.
    - rewrite Rmult_1_r. apply Rle_trans with a. lra. pose proof (sqrt_sqrt a ltac:(lra)) as Q. assert (sqrt a <= 1) by (rewrite <- sqrt_1; apply sqrt_le_1; lra).
      assert (0 <= sqrt a) by apply sqrt_pos. nra. }
  assert (SU : sqrt a <= 2). { replace 2 with (sqrt (2 * 2)) by (rewrite sqrt_square; lra). apply sqrt_le_1; lra. }
  assert (P126 : powerRZ 2 (-126) <= powerRZ 2 (-101)) by (apply p2_le; lia).
  assert (E2 := f32_round_err (sqrt a) ltac:(rewrite Rabs_right; lra)). rewrite (Rabs_right (sqrt a)) in E2 by lra.
  set (x := sqrt a) in *. set (y := f32_round x) in *. pose proof p127_big as BG.
  assert (Z : x * (1 - / 16777216) <= y <= x * (1 + / 16777216)) by (revert E2; unfold Rabs; destruct (Rcase_abs _); lra).
  assert (F1 : f32 (Fin x) = Fin y). { apply f32_fin. rewrite Rabs_right by lra. lra. }
  split. { unfold point_radius32. rewrite nsqrt_fin by lra. fold x. rewrite F1, nmul_fin. rewrite (proj1 (f32_fin (2 * y) ltac:(rewrite Rabs_right; lra))).
    rewrite f32_round_id. reflexivity. apply f32_double, f32_round_value. }
  unfold rad32. fold a. fold x. fold y. split. lra. replace (2 * y / 2) with y by field.
  assert (XX : x * x = a) by (apply sqrt_sqrt; lra).
  assert (NA : Rabs (INR n * a - 1) <= / 8388608).
  { replace (INR n * a - 1) with ((a - 1 / INR n) * INR n) by (field; lra).
    rewrite Rabs_mult, (Rabs_right (INR n)) by lra. apply Rle_trans with (1 / INR n / 8388608 * INR n). apply Rmult_le_compat_r; lra. right. field. lra. }
  assert (YY : a * (1 - / 8388608) <= y ^ 2 <= a * (1 + / 8388608 + / 100000000000000)).
  { simpl. rewrite Rmult_1_r. split.
    - apply Rle_trans with ((x * (1 - / 16777216)) * (x * (1 - / 16777216))). 2:{ apply Rmult_le_compat; lra. }
      replace (x * (1 - / 16777216) * (x * (1 - / 16777216))) with (a * ((1 - / 16777216) * (1 - / 16777216))) by (rewrite <- XX; ring). apply Rmult_le_compat_l; lra.
    - apply Rle_trans with ((x * (1 + / 16777216)) * (x * (1 + / 16777216))). { apply Rmult_le_compat; lra. }
      replace (x * (1 + / 16777216) * (x * (1 + / 16777216))) with (a * ((1 + / 16777216) * (1 + / 16777216))) by (rewrite <- XX; ring). apply Rmult_le_compat_l; lra. }
  assert (NY : INR n * a * (1 - / 8388608) <= INR n * y ^ 2 <= INR n * a * (1 + / 8388608 + / 100000000000000)).
  { rewrite !Rmult_assoc. split; apply Rmult_le_compat_l; lra. }
  assert (NA' : 1 - / 8388608 <= INR n * a <= 1 + / 8388608) by (revert NA; unfold Rabs; destruct (Rcase_abs _); lra).
  set (q := INR n * a) in *. set (z := INR n * y ^ 2) in *. replace (/ 2 ^ 21) with (/ 2097152) by (f_equal; simpl; ring). unfold Rabs. destruct (Rcase_abs _); lra.
Qed.

(** ** the transit mask *)
Lemma pixel_radius : forall lat0 lon0 x y rp p r, 0 <= r ->
  pixel_covered_radius lat0 lon0 x y rp p (Fin r) = pixel_covered lat0 lon0 x y rp p (Fin ((r / 2) ^ 2)).
Proof.
  intros. unfold pixel_covered_radius, pixel_covered. rewrite nsqrt_fin by apply pow2_ge_0. rewrite sqrt_pow2 by lra. rewrite (nmul_fin 2 (r / 2)).
  replace (2 * (r / 2)) with r by field. reflexivity.
Qed.
Lemma in_transit : forall s orbit planet phase incl, 0 < st_radius s ->
  let rp := planet / st_radius s in
  let px := - (orbit / st_radius s * sin phase) in
  let py := - (orbit / st_radius s * cos phase * cos incl) in
  planet_xy s orbit (phase - PI) incl = (Fin px, Fin py) /\ ndiv (Fin planet) (Fin (st_radius s)) = Fin rp
  /\ (sqrt (px^2 + py^2) <= 1 + 2 * rp -> ngt (nsqrt (nadd (nsq (Fin px)) (nsq (Fin py)))) (nadd (Fin 1) (nmul (Fin 2) (Fin rp))) = false)
  /\ (1 + 2 * rp < sqrt (px^2 + py^2) -> ngt (nsqrt (nadd (nsq (Fin px)) (nsq (Fin py)))) (nadd (Fin 1) (nmul (Fin 2) (Fin rp))) = true).
Proof.
  intros s orbit planet phase incl HR rp px py.
  split. { rewrite planet_xy_eq by auto. f_equal; f_equal; unfold px, py; ring. }
  split. { rewrite ndiv_fin by lra. reflexivity. }
  rewrite !nsq_fin, nmul_fin, !nadd_fin.
  replace (px * px + py * py) with (px^2 + py^2) by ring.
  rewrite nsqrt_fin by (pose proof (pow2_ge_0 px); pose proof (pow2_ge_0 py); lra).
  unfold ngt. cbn [nlt]. split; intros; [apply Rltb_false|apply Rltb_true]; auto.
Qed.
(** the mask in single precision: nothing changes outside transits *)
Lemma mask32_out : forall s lat0 lon0 orbit planet phase incl, 0 < st_radius s ->
  (1 + 2 * (planet / st_radius s) < sqrt ((orbit / st_radius s * sin phase)^2 + (orbit / st_radius s * cos phase * cos incl)^2) \/ 0 < cos phase) ->
  get_transit_mask32 s lat0 lon0 orbit planet phase incl = get_transit_mask s lat0 lon0 orbit planet phase incl.
Proof.
  intros s lat0 lon0 orbit planet phase incl HR H. unfold get_transit_mask32, get_transit_mask.
  destruct (in_transit s orbit planet phase incl HR) as [E1 [E2 [_ E3]]]. rewrite E1, E2.
  destruct H as [H|H].
  - rewrite E3; auto. eapply Rlt_le_trans. exact H. right. f_equal. ring.
  - rewrite (proj2 (Rltb_true 0 (cos phase)) H). reflexivity.
Qed.
Lemma mask32_in : forall s lat0 lon0 orbit planet phase incl n, 0 < st_radius s -> - PI/2 <= lat0 <= PI/2 ->
  st_grid s = Spiral n -> (1 <= n)%nat -> INR n <= 2 ^ 100 ->
  let rp := planet / st_radius s in
  let px := - (orbit / st_radius s * sin phase) in
  let py := - (orbit / st_radius s * cos phase * cos incl) in
  sqrt (px^2 + py^2) <= 1 + 2 * rp -> cos phase <= 0 ->
  exists C, get_transit_mask32 s lat0 lon0 orbit planet phase incl = Ok (amap (fun p => Fin (C p)) (grid_points (st_grid s)), Fin 1)
    /\ forall p, In p (cells (grid_points (st_grid s))) -> px_cov lat0 lon0 px py rp p ((rad32 n / 2) ^ 2) (C p).
Proof.
  intros s lat0 lon0 orbit planet phase incl n HR HL EG Hn Bn rp px py Hd Hc.
  destruct (rad32_near n Hn Bn) as [RE [RP _]].
  exists (fun p => covr (pixel_covered lat0 lon0 (Fin px) (Fin py) (Fin rp) p (Fin ((rad32 n / 2) ^ 2)))).
  assert (K : forall p, In p (cells (grid_points (st_grid s))) -> exists c, pixel_covered lat0 lon0 (Fin px) (Fin py) (Fin rp) p (Fin ((rad32 n / 2) ^ 2)) = Fin c
     /\ px_cov lat0 lon0 px py rp p ((rad32 n / 2) ^ 2) c).
  { intros p I. apply pixel_covered_spec; auto. apply (cell_lat_range (st_grid s)); auto. rewrite EG. exact Hn. apply pow2_ge_0. }
  split.
  - unfold get_transit_mask32. destruct (in_transit s orbit planet phase incl HR) as [E1 [E2 [E3 _]]]. rewrite E1, E2. fold px py rp. fold px py rp in E3.
    cbv zeta. rewrite E3 by auto. rewrite (proj2 (Rltb_false 0 _)) by auto.
    rewrite EG at 1. rewrite area32_eq by auto. rewrite <- EG. cbn [bind]. rewrite amap_amap. rewrite amap2_amap_r. cbn [bind].
    rewrite (amap_ext_in _ _ _ (fun p => Fin (covr (pixel_covered lat0 lon0 (Fin px) (Fin py) (Fin rp) p (Fin ((rad32 n / 2) ^ 2)))))).
    + rewrite existsb_false; auto. intros x I. rewrite cells_amap in I. apply in_map_iff in I. destruct I as [p [<- _]]. auto.
    + intros p I. rewrite EG. rewrite RE. rewrite pixel_radius by lra. destruct (K p I) as [c [-> _]]. auto.
  - intros p I. destruct (K p I) as [c [-> Q]]. auto.
Qed.
Lemma C123_mask_lemma : forall s lat0 lon0 orbit planet phase incl n, 0 < st_radius s -> - PI/2 <= lat0 <= PI/2 ->
  st_grid s = Spiral n -> (1 <= n)%nat -> INR n <= 2 ^ 100 ->
  let rp := planet / st_radius s in
  (* position of the planet on the sky, in stellar radii *)
  let px := - (orbit / st_radius s * sin phase) in
  let py := - (orbit / st_radius s * cos phase * cos incl) in
  (1 + 2 * rp < sqrt (px^2 + py^2) \/ 0 < cos phase ->
     get_transit_mask32 s lat0 lon0 orbit planet phase incl = get_transit_mask s lat0 lon0 orbit planet phase incl)
  /\ (sqrt (px^2 + py^2) <= 1 + 2 * rp -> cos phase <= 0 ->
     exists m r, get_transit_mask32 s lat0 lon0 orbit planet phase incl = Ok (m, Fin 1)
    /\ grid_shaped (st_grid s) m /\ 0 < r /\ Rabs (INR n * (r / 2)^2 - 1) <= / 2 ^ 21
    /\ forall j i, pixel (st_grid s) j i -> exists c, acell m j i NaN = Fin c
         /\ 0 <= c <= 1
         /\ (pix_mu s lat0 lon0 j i < 0 -> c = 0)
         /\ (forall x y, proj_ortho lat0 lon0 (pix_lat (st_grid s) j i, pix_lon (st_grid s) j i) = (Fin x, Fin y) ->
               let sigma := r * pix_mu s lat0 lon0 j i in
               let dist := sqrt ((x - px)^2 + (y - py)^2) in
               (rp + 2 * sigma < dist -> c = 0) /\ (dist + 2 * sigma < rp -> c = 1)
               /\ (dist <= rp + 2 * sigma -> rp <= dist + 2 * sigma ->
                     (sigma = 0 -> c = 0)
                     /\ (0 < sigma -> exists xs, length xs = 100%nat
                          /\ (forall k, (k < 100)%nat -> nth k xs 0 = sigma * (-3 + INR k * (6/99)))
                          /\ c = overlap sigma r dist rp xs)))).
Proof.
  intros s lat0 lon0 orbit planet phase incl n HR HL EG Hn Bn rp px py. split.
  { intros H. apply mask32_out; auto. destruct H as [H|H]; auto. left. eapply Rlt_le_trans. exact H. right. unfold px, py. f_equal. ring. }
  intros Hd Hc. destruct (mask32_in s lat0 lon0 orbit planet phase incl n HR HL EG Hn Bn Hd Hc) as [C [E HC]].
  destruct (rad32_near n Hn Bn) as [_ [RP RN]]. exists (amap (fun p => Fin (C p)) (grid_points (st_grid s))), (rad32 n).
  split; auto. split. apply grid_shaped_amap. split; auto. split; auto.
  intros j i P. exists (C (pt (st_grid s) (j, i))). rewrite !acell_grid by auto. split; auto.
  destruct (HC (pt (st_grid s) (j, i)) (pixel_cell _ _ _ P)) as [C1 [C2 C3]]. split; auto. split; auto.
  intros x y Q. destruct (C3 x y) as [D1 [D2 D3]].
  { rewrite <- Q. unfold pix_lat, pix_lon, pt. cbn [fst snd]. destruct (acell (grid_points (st_grid s)) j i (0, 0)); auto. }
  rewrite sqrt_pow2 in D1, D2, D3 by lra. replace (2 * (rad32 n / 2)) with (rad32 n) in D1, D2, D3 by field.
  split; auto. split; auto. intros H1 H2. destruct (D3 H1 H2) as [D4 D5]. split; auto. intros HS.
  eexists. split; [|split; [|exact (D5 HS)]]. apply linspace_length.
  intros k Hk. unfold linspace. rewrite nth_map_seq by auto. change (100 - 1)%nat with 99%nat.
  replace (INR 99) with 99 by (rewrite INR_IZR_INZ; reflexivity).
  change (pix_mu s lat0 lon0 j i) with (cos_sep lat0 lon0 (fst (pt (st_grid s) (j, i))) (snd (pt (st_grid s) (j, i)))). field.
Qed.

(** ** the report *)
Lemma mask32_form : forall s lat0 lon0 orbit planet phase incl T D A M C pf n,
  disk_view s lat0 lon0 orbit planet phase incl T D A M C pf -> st_grid s = Spiral n -> (1 <= n)%nat -> INR n <= 2 ^ 100 ->
  exists cm, get_transit_mask32 s lat0 lon0 orbit planet phase incl = Ok (amap (fun p => Fin (cm p)) (grid_points (st_grid s)), pf)
    /\ forall p, In p (cells (grid_points (st_grid s))) -> 0 <= cm p <= 1.
Proof.
  intros s lat0 lon0 orbit planet phase incl T D A M C pf n V EG Hn Bn. destruct V as [Vu Vg Vr Vl Vt Vd Va Vm Vf Vk].
  set (q := sqrt ((orbit / st_radius s * sin phase)^2 + (orbit / st_radius s * cos phase * cos incl)^2)).
  assert (EQ : q = sqrt ((- (orbit / st_radius s * sin phase))^2 + (- (orbit / st_radius s * cos phase * cos incl))^2)) by (unfold q; f_equal; ring).
  assert (K : (1 + 2 * (planet / st_radius s) < q \/ 0 < cos phase) \/ (q <= 1 + 2 * (planet / st_radius s) /\ cos phase <= 0)).
  { destruct (Rlt_le_dec (1 + 2 * (planet / st_radius s)) q); auto. destruct (Rlt_le_dec 0 (cos phase)); auto. }
  destruct K as [K|[K1 K2]].
  - rewrite mask32_out by auto. destruct (transit_mask_form s lat0 lon0 orbit planet phase incl C pf) as [cm [E Hcm]]; auto.
    exists cm. rewrite <- E. auto.
  - rewrite EQ in K1. destruct (mask32_in s lat0 lon0 orbit planet phase incl n Vr Vl EG Hn Bn K1 K2) as [cm [E H]].
    exists cm. split. 2:{ intros p I. apply H; auto. } rewrite E. do 2 f_equal.
    destruct (in_transit s orbit planet phase incl Vr) as [E1 [E2 [E3 _]]]. unfold get_transit_mask in Vk. rewrite E1, E2 in Vk.
    cbv zeta in Vk. rewrite E3 in Vk by auto. rewrite (proj2 (Rltb_false 0 _)) in Vk by auto. rewrite Va in Vk. cbn [bind] in Vk.
    apply bind_ok in Vk. destruct Vk as [cv [_ Vk]]. destruct (existsb nisnan (cells cv)); [discriminate|]. injection Vk as _ <-. auto.
Qed.
Lemma calc_areas32_eq : forall s lat0 lon0 orbit planet phase incl T D A M C pf f n,
  disk_view s lat0 lon0 orbit planet phase incl T D A M C pf -> disk s lat0 lon0 A <> 0 ->
  Rabs T <= powerRZ 2 127 -> Rabs (T - D) <= powerRZ 2 127 -> (forall x, In x (sc_spots (st_spots s)) -> spot32 x) ->
  st_grid s = Spiral n -> (1 <= n)%nat -> INR n <= 2 ^ 100 ->
  exists M32 ul C32, add_faculae_to_map32 s lat0 lon0 = Ok M32
  /\ get_transit_mask32 s lat0 lon0 orbit planet phase incl = Ok (C32, pf)
  /\ (forall j i, pixel (st_grid s) j i -> 0 <= cell_val C32 j i <= 1)
  /\ calc_coverage32 s lat0 lon0 (Fin f) orbit planet phase incl
     = (do tot <- rgran (base32 (share s lat0 lon0 A M32 (fun _ _ => 1)) ul (T - D)) (key T) (key (T - D)) f ;;
        do cov <- rgran (base32 (share s lat0 lon0 A M32 (cell_val C)) ul (T - D)) (key T) (key (T - D)) f ;;
        Ok (lift tot, lift cov, pf))
  /\ calc_coverage_areas32 s lat0 lon0 (Fin f) orbit planet phase incl
     = (do tot <- rgran (base32 (share s lat0 lon0 A M32 (fun _ _ => 1)) ul (T - D)) (key T) (key (T - D)) f ;;
        do cov <- rgran (base32 (share s lat0 lon0 A M32 (cell_val C32)) ul (T - D)) (key T) (key (T - D)) f ;;
        Ok (lift tot, lift cov, pf)).
Proof.
  intros s lat0 lon0 orbit planet phase incl T D A M C pf f n V NW BT BD HS EG Hn Bn.
  destruct (calc_coverage32_eq _ _ _ _ _ _ _ _ _ _ _ _ _ f V NW BT BD HS) as [M32 [ul [EM32 [HM [SS [Ap Q32]]]]]].
  destruct (mask32_form _ _ _ _ _ _ _ _ _ _ _ _ _ n V EG Hn Bn) as [cm [EC Hc]].
  destruct (view_form _ _ _ _ _ _ _ _ _ _ _ _ _ V) as [_ [cm0 [EA [_ [EC0 [Hc0 [EW [_ [_ [_ EV]]]]]]]]]].
  destruct V as [Vu Vg Vr Vl Vt Vd Va Vm Vf Vk]. set (W := disk s lat0 lon0 A) in *. set (gp := grid_points (st_grid s)) in *.
  destruct (full_map_fits s lat0 lon0 M T Vu Vt BT HS Vm) as [tm [EM [Bm Vm']]]. fold gp in EM, Vm'.
  rewrite EM32 in Vm'. injection Vm' as EM'.
  exists M32, ul, (amap (fun p => Fin (cm p)) gp). split; auto. split; auto.
  assert (EV' : forall j i, pixel (st_grid s) j i -> cell_val (amap (fun p => Fin (cm p)) gp) j i = cm (pt (st_grid s) (j, i))).
  { intros j i P. unfold cell_val, gp. rewrite acell_grid by auto. auto. }
  split. { intros j i P. rewrite EV' by auto. apply Hc. apply pt_In; auto. }
  split; auto.
  assert (UL : ul = runiq (map (fun p => f32_round (tm p)) (cells gp))).
  { apply sorted_same; auto. apply runiq_sorted. intros t. rewrite Ap, runiq_In, in_map_iff. rewrite EM. split.
    - intros [t' [[j [i [P E]]] ->]]. unfold gp in E. rewrite acell_grid in E by auto. exists (pt (st_grid s) (j, i)). split. unfold pt. cbn [fst snd]. congruence. apply pt_In; auto.
    - intros [p [<- I]]. apply In_pt in I. destruct I as [j [i [P ->]]]. eexists. split; [|reflexivity]. exists j, i. split; auto. unfold gp. rewrite acell_grid by auto. auto. }
  set (k := INR n * area32 n).
  assert (AP : 0 < area32 n) by (destruct (area32_near n Hn Bn) as [_ [AP _]]; pose proof (p2_pos (-101)); lra).
  assert (NP : 0 < INR n) by (apply lt_0_INR; lia).
  assert (KP : 0 < k) by (apply Rmult_lt_0_compat; auto).
  assert (WK : forall p, ld_plot s (law_cos lat0 lon0 (fst p) (snd p)) * (area32 n * area_projection (law_cos lat0 lon0 (fst p) (snd p))) = k * wgt s lat0 lon0 p).
  { intros p. unfold wgt, k. rewrite EG. unfold rarea_at. unfold mup. field. lra. }
  assert (WS : rsum (map (fun p => k * wgt s lat0 lon0 p) (cells gp)) = k * W) by (rewrite rsum_map_scal, EW; auto).
  assert (E1 : forall t, share s lat0 lon0 A M32 (fun _ _ => 1) t = bval s (cells gp) (fun p => k * wgt s lat0 lon0 p) (fun p => f32_round (tm p)) (k * W) t).
  { intros t. rewrite EM'. unfold gp. rewrite (share_form s lat0 lon0 A (fun _ _ => 1) (fun _ => 1)) by auto. unfold bval. fold W. fold gp.
    rewrite (rsum_map_ext _ (fun p => if Req_EM_T (f32_round (tm p)) t then k * wgt s lat0 lon0 p else 0) (fun p => k * (if Req_EM_T (f32_round (tm p)) t then wgt s lat0 lon0 p * 1 else 0)) (cells gp)).
    rewrite rsum_map_scal. field. split; auto; lra. intros p _. destruct (Req_EM_T _ _); ring. }
  assert (E2 : forall t, share s lat0 lon0 A M32 (cell_val (amap (fun p => Fin (cm p)) gp)) t = bval s (cells gp) (fun p => k * wgt s lat0 lon0 p * cm p) (fun p => f32_round (tm p)) (k * W) t).
  { intros t. rewrite EM'. unfold gp. rewrite (share_form s lat0 lon0 A _ cm) by auto. unfold bval. fold W. fold gp.
    rewrite (rsum_map_ext _ (fun p => if Req_EM_T (f32_round (tm p)) t then k * wgt s lat0 lon0 p * cm p else 0) (fun p => k * (if Req_EM_T (f32_round (tm p)) t then wgt s lat0 lon0 p * cm p else 0)) (cells gp)).
    rewrite rsum_map_scal. field. split; auto; lra. intros p _. destruct (Req_EM_T _ _); ring. }
  unfold calc_coverage_areas32. rewrite EG at 1. rewrite area32_eq by auto. rewrite <- EG. cbn [bind]. rewrite star_mu_eq. fold gp. rewrite !amap_amap.
  rewrite amap2_amap. cbn [bind]. rewrite EM32. cbn [bind]. rewrite EC. cbn [bind]. cbv zeta.
  rewrite amap2_amap. cbn [bind]. rewrite !cells_amap.
  rewrite (amap_ext _ _ (fun x => nmul (Fin (area32 n)) (Fin (area_projection (law_cos lat0 lon0 (fst x) (snd x)))))
             (fun x => Fin (area32 n * area_projection (law_cos lat0 lon0 (fst x) (snd x))))) by (intros; apply nmul_fin).
  rewrite (nsum_map_fin _ _ (fun p => k * wgt s lat0 lon0 p)).
  2:{ intros p _. rewrite !nmul_fin, WK. auto. }
  rewrite WS.
  assert (EU : nunique (cells M32) = map Fin ul).
  { rewrite EM', cells_amap, <- (map_map (fun p => f32_round (tm p)) Fin), nunique_fin. rewrite UL. auto. }
  rewrite EU.
  assert (NW' : k * W <> 0) by (apply Rmult_integral_contrapositive; split; auto; lra).
  pose proof (loop_eq (st_grid s) (fun p => f32_round (tm p)) (fun x => ld_plot s (law_cos lat0 lon0 (fst x) (snd x)))
    (fun x => area32 n * area_projection (law_cos lat0 lon0 (fst x) (snd x))) cm (k * W) NW' ul [] []) as L.
  fold gp in L. change (lift []) with (@nil (tkey * num)) in L.
  rewrite EM' at 1. match goal with |- bind ?x _ = _ => match type of L with _ = ?r => replace x with r by (symmetry; exact L) end end. cbn [bind]. clear L.
  rewrite Vt, Vd, nsub_fin. fold (key T). fold (key (T - D)). rewrite (proj1 (f32_fin _ BD)).
  assert (NEW : negb (existsb (fun t => neq (Fin (f32_round (T - D))) t) (map Fin ul)) = if in_dec Req_EM_T (f32_round (T - D)) ul then false else true).
  { destruct (in_dec Req_EM_T (f32_round (T - D)) ul) as [I|I].
    - apply negb_false_iff. apply existsb_exists. exists (Fin (f32_round (T - D))). split. apply in_map; auto. apply neq_fin; auto.
    - apply negb_true_iff. apply existsb_false. intros x J. apply in_map_iff in J. destruct J as [t [<- J]]. apply neq_fin_false. congruence. }
  rewrite NEW. clear NEW.
  assert (B : forall V V', (forall t, In t ul -> V t = V' t) ->
    (if (if in_dec Req_EM_T (f32_round (T - D)) ul then false else true) then dset tkey_eqb (lift (foldd V ul [])) (key (T - D)) (Fin 0) else lift (foldd V ul []))
    = lift (base32 V' ul (T - D))).
  { intros V V' H. assert (F : foldd V ul [] = foldd V' ul []).
    { generalize (@nil (tkey * R)). clear - H. unfold foldd. induction ul; intros d; simpl; auto. rewrite H by (left; auto). apply IHul. intros; apply H; right; auto. }
    unfold base32. rewrite F. destruct (in_dec _ _ _); auto. apply lift_dset. }
  rewrite (B _ (share s lat0 lon0 A M32 (fun _ _ => 1))).
  2:{ intros t _. rewrite E1. unfold bval. f_equal. apply rsum_map_ext. intros p _. cbv beta. rewrite <- WK. destruct (Req_EM_T _ _); reflexivity. }
  rewrite (B _ (share s lat0 lon0 A M32 (cell_val (amap (fun p => Fin (cm p)) gp)))).
  2:{ intros t _. rewrite E2. unfold bval. f_equal. apply rsum_map_ext. intros p _. cbv beta. rewrite <- WK. destruct (Req_EM_T _ _); reflexivity. }
  rewrite !granulate_lift.
  destruct (rgran (base32 (share s lat0 lon0 A M32 (fun _ _ => 1)) ul (T - D)) (key T) (key (T - D)) f); cbn [rmap bind]; [|auto].
  destruct (rgran (base32 (share s lat0 lon0 A M32 (cell_val (amap (fun p => Fin (cm p)) gp))) ul (T - D)) (key T) (key (T - D)) f); cbn [rmap bind]; auto.
Qed.
Inductive tri (eps : R) : rdict -> rdict -> rdict -> Prop :=
| tri_nil : tri eps [] [] []
| tri_cons : forall k v w w' d c c', 0 <= w' <= v -> Rabs (w' - w) <= eps * v -> tri eps d c c' ->
    tri eps ((k, v) :: d) ((k, w) :: c) ((k, w') :: c').
Lemma tri_rset : forall eps d c c' k v w w', tri eps d c c' -> 0 <= w' <= v -> Rabs (w' - w) <= eps * v ->
  tri eps (dset tkey_eqb d k v) (dset tkey_eqb c k w) (dset tkey_eqb c' k w').
Proof.
  intros eps d c c' k v w w' B H H'. induction B as [|k1 v1 w1 w1' d c c' L L' B IH]; cbn [dset].
  - constructor; auto. constructor.
  - destruct (tkey_eqb k k1); constructor; auto.
Qed.
Lemma tri_rget : forall eps d c c' k v, tri eps d c c' -> dget tkey_eqb d k = Some v ->
  exists w w', dget tkey_eqb c k = Some w /\ dget tkey_eqb c' k = Some w' /\ 0 <= w' <= v /\ Rabs (w' - w) <= eps * v.
Proof.
  intros eps d c c' k v B. induction B as [|k1 v1 w1 w1' d c c' L L' B IH]; cbn [dget]. discriminate.
  destruct (tkey_eqb k k1); auto. intros Q. injection Q as <-. exists w1, w1'. auto.
Qed.
Lemma tri_foldd : forall eps V W W' l d c c', (forall t, In t l -> 0 <= W' t <= V t /\ Rabs (W' t - W t) <= eps * V t) ->
  tri eps d c c' -> tri eps (foldd V l d) (foldd W l c) (foldd W' l c').
Proof.
  unfold foldd. induction l as [|t l IH]; intros d c c' H B; cbn [fold_left]; auto. apply IH. intros; apply H; right; auto.
  destruct (H t (or_introl eq_refl)). apply tri_rset; auto.
Qed.
Lemma tri_base : forall eps V W W' ul gt, 0 <= eps -> (forall t, In t ul -> 0 <= W' t <= V t /\ Rabs (W' t - W t) <= eps * V t) ->
  tri eps (base32 V ul gt) (base32 W ul gt) (base32 W' ul gt).
Proof.
  intros. unfold base32. assert (tri eps (foldd V ul []) (foldd W ul []) (foldd W' ul [])) by (apply tri_foldd; auto; constructor).
  destruct (in_dec Req_EM_T _ ul); auto. apply tri_rset; auto. lra. rewrite Rminus_0_r, Rabs_R0. lra.
Qed.
Lemma tri_rgran : forall eps d c c' kT kG f d1 c1, 0 <= f <= 1 -> tri eps d c c' -> rgran d kT kG f = Ok d1 -> rgran c kT kG f = Ok c1 ->
  exists c1', rgran c' kT kG f = Ok c1' /\ tri eps d1 c1 c1'.
Proof.
  intros eps d c c' kT kG f d1 c1 Hf B H H1. unfold rgran, dindex in *.
  destruct (dget tkey_eqb d kT) as [p|] eqn:P; [|discriminate]. destruct (tri_rget _ _ _ _ _ _ B P) as [q [q' [Q [Q' [Lq Eq]]]]]. rewrite Q in H1. rewrite Q'. cbn [bind] in *.
  assert (B1 : tri eps (dset tkey_eqb d kT (p * (1 - f))) (dset tkey_eqb c kT (q * (1 - f))) (dset tkey_eqb c' kT (q' * (1 - f)))).
  { apply tri_rset; auto. split. apply Rmult_le_pos; lra. apply Rmult_le_compat_r; lra.
    replace (q' * (1 - f) - q * (1 - f)) with ((q' - q) * (1 - f)) by ring. rewrite Rabs_mult, (Rabs_right (1 - f)) by lra. rewrite <- Rmult_assoc. apply Rmult_le_compat_r; lra. }
  destruct (dget tkey_eqb (dset tkey_eqb d kT (p * (1 - f))) kG) as [o|] eqn:O; [|discriminate].
  destruct (tri_rget _ _ _ _ _ _ B1 O) as [w [w' [O1 [O2 [Lo Eo]]]]]. rewrite O1 in H1. rewrite O2. cbn [bind] in *. injection H as <-. injection H1 as <-.
  eexists. split. reflexivity. apply tri_rset; auto.
  - assert (0 <= q' * f) by (apply Rmult_le_pos; lra). assert (q' * f <= p * f) by (apply Rmult_le_compat_r; lra). lra.
  - replace (w' + q' * f - (w + q * f)) with ((w' - w) + (q' - q) * f) by ring. eapply Rle_trans. apply Rabs_triang.
    rewrite Rabs_mult, (Rabs_right f) by lra. assert (Rabs (q' - q) * f <= eps * p * f) by (apply Rmult_le_compat_r; lra). lra.
Qed.
Lemma rgran_raise : forall d c kT kG f e, map fst d = map fst c -> rgran d kT kG f = Raise e -> rgran c kT kG f = Raise e.
Proof.
  assert (G : forall d c k, map fst d = map fst c -> (dget tkey_eqb (V:=R) d k = None <-> dget tkey_eqb (V:=R) c k = None)).
  { induction d as [|[k1 v1] d IH]; intros [|[k2 v2] c] k E; try discriminate; [tauto|]. injection E as <- E. cbn [dget]. destruct (tkey_eqb k k1); auto. split; discriminate. }
  assert (K : forall d c k v w, map fst d = map fst c -> map fst (dset tkey_eqb (V:=R) d k v) = map fst (dset tkey_eqb (V:=R) c k w)).
  { induction d as [|[k1 v1] d IH]; intros [|[k2 v2] c] k v w E; try discriminate; auto. injection E as <- E. cbn [dset]. destruct (tkey_eqb k k1); cbn [map fst]; f_equal; auto. }
  intros d c kT kG f e E H. unfold rgran, dindex in *. destruct (dget tkey_eqb d kT) as [p|] eqn:P.
  - destruct (dget tkey_eqb c kT) as [q|] eqn:Q. 2:{ apply (G d c) in Q; auto. congruence. } cbn [bind] in *.
    match type of H with context [dget tkey_eqb ?a kG] => destruct (dget tkey_eqb a kG) as [o|] eqn:O end. discriminate.
    match goal with |- context [dget tkey_eqb ?a kG] => replace (dget tkey_eqb a kG) with (@None R) end. auto.
    symmetry. revert O. apply G. apply K. auto.
  - replace (dget tkey_eqb c kT) with (@None R). auto. symmetry. revert P. apply G. auto.
Qed.
Lemma base32_keys : forall V W ul gt, map fst (base32 V ul gt) = map fst (base32 W ul gt).
Proof.
  assert (K : forall d c k v w, map fst d = map fst c -> map fst (dset tkey_eqb (V:=R) d k v) = map fst (dset tkey_eqb (V:=R) c k w)).
  { induction d as [|[k1 v1] d IH]; intros [|[k2 v2] c] k v w E; try discriminate; auto. injection E as <- E. cbn [dset]. destruct (tkey_eqb k k1); cbn [map fst]; f_equal; auto. }
  intros. assert (F : forall d c, map fst d = map fst c -> map fst (foldd V ul d) = map fst (foldd W ul c)).
  { unfold foldd. induction ul; intros; cbn [fold_left]; auto. }
  unfold base32. destruct (in_dec _ _ _); [|apply K]; auto.
Qed.
Lemma tri_nth : forall eps d c c', tri eps d c c' -> length (lift c) = length (lift d) /\ length (lift c') = length (lift d)
  /\ forall i, (i < length (lift d))%nat -> exists k x y y', nth_error (lift d) i = Some (k, Fin x) /\ nth_error (lift c) i = Some (k, Fin y)
    /\ nth_error (lift c') i = Some (k, Fin y') /\ 0 <= y' <= x /\ Rabs (y' - y) <= eps * x.
Proof.
  intros eps d c c' B. unfold lift. induction B as [|k1 v1 w1 w1' d c c' L L' B [I1 [I2 IH]]]; cbn [map length].
  - split; auto. split; auto. intros i H. lia.
  - split; [lia|]. split; [lia|]. intros [|i] H; cbn [nth_error fst snd]. exists k1, v1, w1, w1'. auto. apply IH. lia.
Qed.
Lemma share_tri : forall s lat0 lon0 A M C C' eps, good_grid (st_grid s) -> ld_nonneg s -> grid_area (st_grid s) = Ok A -> disk s lat0 lon0 A <> 0 ->
  (forall j i, pixel (st_grid s) j i -> 0 <= C' j i <= 1) -> (forall j i, pixel (st_grid s) j i -> Rabs (C' j i - C j i) <= eps) ->
  forall t, 0 <= share s lat0 lon0 A M C' t <= share s lat0 lon0 A M (fun _ _ => 1) t
    /\ Rabs (share s lat0 lon0 A M C' t - share s lat0 lon0 A M C t) <= eps * share s lat0 lon0 A M (fun _ _ => 1) t.
Proof.
  intros s lat0 lon0 A M C C' eps G LD EA NW HC HE t. rewrite grid_area_good in EA by auto. injection EA as <-.
  set (A := amap (fun p => Fin (rarea_at (st_grid s) p)) (grid_points (st_grid s))) in *.
  assert (SN : forall j i, pixel (st_grid s) j i -> 0 <= seen s lat0 lon0 A j i).
  { intros j i P. unfold A. rewrite seen_pt by auto. apply wgt_nonneg; auto. apply pt_In; auto. }
  assert (DP : 0 < disk s lat0 lon0 A).
  { assert (0 <= disk s lat0 lon0 A). unfold disk. rewrite grid_sum_idx. apply rsum_map_nonneg. intros [j i] I. apply SN. apply idx_In; auto. lra. }
  set (on := fun ji : nat * nat => match acell M (fst ji) (snd ji) NaN with Fin x => if Req_EM_T x t then seen s lat0 lon0 A (fst ji) (snd ji) else 0 | _ => 0 end).
  assert (ON : forall ji, In ji (idx (st_grid s)) -> 0 <= on ji).
  { intros [j i] I. apply idx_In in I. unfold on. cbn [fst snd]. destruct (acell M j i NaN); try lra. destruct (Req_EM_T _ _); try lra. auto. }
  assert (SH : forall c, share s lat0 lon0 A M c t = rsum (map (fun ji => on ji * c (fst ji) (snd ji)) (idx (st_grid s))) / disk s lat0 lon0 A).
  { intros c. unfold share. f_equal. rewrite grid_sum_idx. apply rsum_map_ext. intros [j i] I. unfold on. cbn [fst snd].
    destruct (acell M j i NaN); try ring. destruct (Req_EM_T _ _); ring. }
  rewrite !SH. pose proof (Rinv_0_lt_compat _ DP) as IP.
  split; [split|].
  - apply Rmult_le_pos; [|lra]. apply rsum_map_nonneg. intros [j i] I. apply Rmult_le_pos; auto. apply HC. apply idx_In in I. auto.
  - apply Rmult_le_compat_r; [lra|]. apply rsum_map_le. intros [j i] I. apply Rmult_le_compat_l; auto. apply HC. apply idx_In in I. auto.
  - unfold Rdiv. rewrite <- Rmult_minus_distr_r, Rabs_mult, (Rabs_right (/ _)) by lra. rewrite <- Rmult_assoc. apply Rmult_le_compat_r; [lra|].
    assert (K : forall l, (forall ji, In ji l -> In ji (idx (st_grid s))) ->
      Rabs (rsum (map (fun ji => on ji * C' (fst ji) (snd ji)) l) - rsum (map (fun ji => on ji * C (fst ji) (snd ji)) l)) <= eps * rsum (map (fun ji => on ji * 1) l)).
    { induction l as [|[j i] l IH]; intros H; cbn [map rsum fold_right]. rewrite Rminus_0_r, Rabs_R0. lra.
      fold (rsum (map (fun ji => on ji * C' (fst ji) (snd ji)) l)) (rsum (map (fun ji => on ji * C (fst ji) (snd ji)) l)) (rsum (map (fun ji => on ji * 1) l)). cbn [fst snd].
      match goal with |- Rabs (?a + ?b - (?c + ?d)) <= _ => replace (a + b - (c + d)) with ((a - c) + (b - d)) by ring end.
      eapply Rle_trans. apply Rabs_triang. specialize (IH (fun x J => H x (or_intror J))).
      assert (I : In (j, i) (idx (st_grid s))) by (apply H; left; auto). pose proof (ON _ I). apply idx_In in I. specialize (HE j i I).
      rewrite <- Rmult_minus_distr_l, Rabs_mult, (Rabs_right (on (j, i))) by lra.
      assert (on (j, i) * Rabs (C' j i - C j i) <= on (j, i) * eps) by (apply Rmult_le_compat_l; auto). lra. }
    apply K. auto.
Qed.
Lemma C123_report_lemma : forall s lat0 lon0 orbit planet phase incl T D A M C pf f n,
  disk_view s lat0 lon0 orbit planet phase incl T D A M C pf -> disk s lat0 lon0 A <> 0 ->
  Rabs T <= powerRZ 2 127 -> Rabs (T - D) <= powerRZ 2 127 -> (forall x, In x (sc_spots (st_spots s)) -> spot32 x) ->
  st_grid s = Spiral n -> (1 <= n)%nat -> INR n <= 2 ^ 100 -> ld_nonneg s -> 0 <= f <= 1 ->
  (* outside transits nothing changes *)
  (1 + 2 * (planet / st_radius s) < sqrt ((orbit / st_radius s * sin phase)^2 + (orbit / st_radius s * cos phase * cos incl)^2) \/ 0 < cos phase ->
     calc_coverage_areas32 s lat0 lon0 (Fin f) orbit planet phase incl = calc_coverage32 s lat0 lon0 (Fin f) orbit planet phase incl)
  (* in transits what is there does not change, and the hidden parts change with the mask *)
  /\ exists C32, get_transit_mask32 s lat0 lon0 orbit planet phase incl = Ok (C32, pf)
  /\ (forall e, calc_coverage32 s lat0 lon0 (Fin f) orbit planet phase incl = Raise e -> calc_coverage_areas32 s lat0 lon0 (Fin f) orbit planet phase incl = Raise e)
  /\ forall tot cov pf', calc_coverage32 s lat0 lon0 (Fin f) orbit planet phase incl = Ok (tot, cov, pf') ->
     pf' = pf /\ exists cov', calc_coverage_areas32 s lat0 lon0 (Fin f) orbit planet phase incl = Ok (tot, cov', pf)
     /\ length cov = length tot /\ length cov' = length tot
     /\ forall eps, (forall j i, pixel (st_grid s) j i -> Rabs (cell_val C32 j i - cell_val C j i) <= eps) ->
        forall i, (i < length tot)%nat -> exists k x y y',
          nth_error tot i = Some (k, Fin x) /\ nth_error cov i = Some (k, Fin y) /\ nth_error cov' i = Some (k, Fin y')
          /\ 0 <= y' <= x /\ Rabs (y' - y) <= eps * x.
Proof.
  intros s lat0 lon0 orbit planet phase incl T D A M C pf f n V NW BT BD HS EG Hn Bn LD Hf.
  destruct (calc_areas32_eq _ _ _ _ _ _ _ _ _ _ _ _ _ f n V NW BT BD HS EG Hn Bn) as [M32 [ul [C32 [_ [EC [HC [-> ->]]]]]]].
  destruct V as [Vu Vg Vr Vl Vt Vd Va Vm Vf Vk].
  split. { intros H. rewrite mask32_out in EC by auto. rewrite EC in Vk. injection Vk as <-. auto. }
  exists C32. split; auto.
  assert (KE : map fst (base32 (share s lat0 lon0 A M32 (cell_val C)) ul (T - D)) = map fst (base32 (share s lat0 lon0 A M32 (cell_val C32)) ul (T - D))) by apply base32_keys.
  set (d1 := base32 (share s lat0 lon0 A M32 (fun _ _ => 1)) ul (T - D)) in *. set (d2 := base32 (share s lat0 lon0 A M32 (cell_val C)) ul (T - D)) in *.
  set (d3 := base32 (share s lat0 lon0 A M32 (cell_val C32)) ul (T - D)) in *.
  assert (TR : forall eps, (forall j i, pixel (st_grid s) j i -> Rabs (cell_val C32 j i - cell_val C j i) <= eps) -> 0 <= eps -> tri eps d1 d2 d3).
  { intros eps HE E0. apply tri_base; auto. intros t _. apply share_tri; auto. }
  split.
  { intros e. destruct (rgran d1 _ _ f) as [a|e1]; cbn [bind]; auto. destruct (rgran d2 _ _ f) as [b|e2] eqn:R2; cbn [bind]. discriminate.
    intros H. injection H as <-. rewrite (rgran_raise _ d3 _ _ _ _ KE R2). auto. }
  intros tot cov pf'. destruct (rgran d1 (key T) (key (T - D)) f) as [a|e1] eqn:R1; cbn [bind]; [|discriminate].
  destruct (rgran d2 (key T) (key (T - D)) f) as [b|e2] eqn:R2; cbn [bind]; [|discriminate]. intros H. injection H as <- <- <-. split; auto.
  assert (Bd : forall j i, pixel (st_grid s) j i -> Rabs (cell_val C32 j i - cell_val C j i) <= 1).
  { intros j i P. specialize (HC j i P). destruct (transit_mask_form s lat0 lon0 orbit planet phase incl C pf) as [cm [E Hcm]]; auto.
    assert (0 <= cell_val C j i <= 1). { rewrite E. unfold cell_val. rewrite acell_grid by auto. apply Hcm. apply (pt_In (st_grid s) j i). auto. }
    apply Rabs_le. lra. }
  destruct (tri_rgran _ _ _ _ _ _ _ _ _ Hf (TR 1 Bd ltac:(lra)) R1 R2) as [c [R3 T3]]. rewrite R3. cbn [bind].
  exists (lift c). split; auto. destruct (tri_nth _ _ _ _ T3) as [L1 [L2 _]]. split; auto. split; auto.
  intros eps HE i Hi.
  assert (E0 : 0 <= eps).
  { eapply Rle_trans. apply Rabs_pos. apply (HE 0%nat 0%nat). rewrite EG. apply pixel_iff. cbn. lia. }
  destruct (tri_rgran _ _ _ _ _ _ _ _ _ Hf (TR eps HE E0) R1 R2) as [c' [R3' T3']]. rewrite R3 in R3'. injection R3' as <-.
  apply (proj2 (proj2 (tri_nth _ _ _ _ T3'))); auto.
Qed.

(** ** the coverage *)
Fixpoint rtree32 (o : sumtree) (f : nat -> R) : R := match o with SLeaf i => f i | SNode a b => f32_round (rtree32 a f + rtree32 b f) end.
Lemma rtree32_mono : forall o f g, (forall i, In i (leaves o) -> f i <= g i) -> rtree32 o f <= rtree32 o g.
Proof.
  induction o as [i|a IHa b IHb]; intros f g H; cbn [rtree32 leaves] in *. apply H. left; auto.
  apply f32_round_mono. assert (rtree32 a f <= rtree32 a g) by (apply IHa; intros; apply H, in_or_app; auto). assert (rtree32 b f <= rtree32 b g) by (apply IHb; intros; apply H, in_or_app; auto). lra.
Qed.
Lemma rtree32_ext : forall o f g, (forall i, In i (leaves o) -> f i = g i) -> rtree32 o f = rtree32 o g.
Proof. intros o f g H. apply Rle_antisym; apply rtree32_mono; intros i I; rewrite H by auto; lra. Qed.
Lemma f32_round_zero : f32_round 0 = 0.
Proof. apply f32_round_id. apply (f32_whole 0). simpl. lia. Qed.
Lemma rtree32_bounds : forall o f h m, powerRZ 2 (-126) <= m -> f32_value m -> (forall i, In i (leaves o) -> f i = 0 \/ m <= f i) -> (depth o <= h)%nat ->
  (rtree32 o f = 0 \/ m <= rtree32 o f) /\ 0 <= rsum (map f (leaves o))
  /\ (1 - u32) ^ h * rsum (map f (leaves o)) <= rtree32 o f <= (1 + u32) ^ h * rsum (map f (leaves o)).
Proof.
  intros o f h m Hm Vm. pose proof u32_pos as U. assert (U' : u32 <= 1/2) by (unfold u32; lra). pose proof (p2_pos (-126)) as P126. revert h.
  induction o as [i|a IHa b IHb]; intros h H D; cbn [rtree32 leaves depth] in *.
  - specialize (H i (or_introl eq_refl)). split; auto. cbn [map]. unfold rsum. cbn [fold_right]. rewrite Rplus_0_r.
    pose proof (pow_down (1 - u32) 0 h ltac:(lra) ltac:(lia)) as K1. pose proof (pow_up (1 + u32) 0 h ltac:(lra) ltac:(lia)) as K2. rewrite pow_O in K1, K2.
    destruct H as [-> |H]; [lra|]. split; [lra|]. split; nra.
  - destruct h as [|h]; [lia|]. destruct (IHa h) as [Za [Sa [La Ua]]]. { intros; apply H, in_or_app; auto. } lia.
    destruct (IHb h) as [Zb [Sb [Lb Ub]]]. { intros; apply H, in_or_app; auto. } lia.
    rewrite map_app, rsum_app. set (x := rtree32 a f) in *. set (y := rtree32 b f) in *. set (A := rsum (map f (leaves a))) in *. set (B := rsum (map f (leaves b))) in *.
    assert (K : (x + y = 0) \/ m <= x + y) by lra. destruct K as [K|K].
    + rewrite K, f32_round_zero. split; [auto|]. split; [lra|].
      assert (P1 : 0 < (1 - u32) ^ h) by (apply pow_lt; lra). assert (P2 : 0 < (1 + u32) ^ h) by (apply pow_lt; lra).
      assert (A = 0) by nra. assert (B = 0) by nra. replace (A + B) with 0 by lra. lra.
    + split. { right. rewrite <- (f32_round_id m Vm). apply f32_round_mono; auto. }
      split; [lra|].
      assert (E := f32_round_err (x + y)). rewrite (Rabs_right (x + y)) in E by lra. specialize (E ltac:(lra)).
      assert (E' : (1 - u32) * (x + y) <= f32_round (x + y) <= (1 + u32) * (x + y)). { unfold u32. revert E. unfold Rabs. destruct (Rcase_abs _); lra. }
      cbn [pow]. split.
      * eapply Rle_trans; [|apply E']. rewrite Rmult_assoc. apply Rmult_le_compat_l; lra.
      * eapply Rle_trans; [apply E'|]. rewrite Rmult_assoc. apply Rmult_le_compat_l; lra.
Qed.
Lemma sum_tree32_fin : forall o f h m l, powerRZ 2 (-126) <= m -> f32_value m -> (forall i, In i (leaves o) -> f i = 0 \/ m <= f i) ->
  (forall i, In i (leaves o) -> nth i l NaN = Fin (f i)) ->
  (depth o <= h)%nat -> (1 + u32) ^ h * rsum (map f (leaves o)) <= powerRZ 2 127 -> sum_tree32 o l = Fin (rtree32 o f).
Proof.
  pose proof u32_pos as U. pose proof (p2_pos (-126)) as P126.
  induction o as [i|a IHa b IHb]; intros f h m l Hm Vm H E D B; cbn [rtree32 leaves depth sum_tree32] in *. apply E. left; auto.
  destruct h as [|h]; [lia|].
  assert (Ha : forall i, In i (leaves a) -> f i = 0 \/ m <= f i) by (intros; apply H, in_or_app; auto).
  assert (Hb : forall i, In i (leaves b) -> f i = 0 \/ m <= f i) by (intros; apply H, in_or_app; auto).
  destruct (rtree32_bounds a f h m Hm Vm Ha ltac:(lia)) as [Za [SA [_ Ua]]]. destruct (rtree32_bounds b f h m Hm Vm Hb ltac:(lia)) as [Zb [SB [_ Ub]]].
  rewrite map_app, rsum_app in B. set (A := rsum (map f (leaves a))) in *. set (B' := rsum (map f (leaves b))) in *.
  assert (P : 1 <= (1 + u32) ^ h) by (apply pow_R1_Rle; lra). cbn [pow] in B.
  assert (Q0 : 0 <= (1 + u32) ^ h * (A + B')) by (apply Rmult_le_pos; lra).
  assert (Q : (1 + u32) ^ h * (A + B') <= powerRZ 2 127) by nra.
  assert (QA : (1 + u32) ^ h * A <= powerRZ 2 127) by nra. assert (QB : (1 + u32) ^ h * B' <= powerRZ 2 127) by nra.
  rewrite (IHa f h m), (IHb f h m); auto; try lia; try (intros; apply E, in_or_app; auto).
  unfold add32. rewrite nadd_fin. apply f32_fin. rewrite Rabs_right by lra. lra.
Qed.
Lemma bern : forall h x, 0 <= x <= 1 -> 1 - INR h * x <= (1 - x) ^ h.
Proof.
  induction h as [|h IH]; intros x H. simpl; lra. rewrite S_INR. cbn [pow]. specialize (IH x H).
  assert (0 <= INR h) by apply pos_INR. assert ((1 - x) * (1 - INR h * x) <= (1 - x) * (1 - x) ^ h) by (apply Rmult_le_compat_l; lra).
  assert (0 <= INR h * x * x) by (apply Rmult_le_pos; [apply Rmult_le_pos|]; lra). lra.
Qed.
Lemma pow_inv_up : forall h x, 0 <= x <= 1 -> (1 + x) ^ h * (1 - x) ^ h <= 1.
Proof. intros. rewrite <- Rpow_mult_distr. apply Rle_trans with (1 ^ h); [apply pow_incr; split; nra|rewrite pow1; lra]. Qed.
Lemma all_marked : forall A (b : A -> bool) l, rsum (map (fun p => if b p then 1 else 0) l) <= INR (length l)
  /\ (rsum (map (fun p => if b p then 1 else 0) l) = INR (length l) -> forall p, In p l -> b p = true).
Proof.
  induction l as [|a l [I1 I2]]; cbn [map rsum fold_right length]. { split. simpl; lra. intros _ p []. }
  fold (rsum (map (fun p => if b p then 1 else 0) l)). rewrite S_INR. split. { destruct (b a); lra. }
  intros E p [<- |I]. destruct (b a); auto. lra. apply I2; auto. destruct (b a); lra.
Qed.
Definition marks32 (n : nat) (Rs : R) (l : list spot) (i : nat) : R :=
  if covb Rs l (nth i (cells (grid_points (Spiral n))) (0, 0)) then area32 n else 0.
Lemma cells_spiral : forall n, length (cells (grid_points (Spiral n))) = n.
Proof. intros. rewrite spiral_points_eq. unfold cells. cbn [arows]. rewrite concat_cons, app_length, map_length, seq_length. simpl. lia. Qed.
Lemma map_nth_seq : forall A B (f : A -> B) l d, map f l = map (fun i => f (nth i l d)) (seq 0 (length l)).
Proof.
  intros A B f l d. induction l as [|a l IH]; auto. cbn [length seq map nth]. f_equal. rewrite <- seq_shift, map_map. exact IH.
Qed.
Lemma adds_pos : forall o n h, adds o n h -> (1 <= n)%nat.
Proof.
  intros o n h [P _]. destruct n; [|lia]. apply Permutation_length in P. assert (1 <= length (leaves o))%nat.
  { clear. induction o; cbn [leaves]. cbn; lia. rewrite app_length. lia. } cbn in P. lia.
Qed.
Lemma coverage_tree : forall ord h c Rs n, sc_grid c = Spiral n -> INR n <= 2 ^ 100 -> adds (ord n) n h -> INR h <= 2 ^ 20 ->
  (forall x, In x (sc_spots c) -> spot_on (sc_grid c) x /\ spot32 x) ->
  let t := rtree32 (ord n) (marks32 n Rs (sc_spots c)) in let t1 := rtree32 (ord n) (fun _ => area32 n) in
  sc_get_coverage c Rs = Ok (Fin (covsum (sc_grid c) Rs (sc_spots c)))
  /\ 0 < t1 /\ 0 <= t <= t1 /\ sc_get_coverage_areas32 ord c Rs = Ok (Fin (f32_round (t / t1)))
  /\ (1 - u32) ^ h * (INR n * area32 n) <= t1 <= (1 + u32) ^ h * (INR n * area32 n)
  /\ (1 - u32) ^ h * (INR n * area32 n * covsum (sc_grid c) Rs (sc_spots c)) <= t <= (1 + u32) ^ h * (INR n * area32 n * covsum (sc_grid c) Rs (sc_spots c)).
Proof.
  intros ord h c Rs n EG Bn HA Bh HS t t1. assert (Hn := adds_pos _ _ _ HA).
  destruct (area32_near n Hn Bn) as [Nr [Bd [Va _]]]. pose proof (p2_pos (-101)) as P101. set (a := area32 n) in *.
  assert (A126 : powerRZ 2 (-126) <= a). { eapply Rle_trans; [|apply Bd]. apply p2_le; lia. }
  assert (N1 : 1 <= INR n) by (apply (le_INR 1); auto).
  assert (GG : good_grid (sc_grid c)) by (rewrite EG; exact Hn).
  assert (FT : forall x, spot32 x -> fin_temps x). { intros x [tu [tp [E1 [E2 _]]]]. split; [rewrite E1|rewrite E2]; eexists; eauto. }
  split. { apply sc_get_coverage_eq; auto. intros x I. destruct (HS x I). auto. }
  set (l := cells (grid_points (Spiral n))).
  assert (LL : length l = n) by apply cells_spiral.
  assert (S0 : rsum (map (fun _ : nat => a) (leaves (ord n))) = INR n * a).
  { rewrite (leaves_sum _ n h) by auto. rewrite rsum_map_const, seq_length. ring. }
  assert (S1 : rsum (map (marks32 n Rs (sc_spots c)) (leaves (ord n))) = INR n * a * covsum (sc_grid c) Rs (sc_spots c)).
  { rewrite (leaves_sum _ n h) by auto. unfold covsum. rewrite EG. fold l.
    transitivity (rsum (map (fun p => if covb Rs (sc_spots c) p then a else 0) l)).
    { rewrite (map_nth_seq _ _ _ l (0, 0)), LL. reflexivity. }
    rewrite <- rsum_map_scal. apply rsum_map_ext. intros p _. unfold rarea_at. destruct (covb _ _ _); field; lra. }
  assert (H0 : forall i, In i (leaves (ord n)) -> (fun _ : nat => a) i = 0 \/ a <= (fun _ : nat => a) i) by (intros; right; lra).
  assert (H1 : forall i, In i (leaves (ord n)) -> marks32 n Rs (sc_spots c) i = 0 \/ a <= marks32 n Rs (sc_spots c) i).
  { intros. unfold marks32. fold a. destruct (covb _ _ _); [right; lra|auto]. }
  destruct (rtree32_bounds (ord n) (fun _ => a) h a A126 Va H0 (proj2 HA)) as [Z0 [_ B0]]. fold t1 in Z0, B0. rewrite S0 in B0.
  destruct (rtree32_bounds (ord n) (marks32 n Rs (sc_spots c)) h a A126 Va H1 (proj2 HA)) as [Z1 [SP B1]]. fold t in Z1, B1. rewrite S1 in B1, SP.
  pose proof u32_pos as U. assert (NA : 0 < INR n * a) by (apply Rmult_lt_0_compat; lra).
  assert (T1 : 0 < t1). { eapply Rlt_le_trans; [|apply B0]. apply Rmult_lt_0_compat; auto. apply pow_lt. unfold u32; lra. }
  assert (TT : 0 <= t <= t1). { split. lra. apply rtree32_mono. intros i _. unfold marks32. fold a. destruct (covb _ _ _); lra. }
  split; auto. split; auto. split; [|auto].
  assert (Ua : a <= 2 * (1 / INR n)). { assert (0 < 1 / INR n) by (apply Rdiv_lt_0_compat; lra). revert Nr. unfold Rabs. destruct (Rcase_abs _); lra. }
  assert (NA2 : INR n * a <= 2). { apply Rle_trans with (INR n * (2 * (1 / INR n))). apply Rmult_le_compat_l; lra. right. field. lra. }
  assert (P2 : (1 + u32) ^ h <= 2).
  { pose proof (pow_inv_up h u32 ltac:(unfold u32; lra)) as K. pose proof (bern h u32 ltac:(unfold u32; lra)) as K'.
    assert (INR h * u32 <= 1/2). { unfold u32. simpl in Bh. lra. } assert (0 < (1 + u32) ^ h) by (apply pow_lt; lra). nra. }
  assert (BB : forall x, 0 <= x <= INR n * a -> (1 + u32) ^ h * x <= powerRZ 2 127).
  { intros x Hx. apply Rle_trans with (2 * 2). apply Rmult_le_compat; try lra. apply pow_le; lra. pose proof p127_big. lra. }
  assert (CV : covsum (sc_grid c) Rs (sc_spots c) <= 1).
  { rewrite <- (rarea_sum (sc_grid c) GG). unfold covsum. apply rsum_map_le. intros p I. pose proof (rarea_nonneg _ _ GG I). destruct (covb _ _ _); lra. }
  assert (SPn : 0 <= INR n * a * covsum (sc_grid c) Rs (sc_spots c) <= INR n * a) by nra.
  unfold sc_get_coverage_areas32. rewrite EG at 1. rewrite area32_eq by auto. fold a. cbn [bind]. rewrite map32_eq by (auto; discriminate).
  rewrite sc_map_pixels_eq by (intros; apply HS; auto). cbn [rmap bind]. rewrite !amap_amap. rewrite EG.
  rewrite (amap_ext _ _ (fun x => negb (neq (f32 (fold_left (pv Rs x) (sc_spots c) PInf)) (f32 PInf))) (fun x => covb Rs (sc_spots c) x)).
  2:{ intros p. rewrite <- fold_pv_inf by (intros x I; apply FT, HS; auto). f_equal.
    assert (Q : forall l m, (m = PInf \/ fits32 m) -> (forall s, In s l -> spot32 s) -> fold_left (pv Rs p) l m = PInf \/ fits32 (fold_left (pv Rs p) l m)).
    { induction l0 as [|s l0 IH]; intros m M K; simpl; auto. apply IH; [|intros; apply K; right; auto].
      destruct (K s (or_introl eq_refl)) as [tu [tp [Eu [Ep [_ [B2 B3]]]]]]. unfold pv. rewrite Eu, Ep. cbv zeta.
      destruct (umb_b _ _ _ && _)%bool. right; exists tu; auto. destruct (pen_b _ _ _ && _)%bool; auto. right; exists tp; auto. }
    destruct (Q (sc_spots c) PInf) as [E|[x [E B]]]; auto. { intros; apply HS; auto. } rewrite E; auto. rewrite E. rewrite (proj1 (f32_fin x B)). auto. }
  rewrite amap2_amap. cbn [bind]. rewrite !cells_amap. fold l.
  assert (SE : forall F f, (forall i, In i (leaves (ord n)) -> f i = 0 \/ a <= f i) -> (forall i, (i < n)%nat -> F (nth i l (0, 0)) = Fin (f i)) ->
    0 <= rsum (map f (leaves (ord n))) <= INR n * a -> sum32 ord (map F l) = Fin (rtree32 (ord n) f)).
  { intros F f Hf HF HR. unfold sum32. rewrite map_length, LL.
    destruct (map F l) as [|y r] eqn:E. { apply (f_equal (@length num)) in E. rewrite map_length, LL in E. cbn in E. lia. }
    rewrite <- E. apply (sum_tree32_fin _ f h a); auto.
    - intros i I. apply (leaves_lt _ _ _ _ HA) in I. rewrite <- HF by auto. rewrite (nth_indep _ NaN (F (0, 0))) by (rewrite map_length, LL; auto). apply map_nth.
    - apply HA. }
  rewrite (SE (fun x => nmul (Fin a) (Fin (if covb Rs (sc_spots c) x then 1 else 0))) (marks32 n Rs (sc_spots c))); auto.
  2:{ intros i Hi. rewrite nmul_fin. unfold marks32. fold a l. destruct (covb _ _ _); f_equal; ring. } 2:{ rewrite S1. auto. }
  rewrite (SE (fun _ => Fin a) (fun _ => a)); auto. 2:{ rewrite S0. lra. }
  fold t t1. rewrite ndiv_fin by lra. do 2 f_equal. apply f32_fin. rewrite Rabs_right.
  - apply Rle_trans with 1. apply Rmult_le_reg_r with t1; auto. unfold Rdiv. rewrite Rmult_assoc, Rinv_l by lra. lra. pose proof p127_big; lra.
  - apply Rle_ge. apply Rmult_le_pos. lra. left. apply Rinv_0_lt_compat; auto.
Qed.
Lemma ratio_bounds : forall h x S0 v t t1, 0 <= x -> INR (2 * h + 1) * x <= 1/2 -> 0 < S0 -> 0 <= v -> 0 < t1 ->
  (1 - x) ^ h * S0 <= t1 <= (1 + x) ^ h * S0 -> (1 - x) ^ h * (S0 * v) <= t <= (1 + x) ^ h * (S0 * v) ->
  (1 - x) * (t / t1) >= v * (1 - INR (2 * h + 1) * x) /\ (1 + x) * (t / t1) <= v * (1 + 2 * (INR (2 * h + 1) * x)).
Proof.
  intros h x S0 v t t1 Hx Hh P0 Pv P1 B1 B.
  assert (N1 : 1 <= INR (2 * h + 1)) by (apply (le_INR 1); lia). assert (X1 : x <= 1/2) by nra.
  pose proof (pow_inv_up h x ltac:(lra)) as K. pose proof (bern (2 * h + 1) x ltac:(lra)) as K'.
  set (lo := (1 - x) ^ h) in *. set (hi := (1 + x) ^ h) in *.
  assert (L0 : 0 < lo) by (apply pow_lt; lra). assert (H0 : 0 < hi) by (apply pow_lt; lra).
  assert (E : (1 - x) ^ (2 * h + 1) = lo * lo * (1 - x)). { unfold lo. rewrite pow_add. replace (2 * h)%nat with (h + h)%nat by lia. rewrite pow_add. ring. }
  rewrite E in K'. set (m := INR (2 * h + 1) * x) in *.
  assert (Hq : t / t1 * t1 = t) by (field; lra).
  assert (V0 : 0 <= S0 * v) by (apply Rmult_le_pos; lra).
  split.
  - apply Rle_ge. apply Rmult_le_reg_r with t1; auto. rewrite (Rmult_assoc (1 - x) (t / t1)), Hq.
    apply Rle_trans with (v * (lo * lo * (1 - x)) * (hi * S0)).
    + apply Rmult_le_compat. apply Rmult_le_pos; lra. lra. apply Rmult_le_compat_l; lra. lra.
    + replace (v * (lo * lo * (1 - x)) * (hi * S0)) with ((1 - x) * (lo * (S0 * v)) * (hi * lo)) by ring.
      apply Rle_trans with ((1 - x) * (lo * (S0 * v)) * 1). apply Rmult_le_compat_l; auto. apply Rmult_le_pos; [lra|]. apply Rmult_le_pos; lra.
      rewrite Rmult_1_r. apply Rmult_le_compat_l; lra.
  - apply Rmult_le_reg_r with t1; auto. rewrite (Rmult_assoc (1 + x) (t / t1)), Hq.
    apply Rle_trans with ((1 + x) * (hi * (S0 * v))). apply Rmult_le_compat_l; lra.
    apply Rle_trans with (v * (1 + 2 * m) * (lo * S0)). 2:{ apply Rmult_le_compat_l; [|lra]. apply Rmult_le_pos; [lra|]. unfold m. assert (0 <= INR (2 * h + 1) * x) by (apply Rmult_le_pos; lra). lra. }
    replace ((1 + x) * (hi * (S0 * v))) with (S0 * v * ((1 + x) * hi)) by ring. replace (v * (1 + 2 * m) * (lo * S0)) with (S0 * v * ((1 + 2 * m) * lo)) by ring.
    apply Rmult_le_compat_l; auto.
    apply Rmult_le_reg_r with (lo * (1 - x)). apply Rmult_lt_0_compat; lra.
    apply Rle_trans with 1.
    + replace ((1 + x) * hi * (lo * (1 - x))) with ((1 - x * x) * (hi * lo)) by ring. assert (0 <= hi * lo) by (apply Rmult_le_pos; lra). nra.
    + replace ((1 + 2 * m) * lo * (lo * (1 - x))) with ((1 + 2 * m) * (lo * lo * (1 - x))) by ring.
      assert (M0 : 0 <= m) by (apply Rmult_le_pos; lra).
      apply Rle_trans with ((1 + 2 * m) * (1 - m)). nra. apply Rmult_le_compat_l; lra.
Qed.
Lemma C123_coverage_lemma : forall ord h c Rs n, sc_grid c = Spiral n -> INR n <= 2 ^ 100 -> adds (ord n) n h -> INR h <= 2 ^ 20 ->
  (forall x, In x (sc_spots c) -> spot_on (sc_grid c) x /\ spot32 x) ->
  exists v q, sc_get_coverage c Rs = Ok (Fin v) /\ sc_get_coverage_areas32 ord c Rs = Ok (Fin q)
    /\ 0 <= q <= 1 /\ f32_value q /\ (q = 0 <-> v = 0) /\ (v = 1 -> q = 1) /\ Rabs (q - v) <= INR (h + 1) / 2 ^ 22 * v
    (* more spots cover no less *)
    /\ forall c', sc_grid c' = sc_grid c -> (forall x, In x (sc_spots c') -> spot_on (sc_grid c) x /\ spot32 x) ->
         (forall x, In x (sc_spots c) -> In x (sc_spots c')) ->
         exists q', sc_get_coverage_areas32 ord c' Rs = Ok (Fin q') /\ q <= q'.
Proof.
  intros ord h c Rs n EG Bn HA Bh HS.
  destruct (coverage_tree ord h c Rs n EG Bn HA Bh HS) as [EV [T1 [TT [EQ [B1 B]]]]].
  set (t := rtree32 (ord n) (marks32 n Rs (sc_spots c))) in *. set (t1 := rtree32 (ord n) (fun _ => area32 n)) in *. set (v := covsum (sc_grid c) Rs (sc_spots c)) in *.
  assert (Hn := adds_pos _ _ _ HA). destruct (area32_near n Hn Bn) as [_ [Bd _]]. pose proof (p2_pos (-101)) as P101.
  assert (N1 : 1 <= INR n) by (apply (le_INR 1); auto). assert (GG : good_grid (sc_grid c)) by (rewrite EG; exact Hn).
  assert (NA : 0 < INR n * area32 n) by (apply Rmult_lt_0_compat; lra).
  assert (V0 : 0 <= v). { unfold v, covsum. apply rsum_map_nonneg. intros p I. pose proof (rarea_nonneg _ _ GG I). destruct (covb _ _ _); lra. }
  assert (HH : INR (2 * h + 1) * u32 <= 1/2). { unfold u32. rewrite plus_INR, mult_INR. simpl INR. simpl in Bh. lra. }
  destruct (ratio_bounds h u32 (INR n * area32 n) v t t1 ltac:(unfold u32; lra) HH NA V0 T1 B1 B) as [R1 R2].
  set (r := t / t1) in *. exists v, (f32_round r).
  assert (R01 : 0 <= r <= 1). { unfold r. split. apply Rmult_le_pos. lra. left; apply Rinv_0_lt_compat; auto. apply Rmult_le_reg_r with t1; auto. unfold Rdiv. rewrite Rmult_assoc, Rinv_l by lra. lra. }
  assert (F1 : f32_round 1 = 1) by (apply f32_round_id, (f32_whole 1); simpl; lia).
  split; auto. split; auto.
  split. { split. rewrite <- f32_round_zero. apply f32_round_mono; lra. rewrite <- F1. apply f32_round_mono; lra. }
  split. { apply f32_round_value. }
  set (m := INR (2 * h + 1) * u32) in *. assert (M0 : 0 <= m). { unfold m. apply Rmult_le_pos. apply pos_INR. unfold u32; lra. }
  assert (VS : forall l, covsum (Spiral n) Rs l * INR n = rsum (map (fun p => if covb Rs l p then 1 else 0) (cells (grid_points (Spiral n))))).
  { intros l. unfold covsum. rewrite Rmult_comm, <- rsum_map_scal. apply rsum_map_ext. intros p _. unfold rarea_at. field. lra. }
  assert (VL : v = 0 \/ 1 / INR n <= v).
  { unfold v. rewrite EG. unfold covsum. clear - N1. assert (0 < 1 / INR n) by (apply Rdiv_lt_0_compat; lra). induction (cells (grid_points (Spiral n))) as [|p l IH]; cbn [map rsum fold_right]; [auto|].
    match goal with |- context [fold_right Rplus 0 ?x] => fold (rsum x) end. unfold rarea_at at 1 3. destruct (covb _ _ _); lra. }
  assert (QB : v = 0 /\ f32_round r = 0 \/ 0 < v /\ 0 < f32_round r /\ v * (1 - m) <= f32_round r <= v * (1 + 2 * m)).
  { destruct VL as [-> |VL].
    - left. split; auto. assert (r <= 0). { assert (0 < 1 + u32) by (unfold u32; lra). nra. } replace r with 0 by lra. apply f32_round_zero.
    - right. assert (VP : 0 < v). { eapply Rlt_le_trans; [|exact VL]. apply Rdiv_lt_0_compat; lra. } split; auto.
      assert (RL : powerRZ 2 (-126) <= r).
      { apply Rle_trans with (1 / INR n * (1/2)). 
        - apply Rle_trans with (powerRZ 2 (-100) * powerRZ 2 (-1)). rewrite <- p2_add. apply p2_le; lia.
          replace (powerRZ 2 (-1)) with (1/2) by (simpl; lra). apply Rmult_le_compat_r; [lra|]. apply (inv_n n Hn Bn).
        - apply Rle_trans with (v * (1 - m)). apply Rmult_le_compat; try lra. left; apply Rdiv_lt_0_compat; lra. 
          apply Rle_trans with ((1 - u32) * r). lra. unfold u32. lra. }
      pose proof (f32_round_err r) as E. rewrite Rabs_right in E by lra. specialize (E RL).
      assert (E' : (1 - u32) * r <= f32_round r <= (1 + u32) * r). { unfold u32. revert E. unfold Rabs. destruct (Rcase_abs _); lra. }
      assert (0 < v * (1 - m)) by (apply Rmult_lt_0_compat; lra). lra. }
  split. { destruct QB as [[Z1 Z2]|[Z1 [Z2 _]]]; split; intros; auto; lra. }
  split. { intros V1. assert (AL := all_marked _ (covb Rs (sc_spots c)) (cells (grid_points (Spiral n)))). rewrite <- VS, cells_spiral in AL. 
    unfold v in V1. rewrite EG in V1. rewrite V1 in AL. destruct AL as [_ AL]. specialize (AL ltac:(ring)).
    replace r with 1; auto. unfold r. replace t with t1. field. lra. apply rtree32_ext. intros i I. apply (leaves_lt _ _ _ _ HA) in I. unfold marks32. rewrite AL; auto.
    apply nth_In. rewrite cells_spiral. auto. }
  split. { assert (ME : 2 * m <= INR (h + 1) / 2 ^ 22). { unfold m, u32. rewrite !plus_INR, mult_INR. simpl INR. simpl pow. pose proof (pos_INR h). lra. }
    destruct QB as [[Z1 Z2]|[Z1 [Z2 Z3]]]. rewrite Z1, Z2. rewrite Rminus_0_r, Rabs_R0. lra.
    apply Rle_trans with (2 * m * v). apply Rabs_le. split; nra. apply Rmult_le_compat_r; lra. }
  intros c' EG' HS' SUB. rewrite EG in EG'. rewrite EG, <- EG' in HS'.
  destruct (coverage_tree ord h c' Rs n EG' Bn HA Bh HS') as [_ [_ [_ [EQ' _]]]]. fold t1 in EQ'. eexists. split; [exact EQ'|].
  apply f32_round_mono. apply Rmult_le_compat_r. left; apply Rinv_0_lt_compat; auto. apply rtree32_mono. intros i _. unfold marks32.
  assert (AP : 0 < area32 n) by lra. destruct (covb Rs (sc_spots c) (nth i (cells (grid_points (Spiral n))) (0, 0))) eqn:Q1. 2:{ destruct (covb Rs (sc_spots c') _); lra. }
  replace (covb Rs (sc_spots c') (nth i (cells (grid_points (Spiral n))) (0, 0))) with true. lra.
  symmetry. unfold covb in *. apply existsb_exists in Q1. destruct Q1 as [x [I X]]. apply existsb_exists. eauto.
Qed.
