(** Lemmas for C58: the transit mask *)
From Coq Require Import Reals ZArith Bool List Lra Lia.
From Coquelicot Require Import Coquelicot.
From Verif Require Import Num Py MConfig MHelpers MGrid MSpots MFaculae MFlares MGranules MStar
  Spec SpecStar SpecFlare SpecDisk LBase LGrid LHelpers LCirc LSpotMap LSpotCov LQuad LGauss LDisk LStar.
Import ListNotations.
Open Scope R_scope.

Lemma cell_lat_range : forall g p, good_grid g -> In p (cells (grid_points g)) -> - PI/2 <= fst p <= PI/2.
Proof.
  intros g p G I. rewrite cells_idx in I. apply in_map_iff in I. destruct I as [[j i] [<- I]].
  apply idx_In in I. apply pixel_iff in I. destruct I as [A B]. unfold pt. cbn [fst snd]. destruct g; simpl in A, B, G.
  - rewrite rect_point_cell by auto. cbn [fst]. apply lat_i_range; lia.
  - replace j with 0%nat by lia. rewrite spiral_point_cell by auto. cbn [fst]. pose proof (spiral_lat_range n i B). lra.
Qed.
Lemma nlinspace_fin : forall a b n, (2 <= n)%nat -> nlinspace (Fin a) (Fin b) n = map Fin (linspace a b n).
Proof.
  intros. unfold nlinspace, linspace. rewrite map_map. apply map_ext. intros i.
  assert (0 < INR (n - 1)) by (apply lt_0_INR; lia).
  rewrite minus_INR in H0 by lia. rewrite minus_INR by lia. change (INR 1) with 1 in *.
  rewrite nsub_fin, ndiv_fin, nmul_fin, nadd_fin by lra. auto.
Qed.
(** the two-dimensional quadrature over real numbers *)
Definition gcell (sx sy dist rp yy xx : R) : R :=
  if Rltb (sqrt ((xx - dist) * (xx - dist) + yy * yy)) rp
  then 1 / (2 * PI * sx * sy) * exp (- (1/2) * (xx / sx * (xx / sx)) - 1/2 * (yy / sy * (yy / sy))) else 0.
Definition gquad (sx sy dist rp : R) : R :=
  let xs := linspace (-3 * sx) (3 * sx) 100 in
  rtrapz xs (map (fun yy => rtrapz xs (map (gcell sx sy dist rp yy) xs)) xs).
Lemma gauss_overlap_eq : forall sx sy dist rp, 0 < sx -> 0 < sy ->
  gauss_overlap (Fin sx) (Fin sy) (Fin dist) (Fin rp) = Fin (gquad sx sy dist rp).
Proof.
  intros. unfold gauss_overlap, gquad. pose proof PI_RGT_0.
  assert (0 < 2 * PI * sx * sy). { apply Rmult_lt_0_compat; auto. apply Rmult_lt_0_compat; lra. }
  rewrite !nmul_fin. rewrite nlinspace_fin by lia. rewrite ndiv_fin by lra. cbv zeta.
  set (xs := linspace (-3 * sx) (3 * sx) 100).
  transitivity (ntrapz (map Fin xs) (map Fin (map (fun yy => rtrapz xs (map (gcell sx sy dist rp yy) xs)) xs))).
  2:{ apply ntrapz_fin. }
  f_equal. rewrite !map_map. apply map_ext. intros yy. rewrite <- ntrapz_fin. f_equal.
  rewrite !map_map. apply map_ext. intros xx. rewrite !ndiv_fin by lra. rewrite !nsq_fin, !nmul_fin, !nsub_fin, !nsq_fin, !nadd_fin, nexp_fin, nmul_fin.
  rewrite nsqrt_fin by (pose proof (Rle_0_sqr (xx - dist)); pose proof (Rle_0_sqr yy); unfold Rsqr in *; lra).
  unfold gcell. cbn [nlt]. destruct (Rltb _ rp); auto.
Qed.
Lemma rtrapz_nonneg : forall xs f, (forall i, (S i < length xs)%nat -> nth i xs 0 <= nth (S i) xs 0) ->
  (forall x, In x xs -> 0 <= f x) -> 0 <= rtrapz xs (map f xs).
Proof. intros. rewrite <- (rtrapz_0 xs). apply rtrapz_le; auto. Qed.
Lemma linspace_sorted : forall a b n, a <= b -> forall i, (S i < length (linspace a b n))%nat ->
  nth i (linspace a b n) 0 <= nth (S i) (linspace a b n) 0.
Proof. intros. rewrite linspace_length in H0. apply linspace_mono; auto. Qed.
Lemma gcell_nonneg : forall sx sy dist rp y x, 0 < sx -> 0 < sy -> 0 <= gcell sx sy dist rp y x.
Proof.
  intros. unfold gcell. destruct (Rltb _ _); [|lra]. pose proof PI_RGT_0.
  apply Rmult_le_pos. 2:{ left; apply exp_pos. }
  apply Rlt_le, Rdiv_lt_0_compat. lra. apply Rmult_lt_0_compat; auto. apply Rmult_lt_0_compat; lra.
Qed.
Lemma gquad_nonneg : forall sx sy dist rp, 0 < sx -> 0 < sy -> 0 <= gquad sx sy dist rp.
Proof.
  intros. unfold gquad. apply rtrapz_nonneg. apply linspace_sorted; lra.
  intros y _. apply rtrapz_nonneg. apply linspace_sorted; lra. intros; apply gcell_nonneg; auto.
Qed.
Lemma trapezoid_ext : forall f g xs, (forall x, In x xs -> f x = g x) -> trapezoid f xs = trapezoid g xs.
Proof.
  induction xs as [|a xs IH]; intros H; auto. destruct xs as [|b xs]; auto. cbn [trapezoid] in *. rewrite IH by (intros; apply H; right; auto).
  rewrite (H a) by (left; auto). rewrite (H b) by (right; left; auto). auto.
Qed.
Lemma gquad_overlap : forall sx sy dist rp, 0 < sx -> 0 < sy ->
  gquad sx sy dist rp = overlap sx sy dist rp (linspace (-3 * sx) (3 * sx) 100).
Proof.
  intros. unfold gquad, overlap. rewrite rtrapz_trapezoid'. apply trapezoid_ext. intros y _. rewrite rtrapz_trapezoid'.
  apply trapezoid_ext. intros x _. unfold gcell, bell, Rltb.
  replace ((x - dist) * (x - dist) + y * y) with ((x - dist)^2 + y^2) by ring. destruct (Rlt_dec _ _); auto.
  replace (- (1 / 2) * (x / sx * (x / sx)) - 1 / 2 * (y / sy * (y / sy))) with (- ((x / sx)^2 + (y / sy)^2) / 2) by (field; lra).
  unfold Rdiv. ring.
Qed.
Lemma trapezoid_le : forall f g xs, (forall i, (S i < length xs)%nat -> nth i xs 0 <= nth (S i) xs 0) ->
  (forall x, In x xs -> f x <= g x) -> trapezoid f xs <= trapezoid g xs.
Proof. intros. rewrite <- !rtrapz_trapezoid'. apply rtrapz_le; auto. Qed.
(** without the planet's edge the rule factorises *)
Lemma gquad_le_1 : forall sx sy dist rp, 0 < sx -> sx <= sy -> gquad sx sy dist rp <= 1.
Proof.
  intros sx sy dist rp Hx Hy. rewrite gquad_overlap by lra. unfold overlap. pose proof PI_RGT_0.
  set (xs := linspace (-3 * sx) (3 * sx) 100).
  assert (Srt : forall i, (S i < length xs)%nat -> nth i xs 0 <= nth (S i) xs 0) by (apply linspace_sorted; lra).
  assert (Den : 0 < 2 * PI * sx * sy) by (apply Rmult_lt_0_compat; [apply Rmult_lt_0_compat|]; lra).
  apply Rle_trans with (trapezoid (fun y => trapezoid (fun x => bell sx sy x y) xs) xs).
  { apply trapezoid_le; auto. intros y _. apply trapezoid_le; auto. intros x _. destruct (Rlt_dec _ _). lra.
    unfold bell. apply Rlt_le, Rdiv_lt_0_compat; auto. apply exp_pos. }
  set (T1 := trapezoid gs (linspace (-3 * 1) (3 * 1) 100)). set (k := sx / sy). set (Tk := trapezoid gs (linspace (-3 * k) (3 * k) 100)).
  assert (Hk : 0 <= k <= 1).
  { unfold k. split. apply Rlt_le, Rdiv_lt_0_compat; lra. apply Rmult_le_reg_r with sy. lra. unfold Rdiv. rewrite Rmult_assoc, Rinv_l; lra. }
  assert (E1 : trapezoid (fun x => gs (x / sx)) xs = sx * T1).
  { unfold xs, T1. replace (-3 * sx) with (sx * (-3 * 1)) by ring. replace (3 * sx) with (sx * (3 * 1)) by ring.
    rewrite linspace_scale, trapezoid_scale. f_equal. apply trapezoid_ext. intros. f_equal. field. lra. }
  assert (E2 : trapezoid (fun y => gs (y / sy)) xs = sy * Tk).
  { unfold xs, Tk. replace (-3 * sx) with (sy * (-3 * k)) by (unfold k; field; lra). replace (3 * sx) with (sy * (3 * k)) by (unfold k; field; lra).
    rewrite linspace_scale, trapezoid_scale. f_equal. apply trapezoid_ext. intros. f_equal. field. lra. }
  assert (E : trapezoid (fun y => trapezoid (fun x => bell sx sy x y) xs) xs = T1 * Tk / (2 * PI)).
  { rewrite (trapezoid_ext _ (fun y => (sx * T1 / (2 * PI * sx * sy)) * gs (y / sy))).
    2:{ intros y _. rewrite (trapezoid_ext_scale (fun x => bell sx sy x y) (fun x => gs (x / sx)) (gs (y / sy) / (2 * PI * sx * sy))).
        - rewrite E1. field. lra.
        - intros x. unfold bell, gs. replace (- ((x / sx)^2 + (y / sy)^2) / 2) with (- ((x / sx)^2 / 2) + - ((y / sy)^2 / 2)) by (field; lra).
          rewrite exp_plus. field. lra. }
    rewrite (trapezoid_ext_scale _ (fun y => gs (y / sy)) (sx * T1 / (2 * PI * sx * sy))) by auto. rewrite E2. field. lra. }
  rewrite E. destruct (trap_gs_le 1 ltac:(lra)) as [A1 B1]. destruct (trap_gs_le k Hk) as [Ak Bk]. fold T1 in A1, B1. fold Tk in Ak, Bk.
  apply Rmult_le_reg_r with (2 * PI). lra. unfold Rdiv. rewrite Rmult_assoc, Rinv_l by lra.
  pose proof (pow2_ge_0 (T1 - Tk)). nra.
Qed.
(** zero width, planet edge exactly through the pixel's centre *)
Lemma ntrapz_const0 : forall (l : list nat), ntrapz (map (fun _ => Fin 0) l) (map (fun _ => Fin 0) l) = Fin 0.
Proof.
  induction l; auto. destruct l; auto. cbn [map ntrapz] in *. rewrite IHl.
  rewrite nsub_fin, nadd_fin, nmul_fin, ndiv_fin, nadd_fin by lra. f_equal. lra.
Qed.
Lemma gauss_overlap_0 : forall sy d, 0 <= d -> gauss_overlap (Fin 0) sy (Fin d) (Fin d) = Fin 0.
Proof.
  intros. unfold gauss_overlap. rewrite !nmul_fin. rewrite nlinspace_fin by lia.
  assert (L : map Fin (linspace (-3 * 0) (3 * 0) 100) = map (fun _ : nat => Fin 0) (seq 0 100)).
  { unfold linspace. rewrite map_map. apply map_ext. intros. f_equal. unfold Rdiv. ring. }
  rewrite L. rewrite !map_map. cbv zeta.
  assert (Z : nlt (nsqrt (nadd (nsq (nsub (Fin 0) (Fin d))) (nsq (Fin 0)))) (Fin d) = false).
  { rewrite nsub_fin, !nsq_fin, nadd_fin. replace ((0 - d) * (0 - d) + 0 * 0) with (d^2) by ring.
    rewrite nsqrt_fin by (apply pow2_ge_0). rewrite sqrt_pow2 by auto. apply nlt_fin_false. lra. }
  rewrite Z. rewrite ntrapz_const0. apply ntrapz_const0.
Qed.

(** the value at one pixel *)
Definition px_cov (lat0 lon0 px py rp : R) (p : R * R) (ar : R) (c : R) : Prop :=
  0 <= c <= 1
  /\ (cos_sep lat0 lon0 (fst p) (snd p) < 0 -> c = 0)
  /\ (forall x y, proj_ortho lat0 lon0 p = (Fin x, Fin y) ->
        let sigma := 2 * sqrt ar * cos_sep lat0 lon0 (fst p) (snd p) in
        let dist := sqrt ((x - px)^2 + (y - py)^2) in
        (rp + 2 * sigma < dist -> c = 0) /\ (dist + 2 * sigma < rp -> c = 1)
        /\ (dist <= rp + 2 * sigma -> rp <= dist + 2 * sigma ->
              (sigma = 0 -> c = 0)
              /\ (0 < sigma -> c = overlap sigma (2 * sqrt ar) dist rp (linspace (-3 * sigma) (3 * sigma) 100)))).
Lemma pixel_covered_spec : forall lat0 lon0 px py rp p ar, - PI/2 <= lat0 <= PI/2 -> - PI/2 <= fst p <= PI/2 -> 0 <= ar ->
  exists c, pixel_covered lat0 lon0 (Fin px) (Fin py) (Fin rp) p (Fin ar) = Fin c /\ px_cov lat0 lon0 px py rp p ar c.
Proof.
  intros lat0 lon0 px py rp [lat lon] ar H0 H1 Ha. cbn [fst snd] in *.
  destruct (C08_lemma lat0 lon0 lat lon H0 H1) as [HN HV].
  unfold pixel_covered, px_cov. cbn [fst snd]. rewrite (law_cos_dot lat0 lon0 lat lon).
  set (mu := cos_sep lat0 lon0 lat lon) in *.
  destruct (Rlt_le_dec mu 0) as [N|V].
  - rewrite HN by auto. cbn [nsub]. cbn [nsq nmul nadd nsqrt nisnan]. rewrite orb_true_r.
    exists 0. split; auto. split. lra. split; auto. intros x y E. discriminate.
  - destruct HV as [x [y [E [_ [_ _]]]]]; auto. rewrite E.
    assert (M1 : mu <= 1). { unfold mu. rewrite <- law_cos_dot. apply law_cos_bound. }
    rewrite nsqrt_fin by auto. rewrite !nsub_fin, !nsq_fin, !nmul_fin, !nadd_fin.
    replace ((x - px) * (x - px) + (y - py) * (y - py)) with ((x - px)^2 + (y - py)^2) by ring.
    assert (0 <= (x - px)^2 + (y - py)^2) by (pose proof (pow2_ge_0 (x - px)); pose proof (pow2_ge_0 (y - py)); lra).
    rewrite nsqrt_fin by auto. set (D := sqrt ((x - px)^2 + (y - py)^2)). assert (0 <= D) by apply sqrt_pos.
    rewrite !nadd_fin. unfold ngt. cbn [nlt nisnan]. rewrite orb_false_r.
    pose proof (sqrt_pos ar). assert (0 <= 2 * sqrt ar * mu) by (apply Rmult_le_pos; lra).
    set (sg := 2 * sqrt ar * mu) in *.
    assert (Spec : forall c, 0 <= c <= 1 -> (rp + 2 * sg < D -> c = 0) -> (D + 2 * sg < rp -> c = 1) ->
       (D <= rp + 2 * sg -> rp <= D + 2 * sg -> (sg = 0 -> c = 0)
          /\ (0 < sg -> c = overlap sg (2 * sqrt ar) D rp (linspace (-3 * sg) (3 * sg) 100))) ->
       0 <= c <= 1 /\ (mu < 0 -> c = 0) /\
        (forall x0 y0, (Fin x, Fin y) = (Fin x0, Fin y0) ->
          let dist := sqrt ((x0 - px)^2 + (y0 - py)^2) in
          (rp + 2 * sg < dist -> c = 0) /\ (dist + 2 * sg < rp -> c = 1)
          /\ (dist <= rp + 2 * sg -> rp <= dist + 2 * sg -> (sg = 0 -> c = 0)
            /\ (0 < sg -> c = overlap sg (2 * sqrt ar) dist rp (linspace (-3 * sg) (3 * sg) 100))))).
    { intros c C1 C2 C3 C4. split; auto. split. intros; lra. intros x0 y0 Q.
      assert (x = x0) by congruence. assert (y = y0) by congruence. subst x0 y0. cbv zeta. fold D. auto. }
    cbv zeta. destruct (Rltb (rp + 2 * sg) D) eqn:E1; rb.
    + exists 0. split; auto. apply Spec; auto; try lra.
    + destruct (Rltb (D + 2 * sg) rp) eqn:E2; rb.
      * exists 1. split; auto. apply Spec; auto; try lra.
      * destruct (Rle_lt_or_eq_dec 0 sg) as [P|P]; auto.
        -- assert (0 < 2 * sqrt ar). { unfold sg in P. destruct (Req_dec (sqrt ar) 0) as [Z|Z]; [rewrite Z in P; lra|lra]. }
           rewrite gauss_overlap_eq by auto. eexists. split. reflexivity.
           apply Spec; [|intros; lra|intros; lra|].
           ++ split. apply gquad_nonneg; auto. apply gquad_le_1; auto. unfold sg. nra.
           ++ intros _ _. split. intros; lra. intros _. apply gquad_overlap; auto.
        -- assert (GO : gauss_overlap (Fin sg) (Fin (2 * sqrt ar)) (Fin D) (Fin rp) = Fin 0).
           { rewrite <- P. replace rp with D by lra. apply gauss_overlap_0; auto. }
           exists 0. split; [exact GO|]. apply Spec; [lra|auto|intros; lra|]. intros _ _. split; auto. intros; lra.
Qed.
Lemma existsb_false : forall A (h : A -> bool) l, (forall x, In x l -> h x = false) -> existsb h l = false.
Proof. induction l; simpl; intros; auto. rewrite H by auto. apply IHl; auto. Qed.
Definition covr (x : num) : R := match x with Fin r => r | _ => 0 end.
Lemma transit_cover : forall s lat0 lon0 px py rp, good_grid (st_grid s) -> - PI/2 <= lat0 <= PI/2 ->
  forall p, In p (cells (grid_points (st_grid s))) ->
  exists c, pixel_covered lat0 lon0 (Fin px) (Fin py) (Fin rp) p (Fin (rarea_at (st_grid s) p)) = Fin c
    /\ px_cov lat0 lon0 px py rp p (rarea_at (st_grid s) p) c.
Proof.
  intros. destruct (pixel_covered_spec lat0 lon0 px py rp p (rarea_at (st_grid s) p)) as [c [A B]]; auto.
  apply (cell_lat_range (st_grid s)); auto. apply rarea_nonneg; auto. eauto.
Qed.
(** every mask that is returned, in per-pixel form *)
Lemma transit_mask_form : forall s lat0 lon0 orbit planet phase incl m f, good_grid (st_grid s) -> - PI/2 <= lat0 <= PI/2 ->
  0 < st_radius s ->
  get_transit_mask s lat0 lon0 orbit planet phase incl = Ok (m, f) ->
  exists C, m = amap (fun p => Fin (C p)) (grid_points (st_grid s))
    /\ forall p, In p (cells (grid_points (st_grid s))) -> 0 <= C p <= 1.
Proof.
  intros s lat0 lon0 orbit planet phase incl m f G L HR H. unfold get_transit_mask in H. rewrite planet_xy_eq in H by auto.
  rewrite ndiv_fin in H by lra. cbv zeta in H.
  assert (Z : forall v, Ok (grid_zeros (st_grid s), v) = Ok (m, f) -> exists C, m = amap (fun p => Fin (C p)) (grid_points (st_grid s))
    /\ forall p, In p (cells (grid_points (st_grid s))) -> 0 <= C p <= 1).
  { intros v E. injection E as <- <-. exists (fun _ => 0). split. apply grid_zeros_eq. intros; lra. }
  destruct (ngt _ _); [eauto|]. destruct (Rltb 0 (cos phase)).
  - apply bind_ok in H. destruct H as [v [_ H]]. eauto.
  - rewrite grid_area_good in H by auto. cbn [bind] in H. rewrite amap2_amap_r in H. cbn [bind] in H.
    destruct (existsb _ _); [discriminate|]. injection H as <- <-.
    exists (fun p => covr (pixel_covered lat0 lon0 (Fin (orbit / st_radius s * - sin phase))
         (Fin (orbit / st_radius s * - cos phase * cos incl)) (Fin (planet / st_radius s)) p (Fin (rarea_at (st_grid s) p)))).
    split.
    + apply amap_ext_in. intros p I. destruct (transit_cover s lat0 lon0 (orbit / st_radius s * - sin phase)
        (orbit / st_radius s * - cos phase * cos incl) (planet / st_radius s) G L p I) as [c [-> _]]. auto.
    + intros p I. destruct (transit_cover s lat0 lon0 (orbit / st_radius s * - sin phase)
        (orbit / st_radius s * - cos phase * cos incl) (planet / st_radius s) G L p I) as [c [-> [B _]]]. auto.
Qed.
Lemma C58_lemma : forall s lat0 lon0 orbit planet phase incl A,
  good_grid (st_grid s) -> - PI/2 <= lat0 <= PI/2 -> 0 < st_radius s -> 0 <= orbit -> 0 <= planet ->
  let rp := planet / st_radius s in
  (* position of the planet on the sky, in stellar radii *)
  let px := - (orbit / st_radius s * sin phase) in
  let py := - (orbit / st_radius s * cos phase * cos incl) in
  sqrt (px^2 + py^2) <= 1 + 2 * rp -> cos phase <= 0 ->
  grid_area (st_grid s) = Ok A ->
  exists m, get_transit_mask s lat0 lon0 orbit planet phase incl = Ok (m, Fin 1)
    /\ grid_shaped (st_grid s) m
    /\ forall j i, pixel (st_grid s) j i -> exists c area,
         acell m j i NaN = Fin c /\ acell A j i NaN = Fin area
         /\ 0 <= c <= 1
         /\ (pix_mu s lat0 lon0 j i < 0 -> c = 0)
         /\ (forall x y, proj_ortho lat0 lon0 (pix_lat (st_grid s) j i, pix_lon (st_grid s) j i) = (Fin x, Fin y) ->
               let sigma := 2 * sqrt area * pix_mu s lat0 lon0 j i in
               let dist := sqrt ((x - px)^2 + (y - py)^2) in
               (rp + 2 * sigma < dist -> c = 0) /\ (dist + 2 * sigma < rp -> c = 1)
               /\ (dist <= rp + 2 * sigma -> rp <= dist + 2 * sigma ->
                     (sigma = 0 -> c = 0)
                     /\ (0 < sigma -> exists xs, length xs = 100%nat
                          /\ (forall k, (k < 100)%nat -> nth k xs 0 = sigma * (-3 + INR k * (6/99)))
                          /\ c = overlap sigma (2 * sqrt area) dist rp xs))).
Proof.
  intros s lat0 lon0 orbit planet phase incl A G L HR HO HP rp px py Hd Hc HA.
  rewrite grid_area_good in HA by auto. injection HA as <-.
  set (C := fun p => covr (pixel_covered lat0 lon0 (Fin px) (Fin py) (Fin rp) p (Fin (rarea_at (st_grid s) p)))).
  assert (E : get_transit_mask s lat0 lon0 orbit planet phase incl = Ok (amap (fun p => Fin (C p)) (grid_points (st_grid s)), Fin 1)).
  { unfold get_transit_mask. rewrite planet_xy_eq by auto.
    replace (orbit / st_radius s * - sin phase) with px by (unfold px; ring).
    replace (orbit / st_radius s * - cos phase * cos incl) with py by (unfold py; ring).
    rewrite ndiv_fin by lra. fold rp. cbv zeta. rewrite !nsq_fin, nmul_fin, !nadd_fin.
    replace (px * px + py * py) with (px^2 + py^2) by ring.
    rewrite nsqrt_fin by (pose proof (pow2_ge_0 px); pose proof (pow2_ge_0 py); lra).
    unfold ngt. cbn [nlt]. rewrite (proj2 (Rltb_false _ _)) by auto. rewrite (proj2 (Rltb_false 0 _)) by auto.
    rewrite grid_area_good by auto. cbn [bind]. rewrite amap2_amap_r. cbn [bind].
    rewrite (amap_ext_in _ _ _ (fun p => Fin (C p))).
    - rewrite existsb_false; auto. intros x I. rewrite cells_amap in I. apply in_map_iff in I. destruct I as [p [<- _]]. auto.
    - intros p I. unfold C. destruct (transit_cover s lat0 lon0 px py rp G L p I) as [c [-> _]]. auto. }
  exists (amap (fun p => Fin (C p)) (grid_points (st_grid s))). split; auto. split. apply grid_shaped_amap.
  intros j i P. rewrite !acell_grid by auto. fold (pt (st_grid s) (j, i)). change (acell (grid_points (st_grid s)) j i (0, 0)) with (pt (st_grid s) (j, i)).
  destruct (transit_cover s lat0 lon0 px py rp G L (pt (st_grid s) (j, i)) (pixel_cell _ _ _ P)) as [c [Ec [C1 [C2 C3]]]].
  exists (C (pt (st_grid s) (j, i))), (rarea_at (st_grid s) (pt (st_grid s) (j, i))). split; auto. split; auto.
  assert (EC : C (pt (st_grid s) (j, i)) = c) by (unfold C; rewrite Ec; auto). rewrite EC.
  split; auto. split; auto. intros x y Q. destruct (C3 x y) as [D1 [D2 D3]].
  { rewrite <- Q. unfold pix_lat, pix_lon, pt. cbn [fst snd]. destruct (acell (grid_points (st_grid s)) j i (0, 0)); auto. }
  split; auto. split; auto. intros H1 H2. destruct (D3 H1 H2) as [D4 D5]. split; auto. intros HS.
  eexists. split; [|split; [|exact (D5 HS)]]. apply linspace_length.
  intros k Hk. unfold linspace. rewrite nth_map_seq by auto. change (100 - 1)%nat with 99%nat.
  replace (INR 99) with 99 by (rewrite INR_IZR_INZ; reflexivity).
  change (pix_mu s lat0 lon0 j i) with (cos_sep lat0 lon0 (fst (pt (st_grid s) (j, i))) (snd (pt (st_grid s) (j, i)))). field.
Qed.
