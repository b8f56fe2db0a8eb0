(** Properties C32 (drawing), C49-C60: the star as a whole *)
From Coq Require Import Reals ZArith Bool String List Lra Lia Permutation Sorted.
From Coquelicot Require Import Coquelicot.
From Verif Require Import Num Py MConfig MHelpers MGrid MSpots MFaculae MXoflares MFlares MGranules MStar
  Spec SpecStar SpecDisk LBase LGrid LHelpers LCirc LSpotMap LSpotCov LFac LDisk LStar LStarFac LTransit LStarCov.
Import ListNotations.
Open Scope R_scope.

(** ** Example stars: a spiral grid of [n] points, faculae [l], spots [sp]; the first grid
    point of the 2-point grid is at latitude 30 degrees, longitude 0 *)
Definition ex_star (n : nat) (sp : list spot) (l : list facula) (T D : R) : star :=
  match star_init (Fin T) 1 30 (mkSpotColl sp (Spiral 100)) (mkFacColl l (Spiral 100))
    (PyInt n) None None None (Some (gran_init (Fin (1/5)) (Fin (1/100)) (Fin 5) (Fin D))) 0 0 with
  | Ok s => s
  | Raise _ => {| st_teff := NaN; st_radius := 0; st_period := 0; st_spots := mkSpotColl [] (Spiral 0);
       st_facs := mkFacColl [] (Spiral 0); st_grid := Spiral 0; st_flaregen := lg_off; st_flares := None;
       st_spotgen := sg_off (Spiral 0); st_facgen := fg_off (Spiral 0); st_gran := gran_off; st_u1 := 0; st_u2 := 0 |}
  end.
Definition ex_facula (n : nat) (wall : R) : facula :=
  {| fc_lat := spiral_lat n 0; fc_lon := 0; fc_rmax := Fin 1000; fc_radius := Fin 1000; fc_depth := Fin 100; fc_life := Fin 6;
     fc_fslope := Fin 0; fc_fminrad := Fin 20; fc_fbase := Fin (-100); fc_wslope := Fin 0; fc_wint := Fin wall;
     fc_growing := false; fc_grid := Spiral 5 |}.
Lemma ex_init : forall n sp l T D, star_init (Fin T) 1 30 (mkSpotColl sp (Spiral 100)) (mkFacColl l (Spiral 100))
    (PyInt n) None None None (Some (gran_init (Fin (1/5)) (Fin (1/100)) (Fin 5) (Fin D))) 0 0 = Ok (ex_star n sp l T D).
Proof. reflexivity. Qed.
Lemma ex_unified : forall n sp l T D, star_unified (ex_star n sp l T D).
Proof. intros. apply (star_init_unified _ _ _ _ _ _ _ _ _ _ _ _ _ (ex_init n sp l T D)). Qed.
Lemma ex_pixel : forall n j i, pixel (Spiral n) j i <-> j = 0%nat /\ (i < n)%nat.
Proof. intros. rewrite pixel_iff. unfold g_rows, g_cols. lia. Qed.
Lemma ex_lon0 : spiral_lon 0 = 0.
Proof.
  unfold spiral_lon, rmod. replace (2 * PI * INR 0 / GOLDEN_RATIO) with 0 by (simpl; unfold Rdiv; ring).
  replace (0 / (2 * PI)) with (IZR 0) by (unfold Rdiv; ring). rewrite Int_part_IZR. ring.
Qed.
Lemma ex_pt : forall n i, (i < n)%nat -> pix_lat (Spiral n) 0 i = spiral_lat n i /\ pix_lon (Spiral n) 0 i = spiral_lon i.
Proof. intros. unfold pix_lat, pix_lon. rewrite spiral_point_cell by auto. auto. Qed.
Lemma cos_sep_self : forall a b, cos_sep a b a b = 1.
Proof.
  intros. unfold cos_sep, vec, dot. pose proof (sin2_cos2 a). pose proof (sin2_cos2 b). unfold Rsqr in *.
  replace (cos a * cos b * (cos a * cos b) + cos a * sin b * (cos a * sin b) + sin a * sin a)
    with (cos a * cos a * (sin b * sin b + cos b * cos b) + sin a * sin a) by ring. rewrite H0. lra.
Qed.
Lemma ex_far : cos_sep (spiral_lat 2 0) 0 (spiral_lat 2 1) (spiral_lon 1) <= 1/2.
Proof.
  rewrite <- law_cos_dot. unfold law_cos. assert (E : spiral_lat 2 1 = - spiral_lat 2 0) by (apply (spiral_lat_sym 2 0); lia).
  assert (S0 := spiral_sin_lat 2 0 ltac:(lia)). assert (S1 : sin (spiral_lat 2 0) = 1/2) by (rewrite S0; simpl; field).
  rewrite E, sin_neg, cos_neg, S1. pose proof (sin2_cos2 (spiral_lat 2 0)) as Q. unfold Rsqr in Q. rewrite S1 in Q.
  assert (C2 : cos (spiral_lat 2 0) * cos (spiral_lat 2 0) = 3/4) by lra. rewrite C2.
  match goal with |- context [cos ?x] => pose proof (COS_bound x) end. lra.
Qed.
Lemma ex_covers0 : forall n sp l T D w, (1 <= n)%nat -> fac_covers (ex_star n sp l T D) (fac_assign_grid (ex_facula n w) (Spiral n)) 0 0.
Proof.
  intros. exists 0, 1000. cbn [fc_lat fc_lon fac_assign_grid ex_facula fc_radius]. destruct (ex_pt n 0) as [E1 E2]; [lia|].
  split; [|split; auto]. split. pose proof PI_RGT_0; lra.
  change (st_grid (ex_star n sp l T D)) with (Spiral n). rewrite E1, E2, ex_lon0, cos_sep_self. apply cos_0.
  change (st_radius (ex_star n sp l T D)) with 1. unfold SUN_KM. rewrite Rmult_1_l. lra.
Qed.
Lemma cos_small : forall a, 0 <= a <= 1 -> 1/2 < cos a.
Proof.
  intros. assert (3 < PI) by (pose proof PI2_3_2; lra). rewrite <- cos_PI3. apply cos_decreasing_1; lra.
Qed.
Lemma ex_covers1 : forall sp l T D w, ~ fac_covers (ex_star 2 sp l T D) (fac_assign_grid (ex_facula 2 w) (Spiral 2)) 0 1.
Proof.
  intros sp l T D w [a [r [[A1 A2] [B C]]]]. cbn [fc_lat fc_lon fac_assign_grid ex_facula fc_radius] in *.
  injection B as <-. change (st_grid (ex_star 2 sp l T D)) with (Spiral 2) in *. change (st_radius (ex_star 2 sp l T D)) with 1 in *.
  destruct (ex_pt 2 1) as [E1 E2]; [lia|]. rewrite E1, E2 in A2. pose proof ex_far. unfold SUN_KM in C. rewrite Rmult_1_l in C.
  assert (1/2 < cos a) by (apply cos_small; lra). lra.
Qed.
(** observer above the first grid point *)
Definition ex_lat (n : nat) : R := spiral_lat n 0.
Lemma ex_lat_range : forall n, (1 <= n)%nat -> - PI/2 <= ex_lat n <= PI/2.
Proof. intros. unfold ex_lat. pose proof (spiral_lat_range n 0 ltac:(lia)). lra. Qed.
Lemma ex_facs : forall n sp w T D, fcc_facs (st_facs (ex_star n sp [ex_facula n w] T D)) = [] ++ fac_assign_grid (ex_facula n w) (Spiral n) :: [].
Proof. reflexivity. Qed.
Lemma ex_fac_fin : forall n sp w T D f, In f (fcc_facs (st_facs (ex_star n sp [ex_facula n w] T D))) -> is_fin (fc_radius f).
Proof. intros. rewrite ex_facs in H. destruct H as [<-|[]]. eexists; reflexivity. Qed.
Lemma ex_rounds : round_teff (Fin (wall_diff 1000 0 150)) = Ok 150%Z /\ round_teff (Fin (floor_diff 1000 0 20 (-100))) = Ok (-100)%Z.
Proof.
  unfold wall_diff, floor_diff. cbn [round_teff]. split; f_equal.
  replace (150 + 0 * 1000) with 150 by ring. apply (rhe_IZR 150).
  replace (-100 + 0 * (1000 - 20)) with (-100) by ring. apply (rhe_IZR (-100)).
Qed.
Lemma ex_map : forall n sp T D, exists M, add_faculae_to_map (ex_star n sp [ex_facula n 150] T D) (ex_lat n) 0 = Ok M.
Proof.
  intros. apply C54_total_lemma. apply ex_unified. intros f I. rewrite ex_facs in I. destruct I as [<-|[]].
  destruct ex_rounds as [R1 R2]. exists 1000, 100, 0, 20, (-100), 0, 150, 150%Z, (-100)%Z. split. repeat split.
  split. lra. split. lra. split; auto. split; auto. split. discriminate.
  cbn [fc_lat fc_lon fac_assign_grid ex_facula]. unfold ex_lat. rewrite cos_sep_self. lra.
Qed.
Lemma ex_map0 : forall n T D j i, pixel (Spiral n) j i -> exists M0, star_map (ex_star n [] [ex_facula n 150] T D) = Ok M0 /\ acell M0 j i NaN = Fin T.
Proof.
  intros. eexists. split. apply star_map_eq. apply ex_unified. change (st_grid (ex_star n [] [ex_facula n 150] T D)) with (Spiral n).
  rewrite acell_grid by auto. reflexivity.
Qed.
(** the first pixel shows the facula, the second the photosphere *)
Lemma ex_temps : forall n D M, (1 <= n)%nat -> add_faculae_to_map (ex_star n [] [ex_facula n 150] 3300 D) (ex_lat n) 0 = Ok M ->
  (acell M 0 0 NaN = Fin 3450 \/ acell M 0 0 NaN = Fin 3200) /\ (n = 2%nat -> acell M 0 1 NaN = Fin 3300).
Proof.
  intros n D M Hn HM. assert (U := ex_unified n [] [ex_facula n 150] 3300 D).
  destruct (ex_map0 n 3300 D 0 0) as [M0 [HM0 _]]. apply ex_pixel; lia.
  destruct (C54_lemma _ _ _ _ _ U ltac:(simpl; lra) (ex_fac_fin n [] 150 3300 D) HM0 HM) as [_ [A B]]. split.
  - destruct (B [] _ [] (ex_facs _ _ _ _ _)) as [a [kw [kf [q [q' [b [_ [F [_ [G _]]]]]]]]]].
    { exists 0%nat, 0%nat. split. apply ex_pixel; lia. apply ex_covers0; auto. }
    destruct ex_rounds as [R1 R2].
    assert (K : kw = 150%Z /\ kf = (-100)%Z).
    { unfold fac_fractional_area, fac_effective_area in F. apply bind_ok in F. destruct F as [d [F1 F2]].
      destruct (neq _ _) in F1; [discriminate|]. apply bind_ok in F1. destruct F1 as [k1 [K1 F1]].
      change (fac_wall_dteff (fac_assign_grid (ex_facula n 150) (Spiral n))) with (Fin (0 * 1000 + 150)) in K1.
      replace (0 * 1000 + 150) with (wall_diff 1000 0 150) in K1 by (unfold wall_diff; ring). rewrite R1 in K1. injection K1 as <-.
      change (fc_radius (fac_assign_grid (ex_facula n 150) (Spiral n))) with (Fin 1000) in F1.
      change (fc_fminrad (fac_assign_grid (ex_facula n 150) (Spiral n))) with (Fin 20) in F1.
      rewrite (proj2 (nlt_fin_false 1000 20)) in F1 by lra. cbn zeta in F1. apply bind_ok in F1. destruct F1 as [c [_ F1]].
      change (fac_floor_dteff (fac_assign_grid (ex_facula n 150) (Spiral n))) with (Fin ((1000 + - 20) * 0 + -100)) in F1.
      replace ((1000 + - 20) * 0 + -100) with (floor_diff 1000 0 20 (-100)) in F1 by (unfold floor_diff; ring). rewrite R2 in F1. cbn [bind] in F1.
      injection F1 as <-. cbn [dset] in F2. change (Z.eqb (-100) 150) with false in F2. cbv iota in F2. cbn [map fst snd] in F2.
      injection F2 as E1 _ E2 _. auto. }
    destruct K as [-> ->].
    destruct (G 0%nat 0%nat) as [G1 G2]. apply ex_pixel; lia. apply ex_covers0; auto. intros f' [].
    change (st_teff (ex_star n [] [ex_facula n 150] 3300 D)) with (Fin 3300) in *.
    assert (CL : forall x, 2300 <= x <= 3900 -> clip_teff (Fin x) = Fin x).
    { intros x Hx. unfold clip_teff, ngt, TEFF_HI, TEFF_LO. rewrite (proj2 (nlt_fin_false 3900 x)), (proj2 (nlt_fin_false x 2300)) by lra. auto. }
    rewrite !nadd_fin, !CL in * by lra.
    destruct (Rle_lt_dec (pix_mu (ex_star n [] [ex_facula n 150] 3300 D) (ex_lat n) 0 0 0) b) as [L|L]; [left; rewrite (G1 L)|right; rewrite (G2 L)]; f_equal; lra.
  - intros ->. destruct (ex_map0 2 3300 D 0 1) as [M1 [HM1 E]]. apply ex_pixel; lia. assert (M1 = M0) by congruence. subst M1.
    rewrite A; auto. apply ex_pixel; lia. intros f I. rewrite ex_facs in I. destruct I as [<-|[]]. apply ex_covers1.
Qed.
Lemma ex_ld : forall n sp l T D, ld_nonneg (ex_star n sp l T D).
Proof. intros n sp l T D mu H. change (st_u1 (ex_star n sp l T D)) with 0. change (st_u2 (ex_star n sp l T D)) with 0. lra. Qed.
Lemma ex_disk : forall n sp l T D A, (1 <= n)%nat -> grid_area (Spiral n) = Ok A -> 0 < disk (ex_star n sp l T D) (ex_lat n) 0 A.
Proof.
  intros n sp l T D A Hn HA. rewrite grid_area_good in HA by auto. injection HA as <-. set (s := ex_star n sp l T D).
  unfold disk. rewrite (grid_sum_pt (st_grid s) (wgt s (ex_lat n) 0)).
  2:{ intros. apply seen_pt; auto. }
  apply (rsum_map_pos _ _ _ (pt (Spiral n) (0%nat, 0%nat))).
  - intros y I. apply wgt_nonneg; auto. apply ex_ld.
  - apply pt_In. apply ex_pixel. lia.
  - unfold wgt, pt, mup. cbn [fst snd]. rewrite spiral_point_cell by lia. cbn [fst snd]. rewrite law_cos_dot, ex_lon0.
    unfold ex_lat. rewrite cos_sep_self. unfold ld_plot, area_projection. rewrite (proj2 (Rltb_false 1 0)), (proj2 (Rltb_true 0 1)) by lra.
    change (st_u1 s) with 0. change (st_u2 s) with 0. cbn [rarea_at]. change (st_grid s) with (Spiral n).
    assert (0 < INR n) by (apply lt_0_INR; lia). unfold rarea_at. assert (0 < 1 / INR n) by (apply Rdiv_lt_0_compat; lra). lra.
Qed.
(** a planet of a tenth of the star's radius in mid-transit *)
Lemma ex_transit : forall n sp l T D, (1 <= n)%nat -> exists C, get_transit_mask (ex_star n sp l T D) (ex_lat n) 0 100 (1/10) PI (PI/2) = Ok (C, Fin 1).
Proof.
  intros n sp l T D Hn. set (s := ex_star n sp l T D).
  destruct (C58_lemma s (ex_lat n) 0 100 (1/10) PI (PI/2) (amap (fun p => Fin (rarea_at (Spiral n) p)) (grid_points (Spiral n))) Hn (ex_lat_range n Hn)) as [m [E _]]; eauto; try lra.
  - change (st_radius s) with 1. lra.
  - change (st_radius s) with 1. rewrite sin_PI, cos_PI2. replace (_ + _) with 0 by ring. rewrite sqrt_0. lra.
  - rewrite cos_PI; lra.
  - change (st_grid s) with (Spiral n). apply grid_area_good. auto.
Qed.
Lemma ex_view : forall n D, (1 <= n <= 2)%nat -> exists A M C, disk_view (ex_star n [] [ex_facula n 150] 3300 D) (ex_lat n) 0 100 (1/10) PI (PI/2) 3300 D A M C (Fin 1).
Proof.
  intros n D Hn. destruct (ex_map n [] 3300 D) as [M HM]. destruct (ex_transit n [] [ex_facula n 150] 3300 D) as [C HC]; [lia|].
  exists (amap (fun p => Fin (rarea_at (Spiral n) p)) (grid_points (Spiral n))), M, C.
  constructor; auto; try reflexivity.
  - apply ex_unified.
  - simpl. lia.
  - simpl. lra.
  - apply ex_lat_range; lia.
  - apply grid_area_good. simpl; lia.
  - intros j i P. apply ex_pixel in P. destruct P as [-> P]. destruct (ex_temps n D M) as [A B]; [lia|auto|].
    assert (i = 0 \/ i = 1)%nat as [-> | ->] by lia. destruct A as [-> | ->]; eexists; reflexivity.
    rewrite B by lia. eexists; reflexivity.
Qed.
Lemma gap_distinct : forall a b, 1/100 < Rabs (a - b) -> fmt2 (Fin a) <> fmt2 (Fin b).
Proof. intros a b H E. pose proof (label_gap _ _ E). lra. Qed.
Lemma ex_labels : forall D A M C, disk_view (ex_star 2 [] [ex_facula 2 150] 3300 D) (ex_lat 2) 0 100 (1/10) PI (PI/2) 3300 D A M C (Fin 1) ->
  D = 300 \/ D = 0 ->
  labels_distinct (ex_star 2 [] [ex_facula 2 150] 3300 D) M 3300 D /\ appears (Spiral 2) M 3300.
Proof.
  intros D A M C V HD. destruct (ex_temps 2 D M ltac:(lia)) as [E0 E1]. apply V. specialize (E1 eq_refl).
  split. 2:{ exists 0%nat, 1%nat. split; auto. apply ex_pixel; lia. }
  assert (K : forall t, listed (ex_star 2 [] [ex_facula 2 150] 3300 D) M 3300 D t -> t = 3450 \/ t = 3200 \/ t = 3300 \/ t = 3000).
  { intros t [[j [i [P E]]]| ->]. apply ex_pixel in P. destruct P as [-> P]. assert (i = 0 \/ i = 1)%nat as [-> | ->] by lia.
    destruct E0 as [X|X]; rewrite X in E; injection E as <-; auto. rewrite E1 in E; injection E as <-; auto.
    destruct HD as [-> | ->]; [right; right; right; lra|right; right; left; lra]. }
  intros t t' H H' E. apply label_gap, Rabs_le_inv in E. apply K in H. apply K in H'.
  destruct H as [->|[->|[->| ->]]], H' as [->|[->|[->| ->]]]; auto; lra.
Qed.

(** C32, second half: drawing a facula whose wall and floor round to the same difference *)
@THM C32_star C32_star_lemma
Example C32_star_nonvacuous : exists s f, fcc_facs (st_facs s) = [] ++ f :: [] /\ star_unified s /\ 0 < st_radius s
  /\ fac_thermal f 1000 100 0 20 (-100) 0 (-99.9) /\ cos_sep (ex_lat 2) 0 (fc_lat f) (fc_lon f) <> 0
  /\ round_teff (Fin (wall_diff 1000 0 (-99.9))) = Ok (-100)%Z /\ round_teff (Fin (floor_diff 1000 0 20 (-100))) = Ok (-100)%Z
  /\ (exists j i, pixel (st_grid s) j i /\ fac_covers s f j i).
Proof.
  exists (ex_star 2 [] [ex_facula 2 (-99.9)] 3300 0), (fac_assign_grid (ex_facula 2 (-99.9)) (Spiral 2)).
  split. reflexivity. split. apply ex_unified. split. simpl; lra. split. repeat split.
  split. cbn [fc_lat fc_lon fac_assign_grid ex_facula]. unfold ex_lat. rewrite cos_sep_self. lra.
  split. { unfold wall_diff. cbn [round_teff]. f_equal. replace (-99.9 + 0 * 1000) with (-99.9) by lra.
    assert (rhe (-100) <= rhe (-99.9) <= -100)%Z.
    { split. apply rhe_mono; lra. destruct (rhe_spec (-99.9)) as [H _].
      apply Rabs_le_inv in H. assert (IZR (rhe (-99.9)) < IZR (-99)) by lra. apply lt_IZR in H0. lia. }
    rewrite (rhe_IZR (-100)) in H. lia. }
  split. apply ex_rounds. exists 0%nat, 0%nat. split. apply ex_pixel; lia. apply ex_covers0; lia.
Qed.

(** C49: no hypotheses; the coefficients of the default star *)
@THM C49_limb_darkening C49_lemma
Example C49_nonvacuous : exists s, 0 <= st_u1 s /\ 0 <= st_u2 s /\ st_u1 s + st_u2 s <= 1 /\ star_unified s.
Proof. exists (ex_star 2 [] [] 3300 0). split. simpl; lra. split. simpl; lra. split. simpl; lra. apply ex_unified. Qed.

(** C50, C51, C53: a star with one facula, one quiet pixel and a planet in transit *)
@THM C50_sums_to_one C50_label_lemma
@THM C51_entries C51_label_lemma
@THM C53_granulation C53_label_lemma
Example C50_nonvacuous : exists label s A M C, two_decimals label /\
  disk_view s (ex_lat 2) 0 100 (1/10) PI (PI/2) 3300 300 A M C (Fin 1) /\ disk s (ex_lat 2) 0 A <> 0
  /\ distinct_labels label s M 3300 300 /\ appears (st_grid s) M 3300 /\ ld_nonneg s
  /\ (exists t, appears (st_grid s) M t /\ t <> 3300).
Proof.
  destruct (ex_view 2 300) as [A [M [C V]]]. lia. exists (fun t => fmt2 (Fin t)), (ex_star 2 [] [ex_facula 2 150] 3300 300), A, M, C.
  split. apply fmt2_two_decimals. split; auto.
  split. { pose proof (ex_disk 2 [] [ex_facula 2 150] 3300 300 A ltac:(lia)) as K. specialize (K ltac:(apply V)). lra. }
  destruct (ex_labels 300 A M C V) as [L1 L2]; auto. split; auto. split; auto. split. apply ex_ld.
  destruct (ex_temps 2 300 M ltac:(lia)) as [E0 _]. apply V.
  destruct E0 as [E0|E0]; eexists; (split; [exists 0%nat, 0%nat; split; [apply ex_pixel; lia|exact E0]|lra]).
Qed.

(** C52 *)
@THM C52_keyerror C52_keyerror_label_lemma
@THM C52_collision C52_collision_label_lemma
(** the only pixel is a facula: no photosphere *)
Example C52_keyerror_nonvacuous : exists label s A M C, two_decimals label /\
  disk_view s (ex_lat 1) 0 100 (1/10) PI (PI/2) 3300 300 A M C (Fin 1) /\ disk s (ex_lat 1) 0 A <> 0
  /\ (forall t, listed s M 3300 300 t -> label t <> label 3300)
  /\ forall f, calc_coverage s (ex_lat 1) 0 (Fin f) 100 (1/10) PI (PI/2) = Raise KeyError.
Proof.
  destruct (ex_view 1 300) as [A [M [C V]]]. lia. exists (fun t => fmt2 (Fin t)), (ex_star 1 [] [ex_facula 1 150] 3300 300), A, M, C.
  split. apply fmt2_two_decimals. split; auto.
  assert (N : disk (ex_star 1 [] [ex_facula 1 150] 3300 300) (ex_lat 1) 0 A <> 0).
  { pose proof (ex_disk 1 [] [ex_facula 1 150] 3300 300 A ltac:(lia)) as K. specialize (K ltac:(apply V)). lra. }
  split; auto. destruct (ex_temps 1 300 M ltac:(lia)) as [E0 _]. apply V.
  assert (L : forall t, listed (ex_star 1 [] [ex_facula 1 150] 3300 300) M 3300 300 t -> fmt2 (Fin t) <> fmt2 (Fin 3300)).
  { intros t [[j [i [P E]]]| ->]; apply gap_distinct.
    - apply ex_pixel in P. destruct P as [-> P]. replace i with 0%nat in E by lia.
      destruct E0 as [X|X]; rewrite X in E; injection E as <-; unfold Rabs; destruct (Rcase_abs _); lra.
    - unfold Rabs; destruct (Rcase_abs _); lra. }
  split; auto. intros f. eapply C52_keyerror_lemma; eauto.
Qed.
(** a spot 0.001 K cooler than the photosphere *)
Definition ex_spot2 : spot :=
  spot_init (spiral_lat 2 0) 0 (Fin 1000) (Fin 1000) (Fin (3299.999)) (Fin (3299.999)) (Fin 5) false (Fin (1/2)) (-1) (Fin 10) (Spiral 2).
Example C52_collision_nonvacuous : exists label s A M C, two_decimals label /\
  disk_view s (ex_lat 2) 0 100 (1/10) PI (PI/2) 3300 0 A M C (Fin 1) /\ disk s (ex_lat 2) 0 A <> 0 /\ ld_nonneg s
  /\ appears (st_grid s) M (3299.999) /\ appears (st_grid s) M 3300 /\ 3299.999 < 3300 /\ label (3299.999) = label 3300
  /\ 0 < share s (ex_lat 2) 0 A M (fun _ _ => 1) (3299.999)
  /\ (forall t, appears (st_grid s) M t -> t = 3299.999 \/ t = 3300)
  /\ forall f, exists tot cov, calc_coverage s (ex_lat 2) 0 (Fin f) 100 (1/10) PI (PI/2) = Ok (tot, cov, Fin 1) /\ dict_sum tot < 1.
Proof.
  set (s := ex_star 2 [ex_spot2] [] 3300 0).
  destruct (ex_transit 2 [ex_spot2] [] 3300 0 ltac:(lia)) as [C HC]. fold s in HC.
  set (A := amap (fun p => Fin (rarea_at (Spiral 2) p)) (grid_points (Spiral 2))).
  assert (U : star_unified s) by apply ex_unified.
  set (F := fun p => fold_left (pv 1 p) (sc_spots (st_spots s)) (Fin 3300)).
  assert (HM : add_faculae_to_map s (ex_lat 2) 0 = Ok (amap F (grid_points (Spiral 2)))).
  { unfold add_faculae_to_map. rewrite star_map_eq by auto. reflexivity. }
  destruct (C18_lemma ex_spot2 1 1000 eq_refl ltac:(lra)) as [H18 _].
  destruct H18 as [th [Hth [Rth [Cth _]]]]. pose proof PI_RGT_0; lra.
  assert (CT : cos th = 999/1000). { pose proof PI_RGT_0. assert (2 * PI * (1 - cos th - 1/1000) = 0) by lra. apply Rmult_integral in H0. lra. }
  assert (SP : sc_spots (st_spots s) = [ex_spot2]) by reflexivity.
  assert (FV : forall i b, (i < 2)%nat -> pen_b ex_spot2 1 (Fin (sep ex_spot2 (pt (Spiral 2) (0%nat, i)))) = b ->
     F (pt (Spiral 2) (0%nat, i)) = if b then Fin (3299.999) else Fin 3300).
  { intros i b Hi Hb. unfold F. rewrite SP. cbn [fold_left]. unfold pv. cbn zeta.
    change (sp_teff_umbra ex_spot2) with (Fin (3299.999)). change (sp_teff_pen ex_spot2) with (Fin (3299.999)).
    rewrite (proj2 (nlt_fin (3299.999) 3300)) by lra. rewrite !andb_true_r. unfold umb_b.
    change (sp_teff_umbra ex_spot2) with (Fin (3299.999)). change (sp_teff_pen ex_spot2) with (Fin (3299.999)).
    rewrite key_refl, Hb. destruct b; auto. }
  assert (F0 : F (pt (Spiral 2) (0%nat, 0%nat)) = Fin (3299.999)).
  { apply (FV 0%nat true); [lia|]. unfold pen_b. rewrite Hth. apply nlt_fin. unfold sep, pt. cbn [fst snd]. rewrite spiral_point_cell by lia. cbn [fst snd].
    rewrite law_cos_dot, ex_lon0. change (sp_lat ex_spot2) with (spiral_lat 2 0). change (sp_lon ex_spot2) with 0. rewrite cos_sep_self, acos_1.
    destruct (Rle_lt_or_eq_dec 0 th); try lra. subst th. rewrite cos_0 in CT. lra. }
  assert (F1 : F (pt (Spiral 2) (0%nat, 1%nat)) = Fin 3300).
  { apply (FV 1%nat false); [lia|]. unfold pen_b. rewrite Hth. apply nlt_fin_false. unfold sep, pt. cbn [fst snd]. rewrite spiral_point_cell by lia. cbn [fst snd].
    rewrite law_cos_dot. change (sp_lat ex_spot2) with (spiral_lat 2 0). change (sp_lon ex_spot2) with 0. pose proof ex_far as X.
    set (c := cos_sep (spiral_lat 2 0) 0 (spiral_lat 2 1) (spiral_lon 1)) in *.
    assert (B : -1 <= c <= 1) by (unfold c; rewrite <- law_cos_dot; apply law_cos_bound).
    destruct (Rle_lt_dec th (acos c)) as [|Y]; auto. exfalso. pose proof (acos_bound c).
    assert (cos th < cos (acos c)) by (apply cos_decreasing_1; lra). rewrite cos_acos in H0 by auto. lra. }
  assert (V : disk_view s (ex_lat 2) 0 100 (1/10) PI (PI/2) 3300 0 A (amap F (grid_points (Spiral 2))) C (Fin 1)).
  { constructor; auto; try reflexivity.
    - simpl. lia.
    - simpl. lra.
    - apply ex_lat_range; lia.
    - apply grid_area_good. simpl; lia.
    - intros j i P. change (st_grid s) with (Spiral 2) in P. rewrite acell_grid by auto. apply ex_pixel in P. destruct P as [-> P].
      change (acell (grid_points (Spiral 2)) 0 i (0, 0)) with (pt (Spiral 2) (0%nat, i)).
      assert (i = 0 \/ i = 1)%nat as [-> | ->] by lia. rewrite F0; eexists; reflexivity. rewrite F1; eexists; reflexivity. }
  assert (DP : 0 < disk s (ex_lat 2) 0 A). { apply ex_disk. lia. apply V. }
  assert (A1 : appears (st_grid s) (amap F (grid_points (Spiral 2))) (3299.999)).
  { exists 0%nat, 0%nat. split. apply ex_pixel; lia. rewrite acell_grid by (apply ex_pixel; lia). exact F0. }
  assert (A2 : appears (st_grid s) (amap F (grid_points (Spiral 2))) 3300).
  { exists 0%nat, 1%nat. split. apply ex_pixel; lia. rewrite acell_grid by (apply ex_pixel; lia). exact F1. }
  assert (LB : fmt2 (Fin (3299.999)) = fmt2 (Fin 3300)).
  { unfold fmt2. f_equal. replace (3300 * 100) with (IZR 330000) by lra. rewrite rhe_IZR.
    destruct (rhe_spec (3299.999 * 100)) as [H _]. apply Rabs_le_inv in H.
    assert (IZR 329999 < IZR (rhe (3299.999 * 100)) < IZR 330001) by lra. destruct H0 as [X Y]. apply lt_IZR in X, Y. lia. }
  assert (SH : 0 < share s (ex_lat 2) 0 A (amap F (grid_points (Spiral 2))) (fun _ _ => 1) (3299.999)).
  { unfold share. apply Rdiv_lt_0_compat; auto. rewrite grid_sum_idx. apply (rsum_map_pos _ _ _ (0%nat, 0%nat)).
    - intros [j i] I. apply idx_In in I. cbn [fst snd]. rewrite acell_grid by auto. destruct (F (acell (grid_points (Spiral 2)) j i (0, 0))) as [r| | |]; try lra. destruct (Req_EM_T r _); [|lra].
      unfold A. rewrite seen_pt by (auto; simpl; lia). rewrite Rmult_1_r. apply wgt_nonneg. simpl; lia. apply ex_ld. apply pt_In; auto.
    - apply idx_In. apply ex_pixel; lia.
    - cbn [fst snd]. rewrite acell_grid by (apply ex_pixel; lia). change (acell (grid_points (Spiral 2)) 0 0 (0, 0)) with (pt (Spiral 2) (0%nat, 0%nat)).
      rewrite F0. destruct (Req_EM_T _ _); [|lra]. unfold A. rewrite seen_pt by (try (simpl; lia); apply ex_pixel; lia).
      unfold wgt, pt, mup. cbn [fst snd]. change (st_grid s) with (Spiral 2). rewrite spiral_point_cell by lia. cbn [fst snd]. rewrite law_cos_dot, ex_lon0.
      unfold ex_lat. rewrite cos_sep_self. unfold ld_plot, area_projection. rewrite (proj2 (Rltb_false 1 0)), (proj2 (Rltb_true 0 1)) by lra.
      change (st_u1 s) with 0. change (st_u2 s) with 0. unfold rarea_at. simpl. lra. }
  exists (fun t => fmt2 (Fin t)), s, A, (amap F (grid_points (Spiral 2))), C. split. apply fmt2_two_decimals. split; auto. split. lra. split. apply ex_ld. split; auto. split; auto. split. lra. split; auto. split; auto. split.
  { intros t [j [i [P E]]]. rewrite acell_grid in E by auto. apply ex_pixel in P. destruct P as [-> P].
    change (acell (grid_points (Spiral 2)) 0 i (0, 0)) with (pt (Spiral 2) (0%nat, i)) in E. assert (i = 0 \/ i = 1)%nat as [-> | ->] by lia. rewrite F0 in E; injection E; auto. rewrite F1 in E; injection E; auto. }
  intros f. destruct (C52_keyerror_lemma _ _ _ _ _ _ _ _ _ _ _ _ _ f V ltac:(lra)) as [K _].
  destruct K as [tot [cov K]]. { exists 3300. split; auto. left; auto. }
  exists tot, cov. split; auto.
  destruct (C52_collision_lemma _ _ _ _ _ _ _ _ _ _ _ _ _ f _ _ _ _ _ V ltac:(lra) (ex_ld _ _ _ _ _) A1 A2 ltac:(lra) LB K) as [Q _]. lra.
Qed.

(** C54-C56: one facula over the first pixel *)
@THM C54_painting C54_lemma
@THM C54_defined C54_total_lemma
@THM C55_wall_pixels C55_lemma
@THM C56_clipped C56_lemma
Example C54_nonvacuous : exists s f M0 M, star_unified s /\ 0 < st_radius s
  /\ (forall f, In f (fcc_facs (st_facs s)) -> is_fin (fc_radius f))
  /\ star_map s = Ok M0 /\ add_faculae_to_map s (ex_lat 2) 0 = Ok M
  /\ fcc_facs (st_facs s) = [] ++ f :: [] /\ fac_covers s f 0 0 /\ ~ fac_covers s f 0 1
  /\ pixel (st_grid s) 0 0 /\ pixel (st_grid s) 0 1
  /\ lists_pixels (st_grid s) (fac_covers s f) [(0, 0)%nat].
Proof.
  destruct (ex_map 2 [] 3300 300) as [M HM]. destruct (ex_map0 2 3300 300 0 0) as [M0 [HM0 _]]. apply ex_pixel; lia.
  exists (ex_star 2 [] [ex_facula 2 150] 3300 300), (fac_assign_grid (ex_facula 2 150) (Spiral 2)), M0, M.
  split. apply ex_unified. split. simpl; lra. split. apply ex_fac_fin. split; auto. split; auto. split. reflexivity.
  split. apply ex_covers0; lia. split. apply ex_covers1. split. apply ex_pixel; lia. split. apply ex_pixel; lia.
  split. constructor; [intros []|constructor]. intros j i. split.
  - intros [E|[]]. injection E as <- <-. split. apply ex_pixel; lia. apply ex_covers0; lia.
  - intros [P C]. apply ex_pixel in P. destruct P as [-> P]. assert (i = 0 \/ i = 1)%nat as [-> | ->] by lia. left; auto.
    exfalso. revert C. apply ex_covers1.
Qed.

(** C57: a planet ahead of the star, half hidden behind it, hidden, or larger than the star *)
@THM C57_transit_eclipse C57_lemma
Example C57_nonvacuous : 0 < st_radius (ex_star 2 [] [] 3300 0) /\ 1 + 2 * (1/10 / 1) < 2 /\ 0 < cos 0 /\ cos PI <= 0 /\ 1/10 / 1 <= 1.
Proof. rewrite cos_0, cos_PI. simpl. lra. Qed.

(** C58: mid-transit over the example star *)
@THM C58_transit_mask C58_lemma
Example C58_nonvacuous : exists s A, good_grid (st_grid s) /\ - PI/2 <= ex_lat 2 <= PI/2 /\ 0 < st_radius s
  /\ grid_area (st_grid s) = Ok A /\ cos PI <= 0
  /\ sqrt ((- (100 / st_radius s * sin PI))^2 + (- (100 / st_radius s * cos PI * cos (PI/2)))^2) <= 1 + 2 * ((1/10) / st_radius s).
Proof.
  exists (ex_star 2 [] [ex_facula 2 150] 3300 300). eexists. split. simpl; lia. split. apply ex_lat_range; lia. split. simpl; lra.
  split. apply grid_area_good; simpl; lia. split. rewrite cos_PI; lra.
  change (st_radius (ex_star 2 [] [ex_facula 2 150] 3300 300)) with 1. rewrite sin_PI, cos_PI2. replace (_ + _) with 0 by ring. rewrite sqrt_0. lra.
Qed.

(** C59: a history that ages the example star and adds a facula and a spot *)
@THM C59_unified_grids C59_lemma
Example C59_nonvacuous : exists s s', star_init (Fin 3300) 1 30 (mkSpotColl [ex_spot2] (Spiral 100)) (mkFacColl [ex_facula 2 150] (Spiral 100))
    (PyInt 2) None None None (Some (gran_init (Fin (1/5)) (Fin (1/100)) (Fin 5) (Fin 300))) 0 0 = Ok s
  /\ star_steps s s' /\ length (fcc_facs (st_facs s')) = 2%nat /\ length (sc_spots (st_spots s')) = 2%nat.
Proof.
  exists (ex_star 2 [ex_spot2] [ex_facula 2 150] 3300 300). eexists. split. reflexivity. split.
  - eapply steps_more. eapply (step_add_fac _ [fac_assign_grid (ex_facula 2 100) (Spiral 2)]). reflexivity.
    eapply steps_more. apply (step_add_spot _ [ex_spot2]). intros x [<-|[]]. apply spot_on_iff. reflexivity.
    apply steps_none.
  - split; reflexivity.
Qed.

(** C60 *)
@THM C60_average_teff C60_lemma
Example C60_nonvacuous : exists s r, calc_coverage s (ex_lat 2) 0 (Fin 0) AU_RSUN REARTH_RSUN (PI/2) 0 = Ok r.
Proof.
  set (s := ex_star 2 [] [ex_facula 2 150] 3300 300).
  destruct (ex_view 2 300) as [A [M [C V]]]. lia.
  destruct (C57_lemma s (ex_lat 2) 0 AU_RSUN REARTH_RSUN (PI/2) 0) as [T _]; try (unfold AU_RSUN, REARTH_RSUN; lra). simpl; lra.
  destruct T as [m [T _]].
  { change (st_radius s) with 1. rewrite sin_PI2, cos_PI2, cos_0. replace (1 ^ 2 + 0 ^ 2 * 1 ^ 2) with 1 by ring. rewrite sqrt_1. unfold AU_RSUN, REARTH_RSUN. lra. }
  assert (V' : disk_view s (ex_lat 2) 0 AU_RSUN REARTH_RSUN (PI/2) 0 3300 300 A M m (Fin 1)) by (destruct V; constructor; auto).
  destruct (ex_labels 300 A M C V) as [L1 L2]; auto.
  destruct (C51_lemma _ _ _ _ _ _ _ _ _ _ _ _ _ V') as [tot [cov [E _]]]; auto.
  { pose proof (ex_disk 2 [] [ex_facula 2 150] 3300 300 A ltac:(lia)) as K. specialize (K ltac:(apply V)). fold s in K. lra. }
  exists s. eauto.
Qed.
