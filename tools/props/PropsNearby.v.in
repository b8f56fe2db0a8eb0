(** Property C129: reports of observers next to each other, and reports with rounded cosines *)
From Coq Require Import Reals ZArith Bool String List Lra Lia.
From Verif Require Import Num Py MConfig MHelpers MGrid MSpots MFaculae MXoflares MFlares MGranules MStar MDouble MCosine
  Spec SpecStar SpecDisk SpecDouble SpecCosine SpecFlux SpecNearby LBase LGrid LSpotMap LSpotCov LDisk LStar LStarFac LStarCov LFlux LFar LObserve LRotate LHelpers LDouble LDoubleSum LGauss LCosine LNearby PropsStar PropsSym PropsCosine.
From Coquelicot Require Import Rcomplements.
Import ListNotations.
Open Scope R_scope.

(** C129 *)
@THM C129_disk C129_disk_lemma
@THM C129_flux C129_flux_lemma
@THM C129_entries C129_entries_lemma
@THM C129_rounding C129_rounding_lemma
@THM C129_succeeds C129_succeeds_lemma
(** one spot on a spiral of six points *)
Definition ex_dot : star := ex_star 6 [ex_sym_spot 0 0] [] 3300 0.
Lemma ex_dot_listed : forall lat0 lon0 M t, add_faculae_to_map ex_dot lat0 lon0 = Ok M -> listed ex_dot M 3300 0 t -> t = 3300 \/ t = 2500 \/ t = 2700.
Proof.
  intros lat0 lon0 M t EM [[j [i [P E]]]|E]; [|lra].
  assert (U : star_unified ex_dot) by apply ex_unified.
  apply no_facs_map in EM; [|exact U|reflexivity]. rewrite EM in E. rewrite acell_grid in E by auto.
  destruct (fold_pv_fin_le (st_radius ex_dot) (acell (grid_points (st_grid ex_dot)) j i (0, 0)) (sc_spots (st_spots ex_dot)) 3300) as [v [Ev [_ Q]]].
  { intros x [<-|[]]; split; eexists; reflexivity. }
  change (st_teff ex_dot) with (Fin 3300) in E. rewrite Ev in E. injection E as ->.
  destruct Q as [->|[x [[<-|[]] [Q|Q]]]]; [auto| |]; cbn in Q; injection Q as <-; auto.
Qed.
Lemma ex_dot_labels : forall lat0 lon0 M, add_faculae_to_map ex_dot lat0 lon0 = Ok M -> distinct_labels (fun t => fmt2 (Fin t)) ex_dot M 3300 0.
Proof.
  intros lat0 lon0 M EM t t' H H' E. apply (ex_dot_listed lat0 lon0) in H; auto. apply (ex_dot_listed lat0 lon0) in H'; auto.
  destruct (fmt2_two_decimals t) as [c [E1 [B1 _]]]. destruct (fmt2_two_decimals t') as [c' [E2 [B2 _]]]. rewrite E1, E2 in E. injection E as <-.
  assert (K : Rabs (100 * t - 100 * t') <= 1).
  { replace (100 * t - 100 * t') with ((IZR c - 100 * t') - (IZR c - 100 * t)) by ring. eapply Rle_trans. apply Rabs_triang. rewrite Rabs_Ropp. lra. }
  apply Rabs_le_between in K. lra.
Qed.
Lemma ex_dot_view : forall lat0 lon0, - PI/2 <= lat0 <= PI/2 -> exists A M C pf, disk_view ex_dot lat0 lon0 100 (1/10) 0 (PI/2) 3300 0 A M C (Fin pf)
  /\ 0 < disk ex_dot lat0 lon0 A /\ forall f, exists tot cov, calc_coverage ex_dot lat0 lon0 (Fin f) 100 (1/10) 0 (PI/2) = Ok (tot, cov, Fin pf).
Proof.
  intros lat0 lon0 HL. destruct (C71_lemma ex_dot lat0 lon0 100 (1/10) 0 (PI/2) 3300 0) as [A [M [C [pf [V [_ [DP K]]]]]]]; auto; try lra.
  - apply ex_unified.
  - cbn. lia.
  - cbn. lra.
  - intros mu H. change (st_u1 _) with 0. change (st_u2 _) with 0. lra.
  - intros x [<-|[]]; split; eexists; reflexivity.
  - intros f [].
  - left. cbn. lra.
  - exists A, M, C, pf. split; auto.
Qed.
Example C129_flux_nonvacuous : exists A M C1 pf1 C2 pf2 ts tot1 cov1 qf1 tot2 cov2 qf2 d,
  disk_view ex_dot 0 0 100 (1/10) 0 (PI/2) 3300 0 A M C1 pf1 /\ disk_view ex_dot (1/10) 1 100 (1/10) 0 (PI/2) 3300 0 A M C2 pf2
  /\ disk ex_dot 0 0 A <> 0 /\ disk ex_dot (1/10) 1 A <> 0 /\ ld_nonneg ex_dot /\ distinct_labels (fun t => fmt2 (Fin t)) ex_dot M 3300 0
  /\ lists_temps ex_dot M 3300 0 ts
  /\ calc_coverage ex_dot 0 0 (Fin (1/5)) 100 (1/10) 0 (PI/2) = Ok (tot1, cov1, qf1)
  /\ calc_coverage ex_dot (1/10) 1 (Fin (1/5)) 100 (1/10) 0 (PI/2) = Ok (tot2, cov2, qf2)
  /\ is_angle 0 0 (1/10) 1 d /\ between (fun t => t^4) ts 0 (4000^4).
Proof.
  pose proof PI2_1 as P2.
  destruct (ex_dot_view 0 0) as [A [M [C1 [p1 [V1 [D1 K1]]]]]]. lra. destruct (ex_dot_view (1/10) 1) as [A' [M' [C2 [p2 [V2 [D2 K2]]]]]]. lra.
  assert (A' = A). { pose proof (dv_area _ _ _ _ _ _ _ _ _ _ _ _ _ V1) as E1. pose proof (dv_area _ _ _ _ _ _ _ _ _ _ _ _ _ V2) as E2. congruence. }
  assert (M' = M). { pose proof (no_facs_map ex_dot _ _ M' (ex_unified _ _ _ _ _) eq_refl (dv_map _ _ _ _ _ _ _ _ _ _ _ _ _ V2)) as E1.
    pose proof (no_facs_map ex_dot _ _ M (ex_unified _ _ _ _ _) eq_refl (dv_map _ _ _ _ _ _ _ _ _ _ _ _ _ V1)) as E2. congruence. }
  subst A' M'. destruct (temps_exist _ _ _ _ _ _ _ _ _ _ _ _ _ V1) as [ts LT]. lra.
  destruct (K1 (1/5)) as [t1 [c1 E1]]. destruct (K2 (1/5)) as [t2 [c2 E2]].
  exists A, M, C1, (Fin p1), C2, (Fin p2), ts, t1, c1, (Fin p1), t2, c2, (Fin p2), (acos (cos_sep 0 0 (1/10) 1)).
  split; auto. split; auto. split. lra. split. lra. split. { intros mu H. change (st_u1 _) with 0. change (st_u2 _) with 0. lra. }
  split. { apply (ex_dot_labels 0 0). apply V1. } split; auto. split; auto. split; auto.
  split. { split. apply acos_bound. rewrite <- law_cos_dot. apply cos_acos. apply law_cos_bound. }
  intros t I. apply LT in I. apply (ex_dot_listed 0 0) in I; [|apply V1]. destruct I as [->|[->| ->]]; lra.
Qed.
(** the same star seen from above one of its points, in double precision *)
Example C129_rounding_nonvacuous : exists lat0 lon0 A M C pf ts tot cov tot64 cov64,
  double_rounding f64_round /\ accurate ex_sn ex_cs /\ disk_view ex_dot lat0 lon0 100 (1/10) 0 (PI/2) 3300 0 A M C pf
  /\ fcc_facs (st_facs ex_dot) = [] /\ ld_nonneg ex_dot /\ 3 / 10^15 * steepness ex_dot < disk ex_dot lat0 lon0 A
  /\ (forall j i, pixel (st_grid ex_dot) j i -> Rabs (lon0 - pix_lon (st_grid ex_dot) j i) <= 7)
  /\ distinct_labels (fun t => fmt2 (Fin t)) ex_dot M 3300 0 /\ lists_temps ex_dot M 3300 0 ts
  /\ calc_coverage ex_dot lat0 lon0 (Fin (1/5)) 100 (1/10) 0 (PI/2) = Ok (tot, cov, pf)
  /\ calc_coverage64 f64_round ex_sn ex_cs ex_dot lat0 lon0 (Fin (1/5)) 100 (1/10) 0 (PI/2) = Ok (tot64, cov64, pf).
Proof.
  pose proof PI2_1 as P2. pose proof PI_upper as PU.
  assert (PX : pixel (st_grid ex_dot) 0 0) by (apply ex_pixel; lia).
  assert (GG : good_grid (st_grid ex_dot)) by (cbn; lia).
  set (lat0 := pix_lat (st_grid ex_dot) 0 0). set (lon0 := pix_lon (st_grid ex_dot) 0 0).
  assert (PR : forall j i, pixel (st_grid ex_dot) j i -> - PI/2 <= pix_lat (st_grid ex_dot) j i <= PI/2 /\ 0 <= pix_lon (st_grid ex_dot) j i < 2 * PI).
  { intros j i P. change (st_grid ex_dot) with (Spiral 6) in *. apply ex_pixel in P. destruct P as [-> P]. unfold pix_lat, pix_lon. rewrite spiral_point_cell by auto. cbn [fst snd].
    pose proof (spiral_lat_range 6 i P). split. lra. unfold spiral_lon. apply rmod_range. lra. }
  destruct (ex_dot_view lat0 lon0) as [A [M [C [p [V [DP K]]]]]]. { destruct (PR 0%nat 0%nat PX). auto. }
  assert (LDN : ld_nonneg ex_dot). { intros mu H. change (st_u1 _) with 0. change (st_u2 _) with 0. lra. }
  assert (ST : steepness ex_dot = 1). { unfold steepness. change (st_u1 _) with 0. change (st_u2 _) with 0. rewrite Rabs_R0. lra. }
  assert (DK : 3 / 10^15 * steepness ex_dot < disk ex_dot lat0 lon0 A).
  { destruct (disk_pos ex_dot lat0 lon0 A) as [_ E]; auto. apply V. lra. rewrite E, ST.
    assert (W : wgt ex_dot lat0 lon0 (pt (st_grid ex_dot) (0%nat, 0%nat)) = 1/6).
    { rewrite wgt_gl, law_cos_dot.
      replace (cos_sep lat0 lon0 _ _) with 1.
      2:{ unfold lat0, lon0, pix_lat, pix_lon, cos_sep, pt. cbn [fst snd]. set (q := acell _ _ _ _). unfold dot, vec. pose proof (sin2_cos2 (fst q)). pose proof (sin2_cos2 (snd q)). unfold Rsqr in *. nra. }
      rewrite gl_pos by lra. change (st_u1 _) with 0. change (st_u2 _) with 0. unfold rarea_at. change (st_grid ex_dot) with (Spiral 6). cbn [INR]. lra. }
    apply Rlt_le_trans with (1/6). lra. rewrite <- W.
    assert (I : In (pt (st_grid ex_dot) (0%nat, 0%nat)) (cells (grid_points (st_grid ex_dot)))) by (apply pt_In; auto).
    apply in_split in I. destruct I as [l1 [l2 EI]]. 
    assert (NN : forall q, In q (cells (grid_points (st_grid ex_dot))) -> 0 <= wgt ex_dot lat0 lon0 q) by (intros; apply wgt_nonneg; auto).
    rewrite EI in *. rewrite map_app, rsum_app. cbn [map]. change (rsum (?a :: ?b)) with (a + rsum b).
    assert (0 <= rsum (map (wgt ex_dot lat0 lon0) l1)). { apply rsum_nonneg. intros x J. apply in_map_iff in J. destruct J as [q [<- J]]. apply NN, in_or_app; auto. }
    assert (0 <= rsum (map (wgt ex_dot lat0 lon0) l2)). { apply rsum_nonneg. intros x J. apply in_map_iff in J. destruct J as [q [<- J]]. apply NN, in_or_app; right; right; auto. }
    lra. }
  assert (LON : forall j i, pixel (st_grid ex_dot) j i -> Rabs (lon0 - pix_lon (st_grid ex_dot) j i) <= 7).
  { intros j i P. destruct (PR j i P) as [_ B1]. destruct (PR 0%nat 0%nat PX) as [_ B2]. unfold lon0. apply Rabs_le. lra. }
  destruct (temps_exist _ _ _ _ _ _ _ _ _ _ _ _ _ V) as [ts LT]. lra. destruct (K (1/5)) as [t1 [c1 E1]].
  assert (AC : accurate ex_sn ex_cs) by apply C128_error_nonvacuous. 
  destruct (C129_succeeds_lemma f64_round ex_sn ex_cs ex_dot lat0 lon0 100 (1/10) 0 (PI/2) C (Fin p) 3300 0 A M (1/5)) as [t2 [c2 E2]]; auto.
  { exact f64_round_nearest. } { rewrite cos_0. lra. }
  exists lat0, lon0, A, M, C, (Fin p), ts, t1, c1, t2, c2. split. exact f64_round_nearest. split; auto. split; auto. split; auto. split; auto. split; auto. split; auto.
  split. { apply (ex_dot_labels lat0 lon0). apply V. } split; auto.
Qed.
