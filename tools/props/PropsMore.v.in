(** Properties C66-C71: spot radius, facula index map, frame conditions, plotting data,
    hidden parts, observability *)
From Coq Require Import Reals ZArith Bool String List Lra Lia Permutation Sorted.
From Coquelicot Require Import Coquelicot.
From Verif Require Import Num Py MConfig MHelpers MGrid MSpots MFaculae MXoflares MFlares MGranules MStar MPlot
  Spec SpecStar SpecDisk SpecFrame LBase LGrid LHelpers LCirc LSpotAge LSpotMap LSpotCov LFac LDisk LStar LStarFac LTransit LStarCov
  LFrame LCovered LPlot LObserve PropsStar.
Import ListNotations.
Open Scope R_scope.

(** C66 *)
@THM C66_spot_radius C66_lemma
Example C66_nonvacuous : exists s th, sp_area s = Fin 1000 /\ spot_angular_radius s 1 = Fin th.
Proof.
  exists ex_spot2. destruct (C18_lemma ex_spot2 1 1000 eq_refl ltac:(lra)) as [H _].
  destruct H as [th [H _]]. pose proof PI_RGT_0; lra. exists th. split. reflexivity. exact H.
Qed.

(** C67: one facula, marking the first of two pixels *)
@THM C67_index_map C67_lemma
@THM C67_overflow C67_any_lemma
Example C67_nonvacuous : exists c P f, (forall f, In f (fcc_facs c) -> fc_grid f = fcc_grid c /\ is_fin (fc_radius f))
  /\ grid_shaped (fcc_grid c) P /\ (Z.of_nat (length (fcc_facs c)) <= 32767)%Z /\ In f (fcc_facs c) /\ pixel (fcc_grid c) 0 0
  /\ fac_near (fcc_grid c) f (1 * SUN_KM) 0 0 /\ acell P 0 0 NaN = Fin 3300.
Proof.
  set (f := fac_assign_grid (ex_facula 2 150) (Spiral 2)).
  exists (mkFacColl [f] (Spiral 2)), (amap (fun _ => Fin 3300) (grid_points (Spiral 2))), f. cbn [fcc_facs fcc_grid].
  split. { intros x [<-|[]]. split. reflexivity. eexists; reflexivity. }
  split. apply grid_shaped_amap. split. simpl; lia. split. left; auto. split. apply ex_pixel; lia.
  split. exact (ex_covers0 2 [] [] 3300 0 150 ltac:(lia)). rewrite acell_grid; auto. apply ex_pixel; lia.
Qed.

(** C68: a unified star with a spot and a facula, and a spot that can be added to it *)
@THM C68_init C68_init_lemma
@THM C68_frame C68_lemma
Example C68_nonvacuous : exists s x c, star_unified s /\ spot_on (st_grid s) x
  /\ sc_spots (st_spots s) <> [] /\ fcc_facs (st_facs s) <> [] /\ sc_age (st_spots s) (Fin 1) = Ok c.
Proof.
  set (s := ex_star 2 [ex_spot2] [ex_facula 2 150] 3300 300).
  assert (W : forall x, In x (sc_spots (st_spots s)) -> spot_wf x).
  { intros x [<-|[]]. exists 1000, 1000, (1/2), 10. split. repeat split. lra. }
  destruct (C14_lemma (st_spots s) [1] W) as [c [_ [E _]]]. intros t [<-|[]]; lra. discriminate.
  cbn [rsum fold_right] in E. rewrite Rplus_0_r in E.
  exists s, ex_spot2, c. split. apply ex_unified. split. apply spot_init_on. split. discriminate. split. discriminate. exact E.
Qed.
Example C68_init_nonvacuous : grid_new (PyInt 2) = Ok (Spiral 2).
Proof. reflexivity. Qed.

(** a star on the rectangular grid of 4 latitudes and 3 longitudes *)
Definition ex_rect : star :=
  match star_init (Fin 3300) 1 30 (mkSpotColl [ex_spot2] (Spiral 100)) (mkFacColl [] (Spiral 100))
    (PyTuple [PyInt 4; PyInt 3]) None None None None 0 0 with Ok s => s | Raise _ => ex_star 2 [] [] 0 0 end.
Lemma ex_rect_init : star_init (Fin 3300) 1 30 (mkSpotColl [ex_spot2] (Spiral 100)) (mkFacColl [] (Spiral 100))
    (PyTuple [PyInt 4; PyInt 3]) None None None None 0 0 = Ok ex_rect.
Proof. reflexivity. Qed.

(** C71: stars on both kinds of grids, with a spot and a facula, in transit *)
@THM C71_observable C71_lemma
Example C71_nonvacuous : exists s, star_unified s /\ fine_grid (st_grid s) /\ 0 < st_radius s /\ ld_positive s
  /\ st_teff s = Fin 3300 /\ gr_dteff (st_gran s) = Fin 0
  /\ (forall x, In x (sc_spots (st_spots s)) -> fin_temps x) /\ - PI/2 <= ex_lat 6 <= PI/2
  /\ (forall f, In f (fcc_facs (st_facs s)) -> drawable (ex_lat 6) 0 f) /\ cos PI <= 0
  /\ sc_spots (st_spots s) <> [] /\ fcc_facs (st_facs s) <> [].
Proof.
  exists (ex_star 6 [ex_spot2] [ex_facula 6 150] 3300 0). split. apply ex_unified. split. simpl; lia. split. simpl; lra.
  split. { intros mu H. change (st_u1 _) with 0. change (st_u2 _) with 0. lra. }
  split. reflexivity. split. reflexivity. split. { intros x [<-|[]]. split; eexists; reflexivity. }
  split. apply ex_lat_range; lia. split.
  - intros f I. rewrite ex_facs in I. destruct I as [<-|[]].
    destruct ex_rounds as [R1 R2]. exists 1000, 100, 0, 20, (-100), 0, 150, 150%Z, (-100)%Z. split. repeat split.
    split. lra. split. lra. split; auto. split; auto. split. discriminate.
    cbn [fc_lat fc_lon fac_assign_grid ex_facula]. unfold ex_lat. rewrite cos_sep_self. lra.
  - split. rewrite cos_PI; lra. split; discriminate.
Qed.
Lemma ex_rect_view : exists A M C pf, disk_view ex_rect 0 0 100 (1/10) PI (PI/2) 3300 0 A M C (Fin pf) /\ 0 < disk ex_rect 0 0 A.
Proof.
  destruct (C71_lemma ex_rect 0 0 100 (1/10) PI (PI/2) 3300 0) as [A [M [C [pf [V [_ [D _]]]]]]].
  - apply (star_init_unified _ _ _ _ _ _ _ _ _ _ _ _ _ ex_rect_init).
  - simpl; lia.
  - simpl; lra.
  - intros mu H. change (st_u1 _) with 0. change (st_u2 _) with 0. lra.
  - reflexivity.
  - reflexivity.
  - intros x [<-|[]]. split; eexists; reflexivity.
  - pose proof PI_RGT_0; lra.
  - intros f [].
  - lra.
  - lra.
  - right. rewrite cos_PI; lra.
  - exists A, M, C, pf. auto.
Qed.

(** C69: a rectangular star plotted at its own resolution *)
@THM C69_plot_data C69_lemma
Example C69_nonvacuous : exists s A M C pf, disk_view s 0 0 100 (1/10) PI (PI/2) 3300 0 A M C (Fin pf)
  /\ st_grid s = Rect 4 3 /\ exists j i, pixel (st_grid s) j i /\ 0 < brightness s 0 0 j i.
Proof.
  destruct ex_rect_view as [A [M [C [pf [V _]]]]]. exists ex_rect, A, M, C, pf. split; auto. split. reflexivity.
  destruct (hemisphere (st_grid ex_rect) 0 0) as [j [i [P [H _]]]]. simpl; lia. pose proof PI_RGT_0; lra.
  exists j, i. split; auto. unfold brightness. rewrite pix_mu_pt. destruct (Rlt_dec _ 0). lra.
  change (st_u1 _) with 0. change (st_u2 _) with 0. lra.
Qed.

(** C70 *)
@THM C70_hidden_parts C70_lemma
Example C70_nonvacuous : exists s A M C pf tot cov, disk_view s 0 0 100 (1/10) PI (PI/2) 3300 0 A M C (Fin pf)
  /\ disk s 0 0 A <> 0 /\ ld_nonneg s /\ calc_coverage s 0 0 (Fin (1/5)) 100 (1/10) PI (PI/2) = Ok (tot, cov, Fin pf).
Proof.
  destruct ex_rect_view as [A [M [C [pf [V D]]]]].
  destruct (C52_keyerror_lemma _ _ _ _ _ _ _ _ _ _ _ _ _ (1/5) V ltac:(lra)) as [K _].
  destruct K as [tot [cov K]]. { exists 3300. split; auto. right. lra. }
  exists ex_rect, A, M, C, pf, tot, cov. split; auto. split. lra. split; auto.
  intros mu H. change (st_u1 _) with 0. change (st_u2 _) with 0. lra.
Qed.
