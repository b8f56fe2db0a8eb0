(** The repository's own tests, for the model: /repo/test/test_star.py.
    Not transcribed: assertions about Python types; test_age_method_updates_pixelmap (113-125), which depends on the draws; the
    values of the mask on the 500 x 1000 grid (158-160, see C58); the depth of a transit on a grid of a million points within
    5 percent (276-299, see C81 and C100). *)
From Coq Require Import Reals ZArith Bool String List Lia Lra Sorted.
From Verif Require Import Num Py MConfig MHelpers MGrid MArgs MSpots MFaculae MXoflares MFlares MGranules MStar
  Spec SpecStar SpecDisk LBase LHelpers LGrid LSpotMap LSpotAge LStar LDisk LStarCov LObserve LSingleEx.
Import ListNotations.
Open Scope R_scope.

(** test_star.py:15-23 and 230-238, with limb darkening [u1]; star radii in solar radii, times in days.  Both collections are
    created on their default grids (spots.py:351, faculae.py:351) *)
Definition tstar (u1 : R) (gp : pyval) : res star :=
  star_init (Fin 3000) (15/100) 10 (sc_init [] (Rect 500 1000)) (fcc_init [] (Rect 500 1000)) gp None None None None u1 0.

(** ** test_star_initialization, test_get_pixelmap *)
(** test_star.py:67-80 *)
Example test_star_initialization : exists s, tstar 0 (PyTuple [PyInt 500; PyInt 1000]) = Ok s
  /\ st_teff s = Fin 3000 /\ st_radius s = 15/100 /\ st_period s = 10 /\ st_u1 s = 0 /\ st_u2 s = 0
  /\ st_grid s = Rect 500 1000 /\ st_flaregen s = lg_off /\ st_gran s = gran_off
  /\ st_spotgen s = sg_off (Rect 500 1000) /\ st_facgen s = fg_off (Rect 500 1000).
Proof. eexists. split; [reflexivity|]. repeat split. Qed.
(** test_star.py:83-87 *)
Example test_get_pixelmap : exists s m, tstar 0 (PyTuple [PyInt 500; PyInt 1000]) = Ok s /\ star_map s = Ok m /\ Spec.has_shape m true 1000 500.
Proof.
  eexists. eexists. split; [reflexivity|]. unfold star_map, sc_map_pixels. cbn [sc_set_gridmaker set_spot_grid sc_init sc_spots sc_grid map paint_spots st_spots].
  split; [reflexivity|]. rewrite grid_zeros_eq, amap_amap. apply has_shape_amap. exact (grid_points_shape (Rect 500 1000)).
Qed.
(** test_star.py:90-100 *)
Example test_star_with_granulation : let g := gran_init (Fin (2/10)) (Fin (1/100)) (Fin 5) (Fin 200) in
  exists s, star_init (Fin 5000) 1 10 (sc_init [] (Rect 500 1000)) (fcc_init [] (Rect 500 1000)) (PyTuple [PyInt 500; PyInt 1000]) None None None (Some g) 0 0 = Ok s
  /\ st_gran s = g.
Proof. intro g. eexists. split; reflexivity. Qed.
(** test_star.py:103-110 *)
Example test_star_with_custom_gridmaker : exists s,
  star_init (Fin 5000) 1 10 (sc_init [] (Rect 500 1000)) (fcc_init [] (Rect 500 1000)) (PyInt 1000) None None None None 0 0 = Ok s
  /\ st_grid s = Spiral 1000.
Proof. eexists. split; reflexivity. Qed.

(** ** test_age_method_with_zero_time *)
(** test_star.py:129-140, for a star without faculae and any spots that are alive: growing and not above their largest area,
    or decaying with some area left *)
Example test_age_method_with_zero_time : forall s,
  (forall x, In x (sc_spots (st_spots s)) -> exists A M g W, spot_params x A M g W /\ 0 < A <= M /\ 0 < g) ->
  fcc_facs (st_facs s) = [] ->
  exists s', star_age s (Fin 0) = Ok s' /\ length (sc_spots (st_spots s')) = length (sc_spots (st_spots s))
    /\ length (fcc_facs (st_facs s')) = length (fcc_facs (st_facs s)).
Proof.
  intros s H F.
  assert (K : exists l, mapM (fun x => spot_age x (Fin 0)) (sc_spots (st_spots s)) = Ok l /\ length l = length (sc_spots (st_spots s))
    /\ forall x, In x l -> spot_dead x = false).
  { revert H. generalize (sc_spots (st_spots s)). induction l as [|x l IH]; intro H.
    - exists []. repeat split. intros x [].
    - destruct IH as (l' & E & N & D); [intros; apply H; now right|].
      destruct (H x (or_introl eq_refl)) as (A & M & g & W & P & AM & G).
      assert (Q : exists y, spot_age x (Fin 0) = Ok y /\ spot_dead y = false).
      { destruct (sp_growing x) eqn:GR.
        - rewrite (spot_age_growing x A M g W 0 P GR AM G). eexists. split; [reflexivity|].
          assert (T0 : 0 <= time_to_max A M g).
          { unfold time_to_max. apply Rmult_le_pos; [|left; apply Rinv_0_lt_compat; rewrite <- ln_1; apply ln_increasing; lra].
            destruct (proj2 AM) as [L|<-]; [left; rewrite <- ln_1; apply ln_increasing; [lra|]|right; symmetry; unfold Rdiv; rewrite Rinv_r by lra; now rewrite ln_1].
            apply Rmult_lt_reg_r with A; [lra|]. unfold Rdiv. rewrite Rmult_assoc, Rinv_l by lra. lra. }
          destruct (Rlt_dec 0 (time_to_max A M g)) as [L|L].
          { unfold spot_dead, spot_with_area. cbn [sp_area sp_growing negb]. apply andb_false_r. }
          replace (0 - time_to_max A M g) with 0 by lra. rewrite Rmult_0_l. destruct (Rlt_dec M 0); [lra|].
          unfold spot_dead, spot_with_area. cbn [sp_area sp_growing negb nle]. rewrite andb_true_r. apply Rleb_false. lra.
        - destruct P as (P1 & P2 & P3 & P4 & P5). unfold spot_age. rewrite GR, P5, P2, P1, nmul_fin. rewrite Rmult_0_l.
          cbn [ngt nlt]. rewrite (proj2 (Rltb_false M 0)) by lra. rewrite nsub_fin. eexists. split; [reflexivity|].
          unfold spot_dead, spot_with_area. cbn [sp_area sp_growing negb nle]. rewrite andb_true_r. apply Rleb_false. lra. }
      destruct Q as (y & Y & DY). cbn [mapM]. rewrite Y. cbn [bind]. rewrite E. cbn [bind]. eexists. split; [reflexivity|].
      split; [simpl; now rewrite N|]. intros z [<-|Z]; auto. }
  destruct K as (l & E & N & D). unfold star_age, sc_age. rewrite E. cbn [bind]. eexists. split; [reflexivity|].
  cbn [star_with_facs star_with_spots st_spots st_facs sc_clean sc_spots]. split.
  - rewrite <- N. f_equal. clear - D. induction l as [|x l IH]; auto. cbn [filter]. rewrite (D x) by now left. cbn [negb]. f_equal. apply IH.
    intros; apply D; now right.
  - unfold fcc_age. rewrite F. reflexivity.
Qed.

(** ** test_calc_coverage *)
(** test_star.py:231, the radius of the star *)
Definition trs : R := 15/100.
Lemma bare_report : forall u1 s orbit planet phase incl, tstar u1 (PyTuple [PyInt 500; PyInt 1000]) = Ok s -> 0 <= u1 < 1 ->
  0 <= orbit -> 0 <= planet -> (planet <= trs \/ cos phase <= 0) ->
  exists tot cov pf C, calc_coverage s 0 0 (Fin 0) orbit planet phase incl = Ok (tot, cov, Fin pf)
    /\ get_transit_mask s 0 0 orbit planet phase incl = Ok (C, Fin pf)
    /\ dget tkey_eqb tot (fmt2 (Fin 3000)) = Some (Fin 1)
    /\ (grid_shaped (st_grid s) C -> (forall x, In x (cells C) -> x = Fin 0) -> dget tkey_eqb cov (fmt2 (Fin 3000)) = Some (Fin 0)).
Proof.
  intros u1 s orbit planet phase incl SI U O P PH. unfold tstar in SI.
  pose proof (star_init_unified _ _ _ _ _ _ _ _ _ _ _ _ _ SI) as [GN UN].
  assert (EQ : st_grid s = Rect 500 1000 /\ st_radius s = trs /\ st_teff s = Fin 3000 /\ gr_dteff (st_gran s) = Fin 0 /\ st_u1 s = u1 /\ st_u2 s = 0
    /\ sc_spots (st_spots s) = [] /\ fcc_facs (st_facs s) = []).
  { unfold star_init in SI. cbn [grid_new rect_init bind] in SI. injection SI as <-. repeat split. }
  destruct EQ as (G & RA & TE & DT & U1 & U2 & NS & NF). pose proof PI_RGT_0.
  assert (F : fine_grid (st_grid s)) by (rewrite G; split; lia).
  destruct (C71_lemma s 0 0 orbit planet phase incl 3000 0) as (A & M & C & pf & V & _ & DK & _); auto.
  { rewrite RA; unfold trs; lra. } { intros mu MU. rewrite U1, U2. nra. } { rewrite NS. intros x []. } { lra. } { rewrite NF. intros x []. }
  { now rewrite RA. }
  assert (EM : M = amap (fun _ => Fin 3000) (grid_points (st_grid s))).
  { pose proof (dv_map _ _ _ _ _ _ _ _ _ _ _ _ _ V) as Q. rewrite clean_map, TE in Q by auto. congruence. }
  assert (AP : forall t, appears (st_grid s) M t <-> t = 3000).
  { intros t. rewrite EM. unfold appears. split.
    - intros [j [i [Q1 Q]]]. rewrite acell_grid in Q by auto. congruence.
    - intros ->. exists 0%nat, 0%nat. assert (PX : pixel (st_grid s) 0 0) by (rewrite G; apply pixel_iff; simpl; lia). split; auto.
      rewrite acell_grid; auto. }
  assert (DL : forall t t', listed s M 3000 0 t -> listed s M 3000 0 t' -> t = t').
  { intros t t' [L|L] [L'|L']; rewrite ?AP in *; lra. }
  destruct (C51_lemma s 0 0 orbit planet phase incl 3000 0 A M C (Fin pf) V ltac:(lra)) as (tot & cov & E & SH & _).
  { intros t t' L L' _. apply DL; auto. } { now right. }
  exists tot, cov, pf, C. split; [exact E|]. split; [exact (dv_mask _ _ _ _ _ _ _ _ _ _ _ _ _ V)|].
  destruct (SH 3000) as [S1 S2]; [left; now apply AP|].
  destruct (calc_coverage_eq s 0 0 orbit planet phase incl 3000 0 A M C (Fin pf) 0 V ltac:(lra)) as (ul & SO & UL & SUM & _).
  assert (UE : ul = [3000]).
  { destruct ul as [|a [|b r]].
    - exfalso. apply (proj1 (UL 3000)). now apply AP.
    - f_equal. apply AP. apply UL. now left.
    - exfalso. inversion SO as [|? ? ? FA]; subst. inversion FA; subst. assert (a = 3000) by (apply AP, UL; now left).
      assert (b = 3000) by (apply AP, UL; right; now left). lra. }
  rewrite UE in SUM. cbn [map rsum fold_right] in SUM. split.
  - etransitivity; [exact S1|]. do 2 f_equal. cbn in SUM. lra.
  - intros GS Z. etransitivity; [exact S2|]. do 2 f_equal. unfold share.
    rewrite (grid_sum_pt _ (fun _ => 0)).
    + assert (E0 : forall l : list (R * R), rsum (map (fun _ => 0) l) = 0) by (induction l as [|y l IH]; [reflexivity|]; transitivity (0 + rsum (map (fun _ => 0) l)); [reflexivity|rewrite IH; lra]).
      rewrite E0. unfold Rdiv. ring.
    + intros j i PX. destruct (acell M j i NaN) as [x| | |]; auto. destruct (Req_EM_T x 3000); auto.
      destruct GS as (b & r & c & HS & HC). rewrite G in *. apply pixel_iff in PX. cbn in PX.
      pose proof (grid_points_shape (Rect 500 1000)) as HG.
      assert (CV : cell_val C j i = 0).
      { unfold cell_val. rewrite (Z (acell C j i NaN)); auto. destruct HS as (_ & H1 & H2), HG as (_ & H3 & H4).
        assert (r = 1000%nat) by (rewrite <- H1; exact H3). assert (c = 500%nat).
        { destruct (arows (grid_points (Rect 500 1000))) as [|row rows]; [cbn in H3; discriminate|].
          rewrite <- (H2 row) by now left. apply H4. now left. }
        subst r c. eapply acell_In_cells; [exact HC|lia|lia]. }
      rewrite CV. ring.
Qed.
(** test_star.py:142-157: the fraction of the planet that is visible *)
Example test_transit_mask : exists s m, tstar 0 (PyTuple [PyInt 500; PyInt 1000]) = Ok s
  /\ get_transit_mask s 0 0 (5/100 * AU_RSUN) REARTH_RSUN PI (PI/2) = Ok (m, Fin 1).
Proof.
  assert (A : 0 < AU_RSUN) by (unfold AU_RSUN; lra). assert (B : 0 < REARTH_RSUN) by (unfold REARTH_RSUN; lra).
  assert (K : exists s, tstar 0 (PyTuple [PyInt 500; PyInt 1000]) = Ok s /\ st_radius s = trs) by (eexists; split; reflexivity).
  destruct K as (s & S1 & R1). exists s.
  destruct (bare_report 0 s (5/100 * AU_RSUN) REARTH_RSUN PI (PI/2) S1 ltac:(lra) ltac:(lra) ltac:(lra)) as (_ & _ & pf & C & _ & T & _ & _).
  { right. rewrite cos_PI. lra. }
  exists C. split; [exact S1|]. rewrite T. do 2 f_equal.
  destruct (C57_lemma s 0 0 (5/100 * AU_RSUN) REARTH_RSUN PI (PI/2)) as (_ & _ & _ & L); try lra. { rewrite R1. unfold trs. lra. }
  apply (L ltac:(rewrite cos_PI; lra) C). exact T.
Qed.
(** test_star.py:247-252: no arguments for the planet (star.py:498-501), so 1 AU, an Earth radius, phase 90 and inclination 0 *)
Example test_calc_coverage_default : exists s tot cov, tstar (1/10) (PyTuple [PyInt 500; PyInt 1000]) = Ok s
  /\ calc_coverage s 0 0 (Fin 0) AU_RSUN REARTH_RSUN (PI/2) 0 = Ok (tot, cov, Fin 1)
  /\ dget tkey_eqb tot (fmt2 (st_teff s)) = Some (Fin 1) /\ dget tkey_eqb cov (fmt2 (st_teff s)) = Some (Fin 0).
Proof.
  assert (A : AU_RSUN > 200) by (unfold AU_RSUN; lra). assert (B : 0 < REARTH_RSUN < 1/100) by (unfold REARTH_RSUN; lra).
  assert (K : exists s, tstar (1/10) (PyTuple [PyInt 500; PyInt 1000]) = Ok s /\ st_radius s = trs /\ st_teff s = Fin 3000) by (eexists; repeat split).
  destruct K as (s & S1 & R1 & T1). exists s.
  destruct (bare_report (1/10) s AU_RSUN REARTH_RSUN (PI/2) 0 S1 ltac:(lra) ltac:(lra) ltac:(lra)) as (tot & cov & pf & C & E & T & TT & TC).
  { left. unfold trs. lra. }
  destruct (C57_lemma s 0 0 AU_RSUN REARTH_RSUN (PI/2) 0) as (L & _); try lra. { rewrite R1. unfold trs. lra. }
  destruct L as (m & M & GS & Z).
  { rewrite R1, sin_PI2, cos_PI2. replace (1 ^ 2 + 0 ^ 2 * cos 0 ^ 2) with 1 by ring. rewrite sqrt_1. unfold trs. lra. }
  rewrite T in M. injection M as -> ->. exists tot, cov. rewrite T1. split; [exact S1|]. split; [exact E|]. split; [exact TT|]. now apply TC.
Qed.
(** test_star.py:254-274: during a transit, at 180 and at 180.3 degrees *)
Example test_calc_coverage_transit : forall ph, ph = 180 \/ ph = 180 + 3/10 ->
  exists s tot cov, tstar (1/10) (PyTuple [PyInt 500; PyInt 1000]) = Ok s
  /\ calc_coverage s 0 0 (Fin 0) (5/100 * AU_RSUN) (st_radius s / 10) (deg2rad ph) (deg2rad 90) = Ok (tot, cov, Fin 1)
  /\ dget tkey_eqb tot (fmt2 (st_teff s)) = Some (Fin 1).
Proof.
  intros ph PH. assert (A : AU_RSUN > 200) by (unfold AU_RSUN; lra). pose proof PI_RGT_0.
  assert (CP : cos (deg2rad ph) <= 0). { apply cos_le_0; destruct PH as [-> | ->]; unfold deg2rad; lra. }
  assert (K : exists s, tstar (1/10) (PyTuple [PyInt 500; PyInt 1000]) = Ok s /\ st_radius s = trs /\ st_teff s = Fin 3000) by (eexists; repeat split).
  destruct K as (s & S1 & R1 & T1). exists s.
  destruct (bare_report (1/10) s (5/100 * AU_RSUN) (st_radius s / 10) (deg2rad ph) (deg2rad 90) S1) as (tot & cov & pf & C & E & T & TT & _).
  { lra. } { lra. } { rewrite R1. unfold trs. lra. } { now right. }
  destruct (C57_lemma s 0 0 (5/100 * AU_RSUN) (st_radius s / 10) (deg2rad ph) (deg2rad 90)) as (_ & _ & _ & L).
  { rewrite R1. unfold trs. lra. } { lra. } { rewrite R1. unfold trs. lra. }
  pose proof (L CP C (Fin pf) T) as Q. injection Q as ->. exists tot, cov. rewrite T1. split; [exact S1|]. split; [exact E|exact TT].
Qed.
