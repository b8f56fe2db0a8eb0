(** Property C105: spots and the depth of transits *)
From Coq Require Import Reals ZArith Bool String List Lra Lia.
From Coquelicot Require Import Coquelicot.
From Verif Require Import Num Py MConfig MHelpers MGrid MSpots MFaculae MXoflares MFlares MGranules MStar
  Spec SpecStar SpecDisk SpecConv SpecFlux SpecDepth SpecSource LBase LGrid LSpotMap LSpotCov LFac LDisk LStar LStarFac LStarCov LObserve LSphere LZonal LSpotDisk LTransit LDepth LFlux LSource PropsStar PropsConv PropsDepth PropsMono.
Import ListNotations.
Open Scope R_scope.

(** a star with a spot of 60 degrees around its pole, seen from above its equator, with a planet of
    a tenth of its radius in front of the centre of the disk *)
Definition ex_capped (n : nat) : star := star_add_spot (ex_spotted n 0 0 []) [ex_polar (PI/2) n].
Lemma ex_capped_eq : forall n, ex_capped n = ex_spotted n 0 0 [ex_polar (PI/2) n].
Proof. reflexivity. Qed.
Lemma ex_cap_has : forall f n p, has f [ex_view (PI/2) 0 n] p <-> cos (f (ex_view (PI/2) 0 n)) < sin (fst p).
Proof.
  intros f n p. assert (E : vmu (ex_view (PI/2) 0 n) (fst p) (snd p) = sin (fst p)).
  { unfold vmu, mu, law_cos. change (sp_lat _) with (PI/2). rewrite sin_PI2, cos_PI2. ring. }
  unfold has. split. intros [v [[<-|[]] K]]. rewrite E in K. auto. intros K. eexists. split. left; reflexivity. rewrite E. auto.
Qed.
Lemma ex_source : exists m, (6 <= m ^ 3)%nat /\ resolution (Spiral (m ^ 3)) (/ INR m) /\ sqrt (/ INR m) <= 1 / 1000000 /\
  exists A M M' C, disk_view (ex_spotted (m ^ 3) 0 0 []) 0 0 1 (1/10) PI (PI/2) 3300 200 A M C (Fin 1)
    /\ disk_view (ex_capped (m ^ 3)) 0 0 1 (1/10) PI (PI/2) 3300 200 A M' C (Fin 1)
    /\ 0 < disk (ex_capped (m ^ 3)) 0 0 A
    /\ (forall j i, pixel (Spiral (m ^ 3)) j i -> acell M j i NaN = Fin 3300)
    /\ (forall j i, behind_planet (ex_capped (m ^ 3)) 0 0 C j i -> acell M' j i NaN = Fin 3300)
    /\ (forall j i, pixel (Spiral (m ^ 3)) j i -> acell M' j i NaN = Fin 2500 \/ acell M' j i NaN = Fin 2700 \/ acell M' j i NaN = Fin 3300)
    /\ appears (Spiral (m ^ 3)) M' 3300
    /\ acell M' 0 0 NaN = Fin 2500 /\ 0 < seen (ex_capped (m ^ 3)) 0 0 A 0 0.
Proof.
  destruct (fine_m (1 / 1000000)) as [m [H2 [C1 [G [Q Hm]]]]]. lra. exists m. split; auto. split; auto. split; auto.
  pose proof PI_RGT_0 as PP. set (n := (m ^ 3)%nat) in *. pose proof cos_PI as CP.
  assert (LP : forall sp, ld_positive (ex_spotted n 0 0 sp)) by (intros sp x Hx; change (st_u1 _) with 0; change (st_u2 _) with 0; lra).
  destruct (ex_clean_view n 0 0 0 0 1 (1/10) PI (PI/2) C1 (LP []) ltac:(lra) ltac:(lra) ltac:(lra) ltac:(lra)) as [A [M [C [pf [V [AP DL]]]]]].
  assert (SP : spotted (ex_capped n) [ex_view (PI/2) 0 n] 3300 200 2500 2700).
  { apply (ex_spotted_ok n 0 0 [ex_view (PI/2) 0 n]). lia. intros v [<-|[]]; auto. repeat constructor. }
  destruct (C71_lemma (ex_capped n) 0 0 1 (1/10) PI (PI/2) 3300 200 (sd_unified _ _ _ _ _ _ SP) C1 (sd_radius _ _ _ _ _ _ SP) (LP _) eq_refl eq_refl) as [A1 [M' [C' [pf' [V1 [_ [D1 _]]]]]]]; try lra.
  { intros x [<-|[]]. split; eexists; reflexivity. } { intros x []. }
  assert (A1 = A). { pose proof (dv_area _ _ _ _ _ _ _ _ _ _ _ _ _ V) as K. pose proof (dv_area _ _ _ _ _ _ _ _ _ _ _ _ _ V1) as K'. change (st_grid (ex_capped n)) with (Spiral n) in K'. change (st_grid (ex_spotted n 0 0 [])) with (Spiral n) in K. congruence. } subst A1.
  pose proof (dv_mask _ _ _ _ _ _ _ _ _ _ _ _ _ V) as MK. pose proof (dv_mask _ _ _ _ _ _ _ _ _ _ _ _ _ V1) as MK1.
  change (get_transit_mask (ex_capped n)) with (get_transit_mask (ex_spotted n 0 0 [])) in MK1. rewrite MK in MK1. injection MK1 as <- EP. rewrite <- EP in V1. clear pf' EP.
  assert (XY : sky_x (ex_spotted n 0 0 []) 1 PI = 0 /\ sky_y (ex_spotted n 0 0 []) 1 PI (PI/2) = 0 /\ sky_r (ex_spotted n 0 0 []) (1/10) = 1/10).
  { unfold sky_x, sky_y, sky_r. change (st_radius _) with 1. rewrite sin_PI, cos_PI2. repeat split; field. }
  destruct XY as [EX [EY ER]].
  destruct (px_cov_mask (ex_spotted n 0 0 []) 0 0 1 (1/10) PI (PI/2) C pf) as [-> [cm [EC HC]]]; auto; try lra.
  { change (st_radius _) with 1; lra. } { rewrite EX, EY, ER. replace (0 ^ 2 + 0 ^ 2) with 0 by ring. rewrite sqrt_0. lra. }
  rewrite EX, EY, ER in HC. change (st_grid (ex_spotted n 0 0 [])) with (Spiral n) in *.
  destruct (view_form _ _ _ _ _ _ _ _ _ _ _ _ _ V1) as [tm [cm1 [EA [EM [EC1 [_ [_ [_ [_ [EAP EV]]]]]]]]]]. change (st_grid (ex_capped n)) with (Spiral n) in *.
  pose proof (spotted_temp _ _ _ _ _ _ _ _ _ tm SP (dv_map _ _ _ _ _ _ _ _ _ _ _ _ _ V1) EM) as TM. change (st_grid (ex_capped n)) with (Spiral n) in TM.
  assert (TM' : forall p, In p (cells (grid_points (Spiral n))) -> tm p = 2500 /\ cos (PI/6) < sin (fst p) \/ tm p = 2700 /\ 1/2 < sin (fst p) \/ tm p = 3300 /\ sin (fst p) <= 1/2).
  { intros p I. specialize (TM p I). rewrite !ex_cap_has in TM. cbn [v_umbra v_radius ex_view] in TM. rewrite cos_PI3 in TM. intuition lra. }
  exists A, M, M', C. split; auto. split; auto. split; auto.
  assert (CZ : forall p, In p (cells (grid_points (Spiral n))) -> 1/2 < sin (fst p) -> 0 < mu 0 0 (fst p) (snd p) -> cm p = 0).
  { intros p I Hs MU. pose proof (cell_lat_range _ p G I) as LR. destruct (seen_frame 0 0 ltac:(lra)) as [l [El FR]]. destruct (FR p LR ltac:(lra)) as [x [y [E SA]]].
    destruct (HC p I) as [_ [_ K]]. destruct (K x y E) as [K1 _]. apply K1. clear K K1.
    pose proof (frame_norm 0 l (fst p) (snd p)) as FN. rewrite El in FN. pose proof (sa_norm _ _ _ _ _ SA) as NN.
    assert (M2 : mu 0 0 (fst p) (snd p) ^ 2 <= 3/4). { unfold mu, law_cos in *. rewrite sin_0, cos_0 in *. pose proof (sin2_cos2 (fst p)) as SC. unfold Rsqr in SC. pose proof (COS_bound (0 - snd p)) as CB.
      set (c := cos (0 - snd p)) in *. assert (c * c <= 1) by nra. set (a := cos (fst p)) in *. assert (a * a <= 3/4) by nra. nra. }
    pose proof (pixel_size _ _ p G Q I) as PS. rewrite <- law_cos_dot. change (law_cos 0 0 (fst p) (snd p)) with (mu 0 0 (fst p) (snd p)).
    assert (D1' : 0 < / INR m <= 1) by apply Q. pose proof (sqrt_sqrt (/ INR m) ltac:(lra)) as SS. pose proof (sqrt_pos (/ INR m)). assert (DS : / INR m <= 1 / 1000000) by nra.
    assert (MB : mu 0 0 (fst p) (snd p) <= 1) by (unfold mu; apply law_cos_bound). pose proof (sqrt_pos (rarea_at (Spiral n) p)) as S0. set (q := sqrt (rarea_at (Spiral n) p)) in *.
    apply Rlt_le_trans with (1/2). nra. replace ((x - 0) ^ 2 + (y - 0) ^ 2) with (x ^ 2 + y ^ 2) by ring. rewrite NN.
    replace (1/2) with (sqrt (1/2 * (1/2))) by (apply sqrt_square; lra). apply sqrt_le_1_alt. lra. }
  assert (N6 : 6 <= INR n) by (replace 6 with (INR 6) by (simpl; lra); apply le_INR; auto).
  split; [|split; [|split; [|split; [|split]]]].
  - intros j i P. destruct (view_form _ _ _ _ _ _ _ _ _ _ _ _ _ V) as [tm0 [_ [_ [EM0 [_ [_ [_ [_ [_ [EAP0 _]]]]]]]]]]. change (st_grid (ex_spotted n 0 0 [])) with (Spiral n) in *.
    rewrite EM0, acell_grid by auto. change (acell (grid_points (Spiral n)) j i (0, 0)) with (pt (Spiral n) (j, i)). f_equal. apply AP. rewrite EAP0. apply runiq_In, in_map. apply pt_In; auto.
  - intros j i [P [MU K]]. change (st_grid (ex_capped n)) with (Spiral n) in *. rewrite EM, acell_grid by auto. change (acell (grid_points (Spiral n)) j i (0, 0)) with (pt (Spiral n) (j, i)). f_equal.
    assert (I := pt_In _ _ _ P). destruct (TM' _ I) as [[_ S']|[[_ S']|[E _]]]; auto; exfalso; apply K; unfold cell_val; rewrite EC, acell_grid by auto; change (cm (pt (Spiral n) (j, i)) = 0); apply CZ; auto; try (unfold pix_mu in MU; rewrite <- law_cos_dot in MU; exact MU).
    rewrite ?cos_PI6 in S'. assert (1 <= sqrt 3) by (rewrite <- sqrt_1 at 1; apply sqrt_le_1; lra). lra.
  - intros j i P. rewrite EM, acell_grid by auto. change (acell (grid_points (Spiral n)) j i (0, 0)) with (pt (Spiral n) (j, i)). destruct (TM' _ (pt_In _ _ _ P)) as [[-> _]|[[-> _]|[-> _]]]; auto.
  - destruct (ex_middle n ltac:(lia)) as [i [Hi QQ]]. exists 0%nat, i. assert (P : pixel (Spiral n) 0 i) by (apply ex_pixel; auto). split; auto.
    rewrite EM, acell_grid by auto. change (acell (grid_points (Spiral n)) 0 i (0, 0)) with (pt (Spiral n) (0%nat, i)). f_equal. apply Rabs_le_between in QQ.
    destruct (TM' _ (pt_In _ _ _ P)) as [[_ S']|[[_ S']|[E _]]]; auto; exfalso; unfold pt in S'; cbn [fst snd] in S'; rewrite spiral_point_cell in S' by auto; cbn [fst] in S'.
    + rewrite cos_PI6 in S'. assert (1 <= sqrt 3) by (rewrite <- sqrt_1 at 1; apply sqrt_le_1; lra). lra.
    + lra.
  - assert (P : pixel (Spiral n) 0 0) by (apply ex_pixel; lia). rewrite EM, acell_grid by auto. change (acell (grid_points (Spiral n)) 0 0 (0, 0)) with (pt (Spiral n) (0%nat, 0%nat)). f_equal.
    pose proof (TM _ (pt_In _ _ _ P)) as K. rewrite !ex_cap_has in K. cbn [v_umbra v_radius ex_view] in K.
    assert (HH : cos (PI / 6) < sin (fst (pt (Spiral n) (0%nat, 0%nat)))).
    { unfold pt. cbn [fst snd]. rewrite spiral_point_cell by lia. cbn [fst]. rewrite spiral_sin_lat by lia. cbn [INR]. rewrite cos_PI6.
      assert (sqrt 3 <= 17321/10000) by (apply sqrt_le_of_sq; lra). 
      assert (/ INR n <= / 8). { apply Rinv_le_contravar; try lra. replace 8 with (INR 8) by (simpl; lra). apply le_INR. unfold n. pose proof (Nat.pow_le_mono_l 2 m 3 H2). simpl in H0 |- *. lia. }
      unfold Rdiv in *. nra. }
    destruct K as [[-> _]|[[_ [_ K]]|[_ K]]]; auto. contradiction. exfalso; apply K. eapply Rle_lt_trans. 2: apply HH. left. apply cos_decreasing_1; lra.
  - assert (P : pixel (Spiral n) 0 0) by (apply ex_pixel; lia). unfold seen. change (st_u1 (ex_capped n)) with 0. change (st_u2 (ex_capped n)) with 0.
    assert (MU : 0 < pix_mu (ex_capped n) 0 0 0 0).
    { unfold pix_mu. change (st_grid (ex_capped n)) with (Spiral n). destruct (ex_pt n 0 ltac:(lia)) as [-> ->]. rewrite ex_lon0, <- law_cos_dot. unfold law_cos. rewrite sin_0, Rminus_0_r, cos_0.
      pose proof (spiral_lat_range n 0 ltac:(lia)). assert (0 < cos (spiral_lat n 0)) by (apply cos_gt_0; lra). lra. }
    destruct (Rlt_dec 0 (pix_mu (ex_capped n) 0 0 0 0)) as [MU'|MU']; [|lra]. unfold cell_val. rewrite EA, acell_grid by auto.
    apply Rmult_lt_0_compat. lra. unfold rarea_at. apply Rdiv_lt_0_compat; lra.
Qed.

Theorem C105_light_source :
  forall label s lat0 lon0 orbit planet phase incl T D A M C pf f F ts,
  two_decimals label ->
  disk_view s lat0 lon0 orbit planet phase incl T D A M C pf -> 0 < disk s lat0 lon0 A ->
  distinct_labels label s M T D -> (appears (st_grid s) M T \/ D = 0) -> lists_temps s M T D ts ->
  exists tot cov tot0 cov0,
    calc_coverage s lat0 lon0 (Fin f) orbit planet phase incl = Ok (tot, cov, pf)
    /\ calc_coverage s lat0 lon0 (Fin 0) orbit planet phase incl = Ok (tot0, cov0, pf)
    /\ let out := report_flux label F ts tot in let lost := report_flux label F ts cov in let hidden := dict_sum cov in
       let B := phot_flux F T D f in
       (* the light lost is that of what lies behind the planet *)
       (forall lo hi, ld_nonneg s -> (forall j i, behind_planet s lat0 lon0 C j i -> lo <= pix_flux F T D f M j i <= hi) ->
          lo * hidden <= lost <= hi * hidden)
       (* the planet in front of the photosphere: spots and faculae elsewhere change the depth *)
       /\ (0 < B -> (forall j i, behind_planet s lat0 lon0 C j i -> acell M j i NaN = Fin T) ->
            lost = B * hidden
            /\ out = B * (1 - deficit label F T B ts tot0)
            /\ (out <> 0 -> lost / out = hidden / (1 - deficit label F T B ts tot0))
            /\ (ld_nonneg s -> 0 < out ->
                 ((forall j i, pixel (st_grid s) j i -> 0 < pix_mu s lat0 lon0 j i -> pix_flux F T D f M j i <= B) -> hidden <= lost / out)
                 /\ ((forall j i, pixel (st_grid s) j i -> 0 < pix_mu s lat0 lon0 j i -> B <= pix_flux F T D f M j i) -> lost / out <= hidden)
                 /\ ((forall j i, pixel (st_grid s) j i -> 0 < pix_mu s lat0 lon0 j i -> pix_flux F T D f M j i <= B) ->
                     (exists j i, pixel (st_grid s) j i /\ 0 < seen s lat0 lon0 A j i /\ pix_flux F T D f M j i < B) ->
                     0 < hidden -> hidden < lost / out))).
Proof. exact C105_lemma. Qed.
Print Assumptions C105_light_source.
Theorem C105_colours :
  forall label s lat0 lon0 orbit planet phase incl T D A M C pf f F G ts,
  two_decimals label ->
  disk_view s lat0 lon0 orbit planet phase incl T D A M C pf -> 0 < disk s lat0 lon0 A ->
  distinct_labels label s M T D -> (appears (st_grid s) M T \/ D = 0) -> lists_temps s M T D ts -> ld_nonneg s ->
  0 < phot_flux F T D f -> 0 < phot_flux G T D f ->
  (* the planet is in front of the photosphere *)
  (forall j i, behind_planet s lat0 lon0 C j i -> acell M j i NaN = Fin T) ->
  (* spots and faculae are darker, compared with the photosphere, in the colour F *)
  (forall j i, pixel (st_grid s) j i -> 0 < pix_mu s lat0 lon0 j i ->
     pix_flux F T D f M j i / phot_flux F T D f <= pix_flux G T D f M j i / phot_flux G T D f) ->
  exists tot cov, calc_coverage s lat0 lon0 (Fin f) orbit planet phase incl = Ok (tot, cov, pf)
    /\ let depth := fun H => report_flux label H ts cov / report_flux label H ts tot in
       (0 < report_flux label F ts tot -> depth G <= depth F)
       (* a star without spots and faculae: the same depth in all colours, the hidden part of the disk *)
       /\ ((forall j i, pixel (st_grid s) j i -> 0 < pix_mu s lat0 lon0 j i -> acell M j i NaN = Fin T) ->
           depth F = dict_sum cov /\ depth G = dict_sum cov).
Proof. exact C105_colours_lemma. Qed.
Print Assumptions C105_colours.
Theorem C105_more_spots :
  forall label s l lat0 lon0 orbit planet phase incl T D A M M' C C' pf pf' f F ts ts',
  two_decimals label ->
  disk_view s lat0 lon0 orbit planet phase incl T D A M C pf ->
  disk_view (star_add_spot s l) lat0 lon0 orbit planet phase incl T D A M' C' pf' ->
  fcc_facs (st_facs s) = [] ->
  (forall x, In x (sc_spots (st_spots s)) -> fin_temps x) -> (forall x, In x l -> fin_temps x) ->
  ld_nonneg s -> 0 < disk s lat0 lon0 A ->
  distinct_labels label s M T D -> (appears (st_grid s) M T \/ D = 0) -> lists_temps s M T D ts ->
  distinct_labels label (star_add_spot s l) M' T D -> (appears (st_grid s) M' T \/ D = 0) -> lists_temps (star_add_spot s l) M' T D ts' ->
  (forall t t', t <= t' -> F t <= F t') ->
  f = 0 \/ (0 <= f <= 1 /\ 0 <= D /\ forall x t, In x l -> sp_teff_umbra x = Fin t \/ sp_teff_pen x = Fin t -> t <= T - D) ->
  exists tot cov tot' cov',
    calc_coverage s lat0 lon0 (Fin f) orbit planet phase incl = Ok (tot, cov, pf)
    /\ calc_coverage (star_add_spot s l) lat0 lon0 (Fin f) orbit planet phase incl = Ok (tot', cov', pf)
    /\ let out := report_flux label F ts tot in let lost := report_flux label F ts cov in
       let out' := report_flux label F ts' tot' in let lost' := report_flux label F ts' cov' in
       (* the planet hides the same part of the disk, but less light *)
       dict_sum cov' = dict_sum cov /\ out' <= out /\ lost' <= lost
       (* new spots that are nowhere behind the planet: a deeper transit *)
       /\ ((forall j i, behind_planet s lat0 lon0 C j i -> acell M' j i NaN = acell M j i NaN) ->
           lost' = lost /\ (0 <= lost -> 0 < out' -> lost / out <= lost' / out')).
Proof. exact C105_spots_lemma. Qed.
Print Assumptions C105_more_spots.
Lemma ex_capped_labels : forall m A M' C, disk_view (ex_capped m) 0 0 1 (1/10) PI (PI/2) 3300 200 A M' C (Fin 1) ->
  (forall j i, pixel (Spiral m) j i -> acell M' j i NaN = Fin 2500 \/ acell M' j i NaN = Fin 2700 \/ acell M' j i NaN = Fin 3300) ->
  distinct_labels (fun t => fmt2 (Fin t)) (ex_capped m) M' 3300 200.
Proof.
  intros m A M' C V TT t t' I I' E. apply (ex_labels (fun t => fmt2 (Fin t)) 200 fmt2_two_decimals (or_intror eq_refl)); auto;
    unfold listed, appears in *; change (st_grid (ex_capped m)) with (Spiral m) in *; [destruct I as [[j [i [P K]]]| ->]|destruct I' as [[j [i [P K]]]| ->]];
    cbn [In]; try tauto; destruct (TT j i P) as [K'|[K'|K']]; rewrite K' in K; injection K as <-; tauto.
Qed.
(** both stars of the example, their labels, and the light behind the planet *)
Example C105_nonvacuous : exists label s A M C ts, two_decimals label
  /\ disk_view s 0 0 1 (1/10) PI (PI/2) 3300 200 A M C (Fin 1) /\ 0 < disk s 0 0 A
  /\ distinct_labels label s M 3300 200 /\ appears (st_grid s) M 3300 /\ lists_temps s M 3300 200 ts /\ ld_nonneg s
  /\ (forall j i, behind_planet s 0 0 C j i -> acell M j i NaN = Fin 3300)
  /\ (exists j i, pixel (st_grid s) j i /\ 0 < seen s 0 0 A j i /\ acell M j i NaN = Fin 2500)
  /\ (forall j i, pixel (st_grid s) j i -> acell M j i NaN = Fin 2500 \/ acell M j i NaN = Fin 2700 \/ acell M j i NaN = Fin 3300)
  /\ exists tot cov, calc_coverage s 0 0 (Fin 0) 1 (1/10) PI (PI/2) = Ok (tot, cov, Fin 1) /\ 0 < dict_sum cov.
Proof.
  destruct ex_source as [m [C1 [Q [Hm [A [M [M' [C [V [V' [DP [CL [BH [TT [AP [UM SE]]]]]]]]]]]]]]]]. set (n := (m ^ 3)%nat) in *.
  assert (DL := ex_capped_labels _ _ _ _ V' TT).
  destruct (ex_lists_temps _ _ _ _ _ _ _ _ _ _ _ _ _ V' ltac:(lra)) as [ts LT].
  exists (fun t => fmt2 (Fin t)), (ex_capped n), A, M', C, ts. split. apply fmt2_two_decimals. split; auto. split; auto. split; auto. split; auto. split; auto.
  split. { intros x Hx. change (st_u1 _) with 0. change (st_u2 _) with 0. lra. } split; auto. split. { exists 0%nat, 0%nat. split. change (pixel (Spiral n) 0 0). apply ex_pixel. lia. auto. }
  split; auto.
  assert (XY : sky_x (ex_capped n) 1 PI = 0 /\ sky_y (ex_capped n) 1 PI (PI/2) = 0 /\ sky_r (ex_capped n) (1/10) = 1/10).
  { unfold sky_x, sky_y, sky_r. change (st_radius _) with 1. rewrite sin_PI, cos_PI2. repeat split; field. }
  destruct XY as [EX [EY ER]]. assert (RD : rounding 0 0 (1/10) = 0). { unfold rounding. rewrite Rabs_R0, Rmin_left by lra. lra. }
  destruct (C81_uniform_lemma (fun t => fmt2 (Fin t)) (ex_capped n) 0 0 1 (1/10) PI (PI/2) 3300 200 A M' C (Fin 1) 0 (/ INR m)) as [tot [cov [E K]]]; auto; try lra.
  - apply fmt2_two_decimals.
  - rewrite cos_PI; lra.
  - rewrite EX, EY, ER. unfold depth_error. rewrite RD. replace (0 ^ 2 + 0 ^ 2) with 0 by ring. rewrite sqrt_0.
    assert (sqrt ((1/10) ^ 2 + (0 + 1000 * sqrt (/ INR m))) <= 1) by (apply sqrt_le_of_sq; lra). lra.
  - exists tot, cov. split; auto. rewrite EX, EY, ER, RD in K. apply Rabs_le_between in K. lra.
Qed.
Example C105_colours_nonvacuous : exists F G : R -> R, 0 < phot_flux F 3300 200 0 /\ 0 < phot_flux G 3300 200 0
  /\ F 2500 / F 3300 < G 2500 / G 3300 /\ forall t, t = 2500 \/ t = 2700 \/ t = 3300 -> F t / F 3300 <= G t / G 3300.
Proof. exists (fun t => t ^ 4), (fun t => t). unfold phot_flux. split. lra. split. lra. split. lra. intros t [->|[->| ->]]; lra. Qed.
Example C105_spots_nonvacuous : exists label s l A M M' C C' ts ts', two_decimals label
  /\ disk_view s 0 0 1 (1/10) PI (PI/2) 3300 200 A M C (Fin 1) /\ disk_view (star_add_spot s l) 0 0 1 (1/10) PI (PI/2) 3300 200 A M' C' (Fin 1)
  /\ fcc_facs (st_facs s) = [] /\ (forall x, In x (sc_spots (st_spots s)) -> fin_temps x) /\ (forall x, In x l -> fin_temps x) /\ l <> []
  /\ ld_nonneg s /\ 0 < disk s 0 0 A
  /\ distinct_labels label s M 3300 200 /\ appears (st_grid s) M 3300 /\ lists_temps s M 3300 200 ts
  /\ distinct_labels label (star_add_spot s l) M' 3300 200 /\ appears (st_grid s) M' 3300 /\ lists_temps (star_add_spot s l) M' 3300 200 ts'
  /\ (forall x t, In x l -> sp_teff_umbra x = Fin t \/ sp_teff_pen x = Fin t -> t <= 3300 - 200)
  /\ (forall j i, behind_planet s 0 0 C j i -> acell M' j i NaN = acell M j i NaN)
  /\ acell M 0 0 NaN = Fin 3300 /\ acell M' 0 0 NaN = Fin 2500.
Proof.
  destruct ex_source as [m [C1 [Q [Hm [A [M [M' [C [V [V' [DP [CL [BH [TT [AP [UM SE]]]]]]]]]]]]]]]]. set (n := (m ^ 3)%nat) in *.
  assert (P0 : pixel (Spiral n) 0 0) by (apply ex_pixel; lia).
  destruct (ex_lists_temps _ _ _ _ _ _ _ _ _ _ _ _ _ V' ltac:(lra)) as [ts' LT']. destruct (ex_lists_temps _ _ _ _ _ _ _ _ _ _ _ _ _ V ltac:(change (disk (ex_capped n) 0 0 A <> 0); lra)) as [ts LT].
  exists (fun t => fmt2 (Fin t)), (ex_spotted n 0 0 []), [ex_polar (PI/2) n], A, M, M', C, C, ts, ts'. split. apply fmt2_two_decimals. split; auto. split; auto. split; auto.
  split. intros x []. split. { intros x [<-|[]]. split; eexists; reflexivity. } split. discriminate.
  split. { intros x Hx. change (st_u1 _) with 0. change (st_u2 _) with 0. lra. } split; auto.
  split. { intros t t' I I' E. apply (ex_labels (fun t => fmt2 (Fin t)) 200 fmt2_two_decimals (or_intror eq_refl)); auto;
    unfold listed, appears in *; change (st_grid (ex_spotted n 0 0 [])) with (Spiral n) in *; [destruct I as [[j [i [P K]]]| ->]|destruct I' as [[j [i [P K]]]| ->]];
    cbn [In]; try tauto; rewrite CL in K by auto; injection K as <-; tauto. }
  split. { exists 0%nat, 0%nat. split; auto. } split; auto. split. apply (ex_capped_labels _ A M' C); auto. split; auto. split; auto.
  split. { intros x t [<-|[]] [E|E]; [change (Fin 2500 = Fin t) in E|change (Fin 2700 = Fin t) in E]; injection E as <-; lra. }
  split. { intros j i B. rewrite (BH j i B). symmetry. apply CL. apply B. } split; auto.
Qed.
