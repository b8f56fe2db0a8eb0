(** Property C106: the far side of the star *)
From Coq Require Import Reals ZArith Bool String List Lra Lia.
From Coquelicot Require Import Coquelicot.
From Verif Require Import Num Py MConfig MHelpers MGrid MSpots MFaculae MXoflares MFlares MGranules MStar
  Spec SpecStar SpecDisk SpecConv SpecFlux SpecFar LBase LGrid LHelpers LSpotMap LFac LDisk LStar LStarFac LStarCov LObserve LSpotDisk LFar PropsStar PropsConv.
Import ListNotations.
Open Scope R_scope.

Theorem C106_far_side :
  forall label s sl fl s' lat0 lon0 orbit planet phase incl T D A A' M M' C C' pf pf' f,
  two_decimals label ->
  star_add_fac (star_add_spot s sl) fl = Ok s' ->
  (forall x, In x sl -> spot_hidden (st_radius s) lat0 lon0 x) ->
  (forall g, In g fl -> fac_hidden (st_radius s) lat0 lon0 g) ->
  disk_view s lat0 lon0 orbit planet phase incl T D A M C pf ->
  disk_view s' lat0 lon0 orbit planet phase incl T D A' M' C' pf' ->
  disk s lat0 lon0 A <> 0 ->
  distinct_labels label s M T D -> distinct_labels label s' M' T D ->
  (appears (st_grid s) M T /\ appears (st_grid s) M' T \/ D = 0) ->
  exists tot cov tot' cov',
    calc_coverage s lat0 lon0 (Fin f) orbit planet phase incl = Ok (tot, cov, pf)
    /\ calc_coverage s' lat0 lon0 (Fin f) orbit planet phase incl = Ok (tot', cov', pf)
    /\ same_table label (listed s M T D) (listed s' M' T D) tot tot'
    /\ same_table label (listed s M T D) (listed s' M' T D) cov cov'
    /\ (forall F ts ts', lists_temps s M T D ts -> lists_temps s' M' T D ts' ->
          report_flux label F ts' tot' = report_flux label F ts tot
          /\ report_flux label F ts' cov' = report_flux label F ts cov).
Proof. exact C106_far_lemma. Qed.
Print Assumptions C106_far_side.
Theorem C106_same_front :
  forall label s s' lat0 lon0 orbit planet phase incl T D A A' M M' C C' pf pf' f,
  two_decimals label -> same_face s s' ->
  disk_view s lat0 lon0 orbit planet phase incl T D A M C pf ->
  disk_view s' lat0 lon0 orbit planet phase incl T D A' M' C' pf' ->
  disk s lat0 lon0 A <> 0 ->
  distinct_labels label s M T D -> distinct_labels label s' M' T D ->
  (appears (st_grid s) M T /\ appears (st_grid s) M' T \/ D = 0) ->
  same_front s lat0 lon0 M M' ->
  exists tot cov tot' cov',
    calc_coverage s lat0 lon0 (Fin f) orbit planet phase incl = Ok (tot, cov, pf)
    /\ calc_coverage s' lat0 lon0 (Fin f) orbit planet phase incl = Ok (tot', cov', pf)
    /\ same_table label (listed s M T D) (listed s' M' T D) tot tot'
    /\ same_table label (listed s M T D) (listed s' M' T D) cov cov'
    (* the same spectra *)
    /\ (forall F ts ts', lists_temps s M T D ts -> lists_temps s' M' T D ts' ->
          report_flux label F ts' tot' = report_flux label F ts tot
          /\ report_flux label F ts' cov' = report_flux label F ts cov).
Proof. exact C106_lemma. Qed.
Print Assumptions C106_same_front.
Theorem C106_hidden :
  forall s sl fl s' lat0 lon0 M M',
  star_unified s -> 0 < st_radius s ->
  star_add_fac (star_add_spot s sl) fl = Ok s' -> star_unified s' ->
  (forall x, In x sl -> spot_hidden (st_radius s) lat0 lon0 x) ->
  (forall f, In f fl -> fac_hidden (st_radius s) lat0 lon0 f) ->
  add_faculae_to_map s lat0 lon0 = Ok M -> add_faculae_to_map s' lat0 lon0 = Ok M' ->
  same_face s s' /\ same_front s lat0 lon0 M M'.
Proof. exact C106_front_lemma. Qed.
Print Assumptions C106_hidden.
(** a star of 100 points with a spot of 60 degrees and a facula around the north pole, seen from above the south pole *)
Definition ex_far_fac : facula :=
  {| fc_lat := PI/2; fc_lon := 0; fc_rmax := Fin 100000; fc_radius := Fin 100000; fc_depth := Fin 100; fc_life := Fin 6;
     fc_fslope := Fin 0; fc_fminrad := Fin 20; fc_fbase := Fin (-100); fc_wslope := Fin 0; fc_wint := Fin 150;
     fc_growing := false; fc_grid := Spiral 100 |}.
Lemma ex_far_rounds : round_teff (Fin (wall_diff 100000 0 150)) = Ok 150%Z /\ round_teff (Fin (floor_diff 100000 0 20 (-100))) = Ok (-100)%Z.
Proof.
  unfold wall_diff, floor_diff. cbn [round_teff]. split; f_equal.
  replace (150 + 0 * 100000) with 150 by ring. apply (rhe_IZR 150).
  replace (-100 + 0 * (100000 - 20)) with (-100) by ring. apply (rhe_IZR (-100)).
Qed.
Definition ex_dark : star := star_with_facs (star_add_spot (ex_spotted 100 0 0 []) [ex_polar (PI/2) 100]) (mkFacColl [ex_far_fac] (Spiral 100)).
Lemma ex_dark_eq : star_add_fac (star_add_spot (ex_spotted 100 0 0 []) [ex_polar (PI/2) 100]) [ex_far_fac] = Ok ex_dark.
Proof. reflexivity. Qed.
Lemma ex_dark_unified : star_unified ex_dark.
Proof.
  destruct (ex_spotted_unified 100 0 0 [ex_polar (PI/2) 100]) as [U1 [U2 [U3 [U4 [U5 U6]]]]].
  split; auto. split; auto. split; auto. split; [|split; auto]. intros f [<-|[]]. reflexivity.
Qed.
Lemma ex_pole_angle : is_angle (- (PI/2)) 0 (PI/2) 0 PI.
Proof. pose proof PI_RGT_0. split. lra. rewrite <- law_cos_dot. unfold law_cos. rewrite sin_neg, cos_neg, sin_PI2, cos_PI2, cos_PI. ring. Qed.
Lemma ex_far_thermal : fac_thermal ex_far_fac 100000 100 0 20 (-100) 0 150.
Proof. repeat split. Qed.
Lemma ex_far_labels : forall t t', In t [2500; 2700; 3300; 3100; 3450; 3200] -> In t' [2500; 2700; 3300; 3100; 3450; 3200] -> fmt2 (Fin t) = fmt2 (Fin t') -> t = t'.
Proof.
  intros t t' I I' E. destruct (fmt2_two_decimals t) as [c [E1 [B1 _]]]. destruct (fmt2_two_decimals t') as [c' [E2 [B2 _]]].
  rewrite E1, E2 in E. injection E as <-. apply Rabs_le_between in B1. apply Rabs_le_between in B2.
  cbn [In] in I, I'. destruct I as [<-|[<-|[<-|[<-|[<-|[<-|[]]]]]]]; destruct I' as [<-|[<-|[<-|[<-|[<-|[<-|[]]]]]]]; lra.
Qed.
Lemma ex_far_clip : forall x, 2300 <= x <= 3900 -> clip_teff (Fin x) = Fin x.
Proof. intros x H. unfold clip_teff, ngt, TEFF_HI, TEFF_LO. simpl. rcase; auto; exfalso; lra. Qed.
Lemma ex_far_temps : forall M j i, add_faculae_to_map ex_dark (- (PI/2)) 0 = Ok M -> pixel (Spiral 100) j i ->
  exists t, acell M j i NaN = Fin t /\ In t [2500; 2700; 3300; 3450; 3200]
  /\ (1/2 < sin (pix_lat (Spiral 100) j i) -> t <> 3300).
Proof.
  intros M j i HM P. assert (U := ex_dark_unified).
  destruct (C54_lemma ex_dark (- (PI/2)) 0 _ M U ltac:(simpl; lra) ltac:(intros f [<-|[]]; eexists; reflexivity) (star_map_eq _ U) HM) as [_ [A B]].
  destruct (Classical_Prop.classic (fac_covers ex_dark ex_far_fac j i)) as [K|K].
  - destruct (B [] ex_far_fac [] eq_refl) as [a [kw [kf [q [q' [b [A1 [A2 [_ [A3 _]]]]]]]]]]; [eauto|].
    destruct ex_far_rounds as [R1 R2].
    destruct (C31_lemma _ _ _ _ _ _ _ _ _ _ ex_far_thermal ltac:(lra) ltac:(lra) R1 R2 ltac:(discriminate)) as [w [W _]].
    assert (a = PI) by (eapply is_angle_unique; [exact A1|apply ex_pole_angle]). subst a.
    destruct (W PI ltac:(rewrite cos_PI; lra)) as [_ [W2 _]]. rewrite W2 in A2. injection A2 as <- _ <- _.
    destruct (A3 j i P K ltac:(intros f' [])) as [C1 C2]. change (st_teff ex_dark) with (Fin 3300) in *.
    destruct (Rle_lt_dec (pix_mu ex_dark (- (PI/2)) 0 j i) b) as [L|L].
    + exists 3450. split; [|split; [simpl; tauto|intros; lra]]. rewrite C1 by auto. rewrite nadd_fin. replace (150 + 3300) with 3450 by ring. apply ex_far_clip. lra.
    + exists 3200. split; [|split; [simpl; tauto|intros; lra]]. rewrite C2 by auto. rewrite nadd_fin. replace (-100 + 3300) with 3200 by ring. apply ex_far_clip. lra.
  - rewrite A; auto.
    2:{ intros f [<-|[]]; auto. }
    change (st_grid ex_dark) with (Spiral 100). rewrite acell_grid by auto.
    change (sc_spots (st_spots ex_dark)) with [ex_polar (PI/2) 100]. cbn [fold_left]. unfold pv. change (st_teff ex_dark) with (Fin 3300).
    change (sp_teff_umbra (ex_polar (PI/2) 100)) with (Fin 2500). change (sp_teff_pen (ex_polar (PI/2) 100)) with (Fin 2700).
    destruct (_ && _). { exists 2500. split; auto. split. simpl; tauto. intros; lra. }
    destruct (_ && _) eqn:E. { exists 2700. split; auto. split. simpl; tauto. intros; lra. }
    exists 3300. split; auto. split. simpl; tauto. intros Hs _. apply andb_false_iff in E. destruct E as [E|E].
    + unfold pen_b in E. change (st_radius ex_dark) with 1 in E. pose proof (cap_rad_eq 1 (ex_view (PI/2) 0 100) ltac:(lra) (ex_view_ok _ _ _)) as CR.
      change (v_spot (ex_view (PI/2) 0 100)) with (ex_polar (PI/2) 100) in CR. rewrite CR in E. cbn [nlt v_radius ex_view] in E.
      apply Rltb_false in E. assert (sep (ex_polar (PI/2) 100) (acell (grid_points (Spiral 100)) j i (0, 0)) < PI/3); [|lra].
      pose proof PI_RGT_0. unfold sep. apply acos_lt_iff. apply law_cos_bound. lra. rewrite cos_PI3. unfold law_cos. change (sp_lat _) with (PI/2). rewrite sin_PI2, cos_PI2.
      change (fst (acell (grid_points (Spiral 100)) j i (0, 0))) with (pix_lat (Spiral 100) j i). lra.
    + cbn [nlt] in E. apply Rltb_false in E. lra.
Qed.
Example C106_far_side_nonvacuous : exists label s sl fl s' A M M' C C' pf pf',
  two_decimals label /\ star_add_fac (star_add_spot s sl) fl = Ok s' /\ length sl = 1%nat /\ length fl = 1%nat
  /\ (forall x, In x sl -> spot_hidden (st_radius s) (- (PI/2)) 0 x)
  /\ (forall g, In g fl -> fac_hidden (st_radius s) (- (PI/2)) 0 g)
  /\ disk_view s (- (PI/2)) 0 100 (1/10) PI (PI/2) 3300 200 A M C pf
  /\ disk_view s' (- (PI/2)) 0 100 (1/10) PI (PI/2) 3300 200 A M' C' pf'
  /\ 0 < disk s (- (PI/2)) 0 A
  /\ distinct_labels label s M 3300 200 /\ distinct_labels label s' M' 3300 200
  /\ appears (st_grid s) M 3300 /\ appears (st_grid s) M' 3300
  (* on the far side the maps differ *)
  /\ exists j i, pixel (st_grid s) j i /\ acell M' j i NaN <> acell M j i NaN.
Proof.
  pose proof PI_RGT_0 as PP. pose proof PI2_3_2 as P3. set (s := ex_spotted 100 0 0 []).
  assert (FG : fine_grid (Spiral 100)) by (simpl; lia).
  assert (LP : forall x, 0 < x <= 1 -> 0 < 1 - 0 * (1 - x) - 0 * (1 - x)^2) by (intros; lra).
  destruct (C71_lemma s (- (PI/2)) 0 100 (1/10) PI (PI/2) 3300 200 (ex_spotted_unified 100 0 0 []) FG ltac:(change (st_radius s) with 1; lra) LP eq_refl eq_refl) as [A [M [C [pf [V [_ [DP _]]]]]]]; try lra.
  { intros x []. } { intros f []. } { left. change (st_radius s) with 1. lra. }
  destruct (C71_lemma ex_dark (- (PI/2)) 0 100 (1/10) PI (PI/2) 3300 200 ex_dark_unified FG ltac:(change (st_radius ex_dark) with 1; lra) LP eq_refl eq_refl) as [A' [M' [C' [pf' [V' [_ [DP' _]]]]]]]; try lra.
  { intros x [<-|[]]. split; eexists; reflexivity. }
  { intros f [<-|[]]. destruct ex_far_rounds as [R1 R2]. exists 100000, 100, 0, 20, (-100), 0, 150, 150%Z, (-100)%Z. split. apply ex_far_thermal.
    split. lra. split. lra. split; auto. split; auto. split. discriminate.
    change (fc_lat ex_far_fac) with (PI/2). change (fc_lon ex_far_fac) with 0. destruct ex_pole_angle as [_ <-]. rewrite cos_PI. lra. }
  { left. change (st_radius ex_dark) with 1. lra. }
  assert (A' = A). { destruct V as [_ _ _ _ _ _ K _ _ _], V' as [_ _ _ _ _ _ K' _ _ _]. change (st_grid ex_dark) with (Spiral 100) in K'. change (st_grid s) with (Spiral 100) in K. congruence. } subst A'.
  assert (SH : spot_hidden 1 (- (PI/2)) 0 (ex_polar (PI/2) 100)).
  { exists (PI/3), 4, PI. split. apply (cap_rad_eq 1 (ex_view (PI/2) 0 100)); [lra|apply ex_view_ok]. split. reflexivity. split. lra. split. apply ex_pole_angle. lra. }
  assert (FH : fac_hidden 1 (- (PI/2)) 0 ex_far_fac).
  { exists 100000, PI. split. reflexivity. split. apply ex_pole_angle. unfold SUN_KM. rewrite Rmult_1_l. lra. }
  assert (MM : forall j i, pixel (Spiral 100) j i -> acell M j i NaN = Fin 3300).
  { intros j i P. destruct V as [Vu _ _ _ _ _ _ K _ _]. unfold add_faculae_to_map in K. rewrite star_map_eq in K by auto. cbn [bind] in K.
    change (fcc_facs (st_facs s)) with (@nil facula) in K. cbn [paint_faculae] in K. injection K as <-. change (st_grid s) with (Spiral 100). rewrite acell_grid by auto. reflexivity. }
  assert (SM : same_front s (- (PI/2)) 0 M M').
  { apply (C106_front_lemma s [ex_polar (PI/2) 100] [ex_far_fac] ex_dark); first [apply V | apply V' | apply ex_dark_eq | intros x [<-|[]]; assumption]. }
  assert (P99 : pixel (Spiral 100) 0 99) by (apply ex_pixel; lia).
  assert (Q99 : 0 < pix_mu s (- (PI/2)) 0 0 99).
  { unfold pix_mu. change (st_grid s) with (Spiral 100). destruct (ex_pt 100 99 ltac:(lia)) as [-> ->]. rewrite <- law_cos_dot. unfold law_cos. rewrite sin_neg, cos_neg, sin_PI2, cos_PI2, spiral_sin_lat by lia.
    replace (INR 99) with 99 by (simpl; lra). replace (INR 100) with 100 by (simpl; lra). lra. }
  assert (L1 : forall t, listed s M 3300 200 t -> In t [2500; 2700; 3300; 3100; 3450; 3200]).
  { intros t [[j [i [P K]]]| ->]; cbn [In]. rewrite (MM j i P) in K; injection K as <-; tauto. right; right; right; left; lra. }
  assert (L2 : forall t, listed ex_dark M' 3300 200 t -> In t [2500; 2700; 3300; 3100; 3450; 3200]).
  { intros t [[j [i [P K]]]| ->]; cbn [In]. destruct (ex_far_temps M' j i ltac:(apply V') P) as [u [Eu [Iu _]]]. rewrite Eu in K; injection K as <-; cbn [In] in Iu; tauto. right; right; right; left; lra. }
  exists (fun t => fmt2 (Fin t)), s, [ex_polar (PI/2) 100], [ex_far_fac], ex_dark, A, M, M', C, C', (Fin pf), (Fin pf').
  split. apply fmt2_two_decimals. split. reflexivity. split. reflexivity. split. reflexivity.
  split. intros x [<-|[]]; auto. split. intros x [<-|[]]; auto. split; auto. split; auto. split; auto.
  split. { intros t t' I I'. apply ex_far_labels; [apply L1; auto|apply L1; auto]. }
  split. { intros t t' I I'. apply ex_far_labels; [apply L2; auto|apply L2; auto]. }
  split. { exists 0%nat, 99%nat. split; auto. } split. { exists 0%nat, 99%nat. split; auto. rewrite SM; auto. }
  exists 0%nat, 0%nat. assert (P0 : pixel (Spiral 100) 0 0) by (apply ex_pixel; lia). split; auto. rewrite MM by auto.
  destruct (ex_far_temps M' 0 0 ltac:(apply V') P0) as [u [-> [_ K]]]. intros X. injection X as X. revert X. apply K.
  destruct (ex_pt 100 0 ltac:(lia)) as [-> _]. rewrite spiral_sin_lat by lia. replace (INR 0) with 0 by reflexivity. replace (INR 100) with 100 by (simpl; lra). lra.
Qed.
