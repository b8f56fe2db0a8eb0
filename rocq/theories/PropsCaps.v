(** Properties C89-C90: grids of different kinds; the photosphere's share of the disk *)
From Coq Require Import Reals ZArith Bool String List Lra Lia.
From Coquelicot Require Import Coquelicot.
From Verif Require Import Num Py MConfig MHelpers MGrid MSpots MFaculae MXoflares MFlares MGranules MStar MWarn
  Spec SpecStar SpecDisk SpecConv SpecWarn SpecKinds SpecCaps LBase LGrid LHelpers LSpotMap LSpotCov LFac LStarFac LDisk LStar LStarCov LObserve LWarn LKinds LFlux LFacDisk PropsStar PropsConv.
Import ListNotations.
Open Scope R_scope.

(** C89: a spiral and a rectangular facula are added to a rectangular collection *)
Theorem C89_adding_faculae :
  forall c new,
  (fcc_add c new = Raise TypeError <-> is_spiral (fcc_grid c) /\ exists f, In f new /\ ~ is_spiral (fc_grid f))
  /\ (forall c', fcc_add c new = Ok c' ->
       (forall w, In w (fcc_add_warnings c new) -> w = WGridKinds)
       /\ (is_spiral (fcc_grid c) -> fcc_add_warnings c new = [])
       /\ (~ is_spiral (fcc_grid c) -> forall odd, keeps (fun f => is_spiral (fc_grid f)) new odd ->
             length (fcc_add_warnings c new) = length odd)).
Proof. exact C89_lemma. Qed.
Print Assumptions C89_adding_faculae.
Example C89_nonvacuous : exists c new c', fcc_add c new = Ok c' /\ ~ is_spiral (fcc_grid c)
  /\ keeps (fun f => is_spiral (fc_grid f)) new [ex_facula 5 150] /\ length new = 2%nat.
Proof.
  exists (mkFacColl [] (Rect 4 3)), [ex_facula 5 150; fac_assign_grid (ex_facula 5 150) (Rect 4 3)]. eexists. split. reflexivity.
  split. simpl; auto. split; [|reflexivity]. apply keeps_in. simpl; auto. apply keeps_out. simpl; auto. constructor.
Qed.
Theorem C89_building_stars :
  forall teff radius period spots facs gp flg spg fcg gran u1 u2 s,
  star_init teff radius period spots facs gp flg spg fcg gran u1 u2 = Ok s ->
  let W := star_init_warnings (st_grid s) spg fcg in
  let odd := fun g => is_spiral g /\ ~ is_spiral (st_grid s) in
  (forall w, In w W -> w = WGridKinds)
  /\ (forall x y, spg = Some x -> fcg = Some y -> (length W = 2%nat <-> odd (sg_grid x) /\ odd (fg_grid y))
        /\ (W = [] <-> ~ odd (sg_grid x) /\ ~ odd (fg_grid y)))
  /\ (forall x, spg = Some x -> fcg = None -> (length W = 1%nat <-> odd (sg_grid x)) /\ (W = [] <-> ~ odd (sg_grid x)))
  /\ (forall y, spg = None -> fcg = Some y -> (length W = 1%nat <-> odd (fg_grid y)) /\ (W = [] <-> ~ odd (fg_grid y)))
  /\ (spg = None -> fcg = None -> W = [])
  /\ sg_grid (st_spotgen s) = st_grid s /\ fg_grid (st_facgen s) = st_grid s.
Proof. exact C89_init_lemma. Qed.
Print Assumptions C89_building_stars.
Example C89_init_nonvacuous : exists s x y, star_init (Fin 3300) 1 30 (mkSpotColl [] (Spiral 9)) (mkFacColl [] (Spiral 9)) (PyTuple [PyInt 4; PyInt 3]) None (Some x) (Some y) None 0 0 = Ok s
  /\ is_spiral (sg_grid x) /\ is_spiral (fg_grid y) /\ ~ is_spiral (st_grid s).
Proof. eexists. exists (sg_off (Spiral 5)), (fg_off (Spiral 7)). split. reflexivity. simpl. auto. Qed.
Theorem C89_births :
  forall s time p d s', star_unified s -> star_birth_faculae s time p d = Ok s' ->
  exists new, fg_birth (st_facgen s) time (st_radius s * RSUN_KM) p d = Ok new
    /\ fcc_facs (st_facs s') = fcc_facs (st_facs s) ++ new /\ fcc_add_warnings (st_facs s) new = [].
Proof. exact C89_births_lemma. Qed.
Print Assumptions C89_births.
Example C89_births_nonvacuous : exists s d s', star_unified s /\ star_birth_faculae s (Fin 1) 2 d = Ok s' /\ length (fcc_facs (st_facs s')) = 2%nat.
Proof.
  set (fg := fg_with_coverage (fg_off (Rect 3 3)) (Fin (1/10))).
  set (r := star_init (Fin 3300) 1 30 (mkSpotColl [] (Spiral 9)) (mkFacColl [] (Spiral 9)) (PyInt 4) None None (Some fg) None 0 0).
  assert (exists s, r = Ok s) as [s E] by (eexists; reflexivity). exists s, (mkFDraws (fun _ => 0) (fun _ => 0) (fun _ => 0)).
  assert (U : star_unified s) by (unfold r in E; apply star_init_unified in E; apply E).
  unfold r in E. injection E as E. pose proof E as E'. subst s. eexists. split. exact U.
  unfold star_birth_faculae, fg_birth.
  match goal with |- context [fg_n_expected ?g (Fin 1) ?R] => change g with (fg_with_coverage (fg_off (Spiral 4)) (Fin (1/10))); change R with (1 * RSUN_KM) end.
  destruct C34_lemma as [X _]. destruct (X (fg_off (Spiral 4)) 100 6 (1 * RSUN_KM)) as [k [K [EK _]]]; try reflexivity; try lra. unfold RSUN_KM; lra.
  rewrite EK. unfold poisson. destruct (Rlt_dec _ _); [lra|]. destruct (Req_EM_T _ _); [lra|]. cbn [bind]. split; reflexivity.
Qed.

(** C90: a facula covering 60 degrees around the north pole, a spot of the same size around
    the south pole, seen from above the north pole *)
Definition ex_polfac : facula :=
  {| fc_lat := PI/2; fc_lon := 0; fc_rmax := Fin (PI/3 * (1 * SUN_KM)); fc_radius := Fin (PI/3 * (1 * SUN_KM)); fc_depth := Fin 100; fc_life := Fin 6;
     fc_fslope := Fin 0; fc_fminrad := Fin 20; fc_fbase := Fin (-100); fc_wslope := Fin 0; fc_wint := Fin 150;
     fc_growing := false; fc_grid := Spiral 5 |}.
Definition ex_ncap : cap := mkCap (PI/2) 0 (PI/3) 0.
Definition ex_scap : cap := mkCap (- (PI/2)) 0 (PI/3) PI.
Lemma ex_polfac_rounds : forall r, round_teff (Fin (wall_diff r 0 150)) = Ok 150%Z /\ round_teff (Fin (floor_diff r 0 20 (-100))) = Ok (-100)%Z.
Proof.
  intros r. unfold wall_diff, floor_diff. cbn [round_teff]. split; f_equal.
  replace (150 + 0 * r) with 150 by ring. apply (rhe_IZR 150).
  replace (-100 + 0 * (r - 20)) with (-100) by ring. apply (rhe_IZR (-100)).
Qed.
Lemma ex_polfac_drawable : forall g, drawable (PI/2) 0 (fac_assign_grid ex_polfac g).
Proof.
  intros g. exists (PI/3 * (1 * SUN_KM)), 100, 0, 20, (-100), 0, 150, 150%Z, (-100)%Z. split. repeat split. split. pose proof PI_RGT_0. unfold SUN_KM. lra.
  split. lra. split. apply ex_polfac_rounds. split. apply ex_polfac_rounds. split. discriminate.
  cbn [fc_lat fc_lon fac_assign_grid ex_polfac]. rewrite cos_sep_self. lra.
Qed.
Lemma ex_polfac_contrast : forall g k, contrast (PI/2) 0 (fac_assign_grid ex_polfac g) k <-> k = 150%Z \/ k = (-100)%Z.
Proof.
  intros g k. apply (C84_contrast_lemma _ _ _ (PI/3 * (1 * SUN_KM)) 100 0 20 (-100) 0 150); try lra. repeat split. pose proof PI_RGT_0. unfold SUN_KM. lra.
  apply ex_polfac_rounds. apply ex_polfac_rounds. discriminate.
  cbn [fc_lat fc_lon fac_assign_grid ex_polfac]. rewrite cos_sep_self. lra.
Qed.
Definition ex_capstar (n : nat) : star := ex_star n [ex_polar (- (PI/2)) n] [ex_polfac] 3300 200.
Lemma ex_middle' : forall m, (3 <= m)%nat -> exists i, (i < m)%nat /\ Rabs (sin (spiral_lat m i)) < 1/2.
Proof.
  intros m H. exists (m / 2)%nat. assert (D := Nat.div_mod_eq m 2). pose proof (Nat.mod_upper_bound m 2 ltac:(lia)) as B. assert (L : (m / 2 < m)%nat) by lia. split; auto.
  rewrite spiral_sin_lat by auto. assert (M : 3 <= INR m) by (replace 3 with (INR 3) by (simpl; lra); apply le_INR; lia).
  assert (E : INR m = 2 * INR (m / 2) + INR (m mod 2)). { rewrite D at 1. rewrite plus_INR, mult_INR. auto. }
  assert (B0 : 0 <= INR (m mod 2) <= 1). { split. apply pos_INR. change 1 with (INR 1). apply le_INR. lia. }
  replace (1 - 2 * (INR (m / 2) + 1/2) / INR m) with ((INR (m mod 2) - 1) / INR m) by (rewrite E; field; lra).
  unfold Rdiv. rewrite Rabs_mult, (Rabs_right (/ INR m)) by (apply Rle_ge, Rlt_le, Rinv_0_lt_compat; lra).
  assert (/ INR m <= / 3) by (apply Rinv_le_contravar; lra). assert (0 < / INR m) by (apply Rinv_0_lt_compat; lra).
  assert (Rabs (INR (m mod 2) - 1) <= 1) by (apply Rabs_le; lra). pose proof (Rabs_pos (INR (m mod 2) - 1)). nra.
Qed.
Lemma ex_capstar_ok : forall n, (3 <= n)%nat -> marked (ex_capstar n) (PI/2) 0 3300 [ex_scap] [ex_ncap].
Proof.
  intros n Hn. pose proof PI_RGT_0 as PP. assert (RR : st_radius (ex_capstar n) = 1) by reflexivity. split.
  - apply ex_unified.
  - simpl; lra.
  - reflexivity.
  - constructor; [|constructor]. split. reflexivity. split. reflexivity. rewrite RR. split. exists 500000. split. reflexivity.
    split. cbn [c_radius ex_scap]. lra. cbn [c_radius ex_scap]. rewrite cos_PI3. lra. split. exists 4. split. reflexivity. lra.
    exists 2500, 2700. split. reflexivity. split. reflexivity. lra.
  - constructor; [|constructor]. rewrite RR. split. reflexivity. split. reflexivity. split. cbn [c_radius ex_ncap]. lra. split. reflexivity.
    split. apply ex_polfac_drawable. intros k K. apply ex_polfac_contrast in K. destruct K as [-> | ->]; rewrite clip_quiet by lra; intros E; injection E as E; lra.
  - cbn [app]. constructor; [|constructor; constructor]. constructor; [|constructor]. intros a [B E]. cbn [c_radius c_lat c_lon ex_scap ex_ncap] in *.
    assert (C : cos a = -1). { rewrite E. rewrite <- law_cos_dot. unfold law_cos. rewrite sin_neg, cos_neg, sin_PI2, cos_PI2. lra. }
    apply Rnot_le_lt. intro K. pose proof (cos_decreasing_1 a PI ltac:(lra) ltac:(lra) ltac:(lra) ltac:(lra) ltac:(lra)). rewrite cos_PI in *. lra.
  - intros c [<-|[<-|[]]]; split; try split; cbn [c_angle c_radius c_lat c_lon ex_scap ex_ncap]; try lra.
    + rewrite cos_PI. rewrite <- law_cos_dot. unfold law_cos. rewrite sin_neg, cos_neg, sin_PI2, cos_PI2. lra.
    + rewrite cos_0, cos_sep_self. auto.
  - destruct (ex_middle' n Hn) as [i [Hi Q]]. exists 0%nat, i. change (st_grid _) with (Spiral n). split. apply ex_pixel; auto.
    intros c I. apply Rabs_def2 in Q. rewrite (proj1 (ex_pt n i Hi)). set (lon := pix_lon _ _ _).
    rewrite <- law_cos_dot. unfold law_cos.
    destruct I as [<-|[<-|[]]]; cbn [c_radius c_lat c_lon ex_scap ex_ncap]; rewrite cos_PI3, ?sin_neg, ?cos_neg, sin_PI2, cos_PI2; lra.
Qed.
Lemma ex_capstar_temps : forall n M, (3 <= n)%nat -> add_faculae_to_map (ex_capstar n) (PI/2) 0 = Ok M ->
  forall t, listed (ex_capstar n) M 3300 200 t -> In t [3450; 3200; 2500; 2700; 3300; 3100].
Proof.
  intros n M Hn HM t [[j [i [P E]]]| ->]. 2:{ replace (3300 - 200) with 3100 by lra. simpl; auto 10. }
  destruct (ex_capstar_ok n Hn) as [U HR HT _ _ _ _ _].
  destruct (C54_lemma _ _ _ _ _ U HR ltac:(intros f [<-|[]]; eexists; reflexivity) (star_map_eq _ U) HM) as [_ [A B]].
  destruct (Classical_Prop.classic (fac_covers (ex_capstar n) (fac_assign_grid ex_polfac (Spiral n)) j i)) as [C|C].
  - destruct (B [] (fac_assign_grid ex_polfac (Spiral n)) [] eq_refl) as [a [kw [kf [q [q' [b [A1 [A2 [_ [A4 _]]]]]]]]]]. exists j, i. auto.
    destruct (A4 j i P C ltac:(intros ? [])) as [W F]. rewrite HT in W, F. cbn [nadd] in W, F.
    assert (Kw : contrast (PI/2) 0 (fac_assign_grid ex_polfac (Spiral n)) kw) by (eexists a, _; split; [exact A1|split; [exact A2|left; auto]]).
    assert (Kf : contrast (PI/2) 0 (fac_assign_grid ex_polfac (Spiral n)) kf) by (eexists a, _; split; [exact A1|split; [exact A2|right; left; auto]]).
    apply ex_polfac_contrast in Kw. apply ex_polfac_contrast in Kf.
    assert (X : acell M j i NaN = Fin 3450 \/ acell M j i NaN = Fin 3200).
    { destruct (Rle_or_lt (pix_mu (ex_capstar n) (PI/2) 0 j i) b) as [Q|Q].
      rewrite (W Q). destruct Kw as [-> | ->]; rewrite clip_quiet by lra; [left|right]; f_equal; lra.
      rewrite (F Q). destruct Kf as [-> | ->]; rewrite clip_quiet by lra; [left|right]; f_equal; lra. }
    rewrite E in X. destruct X as [X|X]; injection X as ->; simpl; auto.
  - rewrite A in E; auto. 2:{ intros f [<-|[]]; auto. } rewrite acell_grid in E by auto. rewrite HT in E.
    destruct (fold_pv_fin_le (st_radius (ex_capstar n)) (acell (grid_points (st_grid (ex_capstar n))) j i (0, 0)) (sc_spots (st_spots (ex_capstar n))) 3300) as [v [V1 [_ V2]]].
    intros x [<-|[]]. split; eexists; reflexivity.
    cbv beta in E. rewrite V1 in E. injection E as <-. destruct V2 as [->|[x [[<-|[]] [X|X]]]]. simpl; auto 10.
    change (Fin 2500 = Fin v) in X. injection X as <-. simpl; auto. change (Fin 2700 = Fin v) in X. injection X as <-. simpl; auto 10.
Qed.
Theorem C90_photosphere_share :
  forall label s scs fcs lat0 lon0 orbit planet phase incl T D d,
  two_decimals label -> marked s lat0 lon0 T scs fcs -> gr_dteff (st_gran s) = Fin D ->
  fine_grid (st_grid s) -> resolution (st_grid s) d -> - PI/2 <= lat0 <= PI/2 ->
  0 <= orbit -> 0 <= planet -> (planet <= st_radius s \/ cos phase <= 0) ->
  st_u1 s = 0 -> st_u2 s = 0 ->
  (forall M, add_faculae_to_map s lat0 lon0 = Ok M -> distinct_labels label s M T D) ->
  exists tot cov pf, calc_coverage s lat0 lon0 (Fin 0) orbit planet phase incl = Ok (tot, cov, pf)
   /\ let filled := rsum (map cap_share (scs ++ fcs)) in
      let err := (484 * INR (length (scs ++ fcs)) + 320) * sqrt d in
      Rabs (entry tot (label T) - (1 - filled)) <= err.
Proof. exact C90_lemma. Qed.
Print Assumptions C90_photosphere_share.
Example C90_nonvacuous : forall e, 0 < e -> exists label s scs fcs d, two_decimals label /\ marked s (PI/2) 0 3300 scs fcs /\ gr_dteff (st_gran s) = Fin 200
  /\ fine_grid (st_grid s) /\ resolution (st_grid s) d /\ st_u1 s = 0 /\ st_u2 s = 0
  /\ (forall M, add_faculae_to_map s (PI/2) 0 = Ok M -> distinct_labels label s M 3300 200)
  /\ length scs = 1%nat /\ length fcs = 1%nat /\ rsum (map cap_share (scs ++ fcs)) = 3/4
  /\ (484 * INR (length (scs ++ fcs)) + 320) * sqrt d <= e.
Proof.
  intros e He. destruct (fine_d (e / 1288)) as [m [H2 Hm]]. lra. destruct (cube_ge m H2) as [C1 C2]. pose proof PI_RGT_0 as PP.
  set (n := (m ^ 3)%nat) in *. exists (fun t => fmt2 (Fin t)), (ex_capstar n), [ex_scap], [ex_ncap], (/ INR m). change (st_grid _) with (Spiral n).
  split. apply fmt2_two_decimals. split. apply ex_capstar_ok. lia. split. reflexivity.
  split. exact C1. split. apply res_spiral; lia. split. reflexivity. split. reflexivity. split.
  { intros M HM t t' H H' E. apply ex_capstar_temps in H; [|lia|auto]. apply ex_capstar_temps in H'; [|lia|auto]. apply label_gap, Rabs_le_inv in E.
    cbn [In] in H, H'. destruct H as [<-|[<-|[<-|[<-|[<-|[<-|[]]]]]]]; destruct H' as [<-|[<-|[<-|[<-|[<-|[<-|[]]]]]]]; lra. }
  split. reflexivity. split. reflexivity. cbn [map app rsum fold_right length]. unfold cap_share. cbn [c_angle c_radius ex_scap ex_ncap].
  rewrite cos_0, cos_PI, sin_PI3. rewrite Rmax_left, Rmax_right by lra. pose proof (sqrt_sqrt 3 ltac:(lra)) as S3. change (INR 2) with 2. split.
  replace ((sqrt 3 / 2) ^ 2) with (sqrt 3 * sqrt 3 / 4) by field. rewrite S3. lra. lra.
Qed.
