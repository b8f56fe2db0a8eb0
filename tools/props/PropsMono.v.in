(** Properties C85-C88: larger planets, histories, spectra, more spots *)
From Coq Require Import Reals ZArith Bool String List Lra Lia Sorted.
From Coquelicot Require Import Coquelicot.
From Verif Require Import Num Py MConfig MHelpers MGrid MSpots MFaculae MXoflares MFlares MGranules MStar
  Spec SpecStar SpecDisk SpecConv SpecFrame SpecHist SpecFlux LBase LGrid LSpotMap LSpotCov LFac LDisk LStar LStarCov LObserve LMono LHist LFlux PropsStar PropsConv PropsDepth.
Import ListNotations.
Open Scope R_scope.

(** C85: a planet of a tenth and one of a fifth of the stellar radius *)
@THM C85_larger_planets C85_lemma
@THM C85_same_star C85_total_lemma
Example C85_nonvacuous : exists s A M C pf C' pf' tot cov tot' cov',
  good_grid (st_grid s) /\ - PI/2 <= 0 <= PI/2 /\ 0 < st_radius s /\ 1/10 <= 1/5
  /\ disk_view s 0 0 10 (1/10) PI (PI/2) 3300 200 A M C pf /\ disk_view s 0 0 10 (1/5) PI (PI/2) 3300 200 A M C' pf'
  /\ disk s 0 0 A <> 0 /\ ld_nonneg s
  /\ calc_coverage s 0 0 (Fin (1/5)) 10 (1/10) PI (PI/2) = Ok (tot, cov, pf)
  /\ calc_coverage s 0 0 (Fin (1/5)) 10 (1/5) PI (PI/2) = Ok (tot', cov', pf').
Proof.
  set (s := ex_spotted 6 0 0 []). pose proof PI_RGT_0 as PP.
  assert (LP : ld_positive s) by (intros mu H; change (st_u1 s) with 0; change (st_u2 s) with 0; lra).
  destruct (ex_clean_view 6 0 0 0 0 10 (1/10) PI (PI/2)) as [A [M [C [pf [V [AP DL]]]]]]; auto; try lra; try lia. rewrite cos_PI; lra.
  destruct (ex_clean_view 6 0 0 0 0 10 (1/5) PI (PI/2)) as [A' [M' [C' [pf' [V' [AP' DL']]]]]]; auto; try lra; try lia. rewrite cos_PI; lra.
  fold s in V, V', AP, AP', DL, DL'.
  assert (A' = A). { pose proof (dv_area _ _ _ _ _ _ _ _ _ _ _ _ _ V) as K. pose proof (dv_area _ _ _ _ _ _ _ _ _ _ _ _ _ V') as K'. congruence. } subst A'.
  assert (M' = M). { pose proof (dv_map _ _ _ _ _ _ _ _ _ _ _ _ _ V) as K. pose proof (dv_map _ _ _ _ _ _ _ _ _ _ _ _ _ V') as K'. congruence. } subst M'.
  assert (ND : disk s 0 0 A <> 0).
  { destruct (C71_lemma s 0 0 10 (1/10) PI (PI/2) 3300 200) as [A1 [M1 [C1 [p1 [V1 [_ [D1 _]]]]]]]; auto; try lra.
    - apply ex_spotted_unified.
    - simpl; lia.
    - change (st_radius s) with 1; lra.
    - intros x [].
    - intros x [].
    - rewrite cos_PI; lra.
    - pose proof (dv_area _ _ _ _ _ _ _ _ _ _ _ _ _ V) as K. pose proof (dv_area _ _ _ _ _ _ _ _ _ _ _ _ _ V1) as K'. assert (A1 = A) by congruence. subst A1. lra. }
  assert (AT : appears (st_grid s) M 3300) by (apply AP; auto).
  destruct (C53_label_lemma _ _ _ _ _ _ _ _ _ _ _ _ _ _ (1/5) fmt2_two_decimals V ND DL (or_introl AT)) as [_ [_ [tot [cov [_ [H _]]]]]].
  destruct (C53_label_lemma _ _ _ _ _ _ _ _ _ _ _ _ _ _ (1/5) fmt2_two_decimals V' ND DL' (or_introl AT)) as [_ [_ [tot' [cov' [_ [H' _]]]]]].
  exists s, A, M, C, pf, C', pf', tot, cov, tot', cov'. split. apply V. split. lra. split. apply V. split. lra. split; auto. split; auto. split; auto.
  split; auto. intros mu H0. change (st_u1 s) with 0; change (st_u2 s) with 0; lra.
Qed.

(** C86: a star with a spot and a facula that waits, gets another spot, waits, gets another
    facula and waits twice *)
@THM C86_history C86_lemma
@THM C86_slicing C86_slicing_lemma
Lemma ex_spot2_wf : spot_wf ex_spot2.
Proof. exists 1000, 1000, (1/2), 10. repeat split; try reflexivity; lra. Qed.
Lemma ex_facula_wf : forall n w, fac_wf (fac_assign_grid (ex_facula n w) (Spiral n)).
Proof. intros. exists 1000, 1000, 6. repeat split; try reflexivity; lra. Qed.
Example C86_nonvacuous : exists s s' f, history s [Wait 1; NewSpots [ex_spot2]; Wait (1/2); NewFacs [f]; Wait 0; Wait 2] s'
  /\ sensible_history [Wait 1; NewSpots [ex_spot2]; Wait (1/2); NewFacs [f]; Wait 0; Wait 2]
  /\ (forall x, In x (sc_spots (st_spots s)) -> spot_wf x) /\ (forall f, In f (fcc_facs (st_facs s)) -> fac_wf f)
  /\ sc_spots (st_spots s) <> [] /\ fcc_facs (st_facs s) <> [].
Proof.
  set (s0 := ex_star 2 [ex_spot2] [ex_facula 2 150] 3300 300). set (f := fac_assign_grid (ex_facula 2 150) (Spiral 2)).
  assert (STEP : forall s t, 0 <= t -> (forall x, In x (sc_spots (st_spots s)) -> spot_wf x) -> (forall f, In f (fcc_facs (st_facs s)) -> fac_wf f) ->
     st_grid s = Spiral 2 /\ sc_grid (st_spots s) = Spiral 2 /\ fcc_grid (st_facs s) = Spiral 2 ->
     exists s', star_age s (Fin t) = Ok s' /\ (forall x, In x (sc_spots (st_spots s')) -> spot_wf x) /\ (forall f, In f (fcc_facs (st_facs s')) -> fac_wf f)
       /\ st_grid s' = Spiral 2 /\ sc_grid (st_spots s') = Spiral 2 /\ fcc_grid (st_facs s') = Spiral 2).
  { intros s t Ht W F [G1 [G2 G3]]. destruct (C86_slicing_lemma s [t]) as [s' [E [_ [W' F']]]]; auto.
    - intros x [<-|[]]; auto.
    - discriminate.
    - cbn [rsum fold_right] in E. rewrite Rplus_0_r in E. exists s'. split; auto. split; auto. split; auto.
      unfold star_age in E. apply bind_ok in E. destruct E as [c [E1 E2]]. injection E2 as <-. unfold sc_age in E1. apply bind_ok in E1. destruct E1 as [l [_ E1]]. injection E1 as <-.
      cbn. auto. }
  assert (W0 : forall x, In x (sc_spots (st_spots s0)) -> spot_wf x) by (intros x [<-|[]]; apply ex_spot2_wf).
  assert (F0 : forall x, In x (fcc_facs (st_facs s0)) -> fac_wf x) by (intros x [<-|[]]; apply ex_facula_wf).
  destruct (STEP s0 1 ltac:(lra) W0 F0) as [s1 [E1 [W1 [F1 G1]]]]. { repeat split. }
  set (s2 := star_add_spot s1 [ex_spot2]).
  assert (A2 : sc_spots (st_spots s2) = sc_spots (st_spots s1) ++ [ex_spot2]).
  { unfold s2. cbn [star_add_spot star_with_spots st_spots sc_add_spot sc_spots map]. f_equal. f_equal. destruct G1 as [_ [-> _]]. reflexivity. }
  assert (W2 : forall x, In x (sc_spots (st_spots s2)) -> spot_wf x).
  { intros x. rewrite A2. intros I. apply in_app_or in I. destruct I as [I|[<-|[]]]; auto. apply ex_spot2_wf. }
  destruct (STEP s2 (1/2) ltac:(lra) W2 F1 G1) as [s3 [E3 [W3 [F3 G3]]]].
  assert (A4 : exists s4, star_add_fac s3 [f] = Ok s4 /\ st_spots s4 = st_spots s3 /\ fcc_facs (st_facs s4) = fcc_facs (st_facs s3) ++ [f]
     /\ st_grid s4 = Spiral 2 /\ sc_grid (st_spots s4) = Spiral 2 /\ fcc_grid (st_facs s4) = Spiral 2).
  { unfold star_add_fac, fcc_add. destruct G3 as [G31 [G32 ->]]. cbn [mapM]. change (fc_grid f) with (Spiral 2). cbn [grid_eq bind Nat.eqb].
    eexists. split. reflexivity. cbn. auto. }
  destruct A4 as [s4 [A4 [A5 [A6 G4]]]].
  assert (W4 : forall x, In x (sc_spots (st_spots s4)) -> spot_wf x) by (rewrite A5; auto).
  assert (F4 : forall x, In x (fcc_facs (st_facs s4)) -> fac_wf x).
  { intros x. rewrite A6. intros I. apply in_app_or in I. destruct I as [I|[<-|[]]]; auto. apply ex_facula_wf. }
  destruct (STEP s4 0 ltac:(lra) W4 F4 G4) as [s5 [E5 [W5 [F5 G5]]]].
  destruct (STEP s5 2 ltac:(lra) W5 F5 G5) as [s6 [E6 _]].
  exists s0, s6, f. split.
  - apply (hist_age _ _ s1); auto. apply (hist_spots _ s2); auto. left. exists [ex_spot2]; auto.
    apply (hist_age _ _ s3); auto. apply (hist_facs _ s4); auto. left. exists [f]; auto.
    apply (hist_age _ _ s5); auto. apply (hist_age _ _ s6); auto. constructor.
  - split; [|split; [|split; [|split]]]; auto; try discriminate.
    intros x [<-|[<-|[<-|[<-|[<-|[<-|[]]]]]]]; try lra. intros x [<-|[]]; apply ex_spot2_wf. intros x [<-|[]]; apply ex_facula_wf.
Qed.

(** C87: any view has a list of its temperatures; a star with a facula, in transit *)
@THM C87_spectrum C87_lemma
Lemma ex_lists_temps : forall s lat0 lon0 orbit planet phase incl T D A M C pf,
  disk_view s lat0 lon0 orbit planet phase incl T D A M C pf -> disk s lat0 lon0 A <> 0 -> exists ts, lists_temps s M T D ts.
Proof.
  intros s lat0 lon0 orbit planet phase incl T D A M C pf V NW. destruct (calc_coverage_eq _ _ _ _ _ _ _ _ _ _ _ _ _ 0 V NW) as [ul [SS [Ap _]]].
  pose proof (sorted_NoDup _ SS) as ND. destruct (in_dec Req_EM_T (T - D) ul) as [I|I].
  - exists ul. split; auto. intros t. unfold listed. rewrite Ap. split; auto. intros [| ->]; auto.
  - exists (T - D :: ul). split. constructor; auto. intros t. unfold listed. rewrite Ap. cbn [In]. intuition.
Qed.
Example C87_nonvacuous : exists label s A M C ts, two_decimals label /\
  disk_view s (ex_lat 2) 0 100 (1/10) PI (PI/2) 3300 300 A M C (Fin 1) /\ disk s (ex_lat 2) 0 A <> 0
  /\ distinct_labels label s M 3300 300 /\ appears (st_grid s) M 3300 /\ lists_temps s M 3300 300 ts
  /\ (exists t, appears (st_grid s) M t /\ t <> 3300).
Proof.
  destruct C50_nonvacuous as [label [s [A [M [C [H1 [H2 [H3 [H4 [H5 [_ H6]]]]]]]]]]].
  destruct (ex_lists_temps _ _ _ _ _ _ _ _ _ _ _ _ _ H2 H3) as [ts L]. exists label, s, A, M, C, ts. tauto.
Qed.

(** C88: a star with a spot gets another *)
@THM C88_more_spots C88_lemma
Definition ex_spot6 : spot :=
  spot_init (spiral_lat 6 0) 0 (Fin 1000) (Fin 1000) (Fin 2500) (Fin 2700) (Fin 5) false (Fin (1/2)) (-1) (Fin 10) (Spiral 6).
Example C88_nonvacuous : exists s A M M' C C' pf pf',
  disk_view s (ex_lat 6) 0 100 (1/10) PI (PI/2) 3300 300 A M C pf
  /\ disk_view (star_add_spot s [ex_spot6]) (ex_lat 6) 0 100 (1/10) PI (PI/2) 3300 300 A M' C' pf'
  /\ fcc_facs (st_facs s) = [] /\ sc_spots (st_spots s) <> []
  /\ (forall x, In x (sc_spots (st_spots s)) -> fin_temps x) /\ fin_temps ex_spot6
  /\ ld_nonneg s /\ 0 < disk s (ex_lat 6) 0 A
  /\ (forall t, sp_teff_umbra ex_spot6 = Fin t \/ sp_teff_pen ex_spot6 = Fin t -> t <= 3300 - 300)
  /\ acell M' 0 0 NaN = Fin 2500.
Proof.
  set (s := ex_star 6 [ex_spot2] [] 3300 300).
  assert (S6 : forall x, In x [ex_spot6] -> spot_on (Spiral 6) x) by (intros x [<-|[]]; apply spot_init_on).
  assert (U : star_unified s) by apply ex_unified.
  assert (U' : star_unified (star_add_spot s [ex_spot6])).
  { eapply C59_lemma. apply (ex_init 6 [ex_spot2] [] 3300 300). eapply steps_more. 2: apply steps_none. apply step_add_spot. exact S6. }
  assert (LP : ld_positive s) by (intros mu H; change (st_u1 s) with 0; change (st_u2 s) with 0; lra).
  assert (F2 : fin_temps ex_spot2) by (split; eexists; reflexivity). assert (F6 : fin_temps ex_spot6) by (split; eexists; reflexivity).
  destruct (C71_lemma s (ex_lat 6) 0 100 (1/10) PI (PI/2) 3300 300) as [A [M [C [pf [V [_ [DP _]]]]]]]; auto; try lra; try (simpl; lia).
  { change (st_radius s) with 1; lra. } { intros x [<-|[]]; auto. } { apply ex_lat_range; lia. } { rewrite cos_PI; lra. }
  destruct (C71_lemma (star_add_spot s [ex_spot6]) (ex_lat 6) 0 100 (1/10) PI (PI/2) 3300 300) as [A' [M' [C' [pf' [V' _]]]]]; auto; try lra; try (simpl; lia).
  { change (st_radius (star_add_spot s [ex_spot6])) with 1; lra. } { intros x [<-|[<-|[]]]; auto. } { apply ex_lat_range; lia. } { rewrite cos_PI; lra. }
  assert (A' = A). { pose proof (dv_area _ _ _ _ _ _ _ _ _ _ _ _ _ V) as K. pose proof (dv_area _ _ _ _ _ _ _ _ _ _ _ _ _ V') as K'. change (st_grid (star_add_spot s [ex_spot6])) with (st_grid s) in K'. congruence. } subst A'.
  exists s, A, M, M', C, C', (Fin pf), (Fin pf'). split; auto. split; auto. split; auto. split. discriminate.
  split. { intros x [<-|[]]; auto. } split; auto. split. apply PropsStar.ex_ld. split; auto. split.
  { intros t [E|E]; [change (Fin 2500 = Fin t) in E|change (Fin 2700 = Fin t) in E]; injection E as <-; lra. }
  pose proof (dv_map _ _ _ _ _ _ _ _ _ _ _ _ _ V') as K. apply no_facs_map in K; auto. rewrite K. change (st_grid (star_add_spot s [ex_spot6])) with (Spiral 6).
  rewrite acell_grid by (apply ex_pixel; lia). change (acell (grid_points (Spiral 6)) 0 0 (0, 0)) with (pt (Spiral 6) (0%nat, 0%nat)).
  change (sc_spots (st_spots (star_add_spot s [ex_spot6]))) with [spot_assign_gridmaker (spot_set_gridmaker ex_spot2 (Spiral 6)) (Spiral 6); ex_spot6].
  cbn [fold_left]. set (x := pv _ _ _ (spot_assign_gridmaker _ _)).
  assert (X : x = Fin 3300 \/ x = Fin (3299.999)).
  { unfold x, pv. change (sp_teff_umbra (spot_assign_gridmaker _ _)) with (Fin 3299.999). change (sp_teff_pen (spot_assign_gridmaker _ _)) with (Fin 3299.999).
    change (st_teff (star_add_spot s [ex_spot6])) with (Fin 3300). destruct (_ && _); auto. destruct (_ && _); auto. }
  unfold pv. change (sp_teff_umbra ex_spot6) with (Fin 2500).
  assert (UB : umb_b ex_spot6 (st_radius (star_add_spot s [ex_spot6])) (Fin (sep ex_spot6 (pt (Spiral 6) (0%nat, 0%nat)))) = true).
  { change (st_radius (star_add_spot s [ex_spot6])) with 1. destruct (C18_lemma ex_spot6 1 1000 eq_refl ltac:(lra)) as [H18 _].
    destruct H18 as [th [Hth [Rth [Cth _]]]]. pose proof PI_RGT_0; lra.
    assert (CT : cos th = 999/1000). { pose proof PI_RGT_0. assert (2 * PI * (1 - cos th - 1/1000) = 0) by lra. apply Rmult_integral in H0. lra. }
    assert (T0 : 0 < th). { destruct (Rle_lt_or_eq_dec 0 th); try lra. subst th. rewrite cos_0 in CT. lra. }
    assert (SE : sep ex_spot6 (pt (Spiral 6) (0%nat, 0%nat)) = 0).
    { unfold sep, pt. cbn [fst snd]. rewrite spiral_point_cell by lia. cbn [fst snd].
      rewrite law_cos_dot, ex_lon0. change (sp_lat ex_spot6) with (spiral_lat 6 0). change (sp_lon ex_spot6) with 0. rewrite cos_sep_self, acos_1. auto. }
    rewrite SE. unfold umb_b. rewrite Hth. change (sp_teff_umbra ex_spot6) with (Fin 2500). change (sp_teff_pen ex_spot6) with (Fin 2700).
    change (sp_ratio ex_spot6) with (Fin 5). unfold pen_b. rewrite Hth. rewrite nsqrt_fin by lra.
    assert (0 < sqrt 5) by (apply sqrt_lt_R0; lra). rewrite ndiv_fin by lra.
    destruct (teff_key_eqb _ _); apply nlt_fin; auto. apply Rdiv_lt_0_compat; auto. }
  rewrite UB. destruct X as [-> | ->]; rewrite (proj2 (nlt_fin _ _)) by lra; reflexivity.
Qed.
