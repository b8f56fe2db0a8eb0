(** Properties C37-C46: flares *)
From Coq Require Import Reals ZArith Bool List Lra Lia Permutation.
From Coquelicot Require Import Coquelicot.
From Verif Require Import Num Py MConfig MHelpers MGrid MSpots MFaculae MXoflares MFlares MGranules MStar Spec SpecStar SpecFlare SpecReach LBase LGrid LHelpers LCirc LSpotAge LSpotMap LSpotCov LSpotGen LFac LFlare LFlareGen LFlareAcc.
Import ListNotations.
Open Scope R_scope.

(** an 1e34 erg flare of a quarter of a day at 9000 K, peaking at t = 1 d *)
Definition ex_flare : flare :=
  {| fl_fwhm := Fin (1/4); fl_energy := Fin (10^34); fl_lat := 1/3; fl_lon := 1/2; fl_teff := Fin 9000; fl_tpeak := 1 |}.
Definition ex_flare2 : flare :=
  {| fl_fwhm := Fin (1/4); fl_energy := Fin (10^34); fl_lat := 1/3; fl_lon := 1/2; fl_teff := Fin 9000; fl_tpeak := 11 |}.
Example ex_flare_is : flare_is ex_flare (1/4) (10^34) 9000.
Proof. repeat split. Qed.
Example ex_flare_pos : 0 < 1/4 /\ 0 < 9000 /\ 0 < 10^34.
Proof. repeat split; try lra. Qed.

(** C37 *)
@THM C37_energy C37_lemma
@THM C37_integral C37_int_lemma
Example C37_nonvacuous : flare_is ex_flare (1/4) (10^34) 9000 /\ 0 < 1/4 /\ 0 < 9000 /\ -10 <= fl_tpeak ex_flare - 1/4 /\ fl_tpeak ex_flare + 20 * (1/4) <= 10.
Proof. split. apply ex_flare_is. cbn; lra. Qed.

(** C38 *)
@THM C38_light_curve_shape C38_lemma
Example C38_nonvacuous : flare_is ex_flare (1/4) (10^34) 9000 /\ 0 < 1/4 /\ 0 < 9000 /\ 0 < 10^34.
Proof. split. apply ex_flare_is. apply ex_flare_pos. Qed.

(** C39: of two flares, the window [0, 2] keeps the first and drops the second *)
@THM C39_window C39_lemma
Example C39_nonvacuous : (forall f, In f [ex_flare; ex_flare2] -> exists w E T, flare_is f w E T /\ 0 < w /\ 0 < T)
  /\ in_window 0 2 ex_flare /\ ~ in_window 0 2 ex_flare2.
Proof.
  split. intros f [<-|[<-|[]]]; exists (1/4), (10^34), 9000; repeat split; lra.
  split. exists (1/4). cbn; repeat split; lra. intros [w [E [A B]]]. cbn in E, A, B. assert (w = 1/4) by congruence. lra.
Qed.

(** C40 *)
@THM C40_visible C40_lemma
Example C40_nonvacuous : exists c, is_angle (1/3) (1/2) (fl_lat ex_flare) (fl_lon ex_flare) c /\ c < PI / 2.
Proof.
  exists 0. pose proof PI_RGT_0. split; [|lra]. split; [lra|]. cbn [ex_flare fl_lat fl_lon]. unfold cos_sep. rewrite cos_0, vec_norm. auto.
Qed.

Definition ex_lg : flaregen :=
  {| lg_teff_mean := Fin 9000; lg_teff_sigma := 500; lg_fwhm_mean := Fin (1/8); lg_fwhm_is_time := true;
     lg_fwhm_logsigma := 3/10; lg_alpha := - (829/1000); lg_beta := 2687/100; lg_min_energy := Fin (10^33);
     lg_cluster := Fin 2 |}.
Definition ex_ld : ldraws :=
  {| ld_u := fun i => 1/2; ld_cl := fun i => (i mod 4)%nat; ld_e := fun i => 1/3; ld_zf := fun i => -1; ld_zt := fun i => 1;
     ld_ulon := fun i => 1/3; ld_x := fun i => 1/4 |}.
Example ex_lg_ok : flaregen_ok ex_lg (10^33).
Proof.
  repeat split; cbn; try lra. exists 2; split; auto; lra. exists (1/8); split; auto; lra. exists 9000; auto.
Qed.
Example ex_ld_ok : draws_ok ex_ld.
Proof. unfold draws_ok. split; [|split; [|split]]; intros; cbn; lra. Qed.

(** C41 *)
@THM C41_peaks C41_lemma
@THM C41_unbounded C41_unbounded_lemma
Example C41_nonvacuous : lg_cluster ex_lg = Fin 2 /\ (forall i, 0 <= ld_e ex_ld i) /\ clusters_of 6 (ld_cl ex_ld) [1; 2; 1; 1; 1]%nat.
Proof.
  split; auto. split. intros; cbn; lra. exists 2%nat. cbn. repeat split; lia.
Qed.

(** C42 *)
@THM C42_quantile C42_quantile_lemma
@THM C42_frequency C42_frequency_lemma
Example C42_nonvacuous : lg_min_energy ex_lg = Fin (10^33) /\ 0 < 10^33 /\ lg_alpha ex_lg < 0.
Proof. split; auto. split. apply pow_lt; lra. cbn; lra. Qed.

(** C43 *)
@THM C43_pdf_value C43_lemma
@THM C43_pdf_raises C43_raises_lemma
Example C43_nonvacuous : lg_min_energy ex_lg = Fin (10^33) /\ 0 < 10^33 /\ 0 < 10^34.
Proof. split; auto. split; apply pow_lt; lra. Qed.

(** C44 *)
@THM C44_series C44_lemma
@THM C44_off C44_off_lemma
@THM C44_star C44_star_lemma
Example C44_nonvacuous : flaregen_ok ex_lg (10^33) /\ draws_ok ex_ld.
Proof. split. apply ex_lg_ok. apply ex_ld_ok. Qed.
Example C44_star_nonvacuous : exists s s', star_init (Fin 3300) (1/10) 10 (mkSpotColl [] (Spiral 50)) (mkFacColl [] (Spiral 50))
   (PyInt 100) (Some ex_lg) None None None 0 0 = Ok s /\ star_ops s s' /\
   exists s'', star_get_flares s' 10 3 ex_ld = Ok s''.
Proof.
  eexists; eexists. split; [reflexivity|]. split. eapply ops_more; [eapply op_add_spot|]. apply ops_none.
  destruct (C44_lemma ex_lg (10^33) 10 3 ex_ld ex_lg_ok ex_ld_ok ltac:(lra)) as [l [E _]].
  exists (star_with_flares (star_add_spot
   {| st_teff := Fin 3300; st_radius := 1/10; st_period := 10; st_spots := set_spot_grid (sc_set_gridmaker (mkSpotColl [] (Spiral 50)) (Spiral 100)) (Spiral 100);
      st_facs := set_fac_grid (fcc_set_gridmaker (mkFacColl [] (Spiral 50)) (Spiral 100)) (Spiral 100); st_grid := Spiral 100;
      st_flaregen := ex_lg; st_flares := None; st_spotgen := sg_off (Spiral 100); st_facgen := fg_off (Spiral 100);
      st_gran := gran_off; st_u1 := 0; st_u2 := 0 |} []) (flc_init l)).
  unfold star_get_flares. cbn [st_flaregen star_add_spot star_with_spots]. rewrite E. reflexivity.
Qed.

(** C45 *)
@THM C45_time_area C45_lemma
@THM C45_reversed C45_neg_lemma
Example C45_nonvacuous : (forall f, In f [ex_flare; ex_flare2] -> exists w E T, flare_is f w E T /\ 0 < w /\ 0 < T /\ 0 <= E)
  /\ flc_visible (flc_init [ex_flare; ex_flare2]) 0 2 (Some (1/3, 1/2)) = [ex_flare].
Proof.
  split. intros f [<-|[<-|[]]]; exists (1/4), (10^34), 9000; repeat split; lra.
  unfold flc_visible, sub_obs. rewrite in_period_eq. cbn [filter].
  assert (win_b 0 2 ex_flare = true) as ->. { apply (win_b_spec 0 2 ex_flare (1/4)); auto. exists (1/4). cbn; repeat split; lra. }
  assert (win_b 0 2 ex_flare2 = false) as ->. { apply not_true_is_false. intros K. apply (win_b_spec 0 2 ex_flare2 (1/4)) in K; auto.
    destruct K as [w [E [A B]]]. cbn in E, A, B. assert (w = 1/4) by congruence. lra. }
  cbn [filter]. rewrite law_cos_dot. unfold cos_sep. cbn [ex_flare fl_lat fl_lon]. rewrite vec_norm.
  unfold Rltb. destruct (Rlt_dec 0 1); auto; lra.
Qed.

(** C46 *)
@THM C46_sum C46_sum_lemma
@THM C46_concat C46_concat_lemma
@THM C46_order C46_perm_lemma
@THM C46_texp C46_texp_lemma
@THM C46_index C46_index_lemma
Example C46_nonvacuous : Permutation [(1, Fin 1, Fin 2); (2, Fin 1, NaN)] [(2, Fin 1, NaN); (1, Fin 1, Fin 2)]
  /\ (length [Fin 1] < length [1; 2])%nat.
Proof. split. constructor. simpl; lia. Qed.

(** C64 *)
@THM C64_expected C64_lemma
Example C64_nonvacuous : lg_min_energy ex_lg = Fin (10^33) /\ 0 < 10^33.
Proof. split; auto. apply pow_lt; lra. Qed.

(** C65 *)
@THM C65_accuracy C65_lemma
(** [ex_flare] over two days: visible, and the window covers it up to its tail *)
Example C65_nonvacuous : 0 + 20 / 1440 <= 8
  /\ (forall f, In f [ex_flare; ex_flare2] -> exists w E T, flare_is f w E T /\ 0 < w /\ 0 < T /\ 0 <= E)
  /\ 0 <= fl_tpeak ex_flare - 1/4 /\ fl_tpeak ex_flare + 20 * (1/4) <= 8.
Proof.
  split; [lra|split]. intros f [<-|[<-|[]]]; exists (1/4), (10^34), 9000; repeat split; lra. cbn. lra.
Qed.
