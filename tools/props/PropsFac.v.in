(** Properties C29-C36: faculae *)
From Coq Require Import Reals ZArith Bool List Lra Lia.
From Coquelicot Require Import Coquelicot.
From Verif Require Import Num Py MConfig MHelpers MGrid MSpots MFaculae Spec SpecStar LBase LGrid LHelpers LCirc LSpotAge LSpotMap LSpotCov LSpotGen LFac LNew.
Import ListNotations.
Open Scope R_scope.

(** the default-like generator and a newborn facula of peak radius 100 km living 2*6 hours *)
Definition ex_fg : facgen := fg_with_coverage (fg_off (Spiral 1000)) (Fin (1/10)).
Definition ex_fac (r : R) (g : bool) : facula :=
  {| fc_lat := 1/3; fc_lon := 1; fc_rmax := Fin 100; fc_radius := Fin r; fc_depth := Fin 10; fc_life := Fin 6;
     fc_fslope := Fin 0; fc_fminrad := Fin 20; fc_fbase := Fin (-100); fc_wslope := Fin 1; fc_wint := Fin 100;
     fc_growing := g; fc_grid := Spiral 1000 |}.
Example ex_fac_wf : forall g, fac_wf (ex_fac 50 g).
Proof. intros. exists 50, 100, 6. split. repeat split. lra. Qed.
Example ex_newborn : fac_state (ex_fac (100 / exp 2) true) (100 / exp 2) 100 6 /\ fac_wf (ex_fac (100 / exp 2) true).
Proof.
  split. repeat split. exists (100 / exp 2), 100, 6. split. repeat split. split; [|lra].
  pose proof (exp_pos 2). split. apply Rdiv_lt_0_compat; lra. apply div_le; auto. pose proof (exp_ineq1 2). nra.
Qed.

(** C29 *)
@THM C29_facula_law C29_lemma
Example C29_nonvacuous : fac_state (ex_fac 50 true) 50 100 6 /\ 0 < 50 <= 100 /\ fac_wf (ex_fac 50 true)
  /\ 0 < time_to_peak 50 100 6 /\ all_nonneg [1; 2; 7].
Proof.
  split. repeat split. split. lra. split. apply ex_fac_wf. split.
  unfold time_to_peak. assert (0 < ln (100/50)) by (rewrite <- ln_1; apply ln_increasing; lra). lra.
  intros t [<-|[<-|[<-|[]]]]; lra.
Qed.

(** C30 *)
@THM C30_facula_lifetime C30_lemma
Example C30_nonvacuous : (forall x, In x ([ex_fac 50 false] ++ ex_fac (100 / exp 2) true :: [ex_fac 50 true]) -> fac_wf x)
  /\ fac_state (ex_fac (100 / exp 2) true) (100 / exp 2) 100 6 /\ all_nonneg [1; 2] /\ rsum [1; 2] < 2 * 6.
Proof.
  split. intros x [<-|[<-|[<-|[]]]]; try apply ex_fac_wf; apply ex_newborn.
  split. repeat split. split. intros t [<-|[<-|[]]]; lra. simpl; lra.
Qed.

(** C31 *)
@THM C31_wall_floor C31_lemma
Example C31_nonvacuous : fac_thermal (ex_fac 50 true) 50 10 0 20 (-100) 1 100
  /\ round_teff (Fin (wall_diff 50 1 100)) = Ok 150%Z /\ round_teff (Fin (floor_diff 50 0 20 (-100))) = Ok (-100)%Z /\ cos 1 <> 0.
Proof.
  split. repeat split. unfold wall_diff, floor_diff. cbn [round_teff].
  split. replace (100 + 1 * 50) with 150 by ring. f_equal. apply rhe_IZR.
  split. replace (-100 + 0 * (50 - 20)) with (-100) by ring. f_equal. apply (rhe_IZR (-100)).
  assert (0 < cos 1). { apply cos_gt_0; pose proof PI2_1; lra. } lra.
Qed.

(** C32, first half: the facula itself (C32_star: drawing it) *)
@THM C32_guard C32_lemma
Example C32_nonvacuous : exists k, round_teff (Fin (wall_diff 50 1 (-149.9))) = Ok k
  /\ round_teff (Fin (floor_diff 50 0 20 (-100))) = Ok k /\ wall_diff 50 1 (-149.9) <> floor_diff 50 0 20 (-100).
Proof.
  exists (-100)%Z. unfold wall_diff, floor_diff. cbn [round_teff]. split; [|split].
  - f_equal. assert (rhe (-100) <= rhe (-149.9 + 1 * 50) <= -100)%Z.
    { split. apply rhe_mono; lra. destruct (rhe_spec (-149.9 + 1 * 50)) as [H _].
      apply Rabs_le_inv in H. assert (IZR (rhe (-149.9 + 1 * 50)) < IZR (-99)) by lra. apply lt_IZR in H0. lia. }
    rewrite (rhe_IZR (-100)) in H. lia.
  - replace (-100 + 0 * (50 - 20)) with (-100) by ring. f_equal. apply (rhe_IZR (-100)).
  - lra.
Qed.

(** C33 *)
@THM C33_mean_area C33_lemma
Example C33_nonvacuous : fg_rpeak ex_fg = Fin 100 /\ fac_state (ex_fac (100 / exp 2) true) (100 / exp 2) 100 6.
Proof. repeat split. Qed.

(** C34 *)
@THM C34_expected C34_lemma
Example C34_nonvacuous : fg_rpeak ex_fg = Fin 100 /\ fg_lifepeak ex_fg = Fin 6.
Proof. repeat split. Qed.

(** C35 *)
@THM C35_generate C35_lemma
Example C35_nonvacuous : fg_rpeak ex_fg = Fin 100 /\ fg_lifepeak ex_fg = Fin 6 /\ 0 <= fg_rlogsigma ex_fg /\ 0 <= fg_lifelogsigma ex_fg
  /\ fac_state (nth 1 (fg_generate ex_fg 2 (mkFDraws (fun i => INR i) (fun _ => 1/2) (fun _ => 1/2))) (ex_fac 1 true))
       (100 * Rpower 10 (1/10) / exp 2) (100 * Rpower 10 (1/10)) (6 * Rpower 10 (2/10)).
Proof.
  split; auto. split; auto. split. simpl; lra. split. simpl; lra. unfold fac_state, fg_generate.
  cbn [map seq nth fc_radius fc_rmax fc_life fd_z]. change (fg_rpeak ex_fg) with (Fin 100). change (fg_lifepeak ex_fg) with (Fin 6).
  change (fg_rlogsigma ex_fg) with (1/10). change (fg_lifelogsigma ex_fg) with (2/10). change (INR 1) with 1.
  rewrite !nmul_fin, exp2, !Rmult_1_l. pose proof (exp_pos 2). rewrite ndiv_fin by lra. auto.
Qed.

(** C36 *)
@THM C36_add_faculae C36_lemma
@THM C36_constructed C36_new_lemma
Example C36_nonvacuous : forall f, In f [ex_fac 50 true; ex_fac 30 false] -> forall a b n, ~ (fc_grid f = Rect a b /\ Rect 5 6 = Spiral n).
Proof. intros f [<-|[<-|[]]]; intros a b n [H _]; discriminate. Qed.
