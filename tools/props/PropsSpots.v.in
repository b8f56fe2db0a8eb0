(** Properties C13-C23: star spots and spot collections *)
From Coq Require Import Reals ZArith Bool List Lra Lia Permutation.
From Coquelicot Require Import Coquelicot.
From Verif Require Import Num Py MConfig MHelpers MGrid MSpots MFaculae Spec SpecStar SpecFlare LBase LGrid LHelpers LSpotAge LSpotMap LSpotCov LQuad LNew.
Import ListNotations.
Open Scope R_scope.

(** A typical spot on a rectangular grid: area 100 MSH of at most 500, growing 50% a day,
    decaying 10 MSH a day; and a later, decaying one. *)
Definition ex_grid : grid := Rect 50 100.
Definition ex_spot : spot :=
  spot_init (1/3) 1 (Fin 500) (Fin 100) (Fin 2500) (Fin 2700) (Fin 5) true (Fin (1/2)) (-1) (Fin 10) ex_grid.
Definition ex_old : spot :=
  spot_init (-1/3) 2 (Fin 500) (Fin 300) (Fin 2600) (Fin 2800) (Fin 5) false (Fin (1/2)) (-1) (Fin 10) ex_grid.
Example ex_params : spot_params ex_spot 100 500 (1/2) 10. Proof. repeat split. Qed.
Example ex_old_params : spot_params ex_old 300 500 (1/2) 10. Proof. repeat split. Qed.
Example ex_wf : forall s, In s [ex_spot; ex_old] -> spot_wf s.
Proof.
  intros s [<-|[<-|[]]]; [exists 100, 500, (1/2), 10 | exists 300, 500, (1/2), 10]; repeat split; try reflexivity; lra.
Qed.
Example ex_on : forall s, In s [ex_spot; ex_old] -> spot_on ex_grid s.
Proof. intros s [<-|[<-|[]]]; apply spot_init_on. Qed.

(** C13 *)
@THM C13_spot_law C13_lemma
@THM C13_constructed C13_new_lemma
Example C13_nonvacuous : spot_params ex_spot 100 500 (1/2) 10 /\ 0 < 100 <= 500 /\ sp_growing ex_spot = true
  /\ 0 < time_to_max 100 500 (1/2).
Proof.
  split. apply ex_params. split. lra. split. reflexivity. unfold time_to_max.
  assert (0 < ln (500/100)) by (rewrite <- ln_1; apply ln_increasing; lra).
  assert (0 < ln (1 + 1/2)) by (rewrite <- ln_1; apply ln_increasing; lra).
  apply Rdiv_lt_0_compat; auto.
Qed.

(** C14 *)
@THM C14_slicing C14_lemma
Example C14_nonvacuous : (forall s, In s (sc_spots (mkSpotColl [ex_spot; ex_old] ex_grid)) -> spot_wf s)
  /\ all_nonneg [1; 1/2; 7] /\ [1; 1/2; 7] <> [].
Proof. split. apply ex_wf. split. intros t [<-|[<-|[<-|[]]]]; lra. discriminate. Qed.

(** C15 *)
@THM C15_invariants C15_lemma
@THM C15_direct_negative C15_direct_lemma
Example C15_direct_nonvacuous : spot_params ex_old 300 500 (1/2) 10 /\ sp_growing ex_old = false /\ 0 < 300 <= 500
  /\ 300 < 10 * 40 <= 500.
Proof. split. apply ex_old_params. split. reflexivity. lra. Qed.

(** C16 *)
@THM C16_death_time C16_lemma
Example C16_nonvacuous : (forall x, In x ([] ++ ex_spot :: [ex_old]) -> spot_wf x) /\ 0 < 1/2 /\ 0 < 10.
Proof. split. apply ex_wf. lra. Qed.

(** C17: no hypotheses *)
@THM C17_clean C17_lemma

(** C18 *)
@THM C18_angular_radius C18_lemma
Example C18_nonvacuous : sp_area ex_spot = Fin 100 /\ 0 <= 100 * (2 * PI / 1000000) <= 4 * PI * 1^2.
Proof. split. reflexivity. pose proof PI_RGT_0. lra. Qed.

(** C19 *)
@THM C19_coolest C19_lemma
@THM C19_any_temps C19_general_lemma
@THM C19_order_dependence C19_order_lemma
Example C19_nonvacuous : forall s, In s (sc_spots (mkSpotColl [ex_spot; ex_old] ex_grid)) ->
  spot_on (sc_grid (mkSpotColl [ex_spot; ex_old] ex_grid)) s /\ nle (sp_teff_umbra s) (sp_teff_pen s) = true.
Proof.
  intros s I. split. apply ex_on; auto. destruct I as [<-|[<-|[]]]; apply Rleb_true; simpl; lra.
Qed.

(** C20 *)
@THM C20_umbra_inside C20_lemma
Example C20_nonvacuous : spot_on ex_grid ex_spot /\ pixel ex_grid 3 7 /\ (exists th, spot_angular_radius ex_spot 1 = Fin th)
  /\ sp_ratio ex_spot = Fin 5 /\ sp_teff_umbra ex_spot <> sp_teff_pen ex_spot.
Proof.
  split. apply spot_init_on. split. unfold pixel, ex_grid. rewrite rect_points_eq. cbn [arows].
  rewrite map_length, seq_length. split. lia. rewrite nth_map_seq by lia. rewrite map_length, seq_length. lia.
  split. destruct (C18_lemma ex_spot 1 100 eq_refl ltac:(lra)) as [H _].
  destruct H as [th [H _]]. pose proof PI_RGT_0; lra. eauto.
  split. reflexivity. simpl. intros E. inversion E. lra.
Qed.

(** C21 *)
@THM C21_coverage C21_lemma
Example C21_nonvacuous : good_grid ex_grid /\ (exists A, grid_area ex_grid = Ok A)
  /\ forall s, In s [ex_spot; ex_old] -> spot_on ex_grid s /\ fin_temps s.
Proof.
  assert (G : good_grid ex_grid) by (split; lia). split; auto.
  split. rewrite grid_area_good by auto. eauto.
  intros s I. split. apply ex_on; auto. destruct I as [<-|[<-|[]]]; split; eexists; reflexivity.
Qed.

(** C22 *)
@THM C22_grids C22_lemma
@THM C22_constructed C22_new_lemma
Example C22_nonvacuous : exists c s g,
  (forall x, In x (sc_spots c) -> spot_on (sc_grid c) x) /\ spot_on g s
  /\ sc_grid c = Spiral 100 /\ g = Spiral 200.
Proof.
  exists (sc_set_gridmaker (mkSpotColl [ex_old] ex_grid) (Spiral 100)), (spot_set_gridmaker ex_spot (Spiral 200)), (Spiral 200).
  split. intros x [<-|[]]; apply set_gridmaker_on. split. apply set_gridmaker_on. split; reflexivity.
Qed.

(** C23 *)
@THM C23_surface_fraction C23_lemma
@THM C23_value C23_value_lemma
Example C23_nonvacuous : exists c, is_angle 0 0 (sp_lat ex_spot) (sp_lon ex_spot) c.
Proof.
  exists (acos (cos_sep 0 0 (sp_lat ex_spot) (sp_lon ex_spot))). split. apply acos_bound.
  apply cos_acos. rewrite <- law_cos_dot. apply law_cos_bound.
Qed.
