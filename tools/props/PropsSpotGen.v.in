(** Properties C24-C28: random positions and the spot generator *)
From Coq Require Import Reals ZArith Bool List Lra Lia.
From Coquelicot Require Import Coquelicot.
From Verif Require Import Num Py MConfig MHelpers MGrid MSpots MFaculae MFlares Spec SpecStar LBase LGrid LHelpers LSpotAge LSpotMap LSpotCov LSpotGen.
Import ListNotations.
Open Scope R_scope.

(** a dynamic and a static generator, and constant random draws *)
Definition ex_sg : spotgen :=
  {| sg_mean := Fin 500; sg_logsigma := 1/5; sg_teff_umbra := Fin 2500; sg_teff_pen := Fin 2700;
     sg_growth := Fin (1/2); sg_growth_dim := (-1)%Z; sg_decay := Fin 10; sg_init := Fin 100;
     sg_dist := Iso; sg_coverage := Fin (1/5); sg_grid := Rect 50 100 |}.
Definition ex_sg_static : spotgen :=
  {| sg_mean := Fin 500; sg_logsigma := 0; sg_teff_umbra := Fin 2500; sg_teff_pen := Fin 2700;
     sg_growth := Fin (1/2); sg_growth_dim := (-1)%Z; sg_decay := Fin 0; sg_init := Fin 100;
     sg_dist := Iso; sg_coverage := Fin (1/5); sg_grid := Rect 50 100 |}.
(* the first round of area ratios contains a negative one and is drawn again *)
Definition ex_draws : sdraws :=
  mkSDraws (fun _ => 1) (fun k i => if Nat.eqb k 0 then -1 else 5) (fun _ => 1/3) (fun _ => 1/4) (fun _ => true) (fun _ => 0).

(** C24 *)
@THM C24_isotropic C24_lemma
Example C24_nonvacuous : unit_draw (1/4) /\ unit_draw (1/3).
Proof. unfold unit_draw; lra. Qed.

(** C25 *)
@THM C25_generate_spots C25_lemma
Example C25_nonvacuous : exists l, sg_generate ex_sg 3 ex_draws 5 = Ok l /\ length l = 3%nat
  /\ sg_generate ex_sg 3 ex_draws 0 = Raise OutOfDraws.
Proof.
  destruct C25_lemma as [C1 [C2 _]]. destruct (C2 ex_sg 3%nat ex_draws 5%nat 1%nat) as [l E].
  simpl; lra. simpl; discriminate. lia. intros; simpl; lra.
  exists l. split; auto. split. apply (C1 _ _ _ _ _ E).
  unfold sg_generate. simpl sg_logsigma. rewrite (proj2 (Rltb_false _ _)) by lra.
  replace (redraw_ratio 0 0 ex_draws 3) with (@Raise nat OutOfDraws). reflexivity.
  simpl. rewrite (proj2 (Rleb_true (-1) 0)) by lra. reflexivity.
Qed.

(** C26 *)
@THM C26_expected_births C26_lemma
Example C26_nonvacuous : sg_params ex_sg 500 100 (1/2) 10 /\ 0 < 100 <= 500 /\ 0 < 1/2 /\ 0 < 10.
Proof. split. repeat split. lra. Qed.

(** C27 *)
@THM C27_means_vs_law C27_lemma
Example C27_nonvacuous : sg_params ex_sg 500 100 (1/2) 10 /\ 0 < 100 < 500
  /\ exists sp, spot_params sp 100 500 (1/2) 10 /\ sp_growing sp = true.
Proof.
  split. repeat split. split. lra.
  exists (spot_init (1/3) 1 (Fin 500) (Fin 100) (Fin 2500) (Fin 2700) (Fin 5) true (Fin (1/2)) (-1) (Fin 10) (Rect 50 100)).
  split; repeat split.
Qed.

(** C28 *)
@THM C28_mature_spots C28_lemma
Example C28_nonvacuous : exists fuel l,
  sg_generate_mature ex_sg_static (Fin (1/10)) 1 (fun _ => (ex_draws, 1/2)) 5 fuel = Ok l /\ l <> [].
Proof.
  destruct C28_lemma as [_ [_ [_ [M [D _]]]]].
  assert (A : 0 < acos (1 - 300 * MSH_RSUN2 / (2 * PI * 1^2))).
  { pose proof PI_RGT_0. unfold MSH_RSUN2.
    replace (1 - 300 * (1 / 1000000 * (1 / 2) * (4 * PI)) / (2 * PI * 1^2)) with (1 - 300/1000000) by (field; lra).
    pose proof (acos_lt (1 - 300/1000000) 1 ltac:(lra) ltac:(lra) ltac:(lra)) as Q. rewrite acos_1 in Q. exact Q. }
  set (th0 := acos (1 - 300 * MSH_RSUN2 / (2 * PI * 1^2))) in *.
  assert (exists fuel, INR fuel > 4 * (1/10) / th0^2) as [fuel Hf].
  { exists (Z.to_nat (up (4 * (1/10) / th0^2))). destruct (archimed (4 * (1/10) / th0^2)) as [U _].
    assert (0 < 4 * (1/10) / th0^2) by (apply Rdiv_lt_0_compat; [lra|apply pow_lt; auto]).
    rewrite INR_IZR_INZ, Z2Nat.id; auto. apply le_IZR. lra. }
  assert (HF : 4 * (1/10) <= INR fuel * th0^2).
  { assert (0 < th0^2) by (apply pow_lt; auto). apply Rmult_gt_compat_r with (r := th0^2) in Hf; auto.
    unfold Rdiv in Hf at 1. rewrite Rmult_assoc, Rinv_l, Rmult_1_r in Hf by lra. lra. }
  destruct (D ex_sg_static (1/10) 1 (fun _ => (ex_draws, 1/2)) 5%nat th0) with (fuel := fuel) as [l E]; auto; try lra.
  - intros _. simpl fst; simpl snd. destruct C25_lemma as [C1 [C2 _]].
    destruct (C2 ex_sg_static 1%nat ex_draws 5%nat 1%nat) as [l E].
    simpl; lra. simpl; discriminate. lia. intros; simpl; lra.
    destruct (C1 _ _ _ _ _ E) as [Len [k [_ [_ Hi]]]]. destruct l as [|s0 [|]]; try discriminate.
    destruct (Hi 0%nat s0 ltac:(lia)) as [NB [_ [_ [_ AM]]]]. simpl in NB, AM.
    destruct (AM 500 eq_refl ltac:(lra)) as [a [Ea [Pa La]]].
    assert (Ha : a = 500). { apply ln_inv; lra. }
    unfold sg_mature_one. rewrite E. cbn [bind].
    replace (sg_is_static ex_sg_static) with true by (symmetry; apply Reqb_true; auto).
    eexists. exists th0. split. reflexivity. split; [|lra].
    destruct (ang_rad_fin (spot_with_area s0 (Fin 300) true) 1 300 eq_refl ltac:(lra)) as [R _].
    pose proof PI_RGT_0. unfold MSH_RSUN2. lra. fold th0 in R. rewrite <- R. f_equal. destruct NB as [-> _].
    rewrite Ea, Ha. simpl sg_init. rewrite nsub_fin, nmul_fin, nadd_fin. f_equal. f_equal. lra.
  - exists fuel, l. split; auto. intros ->. destruct (M _ _ _ _ _ _ _ E) as [_ [R _]]. pose proof PI_RGT_0.
    destruct R as [[ths [R1 [R2 _]]]|[l0 [s [ths [R1 _]]]]].
    destruct ths; try discriminate. unfold disc_sum in R2. simpl in R2. lra.
    destruct l0; discriminate.
Qed.
