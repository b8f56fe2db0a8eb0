(** Lemmas for C29-C36: faculae *)
From Coq Require Import Reals ZArith Bool List Lra Lia.
From Coquelicot Require Import Coquelicot.
From Verif Require Import Num Py MConfig MHelpers MGrid MSpots MFaculae Spec SpecStar LBase LGrid LHelpers LCirc LSpotAge LSpotMap LSpotCov LSpotGen.
Import ListNotations.
Open Scope R_scope.

(** ** C29 *)
Lemma fac_with_aged : forall f r b, fac_aged f (fac_with f (Fin r) b) r b.
Proof. intros. repeat split. Qed.
Lemma fac_with_twice : forall f r b r' b', fac_with (fac_with f r b) r' b' = fac_with f r' b'.
Proof. reflexivity. Qed.
Lemma ttp_nonneg : forall r rm L, 0 < r <= rm -> 0 < L -> 0 <= time_to_peak r rm L.
Proof. intros. unfold time_to_peak. pose proof (ln_nonneg1 (rm/r) (one_le_div r rm H)). nra. Qed.
Lemma ttp_exp : forall r rm L t, 0 < r <= rm -> 0 < L ->
  rm * exp (-2 * (time_to_peak r rm L - t) / L) = r * exp (2 * t / L).
Proof.
  intros. unfold time_to_peak.
  replace (-2 * (ln (rm / r) * L / 2 - t) / L) with (- ln (rm / r) + 2 * t / L) by (field; lra).
  rewrite exp_plus, exp_Ropp, exp_ln by (apply Rdiv_lt_0_compat; lra). field. lra.
Qed.
Lemma fac_age_growing : forall f r rm L t, fac_state f r rm L -> fc_growing f = true -> 0 < r <= rm -> 0 < L ->
  fac_age f (Fin t) = if Rle_dec (time_to_peak r rm L) t
    then fac_with f (Fin (rm * exp (-2 * (t - time_to_peak r rm L) / L))) false
    else fac_with f (Fin (r * exp (2 * t / L))) true.
Proof.
  intros f r rm L t [E1 [E2 E3]] G Hr HL. unfold fac_age. rewrite G, E1, E2, E3.
  rewrite ndiv_fin by lra. rewrite nln_fin by (apply Rdiv_lt_0_compat; lra). rewrite !nmul_fin.
  rewrite ln_div_neg by lra.
  replace (-1 * - ln (rm / r) * L * (1/2)) with (time_to_peak r rm L) by (unfold time_to_peak; field).
  cbv zeta. rewrite nsub_fin, !nmul_fin, !ndiv_fin by lra. rewrite !nexp_fin, !nmul_fin.
  cbn [nle]. unfold Rleb. destruct (Rle_dec _ _); auto.
Qed.
Lemma fac_age_decay : forall f r rm L t, fac_state f r rm L -> fc_growing f = false -> 0 < L ->
  fac_age f (Fin t) = fac_with f (Fin (r * exp (-2 * t / L))) false.
Proof.
  intros f r rm L t [E1 [E2 E3]] G HL. unfold fac_age. rewrite G, E1, E3.
  rewrite nmul_fin, ndiv_fin by lra. rewrite nexp_fin, nmul_fin. auto.
Qed.
Lemma exp_le_1 : forall x, x <= 0 -> exp x <= 1.
Proof. intros. destruct H as [H| ->]. left. rewrite <- exp_0. apply exp_increasing; auto. rewrite exp_0; lra. Qed.
Lemma neg_div : forall t L, 0 <= t -> 0 < L -> -2 * t / L <= 0.
Proof. intros. apply div_le; auto. lra. Qed.
Lemma fac_age_wf : forall f t, fac_wf f -> 0 <= t -> fac_wf (fac_age f (Fin t)).
Proof.
  intros f t [r [rm [L [S [Hr HL]]]]] Ht. pose proof S as [S1 [S2 S3]].
  destruct (fc_growing f) eqn:G.
  - rewrite (fac_age_growing f r rm L) by auto. destruct (Rle_dec _ _).
    + exists (rm * exp (-2 * (t - time_to_peak r rm L) / L)), rm, L. split. repeat split; auto. split; auto.
      pose proof (exp_pos (-2 * (t - time_to_peak r rm L) / L)).
      assert (exp (-2 * (t - time_to_peak r rm L) / L) <= 1) by (apply exp_le_1; apply neg_div; lra).
      split. apply Rmult_lt_0_compat; lra. nra.
    + exists (r * exp (2 * t / L)), rm, L. split. repeat split; auto. split; auto.
      split. pose proof (exp_pos (2 * t / L)). apply Rmult_lt_0_compat; lra.
      rewrite <- (ttp_exp r rm L t) by auto.
      assert (exp (-2 * (time_to_peak r rm L - t) / L) <= 1) by (apply exp_le_1; apply neg_div; lra). nra.
  - rewrite (fac_age_decay f r rm L) by auto. exists (r * exp (-2 * t / L)), rm, L. split. repeat split; auto. split; auto.
    pose proof (exp_pos (-2 * t / L)). assert (exp (-2 * t / L) <= 1) by (apply exp_le_1; apply neg_div; lra).
    split. apply Rmult_lt_0_compat; lra. nra.
Qed.
Lemma fac_age_add : forall f t1 t2, fac_wf f -> 0 <= t1 -> 0 <= t2 ->
  fac_age (fac_age f (Fin t1)) (Fin t2) = fac_age f (Fin (t1 + t2)).
Proof.
  intros f t1 t2 [r [rm [L [S [Hr HL]]]]] H1 H2. pose proof S as [S1 [S2 S3]].
  assert (ST : forall x b, fac_state (fac_with f (Fin x) b) x rm L) by (intros; repeat split; auto).
  destruct (fc_growing f) eqn:G.
  - rewrite !(fac_age_growing f r rm L) by auto. set (T := time_to_peak r rm L) in *.
    destruct (Rle_dec T t1).
    + destruct (Rle_dec T (t1 + t2)); [|lra]. rewrite (fac_age_decay _ _ _ _ t2 (ST _ _)) by auto.
      rewrite fac_with_twice. f_equal. f_equal. rewrite Rmult_assoc, <- exp_plus. f_equal. f_equal. field. lra.
    + assert (LT : r * exp (2 * t1 / L) <= rm).
      { rewrite <- (ttp_exp r rm L t1) by auto. fold T.
        assert (exp (-2 * (T - t1) / L) <= 1) by (apply exp_le_1; apply neg_div; lra). nra. }
      assert (RP : 0 < r * exp (2 * t1 / L)) by (pose proof (exp_pos (2 * t1 / L)); apply Rmult_lt_0_compat; lra).
      assert (T' : time_to_peak (r * exp (2 * t1 / L)) rm L = T - t1).
      { unfold T, time_to_peak. replace (rm / (r * exp (2 * t1 / L))) with (rm / r * exp (- (2 * t1 / L))).
        rewrite ln_mult, ln_exp. field. lra. apply Rdiv_lt_0_compat; lra. apply exp_pos.
        rewrite exp_Ropp. field. pose proof (exp_pos (2 * t1 / L)). lra. }
      rewrite (fac_age_growing _ _ _ _ t2 (ST _ _)) by auto. rewrite T', !fac_with_twice.
      destruct (Rle_dec (T - t1) t2); destruct (Rle_dec T (t1 + t2)); try lra.
      * do 4 f_equal. lra.
      * do 2 f_equal. rewrite Rmult_assoc, <- exp_plus. do 2 f_equal. field. lra.
  - rewrite !(fac_age_decay f r rm L) by auto. rewrite (fac_age_decay _ _ _ _ t2 (ST _ _)) by auto.
    rewrite fac_with_twice. do 2 f_equal. rewrite Rmult_assoc, <- exp_plus. do 2 f_equal. field. lra.
Qed.
Lemma fac_age_list : forall ts f, fac_wf f -> all_nonneg ts -> ts <> [] ->
  fold_left (fun x t => fac_age x (Fin t)) ts f = fac_age f (Fin (rsum ts)).
Proof.
  induction ts; intros; [congruence|]. simpl. destruct ts as [|b ts].
  - simpl. rewrite Rplus_0_r. auto.
  - assert (0 <= a) by (apply H0; left; auto). assert (all_nonneg (b :: ts)) by (intros x Hx; apply H0; right; auto).
    rewrite IHts; auto; try discriminate. 2: apply fac_age_wf; auto.
    apply fac_age_add; auto. apply rsum_nonneg; auto.
Qed.
Lemma C29_lemma :
  (* the radius law *)
  (forall f r rm L t, fac_state f r rm L -> 0 < r <= rm -> 0 < L -> 0 <= t ->
     (fc_growing f = true -> exists b,
        fac_aged f (fac_age f (Fin t)) (rm * exp (-2 * Rabs (t - time_to_peak r rm L) / L)) b
        /\ (b = true <-> t < time_to_peak r rm L))
     /\ (fc_growing f = false -> fac_aged f (fac_age f (Fin t)) (r * exp (-2 * t / L)) false))
  (* independent of slicing, and the radius stays in (0, rmax] *)
  /\ (forall f ts, fac_wf f -> all_nonneg ts -> ts <> [] ->
        fold_left (fun x t => fac_age x (Fin t)) ts f = fac_age f (Fin (rsum ts))
        /\ fac_wf (fac_age f (Fin (rsum ts)))).
Proof.
  split.
  - intros f r rm L t S Hr HL Ht. split; intros G.
    + rewrite (fac_age_growing f r rm L) by auto. destruct (Rle_dec _ _).
      * exists false. split. rewrite Rabs_right by lra. apply fac_with_aged. split; intros; [discriminate|lra].
      * exists true. split. rewrite Rabs_left by lra. rewrite Ropp_minus_distr. rewrite ttp_exp by auto. apply fac_with_aged.
        split; intros; auto; lra.
    + rewrite (fac_age_decay f r rm L) by auto. apply fac_with_aged.
  - intros. split. apply fac_age_list; auto. apply fac_age_wf; auto. apply rsum_nonneg; auto.
Qed.

(** ** C30 *)
Definition fkeep (f : facula) : bool := negb (fac_dead f).
Definition faged (l : list facula) (t : R) : list facula := filter fkeep (map (fun f => fac_age f (Fin t)) l).
Lemma fcc_age_eq : forall l g t, fcc_age (mkFacColl l g) (Fin t) = mkFacColl (faged l t) g.
Proof. reflexivity. Qed.
Lemma exp2 : exp 1 ^ 2 = exp 2.
Proof. transitivity (exp (1 + 1)). rewrite exp_plus. ring. f_equal; lra. Qed.
Lemma fac_dead_iff : forall f r rm L, fac_state f r rm L ->
  (fac_dead f = true <-> r <= rm / exp 2 /\ fc_growing f = false).
Proof.
  intros f r rm L [E1 [E2 E3]]. unfold fac_dead. rewrite E1, E2, exp2. pose proof (exp_pos 2).
  rewrite ndiv_fin by lra. rewrite andb_true_iff, nle_fin, negb_true_iff. tauto.
Qed.
Lemma fac_dead_mono : forall f t1 t2, fac_wf f -> 0 <= t1 -> 0 <= t2 ->
  fac_dead (fac_age f (Fin t1)) = true -> fac_dead (fac_age f (Fin (t1 + t2))) = true.
Proof.
  intros. rewrite <- fac_age_add by auto. pose proof (fac_age_wf f t1 H H0) as W. set (f1 := fac_age f (Fin t1)) in *.
  destruct W as [r [rm [L [S [Hr HL]]]]]. rewrite (fac_dead_iff f1 r rm L S) in H2. destruct H2 as [A B].
  rewrite (fac_age_decay f1 r rm L) by auto. destruct S as [S1 [S2 S3]].
  apply (fac_dead_iff _ (r * exp (-2 * t2 / L)) rm L). repeat split; auto. split; auto.
  assert (exp (-2 * t2 / L) <= 1) by (apply exp_le_1; apply neg_div; lra). nra.
Qed.
Lemma faged_add : forall l t1 t2, (forall f, In f l -> fac_wf f) -> 0 <= t1 -> 0 <= t2 ->
  faged (faged l t1) t2 = faged l (t1 + t2).
Proof.
  induction l; intros; auto. unfold faged in *. simpl.
  assert (W : fac_wf a) by (apply H; left; auto). assert (forall f, In f l -> fac_wf f) by (intros; apply H; right; auto).
  destruct (fkeep (fac_age a (Fin t1))) eqn:D; simpl.
  - rewrite fac_age_add by auto. destruct (fkeep _); rewrite IHl; auto.
  - replace (fkeep (fac_age a (Fin (t1 + t2)))) with false. apply IHl; auto.
    unfold fkeep in *. apply negb_false_iff in D. rewrite (fac_dead_mono a t1 t2) by auto. auto.
Qed.
Lemma faged_wf : forall l t, (forall f, In f l -> fac_wf f) -> 0 <= t -> forall f, In f (faged l t) -> fac_wf f.
Proof.
  intros. unfold faged in H1. apply filter_In in H1. destruct H1 as [I _]. apply in_map_iff in I.
  destruct I as [x [<- I]]. apply fac_age_wf; auto.
Qed.
Lemma fcc_run_eq : forall ts l g, (forall f, In f l -> fac_wf f) -> all_nonneg ts -> ts <> [] ->
  fcc_run (mkFacColl l g) ts = mkFacColl (faged l (rsum ts)) g.
Proof.
  induction ts; intros; [congruence|]. unfold fcc_run in *. cbn [fold_left]. rewrite fcc_age_eq. destruct ts as [|b ts].
  - simpl. rewrite Rplus_0_r. auto.
  - assert (0 <= a) by (apply H0; left; auto). assert (all_nonneg (b :: ts)) by (intros x Hx; apply H0; right; auto).
    rewrite IHts; auto; try discriminate. 2: apply faged_wf; auto.
    rewrite faged_add; auto. apply rsum_nonneg; auto.
Qed.
Lemma filter_keeps_g : forall A (P : A -> Prop) f l, (forall x, f x = true <-> P x) -> keeps P l (filter f l).
Proof.
  intros. induction l; simpl. constructor. destruct (f a) eqn:E.
  constructor; auto. apply H; auto. constructor; auto. rewrite <- H, E. discriminate.
Qed.
Lemma fkeep_alive : forall f, fkeep f = true <-> fac_alive f.
Proof.
  intros. unfold fkeep, fac_dead, fac_alive. rewrite exp2. rewrite negb_true_iff, andb_false_iff, negb_false_iff. tauto.
Qed.
Lemma C30_lemma :
  (* any slicing of a collection's ageing gives the same collection *)
  (forall c ts, (forall f, In f (fcc_facs c) -> fac_wf f) -> all_nonneg ts -> ts <> [] ->
     fcc_run c ts = fcc_age c (Fin (rsum ts)))
  (* a newborn facula lives exactly 2 lifetimes *)
  /\ (forall l1 f l2 g0 ts rm L, (forall x, In x (l1 ++ f :: l2) -> fac_wf x) -> all_nonneg ts -> ts <> [] ->
        fac_state f (rm / exp 2) rm L -> fc_growing f = true ->
        exists fs, fcc_run (mkFacColl (l1 ++ f :: l2) g0) ts
             = mkFacColl (fcc_facs (fcc_run (mkFacColl l1 g0) ts) ++ fs ++ fcc_facs (fcc_run (mkFacColl l2 g0) ts)) g0
          /\ (2 * L <= rsum ts -> fs = [])
          /\ (rsum ts < 2 * L -> fs = [fac_age f (Fin (rsum ts))]))
  (* clean_faclist *)
  /\ (forall c, keeps fac_alive (fcc_facs c) (fcc_facs (fcc_clean c)) /\ fcc_grid (fcc_clean c) = fcc_grid c)
  /\ (forall c t, keeps fac_alive (map (fun f => fac_age f t) (fcc_facs c)) (fcc_facs (fcc_age c t))).
Proof.
  split; [|split; [|split]].
  - intros [l g] ts H1 H2 H3. rewrite fcc_run_eq by auto. auto.
  - intros l1 f l2 g0 ts rm L Hw Hts Hne S G.
    exists (faged [f] (rsum ts)). rewrite !fcc_run_eq; auto.
    2:{ intros; apply Hw; apply in_or_app; right; right; auto. }
    2:{ intros; apply Hw; apply in_or_app; left; auto. }
    split. { unfold faged. change (f :: l2) with ([f] ++ l2). rewrite !map_app, !filter_app. auto. }
    assert (0 <= rsum ts) by (apply rsum_nonneg; auto). set (t := rsum ts) in *.
    assert (W : fac_wf f) by (apply Hw; apply in_or_app; right; left; auto).
    destruct W as [r [rm' [L' [S' [Hr HL]]]]].
    assert (r = rm / exp 2 /\ rm' = rm /\ L' = L).
    { destruct S as [A [B C]]; destruct S' as [A' [B' C']]. rewrite A in A'; rewrite B in B'; rewrite C in C'.
      inversion A'; inversion B'; inversion C'; auto. } destruct H0 as [-> [-> ->]].
    pose proof (exp_pos 2) as E2.
    assert (RM : 0 < rm) by (destruct Hr as [Hr1 Hr2]; apply lt_div in Hr1; auto; lra).
    assert (TP : time_to_peak (rm / exp 2) rm L = L).
    { unfold time_to_peak. replace (rm / (rm / exp 2)) with (exp 2) by (field; lra). rewrite ln_exp. field. }
    unfold faged. cbn [map filter]. rewrite (fac_age_growing f _ _ _ t S G Hr HL). rewrite TP.
    assert (K : forall x b, fkeep (fac_with f (Fin x) b) = true <-> ~ (x <= rm / exp 2 /\ b = false)).
    { intros. unfold fkeep. rewrite negb_true_iff. destruct S as [S1 [S2 S3]].
      pose proof (fac_dead_iff (fac_with f (Fin x) b) x rm L ltac:(repeat split; auto)) as FD. simpl fc_growing in FD. rewrite <- FD.
      destruct (fac_dead _); split; intros; auto; try discriminate. exfalso; auto. }
    destruct (Rle_dec L t).
    + assert (EQ : rm * exp (-2 * (t - L) / L) <= rm / exp 2 <-> 2 * L <= t).
      { replace (rm / exp 2) with (rm * exp (-2)) by (replace (-2) with (- (2)) by lra; rewrite (exp_Ropp 2); auto).
        split; intros.
        - apply Rmult_le_reg_l in H0; auto. destruct (Rle_dec (2 * L) t); auto. exfalso.
          assert (-2 < -2 * (t - L) / L) by (apply lt_div; lra). apply exp_increasing in H1. lra.
        - apply Rmult_le_compat_l; [lra|]. destruct H0 as [H0|H0].
          left. apply exp_increasing. apply div_lt; lra. rewrite <- H0. replace (-2 * (2 * L - L) / L) with (-2) by (field; lra). lra. }
      split; intros.
      * destruct (fkeep _) eqn:Ek; auto. apply K in Ek. exfalso. apply Ek. split; auto. apply EQ; auto.
      * destruct (fkeep _) eqn:Ek; auto. exfalso. assert (fkeep (fac_with f (Fin (rm * exp (-2 * (t - L) / L))) false) = true).
        apply K. intros [X _]. apply EQ in X. lra. congruence.
    + split; intros. lra.
      assert (fkeep (fac_with f (Fin (rm / exp 2 * exp (2 * t / L))) true) = true). apply K. intros [_ X]; discriminate.
      rewrite H1. auto.
  - intros. split; auto. apply filter_keeps_g. apply fkeep_alive.
  - intros. apply filter_keeps_g. apply fkeep_alive.
Qed.

(** ** C31, C32 *)
Lemma thermal_dteffs : forall f r d fs fm fb ws wi, fac_thermal f r d fs fm fb ws wi ->
  fac_floor_dteff f = Fin (floor_diff r fs fm fb) /\ fac_wall_dteff f = Fin (wall_diff r ws wi).
Proof.
  intros f r d fs fm fb ws wi [E1 [E2 [E3 [E4 [E5 [E6 E7]]]]]]. unfold fac_floor_dteff, fac_wall_dteff.
  rewrite E1, E3, E4, E5, E6, E7. rewrite nsub_fin, !nmul_fin, !nadd_fin. unfold floor_diff, wall_diff.
  split; f_equal; ring.
Qed.
Lemma sqrt_x0 : forall x, sqrt (x^2 + 0^2) = Rabs x.
Proof. intros. rewrite <- sqrt_Rsqr_abs. f_equal. unfold Rsqr. ring. Qed.
Lemma ntan_fin : forall a, cos a <> 0 -> ntan (Fin a) = Fin (tan a).
Proof. intros. unfold ntan. destruct (Req_EM_T (cos a) 0); auto. contradiction. Qed.
(** the fraction of the projected area occupied by the wall *)
Definition wallf (r d fm a : R) : R :=
  if Rlt_dec r fm then 1 else 1 - frac 1 (Rabs (d / r * tan a)).
Lemma dset2_eq : forall k1 k2 a a' b b', a = a' -> b = b' ->
  @Ok (dict Z num) (dset Z.eqb (dset Z.eqb [] k1 (Fin a)) k2 (Fin b)) = Ok (dset Z.eqb (dset Z.eqb [] k1 (Fin a')) k2 (Fin b')).
Proof. intros; subst; auto. Qed.
Lemma list2_eq : forall (k1 k2 : Z) a a' b b', a = a' -> b = b' ->
  @Ok (dict Z num) [(k1, Fin a); (k2, Fin b)] = Ok [(k1, Fin a'); (k2, Fin b')].
Proof. intros; subst; auto. Qed.
Lemma effective_area_eq : forall f r d fs fm fb ws wi a, fac_thermal f r d fs fm fb ws wi -> 0 < r -> cos a <> 0 ->
  wall_diff r ws wi <> floor_diff r fs fm fb ->
  fac_effective_area f (Fin a) =
    Ok (dset Z.eqb (dset Z.eqb [] (rhe (wall_diff r ws wi)) (Fin (wallf r d fm a * (PI * r^2 * cos a))))
          (rhe (floor_diff r fs fm fb)) (Fin ((1 - wallf r d fm a) * (PI * r^2 * cos a)))).
Proof.
  intros f r d fs fm fb ws wi a T Hr Hc Hn. destruct (thermal_dteffs _ _ _ _ _ _ _ _ T) as [D1 D2].
  destruct T as [E1 [E2 [E3 [E4 [E5 [E6 E7]]]]]]. unfold fac_effective_area. rewrite D1, D2, E1, E2, E4.
  rewrite (proj2 (neq_fin_false _ _)) by auto. cbn [round_teff bind ncos]. cbn [nlt]. unfold wallf, Rltb.
  destruct (Rlt_dec r fm).
  - rewrite nsq_fin, !nmul_fin. apply dset2_eq; ring.
  - rewrite ndiv_fin by lra. rewrite ntan_fin by auto. rewrite nmul_fin. rewrite circ_fraction_eq by lra. cbn [bind].
    rewrite nsq_fin, nsub_fin, nsub_fin, !nmul_fin. rewrite sqrt_x0.
    apply dset2_eq; ring.
Qed.
Lemma wallf_range : forall r d fm a, 0 <= wallf r d fm a <= 1.
Proof.
  intros. unfold wallf. destruct (Rlt_dec r fm). lra. set (x := Rabs (d / r * tan a)).
  assert (0 <= frac 1 x <= 1).
  { destruct (Rle_dec x (1 - 1)). rewrite frac_low by lra. lra.
    destruct (Rle_dec (1 + 1) x). rewrite frac_high by lra. lra. pose proof (frac_mid 1 x ltac:(lra) ltac:(lra)). lra. } lra.
Qed.
Lemma C31_lemma : forall f r d fs fm fb ws wi kw kf,
  fac_thermal f r d fs fm fb ws wi -> 0 < r -> 0 <= d ->
  round_teff (Fin (wall_diff r ws wi)) = Ok kw -> round_teff (Fin (floor_diff r fs fm fb)) = Ok kf -> kw <> kf ->
  exists w : R -> R,
    (forall a, cos a <> 0 ->
       fac_effective_area f (Fin a)
         = Ok [(kw, Fin (w a * (PI * r^2 * cos a))); (kf, Fin ((1 - w a) * (PI * r^2 * cos a)))]
       /\ fac_fractional_area f (Fin a) = Ok [(kw, Fin (w a)); (kf, Fin (1 - w a))]
       /\ 0 <= w a <= 1)
    /\ (r < fm -> forall a, w a = 1)
    /\ (fm <= r ->
          w 0 = 0
          (* the floor is the overlap of two discs displaced by depth*tan(angle) *)
          /\ (forall a, is_RInt (overlap_slice 1 (Rabs (d / r * tan a)))
                          (Rabs (d / r * tan a) - 1) (Rabs (d / r * tan a) + 1) ((1 - w a) * PI))
          /\ (forall a b, 0 <= a <= b -> b < PI/2 -> w a <= w b)
          /\ (forall a, 0 <= a < PI/2 -> (w a = 1 <-> 2 * r <= d * tan a))).
Proof.
  intros f r d fs fm fb ws wi kw kf T Hr Hd Ek1 Ek2 Hk. exists (wallf r d fm).
  simpl in Ek1, Ek2. assert (K1 : rhe (wall_diff r ws wi) = kw) by congruence.
  assert (K2 : rhe (floor_diff r fs fm fb) = kf) by congruence.
  assert (NE : wall_diff r ws wi <> floor_diff r fs fm fb) by (intros E; apply Hk; rewrite <- K1, <- K2, E; auto).
  split; [|split].
  - intros a Hc.
    assert (EA : fac_effective_area f (Fin a)
         = Ok [(kw, Fin (wallf r d fm a * (PI * r^2 * cos a))); (kf, Fin ((1 - wallf r d fm a) * (PI * r^2 * cos a)))]).
    { rewrite (effective_area_eq f r d fs fm fb ws wi a T Hr Hc NE). rewrite K1, K2. cbn [dset].
      replace (kf =? kw)%Z with false. auto. symmetry. apply Z.eqb_neq. auto. }
    split; auto.
    split; [|apply wallf_range]. unfold fac_fractional_area. rewrite EA. cbn [bind fold_left map fst snd].
    rewrite !nadd_fin. pose proof PI_RGT_0. pose proof (pow_lt r 2 Hr).
    assert (PI * r^2 * cos a <> 0).
    { intros Z. apply Rmult_integral in Z. destruct Z as [Z|Z]; auto. apply Rmult_integral in Z. destruct Z; lra. }
    rewrite !ndiv_fin.
    2,3: intros Z; apply H1; rewrite <- Z; ring.
    apply list2_eq; field; repeat split; auto; lra.
  - intros. unfold wallf. destruct (Rlt_dec r fm); auto; lra.
  - intros Hm. pose proof PI_RGT_0 as PP. unfold wallf. destruct (Rlt_dec r fm); [lra|].
    assert (DR : 0 <= d / r) by (apply le_div; lra).
    assert (TN : forall a, 0 <= a < PI/2 -> 0 <= tan a).
    { intros. destruct (Req_dec a 0) as [->|]. rewrite tan_0; lra. left. apply tan_gt_0; lra. }
    split; [|split; [|split]].
    + rewrite tan_0, Rmult_0_r, Rabs_R0. rewrite frac_low by lra. lra.
    + intros. replace ((1 - (1 - frac 1 (Rabs (d / r * tan a)))) * PI) with (frac 1 (Rabs (d / r * tan a)) * (PI * 1^2)) by ring.
      apply lens_area. lra. apply Rabs_pos.
    + intros a b Hab Hb. assert (tan a <= tan b).
      { destruct (Req_dec a b) as [->|]; [lra|]. left. apply tan_increasing; lra. }
      pose proof (TN a ltac:(lra)). pose proof (TN b ltac:(lra)).
      rewrite !Rabs_right by (apply Rle_ge; apply Rmult_le_pos; auto).
      assert (frac 1 (d / r * tan b) <= frac 1 (d / r * tan a)). { apply frac_mono. lra. apply Rmult_le_compat_l; auto. } lra.
    + intros a Ha. pose proof (TN a Ha). rewrite Rabs_right by (apply Rle_ge; apply Rmult_le_pos; auto).
      assert (EQ : 1 + 1 <= d / r * tan a <-> 2 * r <= d * tan a).
      { replace (d / r * tan a) with (d * tan a / r) by (field; lra). replace (1 + 1) with 2 by ring. apply le_div; auto. }
      rewrite <- EQ. split; intros.
      * destruct (Rle_dec (1 + 1) (d / r * tan a)); auto. exfalso.
        destruct (Rle_dec (d / r * tan a) (1 - 1)). rewrite frac_low in H0 by lra. lra.
        pose proof (frac_mid 1 (d / r * tan a) ltac:(lra) ltac:(lra)). lra.
      * rewrite frac_high by lra. lra.
Qed.
Lemma C32_lemma : forall f r d fs fm fb ws wi a,
  fac_thermal f r d fs fm fb ws wi -> 0 < r -> cos a <> 0 ->
  (wall_diff r ws wi = floor_diff r fs fm fb -> fac_effective_area f (Fin a) = Raise ValueError)
  /\ (wall_diff r ws wi <> floor_diff r fs fm fb ->
        (exists areas, fac_effective_area f (Fin a) = Ok areas)
        /\ forall k, round_teff (Fin (wall_diff r ws wi)) = Ok k -> round_teff (Fin (floor_diff r fs fm fb)) = Ok k ->
             exists v, fac_effective_area f (Fin a) = Ok [(k, v)]).
Proof.
  intros f r d fs fm fb ws wi a T Hr Hc. split; intros.
  - destruct (thermal_dteffs _ _ _ _ _ _ _ _ T) as [D1 D2]. unfold fac_effective_area. rewrite D1, D2.
    rewrite (proj2 (neq_fin _ _)) by auto. auto.
  - rewrite (effective_area_eq f r d fs fm fb ws wi a T Hr Hc H). split; eauto.
    cbn [round_teff]; intros k K1 K2. assert (E1 : rhe (wall_diff r ws wi) = k) by congruence.
    assert (E2 : rhe (floor_diff r fs fm fb) = k) by congruence. rewrite E1, E2. cbn [dset]. rewrite Z.eqb_refl. eauto.
Qed.

(** ** C33 *)
Lemma is_RInt_exp_up : forall A k a b, k <> 0 ->
  is_RInt (fun t => A * exp (k * t)) a b (A / k * (exp (k * b) - exp (k * a))).
Proof.
  intros.
  assert (E : A / k * (exp (k * b) - exp (k * a)) = minus (A / k * exp (k * b)) (A / k * exp (k * a))).
  { unfold minus, plus, opp; simpl. ring. }
  rewrite E. apply (is_RInt_derive (fun t => A / k * exp (k * t)) (fun t => A * exp (k * t))).
  - intros. auto_derive; auto. field. auto.
  - intros. apply (ex_derive_continuous (fun t => A * exp (k * t))). auto_derive. auto.
Qed.
Lemma C33_lemma : forall g r0 f L, fg_rpeak g = Fin r0 -> 0 < r0 -> 0 < L ->
  fac_state f (r0 / exp 2) r0 L -> fc_growing f = true ->
  exists (rad : R -> R) I m,
    (forall t, 0 <= t -> fc_radius (fac_age f (Fin t)) = Fin (rad t))
    /\ is_RInt (fun t => PI * rad t ^ 2) 0 (2 * L) I
    /\ I / (2 * L) = PI * r0^2 * (1 - exp (-4)) / 4
    /\ fg_mean_area g = Fin m /\ m = PI * r0^2 * (1 - exp (-2)) / 2
    /\ I / (2 * L) < m.
Proof.
  intros g r0 f L Hg Hr HL S G. pose proof (exp_pos 2) as E2. pose proof PI_RGT_0 as PP.
  assert (Hr' : 0 < r0 / exp 2 <= r0).
  { split. apply Rdiv_lt_0_compat; lra. apply div_le; auto. pose proof (exp_ineq1 2). nra. }
  exists (fun t => r0 * exp (-2 * Rabs (t - L) / L)), (PI * r0^2 * (1 - exp (-4)) / 4 * (2 * L)), (PI * r0^2 * (1 - exp (-2)) / 2).
  assert (TP : time_to_peak (r0 / exp 2) r0 L = L).
  { unfold time_to_peak. replace (r0 / (r0 / exp 2)) with (exp 2) by (field; lra). rewrite ln_exp. field. }
  split; [|split; [|split; [|split; [|split]]]].
  - intros. destruct C29_lemma as [C _]. destruct (C f _ _ _ t S Hr' HL H) as [C1 _]. destruct (C1 G) as [b [A _]].
    rewrite TP in A. apply A.
  - assert (I1 : is_RInt (fun t => PI * (r0 * exp (-2 * Rabs (t - L) / L))^2) 0 L (PI * r0^2 * (1 - exp (-4)) / 4 * L)).
    { apply (is_RInt_ext (fun t => PI * r0^2 * exp (-4) * exp (4 / L * t))).
      - intros x Hx. rewrite Rmin_left, Rmax_right in Hx by lra. rewrite Rabs_left by lra.
        rewrite Rpow_mult_distr. replace (exp (-2 * - (x - L) / L) ^ 2) with (exp (-4) * exp (4 / L * x)). req; ring.
        rewrite <- exp_plus. simpl. rewrite Rmult_1_r, <- exp_plus. f_equal. field. lra.
      - replace (PI * r0^2 * (1 - exp (-4)) / 4 * L) with (PI * r0^2 * exp (-4) / (4 / L) * (exp (4 / L * L) - exp (4 / L * 0))).
        apply is_RInt_exp_up. assert (0 < 4 / L) by (apply Rdiv_lt_0_compat; lra). lra.
        replace (4 / L * L) with 4 by (field; lra). rewrite Rmult_0_r, exp_0.
        assert (exp (-4) * exp 4 = 1) by (rewrite <- exp_plus; replace (-4 + 4) with 0 by ring; apply exp_0).
        replace (PI * r0^2 * exp (-4) / (4 / L) * (exp 4 - 1)) with (PI * r0^2 * (exp (-4) * exp 4 - exp (-4)) / 4 * L) by (field; lra).
        rewrite H. auto. }
    assert (I2 : is_RInt (fun t => PI * (r0 * exp (-2 * Rabs (t - L) / L))^2) L (2 * L) (PI * r0^2 * (1 - exp (-4)) / 4 * L)).
    { apply (is_RInt_ext (fun t => PI * r0^2 * exp 4 * exp (- 4 / L * t))).
      - intros x Hx. rewrite Rmin_left, Rmax_right in Hx by lra. rewrite Rabs_right by lra.
        rewrite Rpow_mult_distr. replace (exp (-2 * (x - L) / L) ^ 2) with (exp 4 * exp (- 4 / L * x)). req; ring.
        rewrite <- exp_plus. simpl. rewrite Rmult_1_r, <- exp_plus. f_equal. field. lra.
      - replace (PI * r0^2 * (1 - exp (-4)) / 4 * L) with (PI * r0^2 * exp 4 / (- 4 / L) * (exp (- 4 / L * (2 * L)) - exp (- 4 / L * L))).
        apply is_RInt_exp_up. assert (0 < 4 / L) by (apply Rdiv_lt_0_compat; lra). unfold Rdiv in *. lra.
        replace (- 4 / L * (2 * L)) with (-8) by (field; lra). replace (- 4 / L * L) with (-4) by (field; lra).
        assert (exp 4 * exp (-4) = 1) by (rewrite <- exp_plus; replace (4 + -4) with 0 by ring; apply exp_0).
        assert (exp 4 * exp (-8) = exp (-4)) by (rewrite <- exp_plus; f_equal; ring).
        replace (PI * r0^2 * exp 4 / (- 4 / L) * (exp (-8) - exp (-4))) with (PI * r0^2 * (exp 4 * exp (-4) - exp 4 * exp (-8)) / 4 * L) by (field; lra).
        rewrite H, H0. auto. }
    pose proof (@is_RInt_Chasles R_NormedModule _ _ _ _ _ _ I1 I2) as C.
    replace (PI * r0^2 * (1 - exp (-4)) / 4 * (2 * L)) with (plus (PI * r0^2 * (1 - exp (-4)) / 4 * L) (PI * r0^2 * (1 - exp (-4)) / 4 * L)).
    exact C. unfold plus; simpl. field.
  - field. lra.
  - unfold fg_mean_area. rewrite Hg, nsq_fin, nmul_fin. f_equal. field.
  - reflexivity.
  - replace (PI * r0^2 * (1 - exp (-4)) / 4 * (2 * L) / (2 * L)) with (PI * r0^2 * ((1 - exp (-4)) / 4)) by (field; lra).
    replace (PI * r0^2 * (1 - exp (-2)) / 2) with (PI * r0^2 * ((1 - exp (-2)) / 2)) by field.
    assert (0 < PI * r0^2) by (apply Rmult_lt_0_compat; [lra|apply pow_lt; auto]). apply Rmult_lt_compat_l; auto.
    assert (exp (-4) = exp (-2) * exp (-2)) by (rewrite <- exp_plus; f_equal; ring). pose proof (exp_pos (-2)).
    assert (exp (-2) < 1) by (rewrite <- exp_0; apply exp_increasing; lra). nra.
Qed.

(** ** C34 *)
Lemma C34_lemma :
  (forall g r0 L Rkm, fg_rpeak g = Fin r0 -> fg_lifepeak g = Fin L -> 0 < r0 -> 0 < L -> 0 < Rkm ->
     exists k, 0 < k
       /\ (forall c t, fg_n_expected (fg_with_coverage g (Fin c)) (Fin t) Rkm = Fin (k * c * t))
       /\ (forall m c t, fg_mean_area g = Fin m -> k * c * t * m * (2 * L) = c * (4 * PI * Rkm^2) * t))
  /\ (forall gr t Rkm pdraw d, 0 < Rkm ->
        fg_n_expected (fg_off gr) (Fin t) Rkm = Fin 0 /\ fg_birth (fg_off gr) (Fin t) Rkm pdraw d = Ok [])
  /\ (forall g, fg_init true Solar g = Raise NotImplementedError
        /\ fg_init true UnknownDist g = Raise ValueError
        /\ (forall dist, fg_init false dist g = Raise TypeError)
        /\ fg_init true Iso g = Ok g).
Proof.
  assert (EM : forall r0, 0 < r0 -> 0 < 1/2 * PI * (1 - exp (-2)) * (r0 * r0)).
  { intros. assert (exp (-2) < 1) by (rewrite <- exp_0; apply exp_increasing; lra). pose proof PI_RGT_0.
    assert (0 < r0 * r0) by nra. apply Rmult_lt_0_compat; auto. apply Rmult_lt_0_compat; lra. }
  split; [|split].
  - intros g r0 L Rkm Hr HL Pr PL PR. pose proof (EM r0 Pr) as M. set (m := 1/2 * PI * (1 - exp (-2)) * (r0 * r0)) in *.
    exists (4 * PI * Rkm^2 / m / (2 * L)). pose proof PI_RGT_0. pose proof (pow_lt Rkm 2 PR).
    split; [|split].
    + apply Rdiv_lt_0_compat; [|lra]. apply Rdiv_lt_0_compat; auto. nra.
    + intros. unfold fg_n_expected. simpl fg_coverage. simpl fg_lifepeak. unfold fg_mean_area. simpl fg_rpeak.
      rewrite Hr, HL, nsq_fin, !nmul_fin. fold m. rewrite ndiv_fin by lra. rewrite nmul_fin. rewrite ndiv_fin by lra.
      f_equal. field. split; lra.
    + unfold fg_mean_area. rewrite Hr, nsq_fin, nmul_fin. fold m. intros. inversion H1; subst m0. field. split; lra.
  - intros. assert (E : fg_n_expected (fg_off gr) (Fin t) Rkm = Fin 0).
    { unfold fg_n_expected, fg_mean_area. simpl fg_coverage. simpl fg_lifepeak. simpl fg_rpeak. rewrite nsq_fin, !nmul_fin.
      pose proof (EM 100 ltac:(lra)). rewrite ndiv_fin by lra. rewrite nmul_fin, ndiv_fin by lra. f_equal. unfold Rdiv. ring. }
    split; auto. unfold fg_birth. rewrite E. unfold poisson. destruct (Rlt_dec 0 0); [lra|]. destruct (Req_EM_T 0 0); [|lra].
    reflexivity.
  - intros. repeat split.
Qed.

(** ** C35 *)
Lemma Rpower_pos : forall a b, 0 < Rpower a b.
Proof. intros. apply exp_pos. Qed.
Lemma C35_lemma : forall g n d r0 L, fg_rpeak g = Fin r0 -> fg_lifepeak g = Fin L -> 0 < r0 -> 0 < L ->
  0 <= fg_rlogsigma g -> 0 <= fg_lifelogsigma g ->
  length (fg_generate g n d) = n
  /\ (forall i dflt, (i < n)%nat -> let f := nth i (fg_generate g n d) dflt in
        exists rm lf, fac_state f (rm / exp 2) rm lf /\ 0 < rm /\ 0 < lf /\ fac_wf f
          /\ ln (rm / r0) = fd_z d i * fg_rlogsigma g * ln 10
          /\ ln (lf / L) = fd_z d i * fg_lifelogsigma g * ln 10
          /\ fc_growing f = true /\ fc_grid f = fg_grid g /\ fc_depth f = fg_depth g
          /\ fc_fslope f = fg_fslope g /\ fc_fminrad f = fg_fminrad g /\ fc_fbase f = fg_fbase g
          /\ fc_wslope f = fg_wslope g /\ fc_wint f = fg_wint g
          /\ (unit_draw (fd_x d i) -> unit_draw (fd_ulon d i) -> area_uniform (fd_x d i) (fd_ulon d i) (fc_lat f) (fc_lon f)))
  /\ (forall i j dflt rmi rmj li lj, (i < n)%nat -> (j < n)%nat ->
        fac_state (nth i (fg_generate g n d) dflt) (rmi / exp 2) rmi li ->
        fac_state (nth j (fg_generate g n d) dflt) (rmj / exp 2) rmj lj ->
        rmi < rmj -> li <= lj).
Proof.
  intros g n d r0 L Hr HL Pr PL S1 S2. pose proof (exp_pos 2) as E2. 
  assert (N : forall i dflt, (i < n)%nat -> exists f, nth i (fg_generate g n d) dflt = f
     /\ fac_state f (r0 * Rpower 10 (fd_z d i * fg_rlogsigma g) / exp 2) (r0 * Rpower 10 (fd_z d i * fg_rlogsigma g)) (L * Rpower 10 (fd_z d i * fg_lifelogsigma g))
     /\ f = {| fc_lat := deg2rad (num_or_0 (iso_lat (fd_x d i))); fc_lon := deg2rad (rand_lon (fd_ulon d i));
       fc_rmax := fc_rmax f; fc_radius := fc_radius f; fc_depth := fg_depth g; fc_life := fc_life f;
       fc_fslope := fg_fslope g; fc_fminrad := fg_fminrad g; fc_fbase := fg_fbase g;
       fc_wslope := fg_wslope g; fc_wint := fg_wint g; fc_growing := true; fc_grid := fg_grid g |}).
  { intros. eexists. split. unfold fg_generate. rewrite nth_map_seq by auto. reflexivity.
    split; [|reflexivity]. unfold fac_state. cbn [fc_radius fc_rmax fc_life]. rewrite Hr, HL, !nmul_fin, exp2.
    rewrite ndiv_fin by lra. auto. }
  split; [|split].
  - unfold fg_generate. rewrite map_length, seq_length. auto.
  - intros i dflt Hi f. destruct (N i dflt Hi) as [f' [E [S F]]]. fold f in E. rewrite <- E in S, F. clear f' E.
    exists (r0 * Rpower 10 (fd_z d i * fg_rlogsigma g)), (L * Rpower 10 (fd_z d i * fg_lifelogsigma g)).
    pose proof (Rpower_pos 10 (fd_z d i * fg_rlogsigma g)) as P1. pose proof (Rpower_pos 10 (fd_z d i * fg_lifelogsigma g)) as P2.
    split; auto. assert (Q1 : 0 < r0 * Rpower 10 (fd_z d i * fg_rlogsigma g)) by (apply Rmult_lt_0_compat; auto).
    assert (Q2 : 0 < L * Rpower 10 (fd_z d i * fg_lifelogsigma g)) by (apply Rmult_lt_0_compat; auto).
    split; auto. split; auto. split.
    { do 3 eexists. split. exact S. split; auto. split. apply Rdiv_lt_0_compat; auto.
      apply div_le; auto. pose proof (exp_ineq1 2). nra. }
    split. { replace (r0 * Rpower 10 (fd_z d i * fg_rlogsigma g) / r0) with (Rpower 10 (fd_z d i * fg_rlogsigma g)) by (field; lra).
      unfold Rpower. rewrite ln_exp. auto. }
    split. { replace (L * Rpower 10 (fd_z d i * fg_lifelogsigma g) / L) with (Rpower 10 (fd_z d i * fg_lifelogsigma g)) by (field; lra).
      unfold Rpower. rewrite ln_exp. auto. }
    rewrite F. simpl. do 8 (split; [reflexivity|]). intros; apply iso_uniform; auto.
  - intros i j dflt rmi rmj li lj Hi Hj A B Hlt.
    destruct (N i dflt Hi) as [fi [Ei [Si _]]]. destruct (N j dflt Hj) as [fj [Ej [Sj _]]]. subst fi fj.
    destruct A as [_ [A1 A2]]. destruct B as [_ [B1 B2]]. destruct Si as [_ [Si1 Si2]]. destruct Sj as [_ [Sj1 Sj2]].
    rewrite A1 in Si1; rewrite A2 in Si2; rewrite B1 in Sj1; rewrite B2 in Sj2.
    inversion Si1; inversion Si2; inversion Sj1; inversion Sj2; subst.
    apply Rmult_lt_reg_l in Hlt; auto. apply exp_lt_inv in Hlt.
    assert (L10 : 0 < ln 10) by (apply ln_pos1; lra). apply Rmult_lt_reg_r in Hlt; auto.
    assert (fd_z d i < fd_z d j) by nra.
    apply Rmult_le_compat_l; [lra|]. unfold Rpower. 
    assert (LE : fd_z d i * fg_lifelogsigma g * ln 10 <= fd_z d j * fg_lifelogsigma g * ln 10)
      by (apply Rmult_le_compat_r; [lra|]; apply Rmult_le_compat_r; lra).
    destruct LE as [LE|LE]; [left; apply exp_increasing; auto | rewrite LE; lra].
Qed.

(** ** C36 *)
Lemma C36_lemma : forall c new,
  ((exists f a b n, In f new /\ fc_grid f = Rect a b /\ fcc_grid c = Spiral n) -> fcc_add c new = Raise TypeError)
  /\ ((forall f, In f new -> forall a b n, ~ (fc_grid f = Rect a b /\ fcc_grid c = Spiral n)) ->
        exists c' new', fcc_add c new = Ok c' /\ fcc_grid c' = fcc_grid c
          /\ fcc_facs c' = fcc_facs c ++ new'
          /\ Forall2 (fun f f' => same_fac f f' /\ fc_grid f' = fcc_grid c) new new').
Proof.
  intros [l g] new. simpl. unfold fcc_add. simpl fcc_grid. simpl fcc_facs. split; intros H.
  - destruct H as [f [a [b [n [I [E1 E2]]]]]]. subst g.
    assert (M : mapM (fun f => do same <- grid_eq (fc_grid f) (Some (Spiral n)) ;; Ok (if same then f else fac_assign_grid f (Spiral n))) new = Raise TypeError).
    { induction new as [|x new IH]; [destruct I|]. simpl. destruct I as [->|I].
      - rewrite E1. simpl. auto.
      - destruct (fc_grid x); simpl; auto. rewrite IH by auto. auto. }
    rewrite M. auto.
  - assert (M : mapM (fun f => do same <- grid_eq (fc_grid f) (Some g) ;; Ok (if same then f else fac_assign_grid f g)) new
       = Ok (map (fun f => fac_assign_grid f g) new)).
    { induction new as [|x new IH]; auto. simpl.
      assert (X : (do same <- grid_eq (fc_grid x) (Some g) ;; Ok (if same then x else fac_assign_grid x g)) = Ok (fac_assign_grid x g)).
      { specialize (H x (or_introl eq_refl)).
        assert (T : fc_grid x = g -> x = fac_assign_grid x g) by (intros <-; destruct x; auto).
        destruct (fc_grid x) eqn:Ex, g; simpl.
        - destruct (Nat.eqb_spec nlat nlat0), (Nat.eqb_spec nlon nlon0); simpl; auto. subst. f_equal. auto.
        - exfalso. eapply H; eauto.
        - auto.
        - destruct (Nat.eqb_spec n n0); auto. subst. f_equal. auto. }
      rewrite X. cbn [bind]. rewrite IH. auto. intros; apply H; right; auto. }
    rewrite M. cbn [bind]. eexists. exists (map (fun f => fac_assign_grid f g) new). split. reflexivity. split. reflexivity.
    split. reflexivity. clear. induction new; simpl; constructor; auto. repeat split.
Qed.
