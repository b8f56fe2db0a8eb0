(** The part of the surface covered by mature spots *)
From Coq Require Import Reals ZArith Bool List Lra Lia.
From Coquelicot Require Import Coquelicot.
From Verif Require Import Num Py MConfig MHelpers MGrid MSpots Spec SpecStar SpecConv LBase LGrid LHelpers LSpotAge LSpotMap LSpotCov LSpotGen LSpotDisk.
Import ListNotations.
Open Scope R_scope.

Lemma sin_cubic : forall x, 0 <= x <= PI -> x - x^3/6 <= sin x <= x.
Proof.
  intros x H. destruct (sin_bound x 0) as [L U]; try lra. 
  unfold sin_approx in *. cbn [Nat.mul Nat.add sum_f_R0] in *. unfold sin_term in *. cbn [Nat.mul Nat.add pow] in *.
  change (fact 1) with 1%nat in *. change (fact 3) with 6%nat in *. replace (INR 6) with 6 in L by (simpl; ring). change (INR 1) with 1 in *.
  split. simpl in L |- *; lra. destruct (Req_dec x 0) as [->|N]. rewrite sin_0; lra. left; apply sin_lt_x; lra.
Qed.
(** area of a cap and of a flat disc of the same angular radius *)
Lemma cap_disc : forall th, 0 <= th <= PI -> PI * th^2 * (1 - th^2/12) <= 2 * PI * (1 - cos th) <= PI * th^2.
Proof.
  intros th H. pose proof PI_RGT_0 as PP. destruct (sin_cubic (th/2)) as [L U]. lra.
  assert (S0 : 0 <= sin (th/2)) by (apply sin_ge_0; lra).
  assert (E : 1 - cos th = 2 * sin (th/2) ^ 2). { replace th with (2 * (th/2)) at 1 by field. rewrite cos_2a_sin. ring. }
  rewrite E. set (x := th/2) in *. replace th with (2 * x) by (unfold x; field). set (sx := sin x) in *.
  assert (X0 : 0 <= x) by (unfold x; lra).
  assert (X2 : x ^ 2 <= 4).
  { assert (x <= 2). { unfold x. pose proof PI_4. lra. } simpl. nra. }
  assert (Q0 : 0 <= x * (1 - x^2/6)) by (apply Rmult_le_pos; lra).
  assert (L' : x * (1 - x^2/6) <= sx) by (replace (x * (1 - x^2/6)) with (x - x^3/6) by field; auto).
  assert (U2 : sx^2 <= x^2) by (simpl; nra).
  assert (L2 : (x * (1 - x^2/6))^2 <= sx^2) by (apply pow_incr; auto).
  assert (L3 : x^2 * (1 - x^2/3) <= (x * (1 - x^2/6))^2).
  { replace ((x * (1 - x^2/6))^2) with (x^2 * (1 - x^2/3) + (x^2 * x / 6)^2) by field. pose proof (pow2_ge_0 (x^2 * x/6)). lra. }
  split.
  - replace (PI * (2 * x)^2 * (1 - (2 * x)^2/12)) with (4 * PI * (x^2 * (1 - x^2/3))) by field. 
    replace (2 * PI * (2 * sx^2)) with (4 * PI * sx^2) by ring. apply Rmult_le_compat_l; lra.
  - replace (2 * PI * (2 * sx^2)) with (4 * PI * sx^2) by ring. replace (PI * (2 * x)^2) with (4 * PI * x^2) by ring. apply Rmult_le_compat_l; lra.
Qed.
Lemma view_radius : forall Rs v, 0 < Rs -> view_ok Rs v -> spot_angular_radius (v_spot v) Rs = Fin (v_radius v).
Proof.
  intros Rs v HR [EA [[B C] _]]. pose proof PI_RGT_0 as PP. pose proof (pow_lt Rs 2 HR) as R2. pose proof (COS_bound (v_radius v)) as CB.
  assert (E : v_area v / 10 ^ 6 * (2 * PI) = v_area v * (2 * PI / 1000000)) by field. rewrite E in C.
  assert (P2 : 0 < 2 * PI * Rs^2) by (apply Rmult_lt_0_compat; lra).
  destruct (C18_lemma (v_spot v) Rs (v_area v) EA HR) as [K _]. destruct K as [th [Eth [Bth [Cth _]]]].
  - rewrite <- C. split. apply Rmult_le_pos; lra. replace (4 * PI * Rs^2) with (2 * PI * Rs^2 * 2) by ring. apply Rmult_le_compat_l; lra.
  - rewrite Eth. f_equal. rewrite <- C in Cth. apply Rmult_eq_reg_l in Cth; [|lra]. rewrite <- (acos_cos th), <- (acos_cos (v_radius v)) by auto. f_equal. lra.
Qed.
Lemma view_share : forall Rs v, 0 < Rs -> view_ok Rs v -> surface_fraction Rs v = 2 * PI * (1 - cos (v_radius v)) / (4 * PI).
Proof.
  intros Rs v HR [_ [[_ C] _]]. pose proof PI_RGT_0 as PP. pose proof (pow_lt Rs 2 HR) as R2. unfold surface_fraction. rewrite <- C. field. lra.
Qed.
Lemma views_radii : forall Rs vs, 0 < Rs -> (forall v, In v vs -> view_ok Rs v) -> spot_radii Rs (map v_spot vs) = map Fin (map v_radius vs).
Proof. intros Rs vs HR H. unfold spot_radii. rewrite !map_map. apply map_ext_in. intros v I. apply view_radius; auto. Qed.
Lemma map_Fin_inj : forall a b, map Fin a = map Fin b -> a = b.
Proof. induction a as [|x a IH]; intros [|y b] H; try discriminate; auto. cbn in H. injection H as -> H. f_equal; auto. Qed.
Lemma C95_lemma :
  forall g c Rs draws rf fuel vs, 0 < Rs -> sg_generate_mature g (Fin c) Rs draws rf fuel = Ok (map v_spot vs) ->
  (forall v, In v vs -> view_ok Rs v) ->
  (* their areas make up nearly the coverage asked for ... *)
  (forall th, (forall v, In v vs -> v_radius v <= th) -> c * (1 - th^2 / 12) <= rsum (map (surface_fraction Rs) vs))
  (* ... and without the last spot less than that *)
  /\ (forall vs0 v, vs = vs0 ++ [v] -> rsum (map (surface_fraction Rs) vs0) < c)
  (* so does the coverage reported for them, if they do not overlap and the grid is fine *)
  /\ (forall d, good_grid (sg_grid g) -> resolution (sg_grid g) d -> (forall v, In v vs -> fin_temps (v_spot v)) ->
        exists x, sc_get_coverage (mkSpotColl (map v_spot vs) (sg_grid g)) Rs = Ok (Fin x)
        /\ (forall vs0 v, vs = vs0 ++ [v] -> x < c + surface_fraction Rs v + INR (length vs) * (101 * sqrt d))
        /\ (ForallOrdPairs apart vs -> forall th, (forall v, In v vs -> v_radius v <= th) -> c * (1 - th^2 / 12) - INR (length vs) * (101 * sqrt d) <= x)).
Proof.
  intros g c Rs draws rf fuel vs HR HG HV. pose proof PI_RGT_0 as PP.
  destruct C28_lemma as [_ [_ [_ [M _]]]]. destruct (M _ _ _ _ _ _ _ HG) as [Hc [RM ON]]. clear M.
  assert (RR := views_radii Rs vs HR HV).
  assert (MIN : 4 * PI * c <= disc_sum (map v_radius vs) /\ forall k, (k < length vs)%nat -> disc_sum (firstn k (map v_radius vs)) < 4 * PI * c).
  { destruct RM as [[ths [E [L K]]]|[l0 [s [ths [E [_ [N _]]]]]]].
    - rewrite RR in E. apply map_Fin_inj in E. subst ths. split; auto. intros k Hk. apply K. rewrite map_length. auto.
    - exfalso. assert (I : In (spot_angular_radius s Rs) (spot_radii Rs (map v_spot vs))). { apply (in_map (fun s => spot_angular_radius s Rs)). rewrite E. apply in_or_app. right. left. auto. }
      rewrite RR, N in I. apply in_map_iff in I. destruct I as [? [X _]]. discriminate. }
  destruct MIN as [MIN1 MIN2].
  assert (UP : forall ws, (forall v, In v ws -> view_ok Rs v) -> rsum (map (surface_fraction Rs) ws) <= disc_sum (map v_radius ws) / (4 * PI)).
  { intros ws HW. unfold disc_sum. rewrite map_map. unfold Rdiv. rewrite Rmult_comm, <- rsum_map_scal. apply rsum_map_le. intros v I. rewrite view_share by auto.
    rewrite (Rmult_comm (/ (4 * PI))). apply Rmult_le_compat_r. left; apply Rinv_0_lt_compat; lra. apply cap_disc. apply (HW v I). }
  assert (A1 : forall th, (forall v, In v vs -> v_radius v <= th) -> c * (1 - th^2 / 12) <= rsum (map (surface_fraction Rs) vs)).
  { intros th Hth.
    assert (NN : forall v, In v vs -> 0 <= surface_fraction Rs v).
    { intros v I. rewrite view_share by auto. pose proof (COS_bound (v_radius v)). apply Rmult_le_pos; [apply Rmult_le_pos; lra|left; apply Rinv_0_lt_compat; lra]. }
    destruct (Rle_dec (1 - th^2/12) 0) as [N|N].
    - apply Rle_trans with 0. 2: apply rsum_map_nonneg; auto. assert (0 <= c * - (1 - th^2/12)) by (apply Rmult_le_pos; lra). lra.
    - apply Rnot_le_lt in N. apply Rle_trans with (disc_sum (map v_radius vs) / (4 * PI) * (1 - th^2/12)).
      + apply Rmult_le_compat_r. lra. apply le_div; lra.
      + unfold disc_sum. rewrite map_map.
        replace (rsum (map (fun v => PI * v_radius v ^ 2) vs) / (4 * PI) * (1 - th^2/12)) with ((1 - th^2/12) / (4 * PI) * rsum (map (fun v => PI * v_radius v ^ 2) vs)) by (field; lra).
        rewrite <- rsum_map_scal. apply rsum_map_le. intros v I. rewrite view_share by auto. pose proof (Hth v I) as H1.
        destruct (HV v I) as [_ [[Rv _] _]]. destruct (cap_disc (v_radius v) Rv) as [CD _].
        assert (S2 : v_radius v ^ 2 <= th ^ 2) by (apply pow_incr; lra).
        unfold Rdiv at 1. replace ((1 - th^2/12) * / (4 * PI) * (PI * v_radius v ^ 2)) with (PI * v_radius v ^ 2 * (1 - th^2/12) * / (4 * PI)) by ring.
        apply Rmult_le_compat_r. left; apply Rinv_0_lt_compat; lra. apply Rle_trans with (2 := CD). apply Rmult_le_compat_l; [|lra].
        apply Rmult_le_pos. lra. apply pow2_ge_0. }
  assert (A2 : forall vs0 v, vs = vs0 ++ [v] -> rsum (map (surface_fraction Rs) vs0) < c).
  { intros vs0 v E. assert (K : disc_sum (map v_radius vs0) < 4 * PI * c).
    { replace (map v_radius vs0) with (firstn (length vs0) (map v_radius vs)). apply MIN2. rewrite E, app_length. simpl. lia.
      rewrite E, map_app, firstn_app, map_length, Nat.sub_diag, firstn_O, app_nil_r. apply firstn_all2. rewrite map_length. lia. }
    apply Rle_lt_trans with (disc_sum (map v_radius vs0) / (4 * PI)). apply UP. intros w I. apply HV. rewrite E. apply in_or_app; auto. apply div_lt; lra. }
  split; auto. split; auto. intros d GG RS FT.
  destruct (C77_lemma (mkSpotColl (map v_spot vs) (sg_grid g)) Rs d vs GG RS HR eq_refl) as [x [E [U L]]].
  { intros v I. split; auto. split; auto. destruct (In_nth vs v v I) as [k [Hk Ek]]. destruct (ON k (v_spot v)) as [O _]. rewrite map_length; auto. cbn [sc_grid]. rewrite map_nth, Ek in O. exact O. }
  exists x. split; auto. split.
  - intros vs0 v Evs. pose proof (A2 vs0 v Evs). rewrite Evs in U at 1. rewrite map_app, rsum_app in U. cbn [map rsum fold_right] in U. lra.
  - intros Ap th Hth. specialize (L Ap). apply Rabs_le_between in L. pose proof (A1 th Hth). lra.
Qed.
