(** Lemmas for C37-C40, C46: flare light curves *)
From Coq Require Import Reals ZArith Bool List Lra Lia Permutation.
From Coquelicot Require Import Coquelicot.
From Verif Require Import Num Py MConfig MHelpers MGrid MSpots MFaculae MXoflares MFlares Spec SpecStar SpecFlare LBase LGrid LHelpers LCirc LSpotAge LSpotMap LSpotCov LSpotGen LFac.
Import ListNotations.
Open Scope R_scope.

Definition rise (u : R) : R := fr0 + fr1 * u + fr2 * u^2 + fr3 * u^3 + fr4 * u^4.
Definition fall (u : R) : R := fd0 * exp (u * fd1) + fd2 * exp (u * fd3).
Definition shape (u : R) : R :=
  if Rle_dec u 0 then (if Rlt_dec (-1) u then rise u else 0)
  else if Rlt_dec u 20 then fall u else 0.

Lemma flaremodel_eq : forall t tp w a, 0 < w ->
  flaremodel t tp (Fin w) (Fin a) = Fin (shape ((t - tp) / w) * a).
Proof.
  intros. unfold flaremodel, shape. rewrite !ndiv_fin by lra. unfold ngt, nlt. cbn [nipow].
  rewrite !nmul_fin, !nadd_fin. cbn [nexp]. rewrite !nmul_fin, !nadd_fin, nmul_fin.
  assert (K : (t - tp) / w <= 0 <-> t <= tp). { rewrite div_le by auto. split; intros; lra. }
  destruct (Rle_dec ((t - tp) / w) 0) as [E|E]; [rewrite K in E|rewrite K in E]; rcase; cbn [andb];
    rdec; try lra; f_equal; unfold rise, fall; try ring.
Qed.

Lemma rise_pos : forall u, -1 < u <= 0 -> 0 < rise u.
Proof.
  intros u [L U]. set (s := u + 1). replace u with (s - 1) by (unfold s; lra).
  assert (0 < s <= 1) by (unfold s; lra). clearbody s. clear L U u.
  assert (E : rise (s - 1) = 5286/1000000 + s * (52978/1000000 - 187324/1000000 * s
     + 112906/100000 * s^2) + 112498/100000 * s^3 * (1 - s)).
  { unfold rise, fr0, fr1, fr2, fr3, fr4. field. }
  rewrite E.
  assert (0 <= s^3 * (1 - s)). { apply Rmult_le_pos; [apply pow_le; lra | lra]. }
  assert (0 < 52978/1000000 - 187324/1000000 * s + 112906/100000 * s^2).
  { assert (0 <= (s - 83/1000)^2) by apply pow2_ge_0. simpl in H1. simpl. lra. }
  assert (0 < s * (52978/1000000 - 187324/1000000 * s + 112906/100000 * s^2)) by (apply Rmult_lt_0_compat; lra).
  lra.
Qed.
Lemma rise_lt1 : forall u, -1 < u < 0 -> rise u < 1.
Proof.
  intros u [L U]. set (v := - u). replace u with (- v) by (unfold v; lra).
  assert (0 < v < 1) by (unfold v; lra). clearbody v. clear L U u.
  assert (E : rise (- v) = 1 - v * (194053/100000 + 175084/1000000 * v - 224588/100000 * v^2
     + 112498/100000 * v^3)).
  { unfold rise, fr0, fr1, fr2, fr3, fr4. field. }
  rewrite E.
  assert (0 < 194053/100000 + 175084/1000000 * v - 224588/100000 * v^2 + 112498/100000 * v^3).
  { assert (0 <= v * (v - 1)^2). { apply Rmult_le_pos; [lra | apply pow2_ge_0]. }
    simpl in H0. simpl. assert (v * v <= v) by nra. nra. }
  assert (0 < v * (194053/100000 + 175084/1000000 * v - 224588/100000 * v^2 + 112498/100000 * v^3))
    by (apply Rmult_lt_0_compat; lra).
  lra.
Qed.
Lemma rise_0 : rise 0 = 1.
Proof. unfold rise, fr0. ring. Qed.
Lemma fall_pos : forall u, 0 < fall u.
Proof.
  intros. unfold fall, fd0, fd2. pose proof (exp_pos (u * fd1)). pose proof (exp_pos (u * fd3)). lra.
Qed.
Lemma fall_le : forall u, 0 <= u -> fall u <= 991971/1000000.
Proof.
  intros. unfold fall, fd0, fd2.
  assert (exp (u * fd1) <= 1) by (apply exp_le_1; unfold fd1; nra).
  assert (exp (u * fd3) <= 1) by (apply exp_le_1; unfold fd3; nra). lra.
Qed.
Lemma shape_range : forall u, 0 <= shape u <= 1.
Proof.
  intros. unfold shape. rdec; try lra.
  - pose proof (rise_pos u ltac:(lra)). destruct (Req_dec u 0) as [->|].
    + rewrite rise_0. lra. + pose proof (rise_lt1 u ltac:(lra)). lra.
  - pose proof (fall_pos u). pose proof (fall_le u ltac:(lra)). lra.
Qed.
Lemma shape_pos : forall u, -1 < u < 20 -> 0 < shape u.
Proof. intros. unfold shape. rdec; try lra. apply rise_pos; lra. apply fall_pos. Qed.
Lemma shape_0 : shape 0 = 1.
Proof. unfold shape. rdec; try lra. apply rise_0. Qed.
Lemma shape_lt1 : forall u, u <> 0 -> shape u < 1.
Proof.
  intros. unfold shape. rdec; try lra. apply rise_lt1; lra. pose proof (fall_le u ltac:(lra)). lra.
Qed.

(** ** integral *)
Lemma is_RInt_rise : forall tp w a, 0 < w ->
  is_RInt (fun t => rise ((t - tp) / w) * a) (tp - w) tp ((int_before 0 - int_before (-1)) * a * w).
Proof.
  intros.
  replace ((int_before 0 - int_before (-1)) * a * w)
    with (minus (int_before ((tp - tp) / w) * a * w) (int_before ((tp - w - tp) / w) * a * w)).
  2:{ replace ((tp - tp) / w) with 0 by (field; lra). replace ((tp - w - tp) / w) with (-1) by (field; lra).
      unfold minus, plus, opp; simpl. ring. }
  apply (is_RInt_derive (fun t => int_before ((t - tp) / w) * a * w)).
  - intros. unfold int_before, rise. auto_derive; auto. req. unfold Rdiv. simpl. field. lra.
  - intros. apply (ex_derive_continuous (V := R_NormedModule)). unfold rise. auto_derive. auto.
Qed.
Lemma is_RInt_fall : forall tp w a, 0 < w ->
  is_RInt (fun t => fall ((t - tp) / w) * a) tp (tp + 20 * w) ((int_after 20 - int_after 0) * a * w).
Proof.
  intros.
  replace ((int_after 20 - int_after 0) * a * w)
    with (minus (int_after ((tp + 20 * w - tp) / w) * a * w) (int_after ((tp - tp) / w) * a * w)).
  2:{ replace ((tp - tp) / w) with 0 by (field; lra). replace ((tp + 20 * w - tp) / w) with 20 by (field; lra).
      unfold minus, plus, opp; simpl. ring. }
  apply (is_RInt_derive (fun t => int_after ((t - tp) / w) * a * w)).
  - intros. unfold int_after, fall. auto_derive; auto. req. unfold Rdiv.
    rewrite (Rmult_comm fd1 ((x + - tp) * / w)), (Rmult_comm fd3 ((x + - tp) * / w)). unfold Rminus.
    assert (fd1 <> 0) by (unfold fd1; lra). assert (fd3 <> 0) by (unfold fd3; lra).
    field. repeat split; auto; lra.
  - intros. apply (ex_derive_continuous (V := R_NormedModule)). unfold fall. auto_derive. auto.
Qed.
Lemma is_RInt_zero : forall f a b, a <= b -> (forall x, a < x < b -> f x = 0) -> is_RInt f a b 0.
Proof.
  intros. apply is_RInt_ext with (f := fun _ => 0).
  - intros x. rewrite Rmin_left, Rmax_right by auto. intros. symmetry; auto.
  - assert (K : forall v, v = scal (b - a) 0 -> is_RInt (fun _ => 0) a b v).
    { intros v ->. apply (@is_RInt_const R_NormedModule). }
    apply K. unfold scal; simpl; unfold mult; simpl; ring.
Qed.
Lemma shape_out : forall u, u <= -1 \/ 20 <= u -> shape u = 0.
Proof. intros. unfold shape. rdec; lra. Qed.
Lemma is_RInt_shape : forall tp w a A B, 0 < w -> A <= tp - w -> tp + 20 * w <= B ->
  is_RInt (fun t => shape ((t - tp) / w) * a) A B
   ((int_before 0 - int_before (-1) + (int_after 20 - int_after 0)) * a * w).
Proof.
  intros.
  replace ((int_before 0 - int_before (-1) + (int_after 20 - int_after 0)) * a * w)
    with (plus 0 (plus ((int_before 0 - int_before (-1)) * a * w) (plus ((int_after 20 - int_after 0) * a * w) 0)))
    by (unfold plus; simpl; ring).
  apply (@is_RInt_Chasles R_NormedModule) with (tp - w).
  { apply is_RInt_zero; auto. intros. rewrite shape_out. ring. left. apply div_le; lra. }
  apply (@is_RInt_Chasles R_NormedModule) with tp.
  { eapply is_RInt_ext; [|apply is_RInt_rise; auto]. intros x. rewrite Rmin_left, Rmax_right by lra. intros.
    cbv beta. f_equal. unfold shape. assert ((x - tp) / w <= 0) by (apply div_le; lra).
    assert (-1 < (x - tp) / w) by (apply lt_div; lra). rdec; try lra. }
  apply (@is_RInt_Chasles R_NormedModule) with (tp + 20 * w).
  { eapply is_RInt_ext; [|apply is_RInt_fall; auto]. intros x. rewrite Rmin_left, Rmax_right by lra. intros.
    cbv beta. f_equal. unfold shape. assert (0 < (x - tp) / w) by (apply lt_div; lra).
    assert ((x - tp) / w < 20) by (apply div_lt; lra). rdec; try lra. }
  apply is_RInt_zero; auto. intros. rewrite shape_out. ring. right. apply le_div; lra.
Qed.

Definition Istd : R := int_before 0 - int_before (-1) + (int_after 20 - int_after 0).
Lemma Istd_pos : 0 < Istd.
Proof.
  unfold Istd, int_before, int_after. rewrite !Rmult_0_r, exp_0.
  assert (exp (fd1 * 20) < 1). { rewrite <- exp_0. apply exp_increasing. unfold fd1. lra. }
  assert (exp (fd3 * 20) < 1). { rewrite <- exp_0. apply exp_increasing. unfold fd3. lra. }
  assert (fd0 / fd1 < -1/10) by (replace (fd0 / fd1) with (- (689008 / 1600530)) by (unfold fd0, fd1; field); lra).
  assert (fd2 / fd3 < -1/10) by (replace (fd2 / fd3) with (- (302963 / 278318)) by (unfold fd2, fd3; field); lra).
  assert (0 < (- (fd0 / fd1)) * (1 - exp (fd1 * 20))) by (apply Rmult_lt_0_compat; lra).
  assert (0 < (- (fd2 / fd3)) * (1 - exp (fd3 * 20))) by (apply Rmult_lt_0_compat; lra).
  assert (0 < fr0 * 0 + fr1 * 0 ^ 2 / 2 + fr2 * 0 ^ 3 / 3 + fr3 * 0 ^ 4 / 4 + fr4 * 0 ^ 5 / 5
    - (fr0 * -1 + fr1 * (-1) ^ 2 / 2 + fr2 * (-1) ^ 3 / 3 + fr3 * (-1) ^ 4 / 4 + fr4 * (-1) ^ 5 / 5))
    by (unfold fr0, fr1, fr2, fr3, fr4; lra).
  lra.
Qed.
Lemma flareintegral_eq : forall w a, flareintegral (Fin w) (Fin a) = Fin (Istd * a * w).
Proof. intros. unfold flareintegral. rewrite !nmul_fin. reflexivity. Qed.

Definition rpeak (w E T : R) : R := E / SIGMA_SB / T^4 / (Istd * w).
Lemma SIGMA_SB_eq : SIGMA_SB = STEFAN.
Proof. unfold SIGMA_SB, STEFAN. field. Qed.
Lemma STEFAN_pos : 0 < STEFAN.
Proof. unfold STEFAN. lra. Qed.
Lemma nipow_fin : forall k x, nipow (Fin x) k = Fin (x^k).
Proof. induction k; intros; cbn [nipow pow]; auto. rewrite IHk, nmul_fin. auto. Qed.
Lemma peak_area_eq : forall f w E T, flare_is f w E T -> 0 < w -> 0 < T ->
  peak_area f = Fin (rpeak w E T).
Proof.
  intros f w E T [Hw [HE HT]] w0 T0. unfold peak_area. rewrite Hw, HE, HT, flareintegral_eq, nipow_fin.
  pose proof Istd_pos. pose proof STEFAN_pos.
  assert (0 < T^4) by (apply pow_lt; auto). assert (0 < Istd * w) by nra.
  rewrite !ndiv_fin by (rewrite ?SIGMA_SB_eq; lra). rewrite nmul_fin. unfold rpeak. f_equal. rewrite !Rmult_1_r. auto.
Qed.
Lemma rpeak_nonneg : forall w E T, 0 < w -> 0 < T -> 0 <= E -> 0 <= rpeak w E T.
Proof.
  intros. unfold rpeak. pose proof Istd_pos. pose proof STEFAN_pos. rewrite SIGMA_SB_eq.
  assert (0 < T^4) by (apply pow_lt; auto). assert (0 < Istd * w) by nra.
  repeat (apply le_div; [auto|rewrite Rmult_0_l]). auto.
Qed.
Lemma rpeak_pos : forall w E T, 0 < w -> 0 < T -> 0 < E -> 0 < rpeak w E T.
Proof.
  intros. unfold rpeak. pose proof Istd_pos. pose proof STEFAN_pos. rewrite SIGMA_SB_eq.
  assert (0 < T^4) by (apply pow_lt; auto). assert (0 < Istd * w) by nra.
  repeat (apply lt_div; [auto|rewrite Rmult_0_l]). auto.
Qed.

Lemma multi_single : forall ts tp fw am,
  multiflaremodel ts [tp] [fw] [am] = Ok (map (fun t => nadd (Fin 0) (flaremodel t tp fw am)) ts).
Proof.
  intros. unfold multiflaremodel. simpl length. simpl orb. cbn [Nat.ltb Nat.leb orb].
  induction ts; auto. cbn [mapM map]. rewrite IHts. reflexivity.
Qed.
Lemma areacurve_eq : forall f w E T, flare_is f w E T -> 0 < w -> 0 < T ->
  area_of f (fun t => shape ((t - fl_tpeak f) / w) * rpeak w E T).
Proof.
  intros f w E T H w0 T0 ts. unfold areacurve, get_light_curve. rewrite multi_single.
  rewrite (peak_area_eq f w E T) by auto. f_equal. apply map_ext. intros. destruct H as [-> _].
  rewrite flaremodel_eq by auto. rewrite nadd_fin. f_equal. ring.
Qed.

Lemma C37_lemma : forall f w E T, flare_is f w E T -> 0 < w -> 0 < T ->
  exists c, area_of f c /\
    forall a b, a <= fl_tpeak f - w -> fl_tpeak f + 20 * w <= b ->
      exists I, is_RInt c a b I /\ STEFAN * T^4 * I = E.
Proof.
  intros. exists (fun t => shape ((t - fl_tpeak f) / w) * rpeak w E T). split. apply areacurve_eq; auto.
  intros. exists (Istd * rpeak w E T * w). split. apply is_RInt_shape; auto.
  unfold rpeak. rewrite SIGMA_SB_eq. pose proof Istd_pos. pose proof STEFAN_pos.
  assert (T <> 0) by lra. field. repeat split; lra.
Qed.
Lemma C37_int_lemma : forall tp w a, 0 < w ->
  exists c, (forall t, flaremodel t tp (Fin w) (Fin a) = Fin (c t)) /\
    forall lo hi, lo <= tp - w -> tp + 20 * w <= hi ->
      exists I, is_RInt c lo hi I /\ flareintegral (Fin w) (Fin a) = Fin I.
Proof.
  intros. exists (fun t => shape ((t - tp) / w) * a). split. intros; apply flaremodel_eq; auto.
  intros. exists (Istd * a * w). split. apply is_RInt_shape; auto. apply flareintegral_eq.
Qed.

Lemma C38_lemma : forall f w E T, flare_is f w E T -> 0 < w -> 0 < T -> 0 < E ->
  exists c A, area_of f c /\ peak_area f = Fin A /\ 0 < A /\
    (forall t, t <= fl_tpeak f - w \/ fl_tpeak f + 20 * w <= t -> c t = 0) /\
    (forall t, fl_tpeak f - w < t < fl_tpeak f + 20 * w -> 0 < c t) /\
    c (fl_tpeak f) = A /\ (forall t, t <> fl_tpeak f -> c t < A) /\
    (forall t, fl_tpeak f < t -> c t <= 991971/1000000 * A).
Proof.
  intros. exists (fun t => shape ((t - fl_tpeak f) / w) * rpeak w E T), (rpeak w E T).
  pose proof (rpeak_pos w E T ltac:(auto) ltac:(auto) ltac:(auto)) as P.
  split; [apply areacurve_eq; auto|]. split; [apply peak_area_eq; auto|]. split; auto.
  repeat split; intros.
  - rewrite shape_out. ring. destruct H3; [left; apply div_le|right; apply le_div]; lra.
  - apply Rmult_lt_0_compat; auto. apply shape_pos. split; [apply lt_div|apply div_lt]; lra.
  - replace ((fl_tpeak f - fl_tpeak f) / w) with 0 by (field; lra). rewrite shape_0. ring.
  - assert (shape ((t - fl_tpeak f) / w) < 1). { apply shape_lt1. intros K.
      assert (t - fl_tpeak f = 0) by (replace (t - fl_tpeak f) with ((t - fl_tpeak f) / w * w) by (field; lra); rewrite K; ring). lra. }
    nra.
  - apply Rmult_le_compat_r; [lra|]. assert (0 < (t - fl_tpeak f) / w) by (apply lt_div; lra).
    unfold shape. rdec; try lra. apply fall_le; lra.
Qed.

(** ** C39, C40 *)
Lemma filter_combine_map : forall A (p : A -> bool) l,
  map fst (filter snd (combine l (map p l))) = filter p l.
Proof. induction l; auto. cbn [map combine filter snd]. destruct (p a); cbn [map fst]; rewrite IHl; auto. Qed.
Definition win_b (t0 t1 : R) (f : flare) : bool :=
  ngt (nadd (Fin (fl_tpeak f)) (nmul (Fin 20) (fl_fwhm f))) (Fin t0)
  && nlt (nsub (Fin (fl_tpeak f)) (nmul (Fin 10) (fl_fwhm f))) (Fin t1).
Lemma in_period_eq : forall l t0 t1, flc_in_period (flc_init l) t0 t1 = filter (win_b t0 t1) l.
Proof.
  intros. unfold flc_in_period, flc_mask, flc_init. cbn [flc_flares flc_peaks flc_fwhms].
  assert (E : combine (map fl_tpeak l) (map fl_fwhm l) = map (fun f => (fl_tpeak f, fl_fwhm f)) l).
  { induction l; auto. cbn [map combine]. rewrite IHl. auto. }
  rewrite E, map_map. rewrite filter_combine_map. auto.
Qed.
Lemma win_b_spec : forall t0 t1 f w, fl_fwhm f = Fin w -> (win_b t0 t1 f = true <-> in_window t0 t1 f).
Proof.
  intros. unfold win_b, in_window, ngt. rewrite H, !nmul_fin, nadd_fin, nsub_fin, andb_true_iff, !nlt_fin. split.
  - intros. exists w. split; auto; lra.
  - intros [w' [K ?]]. assert (w = w') by congruence. subst. lra.
Qed.
Lemma filter_keeps_in : forall A (P : A -> Prop) f l, (forall x, In x l -> (f x = true <-> P x)) -> keeps P l (filter f l).
Proof.
  intros. induction l; simpl. constructor. assert (K := H a (or_introl eq_refl)).
  assert (IH : keeps P l (filter f l)) by (apply IHl; intros; apply H; right; auto).
  destruct (f a) eqn:E.
  constructor; auto. apply K; auto. constructor; auto. rewrite <- K. discriminate.
Qed.

Lemma C39_lemma : forall l t0 t1,
  (forall f, In f l -> exists w E T, flare_is f w E T /\ 0 < w /\ 0 < T) ->
  keeps (in_window t0 t1) l (flc_in_period (flc_init l) t0 t1) /\
  (forall f ts, In f l -> ~ In f (flc_in_period (flc_init l) t0 t1) ->
     (forall t, In t ts -> t0 <= t <= t1) ->
     areacurve f ts = Ok (map (fun _ => Fin 0) ts)).
Proof.
  intros. rewrite in_period_eq. split.
  - apply filter_keeps_in. intros f I. destruct (H f I) as [w [E [T [[K _] _]]]]. apply (win_b_spec t0 t1 f w K).
  - intros f ts I NI Ht. destruct (H f I) as [w [E [T [F [w0 T0]]]]].
    rewrite (areacurve_eq f w E T F w0 T0). f_equal. apply map_ext_in. intros t It. f_equal. specialize (Ht t It).
    rewrite shape_out. ring.
    assert (NW : ~ in_window t0 t1 f).
    { intros W. apply NI. apply filter_In. split; auto. destruct F as [K _]. apply (win_b_spec t0 t1 f w K); auto. }
    destruct (Rle_dec (fl_tpeak f + 20 * w) t0).
    + right. apply le_div; lra.
    + left. apply div_le; auto. destruct (Rlt_dec (fl_tpeak f - 10 * w) t1); [|lra].
      exfalso. apply NW. exists w. destruct F as [K _]. repeat split; auto; lra.
Qed.

Lemma cos_pos_iff : forall th, 0 <= th <= PI -> (0 < cos th <-> th < PI / 2).
Proof.
  intros. pose proof PI_RGT_0. split; intros.
  - destruct (Rlt_dec th (PI/2)); auto. assert (cos th <= 0). { apply cos_le_0; lra. } lra.
  - apply cos_gt_0; lra.
Qed.
Lemma faces_spec : forall lat0 lon0 f,
  Rltb 0 (law_cos lat0 lon0 (fl_lat f) (fl_lon f)) = true <-> faces lat0 lon0 f.
Proof.
  intros. rewrite law_cos_dot. split.
  - intros. rb. exists (acos (cos_sep lat0 lon0 (fl_lat f) (fl_lon f))).
    assert (is_angle lat0 lon0 (fl_lat f) (fl_lon f) (acos (cos_sep lat0 lon0 (fl_lat f) (fl_lon f)))).
    { split. apply acos_bound. rewrite <- law_cos_dot. apply cos_acos, law_cos_bound. }
    split; auto. destruct H0. apply cos_pos_iff; auto. rewrite H1. auto.
  - intros [th [[B C] L]]. apply Rltb_true. rewrite <- C. apply cos_pos_iff; auto.
Qed.
Lemma C40_lemma : forall l t0 t1 lat0 lon0,
  keeps (faces lat0 lon0) (flc_in_period (flc_init l) t0 t1)
        (flc_visible (flc_init l) t0 t1 (Some (lat0, lon0))) /\
  flc_visible (flc_init l) t0 t1 None = flc_visible (flc_init l) t0 t1 (Some (0, 0)) /\
  (forall f, In f (flc_visible (flc_init l) t0 t1 (Some (lat0, lon0))) ->
     ~ In f (flc_visible (flc_init l) t0 t1 (Some (- lat0, lon0 + PI)))).
Proof.
  intros. split; [|split; auto].
  - unfold flc_visible, sub_obs. apply filter_keeps_g. intros. apply faces_spec.
  - unfold flc_visible, sub_obs. intros f I1 I2. apply filter_In in I1, I2. destruct I1 as [_ A], I2 as [_ B].
    rb. rewrite law_cos_dot in A, B. unfold cos_sep, dot, vec in A, B.
    rewrite cos_neg, sin_neg, neg_cos, neg_sin in B. lra.
Qed.

(** ** C46 *)
Lemma nadd_comm : forall a b, nadd a b = nadd b a.
Proof. destruct a, b; simpl; auto. f_equal; ring. Qed.
Lemma nadd_assoc : forall a b c, nadd a (nadd b c) = nadd (nadd a b) c.
Proof. destruct a, b, c; simpl; auto. f_equal; ring. Qed.
Lemma nadd_0 : forall a, nadd (Fin 0) a = a.
Proof. destruct a; simpl; auto. f_equal; ring. Qed.
Lemma nadd_0r : forall a, nadd a (Fin 0) = a.
Proof. intros. rewrite nadd_comm. apply nadd_0. Qed.
Lemma nsum_app : forall a b, nsum (a ++ b) = nadd (nsum a) (nsum b).
Proof. induction a; intros. symmetry; apply nadd_0. cbn [app nsum fold_right]. fold (nsum (a0 ++ b)). rewrite IHa, nadd_assoc. auto. Qed.
Lemma nsum_perm : forall a b, Permutation a b -> nsum a = nsum b.
Proof.
  induction 1; auto. cbn [nsum fold_right]. fold (nsum l) (nsum l'). congruence.
  cbn [nsum fold_right]. fold (nsum l). rewrite !nadd_assoc, (nadd_comm y x). auto. congruence.
Qed.

Definition single (x : R * num * num) (t : R) : num := flaremodel t (fst (fst x)) (snd (fst x)) (snd x).
Lemma multi_sum : forall t l acc,
  multiflare t (map (fun x => fst (fst x)) l) (map (fun x => snd (fst x)) l) (map snd l) acc
  = Ok (nadd acc (nsum (map (fun x => single x t) l))).
Proof.
  induction l as [|[[tp fw] am] l]; intros. cbn. rewrite nadd_0r. auto.
  cbn [map multiflare fst snd]. rewrite IHl. cbn [nsum fold_right]. rewrite <- nadd_assoc. auto.
Qed.
Lemma mapM_ok_map : forall A B (f : A -> res B) (g : A -> B) l, (forall x, f x = Ok (g x)) -> mapM f l = Ok (map g l).
Proof. induction l; intros; auto. cbn [mapM map]. rewrite H. cbn [bind]. rewrite IHl; auto. Qed.
Lemma multi_eq : forall l ts,
  multiflaremodel ts (map (fun x => fst (fst x)) l) (map (fun x => snd (fst x)) l) (map snd l)
  = Ok (map (fun t => nsum (map (fun x => single x t) l)) ts).
Proof.
  intros. unfold multiflaremodel. rewrite !map_length, Nat.ltb_irrefl. cbn [orb].
  apply mapM_ok_map. intros. rewrite multi_sum, nadd_0. auto.
Qed.
Lemma C46_sum_lemma : forall k, exists curve : R * num * num -> R -> num,
  (forall tp fw am ts, get_light_curve ts [tp] [fw] [am] None k = Ok (map (curve (tp, fw, am)) ts)) /\
  (forall l ts, get_light_curve ts (map (fun x => fst (fst x)) l) (map (fun x => snd (fst x)) l) (map snd l) None k
     = Ok (map (fun t => nsum (map (fun x => curve x t) l)) ts)).
Proof.
  intros. exists single. split; intros; unfold get_light_curve.
  - pose proof (multi_eq [(tp, fw, am)] ts) as K. cbn [map fst snd] in K. rewrite K. f_equal. apply map_ext.
    intros. cbn [nsum fold_right]. apply nadd_0r.
  - apply multi_eq.
Qed.
Lemma C46_concat_lemma : forall l1 l2 ts k,
  let lc l := get_light_curve ts (map (fun x : R * num * num => fst (fst x)) l)
                (map (fun x => snd (fst x)) l) (map snd l) None k in
  exists v1 v2, lc l1 = Ok v1 /\ lc l2 = Ok v2 /\ length v1 = length ts /\ length v2 = length ts /\
    lc (l1 ++ l2) = Ok (map (fun p => nadd (fst p) (snd p)) (combine v1 v2)) /\
    lc (l2 ++ l1) = lc (l1 ++ l2).
Proof.
  intros. unfold lc, get_light_curve. rewrite !multi_eq.
  eexists; eexists; split; [reflexivity|]; split; [reflexivity|].
  rewrite !map_length. repeat split; auto.
  - f_equal. induction ts; auto. cbn [map combine fst snd]. rewrite IHts, map_app, nsum_app. auto.
  - f_equal. apply map_ext. intros. apply nsum_perm. apply Permutation_map. apply Permutation_app_comm.
Qed.
Lemma C46_perm_lemma : forall l l' ts texp k, Permutation l l' ->
  get_light_curve ts (map (fun x : R * num * num => fst (fst x)) l) (map (fun x => snd (fst x)) l) (map snd l) texp k
  = get_light_curve ts (map (fun x => fst (fst x)) l') (map (fun x => snd (fst x)) l') (map snd l') texp k.
Proof.
  intros.
  assert (K : forall ts, multiflaremodel ts (map (fun x : R * num * num => fst (fst x)) l) (map (fun x => snd (fst x)) l) (map snd l)
    = multiflaremodel ts (map (fun x => fst (fst x)) l') (map (fun x => snd (fst x)) l') (map snd l')).
  { intros. rewrite !multi_eq. f_equal. apply map_ext. intros. apply nsum_perm. apply Permutation_map. auto. }
  unfold get_light_curve. destruct texp; rewrite K; auto.
Qed.
Lemma chunk_means_map : forall os (F : R -> num) (dt : list R) ts fuel, (0 < os)%nat -> length dt = os ->
  (length ts <= fuel)%nat ->
  chunk_means fuel os (map F (flat_map (fun t => map (fun d => d + t) dt) ts))
  = map (fun t => ndiv (nsum (map F (map (fun d => d + t) dt))) (Fin (INR os))) ts.
Proof.
  induction ts; intros. destruct fuel; auto.
  destruct fuel. simpl in H1; lia. cbn [flat_map]. rewrite map_app.
  assert (L : length (map F (map (fun d => d + a) dt)) = os) by (rewrite !map_length; auto).
  assert (K : forall X, chunk_means (S fuel) os (map F (map (fun d => d + a) dt) ++ X)
     = ndiv (nsum (map F (map (fun d => d + a) dt))) (Fin (INR os)) :: chunk_means fuel os X).
  { intros. set (H' := map F (map (fun d => d + a) dt)) in *. destruct H' as [|h t] eqn:E. simpl in L; lia.
    cbn [chunk_means app]. change (h :: t ++ X) with ((h :: t) ++ X).
    assert (F1 : firstn os (h :: t) = h :: t) by (rewrite <- L; apply firstn_all).
    assert (F2 : skipn os (h :: t) = []) by (rewrite <- L; apply skipn_all).
    rewrite firstn_app, skipn_app, F1, F2, L, Nat.sub_diag. cbn [firstn skipn]. rewrite app_nil_r. auto. }
  rewrite K. cbn [map]. f_equal. apply IHts; auto. simpl in H1; lia.
Qed.
Lemma nth_map_in : forall A B (f : A -> B) l i d0 d, (i < length l)%nat -> nth i (map f l) d = f (nth i l d0).
Proof. intros. rewrite nth_indep with (d' := f d0) by (rewrite map_length; auto). apply map_nth. Qed.
Lemma C46_texp_lemma : forall l ts te k,
  let tps := map (fun x : R * num * num => fst (fst x)) l in
  let fws := map (fun x => snd (fst x)) l in
  let ams := map snd l in
  exists r os, get_light_curve ts tps fws ams (Some te) k = Ok r /\ length r = length ts /\
    Nat.odd os = true /\ (k <= os <= k + 1)%nat /\
    forall i, (i < length ts)%nat ->
      exists samples vs, length samples = os /\
        (forall j, (j < os)%nat -> nth j samples 0 = nth i ts 0 - te / 2 + INR j * (te / INR (os - 1))) /\
        get_light_curve samples tps fws ams None k = Ok vs /\
        nth i r NaN = ndiv (nsum vs) (Fin (INR os)).
Proof.
  intros. set (os := (k + 1 - k mod 2)%nat).
  assert (M : (k mod 2 < 2)%nat) by (apply Nat.mod_upper_bound; lia).
  assert (Dm := Nat.div_mod k 2 ltac:(lia)).
  assert (O : Nat.odd os = true).
  { apply Nat.odd_spec. exists (k / 2)%nat. unfold os. lia. }
  assert (P : (0 < os)%nat). { destruct os; [discriminate|lia]. }
  set (dt := linspace (- te / 2) (te / 2) os).
  assert (Ld : length dt = os) by (unfold dt; apply linspace_length).
  exists (map (fun t => ndiv (nsum (map (fun t => nsum (map (fun x => single x t) l)) (map (fun d => d + t) dt))) (Fin (INR os))) ts), os.
  split; [|split; [apply map_length|split; [auto|split; [unfold os; lia|]]]].
  - unfold get_light_curve. fold os. fold dt. unfold tps, fws, ams. rewrite multi_eq. cbn [bind]. f_equal.
    apply chunk_means_map; auto.
    rewrite map_length. clear - P Ld. induction ts. simpl; lia. cbn [flat_map length]. rewrite app_length, map_length, Ld. lia.
  - intros. exists (map (fun d => d + nth i ts 0) dt). eexists. split; [rewrite map_length; auto|]. split; [|split].
    + intros. rewrite (nth_map_in R _ _ _ _ 0) by (rewrite Ld; auto). unfold dt. rewrite linspace_nth by auto.
      replace (te / 2 - - te / 2) with te by field. unfold Rdiv. ring.
    + unfold get_light_curve, tps, fws, ams. apply multi_eq.
    + rewrite (nth_map_in R _ _ _ _ 0) by auto. auto.
Qed.
Lemma C46_index_lemma : forall ts tps fws ams texp k,
  (length fws < length tps)%nat \/ (length ams < length tps)%nat ->
  get_light_curve ts tps fws ams texp k = Raise IndexError.
Proof.
  intros. assert (K : forall ts, multiflaremodel ts tps fws ams = Raise IndexError).
  { intros. unfold multiflaremodel. destruct H as [H|H]; apply Nat.ltb_lt in H; rewrite H; auto. rewrite orb_true_r. auto. }
  unfold get_light_curve. destruct texp; rewrite K; auto.
Qed.
