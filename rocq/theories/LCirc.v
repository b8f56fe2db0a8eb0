(** Overlap of two discs (C10, C11) *)
From Coq Require Import Reals ZArith Bool List Lra Lia Psatz.
From Coquelicot Require Import Coquelicot.
From Verif Require Import Num Py MConfig MHelpers Spec LBase LGrid LHelpers.
Import ListNotations.
Open Scope R_scope.

(** equations stated in a Coquelicot structure over R *)
Ltac req := lazymatch goal with |- ?a = ?b => change (@eq R a b) end.
Lemma continuous_Ropp : forall x, continuous Ropp x.
Proof.
  intros. apply continuity_pt_filterlim. apply (continuity_pt_opp id). apply derivable_continuous_pt, derivable_pt_id.
Qed.
(** ** acos is continuous everywhere *)
Lemma acos_ge_1 : forall x, 1 <= x -> acos x = 0.
Proof. intros. unfold acos. destruct (Rle_dec x (-1)); [lra|]. destruct (Rle_dec 1 x); auto; lra. Qed.
Lemma is_derive_acos : forall x, -1 < x < 1 -> is_derive acos x (- / sqrt (1 - x^2)).
Proof.
  intros. apply is_derive_Reals.
  pose proof (derive_pt_eq_1 acos x _ (derivable_pt_acos x H) eq_refl) as D.
  rewrite derive_pt_acos in D. replace (- / sqrt (1 - x^2)) with (-1 / sqrt (1 - x²)); auto.
  unfold Rsqr. replace (x * x) with (x^2) by ring. unfold Rdiv; ring.
Qed.
Lemma acos_cont_1 : continuity_pt acos 1.
Proof.
  unfold continuity_pt, continue_in, limit1_in, limit_in. simpl. unfold R_dist. intros eps He.
  pose proof PI_RGT_0.
  set (e := Rmin eps (PI/2)). assert (0 < e <= PI/2 /\ e <= eps).
  { unfold e. pose proof (Rmin_l eps (PI/2)). pose proof (Rmin_r eps (PI/2)).
    split; [split|]; auto. apply Rmin_glb_lt; lra. }
  assert (cos e < 1). { rewrite <- cos_0. apply cos_decreasing_1; lra. }
  exists (1 - cos e). split. lra. intros x [_ D]. rewrite acos_1, Rminus_0_r.
  destruct (Rle_dec 1 x). rewrite acos_ge_1 by auto. rewrite Rabs_R0; auto.
  apply Rabs_def2 in D. pose proof (acos_bound x).
  assert (-1 <= x <= 1). { assert (0 <= cos e) by (apply cos_ge_0; lra). lra. }
  rewrite Rabs_right by lra. destruct (Rlt_dec (acos x) eps); auto. exfalso.
  assert (cos (acos x) <= cos e).
  { destruct (Req_dec (acos x) e) as [->|]. lra. left. apply cos_decreasing_1; lra. }
  rewrite cos_acos in H4 by auto. lra.
Qed.
Lemma continuous_acos : forall x, continuous acos x.
Proof.
  intros. destruct (Rlt_dec 1 x).
  - apply (continuous_ext_loc _ (fun _ => 0)); [|apply continuous_const].
    assert (0 < x - 1) by lra. exists (mkposreal _ H). intros y Hy.
    unfold ball in Hy; simpl in Hy. unfold AbsRing_ball, abs, minus, plus, opp in Hy; simpl in Hy.
    apply Rabs_def2 in Hy. symmetry; apply acos_ge_1; lra.
  - destruct (Rlt_dec x (-1)).
    + apply (continuous_ext_loc _ (fun _ => PI)); [|apply continuous_const].
      assert (0 < -1 - x) by lra. exists (mkposreal _ H). intros y Hy.
      unfold ball in Hy; simpl in Hy. unfold AbsRing_ball, abs, minus, plus, opp in Hy; simpl in Hy.
      apply Rabs_def2 in Hy. rewrite <- (Ropp_involutive y), acos_opp, acos_ge_1; lra.
    + destruct (Req_dec x 1) as [->|]. apply continuity_pt_filterlim. apply acos_cont_1.
      destruct (Req_dec x (-1)) as [->|].
      * apply (continuous_ext (fun y => PI - acos (- y))).
        intros. rewrite acos_opp. lra.
        apply (continuous_minus (fun _ => PI) (fun y => acos (- y))). apply continuous_const.
        apply (continuous_comp Ropp acos). apply continuous_Ropp.
        replace (- -1) with 1 by lra. apply continuity_pt_filterlim. apply acos_cont_1.
      * apply (ex_derive_continuous acos). eexists. apply is_derive_acos. lra.
Qed.

(** ** circular segment *)
Definition gseg (x : R) : R := acos x - x * sqrt (1 - x^2).
Lemma gseg_1 : gseg 1 = 0.
Proof. unfold gseg. rewrite acos_1. replace (1 - 1^2) with 0 by ring. rewrite sqrt_0. lra. Qed.
Lemma gseg_opp : forall x, gseg (- x) = PI - gseg x.
Proof. intros. unfold gseg. rewrite acos_opp. replace (1 - (-x)^2) with (1 - x^2) by ring. lra. Qed.
Lemma gseg_m1 : gseg (-1) = PI.
Proof. replace (-1) with (- (1)) by lra. rewrite gseg_opp, gseg_1. lra. Qed.
Lemma gseg_0 : gseg 0 = PI/2.
Proof. unfold gseg. rewrite acos_0. lra. Qed.
Lemma continuous_sqrt' : forall x, continuous sqrt x.
Proof. intros. apply continuous_sqrt. Qed.
Lemma continuous_gseg : forall x, continuous gseg x.
Proof.
  intros. unfold gseg. apply (continuous_minus acos (fun x => x * sqrt (1 - x^2))). apply continuous_acos.
  apply (continuous_mult (fun x : R => x) (fun x => sqrt (1 - x^2))). apply continuous_id.
  apply (continuous_comp (fun x => 1 - x^2) sqrt). 2: apply continuous_sqrt.
  apply (continuous_minus (fun _ : R => 1) (fun x => x^2)). apply continuous_const.
  apply (ex_derive_continuous (fun x => x^2)). auto_derive. auto.
Qed.
Lemma is_derive_gseg : forall x, -1 < x < 1 -> is_derive gseg x (- 2 * sqrt (1 - x^2)).
Proof.
  intros. assert (0 < 1 - x^2) by nra. pose proof (sqrt_lt_R0 _ H0).
  unfold gseg. evar_last.
  apply (is_derive_minus acos (fun x => x * sqrt (1 - x^2))). apply is_derive_acos; auto.
  auto_derive. simpl in *. lra. reflexivity.
  unfold minus, plus, opp; simpl. replace (x * (x * 1)) with (x^2) by ring.
  replace (1 + - x^2) with (1 - x^2) by ring.
  set (s := sqrt (1 - x^2)) in *. assert (s * s = 1 - x^2) by (apply sqrt_sqrt; lra).
  transitivity ((- (1 - x^2) - s * s) / s). field; lra.
  rewrite <- H2. field. lra.
Qed.
Lemma is_RInt_halfdisc : forall a b, -1 <= a <= 1 -> -1 <= b <= 1 ->
  is_RInt (fun x => 2 * sqrt (1 - x^2)) a b (gseg a - gseg b).
Proof.
  intros. set (f := fun x => 2 * sqrt (1 - x^2)).
  assert (Cf : forall x, continuous f x).
  { intros. unfold f. apply (continuous_scal_r 2 (fun x => sqrt (1 - x^2))).
    apply (continuous_comp (fun x => 1 - x^2) sqrt). 2: apply continuous_sqrt.
    apply (continuous_minus (fun _ : R => 1) (fun x => x^2)). apply continuous_const.
    apply (ex_derive_continuous (fun x => x^2)). auto_derive. auto. }
  assert (E : RInt f a b = gseg a - gseg b).
  { assert (I1 : is_RInt (fun y => scal (- sin y) (f (cos y))) (acos a) (acos b) (RInt f (cos (acos a)) (cos (acos b)))).
    { apply (is_RInt_comp f cos (fun y => - sin y)). intros; apply Cf.
      intros. split. auto_derive; auto; ring.
      apply (continuous_opp sin). apply (ex_derive_continuous sin). auto_derive; auto. }
    rewrite !cos_acos in I1 by auto.
    assert (I2 : is_RInt (fun y => scal (- sin y) (f (cos y))) (acos a) (acos b)
       ((- (acos b) + sin (acos b) * cos (acos b)) - (- (acos a) + sin (acos a) * cos (acos a)))).
    { apply (is_RInt_ext (fun y => -2 * (sin y)^2)).
      - intros. unfold scal; simpl; unfold mult; simpl. unfold f.
        pose proof (acos_bound a). pose proof (acos_bound b).
        assert (0 <= x <= PI). { unfold Rmin, Rmax in H1. destruct (Rle_dec (acos a) (acos b)); lra. }
        assert (0 <= sin x) by (apply sin_ge_0; lra).
        replace (1 - (cos x)^2) with ((sin x)^2). 2:{ pose proof (sin2_cos2 x). unfold Rsqr in H6. nra. }
        rewrite sqrt_pow2 by auto. ring.
      - apply (is_RInt_derive (fun y => - y + sin y * cos y)).
        + intros. auto_derive; auto. pose proof (sin2_cos2 x). unfold Rsqr in H2. nra.
        + intros. apply (ex_derive_continuous (fun y => -2 * (sin y)^2)). auto_derive; auto. }
    pose proof (is_RInt_unique _ _ _ _ I1) as U1. pose proof (is_RInt_unique _ _ _ _ I2) as U2.
    rewrite U1 in U2. rewrite U2. rewrite !cos_acos, !sin_acos by auto.
    unfold gseg, Rsqr. simpl. rewrite !Rmult_1_r. ring. }
  rewrite <- E. apply (@RInt_correct R_CompleteNormedModule). apply ex_RInt_continuous. intros; apply Cf.
Qed.

(** half-height of a disc of radius [r] centred at [c] on the axis, at abscissa [t] *)
Lemma is_RInt_disc : forall c r a b, 0 < r -> c - r <= a <= c + r -> c - r <= b <= c + r ->
  is_RInt (fun t => 2 * sqrt (r^2 - (t - c)^2)) a b (r^2 * (gseg ((a - c) / r) - gseg ((b - c) / r))).
Proof.
  intros. apply (is_RInt_ext (fun t => scal (r^2) (scal (/ r) (2 * sqrt (1 - (/ r * t + - (c / r))^2))))).
  - intros. unfold scal; simpl; unfold mult; simpl.
    replace (r * (r * 1) - (x - c) * ((x - c) * 1)) with (r^2 * (1 - (/ r * x + - (c / r))^2)) by (field; lra).
    rewrite sqrt_mult_alt by (apply pow2_ge_0). rewrite sqrt_pow2 by lra. simpl. field; lra.
  - apply (is_RInt_scal (fun t => scal (/ r) (2 * sqrt (1 - (/ r * t + - (c / r))^2)))).
    apply (is_RInt_comp_lin (fun x => 2 * sqrt (1 - x^2)) (/ r) (- (c / r))).
    replace (/ r * a + - (c / r)) with ((a - c) / r) by (field; lra).
    replace (/ r * b + - (c / r)) with ((b - c) / r) by (field; lra).
    apply is_RInt_halfdisc; split.
    apply le_div; lra. apply div_le; lra. apply le_div; lra. apply div_le; lra.
Qed.

(** ** the lens area as a function of the distance of the centres *)
Definition ld1 (r d : R) : R := (d^2 - r^2 + 1) / (2 * d).
Definition ld2 (r d : R) : R := (d^2 + r^2 - 1) / (2 * d).
Definition lens (r d : R) : R := gseg (ld1 r d) + r^2 * gseg (ld2 r d / r).
Definition lclamp (r d : R) : R := Rmin (Rmax d (1 - r)) (1 + r).
Definition frac (r d : R) : R := lens r (lclamp r d) / (PI * r^2).

Lemma ld1_range : forall r d, 0 < r <= 1 -> 1 - r <= d <= 1 + r -> 0 < d ->
  0 <= ld1 r d <= 1 /\ (1 - r < d < 1 + r -> ld1 r d < 1).
Proof.
  intros. unfold ld1. split; [split|].
  - apply le_div. lra. nra.
  - apply div_le. lra. nra.
  - intros. apply div_lt. lra. nra.
Qed.
Lemma ld2_range : forall r d, 0 < r <= 1 -> 1 - r <= d <= 1 + r -> 0 < d ->
  -1 <= ld2 r d / r <= 1 /\ (1 - r < d < 1 + r -> -1 < ld2 r d / r < 1).
Proof.
  intros. unfold ld2. assert (E : (d^2 + r^2 - 1) / (2 * d) / r = (d^2 + r^2 - 1) / (2 * d * r)) by (field; lra).
  rewrite E. assert (0 < 2 * d * r) by nra. split; [split|split].
  - apply le_div. lra. nra.
  - apply div_le. lra. nra.
  - apply lt_div. lra. nra.
  - apply div_lt. lra. nra.
Qed.
Lemma lens_top : forall r, 0 < r <= 1 -> lens r (1 + r) = 0.
Proof.
  intros. unfold lens, ld1, ld2.
  replace (((1 + r)^2 - r^2 + 1) / (2 * (1 + r))) with 1 by (field; lra).
  replace (((1 + r)^2 + r^2 - 1) / (2 * (1 + r)) / r) with 1 by (field; lra).
  rewrite gseg_1. ring.
Qed.
Lemma lens_unit : forall d, lens 1 d = 2 * gseg (d / 2).
Proof.
  intros. unfold lens, ld1, ld2. destruct (Req_dec d 0) as [->|].
  - replace ((0^2 - 1^2 + 1) / (2 * 0)) with 0 by (unfold Rdiv; ring).
    replace ((0^2 + 1^2 - 1) / (2 * 0) / 1) with 0 by (unfold Rdiv; ring).
    replace (0 / 2) with 0 by lra. ring.
  - replace ((d^2 - 1^2 + 1) / (2 * d)) with (d / 2) by (field; auto).
    replace ((d^2 + 1^2 - 1) / (2 * d) / 1) with (d / 2) by (field; auto). ring.
Qed.
Lemma lens_bottom : forall r, 0 < r <= 1 -> lens r (1 - r) = PI * r^2.
Proof.
  intros. destruct (Req_dec r 1) as [->|].
  - rewrite lens_unit. replace ((1 - 1) / 2) with 0 by lra. rewrite gseg_0. field.
  - unfold lens, ld1, ld2.
    replace (((1 - r)^2 - r^2 + 1) / (2 * (1 - r))) with 1 by (field; lra).
    replace (((1 - r)^2 + r^2 - 1) / (2 * (1 - r)) / r) with (-1) by (field; lra).
    rewrite gseg_1, gseg_m1. ring.
Qed.
Lemma lens_continuous : forall r d, 0 < r <= 1 -> 1 - r <= d -> continuous (lens r) d.
Proof.
  intros. destruct (Req_dec r 1) as [->|].
  - apply (continuous_ext (fun d => 2 * gseg (d / 2))). intros; rewrite lens_unit; auto.
    apply (continuous_scal_r 2 (fun d => gseg (d / 2))).
    apply (continuous_comp (fun d => d / 2) gseg). 2: apply continuous_gseg.
    apply (ex_derive_continuous (fun d => d / 2)). auto_derive; auto.
  - unfold lens. apply (continuous_plus (fun d => gseg (ld1 r d)) (fun d => r^2 * gseg (ld2 r d / r))).
    + apply (continuous_comp (ld1 r) gseg). 2: apply continuous_gseg.
      apply (ex_derive_continuous (ld1 r)). unfold ld1. auto_derive. lra.
    + apply (continuous_scal_r (r^2) (fun d => gseg (ld2 r d / r))).
      apply (continuous_comp (fun d => ld2 r d / r) gseg). 2: apply continuous_gseg.
      apply (ex_derive_continuous (fun d => ld2 r d / r)). unfold ld2. auto_derive. lra.
Qed.
Lemma half_chord_eq : forall r d, 0 < r -> 0 < d ->
  r * sqrt (1 - (ld2 r d / r)^2) = sqrt (1 - (ld1 r d)^2).
Proof.
  intros. rewrite <- (sqrt_pow2 r) at 1 by lra. rewrite <- sqrt_mult_alt by apply pow2_ge_0.
  f_equal. unfold ld1, ld2. field. lra.
Qed.
Lemma is_derive_lens : forall r d, 0 < r <= 1 -> 1 - r < d < 1 + r ->
  is_derive (lens r) d (- 2 * sqrt (1 - (ld1 r d)^2)).
Proof.
  intros. assert (0 < d) by lra.
  pose proof (ld1_range r d H ltac:(lra) H1) as [R1 R1']. pose proof (ld2_range r d H ltac:(lra) H1) as [R2 R2'].
  specialize (R1' H0). specialize (R2' H0).
  evar_last. unfold lens.
  apply (is_derive_plus (fun d => gseg (ld1 r d)) (fun d => r^2 * gseg (ld2 r d / r))).
  - apply (is_derive_comp gseg (ld1 r)). apply is_derive_gseg; lra.
    unfold ld1. auto_derive. lra. reflexivity.
  - apply (is_derive_scal (fun d => gseg (ld2 r d / r)) d (r^2)).
    apply (is_derive_comp gseg (fun d => ld2 r d / r)). apply is_derive_gseg; lra.
    unfold ld2. auto_derive. lra. reflexivity.
  - unfold plus, scal; simpl; unfold mult; simpl.
    pose proof (half_chord_eq r d ltac:(lra) H1) as HC. simpl in HC. rewrite <- HC.
    set (s := sqrt _). field. lra.
Qed.
Lemma lens_decr_lt : forall r p q, 0 < r <= 1 -> 1 - r < p -> p < q -> q < 1 + r -> lens r q < lens r p.
Proof.
  intros. destruct (MVT_gen (lens r) p q (fun d => - 2 * sqrt (1 - (ld1 r d)^2))) as [c [Hc E]].
  - intros x. rewrite Rmin_left, Rmax_right by lra. intros. apply is_derive_lens; lra.
  - intros x. rewrite Rmin_left, Rmax_right by lra. intros. apply continuity_pt_filterlim. apply lens_continuous; lra.
  - rewrite Rmin_left, Rmax_right in Hc by lra.
    pose proof (ld1_range r c H ltac:(lra) ltac:(lra)) as [B1 B2]. specialize (B2 ltac:(lra)).
    assert (0 < sqrt (1 - (ld1 r c)^2)) by (apply sqrt_lt_R0; nra). nra.
Qed.
Lemma lens_decr : forall r p q, 0 < r <= 1 -> 1 - r <= p -> p <= q -> q <= 1 + r -> lens r q <= lens r p.
Proof.
  intros. destruct (MVT_gen (lens r) p q (fun d => - 2 * sqrt (1 - (ld1 r d)^2))) as [c [Hc E]].
  - intros x. rewrite Rmin_left, Rmax_right by lra. intros. apply is_derive_lens; lra.
  - intros x. rewrite Rmin_left, Rmax_right by lra. intros. apply continuity_pt_filterlim. apply lens_continuous; lra.
  - pose proof (sqrt_pos (1 - (ld1 r c)^2)). nra.
Qed.
Lemma lens_strict : forall r p q, 0 < r <= 1 -> 1 - r <= p -> p < q -> q <= 1 + r -> lens r q < lens r p.
Proof.
  intros. set (m1 := p + (q - p) / 3). set (m2 := p + 2 * (q - p) / 3).
  assert (lens r m1 <= lens r p) by (apply lens_decr; unfold m1; auto; lra).
  assert (lens r q <= lens r m2) by (apply lens_decr; unfold m2; auto; lra).
  assert (lens r m2 < lens r m1) by (apply lens_decr_lt; unfold m1, m2; auto; lra).
  lra.
Qed.

Lemma lclamp_range : forall r d, 0 < r <= 1 -> 1 - r <= lclamp r d <= 1 + r.
Proof.
  intros. unfold lclamp. pose proof (Rmax_r d (1 - r)). split.
  apply Rmin_glb; lra. apply Rmin_r.
Qed.
Lemma lclamp_le : forall r d, d <= 1 - r -> 0 < r <= 1 -> lclamp r d = 1 - r.
Proof. intros. unfold lclamp. rewrite Rmax_right, Rmin_left; lra. Qed.
Lemma lclamp_ge : forall r d, 1 + r <= d -> 0 < r <= 1 -> lclamp r d = 1 + r.
Proof. intros. unfold lclamp. rewrite Rmax_left, Rmin_right; lra. Qed.
Lemma lclamp_mid : forall r d, 1 - r <= d <= 1 + r -> lclamp r d = d.
Proof. intros. unfold lclamp. rewrite Rmax_left, Rmin_left; lra. Qed.
Lemma lclamp_mono : forall r d d', d <= d' -> lclamp r d <= lclamp r d'.
Proof.
  intros. unfold lclamp. apply Rle_min_compat_r. unfold Rmax.
  destruct (Rle_dec d (1 - r)); destruct (Rle_dec d' (1 - r)); lra.
Qed.
Lemma frac_mono : forall r d d', 0 < r <= 1 -> d <= d' -> frac r d' <= frac r d.
Proof.
  intros. unfold frac. apply Rmult_le_compat_r.
  left. apply Rinv_0_lt_compat. pose proof PI_RGT_0. apply Rmult_lt_0_compat; nra.
  pose proof (lclamp_range r d H). pose proof (lclamp_range r d' H).
  apply lens_decr; auto; try lra. apply lclamp_mono; auto.
Qed.
Lemma pir2_pos : forall r, 0 < r -> 0 < PI * r^2.
Proof. intros. pose proof PI_RGT_0. apply Rmult_lt_0_compat; nra. Qed.
Lemma frac_low : forall r d, 0 < r <= 1 -> d <= 1 - r -> frac r d = 1.
Proof. intros. unfold frac. rewrite lclamp_le, lens_bottom by auto. pose proof (pir2_pos r ltac:(lra)). field. pose proof PI_RGT_0. nra. Qed.
Lemma frac_high : forall r d, 0 < r <= 1 -> 1 + r <= d -> frac r d = 0.
Proof. intros. unfold frac. rewrite lclamp_ge, lens_top by auto. unfold Rdiv; ring. Qed.
Lemma frac_mid : forall r d, 0 < r <= 1 -> 1 - r < d < 1 + r -> 0 < frac r d < 1.
Proof.
  intros. unfold frac. rewrite lclamp_mid by lra. pose proof (pir2_pos r ltac:(lra)).
  pose proof (lens_strict r (1 - r) d H ltac:(lra) ltac:(lra) ltac:(lra)) as A.
  pose proof (lens_strict r d (1 + r) H ltac:(lra) ltac:(lra) ltac:(lra)) as B.
  rewrite lens_bottom in A by auto. rewrite lens_top in B by auto.
  split. apply Rdiv_lt_0_compat; auto. apply div_lt; lra.
Qed.
Lemma continuous_Rmin : forall (f g : R -> R) x, continuous f x -> continuous g x -> continuous (fun x => Rmin (f x) (g x)) x.
Proof.
  intros. apply (continuous_ext (fun x => / 2 * (f x + g x - Rabs (f x - g x)))).
  { intros. unfold Rmin, Rabs. destruct (Rle_dec (f x0) (g x0)); destruct (Rcase_abs (f x0 - g x0)); lra. }
  apply (continuous_scal_r (/ 2) (fun x => f x + g x - Rabs (f x - g x))).
  apply (continuous_minus (fun x => f x + g x)). apply (continuous_plus f g); auto.
  apply (continuous_comp (fun x => f x - g x) Rabs). apply (continuous_minus f g); auto. apply continuous_Rabs.
Qed.
Lemma frac_continuous : forall r d, 0 < r <= 1 -> continuous (frac r) d.
Proof.
  intros. unfold frac, Rdiv. apply (continuous_mult (fun d => lens r (lclamp r d)) (fun _ => / (PI * r^2))).
  2: apply continuous_const.
  apply (continuous_comp (lclamp r) (lens r)).
  2: { apply lens_continuous; auto. apply lclamp_range; auto. }
  unfold lclamp. apply continuous_Rmin. 2: apply continuous_const.
  apply (continuous_ext (fun d => - Rmin (- d) (- (1 - r)))).
  { intros. unfold Rmin, Rmax. destruct (Rle_dec (- x) (- (1 - r))); destruct (Rle_dec x (1 - r)); lra. }
  apply (continuous_opp (fun d => Rmin (- d) (- (1 - r)))). apply continuous_Rmin.
  apply continuous_Ropp. apply continuous_const.
Qed.

(** ** what the program computes *)
Lemma segment_area_fin : forall rr d, 0 < rr -> - rr <= d <= rr ->
  segment_area (Fin rr) (Fin d) = Fin (rr^2 * gseg (d / rr)).
Proof.
  intros. unfold segment_area. rewrite ndiv_fin by lra.
  rewrite nacos_fin by (split; [apply le_div | apply div_le]; lra).
  rewrite !nsq_fin. rewrite nsub_fin. rewrite nsqrt_fin by nra. simpl. f_equal.
  unfold gseg. replace (sqrt (rr * rr - d * d)) with (rr * sqrt (1 - (d / rr)^2)). simpl; field; lra.
  rewrite <- (sqrt_pow2 rr) at 1 by lra. rewrite <- sqrt_mult_alt by apply pow2_ge_0. f_equal. field; lra.
Qed.
Lemma circ_fraction_eq : forall x y r, 0 < r <= 1 ->
  circ_fraction (Fin x) (Fin y) (Fin r) = Ok (Fin (frac r (sqrt (x^2 + y^2)))).
Proof.
  intros. unfold circ_fraction, ngt. rewrite !nsub_fin, !nsq_fin, !nadd_fin.
  assert (0 <= x^2 + y^2) by nra.
  replace ((x - 0) * (x - 0) + (y - 0) * (y - 0)) with (x^2 + y^2) by ring.
  rewrite nsqrt_fin by auto. set (d := sqrt (x^2 + y^2)).
  assert (0 <= d) by apply sqrt_pos.
  cbn [nlt nle neq]. destruct (Rltb 1 r) eqn:E1; rb; [lra|].
  destruct (Rltb (1 + r) d) eqn:E2; rb. rewrite frac_high by lra; auto.
  destruct (Rleb d (1 - r)) eqn:E3; rb. rewrite frac_low by lra; auto.
  assert (0 < d) by lra.
  replace (Reqb d 0) with false by (symmetry; apply Reqb_false; lra). cbn [andb].
  rewrite !nsq_fin, ?nmul_fin, ?nsub_fin, ?nadd_fin, ?nsub_fin, ?nadd_fin, ?ndiv_fin by lra.
  pose proof (ld1_range r d H ltac:(lra) H2) as [R1 _]. pose proof (ld2_range r d H ltac:(lra) H2) as [R2 _].
  replace ((d * d - r * r + 1 * 1) / (2 * d)) with (ld1 r d) by (unfold ld1; field; lra).
  replace ((d * d + r * r - 1 * 1) / (2 * d)) with (ld2 r d) by (unfold ld2; field; lra).
  destruct R2 as [R2a R2b]. apply le_div in R2a; [|lra]. apply div_le in R2b; [|lra].
  rewrite !segment_area_fin by lra. rewrite nadd_fin.
  pose proof (pir2_pos r ltac:(lra)).
  rewrite ndiv_fin by nra. do 2 f_equal. unfold frac, lens. rewrite lclamp_mid by lra.
  replace (ld1 r d / 1) with (ld1 r d) by field. pose proof PI_RGT_0. field. lra.
Qed.
Lemma C10_lemma : forall x y r,
  (1 < r -> circ_fraction (Fin x) (Fin y) (Fin r) = Raise ValueError)
  /\ (0 <= r <= 1 -> exists v, circ_fraction (Fin x) (Fin y) (Fin r) = Ok (Fin v)
        /\ 0 <= v <= 1
        /\ (v = 1 <-> sqrt (x^2 + y^2) <= 1 - r)
        /\ (0 < r -> (v = 0 <-> 1 + r <= sqrt (x^2 + y^2)))
        /\ (r = 0 -> (v = 0 <-> 1 < sqrt (x^2 + y^2)))
        /\ (forall x' y', sqrt (x'^2 + y'^2) = sqrt (x^2 + y^2) ->
              circ_fraction (Fin x') (Fin y') (Fin r) = Ok (Fin v))).
Proof.
  intros. split; intros.
  - unfold circ_fraction, ngt. simpl. unfold Rltb. destruct (Rlt_dec 1 r); auto; lra.
  - destruct (Req_dec r 0) as [->|].
    + assert (Z : forall x y, circ_fraction (Fin x) (Fin y) (Fin 0) = Ok (Fin (if Rlt_dec 1 (sqrt (x^2 + y^2)) then 0 else 1))).
      { clear. intros. unfold circ_fraction, ngt. rewrite !nsub_fin, !nsq_fin, !nadd_fin.
        assert (0 <= x^2 + y^2) by nra.
        replace ((x - 0) * (x - 0) + (y - 0) * (y - 0)) with (x^2 + y^2) by ring.
        rewrite nsqrt_fin by auto. cbn [nlt nle neq]. unfold Rltb, Rleb.
        destruct (Rlt_dec 1 0); [lra|].
        destruct (Rlt_dec (1 + 0) (sqrt (x^2 + y^2))).
        destruct (Rlt_dec 1 (sqrt (x^2 + y^2))); auto; lra.
        destruct (Rle_dec (sqrt (x^2 + y^2)) (1 - 0)); [|lra].
        destruct (Rlt_dec 1 (sqrt (x^2 + y^2))); auto; lra. }
      rewrite Z. eexists. split. reflexivity.
      destruct (Rlt_dec 1 (sqrt (x^2 + y^2))); repeat split; try lra;
        intros; rewrite Z, H0; destruct (Rlt_dec 1 (sqrt (x^2 + y^2))); auto; lra.
    + assert (0 < r <= 1) by lra. rewrite circ_fraction_eq by auto. eexists. split. reflexivity.
      set (d := sqrt (x^2 + y^2)).
      assert (T : frac r d = 1 /\ d <= 1 - r \/ frac r d = 0 /\ 1 + r <= d \/ 0 < frac r d < 1 /\ 1 - r < d < 1 + r).
      { destruct (Rle_dec d (1 - r)). left; split; auto. apply frac_low; auto.
        destruct (Rle_dec (1 + r) d). right; left; split; auto; apply frac_high; auto.
        right; right. split. apply frac_mid; auto; lra. lra. }
      assert (W : forall x' y', sqrt (x'^2 + y'^2) = d -> circ_fraction (Fin x') (Fin y') (Fin r) = Ok (Fin (frac r d))).
      { intros. rewrite circ_fraction_eq by auto. rewrite H2; auto. }
      destruct T as [[T ?] | [[T ?] | [? ?]]]; try rewrite T in *; repeat split; intros; auto; lra.
Qed.

(** the two discs as sets of vertical slices *)
Lemma sqrt_neg_le0 : forall x, x <= 0 -> sqrt x = 0.
Proof. intros. apply sqrt_neg_0; auto. Qed.
Lemma lens_area : forall r d, 0 < r <= 1 -> 0 <= d ->
  is_RInt (fun t => 2 * Rmin (sqrt (1 - t^2)) (sqrt (r^2 - (t - d)^2))) (d - r) (d + r)
          (frac r d * (PI * r^2)).
Proof.
  intros. assert (PP := pir2_pos r ltac:(lra)). pose proof PI_RGT_0.
  destruct (Rle_dec d (1 - r)).
  - rewrite frac_low by auto. apply (is_RInt_ext (fun t => 2 * sqrt (r^2 - (t - d)^2))).
    + intros. rewrite Rmin_left, Rmax_right in H2 by lra. f_equal. symmetry. apply Rmin_right.
      apply sqrt_le_1_alt. nra.
    + replace (1 * (PI * r^2)) with (r^2 * (gseg ((d - r - d) / r) - gseg ((d + r - d) / r))).
      apply is_RInt_disc; lra.
      replace ((d - r - d) / r) with (-1) by (field; lra). replace ((d + r - d) / r) with 1 by (field; lra).
      rewrite gseg_1, gseg_m1. ring.
  - destruct (Rle_dec (1 + r) d).
    + rewrite frac_high by auto. apply (is_RInt_ext (fun t => 0)).
      * intros. rewrite Rmin_left, Rmax_right in H2 by lra.
        rewrite (sqrt_neg_le0 (1 - x^2)) by nra. rewrite Rmin_left by apply sqrt_pos. req; ring.
      * evar_last. apply (@is_RInt_const R_NormedModule). unfold scal; simpl; unfold mult; simpl. ring.
    + assert (0 < d) by lra. assert (1 - r <= d <= 1 + r) by lra.
      pose proof (ld1_range r d H ltac:(lra) H2) as [R1 _].
      pose proof (ld2_range r d H ltac:(lra) H2) as [R2 _].
      assert (E2 : ld1 r d = d - ld2 r d) by (unfold ld1, ld2; field; lra).
      destruct R2 as [R2a R2b]. apply le_div in R2a; [|lra]. apply div_le in R2b; [|lra].
      assert (Hd1 : forall t, 2 * t * d <= d^2 - r^2 + 1 <-> t <= ld1 r d).
      { intros. unfold ld1. rewrite le_div by lra. split; intros; lra. }
      replace (frac r d * (PI * r^2)) with (lens r d).
      2:{ unfold frac. rewrite lclamp_mid by lra. field. lra. }
      unfold lens.
      replace (gseg (ld1 r d) + r^2 * gseg (ld2 r d / r))
        with (plus (r^2 * (gseg ((d - r - d) / r) - gseg ((ld1 r d - d) / r)))
                   (plus (1^2 * (gseg ((ld1 r d - 0) / 1) - gseg ((1 - 0) / 1))) (scal (d + r - 1) 0))).
      2:{ unfold plus, scal; simpl; unfold mult; simpl.
          replace ((d - r - d) / r) with (-1) by (field; lra).
          replace ((ld1 r d - d) / r) with (- (ld2 r d / r)) by (rewrite E2; field; lra).
          rewrite gseg_opp, gseg_m1. replace ((ld1 r d - 0) / 1) with (ld1 r d) by field.
          replace ((1 - 0) / 1) with 1 by field. rewrite gseg_1. ring. }
      apply (@is_RInt_Chasles R_NormedModule _ (d - r) (ld1 r d) (d + r)).
      * apply (is_RInt_ext (fun t => 2 * sqrt (r^2 - (t - d)^2))).
        -- intros. rewrite Rmin_left, Rmax_right in H4 by lra. f_equal. symmetry. apply Rmin_right.
           apply sqrt_le_1_alt. assert (2 * x * d <= d^2 - r^2 + 1) by (apply Hd1; lra). nra.
        -- apply is_RInt_disc; lra.
      * apply (@is_RInt_Chasles R_NormedModule _ (ld1 r d) 1 (d + r)).
        -- apply (is_RInt_ext (fun t => 2 * sqrt (1^2 - (t - 0)^2))).
           ++ intros. rewrite Rmin_left, Rmax_right in H4 by lra. f_equal.
              replace (1^2 - (x - 0)^2) with (1 - x^2) by ring. symmetry; apply Rmin_left.
              apply sqrt_le_1_alt. assert (~ 2 * x * d <= d^2 - r^2 + 1) by (rewrite Hd1; lra). nra.
           ++ apply is_RInt_disc; lra.
        -- apply (is_RInt_ext (fun t => 0)).
           ++ intros. rewrite Rmin_left, Rmax_right in H4 by lra.
              rewrite (sqrt_neg_le0 (1 - x^2)) by nra. rewrite Rmin_left by apply sqrt_pos. req; ring.
           ++ apply (@is_RInt_const R_NormedModule).
Qed.
Lemma C11_lemma : forall r, 0 < r <= 1 -> exists f : R -> R,
  (forall x y, circ_fraction (Fin x) (Fin y) (Fin r) = Ok (Fin (f (sqrt (x^2 + y^2)))))
  /\ (forall d, 0 <= d -> is_RInt (overlap_slice r d) (d - r) (d + r) (f d * (PI * r^2)))
  /\ (forall d d', d <= d' -> f d' <= f d)
  /\ (forall d, continuity_pt f d)
  /\ f (1 - r) = 1 /\ f (1 + r) = 0.
Proof.
  intros. exists (frac r). split. intros; apply circ_fraction_eq; auto.
  split. intros; apply lens_area; auto.
  split. intros; apply frac_mono; auto.
  split. intros; apply continuity_pt_filterlim; apply frac_continuous; auto.
  split. apply frac_low; lra. apply frac_high; lra.
Qed.
