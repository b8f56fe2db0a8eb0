(** Integrals over the sphere of functions of the angle to a fixed direction. *)
From Coq Require Import Reals ZArith Bool List Lra Lia.
From Coquelicot Require Import Coquelicot.
From Verif Require Import Num Py MConfig MHelpers Spec LBase LGrid LCirc LQuad.
Import ListNotations.
Open Scope R_scope.

(** ** Bounded Lipschitz functions, and functions with a quadratic Taylor remainder *)
Definition lipb (B : R) (f : R -> R) : Prop :=
  (forall x, Rabs (f x) <= B) /\ (forall x y, Rabs (f y - f x) <= B * Rabs (y - x)).
Definition tame (B : R) (f f1 : R -> R) : Prop :=
  lipb B f /\ (forall x, Rabs (f1 x) <= B) /\
  (forall x y, Rabs (f y - f x - (y - x) * f1 x) <= B * (y - x) ^ 2).

Lemma lipb_pos : forall B f, lipb B f -> 0 <= B.
Proof. intros B f [H _]. specialize (H 0). pose proof (Rabs_pos (f 0)). lra. Qed.
Lemma lipb_weaken : forall B C f, B <= C -> lipb B f -> lipb C f.
Proof.
  intros B C f L [H1 H2]; split; intros. specialize (H1 x); lra.
  eapply Rle_trans. apply H2. apply Rmult_le_compat_r. apply Rabs_pos. auto.
Qed.
Lemma tame_weaken : forall B C f f1, B <= C -> tame B f f1 -> tame C f f1.
Proof.
  intros B C f f1 L [H1 [H2 H3]]; split; [|split]; intros. eapply lipb_weaken; eauto. specialize (H2 x); lra.
  eapply Rle_trans. apply H3. apply Rmult_le_compat_r. apply pow2_ge_0. auto.
Qed.
Lemma lip_continuous : forall B f x, (forall x y, Rabs (f y - f x) <= B * Rabs (y - x)) -> continuous f x.
Proof.
  intros B f x H. apply continuity_pt_filterlim. intros eps Heps.
  assert (HB : 0 <= B). { specialize (H 0 1). pose proof (Rabs_pos (f 1 - f 0)). rewrite Rminus_0_r, Rabs_R1 in H. lra. }
  exists (eps / (B + 1)). split. apply Rdiv_lt_0_compat; lra.
  intros y [_ Hy]. cbn in *. unfold R_dist in *.
  eapply Rle_lt_trans. apply H.
  apply Rle_lt_trans with (B * (eps / (B + 1))). apply Rmult_le_compat_l; lra.
  apply Rlt_le_trans with ((B + 1) * (eps / (B + 1))). apply Rmult_lt_compat_r. apply Rdiv_lt_0_compat; lra. lra.
  right; field; lra.
Qed.
Lemma lipb_continuous : forall B f x, lipb B f -> continuous f x.
Proof. intros. destruct H. eapply lip_continuous; eauto. Qed.
Lemma lip_ex_RInt : forall B f a b, (forall x y, Rabs (f y - f x) <= B * Rabs (y - x)) -> ex_RInt f a b.
Proof. intros. apply (@ex_RInt_continuous R_CompleteNormedModule). intros. eapply lip_continuous; eauto. Qed.
Lemma lipb_ex_RInt : forall B f a b, lipb B f -> ex_RInt f a b.
Proof. intros. destruct H. eapply lip_ex_RInt; eauto. Qed.

Lemma quad_derive : forall f C x l, 0 <= C -> (forall y, Rabs (f y - f x - (y - x) * l) <= C * (y - x) ^ 2) -> is_derive f x l.
Proof.
  intros f B x l H H3. apply is_derive_Reals. intros eps Heps.
  assert (D : 0 < eps / (B + 1)) by (apply Rdiv_lt_0_compat; lra).
  exists (mkposreal _ D). cbn. intros h Hh Hd.
  specialize (H3 (x + h)). replace (x + h - x) with h in H3 by ring.
  assert (A : 0 < Rabs h) by (apply Rabs_pos_lt; auto).
  replace ((f (x + h) - f x) / h - l) with ((f (x + h) - f x - h * l) / h) by (field; auto).
  rewrite Rabs_div by auto. apply (Rmult_lt_reg_r (Rabs h)); auto.
  unfold Rdiv at 1. rewrite Rmult_assoc, Rinv_l, Rmult_1_r by lra.
  eapply Rle_lt_trans. apply H3. rewrite <- (Rabs_right (h ^ 2)) by (apply Rle_ge, pow2_ge_0).
  rewrite <- RPow_abs. simpl. rewrite Rmult_1_r, <- Rmult_assoc. apply Rmult_lt_compat_r; auto.
  apply Rle_lt_trans with (B * (eps / (B + 1))). apply Rmult_le_compat_l; lra.
  apply Rlt_le_trans with ((B + 1) * (eps / (B + 1))). apply Rmult_lt_compat_r; lra. right; field; lra.
Qed.
Lemma tame_derive : forall B f f1 x, tame B f f1 -> is_derive f x (f1 x).
Proof. intros B f f1 x [H1 [H2 H3]]. pose proof (lipb_pos _ _ H1). apply quad_derive with B; auto. Qed.

Lemma lipb_const : forall c, lipb (Rabs c) (fun _ => c).
Proof. split; intros. lra. replace (c - c) with 0 by ring. rewrite Rabs_R0. apply Rmult_le_pos; apply Rabs_pos. Qed.
Lemma tame_const : forall c, tame (Rabs c) (fun _ => c) (fun _ => 0).
Proof.
  intros c; split; [apply lipb_const|split]; intros. rewrite Rabs_R0. apply Rabs_pos.
  replace (c - c - (y - x) * 0) with 0 by ring. rewrite Rabs_R0. apply Rmult_le_pos. apply Rabs_pos. apply pow2_ge_0.
Qed.
Lemma lipb_plus : forall B C f g, lipb B f -> lipb C g -> lipb (B + C) (fun x => f x + g x).
Proof.
  intros B C f g [A1 A2] [B1 B2]; split; intros.
  eapply Rle_trans. apply Rabs_triang. specialize (A1 x). specialize (B1 x). lra.
  replace (f y + g y - (f x + g x)) with ((f y - f x) + (g y - g x)) by ring.
  eapply Rle_trans. apply Rabs_triang. specialize (A2 x y). specialize (B2 x y). lra.
Qed.
Lemma tame_plus : forall B C f f1 g g1, tame B f f1 -> tame C g g1 -> tame (B + C) (fun x => f x + g x) (fun x => f1 x + g1 x).
Proof.
  intros B C f f1 g g1 [A1 [A2 A3]] [B1 [B2 B3]]; split; [apply lipb_plus; auto|split]; intros.
  eapply Rle_trans. apply Rabs_triang. specialize (A2 x). specialize (B2 x). lra.
  replace (_ - _ - _) with ((f y - f x - (y - x) * f1 x) + (g y - g x - (y - x) * g1 x)) by ring.
  eapply Rle_trans. apply Rabs_triang. specialize (A3 x y). specialize (B3 x y). lra.
Qed.
Lemma lipb_mult : forall B C f g, lipb B f -> lipb C g -> lipb (2 * B * C) (fun x => f x * g x).
Proof.
  intros B C f g F G. pose proof (lipb_pos _ _ F). pose proof (lipb_pos _ _ G).
  destruct F as [A1 A2], G as [B1 B2]. assert (BC : 0 <= B * C) by (apply Rmult_le_pos; auto). split; intros.
  rewrite Rabs_mult. apply Rle_trans with (B * C). apply Rmult_le_compat; auto using Rabs_pos. lra.
  replace (f y * g y - f x * g x) with (f y * (g y - g x) + (f y - f x) * g x) by ring.
  eapply Rle_trans. apply Rabs_triang. rewrite !Rabs_mult.
  assert (Rabs (f y) * Rabs (g y - g x) <= B * (C * Rabs (y - x))) by (apply Rmult_le_compat; auto using Rabs_pos).
  assert (Rabs (f y - f x) * Rabs (g x) <= (B * Rabs (y - x)) * C) by (apply Rmult_le_compat; auto using Rabs_pos).
  lra.
Qed.
Lemma tame_mult : forall B C f f1 g g1, tame B f f1 -> tame C g g1 ->
  tame (3 * B * C) (fun x => f x * g x) (fun x => f1 x * g x + f x * g1 x).
Proof.
  intros B C f f1 g g1 [A1 [A2 A3]] [B1 [B2 B3]].
  pose proof (lipb_pos _ _ A1) as PB. pose proof (lipb_pos _ _ B1) as PC.
  assert (BC : 0 <= B * C) by (apply Rmult_le_pos; auto).
  split; [|split]; intros.
  - eapply lipb_weaken; [|apply lipb_mult; eauto]. lra.
  - destruct A1, B1. eapply Rle_trans. apply Rabs_triang. rewrite !Rabs_mult.
    assert (Rabs (f1 x) * Rabs (g x) <= B * C) by (apply Rmult_le_compat; auto using Rabs_pos).
    assert (Rabs (f x) * Rabs (g1 x) <= B * C) by (apply Rmult_le_compat; auto using Rabs_pos). lra.
  - replace (_ - _ - _) with ((f y - f x) * (g y - g x) + ((f y - f x - (y - x) * f1 x) * g x + f x * (g y - g x - (y - x) * g1 x))) by ring.
    destruct A1 as [A0 A1], B1 as [B0 B1].
    eapply Rle_trans. apply Rabs_triang. eapply Rle_trans. apply Rplus_le_compat_l, Rabs_triang. rewrite !Rabs_mult.
    assert (Rabs (f y - f x) * Rabs (g y - g x) <= (B * Rabs (y - x)) * (C * Rabs (y - x))) by (apply Rmult_le_compat; auto using Rabs_pos).
    assert (Rabs (f y - f x - (y - x) * f1 x) * Rabs (g x) <= (B * (y - x) ^ 2) * C) by (apply Rmult_le_compat; auto using Rabs_pos).
    assert (Rabs (f x) * Rabs (g y - g x - (y - x) * g1 x) <= B * (C * (y - x) ^ 2)) by (apply Rmult_le_compat; auto using Rabs_pos).
    assert (Rabs (y - x) * Rabs (y - x) = (y - x) ^ 2) by (rewrite <- Rabs_mult, Rabs_right; [ring| apply Rle_ge; pose proof (pow2_ge_0 (y - x)); simpl in *; lra]).
    nra.
Qed.
Lemma tame_ext : forall B f f1 g g1, (forall x, g x = f x) -> (forall x, g1 x = f1 x) -> tame B f f1 -> tame B g g1.
Proof. intros B f f1 g g1 E E1 [[H1 H2] [H3 H4]]. split; [split|split]; intros; rewrite ?E, ?E1; auto. Qed.
Lemma lipb_ext : forall B f g, (forall x, g x = f x) -> lipb B f -> lipb B g.
Proof. intros B f g E [H1 H2]. split; intros; rewrite ?E; auto. Qed.

(** remainder bound from a Lipschitz derivative *)
Lemma taylor_quad : forall f f1 K x y, (forall t, Rmin x y <= t <= Rmax x y -> is_derive f t (f1 t)) ->
  (forall t, Rmin x y <= t <= Rmax x y -> Rabs (f1 t - f1 x) <= K * Rabs (t - x)) -> 0 <= K ->
  Rabs (f y - f x - (y - x) * f1 x) <= K * (y - x) ^ 2.
Proof.
  intros f f1 K x y D L HK. destruct (MVT_gen f x y f1) as [c [Hc E]].
  - intros t Ht; apply D. split; left; tauto.
  - intros t Ht. apply continuity_pt_filterlim. apply (@ex_derive_continuous R_AbsRing R_NormedModule). eexists; apply D; auto.
  - rewrite E. replace (f1 c * (y - x) - (y - x) * f1 x) with ((f1 c - f1 x) * (y - x)) by ring. rewrite Rabs_mult.
    assert (Rabs (c - x) <= Rabs (y - x)).
    { unfold Rmin, Rmax in Hc. destruct (Rle_dec x y). rewrite !Rabs_right; lra. rewrite !Rabs_left1; lra. }
    assert (Rabs (y - x) * Rabs (y - x) = (y - x) ^ 2) by (rewrite <- Rabs_mult, Rabs_right; [ring| apply Rle_ge; pose proof (pow2_ge_0 (y - x)); simpl in *; lra]).
    rewrite <- H0, <- Rmult_assoc. apply Rmult_le_compat_r. apply Rabs_pos.
    eapply Rle_trans. apply L; auto. apply Rmult_le_compat_l; auto.
Qed.
Lemma mvt_lip : forall f f1 K x y, (forall t, Rmin x y <= t <= Rmax x y -> is_derive f t (f1 t)) ->
  (forall t, Rmin x y <= t <= Rmax x y -> Rabs (f1 t) <= K) -> Rabs (f y - f x) <= K * Rabs (y - x).
Proof.
  intros f f1 K x y D L. destruct (MVT_gen f x y f1) as [c [Hc E]].
  - intros t Ht; apply D. split; left; tauto.
  - intros t Ht. apply continuity_pt_filterlim. apply (@ex_derive_continuous R_AbsRing R_NormedModule). eexists; apply D; auto.
  - rewrite E, Rabs_mult. apply Rmult_le_compat_r. apply Rabs_pos. auto.
Qed.
Lemma rabs_sin : forall x, Rabs (sin x) <= 1.
Proof. intros. apply Rabs_le. apply SIN_bound. Qed.
Lemma rabs_cos : forall x, Rabs (cos x) <= 1.
Proof. intros. apply Rabs_le. apply COS_bound. Qed.
Lemma sin_lip : forall x y, Rabs (sin y - sin x) <= 1 * Rabs (y - x).
Proof. intros. apply (mvt_lip sin cos). intros; apply is_derive_sin. intros; apply rabs_cos. Qed.
Lemma cos_lip : forall x y, Rabs (cos y - cos x) <= 1 * Rabs (y - x).
Proof. intros. apply (mvt_lip cos (fun t => - sin t)). intros; apply is_derive_cos. intros; rewrite Rabs_Ropp; apply rabs_sin. Qed.
Lemma tame_sin : tame 1 sin cos.
Proof.
  split; [split|split]; intros. apply rabs_sin. apply sin_lip. apply rabs_cos.
  apply (taylor_quad sin cos); try lra; intros. apply is_derive_sin. apply cos_lip.
Qed.
Lemma tame_cos : tame 1 cos (fun t => - sin t).
Proof.
  split; [split|split]; intros. apply rabs_cos. apply cos_lip. rewrite Rabs_Ropp; apply rabs_sin.
  replace (cos y - cos x - (y - x) * - sin x) with (cos y - cos x - (y - x) * ((fun t => - sin t) x)) by auto.
  apply (taylor_quad cos (fun t => - sin t)); try lra; intros. apply is_derive_cos.
  replace (- sin t - - sin x) with (- (sin t - sin x)) by ring. rewrite Rabs_Ropp. apply sin_lip.
Qed.
Lemma tame_refl : forall B f f1 c, tame B f f1 -> tame B (fun x => f (c - x)) (fun x => - f1 (c - x)).
Proof.
  intros B f f1 c [[H1 H2] [H3 H4]]; split; [split|split]; intros; auto.
  - eapply Rle_trans. apply H2. replace (c - y - (c - x)) with (- (y - x)) by ring. rewrite Rabs_Ropp. lra.
  - rewrite Rabs_Ropp. auto.
  - specialize (H4 (c - x) (c - y)). replace (c - y - (c - x)) with (- (y - x)) in H4 by ring.
    replace (f (c - y) - f (c - x) - (y - x) * - f1 (c - x)) with (f (c - y) - f (c - x) - - (y - x) * f1 (c - x)) by ring.
    replace ((- (y - x)) ^ 2) with ((y - x) ^ 2) in H4 by ring. auto.
Qed.

(** ** Differentiation under the integral sign *)
Lemma derive_param : forall f g a b C x, a <= b ->
  (forall y t, a <= t <= b -> Rabs (f y t - f x t - (y - x) * g t) <= C * (y - x) ^ 2) ->
  (forall y, ex_RInt (f y) a b) -> ex_RInt g a b ->
  forall y, Rabs (RInt (f y) a b - RInt (f x) a b - (y - x) * RInt g a b) <= (b - a) * C * (y - x) ^ 2.
Proof.
  intros f g a b C x Hab Q E Eg y.
  replace (RInt (f y) a b - RInt (f x) a b - (y - x) * RInt g a b) with (RInt (fun t => f y t - f x t - (y - x) * g t) a b).
  - eapply Rle_trans. apply abs_RInt_le_const with (M := C * (y - x) ^ 2); auto.
    + apply (@ex_RInt_minus R_NormedModule); [apply (@ex_RInt_minus R_NormedModule); auto|]. apply (@ex_RInt_scal R_NormedModule); auto.
    + right; ring.
  - rewrite (@RInt_minus R_CompleteNormedModule (fun t => f y t - f x t) (fun t => (y - x) * g t)).
    rewrite (@RInt_minus R_CompleteNormedModule (f y) (f x)) by auto.
    rewrite (@RInt_scal R_CompleteNormedModule g) by auto. reflexivity.
    apply (@ex_RInt_minus R_NormedModule); auto. apply (@ex_RInt_scal R_NormedModule); auto.
Qed.
Lemma lip_param : forall f a b C x y, a <= b ->
  (forall t, a <= t <= b -> Rabs (f y t - f x t) <= C * Rabs (y - x)) ->
  ex_RInt (f x) a b -> ex_RInt (f y) a b ->
  Rabs (RInt (f y) a b - RInt (f x) a b) <= (b - a) * C * Rabs (y - x).
Proof.
  intros f a b C x y Hab Q E Ey.
  replace (RInt (f y) a b - RInt (f x) a b) with (RInt (fun t => f y t - f x t) a b).
  - eapply Rle_trans. apply abs_RInt_le_const with (M := C * Rabs (y - x)); auto.
    + apply (@ex_RInt_minus R_NormedModule); auto.
    + right; ring.
  - rewrite (@RInt_minus R_CompleteNormedModule (f y) (f x)) by auto. reflexivity.
Qed.

(** ** The zonal identity for smooth functions *)
Record smooth (K : R) (F F1 : R -> R) : Prop := {
  sm_b : forall m, -1 <= m <= 1 -> Rabs (F m) <= K;
  sm_b1 : forall m, -1 <= m <= 1 -> Rabs (F1 m) <= K;
  sm_l : forall m n, -1 <= m <= 1 -> -1 <= n <= 1 -> Rabs (F n - F m) <= K * Rabs (n - m);
  sm_l1 : forall m n, -1 <= m <= 1 -> -1 <= n <= 1 -> Rabs (F1 n - F1 m) <= K * Rabs (n - m);
  sm_q : forall m n, -1 <= m <= 1 -> -1 <= n <= 1 -> Rabs (F n - F m - (n - m) * F1 m) <= K * (n - m) ^ 2 }.
Lemma smooth_pos : forall K F F1, smooth K F F1 -> 0 <= K.
Proof. intros. pose proof (sm_b _ _ _ H 0 ltac:(lra)). pose proof (Rabs_pos (F 0)). lra. Qed.
Lemma sq_abs : forall x, x ^ 2 = Rabs x * Rabs x.
Proof. intros. rewrite <- Rabs_mult, Rabs_right. ring. apply Rle_ge. pose proof (pow2_ge_0 x). simpl in *. lra. Qed.
Lemma tame_comp : forall K B F F1 m m1, smooth K F F1 -> tame B m m1 -> (forall x, -1 <= m x <= 1) ->
  tame (K * (B * B + B + 1)) (fun x => F (m x)) (fun x => F1 (m x) * m1 x).
Proof.
  intros K B F F1 m m1 S T R. pose proof (smooth_pos _ _ _ S) as HK. pose proof (lipb_pos _ _ (proj1 T)) as HB.
  destruct T as [[T1 T2] [T3 T4]].
  assert (PB : 0 <= B * B) by (apply Rmult_le_pos; auto).
  assert (Q1 : K <= K * (B * B + B + 1)) by nra.
  assert (Q2 : K * B <= K * (B * B + B + 1)) by nra.
  split; [split|split]; intros.
  - eapply Rle_trans. apply (sm_b _ _ _ S); auto. auto.
  - eapply Rle_trans. apply (sm_l _ _ _ S); auto. eapply Rle_trans. apply Rmult_le_compat_l; eauto.
    rewrite <- Rmult_assoc. apply Rmult_le_compat_r; auto using Rabs_pos.
  - rewrite Rabs_mult. eapply Rle_trans. apply Rmult_le_compat; auto using Rabs_pos. apply (sm_b1 _ _ _ S); auto. auto.
  - replace (_ - _ - _) with ((F (m y) - F (m x) - (m y - m x) * F1 (m x)) + F1 (m x) * (m y - m x - (y - x) * m1 x)) by ring.
    eapply Rle_trans. apply Rabs_triang. rewrite Rabs_mult.
    assert (E1 : Rabs (F (m y) - F (m x) - (m y - m x) * F1 (m x)) <= K * (B * B) * (y - x) ^ 2).
    { eapply Rle_trans. apply (sm_q _ _ _ S); auto. rewrite Rmult_assoc. apply Rmult_le_compat_l; auto.
      rewrite !sq_abs. replace (B * B * (Rabs (y - x) * Rabs (y - x))) with ((B * Rabs (y - x)) * (B * Rabs (y - x))) by ring.
      apply Rmult_le_compat; auto using Rabs_pos. }
    assert (E2 : Rabs (F1 (m x)) * Rabs (m y - m x - (y - x) * m1 x) <= K * (B * (y - x) ^ 2)).
    { apply Rmult_le_compat; auto using Rabs_pos. apply (sm_b1 _ _ _ S); auto. }
    pose proof (pow2_ge_0 (y - x)). nra.
Qed.
Lemma lipb_comp : forall K B G m, (forall m, -1 <= m <= 1 -> Rabs (G m) <= K) ->
  (forall m n, -1 <= m <= 1 -> -1 <= n <= 1 -> Rabs (G n - G m) <= K * Rabs (n - m)) -> lipb B m -> (forall x, -1 <= m x <= 1) ->
  lipb (K * (B + 1)) (fun x => G (m x)).
Proof.
  intros K B G m Gb Gl T R. pose proof (lipb_pos _ _ T) as HB. pose proof (Gb 0 ltac:(lra)). pose proof (Rabs_pos (G 0)).
  assert (0 <= K) by lra. destruct T as [T1 T2]. split; intros.
  - eapply Rle_trans. apply Gb; auto. nra.
  - eapply Rle_trans. apply Gl; auto. eapply Rle_trans. apply Rmult_le_compat_l; eauto.
    rewrite <- Rmult_assoc. apply Rmult_le_compat_r; auto using Rabs_pos. nra.
Qed.
Lemma tame_lin : forall a b, Rabs a <= 1 -> Rabs b <= 1 ->
  tame 6 (fun x => a * sin x + b * cos x) (fun x => a * cos x - b * sin x).
Proof.
  intros a b Ha Hb.
  apply (tame_ext 6 (fun x => a * sin x + b * cos x) (fun x => (0 * sin x + a * cos x) + (0 * cos x + b * - sin x))); intros; try ring.
  replace 6 with (3 * 1 * 1 + 3 * 1 * 1) by ring.
  apply tame_plus.
  apply (tame_mult 1 1 (fun _ => a) (fun _ => 0) sin cos). apply tame_weaken with (Rabs a); auto. apply tame_const. apply tame_sin.
  apply (tame_mult 1 1 (fun _ => b) (fun _ => 0) cos (fun x => - sin x)). apply tame_weaken with (Rabs b); auto. apply tame_const. apply tame_cos.
Qed.
Lemma tame_lon : forall a b c, Rabs a <= 1 -> Rabs b <= 1 ->
  tame 6 (fun x => a + b * cos (c - x)) (fun x => b * sin (c - x)).
Proof.
  intros a b c Ha Hb.
  apply (tame_ext 6 (fun x => a + b * cos (c - x)) (fun x => 0 + (0 * cos (c - x) + b * - - sin (c - x)))); intros; try ring.
  apply tame_weaken with (1 + 3 * 1 * 1). lra.
  apply (tame_plus 1 (3 * 1 * 1) (fun _ => a) (fun _ => 0)). apply tame_weaken with (Rabs a); auto. apply tame_const.
  apply (tame_mult 1 1 (fun _ => b) (fun _ => 0) (fun x => cos (c - x)) (fun x => - - sin (c - x))).
  apply tame_weaken with (Rabs b); auto. apply tame_const.
  apply (tame_refl 1 cos (fun t => - sin t)). apply tame_cos.
Qed.
Lemma rabs_prod1 : forall a b, Rabs a <= 1 -> Rabs b <= 1 -> Rabs (a * b) <= 1.
Proof. intros. rewrite Rabs_mult. replace 1 with (1 * 1) by ring. apply Rmult_le_compat; auto using Rabs_pos. Qed.
Lemma tame_mu_th : forall lon0 lat lon,
  tame 6 (fun th => law_cos th lon0 lat lon) (fun th => sin lat * cos th - cos lat * cos (lon0 - lon) * sin th).
Proof.
  intros. eapply tame_ext; [| |apply (tame_lin (sin lat) (cos lat * cos (lon0 - lon)))]; intros; unfold law_cos; try ring.
  apply rabs_sin. apply rabs_prod1; apply rabs_cos.
Qed.
Lemma tame_mu_lat : forall th lon0 lon,
  tame 6 (fun lat => law_cos th lon0 lat lon) (fun lat => sin th * cos lat - cos th * cos (lon0 - lon) * sin lat).
Proof.
  intros. eapply tame_ext; [| |apply (tame_lin (sin th) (cos th * cos (lon0 - lon)))]; intros; unfold law_cos; try ring.
  apply rabs_sin. apply rabs_prod1; apply rabs_cos.
Qed.
Lemma tame_mu_lon : forall th lon0 lat,
  tame 6 (fun lon => law_cos th lon0 lat lon) (fun lon => cos th * cos lat * sin (lon0 - lon)).
Proof.
  intros. eapply tame_ext; [| |apply (tame_lon (sin th * sin lat) (cos th * cos lat) lon0)]; intros; unfold law_cos; try ring.
  apply rabs_prod1; apply rabs_sin. apply rabs_prod1; apply rabs_cos.
Qed.

Definition mth (th lon0 lat lon : R) : R := sin lat * cos th - cos lat * cos (lon0 - lon) * sin th.
Definition hh (F : R -> R) (th lon0 lat lon : R) : R := cos (lon0 - lon) * (cos lat * F (law_cos th lon0 lat lon)).
Definition hh1 (F F1 : R -> R) (th lon0 lat lon : R) : R :=
  cos (lon0 - lon) * (- sin lat * F (law_cos th lon0 lat lon) +
    cos lat * (F1 (law_cos th lon0 lat lon) * (sin th * cos lat - cos th * cos (lon0 - lon) * sin lat))).
Definition kk (F : R -> R) (th lon0 lat lon : R) : R := sin lat * (sin (lon0 - lon) * F (law_cos th lon0 lat lon)).
Definition kk1 (F F1 : R -> R) (th lon0 lat lon : R) : R :=
  sin lat * (- cos (lon0 - lon) * F (law_cos th lon0 lat lon) +
    sin (lon0 - lon) * (F1 (law_cos th lon0 lat lon) * (cos th * cos lat * sin (lon0 - lon)))).
Lemma zonal_identity : forall F F1 th lon0 lat lon,
  cos lat * (F1 (law_cos th lon0 lat lon) * mth th lon0 lat lon) = kk1 F F1 th lon0 lat lon - hh1 F F1 th lon0 lat lon.
Proof.
  intros. unfold kk1, hh1, mth. pose proof (sin2_cos2 (lon0 - lon)) as E. unfold Rsqr in E.
  set (sd := sin (lon0 - lon)) in *. set (cd := cos (lon0 - lon)) in *. set (m := law_cos th lon0 lat lon).
  replace (sin lat * (- cd * F m + sd * (F1 m * (cos th * cos lat * sd))))
    with (sin lat * (- cd * F m) + sin lat * F1 m * cos th * cos lat * (sd * sd)) by ring.
  replace (sd * sd) with (1 - cd * cd) by lra. ring.
Qed.

Lemma zonal_kk1 : forall K F F1 th lon0 lat, smooth K F F1 ->
  exists B, tame B (kk F th lon0 lat) (kk1 F F1 th lon0 lat) /\ lipb B (kk1 F F1 th lon0 lat).
Proof.
  intros K F F1 th lon0 lat S.
  pose proof (tame_comp _ _ _ _ _ _ S (tame_mu_lon th lon0 lat) (fun x => law_cos_bound _ _ _ _)) as T1.
  pose proof (tame_mult _ _ _ _ _ _ (tame_refl _ _ _ lon0 tame_sin) T1) as T2.
  pose proof (tame_mult _ _ _ _ _ _ (tame_const (sin lat)) T2) as T3.
  pose proof (lipb_comp K 6 F1 _ (sm_b1 _ _ _ S) (sm_l1 _ _ _ S) (proj1 (tame_mu_lon th lon0 lat)) (fun x => law_cos_bound _ _ _ _)) as L1.
  pose proof (lipb_mult _ _ _ _ L1 (lipb_mult _ _ _ _ (lipb_const (cos th * cos lat)) (proj1 (tame_refl _ _ _ lon0 tame_sin)))) as L2.
  pose proof (lipb_mult _ _ _ _ (proj1 (tame_refl _ _ _ lon0 tame_sin)) L2) as L3.
  pose proof (lipb_mult _ _ _ _ (lipb_mult _ _ _ _ (lipb_const (-1)) (proj1 (tame_refl _ _ _ lon0 tame_cos))) (proj1 T1)) as L4.
  pose proof (lipb_mult _ _ _ _ (lipb_const (sin lat)) (lipb_plus _ _ _ _ L4 L3)) as L5.
  match type of T3 with tame ?B1 _ _ => match type of L5 with lipb ?B2 _ => exists (Rmax B1 B2); split;
    [apply tame_weaken with B1; [apply Rmax_l|]|apply lipb_weaken with B2; [apply Rmax_r|]] end end.
  eapply tame_ext; [| |apply T3]; intros; unfold kk, kk1; ring.
  eapply lipb_ext; [|apply L5]; intros; unfold kk1; ring.
Qed.
Lemma zonal_hh1 : forall K F F1 th lon0, smooth K F F1 ->
  exists B, forall lon, tame B (fun lat => hh F th lon0 lat lon) (fun lat => hh1 F F1 th lon0 lat lon).
Proof.
  intros K F F1 th lon0 S.
  exists (3 * 1 * (3 * 1 * (K * (6 * 6 + 6 + 1)))). intros lon.
  pose proof (tame_comp _ _ _ _ _ _ S (tame_mu_lat th lon0 lon) (fun x => law_cos_bound _ _ _ _)) as T1.
  pose proof (tame_mult _ _ _ _ _ _ tame_cos T1) as T2.
  pose proof (tame_mult _ _ _ _ _ _ (tame_weaken _ 1 _ _ (rabs_cos (lon0 - lon)) (tame_const (cos (lon0 - lon)))) T2) as T3.
  eapply tame_ext; [| |apply T3]; intros; unfold hh, hh1; ring.
Qed.
Lemma zonal_lip_lon : forall K F F1 th lon0 lat, smooth K F F1 ->
  exists B, lipb B (fun lon => F (law_cos th lon0 lat lon)) /\ lipb B (fun lon => F1 (law_cos th lon0 lat lon) * mth th lon0 lat lon).
Proof.
  intros K F F1 th lon0 lat S.
  pose proof (lipb_comp K 6 F _ (sm_b _ _ _ S) (sm_l _ _ _ S) (proj1 (tame_mu_lon th lon0 lat)) (fun x => law_cos_bound _ _ _ _)) as L0.
  pose proof (lipb_comp K 6 F1 _ (sm_b1 _ _ _ S) (sm_l1 _ _ _ S) (proj1 (tame_mu_lon th lon0 lat)) (fun x => law_cos_bound _ _ _ _)) as L1.
  pose proof (lipb_plus _ _ _ _ (lipb_const (sin lat * cos th))
    (lipb_mult _ _ _ _ (lipb_const (- cos lat * sin th)) (proj1 (tame_refl _ _ _ lon0 tame_cos)))) as L2.
  pose proof (lipb_mult _ _ _ _ L1 L2) as L3.
  match type of L0 with lipb ?B1 _ => match type of L3 with lipb ?B2 _ => exists (Rmax B1 B2); split;
    [apply lipb_weaken with B1; [apply Rmax_l|]|apply lipb_weaken with B2; [apply Rmax_r|]] end end.
  eapply lipb_ext; [|apply L0]; auto.
  eapply lipb_ext; [|apply L3]; intros; unfold mth; ring.
Qed.
Lemma zonal_lip_lat : forall K F F1 th lon0, smooth K F F1 ->
  exists B, 0 <= B /\ forall lon, lipb B (fun lat => F (law_cos th lon0 lat lon)) /\
    lipb B (fun lat => F1 (law_cos th lon0 lat lon) * mth th lon0 lat lon).
Proof.
  intros K F F1 th lon0 S. pose proof (smooth_pos _ _ _ S).
  exists (Rmax (K * (6 + 1)) (2 * (K * (6 + 1)) * 6)). split. apply Rle_trans with (K * (6 + 1)). lra. apply Rmax_l.
  intros lon.
  pose proof (lipb_comp K 6 F _ (sm_b _ _ _ S) (sm_l _ _ _ S) (proj1 (tame_mu_lat th lon0 lon)) (fun x => law_cos_bound _ _ _ _)) as L0.
  pose proof (lipb_comp K 6 F1 _ (sm_b1 _ _ _ S) (sm_l1 _ _ _ S) (proj1 (tame_mu_lat th lon0 lon)) (fun x => law_cos_bound _ _ _ _)) as L1.
  pose proof (tame_lin (cos th) (- (sin th * cos (lon0 - lon))) (rabs_cos _)) as L2.
  rewrite Rabs_Ropp in L2. specialize (L2 (rabs_prod1 _ _ (rabs_sin _) (rabs_cos _))).
  pose proof (lipb_mult _ _ _ _ L1 (proj1 L2)) as L3.
  split. eapply lipb_weaken; [apply Rmax_l|]. auto. eapply lipb_weaken; [apply Rmax_r|].
  eapply lipb_ext; [|apply L3]; intros; unfold mth; ring.
Qed.

Definition lonint (F : R -> R) (th lon0 lat : R) : R := RInt (fun lon => F (law_cos th lon0 lat lon)) 0 (2 * PI).
Definition sphint (F : R -> R) (th lon0 : R) : R := RInt (fun lat => cos lat * lonint F th lon0 lat) (- PI / 2) (PI / 2).
Definition jint (F1 : R -> R) (th lon0 lat : R) : R :=
  RInt (fun lon => F1 (law_cos th lon0 lat lon) * mth th lon0 lat lon) 0 (2 * PI).

Lemma jint_hh : forall K F F1 th lon0 lat, smooth K F F1 ->
  ex_RInt (hh1 F F1 th lon0 lat) 0 (2 * PI) /\
  cos lat * jint F1 th lon0 lat = - RInt (hh1 F F1 th lon0 lat) 0 (2 * PI).
Proof.
  intros K F F1 th lon0 lat S. destruct (zonal_kk1 K F F1 th lon0 lat S) as [B [T L]].
  destruct (zonal_lip_lon K F F1 th lon0 lat S) as [B' [_ L']].
  pose proof (lipb_ex_RInt _ _ 0 (2 * PI) L) as EK. pose proof (lipb_ex_RInt _ _ 0 (2 * PI) L') as EJ.
  assert (IK : RInt (kk1 F F1 th lon0 lat) 0 (2 * PI) = 0).
  { apply is_RInt_unique. replace 0 with (minus (kk F th lon0 lat (2 * PI)) (kk F th lon0 lat 0)) at 2.
    apply (@is_RInt_derive R_CompleteNormedModule (kk F th lon0 lat)).
    - intros. eapply tame_derive; eauto.
    - intros. eapply lipb_continuous; eauto.
    - change (kk F th lon0 lat (2 * PI) - kk F th lon0 lat 0 = 0). unfold kk, law_cos.
      replace (lon0 - 2 * PI) with (- (- (lon0 - 0) + 2 * PI)) by ring.
      rewrite sin_neg, cos_neg, sin_plus, cos_plus, sin_2PI, cos_2PI, sin_neg, cos_neg.
      replace (- (- sin (lon0 - 0) * 1 + cos (lon0 - 0) * 0)) with (sin (lon0 - 0)) by ring.
      replace (cos (lon0 - 0) * 1 - - sin (lon0 - 0) * 0) with (cos (lon0 - 0)) by ring. ring. }
  assert (E : forall lon, hh1 F F1 th lon0 lat lon = kk1 F F1 th lon0 lat lon - cos lat * (F1 (law_cos th lon0 lat lon) * mth th lon0 lat lon)).
  { intros. rewrite (zonal_identity F). ring. }
  assert (X : ex_RInt (fun lon => kk1 F F1 th lon0 lat lon - cos lat * (F1 (law_cos th lon0 lat lon) * mth th lon0 lat lon)) 0 (2 * PI)).
  { apply (@ex_RInt_minus R_NormedModule); auto. apply (@ex_RInt_scal R_NormedModule); auto. }
  split.
  - eapply (@ex_RInt_ext R_NormedModule); [|apply X]. intros; rewrite E; auto.
  - rewrite (RInt_ext (hh1 F F1 th lon0 lat) (fun lon => kk1 F F1 th lon0 lat lon - cos lat * (F1 (law_cos th lon0 lat lon) * mth th lon0 lat lon))) by (intros; apply E).
    rewrite (@RInt_minus R_CompleteNormedModule (kk1 F F1 th lon0 lat)) by (auto; apply (@ex_RInt_scal R_NormedModule); auto).
    rewrite (@RInt_scal R_CompleteNormedModule) by auto. rewrite IK. unfold jint.
    change (cos lat * RInt (fun lon => F1 (law_cos th lon0 lat lon) * mth th lon0 lat lon) 0 (2 * PI)
      = - (0 - cos lat * RInt (fun lon => F1 (law_cos th lon0 lat lon) * mth th lon0 lat lon) 0 (2 * PI))). ring.
Qed.
Lemma twopi_pos : 0 <= 2 * PI. Proof. pose proof PI_RGT_0; lra. Qed.
Lemma lonint_lip : forall K F F1 th lon0, smooth K F F1 ->
  exists B, 0 <= B /\ lipb B (lonint F th lon0) /\ lipb B (jint F1 th lon0).
Proof.
  intros K F F1 th lon0 S. destruct (zonal_lip_lat K F F1 th lon0 S) as [B [HB L]]. pose proof PI_RGT_0.
  exists ((2 * PI - 0) * B). split. apply Rmult_le_pos; lra.
  assert (E : forall lat, ex_RInt (fun lon => F (law_cos th lon0 lat lon)) 0 (2 * PI) /\
     ex_RInt (fun lon => F1 (law_cos th lon0 lat lon) * mth th lon0 lat lon) 0 (2 * PI)).
  { intros. destruct (zonal_lip_lon K F F1 th lon0 lat S) as [B' [L0 L1]]. split; eapply lipb_ex_RInt; eauto. }
  split; split; intros.
  - apply abs_RInt_le_const. apply twopi_pos. apply (proj1 (E _)). intros t Ht. apply (proj1 (proj1 (L t))).
  - unfold lonint. apply (lip_param (fun lat lon => F (law_cos th lon0 lat lon))). apply twopi_pos.
    intros t Ht. apply (proj2 (proj1 (L t))). apply (proj1 (E _)). apply (proj1 (E _)).
  - apply abs_RInt_le_const. apply twopi_pos. apply (proj2 (E _)). intros t Ht. apply (proj1 (proj2 (L t))).
  - unfold jint. apply (lip_param (fun lat lon => F1 (law_cos th lon0 lat lon) * mth th lon0 lat lon)). apply twopi_pos.
    intros t Ht. apply (proj2 (proj2 (L t))). apply (proj2 (E _)). apply (proj2 (E _)).
Qed.
Lemma lipb_coslonint : forall B f, lipb B f -> lipb (2 * 1 * B) (fun x => cos x * f x).
Proof. intros. apply lipb_mult; auto. apply tame_cos. Qed.
Lemma mpi2_le : - PI / 2 <= PI / 2. Proof. pose proof PI_RGT_0; lra. Qed.

Lemma jint_zero : forall K F F1 th lon0, smooth K F F1 ->
  RInt (fun lat => cos lat * jint F1 th lon0 lat) (- PI / 2) (PI / 2) = 0.
Proof.
  intros K F F1 th lon0 S. destruct (zonal_hh1 K F F1 th lon0 S) as [B T].
  destruct (lonint_lip K F F1 th lon0 S) as [B' [HB' [_ LJ]]].
  set (Hf := fun lat => RInt (hh F th lon0 lat) 0 (2 * PI)).
  set (H1 := fun lat => RInt (hh1 F F1 th lon0 lat) 0 (2 * PI)).
  assert (EJ : forall lat, cos lat * jint F1 th lon0 lat = - H1 lat).
  { intros. apply (proj2 (jint_hh K F F1 th lon0 lat S)). }
  assert (HB : 0 <= B) by (apply (lipb_pos _ _ (proj1 (T 0)))).
  assert (EH : forall lat, ex_RInt (hh F th lon0 lat) 0 (2 * PI)).
  { intros. destruct (zonal_lip_lon K F F1 th lon0 lat S) as [B2 [L0 _]].
    eapply lipb_ex_RInt. eapply lipb_ext; [|apply (lipb_mult _ _ _ _ (proj1 (tame_refl _ _ _ lon0 tame_cos)) (lipb_mult _ _ _ _ (lipb_const (cos lat)) L0))].
    intros; unfold hh; ring. }
  assert (D : forall lat, is_derive Hf lat (H1 lat)).
  { intros. apply quad_derive with ((2 * PI - 0) * B). pose proof PI_RGT_0. apply Rmult_le_pos; lra.
    intros y. apply (derive_param (fun lat => hh F th lon0 lat)). apply twopi_pos.
    - intros y0 t Ht. apply (proj2 (proj2 (T t))).
    - intros. apply EH.
    - apply (proj1 (jint_hh K F F1 th lon0 lat S)). }
  assert (C : forall lat, continuous H1 lat).
  { intros. apply continuous_ext with (fun lat => - 1 * (cos lat * jint F1 th lon0 lat)). intros; rewrite EJ; req; ring.
    eapply lipb_continuous. apply lipb_mult. apply lipb_const. apply lipb_coslonint. eauto. }
  rewrite (RInt_ext (fun lat => cos lat * jint F1 th lon0 lat) (fun lat => -1 * H1 lat)) by (intros; rewrite EJ; req; ring).
  rewrite (@RInt_scal R_CompleteNormedModule H1).
  2:{ apply (@ex_RInt_continuous R_CompleteNormedModule). intros; apply C. }
  assert (I : is_RInt H1 (- PI / 2) (PI / 2) (minus (Hf (PI / 2)) (Hf (- PI / 2)))).
  { apply (@is_RInt_derive R_CompleteNormedModule Hf H1). intros; apply D. intros; apply C. }
  rewrite (is_RInt_unique _ _ _ _ I).
  assert (Z : forall lat, cos lat = 0 -> Hf lat = 0).
  { intros lat Hl. unfold Hf. rewrite (RInt_ext _ (fun _ => 0)). rewrite (@RInt_const R_CompleteNormedModule). change ((2 * PI - 0) * 0 = 0). ring.
    intros; unfold hh; rewrite Hl; req; ring. }
  change (-1 * (Hf (PI / 2) - Hf (- PI / 2)) = 0).
  rewrite (Z (PI / 2)) by apply cos_PI2. rewrite (Z (- PI / 2)). ring.
  replace (- PI / 2) with (- (PI / 2)) by field. rewrite cos_neg. apply cos_PI2.
Qed.

Lemma sphint_derive : forall K F F1 th lon0, smooth K F F1 -> is_derive (fun th => sphint F th lon0) th 0.
Proof.
  intros K F F1 th lon0 S. rewrite <- (jint_zero K F F1 th lon0 S). pose proof PI_RGT_0 as PP.
  set (C := K * (6 * 6 + 6 + 1)). pose proof (smooth_pos _ _ _ S).
  assert (HC : 0 <= C) by (unfold C; lra).
  apply quad_derive with ((PI / 2 - - PI / 2) * ((2 * PI - 0) * C)). apply Rmult_le_pos. lra. apply Rmult_le_pos; lra.
  intros y. apply (derive_param (fun th lat => cos lat * lonint F th lon0 lat) (fun lat => cos lat * jint F1 th lon0 lat)).
  apply mpi2_le.
  - intros z lat Hl.
    replace (_ - _ - _) with (cos lat * (lonint F z lon0 lat - lonint F th lon0 lat - (z - th) * jint F1 th lon0 lat)) by ring.
    rewrite Rabs_mult. rewrite <- (Rmult_1_l ((2 * PI - 0) * C * (z - th) ^ 2)).
    apply Rmult_le_compat; auto using Rabs_pos. apply rabs_cos.
    apply (derive_param (fun th lon => F (law_cos th lon0 lat lon))). apply twopi_pos.
    + intros w lon Hlon. unfold mth.
      pose proof (tame_comp _ _ _ _ _ _ S (tame_mu_th lon0 lat lon) (fun x => law_cos_bound _ _ _ _)) as T.
      apply (proj2 (proj2 T)).
    + intros w. destruct (zonal_lip_lon K F F1 w lon0 lat S) as [B2 [L0 _]]. eapply lipb_ex_RInt; eauto.
    + destruct (zonal_lip_lon K F F1 th lon0 lat S) as [B2 [_ L0]]. eapply lipb_ex_RInt; eauto.
  - intros w. destruct (lonint_lip K F F1 w lon0 S) as [B [_ [L _]]]. eapply lipb_ex_RInt. apply lipb_coslonint; eauto.
  - destruct (lonint_lip K F F1 th lon0 S) as [B [_ [_ L]]]. eapply lipb_ex_RInt. apply lipb_coslonint; eauto.
Qed.
Lemma sphint_const : forall K F F1 th th' lon0, smooth K F F1 -> sphint F th lon0 = sphint F th' lon0.
Proof.
  assert (X : forall K F F1 th th' lon0, th < th' -> smooth K F F1 -> sphint F th lon0 = sphint F th' lon0).
  { intros. apply (@eq_is_derive R_NormedModule (fun th => sphint F th lon0)); auto. intros. apply (sphint_derive K F F1); auto. }
  intros. destruct (Rtotal_order th th') as [L|[E|L]]. eauto. subst; auto. symmetry; eauto.
Qed.
Lemma sphint_smooth : forall K F F1 th lon0, smooth K F F1 -> (forall m, -1 <= m <= 1 -> continuous F m) ->
  sphint F th lon0 = 2 * PI * RInt F (-1) 1.
Proof.
  intros K F F1 th lon0 S C. rewrite (sphint_const K F F1 th (PI / 2) lon0 S). unfold sphint.
  assert (E : forall lat, lonint F (PI / 2) lon0 lat = 2 * PI * F (sin lat)).
  { intros. unfold lonint. rewrite (RInt_ext _ (fun _ => F (sin lat))).
    rewrite (@RInt_const R_CompleteNormedModule). change ((2 * PI - 0) * F (sin lat) = 2 * PI * F (sin lat)). ring.
    intros. req. f_equal. unfold law_cos. rewrite sin_PI2, cos_PI2. ring. }
  rewrite (RInt_ext _ (fun lat => 2 * PI * (cos lat * F (sin lat)))) by (intros; rewrite E; req; ring).
  assert (CB : forall x, continuous F (sin x)). { intros. apply C. apply SIN_bound. }
  rewrite (@RInt_scal R_CompleteNormedModule (fun lat => cos lat * F (sin lat))).
  - change (2 * PI * RInt (fun lat => cos lat * F (sin lat)) (- PI / 2) (PI / 2) = 2 * PI * RInt F (-1) 1). f_equal.
    transitivity (RInt F (sin (- PI / 2)) (sin (PI / 2))).
    2:{ replace (- PI / 2) with (- (PI / 2)) by field. rewrite sin_neg, sin_PI2. reflexivity. }
    apply (@RInt_comp R_CompleteNormedModule F sin cos). intros; apply CB.
    intros. split. apply is_derive_sin. apply continuous_cos.
  - apply (@ex_RInt_continuous R_CompleteNormedModule). intros.
    apply (@continuous_mult R_UniformSpace R_AbsRing cos (fun lat => F (sin lat))). apply continuous_cos.
    apply (continuous_comp sin F). apply continuous_sin. apply CB.
Qed.

(** ** Lipschitz functions: smoothing by averages over short intervals *)
Definition lip (L : R) (F : R -> R) : Prop := forall x y, Rabs (F y - F x) <= L * Rabs (y - x).
Lemma lip_pos : forall L F, lip L F -> 0 <= L.
Proof. intros L F H. specialize (H 0 1). pose proof (Rabs_pos (F 1 - F 0)). rewrite Rminus_0_r, Rabs_R1 in H. lra. Qed.
Definition avg (F : R -> R) (d m : R) : R := (RInt F 0 (m + d) - RInt F 0 m) / d.
Lemma avg_RInt : forall L F d m, lip L F -> 0 < d -> avg F d m = RInt F m (m + d) / d.
Proof.
  intros L F d m H Hd. unfold avg. f_equal.
  assert (E : forall a b, ex_RInt F a b) by (intros; eapply lip_ex_RInt; eauto).
  pose proof (@RInt_Chasles R_CompleteNormedModule F 0 m (m + d) (E _ _) (E _ _)) as C.
  change (RInt F 0 m + RInt F m (m + d) = RInt F 0 (m + d)) in C. lra.
Qed.
Lemma avg_near : forall L F d m, lip L F -> 0 < d -> Rabs (avg F d m - F m) <= L * d.
Proof.
  intros L F d m H Hd. rewrite (avg_RInt L) by auto. pose proof (lip_pos _ _ H).
  assert (E : forall a b, ex_RInt F a b) by (intros; eapply lip_ex_RInt; eauto).
  assert (B : F m - L * d <= F m + L * d) by nra.
  destruct (RInt_between F m (m + d) (F m - L * d) (F m + L * d)) as [B1 B2]; auto. lra.
  { intros. specialize (H m x). rewrite (Rabs_right (x - m)) in H by lra. apply Rabs_le_between in H.
    assert (L * (x - m) <= L * d) by (apply Rmult_le_compat_l; lra). lra. }
  replace (m + d - m) with d in * by ring.
  apply Rabs_le. split.
  apply (Rmult_le_reg_r d); auto. replace ((RInt F m (m + d) / d - F m) * d) with (RInt F m (m + d) - F m * d) by (field; lra). nra.
  apply (Rmult_le_reg_r d); auto. replace ((RInt F m (m + d) / d - F m) * d) with (RInt F m (m + d) - F m * d) by (field; lra). nra.
Qed.
Lemma avg_derive : forall L F d m, lip L F -> 0 < d -> is_derive (avg F d) m ((F (m + d) - F m) / d).
Proof.
  intros L F d m H Hd.
  assert (P : forall x, is_derive (fun x => RInt F 0 x) x (F x)).
  { intros. apply (@is_derive_RInt R_NormedModule F (fun x => RInt F 0 x) 0).
    - apply filter_forall. intros y. apply (@RInt_correct R_CompleteNormedModule). eapply lip_ex_RInt; eauto.
    - eapply lip_continuous; eauto. }
  unfold avg.
  apply (is_derive_ext (fun m => / d * (RInt F 0 (m + d) - RInt F 0 m))).
  { intros. unfold Rdiv. req. ring. }
  replace ((F (m + d) - F m) / d) with (/ d * (1 * F (m + d) - F m)) by (unfold Rdiv; ring).
  apply is_derive_scal.
  apply (@is_derive_minus R_AbsRing R_NormedModule (fun m => RInt F 0 (m + d)) (fun m => RInt F 0 m)); [|apply P].
  apply (@is_derive_comp R_AbsRing R_NormedModule (fun x => RInt F 0 x) (fun m => m + d)). apply P.
  auto_derive; auto.
Qed.
Lemma avg_smooth : forall L F d, lip L F -> 0 < d <= 1 ->
  smooth (Rabs (F 0) + 2 * L + 2 * L / d) (avg F d) (fun m => (F (m + d) - F m) / d).
Proof.
  intros L F d H Hd. pose proof (lip_pos _ _ H) as HL. pose proof (Rabs_pos (F 0)) as P0.
  assert (PD : 0 <= 2 * L / d) by (apply Rdiv_le_0_compat; lra).
  set (K := Rabs (F 0) + 2 * L + 2 * L / d).
  assert (B1 : forall m, Rabs ((F (m + d) - F m) / d) <= L).
  { intros. rewrite Rabs_div by lra. rewrite (Rabs_right d) by lra. apply (Rmult_le_reg_r d); [lra|].
    unfold Rdiv. rewrite Rmult_assoc, Rinv_l, Rmult_1_r by lra. specialize (H m (m + d)). replace (m + d - m) with d in H by ring.
    rewrite (Rabs_right d) in H by lra. auto. }
  assert (L1 : forall m n, Rabs ((F (n + d) - F n) / d - (F (m + d) - F m) / d) <= 2 * L / d * Rabs (n - m)).
  { intros. replace (_ - _) with (((F (n + d) - F (m + d)) - (F n - F m)) / d) by (field; lra).
    rewrite Rabs_div by lra. rewrite (Rabs_right d) by lra.
    replace (2 * L / d * Rabs (n - m)) with ((2 * L * Rabs (n - m)) / d) by (field; lra).
    apply Rmult_le_compat_r. left; apply Rinv_0_lt_compat; lra.
    unfold Rminus at 1. eapply Rle_trans. apply Rabs_triang. rewrite Rabs_Ropp.
    pose proof (H m n). pose proof (H (m + d) (n + d)). replace (n + d - (m + d)) with (n - m) in H1 by ring. lra. }
  split; intros.
  - pose proof (avg_near L F d m H ltac:(lra)). specialize (H 0 m).
    assert (Rabs (m - 0) <= 1) by (apply Rabs_le; lra).
    assert (L * Rabs (m - 0) <= L * 1) by (apply Rmult_le_compat_l; auto). assert (L * d <= L * 1) by (apply Rmult_le_compat_l; lra).
    replace (avg F d m) with ((avg F d m - F m) + ((F m - F 0) + F 0)) by ring.
    eapply Rle_trans. apply Rabs_triang. eapply Rle_trans. apply Rplus_le_compat_l, Rabs_triang. unfold K. lra.
  - eapply Rle_trans. apply B1. unfold K. lra.
  - eapply Rle_trans. apply (mvt_lip (avg F d) (fun m => (F (m + d) - F m) / d) L). intros; eapply avg_derive; eauto; lra. intros; apply B1.
    apply Rmult_le_compat_r. apply Rabs_pos. unfold K; lra.
  - eapply Rle_trans. apply L1. apply Rmult_le_compat_r. apply Rabs_pos. unfold K; lra.
  - eapply Rle_trans. apply (taylor_quad (avg F d) (fun m => (F (m + d) - F m) / d) (2 * L / d)); auto. intros; eapply avg_derive; eauto; lra.
    apply Rmult_le_compat_r. apply pow2_ge_0. unfold K; lra.
Qed.

Lemma lip_lonint_ex : forall L F th lon0 lat a b, lip L F -> ex_RInt (fun lon => F (law_cos th lon0 lat lon)) a b.
Proof.
  intros. pose proof (lip_pos _ _ H). apply lip_ex_RInt with (L * 6). intros.
  eapply Rle_trans. apply H. rewrite Rmult_assoc. apply Rmult_le_compat_l; auto. apply (proj2 (proj1 (tame_mu_lon th lon0 lat))).
Qed.
Lemma lip_lonint_lip : forall L F th lon0, lip L F -> lip ((2 * PI - 0) * (L * 6)) (lonint F th lon0).
Proof.
  intros L F th lon0 H x y. pose proof (lip_pos _ _ H). apply (lip_param (fun lat lon => F (law_cos th lon0 lat lon))).
  apply twopi_pos. 2-3: eapply lip_lonint_ex; eauto.
  intros t Ht. eapply Rle_trans. apply H. rewrite Rmult_assoc. apply Rmult_le_compat_l; auto. apply (proj2 (proj1 (tame_mu_lat th lon0 t))).
Qed.
Lemma lip_coslonint_ex : forall L F th lon0 a b, lip L F -> ex_RInt (fun lat => cos lat * lonint F th lon0 lat) a b.
Proof.
  intros. apply (@ex_RInt_continuous R_CompleteNormedModule). intros.
  apply (@continuous_mult R_UniformSpace R_AbsRing cos (lonint F th lon0)). apply continuous_cos.
  eapply lip_continuous. apply (lip_lonint_lip L); auto.
Qed.
Lemma RInt_close : forall f g a b e, a <= b -> ex_RInt f a b -> ex_RInt g a b -> (forall t, a <= t <= b -> Rabs (f t - g t) <= e) ->
  Rabs (RInt f a b - RInt g a b) <= (b - a) * e.
Proof.
  intros. replace (RInt f a b - RInt g a b) with (RInt (fun t => f t - g t) a b).
  apply abs_RInt_le_const; auto. apply (@ex_RInt_minus R_NormedModule); auto.
  rewrite (@RInt_minus R_CompleteNormedModule f g) by auto. reflexivity.
Qed.
Lemma avg_lip : forall L F d, lip L F -> 0 < d <= 1 -> lip L (avg F d).
Proof.
  intros L F d H Hd x y. apply (mvt_lip (avg F d) (fun m => (F (m + d) - F m) / d) L). intros; eapply avg_derive; eauto; lra.
  intros m _. rewrite Rabs_div by lra. rewrite (Rabs_right d) by lra. apply (Rmult_le_reg_r d); [lra|].
  unfold Rdiv. rewrite Rmult_assoc, Rinv_l, Rmult_1_r by lra. specialize (H m (m + d)). replace (m + d - m) with d in H by ring.
  rewrite (Rabs_right d) in H by lra. auto.
Qed.
Lemma sphint_lip : forall L F th lon0, lip L F -> sphint F th lon0 = 2 * PI * RInt F (-1) 1.
Proof.
  intros L F th lon0 H. pose proof (lip_pos _ _ H) as HL. pose proof PI_RGT_0 as PP.
  assert (Q : forall d, 0 < d <= 1 -> Rabs (sphint F th lon0 - 2 * PI * RInt F (-1) 1) <= (PI * (2 * PI * L) + 2 * PI * (2 * L)) * d).
  { intros d Hd. pose proof (avg_lip L F d H Hd) as LA.
    pose proof (sphint_smooth _ _ _ th lon0 (avg_smooth L F d H Hd) (fun m _ => lip_continuous L _ m LA)) as E.
    replace (sphint F th lon0 - 2 * PI * RInt F (-1) 1) with
      ((sphint F th lon0 - sphint (avg F d) th lon0) + 2 * PI * (RInt (avg F d) (-1) 1 - RInt F (-1) 1)) by (rewrite E; ring).
    eapply Rle_trans. apply Rabs_triang. rewrite Rmult_plus_distr_r. apply Rplus_le_compat.
    - unfold sphint. eapply Rle_trans. apply (RInt_close _ _ _ _ (2 * PI * (L * d))). apply mpi2_le.
      eapply lip_coslonint_ex; eauto. eapply lip_coslonint_ex; eauto. 2: right; field.
      intros lat _. rewrite <- Rmult_minus_distr_l, Rabs_mult. rewrite <- (Rmult_1_l (2 * PI * (L * d))).
      apply Rmult_le_compat; auto using Rabs_pos. apply rabs_cos. unfold lonint.
      replace (2 * PI * (L * d)) with ((2 * PI - 0) * (L * d)) by ring.
      apply RInt_close. apply twopi_pos. eapply lip_lonint_ex; eauto. eapply lip_lonint_ex; eauto.
      intros lon _. rewrite Rabs_minus_sym. apply avg_near; auto; lra.
    - rewrite Rabs_mult, (Rabs_right (2 * PI)) by lra.
      replace (2 * PI * (2 * L) * d) with (2 * PI * ((1 - -1) * (L * d))) by ring. apply Rmult_le_compat_l. lra.
      apply RInt_close. lra. eapply lip_ex_RInt; eauto. eapply lip_ex_RInt; eauto. intros. apply avg_near; auto; lra. }
  set (X := sphint F th lon0 - 2 * PI * RInt F (-1) 1) in *. set (c := PI * (2 * PI * L) + 2 * PI * (2 * L)) in *.
  assert (Hc : 0 <= c). { unfold c. assert (0 <= PI * L) by (apply Rmult_le_pos; lra). nra. }
  assert (X0 : Rabs X <= 0).
  { destruct (Rle_dec (Rabs X) 0); auto. exfalso. assert (0 < Rabs X) by lra.
    pose proof (Q (Rmin 1 (Rabs X / (2 * (c + 1))))) as Q'.
    assert (0 < Rabs X / (2 * (c + 1))) by (apply Rdiv_lt_0_compat; lra).
    assert (Rmin 1 (Rabs X / (2 * (c + 1))) <= Rabs X / (2 * (c + 1))) by apply Rmin_r.
    specialize (Q' (conj (Rmin_pos 1 _ Rlt_0_1 H1) (Rmin_l _ _))).
    assert (c * Rmin 1 (Rabs X / (2 * (c + 1))) <= (c + 1) * (Rabs X / (2 * (c + 1)))).
    { apply Rmult_le_compat; try lra. apply Rlt_le, Rmin_pos; lra. }
    replace ((c + 1) * (Rabs X / (2 * (c + 1)))) with (Rabs X / 2) in H3 by (field; lra). lra. }
  assert (X = 0). { destruct (Req_dec X 0); auto. pose proof (Rabs_pos_lt X H0). lra. }
  unfold X in H0. lra.
Qed.
