(** The Gaussian integral and its trapezoid sum on [-3,3]; used for the transit mask (C70) *)
From Coq Require Import Reals ZArith Bool List Lra Lia Machin.
From Coquelicot Require Import Coquelicot.
From Verif Require Import Num Py MConfig MHelpers MGrid MSpots Spec SpecStar SpecFlare LBase LGrid LHelpers LCirc LSpotMap LSpotCov LQuad.
Import ListNotations.
Open Scope R_scope.

Definition gs (u : R) : R := exp (- (u^2 / 2)).
Lemma gs_pos : forall u, 0 < gs u.
Proof. intros. apply exp_pos. Qed.
Lemma gs_der : forall u, is_derive gs u (- u * gs u).
Proof. intros. unfold gs. auto_derive. auto. field_simplify. f_equal. Qed.
Lemma gs_cont : forall u, continuous gs u.
Proof. intros. apply (ex_derive_continuous (V := R_NormedModule)). eexists. apply gs_der. Qed.
Lemma ex_RInt_gs : forall a b, ex_RInt gs a b.
Proof. intros. apply (ex_RInt_continuous (V := R_CompleteNormedModule)). intros; apply gs_cont. Qed.
Definition gint (a : R) : R := RInt gs 0 a.
Lemma gint_der : forall a, is_derive gint a (gs a).
Proof.
  intros. apply (is_derive_RInt gs gint 0 a).
  - exists (mkposreal 1 Rlt_0_1). intros y _. unfold gint. apply (@RInt_correct R_CompleteNormedModule). apply ex_RInt_gs.
  - apply gs_cont.
Qed.
Definition gj (a t : R) : R := 2 * exp (- (a^2 * (1 + t^2) / 2)) / (1 + t^2).
Lemma onep : forall t, 0 < 1 + t^2.
Proof. intros. pose proof (pow2_ge_0 t). lra. Qed.
Lemma gj_der : forall a t, is_derive (fun a => gj a t) a (- 2 * a * exp (- (a^2 * (1 + t^2) / 2))).
Proof.
  intros. unfold gj. auto_derive. pose proof (onep t). simpl in *; lra. set (E := exp (- (a ^ 2 * (1 + t ^ 2) / 2))).
  match goal with |- context [exp ?z] => replace (exp z) with E by (unfold E; f_equal; field) end.
  pose proof (onep t). field. simpl in *; lra.
Qed.
Lemma ex_RInt_gj : forall a, ex_RInt (gj a) 0 1.
Proof.
  intros. apply (ex_RInt_continuous (V := R_CompleteNormedModule)). intros t _.
  apply (ex_derive_continuous (V := R_NormedModule)). unfold gj. auto_derive. pose proof (onep t). simpl in *. lra.
Qed.
Definition jint (a : R) : R := RInt (gj a) 0 1.
Lemma jint_der : forall a, is_derive jint a (- 2 * gs a * gint a).
Proof.
  intros a. unfold jint.
  assert (E : RInt (fun t => Derive (fun u => gj u t) a) 0 1 = - 2 * gs a * gint a).
  { apply is_RInt_unique.
    apply (is_RInt_ext (fun t => scal (- 2 * gs a) (scal a (gs (a * t + 0))))).
    { intros t _. transitivity (- 2 * a * exp (- (a ^ 2 * (1 + t ^ 2) / 2))).
      2:{ symmetry. apply is_derive_unique, gj_der. } unfold gs.
      change (- 2 * exp (- (a ^ 2 / 2)) * (a * exp (- ((a * t + 0) ^ 2 / 2))) = - 2 * a * exp (- (a ^ 2 * (1 + t ^ 2) / 2))).
      replace (- (a ^ 2 * (1 + t ^ 2) / 2)) with (- (a^2/2) + - ((a * t + 0)^2 / 2)) by field. rewrite exp_plus. ring. }
    apply (@is_RInt_scal R_NormedModule). apply (is_RInt_comp_lin gs a 0 0 1 (gint a)).
    assert (Z1 : a * 1 + 0 = a) by ring. assert (Z0 : a * 0 + 0 = 0) by ring. rewrite Z0, Z1.
    apply (@RInt_correct R_CompleteNormedModule). apply ex_RInt_gs. }
  rewrite <- E. apply is_derive_RInt_param.
  - exists (mkposreal 1 Rlt_0_1). intros y _ t _. eexists. apply gj_der.
  - intros t _. apply (continuity_2d_pt_ext (fun u v => - 2 * u * exp (- (u^2 * (1 + v^2) / 2)))).
    { intros u v. symmetry. apply is_derive_unique, gj_der. }
    apply continuity_2d_pt_mult. apply continuity_2d_pt_mult. apply continuity_2d_pt_const. apply continuity_2d_pt_id1.
    apply continuity_1d_2d_pt_comp. apply derivable_continuous_pt, derivable_pt_exp.
    apply continuity_2d_pt_opp. apply continuity_2d_pt_mult. 2:apply continuity_2d_pt_const.
    assert (Sq1 : continuity_2d_pt (fun u v => u^2) a t).
    { apply (continuity_2d_pt_ext (fun u v => u * u)). intros; ring. apply continuity_2d_pt_mult; apply continuity_2d_pt_id1. }
    assert (Sq2 : continuity_2d_pt (fun u v => v^2) a t).
    { apply (continuity_2d_pt_ext (fun u v => v * v)). intros; ring. apply continuity_2d_pt_mult; apply continuity_2d_pt_id2. }
    apply continuity_2d_pt_mult; auto. apply continuity_2d_pt_plus; auto. apply continuity_2d_pt_const.
  - exists (mkposreal 1 Rlt_0_1). intros y _. apply ex_RInt_gj.
Qed.
Lemma jint_0 : jint 0 = PI / 2.
Proof.
  unfold jint. assert (I : is_RInt (gj 0) 0 1 (2 * atan 1 - 2 * atan 0)).
  { apply (is_RInt_ext (fun t => 2 / (1 + t^2))).
    { intros t _. unfold gj. replace (- (0 ^ 2 * (1 + t ^ 2) / 2)) with 0 by field. rewrite exp_0. req. field. pose proof (onep t). simpl in *; lra. }
    apply (is_RInt_derive (fun t => 2 * atan t) (fun t => 2 / (1 + t^2))).
    - intros t _. auto_derive. auto. unfold Rsqr. field. pose proof (onep t). simpl in *; lra.
    - intros t _. apply (ex_derive_continuous (V := R_NormedModule)). auto_derive. pose proof (onep t). simpl in *; lra. }
  rewrite (is_RInt_unique (V := R_CompleteNormedModule) _ _ _ _ I), atan_1, atan_0. lra.
Qed.
(** the square of the integral is a quarter disc minus a remainder *)
Lemma gint_sq : forall a, 0 <= a -> gint a ^ 2 + jint a = PI / 2.
Proof.
  intros a Ha. pose (F := fun a => gint a ^ 2 + jint a).
  assert (D : forall x, is_derive F x 0).
  { intros x. unfold F. replace 0 with (plus (INR 2 * gs x * gint x ^ 1) (- 2 * gs x * gint x)) by (cbn -[gs gint]; unfold plus; cbn -[gs gint]; ring).
    apply (@is_derive_plus _ R_NormedModule). apply (is_derive_pow gint 2 x (gs x)). apply gint_der. apply jint_der. }
  assert (E : F a = F 0).
  { destruct (MVT_gen F 0 a (fun _ => 0)) as [c [_ Ec]].
    - intros; apply D.
    - intros x _. apply continuity_pt_filterlim. apply (ex_derive_continuous (V := R_NormedModule)). eexists. apply D.
    - lra. }
  unfold F in E. rewrite E, jint_0. unfold gint. rewrite RInt_point. change (@zero R_CompleteNormedModule) with 0. ring.
Qed.
Lemma jint_3 : 24/10000 <= jint 3.
Proof.
  unfold jint. assert (A : 1 / 135 * (1/3) <= RInt (gj 3) 0 (1/3)).
  { replace (1/135 * (1/3)) with ((1/3 - 0) * (1/135)) by lra.
    apply (RInt_between (gj 3) 0 (1/3) (1/135) 2). lra.
    apply (ex_RInt_Chasles_1 (gj 3) 0 (1/3) 1). lra. apply ex_RInt_gj.
    intros t Ht. unfold gj. pose proof (onep t).
    assert (t^2 <= 1/9). { replace (1/9) with ((1/3)^2) by lra. apply pow_incr. lra. }
    assert (L : exp (-5) <= exp (- (3^2 * (1 + t^2) / 2))).
    { destruct (Req_dec (-5) (- (3 ^ 2 * (1 + t ^ 2) / 2))) as [E|E]. rewrite <- E; lra. left. apply exp_increasing. lra. }
    assert (U : exp (- (3^2 * (1 + t^2) / 2)) <= 1).
    { apply Rle_trans with (exp 0); [|rewrite exp_0; lra]. left. apply exp_increasing. lra. }
    assert (E5 : 1/243 <= exp (-5)).
    { replace (-5) with (- (1 + 1 + 1 + 1 + 1)) by lra. rewrite exp_Ropp, !exp_plus. pose proof exp_le_3. pose proof (exp_pos 1).
      unfold Rdiv. rewrite Rmult_1_l. apply Rinv_le_contravar. repeat apply Rmult_lt_0_compat; auto.
      replace 243 with (3 * 3 * 3 * 3 * 3) by lra. repeat (apply Rmult_le_compat; try lra; try (repeat apply Rmult_le_pos; lra)). }
    set (e := exp (- (3^2 * (1 + t^2) / 2))) in *.
    assert (I1 : / (1 + t^2) <= 1). { pose proof (pow2_ge_0 t). apply Rle_trans with (/ 1); [apply Rinv_le_contravar; lra|rewrite Rinv_1; lra]. }
    assert (I2 : 9/10 <= / (1 + t^2)). { replace (9/10) with (/ (10/9)) by field. apply Rinv_le_contravar; lra. }
    unfold Rdiv. split; nra. }
  assert (B : 0 <= RInt (gj 3) (1/3) 1).
  { apply RInt_ge_0. lra. apply (ex_RInt_Chasles_2 (gj 3) 0 (1/3) 1). lra. apply ex_RInt_gj.
    intros t _. unfold gj. apply Rlt_le, Rdiv_lt_0_compat. pose proof (exp_pos (- (3 ^ 2 * (1 + t ^ 2) / 2))). lra. apply onep. }
  rewrite <- (RInt_Chasles (gj 3) 0 (1/3) 1).
  - change (plus (RInt (gj 3) 0 (1/3)) (RInt (gj 3) (1/3) 1)) with (RInt (gj 3) 0 (1/3) + RInt (gj 3) (1/3) 1). lra.
  - apply (ex_RInt_Chasles_1 (gj 3) 0 (1/3) 1). lra. apply ex_RInt_gj.
  - apply (ex_RInt_Chasles_2 (gj 3) 0 (1/3) 1). lra. apply ex_RInt_gj.
Qed.
Lemma PI_upper : PI <= 324/100.
Proof. destruct (PI_2_3_7_ineq 0) as [_ H]. cbn in H. unfold tg_alt, PI_2_3_7_tg, Ratan_seq in H. cbn in H. lra. Qed.
(** trapezoid rule from above, by the second derivative *)
Lemma incr_le : forall f df a b, a <= b -> (forall x, a <= x <= b -> is_derive f x (df x)) ->
  (forall x, a <= x <= b -> 0 <= df x) -> f a <= f b.
Proof.
  intros f df a b Hab Hd Hp. destruct (MVT_gen f a b df) as [c [Hc Ec]].
  - rewrite Rmin_left, Rmax_right by auto. intros; apply Hd; lra.
  - rewrite Rmin_left, Rmax_right by auto. intros x Hx. apply continuity_pt_filterlim. apply (ex_derive_continuous (V := R_NormedModule)).
    eexists. apply Hd; auto.
  - rewrite Rmin_left, Rmax_right in Hc by auto. specialize (Hp c Hc). nra.
Qed.
Lemma gs_der2 : forall u, is_derive (fun u => - u * gs u) u ((u^2 - 1) * gs u).
Proof.
  intros. replace ((u^2 - 1) * gs u) with (plus (- 1 * gs u) (- u * (- u * gs u))) by (unfold plus; cbn -[gs]; ring).
  apply (is_derive_mult (fun u => - u) gs u (-1) (- u * gs u)).
  - auto_derive; auto; try (req; ring).
  - apply gs_der.
  - intros; apply Rmult_comm.
Qed.
Lemma gs_d2_le : forall u, (u^2 - 1) * gs u <= 1.
Proof.
  intros. unfold gs. rewrite exp_Ropp. pose proof (exp_pos (u^2/2)).
  assert (u^2 - 1 <= exp (u^2/2)).
  { replace (u^2/2) with (u^2/4 + u^2/4) by lra. rewrite exp_plus. pose proof (pow2_ge_0 u).
    assert (1 + u^2/4 <= exp (u^2/4)) by apply exp_ineq1_le.
    apply Rle_trans with ((1 + u^2/4) * (1 + u^2/4)).
    - set (x := u^2) in *. pose proof (pow2_ge_0 (x - 4)). nra.
    - apply Rmult_le_compat; lra. }
  apply Rmult_le_reg_r with (exp (u^2/2)); auto. rewrite Rmult_assoc, Rinv_l by lra. lra.
Qed.
Lemma cell_gs : forall a t, 0 <= t -> trap1 gs a (a + t) - RInt gs a (a + t) <= t^3 / 12.
Proof.
  intros a t Ht.
  set (p := fun t => t^3 / 12 - (t * (gs a + gs (a + t)) / 2 - (gint (a + t) - gint a))).
  set (p1 := fun t => t^2 / 4 - ((gs a - gs (a + t)) / 2 + t / 2 * (- (a + t) * gs (a + t)))).
  set (p2 := fun t => t / 2 - t / 2 * (((a + t)^2 - 1) * gs (a + t))).
  assert (Dg : forall x, is_derive (fun t => gs (a + t)) x (- (a + x) * gs (a + x))).
  { intros x. replace (- (a + x) * gs (a + x)) with (scal 1 (- (a + x) * gs (a + x))) by (unfold scal; cbn -[gs]; unfold mult; cbn -[gs]; ring).
    apply (is_derive_comp gs (fun t => a + t) x). apply gs_der. auto_derive; auto. }
  assert (Dg1 : forall x, is_derive (fun t => - (a + t) * gs (a + t)) x (((a + x)^2 - 1) * gs (a + x))).
  { intros x. replace (((a + x)^2 - 1) * gs (a + x)) with (scal 1 (((a + x)^2 - 1) * gs (a + x))) by (unfold scal; cbn -[gs]; unfold mult; cbn -[gs]; ring).
    apply (is_derive_comp (fun u => - u * gs u) (fun t => a + t) x). apply gs_der2. auto_derive; auto. }
  assert (Di : forall x, is_derive (fun t => gint (a + t)) x (gs (a + x))).
  { intros x. replace (gs (a + x)) with (scal 1 (gs (a + x))) by (unfold scal; cbn -[gs]; unfold mult; cbn -[gs]; ring).
    apply (is_derive_comp gint (fun t => a + t) x). apply gint_der. auto_derive; auto. }
  assert (D1 : forall x, is_derive p x (p1 x)).
  { intros x. unfold p, p1. auto_derive.
    - split. eexists; apply gs_der. split; auto. eexists; apply gint_der.
    - replace (Derive (fun x0 : R => gs x0) (a + x)) with (- (a + x) * gs (a + x)) by (symmetry; apply is_derive_unique, gs_der).
      replace (Derive (fun x0 : R => gint x0) (a + x)) with (gs (a + x)) by (symmetry; apply is_derive_unique, gint_der). req; field. }
  assert (D2 : forall x, is_derive p1 x (p2 x)).
  { intros x. unfold p1, p2.
    apply (is_derive_ext (fun t => t^2/4 - ((gs a - gs (a + t)) / 2 + t / 2 * (fun t => - (a + t) * gs (a + t)) t))). { intros; reflexivity. }
    cbv beta. auto_derive.
    - repeat split; eexists; apply gs_der.
    - replace (Derive (fun x0 : R => gs x0) (a + x)) with (- (a + x) * gs (a + x)) by (symmetry; apply is_derive_unique, gs_der). req; field. }
  assert (P1 : forall x, 0 <= x -> 0 <= p1 x).
  { intros x Hx. assert (p1 0 = 0) by (unfold p1; rewrite Rplus_0_r; field). rewrite <- H.
    apply (incr_le p1 p2); auto. intros y Hy. unfold p2. pose proof (gs_d2_le (a + y)). nra. }
  assert (P0 : 0 <= p t).
  { assert (p 0 = 0) by (unfold p; rewrite Rplus_0_r; field). rewrite <- H.
    apply (incr_le p p1); auto. intros y Hy. apply P1; lra. }
  unfold p in P0. unfold trap1. replace (a + t - a) with t by ring.
  assert (RInt gs a (a + t) = gint (a + t) - gint a); [|lra].
  unfold gint. rewrite <- (RInt_Chasles gs 0 a (a + t)) by apply ex_RInt_gs.
  change (plus (RInt gs 0 a) (RInt gs a (a + t))) with (RInt gs 0 a + RInt gs a (a + t)).
  assert (X : forall u v : R, v = u + v - u) by (intros; ring). apply X.
Qed.
Lemma trapn_le : forall f x n (B : R), (forall a b, ex_RInt f a b) ->
  (forall i, (i < n)%nat -> trap1 f (x i) (x (S i)) - RInt f (x i) (x (S i)) <= B) ->
  trapn f x n - RInt f (x 0%nat) (x n) <= INR n * B.
Proof.
  induction n; intros B E H.
  - cbn [trapn]. rewrite RInt_point. change (@zero R_CompleteNormedModule) with 0. cbn. lra.
  - cbn [trapn]. rewrite <- (RInt_Chasles f (x 0%nat) (x n) (x (S n))) by auto.
    change (plus (RInt f (x 0%nat) (x n)) (RInt f (x n) (x (S n)))) with (RInt f (x 0%nat) (x n) + RInt f (x n) (x (S n))).
    specialize (IHn B E ltac:(intros; apply H; lia)). specialize (H n ltac:(lia)). rewrite S_INR. lra.
Qed.
Lemma gs_even : forall u, gs (- u) = gs u.
Proof. intros. unfold gs. replace ((-u)^2) with (u^2) by ring. auto. Qed.
Lemma gint_odd : forall a, RInt gs (- a) 0 = gint a.
Proof.
  intros. unfold gint.
  assert (I : is_RInt gs 0 a (RInt gs 0 a)) by (apply (@RInt_correct R_CompleteNormedModule), ex_RInt_gs).
  assert (I0 : is_RInt gs (- (- a)) (- 0) (RInt gs a 0)).
  { rewrite Ropp_involutive, Ropp_0. apply (@RInt_correct R_CompleteNormedModule), ex_RInt_gs. }
  apply (@is_RInt_comp_opp R_NormedModule) in I0.
  assert (I1 : is_RInt gs (- a) 0 (opp (RInt gs a 0))).
  { apply (is_RInt_ext (fun y => opp (opp (gs (- y))))). { intros. rewrite opp_opp. apply gs_even. } apply (@is_RInt_opp R_NormedModule). auto. }
  rewrite (is_RInt_unique (V := R_CompleteNormedModule) _ _ _ _ I1). rewrite <- (opp_RInt_swap gs 0 a). rewrite opp_opp. auto. apply ex_RInt_gs.
Qed.
(** the sum on [-3k, 3k] stays below the integral over the whole line *)
Lemma trap_gs_le : forall k, 0 <= k <= 1 -> trapezoid gs (linspace (-3 * k) (3 * k) 100) ^ 2 <= 2 * PI
   /\ 0 <= trapezoid gs (linspace (-3 * k) (3 * k) 100).
Proof.
  intros k Hk. set (T := trapezoid gs (linspace (-3 * k) (3 * k) 100)).
  assert (T0 : 0 <= T).
  { unfold T. rewrite <- rtrapz_trapezoid'. rewrite <- (rtrapz_0 (linspace (-3 * k) (3 * k) 100)). apply rtrapz_le.
    intros i Hi. rewrite linspace_length in Hi. apply linspace_mono; auto. lra. intros x _. left; apply gs_pos. }
  split; auto.
  assert (E : T - RInt gs (-3 * k) (3 * k) <= INR 99 * ((6 * k / 99)^3 / 12)).
  { unfold T. rewrite (linspace_node (-3 * k) (3 * k) 99), trapezoid_seq.
    assert (H : trapn gs (node (-3 * k) (3 * k) 99) 99 - RInt gs (node (-3 * k) (3 * k) 99 0) (node (-3 * k) (3 * k) 99 99)
                <= INR 99 * ((6 * k / 99)^3 / 12)).
    { apply trapn_le. apply ex_RInt_gs. intros i Hi. pose proof (node_step (-3 * k) (3 * k) 99 i) as St.
      replace (node (-3 * k) (3 * k) 99 (S i)) with (node (-3 * k) (3 * k) 99 i + 6 * k / 99).
      apply cell_gs. lra. replace (INR 99) with 99 in St by (rewrite INR_IZR_INZ; reflexivity). lra. }
    rewrite node_0, node_n in H by lia. exact H. }
  replace (INR 99) with 99 in E by (rewrite INR_IZR_INZ; reflexivity).
  assert (I : RInt gs (-3 * k) (3 * k) <= 2 * gint 3).
  { rewrite <- (RInt_Chasles gs (-3 * k) 0 (3 * k)) by apply ex_RInt_gs.
    replace (-3 * k) with (- (3 * k)) by ring. rewrite gint_odd. fold (gint (3 * k)).
    change (plus (gint (3 * k)) (gint (3 * k))) with (gint (3 * k) + gint (3 * k)).
    assert (gint (3 * k) <= gint 3); [|lra]. apply (incr_le gint gs). lra. intros; apply gint_der. intros; left; apply gs_pos. }
  assert (k3 : k^3 <= 1). { replace 1 with (1^3) by ring. apply pow_incr. lra. }
  assert (U : T <= 2 * gint 3 + 184/100000).
  { assert (99 * ((6 * k / 99)^3 / 12) <= 184/100000); [|lra]. replace (99 * ((6 * k / 99)^3 / 12)) with (k^3 * (18 / 9801)) by field. lra. }
  pose proof (gint_sq 3 ltac:(lra)) as Q. pose proof jint_3. pose proof PI_upper.
  assert (G0 : 0 <= gint 3). { apply RInt_ge_0. lra. apply ex_RInt_gs. intros; left; apply gs_pos. }
  assert (G1 : gint 3 <= 1273/1000). { apply Rnot_lt_le. intros L. assert ((1273/1000)^2 < gint 3 ^ 2); [|lra]. apply Rlt_le_trans with ((1273/1000) * gint 3); nra. }
  assert (T^2 <= (2 * gint 3 + 184/100000)^2) by (apply pow_incr; lra). nra.
Qed.
