(** The part of a circle, and of a disk, behind a disc whose centre is at a given distance. *)
From Coq Require Import Reals ZArith Bool List Lra Lia.
From Coquelicot Require Import Coquelicot.
From Verif Require Import Num Py MConfig MHelpers Spec LBase LGrid LHelpers LCirc LQuad LSphere LZonal LCap.
Import ListNotations.
Open Scope R_scope.

Lemma acos_le_m1 : forall x, x <= -1 -> acos x = PI.
Proof. intros. rewrite <- (Ropp_involutive x), acos_opp, acos_ge_1; lra. Qed.
Lemma acos_antitone : forall x y, x <= y -> acos y <= acos x.
Proof.
  intros x y H. pose proof (acos_bound x). pose proof (acos_bound y).
  destruct (Rle_dec 1 y). rewrite (acos_ge_1 y) by auto. lra.
  destruct (Rle_dec x (-1)). rewrite (acos_le_m1 x) by auto. lra.
  destruct (Req_dec x y) as [->|N]. lra. apply cos_decr_0; try lra. rewrite !cos_acos by lra. lra.
Qed.
Lemma below_acos : forall q t, 0 <= t -> t < acos q -> q <= cos t.
Proof.
  intros q t H0 H. pose proof (acos_bound q). pose proof (COS_bound t). destruct (Rle_dec q (-1)). lra.
  destruct (Rle_dec 1 q). rewrite acos_ge_1 in H by auto. lra.
  rewrite <- (cos_acos q) by lra. apply Rlt_le. apply cos_decreasing_1; lra.
Qed.
Lemma above_acos : forall q t, t <= PI -> acos q < t -> cos t <= q.
Proof.
  intros q t H0 H. pose proof (acos_bound q). pose proof (COS_bound t). destruct (Rle_dec 1 q). lra.
  destruct (Rle_dec q (-1)). rewrite acos_le_m1 in H by auto. lra.
  rewrite <- (cos_acos q) by lra. apply Rlt_le. apply cos_decreasing_1; lra.
Qed.
(** ** Circular segments outside the interval *)
Lemma sqrt_out : forall x, x <= -1 \/ 1 <= x -> sqrt (1 - x ^ 2) = 0.
Proof. intros. apply sqrt_neg_0. destruct H; nra. Qed.
Lemma gseg_ge_1 : forall x, 1 <= x -> gseg x = 0.
Proof. intros. unfold gseg. rewrite sqrt_out by auto. rewrite acos_ge_1 by auto. ring. Qed.
Lemma gseg_le_m1 : forall x, x <= -1 -> gseg x = PI.
Proof. intros. unfold gseg. rewrite sqrt_out by auto. rewrite acos_le_m1 by auto. ring. Qed.
Lemma gseg_range : forall x, 0 <= gseg x <= PI.
Proof.
  intros. pose proof PI_RGT_0. destruct (Rle_dec 1 x). rewrite gseg_ge_1 by auto; lra. destruct (Rle_dec x (-1)). rewrite gseg_le_m1 by auto; lra.
  pose proof (is_RInt_unique _ _ _ _ (is_RInt_halfdisc (-1) x ltac:(lra) ltac:(lra))) as E1.
  pose proof (is_RInt_unique _ _ _ _ (is_RInt_halfdisc x 1 ltac:(lra) ltac:(lra))) as E2.
  assert (P : forall a b, -1 <= a -> a <= b -> b <= 1 -> 0 <= RInt (fun x => 2 * sqrt (1 - x^2)) a b).
  { intros. apply RInt_ge_0; auto. eexists. apply is_RInt_halfdisc; lra. intros. pose proof (sqrt_pos (1 - x0 ^ 2)). lra. }
  pose proof (P (-1) x ltac:(lra) ltac:(lra) ltac:(lra)) as P1. pose proof (P x 1 ltac:(lra) ltac:(lra) ltac:(lra)) as P2.
  rewrite E1 in P1. rewrite E2 in P2. rewrite gseg_m1 in P1. rewrite gseg_1 in P2. lra.
Qed.
Lemma is_derive_gseg' : forall x, x <> -1 -> x <> 1 -> is_derive gseg x (- 2 * sqrt (1 - x ^ 2)).
Proof.
  intros. destruct (Rlt_dec 1 x).
  - rewrite sqrt_out by lra. apply (is_derive_ext_loc (fun _ => 0)). assert (P : 0 < x - 1) by lra. exists (mkposreal _ P). intros y Hy.
    unfold ball in Hy; simpl in Hy. unfold AbsRing_ball, abs, minus, plus, opp in Hy; simpl in Hy. apply Rabs_def2 in Hy. symmetry. apply gseg_ge_1. lra.
    rewrite Rmult_0_r. apply (@is_derive_const R_AbsRing R_NormedModule 0 x).
  - destruct (Rlt_dec x (-1)).
    + rewrite sqrt_out by lra. apply (is_derive_ext_loc (fun _ => PI)). assert (P : 0 < -1 - x) by lra. exists (mkposreal _ P). intros y Hy.
      unfold ball in Hy; simpl in Hy. unfold AbsRing_ball, abs, minus, plus, opp in Hy; simpl in Hy. apply Rabs_def2 in Hy. symmetry. apply gseg_le_m1. lra.
      rewrite Rmult_0_r. apply (@is_derive_const R_AbsRing R_NormedModule PI x).
    + apply is_derive_gseg. lra.
Qed.
(** ** Area common to the discs of radii [r] and [q], centres at distance [c] *)
Definition xq (q c r : R) : R := (r ^ 2 + c ^ 2 - q ^ 2) / (2 * r * c).
Definition larea (q c r : R) : R := r ^ 2 * gseg (xq q c r) + q ^ 2 * gseg (xq r c q).
Definition larc (q c r : R) : R := 2 * r * acos (xq q c r).
Ltac nz := repeat split; auto; repeat (apply Rmult_integral_contrapositive_currified); lra.
Lemma larea_sym : forall q c r, larea q c r = larea r c q.
Proof. intros. unfold larea. ring. Qed.
Lemma chord_eq : forall q c r, 0 < q -> 0 < c -> 0 < r -> r * sqrt (1 - xq q c r ^ 2) = q * sqrt (1 - xq r c q ^ 2).
Proof.
  intros q c r Q C P. rewrite <- (sqrt_pow2 r) at 1 by lra. rewrite <- (sqrt_pow2 q) at 2 by lra. rewrite <- !sqrt_mult_alt by apply pow2_ge_0.
  f_equal. unfold xq. field. lra.
Qed.
Lemma is_derive_larea : forall q c r, 0 < q -> 0 < c -> 0 < r -> r <> Rabs (q - c) -> r <> q + c -> is_derive (larea q c) r (larc q c r).
Proof.
  intros q c r Q C P N1 N2.
  assert (N3 : r <> q - c /\ r <> c - q). { split; intros E; apply N1; unfold Rabs; destruct (Rcase_abs (q - c)); lra. } destruct N3 as [N3 N4].
  assert (F1 : (r - c - q) * (r - c + q) <> 0) by (apply Rmult_integral_contrapositive_currified; lra).
  assert (F2 : (r + c - q) * (r + c + q) <> 0) by (apply Rmult_integral_contrapositive_currified; lra).
  assert (D1 : xq q c r <> -1). { unfold xq. intros E. apply (f_equal (fun z => z * (2 * r * c))) in E. replace ((r ^ 2 + c ^ 2 - q ^ 2) / (2 * r * c) * (2 * r * c)) with (r ^ 2 + c ^ 2 - q ^ 2) in E by (field; lra). apply F2. nra. }
  assert (D2 : xq q c r <> 1). { unfold xq. intros E. apply (f_equal (fun z => z * (2 * r * c))) in E. replace ((r ^ 2 + c ^ 2 - q ^ 2) / (2 * r * c) * (2 * r * c)) with (r ^ 2 + c ^ 2 - q ^ 2) in E by (field; lra). apply F1. nra. }
  assert (D3 : xq r c q <> -1). { unfold xq. intros E. apply (f_equal (fun z => z * (2 * q * c))) in E. replace ((q ^ 2 + c ^ 2 - r ^ 2) / (2 * q * c) * (2 * q * c)) with (q ^ 2 + c ^ 2 - r ^ 2) in E by (field; lra).
    assert ((q + c - r) * (q + c + r) = 0) by nra. apply Rmult_integral in H. lra. }
  assert (D4 : xq r c q <> 1). { unfold xq. intros E. apply (f_equal (fun z => z * (2 * q * c))) in E. replace ((q ^ 2 + c ^ 2 - r ^ 2) / (2 * q * c) * (2 * q * c)) with (q ^ 2 + c ^ 2 - r ^ 2) in E by (field; lra).
    assert ((q - c - r) * (q - c + r) = 0) by nra. apply Rmult_integral in H. lra. }
  evar_last. unfold larea.
  apply (is_derive_plus (fun r => r ^ 2 * gseg (xq q c r)) (fun r => q ^ 2 * gseg (xq r c q))).
  - apply (is_derive_mult (fun r => r ^ 2) (fun r => gseg (xq q c r))). auto_derive. auto. reflexivity.
    apply (is_derive_comp gseg (xq q c)). apply is_derive_gseg'; auto. unfold xq. auto_derive. nz. reflexivity. intros; apply Rmult_comm.
  - apply (is_derive_scal (fun r => gseg (xq r c q)) r (q ^ 2)).
    apply (is_derive_comp gseg (fun r => xq r c q)). apply is_derive_gseg'; auto. unfold xq. auto_derive. nz. reflexivity.
  - unfold plus, scal, mult; simpl; unfold mult; simpl. 
    pose proof (chord_eq q c r Q C P) as CE. simpl in CE. set (s1 := sqrt (1 - xq q c r * (xq q c r * 1))) in *. set (s2 := sqrt (1 - xq r c q * (xq r c q * 1))) in *.
    unfold larc, gseg. simpl. fold s1.
    assert (E2 : s2 = r * s1 / q) by (rewrite CE; field; lra). rewrite E2. set (A := acos (xq q c r)). unfold xq. simpl. field. lra.
Qed.
Lemma xq_small : forall q c, 0 < q -> 0 < c -> 1 <= xq 0 c q.
Proof.
  intros. unfold xq. apply le_div. apply Rmult_lt_0_compat; lra. pose proof (pow2_ge_0 (q - c)). nra.
Qed.
Lemma sq_bounded_cont : forall k g M, (k = 1 \/ k = 2)%nat -> (forall x, Rabs (g x) <= M) -> continuous (fun r => r ^ k * g r) 0.
Proof.
  intros k g M K H. assert (HM : 0 <= M) by (pose proof (H 0); pose proof (Rabs_pos (g 0)); lra).
  apply continuity_pt_filterlim. intros eps He. exists (Rmin 1 (eps / (M + 1))). split.
  apply Rmin_glb_lt. lra. apply Rdiv_lt_0_compat; lra. intros y [_ Hy]. simpl in *. unfold R_dist in *.
  assert (Z : 0 ^ k = 0) by (destruct K as [->| ->]; ring). rewrite Z, Rmult_0_l. rewrite Rminus_0_r in *.
  pose proof (Rmin_l 1 (eps / (M + 1))). pose proof (Rmin_r 1 (eps / (M + 1))). pose proof (Rabs_pos y). pose proof (Rabs_pos (g y)).
  assert (Hk : Rabs (y ^ k) <= Rabs y). { rewrite <- RPow_abs. destruct K as [->| ->]; simpl; nra. }
  rewrite Rabs_mult. apply Rle_lt_trans with (Rabs y * M). apply Rmult_le_compat; auto using Rabs_pos.
  apply Rle_lt_trans with (Rabs y * (M + 1)). nra.
  apply Rlt_le_trans with (eps / (M + 1) * (M + 1)). apply Rmult_lt_compat_r; lra. right; field; lra.
Qed.
Lemma xq_cont : forall q c r, 0 < c -> 0 < r -> continuous (xq q c) r.
Proof. intros. apply (@ex_derive_continuous R_AbsRing R_NormedModule). unfold xq. auto_derive. nz. Qed.
Lemma larc_cont : forall q c r, 0 < c -> 0 <= r -> continuous (larc q c) r.
Proof.
  intros q c r C P. destruct P as [P|<-].
  - unfold larc. apply (continuous_mult (fun r => 2 * r) (fun r => acos (xq q c r))).
    apply (@ex_derive_continuous R_AbsRing R_NormedModule). auto_derive; auto.
    apply (continuous_comp (xq q c) acos). apply xq_cont; auto. apply continuous_acos.
  - apply (continuous_ext (fun r => r ^ 1 * (2 * acos (xq q c r)))). intros; unfold larc; req; simpl; ring.
    apply (sq_bounded_cont 1 (fun r => 2 * acos (xq q c r)) (2 * PI)). auto. intros. pose proof (acos_bound (xq q c x)). rewrite Rabs_right; lra.
Qed.
Lemma larea_cont : forall q c r, 0 < q -> 0 < c -> 0 <= r -> continuous (larea q c) r.
Proof.
  intros q c r Q C P. unfold larea.
  apply (continuous_plus (fun r => r ^ 2 * gseg (xq q c r)) (fun r => q ^ 2 * gseg (xq r c q))).
  - destruct P as [P|<-].
    + apply (continuous_mult (fun r => r ^ 2) (fun r => gseg (xq q c r))). apply (@ex_derive_continuous R_AbsRing R_NormedModule). auto_derive; auto.
      apply (continuous_comp (xq q c) gseg). apply xq_cont; auto. apply continuous_gseg.
    + apply (sq_bounded_cont 2 (fun r => gseg (xq q c r)) PI). auto. intros. pose proof (gseg_range (xq q c x)). rewrite Rabs_right; lra.
  - apply (continuous_scal_r (q ^ 2) (fun r => gseg (xq r c q))). apply (continuous_comp (fun r => xq r c q) gseg). 2: apply continuous_gseg.
    apply (@ex_derive_continuous R_AbsRing R_NormedModule). unfold xq. auto_derive. nz.
Qed.
Lemma flat : forall (G : R -> R) x y, x <= y -> (forall t, x <= t <= y -> continuous G t) -> (forall t, x < t < y -> is_derive G t 0) -> G x = G y.
Proof.
  intros G x y H C D. destruct (MVT_gen G x y (fun _ => 0)) as [c [_ E]].
  - intros t. rewrite Rmin_left, Rmax_right by auto. auto.
  - intros t. rewrite Rmin_left, Rmax_right by auto. intros. apply continuity_pt_filterlim. apply C; auto.
  - lra.
Qed.
Lemma larc_ex : forall q c a b, 0 < c -> 0 <= a -> 0 <= b -> ex_RInt (larc q c) a b.
Proof.
  intros. apply (@ex_RInt_continuous R_CompleteNormedModule). intros z Hz. apply larc_cont; auto.
  unfold Rmin in Hz. destruct (Rle_dec a b); lra.
Qed.
Lemma larea_0 : forall q c, 0 < q -> 0 < c -> larea q c 0 = 0.
Proof. intros. unfold larea. rewrite (gseg_ge_1 (xq 0 c q)) by (apply xq_small; auto). ring. Qed.
Lemma larc_cont' : forall q c t, 0 < c -> continuous (fun r => larc q c (Rmax 0 r)) t.
Proof.
  intros. apply (continuous_comp (Rmax 0) (larc q c)). apply (lip_continuous 1). intros. unfold Rmax. destruct (Rle_dec 0 x), (Rle_dec 0 y); apply Rabs_le; unfold Rabs; destruct (Rcase_abs (y - x)); lra.
  apply larc_cont; auto. apply Rmax_l.
Qed.
Lemma larea_int : forall q c b, 0 < q -> 0 < c -> 0 <= b -> RInt (larc q c) 0 b = larea q c b.
Proof.
  intros q c b Q C Hb.
  set (f := fun r => larc q c (Rmax 0 r)).
  assert (EI : forall x, 0 <= x -> RInt (larc q c) 0 x = RInt f 0 x).
  { intros x Hx. apply RInt_ext. intros z Hz. rewrite Rmin_left, Rmax_right in Hz by auto. unfold f. rewrite Rmax_right by lra. auto. }
  rewrite EI by auto.
  set (G := fun x => RInt f 0 x - larea q c x).
  assert (DI : forall x, is_derive (fun x => RInt f 0 x) x (f x)).
  { intros. apply (@is_derive_RInt R_NormedModule f (fun x => RInt f 0 x) 0).
    - apply filter_forall. intros y. apply (@RInt_correct R_CompleteNormedModule). apply (@ex_RInt_continuous R_CompleteNormedModule). intros; apply larc_cont'; auto.
    - apply larc_cont'; auto. }
  assert (GC : forall x, 0 <= x -> continuous G x).
  { intros. unfold G. apply (continuous_minus (fun x => RInt f 0 x) (larea q c)). apply (@ex_derive_continuous R_AbsRing R_NormedModule). eexists; apply DI. apply larea_cont; auto. }
  assert (GD : forall x, 0 < x -> x <> Rabs (q - c) -> x <> q + c -> is_derive G x 0).
  { intros. replace 0 with (f x - larc q c x) by (unfold f; rewrite Rmax_right by lra; ring).
    apply (is_derive_minus (fun x => RInt f 0 x) (larea q c)). apply DI. apply is_derive_larea; auto. }
  assert (G0 : G 0 = 0). { unfold G. rewrite larea_0 by auto. rewrite (@RInt_point R_CompleteNormedModule). change (0 - 0 = 0). ring. }
  pose proof (Rabs_pos (q - c)) as PA. assert (AB : Rabs (q - c) <= q + c) by (apply Rabs_le; lra).
  assert (Z : G b = 0).
  { assert (K1 : forall x, 0 <= x <= Rabs (q - c) -> G x = 0). { intros. rewrite <- G0. symmetry. apply flat. lra. intros; apply GC; lra. intros; apply GD; lra. }
    assert (K2 : forall x, Rabs (q - c) <= x <= q + c -> G x = 0). { intros. rewrite <- (K1 (Rabs (q - c))) by lra. symmetry. apply flat. lra. intros; apply GC; lra. intros; apply GD; lra. }
    destruct (Rle_dec b (Rabs (q - c))). apply K1; lra. destruct (Rle_dec b (q + c)). apply K2; lra.
    rewrite <- (K2 (q + c)) by lra. symmetry. apply flat. lra. intros; apply GC; lra. intros; apply GD; lra. }
  unfold G in Z. lra.
Qed.
Lemma larea_diff : forall q q' c, 0 <= q -> q <= q' -> 0 < c -> 0 <= larea q' c 1 - larea q c 1 <= PI * (q' ^ 2 - q ^ 2).
Proof.
  intros q q' c Q H C. rewrite (larea_sym q'), (larea_sym q). rewrite <- !larea_int by lra.
  pose proof (@RInt_Chasles R_CompleteNormedModule (larc 1 c) 0 q q' (larc_ex 1 c 0 q C ltac:(lra) ltac:(lra)) (larc_ex 1 c q q' C ltac:(lra) ltac:(lra))) as E.
  change (RInt (larc 1 c) 0 q + RInt (larc 1 c) q q' = RInt (larc 1 c) 0 q') in E. rewrite <- E.
  assert (X : 0 <= RInt (larc 1 c) q q' <= PI * (q' ^ 2 - q ^ 2)).
  { split.
    - apply RInt_ge_0; auto. apply larc_ex; lra. intros. unfold larc. pose proof (acos_bound (xq 1 c x)). apply Rmult_le_pos; lra.
    - assert (I : is_RInt (fun r => 2 * PI * r) q q' (PI * (q' ^ 2 - q ^ 2))).
      { replace (PI * (q' ^ 2 - q ^ 2)) with (minus (PI * q' ^ 2) (PI * q ^ 2)) by (unfold minus, plus, opp; simpl; ring).
        apply (@is_RInt_derive R_CompleteNormedModule (fun r => PI * r ^ 2)). intros; auto_derive; auto; ring.
        intros. apply (@ex_derive_continuous R_AbsRing R_NormedModule). auto_derive; auto. }
      rewrite <- (is_RInt_unique _ _ _ _ I). apply RInt_le; auto. apply larc_ex; lra. eexists; apply I.
      intros. unfold larc. pose proof (acos_bound (xq 1 c x)). nra. }
  lra.
Qed.
