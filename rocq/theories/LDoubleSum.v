(** Lemmas for C110-C111: sums in double precision *)
From Coq Require Import Reals ZArith Bool List Lra Lia Sorted Permutation Classical FunctionalExtensionality.
From Verif Require Import Num Py MConfig MHelpers MGrid MSpots MFaculae MXoflares MFlares MGranules MStar MSingle MDouble
  Spec SpecStar SpecDisk SpecSingle SpecDouble LBase LGrid LSpotMap LSpotCov LStar LDisk LStarFac LStarCov LSym LTransit LSingle LSingleRep LDouble.
Import ListNotations.
Open Scope R_scope.

Definition u64 : R := / 9007199254740992.
Definition eta : R := powerRZ 2 (-1074).
Lemma eta_pos : 0 < eta.
Proof. apply p2_pos. Qed.
Lemma eta_small : 1024 * eta <= u64.
Proof.
  replace 1024 with (powerRZ 2 10) by (rewrite p2_Z by lia; reflexivity). unfold eta. rewrite <- p2_add.
  replace u64 with (powerRZ 2 (-53)). apply p2_le. lia. unfold u64. simpl. lra.
Qed.
Lemma u64_pos : 0 < u64.
Proof. unfold u64. lra. Qed.
Lemma u64_small : u64 <= / 1000000.
Proof. unfold u64. lra. Qed.
Lemma f64_multiple : forall x, f64_value x -> exists k : Z, x = IZR k * eta.
Proof.
  intros x [m [e [_ [He ->]]]]. exists (m * 2 ^ (e - -1074))%Z. unfold eta. rewrite mult_IZR, <- p2_Z by lia. rewrite Rmult_assoc, <- p2_add. do 2 f_equal. lia.
Qed.
Lemma f64_small : forall k : Z, Rabs (IZR k * eta) < powerRZ 2 (-1022) -> f64_value (IZR k * eta).
Proof.
  intros k H. exists k, (-1074)%Z. split; [|split; [lia|auto]]. rewrite Rabs_mult, (Rabs_right eta), <- abs_IZR in H by (pose proof eta_pos; lra).
  replace (powerRZ 2 (-1022)) with (IZR (2 ^ 52) * eta) in H. 2:{ unfold eta. rewrite <- p2_Z, <- p2_add by lia. auto. }
  apply Rmult_lt_reg_r in H; [|apply eta_pos]. apply lt_IZR in H. assert (2 ^ 52 <= 2 ^ 53)%Z by (apply Z.pow_le_mono_r; lia). lia.
Qed.
Lemma add_err : forall x y, f64_value x -> f64_value y -> Rabs (f64_round (x + y) - (x + y)) <= u64 * Rabs (x + y).
Proof.
  intros x y X Y. destruct (Rle_lt_dec (powerRZ 2 (-1022)) (Rabs (x + y))) as [H|H].
  - apply f64_round_err in H. unfold u64. lra.
  - destruct (f64_multiple x X) as [k Ek], (f64_multiple y Y) as [j Ej]. assert (E : x + y = IZR (k + j) * eta) by (rewrite plus_IZR; lra).
    rewrite E in *. rewrite f64_round_id by (apply f64_small; auto). rewrite (Rminus_diag_eq _ _ eq_refl), Rabs_R0. pose proof (Rabs_pos (IZR (k + j) * eta)). pose proof u64_pos. nra.
Qed.
Lemma rnd_err : forall x, Rabs (f64_round x - x) <= u64 * Rabs x + eta.
Proof.
  intros x. pose proof eta_pos as P. destruct (Rle_lt_dec (powerRZ 2 (-1022)) (Rabs x)) as [H|H].
  - apply f64_round_err in H. unfold u64. lra.
  - destruct (base_Int_part (x / eta)) as [A B]. set (k := Int_part (x / eta)) in *.
    assert (E : x = x / eta * eta) by (field; lra).
    assert (V : f64_value (IZR k * eta)).
    { exists k, (-1074)%Z. split; [|split; [lia|auto]].
      replace (powerRZ 2 (-1022)) with (IZR (2 ^ 52) * eta) in H. 2:{ unfold eta. rewrite <- p2_Z, <- p2_add by lia. auto. }
      rewrite E, Rabs_mult, (Rabs_right eta) in H by lra. apply Rmult_lt_reg_r in H; auto. set (y := x / eta) in *.
      assert (L : IZR (Z.abs k) < IZR (2 ^ 52 + 1)). { rewrite abs_IZR, plus_IZR. unfold Rabs in *. destruct (Rcase_abs y), (Rcase_abs (IZR k)); lra. }
      apply lt_IZR in L. change (2 ^ 53)%Z with (2 * 2 ^ 52)%Z. lia. }
    pose proof (f64_round_near x _ V) as N. assert (D : Rabs (IZR k * eta - x) <= eta). { apply Rabs_le. nra. }
    pose proof (Rabs_pos x). pose proof u64_pos. nra.
Qed.
Lemma rnd_pos : forall x, 0 <= x -> 0 <= f64_round x.
Proof. intros x H. rewrite <- (f64_round_id 0). apply f64_round_mono; auto. apply (f64_whole 0). simpl. lia. Qed.
Lemma f64_one : f64_value 1.
Proof. apply (f64_whole 1). simpl. lia. Qed.
Lemma f64_zero : f64_value 0.
Proof. apply (f64_whole 0). simpl. lia. Qed.
Lemma rnd_le1 : forall x, x <= 1 -> f64_round x <= 1.
Proof. intros x H. rewrite <- (f64_round_id 1) by apply f64_one. apply f64_round_mono; auto. Qed.
Lemma f64_p2 : forall e, (-1074 <= e)%Z -> f64_value (powerRZ 2 e).
Proof. intros e H. exists 1%Z, e. split. simpl; lia. split; auto. ring. Qed.

(** ** summation *)
Fixpoint rtree (o : sumtree) (f : nat -> R) : R := match o with SLeaf i => f i | SNode a b => f64_round (rtree a f + rtree b f) end.
Lemma rtree_mono : forall o f g, (forall i, In i (leaves o) -> f i <= g i) -> rtree o f <= rtree o g.
Proof.
  induction o as [i|a IHa b IHb]; intros f g H; cbn [rtree leaves] in *. apply H. left; auto.
  apply f64_round_mono. assert (rtree a f <= rtree a g) by (apply IHa; intros; apply H, in_or_app; auto). assert (rtree b f <= rtree b g) by (apply IHb; intros; apply H, in_or_app; auto). lra.
Qed.
Lemma rtree_ext : forall o f g, (forall i, In i (leaves o) -> f i = g i) -> rtree o f = rtree o g.
Proof. intros o f g H. apply Rle_antisym; apply rtree_mono; intros i I; rewrite H by auto; lra. Qed.
Lemma pow_up : forall x a b, 1 <= x -> (a <= b)%nat -> x ^ a <= x ^ b.
Proof. intros. apply Rle_pow; auto. Qed.
Lemma pow_down : forall x a b, 0 <= x <= 1 -> (a <= b)%nat -> x ^ b <= x ^ a.
Proof. intros x a b H L. replace b with (a + (b - a))%nat by lia. rewrite pow_add. pose proof (pow_le x a ltac:(lra)). assert (x ^ (b - a) <= 1). { rewrite <- (pow1 (b - a)). apply pow_incr; lra. } nra. Qed.
Lemma rtree_bounds : forall o f h, (forall i, In i (leaves o) -> f64_value (f i) /\ 0 <= f i) -> (depth o <= h)%nat ->
  f64_value (rtree o f) /\ 0 <= rtree o f /\ (1 - u64) ^ h * rsum (map f (leaves o)) <= rtree o f <= (1 + u64) ^ h * rsum (map f (leaves o)).
Proof.
  pose proof u64_pos as U. pose proof u64_small as U'.
  induction o as [i|a IHa b IHb]; intros f h H D; cbn [rtree leaves depth] in *.
  - destruct (H i (or_introl eq_refl)) as [V P]. split; auto. split; auto. cbn [map]. unfold rsum. cbn [fold_right]. rewrite Rplus_0_r.
    pose proof (pow_down (1 - u64) 0 h ltac:(lra) ltac:(lia)). pose proof (pow_up (1 + u64) 0 h ltac:(lra) ltac:(lia)). simpl in *. nra.
  - destruct h as [|h]; [lia|]. destruct (IHa f h) as [Va [Pa [La Ua]]]. { intros; apply H, in_or_app; auto. } lia.
    destruct (IHb f h) as [Vb [Pb [Lb Ub]]]. { intros; apply H, in_or_app; auto. } lia.
    rewrite map_app, rsum_app. set (x := rtree a f) in *. set (y := rtree b f) in *. set (A := rsum (map f (leaves a))) in *. set (B := rsum (map f (leaves b))) in *.
    split. apply f64_round_value. split. apply rnd_pos; lra. pose proof (add_err x y Va Vb) as E. rewrite (Rabs_right (x + y)) in E by lra.
    assert (E' : (1 - u64) * (x + y) <= f64_round (x + y) <= (1 + u64) * (x + y)). { revert E. unfold Rabs. destruct (Rcase_abs _); lra. }
    cbn [pow]. split.
    + eapply Rle_trans; [|apply E']. rewrite Rmult_assoc. apply Rmult_le_compat_l; lra.
    + eapply Rle_trans; [apply E'|]. rewrite Rmult_assoc. apply Rmult_le_compat_l; lra.
Qed.
Lemma f64_fin_pos : forall x, 0 <= x <= powerRZ 2 1023 -> f64 (Fin x) = Fin (f64_round x).
Proof. intros x H. apply f64_fin. rewrite Rabs_right; lra. Qed.
Lemma sum_tree_fin : forall o f h l, (forall i, In i (leaves o) -> f64_value (f i) /\ 0 <= f i) -> (forall i, In i (leaves o) -> nth i l NaN = Fin (f i)) ->
  (depth o <= h)%nat -> (1 + u64) ^ h * rsum (map f (leaves o)) <= powerRZ 2 1023 -> sum_tree o l = Fin (rtree o f).
Proof.
  pose proof u64_pos as U.
  induction o as [i|a IHa b IHb]; intros f h l H E D B; cbn [rtree leaves depth sum_tree] in *. apply E. left; auto.
  destruct h as [|h]; [lia|].
  assert (Ha : forall i, In i (leaves a) -> f64_value (f i) /\ 0 <= f i) by (intros; apply H, in_or_app; auto).
  assert (Hb : forall i, In i (leaves b) -> f64_value (f i) /\ 0 <= f i) by (intros; apply H, in_or_app; auto).
  destruct (rtree_bounds a f h Ha ltac:(lia)) as [_ [Pa [_ Ua]]]. destruct (rtree_bounds b f h Hb ltac:(lia)) as [_ [Pb [_ Ub]]].
  rewrite map_app, rsum_app in B. set (A := rsum (map f (leaves a))) in *. set (B' := rsum (map f (leaves b))) in *.
  assert (SA : 0 <= A). { apply rsum_map_nonneg. intros i I. apply Ha; auto. } assert (SB : 0 <= B'). { apply rsum_map_nonneg. intros i I. apply Hb; auto. }
  assert (P : 1 <= (1 + u64) ^ h) by (apply pow_R1_Rle; lra). cbn [pow] in B.
  assert (Q : (1 + u64) ^ h * (A + B') <= powerRZ 2 1023) by nra.
  rewrite (IHa f h), (IHb f h); auto; try lia; try (intros; apply E, in_or_app; auto); try (fold A; fold B'; nra).
  unfold add64. rewrite nadd_fin. apply f64_fin_pos. nra.
Qed.

(** ** approximation *)
Definition lo64 : R := 1 - 2 * u64.
Definition hi64 : R := 1 + 3 * u64.
Definition approx (N : nat) (k x e : R) : Prop := 0 <= e /\ 0 <= x /\ e * lo64 ^ N - k * eta <= x <= e * hi64 ^ N + k * eta.
Lemma lo_range : 0 < lo64 < 1.
Proof. unfold lo64. pose proof u64_pos. pose proof u64_small. lra. Qed.
Lemma hi_range : 1 < hi64.
Proof. unfold hi64. pose proof u64_pos. lra. Qed.
Lemma rnd_bounds : forall x, 0 <= x -> x * (1 - u64) - eta <= f64_round x <= x * (1 + u64) + eta.
Proof. intros x H. pose proof (rnd_err x) as E. rewrite (Rabs_right x) in E by lra. revert E. unfold Rabs. destruct (Rcase_abs _); lra. Qed.
Lemma ap_rnd : forall N k x e, 0 <= k <= 1000 -> approx N k x e -> approx (S N) (k + 2) (f64_round x) e.
Proof.
  intros N k x e K [E [X [L H]]]. pose proof u64_pos. pose proof u64_small. pose proof eta_pos. pose proof (pow_lt lo64 N (proj1 lo_range)). pose proof (pow_R1_Rle hi64 N (Rlt_le _ _ hi_range)).
  split; auto. split. apply rnd_pos; auto. destruct (rnd_bounds x X) as [A B]. cbn [pow].
  assert (0 <= e * lo64 ^ N) by nra. assert (0 <= e * hi64 ^ N) by nra. assert (K1 : 0 <= k * eta) by nra. split.
  - replace (e * (lo64 * lo64 ^ N)) with (e * lo64 ^ N * lo64) by ring. unfold lo64 at 2. set (q := e * lo64 ^ N) in *.
    assert ((q - k * eta) * (1 - u64) <= x * (1 - u64)) by (apply Rmult_le_compat_r; lra). assert (0 <= q * u64) by nra. assert (0 <= k * eta * u64) by nra. nra.
  - replace (e * (hi64 * hi64 ^ N)) with (e * hi64 ^ N * hi64) by ring. unfold hi64 at 2. set (q := e * hi64 ^ N) in *.
    assert (x * (1 + u64) <= (q + k * eta) * (1 + u64)) by (apply Rmult_le_compat_r; lra).
    assert (k * u64 <= 1) by nra. assert (k * eta * u64 <= eta) by nra. nra.
Qed.
Lemma ap_mul : forall N k x e y f, 0 <= k -> approx N k x e -> 0 <= f -> 0 <= y <= 1 -> f * (1 - u64) <= y <= f * (1 + u64) -> approx (S N) k (x * y) (e * f).
Proof.
  intros N k x e y f K [E [X [L H]]] F Y [Y1 Y2]. pose proof u64_pos. pose proof u64_small. pose proof eta_pos. pose proof (pow_lt lo64 N (proj1 lo_range)). pose proof (pow_R1_Rle hi64 N (Rlt_le _ _ hi_range)).
  split. nra. split. nra. cbn [pow]. assert (0 <= e * lo64 ^ N) by nra. assert (0 <= e * hi64 ^ N) by nra. assert (K1 : 0 <= k * eta) by nra. set (w := k * eta) in *. split.
  - replace (e * f * (lo64 * lo64 ^ N)) with (e * lo64 ^ N * (f * lo64)) by ring. set (q := e * lo64 ^ N) in *.
    assert (f * lo64 <= y) by (unfold lo64; nra). assert ((q - w) * y <= x * y) by (apply Rmult_le_compat_r; lra). nra.
  - replace (e * f * (hi64 * hi64 ^ N)) with (e * hi64 ^ N * (f * hi64)) by ring. set (q := e * hi64 ^ N) in *.
    assert (y <= f * hi64) by (unfold hi64; nra). assert (x * y <= (q + w) * y) by (apply Rmult_le_compat_r; lra). nra.
Qed.
Lemma ap_scale : forall N k x e g, 0 <= k -> approx N k x e -> 0 <= g <= 1 -> approx N k (x * g) (e * g).
Proof.
  intros N k x e g K [E [X [L H]]] G. pose proof eta_pos. split. nra. split. nra. assert (0 <= k * eta) by nra. split; nra.
Qed.
Lemma ap_weaken : forall N k M j x e, approx N k x e -> (N <= M)%nat -> k <= j -> approx M j x e.
Proof.
  intros N k M j x e [E [X [L H]]] A B. pose proof eta_pos. pose proof lo_range. pose proof hi_range. split; auto. split; auto.
  pose proof (pow_down lo64 N M ltac:(lra) A). pose proof (pow_up hi64 N M ltac:(lra) A). split; nra.
Qed.
Lemma ap_add : forall N k j x e x' e', approx N k x e -> approx N j x' e' -> approx N (k + j) (x + x') (e + e').
Proof. intros N k j x e x' e' [E [X [L H]]] [E' [X' [L' H']]]. split. lra. split. lra. split; lra. Qed.
Lemma ap_refl : forall N k e, 0 <= e -> 0 <= k -> approx N k e e.
Proof. intros N k e E K. eapply (ap_weaken 0 0). { split; auto. split; auto. simpl. lra. } lia. auto. Qed.
(** growth *)
Lemma bern_lo : forall N, 1 - INR N * (2 * u64) <= lo64 ^ N.
Proof.
  induction N. simpl. lra. cbn [pow]. rewrite S_INR. pose proof lo_range. pose proof u64_pos. unfold lo64 in *. pose proof (pos_INR N). nra.
Qed.
Lemma bern_hi : forall N, (1 - INR N * (3 * u64)) * hi64 ^ N <= 1.
Proof.
  induction N. simpl. lra. cbn [pow]. rewrite S_INR. pose proof u64_pos. unfold hi64 in *. pose proof (pos_INR N). set (z := 3 * u64) in *.
  assert (Z : 0 < z) by (unfold z; lra). pose proof (pow_le (1 + z) N ltac:(lra)). set (q := (1 + z) ^ N) in *. assert ((1 - (INR N + 1) * z) * (1 + z) <= 1 - INR N * z) by nra. nra.
Qed.
Lemma growth : forall N, INR N <= 2 ^ 49 -> 1 - 4 * INR N * u64 <= lo64 ^ N /\ hi64 ^ N <= 1 + 4 * INR N * u64.
Proof.
  intros N H. pose proof (bern_lo N) as A. pose proof (bern_hi N) as B. pose proof u64_pos. pose proof (pos_INR N) as P. split. nra.
  set (y := INR N * u64) in *. assert (Y : 0 <= y <= /16). { unfold y, u64. split. nra. apply (Rmult_le_reg_r 9007199254740992). lra. rewrite Rmult_assoc, Rinv_l by lra. simpl in H. lra. }
  replace (INR N * (3 * u64)) with (3 * y) in B by (unfold y; ring). replace (4 * INR N * u64) with (4 * y) by (unfold y; ring).
  assert (1 <= (1 - 3 * y) * (1 + 4 * y)) by nra. apply (Rmult_le_reg_l (1 - 3 * y)); lra.
Qed.
Lemma ap_near : forall N k x e, approx N k x e -> k <= 16 -> INR N <= 2 ^ 49 -> near64 N x e.
Proof.
  intros N k x e [E [X [L H]]] K HN. split; auto. destruct (growth N HN) as [G1 G2]. pose proof eta_pos.
  replace (powerRZ 2 (-1070)) with (16 * eta). 2:{ unfold eta. replace 16 with (powerRZ 2 4) by (rewrite p2_Z by lia; reflexivity). rewrite <- p2_add. auto. }
  replace (INR N / 2 ^ 51) with (4 * INR N * u64) by (unfold u64; simpl; lra).
  set (y := 4 * INR N * u64) in *. assert (e * (1 - y) <= e * lo64 ^ N) by nra. assert (e * hi64 ^ N <= e * (1 + y)) by nra. assert (k * eta <= 16 * eta) by nra. apply Rabs_le. lra.
Qed.
(** quotients of sums *)
Lemma pow_hi : forall h, (1 + u64) ^ h <= hi64 ^ h * (1 - u64) ^ h.
Proof. intros h. rewrite <- Rpow_mult_distr. apply pow_incr. pose proof u64_pos. pose proof u64_small. unfold hi64. nra. Qed.
Lemma pow_lo : forall h, lo64 ^ h * (1 + u64) ^ h <= (1 - u64) ^ h.
Proof. intros h. rewrite <- Rpow_mult_distr. apply pow_incr. pose proof u64_pos. pose proof u64_small. unfold lo64. nra. Qed.
Lemma ap_quot : forall h A B a b, 0 <= A -> 0 < B -> (1 - u64) ^ h * A <= a <= (1 + u64) ^ h * A -> (1 - u64) ^ h * B <= b <= (1 + u64) ^ h * B ->
  approx h 0 (a / b) (A / B).
Proof.
  intros h A B a b PA PB [a1 a2] [b1 b2]. pose proof u64_pos. pose proof u64_small. pose proof (pow_lt (1 - u64) h ltac:(lra)) as P. pose proof (pow_lt (1 + u64) h ltac:(lra)) as Q.
  assert (Pb : 0 < b) by nra. assert (Pa : 0 <= a) by nra. pose proof (pow_hi h). pose proof (pow_lo h). pose proof (pow_lt lo64 h (proj1 lo_range)). pose proof (pow_lt hi64 h ltac:(pose proof hi_range; lra)).
  split. { apply Rmult_le_pos; auto. left. apply Rinv_0_lt_compat; auto. } split. { apply Rmult_le_pos; auto. left. apply Rinv_0_lt_compat; auto. }
  rewrite Rmult_0_l, Rminus_0_r, Rplus_0_r. split.
  - apply (Rmult_le_reg_r (b * B)). nra. replace (A / B * lo64 ^ h * (b * B)) with (A * lo64 ^ h * b) by (field; lra). replace (a / b * (b * B)) with (a * B) by (field; lra).
    assert (lo64 ^ h * b <= (1 - u64) ^ h * B) by nra. nra.
  - apply (Rmult_le_reg_r (b * B)). nra. replace (A / B * hi64 ^ h * (b * B)) with (A * hi64 ^ h * b) by (field; lra). replace (a / b * (b * B)) with (a * B) by (field; lra).
    assert ((1 + u64) ^ h * B <= hi64 ^ h * b) by nra. nra.
Qed.
