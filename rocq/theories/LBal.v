(** The long-run area of spots and faculae (C92, C93) *)
From Coq Require Import Reals ZArith Bool List Lra Lia.
From Coquelicot Require Import Coquelicot.
From Verif Require Import Num Py MConfig MHelpers MGrid MSpots MFaculae MFlares MGranules MStar Spec SpecStar SpecBal LBase LGrid LHelpers LSpotAge LSpotGen LFac.
Import ListNotations.
Open Scope R_scope.

(** ** Riemann sums of monotone functions *)
Ltac req := match goal with |- @eq _ ?a ?b => change (@eq R a b) end.
Fixpoint rs (f : R -> R) (h : R) (n : nat) : R :=
  match n with O => 0 | S k => rs f h k + f (INR n * h) end.
Lemma rs_plus : forall f g h n, rs (fun t => f t + g t) h n = rs f h n + rs g h n.
Proof. induction n; cbn [rs]; intros; rewrite ?IHn; ring. Qed.
Lemma rs_ext : forall f g h n, 0 <= h -> (forall t, 0 <= t -> f t = g t) -> rs f h n = rs g h n.
Proof.
  induction n; intros H E; cbn [rs]; auto. rewrite IHn by auto. f_equal. apply E.
  apply Rmult_le_pos; auto. apply pos_INR.
Qed.
Lemma rs_const : forall c h n, rs (fun _ => c) h n = INR n * c.
Proof. induction n. cbn. ring. cbn [rs]. rewrite IHn, S_INR. ring. Qed.
Lemma rs_nonneg : forall f h n, 0 <= h -> (forall t, 0 <= t -> 0 <= f t) -> 0 <= rs f h n.
Proof.
  induction n; intros H E; cbn [rs]. lra. pose proof (IHn H E). assert (0 <= f (INR (S n) * h)); [|lra].
  apply E. apply Rmult_le_pos; auto. apply pos_INR.
Qed.
Lemma rs_mono : forall f h n m, 0 <= h -> (forall t, 0 <= t -> 0 <= f t) -> (n <= m)%nat -> rs f h n <= rs f h m.
Proof.
  intros f h n m H E L. induction L. lra. cbn [rs]. assert (0 <= f (INR (S m) * h)); [|lra].
  apply E. apply Rmult_le_pos; auto. apply pos_INR.
Qed.
(** [U] is an integral of the increasing (decreasing) function [u] *)
Definition ups (u U : R -> R) (p q : R) : Prop := forall a b, p <= a -> a <= b -> b <= q -> (b - a) * u a <= U b - U a <= (b - a) * u b.
Definition downs (u U : R -> R) (p q : R) : Prop := forall a b, p <= a -> a <= b -> b <= q -> (b - a) * u b <= U b - U a <= (b - a) * u a.
Lemma rs_ups : forall u U h n q, 0 <= h -> INR n * h <= q -> ups u U 0 q ->
  U (INR n * h) - U 0 <= h * rs u h n <= U (INR n * h) - U 0 + h * (u (INR n * h) - u 0).
Proof.
  induction n; intros q Hh Hq T; cbn [rs].
  - replace (INR 0 * h) with 0 by (simpl; ring). lra.
  - pose proof (pos_INR n) as P. rewrite S_INR in *. assert (0 <= INR n * h) by (apply Rmult_le_pos; auto).
    specialize (IHn q Hh ltac:(lra) T). specialize (T (INR n * h) ((INR n + 1) * h) ltac:(lra) ltac:(lra) ltac:(lra)).
    replace ((INR n + 1) * h - INR n * h) with h in T by ring. lra.
Qed.
Lemma rs_downs : forall u U h n q, 0 <= h -> INR n * h <= q -> downs u U 0 q ->
  U (INR n * h) - U 0 - h * (u 0 - u (INR n * h)) <= h * rs u h n <= U (INR n * h) - U 0.
Proof.
  induction n; intros q Hh Hq T; cbn [rs].
  - replace (INR 0 * h) with 0 by (simpl; ring). lra.
  - pose proof (pos_INR n) as P. rewrite S_INR in *. assert (0 <= INR n * h) by (apply Rmult_le_pos; auto).
    specialize (IHn q Hh ltac:(lra) T). specialize (T (INR n * h) ((INR n + 1) * h) ltac:(lra) ltac:(lra) ltac:(lra)).
    replace ((INR n + 1) * h - INR n * h) with h in T by ring. lra.
Qed.
Lemma ups_glue : forall u U p c q, p <= c -> ups u U p c -> ups u U c q ->
  (forall a b, p <= a -> a <= b -> b <= q -> u a <= u b) -> ups u U p q.
Proof.
  intros u U p c q Hc H1 H2 M a b Ha Hab Hb. destruct (Rle_dec b c); [apply H1; lra|]. destruct (Rle_dec c a); [apply H2; lra|].
  pose proof (H1 a c ltac:(lra) ltac:(lra) ltac:(lra)) as X1. pose proof (H2 c b ltac:(lra) ltac:(lra) ltac:(lra)) as X2.
  pose proof (M a c ltac:(lra) ltac:(lra) ltac:(lra)) as M1. pose proof (M c b ltac:(lra) ltac:(lra) ltac:(lra)) as M2.
  assert ((b - c) * u a <= (b - c) * u c) by (apply Rmult_le_compat_l; lra).
  assert ((c - a) * u c <= (c - a) * u b) by (apply Rmult_le_compat_l; lra). lra.
Qed.
Lemma downs_glue : forall u U p c q, p <= c -> downs u U p c -> downs u U c q ->
  (forall a b, p <= a -> a <= b -> b <= q -> u b <= u a) -> downs u U p q.
Proof.
  intros u U p c q Hc H1 H2 M a b Ha Hab Hb. destruct (Rle_dec b c); [apply H1; lra|]. destruct (Rle_dec c a); [apply H2; lra|].
  pose proof (H1 a c ltac:(lra) ltac:(lra) ltac:(lra)) as X1. pose proof (H2 c b ltac:(lra) ltac:(lra) ltac:(lra)) as X2.
  pose proof (M a c ltac:(lra) ltac:(lra) ltac:(lra)) as M1. pose proof (M c b ltac:(lra) ltac:(lra) ltac:(lra)) as M2.
  assert ((b - c) * u c <= (b - c) * u a) by (apply Rmult_le_compat_l; lra).
  assert ((c - a) * u b <= (c - a) * u c) by (apply Rmult_le_compat_l; lra). lra.
Qed.
Lemma exp_chord : forall x y, x <= y -> (y - x) * exp x <= exp y - exp x <= (y - x) * exp y.
Proof.
  intros. pose proof (exp_pos x) as P1. pose proof (exp_pos y) as P2.
  assert (E1 : forall z, 1 + z <= exp z). { intros z. destruct (Req_dec z 0) as [->|]. rewrite exp_0; lra. left. apply exp_ineq1. auto. }
  assert (Q1 : exp y = exp x * exp (y - x)) by (rewrite <- exp_plus; f_equal; ring).
  assert (Q2 : exp x = exp y * exp (x - y)) by (rewrite <- exp_plus; f_equal; ring).
  pose proof (E1 (y - x)) as B1. pose proof (E1 (x - y)) as B2.
  apply (Rmult_le_compat_l (exp x)) in B1; [|lra]. apply (Rmult_le_compat_l (exp y)) in B2; [|lra]. rewrite <- Q1 in B1. rewrite <- Q2 in B2. lra.
Qed.
Lemma exp_le : forall x y, x <= y -> exp x <= exp y.
Proof. intros x y [L| ->]. left. apply exp_increasing; auto. lra. Qed.

(** ** rise and fall *)
Lemma rise_fall : forall u v f U V P h n q, 0 <= h -> INR n * h <= q -> ups u U 0 q -> downs v V 0 q ->
  (forall t, 0 <= t -> 0 <= u t <= P /\ 0 <= v t <= P) -> (forall t, 0 <= t -> f t = u t + v t - P) ->
  Rabs (h * rs f h n - (U (INR n * h) - U 0 + (V (INR n * h) - V 0) - P * (INR n * h))) <= P * h.
Proof.
  intros u v f U V P h n q Hh Hq HU HV B E. pose proof (rs_ups u U h n q Hh Hq HU) as X1. pose proof (rs_downs v V h n q Hh Hq HV) as X2.
  assert (ES : rs f h n = rs u h n + rs v h n + INR n * (- P)).
  { rewrite <- rs_const with (h := h), <- !rs_plus. apply rs_ext; auto. }
  assert (T : 0 <= INR n * h) by (apply Rmult_le_pos; auto; apply pos_INR). pose proof (B _ T). pose proof (B 0 ltac:(lra)).
  rewrite ES. assert (h * (u (INR n * h) - u 0) <= h * P) by (apply Rmult_le_compat_l; lra).
  assert (h * (v 0 - v (INR n * h)) <= h * P) by (apply Rmult_le_compat_l; lra).
  apply Rabs_le. split; lra.
Qed.
Lemma ups_ext : forall u u' U U' p q, (forall t, p <= t -> t <= q -> u t = u' t /\ U t = U' t) -> ups u' U' p q -> ups u U p q.
Proof.
  intros u u' U U' p q E H a b Ha Hab Hb. destruct (E a ltac:(lra) ltac:(lra)) as [-> ->]. destruct (E b ltac:(lra) ltac:(lra)) as [-> ->]. auto.
Qed.
Lemma downs_ext : forall u u' U U' p q, (forall t, p <= t -> t <= q -> u t = u' t /\ U t = U' t) -> downs u' U' p q -> downs u U p q.
Proof.
  intros u u' U U' p q E H a b Ha Hab Hb. destruct (E a ltac:(lra) ltac:(lra)) as [-> ->]. destruct (E b ltac:(lra) ltac:(lra)) as [-> ->]. auto.
Qed.
Lemma ups_const : forall c d p q, ups (fun _ => c) (fun t => c * t + d) p q.
Proof. intros c d p q a b; intros. split; lra. Qed.
Lemma downs_const : forall c d p q, downs (fun _ => c) (fun t => c * t + d) p q.
Proof. intros c d p q a b; intros. split; lra. Qed.
Lemma ups_exp : forall c k p q, 0 <= c -> 0 < k -> ups (fun t => c * exp (k * t)) (fun t => c / k * exp (k * t)) p q.
Proof.
  intros c k p q Hc Hk a b _ L _. pose proof (exp_chord (k * a) (k * b) ltac:(apply Rmult_le_compat_l; lra)) as E.
  assert (D : 0 <= c / k) by (apply le_div; lra).
  replace ((b - a) * (c * exp (k * a))) with (c / k * ((k * b - k * a) * exp (k * a))) by (field; lra).
  replace ((b - a) * (c * exp (k * b))) with (c / k * ((k * b - k * a) * exp (k * b))) by (field; lra).
  replace (c / k * exp (k * b) - c / k * exp (k * a)) with (c / k * (exp (k * b) - exp (k * a))) by ring.
  split; apply Rmult_le_compat_l; lra.
Qed.
Lemma downs_exp : forall c k p q, 0 <= c -> 0 < k -> downs (fun t => c * exp (- k * t)) (fun t => - (c / k) * exp (- k * t)) p q.
Proof.
  intros c k p q Hc Hk a b _ L _. pose proof (exp_chord (- k * b) (- k * a) ltac:(nra)) as E.
  assert (D : 0 <= c / k) by (apply le_div; lra).
  replace ((b - a) * (c * exp (- k * b))) with (c / k * ((- k * a - - k * b) * exp (- k * b))) by (field; lra).
  replace ((b - a) * (c * exp (- k * a))) with (c / k * ((- k * a - - k * b) * exp (- k * a))) by (field; lra).
  replace (- (c / k) * exp (- k * b) - - (c / k) * exp (- k * a)) with (c / k * (exp (- k * a) - exp (- k * b))) by ring.
  split; apply Rmult_le_compat_l; lra.
Qed.

(** ** the area of one spot *)
Definition sf (A M g W t : R) : R :=
  let T := time_to_max A M g in if Rlt_dec t T then A * exp (ln (1 + g) * t) else Rmax 0 (M - W * (t - T)).
Definition su (A M g t : R) : R := let T := time_to_max A M g in if Rlt_dec t T then A * exp (ln (1 + g) * t) else M.
Definition sU (A M g t : R) : R :=
  let T := time_to_max A M g in let k := ln (1 + g) in if Rlt_dec t T then A / k * exp (k * t) else M * t + (M / k - M * T).
Definition sv (A M g W t : R) : R := let T := time_to_max A M g in if Rlt_dec t T then M else Rmax 0 (M - W * (t - T)).
Definition sV (A M g W t : R) : R :=
  let T := time_to_max A M g in
  if Rlt_dec t T then M * t else if Rlt_dec t (T + M / W) then M * t - W / 2 * (t - T)^2 else M * T + M^2 / (2 * W).
Lemma sf_nonneg : forall A M g W t, 0 < A -> 0 <= sf A M g W t.
Proof.
  intros. unfold sf. cbv zeta. destruct (Rlt_dec _ _). apply Rmult_le_pos; [lra|]. left. apply exp_pos. apply Rmax_l.
Qed.
Lemma sU_ups : forall A M g q, 0 < A <= M -> 0 < g -> ups (su A M g) (sU A M g) 0 q.
Proof.
  intros A M g q HA Hg. pose proof (ln1p_pos g Hg) as K. pose proof (ttm_nonneg A M g HA Hg) as HT. pose proof (ttm_max A M g HA Hg) as TM.
  set (k := ln (1 + g)) in *. set (T := time_to_max A M g) in *.
  apply (ups_glue _ _ 0 T); auto.
  - apply (ups_ext _ (fun t => A * exp (k * t)) _ (fun t => A / k * exp (k * t))); [|apply ups_exp; lra].
    intros t H1 H2. unfold su, sU. cbv zeta. fold T k. destruct (Rlt_dec t T); auto. assert (t = T) by lra. subst t. split; auto.
    replace (A / k * exp (k * T)) with ((A * exp (k * T)) / k) by (field; lra). rewrite TM. ring.
  - apply (ups_ext _ (fun t => M) _ (fun t => M * t + (M / k - M * T))); [|apply ups_const].
    intros t H1 H2. unfold su, sU. cbv zeta. fold T k. destruct (Rlt_dec t T); [lra|auto].
  - intros a b Ha Hab _. unfold su. cbv zeta. fold T k.
    assert (LE : forall x, x <= T -> A * exp (k * x) <= M).
    { intros x Hx. rewrite <- TM. apply Rmult_le_compat_l; [lra|]. apply exp_le. apply Rmult_le_compat_l; lra. }
    destruct (Rlt_dec a T), (Rlt_dec b T); try lra. apply Rmult_le_compat_l; [lra|]. apply exp_le. apply Rmult_le_compat_l; lra. apply LE; lra.
Qed.
Lemma sV_downs : forall A M g W q, 0 < A <= M -> 0 < g -> 0 < W -> downs (sv A M g W) (sV A M g W) 0 q.
Proof.
  intros A M g W q HA Hg HW. pose proof (ttm_nonneg A M g HA Hg) as HT.
  unfold sv, sV. cbv zeta. set (T := time_to_max A M g) in *.
  assert (MW : 0 < M / W) by (apply Rdiv_lt_0_compat; lra). assert (ME : W * (M / W) = M) by (field; lra).
  assert (DM : forall a b, a <= b ->
    (if Rlt_dec b T then M else Rmax 0 (M - W * (b - T))) <= (if Rlt_dec a T then M else Rmax 0 (M - W * (a - T)))).
  { intros a b Hab. destruct (Rlt_dec a T), (Rlt_dec b T); try lra. apply Rmax_lub; [lra|]. nra.
    apply Rle_max_compat_l. nra. }
  apply (downs_glue _ _ 0 T); auto.
  - apply (downs_ext _ (fun t => M) _ (fun t => M * t + 0)); [|apply downs_const].
    intros t H1 H2. destruct (Rlt_dec t T). split; ring. assert (t = T) by lra. subst t.
    rewrite Rmax_right by nra. split. ring. destruct (Rlt_dec _ _); [|lra]. ring.
  - apply (downs_glue _ _ T (T + M / W)); [lra| | |auto].
    + apply (downs_ext _ (fun t => M - W * (t - T)) _ (fun t => M * t - W / 2 * (t - T)^2)).
      * intros t H1 H2. destruct (Rlt_dec t T); [lra|]. split. rewrite Rmax_right; auto. nra.
        destruct (Rlt_dec _ _); auto. assert (t = T + M / W) by lra. subst t. replace (T + M / W - T) with (M / W) by ring. field. lra.
      * intros a b H1 H2 H3. set (x := a - T). set (d := b - a). replace (b - T) with (x + d) by (unfold x, d; ring).
        assert (0 <= d) by (unfold d; lra). assert (0 <= W * d^2) by (apply Rmult_le_pos; [lra|]; apply pow2_ge_0).
        replace (M * b - W / 2 * (x + d)^2 - (M * a - W / 2 * x^2)) with (d * (M - W * x) - W * d^2 / 2) by (unfold x, d; field).
        replace (d * (M - W * (x + d))) with (d * (M - W * x) - W * d^2) by ring. lra.
    + apply (downs_ext _ (fun t => 0) _ (fun t => 0 * t + (M * T + M^2 / (2 * W)))); [|apply downs_const].
      intros t H1 H2. destruct (Rlt_dec t T); [lra|]. destruct (Rlt_dec _ _); [lra|]. split; [|ring]. apply Rmax_left. nra.
Qed.
Lemma spot_rs : forall A M g W h n, 0 < A <= M -> 0 < g -> 0 < W -> 0 <= h ->
  h * rs (sf A M g W) h n <= (M - A) / ln (1 + g) + M^2 / (2 * W) + M * h
  /\ (time_to_max A M g + M / W <= INR n * h -> (M - A) / ln (1 + g) + M^2 / (2 * W) - M * h <= h * rs (sf A M g W) h n).
Proof.
  assert (X : forall A M g W h n, 0 < A <= M -> 0 < g -> 0 < W -> 0 <= h -> time_to_max A M g + M / W <= INR n * h ->
    Rabs (h * rs (sf A M g W) h n - ((M - A) / ln (1 + g) + M^2 / (2 * W))) <= M * h).
  { intros A M g W h n HA Hg HW Hh Hn. pose proof (ln1p_pos g Hg) as K. pose proof (ttm_nonneg A M g HA Hg) as HT.
    pose proof (ttm_max A M g HA Hg) as TM.
    assert (MW : 0 < M / W) by (apply Rdiv_lt_0_compat; lra). assert (T0 : 0 <= INR n * h) by lra.
    pose proof (rise_fall (su A M g) (sv A M g W) (sf A M g W) (sU A M g) (sV A M g W) M h n (INR n * h) Hh ltac:(lra)
      (sU_ups A M g _ HA Hg) (sV_downs A M g W _ HA Hg HW)) as RF.
    assert (U0 : sU A M g 0 = A / ln (1 + g)).
    { unfold sU. cbv zeta. destruct (Rlt_dec _ _). rewrite Rmult_0_r, exp_0. ring.
      assert (E : time_to_max A M g = 0) by lra. rewrite E in *. rewrite Rmult_0_r, exp_0 in TM. rewrite <- TM. field. lra. }
    assert (V0 : sV A M g W 0 = 0).
    { unfold sV. cbv zeta. destruct (Rlt_dec _ _). ring. destruct (Rlt_dec _ _); [|lra]. assert (E : time_to_max A M g = 0) by lra. rewrite E. ring. }
    assert (U1 : sU A M g (INR n * h) = M * (INR n * h) + (M / ln (1 + g) - M * time_to_max A M g)).
    { unfold sU. cbv zeta. destruct (Rlt_dec _ _); [lra|]. auto. }
    assert (V1 : sV A M g W (INR n * h) = M * time_to_max A M g + M^2 / (2 * W)).
    { unfold sV. cbv zeta. destruct (Rlt_dec _ _); [lra|]. destruct (Rlt_dec _ _); [lra|]. auto. }
    rewrite U0, V0, U1, V1 in RF.
    replace ((M - A) / ln (1 + g) + M^2 / (2 * W)) with
      (M * (INR n * h) + (M / ln (1 + g) - M * time_to_max A M g) - A / ln (1 + g) + (M * time_to_max A M g + M^2 / (2 * W) - 0) - M * (INR n * h)) by (field; lra).
    apply RF.
    - intros t Ht. unfold su, sv. cbv zeta. destruct (Rlt_dec t (time_to_max A M g)).
      + split; [|lra]. split. apply Rmult_le_pos; [lra|]. left; apply exp_pos. apply Rle_trans with (A * exp (ln (1 + g) * time_to_max A M g)); [|lra]. apply Rmult_le_compat_l; [lra|].
        apply exp_le. apply Rmult_le_compat_l; lra.
      + split; [lra|]. split. apply Rmax_l. apply Rmax_lub; nra.
    - intros t Ht. unfold sf, su, sv. cbv zeta. destruct (Rlt_dec t (time_to_max A M g)); ring. }
  intros A M g W h n HA Hg HW Hh. split.
  - destruct (Req_dec h 0) as [->|Hh0].
    { pose proof (ln1p_pos g Hg). assert (0 <= (M - A) / ln (1 + g)) by (apply le_div; lra).
      assert (0 <= M^2 / (2 * W)) by (apply le_div; [lra|]; rewrite Rmult_0_l; apply pow2_ge_0). lra. }
    destruct (nfloor_ex ((Rabs (time_to_max A M g + M / W)) / h)) as [m Hm].
    { apply le_div; [lra|]. rewrite Rmult_0_l. apply Rabs_pos. }
    set (N := Nat.max n (S m)).
    assert (L : rs (sf A M g W) h n <= rs (sf A M g W) h N).
    { apply rs_mono; auto. intros; apply sf_nonneg; lra. unfold N; lia. }
    assert (B : time_to_max A M g + M / W <= INR N * h).
    { assert (INR (S m) <= INR N) by (apply le_INR; unfold N; lia). rewrite S_INR in *.
      assert (Rabs (time_to_max A M g + M / W) <= (INR m + 1) * h). { destruct Hm as [_ Hm]. left. replace (Rabs (time_to_max A M g + M / W)) with (Rabs (time_to_max A M g + M / W) / h * h) by (field; lra). apply Rmult_lt_compat_r; lra. }
      pose proof (Rle_abs (time_to_max A M g + M / W)). nra. }
    pose proof (X A M g W h N HA Hg HW Hh B) as Y. apply Rabs_le_between in Y.
    assert (h * rs (sf A M g W) h n <= h * rs (sf A M g W) h N) by (apply Rmult_le_compat_l; auto). lra.
  - intros B. pose proof (X A M g W h n HA Hg HW Hh B) as Y. apply Rabs_le_between in Y. lra.
Qed.
Lemma sf_RInt : forall A M g W, 0 < A <= M -> 0 < g -> 0 < W ->
  is_RInt (sf A M g W) 0 (time_to_max A M g + M / W) ((M - A) / ln (1 + g) + M^2 / (2 * W)).
Proof.
  intros A M g W HA Hg HW. pose proof (ln1p_pos g Hg) as K. pose proof (ttm_nonneg A M g HA Hg) as HT. pose proof (ttm_max A M g HA Hg) as TM.
  set (k := ln (1 + g)) in *. set (T := time_to_max A M g) in *. assert (MW : 0 < M / W) by (apply Rdiv_lt_0_compat; lra).
  assert (ME : W * (M / W) = M) by (field; lra).
  apply (@is_RInt_Chasles R_NormedModule _ 0 T (T + M / W) ((M - A) / k) (M^2 / (2 * W))).
  - apply (is_RInt_ext (fun t => A * exp (k * t))).
    + intros x Hx. rewrite Rmin_left, Rmax_right in Hx by lra. unfold sf. cbv zeta. fold T k. destruct (Rlt_dec x T); [auto|lra].
    + replace ((M - A) / k) with (A / k * (exp (k * T) - exp (k * 0))). apply is_RInt_exp_up. lra.
      rewrite Rmult_0_r, exp_0. replace (A / k * (exp (k * T) - 1)) with ((A * exp (k * T) - A) / k) by (field; lra). rewrite TM. auto.
  - apply (is_RInt_ext (fun t => M - W * (t - T))).
    + intros x Hx. rewrite Rmin_left, Rmax_right in Hx by lra. unfold sf. cbv zeta. fold T. destruct (Rlt_dec x T); [lra|].
      rewrite Rmax_right; auto. nra.
    + replace (M^2 / (2 * W)) with (minus (M * (T + M / W) - W / 2 * (T + M / W - T)^2) (M * T - W / 2 * (T - T)^2)).
      2:{ unfold minus, plus, opp; simpl. field. lra. }
      apply (is_RInt_derive (fun t => M * t - W / 2 * (t - T)^2) (fun t => M - W * (t - T))).
      * intros. auto_derive; auto. field.
      * intros. apply (ex_derive_continuous (fun t => M - W * (t - T))). auto_derive. auto.
Qed.

(** ** the area of one facula *)
Definition ff (rm L t : R) : R := if Rlt_dec t (2 * L) then PI * (rm * exp (-2 * Rabs (t - L) / L))^2 else 0.
Definition fu (P L t : R) : R := if Rlt_dec t L then P * exp (-4) * exp (4 / L * t) else P.
Definition fU (P L t : R) : R := if Rlt_dec t L then P * exp (-4) / (4 / L) * exp (4 / L * t) else P * t + (P / (4 / L) - P * L).
Definition fv (P L t : R) : R := if Rlt_dec t L then P else if Rlt_dec t (2 * L) then P * exp 4 * exp (- (4 / L) * t) else 0.
Definition fV (P L t : R) : R :=
  if Rlt_dec t L then P * t else
  if Rlt_dec t (2 * L) then - (P * exp 4 / (4 / L)) * exp (- (4 / L) * t) + (P * L + P / (4 / L))
  else P * L + P * (1 - exp (-4)) / (4 / L).
Lemma ff_nonneg : forall rm L t, 0 <= ff rm L t.
Proof.
  intros. unfold ff. destruct (Rlt_dec _ _); [|lra]. apply Rmult_le_pos; [pose proof PI_RGT_0; lra|]. apply pow2_ge_0.
Qed.
Lemma e44 : exp (-4) * exp 4 = 1.
Proof. rewrite <- exp_plus. replace (-4 + 4) with 0 by ring. apply exp_0. Qed.
Lemma fU_ups : forall P L q, 0 < P -> 0 < L -> ups (fu P L) (fU P L) 0 q.
Proof.
  intros P L q HP HL. assert (K : 0 < 4 / L) by (apply Rdiv_lt_0_compat; lra). assert (KL : 4 / L * L = 4) by (field; lra).
  pose proof (exp_pos (-4)) as E4. pose proof e44 as EE. assert (C : 0 < P * exp (-4)) by (apply Rmult_lt_0_compat; lra).
  assert (X : P * exp (-4) * exp (4 / L * L) = P) by (rewrite KL, Rmult_assoc, EE; ring).
  apply (ups_glue _ _ 0 L); [lra| | |].
  - apply (ups_ext _ (fun t => P * exp (-4) * exp (4 / L * t)) _ (fun t => P * exp (-4) / (4 / L) * exp (4 / L * t))); [|apply ups_exp; lra].
    intros t H1 H2. unfold fu, fU. destruct (Rlt_dec t L); auto. assert (t = L) by lra. subst t. split; auto.
    replace (P * exp (-4) / (4 / L) * exp (4 / L * L)) with ((P * exp (-4) * exp (4 / L * L)) / (4 / L)) by (field; lra). rewrite X. ring.
  - apply (ups_ext _ (fun t => P) _ (fun t => P * t + (P / (4 / L) - P * L))); [|apply ups_const].
    intros t H1 H2. unfold fu, fU. destruct (Rlt_dec t L); [lra|auto].
  - intros a b Ha Hab _. unfold fu.
    assert (LE : forall x y, x <= y -> P * exp (-4) * exp (4 / L * x) <= P * exp (-4) * exp (4 / L * y)).
    { intros x y Hx. apply Rmult_le_compat_l; [lra|]. apply exp_le. apply Rmult_le_compat_l; lra. }
    destruct (Rlt_dec a L), (Rlt_dec b L); try lra. apply LE; lra. rewrite <- X at 2. apply LE; lra.
Qed.
Lemma fV_downs : forall P L q, 0 < P -> 0 < L -> downs (fv P L) (fV P L) 0 q.
Proof.
  intros P L q HP HL. assert (K : 0 < 4 / L) by (apply Rdiv_lt_0_compat; lra). assert (KL : - (4 / L) * L = -4) by (field; lra).
  assert (KL2 : - (4 / L) * (2 * L) = -4 + -4) by (field; lra).
  pose proof (exp_pos 4) as E4. pose proof e44 as EE. assert (C : 0 < P * exp 4) by (apply Rmult_lt_0_compat; lra).
  assert (X : P * exp 4 * exp (- (4 / L) * L) = P) by (rewrite KL, Rmult_assoc, (Rmult_comm (exp 4)), EE; ring).
  assert (LE : forall x y, x <= y -> P * exp 4 * exp (- (4 / L) * y) <= P * exp 4 * exp (- (4 / L) * x)).
  { intros x y Hx. apply Rmult_le_compat_l; [lra|]. apply exp_le. nra. }
  assert (NN : forall x, 0 <= P * exp 4 * exp (- (4 / L) * x)) by (intros; apply Rmult_le_pos; [lra|]; left; apply exp_pos).
  assert (DM : forall a b, a <= b -> fv P L b <= fv P L a).
  { intros a b Hab. unfold fv. destruct (Rlt_dec a L), (Rlt_dec b L), (Rlt_dec a (2 * L)), (Rlt_dec b (2 * L)); try lra; try apply LE; try apply NN; try lra.
    rewrite <- X at 2. apply LE; lra. }
  apply (downs_glue _ _ 0 L); [lra| | |auto].
  - apply (downs_ext _ (fun t => P) _ (fun t => P * t + 0)); [|apply downs_const].
    intros t H1 H2. unfold fv, fV. destruct (Rlt_dec t L). split; ring. assert (t = L) by lra. subst t.
    destruct (Rlt_dec _ _); [|lra]. split; auto.
    replace (- (P * exp 4 / (4 / L)) * exp (- (4 / L) * L)) with (- ((P * exp 4 * exp (- (4 / L) * L)) / (4 / L))) by (field; lra). rewrite X. ring.
  - apply (downs_glue _ _ L (2 * L)); [lra| | |auto].
    + intros a b Ha Hab Hb.
      assert (VE : forall t, L <= t -> t <= 2 * L -> fV P L t = - (P * exp 4 / (4 / L)) * exp (- (4 / L) * t) + (P * L + P / (4 / L))).
      { intros t H1 H2. unfold fV. destruct (Rlt_dec t L); [lra|]. destruct (Rlt_dec _ _); auto. assert (t = 2 * L) by lra. subst t.
        replace (- (P * exp 4 / (4 / L)) * exp (- (4 / L) * (2 * L))) with (- (P * (exp 4 * exp (- (4 / L) * (2 * L))) / (4 / L))) by (field; lra).
        replace (exp 4 * exp (- (4 / L) * (2 * L))) with (exp (-4)) by (rewrite KL2, <- exp_plus; f_equal; ring). field. lra. }
      rewrite !VE by lra. pose proof (downs_exp (P * exp 4) (4 / L) L (2 * L) ltac:(lra) K a b Ha Hab Hb) as D. cbv beta in D.
      set (X1 := - (P * exp 4 / (4 / L)) * exp (- (4 / L) * b)) in *. set (X2 := - (P * exp 4 / (4 / L)) * exp (- (4 / L) * a)) in *.
      unfold fv. destruct (Rlt_dec a L); [lra|]. destruct (Rlt_dec b L); [lra|]. destruct (Rlt_dec b (2 * L)).
      * destruct (Rlt_dec a (2 * L)); [|lra]. lra.
      * assert (0 <= (b - a) * (P * exp 4 * exp (- (4 / L) * b))) by (apply Rmult_le_pos; [lra|apply NN]).
        destruct (Rlt_dec a (2 * L)). lra. assert (E : b = a) by lra. unfold X1, X2. rewrite E. lra.
    + apply (downs_ext _ (fun t => 0) _ (fun t => 0 * t + (P * L + P * (1 - exp (-4)) / (4 / L)))); [|apply downs_const].
      intros t H1 H2. unfold fv, fV. destruct (Rlt_dec t L); [lra|]. destruct (Rlt_dec _ _); [lra|]. split; ring.
Qed.
Lemma fac_rs : forall rm L h n, 0 < rm -> 0 < L -> 0 <= h ->
  h * rs (ff rm L) h n <= PI * rm^2 * L * (1 - exp (-4)) / 2 + PI * rm^2 * h
  /\ (2 * L <= INR n * h -> PI * rm^2 * L * (1 - exp (-4)) / 2 - PI * rm^2 * h <= h * rs (ff rm L) h n).
Proof.
  assert (X : forall rm L h n, 0 < rm -> 0 < L -> 0 <= h -> 2 * L <= INR n * h ->
    Rabs (h * rs (ff rm L) h n - (PI * rm^2 * L * (1 - exp (-4)) / 2)) <= PI * rm^2 * h).
  { intros rm L h n Hr HL Hh Hn. pose proof PI_RGT_0 as PP. assert (R2 : 0 < rm^2) by (apply pow_lt; auto).
    assert (HP : 0 < PI * rm^2) by (apply Rmult_lt_0_compat; auto). set (P := PI * rm^2) in *.
    assert (K : 0 < 4 / L) by (apply Rdiv_lt_0_compat; lra). pose proof (exp_pos 4) as E4. pose proof e44 as EE.
    pose proof (rise_fall (fu P L) (fv P L) (ff rm L) (fU P L) (fV P L) P h n (INR n * h) Hh ltac:(lra)
      (fU_ups P L _ HP HL) (fV_downs P L _ HP HL)) as RF.
    assert (U0 : fU P L 0 = P * exp (-4) / (4 / L)).
    { unfold fU. destruct (Rlt_dec _ _); [|lra]. rewrite Rmult_0_r, exp_0. ring. }
    assert (V0 : fV P L 0 = 0).
    { unfold fV. destruct (Rlt_dec _ _); [|lra]. ring. }
    assert (U1 : fU P L (INR n * h) = P * (INR n * h) + (P / (4 / L) - P * L)).
    { unfold fU. destruct (Rlt_dec _ _); [lra|]. auto. }
    assert (V1 : fV P L (INR n * h) = P * L + P * (1 - exp (-4)) / (4 / L)).
    { unfold fV. destruct (Rlt_dec _ _); [lra|]. destruct (Rlt_dec _ _); [lra|]. auto. }
    rewrite U0, V0, U1, V1 in RF.
    replace (P * L * (1 - exp (-4)) / 2) with
      (P * (INR n * h) + (P / (4 / L) - P * L) - P * exp (-4) / (4 / L) + (P * L + P * (1 - exp (-4)) / (4 / L) - 0) - P * (INR n * h)) by (field; lra).
    assert (LE : forall x, x <= L -> P * exp (-4) * exp (4 / L * x) <= P).
    { intros x Hx. rewrite Rmult_assoc, <- exp_plus. rewrite <- (Rmult_1_r P) at 2. apply Rmult_le_compat_l; [lra|]. rewrite <- exp_0.
      apply exp_le. assert (4 / L * x <= 4); [|lra]. replace 4 with (4 / L * L) at 2 by (field; lra). apply Rmult_le_compat_l; lra. }
    assert (LV : forall x, L <= x -> P * exp 4 * exp (- (4 / L) * x) <= P).
    { intros x Hx. rewrite Rmult_assoc, <- exp_plus. rewrite <- (Rmult_1_r P) at 2. apply Rmult_le_compat_l; [lra|]. rewrite <- exp_0.
      apply exp_le. assert (4 <= 4 / L * x); [|lra]. replace 4 with (4 / L * L) at 1 by (field; lra). apply Rmult_le_compat_l; lra. }
    assert (N1 : forall c x, 0 < c -> 0 <= P * c * exp x) by (intros; apply Rmult_le_pos; [apply Rmult_le_pos; lra|]; left; apply exp_pos).
    apply RF.
    - intros t Ht. unfold fu, fv. destruct (Rlt_dec t L).
      + split; [|lra]. split. apply N1, exp_pos. apply LE; lra.
      + split; [lra|]. destruct (Rlt_dec _ _); [|lra]. split. apply N1, exp_pos. apply LV; lra.
    - intros t Ht. unfold ff, fu, fv. destruct (Rlt_dec t L).
      + destruct (Rlt_dec _ _); [|lra]. rewrite Rabs_left by lra. rewrite Rpow_mult_distr, <- Rmult_assoc. fold P.
        replace (exp (-2 * - (t - L) / L) ^ 2) with (exp (-4) * exp (4 / L * t)). ring.
        rewrite <- exp_plus. simpl. rewrite Rmult_1_r, <- exp_plus. f_equal. field. lra.
      + destruct (Rlt_dec _ _); [|ring]. rewrite Rabs_right by lra. rewrite Rpow_mult_distr, <- Rmult_assoc. fold P.
        replace (exp (-2 * (t - L) / L) ^ 2) with (exp 4 * exp (- (4 / L) * t)). ring.
        rewrite <- exp_plus. simpl. rewrite Rmult_1_r, <- exp_plus. f_equal. field. lra. }
  intros rm L h n Hr HL Hh. split.
  - destruct (Req_dec h 0) as [->|Hh0].
    { assert (0 <= PI * rm^2 * L * (1 - exp (-4)) / 2); [|lra]. pose proof PI_RGT_0. assert (0 <= PI * rm^2) by (apply Rmult_le_pos; [lra|apply pow2_ge_0]).
      assert (exp (-4) <= 1) by (rewrite <- exp_0; apply exp_le; lra). apply le_div; [lra|]. rewrite Rmult_0_l.
      apply Rmult_le_pos; [apply Rmult_le_pos|]; lra. }
    destruct (nfloor_ex (2 * L / h)) as [m Hm]. { apply le_div; lra. }
    set (N := Nat.max n (S m)).
    assert (LL : rs (ff rm L) h n <= rs (ff rm L) h N).
    { apply rs_mono; auto. intros; apply ff_nonneg. unfold N; lia. }
    assert (B : 2 * L <= INR N * h).
    { assert (INR (S m) <= INR N) by (apply le_INR; unfold N; lia). rewrite S_INR in *.
      assert (2 * L <= (INR m + 1) * h). { destruct Hm as [_ Hm]. left. replace (2 * L) with (2 * L / h * h) by (field; lra). apply Rmult_lt_compat_r; lra. }
      assert ((INR m + 1) * h <= INR N * h) by (apply Rmult_le_compat_r; lra). lra. }
    pose proof (X rm L h N Hr HL Hh B) as Y. apply Rabs_le_between in Y.
    assert (h * rs (ff rm L) h n <= h * rs (ff rm L) h N) by (apply Rmult_le_compat_l; auto). lra.
  - intros B. pose proof (X rm L h n Hr HL Hh B) as Y. apply Rabs_le_between in Y. lra.
Qed.

(** ** a population of spots *)
Definition stot (l : list spot) (t : R) : R := rsum (map (fun x => val (sp_area x)) (aged_list l t)).
Lemma stot_app : forall a b t, stot (a ++ b) t = stot a t + stot b t.
Proof. intros. unfold stot, aged_list. rewrite map_app, filter_app, map_app, rsum_app. auto. Qed.
Lemma stot_aged : forall l a t, (forall s, In s l -> spot_wf s) -> 0 <= a -> 0 <= t -> stot (aged_list l a) t = stot l (a + t).
Proof. intros. unfold stot. rewrite aged_list_add; auto. Qed.
Lemma rs_shift : forall f h n, rs f h (S n) = f h + rs (fun t => f (h + t)) h n.
Proof.
  induction n. cbn [rs]. replace (INR 1 * h) with h by (simpl; ring). ring.
  change (rs f h (S (S n))) with (rs f h (S n) + f (INR (S (S n)) * h)). rewrite IHn. cbn [rs].
  replace (INR (S (S n)) * h) with (h + INR (S n) * h) by (rewrite (S_INR (S n)); ring). ring.
Qed.
Lemma rs_stot : forall l h n, rs (stot l) h n = rsum (map (fun x => rs (stot [x]) h n) l).
Proof.
  induction l; intros. cbn [map rsum fold_right]. induction n; cbn [rs]; auto. rewrite IHn. cbn. ring.
  cbn [map rsum fold_right]. change (fold_right Rplus 0 (map (fun x => rs (stot [x]) h n) l)) with (rsum (map (fun x => rs (stot [x]) h n) l)).
  rewrite <- IHl. change (a :: l) with ([a] ++ l). rewrite <- rs_plus. clear IHl. induction n; cbn [rs]; auto. rewrite IHn, stot_app. auto.
Qed.
Lemma cycle_step : forall s1 dt s2, star_age s1 (Fin dt) = Ok s2 -> (forall x, In x (sc_spots (st_spots s1)) -> spot_wf x) ->
  sc_spots (st_spots s2) = aged_list (sc_spots (st_spots s1)) dt /\ st_spotgen s2 = st_spotgen s1 /\ st_radius s2 = st_radius s1.
Proof.
  intros s1 dt s2 H W. unfold star_age in H. destruct (st_spots s1) as [l g] eqn:E. rewrite sc_age_eq in H by auto. cbn [bind] in H.
  injection H as <-. auto.
Qed.
Lemma spot_cycles_sum : forall dt s ls ss, spot_cycles dt s ls ss -> 0 <= dt ->
  (forall x, In x (sc_spots (st_spots s)) -> spot_wf x) -> (forall l x, In l ls -> In x l -> spot_wf x) ->
  rsum (map spot_total ss) = rs (stot (sc_spots (st_spots s))) dt (length ls) + tally (fun x n => rs (stot [x]) dt n) ls
  /\ (ls <> [] -> spot_total (last ss s) = stot (sc_spots (st_spots s)) (INR (length ls) * dt) + tally (fun x n => stot [x] (INR n * dt)) ls)
  /\ length ss = length ls.
Proof.
  intros dt s ls ss H. induction H as [s|s n d fuel s1 l s2 ls ss H1 H2 H3 H4 IH]; intros Hdt W WL.
  - cbn. split. ring. split; [congruence|auto].
  - assert (W1 : forall x, In x (sc_spots (st_spots s1)) -> spot_wf x).
    { rewrite H2. intros x I. apply in_app_or in I. destruct I; auto. apply (WL l); auto. left; auto. }
    destruct (cycle_step _ _ _ H3 W1) as [E2 _].
    destruct IH as [I1 [I2 I3]]; auto.
    { rewrite E2. intros x. apply aged_list_wf; auto. } { intros l0 x A B. apply (WL l0); auto. right; auto. }
    assert (N0 : forall k, 0 <= INR k * dt) by (intros; apply Rmult_le_pos; auto; apply pos_INR).
    assert (ST : spot_total s2 = stot (sc_spots (st_spots s) ++ l) dt) by (unfold spot_total, stot; rewrite E2, H2; auto).
    assert (RE : forall m, rs (stot (sc_spots (st_spots s2))) dt m = rs (fun t => stot (sc_spots (st_spots s) ++ l) (dt + t)) dt m).
    { intros m. apply rs_ext; auto. intros t Ht. rewrite E2, H2. apply stot_aged; auto. rewrite <- H2. auto. }
    split; [|split].
    + cbn [map rsum fold_right tally]. change (fold_right Rplus 0 (map spot_total ss)) with (rsum (map spot_total ss)).
      rewrite I1, RE, ST, <- Rplus_assoc. cbn [length]. rewrite <- (rs_shift (stot (sc_spots (st_spots s) ++ l))).
      rewrite <- Rplus_assoc. f_equal. rewrite <- (rs_stot l dt (S (length ls))), <- rs_plus. apply rs_ext; auto. intros; apply stot_app.
    + intros _. destruct ls as [|l' ls].
      * inversion H4; subst. cbn [last]. rewrite ST. cbn [length tally]. replace (INR 1 * dt) with dt by (simpl; ring).
        rewrite stot_app, Rplus_0_r. f_equal. clear. induction l. auto. cbn [map rsum fold_right].
        change (a :: l) with ([a] ++ l). rewrite stot_app, IHl. auto.
      * destruct ss as [|s' ss]; [discriminate|]. specialize (I2 ltac:(discriminate)).
        change (last (s2 :: s' :: ss) s) with (last (s' :: ss) s). assert (LE : last (s' :: ss) s = last (s' :: ss) s2).
        { clear. revert s'. induction ss; intros; auto. change (last (s' :: a :: ss) s) with (last (a :: ss) s). rewrite IHss. auto. }
        rewrite LE, I2. cbn [tally]. cbn [tally] in I2. rewrite <- !Rplus_assoc. do 2 f_equal.
        rewrite E2, H2, stot_aged, stot_app by (auto; rewrite <- H2; auto).
        replace (dt + INR (length (l' :: ls)) * dt) with (INR (length (l :: l' :: ls)) * dt) by (cbn [length]; rewrite (S_INR (S _)); ring).
        f_equal. generalize (length (l :: l' :: ls)). clear. intros n. induction l. auto. cbn [map rsum fold_right].
        change (a :: l) with ([a] ++ l). rewrite stot_app, IHl. auto.
    + cbn [length]. rewrite I3. auto.
Qed.
Lemma stot_one : forall s A M g W t, spot_params s A M g W -> sp_growing s = true -> 0 < A <= M -> 0 < g -> 0 < W -> 0 <= t ->
  stot [s] t = sf A M g W t.
Proof.
  intros s A M g W t P G HA Hg HW Ht. pose proof (ttm_nonneg A M g HA Hg) as HT.
  unfold stot, aged_list, agef, sf. cbn [map]. rewrite (spot_age_growing s A M g W t) by auto. cbv zeta.
  set (T := time_to_max A M g) in *. destruct (Rlt_dec t T).
  - cbn [filter map]. unfold alivef, spot_dead. cbn [sp_area sp_growing spot_with_area negb andb]. rewrite andb_false_r. cbn. ring.
  - destruct (Rlt_dec M ((t - T) * W)).
    + cbn [filter map]. unfold alivef, spot_dead. cbn [sp_area sp_growing spot_with_area]. cbn [nle negb].
      rewrite (proj2 (Rleb_true 0 0)) by lra. cbn. rewrite Rmax_left; lra.
    + cbn [filter map]. unfold alivef, spot_dead. cbn [sp_area sp_growing spot_with_area]. cbn [nle negb]. rewrite andb_true_r.
      destruct (Rleb (M - (t - T) * W) 0) eqn:E; cbn.
      * apply Rleb_true in E. rewrite Rmax_left; lra.
      * apply Rleb_false in E. rewrite Rmax_right by lra. ring.
Qed.
Lemma tally_le : forall {A} (w w' : A -> nat -> R) ls, (forall l x n, In l ls -> In x l -> w x n <= w' x n) -> tally w ls <= tally w' ls.
Proof.
  induction ls; intros H; cbn [tally]. lra. apply Rplus_le_compat.
  - apply rsum_map_le. intros x I. apply (H a); auto. left; auto.
  - apply IHls. intros l x n I J. apply (H l); auto. right; auto.
Qed.
Lemma tally_scal : forall {A} (w : A -> nat -> R) c ls, tally (fun x n => c * w x n) ls = c * tally w ls.
Proof. induction ls; cbn [tally]. ring. rewrite IHls, rsum_map_scal. ring. Qed.
Lemma tally_ext : forall {A} (w w' : A -> nat -> R) ls, (forall l x n, In l ls -> In x l -> w x n = w' x n) -> tally w ls = tally w' ls.
Proof. intros. apply Rle_antisym; apply tally_le; intros; rewrite (H l) by auto; lra. Qed.
(** what is born *)
Definition fresh (s : spot) : Prop :=
  exists A M g W, spot_params s A M g W /\ sp_growing s = true /\ 0 < A <= M /\ 0 < g /\ 0 < W.
Lemma fresh_wf : forall s, fresh s -> spot_wf s.
Proof. intros s [A [M [g [W [P [G [HA [Hg HW]]]]]]]]. exists A, M, g, W. repeat (split; auto); lra. Qed.
Lemma birth_born : forall s dt n d fuel s1 l M A g W, star_birth_spots s (Fin dt) n d fuel = Ok s1 ->
  sc_spots (st_spots s1) = sc_spots (st_spots s) ++ l -> sg_params (st_spotgen s) M A g W -> 0 < M ->
  st_spotgen s1 = st_spotgen s /\ st_radius s1 = st_radius s
  /\ (forall x, In x l -> sp_growing x = true /\ exists m, spot_params x A m g W /\ 0 < m
        /\ (sg_logsigma (st_spotgen s) = 0 -> m = M)).
Proof.
  intros s dt n d fuel s1 l M A g W H E P HM. unfold star_birth_spots in H. apply bind_ok in H. destruct H as [l0 [H1 H2]]. injection H2 as <-.
  split; auto. split; auto. cbn [star_add_spot star_with_spots st_spots sc_spots sc_add_spot] in E. apply app_inv_head in E. subst l.
  unfold sg_birth in H1. apply bind_ok in H1. destruct H1 as [ne [_ H1]]. apply bind_ok in H1. destruct H1 as [n' [_ H1]].
  intros x I. apply in_map_iff in I. destruct I as [y [<- I]]. destruct C25_lemma as [C _]. destruct (C _ _ _ _ _ H1) as [L [k [_ [_ D]]]].
  destruct (In_nth l0 y y I) as [i [Hi Ey]]. specialize (D i y ltac:(lia)). rewrite Ey in D. destruct D as [[N1 [N2 [_ [_ [N3 [N4 [N5 _]]]]]]] [_ [_ [_ Q]]]].
  destruct P as [P1 [P2 [P3 [P4 P5]]]]. destruct (Q M P1 HM) as [a [Qa [Qp Ql]]].
  split. auto. exists a. split. { unfold spot_params. cbn. rewrite N2, N3, N4, N5. auto. } split; auto.
  intros S0. rewrite S0, Rmult_0_l, Rplus_0_r in Ql. apply ln_inv; auto.
Qed.
Lemma cycles_born : forall dt s ls ss M A g W, spot_cycles dt s ls ss -> 0 <= dt -> sg_params (st_spotgen s) M A g W ->
  0 < M -> 0 < A -> 0 < g -> 0 < W ->
  (forall x, In x (sc_spots (st_spots s)) -> spot_wf x) ->
  (forall l x, In l ls -> In x l -> val (sp_area x) <= val (sp_area_max x)) ->
  forall l x, In l ls -> In x l -> sp_growing x = true /\ exists m, spot_params x A m g W /\ A <= m /\ (sg_logsigma (st_spotgen s) = 0 -> m = M).
Proof.
  intros dt s ls ss M A g W H. induction H as [s|s n d fuel s1 l s2 ls ss H1 H2 H3 H4 IH]; intros Hdt P HM HA Hg HW W0 B. { intros ? ? []. }
  destruct (birth_born _ _ _ _ _ _ _ _ _ _ _ H1 H2 P HM) as [G1 [_ N]].
  assert (N' : forall x, In x l -> sp_growing x = true /\ exists m, spot_params x A m g W /\ A <= m /\ (sg_logsigma (st_spotgen s) = 0 -> m = M)).
  { intros x I. destruct (N x I) as [Gx [m [Px [Pm Q]]]]. split; auto. exists m. split; auto. split; auto.
    specialize (B l x (or_introl eq_refl) I). destruct Px as [E1 [E2 _]]. rewrite E1, E2 in B. auto. }
  assert (W1 : forall x, In x (sc_spots (st_spots s1)) -> spot_wf x).
  { rewrite H2. intros x I. apply in_app_or in I. destruct I as [I|I]; auto. destruct (N' x I) as [_ [m [Px [Am _]]]].
    exists A, m, g, W. repeat (split; auto); lra. }
  destruct (cycle_step _ _ _ H3 W1) as [E2 [G2 _]].
  intros l0 x [<-|I] J. auto. rewrite <- G1, <- G2. apply (IH Hdt) with (l := l0); auto.
  - rewrite G2, G1. auto.
  - rewrite E2. intros y. apply aged_list_wf; auto.
  - intros l1 y K1 K2. apply (B l1); auto. right; auto.
Qed.

Lemma C92_lemma : forall dt s births stars M A g W,
  spot_cycles dt s births stars -> 0 < dt -> sc_spots (st_spots s) = [] ->
  sg_params (st_spotgen s) M A g W -> 0 < M -> 0 < A -> 0 < g -> 0 < W ->
  (forall l x, In l births -> In x l -> val (sp_area x) <= val (sp_area_max x)) ->
  (* every spot contributes the time integral of its area, up to its largest area times dt *)
  tally (fun x n => if Rle_dec (spot_life x) (INR n * dt) then spot_area_time x - val (sp_area_max x) * dt else 0) births
    <= dt * rsum (map spot_total stars)
    <= tally (fun x _ => spot_area_time x + val (sp_area_max x) * dt) births
  (* which is what the spot really has, when it is aged *)
  /\ (forall l x, In l births -> In x l ->
        exists area : R -> R,
          (forall t, 0 <= t -> exists x' b, spot_age x (Fin t) = Ok x' /\ aged_to x x' (area t) b)
          /\ (forall t, spot_life x <= t -> area t = 0)
          /\ is_RInt area 0 (spot_life x) (spot_area_time x)).
Proof.
  intros dt s ls ss M A g W H Hdt E0 P HM HA Hg HW B.
  assert (W0 : forall x, In x (sc_spots (st_spots s)) -> spot_wf x) by (rewrite E0; intros x []).
  pose proof (cycles_born dt s ls ss M A g W H ltac:(lra) P HM HA Hg HW W0 B) as N.
  assert (WL : forall l x, In l ls -> In x l -> spot_wf x).
  { intros l x I J. destruct (N l x I J) as [_ [m [Px [Am _]]]]. exists A, m, g, W. repeat (split; auto); lra. }
  destruct (spot_cycles_sum dt s ls ss H ltac:(lra) W0 WL) as [SU _]. rewrite E0 in SU.
  assert (Z : forall n, rs (stot []) dt n = 0). { intros n. rewrite (rs_ext _ (fun _ => 0)) by (auto; lra). rewrite rs_const. ring. }
  rewrite Z, Rplus_0_l in SU. rewrite SU, <- tally_scal.
  assert (RS : forall l x n, In l ls -> In x l -> exists m, A <= m /\ spot_params x A m g W /\ rs (stot [x]) dt n = rs (sf A m g W) dt n).
  { intros l x n I J. destruct (N l x I J) as [G [m [Px [Am _]]]]. exists m. split; auto. split; auto. apply rs_ext; [lra|].
    intros t Ht. apply stot_one; auto; lra. }
  split; [split|].
  - apply tally_le. intros l x n I J. destruct (RS l x n I J) as [m [Am [Px ->]]].
    pose proof (spot_rs A m g W dt n ltac:(lra) Hg HW ltac:(lra)) as [_ Q]. destruct Px as [E1 [E2 [E3 [_ E5]]]].
    unfold spot_life, spot_area_time. rewrite E1, E2, E3, E5. cbn [val]. destruct (Rle_dec _ _). auto.
    apply Rmult_le_pos; [lra|]. apply rs_nonneg; [lra|]. intros; apply sf_nonneg; auto.
  - apply tally_le. intros l x n I J. destruct (RS l x n I J) as [m [Am [Px ->]]].
    pose proof (spot_rs A m g W dt n ltac:(lra) Hg HW ltac:(lra)) as [Q _]. destruct Px as [E1 [E2 [E3 [_ E5]]]].
    unfold spot_life, spot_area_time. rewrite E1, E2, E3, E5. auto.
  - intros l x I J. destruct (N l x I J) as [G [m [Px [Am _]]]]. pose proof Px as [E1 [E2 [E3 [_ E5]]]].
    unfold spot_life, spot_area_time. rewrite E1, E2, E3, E5. cbn [val]. exists (sf A m g W). split; [|split].
    + intros t Ht. rewrite (spot_age_growing x A m g W t) by (auto; lra). unfold sf. cbv zeta. set (T := time_to_max A m g).
      destruct (Rlt_dec t T). do 2 eexists; split; [reflexivity|apply with_area_aged].
      destruct (Rlt_dec m ((t - T) * W)); do 2 eexists; (split; [reflexivity|]).
      rewrite Rmax_left by lra. apply with_area_aged. rewrite Rmax_right by lra. rewrite (Rmult_comm W). apply with_area_aged.
    + intros t Ht. assert (0 < m / W) by (apply Rdiv_lt_0_compat; lra). assert (m = m / W * W) by (field; lra).
      unfold sf. cbv zeta. destruct (Rlt_dec _ _); [lra|]. apply Rmax_left. nra.
    + apply sf_RInt; lra.
Qed.

Lemma C92_cover_lemma : forall dt s births stars M A g W c ne,
  spot_cycles dt s births stars -> births <> [] -> 0 < dt -> sc_spots (st_spots s) = [] -> 0 < st_radius s ->
  sg_params (st_spotgen s) M A g W -> 0 < A <= M -> 0 < g -> 0 < W -> sg_coverage (st_spotgen s) = Fin c -> 0 < c ->
  sg_logsigma (st_spotgen s) = 0 -> sg_n_expected (st_spotgen s) (Fin dt) (st_radius s) = Ok (Fin ne) ->
  let q := real_area_time M A g W / assumed_area_time M A g W in
  let slack := M * dt / real_area_time M A g W in
  let life := time_to_max A M g + M / W in
  let N := INR (length births) in
  (* on average over the cycles: births over expected births, times q, times the coverage asked for *)
  born_early life dt births / (N * ne) * (c * q) * (1 - slack) <= mean_spot_cover stars (st_radius s)
    <= born births / (N * ne) * (c * q) * (1 + slack)
  (* and at the end of the last cycle, when the same number of spots was born in each *)
  /\ (forall k, (forall l, In l births -> length l = k) -> life <= N * dt ->
        INR k / ne * (c * q) * (1 - slack) <= mean_spot_cover [last stars s] (st_radius s)
          <= INR k / ne * (c * q) * (1 + slack)).
Proof.
  intros dt s ls ss M A g W c ne H NE Hdt E0 HR P HA Hg HW Hc C0 S0 EN q slack life N.
  assert (W0 : forall x, In x (sc_spots (st_spots s)) -> spot_wf x) by (rewrite E0; intros x []).
  pose proof (ln1p_pos g Hg) as K.
  assert (B : forall l x, In l ls -> In x l -> val (sp_area x) <= val (sp_area_max x)).
  { clear - H P HA Hg HW S0 W0 Hdt. revert P S0 W0. induction H as [s|s n d fuel s1 l s2 ls ss H1 H2 H3 H4 IH]; intros P S0 W0. { intros ? ? []. }
    destruct (birth_born _ _ _ _ _ _ _ _ _ _ _ H1 H2 P ltac:(lra)) as [G1 [_ Nb]].
    assert (W1 : forall x, In x (sc_spots (st_spots s1)) -> spot_wf x).
    { rewrite H2. intros x I. apply in_app_or in I. destruct I as [I|I]; auto. destruct (Nb x I) as [_ [m [Px [_ Q]]]].
      rewrite (Q S0) in *. exists A, M, g, W. repeat (split; auto); lra. }
    destruct (cycle_step _ _ _ H3 W1) as [E2 [G2 _]].
    intros l0 x [<-|I] J.
    - destruct (Nb x J) as [_ [m [[Ea [Em _]] [_ Q]]]]. rewrite (Q S0) in *. rewrite Ea, Em. cbn. lra.
    - apply (IH) with (l := l0); auto. rewrite G2, G1; auto. rewrite G2, G1; auto. rewrite E2. intros y. apply aged_list_wf; auto. lra. }
  pose proof (cycles_born dt s ls ss M A g W H ltac:(lra) P ltac:(lra) ltac:(lra) Hg HW W0 B) as NB.
  assert (NB' : forall l x, In l ls -> In x l -> sp_growing x = true /\ spot_params x A M g W).
  { intros l x I J. destruct (NB l x I J) as [G [m [Px [_ Q]]]]. rewrite (Q S0) in *. auto. }
  assert (WL : forall l x, In l ls -> In x l -> spot_wf x).
  { intros l x I J. destruct (NB' l x I J) as [_ Px]. exists A, M, g, W. repeat (split; auto); lra. }
  destruct (spot_cycles_sum dt s ls ss H ltac:(lra) W0 WL) as [SU [SL LEN]]. specialize (SL NE). rewrite E0 in SU, SL.
  assert (Z : forall n, rs (stot []) dt n = 0). { intros n. rewrite (rs_ext _ (fun _ => 0)) by (auto; lra). rewrite rs_const. ring. }
  rewrite Z, Rplus_0_l in SU. replace (stot [] (INR (length ls) * dt)) with 0 in SL by auto. rewrite Rplus_0_l in SL.
  (* the expected number *)
  destruct C26_lemma as [C26 _]. destruct (C26 (st_spotgen s) M A g W (st_radius s) P HA Hg HW HR) as [k [Kp [KE [_ KK]]]].
  specialize (KE c dt). replace (sg_with_coverage (st_spotgen s) (Fin c)) with (st_spotgen s) in KE.
  2:{ destruct (st_spotgen s). cbn in Hc |- *. subst. reflexivity. }
  rewrite KE in EN. injection EN as EN. destruct (C27_lemma (st_spotgen s) M A g W P HA Hg HW) as [L [ma [EL [Em [L0 [_ [MA _]]]]]]].
  specialize (KK L ma EL Em c). replace (k * c * L * (ma * (2 * PI / 10 ^ 6))) with (k * c * (ma * L) * (2 * PI / 10^6)) in KK by ring.
  rewrite MA in KK. fold (assumed_area_time M A g W) in KK.
  assert (ne0 : 0 < ne) by (rewrite <- EN; apply Rmult_lt_0_compat; auto; apply Rmult_lt_0_compat; auto).
  pose proof PI_RGT_0 as PP. assert (R2 : 0 < st_radius s ^ 2) by (apply pow_lt; auto).
  assert (AS : 0 < assumed_area_time M A g W).
  { unfold assumed_area_time. assert (0 < M / g) by (apply Rdiv_lt_0_compat; lra). assert (0 < A / g) by (apply Rdiv_lt_0_compat; lra).
    assert (0 < M^2 / (2 * W)). { apply Rdiv_lt_0_compat; [apply pow_lt|]; lra. } lra. }
  assert (RE : 0 < real_area_time M A g W).
  { unfold real_area_time. assert (0 <= (M - A) / ln (1 + g)) by (apply le_div; lra).
    assert (0 < M^2 / (2 * W)). { apply Rdiv_lt_0_compat; [apply pow_lt|]; lra. } lra. }
  set (as_ := assumed_area_time M A g W) in *. set (re := real_area_time M A g W) in *.
  assert (FAC : (2 * PI / 10^6) / (4 * PI * st_radius s ^ 2) = c / (ne * as_) * dt).
  { assert (U : 2 * PI / 10^6 = c * (4 * PI * st_radius s ^ 2) / (k * c * as_)).
    { apply (Rmult_eq_reg_l (k * c * as_)). rewrite KK. field. repeat split; lra.
      assert (0 < k * c * as_) by (apply Rmult_lt_0_compat; auto; apply Rmult_lt_0_compat; auto). lra. }
    rewrite U, <- EN. field. repeat split; lra. }
  assert (COV : forall x y, x / y * (2 * PI / 10^6) / (4 * PI * st_radius s ^ 2) = (dt * x) / y * (c / (ne * as_))).
  { intros x y. transitivity (x / y * ((2 * PI / 10^6) / (4 * PI * st_radius s ^ 2))). unfold Rdiv; ring. rewrite FAC. unfold Rdiv; ring. }
  assert (N0 : 0 < N). { unfold N. apply lt_0_INR. destruct ls; [congruence|]. cbn; lia. }
  assert (CA : 0 < c / (ne * as_)) by (apply Rdiv_lt_0_compat; auto; apply Rmult_lt_0_compat; auto).
  assert (FORM : forall b y sg, 0 < y -> b / (y * ne) * (c * q) * (1 + sg * slack) = b * (re + sg * (M * dt)) / y * (c / (ne * as_))).
  { intros b y sg Hy. unfold q, slack. fold as_ re. field. repeat split; lra. }
  assert (TS : forall x l n, In l ls -> In x l -> rs (stot [x]) dt n = rs (sf A M g W) dt n).
  { intros x l n I J. destruct (NB' l x I J) as [G Px]. apply rs_ext; [lra|]. intros t Ht. apply stot_one; auto; lra. }
  split.
  - unfold mean_spot_cover. rewrite COV. replace (INR (length ss)) with N by (rewrite LEN; auto).
    replace (1 - slack) with (1 + -1 * slack) by ring. replace (1 + slack) with (1 + 1 * slack) by ring. rewrite !FORM by auto.
    assert (MID : born_early life dt ls * (re + -1 * (M * dt)) <= dt * rsum (map spot_total ss) <= born ls * (re + 1 * (M * dt))).
    { rewrite SU, <- tally_scal. unfold born_early, born. rewrite !(Rmult_comm (tally _ ls)), <- !tally_scal.
      split; apply tally_le; intros l x n I J; rewrite (TS x l n I J);
        destruct (spot_rs A M g W dt n HA Hg HW ltac:(lra)) as [Q1 Q2]; fold (real_area_time M A g W) in Q1, Q2; fold re in Q1, Q2; fold life in Q2.
      - destruct (Rle_dec _ _). specialize (Q2 r). lra. rewrite Rmult_0_r. apply Rmult_le_pos; [lra|]. apply rs_nonneg; [lra|]. intros; apply sf_nonneg; lra.
      - lra. }
    assert (IN : 0 < / N) by (apply Rinv_0_lt_compat; auto).
    split; (apply Rmult_le_compat_r; [lra|]; unfold Rdiv; apply Rmult_le_compat_r; [lra|]); apply MID.
  - intros kk HK HL. unfold mean_spot_cover. cbn [map length]. rewrite COV.
    assert (Y : spot_total (last ss s) = INR kk * rs (sf A M g W) dt (length ls)).
    { rewrite SL. clear - NB' HK Hdt HA Hg HW. induction ls; cbn [tally length rs]. ring.
      rewrite IHls. 2:{ intros l x I. apply NB'; right; auto. } 2:{ intros; apply HK; right; auto. }
      rewrite (rsum_map_ext _ _ (fun _ => sf A M g W (INR (S (length ls)) * dt))).
      2:{ intros x I. destruct (NB' a x (or_introl eq_refl) I) as [G Px]. apply stot_one; auto; try lra. apply Rmult_le_pos; [apply pos_INR|lra]. }
      rewrite rsum_map_const, (HK a (or_introl eq_refl)). ring. }
    cbn [rsum fold_right]. rewrite Rplus_0_r, Y. change (INR 1) with 1.
    replace (INR kk / ne) with (INR kk / (1 * ne)) by (rewrite Rmult_1_l; auto).
    replace (1 - slack) with (1 + -1 * slack) by ring. replace (1 + slack) with (1 + 1 * slack) by ring. rewrite !FORM by lra.
    destruct (spot_rs A M g W dt (length ls) HA Hg HW ltac:(lra)) as [Q1 Q2]. specialize (Q2 HL).
    fold (real_area_time M A g W) in Q1, Q2. fold re in Q1, Q2. pose proof (pos_INR kk).
    replace (dt * (INR kk * rs (sf A M g W) dt (length ls))) with (INR kk * (dt * rs (sf A M g W) dt (length ls))) by ring.
    split; (apply Rmult_le_compat_r; [lra|]; unfold Rdiv; apply Rmult_le_compat_r; [lra|]); apply Rmult_le_compat_l; lra.
Qed.

(** ** a population of faculae *)
Definition ftot (l : list facula) (t : R) : R := rsum (map (fun f => PI * val (fc_radius f) ^ 2) (faged l t)).
Lemma ftot_app : forall a b t, ftot (a ++ b) t = ftot a t + ftot b t.
Proof. intros. unfold ftot, faged. rewrite map_app, filter_app, map_app, rsum_app. auto. Qed.
Lemma ftot_aged : forall l a t, (forall s, In s l -> fac_wf s) -> 0 <= a -> 0 <= t -> ftot (faged l a) t = ftot l (a + t).
Proof. intros. unfold ftot. rewrite faged_add; auto. Qed.
Lemma ftot_map : forall l t, ftot l t = rsum (map (fun x => ftot [x] t) l).
Proof. induction l; intros; auto. cbn [map rsum fold_right]. change (a :: l) with ([a] ++ l). rewrite ftot_app, IHl. auto. Qed.
Lemma rs_ftot : forall l h n, rs (ftot l) h n = rsum (map (fun x => rs (ftot [x]) h n) l).
Proof.
  induction l; intros. cbn [map rsum fold_right]. induction n; cbn [rs]; auto. rewrite IHn. cbn. ring.
  cbn [map rsum fold_right]. change (fold_right Rplus 0 (map (fun x => rs (ftot [x]) h n) l)) with (rsum (map (fun x => rs (ftot [x]) h n) l)).
  rewrite <- IHl. change (a :: l) with ([a] ++ l). rewrite <- rs_plus. clear IHl. induction n; cbn [rs]; auto. rewrite IHn, ftot_app. auto.
Qed.
Lemma fcycle_step : forall s1 t s2, star_age s1 (Fin t) = Ok s2 ->
  fcc_facs (st_facs s2) = faged (fcc_facs (st_facs s1)) t /\ st_facgen s2 = st_facgen s1 /\ st_radius s2 = st_radius s1.
Proof.
  intros s1 t s2 H. unfold star_age in H. apply bind_ok in H. destruct H as [c [_ H]]. injection H as <-. destruct (st_facs s1). auto.
Qed.
Lemma fac_cycles_sum : forall dt s ls ss, fac_cycles dt s ls ss -> 0 <= dt ->
  (forall x, In x (fcc_facs (st_facs s)) -> fac_wf x) -> (forall l x, In l ls -> In x l -> fac_wf x) ->
  rsum (map fac_total ss) = rs (ftot (fcc_facs (st_facs s))) dt (length ls) + tally (fun x n => rs (ftot [x]) dt n) ls
  /\ (ls <> [] -> fac_total (last ss s) = ftot (fcc_facs (st_facs s)) (INR (length ls) * dt) + tally (fun x n => ftot [x] (INR n * dt)) ls)
  /\ length ss = length ls.
Proof.
  intros dt s ls ss H. induction H as [s|s n d s1 l s2 ls ss H1 H2 H3 H4 IH]; intros Hdt W WL.
  - cbn. split. ring. split; [congruence|auto].
  - assert (W1 : forall x, In x (fcc_facs (st_facs s1)) -> fac_wf x).
    { rewrite H2. intros x I. apply in_app_or in I. destruct I; auto. apply (WL l); auto. left; auto. }
    destruct (fcycle_step _ _ _ H3) as [E2 _].
    destruct IH as [I1 [I2 I3]]; auto.
    { rewrite E2. intros x. apply faged_wf; auto. } { intros l0 x A B. apply (WL l0); auto. right; auto. }
    assert (ST : fac_total s2 = ftot (fcc_facs (st_facs s) ++ l) dt) by (unfold fac_total, ftot; rewrite E2, H2; auto).
    assert (N0 : forall k, 0 <= INR k * dt) by (intros; apply Rmult_le_pos; auto; apply pos_INR).
    assert (RE : forall m, rs (ftot (fcc_facs (st_facs s2))) dt m = rs (fun t => ftot (fcc_facs (st_facs s) ++ l) (dt + t)) dt m).
    { intros m. apply rs_ext; auto. intros t Ht. rewrite E2, H2. apply ftot_aged; auto. rewrite <- H2. auto. }
    split; [|split].
    + cbn [map rsum fold_right tally]. change (fold_right Rplus 0 (map fac_total ss)) with (rsum (map fac_total ss)).
      rewrite I1, RE, ST, <- Rplus_assoc. cbn [length]. rewrite <- (rs_shift (ftot (fcc_facs (st_facs s) ++ l))).
      rewrite <- Rplus_assoc. f_equal. rewrite <- (rs_ftot l dt (S (length ls))), <- rs_plus. apply rs_ext; auto. intros; apply ftot_app.
    + intros _. destruct ls as [|l' ls].
      * inversion H4; subst. cbn [last]. rewrite ST. cbn [length tally]. replace (INR 1 * dt) with dt by (simpl; ring).
        rewrite ftot_app, Rplus_0_r. f_equal. apply ftot_map.
      * destruct ss as [|s' ss]; [discriminate|]. specialize (I2 ltac:(discriminate)).
        change (last (s2 :: s' :: ss) s) with (last (s' :: ss) s). assert (LE : last (s' :: ss) s = last (s' :: ss) s2).
        { clear. revert s'. induction ss; intros; auto. change (last (s' :: a :: ss) s) with (last (a :: ss) s). rewrite IHss. auto. }
        rewrite LE, I2. cbn [tally]. cbn [tally] in I2. rewrite <- !Rplus_assoc. do 2 f_equal.
        rewrite E2, H2, ftot_aged, ftot_app by (auto; rewrite <- H2; auto).
        replace (dt + INR (length (l' :: ls)) * dt) with (INR (length (l :: l' :: ls)) * dt) by (cbn [length]; rewrite (S_INR (S _)); ring).
        f_equal. apply ftot_map.
    + cbn [length]. rewrite I3. auto.
Qed.
Lemma ftot_one : forall f rm L t, fac_state f (rm / exp 2) rm L -> fc_growing f = true -> 0 < rm -> 0 < L -> 0 <= t -> ftot [f] t = ff rm L t.
Proof.
  intros f rm L t S G Hr HL Ht. pose proof (exp_pos 2) as E2.
  assert (Hr' : 0 < rm / exp 2 <= rm).
  { split. apply Rdiv_lt_0_compat; lra. apply div_le; auto. pose proof (exp_ineq1 2). nra. }
  assert (TP : time_to_peak (rm / exp 2) rm L = L).
  { unfold time_to_peak. replace (rm / (rm / exp 2)) with (exp 2) by (field; lra). rewrite ln_exp. field. }
  assert (W : fac_wf f) by (exists (rm / exp 2), rm, L; auto).
  destruct C30_lemma as [_ [C _]].
  destruct (C [] f [] (Spiral 0) [t] rm L) as [fs [E [X1 X2]]]; auto.
  { intros x [<-|[]]. auto. } { intros x [<-|[]]. auto. } { discriminate. }
  cbn [app rsum fold_right fcc_run fold_left] in *. rewrite Rplus_0_r in *. rewrite app_nil_r in *. cbn in E.
  unfold ftot, ff. assert (EF : faged [f] t = fs). { unfold fcc_age in E. injection E as E. exact E. }
  rewrite EF. destruct (Rlt_dec t (2 * L)).
  - rewrite X2 by auto. cbn [map rsum fold_right]. destruct C29_lemma as [C29 _]. destruct (C29 f _ _ _ t S Hr' HL Ht) as [Q _]. destruct (Q G) as [b [Ag _]].
    destruct Ag as [_ [_ [_ [-> _]]]]. rewrite TP. cbn [val]. ring.
  - rewrite X1 by lra. auto.
Qed.
Lemma fbirth_born : forall s dt n d s1 l r0 L, star_birth_faculae s (Fin dt) n d = Ok s1 ->
  fcc_facs (st_facs s1) = fcc_facs (st_facs s) ++ l -> fg_rpeak (st_facgen s) = Fin r0 -> fg_lifepeak (st_facgen s) = Fin L -> 0 < r0 -> 0 < L ->
  0 <= fg_rlogsigma (st_facgen s) -> 0 <= fg_lifelogsigma (st_facgen s) ->
  st_facgen s1 = st_facgen s /\ st_radius s1 = st_radius s
  /\ (forall x, In x l -> fc_growing x = true /\ exists rm lf, fac_state x (rm / exp 2) rm lf /\ 0 < rm /\ 0 < lf
        /\ (fg_rlogsigma (st_facgen s) = 0 -> rm = r0) /\ (fg_lifelogsigma (st_facgen s) = 0 -> lf = L)).
Proof.
  intros s dt n d s1 l r0 L H E Er El Hr HL S1 S2. unfold star_birth_faculae in H. apply bind_ok in H. destruct H as [l0 [H1 H2]].
  unfold star_add_fac in H2. apply bind_ok in H2. destruct H2 as [c [H2 H3]]. injection H3 as <-. split; auto. split; auto.
  unfold fcc_add in H2. apply bind_ok in H2. destruct H2 as [l1 [H2 H3]]. injection H3 as <-.
  cbn [star_with_facs st_facs fcc_facs] in E. apply app_inv_head in E. subst l1. apply mapM_inv in H2.
  unfold fg_birth in H1. apply bind_ok in H1. destruct H1 as [n' [_ H1]]. injection H1 as <-.
  destruct (C35_lemma (st_facgen s) n' d r0 L Er El Hr HL S1 S2) as [LEN [Q _]].
  assert (X : forall f, In f (fg_generate (st_facgen s) n' d) -> fc_growing f = true /\ exists rm lf, fac_state f (rm / exp 2) rm lf /\ 0 < rm /\ 0 < lf
        /\ (fg_rlogsigma (st_facgen s) = 0 -> rm = r0) /\ (fg_lifelogsigma (st_facgen s) = 0 -> lf = L)).
  { intros f I. destruct (In_nth _ f f I) as [i [Hi Ef]]. specialize (Q i f ltac:(lia)). rewrite Ef in Q. cbv zeta in Q.
    destruct Q as [rm [lf [St [P1 [P2 [_ [Q1 [Q2 [G _]]]]]]]]]. split; auto. exists rm, lf. split; auto. split; auto. split; auto.
    split; intros Z; [rewrite Z in Q1|rewrite Z in Q2].
    - replace (fd_z d i * 0 * ln 10) with 0 in Q1 by ring. rewrite <- ln_1 in Q1. apply ln_inv in Q1; [|apply Rdiv_lt_0_compat; auto|lra].
      replace rm with (rm / r0 * r0) by (field; lra). rewrite Q1. ring.
    - replace (fd_z d i * 0 * ln 10) with 0 in Q2 by ring. rewrite <- ln_1 in Q2. apply ln_inv in Q2; [|apply Rdiv_lt_0_compat; auto|lra].
      replace lf with (lf / L * L) by (field; lra). rewrite Q2. ring. }
  intros x I. clear - H2 X I. induction H2 as [|f y fs ys F H2 IH]. destruct I.
  apply bind_ok in F. destruct F as [same [_ F]]. injection F as F. destruct I as [->|I].
  - destruct (X f (or_introl eq_refl)) as [G [rm [lf [St R]]]]. destruct same; subst x; (split; [auto|exists rm, lf; split; auto]).
  - apply IH; auto. intros z J; apply X; right; auto.
Qed.
Lemma fcycles_born : forall dt s ls ss r0 L, fac_cycles dt s ls ss -> fg_rpeak (st_facgen s) = Fin r0 -> fg_lifepeak (st_facgen s) = Fin L -> 0 < r0 -> 0 < L ->
  0 <= fg_rlogsigma (st_facgen s) -> 0 <= fg_lifelogsigma (st_facgen s) ->
  forall l x, In l ls -> In x l -> fc_growing x = true /\ exists rm lf, fac_state x (rm / exp 2) rm lf /\ 0 < rm /\ 0 < lf
        /\ (fg_rlogsigma (st_facgen s) = 0 -> rm = r0) /\ (fg_lifelogsigma (st_facgen s) = 0 -> lf = L).
Proof.
  intros dt s ls ss r0 L H. induction H as [s|s n d s1 l s2 ls ss H1 H2 H3 H4 IH]; intros Er El Hr HL S1 S2. { intros ? ? []. }
  destruct (fbirth_born _ _ _ _ _ _ _ _ H1 H2 Er El Hr HL S1 S2) as [G1 [_ N]]. destruct (fcycle_step _ _ _ H3) as [_ [G2 _]].
  intros l0 x [<-|I] J. auto. rewrite <- G1, <- G2 in *. eapply IH; eauto.
Qed.
Lemma fresh_fac_wf : forall x rm lf, fac_state x (rm / exp 2) rm lf -> 0 < rm -> 0 < lf -> fac_wf x.
Proof.
  intros x rm lf S H1 H2. exists (rm / exp 2), rm, lf. split; auto. split; auto. pose proof (exp_pos 2).
  split. apply Rdiv_lt_0_compat; lra. apply div_le; auto. pose proof (exp_ineq1 2). nra.
Qed.
Lemma C93_lemma : forall dt s births stars r0 L,
  fac_cycles dt s births stars -> 0 < dt -> fcc_facs (st_facs s) = [] ->
  fg_rpeak (st_facgen s) = Fin r0 -> fg_lifepeak (st_facgen s) = Fin L -> 0 < r0 -> 0 < L ->
  0 <= fg_rlogsigma (st_facgen s) -> 0 <= fg_lifelogsigma (st_facgen s) ->
  (* every facula contributes the time integral of its area, up to its largest area times dt *)
  tally (fun x n => if Rle_dec (2 * val (fc_life x)) (INR n * dt) then fac_area_time x - PI * val (fc_rmax x)^2 * dt else 0) births
    <= dt * rsum (map fac_total stars)
    <= tally (fun x _ => fac_area_time x + PI * val (fc_rmax x)^2 * dt) births
  (* which is what the facula really has, when it is aged *)
  /\ (forall l x, In l births -> In x l ->
        exists rad : R -> R, (forall t, 0 <= t -> fc_radius (fac_age x (Fin t)) = Fin (rad t))
          /\ is_RInt (fun t => PI * rad t ^ 2) 0 (2 * val (fc_life x)) (fac_area_time x)).
Proof.
  intros dt s ls ss r0 L H Hdt E0 Er El Hr HL S1 S2.
  assert (W0 : forall x, In x (fcc_facs (st_facs s)) -> fac_wf x) by (rewrite E0; intros x []).
  pose proof (fcycles_born dt s ls ss r0 L H Er El Hr HL S1 S2) as N.
  assert (WL : forall l x, In l ls -> In x l -> fac_wf x).
  { intros l x I J. destruct (N l x I J) as [_ [rm [lf [St [P1 [P2 _]]]]]]. eapply fresh_fac_wf; eauto. }
  destruct (fac_cycles_sum dt s ls ss H ltac:(lra) W0 WL) as [SU _]. rewrite E0 in SU.
  assert (Z : forall n, rs (ftot []) dt n = 0). { intros n. rewrite (rs_ext _ (fun _ => 0)) by (auto; lra). rewrite rs_const. ring. }
  rewrite Z, Rplus_0_l in SU. rewrite SU, <- tally_scal.
  assert (RS : forall l x n, In l ls -> In x l -> exists rm lf, fac_state x (rm / exp 2) rm lf /\ 0 < rm /\ 0 < lf /\ rs (ftot [x]) dt n = rs (ff rm lf) dt n).
  { intros l x n I J. destruct (N l x I J) as [G [rm [lf [St [P1 [P2 _]]]]]]. exists rm, lf. split; auto. split; auto. split; auto. apply rs_ext; [lra|].
    intros t Ht. apply ftot_one; auto. }
  split; [split|].
  - apply tally_le. intros l x n I J. destruct (RS l x n I J) as [rm [lf [[_ [E2 E3]] [P1 [P2 ->]]]]].
    destruct (fac_rs rm lf dt n P1 P2 ltac:(lra)) as [_ Q]. unfold fac_area_time. rewrite E2, E3. cbn [val]. destruct (Rle_dec _ _). auto.
    apply Rmult_le_pos; [lra|]. apply rs_nonneg; [lra|]. intros; apply ff_nonneg.
  - apply tally_le. intros l x n I J. destruct (RS l x n I J) as [rm [lf [[_ [E2 E3]] [P1 [P2 ->]]]]].
    destruct (fac_rs rm lf dt n P1 P2 ltac:(lra)) as [Q _]. unfold fac_area_time. rewrite E2, E3. auto.
  - intros l x I J. destruct (N l x I J) as [G [rm [lf [St [P1 [P2 _]]]]]]. pose proof St as [_ [E2 E3]].
    set (gg := mkFacGen (Fin rm) 0 (Fin 0) (Fin lf) 0 (Fin 0) (Fin 0) (Fin 0) (Fin 0) (Fin 0) (Fin 0) (Spiral 0)).
    destruct (C33_lemma gg rm x lf eq_refl P1 P2 St G) as [rad [II [m [R1 [R2 [R3 _]]]]]].
    exists rad. split; auto. unfold fac_area_time. rewrite E2, E3. cbn [val]. replace (PI * rm^2 * lf * (1 - exp (-4)) / 2) with II; auto.
    replace II with (II / (2 * lf) * (2 * lf)) by (field; lra). rewrite R3. req; field.
Qed.
Lemma C93_cover_lemma : forall dt s births stars r0 L c ne,
  fac_cycles dt s births stars -> births <> [] -> 0 < dt -> fcc_facs (st_facs s) = [] -> 0 < st_radius s ->
  fg_rpeak (st_facgen s) = Fin r0 -> fg_lifepeak (st_facgen s) = Fin L -> 0 < r0 -> 0 < L ->
  fg_rlogsigma (st_facgen s) = 0 -> fg_lifelogsigma (st_facgen s) = 0 ->
  fg_coverage (st_facgen s) = Fin c -> 0 < c -> fg_n_expected (st_facgen s) (Fin dt) (st_radius s * RSUN_KM) = Fin ne ->
  let q := (1 + exp (-2)) / 2 in
  let slack := 2 * dt / (L * (1 - exp (-4))) in
  let N := INR (length births) in
  (* on average over the cycles: births over expected births, times q (about 0.57), times the coverage asked for *)
  born_early (2 * L) dt births / (N * ne) * (c * q) * (1 - slack) <= mean_fac_cover stars (st_radius s * RSUN_KM)
    <= born births / (N * ne) * (c * q) * (1 + slack)
  (* and at the end of the last cycle, when the same number of faculae was born in each *)
  /\ (forall k, (forall l, In l births -> length l = k) -> 2 * L <= N * dt ->
        INR k / ne * (c * q) * (1 - slack) <= mean_fac_cover [last stars s] (st_radius s * RSUN_KM)
          <= INR k / ne * (c * q) * (1 + slack))
  /\ q < 58 / 100.
Proof.
  intros dt s ls ss r0 L c ne H NE Hdt E0 HR Er El Hr HL S1 S2 Hc C0 EN q slack N.
  assert (W0 : forall x, In x (fcc_facs (st_facs s)) -> fac_wf x) by (rewrite E0; intros x []).
  pose proof (fcycles_born dt s ls ss r0 L H Er El Hr HL ltac:(lra) ltac:(lra)) as NB.
  assert (NB' : forall l x, In l ls -> In x l -> fc_growing x = true /\ fac_state x (r0 / exp 2) r0 L).
  { intros l x I J. destruct (NB l x I J) as [G [rm [lf [St [_ [_ [Q1 Q2]]]]]]]. rewrite (Q1 S1), (Q2 S2) in St. auto. }
  assert (WL : forall l x, In l ls -> In x l -> fac_wf x).
  { intros l x I J. destruct (NB' l x I J) as [_ St]. eapply fresh_fac_wf; eauto. }
  destruct (fac_cycles_sum dt s ls ss H ltac:(lra) W0 WL) as [SU [SL LEN]]. specialize (SL NE). rewrite E0 in SU, SL.
  assert (Z : forall n, rs (ftot []) dt n = 0). { intros n. rewrite (rs_ext _ (fun _ => 0)) by (auto; lra). rewrite rs_const. ring. }
  rewrite Z, Rplus_0_l in SU. replace (ftot [] (INR (length ls) * dt)) with 0 in SL by auto. rewrite Rplus_0_l in SL.
  assert (RK : 0 < RSUN_KM) by (unfold RSUN_KM; lra). assert (HK : 0 < st_radius s * RSUN_KM) by (apply Rmult_lt_0_compat; auto).
  set (Rk := st_radius s * RSUN_KM) in *.
  destruct C34_lemma as [C34 _]. destruct (C34 (st_facgen s) r0 L Rk Er El Hr HL HK) as [k [Kp [KE KK]]].
  specialize (KE c dt). replace (fg_with_coverage (st_facgen s) (Fin c)) with (st_facgen s) in KE.
  2:{ destruct (st_facgen s). cbn in Hc |- *. subst. reflexivity. }
  rewrite KE in EN. injection EN as EN.
  pose proof PI_RGT_0 as PP. assert (R2 : 0 < Rk ^ 2) by (apply pow_lt; auto). assert (r2 : 0 < r0 ^ 2) by (apply pow_lt; auto).
  assert (EM : fg_mean_area (st_facgen s) = Fin (1 / 2 * PI * (1 - exp (-2)) * r0^2)).
  { unfold fg_mean_area. rewrite Er, nsq_fin, nmul_fin. f_equal. req; ring. }
  specialize (KK _ c dt EM). rewrite EN in KK.
  assert (e2 : 0 < exp (-2) < 1).
  { split. apply exp_pos. rewrite <- exp_0. apply exp_increasing. lra. }
  assert (e4 : exp (-4) = exp (-2) * exp (-2)) by (rewrite <- exp_plus; f_equal; ring).
  assert (e4' : 0 < 1 - exp (-4)) by (rewrite e4; nra).
  assert (ne0 : 0 < ne) by (rewrite <- EN; apply Rmult_lt_0_compat; auto; apply Rmult_lt_0_compat; auto).
  set (P := PI * r0^2) in *. assert (P0 : 0 < P) by (apply Rmult_lt_0_compat; auto).
  set (re := P * L * (1 - exp (-4)) / 2) in *.
  assert (RE0 : 0 < re). { unfold re. apply Rdiv_lt_0_compat; [|lra]. apply Rmult_lt_0_compat; auto. apply Rmult_lt_0_compat; auto. }
  assert (FAC : / (4 * PI * Rk ^ 2) = c * q / (ne * re) * dt).
  { assert (U : 4 * PI * Rk^2 * dt * c = ne * (P * (1 - exp (-2)) * L)).
    { transitivity (c * (4 * PI * Rk^2) * dt). ring. rewrite <- KK. unfold P. field. }
    apply (Rmult_eq_reg_l (4 * PI * Rk^2 * (ne * re))).
    2:{ assert (0 < 4 * PI * Rk^2 * (ne * re)); [|lra]. apply Rmult_lt_0_compat; [apply Rmult_lt_0_compat; [lra|auto]|apply Rmult_lt_0_compat; auto]. }
    transitivity (ne * re). field. split; lra.
    transitivity (q * (4 * PI * Rk^2 * dt * c)). 2:{ field. split; lra. }
    rewrite U. unfold q, re. rewrite e4. field. }
  assert (COV : forall x y, x / y / (4 * PI * Rk ^ 2) = (dt * x) / y * (c * q / (ne * re))).
  { intros x y. transitivity (x / y * / (4 * PI * Rk^2)). auto. rewrite FAC. unfold Rdiv; ring. }
  assert (N0 : 0 < N). { unfold N. apply lt_0_INR. destruct ls; [congruence|]. cbn; lia. }
  assert (CA : 0 < c * q / (ne * re)). { apply Rdiv_lt_0_compat; apply Rmult_lt_0_compat; auto. unfold q. lra. }
  assert (FORM : forall b y sg, 0 < y -> b / (y * ne) * (c * q) * (1 + sg * slack) = b * (re + sg * (P * dt)) / y * (c * q / (ne * re))).
  { intros b y sg Hy. unfold slack, re. field. repeat split; lra. }
  assert (TS : forall x l n, In l ls -> In x l -> rs (ftot [x]) dt n = rs (ff r0 L) dt n).
  { intros x l n I J. destruct (NB' l x I J) as [G St]. apply rs_ext; [lra|]. intros t Ht. apply ftot_one; auto. }
  split; [|split].
  - unfold mean_fac_cover. rewrite COV. replace (INR (length ss)) with N by (rewrite LEN; auto).
    replace (1 - slack) with (1 + -1 * slack) by ring. replace (1 + slack) with (1 + 1 * slack) by ring. rewrite !FORM by auto.
    assert (MID : born_early (2 * L) dt ls * (re + -1 * (P * dt)) <= dt * rsum (map fac_total ss) <= born ls * (re + 1 * (P * dt))).
    { rewrite SU, <- tally_scal. unfold born_early, born. rewrite !(Rmult_comm (tally _ ls)), <- !tally_scal.
      split; apply tally_le; intros l x n I J; rewrite (TS x l n I J);
        destruct (fac_rs r0 L dt n Hr HL ltac:(lra)) as [Q1 Q2]; fold P in Q1, Q2; fold re in Q1, Q2.
      - destruct (Rle_dec _ _). specialize (Q2 r). lra. rewrite Rmult_0_r. apply Rmult_le_pos; [lra|]. apply rs_nonneg; [lra|]. intros; apply ff_nonneg.
      - lra. }
    assert (IN : 0 < / N) by (apply Rinv_0_lt_compat; auto).
    split; (apply Rmult_le_compat_r; [lra|]; unfold Rdiv; apply Rmult_le_compat_r; [lra|]); apply MID.
  - intros kk HKK HLN. unfold mean_fac_cover. cbn [map length]. rewrite COV.
    assert (Y : fac_total (last ss s) = INR kk * rs (ff r0 L) dt (length ls)).
    { rewrite SL. clear - NB' HKK Hdt Hr HL. induction ls; cbn [tally length rs]. ring.
      rewrite IHls. 2:{ intros l x I. apply NB'; right; auto. } 2:{ intros; apply HKK; right; auto. }
      rewrite (rsum_map_ext _ _ (fun _ => ff r0 L (INR (S (length ls)) * dt))).
      2:{ intros x I. destruct (NB' a x (or_introl eq_refl) I) as [G St]. apply ftot_one; auto; try lra. apply Rmult_le_pos; [apply pos_INR|lra]. }
      rewrite rsum_map_const, (HKK a (or_introl eq_refl)). ring. }
    cbn [rsum fold_right]. rewrite Rplus_0_r, Y. change (INR 1) with 1.
    replace (INR kk / ne) with (INR kk / (1 * ne)) by (rewrite Rmult_1_l; auto).
    replace (1 - slack) with (1 + -1 * slack) by ring. replace (1 + slack) with (1 + 1 * slack) by ring. rewrite !FORM by lra.
    destruct (fac_rs r0 L dt (length ls) Hr HL ltac:(lra)) as [Q1 Q2]. specialize (Q2 HLN).
    fold P in Q1, Q2. fold re in Q1, Q2. pose proof (pos_INR kk).
    replace (dt * (INR kk * rs (ff r0 L) dt (length ls))) with (INR kk * (dt * rs (ff r0 L) dt (length ls))) by ring.
    split; (apply Rmult_le_compat_r; [lra|]; unfold Rdiv; apply Rmult_le_compat_r; [lra|]); apply Rmult_le_compat_l; lra.
  - (* exp 2 > 6.25 *)
    unfold q. assert (X : exp (-2) * exp 2 = 1) by (rewrite <- exp_plus; replace (-2 + 2) with 0 by ring; apply exp_0).
    assert (Y : 25 / 4 < exp 2).
    { assert (D : forall z, exp (2 * z) = exp z * exp z) by (intros; rewrite <- exp_plus; f_equal; ring).
      pose proof (exp_ineq1 (1/8) ltac:(lra)) as E. assert (A1 : 81/64 < exp (2 * (1/8))) by (rewrite D; nra).
      assert (A2 : 16/10 < exp (2 * (2 * (1/8)))) by (rewrite D; nra). assert (A3 : 256/100 < exp (2 * (2 * (2 * (1/8))))) by (rewrite D; nra).
      replace (exp 2) with (exp (2 * (2 * (2 * (2 * (1/8)))))) by (f_equal; lra). rewrite D. nra. }
    nra.
Qed.
