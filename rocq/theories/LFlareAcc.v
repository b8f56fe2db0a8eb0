(** Lemmas for C65: how far the reported time-areas are from the exact time integrals *)
From Coq Require Import Reals ZArith Bool List Lra Lia.
From Coquelicot Require Import Coquelicot.
From Verif Require Import Num Py MConfig MHelpers MGrid MSpots MFaculae MXoflares MFlares Spec SpecStar SpecFlare LBase LGrid LHelpers LCirc LQuad LSpotGen LFac LFlare LFlareGen.
Import ListNotations.
Open Scope R_scope.

Lemma rise_mono : forall u v, -1 <= u -> u <= v -> v <= 0 -> rise u <= rise v.
Proof.
  intros u v H1 H2 H3. set (s := u + 1). set (t := v + 1).
  replace u with (s - 1) by (unfold s; lra). replace v with (t - 1) by (unfold t; lra).
  assert (0 <= s) by (unfold s; lra). assert (t <= 1) by (unfold t; lra). assert (s <= t) by (unfold s, t; lra).
  clearbody s t. clear H1 H2 H3 u v.
  assert (E : rise (t - 1) - rise (s - 1) = (t - s) * (52978/1000000 - 187324/1000000 * (s + t)
     + 225404/100000 * (s*s + s*t + t*t) - 112498/100000 * (s*s*s + s*s*t + s*t*t + t*t*t))).
  { unfold rise, fr0, fr1, fr2, fr3, fr4. field. }
  assert (A1 : s*s*s <= s*s) by nra. assert (A2 : s*s*t <= s*t). { assert (0 <= s*t) by nra. nra. }
  assert (A3 : s*t*t <= s*t). { assert (0 <= s*t) by nra. nra. }
  assert (A4 : t*t*t <= t*t). { assert (0 <= t*t) by nra. nra. }
  assert (A5 : 0 <= (s - t)^2) by apply pow2_ge_0.
  assert (A6 : 0 <= (s + t - 166/1000)^2) by apply pow2_ge_0.
  cbn [pow] in A5, A6.
  assert (0 <= 52978/1000000 - 187324/1000000 * (s + t)
     + 225404/100000 * (s*s + s*t + t*t) - 112498/100000 * (s*s*s + s*s*t + s*t*t + t*t*t)) by lra.
  assert (0 <= rise (t - 1) - rise (s - 1)). { rewrite E. apply Rmult_le_pos; lra. }
  lra.
Qed.
Lemma exp_le : forall a b, a <= b -> exp a <= exp b.
Proof. intros a b [H| ->]. left. apply exp_increasing; auto. lra. Qed.
Lemma fall_mono : forall u v, u <= v -> fall v <= fall u.
Proof.
  intros. unfold fall. assert (exp (v * fd1) <= exp (u * fd1)) by (apply exp_le; unfold fd1; lra).
  assert (exp (v * fd3) <= exp (u * fd3)) by (apply exp_le; unfold fd3; lra). unfold fd0, fd2. lra.
Qed.
Lemma shape_up : forall u v, u <= v -> v <= 0 -> shape u <= shape v.
Proof.
  intros. pose proof (shape_range v). unfold shape in *. rdec; try lra. apply rise_mono; lra.
Qed.
Lemma shape_down : forall u v, 0 <= u -> u <= v -> shape v <= shape u.
Proof.
  intros. pose proof (shape_range u) as R1'. destruct (Req_dec u 0) as [->|].
  - rewrite shape_0. apply shape_range.
  - unfold shape in *. rdec; try lra. apply fall_mono; lra.
Qed.
Lemma ex_RInt_shape : forall tp w a t0 t1, 0 < w -> t0 <= t1 ->
  ex_RInt (fun t => shape ((t - tp) / w) * a) t0 t1.
Proof.
  intros. set (A := Rmin t0 (tp - w)). set (B := Rmax t1 (tp + 20 * w)).
  assert (A <= t0) by apply Rmin_l. assert (A <= tp - w) by apply Rmin_r.
  assert (t1 <= B) by apply Rmax_l. assert (tp + 20 * w <= B) by apply Rmax_r.
  assert (Ex : ex_RInt (fun t => shape ((t - tp) / w) * a) A B) by (eexists; apply is_RInt_shape; auto).
  apply (ex_RInt_Chasles_1 (fun t => shape ((t - tp) / w) * a) t0 t1 B); [lra|].
  apply (ex_RInt_Chasles_2 (fun t => shape ((t - tp) / w) * a) A t0 B); [lra|auto].
Qed.

Lemma C65_lemma : forall l t0 t1 so, t0 + 20 / 1440 <= t1 ->
  (forall f, In f l -> exists w E T, flare_is f w E T /\ 0 < w /\ 0 < T /\ 0 <= E) ->
  exists r h, flc_integral (flc_init l) t0 t1 so = Ok r /\ 0 < h <= 30 / 1440 /\
    (exists n, (1 <= n)%nat /\ h = (t1 - t0) / INR n /\ (INR n + 1) * (10 / 1440) <= t1 - t0 < (INR n + 2) * (10 / 1440)) /\
    Forall2 (fun f p => exists c A v I, area_of f c /\ peak_area f = Fin A /\ snd p = Fin v /\
       is_RInt c t0 t1 I /\ Rabs (v - 24 * I) <= 24 * h * A /\
       (forall w E T, flare_is f w E T -> t0 <= fl_tpeak f - w -> fl_tpeak f + 20 * w <= t1 ->
          Rabs (v - 24 * (E / (STEFAN * T^4))) <= 24 * h * A))
      (flc_visible (flc_init l) t0 t1 so) r.
Proof.
  intros l t0 t1 so Le Hl. destruct (C45_lemma l t0 t1 so) as [r [N [E [BN F]]]]; auto. lra.
  assert (Hv : forall f, In f (flc_visible (flc_init l) t0 t1 so) -> In f l).
  { intros f I. unfold flc_visible in I. destruct (sub_obs so). apply filter_In in I. destruct I as [I _].
    rewrite in_period_eq in I. apply filter_In in I. tauto. }
  assert (X : (t1 - t0) / (10/1440) = (t1 - t0) * 144) by field. rewrite X in BN.
  assert (N2 : (2 <= N)%nat). { destruct N as [|[|]]; [| |lia]; exfalso; simpl in BN; lra. }
  destruct N as [|n]; [lia|]. rewrite S_INR in BN.
  assert (n1 : 1 <= INR n) by (apply (le_INR 1); lia).
  assert (H0 : 0 < (t1 - t0) / INR n) by (apply lt_div; lra).
  exists r, ((t1 - t0) / INR n). split; auto. split; [|split].
  - split; auto. apply div_le; lra.
  - exists n. split; [lia|]. split; auto. split; lra.
  - clear E. revert F Hv. generalize (flc_visible (flc_init l) t0 t1 so) as vis. intros vis F.
    induction F as [|f p vis' r' Hfp F IH]; intros Hv; constructor; [clear IH|apply IH; intros; apply Hv; right; auto].
    destruct Hfp as [_ [c [xs [v [Ac [Lx [Hx [Ev [Tv _]]]]]]]]].
    destruct (Hl f) as [w [En [T [Fi [w0 [T0 E0]]]]]]. apply Hv; left; auto.
    pose proof (areacurve_eq f w En T Fi w0 T0) as Ac'. set (g := fun t => _) in Ac'.
    pose proof (rpeak_nonneg w En T w0 T0 E0) as P0.
    assert (Ecg : forall t, c t = g t).
    { intros t. specialize (Ac [t]). specialize (Ac' [t]). cbn [map] in Ac, Ac'. rewrite Ac in Ac'. congruence. }
    assert (Exs : xs = linspace t0 t1 (S n)).
    { apply (nth_ext _ _ 0 0). rewrite linspace_length; auto. intros i Hi. rewrite Lx in Hi.
      rewrite Hx by auto. rewrite linspace_nth by auto. auto. }
    assert (Exg : ex_RInt g t0 t1) by (apply ex_RInt_shape; lra).
    assert (Tc : trapezoid c xs = trapezoid g (linspace t0 t1 (S n))).
    { rewrite Exs, (trapezoid_ext_scale c g 1). ring. intros; rewrite Ecg; ring. }
    pose proof (trapezoid_unimodal g t0 t1 n (fl_tpeak f) (rpeak w En T) ltac:(lra) ltac:(lia) Exg) as Q.
    assert (Q' : Rabs (trapezoid g (linspace t0 t1 (S n)) - RInt g t0 t1) <= (t1 - t0) / INR n * rpeak w En T).
    { apply Q; unfold g.
      - intros. apply Rmult_le_compat_r; auto. apply shape_up; [|apply div_le; lra].
        apply Rmult_le_compat_r; [left; apply Rinv_0_lt_compat; auto|lra].
      - intros. apply Rmult_le_compat_r; auto. apply shape_down; [apply le_div; lra|].
        apply Rmult_le_compat_r; [left; apply Rinv_0_lt_compat; auto|lra].
      - intros. pose proof (shape_range ((u - fl_tpeak f) / w)). split. apply Rmult_le_pos; lra. nra. }
    clear Q. assert (B : Rabs (v - 24 * RInt g t0 t1) <= 24 * ((t1 - t0) / INR n) * rpeak w En T).
    { rewrite Tv, Tc. replace (24 * trapezoid g (linspace t0 t1 (S n)) - 24 * RInt g t0 t1)
        with (24 * (trapezoid g (linspace t0 t1 (S n)) - RInt g t0 t1)) by ring.
      rewrite Rabs_mult, (Rabs_right 24) by lra. lra. }
    exists c, (rpeak w En T), v, (RInt g t0 t1). split; auto. split. apply peak_area_eq; auto.
    split; auto. split; [|split; auto].
    + apply (is_RInt_ext g c). intros; symmetry; apply Ecg. apply (@RInt_correct R_CompleteNormedModule). auto.
    + intros w' En' T' Fi' L1 L2. destruct Fi as [Fw [FE FT]]. destruct Fi' as [Fw' [FE' FT']].
      assert (w' = w) by congruence. assert (En' = En) by congruence. assert (T' = T) by congruence. subst w' En' T'.
      replace (En / (STEFAN * T^4)) with (RInt g t0 t1); auto.
      unfold g. rewrite (is_RInt_unique _ _ _ _ (is_RInt_shape (fl_tpeak f) w (rpeak w En T) t0 t1 w0 L1 L2)).
      change (Istd * rpeak w En T * w = En / (STEFAN * T ^ 4)).
      unfold rpeak. rewrite SIGMA_SB_eq. pose proof Istd_pos. pose proof STEFAN_pos. assert (T <> 0) by lra.
      field. repeat split; lra.
Qed.
