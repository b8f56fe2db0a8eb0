(** Proofs for C134: when spots that grow at first are used up *)
From Coq Require Import Reals ZArith Bool List Lra Lia.
From Coquelicot Require Import Rcomplements.
From Verif Require Import Num Py MConfig MHelpers MGrid MSpots MFaculae MXoflares MFlares MGranules MStar MSingle MDouble MAge64
  Spec SpecStar SpecDisk SpecSingle SpecDouble SpecAge64 SpecSpot64 LBase LSingle LDouble LDoubleSum LAge64 LSpot64.
Import ListNotations.
Open Scope R_scope.

(** when more is lost than there is *)
Lemma used_up : forall ex lg s a am g W t s' a' b, spot_params s a am g W -> sp_growing s = false -> f64_value a -> sane64 am -> Rabs a <= 10000000000000 * am -> decay64 W -> time64 t ->
  spot_age64 ex lg s (Fin t) = Ok s' -> aged_to s s' a' b -> a <= W * t -> a' <= 0.
Proof.
  intros ex lg s a am g W t s' a' b [Pa [Pm [Pg [Pd Pw]]]] G Va Sm Ba HW [Vt Ht] E A L.
  destruct (am_tiny am Sm) as [Hm Em]. pose proof (p2_le 300 400 ltac:(lia)). destruct (loss W t HW) as [L1 [L2 [L3 L4]]]. lra.
  unfold spot_age64 in E. rewrite G, Pa, Pm, Pw, L1 in E. set (ad := f64_round (t * W)) in *. rewrite ngt_fin in E. destruct A as (_ & _ & _ & A & _).
  destruct (Rlt_dec am ad) as [C|C].
  - injection E as <-. cbn in A. injection A as <-. lra.
  - assert (M : a <= ad). { unfold ad. rewrite <- (f64_round_id a Va). apply f64_round_mono. lra. }
    assert (AD : Rabs (a - ad) <= Rabs a + am). { unfold Rminus. eapply Rle_trans. apply Rabs_triang. rewrite Rabs_Ropp, (Rabs_right ad); lra. }
    assert (F : sub64 (Fin a) (Fin ad) = Fin (f64_round (a - ad))).
    { apply (sub_fin _ _ 400). lia. eapply Rle_trans. apply AD. destruct Sm as [_ [_ Um]]. replace 400%Z with (100 + 300)%Z by lia. rewrite p2_add. pose proof (p2_pos 300).
      assert (20000000000000 <= powerRZ 2 100) by (rewrite p2_Z by lia; lra). nra. }
    rewrite F in E. injection E as <-. cbn in A. injection A as <-. rewrite <- (f64_round_id 0) by apply f64_zero. apply f64_round_mono. lra.
Qed.
(** a growing spot; if it passes its maximum, what is left *)
Lemma crossing_spot : forall ex lg s a am g W t, accurate_exp ex -> accurate_log lg -> spot_params s a am g W -> sp_growing s = true -> f64_value a -> sane64 am ->
  powerRZ 2 (-300) <= a -> rho a am <= / 1000 -> growth64 g -> decay64 W -> time64 t ->
  forall v, log64 lg (add64 (Fin g) (Fin 1)) = Fin v -> / 4194304 <= v <= 17 -> f64_value v ->
  exists s' a' b, spot_age64 ex lg s (Fin t) = Ok s' /\ aged_to s s' a' b /\ f64_value a' /\
   (let x := v * t in let p := rho a am in let d := (2 + 8 * Rabs p) * vv in
    (b = true -> a <= a' /\ p + x <= d /\ Rabs (rho a' am - (p + x)) <= (8 + x) * vv)
    /\ (b = false -> 0 <= a' <= am /\ exists m, m <= t /\ Rabs (v * m + p) <= d
         /\ (a' <= 0 \/ a' <= am - W * (t - m) + 6 * vv * am))).
Proof.
  intros ex lg s a am g W t Ae Al [Pa [Pm [Pg [Pd Pw]]]] G Va Sm La Hp Hg HW [Vt Ht] v Ev Bv Vv. cbv zeta.
  destruct (lnb am Sm) as [Hm Bm]. destruct (am_tiny am Sm) as [_ Em]. pose proof (p2_pos (-300)) as P3. assert (Ha : 0 < a) by lra. pose proof (ln_le_p2 _ _ La) as Br. pose proof ln2_hi.
  assert (Ba : -226 <= ln a <= 226) by (unfold rho in Hp; lra).
  destruct (max_near lg a am v Al Sm Ha Ba Bv) as [m [E1 [Vm Dm]]]. set (p := rho a am) in *. set (d := (2 + 8 * Rabs p) * vv) in *. set (x := v * t) in *.
  assert (PB : Rabs p <= 451). { unfold p, rho. unfold p, rho in Hp. apply Rabs_le. lra. }
  assert (PN : 0 <= Rabs p) by apply Rabs_pos. pose proof vv_pos. pose proof vv_small. pose proof uv. pose proof u64_pos.
  assert (DB : 0 < d <= / 100000000000). { unfold d. split. apply Rmult_lt_0_compat; lra. assert ((2 + 8 * Rabs p) * vv <= 4000 * (1.12 / 10000000000000000)). apply Rmult_le_compat; lra. lra. }
  assert (X : 0 <= x) by (apply Rmult_le_pos; lra). pose proof (p2_le 300 400 ltac:(lia)).
  unfold spot_age64. rewrite G, Pd. cbn [negb Z.eqb Pos.eqb]. rewrite Pa, Pm, Pg, Pw, Ev.
  assert (NQ : neq (Fin v) (Fin 0) = false). { unfold neq, Reqb. destruct (Req_EM_T v 0); auto. lra. } rewrite NQ, E1, ngt_fin.
  pose proof (proj1 (Rabs_le_between _ _) Dm) as Dm'. pose proof (proj1 (Rabs_le_between _ _) PB) as PB'.
  destruct (Rlt_dec t m) as [C|C].
  - assert (AX : x <= v * m) by (apply Rmult_le_compat_l; lra).
    assert (F : mul64 (Fin v) (Fin t) = Fin (f64_round x)). { rewrite mul_fin. apply (fin_abs 10). lia. fold x. rewrite Rabs_right by lra. replace (powerRZ 2 10) with 1024 by (rewrite p2_Z by lia; reflexivity). lra. }
    rewrite F. destruct (quot_round x X) as [Z0 Z].
    destruct (grow_gen ex a (f64_round x) x Ae Va Ha Ba Z0) as [a' [G1 [G2 [G3 G4]]]]; auto. lra. { unfold p, rho in *. lra. }
    rewrite G1. eexists _, a', true. split. reflexivity. split. { unfold aged_to, spot_with_area; cbn. rewrite ?Pm. repeat split; auto. } split; auto. split; [|discriminate]. intros _. split; auto. split. lra.
    replace (rho a' am - (p + x)) with (ln a' - (ln a + x)) by (unfold p, rho; ring). auto.
  - assert (T40 : Rabs (t - m) <= powerRZ 2 301 /\ 0 <= t - m).
    { split; [|lra]. rewrite Rabs_right by lra. replace 301%Z with (1 + 300)%Z by lia. rewrite p2_add. simpl (powerRZ 2 1).
      assert (-2 <= v * m) by lra. assert (-10000000 <= m). { apply Rnot_lt_le. intro Q. assert (v * m <= / 4194304 * -10000000). nra. lra. }
      assert (10000000 <= powerRZ 2 300). { eapply Rle_trans; [|apply (p2_le 30 300); lia]. rewrite p2_Z by lia. change (2 ^ 30)%Z with 1073741824%Z. lra. } lra. }
    destruct T40 as [T40 T0]. rewrite (sub_fin t m 301); auto. 2: lia. pose proof (sub_err t m Vt Vm) as SE. rewrite (Rabs_right (t - m)) in SE, T40 by lra. set (dt := f64_round (t - m)) in *.
    assert (D0 : 0 <= dt) by (apply rnd_pos; auto). pose proof (p2_le 301 400 ltac:(lia)).
    assert (D1 : dt <= powerRZ 2 400). { unfold dt. rewrite <- (f64_round_id (powerRZ 2 400)) by (apply f64_p2; lia). apply f64_round_mono. lra. }
    destruct (loss W dt HW) as [L1 [L2 [L3 L4]]]. lra. rewrite L1. set (ad := f64_round (dt * W)) in *. rewrite ngt_fin. pose proof HW as [VW HW']. apply Rabs_le_between in L4. apply Rabs_le_between in SE.
    set (w := W * (t - m)). assert (w0 : 0 <= w) by (apply Rmult_le_pos; lra).
    assert (WE : w * (1 - u64) <= W * dt <= w * (1 + u64)). { unfold w. split. replace (W * (t - m) * (1 - u64)) with (W * ((t - m) * (1 - u64))) by ring. apply Rmult_le_compat_l; lra. replace (W * (t - m) * (1 + u64)) with (W * ((t - m) * (1 + u64))) by ring. apply Rmult_le_compat_l; lra. }
    assert (uw : 0 <= u64 * w) by (apply Rmult_le_pos; lra). assert (uuw : 0 <= u64 * (u64 * w) <= / 1000 * (u64 * w)). { split. apply Rmult_le_pos; lra. apply Rmult_le_compat_r; lra. }
    assert (UM : u64 * am <= vv * am) by (apply Rmult_le_compat_r; lra). assert (UM0 : 0 <= u64 * am) by (apply Rmult_le_pos; lra).
    assert (uad : u64 * (W * dt) <= u64 * (w * (1 + u64))) by (apply Rmult_le_compat_l; lra).
    destruct (Rlt_dec am ad) as [C2|C2].
    + eexists _, 0, false. split. reflexivity. split. { unfold aged_to, spot_with_area; cbn. rewrite ?Pm. repeat split; auto. } split. apply f64_zero. split. discriminate. intros _. split. lra.
      exists m. split. lra. split; auto. left. lra.
    + assert (AB : 0 <= am - ad <= am) by lra. rewrite (sub_fin am ad 400). 2: lia. 2:{ rewrite Rabs_right by lra. destruct Sm as [_ [_ Um]]. lra. }
      pose proof (sub_err am ad (proj1 Sm) L3) as SE2. rewrite (Rabs_right (am - ad)) in SE2 by lra.
      eexists _, (f64_round (am - ad)), false. split. reflexivity. split. { unfold aged_to, spot_with_area; cbn. rewrite ?Pm. repeat split; auto. } split. apply f64_round_value. split. discriminate. intros _.
      split. { split. apply rnd_pos; lra. rewrite <- (f64_round_id am (proj1 Sm)) at 2. apply f64_round_mono. lra. }
      exists m. split. lra. split; auto. right. fold w. assert (w <= 1.5 * am). { assert (u64 * am <= / 1000 * am) by (apply Rmult_le_compat_r; lra). assert (u64 * w <= / 1000 * w) by (apply Rmult_le_compat_r; lra). lra. }
      assert (u64 * w <= u64 * (1.5 * am)) by (apply Rmult_le_compat_l; lra). assert (u64 * (am - ad) <= u64 * am) by (apply Rmult_le_compat_l; lra). apply Rabs_le_between in SE2. lra.
Qed.
(** as [slaw] without a bound on the time: the area is not positive or at most what the law leaves *)
Definition ulaw (a am W v n N T : R) (a' : R) (b : bool) : Prop :=
  let y := rho a am in
  (b = true -> Rabs (rho a' am - (y + v * T)) <= eE n (v * T) /\ y + v * T <= eD (- y) + eE n (v * T))
  /\ (b = false -> exists P, P <= T /\ Rabs (v * P - - y) <= eD (- y) + (8 * N + - y + 1) * vv /\ a' <= am
        /\ (a' <= 0 \/ a' <= am - W * (T - P) + 6 * n * vv * am)).
Lemma ulaw_run : forall ex lg s a am g W ts N v tau, accurate_exp ex -> accurate_log lg -> sstart s a am g W -> sp_growing s = true ->
  log64 lg (add64 (Fin g) (Fin 1)) = Fin v -> f64_value v -> / 4194304 <= v <= 17 -> tau = ln (1 + g) -> / 2097152 <= tau <= 16 -> Rabs (v - tau) <= (2 + 6 * tau) * vv ->
  (forall t, In t ts -> time64 t) -> INR (length ts) <= N <= 1000000000000 ->
  exists s' a' b, spot_aged64 ex lg s ts = Ok s' /\ sbnd s a am (INR (length ts)) s' a' b /\ ulaw a am W v (INR (length ts)) N (rsum ts) a' b.
Proof.
  intros ex lg s a am g W ts N v tau Ae Al S G Ev Vv Bv -> Bt Dv. set (tau := ln (1 + g)) in *.
  pose proof S as [Sf [Sa [Sm [H [Hg HW]]]]]. destruct (lnb a Sa) as [Ha Ba]. destruct (lnb am Sm) as [Hm Bm]. pose proof HW as [VW HW'].
  pose proof (y_range a am Sa Sm H) as Y. pose proof vv_pos as VP. pose proof vv_small as VS.
  induction ts as [|t ts IH] using rev_ind; intros Ht Hn.
  - exists s, a, true. split; auto. split. { rewrite <- G. eapply sbnd_start; eauto. } split; [|discriminate]. intros _. simpl. rewrite Rmult_0_r. unfold eE, eD.
    rewrite Rplus_0_r. rewrite (Rminus_diag_eq _ _ eq_refl), Rabs_R0. split. lra. assert (0 < (2 + 8 * (- rho a am + 1)) * vv) by (apply Rmult_lt_0_compat; lra). lra.
  - rewrite app_length, plus_INR in *. simpl (length [t]) in *. change (INR 1) with 1 in *. rewrite rsum_snoc in *.
    assert (Q1 : forall t0, In t0 ts -> time64 t0) by (intros; apply Ht; apply in_or_app; auto). assert (Q2 : time64 t) by (apply Ht; apply in_or_app; right; left; auto).
    pose proof (rsum_pos ts Q1) as RP. pose proof Q2 as [_ [t0 _]]. set (T := rsum ts) in *. set (y := rho a am) in *.
    assert (Wt : 0 <= W * t) by (apply Rmult_le_pos; lra).
    destruct IH as [s' [a' [b [E [K [N1 N2]]]]]]; auto. lra. set (n := INR (length ts)) in *. fold y in N1, N2.
    pose proof (pos_INR (length ts)) as n0. fold n in n0.
    rewrite spot_snoc, E. cbn [bind].
    assert (x0 : 0 <= v * t) by (apply Rmult_le_pos; lra). assert (X0 : 0 <= v * T) by (apply Rmult_le_pos; lra).
    replace (v * (T + t)) with (v * T + v * t) by ring.
    assert (Nv : N * vv <= 1.12 / 10000). { assert (N * vv <= 1000000000000 * (1.12 / 10000000000000000)) by (apply Rmult_le_compat; lra). lra. }
    assert (nv : n * vv <= N * vv) by (apply Rmult_le_compat_r; lra).
    assert (xv : 0 <= v * t * vv) by (apply Rmult_le_pos; lra). assert (nv0 : 0 <= n * vv) by (apply Rmult_le_pos; lra). assert (Xv : 0 <= v * T * vv) by (apply Rmult_le_pos; lra).
    assert (yv : (- y) * vv <= 450 * vv) by (apply Rmult_le_compat_r; lra). assert (yv0 : 0 <= (- y) * vv) by (apply Rmult_le_pos; lra).
    pose proof K as [A [V [B [B' U]]]]. destruct (sp_state _ _ _ _ _ _ _ _ Sf A) as [Sg Eg].
    destruct (sbnd_step ex lg s a am g W n s' a' b t Ae Al S) as [s3 [a3 [b3 [E3 [K3 [K4 _]]]]]]; auto. lra.
    destruct b.
    + destruct (U eq_refl) as [T1 T2]. destruct (N1 eq_refl) as [M1 M2]. pose proof Sa as [_ [La _]].
      destruct (crossing_spot ex lg s' a' am g W t Ae Al Sg Eg V Sm) with (v := v) as [s2 [a2 [b' [E2 [A2 [V2 J]]]]]]; try lra; auto.
      rewrite E3 in E2. injection E2 as <-. cbv zeta in J. set (p := rho a' am) in *.
      destruct (sp_state _ _ _ _ _ _ _ _ Sg A2) as [[F1 _] F2]. pose proof K3 as [A3 _]. destruct (sp_state _ _ _ _ _ _ _ _ Sf A3) as [[F3 _] F4]. assert (a3 = a2) by congruence. assert (b3 = b') by congruence. subst a3 b3.
      exists s3, a2, b'. split; [exact E3|]. split; [rewrite <- F2; exact K3|]. clear F2. destruct J as [J1 J2].
      assert (yp : y <= p). { unfold y, p, rho. assert (ln a <= ln a'). { destruct T1 as [T1| <-]; [|lra]. left. apply ln_increasing; lra. } lra. }
      assert (PA : 0 <= Rabs p <= - y + 1). { split. apply Rabs_pos. apply Rabs_le. lra. }
      assert (d1 : (2 + 8 * Rabs p) * vv <= eD (- y)). { unfold eD. apply Rmult_le_compat_r; lra. }
      apply Rabs_le_between in M1. unfold ulaw. fold y. cbv zeta. split; intros ->.
      * destruct (J1 eq_refl) as [J3 [J4 J5]]. apply Rabs_le_between in J5. replace (v * (T + t)) with (v * T + v * t) by ring. unfold eE in *. split. apply Rabs_le. lra. lra.
      * destruct (J2 eq_refl) as [J3 [m [J4 [J5 J6]]]]. exists (T + m). split. lra. apply Rabs_le_between in J5.
        assert (XB : v * T <= - y + 1). { unfold eE, eD in *. assert (v * T * vv <= / 1000 * (v * T)) by (rewrite (Rmult_comm _ vv); apply Rmult_le_compat_r; lra). lra. }
        assert (XBv : v * T * vv <= (- y + 1) * vv) by (apply Rmult_le_compat_r; lra).
        assert (HP : Rabs (v * (T + m) - - y) <= eD (- y) + (8 * N + - y + 1) * vv). { replace (v * (T + m)) with (v * T + v * m) by ring. unfold eE in *. apply Rabs_le. lra. }
        split; auto. split. lra. replace (T + t - (T + m)) with (t - m) by ring. destruct J6 as [J6|J6]; [left; lra|right].
        assert (6 * vv * am <= 6 * (n + 1) * vv * am) by (apply Rmult_le_compat_r; lra). lra.
    + destruct (N2 eq_refl) as [P [M0 [M1 [MA M2]]]]. destruct (K4 eq_refl) as [-> _].
      assert (NB : (2 * n + 2) * am <= 10000000000000 * am) by (apply Rmult_le_compat_r; lra). assert (BB : Rabs a' <= 10000000000000 * am) by lra.
      destruct (decaying ex lg s' a' am g W t Sg Eg V Sm BB HW Q2) as [s2 [a2 [E2 [A2 [V2 [B2 [C2 J]]]]]]].
      assert (E4 := E2). rewrite E3 in E2. injection E2 as <-. destruct (sp_state _ _ _ _ _ _ _ _ Sg A2) as [[F1 _] F2]. pose proof K3 as [A3 _]. destruct (sp_state _ _ _ _ _ _ _ _ Sf A3) as [[F3 _] F4]. assert (a3 = a2) by congruence. subst a3.
      exists s3, a2, false. split; [exact E3|]. split; [exact K3|]. split. discriminate. intros _. exists P. split. lra. fold y. split; auto.
      split. { eapply Rle_trans. apply B2. unfold Rmax. destruct (Rle_dec a' 0); lra. }
      destruct (Rle_dec a' 0) as [Z|Z]. { left. rewrite Rmax_right in B2 by lra. auto. } destruct M2 as [M2|M2]; [lra|].
      destruct (Rle_dec a' (W * t)) as [Z2|Z2]. { left. eapply (used_up ex lg s' a' am g W t s3 a2 false); eauto. }
      right. specialize (J a' 0 0 am). assert (K5 : Rabs (a2 - (a' - W * t)) <= 0 + (0 + 6 * vv) * am). { apply J; try lra. rewrite (Rminus_diag_eq a' a' eq_refl), Rabs_R0. lra. }
      apply Rabs_le_between in K5. replace (6 * (n + 1) * vv * am) with (6 * n * vv * am + 6 * vv * am) by ring. lra.
Qed.
Lemma gone_lemma : forall ex lg s a am g W ts,
  accurate_exp ex -> accurate_log lg -> spot_params s a am g W -> sane64 a -> sane64 am -> a <= am -> growth64 g -> f64_value W -> 0 <= W <= powerRZ 2 300 ->
  sp_growing s = true -> (forall t, In t ts -> time64 t) -> INR (length ts) <= 1000000000000 ->
  let T := rsum ts in let peak := time_to_max a am g in let tau := ln (1 + g) in let e := spot_drift64 (length ts) (ln (am / a)) tau in
  am - W * (T - peak) <= - (e * (am + W / tau)) ->
  exists s' a', spot_aged64 ex lg s ts = Ok s' /\ aged_to s s' a' false /\ a' <= 0.
Proof.
  intros ex lg s a am g W ts Ae Al P Sa Sm H Hg VW HW G Ht Hn T peak tau e HX. assert (St : sstart s a am g W) by (repeat (split; auto); apply HW).
  destruct (lnb a Sa) as [Ha Ba]. destruct (lnb am Sm) as [Hm Bm]. pose proof (y_range a am Sa Sm H) as Y. pose proof vv_pos as VP. pose proof vv_small as VS.
  destruct (rate lg g Al Hg) as [v [Ev [Vv [Bv [Bt Dv]]]]]. fold tau in Bt, Dv.
  assert (LQ : ln (am / a) = - rho a am). { unfold Rdiv, rho. rewrite ln_mult, ln_Rinv; auto. ring. apply Rinv_0_lt_compat; auto. }
  assert (PK : peak = - rho a am / tau) by (unfold peak, time_to_max; rewrite LQ; auto).
  destruct (ulaw_run ex lg s a am g W ts (INR (length ts)) v tau Ae Al St G Ev Vv Bv eq_refl Bt Dv Ht) as [s' [a' [b [E [K L]]]]]. lra.
  fold T in L. destruct K as [A [V [B [B' U]]]]. unfold ulaw in L. cbv zeta in L. destruct L as [L1 L2].
  unfold e, spot_drift64 in HX. rewrite LQ in HX. set (q := - rho a am) in *. replace (rho a am) with (- q) in * by (unfold q; ring). assert (Q : 0 <= q <= 450) by lra. clear Y.
  set (n := INR (length ts)) in *. pose proof (pos_INR (length ts)) as n0. fold n in n0. assert (T0 : 0 < tau) by lra. pose proof (rsum_pos ts Ht) as RP. fold T in RP.
  assert (VT : (2 + 6 * tau) * vv <= / 1000 * tau). { assert ((2 + 6 * tau) * vv <= 98 * (1.12 / 10000000000000000)) by (apply Rmult_le_compat; lra). lra. }
  pose proof (proj1 (Rabs_le_between _ _) Dv) as Dv'.
  set (k := q / tau). replace ((q + 1) / tau) with (k + / tau) in HX by (unfold k; field; lra). assert (IT : 0 < / tau) by (apply Rinv_0_lt_compat; auto). assert (IT2 : / tau <= 2097152) by (rewrite <- (Rinv_inv 2097152); apply Rinv_le_contravar; lra).
  assert (k0 : 0 <= k). { unfold k. apply Rmult_le_pos; lra. } assert (kb : k <= 943718400). { unfold k, Rdiv. assert (q * / tau <= 450 * 2097152) by (apply Rmult_le_compat; lra). lra. } assert (kt : k * tau = q) by (unfold k; field; lra).
  assert (nv : n * vv <= 1.12 / 10000). { assert (n * vv <= 1000000000000 * (1.12 / 10000000000000000)) by (apply Rmult_le_compat; lra). lra. }
  assert (nv0 : 0 <= n * vv) by (apply Rmult_le_pos; lra). assert (qv : 0 <= q * vv <= 450 * vv) by (split; [apply Rmult_le_pos|apply Rmult_le_compat_r]; lra).
  assert (kv : 0 <= k * vv <= 943718400 * vv) by (split; [apply Rmult_le_pos|apply Rmult_le_compat_r]; lra). assert (iv : 0 <= / tau * vv <= 2097152 * vv) by (split; [apply Rmult_le_pos|apply Rmult_le_compat_r]; lra).
  assert (VC : forall c, 0 <= c -> c * vv <= c * (1.12 / 10000000000000000)) by (intros; apply Rmult_le_compat_l; lra).
  set (w := (n + q + (k + / tau) + 2) / 100000000000000) in *. assert (w0 : 0 <= w) by (unfold w; lra).
  assert (WT0 : 0 <= W / tau) by (apply Rmult_le_pos; lra). assert (wam : 0 <= w * am) by (apply Rmult_le_pos; lra). assert (wW : 0 <= w * (W / tau)) by (apply Rmult_le_pos; lra).
  destruct b.
  - destruct (L1 eq_refl) as [M1 M2]. assert (X0 : 0 <= v * T) by (apply Rmult_le_pos; lra).
    assert (XB : v * T <= q + 1 / 10). { unfold eE, eD in *. rewrite ?Ropp_involutive in M2. assert (v * T * vv <= / 1000000 * (v * T)) by (rewrite (Rmult_comm _ vv); apply Rmult_le_compat_r; lra). lra. }
    assert (XV : v * T * vv <= (q + 1 / 10) * vv) by (apply Rmult_le_compat_r; lra).
    assert (TB : T <= 1.01 * (k + / tau * (1 / 10))).
    { assert (0.999 * tau * T <= v * T) by (apply Rmult_le_compat_r; lra). apply (Rmult_le_reg_r tau); auto. replace (1.01 * (k + / tau * (1 / 10)) * tau) with (1.01 * (k * tau + 1 / 10)) by (field; lra). rewrite kt. lra. }
    assert (TV : Rabs (v * T - tau * T) <= (2.02 * k + / tau + 6.2 * q + 1) * vv).
    { replace (v * T - tau * T) with ((v - tau) * T) by ring. rewrite Rabs_mult, (Rabs_right T) by lra. apply Rle_trans with ((2 + 6 * tau) * vv * T). apply Rmult_le_compat_r; lra.
      replace ((2 + 6 * tau) * vv * T) with ((2 * T + 6 * (tau * T)) * vv) by ring. apply Rmult_le_compat_r. lra.
      assert (tau * T <= tau * (1.01 * (k + / tau * (1 / 10)))) by (apply Rmult_le_compat_l; lra). replace (tau * (1.01 * (k + / tau * (1 / 10)))) with (1.01 * (k * tau + 1 / 10)) in H0 by (field; lra). rewrite kt in H0. lra. }
    exfalso. apply Rabs_le_between in TV. unfold eE, eD in *. rewrite ?Ropp_involutive in *.
    assert (TT : T <= peak + w / tau).
    { rewrite PK. fold k. apply (Rmult_le_reg_r tau); auto. rewrite Rmult_plus_distr_r, kt. replace (w / tau * tau) with w by (field; lra).
      pose proof (VC (16 * n + 16 * q + 2.1 * k + / tau + 12)). unfold w. lra. }
    assert (W * (T - peak) <= W * (w / tau)) by (apply Rmult_le_compat_l; lra). replace (W * (w / tau)) with (w * (W / tau)) in H0 by (field; lra). lra.
  - exists s', a'. split; auto. split; auto. destruct (L2 eq_refl) as [p [M0 [M1 [_ M2]]]]. rewrite ?Ropp_involutive in *. destruct M2 as [M2|M2]; auto.
    assert (PT : Rabs (p - q / tau) <= eP n q tau) by (apply (peak_time v); auto; lra). rewrite <- PK in PT.
    assert (EP : eP n q tau = (8 * n + 15 * q + 2 * k + 11) * vv * 1.01 * / tau) by reflexivity.
    assert (C1 : 6 * n * vv <= / 3 * w). { pose proof (VC (6 * n)). unfold w. lra. }
    assert (6 * n * vv * am <= / 3 * w * am) by (apply Rmult_le_compat_r; lra). apply Rabs_le_between in PT.
    assert (EB2 : eP n q tau <= / 3 * w / tau). { rewrite EP. unfold Rdiv at 1. apply Rmult_le_compat_r. lra. unfold w. pose proof (VC (8 * n + 15 * q + 2 * k + 11)). lra. }
    assert (D1 : W * eP n q tau <= / 3 * w * (W / tau)). { replace (/ 3 * w * (W / tau)) with (W * (/ 3 * w / tau)) by (field; lra). apply Rmult_le_compat_l; lra. }
    assert (D2 : W * (p - peak) <= W * eP n q tau) by (apply Rmult_le_compat_l; lra). lra.
Qed.
