(** Lemmas for C131: ageing spots in double precision *)
From Coq Require Import Reals ZArith Bool List Lra Lia.
From Coquelicot Require Import Rcomplements.
From Verif Require Import Num Py MConfig MHelpers MGrid MSpots MFaculae MXoflares MFlares MGranules MStar MSingle MDouble MAge64
  Spec SpecStar SpecDisk SpecSingle SpecDouble SpecAge64 SpecSpot64 LBase LGrid LSpotAge LStarFac LSingle LDouble LDoubleSum LAge64.
Import ListNotations.
Open Scope R_scope.

Lemma vv_small : vv <= 1.12 / 10000000000000000.
Proof. unfold vv, u64. lra. Qed.
(** the logarithm of a rounded number *)
Lemma log_near : forall lg k, accurate_log lg -> 0 < k -> Rabs (ln k) <= 460 ->
  f64 (Fin k) = Fin (f64_round k) /\ exists l, log64 lg (Fin (f64_round k)) = Fin l /\ f64_value l /\ Rabs (l - ln k) <= 1.001 * vv + 5.1 * vv * Rabs (ln k).
Proof.
  intros lg k A Q0 PB. set (p := ln k) in *. pose proof (proj1 (Rabs_le_between _ _) PB) as PB'.
  pose proof ln2_lo. pose proof ln2_hi. pose proof vv_pos. pose proof uv. pose proof u64_pos. pose proof eta_pos as EP. assert (VS : vv <= / 1000000000) by (unfold vv, u64; lra).
  assert (QL : powerRZ 2 (-1000) <= k) by (apply p2_le_ln; auto; unfold p in *; lra).
  assert (QU : k <= powerRZ 2 1000) by (apply ln_p2_le; auto; unfold p in *; lra).
  pose proof (p2_le (-1022) (-1000) ltac:(lia)) as M. destruct (ln_rnd k) as [C D]. lra. fold p in D.
  split. { apply (fin_abs 1000). lia. rewrite Rabs_right; lra. }
  set (q := f64_round k) in *.
  assert (LE : log64 lg (Fin q) = f64 (Fin (lg q))). { unfold log64. destruct (Rlt_dec q 0). lra. destruct (Req_EM_T q 0). lra. auto. }
  rewrite LE. pose proof (A q C) as AQ. set (y := ln q) in *. set (P := Rabs p) in *.
  assert (YB : Rabs y <= P + vv). { unfold P. replace y with ((y - p) + p) by ring. pose proof (Rabs_triang (y - p) p). lra. }
  assert (AQ' : Rabs (lg q - y) <= 4 * u64 * (P + vv)).
  { eapply Rle_trans. apply AQ. replace 2251799813685248 with (/ (4 * u64)) by (unfold u64; lra). unfold Rdiv. rewrite Rinv_inv. rewrite Rmult_comm. apply Rmult_le_compat_l; lra. }
  assert (LB : Rabs (lg q) <= (P + vv) * (1 + 4 * u64)). { replace (lg q) with ((lg q - y) + y) by ring. pose proof (Rabs_triang (lg q - y) y). lra. }
  assert (US : u64 <= / 1000000000) by lra.
  assert (PN : 0 <= P) by apply Rabs_pos.
  assert (p10 : powerRZ 2 10 = 1024) by (rewrite p2_Z by lia; reflexivity).
  rewrite (fin_abs 10). 2: lia. 2: rewrite p10; nra.
  pose proof (rnd_err (lg q)) as R1. set (l := f64_round (lg q)) in *.
  assert (R1' : Rabs (l - p) <= vv + 4 * u64 * (P + vv) + u64 * ((P + vv) * (1 + 4 * u64)) + eta).
  { replace (l - p) with ((l - lg q) + ((lg q - y) + (y - p))) by ring. pose proof (Rabs_triang (l - lg q) ((lg q - y) + (y - p))). pose proof (Rabs_triang (lg q - y) (y - p)).
    assert (u64 * Rabs (lg q) <= u64 * ((P + vv) * (1 + 4 * u64))) by (apply Rmult_le_compat_l; lra). lra. }
  exists l. split; auto. split. apply f64_round_value.
  assert (ES : eta <= 1 * (u64 * / 1000000000)). { apply eta_tiny. replace 1 with (powerRZ 2 0) by reflexivity. apply p2_le. lia. }
  { assert (0 <= vv * P) by (apply Rmult_le_pos; lra). assert (u64 * P <= vv * P) by (apply Rmult_le_compat_r; auto). assert (u64 * vv <= / 1000000000 * vv) by (apply Rmult_le_compat_r; lra).
    assert (u64 * (u64 * P) <= / 1000000000 * (vv * P)). { apply Rmult_le_compat; try lra. apply Rmult_le_pos; lra. }
    assert (u64 * (u64 * vv) <= / 1000000000 * (/ 1000000000 * vv)). { apply Rmult_le_compat; try lra. apply Rmult_le_pos; lra. } lra. }
Qed.
(** the growth rate *)
Lemma tau_near : forall lg g, accurate_log lg -> growth64 g ->
  exists s, log64 lg (add64 (Fin g) (Fin 1)) = Fin s /\ f64_value s /\ / 2097152 <= ln (1 + g) <= 16
    /\ Rabs (s - ln (1 + g)) <= (2 + 6 * ln (1 + g)) * vv.
Proof.
  intros lg g A [V [L U]].
  assert (E1 : powerRZ 2 (-20) = / 1048576) by (simpl; lra). assert (E2 : powerRZ 2 20 = 1048576) by (rewrite p2_Z by lia; reflexivity). rewrite E1, E2 in *.
  assert (K : 0 < g + 1) by lra. pose proof vv_pos. pose proof vv_small.
  assert (T : / 2097152 <= ln (1 + g) <= 16).
  { split.
    - apply Rle_trans with (ln (1 + / 1048576)).
      + pose proof (exp_ineq1_le (- ln (1 + / 1048576))) as E. rewrite exp_Ropp, exp_ln in E by lra. assert (/ (1 + / 1048576) <= 1 - / 2097152) by lra. lra.
      + destruct L as [L|L]; [left; apply ln_increasing; lra|rewrite L; lra].
    - assert (1 + g <= powerRZ 2 21) by (rewrite (p2_Z 21) by lia; change (2 ^ 21)%Z with 2097152%Z; lra).
      apply le_p2_ln in H1; [|lra]. pose proof ln2_hi. lra. }
  destruct (log_near lg (g + 1) A K) as [F [l [E3 [V3 D]]]]. { rewrite (Rplus_comm g). rewrite Rabs_right; lra. }
  exists l. unfold add64, nadd. rewrite F. rewrite (Rplus_comm g 1) in *. split; auto. split; auto. split; auto.
  rewrite (Rabs_right (ln (1 + g))) in D by lra. set (tt := ln (1 + g)) in *. assert (0 <= vv * tt) by (apply Rmult_le_pos; lra). lra.
Qed.
(** an exponent of moderate size *)
Lemma grow_gen : forall ex r z x, accurate_exp ex -> f64_value r -> 0 < r -> -226 <= ln r <= 226 -> 0 <= z -> 0 <= x <= 455 -> ln r + x <= 300 -> Rabs (z - x) <= u64 * x + eta ->
  exists r', mul64 (Fin r) (exp64 ex (Fin z)) = Fin r' /\ f64_value r' /\ r <= r' /\ Rabs (ln r' - (ln r + x)) <= (8 + x) * vv.
Proof.
  intros ex r z x A V Hr Br Z0 Hx Hs Z. pose proof eta_vv. pose proof vv_pos. pose proof uv. assert (vv <= / 1000000000) by (unfold vv, u64; lra). apply Rabs_le_between in Z.
  pose proof u64_pos. assert (u64 * x <= vv * x) by nra. assert (vv * x <= 1) by nra.
  destruct (factor ex z A) as [F1 [F2 F3]]. apply Rabs_le; lra. rewrite F1. set (e := f64_round (ex z)) in *.
  destruct (scaled r e z Hr F2 F3) as [S1 [S2 S3]]. lra. exists (f64_round (r * e)). split; auto. split. apply f64_round_value.
  split. { rewrite <- (f64_round_id r V) at 1. apply f64_round_mono. assert (1 <= e). { unfold e. rewrite <- (f64_round_id 1) by apply f64_one. apply f64_round_mono. destruct (A z) as [_ [_ A3]]. auto. } nra. }
  apply Rabs_le_between in S3. apply Rabs_le. lra.
Qed.
(** the time to the maximum *)
Lemma max_near : forall lg a am s, accurate_log lg -> sane64 am -> 0 < a -> -226 <= ln a <= 226 -> / 4194304 <= s <= 17 ->
  exists m, div64 (log64 lg (div64 (Fin am) (Fin a))) (Fin s) = Fin m /\ f64_value m /\ Rabs (s * m + rho a am) <= (2 + 8 * Rabs (rho a am)) * vv.
Proof.
  intros lg a am s A Sm Ha Ba Hs. destruct (lnb am Sm) as [Hm Bm]. pose proof vv_pos. pose proof vv_small. pose proof uv. pose proof u64_pos.
  assert (Q0 : 0 < am / a) by (apply Rdiv_lt_0_compat; auto).
  assert (QE : ln (am / a) = - rho a am). { unfold Rdiv, rho. rewrite ln_mult, ln_Rinv; auto. ring. apply Rinv_0_lt_compat; auto. }
  assert (PB : Rabs (rho a am) <= 452) by (unfold rho; apply Rabs_le; lra).
  destruct (log_near lg (am / a) A Q0) as [F [l [E3 [V3 D]]]]. { rewrite QE, Rabs_Ropp. lra. }
  rewrite div_fin, F, E3, div_fin by lra. rewrite QE, Rabs_Ropp in D. set (p := rho a am) in *. set (P := Rabs p) in *. assert (PN : 0 <= P) by apply Rabs_pos.
  assert (PV : 0 <= vv * P) by (apply Rmult_le_pos; lra). assert (PV2 : vv * P <= 452 * vv) by (rewrite (Rmult_comm vv); apply Rmult_le_compat_r; lra).
  assert (LL : Rabs l <= P + (1.001 * vv + 5.1 * vv * P)). { unfold P at 1. replace l with ((l - - p) + - p) by ring. pose proof (Rabs_triang (l - - p) (- p)) as T. rewrite Rabs_Ropp in T. lra. }
  assert (LL2 : Rabs l <= 460) by lra.
  assert (B : Rabs (l / s) <= powerRZ 2 40).
  { unfold Rdiv. rewrite Rabs_mult, (Rabs_right (/ s)). 2:{ left. apply Rinv_0_lt_compat. lra. } assert (/ s <= 4194304). { rewrite <- (Rinv_inv 4194304). apply Rinv_le_contravar; lra. }
    replace (powerRZ 2 40) with 1099511627776 by (rewrite p2_Z by lia; reflexivity). assert (Rabs l * / s <= 460 * 4194304). { apply Rmult_le_compat; try lra. apply Rabs_pos. left. apply Rinv_0_lt_compat. lra. } lra. }
  rewrite (fin_abs 40); auto. 2: lia. pose proof (rnd_err (l / s)) as R1. set (m := f64_round (l / s)) in *. exists m. split; auto. split. apply f64_round_value.
  assert (ES : eta <= 1 * (u64 * / 1000000000)). { apply eta_tiny. replace 1 with (powerRZ 2 0) by reflexivity. apply p2_le. lia. }
  assert (SM : Rabs (s * m - l) <= u64 * Rabs l + 17 * eta).
  { replace (s * m - l) with (s * (m - l / s)) by (field; lra). rewrite Rabs_mult, (Rabs_right s) by lra.
    assert (EQ : s * Rabs (l / s) = Rabs l). { rewrite <- (Rabs_right s) at 1 by lra. rewrite <- Rabs_mult. f_equal. field. lra. }
    assert (s * Rabs (m - l / s) <= s * (u64 * Rabs (l / s) + eta)) by (apply Rmult_le_compat_l; lra). pose proof eta_pos. assert (s * eta <= 17 * eta) by (apply Rmult_le_compat_r; lra).
    replace (s * (u64 * Rabs (l / s) + eta)) with (u64 * (s * Rabs (l / s)) + s * eta) in H3 by ring. rewrite EQ in H3. lra. }
  assert (u64 * Rabs l <= vv * (P + (1.001 * vv + 5.1 * vv * P))) by (apply Rmult_le_compat; try lra; apply Rabs_pos).
  assert (vv * (1.001 * vv + 5.1 * vv * P) <= vv * / 100000) by (apply Rmult_le_compat_l; lra).
  replace (s * m + p) with ((s * m - l) + (l - - p)) by ring. pose proof (Rabs_triang (s * m - l) (l - - p)). lra.
Qed.
Lemma sub_fin : forall a b e, (e <= 1023)%Z -> Rabs (a - b) <= powerRZ 2 e -> sub64 (Fin a) (Fin b) = Fin (f64_round (a - b)).
Proof. intros. unfold sub64, nsub, nneg, nadd. replace (a + - b) with (a - b) by ring. apply (fin_abs e); auto. Qed.
Lemma sub_err : forall a b, f64_value a -> f64_value b -> Rabs (f64_round (a - b) - (a - b)) <= u64 * Rabs (a - b).
Proof. intros a b A B. pose proof (add_err a (- b) A (f64_opp b B)) as E. replace (a + - b) with (a - b) in E by ring. auto. Qed.
Lemma ngt_fin : forall a b, ngt (Fin a) (Fin b) = if Rlt_dec b a then true else false.
Proof. intros. unfold ngt, nlt, Rltb. destruct (Rlt_dec b a); auto. Qed.
Definition decay64 (W : R) : Prop := f64_value W /\ 0 <= W <= powerRZ 2 300.
Lemma am_tiny : forall am, sane64 am -> 0 < am /\ eta <= am * (u64 * / 1000000000).
Proof. intros am S. destruct (lnb am S). destruct S as [_ [L _]]. split; auto. apply eta_tiny; auto. Qed.
(** the area that a spot loses in the time [t], as computed *)
Lemma loss : forall W t, decay64 W -> 0 <= t <= powerRZ 2 400 -> mul64 (Fin t) (Fin W) = Fin (f64_round (t * W)) /\ 0 <= f64_round (t * W) /\ f64_value (f64_round (t * W))
  /\ Rabs (f64_round (t * W) - W * t) <= u64 * (W * t) + eta.
Proof.
  intros W t [VW HW] Ht. assert (0 <= t * W) by (apply Rmult_le_pos; lra).
  split. { rewrite mul_fin. apply (fin_abs 700). lia. rewrite Rabs_right by lra. replace 700%Z with (400 + 300)%Z by lia. rewrite p2_add. apply Rmult_le_compat; lra. }
  split. apply rnd_pos; auto. split. apply f64_round_value. pose proof (rnd_err (t * W)) as E. rewrite (Rabs_right (t * W)) in E by lra. rewrite (Rmult_comm W t). auto.
Qed.
Lemma decaying : forall ex lg s a am g W t, spot_params s a am g W -> sp_growing s = false -> f64_value a -> sane64 am -> Rabs a <= 10000000000000 * am -> decay64 W -> time64 t ->
  exists s' a', spot_age64 ex lg s (Fin t) = Ok s' /\ aged_to s s' a' false /\ f64_value a' /\ a' <= Rmax a 0 /\ Rabs a' <= Rabs a + 2 * am
    /\ forall c B k MM, am <= MM -> - B <= c <= am -> 0 <= B <= MM / 4 -> 0 <= k <= / 100 -> Rabs (a - c) <= B + k * MM -> - B <= c - W * t -> Rabs (a' - (c - W * t)) <= B + (k + 6 * vv) * MM.
Proof.
  intros ex lg s a am g W t [Pa [Pm [Pg [Pd Pw]]]] G Va Sm Ba HW [Vt Ht].
  destruct (am_tiny am Sm) as [Hm Em]. pose proof uv. pose proof vv_pos. pose proof vv_small. pose proof u64_pos. pose proof (p2_le 300 400 ltac:(lia)).
  destruct (loss W t HW) as [L1 [L2 [L3 L4]]]. lra. pose proof HW as [VW HW'].
  unfold spot_age64. rewrite G, Pa, Pm, Pw, L1. set (ad := f64_round (t * W)) in *. rewrite ngt_fin. apply Rabs_le_between in L4. assert (WT : 0 <= W * t) by (apply Rmult_le_pos; lra).
  pose proof (Rabs_pos a) as AP.
  destruct (Rlt_dec am ad) as [C|C].
  - exists (spot_with_area s (Fin 0) false), 0. split; auto. split. { unfold aged_to, spot_with_area; cbn. rewrite ?Pm. repeat split; auto. } split. apply f64_zero. split. apply Rmax_r. split. rewrite Rabs_R0. lra.
    intros c B k MM HM Hc HB Hk K1 K2. assert (W * t * (1 + u64) >= am - am * u64) by nra. assert (am - 3 * u64 * am <= W * t). { nra. }
    assert (c - W * t <= 3 * u64 * am) by lra. assert (u64 * am <= vv * MM) by (apply Rmult_le_compat; lra). assert (0 <= k * MM) by (apply Rmult_le_pos; lra). assert (0 <= vv * MM) by (apply Rmult_le_pos; lra). apply Rabs_le. lra.
  - assert (Wt2 : W * t <= 2 * am) by nra.
    assert (AD : Rabs (a - ad) <= Rabs a + am). { unfold Rminus. eapply Rle_trans. apply Rabs_triang. rewrite Rabs_Ropp, (Rabs_right ad); lra. }
    assert (F : sub64 (Fin a) (Fin ad) = Fin (f64_round (a - ad))).
    { apply (sub_fin _ _ 400). lia. eapply Rle_trans. apply AD. destruct Sm as [_ [_ Um]]. replace 400%Z with (100 + 300)%Z by lia. rewrite p2_add. pose proof (p2_pos 300).
      assert (20000000000000 <= powerRZ 2 100) by (rewrite p2_Z by lia; lra). nra. }
    rewrite F. pose proof (sub_err a ad Va L3) as SE. exists (spot_with_area s (Fin (f64_round (a - ad))) false), (f64_round (a - ad)). set (a' := f64_round (a - ad)) in *. split; auto. split. { unfold aged_to, spot_with_area; cbn. rewrite ?Pm. repeat split; auto. }
    split. apply f64_round_value. split. { apply Rle_trans with a; [|apply Rmax_l]. rewrite <- (f64_round_id a Va). apply f64_round_mono. lra. }
    split. { replace a' with ((a' - (a - ad)) + (a - ad)) by ring. eapply Rle_trans. apply Rabs_triang.
      assert (u64 * Rabs (a - ad) <= u64 * (Rabs a + am)) by (apply Rmult_le_compat_l; lra). assert (u64 * (Rabs a + am) <= am). { assert (u64 <= / 1000000000000000) by lra. assert (u64 * (Rabs a + am) <= / 1000000000000000 * (10000000000001 * am)) by (apply Rmult_le_compat; lra). lra. } lra. }
    intros c B k MM HM Hc HB Hk K1 K2.
    assert (kM : 0 <= k * MM <= / 100 * MM) by (split; [apply Rmult_le_pos; lra|apply Rmult_le_compat_r; lra]).
    apply Rabs_le_between in K1. assert (A2 : Rabs (a - ad) <= 2.7 * MM). { apply Rabs_le. lra. }
    assert (u64 * Rabs (a - ad) <= vv * (2.7 * MM)) by (apply Rmult_le_compat; try lra; apply Rabs_pos).
    assert (u64 * (W * t) <= vv * (2 * MM)) by (apply Rmult_le_compat; lra). assert (am * (u64 * / 1000000000) <= MM * (vv * / 1000000000)) by (apply Rmult_le_compat; try lra). apply Rabs_le_between in SE. assert (0 <= vv * MM) by (apply Rmult_le_pos; lra).
    apply Rabs_le. lra.
Qed.
(** a growing spot *)
Lemma growing_spot : forall ex lg s a am g W t, accurate_exp ex -> accurate_log lg -> spot_params s a am g W -> sp_growing s = true -> f64_value a -> sane64 am ->
  powerRZ 2 (-300) <= a -> rho a am <= / 1000 -> growth64 g -> decay64 W -> time64 t ->
  forall v, log64 lg (add64 (Fin g) (Fin 1)) = Fin v -> / 4194304 <= v <= 17 -> f64_value v ->
  exists s' a' b, spot_age64 ex lg s (Fin t) = Ok s' /\ aged_to s s' a' b /\ f64_value a' /\
   (let x := v * t in let p := rho a am in let d := (2 + 8 * Rabs p) * vv in
    (b = true -> a <= a' /\ p + x <= d /\ Rabs (rho a' am - (p + x)) <= (8 + x) * vv)
    /\ (b = false -> 0 <= a' <= am /\ exists m, m <= t /\ Rabs (v * m + p) <= d
         /\ forall B, 0 <= B -> - B <= am - W * (t - m) -> Rabs (a' - (am - W * (t - m))) <= B + 6 * vv * am)).
Proof.
  intros ex lg s a am g W t Ae Al [Pa [Pm [Pg [Pd Pw]]]] G Va Sm La Hp Hg HW [Vt Ht] v Ev Bv Vv. cbv zeta.
  destruct (lnb am Sm) as [Hm Bm]. destruct (am_tiny am Sm) as [_ Em]. pose proof (p2_pos (-300)) as P3. assert (Ha : 0 < a) by lra. pose proof (ln_le_p2 _ _ La) as Br. pose proof ln2_hi.
  assert (Ba : -226 <= ln a <= 226) by (unfold rho in Hp; lra).
  destruct (max_near lg a am v Al Sm Ha Ba Bv) as [m [E1 [Vm Dm]]]. set (p := rho a am) in *. set (d := (2 + 8 * Rabs p) * vv) in *. set (x := v * t) in *.
  assert (PB : Rabs p <= 451). { unfold p, rho. unfold p, rho in Hp. apply Rabs_le. lra. }
  assert (PN : 0 <= Rabs p) by apply Rabs_pos. pose proof vv_pos. pose proof vv_small. pose proof uv. pose proof u64_pos.
  assert (DB : 0 < d <= / 100000000000). { unfold d. split. apply Rmult_lt_0_compat; lra. assert ((2 + 8 * Rabs p) * vv <= 4000 * (1.12 / 10000000000000000)). apply Rmult_le_compat; lra. lra. }
  assert (X : 0 <= x) by (apply Rmult_le_pos; lra). pose proof (p2_le 300 400 ltac:(lia)).
  unfold spot_age64. rewrite G, Pd. cbn [negb Z.eqb Pos.eqb]. rewrite Pa, Pm, Pg, Pw, Ev.
  assert (NQ : neq (Fin v) (Fin 0) = false). { unfold neq, Reqb. destruct (Req_EM_T v 0); auto. lra. } rewrite NQ, E1, ngt_fin.
  pose proof (proj1 (Rabs_le_between _ _) Dm) as Dm'. pose proof (proj1 (Rabs_le_between _ _) PB) as PB'.
  destruct (Rlt_dec t m) as [C|C].
  - assert (AX : x <= v * m) by (apply Rmult_le_compat_l; lra).
    assert (F : mul64 (Fin v) (Fin t) = Fin (f64_round x)). { rewrite mul_fin. apply (fin_abs 10). lia. fold x. rewrite Rabs_right by lra. replace (powerRZ 2 10) with 1024 by (rewrite p2_Z by lia; reflexivity). lra. }
    rewrite F. destruct (quot_round x X) as [Z0 Z].
    destruct (grow_gen ex a (f64_round x) x Ae Va Ha Ba Z0) as [a' [G1 [G2 [G3 G4]]]]; auto. lra. { unfold p, rho in *. lra. }
    rewrite G1. eexists _, a', true. split. reflexivity. split. { unfold aged_to, spot_with_area; cbn. rewrite ?Pm. repeat split; auto. } split; auto. split; [|discriminate]. intros _. split; auto. split. lra.
    replace (rho a' am - (p + x)) with (ln a' - (ln a + x)) by (unfold p, rho; ring). auto.
  - assert (T40 : Rabs (t - m) <= powerRZ 2 301 /\ 0 <= t - m).
    { split; [|lra]. rewrite Rabs_right by lra. replace 301%Z with (1 + 300)%Z by lia. rewrite p2_add. simpl (powerRZ 2 1).
      assert (-2 <= v * m) by lra. assert (-10000000 <= m). { apply Rnot_lt_le. intro Q. assert (v * m <= / 4194304 * -10000000). nra. lra. }
      assert (10000000 <= powerRZ 2 300). { eapply Rle_trans; [|apply (p2_le 30 300); lia]. rewrite p2_Z by lia. change (2 ^ 30)%Z with 1073741824%Z. lra. } lra. }
    destruct T40 as [T40 T0]. rewrite (sub_fin t m 301); auto. 2: lia. pose proof (sub_err t m Vt Vm) as SE. rewrite (Rabs_right (t - m)) in SE, T40 by lra. set (dt := f64_round (t - m)) in *.
    assert (D0 : 0 <= dt) by (apply rnd_pos; auto). pose proof (p2_le 301 400 ltac:(lia)).
    assert (D1 : dt <= powerRZ 2 400). { unfold dt. rewrite <- (f64_round_id (powerRZ 2 400)) by (apply f64_p2; lia). apply f64_round_mono. lra. }
    destruct (loss W dt HW) as [L1 [L2 [L3 L4]]]. lra. rewrite L1. set (ad := f64_round (dt * W)) in *. rewrite ngt_fin. pose proof HW as [VW HW']. apply Rabs_le_between in L4. apply Rabs_le_between in SE.
    set (w := W * (t - m)). assert (w0 : 0 <= w) by (apply Rmult_le_pos; lra).
    assert (WE : w * (1 - u64) <= W * dt <= w * (1 + u64)). { unfold w. split. replace (W * (t - m) * (1 - u64)) with (W * ((t - m) * (1 - u64))) by ring. apply Rmult_le_compat_l; lra. replace (W * (t - m) * (1 + u64)) with (W * ((t - m) * (1 + u64))) by ring. apply Rmult_le_compat_l; lra. }
    assert (uw : 0 <= u64 * w) by (apply Rmult_le_pos; lra). assert (uuw : 0 <= u64 * (u64 * w) <= / 1000 * (u64 * w)). { split. apply Rmult_le_pos; lra. apply Rmult_le_compat_r; lra. }
    assert (UM : u64 * am <= vv * am) by (apply Rmult_le_compat_r; lra). assert (UM0 : 0 <= u64 * am) by (apply Rmult_le_pos; lra).
    assert (uad : u64 * (W * dt) <= u64 * (w * (1 + u64))) by (apply Rmult_le_compat_l; lra).
    destruct (Rlt_dec am ad) as [C2|C2].
    + eexists _, 0, false. split. reflexivity. split. { unfold aged_to, spot_with_area; cbn. rewrite ?Pm. repeat split; auto. } split. apply f64_zero. split. discriminate. intros _. split. lra.
      exists m. split. lra. split; auto. intros B HB K. fold w. fold w in K. assert (am - 5 * u64 * am <= w). { destruct (Rle_lt_dec am w); [lra|]. assert (u64 * w <= u64 * am) by (apply Rmult_le_compat_l; lra). lra. } apply Rabs_le. lra.
    + assert (AB : 0 <= am - ad <= am) by lra. rewrite (sub_fin am ad 400). 2: lia. 2:{ rewrite Rabs_right by lra. destruct Sm as [_ [_ Um]]. lra. }
      pose proof (sub_err am ad (proj1 Sm) L3) as SE2. rewrite (Rabs_right (am - ad)) in SE2 by lra.
      eexists _, (f64_round (am - ad)), false. split. reflexivity. split. { unfold aged_to, spot_with_area; cbn. rewrite ?Pm. repeat split; auto. } split. apply f64_round_value. split. discriminate. intros _.
      split. { split. apply rnd_pos; lra. rewrite <- (f64_round_id am (proj1 Sm)) at 2. apply f64_round_mono. lra. }
      exists m. split. lra. split; auto. intros B HB K. fold w. fold w in K. assert (w <= 1.5 * am). { assert (u64 * am <= / 1000 * am) by (apply Rmult_le_compat_r; lra). assert (u64 * w <= / 1000 * w) by (apply Rmult_le_compat_r; lra). lra. }
      assert (u64 * w <= u64 * (1.5 * am)) by (apply Rmult_le_compat_l; lra). assert (u64 * (am - ad) <= u64 * am) by (apply Rmult_le_compat_l; lra). apply Rabs_le_between in SE2. apply Rabs_le. lra.
Qed.
Lemma sp_trans : forall f g h r r' b b', aged_to f g r b -> aged_to g h r' b' -> aged_to f h r' b'.
Proof. unfold aged_to. intros. intuition congruence. Qed.
Lemma sp_state : forall f f' a am g W a' b, spot_params f a am g W -> aged_to f f' a' b -> spot_params f' a' am g W /\ sp_growing f' = b.
Proof. unfold aged_to, spot_params. intros. intuition congruence. Qed.
Lemma sp_self : forall f a am g W, spot_params f a am g W -> aged_to f f a (sp_growing f).
Proof. unfold aged_to, spot_params. intros. intuition congruence. Qed.
Lemma spot_snoc : forall ex lg ts s t, spot_aged64 ex lg s (ts ++ [t]) = bind (spot_aged64 ex lg s ts) (fun s' => spot_age64 ex lg s' (Fin t)).
Proof.
  induction ts as [|t0 ts IH]; intros s t; simpl. destruct (spot_age64 ex lg s (Fin t)); auto. destruct (spot_age64 ex lg s (Fin t0)); simpl; auto.
Qed.
Definition sstart (s : spot) (a am g W : R) : Prop := spot_params s a am g W /\ sane64 a /\ sane64 am /\ a <= am /\ growth64 g /\ decay64 W.
Definition sbnd (s : spot) (a am n : R) (s' : spot) (a' : R) (b : bool) : Prop :=
  aged_to s s' a' b /\ f64_value a' /\ a' <= am * (1 + / 1000000000000) /\ Rabs a' <= (2 * n + 2) * am /\ (b = true -> a <= a' /\ rho a' am <= 49 / 100000000000000).
Lemma sbnd_start : forall s a am g W, sstart s a am g W -> sbnd s a am 0 s a (sp_growing s).
Proof.
  intros s a am g W [P [Sa [Sm [H _]]]]. destruct (lnb a Sa) as [Ha _]. split. eapply sp_self; eauto. split. apply Sa. split. nra. split. rewrite Rabs_right; nra.
  intros _. split. lra. pose proof (rho_neg a am). lra.
Qed.
Lemma rate : forall lg g, accurate_log lg -> growth64 g -> exists v, log64 lg (add64 (Fin g) (Fin 1)) = Fin v /\ f64_value v /\ / 4194304 <= v <= 17
  /\ / 2097152 <= ln (1 + g) <= 16 /\ Rabs (v - ln (1 + g)) <= (2 + 6 * ln (1 + g)) * vv.
Proof.
  intros lg g Al Hg. destruct (tau_near lg g Al Hg) as [v [E [V [T D]]]]. exists v. split; auto. split; auto. split; auto.
  pose proof vv_small. pose proof vv_pos. assert ((2 + 6 * ln (1 + g)) * vv <= 98 * (1.12 / 10000000000000000)) by (apply Rmult_le_compat; lra). apply Rabs_le_between in D. lra.
Qed.
Lemma sbnd_step : forall ex lg s a am g W n s1 a1 b t, accurate_exp ex -> accurate_log lg -> sstart s a am g W -> 0 <= n <= 1000000000000 -> sbnd s a am n s1 a1 b -> time64 t ->
  exists s2 a2 b', spot_age64 ex lg s1 (Fin t) = Ok s2 /\ sbnd s a am (n + 1) s2 a2 b' /\ (b = false -> b' = false /\ a2 <= Rmax a1 0) /\ (b' = true -> a1 <= a2).
Proof.
  intros ex lg s a am g W n s1 a1 b t Ae Al [S [Sa [Sm [H [Hg HW]]]]] Hn [A [V [B [B' T]]]] Ht.
  destruct (sp_state _ _ _ _ _ _ _ _ S A) as [Sg Eg]. destruct (lnb a Sa) as [Ha Ba]. destruct (lnb am Sm) as [Hm Bm].
  destruct (rate lg g Al Hg) as [v [Ev [Vv [Bv [Bt Dv]]]]].
  destruct b.
  - destruct (T eq_refl) as [T1 T2]. destruct Sa as [Va [La Ua]].
    destruct (growing_spot ex lg s1 a1 am g W t Ae Al Sg Eg V Sm) with (v := v) as [s2 [a2 [b' [E2 [A2 [V2 K]]]]]]; try lra; auto. cbv zeta in K. destruct K as [K1 K2].
    exists s2, a2, b'. split; auto. split; [|split; [discriminate|intros Q; apply K1; auto]].
    split. eapply sp_trans; eauto. split; auto. assert (nm : 0 <= n * am) by (apply Rmult_le_pos; lra). destruct b'.
    + destruct (K1 eq_refl) as [K3 [K4 K5]]. assert (a <= a2) by lra. assert (Q : rho a2 am <= 49 / 100000000000000).
      { assert (0 <= v * t). { destruct Ht as [_ [Ht _]]. apply Rmult_le_pos; lra. } set (x := v * t) in *. set (p := rho a1 am) in *.
        assert (-450 <= p). { unfold p, rho. assert (ln a <= ln a1). { destruct T1 as [T1| <-]; [|lra]. left. apply ln_increasing; lra. } lra. }
        assert (P : Rabs p <= 450) by (apply Rabs_le; lra). pose proof vv_pos. pose proof vv_small. apply Rabs_le_between in K5.
        assert ((2 + 8 * Rabs p) * vv <= 3602 * vv) by (apply Rmult_le_compat_r; lra). assert ((8 + x) * vv <= 460 * vv) by (apply Rmult_le_compat_r; lra). lra. }
      assert (a2 <= am * (1 + / 1000000000000)) by (apply under_peak; lra). split; auto. split. rewrite Rabs_right by lra. lra. auto.
    + destruct (K2 eq_refl) as [K3 _]. split. lra. split; [rewrite Rabs_right; lra|discriminate].
  - assert (NB : (2 * n + 2) * am <= 10000000000000 * am) by (apply Rmult_le_compat_r; lra).
    destruct (decaying ex lg s1 a1 am g W t Sg Eg V Sm) as [s2 [a2 [E2 [A2 [V2 [B2 [C2 _]]]]]]]; auto. lra.
    exists s2, a2, false. split; auto. split; [|split; [intros _; split; auto|discriminate]]. split. eapply sp_trans; eauto. split; auto. split. { unfold Rmax in B2. destruct (Rle_dec a1 0); nra. } split; [lra|discriminate].
Qed.
Lemma sbnd_run : forall ex lg s a am g W ts, accurate_exp ex -> accurate_log lg -> sstart s a am g W -> (forall t, In t ts -> time64 t) -> INR (length ts) <= 1000000000000 ->
  exists s' a' b, spot_aged64 ex lg s ts = Ok s' /\ sbnd s a am (INR (length ts)) s' a' b.
Proof.
  intros ex lg s a am g W ts Ae Al S. induction ts as [|t ts IH] using rev_ind; intros H Hn.
  - exists s, a, (sp_growing s). split; auto. eapply sbnd_start; eauto.
  - rewrite app_length, plus_INR in *. simpl (length [t]) in *. change (INR 1) with 1 in *. pose proof (pos_INR (length ts)).
    destruct IH as [s' [a' [b [E K]]]]. { intros; apply H; apply in_or_app; auto. } lra.
    destruct (sbnd_step ex lg s a am g W (INR (length ts)) s' a' b t Ae Al S) as [s2 [a2 [b' [E2 [K' _]]]]]; auto. lra. { apply H; apply in_or_app; right; left; auto. }
    exists s2, a2, b'. rewrite spot_snoc, E. simpl. auto.
Qed.
Lemma C131_bounds_lemma : forall ex lg s a am g W ts,
  accurate_exp ex -> accurate_log lg -> spot_params s a am g W -> sane64 a -> sane64 am -> a <= am -> growth64 g -> f64_value W -> 0 <= W <= powerRZ 2 300 ->
  (forall t, In t ts -> time64 t) -> INR (length ts) <= 1000000000000 ->
  exists s' a' b, spot_aged64 ex lg s ts = Ok s' /\ aged_to s s' a' b /\ a' <= am * (1 + / 1000000000000) /\ (b = true -> a <= a')
    /\ forall t, time64 t -> exists s2 a2 b', spot_aged64 ex lg s (ts ++ [t]) = Ok s2 /\ aged_to s s2 a2 b'
         /\ (b = false -> b' = false /\ a2 <= Rmax a' 0) /\ (b' = true -> a' <= a2).
Proof.
  intros ex lg s a am g W ts Ae Al P Sa Sm H Hg VW HW Ht Hn. assert (St : sstart s a am g W) by (repeat (split; auto); apply HW).
  destruct (sbnd_run ex lg s a am g W ts Ae Al St Ht Hn) as [s' [a' [b [E K]]]]. pose proof K as [A [V [B [B' T]]]]. pose proof (pos_INR (length ts)).
  exists s', a', b. split; auto. split; auto. split; auto. split. intros Q; apply T; auto. intros t Q.
  destruct (sbnd_step ex lg s a am g W (INR (length ts)) s' a' b t Ae Al St) as [s2 [a2 [b' [E2 [[A2 _] [K1 K2]]]]]]; auto. exists s2, a2, b'. rewrite spot_snoc, E. simpl. auto.
Qed.
(** the computed time of the maximum *)
Definition eP (n q tau : R) : R := (8 * n + 15 * q + 2 * (q / tau) + 11) * vv * 1.01 / tau.
Lemma peak_time : forall v tau q n P, / 2097152 <= tau <= 16 -> Rabs (v - tau) <= (2 + 6 * tau) * vv -> 0 <= q <= 450 -> 0 <= n <= 1000000000000 ->
  Rabs (v * P - q) <= eD q + (8 * n + q + 1) * vv -> Rabs (P - q / tau) <= eP n q tau.
Proof.
  intros v tau q n P Ht Hv Hq Hn H. pose proof vv_pos. pose proof vv_small. assert (T0 : 0 < tau) by lra.
  assert (VT : (2 + 6 * tau) * vv <= / 1000 * tau). { assert ((2 + 6 * tau) * vv <= 98 * (1.12 / 10000000000000000)) by (apply Rmult_le_compat; lra). lra. }
  pose proof (proj1 (Rabs_le_between _ _) Hv) as Hv'. assert (V0 : 0.999 * tau <= v) by lra.
  assert (IV : / v <= 1.01 * / tau). { replace (1.01 * / tau) with (/ (tau / 1.01)) by (field; lra). apply Rinv_le_contravar; lra. }
  assert (IV0 : 0 < / v) by (apply Rinv_0_lt_compat; lra). set (k := q / tau). assert (k0 : 0 <= k). { unfold k. apply Rmult_le_pos. lra. left. apply Rinv_0_lt_compat; auto. }
  replace (P - k) with (((v * P - q) + k * (tau - v)) * / v) by (unfold k; field; lra). rewrite Rabs_mult, (Rabs_right (/ v)) by lra.
  assert (Q1 : Rabs (k * (tau - v)) <= k * ((2 + 6 * tau) * vv)). { rewrite Rabs_mult, (Rabs_right k), Rabs_minus_sym by lra. apply Rmult_le_compat_l; lra. }
  assert (kt : k * tau = q) by (unfold k; field; lra).
  assert (Q2 : Rabs (v * P - q + k * (tau - v)) <= (8 * n + 15 * q + 2 * k + 11) * vv). { eapply Rle_trans. apply Rabs_triang. replace (k * ((2 + 6 * tau) * vv)) with ((2 * k + 6 * q) * vv) in Q1 by (rewrite <- kt; ring). unfold eD in H. lra. }
  unfold eP. fold k. replace ((8 * n + 15 * q + 2 * k + 11) * vv * 1.01 / tau) with ((8 * n + 15 * q + 2 * k + 11) * vv * (1.01 * / tau)) by (field; lra).
  apply Rmult_le_compat; auto. apply Rabs_pos. lra.
Qed.
(** the law *)
Definition slaw (a am W v tau n N T : R) (a' : R) (b : bool) : Prop :=
  let y := rho a am in
  (b = true -> Rabs (rho a' am - (y + v * T)) <= eE n (v * T) /\ y + v * T <= eD (- y) + eE n (v * T))
  /\ (b = false -> exists P, P <= T /\ Rabs (v * P - - y) <= eD (- y) + (8 * N + - y + 1) * vv
        /\ Rabs (a' - (am - W * (T - P))) <= W * eP N (- y) tau + 6 * n * vv * (am + W / tau)).
Lemma slaw_run : forall ex lg s a am g W ts N v tau, accurate_exp ex -> accurate_log lg -> sstart s a am g W -> sp_growing s = true ->
  log64 lg (add64 (Fin g) (Fin 1)) = Fin v -> f64_value v -> / 4194304 <= v <= 17 -> tau = ln (1 + g) -> / 2097152 <= tau <= 16 -> Rabs (v - tau) <= (2 + 6 * tau) * vv ->
  (forall t, In t ts -> time64 t) -> INR (length ts) <= N <= 1000000000000 -> W * (rsum ts - - rho a am / tau) <= am ->
  exists s' a' b, spot_aged64 ex lg s ts = Ok s' /\ sbnd s a am (INR (length ts)) s' a' b /\ slaw a am W v tau (INR (length ts)) N (rsum ts) a' b.
Proof.
  intros ex lg s a am g W ts N v tau Ae Al S G Ev Vv Bv -> Bt Dv. set (tau := ln (1 + g)) in *.
  pose proof S as [Sf [Sa [Sm [H [Hg HW]]]]]. destruct (lnb a Sa) as [Ha Ba]. destruct (lnb am Sm) as [Hm Bm]. pose proof HW as [VW HW'].
  pose proof (y_range a am Sa Sm H) as Y. pose proof vv_pos as VP. pose proof vv_small as VS.
  induction ts as [|t ts IH] using rev_ind; intros Ht Hn HX.
  - exists s, a, true. split; auto. split. { rewrite <- G. eapply sbnd_start; eauto. } split; [|discriminate]. intros _. simpl. rewrite Rmult_0_r. unfold eE, eD.
    rewrite Rplus_0_r. rewrite (Rminus_diag_eq _ _ eq_refl), Rabs_R0. split. lra. assert (0 < (2 + 8 * (- rho a am + 1)) * vv) by (apply Rmult_lt_0_compat; lra). lra.
  - rewrite app_length, plus_INR in *. simpl (length [t]) in *. change (INR 1) with 1 in *. rewrite rsum_snoc in *.
    assert (Q1 : forall t0, In t0 ts -> time64 t0) by (intros; apply Ht; apply in_or_app; auto). assert (Q2 : time64 t) by (apply Ht; apply in_or_app; right; left; auto).
    pose proof (rsum_pos ts Q1) as RP. pose proof Q2 as [_ [t0 _]]. set (T := rsum ts) in *. set (y := rho a am) in *.
    assert (Wt : 0 <= W * t) by (apply Rmult_le_pos; lra).
    destruct IH as [s' [a' [b [E [K [N1 N2]]]]]]; auto. lra. lra. set (n := INR (length ts)) in *. fold y in N1, N2.
    pose proof (pos_INR (length ts)) as n0. fold n in n0.
    rewrite spot_snoc, E. cbn [bind].
    assert (x0 : 0 <= v * t) by (apply Rmult_le_pos; lra). assert (X0 : 0 <= v * T) by (apply Rmult_le_pos; lra).
    replace (v * (T + t)) with (v * T + v * t) by ring.
    assert (Nv : N * vv <= 1.12 / 10000). { assert (N * vv <= 1000000000000 * (1.12 / 10000000000000000)) by (apply Rmult_le_compat; lra). lra. }
    assert (nv : n * vv <= N * vv) by (apply Rmult_le_compat_r; lra).
    assert (xv : 0 <= v * t * vv) by (apply Rmult_le_pos; lra). assert (nv0 : 0 <= n * vv) by (apply Rmult_le_pos; lra). assert (Xv : 0 <= v * T * vv) by (apply Rmult_le_pos; lra).
    assert (yv : (- y) * vv <= 450 * vv) by (apply Rmult_le_compat_r; lra). assert (yv0 : 0 <= (- y) * vv) by (apply Rmult_le_pos; lra).
    pose proof K as [A [V [B [B' U]]]]. destruct (sp_state _ _ _ _ _ _ _ _ Sf A) as [Sg Eg].
    destruct (sbnd_step ex lg s a am g W n s' a' b t Ae Al S) as [s3 [a3 [b3 [E3 [K3 [K4 _]]]]]]; auto. lra.
    (* the tolerance *)
    set (del := eP N (- y) tau). set (MM := am + W / tau).
    assert (T0 : 0 < tau) by lra. assert (WT : 0 <= W / tau). { apply Rmult_le_pos. lra. left. apply Rinv_0_lt_compat; auto. }
    assert (D0 : 0 <= W * del <= MM / 4).
    { unfold del, eP. set (k := - y / tau). assert (k0 : 0 <= k <= 943718400). { unfold k. split. apply Rmult_le_pos. lra. left. apply Rinv_0_lt_compat; auto.
        apply (Rmult_le_reg_r tau); auto. replace (- y / tau * tau) with (- y) by (field; lra). nra. }
      assert (C : 0 <= (8 * N + 15 * - y + 2 * k + 11) * vv * 1.01 <= / 10).
      { assert (k * vv <= 943718400 * (1.12 / 10000000000000000)) by (apply Rmult_le_compat; lra). assert (0 <= k * vv) by (apply Rmult_le_pos; lra). assert (0 <= N * vv) by (apply Rmult_le_pos; lra). lra. }
      set (c := (8 * N + 15 * - y + 2 * k + 11) * vv * 1.01) in *. replace (W * (c / tau)) with (c * (W / tau)) by (field; lra). unfold MM. nra. }
    assert (PT : forall P, Rabs (v * P - - y) <= eD (- y) + (8 * N + - y + 1) * vv -> Rabs (P - - y / tau) <= del).
    { intros P HP. unfold del. apply (peak_time v); auto; lra. }
    assert (LOW : forall P, Rabs (v * P - - y) <= eD (- y) + (8 * N + - y + 1) * vv -> - (W * del) <= am - W * (T + t - P)).
    { intros P HP. apply PT in HP. apply Rabs_le_between in HP. assert (W * (- y / tau - P) <= W * del) by (apply Rmult_le_compat_l; lra). lra. }
    destruct b.
    + destruct (U eq_refl) as [T1 T2]. destruct (N1 eq_refl) as [M1 M2]. pose proof Sa as [_ [La _]].
      destruct (growing_spot ex lg s' a' am g W t Ae Al Sg Eg V Sm) with (v := v) as [s2 [a2 [b' [E2 [A2 [V2 J]]]]]]; try lra; auto.
      rewrite E3 in E2. injection E2 as <-. cbv zeta in J. set (p := rho a' am) in *.
      destruct (sp_state _ _ _ _ _ _ _ _ Sg A2) as [[F1 _] F2]. pose proof K3 as [A3 _]. destruct (sp_state _ _ _ _ _ _ _ _ Sf A3) as [[F3 _] F4]. assert (a3 = a2) by congruence. assert (b3 = b') by congruence. subst a3 b3.
      exists s3, a2, b'. split; [exact E3|]. split; [rewrite <- F2; exact K3|]. clear F2. destruct J as [J1 J2].
      assert (yp : y <= p). { unfold y, p, rho. assert (ln a <= ln a'). { destruct T1 as [T1| <-]; [|lra]. left. apply ln_increasing; lra. } lra. }
      assert (PA : 0 <= Rabs p <= - y + 1). { split. apply Rabs_pos. apply Rabs_le. lra. }
      assert (d1 : (2 + 8 * Rabs p) * vv <= eD (- y)). { unfold eD. apply Rmult_le_compat_r; lra. }
      apply Rabs_le_between in M1. unfold slaw. fold y. cbv zeta. fold del MM. split; intros ->.
      * destruct (J1 eq_refl) as [J3 [J4 J5]]. apply Rabs_le_between in J5. replace (v * (T + t)) with (v * T + v * t) by ring. unfold eE in *. split. apply Rabs_le. lra. lra.
      * destruct (J2 eq_refl) as [J3 [m [J4 [J5 J6]]]]. exists (T + m). split. lra. apply Rabs_le_between in J5.
        assert (XB : v * T <= - y + 1). { unfold eE, eD in *. assert (v * T * vv <= / 1000 * (v * T)) by (rewrite (Rmult_comm _ vv); apply Rmult_le_compat_r; lra). lra. }
        assert (XBv : v * T * vv <= (- y + 1) * vv) by (apply Rmult_le_compat_r; lra).
        assert (HP : Rabs (v * (T + m) - - y) <= eD (- y) + (8 * N + - y + 1) * vv). { replace (v * (T + m)) with (v * T + v * m) by ring. unfold eE in *. apply Rabs_le. lra. }
        split; auto. pose proof (LOW _ HP) as LO. replace (T + t - (T + m)) with (t - m) in * by ring. specialize (J6 (W * del) (proj1 D0) LO).
        assert (6 * vv * am <= 6 * (n + 1) * vv * MM). { apply Rmult_le_compat; try lra. unfold MM. lra. } lra.
    + destruct (N2 eq_refl) as [P [M0 [M1 M2]]]. destruct (K4 eq_refl) as [-> _]. fold del MM in M2.
      assert (NB : (2 * n + 2) * am <= 10000000000000 * am) by (apply Rmult_le_compat_r; lra).
      destruct (decaying ex lg s' a' am g W t Sg Eg V Sm) as [s2 [a2 [E2 [A2 [V2 [B2 [C2 J]]]]]]]; auto. lra.
      rewrite E3 in E2. injection E2 as <-. destruct (sp_state _ _ _ _ _ _ _ _ Sg A2) as [[F1 _] F2]. pose proof K3 as [A3 _]. destruct (sp_state _ _ _ _ _ _ _ _ Sf A3) as [[F3 _] F4]. assert (a3 = a2) by congruence. subst a3.
      exists s3, a2, false. split; [exact E3|]. split; [exact K3|]. split. discriminate. intros _. exists P. split. lra. fold y. split; auto. fold del MM.
      pose proof (LOW P M1) as LO. assert (W0 : 0 <= W * (T - P)) by (apply Rmult_le_pos; lra). replace (am - W * (T + t - P)) with (am - W * (T - P) - W * t) in * by ring.
      replace (6 * (n + 1) * vv * MM) with ((6 * n * vv + 6 * vv) * MM) by ring. apply J; try lra. unfold MM; lra.
Qed.
Lemma C131_law_lemma : forall ex lg s a am g W ts,
  accurate_exp ex -> accurate_log lg -> spot_params s a am g W -> sane64 a -> sane64 am -> a <= am -> growth64 g -> f64_value W -> 0 <= W <= powerRZ 2 300 ->
  sp_growing s = true -> (forall t, In t ts -> time64 t) -> INR (length ts) <= 1000000000000 ->
  let T := rsum ts in let peak := time_to_max a am g in let tau := ln (1 + g) in let e := spot_drift64 (length ts) (ln (am / a)) tau in
  W * (T - peak) <= am ->
  exists s' a' b, spot_aged64 ex lg s ts = Ok s' /\ aged_to s s' a' b
    /\ (b = true -> Rabs (a' - a * Rpower (1 + g) T) <= e * (a * Rpower (1 + g) T) /\ T <= peak + e / tau)
    /\ (b = false -> Rabs (a' - (am - W * (T - peak))) <= e * (am + W / tau) /\ peak - e / tau <= T).
Proof.
  intros ex lg s a am g W ts Ae Al P Sa Sm H Hg VW HW G Ht Hn T peak tau e HX. assert (St : sstart s a am g W) by (repeat (split; auto); apply HW).
  destruct (lnb a Sa) as [Ha Ba]. destruct (lnb am Sm) as [Hm Bm]. pose proof (y_range a am Sa Sm H) as Y. pose proof vv_pos as VP. pose proof vv_small as VS.
  destruct (rate lg g Al Hg) as [v [Ev [Vv [Bv [Bt Dv]]]]]. fold tau in Bt, Dv.
  assert (LQ : ln (am / a) = - rho a am). { unfold Rdiv, rho. rewrite ln_mult, ln_Rinv; auto. ring. apply Rinv_0_lt_compat; auto. }
  assert (PK : peak = - rho a am / tau) by (unfold peak, time_to_max; rewrite LQ; auto).
  destruct (slaw_run ex lg s a am g W ts (INR (length ts)) v tau Ae Al St G Ev Vv Bv eq_refl Bt Dv Ht) as [s' [a' [b [E [K L]]]]]. lra. rewrite <- PK. auto.
  fold T in L. exists s', a', b. destruct K as [A [V [B [B' U]]]]. split; auto. split; auto. unfold slaw in L. cbv zeta in L. destruct L as [L1 L2].
  unfold e, spot_drift64. rewrite LQ. set (q := - rho a am) in *. replace (rho a am) with (- q) in * by (unfold q; ring). assert (Q : 0 <= q <= 450) by lra. clear Y.
  set (n := INR (length ts)) in *. pose proof (pos_INR (length ts)) as n0. fold n in n0. assert (T0 : 0 < tau) by lra. pose proof (rsum_pos ts Ht) as RP. fold T in RP.
  assert (VT : (2 + 6 * tau) * vv <= / 1000 * tau). { assert ((2 + 6 * tau) * vv <= 98 * (1.12 / 10000000000000000)) by (apply Rmult_le_compat; lra). lra. }
  pose proof (proj1 (Rabs_le_between _ _) Dv) as Dv'.
  set (k := q / tau). replace ((q + 1) / tau) with (k + / tau) by (unfold k; field; lra). assert (IT : 0 < / tau) by (apply Rinv_0_lt_compat; auto). assert (IT2 : / tau <= 2097152) by (rewrite <- (Rinv_inv 2097152); apply Rinv_le_contravar; lra).
  assert (k0 : 0 <= k). { unfold k. apply Rmult_le_pos; lra. } assert (kb : k <= 943718400). { unfold k, Rdiv. assert (q * / tau <= 450 * 2097152) by (apply Rmult_le_compat; lra). lra. } assert (kt : k * tau = q) by (unfold k; field; lra).
  assert (nv : n * vv <= 1.12 / 10000). { assert (n * vv <= 1000000000000 * (1.12 / 10000000000000000)) by (apply Rmult_le_compat; lra). lra. }
  assert (nv0 : 0 <= n * vv) by (apply Rmult_le_pos; lra). assert (qv : 0 <= q * vv <= 450 * vv) by (split; [apply Rmult_le_pos|apply Rmult_le_compat_r]; lra).
  assert (kv : 0 <= k * vv <= 943718400 * vv) by (split; [apply Rmult_le_pos|apply Rmult_le_compat_r]; lra). assert (iv : 0 <= / tau * vv <= 2097152 * vv) by (split; [apply Rmult_le_pos|apply Rmult_le_compat_r]; lra).
  assert (VC : forall c, 0 <= c -> c * vv <= c * (1.12 / 10000000000000000)) by (intros; apply Rmult_le_compat_l; lra).
  split; intros ->.
  - destruct (L1 eq_refl) as [M1 M2]. assert (X0 : 0 <= v * T) by (apply Rmult_le_pos; lra).
    assert (XB : v * T <= q + 1 / 10). { unfold eE, eD in *. rewrite ?Ropp_involutive in M2. assert (v * T * vv <= / 1000000 * (v * T)) by (rewrite (Rmult_comm _ vv); apply Rmult_le_compat_r; lra). lra. }
    assert (XV : v * T * vv <= (q + 1 / 10) * vv) by (apply Rmult_le_compat_r; lra).
    assert (TB : T <= 1.01 * (k + / tau * (1 / 10))).
    { assert (0.999 * tau * T <= v * T) by (apply Rmult_le_compat_r; lra). apply (Rmult_le_reg_r tau); auto. replace (1.01 * (k + / tau * (1 / 10)) * tau) with (1.01 * (k * tau + 1 / 10)) by (field; lra). rewrite kt. lra. }
    assert (TV : Rabs (v * T - tau * T) <= (2.02 * k + / tau + 6.2 * q + 1) * vv).
    { replace (v * T - tau * T) with ((v - tau) * T) by ring. rewrite Rabs_mult, (Rabs_right T) by lra. apply Rle_trans with ((2 + 6 * tau) * vv * T). apply Rmult_le_compat_r; lra.
      replace ((2 + 6 * tau) * vv * T) with ((2 * T + 6 * (tau * T)) * vv) by ring. apply Rmult_le_compat_r. lra.
      assert (tau * T <= tau * (1.01 * (k + / tau * (1 / 10)))) by (apply Rmult_le_compat_l; lra). replace (tau * (1.01 * (k + / tau * (1 / 10)))) with (1.01 * (k * tau + 1 / 10)) in H0 by (field; lra). rewrite kt in H0. lra. }
    apply Rabs_le_between in TV. unfold eE, eD, rho in *. apply Rabs_le_between in M1. rewrite ?Ropp_involutive in *.
    assert (qq : - q = ln a - ln am) by (unfold q; lra).
    assert (a'0 : 0 < a'). { destruct (U eq_refl). lra. }
    set (re := a * Rpower (1 + g) T). assert (re0 : 0 < re) by (apply Rmult_lt_0_compat; auto; apply exp_pos).
    assert (LR : ln re = ln a + tau * T). { unfold re, Rpower. rewrite ln_mult, ln_exp; auto. unfold tau. ring. apply exp_pos. }
    set (bb := (8 * n + 8 * q + 2.1 * k + / tau + 3) * vv). assert (BB : 0 <= bb <= / 4) by (unfold bb; lra).
    assert (BD : 2 * bb <= (n + q + (k + / tau) + 2) / 100000000000000). { unfold bb. pose proof (VC (8 * n + 8 * q + 2.1 * k + / tau + 3)). lra. }
    split.
    + eapply Rle_trans. apply (ratio a' re bb); auto. rewrite LR. unfold bb. apply Rabs_le. lra. apply Rmult_le_compat_r; lra.
    + rewrite PK. fold k. apply (Rmult_le_reg_r tau); auto. rewrite Rmult_plus_distr_r, kt. replace ((n + q + (k + / tau) + 2) / 100000000000000 / tau * tau) with ((n + q + (k + / tau) + 2) / 100000000000000) by (field; lra).
      pose proof (VC (16 * n + 16 * q + 2.1 * k + / tau + 12)). lra.
  - destruct (L2 eq_refl) as [p [M0 [M1 M2]]]. rewrite ?Ropp_involutive in *.
    assert (PT : Rabs (p - q / tau) <= eP n q tau) by (apply (peak_time v); auto; lra). rewrite <- PK in PT.
    assert (EP : eP n q tau = (8 * n + 15 * q + 2 * k + 11) * vv * 1.01 * / tau) by reflexivity.
    assert (EB : eP n q tau <= 2 / 3 * ((n + q + (k + / tau) + 2) / 100000000000000) / tau).
    { rewrite EP. unfold Rdiv at 1. apply Rmult_le_compat_r. lra. pose proof (VC (8 * n + 15 * q + 2 * k + 11)). lra. }
    set (w := (n + q + (k + / tau) + 2) / 100000000000000) in *. assert (w0 : 0 <= w) by (unfold w; lra).
    split.
    + assert (C1 : 6 * n * vv <= / 3 * w). { pose proof (VC (6 * n)). unfold w. lra. }
      assert (MM : 0 <= W / tau) by (apply Rmult_le_pos; lra).
      assert (6 * n * vv * (am + W / tau) <= / 3 * w * (am + W / tau)) by (apply Rmult_le_compat_r; lra).
      apply Rabs_le_between in PT. apply Rabs_le_between in M2.
      assert (EB2 : eP n q tau <= / 3 * w / tau). { rewrite EP. unfold Rdiv at 1. apply Rmult_le_compat_r. lra. unfold w. pose proof (VC (8 * n + 15 * q + 2 * k + 11)). lra. }
      assert (D1 : W * eP n q tau <= / 3 * w * (W / tau)). { replace (/ 3 * w * (W / tau)) with (W * (/ 3 * w / tau)) by (field; lra). apply Rmult_le_compat_l; lra. }
      assert (D2 : W * (p - peak) <= W * eP n q tau) by (apply Rmult_le_compat_l; lra). assert (D3 : W * (peak - p) <= W * eP n q tau) by (apply Rmult_le_compat_l; lra).
      assert (0 <= w * am) by (apply Rmult_le_pos; lra). assert (0 <= w * (W / tau)) by (apply Rmult_le_pos; lra).
      apply Rabs_le. lra.
    + apply Rabs_le_between in PT. assert (2 / 3 * w / tau <= w / tau). { unfold Rdiv at 1 3. apply Rmult_le_compat_r; lra. } lra.
Qed.
Lemma C131_decay_lemma : forall ex lg s a am g W ts,
  spot_params s a am g W -> sane64 a -> sane64 am -> a <= am -> f64_value W -> 0 <= W <= powerRZ 2 300 ->
  sp_growing s = false -> (forall t, In t ts -> time64 t) -> INR (length ts) <= 1000000000000 -> W * rsum ts <= a ->
  exists s' a', spot_aged64 ex lg s ts = Ok s' /\ aged_to s s' a' false /\ a' <= a /\ Rabs (a' - (a - W * rsum ts)) <= INR (length ts) / 1000000000000000 * am.
Proof.
  intros ex lg s a am g W ts P Sa Sm H VW HW G Ht Hn HX. destruct (lnb a Sa) as [Ha _]. destruct (lnb am Sm) as [Hm _]. pose proof vv_pos as VP. pose proof vv_small as VS. assert (DW : decay64 W) by (split; auto).
  assert (K : exists s' a', spot_aged64 ex lg s ts = Ok s' /\ aged_to s s' a' false /\ f64_value a' /\ a' <= a /\ Rabs (a' - (a - W * rsum ts)) <= 6 * INR (length ts) * vv * am).
  { revert Ht Hn HX. induction ts as [|t ts IH] using rev_ind; intros Ht Hn HX.
    - exists s, a. split; auto. split. rewrite <- G. eapply sp_self; eauto. split. apply Sa. split. lra. simpl. replace (a - (a - W * 0)) with 0 by ring. rewrite Rabs_R0. lra.
    - rewrite app_length, plus_INR in *. simpl (length [t]) in *. change (INR 1) with 1 in *. rewrite rsum_snoc in *.
      assert (Q1 : forall t0, In t0 ts -> time64 t0) by (intros; apply Ht; apply in_or_app; auto). assert (Q2 : time64 t) by (apply Ht; apply in_or_app; right; left; auto). pose proof Q2 as [_ [t0 _]]. pose proof (rsum_pos ts Q1) as RP.
      assert (0 <= W * t) by (apply Rmult_le_pos; lra). assert (0 <= W * rsum ts) by (apply Rmult_le_pos; lra). destruct IH as [s1 [a1 [E [A [V [L D]]]]]]; auto. lra. lra.
      pose proof (pos_INR (length ts)) as n0. set (n := INR (length ts)) in *. assert (nv : 0 <= n * vv <= 1000000000000 * (1.12 / 10000000000000000)) by (split; [apply Rmult_le_pos; lra|apply Rmult_le_compat; lra]).
      destruct (sp_state _ _ _ _ _ _ _ _ P A) as [Sg Eg]. assert (6 * n * vv * am <= am). { assert (6 * n * vv * am <= 1 * am) by (apply Rmult_le_compat_r; lra). lra. }
      destruct (decaying ex lg s1 a1 am g W t Sg Eg V Sm) as [s2 [a2 [E2 [A2 [V2 [B2 [C2 J]]]]]]]; auto. { apply Rabs_le_between in D. apply Rabs_le. lra. }
      exists s2, a2. rewrite spot_snoc, E. simpl. split; auto. split. eapply sp_trans; eauto. split; auto. split. { eapply Rle_trans. apply B2. unfold Rmax. destruct (Rle_dec a1 0); lra. }
      specialize (J (a - W * rsum ts) 0 (6 * n * vv) am). replace (a - W * (rsum ts + t)) with (a - W * rsum ts - W * t) by ring. replace (6 * (n + 1) * vv * am) with (0 + (6 * n * vv + 6 * vv) * am) by ring. apply J; try lra. }
  destruct K as [s' [a' [E [A [_ [L D]]]]]]. exists s', a'. split; auto. split; auto. split; auto. eapply Rle_trans. apply D. apply Rmult_le_compat_r. lra. pose proof (pos_INR (length ts)).
  assert (INR (length ts) * vv <= INR (length ts) * (1.12 / 10000000000000000)) by (apply Rmult_le_compat_l; lra). lra.
Qed.
(** a growth rate that is lost in the sum with 1 *)
Lemma one_plus : forall g, 0 <= g < / 9007199254740992 -> f64_round (g + 1) = 1.
Proof.
  intros g Hg. pose proof (f64_round_near (g + 1) 1 f64_one) as N. rewrite (Rabs_left1 (1 - (g + 1))) in N by lra. pose proof (f64_round_mono 1 (g + 1)) as M. rewrite (f64_round_id 1 f64_one) in M.
  set (y := f64_round (g + 1)) in *. assert (Y1 : 1 <= y) by (apply M; lra). assert (Y2 : y < 1 + / 4503599627370496) by (apply Rabs_le_between in N; lra).
  assert (B : Int_part (ln (Rabs 1) / ln 2) = 0%Z). { rewrite Rabs_right, ln_1 by lra. replace (0 / ln 2) with (IZR 0) by (unfold Rdiv; simpl; ring). apply Int_part_IZR. }
  destruct (f64_grid 1 y) as [k K]. lra. apply f64_round_value. rewrite B. simpl. rewrite Rabs_right; lra.
  unfold f64_exp in K. rewrite B in K. change (Z.max (0 - 52) (-1074)) with (-52)%Z in K. replace (powerRZ 2 (-52)) with (/ 4503599627370496) in K by (simpl; lra).
  assert (IZR (k - 1) < IZR 4503599627370496) by (rewrite minus_IZR; lra). assert (IZR 4503599627370496 <= IZR k) by lra. apply lt_IZR in H. apply le_IZR in H0. assert (k = 4503599627370496)%Z by lia. subst k. lra.
Qed.
Lemma C131_tiny_lemma : forall ex lg s a am g W ts,
  accurate_exp ex -> accurate_log lg -> spot_params s a am g W -> sane64 a -> 0 <= g < / 9007199254740992 -> sp_growing s = true -> 
  exists s', spot_aged64 ex lg s ts = Ok s' /\ aged_to s s' a true.
Proof.
  intros ex lg s a am g W ts Ae Al P Sa Hg G. destruct (lnb a Sa) as [Ha _].
  assert (ST : forall s1 t, spot_params s1 a am g W -> sp_growing s1 = true -> exists s2, spot_age64 ex lg s1 (Fin t) = Ok s2 /\ aged_to s1 s2 a true).
  { intros s1 t [Pa [Pm [Pg [Pd Pw]]]] G1. unfold spot_age64. rewrite G1, Pd. cbn [negb Z.eqb Pos.eqb]. rewrite Pa, Pm, Pg.
    assert (E1 : add64 (Fin g) (Fin 1) = Fin 1). { unfold add64, nadd. rewrite (fin_abs 1), one_plus; auto. lia. simpl. rewrite Rabs_right; lra. }
    assert (F0 : f64 (Fin 0) = Fin 0). { rewrite (fin_abs 1), f64_round_id; auto. apply f64_zero. lia. simpl. rewrite Rabs_R0; lra. }
    assert (E2 : log64 lg (Fin 1) = Fin 0). { unfold log64. destruct (Rlt_dec 1 0). lra. destruct (Req_EM_T 1 0). lra. pose proof (Al 1 ltac:(lra)) as L. rewrite ln_1, Rabs_R0, Rminus_0_r in L. pose proof (Rabs_pos (lg 1)). assert (lg 1 = 0). { apply Rabs_le_between in L. lra. } rewrite H0. auto. }
    rewrite E1, E2. assert (N : neq (Fin 0) (Fin 0) = true). { unfold neq, Reqb. destruct (Req_EM_T 0 0); auto. } rewrite N. change (ngt PInf (Fin t)) with true. cbv iota.
    rewrite mul_fin, Rmult_0_l, F0. assert (X0 : ex 0 = 1). { destruct (Ae 0) as [_ [X1 X2]]. specialize (X1 (Rle_refl 0)). specialize (X2 (Rle_refl 0)). lra. }
    unfold exp64. rewrite X0, (fin_abs 1), (f64_round_id 1); [|apply f64_one|lia|simpl; rewrite Rabs_right; lra].
    rewrite mul_fin, Rmult_1_r, (fin_abs 300), f64_round_id; [|apply Sa|lia|rewrite Rabs_right by lra; apply Sa].
    eexists. split. reflexivity. unfold aged_to, spot_with_area; cbn. rewrite ?Pm. repeat split; auto. }
  induction ts as [|t ts IH] using rev_ind. exists s. split; auto. rewrite <- G. eapply sp_self; eauto.
  destruct IH as [s1 [E A]]. destruct (sp_state _ _ _ _ _ _ _ _ P A) as [Sg Eg]. destruct (ST s1 t Sg Eg) as [s2 [E2 A2]]. exists s2. rewrite spot_snoc, E. simpl. split; auto. eapply sp_trans; eauto.
Qed.
