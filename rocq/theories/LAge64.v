(** Lemmas for C130: ageing in double precision *)
From Coq Require Import Reals ZArith Bool List Lra Lia.
From Coquelicot Require Import Rcomplements.
From Verif Require Import Num Py MConfig MHelpers MGrid MSpots MFaculae MXoflares MFlares MGranules MStar MSingle MDouble MAge64
  Spec SpecStar SpecDisk SpecSingle SpecDouble SpecAge64 LBase LGrid LFac LSingle LDouble LDoubleSum.
Import ListNotations.
Open Scope R_scope.

Definition vv : R := u64 * 1.001.
Lemma vv_pos : 0 < vv.
Proof. unfold vv, u64. lra. Qed.
Lemma uv : u64 <= vv.
Proof. unfold vv, u64. lra. Qed.
Lemma eta_vv : 1024 * eta <= vv.
Proof. pose proof eta_small. pose proof uv. lra. Qed.
Lemma ln_close : forall x y a, 0 < x -> 0 <= a <= / 10000 -> Rabs (y - x) <= a * x -> 0 < y /\ Rabs (ln y - ln x) <= a * 1.001.
Proof.
  intros x y a X A H. apply Rabs_le_between in H. assert (Y : 0 < y) by nra. split; auto.
  assert (P : forall p q, 0 < p -> 0 < q -> ln p - ln q <= p / q - 1).
  { intros p q Hp Hq. assert (0 < p / q) by (apply Rdiv_lt_0_compat; auto). unfold Rminus at 1. rewrite <- ln_Rinv by auto. rewrite <- ln_mult by (auto; apply Rinv_0_lt_compat; auto).
    fold (p / q). pose proof (exp_ineq1_le (ln (p / q))) as E. rewrite exp_ln in E by auto. lra. }
  pose proof (P y x Y X) as P1. pose proof (P x y X Y) as P2.
  assert (y / x - 1 <= a). { apply (Rmult_le_reg_r x); auto. replace ((y / x - 1) * x) with (y - x) by (field; lra). lra. }
  assert (x / y - 1 <= a * 1.001). { apply (Rmult_le_reg_r y); auto. replace ((x / y - 1) * y) with (x - y) by (field; lra). nra. }
  apply Rabs_le. nra.
Qed.
Lemma ln_rnd : forall x, powerRZ 2 (-1022) <= x -> 0 < f64_round x /\ Rabs (ln (f64_round x) - ln x) <= vv.
Proof.
  intros x H. pose proof (p2_pos (-1022)) as P. assert (0 < x) by lra. unfold vv. apply ln_close; auto. unfold u64; lra.
  pose proof (f64_round_err x) as E. rewrite (Rabs_right x) in E by lra. specialize (E H). unfold u64. lra.
Qed.
Lemma ln2_hi : ln 2 <= 3 / 4.
Proof.
  apply Rnot_lt_le. intro K. apply exp_increasing in K. rewrite exp_ln in K by lra.
  pose proof (exp_ineq1_le (3 / 20)) as E. assert (Q : (1 + 3 / 20) ^ 5 <= exp (3 / 20) ^ 5) by (apply pow_incr; lra).
  replace (exp (3 / 20) ^ 5) with (exp (3 / 4)) in Q. lra. simpl. rewrite Rmult_1_r, <- !exp_plus. f_equal. lra.
Qed.
Lemma ln2_lo : / 2 <= ln 2.
Proof.
  pose proof (exp_ineq1_le (- / 2)) as E. rewrite exp_Ropp in E. pose proof (exp_pos (/ 2)) as P.
  assert (exp (/ 2) <= 2). { apply (Rmult_le_reg_r (/ exp (/ 2))). apply Rinv_0_lt_compat; auto. rewrite Rinv_r by lra. lra. }
  apply Rnot_lt_le. intro K. apply exp_increasing in K. rewrite exp_ln in K by lra. lra.
Qed.
(** powers of two and their logarithms *)
Lemma p2_le_ln : forall e x, 0 < x -> IZR e * ln 2 <= ln x -> powerRZ 2 e <= x.
Proof.
  intros e x X H. rewrite <- p2_ln in H. apply Rnot_lt_le. intro K. apply ln_increasing in K; auto. lra.
Qed.
Lemma ln_le_p2 : forall e x, powerRZ 2 e <= x -> IZR e * ln 2 <= ln x.
Proof. intros e x H. rewrite <- p2_ln. pose proof (p2_pos e). destruct H as [H| <-]; [|lra]. left. apply ln_increasing; auto. Qed.
Lemma le_p2_ln : forall e x, 0 < x -> x <= powerRZ 2 e -> ln x <= IZR e * ln 2.
Proof. intros e x X H. rewrite <- p2_ln. destruct H as [H| ->]; [|lra]. left. apply ln_increasing; auto. Qed.
Lemma ln_p2_le : forall e x, 0 < x -> ln x <= IZR e * ln 2 -> x <= powerRZ 2 e.
Proof. intros e x X H. rewrite <- p2_ln in H. apply Rnot_lt_le. intro K. apply ln_increasing in K; auto. lra. apply p2_pos. Qed.

Lemma f64_two : forall t, f64_value t -> f64_value (2 * t) /\ f64_value (-2 * t).
Proof.
  intros t [m [e [M [E ->]]]]. split; [exists m, (e + 1)%Z|exists (- m)%Z, (e + 1)%Z]; (split; [lia|split; [lia|]]); rewrite p2_add; simpl (powerRZ 2 1); rewrite ?opp_IZR; ring.
Qed.
Lemma f64_opp : forall t, f64_value t -> f64_value (- t).
Proof. intros t [m [e [M [E ->]]]]. exists (- m)%Z, e. split; [lia|split; [lia|]]. rewrite opp_IZR; ring. Qed.
Lemma fin_abs : forall e x, (e <= 1023)%Z -> Rabs x <= powerRZ 2 e -> f64 (Fin x) = Fin (f64_round x).
Proof. intros e x E H. apply f64_fin. pose proof (p2_le e 1023 E). lra. Qed.
Lemma mul_fin : forall a b, mul64 (Fin a) (Fin b) = f64 (Fin (a * b)).
Proof. reflexivity. Qed.
Lemma div_fin : forall a b, 0 < b -> div64 (Fin a) (Fin b) = f64 (Fin (a / b)).
Proof. intros. unfold div64, ndiv. destruct (Req_EM_T b 0); auto. lra. Qed.

(** the exponential *)
Lemma ex_close : forall ex z, accurate_exp ex -> 0 < ex z /\ Rabs (ln (ex z) - z) <= 5 * u64.
Proof.
  intros ex z A. destruct (A z) as [H _]. pose proof (exp_pos z). destruct (ln_close (exp z) (ex z) (4 * u64)) as [P Q]; auto. unfold u64; lra. unfold u64; lra.
  split; auto. rewrite ln_exp in Q. pose proof u64_pos. lra.
Qed.
(** the factor of a step, for a quotient [x] of moderate size *)
Lemma quot_round : forall x, 0 <= x -> 0 <= f64_round x /\ Rabs (f64_round x - x) <= u64 * x + eta.
Proof. intros x X. split. apply rnd_pos; auto. pose proof (rnd_err x) as E. rewrite (Rabs_right x) in E by lra. auto. Qed.
Lemma rnd_opp : forall x, 0 <= x -> f64_round (- x) <= 0 /\ Rabs (f64_round (- x) - - x) <= u64 * x + eta.
Proof.
  intros x X. split. rewrite <- (f64_round_id 0) by apply f64_zero. apply f64_round_mono. lra.
  pose proof (rnd_err (- x)) as E. rewrite Rabs_Ropp, (Rabs_right x) in E by lra. auto.
Qed.
Lemma factor : forall ex z, accurate_exp ex -> Rabs z <= 460 ->
  exp64 ex (Fin z) = Fin (f64_round (ex z)) /\ 0 < f64_round (ex z) /\ Rabs (ln (f64_round (ex z)) - z) <= 6 * vv.
Proof.
  intros ex z A Z. destruct (ex_close ex z A) as [P Q]. pose proof (proj1 (Rabs_le_between _ _) Q) as Q'. apply Rabs_le_between in Z. pose proof u64_small. pose proof ln2_lo. pose proof u64_pos.
  assert (B : powerRZ 2 (-1000) <= ex z) by (apply p2_le_ln; auto; lra).
  assert (U : ex z <= powerRZ 2 1000) by (apply ln_p2_le; auto; lra).
  pose proof (p2_le (-1022) (-1000) ltac:(lia)) as M. destruct (ln_rnd (ex z)) as [C D]. lra.
  split; [|split; auto]. apply (fin_abs 1000). lia. rewrite Rabs_right by lra. auto.
  apply Rabs_le_between in D. apply Rabs_le. unfold vv in *. lra.
Qed.
(** the product of a radius and a factor *)
Lemma scaled : forall r e z, 0 < r -> 0 < e -> Rabs (ln e - z) <= 6 * vv -> - 500 <= ln r + z <= 500 ->
  mul64 (Fin r) (Fin e) = Fin (f64_round (r * e)) /\ 0 < f64_round (r * e) /\ Rabs (ln (f64_round (r * e)) - (ln r + z)) <= 7 * vv.
Proof.
  intros r e z Hr He H B. pose proof (proj1 (Rabs_le_between _ _) H) as H'. pose proof ln2_lo. pose proof vv_pos. assert (vv <= / 1000) by (unfold vv, u64; lra).
  assert (P : 0 < r * e) by nra. assert (E : ln (r * e) = ln r + ln e) by (apply ln_mult; auto).
  assert (Lo : powerRZ 2 (-1004) <= r * e) by (apply p2_le_ln; auto; lra).
  assert (Up : r * e <= powerRZ 2 1004) by (apply ln_p2_le; auto; lra).
  pose proof (p2_le (-1022) (-1004) ltac:(lia)) as M. destruct (ln_rnd (r * e)) as [C D]. lra.
  split; [|split; auto]. rewrite mul_fin. apply (fin_abs 1004). lia. rewrite Rabs_right by lra. auto.
  apply Rabs_le_between in D. apply Rabs_le. lra.
Qed.
Lemma lnb : forall x, sane64 x -> 0 < x /\ -225 <= ln x <= 225.
Proof.
  intros x [_ [A B]]. pose proof (p2_pos (-300)). assert (0 < x) by lra. split; auto. apply ln_le_p2 in A. apply le_p2_ln in B; auto. pose proof ln2_hi. lra.
Qed.
(** a growing step *)
Lemma grow_step : forall ex r L t, accurate_exp ex -> f64_value r -> 0 < r -> -226 <= ln r <= 226 -> 0 < L -> f64_value t -> 0 <= t <= powerRZ 2 400 -> 2 * t / L <= 455 -> ln r + 2 * t / L <= 300 ->
  exists r', mul64 (Fin r) (exp64 ex (div64 (mul64 (Fin 2) (Fin t)) (Fin L))) = Fin r' /\ f64_value r' /\ r <= r'
    /\ Rabs (ln r' - (ln r + 2 * t / L)) <= (8 + 2 * t / L) * vv.
Proof.
  intros ex r L t A V Hr Br HL Vt Ht Hx Hs. set (x := 2 * t / L) in *. assert (X : 0 <= x). { unfold x. apply Rmult_le_pos. lra. left. apply Rinv_0_lt_compat; auto. }
  destruct (f64_two t Vt) as [V2 _]. pose proof (p2_pos 400) as P4.
  assert (T1 : mul64 (Fin 2) (Fin t) = Fin (2 * t)).
  { rewrite mul_fin, (fin_abs 401), f64_round_id; auto. lia. rewrite Rabs_right by lra. replace 401%Z with (1 + 400)%Z by lia. rewrite p2_add. simpl (powerRZ 2 1). lra. }
  rewrite T1, div_fin by auto. fold x. rewrite (fin_abs 10). 2: lia. 2:{ rewrite Rabs_right by lra. replace (powerRZ 2 10) with 1024 by (rewrite p2_Z by lia; reflexivity). lra. }
  destruct (quot_round x X) as [Z0 Z]. set (z := f64_round x) in *. pose proof eta_vv. pose proof vv_pos. pose proof uv. assert (vv <= / 1000000000) by (unfold vv, u64; lra). apply Rabs_le_between in Z.
  pose proof u64_pos. assert (u64 * x <= vv * x) by nra. assert (vv * x <= 1) by nra.
  destruct (factor ex z A) as [F1 [F2 F3]]. apply Rabs_le; lra. rewrite F1. set (e := f64_round (ex z)) in *.
  destruct (scaled r e z Hr F2 F3) as [S1 [S2 S3]]. lra. exists (f64_round (r * e)). split; auto. split. apply f64_round_value.
  split. { rewrite <- (f64_round_id r V) at 1. apply f64_round_mono. assert (1 <= e). { unfold e. rewrite <- (f64_round_id 1) by apply f64_one. apply f64_round_mono. destruct (A z) as [_ [_ A3]]. auto. } nra. }
  apply Rabs_le_between in S3. apply Rabs_le. lra.
Qed.
(** a shrinking step *)
Lemma shrink_step : forall ex r L t, accurate_exp ex -> f64_value r -> 0 <= r <= powerRZ 2 400 -> powerRZ 2 (-300) <= L -> f64_value t -> 0 <= t <= powerRZ 2 400 ->
  exists r', mul64 (Fin r) (exp64 ex (div64 (mul64 (Fin (-2)) (Fin t)) (Fin L))) = Fin r' /\ f64_value r' /\ 0 <= r' <= r
    /\ (2 * t / L <= 455 -> 0 < r -> -490 <= ln r - 2 * t / L -> 0 < r' /\ Rabs (ln r' - (ln r - 2 * t / L)) <= (8 + 2 * t / L) * vv).
Proof.
  intros ex r L t A V Br BL Vt Ht. pose proof (p2_pos (-300)) as P3. assert (HL : 0 < L) by lra.
  set (x := 2 * t / L). assert (X : 0 <= x). { unfold x. apply Rmult_le_pos. lra. left. apply Rinv_0_lt_compat; auto. }
  destruct (f64_two t Vt) as [_ V2]. pose proof (p2_pos 400) as P4.
  assert (T1 : mul64 (Fin (-2)) (Fin t) = Fin (-2 * t)).
  { rewrite mul_fin, (fin_abs 401), f64_round_id; auto. lia. rewrite Rabs_left1 by lra. replace 401%Z with (1 + 400)%Z by lia. rewrite p2_add. simpl (powerRZ 2 1). lra. }
  rewrite T1, div_fin by auto. replace (-2 * t / L) with (- x) by (unfold x; field; lra).
  rewrite (fin_abs 701). 2: lia.
  2:{ rewrite Rabs_Ropp, Rabs_right by lra. unfold x. apply (Rmult_le_reg_r L); auto. replace (2 * t / L * L) with (2 * t) by (field; lra).
      replace 701%Z with (1 + 400 + 300)%Z by lia. rewrite !p2_add. simpl (powerRZ 2 1).
      assert (powerRZ 2 300 * powerRZ 2 (-300) = 1) by (rewrite <- p2_add; reflexivity). pose proof (p2_pos 300). assert (1 <= powerRZ 2 300 * L) by nra. nra. }
  destruct (rnd_opp x X) as [Z0 Z]. set (z := f64_round (- x)) in *. destruct (A z) as [A1 [A2 _]]. specialize (A2 Z0).
  destruct (ex_close ex z A) as [E0 E1].
  assert (e1 : 0 <= f64_round (ex z) <= 1) by (split; [apply rnd_pos; lra|apply rnd_le1; auto]).
  assert (F : exp64 ex (Fin z) = Fin (f64_round (ex z))). { apply (fin_abs 0). lia. simpl. rewrite Rabs_right; lra. }
  rewrite F. set (e := f64_round (ex z)) in *. rewrite mul_fin, (fin_abs 400). 2: lia. 2:{ rewrite Rabs_right by nra. nra. }
  exists (f64_round (r * e)). split; auto. split. apply f64_round_value. split.
  { split. apply rnd_pos. nra. rewrite <- (f64_round_id r V) at 2. apply f64_round_mono. nra. }
  intros Hx Hr Hs. pose proof eta_vv. pose proof vv_pos. pose proof uv. assert (vv <= / 1000000000) by (unfold vv, u64; lra). apply Rabs_le_between in Z.
  pose proof u64_pos. assert (u64 * x <= vv * x) by nra. assert (vv * x <= 1) by nra.
  destruct (factor ex z A) as [_ [F2 F3]]. apply Rabs_le; lra. fold e in F2, F3.
  assert (ln r <= 300). { destruct Br as [_ Br]. apply le_p2_ln in Br; auto. pose proof ln2_hi. lra. }
  destruct (scaled r e z Hr F2 F3) as [_ [S2 S3]]. lra. split; auto.
  apply Rabs_le_between in S3. apply Rabs_le. lra.
Qed.
Lemma eta_tiny : forall L, powerRZ 2 (-300) <= L -> eta <= L * (u64 * / 1000000000).
Proof.
  intros L H. unfold eta. replace (-1074)%Z with (-300 + -774)%Z by lia. rewrite p2_add. pose proof (p2_pos (-300)). pose proof (p2_pos (-774)).
  assert (powerRZ 2 (-774) <= u64 * / 1000000000). { eapply Rle_trans. apply (p2_le _ (-100)). lia. unfold u64. simpl (powerRZ 2 (-100)). lra. }
  pose proof u64_pos. nra.
Qed.
(** the time from the peak *)
Lemma peak : forall lg r rm L, accurate_log lg -> f64_value r -> sane64 rm -> sane64 L -> 0 < r -> -226 <= ln r <= 226 ->
  exists a, mul64 (mul64 (mul64 (Fin (-1)) (log64 lg (div64 (Fin r) (Fin rm)))) (Fin L)) (Fin (1/2)) = Fin a /\ f64_value a
    /\ Rabs (2 * a / L + (ln r - ln rm)) <= (2 + 8 * Rabs (ln r - ln rm)) * vv.
Proof.
  intros lg r rm L A Vr Srm SL Hr Br. destruct (lnb rm Srm) as [Hm Bm]. destruct (lnb L SL) as [HL BL]. set (p := ln r - ln rm).
  pose proof ln2_lo. pose proof ln2_hi. pose proof vv_pos. pose proof uv. pose proof u64_pos. pose proof eta_pos as EP. assert (VS : vv <= / 1000000000) by (unfold vv, u64; lra).
  assert (Q0 : 0 < r / rm) by (apply Rdiv_lt_0_compat; auto).
  assert (QE : ln (r / rm) = p). { unfold Rdiv, p. rewrite ln_mult, ln_Rinv; auto. apply Rinv_0_lt_compat; auto. }
  assert (QL : powerRZ 2 (-1000) <= r / rm) by (apply p2_le_ln; auto; unfold p in *; lra).
  assert (QU : r / rm <= powerRZ 2 1000) by (apply ln_p2_le; auto; unfold p in *; lra).
  pose proof (p2_le (-1022) (-1000) ltac:(lia)) as M. destruct (ln_rnd (r / rm)) as [C D]. lra. rewrite QE in D.
  rewrite div_fin, (fin_abs 1000); auto. 2: lia. 2: rewrite Rabs_right; lra.
  set (q := f64_round (r / rm)) in *.
  assert (LE : log64 lg (Fin q) = f64 (Fin (lg q))). { unfold log64. destruct (Rlt_dec q 0). lra. destruct (Req_EM_T q 0). lra. auto. }
  rewrite LE. pose proof (A q C) as AQ. set (y := ln q) in *. set (P := Rabs p) in *.
  assert (PB : P <= 452) by (unfold P, p; apply Rabs_le; lra).
  assert (YB : Rabs y <= P + vv). { unfold P. replace y with ((y - p) + p) by ring. pose proof (Rabs_triang (y - p) p). lra. }
  assert (AQ' : Rabs (lg q - y) <= 4 * u64 * (P + vv)).
  { eapply Rle_trans. apply AQ. replace 2251799813685248 with (/ (4 * u64)) by (unfold u64; lra). unfold Rdiv. rewrite Rinv_inv. rewrite Rmult_comm. apply Rmult_le_compat_l; lra. }
  assert (LB : Rabs (lg q) <= (P + vv) * (1 + 4 * u64)). { replace (lg q) with ((lg q - y) + y) by ring. pose proof (Rabs_triang (lg q - y) y). lra. }
  assert (US : u64 <= / 1000000000) by lra.
  assert (PN : 0 <= P) by apply Rabs_pos.
  assert (p10 : powerRZ 2 10 = 1024) by (rewrite p2_Z by lia; reflexivity).
  rewrite (fin_abs 10). 2: lia. 2: rewrite p10; nra.
  pose proof (rnd_err (lg q)) as R1. set (l := f64_round (lg q)) in *.
  assert (R1' : Rabs (l - p) <= vv + 4 * u64 * (P + vv) + u64 * ((P + vv) * (1 + 4 * u64)) + eta).
  { replace (l - p) with ((l - lg q) + ((lg q - y) + (y - p))) by ring. pose proof (Rabs_triang (l - lg q) ((lg q - y) + (y - p))). pose proof (Rabs_triang (lg q - y) (y - p)).
    assert (u64 * Rabs (lg q) <= u64 * ((P + vv) * (1 + 4 * u64))) by (apply Rmult_le_compat_l; lra). lra. }
  assert (Vl : f64_value l) by apply f64_round_value.
  assert (ES : eta <= 1 * (u64 * / 1000000000)). { apply eta_tiny. replace 1 with (powerRZ 2 0) by reflexivity. apply p2_le. lia. }
  assert (R2 : Rabs (l - p) <= 1.001 * vv + 5.1 * vv * P).
  { assert (0 <= vv * P) by (apply Rmult_le_pos; lra). assert (u64 * P <= vv * P) by (apply Rmult_le_compat_r; auto). assert (u64 * vv <= / 1000000000 * vv) by (apply Rmult_le_compat_r; lra).
    assert (u64 * (u64 * P) <= / 1000000000 * (vv * P)). { apply Rmult_le_compat; try lra. apply Rmult_le_pos; lra. }
    assert (u64 * (u64 * vv) <= / 1000000000 * (/ 1000000000 * vv)). { apply Rmult_le_compat; try lra. apply Rmult_le_pos; lra. } lra. }
  assert (LL : Rabs l <= P + (1.001 * vv + 5.1 * vv * P)). { unfold P at 1. replace l with ((l - p) + p) by ring. pose proof (Rabs_triang (l - p) p). lra. }
  assert (PV : vv * P <= / 1000000) by nra.
  assert (N1 : mul64 (Fin (-1)) (Fin l) = Fin (- l)).
  { rewrite mul_fin. replace (-1 * l) with (- l) by ring. rewrite (fin_abs 10), f64_round_id; auto. apply f64_opp; auto. lia. rewrite p10, Rabs_Ropp. lra. }
  rewrite N1, mul_fin. destruct SL as [VL [L1 L2]].
  pose proof (p2_pos 300) as P3. assert (p310 : powerRZ 2 310 = 1024 * powerRZ 2 300) by (replace 310%Z with (10 + 300)%Z by lia; rewrite p2_add, p10; auto).
  rewrite (fin_abs 310). 2: lia. 2:{ rewrite p310, Rabs_mult, Rabs_Ropp, (Rabs_right L) by lra. apply Rmult_le_compat; try lra. apply Rabs_pos. }
  pose proof (rnd_err (- l * L)) as R3. set (w := f64_round (- l * L)) in *. rewrite Rabs_mult, Rabs_Ropp, (Rabs_right L) in R3 by lra.
  assert (EL := eta_tiny L L1).
  assert (W0 : Rabs w <= 1024 * L * 2).
  { replace w with ((w - - l * L) + - l * L) by ring. pose proof (Rabs_triang (w - - l * L) (- l * L)) as T. rewrite Rabs_mult, Rabs_Ropp, (Rabs_right L) in T by lra.
    assert (Rabs l * L <= 1000 * L) by (apply Rmult_le_compat_r; lra). assert (u64 * (Rabs l * L) <= 1 * (Rabs l * L)) by (apply Rmult_le_compat_r; [apply Rmult_le_pos; [apply Rabs_pos|lra]|lra]).
    assert (L * (u64 * / 1000000000) <= L * 1) by (apply Rmult_le_compat_l; lra). lra. }
  rewrite mul_fin, (fin_abs 311). 2: lia.
  2:{ rewrite Rabs_mult, (Rabs_right (1/2)) by lra. replace 311%Z with (1 + 310)%Z by lia. rewrite p2_add, p310. simpl (powerRZ 2 1). lra. }
  pose proof (rnd_err (w * (1/2))) as R4. set (a := f64_round (w * (1/2))) in *. rewrite Rabs_mult, (Rabs_right (1/2)) in R4 by lra.
  exists a. split; auto. split. apply f64_round_value.
  set (W := w / L). set (B := 2 * a / L).
  assert (IL : 0 < / L) by (apply Rinv_0_lt_compat; auto).
  assert (DR : forall k, Rabs k / L = Rabs (k / L)). { intros k. unfold Rdiv. rewrite Rabs_mult, (Rabs_right (/ L)); lra. }
  set (ee := u64 * / 1000000000) in *.
  assert (K3 : Rabs (W + l) <= u64 * Rabs l + ee).
  { apply (Rmult_le_reg_r L); auto. rewrite <- (Rabs_right L) at 1 by lra. rewrite <- Rabs_mult. replace ((W + l) * L) with (w - - l * L) by (unfold W; field; lra). lra. }
  assert (K4 : Rabs (B - W) <= u64 * Rabs W + 2 * ee).
  { apply (Rmult_le_reg_r L); auto. rewrite <- (Rabs_right L) at 1 by lra. rewrite <- Rabs_mult. replace ((B - W) * L) with (2 * (a - w * (1/2))) by (unfold B, W; field; lra).
    unfold W. rewrite <- DR. replace ((u64 * (Rabs w / L) + 2 * ee) * L) with (u64 * Rabs w + 2 * (L * ee)) by (field; lra). rewrite Rabs_mult, (Rabs_right 2) by lra. lra. }
  assert (WW : Rabs W <= (1 + u64) * Rabs l + ee). { replace W with ((W + l) + - l) by ring. pose proof (Rabs_triang (W + l) (- l)) as T. rewrite Rabs_Ropp in T. lra. }
  replace (B + p) with ((B - W) + ((W + l) + (p - l))) by ring.
  pose proof (Rabs_triang (B - W) ((W + l) + (p - l))). pose proof (Rabs_triang (W + l) (p - l)) as T2. rewrite (Rabs_minus_sym p l) in T2.
  assert (EE : ee <= / 1000000000 * vv) by (unfold ee; lra). assert (EP2 : 0 < ee) by (unfold ee; lra).
  assert (u64 * Rabs W <= u64 * ((1 + u64) * Rabs l + ee)) by (apply Rmult_le_compat_l; lra).
  assert (u64 * Rabs l <= vv * P + / 100000 * vv).
  { assert (u64 * Rabs l <= vv * (P + (1.001 * vv + 5.1 * vv * P))) by (apply Rmult_le_compat; try lra; apply Rabs_pos).
    assert (vv * (1.001 * vv + 5.1 * vv * P) <= vv * (/ 100000)). { apply Rmult_le_compat_l; lra. }
    assert (vv * vv <= / 1000000000 * vv) by (apply Rmult_le_compat_r; lra). assert (vv * (vv * P) <= vv * / 1000000) by (apply Rmult_le_compat_l; lra). 
    lra. }
  assert (u64 * (u64 * Rabs l) <= / 1000 * (u64 * Rabs l)) by (apply Rmult_le_compat_r; [apply Rmult_le_pos; [lra|apply Rabs_pos]|lra]).
  assert (u64 * ee <= 1 * ee) by (apply Rmult_le_compat_r; lra).
  assert (0 <= vv * P) by (apply Rmult_le_pos; lra).
  lra.
Qed.
(** one step of the program *)
Definition rho (r rm : R) : R := ln r - ln rm.
Lemma growing_step : forall ex lg f r rm L t, accurate_exp ex -> accurate_log lg -> fac_state f r rm L -> fc_growing f = true -> f64_value r -> sane64 rm -> sane64 L ->
  powerRZ 2 (-300) <= r -> rho r rm <= / 1000 -> time64 t ->
  exists r' b, fac_aged f (fac_age64 ex lg f (Fin t)) r' b /\ f64_value r' /\
   (let x := 2 * t / L in let p := rho r rm in let d := (2 + 8 * Rabs p) * vv in
    (b = true -> r <= r' /\ p + x <= d /\ Rabs (rho r' rm - (p + x)) <= (8 + x) * vv)
    /\ (b = false -> 0 <= r' <= rm /\ - d <= p + x
         /\ (x <= 250 -> 0 < r' /\ Rabs (- rho r' rm - (p + x)) <= (13 + 11 * Rabs p + 3 * x) * vv))).
Proof.
  intros ex lg f r rm L t Ae Al [Er [Em EL]] G Vr Srm SL Lr Hp [Vt Ht]. cbv zeta.
  destruct (lnb rm Srm) as [Hm Bm]. destruct (lnb L SL) as [HL BL].
  pose proof (p2_pos (-300)) as P3. assert (Hr : 0 < r) by lra. pose proof (ln_le_p2 _ _ Lr) as Br. pose proof ln2_hi. unfold rho in Hp.
  assert (Br' : -226 <= ln r <= 226) by lra.
  destruct (peak lg r rm L Al Vr Srm SL Hr Br') as [a [Ea [Va Ha]]].
  set (p := rho r rm) in *. fold (rho r rm) in Ha. fold p in Ha. set (x := 2 * t / L) in *. set (d := (2 + 8 * Rabs p) * vv) in *.
  assert (PB : Rabs p <= 451). { unfold p, rho. apply Rabs_le. lra. }
  assert (PN : 0 <= Rabs p) by apply Rabs_pos. pose proof vv_pos. assert (VS : vv <= / 1000000000000000) by (unfold vv, u64; lra). pose proof uv. pose proof u64_pos.
  assert (DB : 0 < d <= / 100000000000). { unfold d. split. apply Rmult_lt_0_compat; lra. assert ((2 + 8 * Rabs p) * vv <= 4000 * / 1000000000000000). apply Rmult_le_compat; lra. lra. }
  apply Rabs_le_between in Ha.
  assert (X : 0 <= x). { unfold x. apply Rmult_le_pos. lra. left. apply Rinv_0_lt_compat; auto. }
  unfold fac_age64. rewrite G, Er, Em, EL, Ea. cbn [nle]. unfold Rleb.
  destruct (Rle_dec a t) as [C|C].
  - (* turning *)
    assert (Vs : f64_value (- a)) by (apply f64_opp; auto).
    pose proof (add_err t (- a) Vt Vs) as AE. replace (t + - a) with (t - a) in AE by ring. rewrite (Rabs_right (t - a)) in AE by lra.
    assert (AB : Rabs (t - a) <= powerRZ 2 302 /\ 0 <= t - a).
    { split; [|lra]. rewrite Rabs_right by lra. destruct SL as [_ [_ L2]]. replace 302%Z with (2 + 300)%Z by lia. rewrite p2_add. replace (powerRZ 2 2) with 4 by (simpl; lra).
      assert (- L <= 2 * a). { apply (Rmult_le_reg_r (/ L)). apply Rinv_0_lt_compat; auto. replace (- L * / L) with (-1) by (field; lra). fold (2 * a / L). apply Rabs_le_between in PB. unfold p, rho in *. lra. }
      lra. }
    destruct AB as [AB AN].
    assert (S1 : sub64 (Fin t) (Fin a) = Fin (f64_round (t - a))). { unfold sub64, nsub, nneg, nadd. replace (t + - a) with (t - a) by ring. apply (fin_abs 302). lia. auto. }
    rewrite S1. set (t' := f64_round (t - a)) in *.
    assert (T0 : 0 <= t') by (apply rnd_pos; auto).
    assert (T1 : t' <= powerRZ 2 302). { unfold t'. rewrite <- (f64_round_id (powerRZ 2 302)) by (apply f64_p2; lia). apply f64_round_mono. rewrite Rabs_right in AB; lra. }
    pose proof (p2_le 302 400 ltac:(lia)). destruct Srm as [Vm [Lm Um]]. pose proof (p2_le 300 400 ltac:(lia)). destruct SL as [VL [LL UL]].
    destruct (shrink_step ex rm L t' Ae Vm) as [r' [E1 [V1 [B1 K1]]]]; try lra. apply f64_round_value.
    exists r', false. rewrite E1. split. { unfold fac_aged, fac_with; cbn; rewrite ?Em, ?EL; repeat split. } split; auto. split. discriminate. intros _. split; auto.
    set (al := 2 * a / L) in *. set (x' := 2 * t' / L) in *.
    assert (AX : al <= x). { unfold al, x. apply Rmult_le_compat_r. left; apply Rinv_0_lt_compat; auto. lra. }
    split. lra. intros X3.
    assert (XE : Rabs (x' - (x - al)) <= u64 * (x - al)).
    { apply (Rmult_le_reg_r L); auto. rewrite <- (Rabs_right L) at 1 by lra. rewrite <- Rabs_mult. replace ((x' - (x - al)) * L) with (2 * (t' - (t - a))) by (unfold x', x, al; field; lra).
      replace (u64 * (x - al) * L) with (2 * (u64 * (t - a))) by (unfold x, al; field; lra). rewrite Rabs_mult, (Rabs_right 2) by lra. lra. }
    apply Rabs_le_between in XE.
    assert (pu : p <= / 1000) by (unfold p, rho; lra).
    assert (UX : u64 * (x - al) <= vv * (x + Rabs p + 1)). { pose proof (Rle_abs p). apply Rmult_le_compat; lra. }
    assert (UX2 : u64 * (x - al) <= / 1000). { assert (u64 * (x - al) <= / 1000000000 * 302). apply Rmult_le_compat; try lra. lra. }
    destruct K1 as [K0 K1]; try lra. split; auto. unfold rho. apply Rabs_le_between in K1.
    assert ((8 + x') * vv <= (8 + (x + Rabs p + 1)) * vv). { apply Rmult_le_compat_r. lra. pose proof (Rle_abs p). lra. }
    apply Rabs_le. unfold d in *. assert (0 <= vv * Rabs p) by (apply Rmult_le_pos; lra). assert (0 <= vv * x) by (apply Rmult_le_pos; lra). lra.
  - (* growing *)
    assert (AX : x <= 2 * a / L). { unfold x. apply Rmult_le_compat_r. left; apply Rinv_0_lt_compat; auto. lra. }
    assert (pb := proj1 (Rabs_le_between _ _) PB).
    pose proof (p2_le 300 400 ltac:(lia)). unfold p, rho in *.
    destruct (grow_step ex r L t Ae Vr Hr Br' HL Vt) as [r' [E1 [V1 [B1 K1]]]]; try lra. fold x; lra. fold x; lra.
    exists r', true. rewrite E1. split. { unfold fac_aged, fac_with; cbn; rewrite ?Er, ?EL; repeat split. } split; auto. split. 2: discriminate. intros _. split; auto. fold x in K1. split. lra.
    replace (ln r' - ln rm - (ln r - ln rm + x)) with (ln r' - (ln r + x)) by ring. auto.
Qed.
Lemma shrinking_step : forall ex lg f r rm L t, accurate_exp ex -> fac_state f r rm L -> fc_growing f = false -> f64_value r -> 0 <= r <= powerRZ 2 400 -> sane64 L -> time64 t ->
  exists r', fac_aged f (fac_age64 ex lg f (Fin t)) r' false /\ f64_value r' /\ 0 <= r' <= r
    /\ (2 * t / L <= 250 -> 0 < r -> -490 <= ln r - 2 * t / L -> 0 < r' /\ Rabs (ln r' - (ln r - 2 * t / L)) <= (8 + 2 * t / L) * vv).
Proof.
  intros ex lg f r rm L t Ae [Er [Em EL]] G Vr Br [_ [LL UL]] [Vt Ht]. pose proof (p2_le 300 400 ltac:(lia)).
  destruct (shrink_step ex r L t Ae Vr Br LL Vt) as [r' [E1 [V1 [B1 K1]]]]. lra.
  exists r'. unfold fac_age64. rewrite G, Er, EL, E1. split. { unfold fac_aged, fac_with; cbn; rewrite ?Er, ?EL, ?Em; repeat split. } split; auto. split; auto. intros. apply K1; auto. lra.
Qed.
Lemma aged_trans : forall f g h r r' b b', fac_aged f g r b -> fac_aged g h r' b' -> fac_aged f h r' b'.
Proof. unfold fac_aged. intros. intuition congruence. Qed.
Lemma aged_state : forall f g r rm L r' b, fac_state f r rm L -> fac_aged f g r' b -> fac_state g r' rm L /\ fc_growing g = b.
Proof. unfold fac_aged, fac_state. intros. intuition congruence. Qed.
Lemma aged_self : forall f r rm L, fac_state f r rm L -> fac_aged f f r (fc_growing f).
Proof. unfold fac_aged, fac_state. intros. intuition congruence. Qed.
Lemma aged64_snoc : forall ex lg f ts t, aged64 ex lg f (ts ++ [t]) = fac_age64 ex lg (aged64 ex lg f ts) (Fin t).
Proof. intros. unfold aged64. rewrite fold_left_app. auto. Qed.
Lemma exp_up : forall c, 0 <= c <= / 4 -> exp c <= 1 + 2 * c.
Proof.
  intros c C. pose proof (exp_ineq1_le (- c)) as E. rewrite exp_Ropp in E. pose proof (exp_pos c) as P.
  assert (exp c * (1 - c) <= 1). { apply (Rmult_le_reg_r (/ exp c)). apply Rinv_0_lt_compat; auto. replace (exp c * (1 - c) * / exp c) with (1 - c) by (field; lra). lra. }
  apply (Rmult_le_reg_r (1 - c)). lra. nra.
Qed.
Lemma under_peak : forall r rm, 0 < r -> 0 < rm -> rho r rm <= 49 / 100000000000000 -> r <= rm * (1 + / 1000000000000).
Proof.
  intros r rm Hr Hm H. unfold rho in H.
  assert (E : r = rm * exp (ln r - ln rm)). { unfold Rminus. rewrite exp_plus, exp_Ropp, !exp_ln by auto. field. lra. }
  rewrite E. apply Rmult_le_compat_l. lra. destruct (Rle_lt_dec (ln r - ln rm) 0) as [K|K].
  - assert (exp (ln r - ln rm) <= exp 0). { destruct K as [K| ->]; [|lra]. left. apply exp_increasing; auto. } rewrite exp_0 in *. lra.
  - pose proof (exp_up (ln r - ln rm)). lra.
Qed.
Definition start64 (f : facula) (r rm L : R) : Prop := fac_state f r rm L /\ sane64 r /\ sane64 rm /\ sane64 L /\ r <= rm.
Definition bnd (f : facula) (r rm : R) (g : facula) (r' : R) (b : bool) : Prop :=
  fac_aged f g r' b /\ f64_value r' /\ 0 <= r' <= rm * (1 + / 1000000000000) /\ (b = true -> r <= r' /\ rho r' rm <= 49 / 100000000000000).
Lemma rho_neg : forall r rm, 0 < r <= rm -> rho r rm <= 0.
Proof. intros r rm [A [B|B]]; unfold rho. assert (ln r < ln rm) by (apply ln_increasing; auto). lra. rewrite B. lra. Qed.
Lemma bnd_start : forall f r rm L, start64 f r rm L -> bnd f r rm f r (fc_growing f).
Proof.
  intros f r rm L [S [Sr [Sm [SL H]]]]. destruct (lnb r Sr) as [Hr _]. destruct (lnb rm Sm) as [Hm _]. split. eapply aged_self; eauto. split. apply Sr. split. nra.
  intros _. split. lra. pose proof (rho_neg r rm). lra.
Qed.
Lemma bnd_step : forall ex lg f r rm L g r' b t, accurate_exp ex -> accurate_log lg -> start64 f r rm L -> bnd f r rm g r' b -> time64 t ->
  exists r'' b', bnd f r rm (fac_age64 ex lg g (Fin t)) r'' b' /\ (b = false -> b' = false /\ r'' <= r') /\ (b' = true -> r' <= r'').
Proof.
  intros ex lg f r rm L g r' b t Ae Al [S [Sr [Sm [SL H]]]] [A [V [B T]]] Ht.
  destruct (aged_state _ _ _ _ _ _ _ S A) as [Sg Eg]. destruct (lnb r Sr) as [Hr Br]. destruct (lnb rm Sm) as [Hm Bm]. destruct (lnb L SL) as [HL _].
  destruct b.
  - destruct (T eq_refl) as [T1 T2]. destruct Sr as [Vr [Lr Ur]].
    destruct (growing_step ex lg g r' rm L t Ae Al Sg Eg V Sm SL) as [r'' [b' [A2 [V2 K]]]]; try lra; auto. cbv zeta in K. destruct K as [K1 K2].
    exists r'', b'. split; [|split; [discriminate|intros Q; apply K1; auto]].
    split. eapply aged_trans; eauto. split; auto. destruct b'.
    + destruct (K1 eq_refl) as [K3 [K4 K5]]. assert (r <= r'') by lra. assert (Q : rho r'' rm <= 49 / 100000000000000).
      { assert (0 <= 2 * t / L). { destruct Ht as [_ [Ht _]]. apply Rmult_le_pos. lra. left. apply Rinv_0_lt_compat; auto. } set (x := 2 * t / L) in *. set (p := rho r' rm) in *.
        assert (-450 <= p). { unfold p, rho. assert (ln r <= ln r'). { destruct T1 as [T1| <-]; [|lra]. left. apply ln_increasing; lra. } lra. }
        assert (P : Rabs p <= 450) by (apply Rabs_le; lra). pose proof vv_pos. assert (VS : vv <= 1.12 / 10000000000000000) by (unfold vv, u64; lra). apply Rabs_le_between in K5.
        assert ((2 + 8 * Rabs p) * vv <= 3602 * vv) by (apply Rmult_le_compat_r; lra). assert ((8 + x) * vv <= 460 * vv) by (apply Rmult_le_compat_r; lra). lra. }
      split; auto. split. lra. apply under_peak; lra.
    + destruct (K2 eq_refl) as [K3 _]. split; [nra|discriminate].
  - pose proof (p2_le 300 399 ltac:(lia)). assert (r' <= powerRZ 2 400). { replace 400%Z with (1 + 399)%Z by lia. rewrite p2_add. simpl (powerRZ 2 1). destruct Sm as [_ [_ Um]]. nra. }
    destruct (shrinking_step ex lg g r' rm L t Ae Sg Eg V) as [r'' [A2 [V2 [B2 _]]]]; auto. lra.
    exists r'', false. split; [|split; [intros _; split; [auto|lra]|discriminate]]. split. eapply aged_trans; eauto. split; auto. split; [lra|discriminate].
Qed.
Lemma bnd_run : forall ex lg f r rm L ts, accurate_exp ex -> accurate_log lg -> start64 f r rm L -> (forall t, In t ts -> time64 t) ->
  exists r' b, bnd f r rm (aged64 ex lg f ts) r' b.
Proof.
  intros ex lg f r rm L ts Ae Al S. induction ts as [|t ts IH] using rev_ind; intros H.
  - exists r, (fc_growing f). eapply bnd_start; eauto.
  - destruct IH as [r' [b K]]. { intros; apply H; apply in_or_app; auto. }
    destruct (bnd_step ex lg f r rm L _ r' b t Ae Al S K) as [r'' [b' [K' _]]]. { apply H; apply in_or_app; right; left; auto. }
    exists r'', b'. rewrite aged64_snoc. auto.
Qed.
Lemma C130_bounds_lemma : forall ex lg f r rm L ts,
  accurate_exp ex -> accurate_log lg -> fac_state f r rm L -> sane64 r -> sane64 rm -> sane64 L -> r <= rm -> (forall t, In t ts -> time64 t) ->
  exists r' b, fac_aged f (aged64 ex lg f ts) r' b /\ 0 <= r' <= rm * (1 + / 1000000000000) /\ (b = true -> r <= r')
    /\ forall t, time64 t -> exists r'' b', fac_aged f (aged64 ex lg f (ts ++ [t])) r'' b'
         /\ (b = false -> b' = false /\ r'' <= r') /\ (b' = true -> r' <= r'').
Proof.
  intros ex lg f r rm L ts Ae Al S Sr Sm SL H Ht. assert (St : start64 f r rm L) by (repeat (split; auto)).
  destruct (bnd_run ex lg f r rm L ts Ae Al St Ht) as [r' [b K]]. pose proof K as [A [V [B T]]].
  exists r', b. split; auto. split; auto. split. intros Q; apply T; auto. intros t Q.
  destruct (bnd_step ex lg f r rm L _ r' b t Ae Al St K Q) as [r'' [b' [[A2 _] [K1 K2]]]]. exists r'', b'. rewrite aged64_snoc. auto.
Qed.
(** the law *)
Definition eE (n X : R) : R := (8 * n + X) * vv.
Definition eD (q : R) : R := (2 + 8 * (q + 1)) * vv.
Definition eT (q X : R) : R := (13 + 11 * (q + 1) + 3 * X) * vv.
Definition near_law (r rm n X : R) (r' : R) (b : bool) : Prop :=
  let y := rho r rm in
  (b = true -> Rabs (rho r' rm - (y + X)) <= eE n X /\ y + X <= eD (- y) + eE n X)
  /\ (b = false -> 0 < r' /\ Rabs (- rho r' rm - (y + X)) <= eE n X + eT (- y) X /\ - (y + X) <= eD (- y) + eE n X).
Lemma rsum_snoc : forall l x, rsum (l ++ [x]) = rsum l + x.
Proof. induction l; intros; simpl; [|rewrite IHl]; ring. Qed.
Lemma rsum_pos : forall l, (forall t, In t l -> time64 t) -> 0 <= rsum l.
Proof. induction l; intros H; simpl. lra. destruct (H a (or_introl eq_refl)) as [_ [Q _]]. pose proof (IHl (fun t K => H t (or_intror K))). lra. Qed.
Lemma y_range : forall r rm, sane64 r -> sane64 rm -> r <= rm -> -450 <= rho r rm <= 0.
Proof. intros r rm A B C. destruct (lnb r A), (lnb rm B). split. unfold rho; lra. apply rho_neg. lra. Qed.
Lemma law_run : forall ex lg f r rm L ts, accurate_exp ex -> accurate_log lg -> start64 f r rm L -> fc_growing f = true -> (forall t, In t ts -> time64 t) ->
  INR (length ts) <= 1000000000000 -> 2 * rsum ts / L <= 250 ->
  exists r' b, bnd f r rm (aged64 ex lg f ts) r' b /\ near_law r rm (INR (length ts)) (2 * rsum ts / L) r' b.
Proof.
  intros ex lg f r rm L ts Ae Al S G. pose proof S as [Sf [Sr [Sm [SL H]]]]. destruct (lnb r Sr) as [Hr Br]. destruct (lnb rm Sm) as [Hm Bm]. destruct (lnb L SL) as [HL _].
  pose proof (y_range r rm Sr Sm H) as Y. pose proof vv_pos as VP. assert (VS : vv <= 1.12 / 10000000000000000) by (unfold vv, u64; lra).
  induction ts as [|t ts IH] using rev_ind; intros Ht Hn HX.
  - exists r, true. split. { rewrite <- G. eapply bnd_start; eauto. } split; [|discriminate]. intros _. simpl. replace (2 * 0 / L) with 0 by (field; lra). unfold eE, eD.
    rewrite Rplus_0_r. rewrite (Rminus_diag_eq _ _ eq_refl), Rabs_R0. split. lra. assert (0 < (2 + 8 * (- rho r rm + 1)) * vv) by (apply Rmult_lt_0_compat; lra). lra.
  - rewrite app_length, plus_INR in *. simpl (length [t]) in *. change (INR 1) with 1 in *. rewrite rsum_snoc in *.
    assert (Q1 : forall t0, In t0 ts -> time64 t0) by (intros; apply Ht; apply in_or_app; auto). assert (Q2 : time64 t) by (apply Ht; apply in_or_app; right; left; auto).
    pose proof (rsum_pos ts Q1) as RP. replace (2 * (rsum ts + t) / L) with (2 * rsum ts / L + 2 * t / L) in * by (field; lra).
    assert (x0 : 0 <= 2 * t / L). { destruct Q2 as [_ [Q2 _]]. apply Rmult_le_pos. lra. left. apply Rinv_0_lt_compat; auto. }
    assert (X0 : 0 <= 2 * rsum ts / L). { apply Rmult_le_pos. lra. left. apply Rinv_0_lt_compat; auto. }
    destruct IH as [r' [b [K [N1 N2]]]]; auto. lra. lra. set (x := 2 * t / L) in *. set (X := 2 * rsum ts / L) in *. set (n := INR (length ts)) in *. set (y := rho r rm) in *.
    pose proof (pos_INR (length ts)) as n0. fold n in n0.
    assert (nv : n * vv <= / 1000). { assert (n * vv <= 1000000000000 * (1.12 / 10000000000000000)) by (apply Rmult_le_compat; lra). lra. }
    assert (Xv : 0 <= X * vv) by (apply Rmult_le_pos; lra). assert (xv : 0 <= x * vv) by (apply Rmult_le_pos; lra). assert (nv0 : 0 <= n * vv) by (apply Rmult_le_pos; lra).
    assert (X1 : (X + x) * vv <= 250 * vv) by (apply Rmult_le_compat_r; lra). assert (yv : (- y) * vv <= 450 * vv) by (apply Rmult_le_compat_r; lra). assert (yv0 : 0 <= (- y) * vv) by (apply Rmult_le_pos; lra).
    rewrite aged64_snoc. pose proof K as [A [V [B T]]]. destruct (aged_state _ _ _ _ _ _ _ Sf A) as [Sg Eg].
    destruct b.
    + destruct (T eq_refl) as [T1 T2]. destruct (N1 eq_refl) as [M1 M2]. pose proof Sr as [_ [Lr _]].
      destruct (growing_step ex lg _ r' rm L t Ae Al Sg Eg V Sm SL) as [r'' [b' [A2 [V2 J]]]]; try lra; auto. cbv zeta in J. fold x in J. set (p := rho r' rm) in *.
      assert (bn : bnd f r rm (fac_age64 ex lg (aged64 ex lg f ts) (Fin t)) r'' b').
      { destruct (bnd_step ex lg f r rm L _ r' true t Ae Al S K Q2) as [r3 [b3 [K3 _]]]. pose proof K3 as [A3 _]. destruct (aged_state _ _ _ _ _ _ _ Sf A3) as [[E1 _] E2]. destruct (aged_state _ _ _ _ _ _ _ Sg A2) as [[E3 _] E4].
        assert (r3 = r'') by congruence. assert (b3 = b') by congruence. subst. auto. }
      exists r'', b'. split; auto. destruct J as [J1 J2].
      assert (yp : y <= p). { unfold y, p, rho. assert (ln r <= ln r'). { destruct T1 as [T1| <-]; [|lra]. left. apply ln_increasing; lra. } lra. }
      assert (PA : 0 <= Rabs p <= - y + 1). { split. apply Rabs_pos. apply Rabs_le. lra. }
      assert (d1 : (2 + 8 * Rabs p) * vv <= eD (- y)). { unfold eD. apply Rmult_le_compat_r; lra. }
      assert (d2 : (13 + 11 * Rabs p + 3 * x) * vv <= eT (- y) (X + x)). { unfold eT. apply Rmult_le_compat_r; lra. }
      apply Rabs_le_between in M1. unfold near_law. fold y. cbv zeta. split; intros ->.
      * destruct (J1 eq_refl) as [J3 [J4 J5]]. apply Rabs_le_between in J5. unfold eE in *. split. apply Rabs_le. lra. lra.
      * destruct (J2 eq_refl) as [J3 [J4 J5]]. destruct J5 as [J5 J6]. lra. apply Rabs_le_between in J6. unfold eE in *. split; auto. split. apply Rabs_le. lra. lra.
    + destruct (N2 eq_refl) as [M0 [M1 M2]]. pose proof (p2_le 300 399 ltac:(lia)). assert (r' <= powerRZ 2 400). { replace 400%Z with (1 + 399)%Z by lia. rewrite p2_add. simpl (powerRZ 2 1). destruct Sm as [_ [_ Um]]. nra. }
      destruct (bnd_step ex lg f r rm L _ r' false t Ae Al S K Q2) as [r3 [b3 [K3 [K4 _]]]]. destruct (K4 eq_refl) as [-> _].
      destruct (shrinking_step ex lg _ r' rm L t Ae Sg Eg V) as [r'' [A2 [V2 [B2 J]]]]; auto. lra. fold x in J.
      pose proof K3 as [A3 _]. destruct (aged_state _ _ _ _ _ _ _ Sf A3) as [[E1 _] E2]. destruct (aged_state _ _ _ _ _ _ _ Sg A2) as [[E3 _] E4]. assert (r3 = r'') by congruence. subst r3.
      exists r'', false. split; auto. split. discriminate. intros _. cbv zeta. fold y. apply Rabs_le_between in M1. unfold eE, eT, rho in *.
      destruct J as [J0 J1]; auto. lra. lra. apply Rabs_le_between in J1. split; auto. split. apply Rabs_le. lra. lra.
Qed.
Lemma shrink_run : forall ex lg f r rm L ts, accurate_exp ex -> accurate_log lg -> start64 f r rm L -> fc_growing f = false -> (forall t, In t ts -> time64 t) ->
  INR (length ts) <= 1000000000000 -> 2 * rsum ts / L <= 250 ->
  exists r', bnd f r rm (aged64 ex lg f ts) r' false /\ 0 < r' /\ Rabs (ln r' - (ln r - 2 * rsum ts / L)) <= eE (INR (length ts)) (2 * rsum ts / L).
Proof.
  intros ex lg f r rm L ts Ae Al S G. pose proof S as [Sf [Sr [Sm [SL H]]]]. destruct (lnb r Sr) as [Hr Br]. destruct (lnb rm Sm) as [Hm Bm]. destruct (lnb L SL) as [HL _].
  pose proof vv_pos as VP. assert (VS : vv <= 1.12 / 10000000000000000) by (unfold vv, u64; lra).
  induction ts as [|t ts IH] using rev_ind; intros Ht Hn HX.
  - exists r. split. { rewrite <- G. eapply bnd_start; eauto. } split; auto. simpl. replace (2 * 0 / L) with 0 by (field; lra). unfold eE.
    rewrite Rminus_0_r. rewrite (Rminus_diag_eq _ _ eq_refl), Rabs_R0. lra.
  - rewrite app_length, plus_INR in *. simpl (length [t]) in *. change (INR 1) with 1 in *. rewrite rsum_snoc in *.
    assert (Q1 : forall t0, In t0 ts -> time64 t0) by (intros; apply Ht; apply in_or_app; auto). assert (Q2 : time64 t) by (apply Ht; apply in_or_app; right; left; auto).
    pose proof (rsum_pos ts Q1) as RP. replace (2 * (rsum ts + t) / L) with (2 * rsum ts / L + 2 * t / L) in * by (field; lra).
    assert (x0 : 0 <= 2 * t / L). { destruct Q2 as [_ [Q2 _]]. apply Rmult_le_pos. lra. left. apply Rinv_0_lt_compat; auto. }
    assert (X0 : 0 <= 2 * rsum ts / L). { apply Rmult_le_pos. lra. left. apply Rinv_0_lt_compat; auto. }
    destruct IH as [r' [K [M0 M1]]]; auto. lra. lra. set (x := 2 * t / L) in *. set (X := 2 * rsum ts / L) in *. set (n := INR (length ts)) in *.
    pose proof (pos_INR (length ts)) as n0. fold n in n0.
    assert (nv : n * vv <= / 1000). { assert (n * vv <= 1000000000000 * (1.12 / 10000000000000000)) by (apply Rmult_le_compat; lra). lra. }
    assert (X1 : X * vv <= 250 * vv) by (apply Rmult_le_compat_r; lra).
    rewrite aged64_snoc. pose proof K as [A [V [B T]]]. destruct (aged_state _ _ _ _ _ _ _ Sf A) as [Sg Eg].
    pose proof (p2_le 300 399 ltac:(lia)). assert (r' <= powerRZ 2 400). { replace 400%Z with (1 + 399)%Z by lia. rewrite p2_add. simpl (powerRZ 2 1). destruct Sm as [_ [_ Um]]. nra. }
    destruct (bnd_step ex lg f r rm L _ r' false t Ae Al S K Q2) as [r3 [b3 [K3 [K4 _]]]]. destruct (K4 eq_refl) as [-> _].
    destruct (shrinking_step ex lg _ r' rm L t Ae Sg Eg V) as [r'' [A2 [V2 [B2 J]]]]; auto. lra. fold x in J.
    pose proof K3 as [A3 _]. destruct (aged_state _ _ _ _ _ _ _ Sf A3) as [[E1 _] E2]. destruct (aged_state _ _ _ _ _ _ _ Sg A2) as [[E3 _] E4]. assert (r3 = r'') by congruence. subst r3.
    exists r''. split; auto. apply Rabs_le_between in M1. unfold eE in *. destruct J as [J0 J1]; auto. lra. lra. apply Rabs_le_between in J1. split; auto. apply Rabs_le. lra.
Qed.
Lemma ratio : forall r re d, 0 < r -> 0 < re -> 0 <= d <= / 4 -> Rabs (ln r - ln re) <= d -> Rabs (r - re) <= 2 * d * re.
Proof.
  intros r re d Hr He D H. apply Rabs_le_between in H.
  assert (E : r = re * exp (ln r - ln re)). { unfold Rminus. rewrite exp_plus, exp_Ropp, !exp_ln by auto. field. lra. }
  assert (U : exp (ln r - ln re) <= exp d). { destruct H as [_ [H|H]]. left; apply exp_increasing; auto. rewrite H; lra. }
  pose proof (exp_up d D). pose proof (exp_ineq1_le (ln r - ln re)). set (k := exp (ln r - ln re)) in *. rewrite E. apply Rabs_le. nra.
Qed.
Lemma C130_law_lemma : forall ex lg f r rm L ts,
  accurate_exp ex -> accurate_log lg -> fac_state f r rm L -> sane64 r -> sane64 rm -> sane64 L -> r <= rm -> (forall t, In t ts -> time64 t) ->
  INR (length ts) <= 1000000000000 -> 2 * rsum ts / L <= 250 ->
  exists r' b re, fac_aged f (aged64 ex lg f ts) r' b /\ fc_radius (aged_exactly f ts) = Fin re /\ 0 < re
    /\ (fc_growing f = true ->
          let peak := time_to_peak r rm L in let e := drift64 (length ts) (2 * rsum ts / L) (ln (rm / r)) in
          re = rm * exp (- 2 * Rabs (rsum ts - peak) / L) /\ Rabs (r' - re) <= e * re
          /\ (b = true -> rsum ts <= peak + e * L) /\ (b = false -> peak - e * L <= rsum ts))
    /\ (fc_growing f = false ->
          re = r * exp (- 2 * rsum ts / L) /\ Rabs (r' - re) <= drift64 (length ts) (2 * rsum ts / L) 0 * re /\ b = false).
Proof.
  intros ex lg f r rm L ts Ae Al Sf Sr Sm SL H Ht Hn HX. assert (S : start64 f r rm L) by (repeat (split; auto)).
  destruct (lnb r Sr) as [Hr Br]. destruct (lnb rm Sm) as [Hm Bm]. destruct (lnb L SL) as [HL _].
  pose proof (y_range r rm Sr Sm H) as Y. pose proof vv_pos as VP. assert (VS : vv <= 1.12 / 10000000000000000) by (unfold vv, u64; lra).
  pose proof (rsum_pos ts Ht) as RP. assert (X0 : 0 <= 2 * rsum ts / L). { apply Rmult_le_pos. lra. left. apply Rinv_0_lt_compat; auto. }
  assert (LQ : ln (rm / r) = - rho r rm). { unfold Rdiv, rho. rewrite ln_mult, ln_Rinv; auto. ring. apply Rinv_0_lt_compat; auto. }
  assert (EX : exists re, fc_radius (aged_exactly f ts) = Fin re /\ re = if fc_growing f then rm * exp (- 2 * Rabs (rsum ts - time_to_peak r rm L) / L) else r * exp (- 2 * rsum ts / L)).
  { destruct ts as [|t0 ts0].
    - exists r. split. apply Sf. simpl. destruct (fc_growing f).
      + unfold time_to_peak. rewrite LQ. rewrite Rabs_left1. 2: nra. replace (-2 * - (0 - - rho r rm * L / 2) / L) with (rho r rm) by (field; lra).
        unfold rho, Rminus. rewrite exp_plus, exp_Ropp, !exp_ln by auto. field. lra.
      + replace (-2 * 0 / L) with 0 by (field; lra). rewrite exp_0. ring.
    - destruct C29_lemma as [C1 C2]. assert (WF : fac_wf f) by (exists r, rm, L; split; auto; split; lra).
      destruct (C2 f (t0 :: ts0)) as [D1 _]; auto. { intros t I. apply Ht in I. apply I. } discriminate. unfold aged_exactly. rewrite D1.
      destruct (C1 f r rm L (rsum (t0 :: ts0)) Sf) as [F1 F2]; auto. destruct (fc_growing f).
      + destruct (F1 eq_refl) as [b [FA _]]. eexists. split; [|reflexivity]. apply FA.
      + eexists. split; [|reflexivity]. apply (F2 eq_refl). }
  destruct EX as [re [EX1 EX2]].
  set (X := 2 * rsum ts / L) in *. set (n := INR (length ts)) in *. pose proof (pos_INR (length ts)) as n0. fold n in n0. set (y := rho r rm) in *.
  assert (nv : n * vv <= 1.12 / 10000). { assert (n * vv <= 1000000000000 * (1.12 / 10000000000000000)) by (apply Rmult_le_compat; lra). lra. }
  assert (Xv : 0 <= X * vv) by (apply Rmult_le_pos; lra). assert (nv0 : 0 <= n * vv) by (apply Rmult_le_pos; lra).
  assert (X1 : X * vv <= 250 * vv) by (apply Rmult_le_compat_r; lra). assert (yv : (- y) * vv <= 450 * vv) by (apply Rmult_le_compat_r; lra). assert (yv0 : 0 <= (- y) * vv) by (apply Rmult_le_pos; lra).
  destruct (fc_growing f) eqn:G.
  - destruct (law_run ex lg f r rm L ts Ae Al S G Ht Hn HX) as [r' [b [K N]]]. fold n X in N. exists r', b, re. destruct K as [A [V [B T]]].
    assert (re0 : 0 < re) by (rewrite EX2; apply Rmult_lt_0_compat; auto; apply exp_pos).
    split; auto. split; auto. split; auto. split; [|discriminate]. intros _. cbv zeta. split; auto.
    assert (PK : -2 * Rabs (rsum ts - time_to_peak r rm L) / L = - Rabs (y + X)).
    { unfold time_to_peak. rewrite LQ. replace (rsum ts - - y * L / 2) with ((y + X) * (L / 2)) by (unfold X; field; lra). rewrite Rabs_mult, (Rabs_right (L / 2)) by lra. field. lra. }
    assert (LRE : ln re = ln rm - Rabs (y + X)). { rewrite EX2, PK, ln_mult, ln_exp; auto. apply exp_pos. }
    set (bb := (24 * n + 6 * X + 27 * - y + 44) * vv).
    assert (BB : 0 <= bb <= / 4) by (unfold bb; lra).
    assert (BD : 2 * bb <= drift64 (length ts) X (ln (rm / r))).
    { unfold drift64. fold n. rewrite LQ. unfold bb. assert (O : (24 * n + 6 * X + 27 * - y + 44) * vv <= (24 * n + 6 * X + 27 * - y + 44) * (1.12 / 10000000000000000)) by (apply Rmult_le_compat_l; lra). fold y. lra. }
    assert (R0' : 0 < r'). { destruct N as [N1 N2]. destruct b. destruct (T eq_refl). lra. destruct (N2 eq_refl); auto. }
    assert (CL : Rabs (ln r' - ln re) <= bb /\ (b = true -> y + X <= bb) /\ (b = false -> - (y + X) <= bb)).
    { rewrite LRE. unfold near_law in N. cbv zeta in N. fold y in N. destruct N as [N1 N2]. destruct b.
      - destruct (N1 eq_refl) as [M1 M2]. apply Rabs_le_between in M1. unfold eE, eD, eT, rho, bb in *. split; [|split; [intros _; lra|discriminate]]. unfold Rabs at 2; destruct (Rcase_abs (y + X)); apply Rabs_le; lra.
      - destruct (N2 eq_refl) as [_ [M1 M2]]. apply Rabs_le_between in M1. unfold eE, eD, eT, rho, bb in *. split; [|split; [discriminate|intros _; lra]]. unfold Rabs at 2; destruct (Rcase_abs (y + X)); apply Rabs_le; lra. }
    destruct CL as [CL1 [CL2 CL3]]. split.
    + eapply Rle_trans. apply (ratio r' re bb); auto. apply Rmult_le_compat_r. lra. auto.
    + set (e := drift64 (length ts) X (ln (rm / r))) in *. assert (TX : rsum ts - time_to_peak r rm L = (y + X) * L / 2). { unfold time_to_peak. rewrite LQ. unfold y, X. field. lra. }
      split; intros Q. specialize (CL2 Q). nra. specialize (CL3 Q). nra.
  - destruct (shrink_run ex lg f r rm L ts Ae Al S G Ht Hn HX) as [r' [K [R0' M1]]]. fold n X in M1. exists r', false, re. destruct K as [A _].
    assert (re0 : 0 < re) by (rewrite EX2; apply Rmult_lt_0_compat; auto; apply exp_pos).
    split; auto. split; auto. split; auto. split; [discriminate|]. intros _. split; auto. split; auto.
    assert (LRE : ln re = ln r - X). { rewrite EX2, ln_mult, ln_exp; auto. unfold X. field. lra. apply exp_pos. }
    rewrite <- LRE in M1. eapply Rle_trans. apply (ratio r' re (eE n X)); auto. unfold eE. lra. apply Rmult_le_compat_r. lra. unfold eE, drift64. fold n.
    assert (O : (8 * n + X) * vv <= (8 * n + X) * (1.12 / 10000000000000000)) by (apply Rmult_le_compat_l; lra). lra.
Qed.
Lemma C130_slicing_lemma : forall ex lg f r rm L ts ts',
  accurate_exp ex -> accurate_log lg -> fac_state f r rm L -> sane64 r -> sane64 rm -> sane64 L -> r <= rm ->
  (forall t, In t (ts ++ ts') -> time64 t) -> rsum ts = rsum ts' ->
  INR (length ts) <= 1000000000000 -> INR (length ts') <= 1000000000000 -> 2 * rsum ts / L <= 250 ->
  exists r1 r2, fc_radius (aged64 ex lg f ts) = Fin r1 /\ fc_radius (aged64 ex lg f ts') = Fin r2
    /\ Rabs (r1 - r2) <= 3 * drift64 (length ts + length ts') (2 * rsum ts / L) (ln (rm / r)) * Rmin r1 r2.
Proof.
  intros ex lg f r rm L ts ts' Ae Al Sf Sr Sm SL H Ht E N1 N2 HX.
  destruct (lnb r Sr) as [Hr Br]. destruct (lnb rm Sm) as [Hm Bm]. destruct (lnb L SL) as [HL _].
  assert (Q1 : forall t, In t ts -> time64 t) by (intros; apply Ht; apply in_or_app; auto). assert (Q2 : forall t, In t ts' -> time64 t) by (intros; apply Ht; apply in_or_app; auto).
  destruct (C130_law_lemma ex lg f r rm L ts Ae Al Sf Sr Sm SL H Q1 N1 HX) as [r1 [b1 [re1 [A1 [E1 [P1 [G1 S1]]]]]]].
  pose proof HX as HX'. rewrite E in HX'.
  destruct (C130_law_lemma ex lg f r rm L ts' Ae Al Sf Sr Sm SL H Q2 N2 HX') as [r2 [b2 [re2 [A2 [E2 [P2 [G2 S2]]]]]]].
  exists r1, r2. split. apply A1. split. apply A2. rewrite <- E in *.
  pose proof (y_range r rm Sr Sm H) as Y. assert (LQ : ln (rm / r) = - rho r rm). { unfold Rdiv, rho. rewrite ln_mult, ln_Rinv; auto. ring. apply Rinv_0_lt_compat; auto. }
  pose proof (rsum_pos ts Q1) as RP. assert (X0 : 0 <= 2 * rsum ts / L). { apply Rmult_le_pos. lra. left. apply Rinv_0_lt_compat; auto. }
  set (X := 2 * rsum ts / L) in *. unfold drift64 in *. rewrite plus_INR in *. pose proof (pos_INR (length ts)). pose proof (pos_INR (length ts')). set (n1 := INR (length ts)) in *. set (n2 := INR (length ts')) in *.
  assert (K : exists re k1 k2, 0 < re /\ Rabs (r1 - re) <= k1 * re /\ Rabs (r2 - re) <= k2 * re /\ 0 <= k1 <= / 10 /\ 0 <= k2 <= / 10 /\ k1 + k2 <= (n1 + n2 + 2 * X + 2 * ln (rm / r) + 4) / 100000000000000).
  { destruct (fc_growing f).
    - destruct (G1 eq_refl) as [F1 [D1 _]]. destruct (G2 eq_refl) as [F2 [D2 _]]. rewrite <- F1 in F2. subst re2. exists re1. eexists _, _. split; auto. split; [apply D1|]. split; [apply D2|]. rewrite LQ. split; [lra|]. split; lra.
    - destruct (S1 eq_refl) as [F1 [D1 _]]. destruct (S2 eq_refl) as [F2 [D2 _]]. rewrite <- F1 in F2. subst re2. exists re1. eexists _, _. split; auto. split; [apply D1|]. split; [apply D2|]. rewrite LQ. split; [lra|]. split; lra. }
  destruct K as [re [k1 [k2 [P [D1 [D2 [K1 [K2 K3]]]]]]]]. apply Rabs_le_between in D1. apply Rabs_le_between in D2. rewrite LQ in *.
  assert (RR : re <= 10 / 9 * Rmin r1 r2). { unfold Rmin. destruct (Rle_dec r1 r2); nra. }
  set (w := (n1 + n2 + X + - rho r rm + 2) / 100000000000000) in *.
  assert (k1 + k2 <= 2 * w) by (unfold w; lra). assert (0 <= w) by (unfold w; lra).
  assert (Rabs (r1 - r2) <= 2 * w * re). { apply Rabs_le. nra. } nra.
Qed.
