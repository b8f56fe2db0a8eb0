(** The points of the spiral grid are evenly spread: none are close together and none of the
    sphere is far from all of them. *)
From Coq Require Import Reals ZArith Bool List Lra Lia Permutation.
From Coquelicot Require Import Coquelicot.
From Verif Require Import Num Py MConfig MHelpers MGrid Spec SpecStar LBase LGrid LHelpers LCirc LGauss LObserve LSpiral.
Import ListNotations.
Open Scope R_scope.

(** ** The golden ratio is badly approximable *)
Lemma gold_norm : forall (m : nat) (k p : Z), (0 <= k <= Z.of_nat m)%Z -> (k * k - k * p - p * p = 0)%Z -> k = 0%Z.
Proof.
  induction m as [m IH] using lt_wf_ind. intros k p B E.
  destruct (Z.eq_dec k 0) as [|N]; auto.
  destruct (Z.Even_or_Odd k) as [[a ->]|[a ->]]; destruct (Z.Even_or_Odd p) as [[b ->]|[b ->]]; try (exfalso; lia).
  destruct m. lia. assert (a = 0)%Z. { apply (IH m ltac:(lia) a b). lia. lia. } lia.
Qed.
Lemma gold_far : forall (k p : Z), (1 <= k)%Z -> 9 / 25 <= IZR k * Rabs (IZR k * gal - IZR p).
Proof.
  intros k p K. destruct gal_eq as [G B].
  assert (Gu : gal < 619 / 1000) by nra.
  set (d := Rabs (IZR k * gal - IZR p)). assert (D : 0 <= d) by apply Rabs_pos.
  assert (K1 : 1 <= IZR k) by (apply IZR_le; auto).
  assert (N : (k * k - k * p - p * p <> 0)%Z). { intro E. pose proof (gold_norm (Z.to_nat k) k p ltac:(lia) E). lia. }
  assert (M : 1 <= Rabs ((IZR k * gal - IZR p) * (IZR k * (1 + gal) + IZR p))).
  { replace ((IZR k * gal - IZR p) * (IZR k * (1 + gal) + IZR p)) with (IZR (k * k - k * p - p * p)).
    rewrite <- abs_IZR. apply IZR_le. lia.
    rewrite !minus_IZR, !mult_IZR. replace (IZR k * IZR k) with (IZR k * IZR k * (gal * gal + gal)) by (rewrite G; ring). ring. }
  rewrite Rabs_mult in M. fold d in M.
  assert (U : Rabs (IZR k * (1 + gal) + IZR p) <= d + IZR k * (1 + 2 * gal)).
  { replace (IZR k * (1 + gal) + IZR p) with (- (IZR k * gal - IZR p) + IZR k * (1 + 2 * gal)) by ring.
    eapply Rle_trans. apply Rabs_triang. rewrite Rabs_Ropp. fold d. rewrite (Rabs_right (IZR k * _)). lra. nra. }
  destruct (Rle_dec (1/2) d). nra.
  assert (1 <= d * (d + IZR k * (1 + 2 * gal))) by (eapply Rle_trans; [apply M|]; apply Rmult_le_compat_l; auto).
  nra.
Qed.
Lemma nearest_Z : forall y, exists p : Z, Rabs (y - IZR p) <= 1 / 2.
Proof.
  intros. exists (Int_part (y + 1/2)). destruct (base_Int_part (y + 1/2)). apply Rabs_le. lra.
Qed.
Lemma sin2_turn : forall y (p : Z), sin (PI * (y - IZR p)) ^ 2 = sin (PI * y) ^ 2.
Proof.
  assert (Q : forall x, sin x ^ 2 = (1 - cos (2 * x)) / 2). { intros. rewrite cos_2a_sin. simpl. lra. }
  intros. rewrite !Q. f_equal. f_equal.
  replace (2 * (PI * y)) with (2 * (PI * (y - IZR p)) + IZR p * (2 * PI)) by ring.
  symmetry. apply (per_Z cos). intros. rewrite cos_plus, sin_2PI, cos_2PI. ring.
Qed.
(** longitudes of two points that are [k] apart in the list *)
Lemma gold_sin : forall k : Z, (1 <= k)%Z -> exists s, 0 <= s <= 1 /\ sin (PI * (IZR k * gal)) ^ 2 = s ^ 2 /\ 18 / 25 <= IZR k * s.
Proof.
  intros k K. pose proof PI_RGT_0. destruct (nearest_Z (IZR k * gal)) as [p Hp]. pose proof (gold_far k p K) as F.
  set (d := Rabs (IZR k * gal - IZR p)) in *. assert (D : 0 <= d) by apply Rabs_pos.
  assert (K1 : 1 <= IZR k) by (apply IZR_le; auto).
  exists (sin (PI * d)). split. split. apply sin_ge_0; nra. apply SIN_bound. split.
  - rewrite <- (sin2_turn _ p). unfold d. destruct (Rcase_abs (IZR k * gal - IZR p)).
    rewrite Rabs_left by auto. replace (PI * - (IZR k * gal - IZR p)) with (- (PI * (IZR k * gal - IZR p))) by ring. rewrite sin_neg. ring.
    rewrite Rabs_right by auto. auto.
  - pose proof (jordan (PI * d) ltac:(split; nra)) as J. replace (2 * (PI * d) / PI) with (2 * d) in J by (field; lra). nra.
Qed.

(** ** Angles between points of given heights *)
Lemma hav_split : forall l1 o1 l2 o2,
  (1 - cos_sep l1 o1 l2 o2) / 2 = sin ((l1 - l2) / 2) ^ 2 + cos l1 * cos l2 * sin ((o1 - o2) / 2) ^ 2.
Proof.
  intros. rewrite <- law_cos_dot. unfold law_cos.
  assert (Q : forall x, sin (x / 2) ^ 2 = (1 - cos x) / 2). { intros. replace (cos x) with (cos (2 * (x / 2))) by (f_equal; field). rewrite cos_2a_sin. simpl. lra. }
  rewrite !Q, (cos_minus l1). field_simplify. auto.
Qed.
Lemma cos_prod : forall a b, cos a * cos b = cos ((a + b) / 2) ^ 2 - sin ((a - b) / 2) ^ 2.
Proof.
  intros. set (u := (a + b) / 2). set (v := (a - b) / 2). replace a with (u + v) by (unfold u, v; field). replace b with (u - v) by (unfold u, v; field).
  rewrite cos_plus, cos_minus.
  pose proof (sin2_cos2 u) as A. pose proof (sin2_cos2 v) as B. unfold Rsqr in *.
  replace (cos u ^ 2 - sin v ^ 2) with (cos u * cos u * (sin v * sin v + cos v * cos v) - sin v * sin v * (sin u * sin u + cos u * cos u)) by (rewrite A, B; ring). ring.
Qed.
Lemma cos_sep_sym : forall a b c d, cos_sep a b c d = cos_sep c d a b.
Proof. intros. unfold cos_sep, dot, vec. ring. Qed.
Lemma half_hav : forall a, sin (a / 2) ^ 2 = (1 - cos a) / 2.
Proof. intros. replace (cos a) with (cos (2 * (a / 2))) by (f_equal; field). rewrite cos_2a_sin. simpl. lra. Qed.
(** points of the spiral grid that are [k] apart in the list *)
Lemma spiral_sin : forall n i, (i < n)%nat -> sin (spiral_lat n i) = 1 - (2 * INR i + 1) / INR n /\ - PI / 2 <= spiral_lat n i <= PI / 2.
Proof.
  intros n i H. assert (N : 0 < INR n) by (apply lt_0_INR; lia). pose proof (pos_INR i). pose proof PI_RGT_0.
  assert (I : INR i + 1 <= INR n) by (rewrite <- S_INR; apply le_INR; lia).
  unfold spiral_lat, spiral_colat. rewrite sin_shift, cos_acos. split. field. lra. pose proof (acos_bound (1 - 2 * (INR i + 1/2) / INR n)). lra.
  split; apply Rmult_le_reg_l with (INR n); auto; replace (INR n * (1 - 2 * (INR i + 1/2) / INR n)) with (INR n - 2 * (INR i + 1/2)) by (field; lra); lra.
Qed.
Lemma spiral_turn : forall i j, (j <= i)%nat -> sin ((spiral_lon i - spiral_lon j) / 2) ^ 2 = sin (PI * (IZR (Z.of_nat i - Z.of_nat j) * gal)) ^ 2.
Proof.
  intros i j H. rewrite !half_hav. replace (PI * (IZR (Z.of_nat i - Z.of_nat j) * gal)) with (2 * PI * (IZR (Z.of_nat i - Z.of_nat j) * gal) / 2) by field.
  rewrite half_hav. f_equal. f_equal. rewrite <- (cos_neg (spiral_lon i - spiral_lon j)). replace (- (spiral_lon i - spiral_lon j)) with (spiral_lon j - spiral_lon i) by ring.
  rewrite spiral_lon_cos. replace (spiral_lon j - INR i * golden_turn) with (- (INR i * golden_turn - spiral_lon j)) by ring. rewrite cos_neg, spiral_lon_cos.
  f_equal. rewrite minus_IZR, <- !INR_IZR_INZ. unfold golden_turn, gal. field. unfold GOLDEN_RATIO. pose proof (sqrt_pos 5). lra.
Qed.
Lemma sep_core : forall N k x s S : R, 0 < N -> 1 <= k -> 0 <= x -> 0 <= S <= 1 -> s * x = k / N -> x * x <= s * s -> 18/25 <= k * S ->
  1 / N <= x ^ 2 + (s ^ 2 - x ^ 2) * S ^ 2.
Proof.
  intros N k x s S N0 K X S0 E L F. assert (V : 0 < 1 / N) by (apply Rdiv_lt_0_compat; lra).
  replace (k / N) with (k * (1 / N)) in E by (field; lra). set (v := 1 / N) in *.
  destruct (Rle_dec (1/2) (S ^ 2)) as [C|C].
  - assert (A : (s ^ 2 - x ^ 2) * (1/2) <= (s ^ 2 - x ^ 2) * S ^ 2) by (apply Rmult_le_compat_l; nra).
    assert (0 <= (s - x) ^ 2) by apply pow2_ge_0. nra.
  - assert (A : x ^ 2 * (1/2) <= x ^ 2 * (1 - S ^ 2)) by (apply Rmult_le_compat_l; [apply pow2_ge_0|lra]).
    assert (B : 0 <= (x - 7/5 * (s * S)) ^ 2) by apply pow2_ge_0.
    assert (D : 18 / 25 * v <= (s * x) * S). { rewrite E. replace (k * v * S) with ((k * S) * v) by ring. apply Rmult_le_compat_r; lra. }
    assert (Q : 0 <= (s * S) ^ 2) by apply pow2_ge_0.
    nra.
Qed.
Lemma C100_sep : forall n i j a, (i < n)%nat -> (j < n)%nat -> i <> j ->
  is_angle (spiral_lat n i) (spiral_lon i) (spiral_lat n j) (spiral_lon j) a -> 1 / INR n <= sin (a / 2) ^ 2.
Proof.
  assert (W : forall n i j a, (i < n)%nat -> (j < i)%nat ->
    is_angle (spiral_lat n i) (spiral_lon i) (spiral_lat n j) (spiral_lon j) a -> 1 / INR n <= sin (a / 2) ^ 2).
  { intros n i j a Hi Hj [A1 A2]. rewrite half_hav, A2, hav_split, cos_prod, spiral_turn by lia.
    destruct (gold_sin (Z.of_nat i - Z.of_nat j) ltac:(lia)) as [S [S0 [-> F]]].
    set (x := (spiral_lat n i - spiral_lat n j) / 2) in *. set (m := (spiral_lat n i + spiral_lat n j) / 2) in *.
    destruct (spiral_sin n i Hi) as [P1 P2]. destruct (spiral_sin n j ltac:(lia)) as [Q1 Q2].
    assert (N0 : 0 < INR n) by (apply lt_0_INR; lia).
    rewrite minus_IZR, <- !INR_IZR_INZ in F.
    assert (K : 1 <= INR i - INR j). { rewrite <- minus_INR by lia. change 1 with (INR 1). apply le_INR. lia. }
    assert (E : sin (spiral_lat n j) - sin (spiral_lat n i) = 2 * (cos m * sin (- x))).
    { rewrite form4. replace ((spiral_lat n j - spiral_lat n i) / 2) with (- x) by (unfold x; field). replace ((spiral_lat n j + spiral_lat n i) / 2) with m by (unfold m; field). ring. }
    rewrite P1, Q1 in E. replace (1 - (2 * INR j + 1) / INR n - (1 - (2 * INR i + 1) / INR n)) with (2 * ((INR i - INR j) / INR n)) in E by (field; lra).
    assert (C : 0 <= cos m) by (apply cos_ge_0; unfold m; lra).
    assert (Kn : 0 < (INR i - INR j) / INR n) by (apply Rdiv_lt_0_compat; lra).
    assert (X : 0 <= sin (- x)) by nra.
    replace (sin x) with (- sin (- x)) by (rewrite sin_neg; ring). replace ((- sin (- x)) ^ 2) with (sin (- x) ^ 2) by ring.
    apply (sep_core (INR n) (INR i - INR j)); auto; try lra.
    pose proof (cos_prod (spiral_lat n i) (spiral_lat n j)) as CP. fold x m in CP.
    assert (0 <= cos (spiral_lat n i) * cos (spiral_lat n j)) by (apply Rmult_le_pos; apply cos_ge_0; lra).
    rewrite sin_neg. nra. }
  intros n i j a Hi Hj D A. destruct (lt_eq_lt_dec i j) as [[L|L]|L]; try lia.
  apply (W n j i); auto. destruct A as [A1 A2]. split; auto. rewrite A2. apply cos_sep_sym.
  apply (W n i j); auto.
Qed.

(** ** No part of the sphere is far from all points *)
Lemma window : forall n (F : nat) t, (1 <= F <= n)%nat -> 0 <= t <= INR n ->
  exists w, (w + F <= n)%nat /\ forall r, (r < F)%nat -> Rabs (INR (w + r) + 1/2 - t) <= INR F.
Proof.
  intros n F t HF Ht. destruct (nfloor_ex t ltac:(lra)) as [f [F1 F2]].
  destruct (le_lt_dec f (n - F)) as [L|L].
  - exists f. split. lia. intros r Hr. rewrite plus_INR. pose proof (pos_INR r). assert (INR r + 1 <= INR F) by (rewrite <- S_INR; apply le_INR; lia).
    apply Rabs_le. lra.
  - exists (n - F)%nat. split. lia. intros r Hr. rewrite plus_INR, minus_INR by lia. pose proof (pos_INR r).
    assert (INR r + 1 <= INR F) by (rewrite <- S_INR; apply le_INR; lia).
    assert (INR n - INR F + 1 <= INR f) by (rewrite <- minus_INR, <- S_INR by lia; apply le_INR; lia).
    apply Rabs_le. lra.
Qed.
Lemma residue : forall k q, exists r (m : Z), (r < fib (S k))%nat /\ (Z.of_nat (r * fib k) = q + m * Z.of_nat (fib (S k)))%Z.
Proof.
  intros k q. set (F := fib (S k)). assert (F0 : (0 < F)%nat) by (pose proof (fib_pos k); unfold F; lia).
  pose proof (perm_mul F (fib k) F0 (fib_gcd k)) as P.
  pose proof (Z.mod_pos_bound q (Z.of_nat F) ltac:(lia)) as B.
  assert (I : In (Z.to_nat (q mod Z.of_nat F)) (map (fun r => (r * fib k) mod F)%nat (seq 0 F))).
  { eapply Permutation_in. symmetry. apply P. apply in_seq. lia. }
  apply in_map_iff in I. destruct I as [r [E I]]. apply in_seq in I. exists r.
  exists (Z.of_nat (r * fib k / F) - q / Z.of_nat F)%Z. split. lia.
  pose proof (Nat.div_mod (r * fib k) F ltac:(lia)) as D. pose proof (Z.div_mod q (Z.of_nat F) ltac:(lia)) as D2.
  rewrite E in D. rewrite D at 1. rewrite Nat2Z.inj_add, Nat2Z.inj_mul, Z2Nat.id by lia. lia.
Qed.
Lemma gold_cover : forall k w y, exists r (m : Z), (r < fib (S k))%nat /\ Rabs (y - INR (w + r) * gal - IZR m) <= / INR (fib (S k)).
Proof.
  intros k w y. set (F := INR (fib (S k))). assert (F0 : 1 <= F) by (unfold F; change 1 with (INR 1); apply le_INR; apply fib_pos).
  pose proof (fib_approx k) as A. fold F in A. set (e := F * gal - INR (fib k)) in *.
  destruct (nearest_Z (F * (y - INR w * gal) - F * e / 2)) as [q Q].
  destruct (residue k q) as [r [m [R1 R2]]]. exists r, (- m)%Z. split; auto.
  apply (f_equal IZR) in R2. rewrite plus_IZR, mult_IZR, <- !INR_IZR_INZ, mult_INR in R2. fold F in R2.
  assert (Rr : 0 <= INR r <= F) by (split; [apply pos_INR | unfold F; apply le_INR; lia]).
  rewrite plus_INR, opp_IZR.
  replace (y - (INR w + INR r) * gal - - IZR m) with ((F * (y - INR w * gal) - F * e / 2 - IZR q - (INR r - F / 2) * e) * / F).
  2:{ unfold e. assert (H : IZR q = INR r * INR (fib k) - IZR m * F) by lra. rewrite H. field. lra. }
  rewrite Rabs_mult, (Rabs_right (/ F)) by (apply Rle_ge, Rlt_le, Rinv_0_lt_compat; lra).
  rewrite <- (Rmult_1_l (/ F)) at 2. apply Rmult_le_compat_r. apply Rlt_le, Rinv_0_lt_compat; lra.
  eapply Rle_trans. apply Rabs_triang. rewrite Rabs_Ropp, Rabs_mult.
  assert (B : Rabs (INR r - F / 2) <= F / 2) by (apply Rabs_le; lra).
  assert (Rabs (INR r - F / 2) * Rabs e <= F / 2 * / F) by (apply Rmult_le_compat; try apply Rabs_pos; lra).
  replace (F / 2 * / F) with (1 / 2) in * by (field; lra). lra.
Qed.
Lemma cover_core : forall rn rho F S x s c ci : R, 0 < rn -> 0 <= rho -> 1 <= F -> 0 <= S <= 1 -> S <= PI / F -> 0 <= x -> 0 <= c ->
  c * rn = 2 * rho -> 7/4 * rho <= F -> (F <= 2 \/ F <= 7/2 * rho) -> s * x <= F / (rn * rn) -> c <= 2 * s -> x <= s -> 0 <= ci <= c + 2 * x ->
  x ^ 2 + c * ci * S ^ 2 <= 52 / (rn * rn).
Proof.
  intros rn rho F S x s c ci Rn Rh F1 S0 SF X C0 Cr FL FU SX CS XS Ci. pose proof PI_RGT_0. pose proof PI_upper.
  set (v := / rn). assert (V : 0 < v) by (apply Rinv_0_lt_compat; auto). assert (VR : v * rn = 1) by (apply Rinv_l; lra).
  assert (E : forall a, a / (rn * rn) = a * (v * v)) by (intros; unfold v; field; lra). rewrite E in *.
  assert (Cv : c = 2 * rho * v). { rewrite <- Cr, Rmult_assoc, (Rmult_comm rn), VR. ring. }
  assert (SP : S * F <= PI). { apply Rmult_le_compat_r with (r := F) in SF; [|lra]. unfold Rdiv in SF. rewrite Rmult_assoc, Rinv_l in SF by lra. lra. }
  assert (A : c * S <= 371/100 * v).
  { rewrite Cv. assert (rho * S <= 4/7 * PI). { assert (7/4 * rho * S <= F * S) by (apply Rmult_le_compat_r; lra). lra. }
    replace (2 * rho * v * S) with (2 * (rho * S) * v) by ring. apply Rmult_le_compat_r; lra. }
  assert (A0 : 0 <= c * S) by (apply Rmult_le_pos; lra).
  assert (B : x <= 7/2 * v).
  { destruct FU as [FU|FU].
    - assert (x * x <= 2 * (v * v)) by nra. apply Rnot_lt_le. intro K. nra.
    - destruct (Req_dec rho 0) as [->|N]. lra.
      assert (K : rho * v * x <= 7/2 * rho * (v * v)).
      { assert (c / 2 * x <= s * x) by (apply Rmult_le_compat_r; lra). assert (F * (v * v) <= 7/2 * rho * (v * v)) by (apply Rmult_le_compat_r; nra). rewrite Cv in *. lra. }
      apply Rmult_le_reg_l with (rho * v). nra. lra. }
  assert (Q : c * ci * S ^ 2 <= (c * S) * (c * S) + 2 * x * (c * S)).
  { assert (c * ci * S ^ 2 <= c * (c + 2 * x) * S ^ 2) by (apply Rmult_le_compat_r; [apply pow2_ge_0|apply Rmult_le_compat_l; lra]).
    assert (2 * x * (c * S) * S <= 2 * x * (c * S) * 1) by (apply Rmult_le_compat_l; [|lra]; apply Rmult_le_pos; lra). nra. }
  assert (T : x + c * S <= 721/100 * v) by lra. nra.
Qed.
Lemma C100_cover : forall n lat lon, (1 <= n)%nat -> - PI / 2 <= lat <= PI / 2 ->
  exists i, (i < n)%nat /\ (1 - cos_sep (spiral_lat n i) (spiral_lon i) lat lon) / 2 <= 52 / INR n.
Proof.
  intros n lat lon Hn Hl. pose proof PI_RGT_0 as PP. assert (N0 : 0 < INR n) by (apply lt_0_INR; lia).
  destruct (Rle_dec (INR n) 52) as [Small|Big].
  { exists 0%nat. split. lia. rewrite <- law_cos_dot. pose proof (law_cos_bound (spiral_lat n 0) (spiral_lon 0) lat lon).
    assert (1 <= 52 / INR n). { apply Rmult_le_reg_r with (INR n); auto. unfold Rdiv. rewrite Rmult_assoc, Rinv_l by lra. lra. } lra. }
  apply Rnot_le_lt in Big. set (rn := sqrt (INR n)). assert (Rn2 : rn * rn = INR n) by (apply sqrt_sqrt; lra).
  assert (Rn : 7 < rn). { apply Rnot_le_lt. intro. assert (0 <= rn) by apply sqrt_pos. nra. }
  assert (C0 : 0 <= cos lat <= 1) by (split; [apply cos_ge_0; lra|apply COS_bound]).
  set (rho := cos lat * rn / 2). assert (Rh : 0 <= rho <= rn / 2) by (unfold rho; split; nra).
  destruct (fib_between (Rmax 1 (7/4 * rho)) (Rmax_l _ _)) as [k [Fl Fu]]. set (F := fib (S k)) in *.
  assert (F1 : (1 <= F)%nat) by apply fib_pos. assert (F1' : 1 <= INR F) by (change 1 with (INR 1); apply le_INR; auto).
  assert (FL : 7/4 * rho <= INR F) by (pose proof (Rmax_r 1 (7/4 * rho)); lra).
  assert (FU : INR F <= 2 \/ INR F <= 7/2 * rho) by (revert Fu; apply Rmax_case; [left|right]; lra).
  assert (Fn : (F <= n)%nat). { apply INR_le. destruct FU; nra. }
  pose proof (SIN_bound lat) as SB.
  set (t := INR n * (1 - sin lat) / 2). assert (Ht : 0 <= t <= INR n) by (unfold t; split; nra).
  destruct (window n F t ltac:(lia) Ht) as [w [W1 W2]].
  destruct (gold_cover k w (lon / (2 * PI))) as [r [m [R1 R2]]]. fold F in R1, R2. specialize (W2 r R1). set (i := (w + r)%nat) in *.
  assert (Hi : (i < n)%nat) by (unfold i; lia). exists i. split; auto.
  rewrite hav_split. destruct (spiral_sin n i Hi) as [P1 P2].
  set (x := (spiral_lat n i - lat) / 2). set (u := (spiral_lat n i + lat) / 2).
  assert (Sx : sin x ^ 2 = Rabs (sin x) ^ 2) by (rewrite RPow_abs, Rabs_right; auto; apply Rle_ge, pow2_ge_0).
  rewrite Sx. rewrite (Rmult_comm (cos (spiral_lat n i))).
  assert (Sy : sin ((spiral_lon i - lon) / 2) ^ 2 = Rabs (sin (PI * (lon / (2 * PI) - INR i * gal - IZR m))) ^ 2).
  { rewrite RPow_abs, Rabs_right by (apply Rle_ge, pow2_ge_0). rewrite sin2_turn.
    replace (PI * (lon / (2 * PI) - INR i * gal)) with ((lon - INR i * golden_turn) / 2).
    2:{ unfold golden_turn, gal. field. split. unfold GOLDEN_RATIO. pose proof (sqrt_pos 5). lra. lra. }
    rewrite !half_hav, <- spiral_lon_cos. f_equal. f_equal. rewrite <- cos_neg. f_equal. ring. }
  rewrite Sy. rewrite <- Rn2.
  assert (CI : 0 <= cos (spiral_lat n i)) by (apply cos_ge_0; lra).
  assert (U0 : 0 <= cos u) by (apply cos_ge_0; unfold u; lra).
  apply (cover_core rn rho (INR F) _ _ (cos u)); auto; try lra.
  - split. apply Rabs_pos. apply Rabs_le. pose proof (SIN_bound (PI * (lon / (2 * PI) - INR i * gal - IZR m))). lra.
  - assert (SA : forall z, Rabs (sin z) <= Rabs z). { intros z. destruct (MVT_abs sin cos 0 z) as [c0 [M _]]. intros; apply derivable_pt_lim_sin.
      rewrite sin_0, !Rminus_0_r in M. rewrite M. rewrite <- (Rmult_1_l (Rabs z)) at 2. apply Rmult_le_compat_r. apply Rabs_pos. apply Rabs_le. pose proof (COS_bound c0). lra. }
    eapply Rle_trans. apply SA. rewrite Rabs_mult, (Rabs_right PI) by lra. apply Rmult_le_compat_l; [lra|]. auto.
  - apply Rabs_pos.
  - unfold rho. field.
  - assert (D : sin (spiral_lat n i) - sin lat = 2 * (cos u * sin x)) by (rewrite form4; unfold u, x; ring).
    rewrite P1 in D. rewrite Rn2. rewrite <- (Rabs_right (cos u)) by lra. rewrite <- Rabs_mult.
    replace (cos u * sin x) with (- (INR i + 1/2 - t) / INR n) by (unfold t; replace (cos u * sin x) with ((1 - (2 * INR i + 1) / INR n - sin lat) / 2) by lra; field; lra).
    unfold Rdiv. rewrite Rabs_mult, Rabs_Ropp, (Rabs_right (/ INR n)) by (apply Rle_ge, Rlt_le, Rinv_0_lt_compat; auto).
    apply Rmult_le_compat_r; auto. apply Rlt_le, Rinv_0_lt_compat; auto.
  - assert (D : cos (spiral_lat n i) + cos lat = 2 * (cos u * cos x)) by (rewrite form1; unfold u, x; ring).
    pose proof (COS_bound x). nra.
  - pose proof (cos_prod (spiral_lat n i) lat) as CP. fold x u in CP.
    assert (0 <= cos (spiral_lat n i) * cos lat) by (apply Rmult_le_pos; lra).
    apply Rabs_le. split; apply Rnot_lt_le; intro; nra.
  - split; auto. assert (D : cos (spiral_lat n i) - cos lat = - 2 * (sin u * sin x)) by (rewrite form2; unfold u, x; ring).
    assert (Rabs (sin u * sin x) <= Rabs (sin x)).
    { rewrite Rabs_mult. rewrite <- (Rmult_1_l (Rabs (sin x))) at 2. apply Rmult_le_compat_r. apply Rabs_pos. apply Rabs_le. pose proof (SIN_bound u). lra. }
    pose proof (Rle_abs (- (sin u * sin x))). rewrite Rabs_Ropp in *. lra.
Qed.
