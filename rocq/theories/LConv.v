(** Sums over the grid points converge to integrals over the sphere. *)
From Coq Require Import Reals ZArith Bool List Lra Lia Permutation.
From Coquelicot Require Import Coquelicot.
From Verif Require Import Num Py MConfig MHelpers MGrid MSpots Spec SpecConv LBase LGrid LHelpers LCirc LQuad LSym LSphere.
Import ListNotations.
Open Scope R_scope.

(** ** Riemann sums *)
Lemma rsum_seq_S : forall f n, rsum (map f (seq 0 (S n))) = rsum (map f (seq 0 n)) + f n.
Proof. intros. rewrite seq_S, map_app, rsum_app. cbn [map rsum fold_right Nat.add]. lra. Qed.
Lemma riemann_tagged : forall f a h n (v : nat -> R) e, 0 <= h -> (forall x y, ex_RInt f x y) ->
  (forall j x, (j < n)%nat -> a + INR j * h <= x <= a + (INR j + 1) * h -> Rabs (f x - v j) <= e) ->
  Rabs (rsum (map (fun j => h * v j) (seq 0 n)) - RInt f a (a + INR n * h)) <= INR n * h * e.
Proof.
  intros f a h n v e Hh E. induction n; intros H.
  - cbn [seq map rsum fold_right INR]. replace (a + 0 * h) with a by ring. rewrite RInt_point.
    change (@zero R_CompleteNormedModule) with 0. rewrite Rminus_0_r, Rabs_R0. lra.
  - rewrite rsum_seq_S, S_INR.
    pose proof (@RInt_Chasles R_CompleteNormedModule f a (a + INR n * h) (a + (INR n + 1) * h) (E _ _) (E _ _)) as C.
    change (RInt f a (a + INR n * h) + RInt f (a + INR n * h) (a + (INR n + 1) * h) = RInt f a (a + (INR n + 1) * h)) in C.
    rewrite <- C. set (I := RInt f a (a + INR n * h)) in *. set (J := RInt f (a + INR n * h) (a + (INR n + 1) * h)) in *.
    assert (HJ : Rabs (h * v n - J) <= h * e).
    { replace (h * v n - J) with (- (J - h * v n)) by ring. rewrite Rabs_Ropp.
      replace (J - h * v n) with (RInt (fun x => f x - v n) (a + INR n * h) (a + (INR n + 1) * h)).
      - eapply Rle_trans. apply abs_RInt_le_const with (M := e). nra.
        apply (@ex_RInt_minus R_NormedModule); auto. apply ex_RInt_const.
        intros t Ht. apply (H n); auto. right; ring.
      - rewrite (@RInt_minus R_CompleteNormedModule f (fun _ => v n)); auto. 2: apply ex_RInt_const.
        rewrite (@RInt_const R_CompleteNormedModule). unfold J.
        change (RInt f (a + INR n * h) (a + (INR n + 1) * h) - (a + (INR n + 1) * h - (a + INR n * h)) * v n
          = RInt f (a + INR n * h) (a + (INR n + 1) * h) - h * v n). ring. }
    specialize (IHn ltac:(intros; apply H; auto)).
    set (X := rsum (map (fun j => h * v j) (seq 0 n))) in *.
    replace (X + h * v n - (I + J)) with ((X - I) + (h * v n - J)) by ring.
    eapply Rle_trans. apply Rabs_triang. lra.
Qed.
Lemma riemann_left : forall f a b n K, a <= b -> (1 <= n)%nat -> lip K f ->
  Rabs (rsum (map (fun j => (b - a) / INR n * f (a + INR j * ((b - a) / INR n))) (seq 0 n)) - RInt f a b)
    <= (b - a) * (K * ((b - a) / INR n)).
Proof.
  intros f a b n K Hab Hn H. assert (Pn : 0 < INR n) by (apply lt_0_INR; lia). pose proof (lip_pos _ _ H) as HK.
  set (h := (b - a) / INR n). assert (Hh : 0 <= h) by (apply Rdiv_le_0_compat; lra).
  pose proof (riemann_tagged f a h n (fun j => f (a + INR j * h)) (K * h) Hh) as R.
  replace (a + INR n * h) with b in R by (unfold h; field; lra).
  replace (INR n * h) with (b - a) in R by (unfold h; field; lra).
  apply R. intros. eapply lip_ex_RInt; eauto.
  intros j x Hj Hx. eapply Rle_trans. apply H. apply Rmult_le_compat_l; auto. rewrite Rabs_right; lra.
Qed.

(** ** Functions on the sphere *)
Definition lonmean (phi : R -> R -> R) (lat : R) : R := / (2 * PI) * RInt (phi lat) 0 (2 * PI).
Definition smean (phi : R -> R -> R) : R :=
  / 2 * RInt (fun lat => cos lat * lonmean phi lat) (- PI / 2) (PI / 2).

Lemma sf_pos : forall B L phi, sphere_fun B L phi -> 0 <= B /\ 0 <= L.
Proof.
  intros B L phi S. split. pose proof (sf_bound _ _ _ S 0 0). pose proof (Rabs_pos (phi 0 0)). lra.
  pose proof (sf_lip _ _ _ S 1 0 0 0) as H. pose proof (Rabs_pos (phi 1 0 - phi 0 0)).
  replace (Rabs (1 - 0)) with 1 in H by (rewrite Rminus_0_r, Rabs_R1; auto).
  replace (Rabs (0 - 0)) with 0 in H by (rewrite Rminus_0_r, Rabs_R0; auto). lra.
Qed.
Lemma sf_lip_lon : forall B L phi lat, sphere_fun B L phi -> lip L (phi lat).
Proof.
  intros B L phi lat S x y. pose proof (sf_lip _ _ _ S lat y lat x) as H.
  replace (lat - lat) with 0 in H by ring. rewrite Rabs_R0 in H. lra.
Qed.
Lemma sf_lon_ex : forall B L phi lat a b, sphere_fun B L phi -> ex_RInt (phi lat) a b.
Proof. intros. apply lip_ex_RInt with L. eapply sf_lip_lon; eauto. Qed.
Lemma lonmean_lip : forall B L phi, sphere_fun B L phi -> lip L (lonmean phi).
Proof.
  intros B L phi S x y. pose proof PI_RGT_0. unfold lonmean.
  rewrite <- Rmult_minus_distr_l, Rabs_mult, Rabs_right. 2: apply Rle_ge, Rlt_le, Rinv_0_lt_compat; lra.
  apply Rmult_le_reg_l with (2 * PI). lra. rewrite <- Rmult_assoc, Rinv_r, Rmult_1_l by lra.
  pose proof (lip_param phi 0 (2 * PI) L x y) as P. replace (2 * PI * (L * Rabs (y - x))) with ((2 * PI - 0) * L * Rabs (y - x)) by ring.
  apply P. lra. 2-3: eapply sf_lon_ex; eauto.
  intros t Ht. pose proof (sf_lip _ _ _ S y t x t) as H'. replace (t - t) with 0 in H' by ring. rewrite Rabs_R0 in H'. lra.
Qed.
Lemma lonmean_bound : forall B L phi lat, sphere_fun B L phi -> Rabs (lonmean phi lat) <= B.
Proof.
  intros B L phi lat S. pose proof PI_RGT_0. unfold lonmean.
  rewrite Rabs_mult, Rabs_right. 2: apply Rle_ge, Rlt_le, Rinv_0_lt_compat; lra.
  apply Rmult_le_reg_l with (2 * PI). lra. rewrite <- Rmult_assoc, Rinv_r, Rmult_1_l by lra.
  replace (2 * PI * B) with ((2 * PI - 0) * B) by ring. apply abs_RInt_le_const. lra. eapply sf_lon_ex; eauto.
  intros; eapply sf_bound; eauto.
Qed.
Lemma lip_cos_mult : forall B K f, (forall x, Rabs (f x) <= B) -> lip K f -> lip (B + K) (fun x => cos x * f x).
Proof.
  intros B K f Hb Hl x y. pose proof (lip_pos _ _ Hl). assert (0 <= B) by (pose proof (Hb 0); pose proof (Rabs_pos (f 0)); lra).
  replace (cos y * f y - cos x * f x) with ((cos y - cos x) * f y + cos x * (f y - f x)) by ring.
  eapply Rle_trans. apply Rabs_triang. rewrite !Rabs_mult.
  pose proof (cos_lip x y). pose proof (rabs_cos x). pose proof (Hb y). pose proof (Hl x y).
  pose proof (Rabs_pos (f y)). pose proof (Rabs_pos (cos y - cos x)). pose proof (Rabs_pos (cos x)). pose proof (Rabs_pos (f y - f x)).
  assert (Rabs (cos y - cos x) * Rabs (f y) <= (1 * Rabs (y - x)) * B) by (apply Rmult_le_compat; auto).
  assert (Rabs (cos x) * Rabs (f y - f x) <= 1 * (K * Rabs (y - x))) by (apply Rmult_le_compat; auto). lra.
Qed.

(** weighted sum over the grid *)
Definition gsum (g : grid) (phi : R -> R -> R) : R :=
  rsum (map (fun p => rarea_at g p * phi (fst p) (snd p)) (cells (grid_points g))).

(** ** Rectangular grids *)
Lemma rsum_flat_map : forall A B (f : B -> R) (g : A -> list B) l,
  rsum (map f (flat_map g l)) = rsum (map (fun a => rsum (map f (g a))) l).
Proof. induction l; cbn [flat_map map rsum fold_right]; auto. rewrite map_app, rsum_app, IHl. auto. Qed.
Lemma rsum_swap : forall (f : nat -> nat -> R) (l l' : list nat),
  rsum (map (fun i => rsum (map (fun j => f i j) l')) l) = rsum (map (fun j => rsum (map (fun i => f i j) l)) l').
Proof.
  induction l; intros; cbn [map rsum fold_right]. symmetry. apply rsum_zero. auto.
  fold (rsum (map (fun i => rsum (map (fun j => f i j) l')) l)). rewrite IHl. rewrite <- rsum_map_plus. apply rsum_map_ext. auto.
Qed.
Lemma rlat_eq : forall n j, (1 <= n)%nat -> rlat (S n) j = - PI / 2 + INR j * ((PI / 2 - - PI / 2) / INR n).
Proof.
  intros. unfold rlat, deg2rad. replace (S n - 1)%nat with n by lia. assert (0 < INR n) by (apply lt_0_INR; lia). field. lra.
Qed.
Lemma rlon_eq : forall b i, (1 <= b)%nat -> rlon b i = 0 + INR i * ((2 * PI - 0) / INR b).
Proof. intros. unfold rlon, deg2rad. assert (0 < INR b) by (apply lt_0_INR; lia). field. lra. Qed.
Lemma rlat_last : forall n, (1 <= n)%nat -> cos (rlat (S n) n) = 0.
Proof.
  intros. rewrite rlat_eq by auto. assert (0 < INR n) by (apply lt_0_INR; lia).
  replace (- PI / 2 + INR n * ((PI / 2 - - PI / 2) / INR n)) with (PI / 2) by (field; lra). apply cos_PI2.
Qed.
Lemma rabs_le_sub : forall a b e f, Rabs (a - b) <= e -> e <= f -> Rabs (a - b) <= f.
Proof. intros; lra. Qed.
Lemma rect_converges : forall B L phi n k, sphere_fun B L phi -> (2 <= n)%nat -> (1 <= k)%nat ->
  Rabs (gsum (Rect (S n) k) phi - smean phi) <= PI ^ 2 * ((2 * B + L) / (2 * INR n) + L / INR k).
Proof.
  intros B L phi n k SF Hn Hk. destruct (sf_pos _ _ _ SF) as [HB HL]. pose proof PI_RGT_0 as PP.
  assert (Pn : 0 < INR n) by (apply lt_0_INR; lia). assert (Pk : 0 < INR k) by (apply lt_0_INR; lia).
  set (h := PI / INR n). assert (Ph : 0 < h) by (apply Rdiv_lt_0_compat; lra).
  set (c := fun j => cos (rlat (S n) j)).
  set (Gk := fun lat => / INR k * rsum (map (fun i => phi lat (rlon k i)) (seq 0 k))).
  assert (LG := lonmean_lip _ _ _ SF).
  (* the sum *)
  assert (NM : rect_norm (S n) k = INR k * rsum (map c (seq 0 (S n)))).
  { unfold rect_norm. rewrite rect_cells, rsum_flat_map.
    rewrite (rsum_map_ext _ _ (fun _ => rsum (map c (seq 0 (S n))))).
    - rewrite rsum_map_const, seq_length. auto.
    - intros i _. rewrite map_map. auto. }
  pose proof (rect_norm_pos (S n) k ltac:(lia) Hk) as NP. rewrite NM in NP.
  assert (SP : 0 < rsum (map c (seq 0 (S n)))) by (apply Rmult_lt_reg_l with (INR k); lra).
  assert (GE : gsum (Rect (S n) k) phi = rsum (map (fun j => h * (c j * Gk (rlat (S n) j))) (seq 0 n)) / (h * rsum (map c (seq 0 (S n))))).
  { unfold gsum. rewrite rect_cells, rsum_flat_map. unfold rarea_at. rewrite NM.
    rewrite (rsum_map_ext _ _ (fun i => rsum (map (fun j => (c j * phi (rlat (S n) j) (rlon k i)) / (INR k * rsum (map c (seq 0 (S n))))) (seq 0 (S n))))).
    2:{ intros i _. rewrite map_map. apply rsum_map_ext. intros j _. cbn [rp fst snd]. unfold c. unfold Rdiv. ring. }
    rewrite rsum_swap.
    rewrite (rsum_map_ext _ _ (fun j => (h * (c j * Gk (rlat (S n) j))) / (h * rsum (map c (seq 0 (S n)))))).
    2:{ intros j _. rewrite rsum_map_div, rsum_map_scal. unfold Gk. field. lra. }
    rewrite rsum_map_div, rsum_seq_S. replace (c n) with 0. f_equal. ring. unfold c. rewrite rlat_last by lia. auto. }
  set (T := rsum (map (fun j => h * (c j * Gk (rlat (S n) j))) (seq 0 n))) in *.
  set (SS := h * rsum (map c (seq 0 (S n)))) in *.
  assert (SSP : 0 < SS) by (apply Rmult_lt_0_compat; auto).
  set (Q := RInt (fun lat => cos lat * lonmean phi lat) (- PI / 2) (PI / 2)).
  assert (DH : (PI / 2 - - PI / 2) / INR n = h) by (unfold h; field; lra).
  assert (DP : PI / 2 - - PI / 2 = PI) by field.
  (* normalisation *)
  assert (E1 : Rabs (SS - 2) <= PI * h).
  { unfold SS. rewrite rsum_seq_S. replace (c n) with 0 by (unfold c; rewrite rlat_last by lia; auto). rewrite Rplus_0_r, <- rsum_map_scal.
    pose proof (riemann_left cos (- PI / 2) (PI / 2) n 1 mpi2_le ltac:(lia) (fun x y => cos_lip x y)) as R. rewrite DH, DP in R.
    replace (RInt cos (- PI / 2) (PI / 2)) with 2 in R.
    - rewrite (rsum_map_ext _ (fun x => h * c x) (fun j => h * cos (- PI / 2 + INR j * h))).
      eapply Rle_trans. apply R. right; ring. intros j _. unfold c. rewrite rlat_eq by lia. rewrite DH. auto.
    - symmetry. transitivity (sin (PI / 2) - sin (- PI / 2)).
      + apply is_RInt_unique. apply (@is_RInt_derive R_CompleteNormedModule sin cos). intros; apply is_derive_sin. intros; apply continuous_cos.
      + replace (- PI / 2) with (- (PI / 2)) by field. rewrite sin_neg, sin_PI2. ring. }
  (* longitudes *)
  assert (E2 : forall lat, Rabs (Gk lat - lonmean phi lat) <= L * (2 * PI / INR k)).
  { intros lat. unfold Gk, lonmean.
    pose proof (riemann_left (phi lat) 0 (2 * PI) k L ltac:(lra) Hk (sf_lip_lon _ _ _ lat SF)) as R.
    rewrite (rsum_map_ext _ _ (fun i => (2 * PI - 0) / INR k * phi lat (rlon k i))) in R by (intros i _; rewrite rlon_eq by auto; auto).
    rewrite rsum_map_scal in R. set (X := rsum (map (fun i => phi lat (rlon k i)) (seq 0 k))) in *.
    replace (/ INR k * X - / (2 * PI) * RInt (phi lat) 0 (2 * PI)) with (/ (2 * PI) * ((2 * PI - 0) / INR k * X - RInt (phi lat) 0 (2 * PI))) by (field; lra).
    rewrite Rabs_mult, (Rabs_right (/ (2 * PI))). 2: apply Rle_ge, Rlt_le, Rinv_0_lt_compat; lra.
    apply Rmult_le_reg_l with (2 * PI). lra. rewrite <- Rmult_assoc, Rinv_r, Rmult_1_l by lra.
    eapply Rle_trans. apply R. right. field. lra. }
  (* latitudes *)
  set (TG := rsum (map (fun j => h * (c j * lonmean phi (rlat (S n) j))) (seq 0 n))).
  assert (E3 : Rabs (TG - Q) <= PI * ((B + L) * h)).
  { pose proof (riemann_left (fun lat => cos lat * lonmean phi lat) (- PI / 2) (PI / 2) n (B + L) mpi2_le ltac:(lia)
      (lip_cos_mult B L _ (fun x => lonmean_bound _ _ _ x SF) LG)) as R. rewrite DH, DP in R.
    unfold TG. rewrite (rsum_map_ext _ _ (fun j => h * (cos (- PI / 2 + INR j * h) * lonmean phi (- PI / 2 + INR j * h)))). apply R.
    intros j _. unfold c. rewrite rlat_eq by lia. rewrite DH. auto. }
  assert (C0 : forall j, 0 <= c j <= 1 \/ c j <= 1) by (intros; right; unfold c; apply COS_bound).
  assert (CA : forall j, Rabs (c j) <= 1) by (intros; unfold c; apply rabs_cos).
  assert (E4 : Rabs (T - TG) <= INR n * (h * (L * (2 * PI / INR k)))).
  { unfold T, TG. replace (_ - _) with (rsum (map (fun j => h * (c j * (Gk (rlat (S n) j) - lonmean phi (rlat (S n) j)))) (seq 0 n))).
    - rewrite <- (seq_length n 0) at 2. rewrite <- rsum_map_const. generalize (seq 0 n). induction l as [|j l IH]; cbn [map rsum fold_right].
      rewrite Rabs_R0; lra.
      eapply Rle_trans. apply Rabs_triang. apply Rplus_le_compat; [|apply IH].
      rewrite !Rabs_mult, (Rabs_right h) by lra. apply Rmult_le_compat_l. lra.
      rewrite <- (Rmult_1_l (L * (2 * PI / INR k))). apply Rmult_le_compat; auto using Rabs_pos.
    - rewrite (rsum_map_ext _ _ (fun j => h * (c j * Gk (rlat (S n) j)) + -1 * (h * (c j * lonmean phi (rlat (S n) j))))) by (intros; ring).
      rewrite rsum_map_plus, (rsum_map_scal _ (fun j => h * (c j * lonmean phi (rlat (S n) j)))). ring. }
  (* the quotient is bounded *)
  assert (E5 : Rabs (T / SS) <= B).
  { rewrite <- GE. unfold gsum. rewrite <- (Rmult_1_l B), <- (rarea_sum (Rect (S n) k)) by (simpl; lia).
    assert (NN : forall p, In p (cells (grid_points (Rect (S n) k))) -> 0 <= rarea_at (Rect (S n) k) p) by (intros; apply rarea_nonneg; auto; simpl; lia).
    revert NN. generalize (cells (grid_points (Rect (S n) k))). induction l as [|p l IH]; intros NN; cbn [map rsum fold_right].
    rewrite Rabs_R0; lra.
    eapply Rle_trans. apply Rabs_triang. rewrite Rmult_plus_distr_r. apply Rplus_le_compat; [|apply IH; intros; apply NN; right; auto].
    rewrite Rabs_mult, Rabs_right by (apply Rle_ge, NN; left; auto). apply Rmult_le_compat_l. apply NN; left; auto. apply (sf_bound _ _ _ SF). }
  rewrite GE. unfold smean. fold Q.
  replace (T / SS - / 2 * Q) with (/ 2 * ((T - TG) + (TG - Q)) + T / SS * ((2 - SS) / 2)) by (field; lra).
  eapply Rle_trans. apply Rabs_triang. rewrite !Rabs_mult.
  rewrite (Rabs_right (/ 2)) by lra. rewrite (Rabs_minus_sym SS 2) in E1.
  assert (E6 : Rabs ((2 - SS) / 2) <= PI * h / 2) by (unfold Rdiv at 1; rewrite Rabs_mult, (Rabs_right (/ 2)) by lra; lra).
  assert (E7 : Rabs (T / SS) * Rabs ((2 - SS) / 2) <= B * (PI * h / 2)) by (apply Rmult_le_compat; auto using Rabs_pos).
  pose proof (Rabs_triang (T - TG) (TG - Q)) as E8.
  apply Rle_trans with (/ 2 * (INR n * (h * (L * (2 * PI / INR k))) + PI * ((B + L) * h)) + B * (PI * h / 2)). lra.
  right. unfold h. field. lra.
Qed.
