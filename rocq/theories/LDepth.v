(** The fraction of the star's light hidden by a transiting planet. *)
From Coq Require Import Reals ZArith Bool List Lra Lia Permutation.
From Coquelicot Require Import Coquelicot.
From Verif Require Import Num Py MConfig MHelpers MGrid MSpots MFaculae MGranules MStar Spec SpecStar SpecDisk SpecConv SpecDepth
  LBase LGrid LHelpers LCirc LQuad LGauss LSpotMap LSpotCov LStarFac LTransit LDisk LSym LSphere LConv LSpiral LStarCov LObserve LZonal LCap LSpotDisk LRot LDisc LStar.
Import ListNotations.
Open Scope R_scope.

(** ** Size of the pixels *)
Lemma rarea_le_1 : forall g p, good_grid g -> In p (cells (grid_points g)) -> rarea_at g p <= 1.
Proof.
  intros g p G I. rewrite <- (rarea_sum g G). apply in_split in I. destruct I as [l1 [l2 E]].
  assert (N : forall q, In q (l1 ++ p :: l2) -> 0 <= rarea_at g q) by (intros; apply rarea_nonneg; auto; rewrite E; auto).
  rewrite E, map_app, rsum_app. cbn [map rsum fold_right]. fold (rsum (map (rarea_at g) l2)).
  assert (0 <= rsum (map (rarea_at g) l1)) by (apply rsum_nonneg; intros x J; apply in_map_iff in J; destruct J as [q [<- J]]; apply N, in_or_app; auto).
  assert (0 <= rsum (map (rarea_at g) l2)) by (apply rsum_nonneg; intros x J; apply in_map_iff in J; destruct J as [q [<- J]]; apply N, in_or_app; right; right; auto). lra.
Qed.
Lemma rect_norm_ge : forall n k, (10 <= n)%nat -> (1 <= k)%nat -> INR k * INR n / 5 <= rect_norm (S n) k.
Proof.
  intros n k Hn Hk. pose proof PI_RGT_0 as PP. pose proof PI_upper as PU. assert (Pk : 0 < INR k) by (apply lt_0_INR; lia). assert (Pn : 10 <= INR n) by (replace 10 with (INR 10) by (simpl; lra); apply le_INR; auto).
  set (c := fun j => cos (rlat (S n) j)).
  assert (NM : rect_norm (S n) k = INR k * rsum (map c (seq 0 (S n)))).
  { unfold rect_norm. rewrite rect_cells, rsum_flat_map. rewrite (rsum_map_ext _ _ (fun _ => rsum (map c (seq 0 (S n))))).
    rewrite rsum_map_const, seq_length. auto.
    intros i _. rewrite map_map. apply rsum_map_ext. intros; reflexivity. }
  rewrite NM, rsum_seq_S. assert (c n = 0) by (apply rlat_last; lia). rewrite H, Rplus_0_r.
  pose proof (riemann_left cos (- PI / 2) (PI / 2) n 1 ltac:(lra) ltac:(lia) cos_lip) as X.
  assert (RI : RInt cos (- PI / 2) (PI / 2) = 2).
  { apply is_RInt_unique. set (z := - PI / 2). set (t := PI / 2). replace 2 with (minus (sin t) (sin z)).
    apply (@is_RInt_derive R_CompleteNormedModule sin). intros; apply is_derive_sin. intros; apply continuous_cos.
    change (sin t - sin z = 2). unfold z, t. replace (- PI / 2) with (- (PI / 2)) by field. rewrite sin_neg, sin_PI2. ring. }
  rewrite RI in X.
  rewrite (rsum_map_ext _ _ (fun j => PI / INR n * c j)) in X.
  2:{ intros j _. unfold c. rewrite rlat_eq by lia. f_equal. field. lra. }
  rewrite rsum_map_scal in X. set (Sc := rsum (map c (seq 0 n))) in *. apply Rabs_le_between in X.
  assert (Y : (PI / 2 - - PI / 2) * (1 * ((PI / 2 - - PI / 2) / INR n)) <= 12 / 10).
  { replace ((PI / 2 - - PI / 2) * (1 * ((PI / 2 - - PI / 2) / INR n))) with (PI * PI / INR n) by (field; lra).
    apply Rmult_le_reg_r with (INR n). lra. unfold Rdiv. rewrite Rmult_assoc, Rinv_l by lra. nra. }
  assert (Z : 8 / 10 <= PI / INR n * Sc) by lra.
  assert (Sc >= INR n / 5).
  { apply Rle_ge. assert (8 / 10 * INR n <= PI / INR n * Sc * INR n) by (apply Rmult_le_compat_r; lra). replace (PI / INR n * Sc * INR n) with (PI * Sc) in H0 by (field; lra).
    assert (0 < Sc) by nra. nra. }
  apply Rle_trans with (INR k * (INR n / 5)). right; field. apply Rmult_le_compat_l; lra.
Qed.
Lemma sqrt_le_of_sq : forall x y, 0 <= y -> x <= y * y -> sqrt x <= y.
Proof. intros. rewrite <- (sqrt_square y) by auto. apply sqrt_le_1_alt. auto. Qed.
Lemma pixel_size : forall g d p, good_grid g -> resolution g d -> In p (cells (grid_points g)) -> sqrt (rarea_at g p) <= 10 * d.
Proof.
  intros g d p G [D Q] I. pose proof (rarea_le_1 g p G I) as A1. destruct g as [a k|n].
  - destruct Q as [Q1 Q2]. destruct G as [G1 G2]. destruct a as [|n]; [lia|]. rewrite S_INR in Q1.
    assert (Pk : 0 < INR k) by (apply lt_0_INR; lia). assert (Pn : 0 < INR n) by (apply lt_0_INR; lia).
    destruct (le_lt_dec 10 n) as [N|N].
    + pose proof (rect_norm_ge n k N G2) as RN. apply sqrt_le_of_sq. lra.
      unfold rarea_at. pose proof (rabs_cos (fst p)) as C. apply Rabs_le_between in C.
      assert (P4 : 0 < INR k * INR n / 5) by (apply Rdiv_lt_0_compat; [apply Rmult_lt_0_compat; auto|lra]).
      apply Rle_trans with (1 * / (INR k * INR n / 5)).
      * unfold Rdiv at 1. apply Rle_trans with (1 * / rect_norm (S n) k). apply Rmult_le_compat_r. apply Rlt_le, Rinv_0_lt_compat; lra. lra.
        apply Rmult_le_compat_l. lra. apply Rinv_le_contravar; lra.
      * rewrite Rmult_1_l. apply Rmult_le_reg_r with (INR k * INR n / 5); auto. rewrite Rinv_l by lra.
        assert (1 * 1 <= (d * (INR n + 1 - 1)) * (d * INR k)) by (apply Rmult_le_compat; lra). nra.
    + apply sqrt_le_of_sq. lra. assert (INR n <= 9) by (replace 9 with (INR 9) by (simpl; lra); apply le_INR; lia).
      assert (1 <= 10 * d) by nra. nra.
  - simpl in G. assert (Pn : 0 < INR n) by (apply lt_0_INR; lia). apply sqrt_le_of_sq. lra. unfold rarea_at.
    apply Rmult_le_reg_r with (INR n); auto. unfold Rdiv. rewrite Rmult_assoc, Rinv_l by lra.
    simpl in Q. assert (d * (d * (d * 1)) <= d * d) by nra. assert (d * (d * (d * 1)) * INR n <= d * d * INR n) by (apply Rmult_le_compat_r; lra).
    assert (0 <= d * d * INR n) by (apply Rmult_le_pos; nra). lra.
Qed.

(** ** Positions on the sky *)
Record seen_at (th l : R) (p : R * R) (x y : R) : Prop := {
  sa_norm : x ^ 2 + y ^ 2 = e1 th l (fst p) (snd p) ^ 2 + e2 l (fst p) (snd p) ^ 2;
  sa_x : Rabs (x ^ 2 - e2 l (fst p) (snd p) ^ 2) <= 1 / 10000;
  sa_side : 0 <= x * - e2 l (fst p) (snd p);
  sa_y : Rabs (y - e1 th l (fst p) (snd p)) <= 5 / 100000 }.
Lemma ortho_e : forall th l lat lon, ortho_x th l lat lon = - e2 l lat lon /\ ortho_y th l lat lon = e1 th l lat lon.
Proof.
  intros. split.
  - rewrite ortho_x_eq, e2_eq. replace (l - lon) with (- (lon - l)) by ring. rewrite sin_neg. ring.
  - rewrite e1_eq. unfold mth, ortho_y, dot, north, vec. rewrite cos_minus. ring.
Qed.
Lemma seen_frame : forall lat0 lon0, - PI / 2 <= lat0 <= PI / 2 -> exists l,
  (forall lat lon, mu lat0 l lat lon = mu lat0 lon0 lat lon)
  /\ forall p, - PI / 2 <= fst p <= PI / 2 -> 0 <= mu lat0 lon0 (fst p) (snd p) ->
       exists x y, proj_ortho lat0 lon0 p = (Fin x, Fin y) /\ seen_at lat0 l p x y.
Proof.
  intros lat0 lon0 L. assert (HP : - PI / 2 = - (PI / 2)) by field.
  assert (D : lat0 = PI / 2 \/ lat0 = - PI / 2 \/ - PI / 2 < lat0 < PI / 2) by lra.
  assert (P : (lat0 = PI / 2 \/ lat0 = - PI / 2) \/ - PI / 2 < lat0 < PI / 2) by tauto. destruct P as [P|P].
  - assert (C0 : cos lat0 = 0) by (destruct P as [->| ->]; rewrite ?HP, ?cos_neg; apply cos_PI2).
    exists 0. split. intros. unfold mu, law_cos. rewrite C0. ring.
    intros [lat lon] B V. cbn [fst snd] in *. unfold mu in V. rewrite law_cos_dot in V.
    destruct (C09_pole_lemma lat0 lon0 lat lon P B V) as [E _]. do 2 eexists. split. apply E.
    destruct (ortho_e lat0 0 lat lon) as [-> ->]. split; cbn [fst snd].
    + ring.
    + replace ((- e2 0 lat lon) ^ 2 - e2 0 lat lon ^ 2) with 0 by ring. rewrite Rabs_R0. lra.
    + pose proof (Rle_0_sqr (e2 0 lat lon)). unfold Rsqr in H. lra.
    + rewrite Rminus_diag_eq, Rabs_R0 by auto. lra.
  - exists lon0. split; auto. intros [lat lon] B V. cbn [fst snd] in *. unfold mu in V. rewrite law_cos_dot in V.
    destruct (C08_lemma lat0 lon0 lat lon L B) as [_ E8]. destruct (E8 V) as [x [y [E [N [_ Sd]]]]]. specialize (Sd P).
    destruct (C09_lemma lat0 lon0 lat lon P B V) as [x' [y' [t [E' [[T _] [Y [X _]]]]]]].
    assert (x' = x) by congruence. assert (y' = y) by congruence. subst x' y'. exists x, y. split; auto.
    destruct (ortho_e lat0 lon0 lat lon) as [OX OY]. rewrite OX in X. rewrite OY in Y.
    assert (ST : 0 <= sin t <= 1) by (split; [apply sin_ge_0; lra|apply SIN_bound]).
    split; cbn [fst snd].
    + rewrite N. pose proof (ortho_pyth lat0 lon0 lat lon) as O. rewrite OX, OY in O. lra.
    + replace ((- e2 lon0 lat lon) ^ 2) with (e2 lon0 lat lon ^ 2) in X by ring. eapply Rle_trans. apply X. nra.
    + rewrite e2_eq. replace (lon0 - lon) with (- (lon - lon0)) by ring. rewrite sin_neg.
      replace (x * - (cos lat * - sin (lon - lon0))) with (cos lat * (x * sin (lon - lon0))) by ring.
      apply Rmult_le_pos; auto. apply cos_ge_0; lra.
    + eapply Rle_trans. apply Y. lra.
Qed.
(** effect of the rounding on squared distances *)
Lemma rabs_root : forall x y, 0 <= x * y -> Rabs (x ^ 2 - y ^ 2) <= 1 / 10000 ->
  Rabs (x - y) <= 1 / 100 /\ Rabs x * Rabs (x - y) <= 1 / 10000 /\ Rabs y * Rabs (x - y) <= 1 / 10000.
Proof.
  intros x y H B. assert (E : Rabs (x + y) = Rabs x + Rabs y).
  { destruct (Rtotal_order x 0) as [A|[A|A]]; [|subst x; rewrite Rplus_0_l, Rabs_R0; ring|].
    - assert (y <= 0) by nra. rewrite !Rabs_left1 by lra. ring.
    - assert (0 <= y) by nra. rewrite !Rabs_right by lra. ring. }
  replace (x ^ 2 - y ^ 2) with ((x + y) * (x - y)) in B by ring. rewrite Rabs_mult, E in B.
  pose proof (Rabs_pos x). pose proof (Rabs_pos y). pose proof (Rabs_pos (x - y)).
  assert (Rabs (x - y) <= Rabs x + Rabs y) by (unfold Rminus; eapply Rle_trans; [apply Rabs_triang|rewrite Rabs_Ropp; lra]).
  split; [|split]; nra.
Qed.
Lemma seen_dist : forall th l p x y px py r, 0 <= r -> seen_at th l p x y ->
  let q' := (x - px) ^ 2 + (y - py) ^ 2 in
  let q := (- e2 l (fst p) (snd p) - px) ^ 2 + (e1 th l (fst p) (snd p) - py) ^ 2 in
  (q' <= r ^ 2 \/ q <= r ^ 2) -> Rabs (q' - q) <= rounding px py r.
Proof.
  intros th l p x y px py r Hr [N X Sd Y] q' q H. set (x0 := - e2 l (fst p) (snd p)) in *. set (y0 := e1 th l (fst p) (snd p)) in *.
  replace (e2 l (fst p) (snd p) ^ 2) with (x0 ^ 2) in * by (unfold x0; ring).
  destruct (rabs_root x x0 Sd X) as [R1' [R2' R3']].
  assert (E : q' - q = - (2 * (px * (x - x0)) + 2 * (py * (y - y0)))) by (unfold q', q; lra).
  rewrite E, Rabs_Ropp. eapply Rle_trans. apply Rabs_triang. rewrite !Rabs_mult, !(Rabs_right 2) by lra.
  unfold rounding. apply Rplus_le_compat.
  2:{ pose proof (Rabs_pos py). unfold Rdiv. nra. }
  apply Rmult_le_compat_l. lra. pose proof (Rabs_pos px). pose proof (Rabs_pos (x - x0)). unfold Rmin. destruct (Rle_dec _ _). nra.
  assert (K : Rabs px <= Rabs x + r \/ Rabs px <= Rabs x0 + r).
  { assert (T : forall u v, (u - px) ^ 2 + v <= r ^ 2 -> 0 <= v -> Rabs px <= Rabs u + r).
    { intros u v A B. assert (D : (u - px) ^ 2 <= r ^ 2) by lra. assert (Rabs (u - px) <= r) by (apply Rabs_le; split; nra).
      replace px with (u - (u - px)) by ring. unfold Rminus at 1. eapply Rle_trans. apply Rabs_triang. rewrite Rabs_Ropp. lra. }
    destruct H as [H|H]; [left|right]; eapply T; try apply H; apply pow2_ge_0. }
  destruct K as [K|K]; nra.
Qed.
Lemma rounding_grow : forall px py r h, 0 <= h -> rounding px py (r + h) <= rounding px py r + h / 50.
Proof. intros. unfold rounding, Rmin. destruct (Rle_dec _ _), (Rle_dec _ _); lra. Qed.
Lemma rounding_nonneg : forall px py r, 0 <= r -> 0 <= rounding px py r.
Proof. intros. unfold rounding, Rmin. pose proof (Rabs_pos px). pose proof (Rabs_pos py). destruct (Rle_dec _ _); lra. Qed.
Lemma disc_radius : forall th l a1 a2 c lat lon, 0 <= c -> a1 ^ 2 + a2 ^ 2 = 1 ->
  (sqrt (1 - mu th l lat lon ^ 2) - c) ^ 2 <= qd th l a1 a2 c lat lon.
Proof.
  intros th l a1 a2 c lat lon Hc Ha. unfold qd. pose proof (frame_norm th l lat lon) as N. set (m := mu th l lat lon) in *.
  assert (VV : vdir th l a1 a2 lat lon ^ 2 <= 1 - m ^ 2).
  { unfold vdir. set (x := e1 th l lat lon) in *. set (y := e2 l lat lon) in *. pose proof (pow2_ge_0 (a1 * y - a2 * x)).
    assert (X : (a1 * x + a2 * y) ^ 2 + (a1 * y - a2 * x) ^ 2 = (a1 ^ 2 + a2 ^ 2) * (x ^ 2 + y ^ 2)) by ring. rewrite Ha in X. lra. }
  set (v := vdir th l a1 a2 lat lon) in *. assert (P2 : 0 <= 1 - m ^ 2) by (pose proof (pow2_ge_0 v); lra).
  set (p := sqrt (1 - m ^ 2)). assert (PP : p * p = 1 - m ^ 2) by (apply sqrt_sqrt; auto). pose proof (sqrt_pos (1 - m ^ 2)) as P0. fold p in P0.
  assert (v <= p) by nra. nra.
Qed.
Lemma clear_mono : forall R2 R2' w c, R2 <= R2' -> clear_of_limb R2' w c -> clear_of_limb R2 w c.
Proof. intros R2 R2' w c H [rho [A [B C]]]. exists rho. repeat split; auto. lra. Qed.
(** ** The hidden light, between two smooth discs *)
Definition hidden (g : grid) (u1 u2 lat0 lon0 : R) (cm : R * R -> R) : R :=
  rsum (map (fun p => rarea_at g p * bright u1 u2 (mu lat0 lon0 (fst p) (snd p)) * cm p) (cells (grid_points g))).
Lemma mask_sandwich : forall g d lat0 lon0 px py rp cm u1 u2 a b, good_grid g -> resolution g d -> - PI / 2 <= lat0 <= PI / 2 -> 0 <= rp ->
  (forall p, In p (cells (grid_points g)) -> px_cov lat0 lon0 px py rp p (rarea_at g p) (cm p)) ->
  let c := sqrt (px ^ 2 + py ^ 2) in let err := depth_error px py rp d in
  c + sqrt (rp ^ 2 + err) <= 1 -> 0 <= a <= b ->
  (forall m, 0 < m <= 1 -> Rabs (sqrt (1 - m ^ 2) - c) <= sqrt (rp ^ 2 + err) -> a <= 1 - u1 * (1 - m) - u2 * (1 - m) ^ 2 <= b) ->
  (forall m, 0 <= bright u1 u2 m) ->
  a * (rp ^ 2 - err) / 4 <= hidden g u1 u2 lat0 lon0 cm <= b * (rp ^ 2 + err) / 4.
Proof.
  intros g d lat0 lon0 px py rp cm u1 u2 a b G Q L HR HM c err Hc Hab HI BN.
  assert (D : 0 < d <= 1) by apply Q. set (w := sqrt d). assert (W : 0 < w) by (apply sqrt_lt_R0; lra). assert (WW : w * w = d) by (apply sqrt_sqrt; lra).
  assert (C0 : 0 <= c) by apply sqrt_pos. assert (CC : c * c = px ^ 2 + py ^ 2) by (apply sqrt_sqrt; pose proof (pow2_ge_0 px); pose proof (pow2_ge_0 py); lra).
  pose proof (rounding_nonneg px py rp HR) as E0. set (e0 := rounding px py rp) in *.
  assert (Ee : err = e0 + 1000 * w) by reflexivity. set (rho := sqrt (rp ^ 2 + err)) in *.
  assert (RP : 0 <= rp ^ 2 + err) by (pose proof (pow2_ge_0 rp); lra). assert (RR : rho * rho = rp ^ 2 + err) by (apply sqrt_sqrt; auto).
  assert (R0' : 0 <= rho) by apply sqrt_pos. assert (rho <= 1) by lra. assert (Hrp : rp <= 1) by nra. assert (HE : err <= 1) by (pose proof (pow2_ge_0 rp); nra).
  assert (W3 : w <= 1 / 1000) by lra. set (h := 40 * d). assert (H0 : 0 < h) by (unfold h; lra).
  assert (H1 : h <= w / 25) by (unfold h; nra).
  destruct (seen_frame lat0 lon0 L) as [l [EM SF]].
  (* direction of the planet *)
  assert (EA : exists a1 a2, a1 ^ 2 + a2 ^ 2 = 1 /\ c * a1 = py /\ c * a2 = - px).
  { destruct (Req_dec c 0) as [Z|Z].
    - exists 1, 0. rewrite Z. assert (py = 0) by nra. assert (px = 0) by nra. repeat split; lra.
    - exists (py / c), (- px / c). repeat split; try (field; auto).
      transitivity ((px ^ 2 + py ^ 2) / (c * c)). field; auto. rewrite <- CC. field; auto. }
  destruct EA as [a1 [a2 [Ha [A1 A2]]]].
  set (Q2 := fun p => qd lat0 l a1 a2 c (fst p) (snd p)).
  assert (EQ : forall p, Q2 p = (- e2 l (fst p) (snd p) - px) ^ 2 + (e1 lat0 l (fst p) (snd p) - py) ^ 2).
  { intros. unfold Q2. rewrite qd_dist by auto. rewrite A1, A2. ring. }
  assert (CL : clear_of_limb ((rp + h) ^ 2 + (e0 + h / 50) + w) w c).
  { exists (rho - w). assert (w <= rho). { assert (w * w <= rho * rho) by (rewrite RR; pose proof (pow2_ge_0 rp); nra). nra. }
    split. lra. split.
    - replace ((rho - w) ^ 2) with (rho * rho - 2 * w * rho + w ^ 2) by ring. rewrite RR, Ee. pose proof (pow2_ge_0 w). nra.
    - assert (0 <= c + (rho - w) <= 1 - w) by lra. nra. }
  (* per-pixel facts *)
  assert (PIX : forall p, In p (cells (grid_points g)) -> 0 < mu lat0 l (fst p) (snd p) ->
     0 <= cm p <= 1 /\ (cm p <> 0 -> Q2 p <= (rp + h) ^ 2 + (e0 + h / 50)) /\ (0 <= rp - h -> Q2 p < (rp - h) ^ 2 - (e0 + h / 50) -> cm p = 1)).
  { intros p I Mp. rewrite EM in Mp. pose proof (cell_lat_range g p G I) as LP. destruct (HM p I) as [B [_ K]].
    destruct (SF p LP ltac:(lra)) as [x [y [Exy SA]]]. destruct (K x y Exy) as [K1 [K2 _]]. clear K.
    set (q' := (x - px) ^ 2 + (y - py) ^ 2) in *. 
    assert (Q0 : 0 <= q') by (unfold q'; pose proof (pow2_ge_0 (x - px)); pose proof (pow2_ge_0 (y - py)); lra).
    assert (SS : 2 * (2 * sqrt (rarea_at g p) * cos_sep lat0 lon0 (fst p) (snd p)) <= h).
    { rewrite <- law_cos_dot. fold (mu lat0 lon0 (fst p) (snd p)). pose proof (pixel_size g d p G Q I) as PS. pose proof (sqrt_pos (rarea_at g p)).
      pose proof (law_cos_bound lat0 lon0 (fst p) (snd p)) as LB. fold (mu lat0 lon0 (fst p) (snd p)) in LB.
      apply Rle_trans with (4 * (sqrt (rarea_at g p) * 1)). assert (sqrt (rarea_at g p) * mu lat0 lon0 (fst p) (snd p) <= sqrt (rarea_at g p) * 1) by (apply Rmult_le_compat_l; lra). lra. unfold h. lra. }
    set (sg := 2 * (2 * sqrt (rarea_at g p) * cos_sep lat0 lon0 (fst p) (snd p))) in *.
    split; auto. split.
    - intros NZ. assert (T : sqrt q' <= rp + h) by (destruct (Rle_dec (sqrt q') (rp + h)); auto; exfalso; apply NZ, K1; lra).
      assert (T' : q' <= (rp + h) ^ 2) by (rewrite <- (sqrt_sqrt q') by auto; pose proof (sqrt_pos q'); nra).
      pose proof (seen_dist lat0 l p x y px py (rp + h) ltac:(lra) SA (or_introl T')) as Z. rewrite <- EQ in Z. fold q' in Z.
      pose proof (rounding_grow px py rp h ltac:(lra)) as Gr. fold e0 in Gr. apply Rabs_le_between in Z. lra.
    - intros Hh T. apply K2. assert (T1 : Q2 p <= rp ^ 2) by nra. rewrite EQ in T1.
      pose proof (seen_dist lat0 l p x y px py rp HR SA (or_intror T1)) as Z. rewrite <- EQ in Z. fold q' e0 in Z. apply Rabs_le_between in Z.
      assert (T2 : q' < (rp - h) ^ 2) by lra. assert (sqrt q' < rp - h). { pose proof (sqrt_sqrt q' Q0). pose proof (sqrt_pos q'). nra. } lra. }
  assert (RNG : forall p, 0 < mu lat0 l (fst p) (snd p) -> Q2 p <= rp ^ 2 + err ->
      a <= 1 - u1 * (1 - mu lat0 l (fst p) (snd p)) - u2 * (1 - mu lat0 l (fst p) (snd p)) ^ 2 <= b).
  { intros p Mp Hq. apply HI. split; auto. apply law_cos_bound. pose proof (disc_radius lat0 l a1 a2 c (fst p) (snd p) C0 Ha) as Z. fold (Q2 p) in Z.
    apply Rabs_le. assert ((sqrt (1 - mu lat0 l (fst p) (snd p) ^ 2) - c) ^ 2 <= rho ^ 2) by lra. split; nra. }
  assert (BE : forall p, 0 < mu lat0 l (fst p) (snd p) -> bright u1 u2 (mu lat0 l (fst p) (snd p))
      = mu lat0 l (fst p) (snd p) * (1 - u1 * (1 - mu lat0 l (fst p) (snd p)) - u2 * (1 - mu lat0 l (fst p) (snd p)) ^ 2)).
  { intros p Mp. unfold bright. pose proof (law_cos_bound lat0 l (fst p) (snd p)). rewrite clamp_id by (unfold mu in *; lra). auto. }
  assert (C1 : c <= 1) by lra.
  split.
  - destruct (Rle_dec 0 ((rp - h) ^ 2 - (e0 + h / 50))) as [P|P]; [destruct (Rle_dec 0 (rp - h)) as [P1|P1]|].
    + set (lo := (rp - h) ^ 2 - (e0 + h / 50) - w).
      destruct (disc_grid g d lat0 l a1 a2 lo c w G Q eq_refl (conj C0 C1) Ha ltac:(unfold lo; lra)) as [LO _].
      { apply (clear_mono _ ((rp + h) ^ 2 + (e0 + h / 50) + w)); auto. unfold lo. nra. }
      apply Rle_trans with (a * gsum g (disc lat0 l a1 a2 lo w c)).
      * unfold Rdiv. rewrite Rmult_assoc. apply Rmult_le_compat_l. lra. eapply Rle_trans; [|apply LO]. unfold lo. rewrite Ee. nra.
      * unfold gsum, hidden. rewrite <- rsum_map_scal. apply rsum_map_le. intros p I. pose proof (rarea_nonneg g p G I) as AN.
        replace (a * (rarea_at g p * disc lat0 l a1 a2 lo w c (fst p) (snd p))) with (rarea_at g p * (a * disc lat0 l a1 a2 lo w c (fst p) (snd p))) by ring.
        rewrite Rmult_assoc. apply Rmult_le_compat_l; auto. rewrite <- EM. unfold disc, inside. fold (Q2 p).
        set (m := mu lat0 l (fst p) (snd p)) in *. destruct (Rle_dec m 0) as [M0|M0].
        { rewrite kap_lo by auto. rewrite Rmult_0_l, !Rmult_0_r. apply Rmult_le_pos; auto. apply (HM p I). }
        apply Rnot_le_lt in M0. destruct (PIX p I M0) as [B1 [_ B2]].
        destruct (Rle_dec (lo + w) (Q2 p)) as [K|K].
        { rewrite step_lo by (apply div_le_lo; lra). rewrite !Rmult_0_r. apply Rmult_le_pos; auto. lra. }
        apply Rnot_le_lt in K. rewrite B2 by (unfold lo in K; lra). pose proof (BE p M0) as BEp. fold m in BEp. rewrite BEp.
        destruct (RNG p M0) as [G1 _]. { unfold lo in K. nra. } fold m in G1.
        rewrite Rmult_1_r, (Rmult_comm a), Rmult_assoc. apply Rmult_le_compat_l. lra.
        pose proof (kap_range w m) as KR. pose proof (step_range ((lo - Q2 p) / w)) as SR.
        apply Rle_trans with (1 * a); [|lra]. apply Rmult_le_compat_r. lra. nra.
    + apply Rle_trans with 0.
      * assert (rp ^ 2 - err <= 0) by nra. unfold Rdiv. nra.
      * apply rsum_nonneg. intros z J. apply in_map_iff in J. destruct J as [p [<- I]]. apply Rmult_le_pos. apply Rmult_le_pos; auto. apply rarea_nonneg; auto. apply (HM p I).
    + apply Rle_trans with 0.
      * assert (rp ^ 2 - err <= 0) by nra. unfold Rdiv. nra.
      * apply rsum_nonneg. intros z J. apply in_map_iff in J. destruct J as [p [<- I]]. apply Rmult_le_pos. apply Rmult_le_pos; auto. apply rarea_nonneg; auto. apply (HM p I).
  - set (up := (rp + h) ^ 2 + (e0 + h / 50) + w) in *.
    destruct (disc_grid g d lat0 l a1 a2 up c w G Q eq_refl (conj C0 C1) Ha ltac:(unfold up; pose proof (pow2_ge_0 (rp + h)); lra) CL) as [_ UP].
    apply Rle_trans with (b * gsum g (disc lat0 l a1 a2 up w c)).
    + unfold gsum, hidden. rewrite <- rsum_map_scal. apply rsum_map_le. intros p I. pose proof (rarea_nonneg g p G I) as AN.
      replace (b * (rarea_at g p * disc lat0 l a1 a2 up w c (fst p) (snd p))) with (rarea_at g p * (b * disc lat0 l a1 a2 up w c (fst p) (snd p))) by ring.
      rewrite Rmult_assoc. apply Rmult_le_compat_l; auto. rewrite <- EM. unfold disc, inside. fold (Q2 p).
      set (m := mu lat0 l (fst p) (snd p)) in *. destruct (Rle_dec m 0) as [M0|M0].
      { rewrite bright_neg by auto. rewrite kap_lo by auto. rewrite !Rmult_0_l, !Rmult_0_r. lra. }
      apply Rnot_le_lt in M0. destruct (PIX p I M0) as [B1 [B2 _]].
      destruct (Req_dec (cm p) 0) as [Z|Z].
      { rewrite Z, Rmult_0_r. pose proof (kap_range w m). pose proof (step_range ((up - Q2 p) / w)). apply Rmult_le_pos; [lra|]. apply Rmult_le_pos; [lra|]. apply Rmult_le_pos; lra. }
      specialize (B2 Z). rewrite (step_hi ((up - Q2 p) / w)) by (apply div_ge_hi; auto; unfold up; lra).
      rewrite kap_hi; auto.
      2:{ assert (w ^ 2 < m ^ 2). { apply (clear_mu lat0 l a1 a2 up w c (fst p) (snd p)); auto. fold (Q2 p). apply Rlt_le_trans with 1. lra. apply div_ge_hi; auto. unfold up; lra. } nra. }
      pose proof (BE p M0) as BEp. fold m in BEp. rewrite BEp. destruct (RNG p M0) as [_ G2]. { rewrite Ee. nra. } fold m in G2.
      assert (J : 0 <= 1 - u1 * (1 - m) - u2 * (1 - m) ^ 2). { pose proof (BN m) as X. rewrite BEp in X. nra. }
      set (z := 1 - u1 * (1 - m) - u2 * (1 - m) ^ 2) in *.
      apply Rle_trans with (m * z * 1). apply Rmult_le_compat_l; [apply Rmult_le_pos; lra|lra]. 
      assert (m * z <= m * b) by (apply Rmult_le_compat_l; lra). lra.
    + unfold Rdiv. rewrite Rmult_assoc. apply Rmult_le_compat_l. lra. eapply Rle_trans. apply UP. unfold up. rewrite Ee. nra.
Qed.
(** ** The sum of the covered shares *)
Lemma px_cov_mask : forall s lat0 lon0 orbit planet phase incl C pf, good_grid (st_grid s) -> - PI/2 <= lat0 <= PI/2 -> 0 < st_radius s -> 0 <= orbit -> 0 <= planet ->
  let rp := sky_r s planet in let px := sky_x s orbit phase in let py := sky_y s orbit phase incl in
  sqrt (px^2 + py^2) <= 1 + 2 * rp -> cos phase <= 0 ->
  get_transit_mask s lat0 lon0 orbit planet phase incl = Ok (C, pf) ->
  pf = Fin 1 /\ exists cm, C = amap (fun p => Fin (cm p)) (grid_points (st_grid s))
    /\ forall p, In p (cells (grid_points (st_grid s))) -> px_cov lat0 lon0 px py rp p (rarea_at (st_grid s) p) (cm p).
Proof.
  intros s lat0 lon0 orbit planet phase incl C pf G L HR HO HP rp px py Hd Hc HM.
  set (cm := fun p => covr (pixel_covered lat0 lon0 (Fin px) (Fin py) (Fin rp) p (Fin (rarea_at (st_grid s) p)))).
  assert (E : get_transit_mask s lat0 lon0 orbit planet phase incl = Ok (amap (fun p => Fin (cm p)) (grid_points (st_grid s)), Fin 1)).
  { unfold get_transit_mask. rewrite planet_xy_eq by auto.
    replace (orbit / st_radius s * - sin phase) with px by (unfold px, sky_x; ring).
    replace (orbit / st_radius s * - cos phase * cos incl) with py by (unfold py, sky_y; ring).
    rewrite ndiv_fin by lra. fold (sky_r s planet). fold rp. cbv zeta. rewrite !nsq_fin, nmul_fin, !nadd_fin.
    replace (px * px + py * py) with (px^2 + py^2) by ring.
    rewrite nsqrt_fin by (pose proof (pow2_ge_0 px); pose proof (pow2_ge_0 py); lra).
    unfold ngt. cbn [nlt]. rewrite (proj2 (Rltb_false _ _)) by auto. rewrite (proj2 (Rltb_false 0 _)) by auto.
    rewrite grid_area_good by auto. cbn [bind]. rewrite amap2_amap_r. cbn [bind].
    rewrite (amap_ext_in _ _ _ (fun p => Fin (cm p))).
    - rewrite existsb_false; auto. intros x I. rewrite cells_amap in I. apply in_map_iff in I. destruct I as [p [<- _]]. auto.
    - intros p I. unfold cm. destruct (transit_cover s lat0 lon0 px py rp G L p I) as [c [-> _]]. auto. }
  rewrite E in HM. split. congruence. exists cm. split. congruence.
  intros p I. destruct (transit_cover s lat0 lon0 px py rp G L p I) as [c [Ec K]]. unfold cm. rewrite Ec. auto.
Qed.
Lemma amap_inj_on : forall (gp : arr (R * R)) (f f' : R * R -> R), amap (fun p => Fin (f p)) gp = amap (fun p => Fin (f' p)) gp -> forall p, In p (cells gp) -> f p = f' p.
Proof.
  intros gp f f' E p I. assert (K : cells (amap (fun p => Fin (f p)) gp) = cells (amap (fun p => Fin (f' p)) gp)) by (rewrite E; auto).
  rewrite !cells_amap in K. clear E. induction (cells gp) as [|q l IH]; [destruct I|]. cbn [map] in K. injection K as K1 K2. destruct I as [<-|I]; auto.
Qed.
Lemma covered_sum : forall s lat0 lon0 orbit planet phase incl T D A M C pf f cm,
  disk_view s lat0 lon0 orbit planet phase incl T D A M C pf -> disk s lat0 lon0 A <> 0 ->
  labels_distinct s M T D -> (appears (st_grid s) M T \/ D = 0) ->
  C = amap (fun p => Fin (cm p)) (grid_points (st_grid s)) ->
  exists tot cov, calc_coverage s lat0 lon0 (Fin f) orbit planet phase incl = Ok (tot, cov, pf)
    /\ dict_sum cov = hidden (st_grid s) (st_u1 s) (st_u2 s) lat0 lon0 cm / gsum (st_grid s) (fun lat lon => bright (st_u1 s) (st_u2 s) (mu lat0 lon0 lat lon)).
Proof.
  intros s lat0 lon0 orbit planet phase incl T D A M C pf f cm V NW DL PH EC.
  destruct (C53_lemma _ _ _ _ _ _ _ _ _ _ _ _ _ f V NW DL PH) as [tot0 [cov0 [tot [cov [_ [Ef _]]]]]].
  destruct (calc_coverage_eq _ _ _ _ _ _ _ _ _ _ _ _ _ f V NW) as [ul [SS [Ap [_ EE]]]].
  exists tot, cov. split; auto. rewrite Ef in EE.
  destruct (rgran (base (share s lat0 lon0 A M (fun _ _ => 1)) ul (T - D)) (key T) (key (T - D)) f) as [d|]; cbn [bind] in EE; [|discriminate].
  destruct (rgran (base (share s lat0 lon0 A M (cell_val C)) ul (T - D)) (key T) (key (T - D)) f) as [d'|] eqn:X; cbn [bind] in EE; [|discriminate].
  assert (cov = lift d') by congruence. subst cov. rewrite lift_sum, (rgran_sum _ _ _ _ _ X).
  rewrite base_sum; [|apply sorted_NoDup; auto|intros t t' I I' K; apply DL; auto; unfold listed; rewrite Ap; auto].
  destruct (view_form _ _ _ _ _ _ _ _ _ _ _ _ _ V) as [tm [cm' [_ [_ [EC' [_ [ED [_ [ES [EU _]]]]]]]]]].
  set (pts := cells (grid_points (st_grid s))) in *.
  assert (EG : gsum (st_grid s) (fun lat lon => bright (st_u1 s) (st_u2 s) (mu lat0 lon0 lat lon)) = disk s lat0 lon0 A).
  { rewrite ED. unfold gsum. apply rsum_map_ext. intros. rewrite wgt_bright. auto. }
  rewrite EG. rewrite (rsum_map_ext _ _ (fun t => / disk s lat0 lon0 A * rsum (map (fun p => if Req_EM_T (tm p) t then wgt s lat0 lon0 p * cm' p else 0) pts))).
  2:{ intros t _. rewrite ES. unfold bval, Rdiv. ring. }
  rewrite rsum_map_scal. rewrite (rsum_by_value _ pts tm (fun p => wgt s lat0 lon0 p * cm' p)).
  - unfold Rdiv. rewrite Rmult_comm. f_equal. unfold hidden. fold pts. apply rsum_map_ext. intros p I. rewrite wgt_bright. f_equal.
    rewrite EC in EC'. symmetry. apply (amap_inj_on _ _ _ EC' p I).
  - apply sorted_NoDup; auto.
  - intros p I. apply Ap, EU. apply runiq_In. apply in_map. auto.
Qed.
Lemma fine_of_res : forall g d, good_grid g -> resolution g d -> d <= 1 / 10 -> fine_grid g.
Proof.
  intros g d G [D Q] H. destruct g as [a k|n]; simpl in *.
  - destruct Q as [Q1 Q2]. split; apply INR_le; [replace (INR 4) with 4 by (simpl; lra)|replace (INR 3) with 3 by (simpl; lra)]; nra.
  - apply INR_le. replace (INR 6) with 6 by (simpl; lra). pose proof (pos_INR n). assert (d * (d * (d * 1)) <= 1 / 1000) by nra. nra.
Qed.
Lemma brint_pos : forall s, ld_positive s -> 0 < brint (st_u1 s) (st_u2 s) 0.
Proof.
  intros s LP. set (u1 := st_u1 s) in *. set (u2 := st_u2 s) in *.
  pose proof (LP (2/3) ltac:(lra)) as P1. pose proof (LP 1 ltac:(lra)) as P2. pose proof (LP (1/3) ltac:(lra)) as P3.
  pose proof (LP (1/2) ltac:(lra)) as P4. fold u1 u2 in P1, P2, P3, P4. unfold brint. clear - P1 P2 P3 P4. nra.
Qed.
Lemma light_brint : forall u1 u2 c, 0 <= c <= 1 -> disk_light u1 u2 c = brint u1 u2 c.
Proof.
  intros u1 u2 c Hc. rewrite <- bright_int by auto. unfold disk_light. apply RInt_ext. intros x Hx. rewrite Rmin_left, Rmax_right in Hx by lra.
  unfold bright. rewrite clamp_id by lra. auto.
Qed.
(** from a bound of the hidden light to a bound of the sum of the covered shares *)
Lemma covered_ratio : forall s lat0 lon0 d cm lo hi, good_grid (st_grid s) -> resolution (st_grid s) d -> - PI/2 <= lat0 <= PI/2 -> ld_positive s -> fine_grid (st_grid s) ->
  (forall p, In p (cells (grid_points (st_grid s))) -> 0 <= cm p <= 1) ->
  lo / 2 <= hidden (st_grid s) (st_u1 s) (st_u2 s) lat0 lon0 cm <= hi / 2 ->
  let whole := disk_light (st_u1 s) (st_u2 s) 0 in
  let slack := 160 * (1 + Rabs (st_u1 s) + Rabs (st_u2 s)) * sqrt d / whole in
  0 < whole /\
  lo / whole - slack <= hidden (st_grid s) (st_u1 s) (st_u2 s) lat0 lon0 cm / gsum (st_grid s) (fun lat lon => bright (st_u1 s) (st_u2 s) (mu lat0 lon0 lat lon))
    <= hi / whole + slack.
Proof.
  intros s lat0 lon0 d cm lo hi G Q L LP FG HC HB whole slack. pose proof (brint_pos s LP) as WP. pose proof (bright_nonneg s LP) as BN.
  unfold slack, whole in *. rewrite light_brint by lra. clear slack whole. split; auto.
  assert (D : 0 < d <= 1) by apply Q. pose proof (sqrt_d d D) as SD. pose proof (sqrt_pos d) as SP.
  pose proof (disk_total (st_grid s) d (st_u1 s) (st_u2 s) lat0 lon0 G Q) as DT.
  assert (DP : 0 < gsum (st_grid s) (fun lat lon => bright (st_u1 s) (st_u2 s) (mu lat0 lon0 lat lon))).
  { pose proof (disk_pos s lat0 lon0 _ FG L LP (grid_area_good _ G)) as X. unfold disk in X.
    rewrite (grid_sum_pt (st_grid s) (wgt s lat0 lon0)) in X by (intros; apply seen_pt; auto).
    eapply Rlt_le_trans. apply X. right. unfold gsum. apply rsum_map_ext. intros. rewrite wgt_bright. auto. }
  assert (SS : 0 <= hidden (st_grid s) (st_u1 s) (st_u2 s) lat0 lon0 cm <= gsum (st_grid s) (fun lat lon => bright (st_u1 s) (st_u2 s) (mu lat0 lon0 lat lon))).
  { unfold hidden, gsum. split.
    - apply rsum_nonneg. intros z J. apply in_map_iff in J. destruct J as [p [<- I]]. apply Rmult_le_pos; [|apply HC; auto]. apply Rmult_le_pos; auto. apply rarea_nonneg; auto.
    - apply rsum_map_le. intros p I. rewrite <- (Rmult_1_r (rarea_at (st_grid s) p * bright (st_u1 s) (st_u2 s) (mu lat0 lon0 (fst p) (snd p)))) at 2.
      apply Rmult_le_compat_l; [|apply HC; auto]. apply Rmult_le_pos; auto. apply rarea_nonneg; auto. }
  set (u1 := st_u1 s) in *. set (u2 := st_u2 s) in *. set (W := brint u1 u2 0) in *.
  set (DD := gsum (st_grid s) (fun lat lon => bright u1 u2 (mu lat0 lon0 lat lon))) in *. set (H := hidden (st_grid s) u1 u2 lat0 lon0 cm) in *.
  pose proof (ratio_close H DD H (W / 2) 0 _ SS DP ltac:(lra) ltac:(rewrite Rminus_diag_eq, Rabs_R0 by auto; lra) DT) as X.
  pose proof (Rabs_pos u1) as A1. pose proof (Rabs_pos u2) as A2. set (B := 1 + Rabs u1 + Rabs u2).
  assert (BL : brightL u1 u2 <= 3 * B) by (unfold brightL, B; lra). assert (BB : brightB u1 u2 = B) by reflexivity. assert (B1 : 1 <= B) by (unfold B; lra).
  assert (L0 : 0 <= brightL u1 u2) by (unfold brightL; lra).
  assert (Z : (0 + 20 * (brightB u1 u2 + brightL u1 u2) * d) / (W / 2) <= 160 * B * sqrt d / W).
  { replace ((0 + 20 * (brightB u1 u2 + brightL u1 u2) * d) / (W / 2)) with (40 * (B + brightL u1 u2) * d / W) by (rewrite BB; field; lra).
    apply Rmult_le_compat_r. apply Rlt_le, Rinv_0_lt_compat; auto. apply Rle_trans with (160 * B * d). apply Rmult_le_compat_r; lra. apply Rmult_le_compat_l; lra. }
  apply Rabs_le_between in X. 
  assert (Y1 : lo / W <= H / (W / 2)). { replace (H / (W / 2)) with (H * 2 / W) by (field; lra). apply Rmult_le_compat_r. apply Rlt_le, Rinv_0_lt_compat; auto. lra. }
  assert (Y2 : H / (W / 2) <= hi / W). { replace (H / (W / 2)) with (H * 2 / W) by (field; lra). apply Rmult_le_compat_r. apply Rlt_le, Rinv_0_lt_compat; auto. lra. }
  lra.
Qed.
Lemma C81_lemma : forall label s lat0 lon0 orbit planet phase incl T D A M C pf f d a b,
  two_decimals label -> disk_view s lat0 lon0 orbit planet phase incl T D A M C pf -> ld_positive s ->
  distinct_labels label s M T D -> (appears (st_grid s) M T \/ D = 0) ->
  resolution (st_grid s) d -> 0 <= orbit -> 0 <= planet -> cos phase <= 0 ->
  let rp := sky_r s planet in
  let px := sky_x s orbit phase in let py := sky_y s orbit phase incl in
  let b0 := sqrt (px^2 + py^2) in
  let err := depth_error px py rp d in
  (* the planet is wholly in front of the disk *)
  b0 + sqrt (rp^2 + err) <= 1 ->
  (* brightness behind the planet *)
  0 <= a <= b ->
  (forall m, 0 < m <= 1 -> Rabs (sqrt (1 - m^2) - b0) <= sqrt (rp^2 + err) -> a <= 1 - st_u1 s * (1 - m) - st_u2 s * (1 - m)^2 <= b) ->
  pf = Fin 1 /\ exists tot cov, calc_coverage s lat0 lon0 (Fin f) orbit planet phase incl = Ok (tot, cov, Fin 1)
    /\ let whole := disk_light (st_u1 s) (st_u2 s) 0 in
       let slack := 160 * (1 + Rabs (st_u1 s) + Rabs (st_u2 s)) * sqrt d / whole in
       0 < whole
       /\ a * (rp^2 - err) / (2 * whole) - slack <= dict_sum cov <= b * (rp^2 + err) / (2 * whole) + slack.
Proof.
  intros label s lat0 lon0 orbit planet phase incl T D A M C pf f d a b TD V LP DL PH Q HO HP HC rp px py b0 err Hb Hab HI.
  rewrite (two_decimals_eq label) in DL by auto. destruct V as [Vu Vg Vr Vl Vt Vd Va Vm Vf Vk] eqn:EV. assert (V' := V). clear EV.
  assert (D1 : 0 < d <= 1) by apply Q.
  assert (HRP : 0 <= rp) by (apply Rdiv_le_0_compat; auto).
  assert (E0 : 0 <= rounding px py rp) by (apply rounding_nonneg; auto).
  assert (HE : rp ^ 2 + err <= 1). { assert (P : 0 <= rp ^ 2 + err) by (unfold err, depth_error; pose proof (pow2_ge_0 rp); pose proof (sqrt_pos d); lra). assert (0 <= b0) by apply sqrt_pos. pose proof (sqrt_sqrt _ P). pose proof (sqrt_pos (rp ^ 2 + err)). nra. }
  assert (Hd : sqrt d <= 1 / 1000) by (unfold err, depth_error in HE; pose proof (pow2_ge_0 rp); lra).
  assert (Hd' : d <= 1 / 10). { pose proof (sqrt_sqrt d ltac:(lra)). pose proof (sqrt_pos d). nra. }
  assert (FG := fine_of_res _ _ Vg Q Hd').
  destruct (px_cov_mask s lat0 lon0 orbit planet phase incl C pf Vg Vl Vr HO HP) as [-> [cm [EC HM]]]; auto.
  { change (b0 <= 1 + 2 * rp). pose proof (sqrt_pos (rp ^ 2 + err)). lra. }
  split; auto.
  assert (DP := disk_pos s lat0 lon0 A FG Vl LP Va).
  destruct (covered_sum s lat0 lon0 orbit planet phase incl T D A M C (Fin 1) f cm V' ltac:(lra) DL PH EC) as [tot [cov [E ES]]].
  exists tot, cov. split; auto. rewrite ES. intros whole slack.
  pose proof (mask_sandwich (st_grid s) d lat0 lon0 px py rp cm (st_u1 s) (st_u2 s) a b Vg Q Vl HRP HM Hb Hab HI (bright_nonneg s LP)) as MS. cbv zeta in MS. fold err in MS.
  destruct (covered_ratio s lat0 lon0 d cm (a * (rp ^ 2 - err) / 2) (b * (rp ^ 2 + err) / 2) Vg Q Vl LP FG) as [WP K].
  { intros p I. apply (HM p I). }
  { replace (a * (rp ^ 2 - err) / 2 / 2) with (a * (rp ^ 2 - err) / 4) by field. replace (b * (rp ^ 2 + err) / 2 / 2) with (b * (rp ^ 2 + err) / 4) by field. auto. }
  fold whole in WP, K. fold slack in K. split; auto.
  replace (a * (rp ^ 2 - err) / (2 * whole)) with (a * (rp ^ 2 - err) / 2 / whole) by (field; lra).
  replace (b * (rp ^ 2 + err) / (2 * whole)) with (b * (rp ^ 2 + err) / 2 / whole) by (field; lra). auto.
Qed.
(** a star of uniform brightness *)
Lemma C81_uniform_lemma : forall label s lat0 lon0 orbit planet phase incl T D A M C pf f d,
  two_decimals label -> disk_view s lat0 lon0 orbit planet phase incl T D A M C pf -> st_u1 s = 0 -> st_u2 s = 0 ->
  distinct_labels label s M T D -> (appears (st_grid s) M T \/ D = 0) ->
  resolution (st_grid s) d -> 0 <= orbit -> 0 <= planet -> cos phase <= 0 ->
  let rp := sky_r s planet in
  let px := sky_x s orbit phase in let py := sky_y s orbit phase incl in
  sqrt (px^2 + py^2) + sqrt (rp^2 + depth_error px py rp d) <= 1 ->
  exists tot cov, calc_coverage s lat0 lon0 (Fin f) orbit planet phase incl = Ok (tot, cov, Fin 1)
    /\ Rabs (dict_sum cov - rp^2) <= rounding px py rp + 1320 * sqrt d.
Proof.
  intros label s lat0 lon0 orbit planet phase incl T D A M C pf f d TD V U1 U2 DL PH Q HO HP HC rp px py Hb.
  assert (LP : ld_positive s) by (intros m Hm; rewrite U1, U2; lra).
  destruct (C81_lemma label s lat0 lon0 orbit planet phase incl T D A M C pf f d 1 1 TD V LP DL PH Q HO HP HC Hb ltac:(lra)) as [_ [tot [cov [E [_ K]]]]].
  { intros. rewrite U1, U2. lra. }
  exists tot, cov. split; auto. fold rp px py in K. rewrite U1, U2 in K. rewrite light_brint in K by lra. unfold brint, depth_error in K. rewrite Rabs_R0 in K.
  replace ((1 - 0 ^ 2) / 2 - 0 * (1 - 3 * 0 ^ 2 + 2 * 0 ^ 3) / 6 - 0 * (1 - 6 * 0 ^ 2 + 8 * 0 ^ 3 - 3 * 0 ^ 4) / 12) with (1 / 2) in K by field.
  set (e := rounding px py rp) in *. set (w := sqrt d) in *.
  replace (1 * (rp ^ 2 - (e + 1000 * w)) / (2 * (1 / 2)) - 160 * (1 + 0 + 0) * w / (1 / 2)) with (rp ^ 2 - e - 1320 * w) in K by field.
  replace (1 * (rp ^ 2 + (e + 1000 * w)) / (2 * (1 / 2)) + 160 * (1 + 0 + 0) * w / (1 / 2)) with (rp ^ 2 + e + 1320 * w) in K by field.
  apply Rabs_le. lra.
Qed.

(** ** Central transits *)
Definition cc (r : R) : R := sqrt (1 - r ^ 2).
Lemma cc_range : forall r, 0 <= cc r <= 1.
Proof. intros. unfold cc. split. apply sqrt_pos. apply sqrt_le_of_sq. lra. pose proof (pow2_ge_0 r). lra. Qed.
Lemma cc_sq : forall r, cc r * cc r = Rmax 0 (1 - r ^ 2).
Proof.
  intros. unfold cc, Rmax. destruct (Rle_dec 0 (1 - r ^ 2)). apply sqrt_sqrt; auto. rewrite sqrt_neg_0 by lra. ring.
Qed.
Lemma cc_lip : forall r r', 0 <= r <= r' -> 0 <= cc r * cc r - cc r' * cc r' <= 2 * (r' - r).
Proof.
  intros. rewrite !cc_sq. unfold Rmax. destruct (Rle_dec 0 (1 - r ^ 2)) as [A|A], (Rle_dec 0 (1 - r' ^ 2)) as [B|B].
  - assert (r' <= 1) by nra. split; nra.
  - assert (1 < r') by nra. split; nra.
  - exfalso. assert (1 < r) by nra. nra.
  - lra.
Qed.
Lemma brint_lip : forall u1 u2 c c', 0 <= c -> c <= c' <= 1 -> Rabs (brint u1 u2 c - brint u1 u2 c') <= brightB u1 u2 * (c' * c' - c * c) / 2.
Proof.
  intros u1 u2 c c' H0 H. assert (D : forall x, is_derive (fun c => brint u1 u2 c) x (- (x * (1 - u1 * (1 - x) - u2 * (1 - x) ^ 2)))).
  { intros. unfold brint. auto_derive; auto. field. }
  assert (D2 : forall s x, is_derive (fun c => brightB u1 u2 * (c * c) / 2 + s * brint u1 u2 c) x (x * (brightB u1 u2 - s * (1 - u1 * (1 - x) - u2 * (1 - x) ^ 2)))).
  { intros. unfold brint. auto_derive; auto. field. }
  assert (Mono : forall s, s = 1 \/ s = -1 -> brightB u1 u2 * (c * c) / 2 + s * brint u1 u2 c <= brightB u1 u2 * (c' * c') / 2 + s * brint u1 u2 c').
  { intros s Hs. apply (incr_le (fun c => brightB u1 u2 * (c * c) / 2 + s * brint u1 u2 c) (fun x => x * (brightB u1 u2 - s * (1 - u1 * (1 - x) - u2 * (1 - x) ^ 2)))).
    lra. intros; apply D2. intros x Hx. apply Rmult_le_pos. lra. pose proof (ld_abs u1 u2 x ltac:(lra)) as A. apply Rabs_le_between in A. destruct Hs as [-> | ->]; lra. }
  pose proof (Mono 1 (or_introl eq_refl)). pose proof (Mono (-1) (or_intror eq_refl)). apply Rabs_le. lra.
Qed.
Lemma mask_central : forall g d lat0 lon0 rp cm u1 u2, good_grid g -> resolution g d -> - PI / 2 <= lat0 <= PI / 2 -> 0 <= rp ->
  (forall p, In p (cells (grid_points g)) -> px_cov lat0 lon0 0 0 rp p (rarea_at g p) (cm p)) ->
  (forall m, 0 <= bright u1 u2 m) ->
  Rabs (hidden g u1 u2 lat0 lon0 cm - brint u1 u2 (cc rp) / 2) <= 201 * (1 + Rabs u1 + Rabs u2) * sqrt d.
Proof.
  intros g d lat0 lon0 rp cm u1 u2 G Q L HR HM BN. assert (D : 0 < d <= 1) by apply Q. pose proof (sqrt_d d D) as SD. pose proof (sqrt_pos d) as SP.
  set (h := 40 * d). assert (H0 : 0 < h) by (unfold h; lra).
  assert (PIX : forall p, In p (cells (grid_points g)) -> 0 < mu lat0 lon0 (fst p) (snd p) ->
     0 <= cm p <= 1 /\ (cm p <> 0 -> 1 - mu lat0 lon0 (fst p) (snd p) ^ 2 <= (rp + h) ^ 2)
     /\ (h < rp -> 1 - mu lat0 lon0 (fst p) (snd p) ^ 2 < (rp - h) ^ 2 -> cm p = 1)).
  { intros p I Mp. pose proof (cell_lat_range g p G I) as LP. destruct (HM p I) as [B [_ K]]. destruct p as [lat lon]. cbn [fst snd] in *.
    unfold mu in *. rewrite law_cos_dot in *. 
    destruct (C08_lemma lat0 lon0 lat lon L LP) as [_ X]. destruct (X ltac:(lra)) as [x [y [Exy [N _]]]]. destruct (K x y Exy) as [K1 [K2 _]]. clear K X.
    replace ((x - 0) ^ 2 + (y - 0) ^ 2) with (1 - cos_sep lat0 lon0 lat lon ^ 2) in * by lra.
    assert (Q0 : 0 <= 1 - cos_sep lat0 lon0 lat lon ^ 2) by (rewrite <- N; pose proof (pow2_ge_0 x); pose proof (pow2_ge_0 y); lra).
    set (q' := 1 - cos_sep lat0 lon0 lat lon ^ 2) in *.
    assert (SS : 2 * (2 * sqrt (rarea_at g (lat, lon)) * cos_sep lat0 lon0 lat lon) <= h).
    { pose proof (pixel_size g d (lat, lon) G Q I) as PS. pose proof (sqrt_pos (rarea_at g (lat, lon))).
      pose proof (law_cos_bound lat0 lon0 lat lon) as LB. rewrite law_cos_dot in LB. unfold h. set (r := sqrt (rarea_at g (lat, lon))) in *.
      assert (r * cos_sep lat0 lon0 lat lon <= r * 1) by (apply Rmult_le_compat_l; lra). lra. }
    split; auto. split.
    - intros NZ. assert (T : sqrt q' <= rp + h) by (destruct (Rle_dec (sqrt q') (rp + h)); auto; exfalso; apply NZ, K1; lra).
      rewrite <- (sqrt_sqrt q') by auto; pose proof (sqrt_pos q'); nra.
    - intros Hh T. apply K2. assert (sqrt q' < rp - h). { pose proof (sqrt_sqrt q' Q0). pose proof (sqrt_pos q'). nra. } lra. }
  set (up := rp + 2 * h). set (lo := Rmax 0 (rp - 2 * h)).
  set (CG := fun c => gsum g (fun lat lon => above c (mu lat0 lon0 lat lon) * bright u1 u2 (mu lat0 lon0 lat lon))).
  assert (UP : hidden g u1 u2 lat0 lon0 cm <= CG (cc up)).
  { unfold hidden, CG, gsum. apply rsum_map_le. intros p I. rewrite Rmult_assoc. apply Rmult_le_compat_l. apply rarea_nonneg; auto.
    set (m := mu lat0 lon0 (fst p) (snd p)) in *. destruct (Rle_dec m 0) as [M0|M0]. rewrite bright_neg by auto. lra.
    apply Rnot_le_lt in M0. destruct (PIX p I M0) as [B1 [B2 _]]. fold m in B2. pose proof (BN m). unfold above. destruct (Rlt_dec (cc up) m) as [Z|Z]. nra.
    destruct (Req_dec (cm p) 0) as [E|E]. rewrite E. lra. exfalso. apply Z. specialize (B2 E).
    pose proof (cc_sq up) as C2. pose proof (cc_range up). assert (cc up * cc up < m * m). { rewrite C2. unfold Rmax. destruct (Rle_dec 0 (1 - up ^ 2)). unfold up. nra. nra. } nra. }
  assert (LO : CG (cc lo) <= hidden g u1 u2 lat0 lon0 cm).
  { unfold hidden, CG, gsum. apply rsum_map_le. intros p I. rewrite (Rmult_assoc _ _ (cm p)). apply Rmult_le_compat_l. apply rarea_nonneg; auto.
    destruct (HM p I) as [B0 _]. pose proof (law_cos_bound lat0 lon0 (fst p) (snd p)) as LB. fold (mu lat0 lon0 (fst p) (snd p)) in LB.
    set (m := mu lat0 lon0 (fst p) (snd p)) in *. pose proof (BN m). unfold above. destruct (Rlt_dec (cc lo) m) as [Z|Z]; [|rewrite Rmult_0_l; apply Rmult_le_pos; lra].
    pose proof (cc_range lo) as CR. assert (M0 : 0 < m) by lra. destruct (PIX p I M0) as [_ [_ B2]]. fold m in B2.
    rewrite B2; [lra| |].
    - destruct (Rlt_dec h rp); auto. exfalso. assert (lo = 0) by (unfold lo; apply Rmax_left; lra). rewrite H1 in Z. unfold cc in Z.
      replace (1 - 0 ^ 2) with 1 in Z by ring. rewrite sqrt_1 in Z. lra.
    - destruct (Rle_dec 0 (rp - 2 * h)).
      + assert (EL : lo = rp - 2 * h) by (unfold lo; apply Rmax_right; lra). pose proof (cc_sq lo) as C2. pose proof (Rmax_r 0 (1 - lo ^ 2)). rewrite <- C2 in H1. rewrite EL in *.
        assert (cc (rp - 2 * h) * cc (rp - 2 * h) < m * m) by nra. nra.
      + exfalso. assert (lo = 0) by (unfold lo; apply Rmax_left; lra). rewrite H1 in Z. unfold cc in Z.
        replace (1 - 0 ^ 2) with 1 in Z by ring. rewrite sqrt_1 in Z. lra. }
  assert (CGc : forall r, Rabs (CG (cc r) - brint u1 u2 (cc r) / 2) <= (101 * brightB u1 u2 + 20 * brightL u1 u2) * sqrt d) by (intros; apply cap_centre; auto; apply cc_range).
  pose proof (CGc up) as U. pose proof (CGc lo) as LL. clear CGc.
  assert (BP : 1 <= brightB u1 u2) by (unfold brightB; pose proof (Rabs_pos u1); pose proof (Rabs_pos u2); lra).
  assert (Near : forall r r', 0 <= r <= r' -> r' - r <= 2 * h -> Rabs (brint u1 u2 (cc r') - brint u1 u2 (cc r)) <= brightB u1 u2 * (2 * h)).
  { intros r r' Hr Hh. pose proof (cc_lip r r' Hr) as CL. pose proof (cc_range r). pose proof (cc_range r'). eapply Rle_trans. apply brint_lip. lra. nra.
    unfold Rdiv. rewrite Rmult_assoc. apply Rmult_le_compat_l. lra. lra. }
  pose proof (Near rp up ltac:(unfold up; lra) ltac:(unfold up; lra)) as N1.
  assert (HL : 0 <= lo <= rp /\ rp - lo <= 2 * h) by (unfold lo, Rmax; destruct (Rle_dec _ _); lra).
  pose proof (Near lo rp (proj1 HL) (proj2 HL)) as N2.
  pose proof (Rabs_pos u1) as A1. pose proof (Rabs_pos u2) as A2. set (B := 1 + Rabs u1 + Rabs u2).
  assert (BL : brightL u1 u2 <= 3 * B) by (unfold brightL, B; lra). assert (BB : brightB u1 u2 = B) by reflexivity. rewrite BB in *.
  assert (Z1 : (101 * B + 20 * brightL u1 u2) * sqrt d <= 161 * (B * sqrt d)). { apply Rle_trans with ((161 * B) * sqrt d). apply Rmult_le_compat_r; lra. lra. }
  assert (Z2 : B * (2 * h) / 2 <= 40 * (B * sqrt d)). { unfold h. assert (B * d <= B * sqrt d) by (apply Rmult_le_compat_l; lra). lra. }
  apply Rabs_le_between in U. apply Rabs_le_between in LL. apply Rabs_le_between in N1. apply Rabs_le_between in N2. apply Rabs_le. split; lra.
Qed.
Lemma C82_lemma : forall label s lat0 lon0 orbit planet phase incl T D A M C pf f d,
  two_decimals label -> disk_view s lat0 lon0 orbit planet phase incl T D A M C pf -> ld_positive s -> fine_grid (st_grid s) ->
  distinct_labels label s M T D -> (appears (st_grid s) M T \/ D = 0) ->
  resolution (st_grid s) d -> 0 <= orbit -> 0 <= planet -> cos phase <= 0 ->
  (* the planet is in front of the centre of the disk *)
  sky_x s orbit phase = 0 -> sky_y s orbit phase incl = 0 ->
  exists tot cov, calc_coverage s lat0 lon0 (Fin f) orbit planet phase incl = Ok (tot, cov, Fin 1)
    /\ let whole := disk_light (st_u1 s) (st_u2 s) 0 in
       0 < whole
       /\ Rabs (dict_sum cov - disk_light (st_u1 s) (st_u2 s) (sqrt (1 - sky_r s planet ^ 2)) / whole)
          <= 562 * (1 + Rabs (st_u1 s) + Rabs (st_u2 s)) * sqrt d / whole.
Proof.
  intros label s lat0 lon0 orbit planet phase incl T D A M C pf f d TD V LP FG DL PH Q HO HP HC X0 Y0.
  rewrite (two_decimals_eq label) in DL by auto. assert (V' := V). destruct V as [Vu Vg Vr Vl Vt Vd Va Vm Vf Vk].
  assert (D1 : 0 < d <= 1) by apply Q. set (rp := sky_r s planet).
  assert (HRP : 0 <= rp) by (apply Rdiv_le_0_compat; auto).
  destruct (px_cov_mask s lat0 lon0 orbit planet phase incl C pf Vg Vl Vr HO HP) as [-> [cm [EC HM]]]; auto.
  { rewrite X0, Y0. fold rp. replace (0 ^ 2 + 0 ^ 2) with 0 by ring. rewrite sqrt_0. lra. }
  rewrite X0, Y0 in HM. fold rp in HM.
  assert (DP := disk_pos s lat0 lon0 A FG Vl LP Va).
  destruct (covered_sum s lat0 lon0 orbit planet phase incl T D A M C (Fin 1) f cm V' ltac:(lra) DL PH EC) as [tot [cov [E ES]]].
  exists tot, cov. split; auto. rewrite ES. intros whole.
  pose proof (mask_central (st_grid s) d lat0 lon0 rp cm (st_u1 s) (st_u2 s) Vg Q Vl HRP HM (bright_nonneg s LP)) as MC.
  change (sqrt (1 - rp ^ 2)) with (cc rp). rewrite (light_brint _ _ (cc rp)) by apply cc_range.
  set (B := 1 + Rabs (st_u1 s) + Rabs (st_u2 s)) in *. set (y := brint (st_u1 s) (st_u2 s) (cc rp)) in *. apply Rabs_le_between in MC.
  destruct (covered_ratio s lat0 lon0 d cm (y - 402 * B * sqrt d) (y + 402 * B * sqrt d) Vg Q Vl LP FG) as [WP K].
  { intros p I. apply (HM p I). }
  { lra. }
  fold whole B in WP, K. split; auto.
  replace ((y - 402 * B * sqrt d) / whole - 160 * B * sqrt d / whole) with (y / whole - 562 * B * sqrt d / whole) in K by (field; lra).
  replace ((y + 402 * B * sqrt d) / whole + 160 * B * sqrt d / whole) with (y / whole + 562 * B * sqrt d / whole) in K by (field; lra).
  apply Rabs_le. lra.
Qed.
