(** Accuracy of the trapezoid rule *)
From Coq Require Import Reals ZArith Bool List Lra Lia.
From Coquelicot Require Import Coquelicot.
From Verif Require Import Num Py MConfig MHelpers MGrid MSpots Spec SpecStar SpecFlare LBase LGrid LHelpers LCirc LSpotMap LSpotCov.
Import ListNotations.
Open Scope R_scope.

(** the rule on the [n+1] points [x 0, ..., x n] *)
Definition trap1 (f : R -> R) (a b : R) : R := (b - a) * (f a + f b) / 2.
Fixpoint trapn (f : R -> R) (x : nat -> R) (n : nat) : R :=
  match n with O => 0 | S k => trapn f x k + trap1 f (x k) (x (S k)) end.
Lemma trapezoid_snoc : forall f l a b, trapezoid f ((l ++ [a]) ++ [b]) = trapezoid f (l ++ [a]) + trap1 f a b.
Proof.
  induction l as [|c l IH]; intros. cbn [app trapezoid]. unfold trap1. lra.
  destruct l as [|d l]. cbn [app trapezoid]. unfold trap1. lra.
  specialize (IH a b). cbn [app trapezoid] in *. rewrite IH. lra.
Qed.
Lemma trapezoid_seq : forall f x n, trapezoid f (map x (seq 0 (S n))) = trapn f x n.
Proof.
  induction n. reflexivity. cbn [trapn]. rewrite <- IHn. rewrite (seq_S (S n)), map_app. cbn [map Nat.add].
  rewrite seq_S, map_app. cbn [map Nat.add]. rewrite trapezoid_snoc. auto.
Qed.
Lemma trapn_error : forall f x n (B : nat -> R),
  (forall i, (i < n)%nat -> ex_RInt f (x i) (x (S i)) /\ Rabs (trap1 f (x i) (x (S i)) - RInt f (x i) (x (S i))) <= B i) ->
  ex_RInt f (x 0%nat) (x n) /\
  Rabs (trapn f x n - RInt f (x 0%nat) (x n)) <= rsum (map B (seq 0 n)).
Proof.
  induction n; intros.
  - split. apply ex_RInt_point. cbn [trapn seq map rsum fold_right]. rewrite RInt_point. change (@zero R_CompleteNormedModule) with 0. rewrite Rminus_0_r, Rabs_R0. lra.
  - destruct (IHn B) as [E1 E2]. intros; apply H; lia. destruct (H n ltac:(lia)) as [E3 E4].
    split. eapply ex_RInt_Chasles; eauto.
    rewrite <- (RInt_Chasles f (x 0%nat) (x n) (x (S n))) by auto. cbn [trapn].
    rewrite seq_S, map_app, Nat.add_0_l. cbn [map].
    assert (rsum (map B (seq 0 n) ++ [B n]) = rsum (map B (seq 0 n)) + B n) as ->.
    { generalize (map B (seq 0 n)). induction l; cbn [app rsum fold_right] in *. lra. unfold rsum in IHl. rewrite IHl. ring. }
    change (plus (RInt f (x 0%nat) (x n)) (RInt f (x n) (x (S n)))) with (RInt f (x 0%nat) (x n) + RInt f (x n) (x (S n))).
    replace (trapn f x n + trap1 f (x n) (x (S n)) - (RInt f (x 0%nat) (x n) + RInt f (x n) (x (S n))))
      with ((trapn f x n - RInt f (x 0%nat) (x n)) + (trap1 f (x n) (x (S n)) - RInt f (x n) (x (S n)))) by ring.
    eapply Rle_trans. apply Rabs_triang. lra.
Qed.
(** one cell *)
Lemma RInt_between : forall f a b lo hi, a <= b -> ex_RInt f a b -> (forall x, a < x < b -> lo <= f x <= hi) ->
  (b - a) * lo <= RInt f a b <= (b - a) * hi.
Proof.
  intros. split.
  - replace ((b - a) * lo) with (RInt (fun _ => lo) a b) by (rewrite RInt_const; reflexivity).
    apply RInt_le; auto. apply ex_RInt_const. intros; apply H1; auto.
  - replace ((b - a) * hi) with (RInt (fun _ => hi) a b) by (rewrite RInt_const; reflexivity).
    apply RInt_le; auto. apply ex_RInt_const. intros; apply H1; auto.
Qed.
Lemma cell_modulus : forall f a b eps, a <= b -> ex_RInt f a b ->
  (forall x y, a <= x <= b -> a <= y <= b -> Rabs (f x - f y) <= eps) ->
  Rabs (trap1 f a b - RInt f a b) <= (b - a) * eps.
Proof.
  intros. assert (K : forall x, a < x < b -> (f a + f b) / 2 - eps <= f x <= (f a + f b) / 2 + eps).
  { intros x Hx. pose proof (H1 x a ltac:(lra) ltac:(lra)) as A. pose proof (H1 x b ltac:(lra) ltac:(lra)) as B.
    apply Rabs_le_between in A. apply Rabs_le_between in B. lra. }
  apply RInt_between in K; auto. unfold trap1. apply Rabs_le. destruct K. split; nra.
Qed.
Lemma cell_mono : forall f a b, a <= b -> ex_RInt f a b ->
  (forall x, a < x < b -> Rmin (f a) (f b) <= f x <= Rmax (f a) (f b)) ->
  Rabs (trap1 f a b - RInt f a b) <= (b - a) * Rabs (f b - f a) / 2.
Proof.
  intros. apply RInt_between in H1; auto. unfold trap1. apply Rabs_le.
  unfold Rmin, Rmax in *. destruct (Rle_dec (f a) (f b)).
  - rewrite Rabs_right by lra. destruct H1. split; nra.
  - rewrite Rabs_left by lra. destruct H1. split; nra.
Qed.
(** uniform steps *)
Definition node (a b : R) (n i : nat) : R := a + INR i * ((b - a) / INR n).
Lemma linspace_node : forall a b n, linspace a b (S n) = map (node a b n) (seq 0 (S n)).
Proof. intros. unfold linspace, node. replace (S n - 1)%nat with n by lia. auto. Qed.
Lemma node_0 : forall a b n, node a b n 0 = a.
Proof. intros. unfold node. cbn. ring. Qed.
Lemma node_n : forall a b n, (1 <= n)%nat -> node a b n n = b.
Proof. intros. unfold node. assert (0 < INR n) by (apply lt_0_INR; lia). field. lra. Qed.
Lemma node_step : forall a b n i, node a b n (S i) - node a b n i = (b - a) / INR n.
Proof. intros. unfold node. rewrite S_INR. ring. Qed.
Lemma node_range : forall a b n i, a <= b -> (1 <= n)%nat -> (i <= n)%nat -> a <= node a b n i <= b.
Proof.
  intros. unfold node. assert (0 < INR n) by (apply lt_0_INR; lia).
  assert (0 <= INR i) by apply pos_INR. assert (INR i <= INR n) by (apply le_INR; lia).
  assert (0 <= (b - a) / INR n) by (apply le_div; lra).
  split. nra. apply Rle_trans with (a + INR n * ((b - a) / INR n)). nra. right. field. lra.
Qed.
Lemma rsum_const : forall n c, rsum (map (fun _ : nat => c) (seq 0 n)) = INR n * c.
Proof.
  intros. generalize 0%nat. induction n; intros. cbn. ring. cbn [seq map rsum fold_right]. unfold rsum in IHn. rewrite IHn, S_INR. ring.
Qed.
Lemma trapezoid_modulus : forall f a b n eps, a <= b -> (1 <= n)%nat -> ex_RInt f a b ->
  (forall x y, a <= x <= b -> a <= y <= b -> Rabs (x - y) <= (b - a) / INR n -> Rabs (f x - f y) <= eps) ->
  Rabs (trapezoid f (linspace a b (S n)) - RInt f a b) <= (b - a) * eps.
Proof.
  intros f a b n eps Hab Hn Hex Hf. rewrite linspace_node, trapezoid_seq.
  assert (P : 0 < INR n) by (apply lt_0_INR; lia).
  assert (S0 : 0 <= (b - a) / INR n) by (apply le_div; lra).
  destruct (trapn_error f (node a b n) n (fun _ => (b - a) / INR n * eps)) as [_ E].
  - intros i Hi. pose proof (node_step a b n i). pose proof (node_range a b n i Hab Hn ltac:(lia)).
    pose proof (node_range a b n (S i) Hab Hn ltac:(lia)).
    assert (X : ex_RInt f (node a b n i) (node a b n (S i))).
    { apply (ex_RInt_Chasles_2 f a); [lra|]. apply (ex_RInt_Chasles_1 f a _ b); [lra|auto]. }
    split; auto. rewrite <- H. apply cell_modulus; auto. lra.
    intros. apply Hf; try lra. apply Rabs_le. lra.
  - rewrite rsum_const, node_0, node_n in E by auto.
    replace (INR n * ((b - a) / INR n * eps)) with ((b - a) * eps) in E by (field; lra). auto.
Qed.
(** a curve that rises to its peak at [p] and falls after it *)
Lemma cell_peak : forall f a b P, a <= b -> ex_RInt f a b ->
  (forall x, a < x < b -> Rmin (f a) (f b) <= f x <= P) -> f a <= P -> f b <= P ->
  Rabs (trap1 f a b - RInt f a b) <= (b - a) * Rmax (P - (f a + f b) / 2) (Rabs (f b - f a) / 2).
Proof.
  intros f a b P Hab Ex H Ha Hb. apply RInt_between in H; auto. unfold trap1.
  assert (M1 := Rmax_l (P - (f a + f b) / 2) (Rabs (f b - f a) / 2)).
  assert (M2 := Rmax_r (P - (f a + f b) / 2) (Rabs (f b - f a) / 2)).
  set (M := Rmax (P - (f a + f b) / 2) (Rabs (f b - f a) / 2)) in *. clearbody M.
  assert (Hm : (f a + f b) / 2 - Rmin (f a) (f b) <= M).
  { unfold Rmin. destruct (Rle_dec (f a) (f b)). rewrite Rabs_right in M2 by lra. lra. rewrite Rabs_left in M2 by lra. lra. }
  set (m := Rmin (f a) (f b)) in *. clearbody m. apply Rabs_le. destruct H. split; nra.
Qed.
Lemma trapn_unimodal : forall f x n p P h, 0 <= h -> (forall i, (i < n)%nat -> x (S i) - x i = h) ->
  (forall i, (i < n)%nat -> ex_RInt f (x i) (x (S i))) ->
  (forall u v, u <= v -> v <= p -> f u <= f v) -> (forall u v, p <= u -> u <= v -> f v <= f u) ->
  (forall u, 0 <= f u <= P) ->
  ex_RInt f (x 0%nat) (x n) /\
  (x n <= p -> Rabs (trapn f x n - RInt f (x 0%nat) (x n)) <= h / 2 * f (x n)) /\
  (p <= x n -> Rabs (trapn f x n - RInt f (x 0%nat) (x n)) <= h * P - h / 2 * f (x n)).
Proof.
  intros f x n p P h Hh. induction n; intros Hs Hx Hup Hdn HP.
  - split. apply ex_RInt_point. cbn [trapn]. rewrite RInt_point. change (@zero R_CompleteNormedModule) with 0. rewrite Rminus_0_r, Rabs_R0.
    pose proof (HP (x 0%nat)). split; intros; nra.
  - destruct IHn as [E1 [E2 E3]]; auto. pose proof (Hs n ltac:(lia)) as St. pose proof (Hx n ltac:(lia)) as Ex.
    split. eapply ex_RInt_Chasles; eauto.
    assert (D : trapn f x (S n) - RInt f (x 0%nat) (x (S n))
      = (trapn f x n - RInt f (x 0%nat) (x n)) + (trap1 f (x n) (x (S n)) - RInt f (x n) (x (S n)))).
    { rewrite <- (RInt_Chasles f (x 0%nat) (x n) (x (S n))) by auto. cbn [trapn].
      change (plus (RInt f (x 0%nat) (x n)) (RInt f (x n) (x (S n)))) with (RInt f (x 0%nat) (x n) + RInt f (x n) (x (S n))). ring. }
    rewrite D. pose proof (HP (x n)) as P1. pose proof (HP (x (S n))) as P2.
    pose proof (Rabs_triang (trapn f x n - RInt f (x 0%nat) (x n)) (trap1 f (x n) (x (S n)) - RInt f (x n) (x (S n)))) as Tr.
    assert (L : x n <= x (S n)) by lra.
    split; intros Hp.
    + assert (C : Rabs (trap1 f (x n) (x (S n)) - RInt f (x n) (x (S n))) <= (x (S n) - x n) * Rabs (f (x (S n)) - f (x n)) / 2).
      { apply cell_mono; auto. intros u Hu. assert (f (x n) <= f u) by (apply Hup; lra). assert (f u <= f (x (S n))) by (apply Hup; lra).
        rewrite Rmin_left, Rmax_right; lra. }
      rewrite St in C. assert (f (x n) <= f (x (S n))) by (apply Hup; lra). rewrite (Rabs_right (f (x (S n)) - f (x n))) in C by lra.
      assert (E := E2 ltac:(lra)). lra.
    + destruct (Rle_dec p (x n)) as [Q|Q].
      * assert (C : Rabs (trap1 f (x n) (x (S n)) - RInt f (x n) (x (S n))) <= (x (S n) - x n) * Rabs (f (x (S n)) - f (x n)) / 2).
        { apply cell_mono; auto. intros u Hu. assert (f u <= f (x n)) by (apply Hdn; lra). assert (f (x (S n)) <= f u) by (apply Hdn; lra).
          rewrite Rmin_right, Rmax_left; lra. }
        rewrite St in C. assert (f (x (S n)) <= f (x n)) by (apply Hdn; lra).
        rewrite (Rabs_left1 (f (x (S n)) - f (x n))) in C by lra. assert (E := E3 Q). lra.
      * assert (C : Rabs (trap1 f (x n) (x (S n)) - RInt f (x n) (x (S n)))
          <= (x (S n) - x n) * Rmax (P - (f (x n) + f (x (S n))) / 2) (Rabs (f (x (S n)) - f (x n)) / 2)).
        { apply cell_peak; auto; try lra. intros u Hu. split; [|apply HP]. destruct (Rle_dec u p).
          - eapply Rle_trans. apply Rmin_l. apply Hup; lra.
          - eapply Rle_trans. apply Rmin_r. apply Hdn; lra. }
        rewrite St in C. assert (E := E2 ltac:(lra)).
        assert (M : Rmax (P - (f (x n) + f (x (S n))) / 2) (Rabs (f (x (S n)) - f (x n)) / 2) <= P - (f (x n) + f (x (S n))) / 2).
        { apply Rmax_lub. lra. unfold Rabs. destruct (Rcase_abs (f (x (S n)) - f (x n))); lra. }
        nra.
Qed.
Lemma trapezoid_unimodal : forall f a b n p P, a <= b -> (1 <= n)%nat -> ex_RInt f a b ->
  (forall u v, u <= v -> v <= p -> f u <= f v) -> (forall u v, p <= u -> u <= v -> f v <= f u) ->
  (forall u, 0 <= f u <= P) ->
  Rabs (trapezoid f (linspace a b (S n)) - RInt f a b) <= (b - a) / INR n * P.
Proof.
  intros f a b n p P Hab Hn Hex H1 H2 H3. rewrite linspace_node, trapezoid_seq.
  assert (Q : 0 < INR n) by (apply lt_0_INR; lia). assert (S0 : 0 <= (b - a) / INR n) by (apply le_div; lra).
  destruct (trapn_unimodal f (node a b n) n p P ((b - a) / INR n)) as [_ [E1 E2]]; auto.
  - intros. apply node_step.
  - intros i Hi. pose proof (node_step a b n i). pose proof (node_range a b n i Hab Hn ltac:(lia)).
    pose proof (node_range a b n (S i) Hab Hn ltac:(lia)).
    apply (ex_RInt_Chasles_2 f a); [lra|]. apply (ex_RInt_Chasles_1 f a _ b); [lra|auto].
  - rewrite node_0, node_n in * by auto. pose proof (H3 b). destruct (Rle_dec b p).
    + specialize (E1 r). nra.
    + specialize (E2 ltac:(lra)). nra.
Qed.
(** convergence for continuous integrands *)
Lemma trapezoid_converges : forall f a b, a <= b -> (forall x, a <= x <= b -> continuity_pt f x) ->
  ex_RInt f a b -> is_lim_seq (fun n => trapezoid f (linspace a b n)) (RInt f a b).
Proof.
  intros f a b Hab Hc Hex. apply is_lim_seq_spec. intros eps.
  set (e := eps / (b - a + 1)). assert (E0 : 0 < e). { unfold e. apply Rdiv_lt_0_compat. apply eps. lra. }
  destruct (Heine_cor2 Hc (mkposreal e E0)) as [d Hd]. cbn in Hd.
  destruct (archimed ((b - a) / d)) as [Ar _].
  set (N := (Z.to_nat (up ((b - a) / d)) + 1)%nat). exists (S N). intros n Hn. destruct n as [|n]; [lia|].
  assert (Dp : 0 < d) by apply d.
  assert (Up : (b - a) / d < INR n).
  { apply Rlt_le_trans with (IZR (up ((b - a) / d))); [lra|].
    assert (0 <= (b - a) / d) by (apply le_div; lra).
    assert (0 <= up ((b - a) / d))%Z by (apply le_IZR; lra).
    rewrite <- (Z2Nat.id (up ((b - a) / d))) by auto. rewrite <- INR_IZR_INZ. apply le_INR. unfold N in Hn. lia. }
  assert (P : 0 < INR n). { assert (0 <= (b - a) / d) by (apply le_div; lra). lra. }
  assert (St : (b - a) / INR n < d). { apply div_lt; auto. apply (Rmult_lt_compat_r d) in Up; auto.
    unfold Rdiv in Up. rewrite Rmult_assoc, Rinv_l, Rmult_1_r in Up by lra. lra. }
  eapply Rle_lt_trans. apply trapezoid_modulus with (eps := e); auto.
  - destruct n; [simpl in P; lra|lia].
  - intros. left. apply Hd; auto. lra.
  - unfold e. apply Rlt_le_trans with ((b - a + 1) * (eps / (b - a + 1))).
    + apply Rmult_lt_compat_r; [auto|lra].
    + right. field. lra.
Qed.

(** ** C23: the value of [surface_fraction] *)
Lemma trapezoid_scale : forall f k xs, trapezoid f (map (fun x => k * x) xs) = k * trapezoid (fun x => f (k * x)) xs.
Proof.
  induction xs. cbn. ring. destruct xs. cbn. ring. cbn [map trapezoid] in *. rewrite IHxs. field.
Qed.
Lemma trapezoid_ext_scale : forall f g k xs, (forall x, f x = k * g x) -> trapezoid f xs = k * trapezoid g xs.
Proof.
  intros f g k xs H. induction xs. cbn. ring. destruct xs. cbn. ring. cbn [trapezoid] in *. rewrite IHxs, !H. field.
Qed.
Lemma rtrapz_trapezoid' : forall c xs, rtrapz xs (map c xs) = trapezoid c xs.
Proof. induction xs; auto. destruct xs; auto. cbn [map rtrapz trapezoid] in *. rewrite IHxs. lra. Qed.
Definition sf_rad (th c t : R) : R := 2 * cos t * sqrt (th^2 - (t - c)^2).
Lemma sf_rad_eq : forall th c t, sf_integrand (rad2deg c) (th * (180 / PI)) (180 / PI * t) = 180 / PI * sf_rad th c t.
Proof.
  intros. unfold sf_integrand, sf_rad, rad2deg, deg2rad. pose proof PI_RGT_0 as P.
  replace (180 / PI * t * PI / 180) with t by (field; lra).
  assert (K : 0 < 180 / PI) by (apply Rdiv_lt_0_compat; lra).
  replace (th * (180 / PI) * (th * (180 / PI)) - (180 / PI * t - c * 180 / PI)^2) with ((180/PI)^2 * (th^2 - (t - c)^2)) by (field; lra).
  destruct (Rle_dec 0 (th^2 - (t - c)^2)).
  - rewrite Rmax_right. rewrite sqrt_mult; auto. rewrite sqrt_pow2 by lra. ring. apply pow_le; lra.
    apply Rmult_le_pos; auto. apply pow_le; lra.
  - rewrite Rmax_left. rewrite sqrt_0, (sqrt_neg_0 (th^2 - (t - c)^2)) by lra. ring.
    assert (0 < (180/PI)^2) by (apply pow_lt; auto). nra.
Qed.
Lemma sf_rad_cont : forall th c t, continuous (sf_rad th c) t.
Proof.
  intros. unfold sf_rad. apply (continuous_mult (fun t => 2 * cos t) (fun t => sqrt (th^2 - (t - c)^2))).
  - apply (ex_derive_continuous (V := R_NormedModule)). auto_derive. auto.
  - apply (continuous_comp (fun t => th^2 - (t - c)^2) sqrt). apply (ex_derive_continuous (V := R_NormedModule)). auto_derive. auto.
    apply continuous_sqrt.
Qed.
Lemma linspace_scale : forall k a b n, linspace (k * a) (k * b) n = map (fun x => k * x) (linspace a b n).
Proof.
  intros. unfold linspace. rewrite map_map. apply map_ext. intros. unfold Rdiv. ring.
Qed.
Lemma C23_value_lemma : forall s lat0 lon0 Rs th c,
  spot_angular_radius s Rs = Fin th -> is_angle lat0 lon0 (sp_lat s) (sp_lon s) c ->
  (* width at t of the disc of radius th around c (0 outside the disc), foreshortened by cos t *)
  let slice t := 2 * cos t * sqrt (th^2 - (t - c)^2) in
  exists v, (forall n, spot_surface_fraction s lat0 lon0 Rs n = Fin (v n))
  /\ (forall n, exists xs, length xs = n
        /\ (forall i, (i < n)%nat -> nth i xs 0 = - PI/2 + INR i * (PI / INR (n - 1)))
        /\ v n = trapezoid slice xs / (2 * PI))
  /\ is_lim_seq v (RInt slice (- PI/2) (PI/2) / (2 * PI)).
Proof.
  intros s lat0 lon0 Rs th c Hth [B C] slice. pose proof PI_RGT_0 as Pp.
  assert (Ec : acos (law_cos lat0 lon0 (sp_lat s) (sp_lon s)) = c).
  { rewrite <- law_cos_dot in C. rewrite <- C, acos_cos; auto. }
  assert (Ex : ex_RInt slice (- PI/2) (PI/2)).
  { apply (ex_RInt_continuous (V := R_CompleteNormedModule)). intros. apply sf_rad_cont. }
  exists (fun n => trapezoid slice (linspace (- PI/2) (PI/2) n) / (2 * PI)). split; [|split].
  - intros. rewrite (spot_surface_fraction_eq _ _ _ _ n th Hth), Ec. f_equal.
    rewrite rtrapz_trapezoid'. replace (-90) with (180 / PI * (- PI/2)) by (field; lra).
    replace 90 with (180 / PI * (PI/2)) by (field; lra). rewrite linspace_scale, trapezoid_scale.
    rewrite (trapezoid_ext_scale _ slice (180/PI)) by (intros; apply sf_rad_eq). field. lra.
  - intros. exists (linspace (- PI/2) (PI/2) n). split. apply linspace_length. split; auto.
    intros. rewrite linspace_nth by auto. f_equal. f_equal. f_equal. field.
  - apply (is_lim_seq_scal_r _ (/ (2 * PI)) (RInt slice (- PI/2) (PI/2))).
    apply trapezoid_converges; auto. lra. intros. apply continuity_pt_filterlim. apply sf_rad_cont.
Qed.
