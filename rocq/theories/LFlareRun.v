(** Lemmas for C122: the energy seen in observations without gaps *)
From Coq Require Import Reals ZArith Bool List Lra Lia Permutation.
From Coquelicot Require Import Coquelicot.
From Verif Require Import Num Py MConfig MHelpers MGrid MSpots MFaculae MXoflares MFlares MStar Spec SpecStar SpecFlare SpecReach SpecFlareRun
  LBase LGrid LHelpers LCirc LQuad LSpotGen LFac LFlare LFlareGen LFlareAcc.
Import ListNotations.
Open Scope R_scope.

(** ** the trapezoid rule and the variation of a curve with one peak *)
Definition var (f : R -> R) (p P t : R) : R := if Rle_dec t p then f t else 2 * P - f t.
Lemma cell_var : forall f a b p P, a <= b -> ex_RInt f a b ->
  (forall u v, u <= v -> v <= p -> f u <= f v) -> (forall u v, p <= u -> u <= v -> f v <= f u) ->
  (forall u, 0 <= f u <= P) ->
  Rabs (trap1 f a b - RInt f a b) <= (b - a) / 2 * (var f p P b - var f p P a).
Proof.
  intros f a b p P L Ex Hup Hdn HP. unfold var. destruct (Rle_dec b p), (Rle_dec a p); try lra.
  - replace ((b - a) / 2 * (f b - f a)) with ((b - a) * Rabs (f b - f a) / 2).
    2:{ rewrite Rabs_right. field. assert (f a <= f b) by (apply Hup; lra). lra. }
    apply cell_mono; auto. intros u Hu. assert (f a <= f u) by (apply Hup; lra). assert (f u <= f b) by (apply Hup; lra).
    rewrite Rmin_left, Rmax_right; lra.
  - pose proof (HP a) as P1. pose proof (HP b) as P2.
    assert (C : Rabs (trap1 f a b - RInt f a b) <= (b - a) * Rmax (P - (f a + f b) / 2) (Rabs (f b - f a) / 2)).
    { apply cell_peak; auto; try lra. intros u Hu. split; [|apply HP]. destruct (Rle_dec u p).
      - eapply Rle_trans. apply Rmin_l. apply Hup; lra.
      - eapply Rle_trans. apply Rmin_r. apply Hdn; lra. }
    eapply Rle_trans. exact C.
    replace ((b - a) / 2 * (2 * P - f b - f a)) with ((b - a) * (P - (f a + f b) / 2)) by field.
    apply Rmult_le_compat_l. lra. apply Rmax_lub. lra. unfold Rabs. destruct (Rcase_abs (f b - f a)); lra.
  - replace ((b - a) / 2 * (2 * P - f b - (2 * P - f a))) with ((b - a) * Rabs (f b - f a) / 2).
    2:{ assert (f b <= f a) by (apply Hdn; lra). rewrite Rabs_left1. field. lra. }
    apply cell_mono; auto. intros u Hu. assert (f u <= f a) by (apply Hdn; lra). assert (f b <= f u) by (apply Hdn; lra).
    rewrite Rmin_right, Rmax_left; lra.
Qed.
Lemma rsum_telescope : forall (F : nat -> R) k n, rsum (map (fun i => k * (F (S i) - F i)) (seq 0 n)) = k * (F n - F 0%nat).
Proof.
  intros F k n. induction n. cbn. ring. rewrite seq_S, map_app, rsum_app, IHn. cbn. ring.
Qed.
Lemma window_var : forall f a b n p P, a <= b -> (1 <= n)%nat -> ex_RInt f a b ->
  (forall u v, u <= v -> v <= p -> f u <= f v) -> (forall u v, p <= u -> u <= v -> f v <= f u) ->
  (forall u, 0 <= f u <= P) ->
  Rabs (trapezoid f (linspace a b (S n)) - RInt f a b) <= (b - a) / INR n / 2 * (var f p P b - var f p P a).
Proof.
  intros f a b n p P Hab Hn Hex H1 H2 H3. rewrite linspace_node, trapezoid_seq.
  assert (Q : 0 < INR n) by (apply lt_0_INR; lia).
  destruct (trapn_error f (node a b n) n (fun i => (b - a) / INR n / 2 * (var f p P (node a b n (S i)) - var f p P (node a b n i)))) as [_ E].
  - intros i Hi. pose proof (node_step a b n i) as St. pose proof (node_range a b n i Hab Hn ltac:(lia)).
    pose proof (node_range a b n (S i) Hab Hn ltac:(lia)).
    assert (S0 : 0 <= (b - a) / INR n) by (apply le_div; lra).
    assert (X : ex_RInt f (node a b n i) (node a b n (S i))).
    { apply (ex_RInt_Chasles_2 f a); [lra|]. apply (ex_RInt_Chasles_1 f a _ b); [lra|auto]. }
    split; auto. rewrite <- St. apply cell_var; auto. lra.
  - rewrite (rsum_telescope (fun i => var f p P (node a b n i))) in E. rewrite node_0, node_n in E by auto. exact E.
Qed.
Lemma var_mono : forall f p P u v, (forall u v, u <= v -> v <= p -> f u <= f v) -> (forall u v, p <= u -> u <= v -> f v <= f u) ->
  (forall u, 0 <= f u <= P) -> u <= v -> var f p P u <= var f p P v.
Proof.
  intros f p P u v H1 H2 H3 L. unfold var. destruct (Rle_dec u p), (Rle_dec v p); try lra.
  - apply H1; lra.
  - pose proof (H3 u). pose proof (H3 v). lra.
  - assert (f v <= f u) by (apply H2; lra). lra.
Qed.

(** ** flares with finite parameters *)
Definition fw (f : flare) : R := match fl_fwhm f with Fin w => w | _ => 0 end.
Definition fe (f : flare) : R := match fl_energy f with Fin w => w | _ => 0 end.
Definition ft (f : flare) : R := match fl_teff f with Fin w => w | _ => 0 end.
Definition good (f : flare) : Prop := flare_is f (fw f) (fe f) (ft f) /\ 0 < fw f /\ 0 < ft f /\ 0 <= fe f.
Lemma good_of : forall f, (exists w E T, flare_is f w E T /\ 0 < w /\ 0 < T /\ 0 <= E) -> good f.
Proof. intros f [w [E [T [[A [B C]] D]]]]. unfold good, flare_is, fw, fe, ft. rewrite A, B, C. auto. Qed.
Definition pk (f : flare) : R := rpeak (fw f) (fe f) (ft f).
Definition curve (f : flare) (t : R) : R := shape ((t - fl_tpeak f) / fw f) * pk f.
Lemma curve_up : forall f, good f -> forall u v, u <= v -> v <= fl_tpeak f -> curve f u <= curve f v.
Proof.
  intros f [F [W [T E]]] u v H1 H2. apply Rmult_le_compat_r. apply rpeak_nonneg; auto. apply shape_up; [|apply div_le; lra].
  apply Rmult_le_compat_r; [left; apply Rinv_0_lt_compat; auto|lra].
Qed.
Lemma curve_down : forall f, good f -> forall u v, fl_tpeak f <= u -> u <= v -> curve f v <= curve f u.
Proof.
  intros f [F [W [T E]]] u v H1 H2. apply Rmult_le_compat_r. apply rpeak_nonneg; auto. apply shape_down; [apply le_div; lra|].
  apply Rmult_le_compat_r; [left; apply Rinv_0_lt_compat; auto|lra].
Qed.
Lemma curve_range : forall f, good f -> forall u, 0 <= curve f u <= pk f.
Proof.
  intros f [F [W [T E]]] u. pose proof (shape_range ((u - fl_tpeak f) / fw f)). pose proof (rpeak_nonneg _ _ _ W T E) as P.
  unfold curve. fold (pk f) in P. split. apply Rmult_le_pos; lra. nra.
Qed.
Lemma curve_out : forall f t, good f -> t <= fl_tpeak f - fw f \/ fl_tpeak f + 20 * fw f <= t -> curve f t = 0.
Proof.
  intros f t [_ [W _]] H. unfold curve. rewrite shape_out. ring. destruct H; [left; apply div_le; lra|right; apply le_div; lra].
Qed.
Lemma var_run : forall f a b, good f -> a <= b -> 0 <= var (curve f) (fl_tpeak f) (pk f) b - var (curve f) (fl_tpeak f) (pk f) a <= 2 * pk f.
Proof.
  intros f a b G L. pose proof (var_mono (curve f) (fl_tpeak f) (pk f) a b (curve_up f G) (curve_down f G) (curve_range f G) L).
  split. lra. unfold var. pose proof (curve_range f G a). pose proof (curve_range f G b).
  destruct (Rle_dec a (fl_tpeak f)), (Rle_dec b (fl_tpeak f)); lra.
Qed.
Lemma ex_curve : forall f a b, good f -> a <= b -> ex_RInt (curve f) a b.
Proof. intros f a b [_ [W _]] L. apply ex_RInt_shape; auto. Qed.
Lemma curve_area : forall f, good f -> area_of f (curve f).
Proof. intros f [F [W [T E]]]. apply areacurve_eq; auto. Qed.
Lemma curve_whole : forall f a b, good f -> a <= fl_tpeak f - fw f -> fl_tpeak f + 20 * fw f <= b ->
  STEFAN * ft f ^ 4 * RInt (curve f) a b = fe f.
Proof.
  intros f a b [F [W [T E]]] L1 L2. unfold curve, pk.
  rewrite (is_RInt_unique _ _ _ _ (is_RInt_shape (fl_tpeak f) (fw f) (rpeak (fw f) (fe f) (ft f)) a b W L1 L2)).
  change (STEFAN * ft f ^ 4 * (Istd * rpeak (fw f) (fe f) (ft f) * fw f) = fe f).
  unfold rpeak. rewrite SIGMA_SB_eq. pose proof Istd_pos. pose proof STEFAN_pos. field. repeat split; lra.
Qed.
Lemma Istd_ge : 9 / 5 <= Istd.
Proof.
  unfold Istd, int_before, int_after. rewrite !Rmult_0_r, exp_0.
  assert (E5 : exp (-5) < 1/100).
  { assert (H : 1 + 1/8 < exp (1/8)) by (apply exp_ineq1; lra).
    assert (E : exp 5 = exp (1/8) ^ 40). { rewrite <- Rpower_pow by apply exp_pos. unfold Rpower. rewrite ln_exp. f_equal. simpl. lra. }
    assert (P : (9/8)^40 <= exp (1/8) ^ 40) by (apply pow_incr; lra).
    assert (Q : 101 < (9/8)^40) by (simpl; lra).
    replace (-5) with (- (5)) by lra. rewrite exp_Ropp. rewrite E.
    apply Rlt_le_trans with (/ 101). apply Rinv_lt_contravar; lra. lra. }
  assert (A : exp (fd1 * 20) < 1/100). { eapply Rlt_trans; [|exact E5]. apply exp_increasing. unfold fd1. lra. }
  assert (B : exp (fd3 * 20) < 1/100). { eapply Rlt_trans; [|exact E5]. apply exp_increasing. unfold fd3. lra. }
  assert (C : fd0 / fd1 <= -43/100) by (replace (fd0 / fd1) with (- (689008 / 1600530)) by (unfold fd0, fd1; field); lra).
  assert (D : fd2 / fd3 <= -1088/1000) by (replace (fd2 / fd3) with (- (302963 / 278318)) by (unfold fd2, fd3; field); lra).
  assert (43/100 * (99/100) <= (- (fd0 / fd1)) * (1 - exp (fd1 * 20))) by (apply Rmult_le_compat; lra).
  assert (1088/1000 * (99/100) <= (- (fd2 / fd3)) * (1 - exp (fd3 * 20))) by (apply Rmult_le_compat; lra).
  assert (307/1000 <= fr0 * 0 + fr1 * 0 ^ 2 / 2 + fr2 * 0 ^ 3 / 3 + fr3 * 0 ^ 4 / 4 + fr4 * 0 ^ 5 / 5
    - (fr0 * -1 + fr1 * (-1) ^ 2 / 2 + fr2 * (-1) ^ 3 / 3 + fr3 * (-1) ^ 4 / 4 + fr4 * (-1) ^ 5 / 5))
    by (unfold fr0, fr1, fr2, fr3, fr4; lra).
  lra.
Qed.

(** ** one observation *)
Definition face_b (o : obs) (f : flare) : bool := Rltb 0 (law_cos (ob_lat o) (ob_lon o) (fl_lat f) (fl_lon f)).
Definition seen_part (o : obs) (n : nat) (f : flare) : R :=
  if face_b o f then STEFAN * ft f ^ 4 * trapezoid (curve f) (linspace (ob_start o) (ob_end o) n) else 0.
Lemma trapezoid_zero : forall c xs, (forall x, In x xs -> c x = 0) -> trapezoid c xs = 0.
Proof.
  induction xs as [|x xs IH]; intros H; auto. destruct xs as [|y xs]; auto.
  change ((y - x) * (c x + c y) / 2 + trapezoid c (y :: xs) = 0).
  rewrite (H x), (H y) by (simpl; auto). rewrite IH. lra. intros; apply H; right; auto.
Qed.
Lemma linspace_in : forall a b n x, a <= b -> In x (linspace a b n) -> a <= x <= b.
Proof.
  intros a b n x L I. destruct n as [|[|n]].
  - destruct I.
  - cbn in I. destruct I as [<-|[]]. lra.
  - rewrite linspace_node in I. apply in_map_iff in I. destruct I as [i [<- I]]. apply in_seq in I. apply node_range; auto; lia.
Qed.
Lemma idle : forall f o n, good f -> ob_start o <= ob_end o -> ~ active f o -> trapezoid (curve f) (linspace (ob_start o) (ob_end o) n) = 0.
Proof.
  intros f o n G L N. apply trapezoid_zero. intros x I. apply linspace_in in I; auto. apply curve_out; auto.
  destruct (Rlt_dec (ob_start o) (fl_tpeak f + 20 * fw f)); [|right; lra].
  destruct (Rlt_dec (fl_tpeak f - fw f) (ob_end o)); [|left; lra].
  exfalso. apply N. exists (fw f). destruct G as [[F _] _]. auto.
Qed.
Lemma one_obs : forall l o, st_flares (ob_star o) = Some (flc_init l) -> ob_start o <= ob_end o -> (forall f, In f l -> good f) ->
  exists r n, reports o r /\ INR n <= (ob_end o - ob_start o) / (10 / 1440) < INR n + 1
    /\ radiated r = rsum (map (seen_part o n) l).
Proof.
  intros l o HS L HG.
  destruct (C45_lemma l (ob_start o) (ob_end o) (Some (ob_lat o, ob_lon o)) L) as [r [n [E [BN F]]]].
  { intros f I. destruct (HG f I) as [A B]. exists (fw f), (fe f), (ft f). auto. }
  exists r, n. split. { unfold reports, star_flare_int. rewrite HS. exact E. }
  split; auto. clear E.
  assert (V : flc_visible (flc_init l) (ob_start o) (ob_end o) (Some (ob_lat o, ob_lon o)) = filter (face_b o) (filter (win_b (ob_start o) (ob_end o)) l)).
  { unfold flc_visible, sub_obs. rewrite in_period_eq. reflexivity. }
  rewrite V in F. clear V.
  assert (Q : forall vis, (forall f, In f vis -> good f) -> Forall2 (fun f p => fst p = fl_teff f /\
       exists c xs v, area_of f c /\ length xs = n /\
         (forall i, (i < n)%nat -> nth i xs 0 = ob_start o + INR i * ((ob_end o - ob_start o) / INR (n - 1))) /\
         snd p = Fin v /\ v = 24 * trapezoid c xs /\ 0 <= v /\
         (ob_end o - ob_start o < 20 / 1440 -> v = 0)) vis r ->
       radiated r = rsum (map (fun f => STEFAN * ft f ^ 4 * trapezoid (curve f) (linspace (ob_start o) (ob_end o) n)) vis)).
  { clear. intros vis HG F. induction F as [|f p vis r H F IH]. reflexivity.
    unfold radiated in *. cbn [map rsum fold_right]. fold (rsum (map (fun f => STEFAN * ft f ^ 4 * trapezoid (curve f) (linspace (ob_start o) (ob_end o) n)) vis)).
    unfold rsum in IH at 1. rewrite IH by (intros; apply HG; right; auto). f_equal.
    destruct H as [H1 [c [xs [v [A [B [C [D [D2 _]]]]]]]]]. destruct p as [a b]. cbn [fst snd] in *. subst a b.
    pose proof (HG f (or_introl eq_refl)) as G. destruct (proj1 G) as [_ [_ FT]]. rewrite FT. rewrite D2.
    assert (EX : xs = linspace (ob_start o) (ob_end o) n).
    { apply (nth_ext _ _ 0 0). rewrite linspace_length; auto. intros i Hi. rewrite B in Hi. rewrite C by auto. rewrite linspace_nth by auto. auto. }
    assert (EC : forall t, c t = curve f t).
    { intros t. pose proof (curve_area f G [t]) as A'. specialize (A [t]). cbn [map] in A, A'. rewrite A in A'. congruence. }
    rewrite EX, (trapezoid_ext_scale c (curve f) 1) by (intros; rewrite EC; ring). field. }
  rewrite (Q _ ltac:(intros f I; apply filter_In in I; destruct I as [I _]; apply filter_In in I; destruct I as [I _]; exact (HG f I)) F). clear Q F HS.
  induction l as [|f l IH]. reflexivity. cbn [filter].
  assert (IH' := IH ltac:(intros; apply HG; right; auto)). clear IH.
  pose proof (HG f (or_introl eq_refl)) as G.
  destruct (win_b (ob_start o) (ob_end o) f) eqn:W; cbn [filter].
  - unfold seen_part at 1. destruct (face_b o f) eqn:FB; cbn [map rsum fold_right]; rewrite FB.
    + f_equal. exact IH'.
    + rewrite Rplus_0_l. exact IH'.
  - cbn [map rsum fold_right]. replace (seen_part o n f) with 0. rewrite Rplus_0_l. exact IH'.
    unfold seen_part. destruct (face_b o f); auto. rewrite idle; auto. ring.
    intros [w [EW A]]. rewrite <- not_true_iff_false in W. apply W. apply (win_b_spec _ _ f w EW). exists w.
    destruct G as [[F _] [W0 _]]. rewrite EW in F. injection F as F. rewrite <- F in W0. repeat split; auto; lra.
Qed.

(** ** runs *)
Lemma step_bound : forall (m n : nat) L, (1 <= m)%nat -> (INR m + 1) * (10 / 1440) <= L -> INR n <= L / (10 / 1440) < INR n + 1 ->
  exists k, n = S k /\ (1 <= k)%nat /\ L / INR k <= (INR m + 2) / INR m * (10 / 1440).
Proof.
  intros m n L Hm HL Hn. assert (E : L / (10/1440) = L * 144) by field. rewrite E in Hn.
  assert (M : 1 <= INR m) by (apply (le_INR 1); auto).
  assert (N : (m + 1 <= n)%nat). { assert (H : INR (m + 1) < INR (S n)) by (rewrite Nat.add_1_r, !S_INR; lra). apply INR_lt in H. lia. }
  destruct n as [|k]; [lia|]. exists k. split; auto. split. lia. rewrite S_INR in Hn.
  assert (K : INR m <= INR k) by (apply le_INR; lia).
  apply Rle_trans with ((INR k + 2) / INR k * (10 / 1440)).
  - unfold Rdiv. assert (I0 : 0 < / INR k) by (apply Rinv_0_lt_compat; lra).
    replace ((INR k + 2) * / INR k * (10 * / 1440)) with ((INR k + 2) * (10 * / 1440) * / INR k) by ring. apply Rmult_le_compat_r; lra.
  - apply Rmult_le_compat_r. lra.
    replace ((INR k + 2) / INR k) with (1 + 2 * / INR k) by (field; lra). replace ((INR m + 2) / INR m) with (1 + 2 * / INR m) by (field; lra).
    assert (/ INR k <= / INR m) by (apply Rinv_le_contravar; lra). lra.
Qed.
Lemma back_le : forall m run t0 t1, back_to_back m t0 t1 run -> t0 <= t1.
Proof.
  induction run as [|o run IH]; intros t0 t1 H; cbn [back_to_back] in H. lra. destruct H as [H1 [H2 H3]]. apply IH in H3.
  assert (0 <= INR m) by apply pos_INR. lra.
Qed.
(** one flare in a run: the parts seen add up to its energy within its share *)
Lemma flare_run : forall m run t0 t1 ns f, (1 <= m)%nat -> good f -> back_to_back m t0 t1 run ->
  Forall2 (fun o n => INR n <= (ob_end o - ob_start o) / (10 / 1440) < INR n + 1) run ns ->
  Rabs (rsum (map (fun p => trapezoid (curve f) (linspace (ob_start (fst p)) (ob_end (fst p)) (snd p))) (combine run ns)) - RInt (curve f) t0 t1)
  <= (INR m + 2) / INR m * (10 / 1440) / 2 * (var (curve f) (fl_tpeak f) (pk f) t1 - var (curve f) (fl_tpeak f) (pk f) t0).
Proof.
  intros m run t0 t1 ns f Hm G. revert t0 ns. induction run as [|o run IH]; intros t0 ns B F.
  - simpl in B. subst t1. inversion F; subst. cbn [combine map rsum fold_right]. rewrite RInt_point. change (@zero R_CompleteNormedModule) with 0. rewrite Rminus_0_r, Rabs_R0. lra.
  - inversion F as [|? n ? ns' Hn F']; subst. cbn [back_to_back] in B. destruct B as [B1 [B2 B3]].
    assert (L2 := back_le _ _ _ _ B3). assert (M0 : 0 <= INR m) by apply pos_INR.
    assert (L1 : ob_start o <= ob_end o) by lra.
    destruct (step_bound m n _ Hm B2 Hn) as [k [-> [K1 K2]]].
    pose proof (window_var (curve f) (ob_start o) (ob_end o) k (fl_tpeak f) (pk f) L1 K1 (ex_curve f _ _ G L1) (curve_up f G) (curve_down f G) (curve_range f G)) as W.
    pose proof (IH _ _ B3 F') as X. clear IH.
    assert (MV := var_mono (curve f) (fl_tpeak f) (pk f) (ob_start o) (ob_end o) (curve_up f G) (curve_down f G) (curve_range f G) L1).
    cbn [combine map rsum fold_right fst snd]. subst t0.
    set (v0 := var (curve f) (fl_tpeak f) (pk f) (ob_start o)) in *. set (v1 := var (curve f) (fl_tpeak f) (pk f) (ob_end o)) in *.
    set (v2 := var (curve f) (fl_tpeak f) (pk f) t1) in *. set (h := (INR m + 2) / INR m * (10 / 1440)) in *.
    assert (W' : (ob_end o - ob_start o) / INR k / 2 * (v1 - v0) <= h / 2 * (v1 - v0)) by (apply Rmult_le_compat_r; lra).
    rewrite <- (RInt_Chasles (curve f) (ob_start o) (ob_end o) t1) by (apply ex_curve; auto).
    change (plus (RInt (curve f) (ob_start o) (ob_end o)) (RInt (curve f) (ob_end o) t1)) with (RInt (curve f) (ob_start o) (ob_end o) + RInt (curve f) (ob_end o) t1).
    unfold rsum in X. set (Z := fold_right Rplus 0 _) in *. set (T := trapezoid _ _) in *.
    set (I1 := RInt (curve f) (ob_start o) (ob_end o)) in *. set (I2 := RInt (curve f) (ob_end o) t1) in *.
    replace (T + Z - (I1 + I2)) with ((T - I1) + (Z - I2)) by ring.
    eapply Rle_trans. apply Rabs_triang. replace (h / 2 * (v2 - v0)) with (h / 2 * (v1 - v0) + h / 2 * (v2 - v1)) by field. lra.
Qed.

Lemma rsum_exchange : forall {A B} (g : A -> B -> R) xs ys,
  rsum (map (fun x => rsum (map (g x) ys)) xs) = rsum (map (fun y => rsum (map (fun x => g x y) xs)) ys).
Proof.
  intros A B g xs ys. induction xs as [|x xs IH].
  - cbn. symmetry. rewrite rsum_zero; auto.
  - cbn [map rsum fold_right]. unfold rsum in IH at 1. rewrite IH.
    change (fold_right Rplus 0 (map (g x) ys)) with (rsum (map (g x) ys)). rewrite <- rsum_map_plus. reflexivity.
Qed.
Lemma back_each : forall m run t0 t1 o, back_to_back m t0 t1 run -> In o run -> ob_start o <= ob_end o.
Proof.
  induction run as [|p run IH]; intros t0 t1 o B I; [destruct I|]; destruct I as [->|I]; cbn [back_to_back] in B; destruct B as [B1 [B2 B3]].
  - assert (0 <= INR m) by apply pos_INR. lra.
  - eauto.
Qed.
Lemma seen_sum : forall run ns f, good f -> (forall o, In o run -> ob_start o <= ob_end o) ->
  (forall o, In o run -> active f o -> faces (ob_lat o) (ob_lon o) f) ->
  rsum (map (fun p => seen_part (fst p) (snd p) f) (combine run ns)) =
  STEFAN * ft f ^ 4 * rsum (map (fun p => trapezoid (curve f) (linspace (ob_start (fst p)) (ob_end (fst p)) (snd p))) (combine run ns)).
Proof.
  intros run ns f G HL HF. revert ns. induction run as [|o run IH]; intros ns. cbn. ring. destruct ns as [|n ns]. cbn. ring.
  cbn [combine map rsum fold_right fst snd]. unfold rsum in IH. rewrite IH; [|intros; apply HL; right; auto|intros; apply HF; [right; auto|auto]].
  rewrite Rmult_plus_distr_l. f_equal. unfold seen_part. destruct (face_b o f) eqn:FB; auto.
  rewrite idle; auto. ring. apply HL; simpl; auto.
  intros A. assert (FT : face_b o f = true) by (apply (faces_spec (ob_lat o) (ob_lon o) f); apply HF; simpl; auto). congruence.
Qed.
Lemma unseen_sum : forall run ns f, good f -> (forall o, In o run -> ob_start o <= ob_end o) ->
  (forall o, In o run -> active f o -> ~ faces (ob_lat o) (ob_lon o) f) ->
  rsum (map (fun p => seen_part (fst p) (snd p) f) (combine run ns)) = 0.
Proof.
  intros run ns f G HL HF. apply rsum_zero. intros [o n] I.
  apply in_combine_l in I. cbn [fst snd]. unfold seen_part. destruct (face_b o f) eqn:FB; auto.
  rewrite idle; auto. ring. intros A. apply (HF o I A). apply faces_spec. exact FB.
Qed.
Lemma peak_share : forall f, good f -> STEFAN * ft f ^ 4 * pk f <= 5 / 9 * energy_per_width f.
Proof.
  intros f [[F1 [F2 F3]] [W [T E]]]. unfold energy_per_width. rewrite F1, F2. unfold pk, rpeak. rewrite SIGMA_SB_eq.
  pose proof Istd_ge. pose proof STEFAN_pos.
  replace (STEFAN * ft f ^ 4 * (fe f / STEFAN / ft f ^ 4 / (Istd * fw f))) with (/ Istd * (fe f / fw f)) by (field; repeat split; lra).
  apply Rmult_le_compat_r. apply le_div; lra. replace (5/9) with (/ (9/5)) by field. apply Rinv_le_contravar; lra.
Qed.
Lemma runs : forall l run, (forall o, In o run -> st_flares (ob_star o) = Some (flc_init l) /\ ob_start o <= ob_end o) ->
  (forall f, In f l -> good f) ->
  exists rs ns, Forall2 reports run rs /\ Forall2 (fun o n => INR n <= (ob_end o - ob_start o) / (10 / 1440) < INR n + 1) run ns
    /\ rsum (map radiated rs) = rsum (map (fun p => rsum (map (seen_part (fst p) (snd p)) l)) (combine run ns)).
Proof.
  intros l run H G. induction run as [|o run IH]. exists [], []. repeat split; constructor.
  destruct IH as [rs [ns [A [B C]]]]. { intros; apply H; right; auto. }
  destruct (H o (or_introl eq_refl)) as [H1 H2]. destruct (one_obs l o H1 H2 G) as [r [n [P [Q Z]]]].
  exists (r :: rs), (n :: ns). repeat split; try constructor; auto.
  cbn [combine map rsum fold_right fst snd]. unfold rsum in C at 1 2. rewrite C, Z. reflexivity.
Qed.
Lemma C122_run : forall s l run m t0 t1 seen unseen,
  st_flares s = Some (flc_init l) -> Permutation l (seen ++ unseen) ->
  (forall f, In f l -> exists w E T, flare_is f w E T /\ 0 < w /\ 0 < T /\ 0 <= E) ->
  (1 <= m)%nat -> back_to_back m t0 t1 run ->
  (forall o, In o run -> star_ops s (ob_star o)) ->
  (forall f, In f seen -> (exists w, fl_fwhm f = Fin w /\ t0 <= fl_tpeak f - w /\ fl_tpeak f + 20 * w <= t1) /\
     forall o, In o run -> active f o -> faces (ob_lat o) (ob_lon o) f) ->
  (forall f, In f unseen -> forall o, In o run -> active f o -> ~ faces (ob_lat o) (ob_lon o) f) ->
  exists rs, Forall2 reports run rs /\
    Rabs (rsum (map radiated rs) - rsum (map energy seen))
    <= 5 / 9 * ((INR m + 2) / INR m * (10 / 1440)) * rsum (map energy_per_width seen).
Proof.
  intros s l run m t0 t1 seen unseen HS HP HG Hm HB HO Hs Hu.
  assert (G : forall f, In f l -> good f) by (intros; apply good_of; auto).
  assert (Gs : forall f, In f seen -> good f) by (intros; apply G; apply (Permutation_in f (Permutation_sym HP)); apply in_or_app; auto).
  assert (Gu : forall f, In f unseen -> good f) by (intros; apply G; apply (Permutation_in f (Permutation_sym HP)); apply in_or_app; auto).
  assert (HL : forall o, In o run -> ob_start o <= ob_end o) by (intros; eapply back_each; eauto).
  destruct (runs l run) as [rs [ns [A [B C]]]]; auto.
  { intros o I. split; auto. rewrite <- HS. apply star_ops_flares. auto. }
  exists rs. split; auto. rewrite C. clear A C rs.
  rewrite (rsum_exchange (fun p => seen_part (fst p) (snd p)) (combine run ns) l).
  rewrite (rsum_perm _ _ (Permutation_map (fun f => rsum (map (fun p => seen_part (fst p) (snd p) f) (combine run ns))) HP)).
  rewrite map_app, rsum_app. rewrite (rsum_zero _ _ unseen).
  2:{ intros f I. apply unseen_sum; auto. }
  rewrite Rplus_0_r. clear HP Hu HG G HO HS l unseen Gu.
  induction seen as [|f seen IH].
  - cbn. rewrite Rminus_0_r, Rabs_R0. lra.
  - cbn [map rsum fold_right].
    assert (IH' := IH ltac:(intros; apply Hs; right; auto) ltac:(intros; apply Gs; right; auto)). clear IH.
    pose proof (Gs f (or_introl eq_refl)) as Gf. destruct (Hs f (or_introl eq_refl)) as [[w [W [W1 W2]]] Hf].
    rewrite seen_sum by auto.
    pose proof (flare_run m run t0 t1 ns f Hm Gf HB B) as FR.
    pose proof (var_run f t0 t1 Gf (back_le _ _ _ _ HB)) as VR.
    assert (EW : fw f = w) by (unfold fw; rewrite W; auto).
    assert (CW := curve_whole f t0 t1 Gf ltac:(rewrite EW; auto) ltac:(rewrite EW; auto)).
    assert (EE : energy f = fe f) by reflexivity.
    pose proof (peak_share f Gf) as PS.
    assert (K0 : 0 < STEFAN * ft f ^ 4). { destruct Gf as [_ [_ [T _]]]. apply Rmult_lt_0_compat. apply STEFAN_pos. apply pow_lt; auto. }
    set (h := (INR m + 2) / INR m * (10 / 1440)) in *.
    assert (H0 : 0 <= h). { unfold h. assert (0 <= (INR m + 2) / INR m). apply le_div. apply lt_0_INR; lia. pose proof (pos_INR m); lra. lra. }
    unfold rsum in IH', FR |- *. set (X := fold_right Rplus 0 (map _ (combine run ns))) in *. set (Y := fold_right Rplus 0 (map _ seen)) in *.
    set (Z := fold_right Rplus 0 (map energy seen)) in *. set (V := fold_right Rplus 0 (map energy_per_width seen)) in *.
    set (K := STEFAN * ft f ^ 4) in *. rewrite EE, <- CW. set (J := RInt (curve f) t0 t1) in *. set (dv := var (curve f) (fl_tpeak f) (pk f) t1 - var (curve f) (fl_tpeak f) (pk f) t0) in *.
    replace (K * X + Y - (K * J + Z)) with (K * (X - J) + (Y - Z)) by ring.
    eapply Rle_trans. apply Rabs_triang. rewrite Rabs_mult, (Rabs_right K) by lra.
    assert (S1 : K * Rabs (X - J) <= K * (h * pk f)).
    { apply Rmult_le_compat_l. lra. eapply Rle_trans. exact FR. replace (h * pk f) with (h / 2 * (2 * pk f)) by field. apply Rmult_le_compat_l; lra. }
    assert (S2 : h * (K * pk f) <= h * (5 / 9 * energy_per_width f)) by (apply Rmult_le_compat_l; lra).
    lra.
Qed.
Lemma C122_short : forall s l run,
  st_flares s = Some (flc_init l) ->
  (forall f, In f l -> exists w E T, flare_is f w E T /\ 0 < w /\ 0 < T /\ 0 <= E) ->
  (forall o, In o run -> star_ops s (ob_star o) /\ 0 <= ob_end o - ob_start o < 20 / 1440) ->
  exists rs, Forall2 reports run rs /\ rsum (map radiated rs) = 0.
Proof.
  intros s l run HS HG HO.
  destruct (runs l run) as [rs [ns [A [B C]]]].
  { intros o I. destruct (HO o I) as [O1 O2]. split; [|lra]. rewrite <- HS. apply star_ops_flares. auto. }
  { intros; apply good_of; auto. }
  exists rs. split; auto. rewrite C. apply rsum_zero. intros [o n] I.
  apply rsum_zero. intros f J. cbn [fst snd].
  assert (N : (n <= 1)%nat).
  { assert (Q : INR n <= (ob_end o - ob_start o) / (10 / 1440)).
    { clear - B I. induction B as [|x y xs ys P B IH]; [destruct I|]. destruct I as [I|I]; auto. injection I as -> ->. apply P. }
    apply in_combine_l in I. destruct (HO o I) as [_ O2].
    assert (Q2 : (ob_end o - ob_start o) / (10 / 1440) < 2) by (unfold Rdiv; lra).
    assert (L : INR n < INR 2) by (simpl; lra). apply INR_lt in L. lia. }
  unfold seen_part. destruct (face_b o f); auto. destruct n as [|[|n]]; [cbn; ring|cbn; ring|lia].
Qed.
