(** Observers next to each other, and rounded cosines *)
From Coq Require Import Reals ZArith Bool List Lra Lia Sorted.
From Verif Require Import Num Py MConfig MHelpers MGrid MSpots MFaculae MFlares MGranules MStar MCosine MDouble Spec SpecStar SpecDisk SpecDouble SpecCosine SpecFlux SpecNearby
  LBase LHelpers LGrid LSingle LDouble LDoubleSum LSphere LDisk LFac LSpotMap LSpotCov LStarFac LStarCov LFlux LCosine LTransit.
From Coquelicot Require Import Rcomplements.
Import ListNotations.
Open Scope R_scope.

(** ** light of a unit area seen under the cosine [m] *)
Definition gl (s : star) (m : R) : R := ld_plot s m * area_projection m.
Lemma gl_pos : forall s m, 0 <= m -> gl s m = m * (1 - st_u1 s * (1 - m) - st_u2 s * (1 - m)^2).
Proof.
  intros s m H. unfold gl, ld_plot, area_projection. rewrite (proj2 (Rltb_false m 0)) by lra.
  destruct (Req_dec m 0) as [->|N]. rewrite (proj2 (Rltb_false 0 0)) by lra. ring.
  rewrite (proj2 (Rltb_true 0 m)) by lra. ring.
Qed.
Lemma gl_neg : forall s m, m <= 0 -> gl s m = 0.
Proof. intros s m H. unfold gl, area_projection. rewrite (proj2 (Rltb_false 0 m)) by lra. ring. Qed.
Lemma gl_lip_pos : forall s a x y, 1 <= a -> 0 <= x -> 0 <= y -> Rabs (1 - (x + y)) <= a -> Rabs (1 - 2 * (x + y) + (x^2 + x * y + y^2)) <= a ->
  Rabs (gl s x - gl s y) <= a * steepness s * Rabs (x - y).
Proof.
  intros s a x y A X Y B C. rewrite !gl_pos by auto.
  replace (_ - _) with ((x - y) * (1 - st_u1 s * (1 - (x + y)) - st_u2 s * (1 - 2 * (x + y) + (x^2 + x * y + y^2)))) by ring.
  rewrite Rabs_mult, Rmult_comm. apply Rmult_le_compat_r. apply Rabs_pos.
  unfold steepness. set (u := st_u1 s) in *. set (v := st_u2 s) in *. set (b := 1 - (x + y)) in *. set (c := 1 - 2 * (x + y) + _) in *.
  assert (H1 : Rabs (u * b) <= Rabs u * a). { rewrite Rabs_mult. apply Rmult_le_compat_l; auto. apply Rabs_pos. }
  assert (H2 : Rabs (v * c) <= Rabs v * a). { rewrite Rabs_mult. apply Rmult_le_compat_l; auto. apply Rabs_pos. }
  apply Rabs_le_between in H1. apply Rabs_le_between in H2. apply Rabs_le. split; lra.
Qed.
Lemma gl_lip : forall s c a x y, 1 <= a -> 1 <= c -> (c - 1) <= 1/10 -> 2 * c - 1 <= a -> (2 * c - 1)^2 <= a -> x <= c -> y <= c ->
  Rabs (gl s x - gl s y) <= a * steepness s * Rabs (x - y).
Proof.
  intros s c a x y A C1 C2 C3 C4 X Y.
  assert (ST : 0 <= a * steepness s). { unfold steepness. pose proof (Rabs_pos (st_u1 s)). pose proof (Rabs_pos (st_u2 s)). apply Rmult_le_pos; lra. }
  assert (P : forall x y, 0 <= x <= c -> 0 <= y <= c -> Rabs (gl s x - gl s y) <= a * steepness s * Rabs (x - y)).
  { clear x y X Y. intros x y X Y. apply gl_lip_pos; try lra. apply Rabs_le; lra.
    assert (0 <= x * y <= c * c) by (split; [apply Rmult_le_pos|apply Rmult_le_compat]; lra).
    apply Rabs_le. split; nra. }
  destruct (Rle_dec 0 x), (Rle_dec 0 y).
  - apply P; lra.
  - rewrite (gl_neg s y), <- (gl_neg s 0) by lra. eapply Rle_trans. apply P; lra. apply Rmult_le_compat_l; auto. rewrite !Rabs_right; lra.
  - rewrite (gl_neg s x), <- (gl_neg s 0) by lra. eapply Rle_trans. apply P; lra. apply Rmult_le_compat_l; auto. rewrite !Rabs_left1; lra.
  - rewrite !gl_neg by lra. rewrite Rminus_0_r, Rabs_R0. apply Rmult_le_pos; auto. apply Rabs_pos.
Qed.

(** ** the cosines seen by two observers *)
Lemma near_mu : forall lat1 lon1 lat2 lon2 lat lon d, is_angle lat1 lon1 lat2 lon2 d ->
  Rabs (law_cos lat1 lon1 lat lon - law_cos lat2 lon2 lat lon) <= d.
Proof.
  intros lat1 lon1 lat2 lon2 lat lon d [D1 D2]. rewrite !law_cos_dot. unfold cos_sep in *.
  assert (U : forall a b, dot (vec a b) (vec a b) = 1).
  { intros a b. unfold dot, vec. pose proof (sin2_cos2 a). pose proof (sin2_cos2 b). unfold Rsqr in *. nra. }
  pose proof (U lat1 lon1) as U1. pose proof (U lat2 lon2) as U2. pose proof (U lat lon) as U3.
  destruct (vec lat1 lon1) as [[a1 a2] a3]. destruct (vec lat2 lon2) as [[b1 b2] b3]. destruct (vec lat lon) as [[c1 c2] c3]. unfold dot in *.
  assert (Q : 2 - 2 * cos d <= d * d).
  { assert (S : 1 - cos d = 2 * (sin (d / 2) * sin (d / 2))).
    { pose proof (cos_2a_sin (d / 2)) as K. replace (2 * (d / 2)) with d in K by lra. lra. }
    assert (0 <= sin (d / 2)) by (apply sin_ge_0; lra).
    assert (sin (d / 2) <= d / 2). { destruct (Req_dec d 0) as [->|]. replace (0/2) with 0 by lra. rewrite sin_0. lra. left. apply sin_lt_x. lra. }
    nra. }
  assert (CS : ((a1 - b1) * c1 + (a2 - b2) * c2 + (a3 - b3) * c3)^2 <= (a1 - b1)^2 + (a2 - b2)^2 + (a3 - b3)^2).
  { set (x := a1 - b1). set (y := a2 - b2). set (z := a3 - b3).
    pose proof (pow2_ge_0 (x * c2 - y * c1)). pose proof (pow2_ge_0 (x * c3 - z * c1)). pose proof (pow2_ge_0 (y * c3 - z * c2)).
    replace (x^2 + y^2 + z^2) with ((x^2 + y^2 + z^2) * (c1 * c1 + c2 * c2 + c3 * c3)) by (rewrite U3; ring). lra. }
  apply Rsqr_incr_0_var; [|lra]. rewrite <- Rsqr_abs. unfold Rsqr.
  replace ((a1 * c1 + a2 * c2 + a3 * c3 - (b1 * c1 + b2 * c2 + b3 * c3)) * (a1 * c1 + a2 * c2 + a3 * c3 - (b1 * c1 + b2 * c2 + b3 * c3)))
    with (((a1 - b1) * c1 + (a2 - b2) * c2 + (a3 - b3) * c3)^2) by ring.
  eapply Rle_trans; [apply CS|]. replace ((a1 - b1)^2 + (a2 - b2)^2 + (a3 - b3)^2) with
    ((a1 * a1 + a2 * a2 + a3 * a3) + (b1 * b1 + b2 * b2 + b3 * b3) - 2 * (a1 * b1 + a2 * b2 + a3 * b3)) by ring. lra.
Qed.

(** ** weighted means with close weights *)
Lemma rsum_abs : forall A (f : A -> R) l, Rabs (rsum (map f l)) <= rsum (map (fun x => Rabs (f x)) l).
Proof.
  intros A f l. induction l as [|x t IH]; cbn [map]. { cbn. rewrite Rabs_R0. lra. }
  change (Rabs (f x + rsum (map f t)) <= Rabs (f x) + rsum (map (fun x => Rabs (f x)) t)). eapply Rle_trans. apply Rabs_triang. lra.
Qed.
Lemma mean_close : forall A (l : list A) (v w g : A -> R) e lo hi,
  (forall p, In p l -> 0 <= w p) -> rsum (map (fun p => Rabs (v p - w p)) l) <= e ->
  (forall p, In p l -> lo <= g p <= hi) -> 0 < rsum (map v l) -> 0 < rsum (map w l) ->
  Rabs (rsum (map (fun p => v p * g p) l) / rsum (map v l) - rsum (map (fun p => w p * g p) l) / rsum (map w l)) <= (hi - lo) * e / rsum (map v l).
Proof.
  intros A l v w g e lo hi Hw He Hg HV HW.
  set (V := rsum (map v l)) in *. set (W := rsum (map w l)) in *. set (c := (lo + hi) / 2). set (b := (hi - lo) / 2).
  set (h := fun p => g p - c).
  assert (Hh : forall p, In p l -> Rabs (h p) <= b). { intros p I. unfold h, b, c. pose proof (Hg p I). apply Rabs_le. lra. }
  assert (EX : forall u, rsum (map (fun p => u p * g p) l) = rsum (map (fun p => u p * h p) l) + c * rsum (map u l)).
  { intros u. rewrite <- rsum_map_scal, <- rsum_map_plus. apply rsum_map_ext. intros p _. unfold h. ring. }
  rewrite !EX. fold V W. set (N := rsum (map (fun p => v p * h p) l)). set (K := rsum (map (fun p => w p * h p) l)).
  assert (B0 : 0 <= b). { destruct l as [|p t]. { exfalso. unfold V in HV. cbn in HV. lra. } pose proof (Hh p (or_introl eq_refl)). pose proof (Rabs_pos (h p)). lra. }
  assert (E1 : Rabs (N - K) <= b * e).
  { assert (EQ : N - K = rsum (map (fun p => (v p - w p) * h p) l)).
    { unfold N, K. rewrite (rsum_map_ext _ (fun p => (v p - w p) * h p) (fun p => v p * h p + (-1) * (w p * h p))).
      rewrite rsum_map_plus, rsum_map_scal. ring. intros; ring. }
    rewrite EQ. eapply Rle_trans. apply rsum_abs. eapply Rle_trans; [|apply Rmult_le_compat_l; [exact B0|exact He]].
    rewrite <- rsum_map_scal. apply rsum_map_le. intros p I. rewrite Rabs_mult. rewrite Rmult_comm. apply Rmult_le_compat_r. apply Rabs_pos. auto. }
  assert (E2 : Rabs (V - W) <= e).
  { assert (EQ : V - W = rsum (map (fun p => v p - w p) l)).
    { unfold V, W. rewrite (rsum_map_ext _ (fun p => v p - w p) (fun p => v p + (-1) * w p)).
      rewrite rsum_map_plus, rsum_map_scal. ring. intros; ring. }
    rewrite EQ. eapply Rle_trans. apply rsum_abs. exact He. }
  assert (E3 : Rabs K <= b * W).
  { unfold K, W. eapply Rle_trans. apply rsum_abs. rewrite <- rsum_map_scal. apply rsum_map_le. intros p I. rewrite Rabs_mult.
    rewrite (Rabs_right (w p)) by (apply Rle_ge; auto). rewrite Rmult_comm. apply Rmult_le_compat_r; auto. }
  replace ((N + c * V) / V - (K + c * W) / W) with (((N - K) + (K / W) * (W - V)) / V) by (field; lra).
  unfold Rdiv at 1. rewrite Rabs_mult, (Rabs_right (/ V)) by (left; apply Rinv_0_lt_compat; auto).
  unfold Rdiv at 2. apply Rmult_le_compat_r. left; apply Rinv_0_lt_compat; auto.
  assert (E4 : Rabs (K / W) <= b). { unfold Rdiv. rewrite Rabs_mult, (Rabs_right (/ W)) by (left; apply Rinv_0_lt_compat; auto).
    apply Rmult_le_reg_r with W; auto. rewrite Rmult_assoc, Rinv_l by lra. lra. }
  eapply Rle_trans. apply Rabs_triang. rewrite Rabs_mult, (Rabs_minus_sym W V).
  assert (Rabs (K / W) * Rabs (V - W) <= b * e) by (apply Rmult_le_compat; auto using Rabs_pos). unfold b in *. lra.
Qed.

(** ** what each pixel contributes *)
Lemma wgt_gl : forall s lat0 lon0 p, wgt s lat0 lon0 p = rarea_at (st_grid s) p * gl s (law_cos lat0 lon0 (fst p) (snd p)).
Proof. intros. unfold wgt, gl, mup. ring. Qed.
Lemma disk_pos : forall s lat0 lon0 A, good_grid (st_grid s) -> grid_area (st_grid s) = Ok A -> ld_nonneg s -> disk s lat0 lon0 A <> 0 -> 0 < disk s lat0 lon0 A
  /\ disk s lat0 lon0 A = rsum (map (wgt s lat0 lon0) (cells (grid_points (st_grid s)))).
Proof.
  intros s lat0 lon0 A G HA L N. rewrite grid_area_good in HA by auto. injection HA as <-.
  assert (E : disk s lat0 lon0 (amap (fun p => Fin (rarea_at (st_grid s) p)) (grid_points (st_grid s))) = rsum (map (wgt s lat0 lon0) (cells (grid_points (st_grid s))))).
  { unfold disk. apply grid_sum_pt. intros. apply seen_pt; auto. }
  split; auto. rewrite E in *. assert (0 <= rsum (map (wgt s lat0 lon0) (cells (grid_points (st_grid s))))); [|lra].
  apply rsum_nonneg. intros x I. apply in_map_iff in I. destruct I as [p [<- I]]. apply wgt_nonneg; auto.
Qed.
Lemma weights_close : forall s (m1 m2 : R * R -> R) c a e, good_grid (st_grid s) -> 1 <= a -> 1 <= c -> c - 1 <= 1/10 -> 2 * c - 1 <= a -> (2 * c - 1)^2 <= a ->
  (forall p, In p (cells (grid_points (st_grid s))) -> m1 p <= c /\ m2 p <= c /\ Rabs (m1 p - m2 p) <= e) ->
  rsum (map (fun p => Rabs (rarea_at (st_grid s) p * gl s (m1 p) - rarea_at (st_grid s) p * gl s (m2 p))) (cells (grid_points (st_grid s)))) <= a * steepness s * e.
Proof.
  intros s m1 m2 c a e G A C1 C2 C3 C4 H. rewrite <- (Rmult_1_r (a * steepness s * e)), <- (rarea_sum _ G), <- rsum_map_scal.
  apply rsum_map_le. intros p I. destruct (H p I) as [X [Y E]]. pose proof (rarea_nonneg _ _ G I) as P.
  replace (_ - _) with (rarea_at (st_grid s) p * (gl s (m1 p) - gl s (m2 p))) by ring. rewrite Rabs_mult, (Rabs_right (rarea_at _ _)) by lra.
  rewrite Rmult_comm. apply Rmult_le_compat_r; auto. eapply Rle_trans. apply (gl_lip s c a); auto.
  apply Rmult_le_compat_l; auto. unfold steepness. pose proof (Rabs_pos (st_u1 s)). pose proof (Rabs_pos (st_u2 s)). apply Rmult_le_pos; lra.
Qed.
Lemma views_close : forall s lat1 lon1 lat2 lon2 d, good_grid (st_grid s) -> is_angle lat1 lon1 lat2 lon2 d ->
  rsum (map (fun p => Rabs (wgt s lat1 lon1 p - wgt s lat2 lon2 p)) (cells (grid_points (st_grid s)))) <= steepness s * d.
Proof.
  intros s lat1 lon1 lat2 lon2 d G H.
  rewrite (rsum_map_ext _ _ (fun p => Rabs (rarea_at (st_grid s) p * gl s (law_cos lat1 lon1 (fst p) (snd p)) - rarea_at (st_grid s) p * gl s (law_cos lat2 lon2 (fst p) (snd p))))).
  2:{ intros p _. now rewrite !wgt_gl. }
  rewrite <- (Rmult_1_l (steepness s)). apply (weights_close s _ _ 1); auto; try lra.
  intros p _. pose proof (law_cos_bound lat1 lon1 (fst p) (snd p)). pose proof (law_cos_bound lat2 lon2 (fst p) (snd p)).
  split. lra. split. lra. apply near_mu; auto.
Qed.

Lemma C129_disk_lemma :
  forall s lat1 lon1 lat2 lon2 d A, good_grid (st_grid s) -> grid_area (st_grid s) = Ok A -> is_angle lat1 lon1 lat2 lon2 d ->
  Rabs (disk s lat1 lon1 A - disk s lat2 lon2 A) <= steepness s * d.
Proof.
  intros s lat1 lon1 lat2 lon2 d A G HA H. rewrite grid_area_good in HA by auto. injection HA as <-.
  assert (E : forall lat0 lon0, disk s lat0 lon0 (amap (fun p => Fin (rarea_at (st_grid s) p)) (grid_points (st_grid s))) = rsum (map (wgt s lat0 lon0) (cells (grid_points (st_grid s))))).
  { intros. unfold disk. apply grid_sum_pt. intros. apply seen_pt; auto. }
  rewrite !E. eapply Rle_trans; [|apply views_close; eauto].
  replace (_ - _) with (rsum (map (fun p => wgt s lat1 lon1 p - wgt s lat2 lon2 p) (cells (grid_points (st_grid s))))).
  apply rsum_abs. rewrite (rsum_map_ext _ _ (fun p => wgt s lat1 lon1 p + (-1) * wgt s lat2 lon2 p)).
  rewrite rsum_map_plus, rsum_map_scal. ring. intros; ring.
Qed.

(** ** the brightness of a pixel *)
Definition mixed (F : R -> R) (T D f t : R) : R := if Req_EM_T t T then (1 - f) * F T + f * F (T - D) else F t.
Lemma mixed_between : forall F ts lo hi T D f t, between F ts lo hi -> 0 <= f <= 1 -> In t ts -> In (T - D) ts -> lo <= mixed F T D f t <= hi.
Proof.
  intros F ts lo hi T D f t B Hf I J. unfold mixed. destruct (Req_EM_T t T) as [->|]; auto.
  pose proof (B _ I). pose proof (B _ J). split; nra.
Qed.
Lemma flux_pts : forall s lat0 lon0 A M tm F T D f, good_grid (st_grid s) -> grid_area (st_grid s) = Ok A ->
  M = amap (fun p => Fin (tm p)) (grid_points (st_grid s)) -> disk s lat0 lon0 A = rsum (map (wgt s lat0 lon0) (cells (grid_points (st_grid s)))) ->
  disk_flux s lat0 lon0 A M F T D f (fun _ _ => 1)
  = rsum (map (fun p => wgt s lat0 lon0 p * mixed F T D f (tm p)) (cells (grid_points (st_grid s)))) / rsum (map (wgt s lat0 lon0) (cells (grid_points (st_grid s)))).
Proof.
  intros s lat0 lon0 A M tm F T D f G HA EM E. unfold disk_flux. rewrite E. f_equal. rewrite grid_area_good in HA by auto. injection HA as <-.
  apply grid_sum_pt. intros j i P. rewrite seen_pt by auto. unfold pix_flux, cell_val. rewrite EM, acell_grid by auto. unfold mixed, pt. cbn [fst snd]. ring.
Qed.
Lemma C129_flux_lemma :
  forall label s lat1 lon1 orbit1 planet1 phase1 incl1 C1 pf1 lat2 lon2 orbit2 planet2 phase2 incl2 C2 pf2 T D A M f F ts lo hi d tot1 cov1 qf1 tot2 cov2 qf2,
  two_decimals label -> disk_view s lat1 lon1 orbit1 planet1 phase1 incl1 T D A M C1 pf1 -> disk_view s lat2 lon2 orbit2 planet2 phase2 incl2 T D A M C2 pf2 ->
  disk s lat1 lon1 A <> 0 -> disk s lat2 lon2 A <> 0 -> ld_nonneg s ->
  distinct_labels label s M T D -> (appears (st_grid s) M T \/ D = 0) -> lists_temps s M T D ts ->
  calc_coverage s lat1 lon1 (Fin f) orbit1 planet1 phase1 incl1 = Ok (tot1, cov1, qf1) ->
  calc_coverage s lat2 lon2 (Fin f) orbit2 planet2 phase2 incl2 = Ok (tot2, cov2, qf2) ->
  is_angle lat1 lon1 lat2 lon2 d -> 0 <= f <= 1 -> between F ts lo hi ->
  Rabs (report_flux label F ts tot1 - report_flux label F ts tot2) <= (hi - lo) * (steepness s * d) / disk s lat1 lon1 A.
Proof.
  intros label s lat1 lon1 orbit1 planet1 phase1 incl1 C1 pf1 lat2 lon2 orbit2 planet2 phase2 incl2 C2 pf2 T D A M f F ts lo hi d tot1 cov1 qf1 tot2 cov2 qf2
    TD V1 V2 N1 N2 LD DL AP LT H1 H2 AN Hf BT.
  destruct (C87_lemma _ _ _ _ _ _ _ _ _ _ _ _ _ _ f F ts TD V1 N1 DL AP LT) as [t1 [c1 [K1 [R1' _]]]].
  destruct (C87_lemma _ _ _ _ _ _ _ _ _ _ _ _ _ _ f F ts TD V2 N2 DL AP LT) as [t2 [c2 [K2 [R2' _]]]].
  rewrite H1 in K1. injection K1 as <- <- <-. rewrite H2 in K2. injection K2 as <- <- <-. rewrite R1', R2'.
  destruct (view_form _ _ _ _ _ _ _ _ _ _ _ _ _ V1) as [tm [cm [EA [EM [_ [_ [EW [_ [_ [Eap _]]]]]]]]]].
  pose proof (dv_grid _ _ _ _ _ _ _ _ _ _ _ _ _ V1) as G. pose proof (dv_area _ _ _ _ _ _ _ _ _ _ _ _ _ V1) as HA.
  destruct (disk_pos s lat1 lon1 A) as [P1 E1]; auto. destruct (disk_pos s lat2 lon2 A) as [P2 E2]; auto.
  rewrite !(flux_pts s _ _ A M tm) by auto. rewrite E1 in *. rewrite E2 in *.
  apply mean_close; auto.
  - intros p I. apply wgt_nonneg; auto.
  - apply views_close; auto.
  - intros p I. destruct LT as [_ LT]. apply (mixed_between F ts); auto; apply LT. 2: now right. left. apply Eap, runiq_In, in_map. auto.
Qed.
Lemma rsum_pick : forall ts t (g : R -> R), NoDup ts -> In t ts -> rsum (map (fun x => (if Req_EM_T x t then 1 else 0) * g x) ts) = g t.
Proof.
  intros ts t g N I. rewrite (rsum_map_ext _ _ (fun x => if Req_EM_T x t then g x else 0)). apply rsum_one; auto.
  intros x _. destruct (Req_EM_T x t); ring.
Qed.
Lemma C129_entries_lemma :
  forall label s lat1 lon1 orbit1 planet1 phase1 incl1 C1 pf1 lat2 lon2 orbit2 planet2 phase2 incl2 C2 pf2 T D A M f ts t d tot1 cov1 qf1 tot2 cov2 qf2,
  two_decimals label -> disk_view s lat1 lon1 orbit1 planet1 phase1 incl1 T D A M C1 pf1 -> disk_view s lat2 lon2 orbit2 planet2 phase2 incl2 T D A M C2 pf2 ->
  disk s lat1 lon1 A <> 0 -> disk s lat2 lon2 A <> 0 -> ld_nonneg s ->
  distinct_labels label s M T D -> (appears (st_grid s) M T \/ D = 0) -> lists_temps s M T D ts ->
  calc_coverage s lat1 lon1 (Fin f) orbit1 planet1 phase1 incl1 = Ok (tot1, cov1, qf1) ->
  calc_coverage s lat2 lon2 (Fin f) orbit2 planet2 phase2 incl2 = Ok (tot2, cov2, qf2) ->
  is_angle lat1 lon1 lat2 lon2 d -> 0 <= f <= 1 -> In t ts ->
  Rabs (entry tot1 (label t) - entry tot2 (label t)) <= steepness s * d / disk s lat1 lon1 A.
Proof.
  intros label s lat1 lon1 orbit1 planet1 phase1 incl1 C1 pf1 lat2 lon2 orbit2 planet2 phase2 incl2 C2 pf2 T D A M f ts t d tot1 cov1 qf1 tot2 cov2 qf2
    TD V1 V2 N1 N2 LD DL AP LT H1 H2 AN Hf It.
  pose proof (C129_flux_lemma label s lat1 lon1 orbit1 planet1 phase1 incl1 C1 pf1 lat2 lon2 orbit2 planet2 phase2 incl2 C2 pf2 T D A M f
    (fun x => if Req_EM_T x t then 1 else 0) ts 0 1 d tot1 cov1 qf1 tot2 cov2 qf2 TD V1 V2 N1 N2 LD DL AP LT H1 H2 AN Hf) as K.
  unfold report_flux in K. rewrite !rsum_pick in K by (auto; apply LT).
  replace (steepness s * d) with ((1 - 0) * (steepness s * d)) by ring. apply K.
  intros x _. destruct (Req_EM_T x t); lra.
Qed.

(** ** rounded cosines *)
Lemma step_fst : forall g tm ldp pr cv W d1 d2 t a b, W <> 0 ->
  coverage_step (amap (fun p => Fin (tm p)) (grid_points g)) (amap ldp (grid_points g)) (amap (fun p => Fin (pr p)) (grid_points g)) cv (Fin W) (lift d1, d2) (Fin t) = Ok (a, b) ->
  a = lift (rset d1 (key t) (rsum (map (fun p => if Req_EM_T (tm p) t then ldp p * pr p else 0) (cells (grid_points g))) / W)).
Proof.
  intros g tm ldp pr cv W d1 d2 t a b HW H. unfold coverage_step in H. rewrite !amap_amap in H. rewrite amap2_amap in H. cbn [bind] in H. rewrite amap2_amap in H. cbn [bind] in H.
  destruct (amap2 nmul _ cv) as [c|]; [|discriminate]. cbn [bind fst snd] in H. injection H as <- _. rewrite cells_amap.
  rewrite (nsum_map_fin _ _ (fun p => if Req_EM_T (tm p) t then ldp p * pr p else 0)).
  2:{ intros p _. cbn [neq]. rewrite ?nmul_fin. f_equal. unfold Reqb. destruct (Req_EM_T (tm p) t); ring. }
  rewrite !ndiv_fin by auto. fold (key t). rewrite lift_dset. auto.
Qed.
Lemma loop_fst : forall g tm ldp pr cv W ul d1 d2 a b, W <> 0 ->
  coverage_loop (amap (fun p => Fin (tm p)) (grid_points g)) (amap ldp (grid_points g)) (amap (fun p => Fin (pr p)) (grid_points g)) cv (Fin W) (lift d1, d2) (map Fin ul) = Ok (a, b) ->
  a = lift (foldd (fun t => rsum (map (fun p => if Req_EM_T (tm p) t then ldp p * pr p else 0) (cells (grid_points g))) / W) ul d1).
Proof.
  intros g tm ldp pr cv W ul. induction ul as [|t ul IH]; intros d1 d2 a b HW H; cbn [map coverage_loop] in H.
  - injection H as <- _. reflexivity.
  - destruct (coverage_step _ _ _ _ _ _ _) as [[a' b']|] eqn:E; [|discriminate]. cbn [bind] in H. apply step_fst in E; auto. subst a'. apply IH in H; auto.
Qed.
(** the brightness computed from any dictionary made of weights *)
Lemma gran_flux : forall s (pts : list (R * R)) w tm W T D f F ul ts d,
  W <> 0 -> NoDup ul -> (forall t, In t ul <-> In t (map tm pts)) -> NoDup ts -> (forall t, In t ts <-> In t ul \/ t = T - D) -> In T ts ->
  (forall t t', In t ts -> In t' ts -> key t = key t' -> t = t') ->
  rgran (base (bval s pts w tm W) ul (T - D)) (key T) (key (T - D)) f = Ok d ->
  report_flux key F ts (lift d) = rsum (map (fun p => w p * mixed F T D f (tm p)) pts) / W.
Proof.
  intros s pts w tm W T D f F ul ts d NW NU UL ND LT LTT DL H.
  assert (LTD : In (T - D) ts) by (apply LT; now right).
  assert (DL' : forall t t', (In t ul \/ t = T - D) -> (In t' ul \/ t' = T - D) -> key t = key t' -> t = t') by (intros; apply DL; auto; now apply LT).
  set (sh := bval s pts w tm W).
  assert (ABS : forall t, ~ In t ul -> sh t = 0).
  { intros t N. unfold sh, bval. rewrite rsum_zero. unfold Rdiv; ring. intros p I. destruct (Req_EM_T (tm p) t); auto. exfalso. apply N, UL. subst. now apply in_map. }
  assert (EN : forall t, In t ts -> rget (base sh ul (T - D)) (key t) = Some (sh t)).
  { intros t I. apply LT in I. destruct (in_dec Req_EM_T t ul) as [J|J]. apply base_get; auto. destruct I as [I|I]; [contradiction|]. subst t.
    rewrite base_get_gt by auto. now rewrite ABS. }
  destruct (rgran_ok _ (key T) (key (T - D)) f (sh T) (EN T LTT) (ex_intro _ _ (EN _ LTD))) as [d' [H' [B1 [B2 [B3 [B4 _]]]]]].
  unfold sh in H'. rewrite H in H'. injection H' as <-.
  assert (ENT : forall k x, rget d k = Some x -> entry (lift d) k = x). { intros k x E. unfold entry. rewrite lift_dget, E. reflexivity. }
  unfold report_flux. rewrite <- (share_flux pts s w tm W (mixed F T D f) ts NW ND). 2:{ intros p I. apply LT. left. apply UL. now apply in_map. }
  fold sh. destruct (Req_dec D 0) as [D0|D0].
  - apply rsum_map_ext. intros t It. unfold mixed. destruct (Req_EM_T t T) as [->|N].
    + rewrite (ENT _ (sh T)). subst D. rewrite Rminus_0_r. ring. apply B4. f_equal. lra.
    + rewrite (ENT _ (sh t)). reflexivity. rewrite B1. now apply EN. intros K. apply N, DL; auto. intros K. apply N. apply DL in K; auto. lra.
  - assert (NE : key T <> key (T - D)). { intros K. apply DL in K; auto. lra. }
    rewrite (rsum_map_ext _ _ (fun t => F t * sh t + ((if Req_EM_T t T then - f * F t * sh t else 0) + (if Req_EM_T t (T - D) then f * F t * sh T else 0)))).
    2:{ intros t It. destruct (Req_EM_T t T) as [->|N1].
        - rewrite (ENT _ _ (B2 NE)). destruct (Req_EM_T T (T - D)). lra. ring.
        - destruct (Req_EM_T t (T - D)) as [->|N2]. rewrite (ENT _ _ (B3 NE _ (EN _ LTD))). ring.
          rewrite (ENT _ (sh t)). ring. rewrite B1. now apply EN. intros E. apply N1. apply DL; auto. intros E. apply N2. apply DL; auto. }
    rewrite rsum_map_plus, rsum_map_plus. rewrite (rsum_one ts T (fun t => - f * F t * sh t)), (rsum_one ts (T - D) (fun t => f * F t * sh T)) by auto.
    rewrite (rsum_map_ext _ (fun t => mixed F T D f t * sh t)
      (fun t => F t * sh t + (if Req_EM_T t T then (f * F (T - D) - f * F T) * sh t else 0))).
    2:{ intros t It. unfold mixed. destruct (Req_EM_T t T) as [->|]; ring. }
    rewrite rsum_map_plus. rewrite (rsum_one ts T (fun t => (f * F (T - D) - f * F T) * sh t)) by auto. ring.
Qed.
Definition mu64 (sn cs : R -> R) (lat0 lon0 : R) (p : R * R) : R := law_cos64 f64_round sn cs lat0 lon0 (fst p) (snd p).
Definition wgt64 (sn cs : R -> R) (s : star) (lat0 lon0 : R) (p : R * R) : R := ld_plot s (mu64 sn cs lat0 lon0 p) * (rarea_at (st_grid s) p * area_projection (mu64 sn cs lat0 lon0 p)).
Lemma cells_new : forall gt ul, negb (existsb (fun t => neq (Fin gt) t) (map Fin ul)) = if in_dec Req_EM_T gt ul then false else true.
Proof.
  intros gt ul. destruct (in_dec Req_EM_T gt ul) as [I|I].
  - apply negb_false_iff. apply existsb_exists. exists (Fin gt). split. apply in_map; auto. apply neq_fin; auto.
  - apply negb_true_iff. apply existsb_false. intros x J. apply in_map_iff in J. destruct J as [t [<- J]]. apply neq_fin_false. congruence.
Qed.
Lemma cov64_form : forall sn cs s lat0 lon0 T D tm f orbit planet phase incl tot cov pf,
  star_unified s -> good_grid (st_grid s) -> st_teff s = Fin T -> gr_dteff (st_gran s) = Fin D -> fcc_facs (st_facs s) = [] ->
  star_map s = Ok (amap (fun p => Fin (tm p)) (grid_points (st_grid s))) ->
  rsum (map (wgt64 sn cs s lat0 lon0) (cells (grid_points (st_grid s)))) <> 0 ->
  calc_coverage64 f64_round sn cs s lat0 lon0 (Fin f) orbit planet phase incl = Ok (tot, cov, pf) ->
  exists d, tot = lift d /\
  rgran (base (bval s (cells (grid_points (st_grid s))) (wgt64 sn cs s lat0 lon0) tm (rsum (map (wgt64 sn cs s lat0 lon0) (cells (grid_points (st_grid s))))))
    (runiq (map tm (cells (grid_points (st_grid s))))) (T - D)) (key T) (key (T - D)) f = Ok d.
Proof.
  intros sn cs s lat0 lon0 T D tm f orbit planet phase incl tot cov pf U G ET ED NF EM NW H.
  unfold calc_coverage64, star_jacobian in H. rewrite grid_area_good in H by auto. cbn [bind] in H. unfold star_mu64 in H. rewrite !amap_amap in H.
  rewrite amap2_amap in H. cbn [bind] in H. unfold add_faculae_to_map64 in H. rewrite NF, EM in H. cbn [bind paint_faculae64] in H.
  destruct (get_transit_mask64 _ _ _ _ _ _ _ _ _ _) as [[C pf']|]; [|discriminate]. cbn [bind] in H. cbv zeta in H.
  rewrite amap2_amap in H. cbn [bind] in H. rewrite !cells_amap in H.
  set (gp := grid_points (st_grid s)) in *. set (W := rsum (map (wgt64 sn cs s lat0 lon0) (cells gp))) in *. set (ul := runiq (map tm (cells gp))) in *.
  fold (mu64 sn cs lat0 lon0) in H.
  rewrite (amap_ext _ _ (fun x => nmul (Fin (rarea_at (st_grid s) x)) (Fin (area_projection (law_cos64 f64_round sn cs lat0 lon0 (fst x) (snd x)))))
             (fun x => Fin (rarea_at (st_grid s) x * area_projection (mu64 sn cs lat0 lon0 x)))) in H by (intros; apply nmul_fin).
  rewrite (nsum_map_fin _ _ (wgt64 sn cs s lat0 lon0)) in H.
  2:{ intros p _. rewrite !nmul_fin. auto. }
  fold W in H. rewrite <- (map_map tm Fin), nunique_fin in H. fold ul in H.
  destruct (coverage_loop _ _ _ _ _ _ _) as [[a b]|] eqn:EL; [|discriminate]. cbn [bind] in H.
  change (@nil (tkey * num), @nil (tkey * num)) with (lift [], @nil (tkey * num)) in EL.
  apply loop_fst in EL; auto. rewrite ET, ED, nsub_fin, cells_new in H. fold (key T) in H. fold (key (T - D)) in H.
  assert (B : (if (if in_dec Req_EM_T (T - D) ul then false else true) then dset tkey_eqb a (key (T - D)) (Fin 0) else a)
    = lift (base (bval s (cells gp) (wgt64 sn cs s lat0 lon0) tm W) ul (T - D))).
  { subst a. unfold base. destruct (in_dec _ _ _); [reflexivity|]. rewrite lift_dset. reflexivity. }
  rewrite B in H. rewrite granulate_lift in H.
  destruct (rgran (base _ ul (T - D)) (key T) (key (T - D)) f) as [d|] eqn:ER; cbn [rmap bind] in H; [|discriminate].
  destruct (granulate _ _ _ _) as [c|]; [|discriminate]. cbn [bind] in H. injection H as <- _ _. exists d. split; auto.
Qed.
Lemma u64_val : 18 * u64 <= 2 / 10^15.
Proof. rewrite <- u53. lra. Qed.
Lemma weights64 : forall sn cs s lat0 lon0, good_grid (st_grid s) -> accurate sn cs ->
  (forall p, In p (cells (grid_points (st_grid s))) -> Rabs (lon0 - snd p) <= 7) ->
  rsum (map (fun p => Rabs (wgt64 sn cs s lat0 lon0 p - wgt s lat0 lon0 p)) (cells (grid_points (st_grid s)))) <= 3 / 10^15 * steepness s.
Proof.
  intros sn cs s lat0 lon0 G A L. pose proof u64_val as UV.
  rewrite (rsum_map_ext _ _ (fun p => Rabs (rarea_at (st_grid s) p * gl s (mu64 sn cs lat0 lon0 p) - rarea_at (st_grid s) p * gl s (law_cos lat0 lon0 (fst p) (snd p))))).
  2:{ intros p _. rewrite wgt_gl. f_equal. unfold wgt64, gl. ring. }
  replace (3 / 10^15 * steepness s) with (3/2 * steepness s * (2 / 10^15)) by lra. apply (weights_close s _ _ (11/10)); auto; try lra.
  intros p I. pose proof (law_error sn cs lat0 lon0 (fst p) (snd p) A (L p I)) as E. fold (mu64 sn cs lat0 lon0 p) in E.
  pose proof (law_cos_bound lat0 lon0 (fst p) (snd p)) as LB. pose proof E as E'. apply Rabs_le_between in E'. split. lra. split. lra. lra.
Qed.
Lemma C129_rounding_lemma :
  forall label rnd sn cs s lat0 lon0 orbit planet phase incl C pf T D A M f F ts lo hi tot cov qf tot64 cov64 qf64,
  double_rounding rnd -> accurate sn cs -> two_decimals label -> disk_view s lat0 lon0 orbit planet phase incl T D A M C pf ->
  fcc_facs (st_facs s) = [] -> ld_nonneg s -> 3 / 10^15 * steepness s < disk s lat0 lon0 A ->
  (forall j i, pixel (st_grid s) j i -> Rabs (lon0 - pix_lon (st_grid s) j i) <= 7) ->
  distinct_labels label s M T D -> (appears (st_grid s) M T \/ D = 0) -> lists_temps s M T D ts ->
  calc_coverage s lat0 lon0 (Fin f) orbit planet phase incl = Ok (tot, cov, qf) ->
  calc_coverage64 rnd sn cs s lat0 lon0 (Fin f) orbit planet phase incl = Ok (tot64, cov64, qf64) ->
  0 <= f <= 1 -> between F ts lo hi ->
  Rabs (report_flux label F ts tot64 - report_flux label F ts tot)
  <= (hi - lo) * (3 / 10^15 * steepness s) / (disk s lat0 lon0 A - 3 / 10^15 * steepness s).
Proof.
  intros label rnd sn cs s lat0 lon0 orbit planet phase incl C pf T D A M f F ts lo hi tot cov qf tot64 cov64 qf64
    DR AC TD V NF LD DK LON DL AP LT H H64 Hf BT. apply double_rounding_eq in DR. subst rnd.
  set (e := 3 / 10^15 * steepness s) in *.
  assert (E0 : 0 < e). { unfold e, steepness. pose proof (Rabs_pos (st_u1 s)). pose proof (Rabs_pos (st_u2 s)). apply Rmult_lt_0_compat; lra. }
  destruct (C87_lemma _ _ _ _ _ _ _ _ _ _ _ _ _ _ f F ts TD V ltac:(lra) DL AP LT) as [t1 [c1 [K1 [R1' _]]]].
  rewrite H in K1. injection K1 as <- <- <-. rewrite R1'.
  destruct (view_form _ _ _ _ _ _ _ _ _ _ _ _ _ V) as [tm [cm [EA [EM [_ [_ [EW [_ [_ [Eap _]]]]]]]]]].
  pose proof (dv_unified _ _ _ _ _ _ _ _ _ _ _ _ _ V) as U. pose proof (dv_grid _ _ _ _ _ _ _ _ _ _ _ _ _ V) as G. pose proof (dv_area _ _ _ _ _ _ _ _ _ _ _ _ _ V) as HA.
  rewrite (flux_pts s _ _ A M tm) by auto.
  assert (SM : star_map s = Ok (amap (fun p => Fin (tm p)) (grid_points (st_grid s)))).
  { pose proof (dv_map _ _ _ _ _ _ _ _ _ _ _ _ _ V) as K. unfold add_faculae_to_map in K. rewrite NF in K. destruct (star_map s) as [m|]; [|discriminate].
    cbn [bind paint_faculae] in K. rewrite <- EM. exact K. }
  assert (LON' : forall p, In p (cells (grid_points (st_grid s))) -> Rabs (lon0 - snd p) <= 7).
  { intros p I. apply In_pt in I. destruct I as [j [i [P ->]]]. apply LON in P. exact P. }
  pose proof (weights64 sn cs s lat0 lon0 G AC LON') as WC. fold e in WC.
  set (pts := cells (grid_points (st_grid s))) in *. set (v := wgt64 sn cs s lat0 lon0) in *. set (w := wgt s lat0 lon0) in *.
  assert (VW : Rabs (rsum (map v pts) - rsum (map w pts)) <= e).
  { eapply Rle_trans; [|exact WC]. replace (_ - _) with (rsum (map (fun p => v p - w p) pts)). apply rsum_abs.
    rewrite (rsum_map_ext _ _ (fun p => v p + (-1) * w p)). rewrite rsum_map_plus, rsum_map_scal. ring. intros; ring. }
  apply Rabs_le_between in VW. rewrite EW in *.
  apply (cov64_form sn cs s lat0 lon0 T D tm) in H64; auto; try apply V.
  2:{ fold pts v. lra. }
  destruct H64 as [d [-> RG]]. fold pts v in RG. rewrite (two_decimals_eq label TD). fold key.
  rewrite (gran_flux s pts v tm (rsum (map v pts)) T D f F (runiq (map tm pts)) ts d); auto; try lra.
  - eapply Rle_trans. apply (mean_close _ pts v w _ e lo hi); auto; try lra.
    + intros p I. apply wgt_nonneg; auto.
    + intros p I. destruct LT as [_ LT]. apply (mixed_between F ts); auto; apply LT. 2: now right. left. apply Eap, runiq_In, in_map. auto.
    + assert (LH : lo <= hi). { destruct LT as [_ LT]. assert (I : In (T - D) ts) by (apply LT; now right). pose proof (BT _ I). lra. }
      unfold Rdiv. apply Rmult_le_compat_l. apply Rmult_le_pos; lra. apply Rinv_le_contravar; lra.
  - apply sorted_NoDup, runiq_sorted.
  - intros t. apply runiq_In.
  - apply LT.
  - intros t. destruct LT as [_ LT]. rewrite LT. unfold listed. rewrite Eap. tauto.
  - destruct LT as [_ LT]. apply LT. destruct AP as [AP|AP]; [now left|right; lra].
  - intros t t' I I' K. destruct LT as [_ LT]. apply DL; try now apply LT. rewrite (two_decimals_eq label TD). exact K.
Qed.
Lemma mask64_behind : forall rnd sn cs s lat0 lon0 orbit planet phase incl, 0 < cos phase ->
  get_transit_mask64 rnd sn cs s lat0 lon0 orbit planet phase incl = get_transit_mask s lat0 lon0 orbit planet phase incl.
Proof.
  intros rnd sn cs s lat0 lon0 orbit planet phase incl H. unfold get_transit_mask64, get_transit_mask. destruct (planet_xy _ _ _ _) as [x y].
  rewrite (proj2 (Rltb_true 0 (cos phase))) by auto. reflexivity.
Qed.
Lemma C129_succeeds_lemma :
  forall rnd sn cs s lat0 lon0 orbit planet phase incl C pf T D A M f,
  double_rounding rnd -> accurate sn cs -> disk_view s lat0 lon0 orbit planet phase incl T D A M C pf ->
  fcc_facs (st_facs s) = [] -> ld_nonneg s -> 3 / 10^15 * steepness s < disk s lat0 lon0 A ->
  (forall j i, pixel (st_grid s) j i -> Rabs (lon0 - pix_lon (st_grid s) j i) <= 7) ->
  (appears (st_grid s) M T \/ D = 0) -> 0 < cos phase ->
  exists tot64 cov64, calc_coverage64 rnd sn cs s lat0 lon0 (Fin f) orbit planet phase incl = Ok (tot64, cov64, pf).
Proof.
  intros rnd sn cs s lat0 lon0 orbit planet phase incl C pf T D A M f DR AC V NF LD DK LON AP PH. apply double_rounding_eq in DR. subst rnd.
  destruct (view_form _ _ _ _ _ _ _ _ _ _ _ _ _ V) as [tm [cm [EA [EM [EC [_ [EW [_ [_ [Eap _]]]]]]]]]].
  pose proof (dv_grid _ _ _ _ _ _ _ _ _ _ _ _ _ V) as G. pose proof (dv_mask _ _ _ _ _ _ _ _ _ _ _ _ _ V) as VM.
  assert (SM : star_map s = Ok (amap (fun p => Fin (tm p)) (grid_points (st_grid s)))).
  { pose proof (dv_map _ _ _ _ _ _ _ _ _ _ _ _ _ V) as K. unfold add_faculae_to_map in K. rewrite NF in K. destruct (star_map s) as [m|]; [|discriminate].
    cbn [bind paint_faculae] in K. rewrite <- EM. exact K. }
  assert (LON' : forall p, In p (cells (grid_points (st_grid s))) -> Rabs (lon0 - snd p) <= 7).
  { intros p I. apply In_pt in I. destruct I as [j [i [P ->]]]. apply LON in P. exact P. }
  pose proof (weights64 sn cs s lat0 lon0 G AC LON') as WC. set (e := 3 / 10^15 * steepness s) in *.
  set (gp := grid_points (st_grid s)) in *. set (W := rsum (map (wgt64 sn cs s lat0 lon0) (cells gp))) in *.
  assert (NW : W <> 0).
  { assert (VW : Rabs (W - rsum (map (wgt s lat0 lon0) (cells gp))) <= e).
    { eapply Rle_trans; [|exact WC]. replace (_ - _) with (rsum (map (fun p => wgt64 sn cs s lat0 lon0 p - wgt s lat0 lon0 p) (cells gp))). apply rsum_abs.
      rewrite (rsum_map_ext _ _ (fun p => wgt64 sn cs s lat0 lon0 p + (-1) * wgt s lat0 lon0 p)). rewrite rsum_map_plus, rsum_map_scal. unfold W. ring. intros; ring. }
    apply Rabs_le_between in VW. rewrite EW in DK. lra. }
  set (ul := runiq (map tm (cells gp))) in *.
  unfold calc_coverage64, star_jacobian. rewrite grid_area_good by auto. cbn [bind]. unfold star_mu64. fold gp. rewrite !amap_amap.
  rewrite amap2_amap. cbn [bind]. unfold add_faculae_to_map64. rewrite NF, SM. cbn [bind paint_faculae64]. rewrite mask64_behind, VM by auto. cbn [bind]. cbv zeta.
  rewrite amap2_amap. cbn [bind]. rewrite !cells_amap. rewrite EC. fold gp.
  rewrite (amap_ext _ _ (fun x => nmul (Fin (rarea_at (st_grid s) x)) (Fin (area_projection (law_cos64 f64_round sn cs lat0 lon0 (fst x) (snd x)))))
             (fun x => Fin (rarea_at (st_grid s) x * area_projection (mu64 sn cs lat0 lon0 x)))) by (intros; apply nmul_fin).
  rewrite (nsum_map_fin _ _ (wgt64 sn cs s lat0 lon0)).
  2:{ intros p _. rewrite !nmul_fin. auto. }
  fold W. rewrite <- (map_map tm Fin), nunique_fin. fold ul.
  pose proof (loop_eq (st_grid s) tm (fun x => ld_plot s (mu64 sn cs lat0 lon0 x)) (fun x => rarea_at (st_grid s) x * area_projection (mu64 sn cs lat0 lon0 x)) cm W NW ul [] []) as L.
  fold gp in L. change (lift []) with (@nil (tkey * num)) in L. match goal with |- exists _ _, bind ?x _ = _ => match type of L with _ = ?r => replace x with r by (symmetry; exact L) end end. cbn [bind]. clear L.
  rewrite (dv_teff _ _ _ _ _ _ _ _ _ _ _ _ _ V), (dv_dteff _ _ _ _ _ _ _ _ _ _ _ _ _ V), nsub_fin, cells_new. fold (key T). fold (key (T - D)).
  assert (B : forall X, (if (if in_dec Req_EM_T (T - D) ul then false else true) then dset tkey_eqb (lift (foldd X ul [])) (key (T - D)) (Fin 0) else lift (foldd X ul []))
    = lift (base X ul (T - D))).
  { intros X. unfold base. destruct (in_dec _ _ _); [reflexivity|]. rewrite lift_dset. reflexivity. }
  rewrite !B, !granulate_lift.
  assert (K : forall X, exists d, rgran (base X ul (T - D)) (key T) (key (T - D)) f = Ok d).
  { intros X. assert (KT : exists p, rget (base X ul (T - D)) (key T) = Some p).
    { apply rget_some, base_keys. destruct AP as [AP|AP]. exists T. split; auto. left. now apply Eap. exists T. split; auto. right. lra. }
    destruct KT as [p KT]. destruct (rgran_ok _ (key T) (key (T - D)) f p KT (base_key_gt X ul (T - D))) as [d [E _]]. eauto. }
  match goal with |- context[rgran (base ?a ul (T - D)) (key T) (key (T - D)) f] => destruct (K a) as [d1 E1]; rewrite E1 end. cbn [rmap bind].
  match goal with |- context[rgran (base ?a ul (T - D)) (key T) (key (T - D)) f] => destruct (K a) as [d2 E2]; rewrite E2 end. cbn [rmap bind]. eauto.
Qed.
