(** Coverage by spots, as a fraction of the surface and of the disk, approaches the exact values. *)
From Coq Require Import Reals ZArith Bool List Lra Lia Permutation.
From Coq Require Classical_Prop.
From Coquelicot Require Import Coquelicot.
From Verif Require Import Num Py MConfig MHelpers MGrid MSpots MFaculae MStar Spec SpecStar SpecDisk SpecConv
  LBase LGrid LHelpers LCirc LQuad LGauss LSpotMap LSpotCov LStarFac LDisk LSym LSphere LConv LSpiral LStarCov LObserve LZonal LCap.
Import ListNotations.
Open Scope R_scope.

Lemma cap_rad_eq : forall Rs v, 0 < Rs -> view_ok Rs v -> spot_angular_radius (v_spot v) Rs = Fin (v_radius v).
Proof.
  intros Rs v HR [A [[B C] _]]. pose proof PI_RGT_0 as PP. assert (P2 : 0 < Rs ^ 2) by (apply pow_lt; auto).
  pose proof (COS_bound (v_radius v)) as CB.
  assert (E : v_area v * MSH_RSUN2 = 2 * PI * Rs ^ 2 * (1 - cos (v_radius v))) by (rewrite C; unfold MSH_RSUN2; field).
  destruct (ang_rad_fin (v_spot v) Rs (v_area v) A HR) as [-> _].
  - rewrite E. assert (0 <= 2 * PI * Rs ^ 2) by (apply Rmult_le_pos; lra). split. apply Rmult_le_pos; lra.
    replace (4 * PI * Rs ^ 2) with (2 * PI * Rs ^ 2 * 2) by ring. apply Rmult_le_compat_l; lra.
  - rewrite E. f_equal. replace (1 - 2 * PI * Rs ^ 2 * (1 - cos (v_radius v)) / (2 * PI * Rs ^ 2)) with (cos (v_radius v)) by (field; split; lra).
    apply acos_cos; auto.
Qed.
Lemma acos_lt_iff : forall m r, -1 <= m <= 1 -> 0 <= r <= PI -> (acos m < r <-> cos r < m).
Proof.
  intros m r Hm Hr. pose proof (acos_bound m) as B. split; intros H.
  - rewrite <- (cos_acos m) by auto. apply cos_decreasing_1; lra.
  - apply Rnot_le_lt. intro C. destruct (Req_dec (acos m) r) as [E|E]. subst r. rewrite cos_acos in H by auto. lra.
    pose proof (cos_decreasing_1 r (acos m) ltac:(lra) ltac:(lra) ltac:(lra) ltac:(lra) ltac:(lra)) as X. rewrite cos_acos in X by auto. lra.
Qed.
Definition vmu (v : spot_view) := mu (sp_lat (v_spot v)) (sp_lon (v_spot v)).
Lemma pen_above : forall Rs v p, 0 < Rs -> view_ok Rs v -> (pen_b (v_spot v) Rs (Fin (sep (v_spot v) p)) = true <-> cos (v_radius v) < vmu v (fst p) (snd p)).
Proof.
  intros Rs v p HR V. unfold pen_b. rewrite cap_rad_eq by auto. cbn [nlt]. rewrite Rltb_true. unfold sep, vmu, mu. apply acos_lt_iff.
  apply law_cos_bound. apply V.
Qed.
Lemma umbra_le : forall Rs v, view_ok Rs v -> 0 <= v_umbra v <= v_radius v.
Proof.
  intros Rs v [_ [[B _] [q [_ [Q ->]]]]]. pose proof (sqrt_le_1_alt 1 q Q) as S. rewrite sqrt_1 in S. split. apply Rdiv_le_0_compat; lra.
  apply Rmult_le_reg_r with (sqrt q). lra. unfold Rdiv. rewrite Rmult_assoc, Rinv_l by lra. nra.
Qed.
Lemma umb_above : forall Rs v p tu tp, 0 < Rs -> view_ok Rs v -> sp_teff_umbra (v_spot v) = Fin tu -> sp_teff_pen (v_spot v) = Fin tp -> tu <> tp ->
  (umb_b (v_spot v) Rs (Fin (sep (v_spot v) p)) = true <-> cos (v_umbra v) < vmu v (fst p) (snd p)).
Proof.
  intros Rs v p tu tp HR V Tu Tp N. pose proof (umbra_le Rs v V) as U. destruct V as [A [C [q [E [Q W]]]]]. assert (V : view_ok Rs v) by (split; eauto).
  unfold umb_b. rewrite Tu, Tp. replace (teff_key_eqb (Fin tp) (Fin tu)) with false.
  2:{ symmetry. unfold teff_key_eqb. cbn [neq nisnan andb]. rewrite orb_false_r. apply Reqb_false. auto. }
  rewrite cap_rad_eq by auto. rewrite E. rewrite nsqrt_fin by lra. rewrite ndiv_fin by (pose proof (sqrt_le_1_alt 1 q Q) as S; rewrite sqrt_1 in S; lra).
  cbn [nlt]. rewrite Rltb_true. rewrite <- W. unfold sep, vmu, mu. apply acos_lt_iff. apply law_cos_bound. destruct C as [C _]. lra.
Qed.
Lemma umb_pen : forall Rs v p, 0 < Rs -> view_ok Rs v -> umb_b (v_spot v) Rs (Fin (sep (v_spot v) p)) = true -> pen_b (v_spot v) Rs (Fin (sep (v_spot v) p)) = true.
Proof.
  intros Rs v p HR V. unfold umb_b. destruct (teff_key_eqb _ _); auto. unfold pen_b. pose proof (umbra_le Rs v V) as U.
  destruct V as [A [C [q [E [Q W]]]]]. rewrite cap_rad_eq by (auto; split; eauto). rewrite E, nsqrt_fin by lra.
  rewrite ndiv_fin by (pose proof (sqrt_le_1_alt 1 q Q) as S; rewrite sqrt_1 in S; lra). cbn [nlt]. rewrite !Rltb_true, <- W. lra.
Qed.

(** caps that are apart share no point *)
Lemma apart_points : forall Rs v w lat lon, view_ok Rs v -> view_ok Rs w -> apart v w ->
  cos (v_radius v) < vmu v lat lon -> cos (v_radius w) < vmu w lat lon -> False.
Proof.
  intros Rs v w lat lon V W Ap H1 H2. destruct V as [_ [[R1 _] _]]. destruct W as [_ [[R2 _] _]].
  set (th := sp_lat (v_spot v)) in *. set (l := sp_lon (v_spot v)) in *. set (th' := sp_lat (v_spot w)) in *. set (l' := sp_lon (v_spot w)) in *.
  unfold vmu in *. fold th l in H1. fold th' l' in H2.
  specialize (Ap (acos (mu th l th' l'))).
  assert (An : is_angle th l th' l' (acos (mu th l th' l'))).
  { split. apply acos_bound. rewrite cos_acos by apply law_cos_bound. apply law_cos_dot. }
  specialize (Ap An). set (a := acos (mu th l th' l')) in *.
  pose proof (law_cos_bound th l lat lon) as Bm. fold (mu th l lat lon) in Bm. pose proof (law_cos_bound th' l' lat lon) as Bm'. fold (mu th' l' lat lon) in Bm'.
  apply acos_lt_iff in H1; auto. apply acos_lt_iff in H2; auto.
  set (b := acos (mu th l lat lon)) in *. set (b' := acos (mu th' l' lat lon)) in *.
  pose proof (acos_bound (mu th l th' l')) as Ba. fold a in Ba. pose proof (acos_bound (mu th l lat lon)) as Bb. fold b in Bb. pose proof (acos_bound (mu th' l' lat lon)) as Bb'. fold b' in Bb'.
  (* mu' <= cos (a - b) *)
  assert (X : mu th' l' lat lon <= cos (a - b)).
  { rewrite (frame_split th l). pose proof (frame_norm th l th' l') as N1. pose proof (frame_norm th l lat lon) as N2.
    replace (mu th l th' l') with (cos a) in * by (unfold a; rewrite cos_acos; auto; apply law_cos_bound).
    replace (mu th l lat lon) with (cos b) in * by (unfold b; rewrite cos_acos; auto).
    rewrite cos_minus. assert (Sa : 0 <= sin a) by (apply sin_ge_0; lra). assert (Sb : 0 <= sin b) by (apply sin_ge_0; lra).
    pose proof (sin2_cos2 a) as Qa. pose proof (sin2_cos2 b) as Qb. unfold Rsqr in *.
    set (x := e1 th l th' l') in *. set (y := e2 l th' l') in *. set (u := e1 th l lat lon) in *. set (z := e2 l lat lon) in *.
    assert (Y : (x * u + y * z) * (x * u + y * z) <= (sin a * sin b) * (sin a * sin b)).
    { replace ((sin a * sin b) * (sin a * sin b)) with ((sin a * sin a) * (sin b * sin b)) by ring.
      replace (sin a * sin a) with (x * x + y * y) by (simpl in N1; lra). replace (sin b * sin b) with (u * u + z * z) by (simpl in N2; lra).
      pose proof (Rle_0_sqr (x * z - y * u)) as E0. unfold Rsqr in E0. lra. }
    assert (0 <= sin a * sin b) by (apply Rmult_le_pos; auto). assert (x * u + y * z <= sin a * sin b) by nra. lra. }
  assert (b' < a - b) by lra. assert (Z : cos (a - b) < cos b') by (apply cos_decreasing_1; lra).
  unfold b' in Z. rewrite cos_acos in Z by auto. lra.
Qed.

(** sums of indicator functions *)
Definition isum (f : spot_view -> R) (vs : list spot_view) (lat lon : R) : R := rsum (map (fun v => above (f v) (vmu v lat lon)) vs).
Lemma isum_apart : forall Rs (f : spot_view -> R) vs lat lon, (forall v, In v vs -> view_ok Rs v) -> ForallOrdPairs apart vs ->
  (forall v, In v vs -> cos (v_radius v) <= f v) ->
  (exists v, In v vs /\ f v < vmu v lat lon) /\ isum f vs lat lon = 1 \/ (forall v, In v vs -> vmu v lat lon <= f v) /\ isum f vs lat lon = 0.
Proof.
  intros Rs f vs lat lon V Ap C. induction vs as [|v vs IH]. right. split; auto. intros v [].
  inversion Ap; subst. assert (IH' := IH ltac:(intros; apply V; right; auto) H2 ltac:(intros; apply C; right; auto)). clear IH.
  unfold isum in *. cbn [map rsum fold_right]. fold (rsum (map (fun v => above (f v) (vmu v lat lon)) vs)). unfold above at 1 3. destruct (Rlt_dec (f v) (vmu v lat lon)) as [Q|Q].
  - left. split. exists v. split; [left|]; auto. destruct IH' as [[[w [I K]] _]|[_ E]].
    + exfalso. rewrite Forall_forall in H1. apply (apart_points Rs v w lat lon). apply V; left; auto. apply V; right; auto. auto.
      pose proof (C v (or_introl eq_refl)); lra. pose proof (C w (or_intror I)); lra.
    + rewrite E. lra.
  - destruct IH' as [[[w [I K]] E]|[K E]].
    + left. split. exists w. split; [right|]; auto. rewrite E. lra.
    + right. split. intros w [<-|I]; auto. lra. rewrite E; lra.
Qed.
Lemma isum_ge : forall f vs lat lon, (exists v, In v vs /\ f v < vmu v lat lon) -> 1 <= isum f vs lat lon.
Proof.
  intros f vs lat lon [v [I H]]. unfold isum.
  assert (P : forall l, 0 <= rsum (map (fun v => above (f v) (vmu v lat lon)) l)).
  { intros. apply rsum_nonneg. intros x Hx. apply in_map_iff in Hx. destruct Hx as [w [<- _]]. unfold above. destruct (Rlt_dec _ _); lra. }
  induction vs as [|w vs IH]. destruct I. cbn [map rsum fold_right]. fold (rsum (map (fun v => above (f v) (vmu v lat lon)) vs)).
  destruct I as [->|I]. unfold above at 1. destruct (Rlt_dec _ _); [|lra]. pose proof (P vs). lra.
  specialize (IH I). unfold above at 1. destruct (Rlt_dec _ _); lra.
Qed.
Lemma gsum_rsum : forall g A (F : A -> R -> R -> R) l, gsum g (fun lat lon => rsum (map (fun a => F a lat lon) l)) = rsum (map (fun a => gsum g (F a)) l).
Proof.
  intros. induction l; cbn [map rsum fold_right].
  - unfold gsum. apply rsum_zero. intros. ring.
  - rewrite gsum_plus. f_equal. apply IHl.
Qed.
Lemma rsum_minus : forall A (f h : A -> R) l, rsum (map f l) - rsum (map h l) = rsum (map (fun x => f x - h x) l).
Proof. intros. induction l; cbn [map rsum fold_right]; unfold rsum in *; lra. Qed.
Lemma rsum_close : forall A (f h : A -> R) e l, (forall x, In x l -> Rabs (f x - h x) <= e) -> Rabs (rsum (map f l) - rsum (map h l)) <= INR (length l) * e.
Proof.
  intros. replace (rsum (map f l) - rsum (map h l)) with (rsum (map (fun x => f x - h x) l)). apply rabs_rsum; auto.
  clear H. induction l; cbn [map rsum fold_right]; unfold rsum in *; lra.
Qed.
Lemma covb_view : forall Rs vs p, 0 < Rs -> (forall v, In v vs -> view_ok Rs v) ->
  (covb Rs (map v_spot vs) p = true <-> exists v, In v vs /\ cos (v_radius v) < vmu v (fst p) (snd p)).
Proof.
  intros Rs vs p HR V. unfold covb. rewrite existsb_exists. split.
  - intros [x [I E]]. apply in_map_iff in I. destruct I as [v [<- I]]. exists v. split; auto. apply (pen_above Rs); auto.
    apply orb_true_iff in E. destruct E as [E|E]; auto. apply umb_pen; auto.
  - intros [v [I E]]. exists (v_spot v). split. apply in_map; auto. apply orb_true_iff. left. apply (pen_above Rs); auto.
Qed.
Lemma C77_lemma : forall c Rs d vs, good_grid (sc_grid c) -> resolution (sc_grid c) d -> 0 < Rs -> sc_spots c = map v_spot vs ->
  (forall v, In v vs -> view_ok Rs v /\ spot_on (sc_grid c) (v_spot v) /\ fin_temps (v_spot v)) ->
  exists x, sc_get_coverage c Rs = Ok (Fin x)
    /\ x <= rsum (map (surface_fraction Rs) vs) + INR (length vs) * (101 * sqrt d)
    /\ (ForallOrdPairs apart vs -> Rabs (x - rsum (map (surface_fraction Rs) vs)) <= INR (length vs) * (101 * sqrt d)).
Proof.
  intros c Rs d vs G Q HR ES H. assert (V : forall v, In v vs -> view_ok Rs v) by (intros; apply H; auto). pose proof PI_RGT_0 as PP.
  exists (covsum (sc_grid c) Rs (map v_spot vs)). split.
  { rewrite <- ES. apply sc_get_coverage_eq; auto. rewrite ES. intros s I. apply in_map_iff in I. destruct I as [v [<- I]]. apply H; auto. }
  set (f := fun v => cos (v_radius v)). set (g := sc_grid c) in *.
  assert (X : Rabs (gsum g (isum f vs) - rsum (map (surface_fraction Rs) vs)) <= INR (length vs) * (101 * sqrt d)).
  { unfold isum. rewrite gsum_rsum. apply rsum_close. intros v I. unfold vmu. 
    replace (surface_fraction Rs v) with ((1 - cos (v_radius v)) / 2).
    - apply cap_area; auto. apply COS_bound.
    - destruct (V v I) as [_ [[_ C] _]]. unfold surface_fraction. rewrite <- C. field. split; [apply Rgt_not_eq; auto|lra]. }
  split.
  - assert (Y : covsum g Rs (map v_spot vs) <= gsum g (isum f vs)).
    { unfold covsum, gsum. apply rsum_map_le. intros p I. apply Rmult_le_compat_l. apply rarea_nonneg; auto.
      destruct (covb Rs (map v_spot vs) p) eqn:E. apply isum_ge. apply covb_view in E; auto.
      apply rsum_nonneg. intros x Hx. apply in_map_iff in Hx. destruct Hx as [w [<- _]]. unfold above. destruct (Rlt_dec _ _); lra. }
    apply Rabs_le_between in X. lra.
  - intros Ap. replace (covsum g Rs (map v_spot vs)) with (gsum g (isum f vs)); auto.
    unfold covsum, gsum. apply rsum_map_ext. intros p I. f_equal.
    destruct (isum_apart Rs f vs (fst p) (snd p) V Ap) as [[K ->]|[K ->]]. intros; unfold f; lra.
    + apply (covb_view Rs vs p) in K; auto. rewrite K. auto.
    + destruct (covb Rs (map v_spot vs) p) eqn:E; auto. apply covb_view in E; auto. destruct E as [v [Iv E]]. specialize (K v Iv). unfold f in K. lra.
Qed.

(** ** the spots of a spotted star on the disk *)
Definition has (f : spot_view -> R) (vs : list spot_view) (p : R * R) : Prop := exists v, In v vs /\ cos (f v) < vmu v (fst p) (snd p).
Lemma above_dec : forall c m, above c m = 1 /\ c < m \/ above c m = 0 /\ m <= c.
Proof. intros. unfold above. destruct (Rlt_dec c m); [left|right]; split; lra. Qed.
Lemma fold_pv : forall Rs p T tu tp vs m, 0 < Rs -> tu < tp < T ->
  (forall v, In v vs -> view_ok Rs v) -> (forall v, In v vs -> sp_teff_umbra (v_spot v) = Fin tu /\ sp_teff_pen (v_spot v) = Fin tp) ->
  m = tu \/ m = tp \/ m = T ->
  exists x, fold_left (pv Rs p) (map v_spot vs) (Fin m) = Fin x
    /\ (x = tu /\ (m = tu \/ has v_umbra vs p) \/ x = tp /\ (m = tp \/ has v_radius vs p) /\ ~ has v_umbra vs p /\ m <> tu
        \/ x = T /\ m = T /\ ~ has v_radius vs p).
Proof.
  intros Rs p T tu tp vs m HR HO. revert m. induction vs as [|v vs IH]; intros m V Tm Hm.
  { exists m. split; auto. assert (N : forall f, ~ has f [] p) by (intros f [v [[] _]]). specialize (N v_umbra) as N1. specialize (N v_radius) as N2.
    destruct Hm as [->|[->| ->]]. left; auto. right; left. repeat split; auto; lra. right; right; auto. }
  cbn [map fold_left].
  assert (Vv : view_ok Rs v) by (apply V; left; auto). destruct (Tm v (or_introl eq_refl)) as [Tu Tp].
  pose proof (pen_above Rs v p HR Vv) as PA. pose proof (umb_above Rs v p tu tp HR Vv Tu Tp ltac:(lra)) as UA.
  pose proof (umb_pen Rs v p HR Vv) as UP.
  set (m' := if umb_b (v_spot v) Rs (Fin (sep (v_spot v) p)) then tu else if pen_b (v_spot v) Rs (Fin (sep (v_spot v) p)) then (if Req_EM_T m T then tp else m) else m).
  assert (E : pv Rs p (Fin m) (v_spot v) = Fin m').
  { unfold pv, m'. rewrite Tu, Tp. cbn [nlt]. destruct (umb_b _ _ _); cbn [andb].
    - destruct (Rltb tu m) eqn:K; auto. apply Rltb_false in K. replace (Rltb tp m) with false by (symmetry; apply Rltb_false; lra).
      rewrite andb_false_r. f_equal. lra.
    - destruct (pen_b _ _ _); cbn [andb]; auto. destruct (Rltb tp m) eqn:K; [apply Rltb_true in K|apply Rltb_false in K]; destruct (Req_EM_T m T); auto; lra. }
  rewrite E. assert (Hm' : m' = tu \/ m' = tp \/ m' = T).
  { unfold m'. destruct (umb_b _ _ _); auto. destruct (pen_b _ _ _); auto. destruct (Req_EM_T m T); auto. }
  destruct (IH m' ltac:(intros; apply V; right; auto) ltac:(intros; apply Tm; right; auto) Hm') as [x [Ex K]].
  exists x. split; auto.
  assert (HU : has v_umbra (v :: vs) p <-> umb_b (v_spot v) Rs (Fin (sep (v_spot v) p)) = true \/ has v_umbra vs p).
  { rewrite UA. split. intros [w [[<-|I] Q]]; auto. right; exists w; auto. intros [Q|[w [I Q]]]. exists v; split; [left|]; auto. exists w; split; [right|]; auto. }
  assert (HP : has v_radius (v :: vs) p <-> pen_b (v_spot v) Rs (Fin (sep (v_spot v) p)) = true \/ has v_radius vs p).
  { rewrite PA. split. intros [w [[<-|I] Q]]; auto. right; exists w; auto. intros [Q|[w [I Q]]]. exists v; split; [left|]; auto. exists w; split; [right|]; auto. }
  rewrite HU, HP. clear HU HP E IH PA UA. unfold m' in *. clear m'.
  destruct (umb_b _ _ _); [rewrite UP by auto|destruct (pen_b _ _ _)].
  - destruct K as [[-> K]|[[-> [K1 [K2 K3]]]|[-> [K1 K2]]]]. left; auto. lra. lra.
  - destruct (Req_EM_T m T) as [->|N].
    + destruct K as [[-> K]|[[-> [K1 [K2 K3]]]|[-> [K1 K2]]]].
      * left. split; auto. right. destruct K; [lra|auto].
      * right; left. split; auto. split; auto. split; [|lra]. intros [Z|Z]; [discriminate|auto].
      * lra.
    + destruct K as [[-> K]|[[-> [K1 [K2 K3]]]|[-> [K1 K2]]]].
      * left. split; auto. tauto.
      * right; left. split; auto. split; auto. split; [|auto]. intros [Z|Z]; [discriminate|auto].
      * lra.
  - assert (F : forall P : Prop, (false = true \/ P) <-> P) by (intros; split; [intros [?|?]; [discriminate|auto]|auto]). rewrite !F. auto.
Qed.
Lemma spotted_temp : forall s vs T D tu tp lat0 lon0 M tm, spotted s vs T D tu tp -> add_faculae_to_map s lat0 lon0 = Ok M ->
  M = amap (fun p => Fin (tm p)) (grid_points (st_grid s)) ->
  forall p, In p (cells (grid_points (st_grid s))) ->
    tm p = tu /\ has v_umbra vs p \/ tm p = tp /\ has v_radius vs p /\ ~ has v_umbra vs p \/ tm p = T /\ ~ has v_radius vs p.
Proof.
  intros s vs T D tu tp lat0 lon0 M tm HS HM EM p I. destruct HS. unfold add_faculae_to_map in HM. rewrite star_map_eq in HM by auto. cbn [bind] in HM.
  rewrite sd_facs in HM. cbn [paint_faculae] in HM. injection HM as HM. apply In_pt in I. destruct I as [j [i [P ->]]].
  assert (E : acell M j i NaN = Fin (tm (pt (st_grid s) (j, i)))) by (rewrite EM, acell_grid by auto; auto).
  rewrite <- HM in E. rewrite acell_grid in E by auto. fold (pt (st_grid s) (j, i)) in E. change (acell (grid_points (st_grid s)) j i (0, 0)) with (pt (st_grid s) (j, i)) in E.
  rewrite sd_spots, sd_teff in E. destruct (fold_pv (st_radius s) (pt (st_grid s) (j, i)) T tu tp vs T sd_radius sd_order sd_views sd_temps) as [x [Ex K]]; auto.
  rewrite Ex in E. injection E as <-. destruct K as [[-> K]|[[-> [K1 [K2 K3]]]|[-> [K1 K2]]]]; auto.
  - left. split; auto. destruct K; auto. lra.
  - right. left. split; auto. split; auto. destruct K1; auto. lra.
Qed.
Lemma wgt_bright : forall s lat0 lon0 p, wgt s lat0 lon0 p = rarea_at (st_grid s) p * bright (st_u1 s) (st_u2 s) (mu lat0 lon0 (fst p) (snd p)).
Proof.
  intros. unfold wgt, ld_plot, area_projection, mup. fold (mu lat0 lon0 (fst p) (snd p)). pose proof (law_cos_bound lat0 lon0 (fst p) (snd p)) as B.
  fold (mu lat0 lon0 (fst p) (snd p)) in B. set (m := mu lat0 lon0 (fst p) (snd p)) in *. destruct (Rltb 0 m) eqn:K; [apply Rltb_true in K|apply Rltb_false in K].
  - replace (Rltb m 0) with false by (symmetry; apply Rltb_false; lra). unfold bright. rewrite clamp_id by lra. ring.
  - rewrite bright_neg by lra. ring.
Qed.
Lemma bright_nonneg : forall s, ld_positive s -> forall m, 0 <= bright (st_u1 s) (st_u2 s) m.
Proof.
  intros s LP m. unfold bright. pose proof (clamp_range 0 1 m ltac:(lra)) as B. set (x := clamp 0 1 m) in *.
  destruct (Req_dec x 0) as [->|N]. lra. apply Rmult_le_pos; [lra|]. apply Rlt_le, LP. lra.
Qed.
Lemma ratio_close : forall SS DD s d e e', 0 <= SS <= DD -> 0 < DD -> 0 < d -> Rabs (SS - s) <= e -> Rabs (DD - d) <= e' -> Rabs (SS / DD - s / d) <= (e + e') / d.
Proof.
  intros. replace (SS / DD - s / d) with (((SS - s) + SS / DD * (d - DD)) / d) by (field; split; lra).
  unfold Rdiv at 1. rewrite Rabs_mult, (Rabs_right (/ d)) by (apply Rle_ge, Rlt_le, Rinv_0_lt_compat; auto). apply Rmult_le_compat_r. apply Rlt_le, Rinv_0_lt_compat; auto.
  eapply Rle_trans. apply Rabs_triang. apply Rplus_le_compat; auto. rewrite Rabs_mult.
  assert (Q : 0 <= SS / DD <= 1). { split. apply Rdiv_le_0_compat; lra. apply Rmult_le_reg_r with DD; auto. unfold Rdiv. rewrite Rmult_assoc, Rinv_l by lra. lra. }
  rewrite (Rabs_right (SS / DD)) by lra. rewrite (Rabs_minus_sym d DD). pose proof (Rabs_pos (DD - d)). nra.
Qed.
Lemma cover_core : forall label s vs lat0 lon0 orbit planet phase incl T D tu tp (cu cp : spot_view -> R) dl eD eC,
  two_decimals label -> spotted s vs T D tu tp -> fine_grid (st_grid s) -> ld_positive s -> - PI/2 <= lat0 <= PI/2 ->
  0 <= orbit -> 0 <= planet -> (planet <= st_radius s \/ cos phase <= 0) ->
  (forall t t', In t [tu; tp; T; T - D] -> In t' [tu; tp; T; T - D] -> label t = label t' -> t = t') ->
  0 < dl -> 0 <= eC ->
  Rabs (gsum (st_grid s) (fun lat lon => bright (st_u1 s) (st_u2 s) (mu lat0 lon0 lat lon)) - dl) <= eD ->
  (forall v, In v vs -> Rabs (gsum (st_grid s) (fun lat lon => above (cos (v_umbra v)) (vmu v lat lon) * bright (st_u1 s) (st_u2 s) (mu lat0 lon0 lat lon)) - cu v) <= eC) ->
  (forall v, In v vs -> Rabs (gsum (st_grid s) (fun lat lon => above (cos (v_radius v)) (vmu v lat lon) * bright (st_u1 s) (st_u2 s) (mu lat0 lon0 lat lon)) - cp v) <= eC) ->
  exists tot cov pf, calc_coverage s lat0 lon0 (Fin 0) orbit planet phase incl = Ok (tot, cov, pf)
   /\ Rabs (entry tot (label tu) - rsum (map cu vs) / dl) <= (INR (length vs) * eC + eD) / dl
   /\ Rabs (entry tot (label tp) - (rsum (map cp vs) - rsum (map cu vs)) / dl) <= (2 * INR (length vs) * eC + eD) / dl
   /\ Rabs (entry tot (label T) - (1 - rsum (map cp vs) / dl)) <= (INR (length vs) * eC + 2 * eD) / dl.
Proof.
  intros label s vs lat0 lon0 orbit planet phase incl T D tu tp cu cp dl eD eC TD HS FG LP L HO HP HC DL Hdl HeC HD HU HPn.
  assert (HS' := HS). destruct HS'. assert (G := fine_good _ FG).
  destruct (C71_lemma s lat0 lon0 orbit planet phase incl T D) as [A [M [C [pf [V [_ [DP _]]]]]]]; auto.
  { intros x I. rewrite sd_spots in I. apply in_map_iff in I. destruct I as [v [<- I]]. destruct (sd_temps v I) as [E1 E2]. split; [exists tu|exists tp]; auto. }
  { rewrite sd_facs. intros f []. }
  destruct (view_form _ _ _ _ _ _ _ _ _ _ _ _ _ V) as [tm [cm [EA [EM [EC [Hcm [ED [ES [_ [EAp _]]]]]]]]]].
  assert (Htm := spotted_temp s vs T D tu tp lat0 lon0 M tm HS (dv_map _ _ _ _ _ _ _ _ _ _ _ _ _ V) EM).
  set (gp := cells (grid_points (st_grid s))) in *. set (br := fun lat lon => bright (st_u1 s) (st_u2 s) (mu lat0 lon0 lat lon)) in *.
  assert (Ap : forall t, appears (st_grid s) M t -> t = tu \/ t = tp \/ t = T).
  { intros t K. apply EAp in K. apply runiq_In, in_map_iff in K. destruct K as [p [<- I]]. destruct (Htm p I) as [[-> _]|[[-> _]|[-> _]]]; auto. }
  assert (Li : forall t, listed s M T D t -> In t [tu; tp; T; T - D]).
  { intros t [K| ->]. apply Ap in K. simpl. intuition. simpl; auto. }
  assert (ApT : appears (st_grid s) M T).
  { apply EAp. apply runiq_In, in_map_iff. destruct sd_clear as [j [i [P K]]]. exists (pt (st_grid s) (j, i)). split; [|apply pt_In; auto].
    destruct (Htm _ (pt_In _ _ _ P)) as [[_ [v [I Q]]]|[[_ [[v [I Q]] _]]|[E _]]]; auto; exfalso.
    - specialize (K v I). unfold vmu, mu in Q. rewrite law_cos_dot in Q. pose proof (umbra_le _ _ (sd_views v I)) as UL. destruct (sd_views v I) as [_ [[RB _] _]].
      assert (cos (v_radius v) <= cos (v_umbra v)) by (apply cos_decr_1; lra). unfold pix_lat, pix_lon in K. unfold pt in Q. cbn [fst snd] in Q. lra.
    - specialize (K v I). unfold vmu, mu in Q. rewrite law_cos_dot in Q. unfold pix_lat, pix_lon in K. unfold pt in Q. cbn [fst snd] in Q. lra. }
  assert (DLL : distinct_labels label s M T D) by (intros t t' K1 K2; apply DL; auto).
  destruct (C51_label_lemma label s lat0 lon0 orbit planet phase incl T D A M C (Fin pf)) as [tot [cov [EQ [Hsh _]]]]; auto. lra.
  destruct (C53_label_lemma label s lat0 lon0 orbit planet phase incl T D A M C (Fin pf) 0) as [tot0 [cov0 [tot1 [cov1 [EQ0 [EQ1 HK]]]]]]; auto. lra.
  rewrite EQ in EQ0, EQ1. injection EQ0 as <- <-. injection EQ1 as <- <-. destruct (HK tot tot (or_introl eq_refl)) as [_ [Keys _]]. clear HK.
  assert (EN : forall t, In t [tu; tp; T; T - D] -> entry tot (label t) = bval s gp (wgt s lat0 lon0) tm (disk s lat0 lon0 A) t).
  { intros t It. rewrite <- ES. destruct (Classical_Prop.classic (listed s M T D t)) as [Y|Y].
    - unfold entry. destruct (Hsh t Y) as [-> _]. auto.
    - unfold entry. replace (dget tkey_eqb tot (label t)) with (@None num).
      + rewrite ES. unfold bval. rewrite rsum_zero. unfold Rdiv; ring. intros p I. destruct (Req_EM_T (tm p) t); auto.
        exfalso. apply Y. left. apply EAp. apply runiq_In, in_map_iff. eauto.
      + symmetry. apply (dget_None tkey_eqb tkey_eqb_spec). rewrite Keys. intros [t' [Y' E']]. apply Y. rewrite (DL t t'); auto. }
  assert (BN := bright_nonneg s LP).
  assert (WN : forall p, In p gp -> 0 <= wgt s lat0 lon0 p). { intros. rewrite wgt_bright. apply Rmult_le_pos; auto. apply rarea_nonneg; auto. }
  assert (EDg : disk s lat0 lon0 A = gsum (st_grid s) br). { rewrite ED. unfold gsum. apply rsum_map_ext. intros. apply wgt_bright. }
  assert (NN : forall f, 0 <= rsum (map (fun p => if f p : bool then wgt s lat0 lon0 p else 0) gp) <= disk s lat0 lon0 A).
  { intros f. rewrite ED. split. apply rsum_nonneg. intros x Ix. apply in_map_iff in Ix. destruct Ix as [p [<- I]]. destruct (f p); auto. lra.
    apply rsum_map_le. intros p I. destruct (f p); auto. lra. }
  assert (BR : forall t, 0 <= rsum (map (fun p => if Req_EM_T (tm p) t then wgt s lat0 lon0 p else 0) gp) <= disk s lat0 lon0 A).
  { intros t. replace (map (fun p => if Req_EM_T (tm p) t then wgt s lat0 lon0 p else 0) gp) with (map (fun p => if (if Req_EM_T (tm p) t then true else false) : bool then wgt s lat0 lon0 p else 0) gp).
    apply NN. apply map_ext. intros. destruct (Req_EM_T _ _); auto. }
  clear NN.
  (* sums of indicators *)
  assert (IS : forall f : spot_view -> R, (forall v, In v vs -> cos (v_radius v) <= cos (f v)) ->
     forall p, isum (fun v => cos (f v)) vs (fst p) (snd p) = 1 /\ has f vs p \/ isum (fun v => cos (f v)) vs (fst p) (snd p) = 0 /\ ~ has f vs p).
  { intros f Hf p. destruct (isum_apart (st_radius s) (fun v => cos (f v)) vs (fst p) (snd p) sd_views sd_apart Hf) as [[K ->]|[K ->]]. left; auto.
    right. split; auto. intros [v [I Q]]. specialize (K v I). lra. }
  assert (ISr := IS v_radius ltac:(intros; lra)).
  assert (ISu := IS v_umbra ltac:(intros v I; pose proof (umbra_le _ _ (sd_views v I)); destruct (sd_views v I) as [_ [[RB _] _]]; apply cos_decr_1; lra)). clear IS.
  assert (GS : forall f : spot_view -> R, gsum (st_grid s) (fun lat lon => isum (fun v => cos (f v)) vs lat lon * br lat lon)
      = rsum (map (fun v => gsum (st_grid s) (fun lat lon => above (cos (f v)) (vmu v lat lon) * br lat lon)) vs)).
  { intros f. rewrite <- gsum_rsum. unfold gsum. apply rsum_map_ext. intros p I. f_equal. unfold isum. 
    generalize vs. intros l. induction l; cbn [map rsum fold_right]; unfold rsum in *. ring. rewrite <- IHl. ring. }
  set (SU := gsum (st_grid s) (fun lat lon => isum (fun v => cos (v_umbra v)) vs lat lon * br lat lon)).
  set (SP := gsum (st_grid s) (fun lat lon => isum (fun v => cos (v_radius v)) vs lat lon * br lat lon)).
  assert (CU : Rabs (SU - rsum (map cu vs)) <= INR (length vs) * eC) by (unfold SU; rewrite GS; apply rsum_close; auto).
  assert (CP : Rabs (SP - rsum (map cp vs)) <= INR (length vs) * eC) by (unfold SP; rewrite GS; apply rsum_close; auto).
  assert (HUP : forall p, has v_umbra vs p -> has v_radius vs p).
  { intros p [v [I Q]]. exists v. split; auto. pose proof (umbra_le _ _ (sd_views v I)); destruct (sd_views v I) as [_ [[RB _] _]].
    assert (cos (v_radius v) <= cos (v_umbra v)) by (apply cos_decr_1; lra). lra. }
  assert (Eu : rsum (map (fun p => if Req_EM_T (tm p) tu then wgt s lat0 lon0 p else 0) gp) = SU).
  { unfold SU, gsum. apply rsum_map_ext. intros p I. rewrite wgt_bright. fold (br (fst p) (snd p)).
    destruct (Htm p I) as [[-> K]|[[-> [K1 K2]]|[-> K]]]; destruct (ISu p) as [[-> Q]|[-> Q]]; try tauto; destruct (Req_EM_T _ _); try lra.
    all: exfalso; auto. }
  assert (Ep : rsum (map (fun p => if Req_EM_T (tm p) tp then wgt s lat0 lon0 p else 0) gp) = SP - SU).
  { unfold SU, SP, gsum. rewrite rsum_minus. apply rsum_map_ext. intros p I. rewrite wgt_bright. fold (br (fst p) (snd p)).
    destruct (Htm p I) as [[-> K]|[[-> [K1 K2]]|[-> K]]]; destruct (ISu p) as [[-> Q]|[-> Q]]; destruct (ISr p) as [[-> Q']|[-> Q']]; try tauto; destruct (Req_EM_T _ _); try lra.
    all: exfalso; auto. }
  assert (Et : rsum (map (fun p => if Req_EM_T (tm p) T then wgt s lat0 lon0 p else 0) gp) = disk s lat0 lon0 A - SP).
  { rewrite EDg. unfold SP, gsum. rewrite rsum_minus. apply rsum_map_ext. intros p I. rewrite wgt_bright. fold (br (fst p) (snd p)).
    destruct (Htm p I) as [[-> K]|[[-> [K1 K2]]|[-> K]]]; destruct (ISu p) as [[_ Q]|[_ Q]]; destruct (ISr p) as [[-> Q']|[-> Q']]; try tauto; destruct (Req_EM_T _ _); try lra.
    all: exfalso; auto. }
  pose proof (BR tu) as Bu. pose proof (BR tp) as Bp. pose proof (BR T) as Bt. rewrite Eu in Bu. rewrite Ep in Bp. rewrite Et in Bt.
  exists tot, cov, (Fin pf). split; auto. rewrite !EN by (simpl; auto). unfold bval. rewrite Eu, Ep, Et. rewrite EDg in *.
  split; [|split].
  - apply ratio_close; auto.
  - apply ratio_close; auto. apply Rabs_le_between in CU. apply Rabs_le_between in CP. apply Rabs_le. lra.
  - replace (1 - rsum (map cp vs) / dl) with ((dl - rsum (map cp vs)) / dl) by (field; lra).
    eapply Rle_trans. apply (ratio_close _ _ _ _ (INR (length vs) * eC + eD) eD); auto.
    + assert (HD' := HD). apply Rabs_le_between in HD'. apply Rabs_le_between in CP. apply Rabs_le. lra.
    + unfold Rdiv. apply Rmult_le_compat_r. apply Rlt_le, Rinv_0_lt_compat; auto. lra.
Qed.
Lemma bright_00 : forall m, bright 0 0 m = clamp 0 1 m.
Proof. intros. unfold bright. ring. Qed.
Lemma mu_antipode : forall th l lat lon, mu (- th) (l + PI) lat lon = - mu th l lat lon.
Proof.
  intros. unfold mu, law_cos. rewrite sin_neg, cos_neg. replace (l + PI - lon) with ((l - lon) + PI) by ring. rewrite neg_cos. ring.
Qed.
Lemma mu_sym : forall th l th' l', mu th l th' l' = mu th' l' th l.
Proof. intros. unfold mu, law_cos. replace (l' - l) with (- (l - l')) by ring. rewrite cos_neg. ring. Qed.
Lemma gsum_zero : forall g f, (forall p, In p (cells (grid_points g)) -> f (fst p) (snd p) = 0) -> gsum g f = 0.
Proof. intros. unfold gsum. apply rsum_zero. intros. rewrite H by auto. ring. Qed.
Lemma sqrt_d : forall d, 0 < d <= 1 -> d <= sqrt d.
Proof. intros d H. pose proof (sqrt_sqrt d ltac:(lra)) as E. pose proof (sqrt_le_1_alt d 1 ltac:(lra)) as X. rewrite sqrt_1 in X. pose proof (sqrt_pos d). nra. Qed.
Lemma cap_seen : forall g d v lat0 lon0 r, good_grid g -> resolution g d -> 0 <= r <= v_radius v -> 0 <= v_radius v <= PI -> faces lat0 lon0 v ->
  Rabs (gsum g (fun lat lon => above (cos r) (vmu v lat lon) * bright 0 0 (mu lat0 lon0 lat lon)) - foreshortened v r / 4) <= 121 * sqrt d.
Proof.
  intros g d v lat0 lon0 r G Q Hr HR [[A1 A2] F].
  set (th := sp_lat (v_spot v)) in *. set (l := sp_lon (v_spot v)) in *.
  assert (E : mu th l lat0 lon0 = cos (v_angle v)). { rewrite mu_sym. unfold mu. rewrite law_cos_dot. auto. }
  pose proof PI_RGT_0 as PP. unfold foreshortened. destruct F as [F|F].
  - replace (gsum g _) with (gsum g (fun lat lon => above (cos r) (mu th l lat lon) * clamp 0 1 (mu lat0 lon0 lat lon))).
    2:{ unfold gsum. apply rsum_map_ext. intros. rewrite bright_00. auto. }
    replace (Rmax 0 (cos (v_angle v)) * sin r ^ 2 / 4) with (mu th l lat0 lon0 * (sin r * sin r) / 4).
    + apply cap_projected; auto. lra. rewrite E, acos_cos by auto. lra.
    + rewrite E. rewrite Rmax_right by (apply cos_ge_0; lra). field.
  - rewrite Rmax_left by (apply cos_le_0; lra). rewrite gsum_zero. rewrite Rmult_0_l. replace (0 - 0 / 4) with 0 by field. rewrite Rabs_R0. pose proof (sqrt_pos d). lra.
    intros p I. unfold vmu. fold th l. destruct (above_dec (cos r) (mu th l (fst p) (snd p))) as [[-> K]|[-> K]]; [|ring].
    rewrite bright_neg. ring. pose proof (visible_cap th l (- lat0) (lon0 + PI) (fst p) (snd p) r K ltac:(lra)) as X.
    assert (Y : acos (mu th l (- lat0) (lon0 + PI)) = PI - v_angle v).
    { rewrite mu_sym, mu_antipode, mu_sym, E. rewrite acos_opp, acos_cos by auto. auto. }
    rewrite mu_antipode in X. rewrite Y in X. specialize (X ltac:(lra)). lra.
Qed.
Lemma C78_lemma : forall label s vs lat0 lon0 orbit planet phase incl T D tu tp d,
  two_decimals label -> spotted s vs T D tu tp -> fine_grid (st_grid s) -> resolution (st_grid s) d -> - PI/2 <= lat0 <= PI/2 ->
  0 <= orbit -> 0 <= planet -> (planet <= st_radius s \/ cos phase <= 0) ->
  (forall t t', In t [tu; tp; T; T - D] -> In t' [tu; tp; T; T - D] -> label t = label t' -> t = t') ->
  st_u1 s = 0 -> st_u2 s = 0 -> (forall v, In v vs -> faces lat0 lon0 v) ->
  exists tot cov pf, calc_coverage s lat0 lon0 (Fin 0) orbit planet phase incl = Ok (tot, cov, pf)
   /\ let umbra := rsum (map (fun v => foreshortened v (v_umbra v)) vs) in
      let all := rsum (map (fun v => foreshortened v (v_radius v)) vs) in
      let err := (968 * INR (length vs) + 320) * sqrt d in
      Rabs (entry tot (label tu) - umbra) <= err
      /\ Rabs (entry tot (label tp) - (all - umbra)) <= err
      /\ Rabs (entry tot (label T) - (1 - all)) <= err.
Proof.
  intros label s vs lat0 lon0 orbit planet phase incl T D tu tp d TD HS FG Q L HO HP HC DL U1 U2 HF.
  assert (LP : ld_positive s) by (intros m Hm; rewrite U1, U2; lra). assert (G := fine_good _ FG).
  assert (Qd : 0 < d <= 1) by apply Q. pose proof (sqrt_d d Qd) as SD. pose proof (sqrt_pos d) as SP.
  assert (B0 : brint 0 0 0 / 2 = 1 / 4) by (unfold brint; field).
  assert (VO := sd_views _ _ _ _ _ _ HS).
  destruct (cover_core label s vs lat0 lon0 orbit planet phase incl T D tu tp
    (fun v => foreshortened v (v_umbra v) / 4) (fun v => foreshortened v (v_radius v) / 4) (1 / 4) (40 * sqrt d) (121 * sqrt d)) as [tot [cov [pf [E [K1 [K2 K3]]]]]]; auto; try lra.
  - rewrite U1, U2. eapply Rle_trans. rewrite <- B0. apply (disk_total _ d); auto. unfold brightB, brightL. rewrite Rabs_R0. lra.
  - intros v I. rewrite U1, U2. apply cap_seen; auto. apply (umbra_le (st_radius s)); auto. apply (VO v I).
  - intros v I. rewrite U1, U2. destruct (VO v I) as [_ [[RB _] _]]. apply cap_seen; auto. lra.
  - exists tot, cov, pf. split; auto. intros umbra all err.
    assert (W : forall f : spot_view -> R, rsum (map (fun v => f v / 4) vs) = rsum (map f vs) / 4).
    { intros. unfold Rdiv. rewrite Rmult_comm, <- rsum_map_scal. apply rsum_map_ext. intros; ring. }
    rewrite !W in *. fold umbra all in K1, K2, K3. pose proof (pos_INR (length vs)) as PN.
    replace (umbra / 4 / (1 / 4)) with umbra in K1 by field. replace ((all / 4 - umbra / 4) / (1 / 4)) with (all - umbra) in K2 by field.
    replace (all / 4 / (1 / 4)) with all in K3 by field.
    assert (0 <= INR (length vs) * sqrt d) by (apply Rmult_le_pos; auto).
    unfold err. split; [|split]; (eapply Rle_trans; [eassumption|]); unfold Rdiv; lra.
Qed.
Lemma C79_lemma : forall label s v lat0 lon0 orbit planet phase incl T D tu tp d,
  two_decimals label -> spotted s [v] T D tu tp -> fine_grid (st_grid s) -> resolution (st_grid s) d -> - PI/2 <= lat0 <= PI/2 ->
  0 <= orbit -> 0 <= planet -> (planet <= st_radius s \/ cos phase <= 0) ->
  (forall t t', In t [tu; tp; T; T - D] -> In t' [tu; tp; T; T - D] -> label t = label t' -> t = t') ->
  ld_positive s -> sp_lat (v_spot v) = lat0 -> sp_lon (v_spot v) = lon0 -> v_radius v <= PI / 2 ->
  exists tot cov pf, calc_coverage s lat0 lon0 (Fin 0) orbit planet phase incl = Ok (tot, cov, pf)
   /\ let light r := disk_light (st_u1 s) (st_u2 s) (cos r) in
      let whole := disk_light (st_u1 s) (st_u2 s) 0 in
      let err := 804 * (1 + Rabs (st_u1 s) + Rabs (st_u2 s)) * sqrt d / whole in
      0 < whole
      /\ Rabs (entry tot (label tu) - light (v_umbra v) / whole) <= err
      /\ Rabs (entry tot (label tp) - (light (v_radius v) - light (v_umbra v)) / whole) <= err
      /\ Rabs (entry tot (label T) - (1 - light (v_radius v) / whole)) <= err.
Proof.
  intros label s v lat0 lon0 orbit planet phase incl T D tu tp d TD HS FG Q L HO HP HC DL LP EL1 EL2 RB.
  assert (G := fine_good _ FG). assert (Qd : 0 < d <= 1) by apply Q. pose proof (sqrt_d d Qd) as SD. pose proof (sqrt_pos d) as SP.
  assert (VO := sd_views _ _ _ _ _ _ HS v (or_introl eq_refl)). pose proof (umbra_le _ _ VO) as UL.
  set (u1 := st_u1 s) in *. set (u2 := st_u2 s) in *.
  assert (LI : forall c, 0 <= c <= 1 -> disk_light u1 u2 c = brint u1 u2 c).
  { intros c Hc. rewrite <- bright_int by auto. unfold disk_light. apply RInt_ext. intros x Hx. rewrite Rmin_left, Rmax_right in Hx by lra.
    unfold bright. rewrite clamp_id by lra. auto. }
  assert (BN : forall m, 0 <= bright u1 u2 m) by (apply bright_nonneg; auto).
  assert (WP : 0 < brint u1 u2 0).
  { pose proof (LP (2/3) ltac:(lra)) as P1. pose proof (LP 1 ltac:(lra)) as P2. pose proof (LP (1/3) ltac:(lra)) as P3.
    pose proof (LP (1/2) ltac:(lra)) as P4. fold u1 u2 in P1, P2, P3, P4. unfold brint. clear - P1 P2 P3 P4. nra. }
  assert (CR : 0 <= cos (v_radius v) <= 1) by (split; [apply cos_ge_0; lra|apply COS_bound]).
  assert (CU : 0 <= cos (v_umbra v) <= 1) by (split; [apply cos_ge_0; lra|apply COS_bound]).
  set (B := 1 + Rabs u1 + Rabs u2). pose proof (Rabs_pos u1) as A1. pose proof (Rabs_pos u2) as A2.
  assert (BL : brightL u1 u2 <= 3 * B) by (unfold brightL, B; lra). assert (BB : brightB u1 u2 = B) by reflexivity. assert (B1 : 1 <= B) by (unfold B; lra).
  set (eD := 20 * (B + brightL u1 u2) * sqrt d). set (eC := (101 * B + 20 * brightL u1 u2) * sqrt d).
  assert (L0 : 0 <= brightL u1 u2) by (unfold brightL; lra).
  destruct (cover_core label s [v] lat0 lon0 orbit planet phase incl T D tu tp
    (fun v => brint u1 u2 (cos (v_umbra v)) / 2) (fun v => brint u1 u2 (cos (v_radius v)) / 2) (brint u1 u2 0 / 2) eD eC) as [tot [cov [pf [E [K1 [K2 K3]]]]]]; auto; try lra.
  - unfold eC. apply Rmult_le_pos; lra.
  - eapply Rle_trans. apply (disk_total _ d); auto. unfold eD. rewrite BB. apply Rmult_le_compat_l; lra.
  - intros w [<-|[]]. unfold vmu. rewrite EL1, EL2. unfold eC. rewrite <- BB. apply (cap_centre _ d); auto.
  - intros w [<-|[]]. unfold vmu. rewrite EL1, EL2. unfold eC. rewrite <- BB. apply (cap_centre _ d); auto.
  - exists tot, cov, pf. split; auto. intros light whole err. unfold light, whole in *. unfold err. rewrite !LI by lra. split; auto.
    cbn [map rsum fold_right length] in K1, K2, K3. change (INR 1) with 1 in *.
    set (W := brint u1 u2 0) in *. set (x := brint u1 u2 (cos (v_umbra v))) in *. set (y := brint u1 u2 (cos (v_radius v))) in *.
    assert (Z : forall e, e <= 402 * B * sqrt d -> e / (W / 2) <= 804 * B * sqrt d / W).
    { intros e He. replace (e / (W / 2)) with (2 * e / W) by (field; lra). apply Rmult_le_compat_r. apply Rlt_le, Rinv_0_lt_compat; auto. lra. }
    assert (S1 : brightL u1 u2 * sqrt d <= 3 * B * sqrt d) by (apply Rmult_le_compat_r; auto).
    assert (S2 : 0 <= B * sqrt d) by (apply Rmult_le_pos; lra).
    fold B. split; [|split].
    + replace (x / W) with ((x / 2 + 0) / (W / 2)) by (field; lra). eapply Rle_trans. apply K1. apply Z. unfold eC, eD. lra.
    + replace ((y - x) / W) with ((y / 2 + 0 - (x / 2 + 0)) / (W / 2)) by (field; lra). eapply Rle_trans. apply K2. apply Z. unfold eC, eD. lra.
    + replace (y / W) with ((y / 2 + 0) / (W / 2)) by (field; lra). eapply Rle_trans. apply K3. apply Z. unfold eC, eD. lra.
Qed.
