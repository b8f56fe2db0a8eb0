(** Warnings *)
From Coq Require Import Reals ZArith Bool List Lra Lia Permutation.
From Verif Require Import Num Py MConfig MHelpers MGrid MSpots MFaculae MXoflares MGranules MStar MWarn Spec SpecStar SpecDisk SpecConv SpecDepth SpecWarn
  LBase LGrid LHelpers LCirc LFac LFlare LSpotMap LSpotCov LStarFac LTransit LDisk LStar LStarCov LObserve LSphere LDepth.
Import ListNotations.
Open Scope R_scope.

(** ** The resolution warning *)
Definition reachb (lat0 lon0 px py rp : R) (p : R * R) (ar : R) : bool :=
  match pixel_reached lat0 lon0 (Fin px) (Fin py) (Fin rp) p (Fin ar) with Some _ => true | None => false end.
Lemma pixel_reached_spec : forall lat0 lon0 px py rp p ar, - PI/2 <= lat0 <= PI/2 -> - PI/2 <= fst p <= PI/2 -> 0 <= ar ->
  let mu := cos_sep lat0 lon0 (fst p) (snd p) in
  (forall r, pixel_reached lat0 lon0 (Fin px) (Fin py) (Fin rp) p (Fin ar) = Some r -> r = Fin (2 * sqrt ar * mu))
  /\ (reachb lat0 lon0 px py rp p ar = true <->
       0 <= mu /\ exists x y, proj_ortho lat0 lon0 p = (Fin x, Fin y) /\ sqrt ((x - px)^2 + (y - py)^2) <= rp + 2 * (2 * sqrt ar * mu)).
Proof.
  intros lat0 lon0 px py rp [lat lon] ar H0 H1 Ha mu. cbn [fst snd] in *.
  destruct (C08_lemma lat0 lon0 lat lon H0 H1) as [HN HV].
  unfold reachb, pixel_reached. cbn [fst snd]. rewrite (law_cos_dot lat0 lon0 lat lon). fold mu in HN, HV |- *.
  destruct (Rlt_le_dec mu 0) as [N|V].
  - rewrite HN by auto. cbn [nsub]. cbn [nsq nmul nadd nsqrt nisnan]. rewrite orb_true_r. split. intros; discriminate. split. discriminate. intros; lra.
  - destruct HV as [x [y [E [_ [_ _]]]]]; auto. rewrite E.
    rewrite nsqrt_fin by auto. rewrite !nsub_fin, !nsq_fin, !nmul_fin, !nadd_fin.
    replace ((x - px) * (x - px) + (y - py) * (y - py)) with ((x - px)^2 + (y - py)^2) by ring.
    assert (0 <= (x - px)^2 + (y - py)^2) by (pose proof (pow2_ge_0 (x - px)); pose proof (pow2_ge_0 (y - py)); lra).
    rewrite nsqrt_fin by auto. unfold ngt. cbn [nlt nisnan]. rewrite orb_false_r.
    destruct (Rltb _ _) eqn:F; rb.
    + split. intros; discriminate. split. discriminate. intros [_ [x0 [y0 [Q L]]]]. assert (x = x0) by congruence. assert (y = y0) by congruence. subst x0 y0. lra.
    + split. intros r Q. congruence. split; auto. intros _. split; auto. exists x, y. split; auto.
Qed.
Lemma somes_map : forall A B (h : A -> option B) (k : A -> B) l,
  (forall x r, In x l -> h x = Some r -> r = k x) ->
  somes (map h l) = map k (filter (fun x => match h x with Some _ => true | None => false end) l).
Proof.
  induction l; simpl; intros; auto. destruct (h a) eqn:E; simpl.
  - f_equal. apply H; auto. apply IHl; intros; apply H; auto.
  - apply IHl; intros; apply H; auto.
Qed.
Lemma nsum_map_fin : forall A (k : A -> R) l, nsum (map (fun x => Fin (k x)) l) = Fin (rsum (map k l)).
Proof. intros. rewrite <- (map_map k Fin). apply nsum_fin. Qed.
Lemma resolution_fin : forall l rp, 0 < rp ->
  resolution_warnings (map Fin l) (Fin rp)
  = if list_eq_dec Req_EM_T l [] then []
    else if Rlt_dec (rp / 2) (rsum l / INR (length l)) then [WResolution (Fin ((2 * (rsum l / INR (length l)) / rp)^2))] else [].
Proof.
  intros l rp H. destruct l as [|x l]. reflexivity. destruct (list_eq_dec _ _ _); [discriminate|].
  unfold resolution_warnings. change (map Fin (x :: l)) with (Fin x :: map Fin l) at 1. cbv iota.
  rewrite nsum_fin, map_length.
  assert (0 < INR (length (x :: l))) by (apply lt_0_INR; simpl; lia). rewrite !ndiv_fin by lra.
  set (m := rsum (x :: l) / INR (length (x :: l))). rewrite nmul_fin. unfold ngt. cbn [nlt]. unfold Rltb.
  destruct (Rlt_dec (1 / 2 * rp) m), (Rlt_dec (rp / 2) m); try lra; auto.
  f_equal. f_equal. rewrite !nsq_fin, !nmul_fin. pose proof PI_RGT_0. assert (0 < PI * (rp * rp)) by (apply Rmult_lt_0_compat; auto; nra).
  rewrite !ndiv_fin by lra. f_equal. field. lra.
Qed.
Lemma transit_warnings_eq : forall s lat0 lon0 orbit planet phase incl, good_grid (st_grid s) -> - PI/2 <= lat0 <= PI/2 ->
  0 < st_radius s -> 0 < planet ->
  let g := st_grid s in let px := sky_x s orbit phase in let py := sky_y s orbit phase incl in let rp := sky_r s planet in
  sqrt (px^2 + py^2) <= 1 + 2 * rp -> cos phase <= 0 ->
  transit_warnings s lat0 lon0 orbit planet phase incl
  = Ok (resolution_warnings (map Fin (map (fun ji => 2 * sqrt (rarea_at g (pt g ji)) * mup lat0 lon0 (pt g ji))
          (filter (fun ji => reachb lat0 lon0 px py rp (pt g ji) (rarea_at g (pt g ji))) (idx g)))) (Fin rp)).
Proof.
  intros s lat0 lon0 orbit planet phase incl G L HR HP g px py rp Hd Hc.
  unfold transit_warnings. rewrite planet_xy_eq by auto.
  replace (orbit / st_radius s * - sin phase) with px by (unfold px, sky_x; ring).
  replace (orbit / st_radius s * - cos phase * cos incl) with py by (unfold py, sky_y; ring).
  rewrite ndiv_fin by lra. fold (sky_r s planet). fold rp. cbv zeta. rewrite !nsq_fin, nmul_fin, !nadd_fin.
  replace (px * px + py * py) with (px^2 + py^2) by ring.
  rewrite nsqrt_fin by (pose proof (pow2_ge_0 px); pose proof (pow2_ge_0 py); lra).
  unfold ngt. cbn [nlt]. rewrite (proj2 (Rltb_false _ _)) by auto. rewrite (proj2 (Rltb_false 0 _)) by auto.
  rewrite grid_area_good by auto. cbn [bind]. rewrite amap2_amap_r. cbn [bind]. f_equal. f_equal.
  rewrite cells_amap, cells_idx, map_map. fold g.
  rewrite (somes_map _ _ _ (fun ji => Fin (2 * sqrt (rarea_at g (pt g ji)) * mup lat0 lon0 (pt g ji)))).
  - rewrite map_map. reflexivity.
  - intros ji r I Q. assert (J : In (pt g ji) (cells (grid_points g))) by (rewrite cells_idx; apply in_map; auto).
    destruct (pixel_reached_spec lat0 lon0 px py rp (pt g ji) (rarea_at g (pt g ji)) L (cell_lat_range g _ G J) (rarea_nonneg _ _ G J)) as [X _].
    apply X in Q. rewrite Q. unfold mup. rewrite law_cos_dot. reflexivity.
Qed.
Lemma in_reach_iff : forall s lat0 lon0 px py rp j i, good_grid (st_grid s) -> - PI/2 <= lat0 <= PI/2 -> pixel (st_grid s) j i ->
  let g := st_grid s in
  reachb lat0 lon0 px py rp (pt g (j, i)) (rarea_at g (pt g (j, i))) = true
  <-> in_reach s lat0 lon0 px py rp (amap (fun p => Fin (rarea_at g p)) (grid_points g)) j i.
Proof.
  intros s lat0 lon0 px py rp j i G L P g. pose proof (pt_In _ _ _ P) as J. fold g in J.
  destruct (pixel_reached_spec lat0 lon0 px py rp (pt g (j, i)) (rarea_at g (pt g (j, i))) L (cell_lat_range g _ G J) (rarea_nonneg _ _ G J)) as [_ X].
  rewrite X. unfold in_reach, sky_size, cell_val. rewrite acell_grid by auto. change (acell (grid_points g) j i (0, 0)) with (pt g (j, i)).
  change (pix_mu s lat0 lon0 j i) with (cos_sep lat0 lon0 (fst (pt g (j, i))) (snd (pt g (j, i)))).
  change (pix_lat (st_grid s) j i, pix_lon (st_grid s) j i) with (fst (pt g (j, i)), snd (pt g (j, i))). destruct (pt g (j, i)); cbn [fst snd]. reflexivity.
Qed.
Lemma rsum_perm : forall l l', Permutation l l' -> rsum l = rsum l'.
Proof. induction 1; unfold rsum in *; simpl; lra. Qed.
Lemma C83_lemma :
  forall s lat0 lon0 orbit planet phase incl A,
  good_grid (st_grid s) -> - PI/2 <= lat0 <= PI/2 -> 0 < st_radius s -> 0 <= orbit -> 0 < planet ->
  grid_area (st_grid s) = Ok A ->
  let rp := sky_r s planet in let px := sky_x s orbit phase in let py := sky_y s orbit phase incl in
  (* no transit *)
  (1 + 2 * rp < sqrt (px^2 + py^2) \/ (0 < cos phase /\ rp <= 1) ->
     transit_warnings s lat0 lon0 orbit planet phase incl = Ok [])
  (* transit *)
  /\ (sqrt (px^2 + py^2) <= 1 + 2 * rp -> cos phase <= 0 ->
      forall reach, lists_pixels (st_grid s) (in_reach s lat0 lon0 px py rp A) reach ->
      let mean := mean_size s lat0 lon0 A reach in
      (reach = [] \/ mean <= rp / 2 -> transit_warnings s lat0 lon0 orbit planet phase incl = Ok [])
      /\ (reach <> [] -> rp / 2 < mean ->
           transit_warnings s lat0 lon0 orbit planet phase incl = Ok [WResolution (Fin ((mean / (rp / 2))^2))]
           /\ 1 < (mean / (rp / 2))^2)).
Proof.
  intros s lat0 lon0 orbit planet phase incl A G L HR HO HP HA rp px py.
  rewrite grid_area_good in HA by auto. injection HA as <-.
  assert (RP : 0 < rp) by (apply Rdiv_lt_0_compat; auto). split.
  - intros H. unfold transit_warnings. rewrite planet_xy_eq by auto.
    replace (orbit / st_radius s * - sin phase) with px by (unfold px, sky_x; ring).
    replace (orbit / st_radius s * - cos phase * cos incl) with py by (unfold py, sky_y; ring).
    assert (PF : get_pl_frac s (phase - PI) orbit planet incl = (do c <- circ_fraction (Fin px) (Fin py) (Fin rp) ;; Ok (nsub (Fin 1) c))).
    { unfold get_pl_frac. rewrite planet_xy_eq by auto. rewrite !ndiv_fin by lra.
      replace (orbit / st_radius s * - sin phase) with px by (unfold px, sky_x; ring).
      replace (orbit / st_radius s * - cos phase * cos incl) with py by (unfold py, sky_y; ring). reflexivity. }
    rewrite ndiv_fin by lra. fold (sky_r s planet). fold rp. cbv zeta. rewrite !nsq_fin, nmul_fin, !nadd_fin.
    replace (px * px + py * py) with (px^2 + py^2) by ring.
    rewrite nsqrt_fin by (pose proof (pow2_ge_0 px); pose proof (pow2_ge_0 py); lra).
    unfold ngt. cbn [nlt]. destruct (Rltb (1 + 2 * rp) _) eqn:E; rb; auto.
    destruct H as [H|[H1 H2]]; [lra|]. rewrite (proj2 (Rltb_true 0 _)) by auto. rewrite PF.
    destruct (C10_lemma px py rp) as [_ CA]. destruct CA as [v [Ev _]]. lra. rewrite Ev. reflexivity.
  - intros Hd Hc reach LR. set (A := amap (fun p => Fin (rarea_at (st_grid s) p)) (grid_points (st_grid s))) in *.
    pose proof (transit_warnings_eq s lat0 lon0 orbit planet phase incl G L HR HP Hd Hc) as TW. cbv zeta in TW. fold px py rp in TW.
    set (g := st_grid s) in *.
    set (h := fun ji => reachb lat0 lon0 px py rp (pt g ji) (rarea_at g (pt g ji))) in *.
    assert (PM : Permutation reach (filter h (idx g))).
    { eapply lists_pixels_perm; eauto. intros j i P. apply in_reach_iff; auto. }
    set (l := map (fun ji => 2 * sqrt (rarea_at g (pt g ji)) * mup lat0 lon0 (pt g ji)) (filter h (idx g))) in *.
    assert (LN : length l = length reach) by (unfold l; rewrite map_length; symmetry; apply Permutation_length; auto).
    assert (MN : rsum l / INR (length l) = mean_size s lat0 lon0 A reach).
    { unfold mean_size. rewrite LN. f_equal. unfold l. rewrite (rsum_perm _ _ (Permutation_map _ PM)). f_equal. apply map_ext_in.
      intros [j i] I. apply filter_In in I. destruct I as [I _]. apply idx_In in I. cbn [fst snd]. unfold sky_size, cell_val, A. rewrite acell_grid by auto.
      change (acell (grid_points (st_grid s)) j i (0, 0)) with (pt g (j, i)). rewrite pix_mu_pt. reflexivity. }
    rewrite TW, resolution_fin by auto. rewrite MN. set (m := mean_size s lat0 lon0 A reach). cbv zeta.
    split.
    + intros H. destruct (list_eq_dec _ _ _) as [N|N]; auto. destruct (Rlt_dec _ _); auto. destruct H as [->|H]; [|lra].
      apply Permutation_nil in PM. destruct N. unfold l. rewrite PM. reflexivity.
    + intros N H. destruct (list_eq_dec _ _ _) as [N'|N'].
      * rewrite N' in LN. destruct reach; [congruence|discriminate].
      * destruct (Rlt_dec _ _); [|lra]. replace (2 * m / rp) with (m / (rp / 2)) by (field; lra). split; auto.
        assert (1 < m / (rp / 2)). { apply Rmult_lt_reg_r with (rp / 2). lra. unfold Rdiv at 2. rewrite Rmult_assoc, Rinv_l by lra. lra. }
        nra.
Qed.
Lemma mean_le : forall l b, (forall x, In x l -> x <= b) -> l <> [] -> rsum l / INR (length l) <= b.
Proof.
  intros l b H N. assert (0 < INR (length l)) by (apply lt_0_INR; destruct l; [congruence|simpl; lia]).
  apply Rmult_le_reg_r with (INR (length l)); auto. unfold Rdiv. rewrite Rmult_assoc, Rinv_l by lra. rewrite Rmult_1_r.
  clear - H. induction l. unfold rsum; simpl; lra. change (rsum (a :: l)) with (a + rsum l). change (length (a :: l)) with (S (length l)). rewrite S_INR.
  pose proof (H a (or_introl eq_refl)). assert (rsum l <= b * INR (length l)) by (apply IHl; intros; apply H; right; auto). lra.
Qed.
Lemma mean_ge : forall l b, (forall x, In x l -> b <= x) -> l <> [] -> b <= rsum l / INR (length l).
Proof.
  intros l b H N. assert (0 < INR (length l)) by (apply lt_0_INR; destruct l; [congruence|simpl; lia]).
  apply Rmult_le_reg_r with (INR (length l)); auto. unfold Rdiv. rewrite Rmult_assoc, Rinv_l by lra. rewrite Rmult_1_r.
  clear - H. induction l. unfold rsum; simpl; lra. change (rsum (a :: l)) with (a + rsum l). change (length (a :: l)) with (S (length l)). rewrite S_INR.
  pose proof (H a (or_introl eq_refl)). assert (b * INR (length l) <= rsum l) by (apply IHl; intros; apply H; right; auto). lra.
Qed.
(** small pixels never cause the warning *)
Lemma quiet : forall s lat0 lon0 orbit planet phase incl b, good_grid (st_grid s) -> - PI/2 <= lat0 <= PI/2 -> 0 < st_radius s -> 0 <= orbit -> 0 < planet ->
  (0 < cos phase -> planet <= st_radius s) ->
  (forall p, In p (cells (grid_points (st_grid s))) -> sqrt (rarea_at (st_grid s) p) <= b) -> 0 <= b -> 4 * b <= sky_r s planet ->
  transit_warnings s lat0 lon0 orbit planet phase incl = Ok [].
Proof.
  intros s lat0 lon0 orbit planet phase incl b G L HR HO HP HE HB B0 B.
  pose proof (C83_lemma s lat0 lon0 orbit planet phase incl _ G L HR HO HP (grid_area_good _ G)) as [X _].
  set (rp := sky_r s planet) in *. set (px := sky_x s orbit phase) in *. set (py := sky_y s orbit phase incl) in *.
  destruct (Rlt_le_dec (1 + 2 * rp) (sqrt (px^2 + py^2))) as [D|D]. apply X; auto.
  destruct (Rlt_le_dec 0 (cos phase)) as [C|C].
  - apply X. right. split; auto. unfold rp, sky_r. apply Rmult_le_reg_r with (st_radius s); auto. unfold Rdiv. rewrite Rmult_assoc, Rinv_l by lra. rewrite Rmult_1_r, Rmult_1_l. auto.
  - assert (RP : 0 < rp) by (apply Rdiv_lt_0_compat; auto).
    rewrite (transit_warnings_eq s lat0 lon0 orbit planet phase incl G L HR HP D C). fold px py rp. rewrite resolution_fin by auto.
    set (l := map _ (filter _ _)). destruct (list_eq_dec _ _ _) as [N|N]; auto. destruct (Rlt_dec _ _) as [Q|Q]; auto. exfalso.
    assert (M : rsum l / INR (length l) <= 2 * b). 2: lra.
    apply mean_le; auto. intros x I. unfold l in I. apply in_map_iff in I. destruct I as [ji [<- I]]. apply filter_In in I. destruct I as [I R].
    assert (J : In (pt (st_grid s) ji) (cells (grid_points (st_grid s)))) by (rewrite cells_idx; apply in_map; auto).
    pose proof (HB _ J). pose proof (sqrt_pos (rarea_at (st_grid s) (pt (st_grid s) ji))). unfold mup. pose proof (law_cos_bound lat0 lon0 (fst (pt (st_grid s) ji)) (snd (pt (st_grid s) ji))). nra.
Qed.
Lemma C83_quiet_lemma :
  forall s lat0 lon0 orbit planet phase incl,
  good_grid (st_grid s) -> - PI/2 <= lat0 <= PI/2 -> 0 < st_radius s -> 0 <= orbit -> 0 < planet -> (0 < cos phase -> planet <= st_radius s) ->
  match st_grid s with
  | Spiral n => 16 * (st_radius s / planet)^2 <= INR n
  | Rect nlat nlon => (11 <= nlat)%nat /\ 80 * (st_radius s / planet)^2 <= (INR nlat - 1) * INR nlon
  end ->
  transit_warnings s lat0 lon0 orbit planet phase incl = Ok [].
Proof.
  intros s lat0 lon0 orbit planet phase incl G L HR HO HP HE Q.
  set (rp := sky_r s planet). assert (RP : 0 < rp) by (apply Rdiv_lt_0_compat; auto).
  assert (RI : st_radius s / planet = / rp) by (unfold rp, sky_r; field; lra). rewrite RI in Q.
  apply (quiet _ _ _ _ _ _ _ (rp / 4)); auto; fold rp; try lra.
  intros p I. apply sqrt_le_of_sq. lra. assert (RR : 0 < rp * rp) by nra.
  destruct (st_grid s) as [a k|n].
  - destruct Q as [Q1 Q2]. destruct G as [G1 G2]. destruct a as [|n]; [lia|]. rewrite S_INR in Q2.
    pose proof (rect_norm_ge n k ltac:(lia) G2) as RN. unfold rarea_at. pose proof (COS_bound (fst p)) as CB.
    assert (P0 : 0 < INR k * INR n / 5). { apply Rdiv_lt_0_compat; [apply Rmult_lt_0_compat; apply lt_0_INR; lia|lra]. }
    apply Rle_trans with (1 * / (INR k * INR n / 5)).
    + unfold Rdiv at 1. apply Rle_trans with (1 * / rect_norm (S n) k). apply Rmult_le_compat_r. apply Rlt_le, Rinv_0_lt_compat; lra. lra.
      apply Rmult_le_compat_l. lra. apply Rinv_le_contravar; lra.
    + rewrite Rmult_1_l. apply Rmult_le_reg_r with (INR k * INR n / 5); auto. rewrite Rinv_l by lra.
      replace (80 * (/ rp) ^ 2) with (80 * / (rp * rp)) in Q2 by (field; lra).
      assert (Z : 80 * / (rp * rp) * (rp * rp) <= (INR n + 1 - 1) * INR k * (rp * rp)) by (apply Rmult_le_compat_r; lra).
      rewrite Rmult_assoc, Rinv_l in Z by lra. nra.
  - simpl in G. assert (0 < INR n) by (apply lt_0_INR; lia). unfold rarea_at. apply Rmult_le_reg_r with (INR n); auto.
    unfold Rdiv at 1. rewrite Rmult_assoc, Rinv_l by lra.
    replace (16 * (/ rp) ^ 2) with (16 * / (rp * rp)) in Q by (field; lra).
    assert (Z : 16 * / (rp * rp) * (rp * rp) <= INR n * (rp * rp)) by (apply Rmult_le_compat_r; lra).
    rewrite Rmult_assoc, Rinv_l in Z by lra. nra.
Qed.

(** ** The clipping warnings *)
Lemma clip_warnings_fin : forall x t,
  (In (WTooHigh t) (clip_warnings (Fin x)) <-> t = Fin x /\ 3900 < x)
  /\ (In (WTooLow t) (clip_warnings (Fin x)) <-> t = Fin x /\ x < 2300).
Proof.
  intros x t. unfold clip_warnings, ngt, TEFF_HI, TEFF_LO. cbn [nlt].
  destruct (Rltb 3900 x) eqn:A; rb; [|destruct (Rltb x 2300) eqn:B; rb]; simpl; split; split; intros H;
    repeat match goal with
    | H : _ \/ _ |- _ => destruct H
    | H : _ /\ _ |- _ => destruct H
    | H : False |- _ => contradiction
    | H : _ = _ :> warning |- _ => first [discriminate H | injection H as <-]
    end; subst; auto; try (exfalso; lra).
Qed.
Lemma clip_calls_app : forall a b, clip_calls (a ++ b) = (clip_calls a + clip_calls b)%nat.
Proof. intros. unfold clip_calls. rewrite filter_app, app_length. reflexivity. Qed.
Lemma clip_calls_clip : forall x, clip_calls (clip_warnings x) = 1%nat.
Proof. intros. unfold clip_warnings. destruct (ngt x _); [|destruct (nlt x _)]; reflexivity. Qed.
Lemma clip_quiet : forall x, 2300 <= x <= 3900 -> clip_teff (Fin x) = Fin x.
Proof. intros. unfold clip_teff, ngt, TEFF_HI, TEFF_LO. cbn [nlt]. destruct (Rltb 3900 x) eqn:A; rb; [lra|]. destruct (Rltb x 2300) eqn:B; rb; [lra|]. auto. Qed.
Definition onb (s : star) (f : facula) : bool := existsb (insidep s f) (cells (grid_points (st_grid s))).
Lemma onb_spec : forall s f, onb s f = true <-> exists p, In p (cells (grid_points (st_grid s))) /\ insidep s f p = true.
Proof. intros. apply existsb_exists. Qed.
Lemma paint_warnings_cases : forall s lat0 lon0 l F m, (forall f, In f l -> fc_grid f = st_grid s) ->
  paint_faculae s lat0 lon0 (star_mu s lat0 lon0) (amap F (grid_points (st_grid s))) l = Ok m ->
  forall f, In f l ->
    (onb s f = false /\ paint_warnings s lat0 lon0 f = Ok [])
    \/ (onb s f = true /\ exists kw kf q q', fac_fractional_area f (get_angle_between lat0 lon0 (fc_lat f) (fc_lon f)) = Ok [(kw, q); (kf, q')]
          /\ paint_warnings s lat0 lon0 f = Ok (clip_warnings (nadd (Fin (IZR kw)) (st_teff s)) ++ clip_warnings (nadd (Fin (IZR kf)) (st_teff s)))).
Proof.
  intros s lat0 lon0 l F m U H f I.
  destruct (paint_faculae_inv _ _ _ _ _ _ U H) as [G [_ [_ B]]].
  assert (AT : any_true (fac_map_pixels f (st_radius s * RSUN_KM)) = onb s f).
  { rewrite fac_map_pixels_eq by auto. apply eq_true_iff_eq. rewrite any_true_amap, onb_spec. reflexivity. }
  unfold paint_warnings. rewrite AT. destruct (onb s f) eqn:E; cbn [negb]; auto. right. split; auto.
  apply in_split in I. destruct I as [l1 [l2 ->]]. apply onb_spec in E.
  destruct (B l1 f l2 eq_refl E) as [kw [kf [q [q' [b [[P _] _]]]]]]. exists kw, kf, q, q'. split; auto. rewrite P. reflexivity.
Qed.
Lemma C84_lemma :
  forall s lat0 lon0 M T, star_unified s -> 0 < st_radius s ->
  (forall f, In f (fcc_facs (st_facs s)) -> is_fin (fc_radius f)) ->
  st_teff s = Fin T -> add_faculae_to_map s lat0 lon0 = Ok M ->
  exists W, faculae_warnings s lat0 lon0 = Ok W
    (* exactly which temperatures are reported *)
    /\ (forall t, In (WTooHigh t) W <-> exists f k, on_map s f /\ contrast lat0 lon0 f k /\ t = Fin (IZR k + T) /\ 3900 < IZR k + T)
    /\ (forall t, In (WTooLow t) W <-> exists f k, on_map s f /\ contrast lat0 lon0 f k /\ t = Fin (IZR k + T) /\ IZR k + T < 2300)
    (* two deprecation warnings per facula that has a pixel *)
    /\ (exists fs, keeps (on_map s) (fcc_facs (st_facs s)) fs /\ clip_calls W = (2 * length fs)%nat)
    /\ (forall w, In w W -> w = WClipDeprecated \/ exists t, w = WTooHigh t \/ w = WTooLow t)
    (* silence means that the map shows the true temperatures *)
    /\ (no_clip_warning W -> forall j i l1 f l2, pixel (st_grid s) j i -> fcc_facs (st_facs s) = l1 ++ f :: l2 ->
          fac_covers s f j i -> (forall f', In f' l2 -> ~ fac_covers s f' j i) ->
          exists k, contrast lat0 lon0 f k /\ acell M j i NaN = Fin (IZR k + T)).
Proof.
  intros s lat0 lon0 M T U HR HF HT HM.
  assert (UF : forall f, In f (fcc_facs (st_facs s)) -> fc_grid f = st_grid s) by apply U.
  pose proof HM as HM'. unfold add_faculae_to_map in HM'. rewrite star_map_eq in HM' by auto. cbn [bind] in HM'.
  pose proof (paint_warnings_cases _ _ _ _ _ _ UF HM') as PC.
  set (Wf := fun f => match paint_warnings s lat0 lon0 f with Ok w => w | Raise _ => [] end).
  set (fl := fcc_facs (st_facs s)) in *.
  assert (ON : forall f, In f fl -> (onb s f = true <-> on_map s f)).
  { intros f I. rewrite onb_spec. unfold on_map. split.
    - intros [p [J K]]. split; auto. apply In_pt in J. destruct J as [j [i [Pj ->]]]. exists j, i. split; auto. apply insidep_covers in K; auto.
    - intros [_ [j [i [Pj C]]]]. exists (pt (st_grid s) (j, i)). split. apply pt_In; auto. apply insidep_covers; auto. }
  assert (CT : forall f kw kf q q' k, fac_fractional_area f (get_angle_between lat0 lon0 (fc_lat f) (fc_lon f)) = Ok [(kw, q); (kf, q')] ->
             (contrast lat0 lon0 f k <-> k = kw \/ k = kf)).
  { intros f kw kf q q' k E. destruct (get_angle_fin lat0 lon0 (fc_lat f) (fc_lon f)) as [a [Ha Hang]]. rewrite Ha in E. split.
    - intros [a' [d [A' [E' I]]]]. rewrite (is_angle_unique _ _ _ _ _ _ A' Hang) in E'. rewrite E in E'. injection E' as <-. simpl in I. intuition.
    - intros K. exists a, [(kw, q); (kf, q')]. repeat split; auto; try apply Hang. simpl. intuition. }
  assert (EW : faculae_warnings s lat0 lon0 = Ok (concat (map Wf fl))).
  { unfold faculae_warnings. fold fl. rewrite (mapM_ok _ _ _ Wf). reflexivity.
    intros f I. unfold Wf. destruct (PC f I) as [[_ ->]|[_ [kw [kf [q [q' [_ ->]]]]]]]; reflexivity. }
  exists (concat (map Wf fl)). split; auto.
  assert (INW : forall w, In w (concat (map Wf fl)) <-> exists f kw kf q q', In f fl /\ onb s f = true
      /\ fac_fractional_area f (get_angle_between lat0 lon0 (fc_lat f) (fc_lon f)) = Ok [(kw, q); (kf, q')]
      /\ exists k, (k = kw \/ k = kf) /\ In w (clip_warnings (Fin (IZR k + T)))).
  { intros w. rewrite in_concat. split.
    - intros [x [X I]]. apply in_map_iff in X. destruct X as [f [<- J]]. unfold Wf in I.
      destruct (PC f J) as [[_ Q]|[O [kw [kf [q [q' [E Q]]]]]]]; rewrite Q in I; [contradiction|].
      exists f, kw, kf, q, q'. repeat split; auto. rewrite HT, !nadd_fin in I. apply in_app_iff in I. destruct I; eauto.
    - intros [f [kw [kf [q [q' [J [O [E [k [K I]]]]]]]]]]. exists (Wf f). split. apply in_map; auto. unfold Wf.
      destruct (PC f J) as [[O' _]|[_ [kw0 [kf0 [q0 [q0' [E0 Q]]]]]]]; [congruence|]. rewrite Q, HT, !nadd_fin. apply in_app_iff.
      assert (kw0 = kw) by congruence. assert (kf0 = kf) by congruence. subst kw0 kf0. destruct K as [->| ->]; auto. }
  assert (INS : forall w (P : R -> Prop), (forall x, In w (clip_warnings (Fin x)) <-> P x) ->
     (In w (concat (map Wf fl)) <-> exists f k, on_map s f /\ contrast lat0 lon0 f k /\ P (IZR k + T))).
  { intros w P HP. rewrite INW. split.
    - intros [f [kw [kf [q [q' [J [O [E [k [K I]]]]]]]]]]. exists f, k. split. apply ON; auto. split. eapply CT; eauto. apply HP; auto.
    - intros [f [k [O [C I]]]]. assert (J : In f fl) by apply O. apply ON in O; auto.
      destruct (PC f J) as [[O' _]|[_ [kw [kf [q [q' [E Q]]]]]]]; [congruence|].
      exists f, kw, kf, q, q'. repeat split; auto. exists k. split. eapply CT; eauto. apply HP; auto. }
  assert (HH : forall t, In (WTooHigh t) (concat (map Wf fl)) <-> exists f k, on_map s f /\ contrast lat0 lon0 f k /\ t = Fin (IZR k + T) /\ 3900 < IZR k + T).
  { intros t. apply (INS _ (fun x => t = Fin x /\ 3900 < x)). intros; apply clip_warnings_fin. }
  assert (HL : forall t, In (WTooLow t) (concat (map Wf fl)) <-> exists f k, on_map s f /\ contrast lat0 lon0 f k /\ t = Fin (IZR k + T) /\ IZR k + T < 2300).
  { intros t. apply (INS _ (fun x => t = Fin x /\ x < 2300)). intros; apply clip_warnings_fin. }
  split; auto. split; auto. split; [|split].
  - exists (filter (onb s) fl). split. apply filter_keeps_in; auto.
    assert (X : forall f, In f fl -> clip_calls (Wf f) = if onb s f then 2%nat else 0%nat).
    { intros f I. unfold Wf. destruct (PC f I) as [[-> ->]|[-> [kw [kf [q [q' [_ ->]]]]]]]; auto. rewrite clip_calls_app, !clip_calls_clip. auto. }
    clear - X. induction fl as [|f l]; auto. simpl. rewrite clip_calls_app, IHl by (intros; apply X; right; auto). rewrite X by (left; auto).
    destruct (onb s f); simpl; lia.
  - intros w I. apply INW in I. destruct I as [f [kw [kf [q [q' [_ [_ [_ [k [_ I]]]]]]]]]]. unfold clip_warnings in I. destruct I as [<-|I]; auto.
    right. destruct (ngt _ _). destruct I as [<-|[]]; eauto. destruct (nlt _ _). destruct I as [<-|[]]; eauto. contradiction.
  - intros NW j i l1 f l2 P E C N.
    destruct (C54_lemma s lat0 lon0 _ M U HR HF (star_map_eq s U) HM) as [_ [_ K]].
    destruct (K l1 f l2 E) as [a [kw [kf [q [q' [b [A1 [A2 [A3 [A4 _]]]]]]]]]]; eauto.
    destruct (A4 j i P C N) as [W F].
    assert (J : In f fl) by (rewrite E; apply in_or_app; right; left; auto).
    assert (OM : on_map s f) by (split; auto; exists j, i; auto).
    assert (Z : forall k, contrast lat0 lon0 f k -> clip_teff (nadd (Fin (IZR k)) (st_teff s)) = Fin (IZR k + T)).
    { intros k Ck. rewrite HT, nadd_fin. apply clip_quiet. destruct (NW (Fin (IZR k + T))) as [N1 N2].
      destruct (Rlt_dec (IZR k + T) 2300). exfalso. apply N2. apply HL. exists f, k. repeat split; auto; try apply OM; try apply Ck.
      destruct (Rlt_dec 3900 (IZR k + T)). exfalso. apply N1. apply HH. exists f, k. repeat split; auto; try apply OM; try apply Ck. lra. }
    destruct (Rle_dec (pix_mu s lat0 lon0 j i) b).
    + exists kw. assert (Ck : contrast lat0 lon0 f kw) by (exists a; eexists; split; [exact A1|split; [exact A2|simpl; auto]]). split; auto. rewrite W by auto. auto.
    + exists kf. assert (Ck : contrast lat0 lon0 f kf) by (exists a; eexists; split; [exact A1|split; [exact A2|simpl; auto]]). split; auto. rewrite F by lra. auto.
Qed.
(** the contrasts are the rounded wall and floor temperature differences *)
Lemma C84_contrast_lemma :
  forall f lat0 lon0 r d fs fm fb ws wi kw kf k,
  fac_thermal f r d fs fm fb ws wi -> 0 < r -> 0 <= d ->
  round_teff (Fin (wall_diff r ws wi)) = Ok kw -> round_teff (Fin (floor_diff r fs fm fb)) = Ok kf -> kw <> kf ->
  cos_sep lat0 lon0 (fc_lat f) (fc_lon f) <> 0 ->
  (contrast lat0 lon0 f k <-> k = kw \/ k = kf).
Proof.
  intros f lat0 lon0 r d fs fm fb ws wi kw kf k T Hr Hd K1 K2 N C.
  destruct (C31_lemma f r d fs fm fb ws wi kw kf T Hr Hd K1 K2 N) as [w [X _]].
  destruct (get_angle_fin lat0 lon0 (fc_lat f) (fc_lon f)) as [a [_ Hang]].
  destruct (X a) as [_ [E _]]. destruct Hang as [_ Q]. rewrite Q. auto. split.
  - intros [a' [l [A' [E' I]]]]. rewrite (is_angle_unique _ _ _ _ _ _ A' Hang), E in E'. injection E' as <-. simpl in I. intuition.
  - intros K. eexists a, _. split; [exact Hang|]. split; [exact E|]. simpl. intuition.
Qed.
(** what a call of calc_coverage that returns has warned about *)
Lemma C84_coverage_lemma :
  forall s lat0 lon0 gr orbit planet phase incl T out, star_unified s -> good_grid (st_grid s) -> - PI/2 <= lat0 <= PI/2 -> 0 < st_radius s -> 0 < planet ->
  (forall f, In f (fcc_facs (st_facs s)) -> is_fin (fc_radius f)) -> st_teff s = Fin T ->
  calc_coverage s lat0 lon0 gr orbit planet phase incl = Ok out ->
  exists W W', coverage_warnings s lat0 lon0 orbit planet phase incl = Ok (W ++ W')
    /\ faculae_warnings s lat0 lon0 = Ok W /\ transit_warnings s lat0 lon0 orbit planet phase incl = Ok W'
    /\ (forall w, In w W -> w = WClipDeprecated \/ exists t, w = WTooHigh t \/ w = WTooLow t)
    /\ (W' = [] \/ exists x, W' = [WResolution (Fin x)] /\ 1 < x).
Proof.
  intros s lat0 lon0 gr orbit planet phase incl T out U G L HR HP HF HT H.
  unfold calc_coverage in H. cbv zeta in H.
  apply bind_ok in H. destruct H as [jac [_ H]]. apply bind_ok in H. destruct H as [pr [_ H]].
  apply bind_ok in H. destruct H as [M [HM H]]. apply bind_ok in H. destruct H as [tm [HT' _]].
  destruct (C84_lemma s lat0 lon0 M T U HR HF HT HM) as [W [EW [_ [_ [_ [HW _]]]]]].
  assert (Z : exists W', transit_warnings s lat0 lon0 orbit planet phase incl = Ok W' /\ (W' = [] \/ exists x, W' = [WResolution (Fin x)] /\ 1 < x)).
  { destruct (Rlt_le_dec (1 + 2 * sky_r s planet) (sqrt ((sky_x s orbit phase)^2 + (sky_y s orbit phase incl)^2))) as [D|D].
    2: destruct (Rlt_le_dec 0 (cos phase)) as [C|C].
    - exists []. split; auto. unfold get_transit_mask in HT'. unfold transit_warnings. destruct (planet_xy s orbit (phase - PI) incl) as [x y] eqn:PX.
      rewrite planet_xy_eq in PX by auto. injection PX as <- <-.
      replace (orbit / st_radius s * - sin phase) with (sky_x s orbit phase) by (unfold sky_x; ring).
      replace (orbit / st_radius s * - cos phase * cos incl) with (sky_y s orbit phase incl) by (unfold sky_y; ring).
      rewrite ndiv_fin by lra. fold (sky_r s planet). cbv zeta. rewrite !nsq_fin, nmul_fin, !nadd_fin.
      set (px := sky_x s orbit phase) in *. set (py := sky_y s orbit phase incl) in *.
      replace (px * px + py * py) with (px^2 + py^2) by ring.
      rewrite nsqrt_fin by (pose proof (pow2_ge_0 px); pose proof (pow2_ge_0 py); lra).
      unfold ngt. cbn [nlt]. rewrite (proj2 (Rltb_true _ _)) by auto. auto.
    - exists []. split; auto. unfold get_transit_mask in HT'. unfold transit_warnings. destruct (planet_xy s orbit (phase - PI) incl) as [x y] eqn:PX.
      cbv zeta in *. destruct (ngt _ _); auto. rewrite (proj2 (Rltb_true 0 _)) in * by auto. apply bind_ok in HT'. destruct HT' as [v [-> _]]. reflexivity.
    - rewrite (transit_warnings_eq s lat0 lon0 orbit planet phase incl G L HR HP D C). eexists. split; [reflexivity|].
      assert (RP : 0 < sky_r s planet) by (apply Rdiv_lt_0_compat; auto). rewrite resolution_fin by auto.
      set (l := map _ (filter _ _)). destruct (list_eq_dec _ _ _); auto. destruct (Rlt_dec _ _) as [Q|Q]; auto. right. eexists. split; [reflexivity|].
      set (m := rsum l / INR (length l)) in *. assert (1 < 2 * m / sky_r s planet).
      { apply Rmult_lt_reg_r with (sky_r s planet); auto. unfold Rdiv at 1. rewrite Rmult_assoc, Rinv_l by lra. lra. } nra. }
  destruct Z as [W' [E1 E2]]. exists W, W'. unfold coverage_warnings. rewrite EW, E1. repeat split; auto.
Qed.
(** coarse grids do warn *)
Lemma C83_coarse_lemma :
  forall s lat0 lon0 orbit planet phase incl A n m j i,
  st_grid s = Spiral n -> (1 <= n)%nat -> - PI/2 <= lat0 <= PI/2 -> 0 < st_radius s -> 0 <= orbit -> 0 < planet ->
  grid_area (st_grid s) = Ok A ->
  let rp := sky_r s planet in let px := sky_x s orbit phase in let py := sky_y s orbit phase incl in
  sqrt (px^2 + py^2) <= 1 + 2 * rp -> cos phase <= 0 ->
  pixel (st_grid s) j i -> in_reach s lat0 lon0 px py rp A j i ->
  (forall j i, pixel (st_grid s) j i -> in_reach s lat0 lon0 px py rp A j i -> m <= pix_mu s lat0 lon0 j i) -> 0 < m ->
  INR n * rp^2 < 16 * m^2 ->
  exists x, transit_warnings s lat0 lon0 orbit planet phase incl = Ok [WResolution (Fin x)] /\ 16 * m^2 / (INR n * rp^2) <= x.
Proof.
  intros s lat0 lon0 orbit planet phase incl A n m j i GS Hn L HR HO HP HA rp px py Hd Hc Pj Ij HM Hm Hx.
  assert (G : good_grid (st_grid s)) by (rewrite GS; simpl; lia).
  assert (RP : 0 < rp) by (apply Rdiv_lt_0_compat; auto). assert (N0 : 0 < INR n) by (apply lt_0_INR; lia).
  rewrite grid_area_good in HA by auto. injection HA as <-.
  rewrite (transit_warnings_eq s lat0 lon0 orbit planet phase incl G L HR HP Hd Hc). fold px py rp.
  rewrite resolution_fin by auto. set (g := st_grid s) in *. set (l := map _ (filter _ _)).
  assert (NE : l <> []).
  { intros E. assert (X : In (j, i) (filter (fun ji => reachb lat0 lon0 px py rp (pt g ji) (rarea_at g (pt g ji))) (idx g))).
    { apply filter_In. split. apply idx_In; auto. apply in_reach_iff; auto. }
    unfold l in E. apply map_eq_nil in E. rewrite E in X. contradiction. }
  assert (S0 : 0 < sqrt (/ INR n)) by (apply sqrt_lt_R0, Rinv_0_lt_compat; auto).
  assert (SS : sqrt (/ INR n) * sqrt (/ INR n) = / INR n) by (apply sqrt_sqrt, Rlt_le, Rinv_0_lt_compat; auto).
  set (q := sqrt (/ INR n)) in *.
  assert (MG : 2 * q * m <= rsum l / INR (length l)).
  { apply mean_ge; auto. intros x I. unfold l in I. apply in_map_iff in I. destruct I as [[j' i'] [<- I]]. apply filter_In in I. destruct I as [I R].
    apply idx_In in I. apply in_reach_iff in R; auto. specialize (HM j' i' I R). rewrite pix_mu_pt in HM. change (st_grid s) with g in HM. fold (mup lat0 lon0 (pt g (j', i'))) in HM.
    assert (rarea_at g (pt g (j', i')) = / INR n) as ->. { rewrite GS. unfold rarea_at. unfold Rdiv. ring. } fold q. nra. }
  destruct (list_eq_dec _ _ _); [contradiction|]. set (mean := rsum l / INR (length l)) in *.
  assert (K : INR n * (rp * rp) * (q * q) < 16 * (m * m) * (q * q)) by (apply Rmult_lt_compat_r; nra).
  assert (INR n * (q * q) = 1) by (rewrite SS; field; lra).
  assert (K2 : rp * rp < (4 * m * q) * (4 * m * q)) by nra.
  assert (K3 : rp < 4 * m * q). { apply Rnot_le_lt. intros X. assert (0 < 4 * m * q) by nra. nra. }
  destruct (Rlt_dec _ _) as [Q|Q]; [|exfalso; nra]. eexists. split; [reflexivity|].
  assert (E : 16 * m^2 / (INR n * rp^2) = (2 * (2 * q * m) / rp)^2).
  { replace ((2 * (2 * q * m) / rp)^2) with (16 * m^2 * (q * q) / rp^2) by (field; lra). rewrite SS. field. split; lra. }
  rewrite E. assert (0 <= 2 * (2 * q * m) / rp) by (apply Rlt_le, Rdiv_lt_0_compat; nra).
  apply pow_incr. split; auto. unfold Rdiv. apply Rmult_le_compat_r. apply Rlt_le, Rinv_0_lt_compat; auto. lra.
Qed.
(** with the default planet (1 au, 1 R_earth, phase 90 deg, inclination 0) *)
Lemma default_quiet :
  forall s lat0 lon0 orbit planet incl, good_grid (st_grid s) -> - PI/2 <= lat0 <= PI/2 -> 0 < st_radius s -> 0 <= orbit -> 0 < planet ->
  st_radius s + 2 * planet < orbit ->
  transit_warnings s lat0 lon0 orbit planet (PI/2) incl = Ok [] /\ transit_warnings s lat0 lon0 orbit planet (- (PI/2)) incl = Ok [].
Proof.
  intros s lat0 lon0 orbit planet incl G L HR HO HP H.
  assert (K : 1 + 2 * sky_r s planet < orbit / st_radius s).
  { apply Rmult_lt_reg_r with (st_radius s); auto. unfold sky_r. replace ((1 + 2 * (planet / st_radius s)) * st_radius s) with (st_radius s + 2 * planet) by (field; lra).
    replace (orbit / st_radius s * st_radius s) with orbit by (field; lra). auto. }
  assert (O : 0 <= orbit / st_radius s) by (apply Rle_trans with (1 + 2 * sky_r s planet); [pose proof (Rdiv_lt_0_compat _ _ HP HR); unfold sky_r; lra|lra]).
  split.
  - destruct (C83_lemma s lat0 lon0 orbit planet (PI/2) incl _ G L HR HO HP (grid_area_good _ G)) as [X _]. apply X. left.
    unfold sky_x, sky_y. rewrite cos_PI2, sin_PI2.
    match goal with |- _ < sqrt ?e => replace e with ((orbit / st_radius s)^2) by (field; lra) end. rewrite sqrt_pow2 by auto. auto.
  - destruct (C83_lemma s lat0 lon0 orbit planet (- (PI/2)) incl _ G L HR HO HP (grid_area_good _ G)) as [X _]. apply X. left.
    unfold sky_x, sky_y. rewrite cos_neg, sin_neg, cos_PI2, sin_PI2.
    match goal with |- _ < sqrt ?e => replace e with ((orbit / st_radius s)^2) by (field; lra) end. rewrite sqrt_pow2 by auto. auto.
Qed.
Lemma C83_default_lemma :
  forall s lat0 lon0 orbit planet incl, good_grid (st_grid s) -> - PI/2 <= lat0 <= PI/2 -> 0 < st_radius s -> 0 <= orbit -> 0 < planet ->
  st_radius s + 2 * planet < orbit ->
  transit_warnings s lat0 lon0 orbit planet (PI/2) incl = Ok [] /\ transit_warnings s lat0 lon0 orbit planet (- (PI/2)) incl = Ok []
  (* calc_coverage with its default planet: only the warnings of the map *)
  /\ (st_radius s <= 215 -> default_coverage_warnings s lat0 lon0 = faculae_warnings s lat0 lon0).
Proof.
  intros s lat0 lon0 orbit planet incl G L HR HO HP H. destruct (default_quiet s lat0 lon0 orbit planet incl G L HR HO HP H) as [Q1 Q2].
  split; auto. split; auto. intros HA. unfold default_coverage_warnings, coverage_warnings.
  destruct (default_quiet s lat0 lon0 AU_RSUN REARTH_RSUN 0 G L HR) as [-> _]; try (unfold AU_RSUN, REARTH_RSUN; lra); try lra.
  destruct (faculae_warnings s lat0 lon0); cbn [bind]; auto. rewrite app_nil_r. auto.
Qed.
(** light curves: a warning exactly if an exposure time is given; without one, every value is the sum of the flares at its own time *)
Lemma C46_warning_lemma : forall texp k,
  (texp = None /\ light_curve_warnings texp = []
     /\ exists curve : R * num * num -> R -> num, forall l ts,
          get_light_curve ts (map (fun x => fst (fst x)) l) (map (fun x => snd (fst x)) l) (map snd l) texp k
          = Ok (map (fun t => nsum (map (fun x => curve x t) l)) ts))
  \/ (light_curve_warnings texp = [WTexp] /\ exists te, texp = Some te).
Proof.
  intros [te|] k; [right|left]. split; eauto. split; auto. split; auto. destruct (C46_sum_lemma k) as [c [_ H]]. exists c. auto.
Qed.
