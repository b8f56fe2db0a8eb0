(** Lemmas for C69: the data drawn by [plot_surface] *)
From Coq Require Import Reals ZArith Bool List Lra Lia.
From Verif Require Import Num Py MConfig MHelpers MGrid MSpots MFaculae MXoflares MFlares MGranules MStar MPlot
  Spec SpecStar SpecDisk SpecFrame LBase LGrid LHelpers LSpotMap LSpotCov LFac LStar LDisk LStarFac LTransit LStarCov.
Import ListNotations.
Open Scope R_scope.

Lemma fold_max_ge : forall l x, x <= fold_left Rmax l x /\ forall y, In y l -> y <= fold_left Rmax l x.
Proof.
  induction l as [|a l IH]; intros x; cbn [fold_left]. split. lra. intros y [].
  destruct (IH (Rmax x a)) as [A B]. pose proof (Rmax_l x a). pose proof (Rmax_r x a). split. lra.
  intros y [<-|I]. lra. auto.
Qed.
Lemma fold_max_In : forall l x, fold_left Rmax l x = x \/ In (fold_left Rmax l x) l.
Proof.
  induction l as [|a l IH]; intros x; cbn [fold_left]; auto.
  destruct (IH (Rmax x a)) as [A|A]. rewrite A. unfold Rmax. destruct (Rle_dec x a); simpl; auto. right; right; auto.
Qed.
Lemma rmaxl_spec : forall l, l <> [] -> In (rmaxl l) l /\ forall x, In x l -> x <= rmaxl l.
Proof.
  intros [|a l] H. congruence. unfold rmaxl. split.
  { destruct (fold_max_In l a) as [E|E]. left; auto. right; auto. }
  intros x [<-|I]. apply (proj1 (fold_max_ge l a)). apply (proj2 (fold_max_ge l a)); auto.
Qed.
Lemma rad2deg_deg2rad : forall x, rad2deg (deg2rad x) = x.
Proof. intros. unfold rad2deg, deg2rad. field. apply PI_neq0. Qed.
Lemma fins_fin : forall A (f : A -> R) a, fins (amap (fun p => Fin (f p)) a) = amap f a.
Proof. intros. unfold fins. rewrite amap_amap. apply amap_ext. auto. Qed.
Lemma ld_plot_bright : forall s lat0 lon0 j i, ld_plot s (law_cos lat0 lon0 (fst (pt (st_grid s) (j, i))) (snd (pt (st_grid s) (j, i)))) = brightness s lat0 lon0 j i.
Proof. intros. unfold ld_plot, brightness. rewrite <- pix_mu_pt. unfold Rltb. destruct (Rlt_dec _ _); auto. Qed.

Lemma arr_shape_has : forall A (a : arr A) b r c, (1 <= r)%nat -> has_shape a b r c -> arr_shape a = (b, (r, c)).
Proof.
  intros A a b r c Hr [H1 [H2 H3]]. unfold arr_shape. rewrite H1, H2. destruct (arows a) as [|x l]. simpl in H2; lia.
  rewrite (H3 x) by (left; auto). auto.
Qed.
Lemma display_rect : forall a b (f : R * R -> R), (1 <= b)%nat ->
  display_grid (Rect a b) a b (amap f (grid_points (Rect a b)))
  = Ok (map deg2rad (get_lat_points a), map deg2rad (get_lon_points b), amap (fun p => Fin (f p)) (grid_points (Rect a b))).
Proof.
  intros. unfold display_grid. rewrite (arr_shape_has _ _ true b a); auto.
  2:{ apply has_shape_amap. apply (grid_points_shape (Rect a b)). }
  rewrite !Nat.eqb_refl. cbn [negb]. unfold rect_oned. rewrite amap_amap. auto.
Qed.
Lemma display_spiral : forall n a b (f : R * R -> R),
  display_grid (Spiral n) a b (amap f (grid_points (Spiral n)))
  = Ok (map deg2rad (get_lat_points a), map deg2rad (get_lon_points b),
        amap (spiral_resample n (map f (cells (grid_points (Spiral n))))) (grid_points (Rect a b))).
Proof.
  intros. unfold display_grid. rewrite (arr_shape_has _ _ false 1 n); auto.
  2:{ apply has_shape_amap. apply (grid_points_shape (Spiral n)). }
  rewrite !Nat.eqb_refl. cbn [negb]. unfold rect_oned. rewrite cells_amap. auto.
Qed.
Lemma lat_points_length : forall n, length (get_lat_points n) = n.
Proof. intros. unfold get_lat_points, linspace. rewrite map_length, seq_length. auto. Qed.
Lemma lon_points_length : forall n, length (get_lon_points n) = n.
Proof. intros. unfold get_lon_points, linspace_open. rewrite map_length, seq_length. auto. Qed.

Lemma nlt_eq : forall x y, nlt (Fin x) (Fin y) = Rltb x y.
Proof. reflexivity. Qed.
Lemma min_attained : forall (f : nat -> R) n, (1 <= n)%nat -> exists k, (k < n)%nat /\ forall k', (k' < n)%nat -> f k <= f k'.
Proof.
  induction n as [|[|n] IH]; intros H. lia. exists 0%nat. split; auto. intros k' K. replace k' with 0%nat by lia. lra.
  destruct IH as [k [A B]]. lia. destruct (Rle_dec (f k) (f (S n))).
  - exists k. split. lia. intros k' K. destruct (Nat.eq_dec k' (S n)) as [->|]; auto. apply B; lia.
  - exists (S n). split. lia. intros k' K. destruct (Nat.eq_dec k' (S n)) as [->|]. lra. assert (f k <= f k') by (apply B; lia). lra.
Qed.

Lemma C69_lemma : forall s lat0 lon0 orbit planet phase incl T D A M C pf nlon nlat,
  disk_view s lat0 lon0 orbit planet phase incl T D A M C pf ->
  let plot := plot_surface s lat0 lon0 orbit planet phase incl nlon nlat in
  let g := st_grid s in
  (* a rectangular grid can only be plotted at its own resolution *)
  (forall a b, g = Rect a b -> ~ (nlat = a /\ nlon = b) -> plot = Raise TypeError)
  /\ ((forall a b, g = Rect a b -> nlat = a /\ nlon = b) -> exists pd, plot = Ok pd
      (* axes, in degrees *)
      /\ length (pd_lats pd) = nlat /\ length (pd_lons pd) = nlon
      /\ (forall k, (k < nlat)%nat -> nth k (pd_lats pd) 0 = -90 + INR k * (180 / INR (nlat - 1)))
      /\ (forall k, (k < nlon)%nat -> nth k (pd_lons pd) 0 = INR k * (360 / INR nlon))
      /\ has_shape (pd_temps pd) true nlon nlat /\ has_shape (pd_planet pd) true nlon nlat
      (* rectangular: the map and the pixels more than half covered *)
      /\ (forall a b, g = Rect a b -> forall j i, (j < nlon)%nat -> (i < nlat)%nat ->
            acell (pd_temps pd) j i NaN = acell M j i NaN
            /\ acell (pd_planet pd) j i (Fin 0) = if Rlt_dec (1/2) (cell_val C j i) then Fin 1 else NaN)
      (* spiral: averages of the map; black only where something is covered *)
      /\ (forall n, g = Spiral n -> forall j i, (j < nlon)%nat -> (i < nlat)%nat ->
            (exists t, acell (pd_temps pd) j i NaN = Fin t
              /\ (forall lo hi, (forall k, (k < n)%nat -> lo <= cell_val M 0 k <= hi) -> lo <= t <= hi))
            /\ (acell (pd_planet pd) j i (Fin 0) = Fin 1 /\ (exists k, (k < n)%nat /\ 1/2 < cell_val C 0 k)
                \/ acell (pd_planet pd) j i (Fin 0) = NaN /\ (exists k, (k < n)%nat /\ cell_val C 0 k <= 1/2)))
      (* the planet is drawn above the star exactly when none of it is hidden *)
      /\ pd_zorder pd = (if neq pf (Fin 1) then 100 else -100)%Z
      (* opacity of the limb-darkening overlay *)
      /\ grid_shaped g (pd_alpha pd)
      /\ ((exists j i, pixel g j i /\ 0 < brightness s lat0 lon0 j i) -> exists top,
           (exists j i, pixel g j i /\ brightness s lat0 lon0 j i = top)
           /\ forall j i, pixel g j i -> brightness s lat0 lon0 j i <= top /\ exists al,
               acell (pd_alpha pd) j i NaN = Fin al /\ al = 1 - brightness s lat0 lon0 j i / top
               /\ (ld_nonneg s -> 0 <= al <= 1) /\ (pix_mu s lat0 lon0 j i < 0 -> al = 1)
               /\ (al = 0 <-> brightness s lat0 lon0 j i = top))).
Proof.
  intros s lat0 lon0 orbit planet phase incl T D A M C pf nlon nlat V plot g.
  destruct (view_form _ _ _ _ _ _ _ _ _ _ _ _ _ V) as [tm [cm [EA [EM [EC [Hc [EW [E1 [E2 [Eap Ecv]]]]]]]]]].
  destruct V as [Vu Vg Vr Vl Vt Vd Va Vm Vf Vk].
  assert (EP : plot = plot_surface s lat0 lon0 orbit planet phase incl nlon nlat) by auto.
  unfold plot_surface in EP. rewrite Vk, Vm in EP. cbn [bind fst snd] in EP. rewrite EC, EM, !fins_fin in EP.
  fold g in EP. set (gp := grid_points g) in *.
  assert (Sh : forall B (f : R * R -> B), has_shape (amap f gp) (g_2d g) (g_rows g) (g_cols g)).
  { intros. apply has_shape_amap. apply grid_points_shape. }
  assert (CM : forall j i, pixel g j i -> cell_val M j i = tm (pt g (j, i))).
  { intros j i P. unfold cell_val. rewrite EM. unfold g in *. rewrite acell_grid by auto. auto. }
  set (ld := amap (ld_plot s) (star_mu s lat0 lon0)) in *.
  assert (LD : cells ld = map (fun p => ld_plot s (law_cos lat0 lon0 (fst p) (snd p))) (cells gp)).
  { unfold ld. rewrite star_mu_eq, amap_amap, cells_amap. auto. }
  assert (NE : exists j i, pixel g j i).
  { exists 0%nat, 0%nat. apply pixel_iff. unfold good_grid in Vg. fold g in Vg. destruct g; simpl; lia. }
  assert (LNE : cells ld <> []).
  { rewrite LD. destruct NE as [j [i P]]. apply pt_In in P. unfold gp. destruct (cells (grid_points g)). contradiction. discriminate. }
  assert (Tail : forall lats lons (d c : arr num),
     length lats = nlat -> length lons = nlon -> has_shape d true nlon nlat -> has_shape c true nlon nlat ->
     display_grid g nlat nlon (amap tm gp) = Ok (lats, lons, d) -> display_grid g nlat nlon (amap cm gp) = Ok (lats, lons, c) ->
     (forall k, (k < nlat)%nat -> nth k (map rad2deg lats) 0 = -90 + INR k * (180 / INR (nlat - 1))) ->
     (forall k, (k < nlon)%nat -> nth k (map rad2deg lons) 0 = INR k * (360 / INR nlon)) ->
     exists pd, plot = Ok pd /\ pd_lats pd = map rad2deg lats /\ pd_lons pd = map rad2deg lons
      /\ pd_temps pd = d /\ pd_planet pd = amap (fun x => if ngt x (Fin (1/2)) then Fin 1 else NaN) c
      /\ pd_zorder pd = (if neq pf (Fin 1) then 100 else -100)%Z
      /\ pd_alpha pd = amap (fun l => nsub (Fin 1) (ndiv (Fin l) (Fin (rmaxl (cells ld))))) ld).
  { intros lats lons d c L1 L2 S1 S2 D1 D2 N1 N2. rewrite D1, D2 in EP. cbn [bind fst snd] in EP. rewrite EP.
    destruct (cells ld) eqn:Q. congruence. eexists. split. reflexivity. repeat split. }
  assert (Alpha : forall al, al = amap (fun l => nsub (Fin 1) (ndiv (Fin l) (Fin (rmaxl (cells ld))))) ld ->
     grid_shaped g al
      /\ ((exists j i, pixel g j i /\ 0 < brightness s lat0 lon0 j i) -> exists top,
           (exists j i, pixel g j i /\ brightness s lat0 lon0 j i = top)
           /\ forall j i, pixel g j i -> brightness s lat0 lon0 j i <= top /\ exists v,
               acell al j i NaN = Fin v /\ v = 1 - brightness s lat0 lon0 j i / top
               /\ (ld_nonneg s -> 0 <= v <= 1) /\ (pix_mu s lat0 lon0 j i < 0 -> v = 1)
               /\ (v = 0 <-> brightness s lat0 lon0 j i = top))).
  { intros al ->. destruct (rmaxl_spec _ LNE) as [MI MG]. set (top := rmaxl (cells ld)) in *.
    assert (BI : forall j i, pixel g j i -> In (brightness s lat0 lon0 j i) (cells ld)).
    { intros j i P. rewrite LD. apply pt_In in P. rewrite <- ld_plot_bright. fold g.
      apply (in_map (fun p => ld_plot s (law_cos lat0 lon0 (fst p) (snd p)))) in P. auto. }
    split. { unfold ld. rewrite star_mu_eq, !amap_amap. apply grid_shaped_amap. }
    intros [j0 [i0 [P0 B0]]]. exists top. assert (TP : 0 < top) by (pose proof (MG _ (BI _ _ P0)); lra).
    split. { rewrite LD in MI. apply in_map_iff in MI. destruct MI as [p [Ep Ip]]. apply In_pt in Ip.
      destruct Ip as [j [i [P ->]]]. exists j, i. split; auto. rewrite <- ld_plot_bright. auto. }
    intros j i P. pose proof (MG _ (BI _ _ P)) as BT. split; auto. exists (1 - brightness s lat0 lon0 j i / top).
    split. { unfold ld. rewrite star_mu_eq, !amap_amap. unfold g in *. rewrite acell_grid by auto.
      change (acell (grid_points (st_grid s)) j i (0, 0)) with (pt (st_grid s) (j, i)). rewrite ld_plot_bright.
      rewrite ndiv_fin by lra. apply nsub_fin. }
    split; auto. split.
    { intros LN. assert (0 <= brightness s lat0 lon0 j i).
      { unfold brightness. destruct (Rlt_dec _ _). lra. apply LN. split. lra. rewrite pix_mu_pt. apply law_cos_bound. }
      assert (0 <= brightness s lat0 lon0 j i / top) by (apply Rmult_le_pos; [auto|left; apply Rinv_0_lt_compat; auto]).
      assert (brightness s lat0 lon0 j i / top <= 1). { apply Rmult_le_reg_r with top; auto. unfold Rdiv. rewrite Rmult_assoc, Rinv_l, Rmult_1_r, Rmult_1_l; lra. }
      lra. }
    split. { intros Hm. unfold brightness. destruct (Rlt_dec _ _); [|lra]. field. lra. }
    split; intros Hv.
    - assert (brightness s lat0 lon0 j i / top = 1) by lra. apply Rmult_eq_reg_r with (/ top). unfold Rdiv in H. rewrite H. field. lra.
      apply Rinv_neq_0_compat; lra.
    - rewrite Hv. field. lra. }
  assert (AxLat : forall l, map rad2deg (map deg2rad l) = l).
  { intros. rewrite map_map. rewrite <- (map_id l) at 2. apply map_ext; intros; apply rad2deg_deg2rad. }
  assert (Lats : forall k, (k < nlat)%nat -> nth k (get_lat_points nlat) 0 = -90 + INR k * (180 / INR (nlat - 1))).
  { intros k Hk. unfold get_lat_points, linspace. rewrite nth_map_seq by auto. f_equal. f_equal. f_equal. lra. }
  assert (Lons : forall k, (k < nlon)%nat -> nth k (get_lon_points nlon) 0 = INR k * (360 / INR nlon)).
  { intros k Hk. unfold get_lon_points, linspace_open. rewrite nth_map_seq by auto. unfold Rdiv. ring. }
  split.
  - intros a b G N. rewrite EP. destruct (C62_lemma a b nlat nlon (amap tm gp) true b a) as [_ Q].
    + unfold good_grid in Vg. fold g in Vg. rewrite G in Vg. lia.
    + pose proof (Sh R tm) as S. rewrite G in S. exact S.
    + rewrite G at 1. rewrite Q. reflexivity. intros [_ [K1 K2]]. apply N; auto.
  - intros HR. assert (DG : g = Rect nlat nlon \/ exists n, g = Spiral n).
    { destruct g as [a b|n]. destruct (HR a b) as [-> ->]; auto. eauto. }
    destruct DG as [G|[n G]].
    + assert (Hn : (1 <= nlon)%nat) by (unfold good_grid in Vg; fold g in Vg; rewrite G in Vg; lia).
      destruct (Tail (map deg2rad (get_lat_points nlat)) (map deg2rad (get_lon_points nlon))
        (amap (fun p => Fin (tm p)) gp) (amap (fun p => Fin (cm p)) gp)) as [pd [Ep [X1 [X2 [X3 [X4 [X5 X6]]]]]]].
      { rewrite map_length. apply lat_points_length. } { rewrite map_length. apply lon_points_length. }
      { pose proof (Sh num (fun p => Fin (tm p))) as S. rewrite G in S. exact S. }
      { pose proof (Sh num (fun p => Fin (cm p))) as S. rewrite G in S. exact S. }
      { unfold gp. rewrite G. apply display_rect; auto. } { unfold gp. rewrite G. apply display_rect; auto. }
      { rewrite AxLat. auto. } { rewrite AxLat. auto. }
      exists pd. split; auto. rewrite X1, X2, X3, X4, !AxLat.
      split. apply lat_points_length. split. apply lon_points_length. split; auto. split; auto.
      split. { pose proof (Sh num (fun p => Fin (tm p))) as S. rewrite G in S. exact S. }
      split. { rewrite amap_amap. pose proof (Sh num (fun p => if ngt (Fin (cm p)) (Fin (1 / 2)) then Fin 1 else NaN)) as S. rewrite G in S. exact S. }
      split. { intros _ _ _ j i Hj Hi. assert (P : pixel g j i) by (apply pixel_iff; rewrite G; simpl; auto).
        split. rewrite EM. auto. rewrite amap_amap. unfold gp. rewrite acell_grid by auto.
        rewrite Ecv by auto. unfold g, pt. cbn [fst snd]. unfold ngt. rewrite nlt_eq. unfold Rltb. destruct (Rlt_dec _ _); auto. }
      split. { intros n G'. rewrite G in G'. discriminate. }
      split; auto.
    + destruct (Tail (map deg2rad (get_lat_points nlat)) (map deg2rad (get_lon_points nlon))
        (amap (spiral_resample n (map tm (cells gp))) (grid_points (Rect nlat nlon)))
        (amap (spiral_resample n (map cm (cells gp))) (grid_points (Rect nlat nlon)))) as [pd [Ep [X1 [X2 [X3 [X4 [X5 X6]]]]]]].
      { rewrite map_length. apply lat_points_length. } { rewrite map_length. apply lon_points_length. }
      { apply has_shape_amap. apply (grid_points_shape (Rect nlat nlon)). }
      { apply has_shape_amap. apply (grid_points_shape (Rect nlat nlon)). }
      { unfold gp. rewrite G. apply display_spiral; auto. } { unfold gp. rewrite G. apply display_spiral; auto. }
      { rewrite AxLat. auto. } { rewrite AxLat. auto. }
      exists pd. split; auto. rewrite X1, X2, X3, X4, !AxLat.
      split. apply lat_points_length. split. apply lon_points_length. split; auto. split; auto.
      split. { apply has_shape_amap. apply (grid_points_shape (Rect nlat nlon)). }
      split. { apply has_shape_amap, has_shape_amap. apply (grid_points_shape (Rect nlat nlon)). }
      split. { intros a b G'. rewrite G in G'. discriminate. }
      split; auto.
      intros n' G' j i Hj Hi. assert (n' = n) by congruence. subst n'.
      assert (Hn : (1 <= n)%nat) by (unfold good_grid in Vg; fold g in Vg; rewrite G in Vg; lia).
      assert (Pk : forall k, (k < n)%nat <-> pixel g 0 k).
      { intros k. rewrite pixel_iff, G. simpl. lia. }
      assert (L : forall f : R * R -> R, exists v, acell (amap (spiral_resample n (map f (cells gp))) (grid_points (Rect nlat nlon))) j i NaN = Fin v
          /\ forall lo hi, (forall k, (k < n)%nat -> lo <= f (pt g (0%nat, k)) <= hi) -> lo <= v <= hi).
      { intros f. destruct (C61_lemma n nlat nlon (map f (cells gp)) Hn) as [la [lo [out [E [_ [_ [_ Q]]]]]]].
        { rewrite map_length. unfold gp. rewrite G. unfold cells. simpl. rewrite app_nil_r, map_length, seq_length. auto. }
        assert (Eo : out = amap (spiral_resample n (map f (cells gp))) (grid_points (Rect nlat nlon))).
        { pose proof (display_spiral n nlat nlon f) as DS. unfold gp in *. rewrite G in *.
          replace (amap f (grid_points (Spiral n))) with (mkArr false [map f (cells (grid_points (Spiral n)))]) in DS.
          2:{ unfold amap, cells. simpl. rewrite app_nil_r. auto. }
          rewrite DS in E. congruence. }
        subst out. destruct (Q j i Hj Hi) as [v [ws [Ev [Bd _]]]]. exists v. split; auto.
        intros lo' hi' Hk. apply Bd. intros x I. apply in_map_iff in I. destruct I as [p [<- Ip]]. apply In_pt in Ip.
        destruct Ip as [j' [k [P ->]]]. assert (j' = 0%nat). { apply pixel_iff in P. rewrite G in P. simpl in P. lia. }
        subst j'. apply Hk. apply Pk. auto. }
      split.
      * destruct (L tm) as [t [Et Bt]]. exists t. split; auto. intros lo hi Hk. apply Bt. intros k K.
        rewrite <- CM by (apply Pk; auto). auto.
      * destruct (L cm) as [t [Et Bt]].
        rewrite (acell_amap_shape _ _ _ _ true nlon nlat j i (Fin 0) NaN); auto.
        2:{ apply has_shape_amap. apply (grid_points_shape (Rect nlat nlon)). }
        rewrite Et. unfold ngt. rewrite nlt_eq. unfold Rltb. destruct (Rlt_dec (1/2) t) as [K|K]; [left|right]; split; auto.
        { destruct (min_attained (fun k => - cm (pt g (0%nat, k))) n Hn) as [k [A1 A2]].
          destruct (min_attained (fun k => cm (pt g (0%nat, k))) n Hn) as [k' [A1' A2']].
          exists k. split; auto. rewrite Ecv by (apply Pk; auto). fold g.
          assert (cm (pt g (0%nat, k')) <= t <= cm (pt g (0%nat, k))); [|lra].
          apply Bt. intros k'' Hk. split. apply A2'; auto. specialize (A2 k'' Hk). cbv beta in A2. lra. }
        { destruct (min_attained (fun k => - cm (pt g (0%nat, k))) n Hn) as [k [A1 A2]].
          destruct (min_attained (fun k => cm (pt g (0%nat, k))) n Hn) as [k' [A1' A2']].
          exists k'. split; auto. rewrite Ecv by (apply Pk; auto). fold g.
          assert (cm (pt g (0%nat, k')) <= t <= cm (pt g (0%nat, k))); [|lra].
          apply Bt. intros k'' Hk. split. apply A2'; auto. specialize (A2 k'' Hk). cbv beta in A2. lra. }
Qed.
