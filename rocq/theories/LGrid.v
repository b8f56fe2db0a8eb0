(** Lemmas about the coordinate grids. *)
From Coq Require Import Reals ZArith Bool List Lra Lia Permutation.
From Verif Require Import Num Py LBase Spec MConfig MHelpers MGrid.
Import ListNotations.
Open Scope R_scope.

Global Arguments grid_points : simpl never.
Global Arguments grid_zeros : simpl never.
Global Arguments grid_area : simpl never.
Global Arguments law_cos : simpl never.

Lemma law_cos_dot : forall lat1 lon1 lat2 lon2,
  law_cos lat1 lon1 lat2 lon2 = cos_sep lat1 lon1 lat2 lon2.
Proof.
  intros; unfold law_cos, cos_sep, dot, vec. rewrite cos_minus. ring.
Qed.
Lemma vec_norm : forall lat lon, dot (vec lat lon) (vec lat lon) = 1.
Proof.
  intros; unfold dot, vec. pose proof (sin2_cos2 lat). pose proof (sin2_cos2 lon).
  unfold Rsqr in *. replace (_ + _ + _) with
    (cos lat * cos lat * (sin lon * sin lon + cos lon * cos lon) + sin lat * sin lat) by ring.
  rewrite H0. lra.
Qed.
Lemma dot_cs : forall a b, dot a a = 1 -> dot b b = 1 -> -1 <= dot a b <= 1.
Proof.
  intros [[a1 a2] a3] [[b1 b2] b3]; unfold dot; intros.
  pose proof (pow2_ge_0 (a1 - b1)). pose proof (pow2_ge_0 (a2 - b2)). pose proof (pow2_ge_0 (a3 - b3)).
  pose proof (pow2_ge_0 (a1 + b1)). pose proof (pow2_ge_0 (a2 + b2)). pose proof (pow2_ge_0 (a3 + b3)).
  nra.
Qed.
Lemma law_cos_bound : forall a b c d, -1 <= law_cos a b c d <= 1.
Proof. intros. rewrite law_cos_dot. apply dot_cs; apply vec_norm. Qed.

(** ** linspace *)
Lemma nth_map_seq : forall A (f : nat -> A) n i d, (i < n)%nat -> nth i (map f (seq 0 n)) d = f i.
Proof.
  intros. rewrite (nth_indep _ d (f 0%nat)) by (rewrite map_length, seq_length; auto).
  rewrite map_nth, seq_nth; auto.
Qed.
Lemma linspace_length : forall a b n, length (linspace a b n) = n.
Proof. intros; unfold linspace; rewrite map_length, seq_length; auto. Qed.
Lemma linspace_open_length : forall a b n, length (linspace_open a b n) = n.
Proof. intros; unfold linspace_open; rewrite map_length, seq_length; auto. Qed.
Lemma linspace_nth : forall a b n i d, (i < n)%nat ->
  nth i (linspace a b n) d = a + INR i * ((b - a) / INR (n - 1)).
Proof. intros; unfold linspace; rewrite nth_map_seq; auto. Qed.
Lemma linspace_open_nth : forall a b n i d, (i < n)%nat ->
  nth i (linspace_open a b n) d = a + INR i * ((b - a) / INR n).
Proof. intros; unfold linspace_open; rewrite nth_map_seq; auto. Qed.
Lemma INR_pos : forall n, (1 <= n)%nat -> 0 < INR n.
Proof. intros. apply lt_0_INR. lia. Qed.

(** latitude of the i-th row, radians *)
Definition lat_i (nlat i : nat) : R := - PI/2 + INR i * (PI / INR (nlat - 1)).
Lemma lat_i_eq : forall nlat i,
  deg2rad (-90 + INR i * ((90 - -90) / INR (nlat - 1))) = lat_i nlat i.
Proof. intros; unfold lat_i, deg2rad, Rdiv. generalize (/ INR (nlat - 1)); intros. lra. Qed.

Lemma lat_i_range : forall nlat i, (2 <= nlat)%nat -> (i < nlat)%nat ->
  - PI/2 <= lat_i nlat i <= PI/2.
Proof.
  intros. unfold lat_i. pose proof PI_RGT_0. pose proof (pos_INR i).
  assert (0 < INR (nlat - 1)) by (apply INR_pos; lia).
  assert (INR i <= INR (nlat - 1)) by (apply le_INR; lia).
  assert (0 <= INR i * (PI / INR (nlat - 1))).
  { apply Rmult_le_pos; auto. apply Rlt_le, Rdiv_lt_0_compat; auto. }
  assert (INR i * (PI / INR (nlat - 1)) <= PI).
  { replace (INR i * (PI / INR (nlat - 1))) with (INR i / INR (nlat - 1) * PI) by (field; lra).
    rewrite <- (Rmult_1_l PI) at 2. apply Rmult_le_compat_r; try lra.
    apply div_le; lra. }
  lra.
Qed.
Lemma lat_i_interior : forall nlat i, (0 < i)%nat -> (i < nlat - 1)%nat ->
  - PI/2 < lat_i nlat i < PI/2.
Proof.
  intros. unfold lat_i. pose proof PI_RGT_0.
  assert (0 < INR i) by (apply INR_pos; lia).
  assert (0 < INR (nlat - 1)) by (apply INR_pos; lia).
  assert (INR i < INR (nlat - 1)) by (apply lt_INR; lia).
  assert (0 < INR i * (PI / INR (nlat - 1))).
  { apply Rmult_lt_0_compat; auto. apply Rdiv_lt_0_compat; auto. }
  assert (INR i * (PI / INR (nlat - 1)) < PI).
  { replace (INR i * (PI / INR (nlat - 1))) with (INR i / INR (nlat - 1) * PI) by (field; lra).
    rewrite <- (Rmult_1_l PI) at 2. apply Rmult_lt_compat_r; try lra.
    apply Rmult_lt_reg_r with (INR (nlat - 1)); auto. unfold Rdiv.
    rewrite Rmult_assoc, Rinv_l; lra. }
  lra.
Qed.
Lemma cos_lat_i_pos : forall nlat i, (0 < i)%nat -> (i < nlat - 1)%nat -> 0 < cos (lat_i nlat i).
Proof. intros. apply cos_gt_0; pose proof (lat_i_interior nlat i H H0); lra. Qed.
Lemma lat_i_0 : forall nlat, lat_i nlat 0 = - PI/2.
Proof. intros; unfold lat_i; simpl; lra. Qed.
Lemma lat_i_last : forall nlat, (2 <= nlat)%nat -> lat_i nlat (nlat - 1) = PI/2.
Proof. intros; unfold lat_i. pose proof (INR_pos (nlat - 1)). field_simplify; try lra. apply Rgt_not_eq, H0; lia. Qed.
Lemma cos_lat_i_nonneg : forall nlat i, (2 <= nlat)%nat -> (i < nlat)%nat -> 0 <= cos (lat_i nlat i).
Proof. intros. apply cos_ge_0; pose proof (lat_i_range nlat i H H0); lra. Qed.
Lemma cos_lat_i_zero : forall nlat i, (2 <= nlat)%nat -> (i < nlat)%nat ->
  (cos (lat_i nlat i) = 0 <-> i = 0%nat \/ i = (nlat - 1)%nat).
Proof.
  intros; split; intros.
  - destruct (Nat.eq_dec i 0); auto. destruct (Nat.eq_dec i (nlat - 1)); auto.
    assert (0 < cos (lat_i nlat i)) by (apply cos_lat_i_pos; lia). lra.
  - destruct H1; subst.
    + rewrite lat_i_0. replace (- PI/2) with (- (PI/2)) by lra. rewrite cos_neg. apply cos_PI2.
    + rewrite lat_i_last by auto. apply cos_PI2.
Qed.

Definition lon_j (nlon j : nat) : R := INR j * (2 * PI / INR nlon).
Lemma lon_j_eq : forall nlon j, deg2rad (0 + INR j * ((360 - 0) / INR nlon)) = lon_j nlon j.
Proof. intros; unfold lon_j, deg2rad, Rdiv. generalize (/ INR nlon); intros. lra. Qed.

Lemma rect_points_eq : forall nlat nlon,
  grid_points (Rect nlat nlon) =
  mkArr true (map (fun j => map (fun i => (lat_i nlat i, lon_j nlon j)) (seq 0 nlat)) (seq 0 nlon)).
Proof.
  intros. unfold grid_points, rect_oned, get_lat_points, get_lon_points, linspace, linspace_open.
  f_equal. rewrite map_map. apply map_ext; intros. rewrite map_map. apply map_ext; intros.
  rewrite lat_i_eq, lon_j_eq; auto.
Qed.
Lemma spiral_points_eq : forall n,
  grid_points (Spiral n) = mkArr false [map (fun i => (spiral_lat n i, spiral_lon i)) (seq 0 n)].
Proof. auto. Qed.

Definition g_rows (g : grid) : nat := match g with Rect _ nlon => nlon | Spiral _ => 1 end.
Definition g_cols (g : grid) : nat := match g with Rect nlat _ => nlat | Spiral n => n end.
Definition g_2d (g : grid) : bool := match g with Rect _ _ => true | Spiral _ => false end.
Lemma grid_points_shape : forall g, has_shape (grid_points g) (g_2d g) (g_rows g) (g_cols g).
Proof.
  destruct g; [rewrite rect_points_eq|rewrite spiral_points_eq]; split; simpl; auto; split.
  - rewrite map_length, seq_length; auto.
  - intros. apply in_map_iff in H. destruct H as [j [? ?]]; subst. rewrite map_length, seq_length; auto.
  - auto.
  - intros. destruct H; [subst|contradiction]. rewrite map_length, seq_length; auto.
Qed.
Lemma has_shape_amap : forall A B (f : A -> B) a b r c, has_shape a b r c -> has_shape (amap f a) b r c.
Proof.
  intros A B f a b r c [H [H0 H1]]. split; [|split]; simpl; auto.
  - rewrite map_length; auto.
  - intros. apply in_map_iff in H2. destruct H2 as [x [? ?]]; subst. rewrite map_length; auto.
Qed.
Lemma acell_amap : forall A B (f : A -> B) a j i d d',
  (j < length (arows a))%nat -> (i < length (nth j (arows a) []))%nat ->
  acell (amap f a) j i d = f (acell a j i d').
Proof.
  intros; unfold acell, amap; simpl.
  rewrite (nth_indep _ [] (map f [])) by (rewrite map_length; auto).
  rewrite map_nth.
  rewrite (nth_indep _ d (f d')) by (rewrite map_length; auto). apply map_nth.
Qed.
Lemma acell_amap_shape : forall A B (f : A -> B) a b r c j i d d',
  has_shape a b r c -> (j < r)%nat -> (i < c)%nat ->
  acell (amap f a) j i d = f (acell a j i d').
Proof.
  intros A B f a b r c j i d d' [H [H0 H1]] Hj Hi. apply acell_amap. lia.
  rewrite H1; auto. apply nth_In. lia.
Qed.
Lemma In_cells_acell : forall A (a : arr A) b r c d x, has_shape a b r c -> In x (cells a) ->
  exists j i, (j < r)%nat /\ (i < c)%nat /\ x = acell a j i d.
Proof.
  intros A a b r c d x [H [H0 H1]] Hin. unfold cells in Hin. apply in_concat in Hin.
  destruct Hin as [row [Hr Hx]]. pose proof Hr as Hr2.
  apply In_nth with (d := []) in Hr. destruct Hr as [j [Hj Hrow]].
  apply In_nth with (d := d) in Hx. destruct Hx as [i [Hi Hx]].
  exists j, i. rewrite <- H0. split; auto. split. rewrite <- (H1 row); auto.
  unfold acell. rewrite Hrow; auto.
Qed.
Lemma acell_In_cells : forall A (a : arr A) b r c d j i, has_shape a b r c ->
  (j < r)%nat -> (i < c)%nat -> In (acell a j i d) (cells a).
Proof.
  intros A a b r c d j i [H [H0 H1]] Hj Hi. unfold cells, acell. apply in_concat.
  exists (nth j (arows a) []). split. apply nth_In; lia. apply nth_In.
  rewrite H1; auto. apply nth_In; lia.
Qed.

Lemma rect_point_cell : forall nlat nlon j i d, (j < nlon)%nat -> (i < nlat)%nat ->
  acell (grid_points (Rect nlat nlon)) j i d = (lat_i nlat i, lon_j nlon j).
Proof.
  intros. rewrite rect_points_eq. unfold acell; simpl.
  rewrite (nth_map_seq _ _ nlon j) by auto. rewrite nth_map_seq; auto.
Qed.
Lemma spiral_point_cell : forall n i d, (i < n)%nat ->
  acell (grid_points (Spiral n)) 0 i d = (spiral_lat n i, spiral_lon i).
Proof. intros. rewrite spiral_points_eq. unfold acell; simpl. rewrite nth_map_seq; auto. Qed.

Lemma repeat_map_seq : forall A (x : A) n, repeat x n = map (fun _ => x) (seq 0 n).
Proof.
  induction n; simpl; auto. f_equal. rewrite IHn, <- seq_shift, map_map; auto.
Qed.
Lemma grid_zeros_eq : forall g, grid_zeros g = amap (fun _ => Fin 0) (grid_points g).
Proof.
  destruct g; [rewrite rect_points_eq|rewrite spiral_points_eq]; unfold grid_zeros, amap; simpl; f_equal.
  - rewrite repeat_map_seq, map_map. apply map_ext; intros. rewrite repeat_map_seq, map_map; auto.
  - f_equal. rewrite repeat_map_seq, map_map; auto.
Qed.

(** ** Areas *)
Definition rect_norm (nlat nlon : nat) : R :=
  rsum (map (fun p => cos (fst p)) (cells (grid_points (Rect nlat nlon)))).
Definition area_at (g : grid) (p : R * R) : num :=
  match g with
  | Rect nlat nlon => ndiv (Fin (cos (fst p))) (Fin (rect_norm nlat nlon))
  | Spiral n => Fin (1 / INR n)
  end.
Lemma sin_deg90 : forall x, sin (x + deg2rad 90) = cos x.
Proof.
  intros. unfold deg2rad. replace (90 * PI / 180) with (PI/2) by lra.
  rewrite sin_plus, sin_PI2, cos_PI2. ring.
Qed.
Lemma grid_area_eq : forall g, g <> Spiral 0 -> grid_area g = Ok (amap (area_at g) (grid_points g)).
Proof.
  intros. destruct g.
  - unfold grid_area. rewrite amap_amap, cells_amap. f_equal.
    unfold area_at, rect_norm.
    rewrite (map_ext _ (fun p => cos (fst p))) by (intros; apply sin_deg90).
    apply amap_ext; intros; rewrite sin_deg90; auto.
  - destruct n; try congruence. unfold grid_area. rewrite grid_zeros_eq, amap_amap. f_equal.
    apply amap_ext; intros. unfold area_at. rewrite nadd_fin, Rplus_0_l. auto.
Qed.
Lemma rect_cos_nonneg : forall nlat nlon p, (2 <= nlat)%nat ->
  In p (cells (grid_points (Rect nlat nlon))) -> 0 <= cos (fst p).
Proof.
  intros. destruct (In_cells_acell _ _ _ _ _ (0,0) _ (grid_points_shape (Rect nlat nlon)) H0)
    as [j [i [Hj [Hi ->]]]].
  simpl in *. rewrite rect_point_cell by auto. simpl. apply cos_lat_i_nonneg; auto.
Qed.
Lemma rect_norm_pos : forall nlat nlon, (3 <= nlat)%nat -> (1 <= nlon)%nat -> 0 < rect_norm nlat nlon.
Proof.
  intros. unfold rect_norm.
  apply (rsum_map_pos _ _ _ (lat_i nlat 1, lon_j nlon 0)).
  - intros y Hy. apply (rect_cos_nonneg nlat nlon y); auto; lia.
  - rewrite <- (rect_point_cell nlat nlon 0 1 (0,0)) by lia.
    apply (acell_In_cells _ _ true nlon nlat). apply (grid_points_shape (Rect nlat nlon)). lia. lia.
  - simpl. apply cos_lat_i_pos; lia.
Qed.
(** real-valued area *)
Definition rarea_at (g : grid) (p : R * R) : R :=
  match g with
  | Rect nlat nlon => cos (fst p) / rect_norm nlat nlon
  | Spiral n => 1 / INR n
  end.
(** grids on which areas are finite *)
Lemma area_at_fin : forall g p, good_grid g -> area_at g p = Fin (rarea_at g p).
Proof.
  destruct g; simpl; intros; auto. destruct H.
  pose proof (rect_norm_pos nlat nlon H H0). destruct (Req_EM_T (rect_norm nlat nlon) 0); auto; lra.
Qed.
Lemma rarea_nonneg : forall g p, good_grid g -> In p (cells (grid_points g)) -> 0 <= rarea_at g p.
Proof.
  destruct g; intros.
  - destruct H. pose proof (rect_norm_pos nlat nlon H H1). unfold rarea_at.
    apply Rmult_le_pos. apply (rect_cos_nonneg nlat nlon p); auto; lia. apply Rlt_le, Rinv_0_lt_compat; auto.
  - simpl in *. apply Rlt_le, Rdiv_lt_0_compat. lra. apply INR_pos; auto.
Qed.
Lemma rarea_sum : forall g, good_grid g -> rsum (map (rarea_at g) (cells (grid_points g))) = 1.
Proof.
  destruct g; intros.
  - destruct H. pose proof (rect_norm_pos nlat nlon H H0). unfold rarea_at.
    rewrite rsum_map_div. fold (rect_norm nlat nlon). field; lra.
  - simpl in H. unfold rarea_at. rewrite rsum_map_const. unfold cells; simpl.
    rewrite app_nil_r, map_length, seq_length. pose proof (INR_pos n H). field; lra.
Qed.
Lemma good_grid_not0 : forall g, good_grid g -> g <> Spiral 0.
Proof. intros; intro; subst; simpl in H; lia. Qed.
Lemma grid_area_good : forall g, good_grid g ->
  grid_area g = Ok (amap (fun p => Fin (rarea_at g p)) (grid_points g)).
Proof.
  intros. rewrite grid_area_eq by (apply good_grid_not0; auto). f_equal.
  apply amap_ext; intros; apply area_at_fin; auto.
Qed.

Lemma C01_lemma : forall nlat nlon, (3 <= nlat)%nat -> (1 <= nlon)%nat ->
  exists A k, grid_area (Rect nlat nlon) = Ok A
  /\ has_shape A true nlon nlat
  /\ 0 < k
  /\ (forall j i, (j < nlon)%nat -> (i < nlat)%nat ->
        exists a, acell A j i NaN = Fin a /\ 0 <= a
          /\ a = k * cos (- PI/2 + INR i * (PI / INR (nlat - 1)))
          /\ (a = 0 <-> i = 0%nat \/ i = (nlat - 1)%nat))
  /\ nsum (cells A) = Fin 1.
Proof.
  intros. exists (amap (fun p => Fin (rarea_at (Rect nlat nlon) p)) (grid_points (Rect nlat nlon))).
  exists (/ rect_norm nlat nlon).
  pose proof (rect_norm_pos nlat nlon H H0).
  assert (0 < / rect_norm nlat nlon) by (apply Rinv_0_lt_compat; auto).
  assert (good_grid (Rect nlat nlon)) by (split; auto).
  split. apply grid_area_good; auto.
  split. apply has_shape_amap. apply grid_points_shape.
  split; auto. split.
  - intros. rewrite (acell_amap_shape _ _ _ _ true nlon nlat j i NaN (0,0)); auto.
    2: apply (grid_points_shape (Rect nlat nlon)).
    rewrite rect_point_cell by auto. exists (cos (lat_i nlat i) / rect_norm nlat nlon).
    assert (0 <= cos (lat_i nlat i)) by (apply cos_lat_i_nonneg; auto; lia).
    split; auto. split. apply Rmult_le_pos; lra. split. fold (lat_i nlat i). unfold Rdiv; lra.
    rewrite <- (cos_lat_i_zero nlat i) by (auto; lia). split; intros.
    + unfold Rdiv in H7. apply Rmult_integral in H7. destruct H7; auto; lra.
    + rewrite H7; unfold Rdiv; lra.
  - rewrite cells_amap, (nsum_map_fin _ _ (rarea_at (Rect nlat nlon))) by auto.
    rewrite rarea_sum; auto.
Qed.

Lemma C01_nan_lemma : forall nlon, exists A, grid_area (Rect 1 nlon) = Ok A
  /\ has_shape A true nlon 1 /\ (forall x, In x (cells A) -> x = NaN).
Proof.
  intros. exists (amap (area_at (Rect 1 nlon)) (grid_points (Rect 1 nlon))).
  split. apply grid_area_eq; congruence. split. apply has_shape_amap, grid_points_shape.
  intros. rewrite cells_amap in H. apply in_map_iff in H. destruct H as [p [<- Hp]].
  assert (Hz : forall q, In q (cells (grid_points (Rect 1 nlon))) -> cos (fst q) = 0).
  { intros. destruct (In_cells_acell _ _ _ _ _ (0,0) _ (grid_points_shape (Rect 1 nlon)) H)
      as [j [i [Hj [Hi ->]]]]. simpl in *. rewrite rect_point_cell by auto. simpl.
    assert (i = 0%nat) by lia; subst. rewrite lat_i_0.
    replace (- PI/2) with (- (PI/2)) by lra. rewrite cos_neg; apply cos_PI2. }
  unfold area_at. rewrite Hz by auto. unfold rect_norm.
  replace (rsum _) with 0 by (symmetry; apply rsum_zero; auto).
  simpl. destruct (Req_EM_T 0 0); try congruence. unfold inf_signed.
  destruct (Rlt_dec 0 0); auto; lra.
Qed.

(** ** C02 *)
Lemma C02_lemma : forall nlat nlon lats lons, (2 <= nlat)%nat -> (1 <= nlon)%nat ->
  rect_oned nlat nlon = (lats, lons) ->
  length lats = nlat /\ length lons = nlon
  /\ nth 0 lats 0 = -90 /\ nth (nlat - 1) lats 0 = 90
  /\ (exists d, dlat nlat = Fin d /\ 0 < d
        /\ forall i, (S i < nlat)%nat -> nth (S i) lats 0 - nth i lats 0 = d)
  /\ nth 0 lons 0 = 0
  /\ (exists d, dlon nlon = Fin d /\ 0 < d
        /\ (forall j, (S j < nlon)%nat -> nth (S j) lons 0 - nth j lons 0 = d)
        /\ nth (nlon - 1) lons 0 = 360 - d)
  /\ (forall j, (j < nlon)%nat -> 0 <= nth j lons 0 < 360)
  /\ has_shape (grid_points (Rect nlat nlon)) true nlon nlat
  /\ (forall j i, (j < nlon)%nat -> (i < nlat)%nat ->
        acell (grid_points (Rect nlat nlon)) j i (0, 0)
        = (nth i lats 0 * PI / 180, nth j lons 0 * PI / 180))
  /\ has_shape (grid_zeros (Rect nlat nlon)) true nlon nlat
  /\ (forall x, In x (cells (grid_zeros (Rect nlat nlon))) -> x = Fin 0).
Proof.
  intros. unfold rect_oned, get_lat_points, get_lon_points in H1. inversion H1; subst; clear H1.
  assert (0 < INR (nlat - 1)) by (apply INR_pos; lia).
  assert (0 < INR nlon) by (apply INR_pos; lia).
  assert (INR nlat - 1 = INR (nlat - 1)) by (rewrite minus_INR by lia; simpl; lra).
  split. apply linspace_length. split. apply linspace_open_length.
  split. rewrite linspace_nth by lia. simpl; lra.
  split. rewrite linspace_nth by lia. field; lra.
  split. { exists (180 / INR (nlat - 1)). unfold dlat. rewrite H3, ndiv_fin by lra. split; auto.
    split. apply Rdiv_lt_0_compat; lra. intros. rewrite !linspace_nth by lia.
    rewrite S_INR. field; lra. }
  split. rewrite linspace_open_nth by lia. simpl; lra.
  split. { exists (360 / INR nlon). unfold dlon. rewrite ndiv_fin by lra. split; auto.
    split. apply Rdiv_lt_0_compat; lra. split. intros. rewrite !linspace_open_nth by lia.
    rewrite S_INR. field; lra. rewrite linspace_open_nth by lia.
    rewrite minus_INR by lia. simpl. field; lra. }
  split. { intros. rewrite linspace_open_nth by lia. pose proof (pos_INR j).
    assert (INR j < INR nlon) by (apply lt_INR; auto).
    assert (0 < (360 - 0) / INR nlon) by (apply Rdiv_lt_0_compat; lra).
    split. nra. replace 360 with (INR nlon * ((360 - 0) / INR nlon)) at 2 by (field; lra). nra. }
  split. apply (grid_points_shape (Rect nlat nlon)).
  split. { intros. rewrite rect_point_cell by auto. rewrite linspace_nth, linspace_open_nth by auto.
    rewrite <- lat_i_eq, <- lon_j_eq. reflexivity. }
  split. rewrite grid_zeros_eq. apply has_shape_amap. apply (grid_points_shape (Rect nlat nlon)).
  intros. rewrite grid_zeros_eq, cells_amap in H4. apply in_map_iff in H4.
  destruct H4 as [? [? ?]]; auto.
Qed.

(** ** C03 *)
Lemma spiral_arg_range : forall n i, (i < n)%nat -> -1 < 1 - 2 * (INR i + 1/2) / INR n < 1.
Proof.
  intros. assert (0 < INR n) by (apply INR_pos; lia). pose proof (pos_INR i).
  assert (INR i + 1 <= INR n) by (rewrite <- S_INR; apply le_INR; lia).
  assert (0 < 2 * (INR i + 1/2) / INR n) by (apply Rdiv_lt_0_compat; lra).
  assert (2 * (INR i + 1/2) / INR n < 2).
  { apply Rmult_lt_reg_r with (INR n); auto. unfold Rdiv. rewrite Rmult_assoc, Rinv_l; lra. }
  lra.
Qed.
Lemma spiral_sin_lat : forall n i, (i < n)%nat -> sin (spiral_lat n i) = 1 - 2 * (INR i + 1/2) / INR n.
Proof.
  intros. unfold spiral_lat, spiral_colat. rewrite sin_minus, sin_PI2, cos_PI2.
  pose proof (spiral_arg_range n i H). rewrite cos_acos by lra. lra.
Qed.
Lemma spiral_lat_range : forall n i, (i < n)%nat -> - PI/2 < spiral_lat n i < PI/2.
Proof.
  intros. unfold spiral_lat, spiral_colat. pose proof (spiral_arg_range n i H).
  pose proof (acos_bound_lt _ H0). lra.
Qed.
Lemma rmod_range : forall x m, 0 < m -> 0 <= rmod x m < m.
Proof.
  intros. unfold rmod. destruct (base_Int_part (x / m)).
  assert (x = m * (x / m)) by (field; lra). rewrite H2 at 1 3. nra.
Qed.
Lemma spiral_lat_sym : forall n i, (i < n)%nat -> spiral_lat n (n - 1 - i) = - spiral_lat n i.
Proof.
  intros. assert (0 < INR n) by (apply INR_pos; lia).
  assert (n - 1 - i < n)%nat by lia.
  pose proof (spiral_lat_range n i H). pose proof (spiral_lat_range n _ H1).
  apply sin_inj; try lra. 
  rewrite sin_neg, !spiral_sin_lat by auto. rewrite !minus_INR by lia. simpl. field. lra.
Qed.
Lemma C03_lemma : forall n, (1 <= n)%nat ->
  has_shape (grid_points (Spiral n)) false 1 n
  /\ (forall i, (i < n)%nat -> exists lat lon,
        acell (grid_points (Spiral n)) 0 i (0, 0) = (lat, lon)
        /\ - PI/2 < lat < PI/2
        /\ sin lat = 1 - (2 * INR i + 1) / INR n
        /\ 0 <= lon < 2 * PI
        /\ (exists k : Z, lon = 2 * PI * INR i / ((1 + sqrt 5) / 2) - 2 * PI * IZR k))
  /\ (forall i, (S i < n)%nat ->
        fst (acell (grid_points (Spiral n)) 0 (S i) (0, 0)) < fst (acell (grid_points (Spiral n)) 0 i (0, 0)))
  /\ (forall i, (i < n)%nat ->
        fst (acell (grid_points (Spiral n)) 0 (n - 1 - i) (0, 0)) = - fst (acell (grid_points (Spiral n)) 0 i (0, 0)))
  /\ exists A, grid_area (Spiral n) = Ok A /\ has_shape A false 1 n
      /\ (forall x, In x (cells A) -> x = Fin (1 / INR n)) /\ nsum (cells A) = Fin 1.
Proof.
  intros. assert (0 < INR n) by (apply INR_pos; lia).
  split. apply (grid_points_shape (Spiral n)).
  split. { intros. exists (spiral_lat n i), (spiral_lon i). rewrite spiral_point_cell by auto.
    split; auto. split. apply spiral_lat_range; auto. split. rewrite spiral_sin_lat by auto. field; lra.
    pose proof PI_RGT_0. unfold spiral_lon. split. apply rmod_range; lra.
    eexists. unfold rmod, GOLDEN_RATIO. f_equal. field. pose proof (sqrt_pos 5); lra. }
  split. { intros. rewrite !spiral_point_cell by lia. simpl.
    unfold spiral_lat, spiral_colat.
    pose proof (spiral_arg_range n i ltac:(lia)). pose proof (spiral_arg_range n (S i) H1).
    assert (1 - 2 * (INR (S i) + 1/2) / INR n < 1 - 2 * (INR i + 1/2) / INR n).
    { rewrite S_INR. unfold Rdiv. assert (0 < / INR n) by (apply Rinv_0_lt_compat; auto). nra. }
    assert (~ (acos (1 - 2 * (INR (S i) + 1/2) / INR n) <= acos (1 - 2 * (INR i + 1/2) / INR n))); [|lra].
    intro. destruct H5.
    - apply cos_decreasing_1 in H5; try apply acos_bound. rewrite !cos_acos in H5 by lra. lra.
    - assert (cos (acos (1 - 2 * (INR (S i) + 1/2) / INR n)) = cos (acos (1 - 2 * (INR i + 1/2) / INR n)))
        by (rewrite H5; auto). rewrite !cos_acos in H6 by lra. lra. }
  split. { intros. rewrite !spiral_point_cell by lia. simpl. apply spiral_lat_sym; auto. }
  eexists. split. apply grid_area_good; auto. split. apply has_shape_amap, grid_points_shape.
  split. { intros. rewrite cells_amap in H1. apply in_map_iff in H1. destruct H1 as [p [<- _]]. auto. }
  rewrite cells_amap, (nsum_map_fin _ _ (rarea_at (Spiral n))) by auto. rewrite rarea_sum; auto.
Qed.

(** ** C61: resampling *)
Lemma rsum_combine_le : forall (ws data : list R) lo hi, length ws = length data ->
  (forall w, In w ws -> 0 < w) -> (forall x, In x data -> lo <= x <= hi) ->
  lo * rsum (map fst (combine ws data)) <= rsum (map (fun p => fst p * snd p) (combine ws data))
  /\ rsum (map (fun p => fst p * snd p) (combine ws data)) <= hi * rsum (map fst (combine ws data)).
Proof.
  induction ws; destruct data; simpl; intros; try discriminate. lra.
  destruct (IHws data lo hi); auto.
  pose proof (H0 a (or_introl eq_refl)). pose proof (H1 r (or_introl eq_refl)). nra.
Qed.
Lemma rsum_combine_pos : forall (ws data : list R), length ws = length data -> data <> [] ->
  (forall w, In w ws -> 0 < w) -> 0 < rsum (map fst (combine ws data)).
Proof.
  intros. destruct ws, data; simpl in *; try congruence.
  assert (0 <= rsum (map fst (combine ws data))).
  { apply rsum_nonneg. intros. apply in_map_iff in H2. destruct H2 as [[u v] [<- Hx]].
    apply in_combine_l in Hx. simpl. apply Rlt_le; auto. }
  pose proof (H1 r (or_introl eq_refl)). lra.
Qed.
Lemma spiral_resample_bounds : forall n data out lo hi, (1 <= n)%nat -> length data = n ->
  (forall x, In x data -> lo <= x <= hi) ->
  exists v, spiral_resample n data out = Fin v /\ lo <= v <= hi.
Proof.
  intros. unfold spiral_resample.
  set (ws := map (fun src => display_weight n src out) (cells (grid_points (Spiral n)))).
  assert (Hl : length ws = length data).
  { unfold ws, cells; simpl. rewrite app_nil_r, !map_length, seq_length; auto. }
  assert (Hp : forall w, In w ws -> 0 < w).
  { unfold ws; intros. apply in_map_iff in H2. destruct H2 as [? [<- _]]. apply exp_pos. }
  assert (Hd : data <> []) by (destruct data; simpl in *; [lia|congruence]).
  pose proof (rsum_combine_pos ws data Hl Hd Hp).
  destruct (rsum_combine_le ws data lo hi Hl Hp H1).
  rewrite ndiv_fin by lra. eexists; split; auto. split.
  - apply Rmult_le_reg_r with (rsum (map fst (combine ws data))); auto.
    unfold Rdiv. rewrite Rmult_assoc, Rinv_l; lra.
  - apply Rmult_le_reg_r with (rsum (map fst (combine ws data))); auto.
    unfold Rdiv. rewrite Rmult_assoc, Rinv_l; lra.
Qed.

Lemma spiral_resample_weights : forall n data out, (1 <= n)%nat -> length data = n ->
  exists ws, length ws = n
  /\ (forall k, (k < n)%nat -> exists th,
        is_angle (fst (acell (grid_points (Spiral n)) 0 k (0, 0)))
                 (snd (acell (grid_points (Spiral n)) 0 k (0, 0))) (fst out) (snd out) th
        /\ nth k ws 0 = exp (- (th^2 * INR n / (4 * PI))))
  /\ spiral_resample n data out
     = Fin (rsum (map (fun p => fst p * snd p) (combine ws data)) / rsum ws).
Proof.
  intros. unfold spiral_resample.
  set (ws := map (fun src => display_weight n src out) (cells (grid_points (Spiral n)))).
  assert (Hl : length ws = n).
  { unfold ws, cells, grid_points; simpl. rewrite app_nil_r, !map_length, seq_length; auto. }
  exists ws. split; auto. split.
  - intros. assert (0 < INR n) by (apply INR_pos; auto). pose proof PI_RGT_0.
    rewrite spiral_point_cell by auto. simpl.
    exists (acos (law_cos (spiral_lat n k) (spiral_lon k) (fst out) (snd out))).
    pose proof (law_cos_bound (spiral_lat n k) (spiral_lon k) (fst out) (snd out)).
    split. split. apply acos_bound. rewrite cos_acos by auto. apply law_cos_dot.
    unfold ws, cells, grid_points; simpl. rewrite app_nil_r, map_map, nth_map_seq by auto.
    unfold display_weight. simpl fst; simpl snd. f_equal. f_equal.
    unfold char_len. rewrite Rpow_mult_distr with (x := acos _) || idtac.
    unfold Rdiv at 1. rewrite Rpow_mult_distr.
    assert (0 < INR n / (4 * PI)) by (apply Rdiv_lt_0_compat; lra).
    pose proof (sqrt_lt_R0 _ H5).
    replace (/ (1 / sqrt (INR n / (4 * PI)))) with (sqrt (INR n / (4 * PI))) by (field; lra).
    rewrite pow2_sqrt by lra. unfold Rdiv; ring.
  - assert (Hp : forall w, In w ws -> 0 < w).
    { unfold ws; intros. apply in_map_iff in H1. destruct H1 as [? [<- _]]. apply exp_pos. }
    assert (Hd : data <> []) by (destruct data; simpl in *; [lia|congruence]).
    assert (Hl' : length ws = length data) by congruence.
    pose proof (rsum_combine_pos ws data Hl' Hd Hp).
    rewrite ndiv_fin by lra. f_equal. f_equal. f_equal. clear - Hl'.
    revert data Hl'. generalize ws. induction ws0; destruct data; simpl; intros; try discriminate; auto.
    f_equal; auto.
Qed.

Lemma C61_lemma : forall n nlat nlon d, (1 <= n)%nat -> length d = n ->
  exists lats lons out,
    display_grid (Spiral n) nlat nlon (mkArr false [d]) = Ok (lats, lons, out)
    /\ length lats = nlat /\ length lons = nlon /\ has_shape out true nlon nlat
    /\ (forall j i, (j < nlon)%nat -> (i < nlat)%nat ->
         exists v ws, acell out j i NaN = Fin v
         /\ (forall lo hi, (forall x, In x d -> lo <= x <= hi) -> lo <= v <= hi)
         /\ length ws = n
         /\ (forall k, (k < n)%nat -> exists th,
              is_angle (fst (acell (grid_points (Spiral n)) 0 k (0, 0)))
                       (snd (acell (grid_points (Spiral n)) 0 k (0, 0)))
                       (fst (acell (grid_points (Rect nlat nlon)) j i (0, 0)))
                       (snd (acell (grid_points (Rect nlat nlon)) j i (0, 0))) th
              /\ nth k ws 0 = exp (- (th^2 * INR n / (4 * PI))))
         /\ v = rsum (map (fun p => fst p * snd p) (combine ws d)) / rsum ws).
Proof.
  intros. unfold display_grid, arr_shape. simpl. rewrite H0, Nat.eqb_refl. simpl.
  do 3 eexists. split. reflexivity.
  split. rewrite map_length. apply linspace_length.
  split. rewrite map_length. apply linspace_open_length.
  split. apply has_shape_amap. apply (grid_points_shape (Rect nlat nlon)).
  intros. unfold cells at 1. simpl. rewrite app_nil_r.
  rewrite (acell_amap_shape _ _ _ _ true nlon nlat j i NaN (0,0)); auto.
  2: apply (grid_points_shape (Rect nlat nlon)).
  destruct (spiral_resample_weights n d (acell (grid_points (Rect nlat nlon)) j i (0, 0)) H H0)
    as [ws [Hw1 [Hw2 Hw3]]].
  do 2 eexists. split. exact Hw3. split.
  - intros. destruct (spiral_resample_bounds n d (acell (grid_points (Rect nlat nlon)) j i (0, 0)) lo hi H H0 H3)
      as [v [Hv ?]]. rewrite Hw3 in Hv. inversion Hv; subst; auto.
  - split; [exact Hw1 | split; [exact Hw2 | reflexivity]].
Qed.
Lemma C61_reject_lemma : forall n nlat nlon data,
  (a2d data = true \/ exists d, arows data = [d] /\ length d <> n) ->
  display_grid (Spiral n) nlat nlon data = Raise ValueError.
Proof.
  intros. unfold display_grid, arr_shape. destruct H as [H | [d [H H0]]].
  - rewrite H; auto.
  - rewrite H. destruct (a2d data); auto. rewrite (proj2 (Nat.eqb_neq _ _)); auto.
Qed.
Lemma C62_lemma : forall glat glon nlat nlon (data : arr R) b rows cols,
  (1 <= rows)%nat -> has_shape data b rows cols ->
  ((b = true /\ rows = nlon /\ cols = nlat) ->
    exists lats lons out, display_grid (Rect glat glon) nlat nlon data = Ok (lats, lons, out)
     /\ length lats = glat /\ length lons = glon
     /\ has_shape out true nlon nlat
     /\ (forall j i, (j < nlon)%nat -> (i < nlat)%nat -> acell out j i NaN = Fin (acell data j i 0)))
  /\ (~ (b = true /\ rows = nlon /\ cols = nlat) ->
    display_grid (Rect glat glon) nlat nlon data = Raise TypeError).
Proof.
  intros. destruct H0 as [Hb [Hr Hc]].
  assert (Hcols : match arows data with [] => 0%nat | r :: _ => length r end = cols).
  { destruct (arows data); simpl in *. lia. apply Hc; auto. }
  split; intros.
  - destruct H0 as [-> [-> ->]]. unfold display_grid, arr_shape. rewrite Hb, Hr, Hcols, !Nat.eqb_refl.
    simpl. do 3 eexists. split; auto. split. rewrite map_length; apply linspace_length.
    split. rewrite map_length; apply linspace_open_length.
    split. apply has_shape_amap. split; auto.
    intros. eapply acell_amap_shape; eauto. split; eauto.
  - unfold display_grid, arr_shape. rewrite Hb, Hr, Hcols. destruct b; auto; simpl.
    destruct (Nat.eqb rows nlon) eqn:E1; simpl; auto. destruct (Nat.eqb cols nlat) eqn:E2; simpl; auto.
    apply Nat.eqb_eq in E1, E2. tauto.
Qed.

(** ** C06 *)
Lemma cos_sep_antipode : forall lat0 lon0 lat lon,
  cos_sep (- lat0) (lon0 + PI) lat lon = - cos_sep lat0 lon0 lat lon.
Proof.
  intros; unfold cos_sep, dot, vec. rewrite cos_neg, sin_neg, neg_cos, neg_sin. ring.
Qed.
Lemma cos_2kPI : forall x (k : Z), cos (x + 2 * PI * IZR k) = cos x.
Proof.
  intros. destruct (Z_le_gt_dec 0 k).
  - replace (2 * PI * IZR k) with (2 * INR (Z.to_nat k) * PI).
    apply cos_period. rewrite INR_IZR_INZ, Z2Nat.id by auto. ring.
  - rewrite <- (cos_period (x + 2 * PI * IZR k) (Z.to_nat (- k))). f_equal.
    rewrite INR_IZR_INZ, Z2Nat.id by lia. rewrite opp_IZR. ring.
Qed.
Lemma sin_2kPI : forall x (k : Z), sin (x + 2 * PI * IZR k) = sin x.
Proof.
  intros. destruct (Z_le_gt_dec 0 k).
  - replace (2 * PI * IZR k) with (2 * INR (Z.to_nat k) * PI).
    apply sin_period. rewrite INR_IZR_INZ, Z2Nat.id by auto. ring.
  - rewrite <- (sin_period (x + 2 * PI * IZR k) (Z.to_nat (- k))). f_equal.
    rewrite INR_IZR_INZ, Z2Nat.id by lia. rewrite opp_IZR. ring.
Qed.
Lemma cos_sep_turns : forall lat0 lon0 lat lon k,
  cos_sep lat0 (lon0 + 2 * PI * IZR k) lat lon = cos_sep lat0 lon0 lat lon.
Proof. intros; unfold cos_sep, dot, vec. rewrite cos_2kPI, sin_2kPI; auto. Qed.
Lemma grid_mu_cell : forall g lat0 lon0 j i, (j < g_rows g)%nat -> (i < g_cols g)%nat ->
  acell (grid_mu g lat0 lon0) j i 0 =
  cos_sep lat0 lon0 (fst (acell (grid_points g) j i (0, 0))) (snd (acell (grid_points g) j i (0, 0))).
Proof.
  intros. unfold grid_mu.
  rewrite (acell_amap_shape _ _ _ _ (g_2d g) (g_rows g) (g_cols g) j i 0 (0,0)); auto.
  apply law_cos_dot. apply grid_points_shape.
Qed.
Lemma C06_lemma : forall g lat0 lon0,
  (forall b r c, has_shape (grid_points g) b r c -> has_shape (grid_mu g lat0 lon0) b r c)
  /\ (forall j i lat lon, (j < length (arows (grid_points g)))%nat ->
        (i < length (nth j (arows (grid_points g)) []))%nat ->
        acell (grid_points g) j i (0, 0) = (lat, lon) ->
        acell (grid_mu g lat0 lon0) j i 0 = dot (vec lat0 lon0) (vec lat lon)
        /\ -1 <= acell (grid_mu g lat0 lon0) j i 0 <= 1
        /\ (lat = lat0 -> lon = lon0 -> acell (grid_mu g lat0 lon0) j i 0 = 1)
        /\ acell (grid_mu g (- lat0) (lon0 + PI)) j i 0 = - acell (grid_mu g lat0 lon0) j i 0
        /\ (forall k : Z, acell (grid_mu g lat0 (lon0 + 2 * PI * IZR k)) j i 0
                          = acell (grid_mu g lat0 lon0) j i 0)).
Proof.
  intros. pose proof (grid_points_shape g) as S. destruct S as [S1 [S2 S3]].
  split. intros; unfold grid_mu; apply has_shape_amap; auto.
  intros. rewrite S2 in H. rewrite S3 in H0 by (apply nth_In; lia).
  rewrite !grid_mu_cell by auto. rewrite H1. simpl.
  fold (cos_sep lat0 lon0 lat lon). split; auto.
  split. unfold cos_sep. apply dot_cs; apply vec_norm.
  split. intros -> ->. apply vec_norm.
  split. apply cos_sep_antipode.
  intros. rewrite grid_mu_cell by auto. rewrite H1. apply cos_sep_turns.
Qed.

(** ** C04, C05 *)
Lemma C04_lemma :
  (forall n, grid_new (PyInt n) = Ok (Spiral n))
  /\ (forall a b, grid_new (PyTuple [PyInt a; PyInt b]) = Ok (Rect a b))
  /\ (forall a, grid_new (PyTuple [PyInt a]) = Ok (Rect a 1000))
  /\ grid_new (PyTuple []) = Ok (Rect 500 1000)
  /\ (forall v, ~ (exists n, v = PyInt n) ->
        ~ (exists l, v = PyTuple l /\ (length l <= 2)%nat /\ forall x, In x l -> exists n, x = PyInt n) ->
        grid_new v = Raise TypeError).
Proof.
  repeat split; auto. intros. destruct v; simpl.
  - exfalso; eauto.
  - destruct l as [|a [|b [|c l]]]; auto.
    + exfalso; apply H0; exists []; simpl; repeat split; auto; tauto.
    + destruct a; auto. exfalso; apply H0; exists [PyInt n]; simpl; repeat split; auto.
      intros x [<- | []]; eauto.
    + destruct a; auto. destruct b; auto. exfalso; apply H0; exists [PyInt n; PyInt n0]; simpl; repeat split; auto.
      intros x [<- | [<- | []]]; eauto.
  - auto.
Qed.
Lemma C05_lemma :
  (forall a b a' b', exists e, grid_eq (Rect a b) (Some (Rect a' b')) = Ok e
      /\ (e = true <-> Rect a b = Rect a' b') /\ grid_ne (Rect a b) (Some (Rect a' b')) = Ok (negb e))
  /\ (forall n n', exists e, grid_eq (Spiral n) (Some (Spiral n')) = Ok e
      /\ (e = true <-> Spiral n = Spiral n') /\ grid_ne (Spiral n) (Some (Spiral n')) = Ok (negb e))
  /\ (forall n a b, grid_eq (Spiral n) (Some (Rect a b)) = Ok false
       /\ grid_eq (Rect a b) (Some (Spiral n)) = Raise TypeError)
  /\ (forall g, grid_eq g None = Raise TypeError /\ grid_ne g None = Raise TypeError).
Proof.
  split; [|split; [|split]]; intros; simpl; auto.
  - eexists; split; [reflexivity|]; split; auto.
    rewrite Bool.andb_true_iff, !Nat.eqb_eq. split. intros [-> ->]; auto. inversion 1; auto.
  - eexists; split; [reflexivity|]; split; auto. rewrite Nat.eqb_eq. split; [intros ->|inversion 1]; auto.
  - destruct g; auto.
Qed.
Lemma C03_zero_lemma : grid_area (Spiral 0) = Raise ZeroDivisionError.
Proof. reflexivity. Qed.
