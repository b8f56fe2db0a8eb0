(** Spot geometry and temperature maps (C18-C23) *)
From Coq Require Import Reals ZArith Bool List Lra Lia Permutation.
From Verif Require Import Num Py MConfig MHelpers MGrid MSpots MFaculae Spec SpecStar LBase LGrid LHelpers LSpotAge.
Import ListNotations.
Open Scope R_scope.

(** ** C18 *)
Lemma msh_pos : 0 < MSH_RSUN2.
Proof. unfold MSH_RSUN2. pose proof PI_RGT_0. lra. Qed.
Lemma two_pi_R2 : forall Rs, 0 < Rs -> 0 < 2 * PI * Rs^2.
Proof. intros. pose proof PI_RGT_0. assert (0 < Rs^2) by (apply pow_lt; auto). apply Rmult_lt_0_compat; lra. Qed.
Lemma ang_rad_fin : forall s Rs A, sp_area s = Fin A -> 0 < Rs ->
  0 <= A * MSH_RSUN2 <= 4 * PI * Rs^2 ->
  spot_angular_radius s Rs = Fin (acos (1 - A * MSH_RSUN2 / (2 * PI * Rs^2)))
  /\ -1 <= 1 - A * MSH_RSUN2 / (2 * PI * Rs^2) <= 1.
Proof.
  intros. unfold spot_angular_radius. rewrite H, nmul_fin. pose proof (two_pi_R2 Rs H0).
  rewrite ndiv_fin by lra. rewrite nsub_fin.
  assert (-1 <= 1 - A * MSH_RSUN2 / (2 * PI * Rs^2) <= 1).
  { assert (0 <= A * MSH_RSUN2 / (2 * PI * Rs^2)) by (apply le_div; lra).
    assert (A * MSH_RSUN2 / (2 * PI * Rs^2) <= 2) by (apply div_le; lra). lra. }
  rewrite nacos_fin by auto. auto.
Qed.
Lemma ang_rad_nan : forall s Rs A, sp_area s = Fin A -> 0 < Rs ->
  (A < 0 \/ 4 * PI * Rs^2 < A * MSH_RSUN2) -> spot_angular_radius s Rs = NaN.
Proof.
  intros. unfold spot_angular_radius. rewrite H, nmul_fin. pose proof (two_pi_R2 Rs H0). pose proof msh_pos.
  rewrite ndiv_fin by lra. rewrite nsub_fin. unfold nacos. destruct H1.
  - assert (A * MSH_RSUN2 / (2 * PI * Rs^2) < 0) by (apply div_lt; nra).
    destruct (Rle_dec _ _); auto. destruct (Rle_dec _ _); auto; lra.
  - assert (2 < A * MSH_RSUN2 / (2 * PI * Rs^2)) by (apply lt_div; lra).
    destruct (Rle_dec _ _); auto; lra.
Qed.
Lemma acos_lt : forall x y, -1 <= x -> x < y -> y <= 1 -> acos y < acos x.
Proof.
  intros. pose proof (acos_bound x). pose proof (acos_bound y).
  destruct (Rlt_dec (acos y) (acos x)); auto. exfalso.
  assert (cos (acos y) <= cos (acos x)).
  { destruct (Req_dec (acos x) (acos y)) as [->|]. lra. left. apply cos_decreasing_1; lra. }
  rewrite !cos_acos in H4 by lra. lra.
Qed.
Lemma C18_lemma : forall s Rs A, sp_area s = Fin A -> 0 < Rs ->
  (0 <= A * (2 * PI / 1000000) <= 4 * PI * Rs^2 ->
     exists th, spot_angular_radius s Rs = Fin th /\ 0 <= th <= PI
       /\ 2 * PI * Rs^2 * (1 - cos th) = A * (2 * PI / 1000000)
       /\ (forall s' A', sp_area s' = Fin A' -> A < A' -> A' * (2 * PI / 1000000) <= 4 * PI * Rs^2 ->
             exists th', spot_angular_radius s' Rs = Fin th' /\ th < th'))
  /\ (A < 0 \/ 4 * PI * Rs^2 < A * (2 * PI / 1000000) ->
        spot_angular_radius s Rs = NaN /\ forall j i t, ~ spot_marks s Rs j i t).
Proof.
  intros. assert (E : 2 * PI / 1000000 = MSH_RSUN2) by (unfold MSH_RSUN2; field). rewrite E.
  pose proof (two_pi_R2 Rs H0). pose proof msh_pos. split; intros.
  - destruct (ang_rad_fin s Rs A H H0 H3) as [-> B]. eexists. split; eauto.
    split. apply acos_bound. rewrite cos_acos by auto. split. field. pose proof PI_RGT_0; nra.
    intros. assert (A * MSH_RSUN2 < A' * MSH_RSUN2) by (apply Rmult_lt_compat_r; auto).
    destruct (ang_rad_fin s' Rs A') as [-> B']; auto. lra.
    eexists. split; eauto. apply acos_lt; try lra. unfold Rdiv.
    assert (0 < / (2 * PI * Rs^2)) by (apply Rinv_0_lt_compat; auto). nra.
  - pose proof (ang_rad_nan s Rs A H H0 H3) as N. split; auto. intros j i t [mask [I C]].
    unfold spot_map_pixels in I. rewrite N in I. simpl in I.
    assert (Z : forall A (a : arr A) f, (forall x, f x = false) -> acell (amap f a) j i false = true -> False).
    { clear. intros. unfold acell, amap in H0; simpl in H0.
      assert (G : forall l, nth i (map f l) false = false).
      { intros l. clear H0. revert i. induction l; destruct i; simpl; auto. }
      assert (G2 : nth j (map (map f) (arows a)) [] = map f (nth j (arows a) [])).
      { change (@nil bool) with (map f []). apply map_nth. }
      rewrite G2, G in H0. discriminate. }
    destruct (teff_key_eqb (sp_teff_pen s) (sp_teff_umbra s)); simpl in I.
    + destruct I as [I|[]]. inversion I; subst. apply (Z _ _ _) in C; auto. intros []; auto.
    + destruct I as [I|[I|[]]]; inversion I; subst; apply (Z _ _ _) in C; auto; intros []; auto.
Qed.

(** ** map_pixels of one spot *)
Lemma key_refl : forall t, teff_key_eqb t t = true.
Proof. destruct t; unfold teff_key_eqb; simpl; auto. rewrite (proj2 (Reqb_true r r)); auto. Qed.
Lemma key_sym : forall t t', teff_key_eqb t t' = teff_key_eqb t' t.
Proof. intros. unfold teff_key_eqb. rewrite neq_sym, andb_comm. auto. Qed.
Lemma key_eq : forall t t', teff_key_eqb t t' = true <-> t = t'.
Proof.
  intros. split; [|intros ->; apply key_refl]. unfold teff_key_eqb. intros. apply orb_true_iff in H. destruct H.
  apply neq_eq; auto. apply andb_true_iff in H. destruct t, t'; simpl in H; try discriminate; try (destruct H; discriminate); auto.
Qed.
Definition pen_b (s : spot) (Rs : R) (r : num) : bool := nlt r (spot_angular_radius s Rs).
Definition umb_b (s : spot) (Rs : R) (r : num) : bool :=
  if teff_key_eqb (sp_teff_pen s) (sp_teff_umbra s) then pen_b s Rs r
  else nlt r (ndiv (spot_angular_radius s Rs) (nsqrt (sp_ratio s))).
Global Arguments pen_b : simpl never.
Global Arguments umb_b : simpl never.
Lemma spot_map_pixels_eq : forall s Rs, spot_map_pixels s Rs =
  if teff_key_eqb (sp_teff_pen s) (sp_teff_umbra s)
  then [(sp_teff_umbra s, amap (pen_b s Rs) (sp_r s))]
  else [(sp_teff_umbra s, amap (umb_b s Rs) (sp_r s)); (sp_teff_pen s, amap (pen_b s Rs) (sp_r s))].
Proof.
  intros. unfold spot_map_pixels, umb_b. simpl.
  destruct (teff_key_eqb (sp_teff_pen s) (sp_teff_umbra s)); auto.
Qed.
Lemma dindex_pen : forall s Rs, dindex teff_key_eqb (spot_map_pixels s Rs) (sp_teff_pen s) = Ok (amap (pen_b s Rs) (sp_r s)).
Proof.
  intros. rewrite spot_map_pixels_eq. unfold dindex. destruct (teff_key_eqb (sp_teff_pen s) (sp_teff_umbra s)) eqn:E; simpl; rewrite E; auto.
  rewrite key_refl. auto.
Qed.
Lemma dindex_umb : forall s Rs, dindex teff_key_eqb (spot_map_pixels s Rs) (sp_teff_umbra s) = Ok (amap (umb_b s Rs) (sp_r s)).
Proof.
  intros. rewrite spot_map_pixels_eq. unfold dindex. destruct (teff_key_eqb (sp_teff_pen s) (sp_teff_umbra s)) eqn:E; simpl; rewrite key_refl; auto.
  f_equal. apply amap_ext. intros. unfold umb_b. rewrite E. auto.
Qed.
Lemma spot_marks_eq : forall s Rs j i t, spot_marks s Rs j i t <->
  (t = sp_teff_pen s /\ acell (amap (pen_b s Rs) (sp_r s)) j i false = true)
  \/ (t = sp_teff_umbra s /\ acell (amap (umb_b s Rs) (sp_r s)) j i false = true).
Proof.
  intros. unfold spot_marks. rewrite spot_map_pixels_eq.
  destruct (teff_key_eqb (sp_teff_pen s) (sp_teff_umbra s)) eqn:E.
  - pose proof E as E'. apply key_eq in E.
    assert (X : amap (umb_b s Rs) (sp_r s) = amap (pen_b s Rs) (sp_r s)).
    { apply amap_ext. intros. unfold umb_b. rewrite E'. auto. }
    rewrite X, E. split.
    + intros [m [[I|[]] C]]. inversion I; subst. auto.
    + intros [[-> C]|[-> C]]; eexists; split; eauto; left; auto.
  - split.
    + intros [m [[I|[I|[]]] C]]; inversion I; subst; auto.
    + intros [[-> C]|[-> C]]; eexists; split; eauto; [right; left | left]; auto.
Qed.
Lemma pixel_bounds : forall g j i, pixel g j i -> (j < g_rows g)%nat /\ (i < g_cols g)%nat.
Proof.
  intros g j i [H1 H2]. destruct (grid_points_shape g) as [_ [B C]]. rewrite B in H1. split; auto.
  rewrite C in H2; auto. apply nth_In. lia.
Qed.
Lemma pixel_cell : forall g j i, pixel g j i -> In (acell (grid_points g) j i (0, 0)) (cells (grid_points g)).
Proof. intros. apply pixel_bounds in H. destruct H. eapply acell_In_cells; eauto. apply grid_points_shape. Qed.
Lemma acell_grid : forall A (f : R * R -> A) g j i d, pixel g j i ->
  acell (amap f (grid_points g)) j i d = f (acell (grid_points g) j i (0, 0)).
Proof.
  intros. apply pixel_bounds in H. destruct H.
  apply (acell_amap_shape _ _ _ _ (g_2d g) (g_rows g) (g_cols g)); auto. apply grid_points_shape.
Qed.
Lemma grid_shaped_amap : forall A (f : R * R -> A) g, grid_shaped g (amap f (grid_points g)).
Proof.
  intros. exists (g_2d g), (g_rows g), (g_cols g). split. apply grid_points_shape. apply has_shape_amap. apply grid_points_shape.
Qed.
Definition sep (s : spot) (p : R * R) : R := acos (law_cos (sp_lat s) (sp_lon s) (fst p) (snd p)).
Lemma sep_angle : forall s p, is_angle (sp_lat s) (sp_lon s) (fst p) (snd p) (sep s p).
Proof.
  intros. split. apply acos_bound. unfold sep. rewrite cos_acos by apply law_cos_bound. apply law_cos_dot.
Qed.
Lemma is_angle_unique : forall a b c d x y, is_angle a b c d x -> is_angle a b c d y -> x = y.
Proof.
  intros a b c d x y [H1 H2] [H3 H4]. rewrite <- (acos_cos x), <- (acos_cos y) by auto. congruence.
Qed.
Lemma arr_ext : forall A (a b : arr A) d t r c, has_shape a t r c -> has_shape b t r c ->
  (forall j i, (j < r)%nat -> (i < c)%nat -> acell a j i d = acell b j i d) -> a = b.
Proof.
  intros A [ta la] [tb lb] d t r c [H1 [H2 H3]] [H4 [H5 H6]] H. cbn [a2d arows] in *. subst ta tb. f_equal.
  apply (nth_ext _ _ [] []). congruence. intros j Hj.
  assert (La : length (nth j la []) = c) by (apply H3; apply nth_In; auto).
  assert (Lb : length (nth j lb []) = c) by (apply H6; apply nth_In; lia).
  apply (nth_ext _ _ d d). congruence. intros i Hi. apply (H j i); lia.
Qed.
Lemma spot_on_r : forall g s, spot_on g s -> sp_grid s = g /\
  sp_r s = amap (fun p => Fin (acos (law_cos (sp_lat s) (sp_lon s) (fst p) (snd p)))) (grid_points g).
Proof.
  intros g s [H1 [[b [r [c [S1 S2]]]] H3]]. split; auto.
  apply (arr_ext _ _ _ NaN b r c); auto. apply has_shape_amap; auto.
  intros j i Hj Hi. assert (P : pixel g j i).
  { destruct S1 as [_ [L1 L2]]. split. lia. rewrite L2; auto. apply nth_In; lia. }
  destruct (H3 j i P) as [a [E An]]. rewrite E, acell_grid by auto. f_equal.
  eapply is_angle_unique; eauto. apply (sep_angle s).
Qed.
Lemma set_gridmaker_on : forall s g, spot_on g (spot_set_gridmaker s g).
Proof.
  intros. split. reflexivity. split. apply grid_shaped_amap.
  intros. cbn [sp_r spot_set_gridmaker sp_lat sp_lon]. rewrite acell_grid by auto. rewrite haversine_eq.
  eexists. split. reflexivity. apply (sep_angle s).
Qed.
Lemma spot_on_iff : forall g s, spot_on g s <-> spot_set_gridmaker s g = s.
Proof.
  intros. split; intros.
  - destruct (spot_on_r _ _ H) as [A B]. destruct s. simpl in *. unfold spot_set_gridmaker. simpl. subst. f_equal.
    apply amap_ext. intros. apply haversine_eq.
  - rewrite <- H. apply set_gridmaker_on.
Qed.
Lemma C20_lemma : forall g s Rs th q j i a,
  spot_on g s -> pixel g j i -> spot_angular_radius s Rs = Fin th -> sp_ratio s = Fin q -> 0 < q ->
  is_angle (sp_lat s) (sp_lon s) (pix_lat g j i) (pix_lon g j i) a ->
  (sp_teff_umbra s <> sp_teff_pen s ->
     (spot_marks s Rs j i (sp_teff_pen s) <-> a < th)
     /\ (spot_marks s Rs j i (sp_teff_umbra s) <-> a < th / sqrt q)
     /\ (1 <= q -> spot_marks s Rs j i (sp_teff_umbra s) -> spot_marks s Rs j i (sp_teff_pen s)))
  /\ (sp_teff_umbra s = sp_teff_pen s -> forall t, spot_marks s Rs j i t <-> t = sp_teff_pen s /\ a < th)
  /\ (q < 1 -> 0 < th -> th < th / sqrt q).
Proof.
  intros g s Rs th q j i a On Px Hth Hq Hq0 Ha.
  destruct (spot_on_r g s On) as [_ Hr].
  assert (Ea : sep s (acell (grid_points g) j i (0, 0)) = a) by (eapply is_angle_unique; [apply sep_angle | exact Ha]).
  assert (S0 : 0 < sqrt q) by (apply sqrt_lt_R0; auto).
  assert (P : acell (amap (pen_b s Rs) (sp_r s)) j i false = true <-> a < th).
  { rewrite Hr, amap_amap, acell_grid by auto. unfold pen_b. rewrite Hth.
    unfold sep in Ea. simpl. rewrite Ea. apply Rltb_true. }
  assert (U : sp_teff_umbra s <> sp_teff_pen s -> (acell (amap (umb_b s Rs) (sp_r s)) j i false = true <-> a < th / sqrt q)).
  { intros. rewrite Hr, amap_amap, acell_grid by auto. unfold umb_b.
    destruct (teff_key_eqb (sp_teff_pen s) (sp_teff_umbra s)) eqn:E.
    apply key_eq in E. congruence. rewrite Hth, Hq, nsqrt_fin, ndiv_fin by lra.
    unfold sep in Ea. simpl. rewrite Ea. apply Rltb_true. }
  split; [|split].
  - intros Ne. rewrite !spot_marks_eq. rewrite P. rewrite (U Ne). split; [|split]; [intuition congruence .. |].
    intros Q1 [[? ?]|[_ L]]; auto. left. split; auto. eapply Rlt_le_trans; eauto. apply div_le; auto.
    assert (1 <= sqrt q). { rewrite <- sqrt_1. apply sqrt_le_1_alt; auto. }
    assert (0 <= th). { unfold spot_angular_radius in Hth. unfold nacos in Hth.
      destruct (nsub _ _); try discriminate. destruct (Rle_dec _ _); try discriminate. destruct (Rle_dec _ _); try discriminate.
      inversion Hth. apply acos_bound. }
    nra.
  - intros E t. rewrite spot_marks_eq.
    assert (X : amap (umb_b s Rs) (sp_r s) = amap (pen_b s Rs) (sp_r s)).
    { apply amap_ext. intros. unfold umb_b. rewrite E, key_refl. auto. }
    rewrite X, P, E. tauto.
  - intros. apply lt_div; auto. assert (sqrt q < 1). { rewrite <- sqrt_1. apply sqrt_lt_1_alt; lra. } nra.
Qed.

(** ** the painting loop, pixel by pixel *)
Definition pv (Rs : R) (p : R * R) (m : num) (s : spot) : num :=
  let d := Fin (sep s p) in
  if umb_b s Rs d && nlt (sp_teff_umbra s) m then sp_teff_umbra s
  else if pen_b s Rs d && nlt (sp_teff_pen s) m then sp_teff_pen s else m.
Lemma paint_spot_eq : forall g Rs f s, spot_on g s ->
  paint_spot Rs (amap f (grid_points g)) s = Ok (amap (fun p => pv Rs p (f p) s) (grid_points g)).
Proof.
  intros. destruct (spot_on_r g s H) as [_ Hr]. unfold paint_spot.
  rewrite dindex_pen. cbn [bind]. rewrite Hr, !amap_amap, amap2_amap. cbn [bind].
  rewrite dindex_umb. cbn [bind]. rewrite Hr, !amap_amap, amap2_amap. cbn [bind].
  rewrite awhere_amap. cbn [bind]. rewrite awhere_amap. f_equal.
Qed.
Lemma paint_spots_eq : forall g Rs l f, (forall s, In s l -> spot_on g s) ->
  paint_spots Rs (amap f (grid_points g)) l
  = Ok (amap (fun p => fold_left (pv Rs p) l (f p)) (grid_points g)).
Proof.
  induction l; simpl; intros; auto. rewrite paint_spot_eq by auto. simpl. rewrite IHl by auto. auto.
Qed.
Lemma nadd_0_l : forall x, nadd (Fin 0) x = x.
Proof. destruct x; simpl; auto. rewrite Rplus_0_l; auto. Qed.
Lemma sc_map_pixels_eq : forall c Rs T, (forall s, In s (sc_spots c) -> spot_on (sc_grid c) s) ->
  sc_map_pixels c Rs T = Ok (amap (fun p => fold_left (pv Rs p) (sc_spots c) T) (grid_points (sc_grid c))).
Proof.
  intros. unfold sc_map_pixels. rewrite grid_zeros_eq, amap_amap. rewrite paint_spots_eq by auto.
  rewrite nadd_0_l. auto.
Qed.
(** marks at a pixel, in terms of [pen_b]/[umb_b] *)
Lemma marks_pixel : forall g s Rs j i t, spot_on g s -> pixel g j i ->
  (spot_marks s Rs j i t <->
   (t = sp_teff_pen s /\ pen_b s Rs (Fin (sep s (acell (grid_points g) j i (0, 0)))) = true)
   \/ (t = sp_teff_umbra s /\ umb_b s Rs (Fin (sep s (acell (grid_points g) j i (0, 0)))) = true)).
Proof.
  intros. rewrite spot_marks_eq. destruct (spot_on_r g s H) as [_ Hr].
  rewrite Hr, !amap_amap, !acell_grid by auto. reflexivity.
Qed.
Definition marksp (Rs : R) (p : R * R) (s : spot) (t : num) : Prop :=
  (t = sp_teff_pen s /\ pen_b s Rs (Fin (sep s p)) = true) \/ (t = sp_teff_umbra s /\ umb_b s Rs (Fin (sep s p)) = true).

Lemma nle_refl : forall x, x <> NaN -> nle x x = true.
Proof. destruct x; simpl; intros; auto; try congruence. apply Rleb_true; lra. Qed.
Lemma nlt_le : forall x y, nlt x y = true -> nle x y = true.
Proof. destruct x, y; simpl; intros; auto; try discriminate. apply Rltb_true in H. apply Rleb_true; lra. Qed.
Lemma nle_trans : forall x y z, nle x y = true -> nle y z = true -> nle x z = true.
Proof. destruct x, y, z; simpl; intros; auto; try discriminate. apply Rleb_true in H, H0. apply Rleb_true; lra. Qed.
Lemma nlt_false_le : forall x y, x <> NaN -> y <> NaN -> nlt x y = false -> nle y x = true.
Proof. destruct x, y; simpl; intros; auto; try congruence. apply Rltb_false in H1. apply Rleb_true; lra. Qed.
Lemma nle_antisym : forall x y, nle x y = true -> nle y x = true -> x = y.
Proof. destruct x, y; simpl; intros; auto; try discriminate. apply Rleb_true in H, H0. f_equal; lra. Qed.

Lemma pv_general : forall Rs p m s, m <> NaN -> sp_teff_umbra s <> NaN -> sp_teff_pen s <> NaN ->
  pv Rs p m s <> NaN /\ nle (pv Rs p m s) m = true
  /\ (pv Rs p m s = m \/ marksp Rs p s (pv Rs p m s)).
Proof.
  intros. unfold pv. destruct (umb_b s Rs (Fin (sep s p)) && nlt (sp_teff_umbra s) m) eqn:E.
  - apply andb_true_iff in E. destruct E. split; auto. split. apply nlt_le; auto.
    right. right. auto.
  - destruct (pen_b s Rs (Fin (sep s p)) && nlt (sp_teff_pen s) m) eqn:E'.
    + apply andb_true_iff in E'. destruct E'. split; auto. split. apply nlt_le; auto. right; left; auto.
    + split; auto. split; auto. apply nle_refl; auto.
Qed.
Lemma pv_min : forall Rs p m s, m <> NaN -> sp_teff_umbra s <> NaN -> sp_teff_pen s <> NaN ->
  nle (sp_teff_umbra s) (sp_teff_pen s) = true ->
  forall t, marksp Rs p s t -> nle (pv Rs p m s) t = true.
Proof.
  intros Rs p m s Hm Hu Hp Hle t Ht. unfold pv.
  destruct (umb_b s Rs (Fin (sep s p)) && nlt (sp_teff_umbra s) m) eqn:E.
  - destruct Ht as [[-> _]|[-> _]]; auto. apply nle_refl; auto.
  - assert (F : umb_b s Rs (Fin (sep s p)) = true -> nle m (sp_teff_umbra s) = true).
    { intros F. rewrite F in E. simpl in E. apply nlt_false_le; auto. }
    destruct (pen_b s Rs (Fin (sep s p)) && nlt (sp_teff_pen s) m) eqn:E'.
    + destruct Ht as [[-> _]|[-> X]]. apply nle_refl; auto.
      apply andb_true_iff in E'. destruct E'. apply nlt_le in H0. eapply nle_trans; eauto.
    + destruct Ht as [[-> X]|[-> X]]; auto. rewrite X in E'. simpl in E'. apply nlt_false_le; auto.
Qed.
Lemma fold_pv_general : forall Rs p l m, m <> NaN ->
  (forall s, In s l -> sp_teff_umbra s <> NaN /\ sp_teff_pen s <> NaN) ->
  fold_left (pv Rs p) l m <> NaN /\ nle (fold_left (pv Rs p) l m) m = true
  /\ (fold_left (pv Rs p) l m = m \/ exists s, In s l /\ marksp Rs p s (fold_left (pv Rs p) l m)).
Proof.
  induction l; simpl; intros. split; auto. split; auto. apply nle_refl; auto.
  destruct (H0 a) as [Ha Hb]; auto.
  destruct (pv_general Rs p m a H Ha Hb) as [N [L D]].
  destruct (IHl (pv Rs p m a) N) as [N' [L' D']]; auto. split; auto. split. eapply nle_trans; eauto.
  destruct D' as [D'|[s [I D']]].
  - destruct D as [D|D]. left. congruence. right. exists a. split; auto. rewrite D'. auto.
  - right. exists s. auto.
Qed.
Lemma fold_pv_min : forall Rs p l m, m <> NaN ->
  (forall s, In s l -> sp_teff_umbra s <> NaN /\ sp_teff_pen s <> NaN /\ nle (sp_teff_umbra s) (sp_teff_pen s) = true) ->
  forall s t, In s l -> marksp Rs p s t -> nle (fold_left (pv Rs p) l m) t = true.
Proof.
  induction l; simpl; intros. contradiction. destruct (H0 a) as [Ha [Hb Hc]]; auto.
  destruct (pv_general Rs p m a H Ha Hb) as [N [L D]].
  destruct H1 as [<-|I].
  - eapply nle_trans. 2: apply (pv_min Rs p m a); eauto.
    apply fold_pv_general; auto. intros; destruct (H0 s) as [? [? ?]]; auto.
  - eapply IHl; eauto.
Qed.
Lemma nan_ok : forall s, nle (sp_teff_umbra s) (sp_teff_pen s) = true -> sp_teff_umbra s <> NaN /\ sp_teff_pen s <> NaN.
Proof. intros. destruct (sp_teff_umbra s), (sp_teff_pen s); simpl in H; try discriminate; split; discriminate. Qed.
Lemma C19_lemma : forall c Rs T, T <> NaN ->
  (forall s, In s (sc_spots c) -> spot_on (sc_grid c) s /\ nle (sp_teff_umbra s) (sp_teff_pen s) = true) ->
  exists m, sc_map_pixels c Rs T = Ok m /\ grid_shaped (sc_grid c) m
  /\ (forall j i, pixel (sc_grid c) j i ->
        let v := acell m j i NaN in
        nle v T = true
        /\ (forall s t, In s (sc_spots c) -> spot_marks s Rs j i t -> nle v t = true)
        /\ (v = T \/ exists s, In s (sc_spots c) /\ spot_marks s Rs j i v))
  /\ (forall l', Permutation (sc_spots c) l' -> sc_map_pixels (mkSpotColl l' (sc_grid c)) Rs T = Ok m).
Proof.
  intros c Rs T HT H.
  assert (On : forall s, In s (sc_spots c) -> spot_on (sc_grid c) s) by (intros; apply H; auto).
  assert (Hn : forall s, In s (sc_spots c) -> sp_teff_umbra s <> NaN /\ sp_teff_pen s <> NaN)
    by (intros; apply nan_ok; apply H; auto).
  rewrite sc_map_pixels_eq by auto. eexists. split; eauto. split. apply grid_shaped_amap. split.
  - intros j i Px v. unfold v. rewrite acell_grid by auto. set (p := acell (grid_points (sc_grid c)) j i (0, 0)).
    destruct (fold_pv_general Rs p (sc_spots c) T HT Hn) as [N [L D]]. split; auto. split.
    + intros. apply (fold_pv_min Rs p (sc_spots c) T HT) with s; auto.
      intros. destruct (Hn s0); auto. split; auto. split; auto. apply H; auto.
      apply (marks_pixel (sc_grid c) s Rs j i t) in H1; auto.
    + destruct D as [D|[s [I D]]]; auto. right. exists s. split; auto. apply (marks_pixel (sc_grid c)); auto.
  - intros l' Pm. rewrite sc_map_pixels_eq. simpl. f_equal. apply amap_ext. intros p.
    + assert (Hn' : forall s, In s l' -> sp_teff_umbra s <> NaN /\ sp_teff_pen s <> NaN).
      { intros. apply Hn. eapply Permutation_in; [apply Permutation_sym|]; eauto. }
      destruct (fold_pv_general Rs p (sc_spots c) T HT Hn) as [N [L D]].
      destruct (fold_pv_general Rs p l' T HT Hn') as [N' [L' D']].
      apply nle_antisym.
      * destruct D as [->|[s [I D]]]; auto. apply (fold_pv_min Rs p l' T HT) with s; auto.
        intros. destruct (Hn' s0); auto. split; auto. split; auto. apply H.
        eapply Permutation_in; [apply Permutation_sym|]; eauto. eapply Permutation_in; eauto.
      * destruct D' as [->|[s [I D']]]; auto. apply (fold_pv_min Rs p (sc_spots c) T HT) with s; auto.
        intros. destruct (Hn s0); auto. split; auto. split; auto. apply H; auto.
        eapply Permutation_in; [apply Permutation_sym|]; eauto.
    + simpl. intros. apply On. eapply Permutation_in; [apply Permutation_sym|]; eauto.
Qed.
Lemma C19_general_lemma : forall c Rs T, T <> NaN ->
  (forall s, In s (sc_spots c) -> spot_on (sc_grid c) s /\ sp_teff_umbra s <> NaN /\ sp_teff_pen s <> NaN) ->
  exists m, sc_map_pixels c Rs T = Ok m /\ grid_shaped (sc_grid c) m
  /\ (forall j i, pixel (sc_grid c) j i ->
        let v := acell m j i NaN in
        nle v T = true
        /\ (v = T \/ exists s, In s (sc_spots c) /\ spot_marks s Rs j i v)).
Proof.
  intros. rewrite sc_map_pixels_eq by (intros; apply H0; auto).
  eexists. split; eauto. split. apply grid_shaped_amap.
  intros j i Px v. unfold v. rewrite acell_grid by auto. set (p := acell (grid_points (sc_grid c)) j i (0, 0)).
  destruct (fold_pv_general Rs p (sc_spots c) T H) as [N [L D]]. intros; apply H0; auto.
  split; auto. destruct D as [D|[s [I D]]]; auto. right. exists s. split; auto. apply (marks_pixel (sc_grid c)); auto. apply H0; auto.
Qed.
