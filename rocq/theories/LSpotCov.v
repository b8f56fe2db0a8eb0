(** Spot coverage, grid mismatch and disk fraction (C19 order, C21-C23) *)
From Coq Require Import Reals ZArith Bool List Lra Lia Permutation.
From Verif Require Import Num Py MConfig MHelpers MGrid MSpots MFaculae Spec SpecStar LBase LGrid LHelpers LSpotAge LSpotMap.
Import ListNotations.
Open Scope R_scope.

(** ** C19: order dependence with an umbra hotter than its penumbra *)
Definition big_spot (tu tp : R) : spot :=
  spot_init 0 0 (Fin 2000000) (Fin 2000000) (Fin tu) (Fin tp) (Fin 1) true (Fin 1) (-1) (Fin 1) (Spiral 1).
Lemma spot_init_on : forall lat lon am a tu tp q gr g gd w gg, spot_on gg (spot_init lat lon am a tu tp q gr g gd w gg).
Proof. intros. apply spot_on_iff. reflexivity. Qed.
Lemma big_spot_radius : forall tu tp, spot_angular_radius (big_spot tu tp) 1 = Fin PI.
Proof.
  intros. destruct (ang_rad_fin (big_spot tu tp) 1 2000000) as [-> _]; try reflexivity. lra.
  unfold MSH_RSUN2; pose proof PI_RGT_0; lra.
  f_equal. replace (1 - 2000000 * MSH_RSUN2 / (2 * PI * 1 ^ 2)) with (-1).
  - pose proof (acos_bound (-1)). pose proof PI_RGT_0.
    apply cos_inj; try lra. rewrite cos_acos by lra. rewrite cos_PI; auto.
  - unfold MSH_RSUN2. field. pose proof PI_RGT_0; lra.
Qed.
Lemma big_spot_pv : forall tu tp m, tu <> tp ->
  pv 1 (acell (grid_points (Spiral 1)) 0 0 (0, 0)) m (big_spot tu tp)
  = if nlt (Fin tu) m then Fin tu else if nlt (Fin tp) m then Fin tp else m.
Proof.
  intros. set (p := acell _ _ _ _).
  assert (S : sep (big_spot tu tp) p < PI).
  { unfold sep. pose proof (acos_bound (law_cos (sp_lat (big_spot tu tp)) (sp_lon (big_spot tu tp)) (fst p) (snd p))).
    destruct H0 as [_ [H0|H0]]; auto. exfalso.
    assert (cos (acos (law_cos (sp_lat (big_spot tu tp)) (sp_lon (big_spot tu tp)) (fst p) (snd p))) = -1) by (rewrite H0; apply cos_PI).
    rewrite cos_acos in H1 by apply law_cos_bound. unfold law_cos in H1. simpl in H1.
    rewrite sin_0, cos_0 in H1.
    replace (spiral_lon 0) with 0 in H1.
    - replace (spiral_lat 1 0) with 0 in H1.
      + rewrite Rminus_0_r, cos_0, sin_0 in H1. lra.
      + unfold spiral_lat, spiral_colat. simpl. replace (1 - 2 * (0 + 1/2) / 1) with 0 by field.
        rewrite acos_0. lra.
    - unfold spiral_lon, rmod. simpl. replace (2 * PI * 0 / GOLDEN_RATIO / (2 * PI)) with 0.
      + destruct (Int_part_spec 0) as [A B]. assert (Int_part 0 = 0%Z).
        { apply Int_part_unique || (assert (IZR (Int_part 0) < 1) by lra; assert (-1 < IZR (Int_part 0)) by lra;
          apply lt_IZR in H2; apply lt_IZR in H3; lia). }
        rewrite H2. unfold Rdiv. ring.
      + unfold Rdiv. ring. }
  unfold pv, pen_b, umb_b. rewrite big_spot_radius.
  replace (teff_key_eqb (sp_teff_pen (big_spot tu tp)) (sp_teff_umbra (big_spot tu tp))) with false.
  2:{ symmetry. apply not_true_is_false. intros E. apply key_eq in E. simpl in E. congruence. }
  change (sp_ratio (big_spot tu tp)) with (Fin 1). rewrite nsqrt_fin, sqrt_1, ndiv_fin by lra.
  change (sp_teff_umbra (big_spot tu tp)) with (Fin tu). change (sp_teff_pen (big_spot tu tp)) with (Fin tp).
  cbn [nlt]. replace (PI / 1) with PI by field.
  rewrite (proj2 (Rltb_true _ _) S). reflexivity.
Qed.
Lemma C19_order_lemma : exists s1 s2 m12 m21,
  spot_on (Spiral 1) s1 /\ spot_on (Spiral 1) s2
  /\ sc_map_pixels (mkSpotColl [s1; s2] (Spiral 1)) 1 (Fin 3000) = Ok m12
  /\ sc_map_pixels (mkSpotColl [s2; s1] (Spiral 1)) 1 (Fin 3000) = Ok m21
  /\ acell m12 0 0 NaN = Fin 2550 /\ acell m21 0 0 NaN = Fin 2000
  /\ spot_marks s1 1 0 0 (Fin 2000).
Proof.
  exists (big_spot 2600 2000), (big_spot 2550 2500).
  assert (O1 : forall tu tp, spot_on (Spiral 1) (big_spot tu tp)) by (intros; apply spot_on_iff; reflexivity).
  assert (Px : pixel (Spiral 1) 0 0) by (split; simpl; lia).
  do 2 eexists. split; auto. split; auto.
  split; [|split]; [rewrite sc_map_pixels_eq; [reflexivity|intros s [<-|[<-|[]]]; apply O1] .. |].
  rewrite !acell_grid by auto. cbn [fold_left sc_spots sc_grid]. rewrite !big_spot_pv by lra.
  assert (T : forall a b, a < b -> nlt (Fin a) (Fin b) = true) by (intros; apply Rltb_true; auto).
  assert (F : forall a b, b <= a -> nlt (Fin a) (Fin b) = false) by (intros; apply Rltb_false; auto).
  rewrite (T 2600 3000), (T 2550 2600), (T 2550 3000), (F 2600 2550), (T 2000 2550) by lra.
  split; auto. split; auto.
  pose proof (big_spot_pv 2600 2000 (Fin 2600) ltac:(lra)) as P.
    rewrite (F 2600 2600), (T 2000 2600) in P by lra.
    apply (marks_pixel (Spiral 1)); auto.
    destruct (pv_general 1 (acell (grid_points (Spiral 1)) 0 0 (0,0)) (Fin 2600) (big_spot 2600 2000)) as [_ [_ D]]; try discriminate.
    rewrite P in D. destruct D as [D|D]; auto. apply Fin_inj in D. lra.
Qed.

(** ** C21 *)
Definition covb (Rs : R) (l : list spot) (p : R * R) : bool :=
  existsb (fun s => pen_b s Rs (Fin (sep s p)) || umb_b s Rs (Fin (sep s p))) l.
Lemma pv_fin : forall Rs p m s, fin_temps s -> is_fin m -> is_fin (pv Rs p m s).
Proof. intros Rs p m s [A B] C. unfold pv. destruct (_ && _); auto. destruct (_ && _); auto. Qed.
Lemma fold_pv_fin : forall Rs p l m, (forall s, In s l -> fin_temps s) -> is_fin m -> is_fin (fold_left (pv Rs p) l m).
Proof. induction l; simpl; intros; auto. apply IHl; auto. apply pv_fin; auto. Qed.
Lemma pv_inf : forall Rs p s, fin_temps s ->
  (pen_b s Rs (Fin (sep s p)) || umb_b s Rs (Fin (sep s p)) = false /\ pv Rs p PInf s = PInf)
  \/ (pen_b s Rs (Fin (sep s p)) || umb_b s Rs (Fin (sep s p)) = true /\ is_fin (pv Rs p PInf s)).
Proof.
  intros Rs p s [[a A] [b B]]. unfold pv. rewrite A, B. cbv zeta.
  destruct (pen_b s Rs (Fin (sep s p))), (umb_b s Rs (Fin (sep s p))); cbn [andb orb nlt]; auto; right; split; auto; eexists; eauto.
Qed.
Lemma fold_pv_inf : forall Rs p l, (forall s, In s l -> fin_temps s) ->
  negb (neq (fold_left (pv Rs p) l PInf) PInf) = covb Rs l p.
Proof.
  induction l; simpl; intros; auto. destruct (pv_inf Rs p a) as [[E ->]|[E F]]; auto; unfold covb; cbn [existsb]; rewrite E; cbn [orb].
  - apply IHl; auto.
  - destruct (fold_pv_fin Rs p l (pv Rs p PInf a)) as [x ->]; auto.
Qed.
Lemma covb_marks : forall c Rs j i, (forall s, In s (sc_spots c) -> spot_on (sc_grid c) s) -> pixel (sc_grid c) j i ->
  (covb Rs (sc_spots c) (acell (grid_points (sc_grid c)) j i (0, 0)) = true <-> in_some_spot c Rs j i).
Proof.
  intros. unfold covb. rewrite existsb_exists. split.
  - intros [s [I E]]. apply orb_true_iff in E. destruct E as [E|E].
    + exists s, (sp_teff_pen s). split; auto. apply (marks_pixel (sc_grid c)); auto.
    + exists s, (sp_teff_umbra s). split; auto. apply (marks_pixel (sc_grid c)); auto.
  - intros [s [t [I M]]]. exists s. split; auto. apply (marks_pixel (sc_grid c)) in M; auto.
    apply orb_true_iff. destruct M as [[_ M]|[_ M]]; auto.
Qed.
Definition covsum (g : grid) (Rs : R) (l : list spot) : R :=
  rsum (map (fun p => rarea_at g p * (if covb Rs l p then 1 else 0)) (cells (grid_points g))).
Lemma sc_get_coverage_eq : forall c Rs, good_grid (sc_grid c) ->
  (forall s, In s (sc_spots c) -> spot_on (sc_grid c) s /\ fin_temps s) ->
  sc_get_coverage c Rs = Ok (Fin (covsum (sc_grid c) Rs (sc_spots c))).
Proof.
  intros c Rs G H. unfold sc_get_coverage. rewrite grid_area_good by auto. cbn [bind].
  rewrite sc_map_pixels_eq by (intros; apply H; auto). cbn [bind].
  rewrite amap_amap, amap2_amap. cbn [bind]. rewrite !cells_amap.
  rewrite (nsum_map_fin _ _ (fun p => rarea_at (sc_grid c) p * (if covb Rs (sc_spots c) p then 1 else 0))).
  - rewrite (nsum_map_fin _ _ (rarea_at (sc_grid c))) by auto. rewrite rarea_sum by auto.
    rewrite ndiv_fin by lra. unfold covsum. f_equal. f_equal. field.
  - intros. rewrite fold_pv_inf by (intros; apply H; auto). destruct (covb _ _ _); reflexivity.
Qed.
Lemma covb_perm : forall Rs l l' p, Permutation l l' -> covb Rs l p = covb Rs l' p.
Proof.
  intros. unfold covb. apply eq_true_iff_eq. rewrite !existsb_exists.
  split; intros [s [I E]]; exists s; split; auto.
  apply (Permutation_in _ H); auto. apply (Permutation_in _ (Permutation_sym H)); auto.
Qed.
Lemma covsum_perm : forall g Rs l l', Permutation l l' -> covsum g Rs l = covsum g Rs l'.
Proof. intros. unfold covsum. apply rsum_map_ext. intros. rewrite (covb_perm Rs l l'); auto. Qed.
Lemma C21_lemma : forall c Rs A, good_grid (sc_grid c) -> grid_area (sc_grid c) = Ok A ->
  (forall s, In s (sc_spots c) -> spot_on (sc_grid c) s /\ fin_temps s) ->
  exists v mask, sc_get_coverage c Rs = Ok (Fin v)
  /\ grid_shaped (sc_grid c) mask
  /\ (forall j i, pixel (sc_grid c) j i -> (acell mask j i false = true <-> in_some_spot c Rs j i))
  /\ v = masked_sum A mask / masked_sum A (amap (fun _ => true) mask)
  /\ 0 <= v <= 1
  /\ (sc_spots c = [] -> v = 0)
  /\ (forall l', Permutation (sc_spots c) l' -> sc_get_coverage (mkSpotColl l' (sc_grid c)) Rs = Ok (Fin v))
  /\ (forall s, spot_on (sc_grid c) s -> fin_temps s ->
        exists v', sc_get_coverage (sc_add_spot c [s]) Rs = Ok (Fin v') /\ v <= v').
Proof.
  intros c Rs A G HA H. rewrite (sc_get_coverage_eq c Rs) by auto.
  assert (On : forall s, In s (sc_spots c) -> spot_on (sc_grid c) s) by (intros; apply H; auto).
  rewrite grid_area_good in HA by auto. inversion HA; subst A; clear HA.
  exists (covsum (sc_grid c) Rs (sc_spots c)), (amap (covb Rs (sc_spots c)) (grid_points (sc_grid c))).
  split; auto. split. apply grid_shaped_amap. split.
  { intros. rewrite acell_grid by auto. apply covb_marks; auto. }
  assert (MS : forall f, masked_sum (amap (fun p => Fin (rarea_at (sc_grid c) p)) (grid_points (sc_grid c))) (amap f (grid_points (sc_grid c)))
     = rsum (map (fun p => rarea_at (sc_grid c) p * (if f p then 1 else 0)) (cells (grid_points (sc_grid c))))).
  { intros. unfold masked_sum. rewrite !cells_amap, combine_map_same, map_map. apply rsum_map_ext.
    intros. destruct (f x); lra. }
  split.
  { rewrite amap_amap, !MS.
    replace (rsum (map (fun p => rarea_at (sc_grid c) p * 1) (cells (grid_points (sc_grid c))))) with 1.
    unfold covsum. field. transitivity (rsum (map (rarea_at (sc_grid c)) (cells (grid_points (sc_grid c))))).
    symmetry; apply rarea_sum; auto. apply rsum_map_ext. intros; lra. }
  split.
  { unfold covsum. split.
    - apply rsum_map_nonneg. intros. pose proof (rarea_nonneg (sc_grid c) x G H0). destruct (covb _ _ _); lra.
    - apply Rle_trans with (rsum (map (rarea_at (sc_grid c)) (cells (grid_points (sc_grid c))))).
      2:{ rewrite rarea_sum by auto. lra. } apply rsum_map_le. intros.
      pose proof (rarea_nonneg (sc_grid c) x G H0). destruct (covb _ _ _); lra. }
  split.
  { intros E. unfold covsum. rewrite E. apply rsum_zero. intros. simpl. lra. }
  split.
  { intros l' P. rewrite sc_get_coverage_eq; simpl; auto. rewrite (covsum_perm _ _ _ _ P). auto.
    intros. apply H. eapply Permutation_in; [apply Permutation_sym|]; eauto. }
  intros s Os Fs. eexists. split.
  - apply sc_get_coverage_eq; simpl; auto. intros s' I. apply in_app_iff in I. destruct I as [I|[<-|[]]]; auto.
    replace (spot_assign_gridmaker s (sc_grid c)) with s. auto.
    destruct (spot_on_r _ _ Os) as [E _]. destruct s; simpl in *. subst. auto.
  - simpl. replace (spot_assign_gridmaker s (sc_grid c)) with s.
    2:{ destruct (spot_on_r _ _ Os) as [E _]. destruct s; simpl in *. subst. auto. }
    unfold covsum. apply rsum_map_le. intros. pose proof (rarea_nonneg (sc_grid c) x G H0).
    unfold covb. rewrite existsb_app. destruct (existsb _ (sc_spots c)); simpl; [lra|]. destruct (_ || _); lra.
Qed.

(** ** C22 *)
Definition tab {A} (b : bool) (r c : nat) (F : nat -> nat -> A) : arr A :=
  mkArr b (map (fun j => map (fun i => F j i) (seq 0 c)) (seq 0 r)).
Lemma amap_tab : forall A B (f : A -> B) b r c F, amap f (tab b r c F) = tab b r c (fun j i => f (F j i)).
Proof. intros. unfold amap, tab. simpl. f_equal. rewrite map_map. apply map_ext. intros. apply map_map. Qed.
Lemma grid_points_tab : forall g, exists P, grid_points g = tab (g_2d g) (g_rows g) (g_cols g) P.
Proof.
  destruct g. eexists. rewrite rect_points_eq. reflexivity.
  exists (fun _ i => (spiral_lat n i, spiral_lon i)). reflexivity.
Qed.
Lemma tab_length : forall A c (F : nat -> A), length (map F (seq 0 c)) = c.
Proof. intros. rewrite map_length, seq_length. auto. Qed.
Lemma combine_seq : forall A B (f : nat -> A) (g : nat -> B) c,
  combine (map f (seq 0 c)) (map g (seq 0 c)) = map (fun i => (f i, g i)) (seq 0 c).
Proof. intros. apply combine_map_same. Qed.
Lemma bcast_seq : forall A B (f : nat -> A) (g : nat -> B) c,
  bcast (map f (seq 0 c)) (map g (seq 0 c)) = Some (map (fun i => (f i, g i)) (seq 0 c)).
Proof. intros. unfold bcast. rewrite !tab_length, Nat.eqb_refl, combine_seq. auto. Qed.
Lemma azip_rows_ne : forall A B (a : arr A) (b : arr B), length (arows a) <> length (arows b) ->
  (2 <= length (arows a))%nat -> (2 <= length (arows b))%nat -> azip a b = Raise ValueError.
Proof.
  intros. unfold azip, bcast. rewrite (proj2 (Nat.eqb_neq _ _) H).
  destruct (arows a) as [|x [|y l]]; simpl in H0; try lia.
  destruct (arows b) as [|x' [|y' l']]; simpl in H1; try lia. auto.
Qed.
Lemma bcast_ne : forall A B (a : list A) (b : list B), length a <> length b ->
  (2 <= length a)%nat -> (2 <= length b)%nat -> bcast a b = None.
Proof.
  intros. unfold bcast. rewrite (proj2 (Nat.eqb_neq _ _) H).
  destruct a as [|x [|y l]]; simpl in H0; try lia.
  destruct b as [|x' [|y' l']]; simpl in H1; try lia. auto.
Qed.
Lemma azip_tab_same : forall A B b r c (F : nat -> nat -> A) (G : nat -> nat -> B),
  azip (tab b r c F) (tab b r c G) = Ok (tab b r c (fun j i => (F j i, G j i))).
Proof.
  intros. unfold azip, tab. cbn [arows a2d]. rewrite bcast_seq. rewrite map_map.
  erewrite map_ext. 2:{ intros. cbn [fst snd]. apply bcast_seq. }
  rewrite all_some_map. rewrite orb_diag. auto.
Qed.
Lemma azip_tab_cols : forall A B b b' r c c' (F : nat -> nat -> A) (G : nat -> nat -> B),
  (1 <= r)%nat -> c <> c' -> (2 <= c)%nat -> (2 <= c')%nat -> azip (tab b r c F) (tab b' r c' G) = Raise ValueError.
Proof.
  intros. unfold azip, tab. cbn [arows a2d]. rewrite bcast_seq. rewrite map_map.
  destruct r; [lia|]. cbn [seq map fst snd]. rewrite bcast_ne; rewrite ?tab_length; auto.
Qed.
Lemma azip_tab_row : forall A B r c (F : nat -> A) (G : nat -> nat -> B),
  azip (tab false 1 c (fun _ => F)) (tab true r c G) = Ok (tab true r c (fun j i => (F i, G j i))).
Proof.
  intros. unfold azip, tab. cbn [arows a2d].
  change (map (fun _ : nat => map (fun i => F i) (seq 0 c)) (seq 0 1)) with [map F (seq 0 c)].
  assert (bcast [map F (seq 0 c)] (map (fun j => map (fun i => G j i) (seq 0 c)) (seq 0 r))
    = Some (map (fun j => (map F (seq 0 c), map (fun i => G j i) (seq 0 c))) (seq 0 r))).
  { unfold bcast. rewrite tab_length. simpl length. destruct (Nat.eqb 1 r) eqn:E.
    apply Nat.eqb_eq in E. subst. auto. f_equal. rewrite map_map. auto. }
  rewrite H, map_map. erewrite map_ext. 2:{ intros. cbn [fst snd]. apply bcast_seq. }
  rewrite all_some_map. auto.
Qed.
Definition compat (g g' : grid) : Prop :=
  match g, g' with
  | Spiral n, Spiral n' => n <> n' /\ (2 <= n)%nat /\ (2 <= n')%nat
  | Rect a b, Rect a' b' => (a, b) <> (a', b') /\ (2 <= a)%nat /\ (2 <= b)%nat /\ (2 <= a')%nat /\ (2 <= b')%nat
  | _, _ => False
  end.
Lemma azip_mismatch : forall A B g g' (f : R * R -> A) (f' : R * R -> B), compat g g' ->
  azip (amap f (grid_points g)) (amap f' (grid_points g')) = Raise ValueError.
Proof.
  intros. destruct (grid_points_tab g) as [P ->]. destruct (grid_points_tab g') as [P' ->]. rewrite !amap_tab.
  destruct g as [a b|n], g' as [a' b'|n']; simpl in H; try contradiction; cbn [g_2d g_rows g_cols].
  - destruct (Nat.eq_dec b b') as [->|N].
    + apply azip_tab_cols; try lia. intros ->. intuition congruence.
    + apply azip_rows_ne; unfold tab; cbn [arows]; rewrite ?tab_length; lia.
  - apply azip_tab_cols; lia.
Qed.
Lemma paint_spots_app : forall Rs l l' m,
  paint_spots Rs m (l ++ l') = do m' <- paint_spots Rs m l ;; paint_spots Rs m' l'.
Proof. induction l; simpl; intros; auto. destruct (paint_spot Rs m a); simpl; auto. Qed.
Lemma C22_lemma :
  (* set_gridmaker recomputes the distances *)
  (forall s g, spot_on g (spot_set_gridmaker s g) /\ same_spot s (spot_set_gridmaker s g))
  /\ (forall c g Rs T, let c' := sc_set_gridmaker c g in
        sc_grid c' = g /\ Forall2 same_spot (sc_spots c) (sc_spots c')
        /\ (forall s, In s (sc_spots c') -> spot_on g s)
        /\ exists m, sc_map_pixels c' Rs T = Ok m /\ grid_shaped g m)
  (* add_spot does not: fine on the same grid *)
  /\ (forall c new, (forall s, In s (sc_spots c) -> spot_on (sc_grid c) s) ->
        (forall s, In s new -> spot_on (sc_grid c) s) ->
        sc_spots (sc_add_spot c new) = sc_spots c ++ new
        /\ forall s, In s (sc_spots (sc_add_spot c new)) -> spot_on (sc_grid (sc_add_spot c new)) s)
  (* the spot keeps the old distances *)
  /\ (forall c new, exists new', sc_spots (sc_add_spot c new) = sc_spots c ++ new'
        /\ sc_grid (sc_add_spot c new) = sc_grid c
        /\ Forall2 (fun s s' => same_spot s s' /\ sp_r s' = sp_r s /\ sp_grid s' = sc_grid c) new new')
  (* incompatible shapes: the next map raises *)
  /\ (forall c s g Rs T, (forall x, In x (sc_spots c) -> spot_on (sc_grid c) x) -> spot_on g s ->
        match sc_grid c, g with
        | Spiral n, Spiral n' => n <> n' /\ (2 <= n)%nat /\ (2 <= n')%nat
        | Rect a b, Rect a' b' => (a, b) <> (a', b') /\ (2 <= a)%nat /\ (2 <= b)%nat /\ (2 <= a')%nat /\ (2 <= b')%nat
        | _, _ => False
        end -> sc_map_pixels (sc_add_spot c [s]) Rs T = Raise ValueError)
  (* compatible shapes: silently wrong pixels; the map of the spiral grid's spot does
     not depend on the longitude of the rectangular grid's pixel *)
  /\ (forall nlat nlon s Rs T, spot_on (Spiral nlat) s ->
        exists m, sc_map_pixels (sc_add_spot (mkSpotColl [] (Rect nlat nlon)) [s]) Rs T = Ok m
        /\ grid_shaped (Rect nlat nlon) m
        /\ forall j j' i, (j < nlon)%nat -> (j' < nlon)%nat -> (i < nlat)%nat ->
             acell m j i NaN = acell m j' i NaN).
Proof.
  split; [|split; [|split; [|split; [|split]]]].
  - intros. split. apply set_gridmaker_on. repeat split.
  - intros. simpl. split; auto. split.
    { induction (sc_spots c); simpl; constructor; auto. repeat split. }
    assert (O : forall s, In s (map (fun s => spot_set_gridmaker s g) (sc_spots c)) -> spot_on g s).
    { intros s I. apply in_map_iff in I. destruct I as [x [<- _]]. apply set_gridmaker_on. }
    split; auto. rewrite sc_map_pixels_eq by auto. eexists. split; eauto. apply grid_shaped_amap.
  - intros. assert (E : map (fun s => spot_assign_gridmaker s (sc_grid c)) new = new).
    { rewrite <- (map_id new) at 2. apply map_ext_in. intros s I. destruct (spot_on_r _ _ (H0 s I)) as [E _].
      destruct s; simpl in *. subst. auto. }
    simpl. rewrite E. split; auto. intros s I. apply in_app_iff in I. destruct I; auto.
  - intros. exists (map (fun s => spot_assign_gridmaker s (sc_grid c)) new). split. reflexivity. split. reflexivity.
    induction new; simpl; constructor; auto. repeat split.
  - intros. unfold sc_map_pixels. rewrite grid_zeros_eq, amap_amap. cbn [sc_grid sc_add_spot sc_spots].
    rewrite paint_spots_app, paint_spots_eq by auto. cbn [bind map paint_spots].
    unfold paint_spot. rewrite dindex_pen. cbn [bind]. destruct (spot_on_r _ _ H0) as [_ Hr].
    change (sp_r (spot_assign_gridmaker s (sc_grid c))) with (sp_r s). rewrite Hr, !amap_amap.
    unfold amap2. rewrite azip_mismatch; auto.
    unfold compat. destruct (sc_grid c), g; auto; intuition congruence.
  - intros. unfold sc_map_pixels. rewrite grid_zeros_eq, amap_amap. cbn [sc_grid sc_add_spot sc_spots map app paint_spots].
    destruct (spot_on_r _ _ H) as [_ Hr].
    unfold paint_spot. rewrite dindex_pen, dindex_umb. cbn [bind].
    change (sp_r (spot_assign_gridmaker s (Rect nlat nlon))) with (sp_r s). rewrite Hr, !amap_amap.
    destruct (grid_points_tab (Rect nlat nlon)) as [P ->]. cbn [g_2d g_rows g_cols].
    change (grid_points (Spiral nlat)) with (tab false 1 nlat (fun _ i => (spiral_lat nlat i, spiral_lon i))).
    rewrite !amap_tab. unfold awhere, amap2. rewrite !azip_tab_row. cbn [bind]. rewrite !amap_tab.
    rewrite !azip_tab_same. cbn [bind]. rewrite !amap_tab, !azip_tab_same. cbn [bind]. rewrite !amap_tab.
    eexists. split. reflexivity. split.
    + exists true, nlon, nlat. split. apply (grid_points_shape (Rect nlat nlon)).
      unfold has_shape, tab. simpl. split; auto. split. apply tab_length. intros r I. apply in_map_iff in I.
      destruct I as [x [<- _]]. apply tab_length.
    + intros. unfold acell, tab. cbn [arows]. rewrite !(nth_map_seq (list num)) by auto. rewrite !nth_map_seq by auto. reflexivity.
Qed.

(** ** C23 *)
Fixpoint rtrapz (xs ys : list R) : R :=
  match xs, ys with
  | x0 :: ((x1 :: _) as xt), y0 :: ((y1 :: _) as yt) => (x1 - x0) * (y1 + y0) / 2 + rtrapz xt yt
  | _, _ => 0
  end.
Lemma ntrapz_fin : forall xs ys, ntrapz (map Fin xs) (map Fin ys) = Fin (rtrapz xs ys).
Proof.
  induction xs; intros; auto. destruct xs; [destruct ys; auto|]. destruct ys; auto. destruct ys; auto.
  specialize (IHxs (r1 :: ys)). cbn [map ntrapz rtrapz] in *. rewrite IHxs.
  rewrite nsub_fin, nadd_fin, nmul_fin, ndiv_fin, nadd_fin by lra. auto.
Qed.
Lemma rtrapz_le : forall xs f h,
  (forall i, (S i < length xs)%nat -> nth i xs 0 <= nth (S i) xs 0) ->
  (forall x, In x xs -> f x <= h x) -> rtrapz xs (map f xs) <= rtrapz xs (map h xs).
Proof.
  induction xs; intros; simpl; try lra. destruct xs. simpl; lra.
  cbn [map]. change (map f (r :: xs)) with (f r :: map f xs) in *. 
  assert (IH : rtrapz (r :: xs) (map f (r :: xs)) <= rtrapz (r :: xs) (map h (r :: xs))).
  { apply IHxs. intros. apply (H (S i)). simpl in *; lia. intros. apply H0. right; auto. }
  cbn [map] in IH. apply Rplus_le_compat; auto.
  pose proof (H 0%nat ltac:(simpl; lia)). simpl in H1.
  pose proof (H0 a ltac:(left; auto)). pose proof (H0 r ltac:(right; left; auto)).
  apply Rmult_le_compat_r; [lra|]. apply Rmult_le_compat_l; lra.
Qed.
Lemma rtrapz_0 : forall xs, rtrapz xs (map (fun _ => 0) xs) = 0.
Proof.
  induction xs; auto. destruct xs; auto. cbn [map rtrapz] in *. rewrite IHxs. lra.
Qed.
Lemma linspace_mono : forall a b n i, a <= b -> (S i < n)%nat -> nth i (linspace a b n) 0 <= nth (S i) (linspace a b n) 0.
Proof.
  intros. rewrite !linspace_nth by lia. rewrite S_INR.
  assert (0 <= (b - a) / INR (n - 1)). { apply le_div. apply lt_0_INR; lia. lra. } lra.
Qed.
Lemma linspace_range : forall a b n x, a <= b -> In x (linspace a b n) -> a <= x <= b.
Proof.
  intros. apply In_nth with (d := 0) in H0. destruct H0 as [i [L <-]]. rewrite linspace_length in L.
  rewrite linspace_nth by auto. destruct (Nat.eq_dec n 1) as [->|N].
  - replace i with 0%nat by lia. simpl. lra.
  - assert (0 < INR (n - 1)) by (apply lt_0_INR; lia).
    assert (0 <= INR i) by apply pos_INR. assert (INR i <= INR (n - 1)) by (apply le_INR; lia).
    replace (INR i * ((b - a) / INR (n - 1))) with ((b - a) * INR i / INR (n - 1)) by (field; lra).
    assert (0 <= (b - a) * INR i / INR (n - 1)) by (apply le_div; nra).
    assert ((b - a) * INR i / INR (n - 1) <= b - a) by (apply div_le; nra). lra.
Qed.
Definition sf_integrand (c0 a ci : R) : R := 2 * cos (deg2rad ci) * sqrt (Rmax 0 (a * a - (ci - c0)^2)).
Lemma spot_surface_fraction_eq : forall s lat0 lon0 Rs n th, spot_angular_radius s Rs = Fin th ->
  spot_surface_fraction s lat0 lon0 Rs n
  = Fin (rtrapz (linspace (-90) 90 n) (map (sf_integrand (rad2deg (acos (law_cos lat0 lon0 (sp_lat s) (sp_lon s)))) (th * (180 / PI))) (linspace (-90) 90 n))
         / (2 * PI) * (PI/180)^2).
Proof.
  intros. unfold spot_surface_fraction. cbv zeta. rewrite H, nmul_fin.
  set (c0 := rad2deg _). pose proof PI_RGT_0.
  match goal with |- context [map (fun ci => nmul (@?a ci) (@?b ci)) _] =>
    rewrite (map_ext (fun ci => nmul (a ci) (b ci)) (fun ci => Fin (sf_integrand c0 (th * (180/PI)) ci))) end.
  2:{ intros. rewrite nsq_fin, nsub_fin. unfold sf_integrand. cbn [nlt].
      destruct (Rltb _ 0) eqn:E; rb.
      - rewrite nsqrt_fin by lra. rewrite Rmax_left by lra. rewrite nmul_fin. auto.
      - rewrite nsqrt_fin by lra. rewrite Rmax_right by lra. rewrite nmul_fin. auto. }
  rewrite <- (map_map (sf_integrand c0 (th * (180/PI))) Fin).
  rewrite ntrapz_fin. rewrite ndiv_fin by lra. rewrite nmul_fin. auto.
Qed.
Lemma cos_deg_nonneg : forall ci, -90 <= ci <= 90 -> 0 <= cos (deg2rad ci).
Proof.
  intros. unfold deg2rad. pose proof PI_RGT_0. apply cos_ge_0; unfold Rdiv; nra.
Qed.
Lemma ang_rad_range : forall s Rs th, spot_angular_radius s Rs = Fin th -> 0 <= th <= PI.
Proof.
  intros. unfold spot_angular_radius, nacos in H. destruct (nsub _ _); try discriminate.
  destruct (Rle_dec _ _); try discriminate. destruct (Rle_dec _ _); try discriminate.
  inversion H. apply acos_bound.
Qed.
Lemma C23_lemma : forall s lat0 lon0 Rs n A c, 0 < Rs ->
  sp_area s = Fin A -> 0 <= A * (2 * PI / 1000000) <= 4 * PI * Rs^2 ->
  is_angle lat0 lon0 (sp_lat s) (sp_lon s) c ->
  exists v th, spot_surface_fraction s lat0 lon0 Rs n = Fin v /\ 0 <= v
  /\ spot_angular_radius s Rs = Fin th
  /\ (PI / 2 <= c - th -> v = 0)
  /\ (forall A' b, A <= A' -> A' * (2 * PI / 1000000) <= 4 * PI * Rs^2 ->
        exists v', spot_surface_fraction (spot_with_area s (Fin A') b) lat0 lon0 Rs n = Fin v' /\ v <= v').
Proof.
  intros s lat0 lon0 Rs n A c HR HA HB Hc.
  assert (E : 2 * PI / 1000000 = MSH_RSUN2) by (unfold MSH_RSUN2; field). rewrite E in *.
  pose proof PI_RGT_0 as Pp. pose proof msh_pos as Mp. pose proof (two_pi_R2 Rs HR) as Rp.
  destruct (ang_rad_fin s Rs A HA HR HB) as [Hth Bx].
  set (th := acos (1 - A * MSH_RSUN2 / (2 * PI * Rs ^ 2))) in *.
  assert (Ec : c = acos (law_cos lat0 lon0 (sp_lat s) (sp_lon s))).
  { destruct Hc as [B C]. rewrite <- law_cos_dot in C. rewrite <- C, acos_cos; auto. }
  assert (K : 0 < (PI/180)^2) by (apply pow_lt; lra).
  assert (K2 : forall x y, x <= y -> x / (2 * PI) * (PI/180)^2 <= y / (2 * PI) * (PI/180)^2).
  { intros. apply Rmult_le_compat_r; [lra|]. apply Rmult_le_compat_r; [|auto]. left. apply Rinv_0_lt_compat. lra. }
  assert (Kz : 0 / (2 * PI) * (PI/180)^2 = 0) by (unfold Rdiv; ring).
  exists (rtrapz (linspace (-90) 90 n) (map (sf_integrand (rad2deg c) (th * (180 / PI))) (linspace (-90) 90 n)) / (2 * PI) * (PI/180)^2), th.
  rewrite (spot_surface_fraction_eq s lat0 lon0 Rs n th Hth), <- Ec. split; auto.
  assert (Mono : forall f h, (forall x, -90 <= x <= 90 -> f x <= h x) ->
     rtrapz (linspace (-90) 90 n) (map f (linspace (-90) 90 n)) <= rtrapz (linspace (-90) 90 n) (map h (linspace (-90) 90 n))).
  { intros. apply rtrapz_le. intros. apply linspace_mono. lra. rewrite linspace_length in H0; auto.
    intros. apply H. eapply linspace_range; eauto. lra. }
  split.
  { rewrite <- Kz at 1. apply K2. rewrite <- (rtrapz_0 (linspace (-90) 90 n)) at 1. apply Mono. intros.
    unfold sf_integrand. pose proof (cos_deg_nonneg x H). pose proof (sqrt_pos (Rmax 0 (th * (180 / PI) * (th * (180 / PI)) - (x - rad2deg c) ^ 2))). nra. }
  split; auto. split.
  { intros Hb. rewrite <- Kz at 1. f_equal. f_equal.
    rewrite <- (rtrapz_0 (linspace (-90) 90 n)). f_equal. apply map_ext_in. intros x I.
    apply linspace_range in I; [|lra]. unfold sf_integrand.
    pose proof (ang_rad_range _ _ _ Hth).
    assert (Q : 0 < 180 / PI) by (apply Rdiv_lt_0_compat; lra).
    assert (90 <= rad2deg c - th * (180/PI)).
    { replace 90 with (PI/2 * (180/PI)) by (field; lra). unfold rad2deg.
      replace (c * 180 / PI) with (c * (180/PI)) by (field; lra). nra. }
    assert (0 <= th * (180/PI)) by nra.
    rewrite Rmax_left by nra. rewrite sqrt_0. ring. }
  intros A' b LA LB.
  assert (HB' : 0 <= A' * MSH_RSUN2 <= 4 * PI * Rs^2) by nra.
  destruct (ang_rad_fin (spot_with_area s (Fin A') b) Rs A' eq_refl HR HB') as [Hth' Bx'].
  rewrite (spot_surface_fraction_eq _ lat0 lon0 Rs n _ Hth').
  eexists. split; eauto. apply K2. cbn [sp_lat sp_lon spot_with_area]. rewrite <- Ec. apply Mono. intros x Hx.
  set (th' := acos (1 - A' * MSH_RSUN2 / (2 * PI * Rs ^ 2))) in *.
  assert (th <= th').
  { unfold th, th'. destruct (Req_dec A A') as [->|]; [lra|]. left. apply acos_lt; try lra.
    assert (0 < / (2 * PI * Rs^2)) by (apply Rinv_0_lt_compat; auto). unfold Rdiv.
    assert (A < A') by lra. assert (A * MSH_RSUN2 < A' * MSH_RSUN2) by (apply Rmult_lt_compat_r; auto). nra. }
  pose proof (ang_rad_range _ _ _ Hth). unfold sf_integrand. pose proof (cos_deg_nonneg x Hx).
  apply Rmult_le_compat_l; [lra|]. apply sqrt_le_1_alt. apply Rle_max_compat_l.
  assert (Q : 0 < 180 / PI) by (apply Rdiv_lt_0_compat; lra).
  assert (0 <= th * (180/PI)) by nra. assert (th * (180/PI) <= th' * (180/PI)) by nra. nra.
Qed.
