(** The order in which spots, faculae and flares are stored *)
From Coq Require Import Reals ZArith Bool List Lra Lia Permutation.
From Verif Require Import Num Py MConfig MHelpers MGrid MSpots MFaculae MXoflares MFlares MGranules MStar MHeap
  Spec SpecStar SpecDisk SpecFrame SpecFar SpecOrder LBase LGrid LSpotMap LDisk LStarFac LSym LFlare.
Import ListNotations.
Open Scope R_scope.

(** ** programs *)
Lemma mapM_perm : forall A B (f : A -> res B) e0, (forall x e, f x = Raise e -> e = e0) -> forall l l', Permutation l l' ->
  both (@Permutation B) (mapM f l) (mapM f l').
Proof.
  intros A B f e0 E.
  assert (RA : forall l e, mapM f l = Raise e -> e = e0).
  { induction l; cbn [mapM]; intros e H; [discriminate|]. destruct (f a) eqn:Fa; cbn [bind] in H; [|injection H as <-; eauto].
    destruct (mapM f l); cbn [bind] in H; [discriminate|]. injection H as <-. auto. }
  assert (T : forall r1 r2 r3 : res (list B), both (@Permutation B) r1 r2 -> both (@Permutation B) r2 r3 -> both (@Permutation B) r1 r3).
  { intros [a|e] [b|e'] [c|e'']; simpl; try tauto. apply Permutation_trans. congruence. }
  induction 1.
  - simpl. constructor.
  - cbn [mapM]. destruct (f x); cbn [bind]; [|simpl; auto]. destruct (mapM f l), (mapM f l'); simpl in *; auto; try contradiction.
  - cbn [mapM]. destruct (f y) as [b|e1] eqn:Fy; cbn [bind].
    + destruct (f x) as [a|e2] eqn:Fx; cbn [bind]; [|reflexivity].
      destruct (mapM f l); cbn [bind both]; auto. apply perm_swap.
    + destruct (f x) as [a|e2] eqn:Fx; cbn [bind both]; [reflexivity|]. rewrite (E _ _ Fx), (E _ _ Fy). reflexivity.
  - eapply T; eauto.
Qed.
Lemma perm_filter : forall A (h : A -> bool) l l', Permutation l l' -> Permutation (filter h l) (filter h l').
Proof.
  induction 1; simpl; auto. destruct (h x); auto. destruct (h x), (h y); auto. constructor. eapply perm_trans; eauto.
Qed.
Lemma spot_age_raise : forall t x e, spot_age x t = Raise e -> e = UnitConversionError.
Proof.
  intros t x e. unfold spot_age. destruct (sp_growing x).
  - destruct (negb _); [congruence|]. destruct (ngt _ t); [discriminate|]. destruct (ngt _ _); discriminate.
  - destruct (ngt _ _); discriminate.
Qed.
Lemma grid_eq_raise : forall g h e, grid_eq g (Some h) = Raise e -> e = TypeError.
Proof. intros [a b|n] [c d|m] e; simpl; congruence. Qed.
Lemma fac_add_raise : forall g (f : facula) e,
  (do same <- grid_eq (fc_grid f) (Some g) ;; Ok (if same then f else fac_assign_grid f g)) = Raise e -> e = TypeError.
Proof. intros g f e H. destruct (grid_eq _ _) eqn:K; cbn [bind] in H; [discriminate|]. injection H as <-. eapply grid_eq_raise; eauto. Qed.
Lemma reordered_call_same : forall c, reordered_call c c.
Proof. destruct c; simpl; auto. Qed.
Lemma vexec_reordered : forall s s' c c', reordered s s' -> reordered_call c c' -> both reordered (vexec s c) (vexec s' c').
Proof.
  intros s s' c c' R0' C. destruct R0' as (B & G1 & G2 & P1 & P2 & FL).
  pose proof B as (B1 & B2 & B3 & B4 & B5 & B6 & B7 & B8 & B9 & B10).
  assert (AS : forall l l', Permutation l l' -> reordered (star_add_spot s l) (star_add_spot s' l')).
  { intros l l' P. split; [exact B|]. cbn. repeat split; auto. rewrite G1. apply Permutation_app; auto. apply Permutation_map; auto. }
  assert (AF : forall l l', Permutation l l' -> both reordered (star_add_fac s l) (star_add_fac s' l')).
  { intros l l' P. unfold star_add_fac, fcc_add. rewrite G2.
    pose proof (mapM_perm _ _ _ _ (fac_add_raise (fcc_grid (st_facs s))) l l' P) as M.
    destruct (mapM _ l), (mapM _ l'); cbn [both] in M; cbn [bind both]; try contradiction; auto.
    split; [exact B|]. cbn. repeat split; auto. apply Permutation_app; auto. }
  destruct c; destruct c'; cbn [reordered_call] in C; try discriminate C; try (injection C; intros; subst); cbn [vexec]; auto.
  - unfold star_age, sc_age. pose proof (fun T => mapM_perm _ _ (fun x => spot_age x T) _ (spot_age_raise T) _ _ P1) as M.
    match goal with |- context [fcc_age _ ?T] => specialize (M T) end.
    destruct (mapM _ (sc_spots (st_spots s))), (mapM _ (sc_spots (st_spots s'))); cbn [both] in M; cbn [bind both]; try contradiction; auto.
    split; [exact B|]. cbn. repeat split; auto. apply perm_filter; auto. apply perm_filter. apply Permutation_map; auto.
  - cbn [both]. auto.
  - unfold star_birth_spots. rewrite B2, B6. destruct (sg_birth _ _ _ _ _ _); cbn [bind both]; auto.
  - unfold star_birth_faculae. rewrite B2, B7. destruct (fg_birth _ _ _ _ _); cbn [bind both]; auto.
  - unfold star_mature_spots. rewrite B2, B6. destruct (sg_generate_mature _ _ _ _ _ _); cbn [bind both]; auto.
  - unfold star_get_flares. rewrite B5. destruct (generate_flare_series _ _ _ _) as [l|e]; cbn [bind both]; auto.
    split; [exact B|]. cbn. repeat split; auto. exists l, l. auto.
Qed.
Lemma C126_run_lemma :
  forall s s' cs cs', reordered s s' -> Forall2 reordered_call cs cs' -> both reordered (vrun s cs) (vrun s' cs').
Proof.
  intros s s' cs cs' H F. revert s s' H. induction F; intros s s' H'; cbn [vrun]; auto.
  pose proof (vexec_reordered s s' x y H' H) as V.
  destruct (vexec s x), (vexec s' y); cbn [both] in V; cbn [bind both]; try contradiction; auto.
Qed.

(** ** reports *)
Lemma same_spots_map : forall s s', star_unified s -> star_unified s' -> same_face s s' -> st_teff s <> NaN ->
  (forall x, In x (sc_spots (st_spots s)) -> nle (sp_teff_umbra x) (sp_teff_pen x) = true) -> same_spots s s' ->
  forall T, T <> NaN -> sc_map_pixels (st_spots s') (st_radius s') T = sc_map_pixels (st_spots s) (st_radius s) T.
Proof.
  intros s s' U U' F TN CC SS T HT. pose proof F as (F1 & F2 & F3 & F4 & F5 & F6).
  destruct U as (U1 & _ & U2 & _). destruct U' as (U1' & _ & U2' & _).
  rewrite !sc_map_pixels_eq; [|intros; rewrite U1; auto|intros; rewrite U1'; auto].
  rewrite U1, U1', F3, F2. f_equal. apply amap_ext. intros p.
  set (l := sc_spots (st_spots s)) in *. set (l' := sc_spots (st_spots s')) in *.
  assert (OK : forall x, In x l -> sp_teff_umbra x <> NaN /\ sp_teff_pen x <> NaN /\ nle (sp_teff_umbra x) (sp_teff_pen x) = true).
  { intros x I. pose proof (CC x I) as K. destruct (nan_ok x K); auto. }
  assert (OK' : forall x, In x l' -> sp_teff_umbra x <> NaN /\ sp_teff_pen x <> NaN /\ nle (sp_teff_umbra x) (sp_teff_pen x) = true).
  { intros x I. apply OK. apply SS; auto. }
  destruct (fold_pv_general (st_radius s) p l T HT) as [N [L D]]. { intros; destruct (OK s0) as [? [? ?]]; auto. }
  destruct (fold_pv_general (st_radius s) p l' T HT) as [N' [L' D']]. { intros; destruct (OK' s0) as [? [? ?]]; auto. }
  apply nle_antisym.
  - destruct D as [->|[x [I D]]]; auto. apply (fold_pv_min (st_radius s) p l' T HT) with x; auto. apply SS; auto.
  - destruct D' as [->|[x [I D']]]; auto. apply (fold_pv_min (st_radius s) p l T HT) with x; auto. apply SS; auto.
Qed.
(** painting does not look at the spots and faculae of the star *)
Lemma paint_facula_face : forall s s' lat0 lon0 mu m f, same_face s s' -> paint_facula s' lat0 lon0 mu m f = paint_facula s lat0 lon0 mu m f.
Proof. intros s s' lat0 lon0 mu m f (F1 & F2 & F3 & _). unfold paint_facula. rewrite F1, F2. reflexivity. Qed.
Lemma paint_faculae_face : forall s s' lat0 lon0 mu l m, same_face s s' -> paint_faculae s' lat0 lon0 mu m l = paint_faculae s lat0 lon0 mu m l.
Proof.
  intros s s' lat0 lon0 mu l. induction l; intros m F; cbn [paint_faculae]; auto. rewrite (paint_facula_face s s') by auto.
  destruct (paint_facula _ _ _ _ _ _); cbn [bind]; auto.
Qed.
Lemma calc_coverage_face : forall s s' lat0 lon0 gf orbit planet phase incl, same_face s s' ->
  add_faculae_to_map s' lat0 lon0 = add_faculae_to_map s lat0 lon0 ->
  calc_coverage s' lat0 lon0 gf orbit planet phase incl = calc_coverage s lat0 lon0 gf orbit planet phase incl.
Proof.
  intros s s' lat0 lon0 gf orbit planet phase incl (F1 & F2 & F3 & F4 & F5 & F6) E.
  unfold calc_coverage, star_mu, star_jacobian, ld_plot. rewrite F1, F3, F4, F5, F6, E.
  assert (TM : get_transit_mask s' lat0 lon0 orbit planet phase incl = get_transit_mask s lat0 lon0 orbit planet phase incl).
  { unfold get_transit_mask, get_pl_frac, planet_xy. rewrite F2, F3. reflexivity. }
  rewrite TM. reflexivity.
Qed.
(** a facula paints some of the pixels in temperatures of its own, or raises whatever the map *)
Definition canvas (s : star) (F : R * R -> num) : arr num := amap F (grid_points (st_grid s)).
Definition brush (s : star) (f : facula) (v F : R * R -> num) (p : R * R) : num := if insidep s f p then v p else F p.
Lemma paint_form : forall s lat0 lon0 f, fc_grid f = st_grid s ->
  (exists e, forall F, paint_facula s lat0 lon0 (star_mu s lat0 lon0) (canvas s F) f = Raise e)
  \/ (exists v, forall F, paint_facula s lat0 lon0 (star_mu s lat0 lon0) (canvas s F) f = Ok (canvas s (brush s f v F))).
Proof.
  intros s lat0 lon0 f G. unfold canvas.
  destruct (negb (existsb (insidep s f) (cells (grid_points (st_grid s))))) eqn:X.
  - right. exists (fun _ => NaN). intros F. rewrite paint_facula_eq, X by auto. f_equal. apply amap_ext_in. intros p I. unfold brush.
    destruct (insidep s f p) eqn:K; auto. apply negb_true_iff in X.
    assert (existsb (insidep s f) (cells (grid_points (st_grid s))) = true) by (apply existsb_exists; eauto). congruence.
  - destruct (fac_fractional_area f (get_angle_between lat0 lon0 (fc_lat f) (fc_lon f))) as [fr|e] eqn:Y.
    2: { left. exists e. intros F. rewrite paint_facula_eq, X, Y by auto. reflexivity. }
    destruct fr as [|[kw q] [|[kf q'] [|]]];
      try (left; exists ValueError; intros F; rewrite paint_facula_eq, X, Y by auto; reflexivity).
    destruct (quantile (map (mup lat0 lon0) (filter (insidep s f) (cells (grid_points (st_grid s))))) q) as [b|e] eqn:Z0.
    + right. exists (fun p => if Rleb (mup lat0 lon0 p) b then fac_temp s kw else fac_temp s kf). intros F.
      rewrite paint_facula_eq, X, Y by auto. cbn [bind]. rewrite Z0. reflexivity.
    + left. exists e. intros F. rewrite paint_facula_eq, X, Y by auto. cbn [bind]. rewrite Z0. reflexivity.
Qed.
Lemma canvas_ext : forall s F G, (forall p, In p (cells (grid_points (st_grid s))) -> F p = G p) -> canvas s F = canvas s G.
Proof. intros. apply amap_ext_in. auto. Qed.
Lemma paint_canvas : forall s lat0 lon0 l F m, (forall f, In f l -> fc_grid f = st_grid s) ->
  paint_faculae s lat0 lon0 (star_mu s lat0 lon0) (canvas s F) l = Ok m -> exists G, m = canvas s G.
Proof.
  intros s lat0 lon0 l F m U H. destruct (paint_faculae_inv s lat0 lon0 l F m U H) as [G [-> _]]. exists G. reflexivity.
Qed.
Lemma tidied_in : forall s l l', tidied s l l' -> forall f, In f l' -> In f l.
Proof.
  induction 1; intros x I; auto; apply IHtidied in I; apply in_app_iff in I; apply in_app_iff; simpl in *; tauto.
Qed.
Lemma tidied_paint : forall s lat0 lon0 l l' F M, 0 < st_radius s -> (forall f, In f l -> fc_grid f = st_grid s /\ is_fin (fc_radius f)) ->
  tidied s l l' -> paint_faculae s lat0 lon0 (star_mu s lat0 lon0) (canvas s F) l = Ok M ->
  paint_faculae s lat0 lon0 (star_mu s lat0 lon0) (canvas s F) l' = Ok M.
Proof.
  intros s lat0 lon0 l l' F M RP U T. induction T as [l|l1 f g l2 l H0 T IHT|l1 f g l2 l H0 T IHT]; intros H; auto.
  - apply IHT. { intros x I. apply U. apply in_app_iff in I. apply in_app_iff. simpl in *. tauto. }
    rewrite paint_faculae_app in H. rewrite paint_faculae_app. apply bind_ok in H. destruct H as [m [H1 H]]. rewrite H1. cbn [bind].
    destruct (paint_canvas s lat0 lon0 l1 F m) as [G ->]; auto. { intros x I. apply U. apply in_app_iff. auto. }
    destruct (U f) as [Uf Rf]. { apply in_app_iff. simpl. auto. } destruct (U g) as [Ug Rg]. { apply in_app_iff. simpl. auto. }
    cbn [paint_faculae] in H |- *.
    destruct (paint_form s lat0 lon0 f Uf) as [[e E]|[v E]]; rewrite ?E in H; cbn [bind] in H; [discriminate|].
    destruct (paint_form s lat0 lon0 g Ug) as [[e E']|[w E']]; rewrite ?E' in H; cbn [bind] in H; [discriminate|].
    rewrite E'. cbn [bind]. rewrite E. cbn [bind]. rewrite <- H. f_equal. apply canvas_ext. intros p I. unfold brush.
    destruct (insidep s f p) eqn:K1, (insidep s g p) eqn:K2; auto. exfalso.
    destruct (In_pt _ _ I) as [j [i [Px ->]]]. apply (H0 j i Px). split; apply insidep_covers; auto.
  - apply IHT. { intros x I. apply U. apply in_app_iff in I. apply in_app_iff. simpl in *. tauto. }
    rewrite paint_faculae_app in H. rewrite paint_faculae_app. apply bind_ok in H. destruct H as [m [H1 H]]. rewrite H1. cbn [bind].
    destruct (paint_canvas s lat0 lon0 l1 F m) as [G ->]; auto. { intros x I. apply U. apply in_app_iff. auto. }
    destruct (U f) as [Uf Rf]. { apply in_app_iff. simpl. auto. } destruct (U g) as [Ug Rg]. { apply in_app_iff. simpl. auto. }
    cbn [paint_faculae] in H |- *.
    destruct (paint_form s lat0 lon0 f Uf) as [[e E]|[v E]]; rewrite ?E in H; cbn [bind] in H; [discriminate|].
    destruct (paint_form s lat0 lon0 g Ug) as [[e E']|[w E']]; rewrite ?E' in H; cbn [bind] in H; [discriminate|].
    rewrite E'. cbn [bind]. rewrite <- H. f_equal. apply canvas_ext. intros p I. unfold brush.
    destruct (insidep s f p) eqn:K1, (insidep s g p) eqn:K2; auto. exfalso.
    destruct (In_pt _ _ I) as [j [i [Px ->]]]. assert (fac_covers s g j i) by (apply (H0 j i Px); apply insidep_covers; auto).
    apply (insidep_covers s g j i RP Rg) in H2. congruence.
Qed.
Lemma C126_report_lemma :
  forall s s' lat0 lon0, star_unified s -> star_unified s' -> same_face s s' -> 0 < st_radius s -> st_teff s <> NaN ->
  (forall x, In x (sc_spots (st_spots s)) -> nle (sp_teff_umbra x) (sp_teff_pen x) = true) -> same_spots s s' ->
  star_map s' = star_map s
  /\ sc_get_coverage (st_spots s') (st_radius s') = sc_get_coverage (st_spots s) (st_radius s)
  (* the same faculae *)
  /\ (fcc_facs (st_facs s') = fcc_facs (st_facs s) ->
        add_faculae_to_map s' lat0 lon0 = add_faculae_to_map s lat0 lon0
        /\ forall gf orbit planet phase incl, calc_coverage s' lat0 lon0 gf orbit planet phase incl = calc_coverage s lat0 lon0 gf orbit planet phase incl)
  (* faculae exchanged and left out *)
  /\ ((forall f, In f (fcc_facs (st_facs s)) -> is_fin (fc_radius f)) -> tidied s (fcc_facs (st_facs s)) (fcc_facs (st_facs s')) ->
        (forall M, add_faculae_to_map s lat0 lon0 = Ok M -> add_faculae_to_map s' lat0 lon0 = Ok M)
        /\ forall gf orbit planet phase incl r, calc_coverage s lat0 lon0 gf orbit planet phase incl = Ok r ->
             calc_coverage s' lat0 lon0 gf orbit planet phase incl = Ok r).
Proof.
  intros s s' lat0 lon0 U U' F RP TN CC SS. pose proof F as (F1 & F2 & F3 & F4 & F5 & F6).
  pose proof (same_spots_map s s' U U' F TN CC SS) as SM.
  assert (SM1 : star_map s' = star_map s). { unfold star_map. rewrite F1. apply SM. auto. }
  assert (MU : star_mu s' lat0 lon0 = star_mu s lat0 lon0) by (unfold star_mu; rewrite F3; auto).
  split; [exact SM1|]. split.
  { unfold sc_get_coverage. rewrite SM by discriminate. destruct U as [U1 _]. destruct U' as [U1' _]. rewrite U1, U1', F3. reflexivity. }
  split.
  - intros E. assert (A : add_faculae_to_map s' lat0 lon0 = add_faculae_to_map s lat0 lon0).
    { unfold add_faculae_to_map. rewrite SM1, MU, E. destruct (star_map s); cbn [bind]; auto. apply paint_faculae_face; auto. }
    split; auto. intros. apply calc_coverage_face; auto.
  - intros FR TD. assert (A : forall M, add_faculae_to_map s lat0 lon0 = Ok M -> add_faculae_to_map s' lat0 lon0 = Ok M).
    { intros M H. unfold add_faculae_to_map in *. rewrite SM1, MU. rewrite star_map_eq in * by auto. cbn [bind] in *.
      rewrite (paint_faculae_face s s') by auto. eapply tidied_paint; eauto. intros f I. split; auto. apply U; auto. }
    split; auto. intros gf orbit planet phase incl r H. rewrite <- H. apply calc_coverage_face; auto.
    assert (exists M, add_faculae_to_map s lat0 lon0 = Ok M) as [M K].
    { unfold calc_coverage in H. apply bind_ok in H. destruct H as [x1 [_ H]]. apply bind_ok in H. destruct H as [x2 [_ H]].
      apply bind_ok in H. destruct H as [M [K _]]. eauto. }
    rewrite K. auto.
Qed.

(** ** flares *)
Lemma mapM_ok : forall A B (f : A -> B) l, mapM (fun x => Ok (f x)) l = Ok (map f l).
Proof. induction l; simpl; auto. rewrite IHl. reflexivity. Qed.
Lemma timearea_ok : forall f ts, exists v, get_timearea f ts = Ok v.
Proof. intros. unfold get_timearea, areacurve, get_light_curve, multiflaremodel. cbn. rewrite mapM_ok. cbn [bind]. eexists. reflexivity. Qed.
Lemma C126_flares_lemma :
  forall s s' l l' t0 t1 so, st_flares s = Some (flc_init l) -> st_flares s' = Some (flc_init l') -> Permutation l l' ->
  both (@Permutation (num * num)) (star_flare_int s t0 t1 so) (star_flare_int s' t0 t1 so).
Proof.
  intros s s' l l' t0 t1 so E E' P. unfold star_flare_int. rewrite E, E'. unfold flc_integral. destruct (_ <? 0)%Z; [reflexivity|].
  apply (mapM_perm _ _ _ ValueError).
  - intros f e H. destruct (timearea_ok f (linspace t0 t1 (Z.to_nat (rtrunc ((t1 - t0) / TEN_MIN))))) as [v V]. rewrite V in H. discriminate.
  - unfold flc_visible. destruct (sub_obs (Some (sub_obs so))). apply perm_filter. rewrite !in_period_eq. apply perm_filter. auto.
Qed.
