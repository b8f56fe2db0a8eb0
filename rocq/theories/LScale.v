(** Only ratios of lengths matter *)
From Coq Require Import Reals ZArith Bool List Lra Lia.
From Verif Require Import Num Py MConfig MHelpers MGrid MSpots MFaculae MXoflares MFlares MGranules MStar MHeap SpecScale LBase.
Import ListNotations.
Open Scope R_scope.

(** ** Numbers *)
Lemma inf_scale : forall c x b, 0 < c -> inf_signed (c * x) b = inf_signed x b.
Proof. intros. unfold inf_signed. rdec; auto; exfalso; nra. Qed.
Lemma inf_scale_r : forall c x b, 0 < c -> inf_signed (x * c) b = inf_signed x b.
Proof. intros. rewrite Rmult_comm. now apply inf_scale. Qed.
Lemma scale_inf : forall c x b, nscale c (inf_signed x b) = inf_signed x b.
Proof. intros. unfold inf_signed. rdec; destruct b; auto. Qed.
Lemma scale_1 : forall x, nscale 1 x = x.
Proof. destruct x; simpl; auto. now rewrite Rmult_1_l. Qed.
Lemma scale_0 : forall c, Fin 0 = nscale c (Fin 0).
Proof. intros. simpl. now rewrite Rmult_0_r. Qed.
Lemma nadd_scale : forall c x y, nadd (nscale c x) (nscale c y) = nscale c (nadd x y).
Proof. intros. destruct x, y; simpl; auto. f_equal. ring. Qed.
Lemma nneg_scale : forall c x, nneg (nscale c x) = nscale c (nneg x).
Proof. intros. destruct x; simpl; auto. f_equal. ring. Qed.
Lemma nsub_scale : forall c x y, nsub (nscale c x) (nscale c y) = nscale c (nsub x y).
Proof. intros. unfold nsub. rewrite nneg_scale. apply nadd_scale. Qed.
Lemma nmul_scale2 : forall a b x y, 0 < a -> 0 < b -> nmul (nscale a x) (nscale b y) = nscale (a * b) (nmul x y).
Proof.
  intros. destruct x, y; simpl; rewrite ?scale_inf, ?inf_scale; auto. f_equal. ring.
Qed.
Lemma nmul_scale_l : forall a x y, 0 < a -> nmul (nscale a x) y = nscale a (nmul x y).
Proof. intros. rewrite <- (scale_1 y) at 1. rewrite nmul_scale2 by lra. now rewrite Rmult_1_r. Qed.
Lemma nmul_scale_r : forall a x y, 0 < a -> nmul x (nscale a y) = nscale a (nmul x y).
Proof. intros. rewrite <- (scale_1 x) at 1. rewrite nmul_scale2 by lra. now rewrite Rmult_1_l. Qed.
Lemma nsq_scale : forall a x, 0 < a -> nsq (nscale a x) = nscale (a^2) (nsq x).
Proof. intros. unfold nsq. rewrite nmul_scale2 by auto. f_equal. ring. Qed.
Lemma ndiv_scale2 : forall a b x y, 0 < a -> 0 < b -> ndiv (nscale a x) (nscale b y) = nscale (a / b) (ndiv x y).
Proof.
  intros a b x y Ha Hb. destruct x as [x| | |], y as [y| | |]; simpl; auto; try (f_equal; ring).
  - destruct (Req_EM_T (b * y) 0), (Req_EM_T y 0); rewrite ?scale_inf, ?inf_scale; auto; simpl; try (exfalso; nra).
    f_equal. field. lra.
  - destruct (Rlt_dec (b * y) 0), (Rlt_dec y 0); auto; exfalso; nra.
  - destruct (Rlt_dec (b * y) 0), (Rlt_dec y 0); auto; exfalso; nra.
Qed.
Lemma ndiv_scale : forall a x y, 0 < a -> ndiv (nscale a x) (nscale a y) = ndiv x y.
Proof. intros. rewrite ndiv_scale2 by auto. replace (a / a) with 1 by (field; lra). apply scale_1. Qed.
Lemma ndiv_scale_l : forall a x y, 0 < a -> ndiv (nscale a x) y = nscale a (ndiv x y).
Proof. intros. rewrite <- (scale_1 y) at 1. rewrite ndiv_scale2 by lra. f_equal. field. Qed.
Lemma nlt_scale : forall a x y, 0 < a -> nlt (nscale a x) (nscale a y) = nlt x y.
Proof. intros. destruct x, y; simpl; auto. rdec; auto; exfalso; nra. Qed.
Lemma nle_scale : forall a x y, 0 < a -> nle (nscale a x) (nscale a y) = nle x y.
Proof. intros. destruct x, y; simpl; auto. rdec; auto; exfalso; nra. Qed.
Lemma nle_scale_0 : forall a x, 0 < a -> nle (nscale a x) (Fin 0) = nle x (Fin 0).
Proof. intros. rewrite (scale_0 a) at 1. now apply nle_scale. Qed.
Lemma neq_scale_0 : forall a x, 0 < a -> neq (nscale a x) (Fin 0) = neq x (Fin 0).
Proof. intros. destruct x; simpl; auto. rdec; auto; exfalso; nra. Qed.
Lemma scale_fin : forall a x, Fin (a * x) = nscale a (Fin x).
Proof. auto. Qed.
Lemma nexp_nln_scale : forall a x z, 0 < a -> nexp (nadd (nln (nscale a x)) (Fin z)) = nscale a (nexp (nadd (nln x) (Fin z))).
Proof.
  intros a x z H. destruct x as [x| | |]; simpl; auto.
  destruct (Rlt_dec (a * x) 0), (Rlt_dec x 0); simpl; auto; try (exfalso; nra).
  destruct (Req_EM_T (a * x) 0), (Req_EM_T x 0); simpl; auto; try (exfalso; nra).
  - f_equal. ring.
  - f_equal. rewrite ln_mult by nra. rewrite Rplus_assoc, exp_plus, exp_ln by auto. ring.
Qed.
Lemma sq_pos : forall k, 0 < k -> 0 < k^2. Proof. intros. nra. Qed.
Lemma inv_pos : forall k, 0 < k -> 0 < / k. Proof. intros. now apply Rinv_0_lt_compat. Qed.

(** ** Successful calls *)
Lemma rmap_bind : forall A B C (f : B -> C) (m : res A) (g : A -> res B), rmap f (do x <- m ;; g x) = do x <- m ;; rmap f (g x).
Proof. intros. destruct m; auto. Qed.
Lemma bind_rmap : forall A B C (f : A -> B) (m : res A) (g : B -> res C), (do x <- rmap f m ;; g x) = do x <- m ;; g (f x).
Proof. intros. destruct m; auto. Qed.
Lemma bind_eq : forall A B (m : res A) (f g : A -> res B), (forall x, f x = g x) -> (do x <- m ;; f x) = do x <- m ;; g x.
Proof. intros. destruct m; simpl; auto. Qed.
Lemma mapM_rmap : forall A A' B B' (h : A -> A') (h' : B -> B') (f : A -> res B) (f' : A' -> res B') l,
  (forall x, f' (h x) = rmap h' (f x)) -> mapM f' (map h l) = rmap (map h') (mapM f l).
Proof.
  intros A A' B B' h h' f f' l H. induction l as [|x t IH]; simpl; auto.
  rewrite H, IH. destruct (f x); simpl; auto. destruct (mapM f t); auto.
Qed.
Lemma mapM_same : forall A B B' (h' : B -> B') (f : A -> res B) (f' : A -> res B') l,
  (forall x, f' x = rmap h' (f x)) -> mapM f' l = rmap (map h') (mapM f l).
Proof.
  intros A B B' h' f f' l H. induction l as [|x t IH]; simpl; auto.
  rewrite H, IH. destruct (f x); simpl; auto. destruct (mapM f t); auto.
Qed.
Lemma filter_scale : forall A (h : A -> A) (p : A -> bool) l, (forall x, p (h x) = p x) -> filter p (map h l) = map h (filter p l).
Proof. intros A h p l H. induction l as [|x t IH]; simpl; auto. rewrite H, IH. destruct (p x); auto. Qed.

(** ** Spots *)
Lemma spot_with_scale : forall k x a g, spot_with_area (scale_spot k x) (nscale (k^2) a) g = scale_spot k (spot_with_area x a g).
Proof. reflexivity. Qed.
Lemma angular_scale : forall k x Rs, 0 < k -> spot_angular_radius (scale_spot k x) (k * Rs) = spot_angular_radius x Rs.
Proof.
  intros k x Rs H. pose proof (sq_pos k H). unfold spot_angular_radius. cbn [sp_area scale_spot].
  rewrite nmul_scale_l by auto. replace (2 * PI * (k * Rs)^2) with (k^2 * (2 * PI * Rs^2)) by ring.
  rewrite scale_fin, ndiv_scale by auto. reflexivity.
Qed.
Lemma spot_map_scale : forall k x Rs, 0 < k -> spot_map_pixels (scale_spot k x) (k * Rs) = spot_map_pixels x Rs.
Proof. intros. unfold spot_map_pixels. rewrite angular_scale by auto. reflexivity. Qed.
Lemma spot_age_scale : forall k x t, 0 < k -> spot_age (scale_spot k x) t = rmap (scale_spot k) (spot_age x t).
Proof.
  intros k x t H. pose proof (sq_pos k H) as H2. unfold spot_age.
  cbn [sp_growing sp_growth_dim sp_growth sp_area_max sp_area sp_decay scale_spot].
  rewrite ndiv_scale by auto. unfold ngt. destruct (sp_growing x).
  - destruct (negb _); auto. cbv zeta.
    set (ttm := if neq _ _ then _ else _). destruct (nlt t ttm).
    + rewrite nmul_scale_l, spot_with_scale by auto. reflexivity.
    + rewrite nmul_scale_r, nlt_scale by auto. destruct (nlt _ _).
      * rewrite (scale_0 (k^2)), spot_with_scale, <- scale_0. reflexivity.
      * rewrite nsub_scale, spot_with_scale. reflexivity.
  - cbv zeta. rewrite nmul_scale_r, nlt_scale by auto. destruct (nlt _ _).
    + rewrite (scale_0 (k^2)), spot_with_scale, <- scale_0. reflexivity.
    + rewrite nsub_scale, spot_with_scale. reflexivity.
Qed.
Definition scale_sc (k : R) (c : spotcoll) : spotcoll := mkSpotColl (map (scale_spot k) (sc_spots c)) (sc_grid c).
Definition scale_fcc (k : R) (c : faccoll) : faccoll := mkFacColl (map (scale_fac k) (fcc_facs c)) (fcc_grid c).
Lemma sc_age_scale : forall k c t, 0 < k -> sc_age (scale_sc k c) t = rmap (scale_sc k) (sc_age c t).
Proof.
  intros k c t H. unfold sc_age, scale_sc. cbn [sc_spots sc_grid].
  rewrite (mapM_rmap _ _ _ _ (scale_spot k) (scale_spot k) (fun s => spot_age s t)) by (intros; now apply spot_age_scale).
  rewrite bind_rmap, rmap_bind. apply bind_eq. intros l. unfold sc_clean, scale_sc. cbn [rmap sc_spots sc_grid]. do 2 f_equal.
  apply filter_scale. intros x. unfold spot_dead. cbn [sp_area sp_growing scale_spot]. rewrite nle_scale_0; auto. now apply sq_pos.
Qed.
Lemma paint_spots_scale : forall k Rs l m, 0 < k -> paint_spots (k * Rs) m (map (scale_spot k) l) = paint_spots Rs m l.
Proof.
  intros k Rs l. induction l as [|x t IH]; intros m H; auto. cbn [map paint_spots].
  assert (E : paint_spot (k * Rs) m (scale_spot k x) = paint_spot Rs m x).
  { unfold paint_spot. rewrite spot_map_scale by auto. reflexivity. }
  rewrite E. apply bind_eq. intros. now apply IH.
Qed.
Lemma sc_map_scale : forall k c Rs T, 0 < k -> sc_map_pixels (scale_sc k c) (k * Rs) T = sc_map_pixels c Rs T.
Proof. intros. unfold sc_map_pixels, scale_sc. cbn [sc_spots sc_grid]. now apply paint_spots_scale. Qed.
Lemma sc_add_scale : forall k c l, sc_add_spot (scale_sc k c) (map (scale_spot k) l) = scale_sc k (sc_add_spot c l).
Proof.
  intros. unfold sc_add_spot, scale_sc. cbn [sc_spots sc_grid]. rewrite map_app, !map_map. reflexivity.
Qed.

(** ** Spot generators *)
Lemma static_scale : forall k g, 0 < k -> sg_is_static (scale_spotgen k g) = sg_is_static g.
Proof. intros. unfold sg_is_static. cbn [sg_decay scale_spotgen]. apply neq_scale_0. now apply sq_pos. Qed.
Lemma lifetime_scale : forall k g, 0 < k -> sg_mean_lifetime (scale_spotgen k g) = sg_mean_lifetime g.
Proof.
  intros k g H. pose proof (sq_pos k H). unfold sg_mean_lifetime. rewrite static_scale by auto.
  cbn [sg_mean sg_decay sg_init sg_growth sg_growth_dim scale_spotgen]. rewrite !ndiv_scale by auto. reflexivity.
Qed.
Lemma mean_area_scale : forall k g, 0 < k -> sg_mean_area (scale_spotgen k g) = rmap (nscale (k^2)) (sg_mean_area g).
Proof.
  intros k g H. pose proof (sq_pos k H). unfold sg_mean_area. rewrite static_scale, lifetime_scale by auto.
  cbn [sg_mean sg_decay sg_init sg_growth sg_growth_dim scale_spotgen]. destruct (sg_is_static g); auto. destruct (negb _); auto.
  rewrite rmap_bind. apply bind_eq. intros life. cbv zeta.
  assert (H4 : 0 < (k^2)^2) by (apply pow_lt; auto).
  rewrite nsq_scale, (ndiv_scale_l (k^2) (sg_mean g)), (ndiv_scale_l (k^2) (sg_init g)), (ndiv_scale_l ((k^2)^2)), ndiv_scale2 by auto.
  replace ((k^2)^2 / k^2) with (k^2) by (field; lra). rewrite !nadd_scale, ndiv_scale_l by auto. reflexivity.
Qed.
Lemma expected_scale : forall k g t Rs, 0 < k -> sg_n_expected (scale_spotgen k g) t (k * Rs) = sg_n_expected g t Rs.
Proof.
  intros k g t Rs H. pose proof (sq_pos k H). unfold sg_n_expected. rewrite mean_area_scale, bind_rmap by auto. apply bind_eq. intros ma.
  rewrite lifetime_scale by auto. apply bind_eq. intros ml. cbn [sg_coverage scale_spotgen].
  replace (4 * PI * (k * Rs)^2) with (k^2 * (4 * PI * Rs^2)) by ring.
  rewrite scale_fin, nmul_scale_r, nmul_scale_l, ndiv_scale by auto. reflexivity.
Qed.
Lemma generate_scale : forall k g n d fuel, 0 < k -> sg_generate (scale_spotgen k g) n d fuel = rmap (map (scale_spot k)) (sg_generate g n d fuel).
Proof.
  intros k g n d fuel H. pose proof (sq_pos k H). unfold sg_generate. cbn [sg_logsigma scale_spotgen].
  destruct (Rltb _ _); auto. cbv zeta. rewrite rmap_bind. apply bind_eq. intros r.
  change (sg_coords (scale_spotgen k g) d 0) with (sg_coords g d 0). rewrite rmap_bind. apply bind_eq. intros _.
  apply mapM_same. intros i. change (sg_coords (scale_spotgen k g) d i) with (sg_coords g d i).
  rewrite rmap_bind. apply bind_eq. intros ll. cbn [rmap]. f_equal.
  cbn [sg_mean sg_init sg_teff_umbra sg_teff_pen sg_growth sg_growth_dim sg_decay sg_grid scale_spotgen].
  rewrite nexp_nln_scale by auto. reflexivity.
Qed.
Lemma birth_scale : forall k g t Rs p d fuel, 0 < k ->
  sg_birth (scale_spotgen k g) t (k * Rs) p d fuel = rmap (map (scale_spot k)) (sg_birth g t Rs p d fuel).
Proof.
  intros. unfold sg_birth. rewrite expected_scale, rmap_bind by auto. apply bind_eq. intros ne.
  rewrite rmap_bind. apply bind_eq. intros n. now apply generate_scale.
Qed.
Lemma mature_one_scale : forall k g d u fuel, 0 < k ->
  sg_mature_one (scale_spotgen k g) d u fuel = rmap (scale_spot k) (sg_mature_one g d u fuel).
Proof.
  intros k g d u fuel H. pose proof (sq_pos k H). unfold sg_mature_one. rewrite generate_scale, bind_rmap, rmap_bind by auto. apply bind_eq.
  intros [|x [|y l]]; auto. cbn [map]. rewrite static_scale by auto. destruct (sg_is_static g).
  - cbv zeta. cbn [sp_area_max scale_spot sg_init scale_spotgen sp_growing]. rewrite nsub_scale, nmul_scale_r, nadd_scale by auto. reflexivity.
  - rewrite lifetime_scale, rmap_bind by auto. apply bind_eq. intros. now apply spot_age_scale.
Qed.
Lemma mature_loop_scale : forall k g Rs target draws rf, 0 < k -> forall fuel i omega,
  mature_loop (scale_spotgen k g) (k * Rs) target draws rf fuel i omega = rmap (map (scale_spot k)) (mature_loop g Rs target draws rf fuel i omega).
Proof.
  intros k g Rs target draws rf H. induction fuel as [|f IH]; intros i omega; cbn [mature_loop]; destruct (nlt _ _); auto.
  destruct (draws i) as [d u]. rewrite mature_one_scale, bind_rmap, rmap_bind by auto. apply bind_eq. intros x.
  assert (E : spot_solid_angle (scale_spot k x) (k * Rs) = spot_solid_angle x Rs) by (unfold spot_solid_angle; now rewrite angular_scale).
  rewrite E, IH, bind_rmap, rmap_bind. reflexivity.
Qed.
Lemma mature_scale : forall k g c Rs draws rf fuel, 0 < k ->
  sg_generate_mature (scale_spotgen k g) c (k * Rs) draws rf fuel = rmap (map (scale_spot k)) (sg_generate_mature g c Rs draws rf fuel).
Proof. intros. unfold sg_generate_mature. destruct (_ || _); auto. now apply mature_loop_scale. Qed.

(** ** Faculae *)
Lemma floor_scale : forall k f, 0 < k -> fac_floor_dteff (scale_fac k f) = fac_floor_dteff f.
Proof.
  intros k f H. pose proof (inv_pos k H). unfold fac_floor_dteff. cbn [fc_radius fc_fminrad fc_fslope fc_fbase scale_fac].
  rewrite nsub_scale, nmul_scale2, Rinv_r, scale_1 by lra. reflexivity.
Qed.
Lemma wall_scale : forall k f, 0 < k -> fac_wall_dteff (scale_fac k f) = fac_wall_dteff f.
Proof.
  intros k f H. pose proof (inv_pos k H). unfold fac_wall_dteff. cbn [fc_radius fc_wslope fc_wint scale_fac].
  rewrite nmul_scale2, Rinv_l, scale_1 by lra. reflexivity.
Qed.
Lemma fac_with_scale : forall k f r g, fac_with (scale_fac k f) (nscale k r) g = scale_fac k (fac_with f r g).
Proof. reflexivity. Qed.
Lemma fac_age_scale : forall k f t, 0 < k -> fac_age (scale_fac k f) t = scale_fac k (fac_age f t).
Proof.
  intros k f t H. unfold fac_age. cbn [fc_growing fc_radius fc_rmax fc_life scale_fac]. rewrite ndiv_scale by auto. cbv zeta.
  destruct (fc_growing f).
  - destruct (nle _ _); rewrite nmul_scale_l, fac_with_scale by auto; reflexivity.
  - rewrite nmul_scale_l, fac_with_scale by auto; reflexivity.
Qed.
Lemma fcc_age_scale : forall k c t, 0 < k -> fcc_age (scale_fcc k c) t = scale_fcc k (fcc_age c t).
Proof.
  intros k c t H. unfold fcc_age, fcc_clean, scale_fcc. cbn [fcc_facs fcc_grid]. f_equal.
  rewrite map_map, (map_ext _ (fun f => scale_fac k (fac_age f t))) by (intros; now apply fac_age_scale).
  rewrite <- map_map. apply filter_scale. intros f. unfold fac_dead. cbn [fc_radius fc_rmax fc_growing scale_fac].
  rewrite ndiv_scale_l, nle_scale by auto. reflexivity.
Qed.
Lemma dset_scale : forall k (d : dict Z num) z v,
  dset Z.eqb (map (fun kv => (fst kv, nscale k (snd kv))) d) z (nscale k v) = map (fun kv => (fst kv, nscale k (snd kv))) (dset Z.eqb d z v).
Proof. intros. induction d as [|[a b] t IH]; simpl; auto. destruct (Z.eqb z a); simpl; auto. now rewrite IH. Qed.
Lemma effective_scale : forall k f a, 0 < k ->
  fac_effective_area (scale_fac k f) a = rmap (map (fun kv => (fst kv, nscale (k^2) (snd kv)))) (fac_effective_area f a).
Proof.
  intros k f a H. pose proof (sq_pos k H). unfold fac_effective_area. rewrite floor_scale, wall_scale by auto.
  destruct (neq _ _); auto. rewrite rmap_bind. apply bind_eq. intros kw. cbn [fc_radius fc_fminrad fc_depth scale_fac].
  rewrite nlt_scale, nsq_scale, nmul_scale_r, nmul_scale_l by auto. destruct (nlt _ _).
  - rewrite rmap_bind. apply bind_eq. intros kf. cbv zeta. cbn [rmap]. rewrite <- dset_scale, <- dset_scale, <- scale_0. reflexivity.
  - rewrite ndiv_scale by auto. cbv zeta. rewrite rmap_bind. apply bind_eq. intros c. rewrite rmap_bind. apply bind_eq. intros kf. cbn [rmap].
    rewrite !nmul_scale_r by auto. rewrite <- dset_scale, <- dset_scale. reflexivity.
Qed.
Lemma fold_scale : forall c (l : dict Z num) t,
  fold_left (fun t kv => nadd t (snd kv)) (map (fun kv => (fst kv, nscale c (snd kv))) l) (nscale c t) = nscale c (fold_left (fun t kv => nadd t (snd kv)) l t).
Proof. intros c l. induction l as [|x l IH]; intros t; simpl; auto. rewrite nadd_scale. apply IH. Qed.
Lemma fractional_scale : forall k f a, 0 < k -> fac_fractional_area (scale_fac k f) a = fac_fractional_area f a.
Proof.
  intros k f a H. pose proof (sq_pos k H). unfold fac_fractional_area. rewrite effective_scale, bind_rmap by auto. apply bind_eq. intros ea. cbv zeta.
  rewrite (scale_0 (k^2)), fold_scale, <- scale_0, map_map. f_equal. apply map_ext. intros kv. cbn [fst snd]. now rewrite ndiv_scale.
Qed.
Lemma fac_map_scale : forall k f Rkm, 0 < k -> fac_map_pixels (scale_fac k f) (k * Rkm) = fac_map_pixels f Rkm.
Proof.
  intros. unfold fac_map_pixels, fac_angular_radius. cbn [fc_radius scale_fac]. rewrite scale_fin, ndiv_scale by auto. reflexivity.
Qed.
Lemma fcc_add_scale : forall k c l, fcc_add (scale_fcc k c) (map (scale_fac k) l) = rmap (scale_fcc k) (fcc_add c l).
Proof.
  intros. unfold fcc_add, scale_fcc. cbn [fcc_facs fcc_grid].
  rewrite (mapM_rmap _ _ _ _ (scale_fac k) (scale_fac k) (fun f => do same <- grid_eq (fc_grid f) (Some (fcc_grid c)) ;;
      Ok (if same then f else fac_assign_grid f (fcc_grid c)))).
  - rewrite bind_rmap, rmap_bind. apply bind_eq. intros l'. cbn [rmap fcc_facs fcc_grid]. now rewrite map_app.
  - intros f. cbn [fc_grid scale_fac]. rewrite rmap_bind. apply bind_eq. intros b. destruct b; reflexivity.
Qed.
Lemma fg_expected_scale : forall k g t Rkm, 0 < k -> fg_n_expected (scale_facgen k g) t (k * Rkm) = fg_n_expected g t Rkm.
Proof.
  intros k g t Rkm H. pose proof (sq_pos k H). unfold fg_n_expected, fg_mean_area. cbn [fg_coverage fg_rpeak fg_lifepeak scale_facgen].
  replace (4 * PI * (k * Rkm)^2) with (k^2 * (4 * PI * Rkm^2)) by ring.
  rewrite scale_fin, nsq_scale, !nmul_scale_r, ndiv_scale by auto. reflexivity.
Qed.
Lemma fg_generate_scale : forall k g n d, 0 < k -> fg_generate (scale_facgen k g) n d = map (scale_fac k) (fg_generate g n d).
Proof.
  intros k g n d H. unfold fg_generate. rewrite map_map. apply map_ext. intros i. cbv zeta.
  cbn [fg_rpeak fg_rlogsigma fg_depth fg_lifepeak fg_lifelogsigma fg_fslope fg_fminrad fg_fbase fg_wslope fg_wint fg_grid scale_facgen].
  rewrite nmul_scale_l, ndiv_scale_l by auto. reflexivity.
Qed.
Lemma fg_birth_scale : forall k g t Rkm p d, 0 < k ->
  fg_birth (scale_facgen k g) t (k * Rkm) p d = rmap (map (scale_fac k)) (fg_birth g t Rkm p d).
Proof.
  intros. unfold fg_birth. rewrite fg_expected_scale, rmap_bind by auto. apply bind_eq. intros n. cbn [rmap]. now rewrite fg_generate_scale.
Qed.

(** ** Flares *)
Lemma frequency_scale : forall k g e, 0 < k -> frequency_gt (scale_flaregen k g) (nscale (k^2) e) = frequency_gt g e.
Proof.
  intros k g e H. pose proof (sq_pos k H) as H2. unfold frequency_gt. cbn [lg_alpha lg_beta scale_flaregen].
  set (al := lg_alpha g). set (be := lg_beta g).
  assert (L10 : 0 < ln 10) by (rewrite <- ln_1; apply ln_increasing; lra).
  assert (E : Rpower 10 (be - al * (ln (k^2) / ln 10)) = Rpower 10 be * Rpower (k^2) (- al)).
  { unfold Rpower. rewrite <- exp_plus. f_equal. field. lra. }
  assert (P : 0 < Rpower 10 be) by apply exp_pos. assert (P' : 0 < Rpower (k^2) (- al)) by apply exp_pos.
  rewrite E. set (b := Rpower 10 be) in *. set (c := Rpower (k^2) (- al)) in *. destruct e as [e| | |]; cbn [nscale npow].
  - destruct (Rlt_dec (k^2 * e) 0), (Rlt_dec e 0); auto; try (exfalso; nra).
    destruct (Req_EM_T (k^2 * e) 0), (Req_EM_T e 0); try (exfalso; nra).
    + destruct (Rlt_dec al 0). { cbn [nmul]. now apply inf_scale_r. }
      destruct (Req_EM_T al 0) as [Z|Z]; cbn [nmul]; f_equal; try ring.
      unfold c. rewrite Z, Ropp_0, Rpower_O by auto. ring.
    + cbn [nmul]. f_equal. unfold Rpower at 1. rewrite ln_mult by nra. rewrite Rmult_plus_distr_l, exp_plus.
      fold (Rpower (k^2) al). fold (Rpower e al).
      transitivity (b * (c * Rpower (k^2) al) * Rpower e al). ring.
      unfold c. rewrite <- Rpower_plus. replace (- al + al) with 0 by ring. rewrite Rpower_O by auto. ring.
  - destruct (Rlt_dec al 0). { cbn [nmul]. f_equal. ring. }
    destruct (Req_EM_T al 0) as [Z|Z]; cbn [nmul]. f_equal. unfold c. rewrite Z, Ropp_0, Rpower_O by auto. ring.
    now apply inf_scale_r.
  - reflexivity.
  - destruct (Req_EM_T al 0) as [Z|Z]; cbn [nmul]; auto. f_equal. unfold c. rewrite Z, Ropp_0, Rpower_O by auto. ring.
Qed.
Lemma quantile_scale : forall k g X, 0 < k -> quantile_func (scale_flaregen k g) X = rmap (map (nscale (k^2))) (quantile_func g X).
Proof.
  intros k g X H. unfold quantile_func. cbn [lg_alpha lg_min_energy scale_flaregen]. destruct (negb _); auto. destruct (Reqb _ _); auto.
  cbn [rmap]. rewrite map_map. f_equal. apply map_ext. intros. apply nmul_scale_l. now apply sq_pos.
Qed.
Lemma zip_scale : forall k fw en la lo te tp, zip_flares fw (map (nscale (k^2)) en) la lo te tp = map (scale_flare k) (zip_flares fw en la lo te tp).
Proof.
  intros k. induction fw as [|f fw IH]; intros; auto. destruct en; auto. destruct la; auto. destruct lo; auto. destruct te; auto. destruct tp; auto.
  cbn [map zip_flares]. rewrite IH. reflexivity.
Qed.
Lemma series_scale : forall k g t n d, 0 < k -> generate_flare_series (scale_flaregen k g) t n d = rmap (map (scale_flare k)) (generate_flare_series g t n d).
Proof.
  intros k g t n d H. unfold generate_flare_series, ntotal, nexp_gt. cbn [lg_min_energy scale_flaregen].
  fold (scale_flaregen k g). rewrite frequency_scale, rmap_bind by auto. apply bind_eq. intros [|m]; auto.
  rewrite quantile_scale, bind_rmap, rmap_bind by auto. apply bind_eq. intros en.
  change (get_peaks (scale_flaregen k g)) with (get_peaks g). rewrite rmap_bind. apply bind_eq. intros pk. cbv zeta.
  change (gen_fwhm (scale_flaregen k g)) with (gen_fwhm g). rewrite rmap_bind. apply bind_eq. intros fw.
  change (gen_teffs (scale_flaregen k g)) with (gen_teffs g). rewrite rmap_bind. apply bind_eq. intros te.
  destruct (gen_coords _ _ _). cbn [rmap]. now rewrite zip_scale.
Qed.
Lemma init_scale : forall k l, flc_init (map (scale_flare k) l) = scale_flarecoll k (flc_init l).
Proof. intros. unfold flc_init, scale_flarecoll. rewrite !map_map. reflexivity. Qed.
Lemma peak_scale : forall k f, 0 < k -> peak_area (scale_flare k f) = nscale (k^2) (peak_area f).
Proof.
  intros k f H. pose proof (sq_pos k H). unfold peak_area. cbn [fl_energy fl_teff fl_fwhm scale_flare]. cbv zeta.
  rewrite !ndiv_scale_l, nmul_scale_l by auto. reflexivity.
Qed.
Lemma model_scale : forall c t tp w a, 0 < c -> flaremodel t tp w (nscale c a) = nscale c (flaremodel t tp w a).
Proof.
  intros c t tp w a H. unfold flaremodel. cbv zeta. rewrite !(nmul_scale_r c _ a H).
  destruct (Rltb tp t && _)%bool; auto. destruct (Rleb t tp && _)%bool; auto. apply scale_0.
Qed.
Lemma curve_scale : forall k f ts, 0 < k -> areacurve (scale_flare k f) ts = rmap (map (nscale (k^2))) (areacurve f ts).
Proof.
  intros k f ts H. pose proof (sq_pos k H). unfold areacurve, get_light_curve, multiflaremodel. cbn [length Nat.ltb Nat.leb orb]. rewrite peak_scale by auto.
  cbn [fl_tpeak fl_fwhm scale_flare]. apply mapM_same. intros t. cbn [multiflare rmap]. f_equal.
  rewrite model_scale by auto. rewrite (scale_0 (k^2)) at 1. apply nadd_scale.
Qed.
Lemma trapz_scale : forall c xs ys, 0 < c -> ntrapz xs (map (nscale c) ys) = nscale c (ntrapz xs ys).
Proof.
  intros c xs. induction xs as [|x xt IH]; intros ys H. { simpl. apply scale_0. }
  destruct xt as [|x1 xt], ys as [|y [|y1 yt]]; try apply scale_0.
  cbn [ntrapz map] in *. rewrite nadd_scale, nmul_scale_r, ndiv_scale_l by auto. specialize (IH (y1 :: yt) H). cbn [map] in IH. rewrite IH. apply nadd_scale.
Qed.
Lemma timearea_scale : forall k f ts, 0 < k -> get_timearea (scale_flare k f) ts = rmap (nscale (k^2)) (get_timearea f ts).
Proof.
  intros k f ts H. pose proof (sq_pos k H). unfold get_timearea. rewrite curve_scale, bind_rmap, rmap_bind by auto. apply bind_eq. intros l. cbn [rmap].
  rewrite trapz_scale, nmul_scale_l by auto. reflexivity.
Qed.
Lemma combine_map_l : forall A B C (f : A -> B) (l : list A) (m : list C), combine (map f l) m = map (fun p => (f (fst p), snd p)) (combine l m).
Proof. intros A B C f l. induction l as [|x l IH]; intros [|y m]; auto. simpl. now rewrite IH. Qed.
Lemma visible_scale : forall k c t0 t1 so, flc_visible (scale_flarecoll k c) t0 t1 so = map (scale_flare k) (flc_visible c t0 t1 so).
Proof.
  intros. unfold flc_visible. destruct (sub_obs so) as [lat0 lon0].
  assert (E : flc_in_period (scale_flarecoll k c) t0 t1 = map (scale_flare k) (flc_in_period c t0 t1)).
  { unfold flc_in_period. change (flc_mask (scale_flarecoll k c) t0 t1) with (flc_mask c t0 t1). cbn [flc_flares scale_flarecoll].
    rewrite combine_map_l. set (l := combine (flc_flares c) (flc_mask c t0 t1)).
    induction l as [|[x b] l IH]; auto. cbn [map filter fst snd]. destruct b; cbn [map fst]; now rewrite IH. }
  rewrite E. apply filter_scale. reflexivity.
Qed.
Lemma integral_scale : forall k c t0 t1 so, 0 < k ->
  flc_integral (scale_flarecoll k c) t0 t1 so = rmap (map (fun e => (fst e, nscale (k^2) (snd e)))) (flc_integral c t0 t1 so).
Proof.
  intros k c t0 t1 so H. unfold flc_integral. cbv zeta. rewrite visible_scale. destruct (_ <? _)%Z; auto.
  apply mapM_rmap. intros f. rewrite timearea_scale, bind_rmap, rmap_bind by auto. reflexivity.
Qed.

(** ** Stars *)
Lemma vexec_scale : forall k s c, 0 < k -> vexec (scale_star k s) (scale_cmd k c) = rmap (scale_star k) (vexec s c).
Proof.
  intros k s c H. destruct c; cbn [vexec scale_cmd].
  - unfold star_age. cbn [st_spots st_facs scale_star]. fold (scale_sc k (st_spots s)) (scale_fcc k (st_facs s)).
    rewrite sc_age_scale, bind_rmap, rmap_bind, fcc_age_scale by auto. reflexivity.
  - cbn [rmap]. f_equal. unfold star_add_spot. cbn [st_spots scale_star]. fold (scale_sc k (st_spots s)). rewrite sc_add_scale. reflexivity.
  - unfold star_add_fac. cbn [st_facs scale_star]. fold (scale_fcc k (st_facs s)). rewrite fcc_add_scale, bind_rmap, rmap_bind. reflexivity.
  - unfold star_birth_spots. cbn [st_spotgen st_radius scale_star]. rewrite birth_scale, bind_rmap, rmap_bind by auto. apply bind_eq. intros l.
    cbn [rmap]. f_equal. unfold star_add_spot. cbn [st_spots scale_star]. fold (scale_sc k (st_spots s)). rewrite sc_add_scale. reflexivity.
  - unfold star_birth_faculae. cbn [st_facgen st_radius scale_star]. rewrite Rmult_assoc, fg_birth_scale, bind_rmap, rmap_bind by auto. apply bind_eq. intros l.
    unfold star_add_fac. cbn [st_facs scale_star]. fold (scale_fcc k (st_facs s)). rewrite fcc_add_scale, bind_rmap, rmap_bind. reflexivity.
  - unfold star_mature_spots. cbn [st_spotgen st_radius scale_star]. rewrite mature_scale, bind_rmap, rmap_bind by auto. apply bind_eq. intros l.
    cbn [rmap]. f_equal. unfold star_add_spot. cbn [st_spots scale_star]. fold (scale_sc k (st_spots s)). rewrite sc_add_scale. reflexivity.
  - unfold star_get_flares. cbn [st_flaregen scale_star]. rewrite series_scale, bind_rmap, rmap_bind by auto. apply bind_eq. intros l.
    cbn [rmap]. f_equal. unfold star_with_flares, scale_star. rewrite init_scale. reflexivity.
Qed.
Lemma C124_run_lemma : forall k s cs, 0 < k -> vrun (scale_star k s) (map (scale_cmd k) cs) = rmap (scale_star k) (vrun s cs).
Proof.
  intros k s cs H. revert s. induction cs as [|c t IH]; intros s; auto. cbn [map vrun]. rewrite vexec_scale, bind_rmap, rmap_bind by auto.
  apply bind_eq. intros. apply IH.
Qed.
Lemma paint_faculae_scale : forall k s lat0 lon0 mu l m, 0 < k ->
  paint_faculae (scale_star k s) lat0 lon0 mu m (map (scale_fac k) l) = paint_faculae s lat0 lon0 mu m l.
Proof.
  intros k s lat0 lon0 mu l. induction l as [|f t IH]; intros m H; auto. cbn [map paint_faculae].
  assert (E : paint_facula (scale_star k s) lat0 lon0 mu m (scale_fac k f) = paint_facula s lat0 lon0 mu m f).
  { unfold paint_facula. cbn [st_radius st_teff scale_star fc_lat fc_lon]. rewrite Rmult_assoc, fac_map_scale by auto.
    destruct (negb _); auto. rewrite fractional_scale by auto. reflexivity. }
  rewrite E. apply bind_eq. intros. now apply IH.
Qed.
Lemma faculae_scale : forall k s lat0 lon0, 0 < k -> add_faculae_to_map (scale_star k s) lat0 lon0 = add_faculae_to_map s lat0 lon0.
Proof.
  intros. unfold add_faculae_to_map, star_map. cbn [st_spots st_radius st_teff scale_star]. fold (scale_sc k (st_spots s)).
  rewrite sc_map_scale by auto. apply bind_eq. intros. cbn [st_facs fcc_facs scale_star].
  change (star_mu (scale_star k s) lat0 lon0) with (star_mu s lat0 lon0). now apply paint_faculae_scale.
Qed.
Lemma xy_scale : forall k s orbit a incl, 0 < k -> planet_xy (scale_star k s) (k * orbit) a incl = planet_xy s orbit a incl.
Proof. intros. unfold planet_xy. cbn [st_radius scale_star]. rewrite !(scale_fin k), ndiv_scale by auto. reflexivity. Qed.
Lemma mask_scale : forall k s lat0 lon0 orbit planet phase incl, 0 < k ->
  get_transit_mask (scale_star k s) lat0 lon0 (k * orbit) (k * planet) phase incl = get_transit_mask s lat0 lon0 orbit planet phase incl.
Proof.
  intros. unfold get_transit_mask, get_pl_frac. rewrite !xy_scale by auto. destruct (planet_xy _ _ _ _) as [x y].
  cbn [st_radius st_grid scale_star]. rewrite !(scale_fin k), ndiv_scale by auto. reflexivity.
Qed.
Lemma C124_report_lemma : forall k s lat0 lon0 gf orbit planet phase incl, 0 < k ->
  calc_coverage (scale_star k s) lat0 lon0 gf (k * orbit) (k * planet) phase incl = calc_coverage s lat0 lon0 gf orbit planet phase incl
  /\ add_faculae_to_map (scale_star k s) lat0 lon0 = add_faculae_to_map s lat0 lon0
  /\ get_transit_mask (scale_star k s) lat0 lon0 (k * orbit) (k * planet) phase incl = get_transit_mask s lat0 lon0 orbit planet phase incl
  /\ sc_get_coverage (st_spots (scale_star k s)) (st_radius (scale_star k s)) = sc_get_coverage (st_spots s) (st_radius s).
Proof.
  intros k s lat0 lon0 gf orbit planet phase incl H. split; [|split; [|split]].
  - unfold calc_coverage. rewrite faculae_scale, mask_scale by auto. reflexivity.
  - now apply faculae_scale.
  - now apply mask_scale.
  - unfold sc_get_coverage. cbn [st_spots st_radius scale_star]. fold (scale_sc k (st_spots s)). rewrite sc_map_scale by auto. reflexivity.
Qed.
Lemma C124_flares_lemma : forall k s t0 t1 so, 0 < k ->
  star_flare_int (scale_star k s) t0 t1 so = rmap (map (fun e => (fst e, nscale (k^2) (snd e)))) (star_flare_int s t0 t1 so)
  /\ (forall e, frequency_gt (st_flaregen (scale_star k s)) (nscale (k^2) e) = frequency_gt (st_flaregen s) e).
Proof.
  intros k s t0 t1 so H. split. 2:{ intros. now apply frequency_scale. }
  unfold star_flare_int. cbn [st_flares scale_star]. destruct (st_flares s); auto. cbn [option_map]. now apply integral_scale.
Qed.
