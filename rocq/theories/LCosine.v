(** Cosines in double precision *)
From Coq Require Import Reals ZArith QArith Qreals Bool List Lra Lia.
From Verif Require Import Num Py MConfig MHelpers MGrid MSpots MFaculae MFlares MGranules MStar MCosine MDouble Spec SpecStar SpecDisk SpecDouble SpecCosine
  LBase LHelpers LGrid LSingle LDouble LDoubleSum LSphere LSpiral LDisk LFac LSpotMap LSpotCov LStarFac LSym LLabel.
From Coquelicot Require Import Rcomplements.
Import ListNotations.
Close Scope Q_scope.
Open Scope R_scope.

(** ** without rounding nothing changes *)
Lemma exact_law : forall lat1 lon1 lat2 lon2, law_cos64 (fun x => x) sin cos lat1 lon1 lat2 lon2 = law_cos lat1 lon1 lat2 lon2.
Proof. reflexivity. Qed.
Lemma exact_paint : forall s lat0 lon0 l mu m,
  paint_faculae64 (fun x => x) sin cos s lat0 lon0 mu m l = paint_faculae s lat0 lon0 mu m l.
Proof.
  induction l as [|f l IH]; intros; auto. cbn [paint_faculae64 paint_faculae].
  change (paint_facula_at s (get_angle_between64 (fun x => x) sin cos lat0 lon0 (fc_lat f) (fc_lon f)) mu m f) with (paint_facula s lat0 lon0 mu m f).
  destruct (paint_facula s lat0 lon0 mu m f); cbn [bind]; auto.
Qed.
Lemma exact_map : forall s lat0 lon0, add_faculae_to_map64 (fun x => x) sin cos s lat0 lon0 = add_faculae_to_map s lat0 lon0.
Proof.
  intros. unfold add_faculae_to_map64, add_faculae_to_map. destruct (star_map s); cbn [bind]; auto. apply exact_paint.
Qed.
Lemma exact_pixel : forall lat0 lon0 x y rp p ar, pixel_covered64 (fun x => x) sin cos lat0 lon0 x y rp p ar = pixel_covered lat0 lon0 x y rp p ar.
Proof. intros. destruct p as [la lo]. reflexivity. Qed.
Lemma exact_mask : forall s lat0 lon0 orbit planet phase incl,
  get_transit_mask64 (fun x => x) sin cos s lat0 lon0 orbit planet phase incl = get_transit_mask s lat0 lon0 orbit planet phase incl.
Proof.
  intros. unfold get_transit_mask64, get_transit_mask. destruct (planet_xy s orbit (phase - PI) incl) as [x y].
  destruct (grid_area (st_grid s)) as [a|e]; cbn [bind]; auto.
  rewrite (amap2_ext _ _ _ (pixel_covered64 (fun x => x) sin cos lat0 lon0 x y _) (pixel_covered lat0 lon0 x y (ndiv (Fin planet) (Fin (st_radius s))))); auto.
  intros. apply exact_pixel.
Qed.
Lemma C128_exact_lemma :
  forall s lat0 lon0 g orbit planet phase incl,
  calc_coverage64 (fun x => x) sin cos s lat0 lon0 g orbit planet phase incl = calc_coverage s lat0 lon0 g orbit planet phase incl.
Proof.
  intros. unfold calc_coverage64, calc_coverage. rewrite exact_map, exact_mask. reflexivity.
Qed.

(** ** the error of the cosine *)
Lemma u53 : 1/2^53 = u64.
Proof. unfold u64. lra. Qed.
Lemma prod_close : forall a b x y e d, Rabs (a - x) <= e -> Rabs (b - y) <= d -> Rabs b <= 1 -> Rabs x <= 1 -> Rabs (a * b - x * y) <= e + d.
Proof.
  intros a b x y e d H1 H2 H3 H4. replace (a * b - x * y) with ((a - x) * b + x * (b - y)) by ring.
  eapply Rle_trans. apply Rabs_triang. rewrite !Rabs_mult. pose proof (Rabs_pos (a - x)). pose proof (Rabs_pos (b - y)). pose proof (Rabs_pos b). pose proof (Rabs_pos x). nra.
Qed.
Lemma rnd_unit : forall x, Rabs x <= 1 -> Rabs (f64_round x) <= 1.
Proof.
  intros x H. apply Rabs_le_between in H. apply Rabs_le.
  assert (V : f64_value (-1)) by (exists (-1)%Z, 0%Z; split; [simpl; lia|split; [lia|simpl; ring]]).
  split. replace (-(1)) with (f64_round (-1)) by (apply f64_round_id; auto). apply f64_round_mono; lra. rewrite <- (f64_round_id _ f64_one). apply f64_round_mono; lra.
Qed.
Lemma unit_mult : forall a b, Rabs a <= 1 -> Rabs b <= 1 -> Rabs (a * b) <= 1.
Proof. intros a b H H'. rewrite Rabs_mult. pose proof (Rabs_pos a). pose proof (Rabs_pos b). nra. Qed.
Lemma close_trans : forall a b c e d, Rabs (a - b) <= e -> Rabs (b - c) <= d -> Rabs (a - c) <= e + d.
Proof. intros. replace (a - c) with ((a - b) + (b - c)) by ring. eapply Rle_trans. apply Rabs_triang. lra. Qed.
Lemma rnd_unit_err : forall x, Rabs x <= 1 -> Rabs (f64_round x - x) <= u64 + eta.
Proof. intros x H. pose proof (rnd_err x). pose proof u64_pos. pose proof (Rabs_pos x). nra. Qed.
Lemma law_error : forall sn cs lat1 lon1 lat2 lon2, accurate sn cs -> Rabs (lon1 - lon2) <= 7 ->
  Rabs (law_cos64 f64_round sn cs lat1 lon1 lat2 lon2 - law_cos lat1 lon1 lat2 lon2) <= 18 * u64.
Proof.
  intros sn cs lat1 lon1 lat2 lon2 A L. pose proof eta_small as ES. pose proof eta_pos as EP. pose proof u64_pos as UP.
  assert (AS : forall x, Rabs (sn x - sin x) <= u64 /\ Rabs (sn x) <= 1). { intros x. destruct (A x) as [[H1 H2] _]. rewrite u53 in H1. split; auto. apply Rabs_le; lra. }
  assert (AC : forall x, Rabs (cs x - cos x) <= u64 /\ Rabs (cs x) <= 1). { intros x. destruct (A x) as [_ [H1 H2]]. rewrite u53 in H1. split; auto. apply Rabs_le; lra. }
  unfold law_cos64, law_cos. set (d := lon1 - lon2) in *.
  set (P := f64_round (sn lat1 * sn lat2)). set (Q := f64_round (cs lat1 * cs lat2)). set (w := cs (f64_round d)). set (W := f64_round (Q * w)).
  assert (P1 : Rabs (P - sin lat1 * sin lat2) <= (u64 + eta) + (u64 + u64)).
  { apply close_trans with (sn lat1 * sn lat2). apply rnd_unit_err. apply unit_mult; apply AS. apply prod_close; try apply AS. apply rabs_sin. }
  assert (P2 : Rabs P <= 1) by (apply rnd_unit; apply unit_mult; apply AS).
  assert (Q1 : Rabs (Q - cos lat1 * cos lat2) <= (u64 + eta) + (u64 + u64)).
  { apply close_trans with (cs lat1 * cs lat2). apply rnd_unit_err. apply unit_mult; apply AC. apply prod_close; try apply AC. apply rabs_cos. }
  assert (Q2 : Rabs Q <= 1) by (apply rnd_unit; apply unit_mult; apply AC).
  assert (W0 : Rabs (w - cos d) <= u64 + (7 * u64 + eta)).
  { apply close_trans with (cos (f64_round d)). apply AC. eapply Rle_trans. apply cos_lip. pose proof (rnd_err d). nra. }
  assert (W1 : Rabs (W - cos lat1 * cos lat2 * cos d) <= (u64 + eta) + (((u64 + eta) + (u64 + u64)) + (u64 + (7 * u64 + eta)))).
  { apply close_trans with (Q * w). apply rnd_unit_err. apply unit_mult; auto. apply AC. apply prod_close; auto. apply AC. apply unit_mult; apply rabs_cos. }
  assert (W2 : Rabs W <= 1) by (apply rnd_unit; apply unit_mult; auto; apply AC).
  assert (E : Rabs ((P + W) - (sin lat1 * sin lat2 + cos lat1 * cos lat2 * cos d)) <= 15 * u64 + 4 * eta).
  { replace ((P + W) - (sin lat1 * sin lat2 + cos lat1 * cos lat2 * cos d)) with ((P - sin lat1 * sin lat2) + (W - cos lat1 * cos lat2 * cos d)) by ring.
    eapply Rle_trans. apply Rabs_triang. lra. }
  assert (F : Rabs (f64_round (P + W) - (P + W)) <= 2 * u64 + eta).
  { pose proof (rnd_err (P + W)) as K. assert (Rabs (P + W) <= 2) by (eapply Rle_trans; [apply Rabs_triang|lra]). nra. }
  eapply Rle_trans. apply (close_trans _ (P + W)); eauto. lra.
Qed.
Lemma angle_small : forall x y, -1 <= x <= 1 -> -1 <= y <= 1 -> Rabs (x - y) <= 18 * u64 -> Rabs (acos x - acos y) <= 2 / 10^7.
Proof.
  intros x y X Y H. eapply Rle_trans. apply acos_mod; auto. pose proof PI_4. pose proof PI_RGT_0.
  assert (S0 : sqrt (Rabs (x - y) / 2) <= 4 / 10^8).
  { rewrite <- (sqrt_Rsqr (4 / 10^8)) by lra. apply sqrt_le_1_alt. unfold Rsqr. unfold u64 in H. lra. }
  pose proof (sqrt_pos (Rabs (x - y) / 2)). nra.
Qed.
Lemma law_range : forall a b c d, -1 <= law_cos a b c d <= 1.
Proof. intros. apply law_cos_bound. Qed.
Lemma C128_error_lemma :
  forall rnd sn cs lat1 lon1 lat2 lon2 th, double_rounding rnd -> accurate sn cs -> Rabs (lon1 - lon2) <= 7 -> is_angle lat1 lon1 lat2 lon2 th ->
  Rabs (law_cos64 rnd sn cs lat1 lon1 lat2 lon2 - cos th) <= 2 / 10^15
  /\ ((exists a, get_angle_between64 rnd sn cs lat1 lon1 lat2 lon2 = Fin a /\ Rabs (a - th) <= 2 / 10^7)
      \/ (get_angle_between64 rnd sn cs lat1 lon1 lat2 lon2 = NaN /\ (th <= 2 / 10^7 \/ PI - 2 / 10^7 <= th))).
Proof.
  intros rnd sn cs lat1 lon1 lat2 lon2 th D A L [T1 T2]. apply double_rounding_eq in D. subst rnd.
  pose proof (law_error sn cs lat1 lon1 lat2 lon2 A L) as E. rewrite <- law_cos_dot in T2. pose proof (law_range lat1 lon1 lat2 lon2) as B.
  assert (TH : th = acos (law_cos lat1 lon1 lat2 lon2)) by (rewrite <- T2, acos_cos; auto).
  unfold get_angle_between64. set (m := law_cos64 _ _ _ _ _ _ _) in *. rewrite T2. split. { unfold u64 in E. lra. }
  destruct (Rle_lt_dec (-1) m) as [H1|H1]; [destruct (Rle_lt_dec m 1) as [H2|H2]|].
  - left. exists (acos m). split. apply nacos_fin; auto. rewrite TH. apply angle_small; auto.
  - right. split. { unfold nacos. destruct (Rle_dec (-1) m); [|lra]. destruct (Rle_dec m 1); auto; lra. }
    left. pose proof (angle_small (law_cos lat1 lon1 lat2 lon2) 1 B ltac:(lra)) as K. rewrite acos_1, <- TH, Rminus_0_r in K.
    assert (K' : Rabs th <= 2 / 10^7). { apply K. apply Rabs_le_between in E. apply Rabs_le. lra. }
    apply Rabs_le_between in K'. lra.
  - right. split. { unfold nacos. destruct (Rle_dec (-1) m); auto; lra. }
    right. pose proof (angle_small (law_cos lat1 lon1 lat2 lon2) (-1) B ltac:(lra)) as K.
    assert (AC : acos (-1) = PI) by (rewrite <- cos_PI, acos_cos; auto; pose proof PI_RGT_0; lra). rewrite AC, <- TH in K.
    assert (K' : Rabs (th - PI) <= 2 / 10^7). { apply K. apply Rabs_le_between in E. apply Rabs_le. lra. }
    apply Rabs_le_between in K'. lra.
Qed.
(** ** faculae *)
Lemma mu64_eq : forall rnd sn cs s lat0 lon0, star_mu64 rnd sn cs s lat0 lon0 = amap (fun p => law_cos64 rnd sn cs lat0 lon0 (fst p) (snd p)) (grid_points (st_grid s)).
Proof. reflexivity. Qed.
Lemma paint_at_eq : forall s angle h F f, fc_grid f = st_grid s ->
  paint_facula_at s angle (amap h (grid_points (st_grid s))) (amap F (grid_points (st_grid s))) f
  = if negb (existsb (insidep s f) (cells (grid_points (st_grid s)))) then Ok (amap F (grid_points (st_grid s)))
    else do fracs <- fac_fractional_area f angle ;;
      match fracs with
      | [(kw, q); (kf, _)] =>
          do b <- quantile (map h (filter (insidep s f) (cells (grid_points (st_grid s))))) q ;;
          Ok (amap (fun p => if insidep s f p then (if Rleb (h p) b then fac_temp s kw else fac_temp s kf) else F p)
                (grid_points (st_grid s)))
      | _ => Raise ValueError
      end.
Proof.
  intros s angle h F f G. unfold paint_facula_at. rewrite fac_map_pixels_eq by auto. rewrite any_true_existsb.
  destruct (negb _); auto. destruct (fac_fractional_area f angle) as [fr|e]; cbn [bind]; auto.
  destruct fr as [|[kw q] [|[kf q'] [|]]]; auto.
  rewrite zip_same_amap. cbn [bind]. rewrite cells_amap, filter_map_comm, map_map. cbn [fst snd].
  destruct (quantile _ q) as [b|e]; cbn [bind]; auto. rewrite !amap_amap, !amap2_amap. cbn [bind]. unfold mask_assign. rewrite zip_same_amap. cbn [bind].
  rewrite amap_amap, zip_same_amap. cbn [bind]. rewrite amap_amap. f_equal. apply amap_ext. intros p. cbn [fst snd]. unfold fac_temp.
  destruct (insidep s f p); cbn [andb]; auto. unfold Rleb, Rltb. destruct (Rle_dec (h p) b), (Rlt_dec b (h p)); auto; lra.
Qed.
Lemma nmul_nan_r : forall a, nmul a NaN = NaN. Proof. destruct a; auto. Qed.
Lemma nadd_nan_r : forall a, nadd a NaN = NaN. Proof. destruct a; auto. Qed.
Lemma frac_nan : forall f, paintable f ->
  fac_fractional_area f NaN = Raise ValueError \/ exists kw kf, fac_fractional_area f NaN = Ok [(kw, NaN); (kf, NaN)].
Proof.
  intros f [r [d [fs [fm [fb [ws [wi [kw [kf [T [R1' [R2 [K1 [K2 NE]]]]]]]]]]]]]].
  unfold fac_fractional_area, fac_effective_area.
  destruct (neq (fac_floor_dteff f) (fac_wall_dteff f)); [left; reflexivity|right].
  destruct T as [T1 [T2 [T3 [T4 [T5 [T6 T7]]]]]].
  assert (W : fac_wall_dteff f = Fin (wall_diff r ws wi)). { unfold fac_wall_dteff, wall_diff. rewrite T1, T6, T7. cbn [nmul nadd]. f_equal. ring. }
  assert (FL : fac_floor_dteff f = Fin (floor_diff r fs fm fb)). { unfold fac_floor_dteff, floor_diff. rewrite T1, T3, T4, T5. cbn [nsub nneg nmul nadd]. f_equal. ring. }
  rewrite W, FL, K1, K2. cbn [bind]. exists kw, kf. rewrite T1, T2, T4.
  assert (KE : Z.eqb kw kf = false) by (apply Z.eqb_neq; auto). assert (KE' : Z.eqb kf kw = false) by (apply Z.eqb_neq; auto).
  destruct (nlt (Fin r) (Fin fm)); cbn [ncos]; rewrite !nmul_nan_r.
  - cbn [bind dset]. rewrite ?KE, ?KE'. cbn. reflexivity.
  - cbn [ntan]. rewrite ?nmul_nan_r. unfold circ_fraction. cbn [nsub nadd nneg nsq nmul nsqrt ngt nlt nle neq andb].
    unfold ngt. cbn [nlt]. destruct (Rltb 1 1) eqn:E11; [exfalso; unfold Rltb in E11; destruct (Rlt_dec 1 1); [lra|discriminate]|].
    cbn. rewrite ?KE, ?KE'. reflexivity.
Qed.
Lemma exb_cov : forall s f, 0 < st_radius s -> paintable f -> (existsb (insidep s f) (cells (grid_points (st_grid s))) = true <-> covers_some s f).
Proof.
  intros s f HR [r [d [fs [fm [fb [ws [wi [kw [kf [T _]]]]]]]]]].
  assert (FR : is_fin (fc_radius f)) by (exists r; apply T). rewrite existsb_exists. split.
  - intros [p [I H]]. destruct (In_pt _ _ I) as [j [i [P ->]]]. exists j, i. split; auto. apply insidep_covers; auto.
  - intros [j [i [P H]]]. exists (pt (st_grid s) (j, i)). split. apply pt_In; auto. apply insidep_covers; auto.
Qed.
Lemma cos_acos' : forall m, -1 <= m <= 1 -> cos (acos m) = m.
Proof. intros. apply cos_acos; auto. Qed.
Lemma paint_one : forall rnd sn cs s lat0 lon0 h F f, fc_grid f = st_grid s -> 0 < st_radius s -> paintable f ->
  let mu := law_cos64 rnd sn cs lat0 lon0 (fc_lat f) (fc_lon f) in
  (covers_some s f -> mu <> 0) ->
  let P := paint_facula_at s (get_angle_between64 rnd sn cs lat0 lon0 (fc_lat f) (fc_lon f)) (amap h (grid_points (st_grid s))) (amap F (grid_points (st_grid s))) f in
  (covers_some s f /\ 1 < Rabs mu /\ P = Raise ValueError)
  \/ (~ (covers_some s f /\ 1 < Rabs mu) /\ exists F', P = Ok (amap F' (grid_points (st_grid s)))).
Proof.
  intros rnd sn cs s lat0 lon0 h F f G HR PF mu NZ P. unfold P. rewrite paint_at_eq by auto.
  destruct (existsb (insidep s f) (cells (grid_points (st_grid s)))) eqn:E; cbn [negb].
  - apply (exb_cov s f HR PF) in E. specialize (NZ E). destruct (Rlt_le_dec 1 (Rabs mu)) as [L|L].
    + left. split; auto. split; auto. unfold get_angle_between64. fold mu.
      assert (N : nacos (Fin mu) = NaN).
      { unfold nacos. destruct (Rle_dec (-1) mu); auto. destruct (Rle_dec mu 1); auto. exfalso. assert (Rabs mu <= 1) by (apply Rabs_le; lra). lra. }
      rewrite N. destruct (frac_nan f PF) as [->|[kw [kf ->]]]; reflexivity.
    + right. split. intros [_ K]; lra. apply Rabs_le_between in L. unfold get_angle_between64. fold mu. rewrite nacos_fin by auto.
      destruct PF as [r [d [fs [fm [fb [ws [wi [kw [kf [T [R1' [R2 [K1 [K2 NE]]]]]]]]]]]]]].
      destruct (C31_lemma f r d fs fm fb ws wi kw kf T R1' R2 K1 K2 NE) as [w [W _]].
      destruct (W (acos mu)) as [_ [E1 B]]. rewrite cos_acos' by auto. auto. rewrite E1. cbn [bind].
      destruct (quantile_total (map h (filter (insidep s f) (cells (grid_points (st_grid s))))) (w (acos mu)) B) as [b ->]. cbn [bind]. eauto.
  - right. split. intros [K _]. apply (exb_cov s f HR PF) in K. congruence. eauto.
Qed.
Definition trouble (rnd sn cs : R -> R) (s : star) (lat0 lon0 : R) (f : facula) : Prop :=
  covers_some s f /\ 1 < Rabs (law_cos64 rnd sn cs lat0 lon0 (fc_lat f) (fc_lon f)).
Lemma paint_all : forall rnd sn cs s lat0 lon0 h l F, 0 < st_radius s ->
  (forall f, In f l -> fc_grid f = st_grid s /\ paintable f /\ (covers_some s f -> law_cos64 rnd sn cs lat0 lon0 (fc_lat f) (fc_lon f) <> 0)) ->
  let P := paint_faculae64 rnd sn cs s lat0 lon0 (amap h (grid_points (st_grid s))) (amap F (grid_points (st_grid s))) l in
  ((exists f, In f l /\ trouble rnd sn cs s lat0 lon0 f) -> P = Raise ValueError)
  /\ ((forall f, In f l -> ~ trouble rnd sn cs s lat0 lon0 f) -> exists M, P = Ok M).
Proof.
  intros rnd sn cs s lat0 lon0 h l. induction l as [|f l IH]; intros F HR HF P; unfold P; cbn [paint_faculae64].
  - split. intros [f [[] _]]. eauto.
  - destruct (HF f (or_introl eq_refl)) as [G [PF NZ]].
    destruct (paint_one rnd sn cs s lat0 lon0 h F f G HR PF NZ) as [[C [L ->]]|[N [F' ->]]]; cbn [bind].
    + split; auto. intros K. exfalso. apply (K f (or_introl eq_refl)). split; auto.
    + destruct (IH F' HR) as [I1 I2]. { intros; apply HF; right; auto. } split.
      * intros [f' [[->|I] T]]. contradiction. apply I1. eauto.
      * intros K. apply I2. intros. apply K; right; auto.
Qed.
Lemma C128_crash_lemma :
  forall rnd sn cs s lat0 lon0, star_unified s -> 0 < st_radius s ->
  (forall f, In f (fcc_facs (st_facs s)) -> paintable f /\ (covers_some s f -> law_cos64 rnd sn cs lat0 lon0 (fc_lat f) (fc_lon f) <> 0)) ->
  ((exists f, In f (fcc_facs (st_facs s)) /\ covers_some s f /\ get_angle_between64 rnd sn cs lat0 lon0 (fc_lat f) (fc_lon f) = NaN) ->
     add_faculae_to_map64 rnd sn cs s lat0 lon0 = Raise ValueError
     /\ forall g orbit planet phase incl, calc_coverage64 rnd sn cs s lat0 lon0 g orbit planet phase incl = Raise ValueError)
  /\ ((forall f, In f (fcc_facs (st_facs s)) -> covers_some s f -> get_angle_between64 rnd sn cs lat0 lon0 (fc_lat f) (fc_lon f) <> NaN) ->
     exists M, add_faculae_to_map64 rnd sn cs s lat0 lon0 = Ok M).
Proof.
  intros rnd sn cs s lat0 lon0 U HR HF.
  assert (UF : forall f, In f (fcc_facs (st_facs s)) -> fc_grid f = st_grid s) by apply U.
  assert (A : forall m, nacos (Fin m) = NaN <-> 1 < Rabs m).
  { intros m. unfold nacos. destruct (Rle_dec (-1) m); [destruct (Rle_dec m 1)|]; split; intros H; auto; try discriminate.
    - assert (Rabs m <= 1) by (apply Rabs_le; lra). lra.
    - destruct (Rlt_le_dec 1 (Rabs m)) as [L|L]; auto. apply Rabs_le_between in L. lra.
    - destruct (Rlt_le_dec 1 (Rabs m)) as [L|L]; auto. apply Rabs_le_between in L. lra. }
  assert (E : add_faculae_to_map64 rnd sn cs s lat0 lon0
    = paint_faculae64 rnd sn cs s lat0 lon0 (amap (fun p => law_cos64 rnd sn cs lat0 lon0 (fst p) (snd p)) (grid_points (st_grid s)))
        (amap (fun p => fold_left (pv (st_radius s) p) (sc_spots (st_spots s)) (st_teff s)) (grid_points (st_grid s))) (fcc_facs (st_facs s))).
  { unfold add_faculae_to_map64. rewrite star_map_eq by auto. reflexivity. }
  destruct (paint_all rnd sn cs s lat0 lon0 (fun p => law_cos64 rnd sn cs lat0 lon0 (fst p) (snd p)) (fcc_facs (st_facs s))
    (fun p => fold_left (pv (st_radius s) p) (sc_spots (st_spots s)) (st_teff s)) HR) as [I1 I2].
  { intros f I. destruct (HF f I). auto. }
  split.
  - intros [f [I [C N]]].
    assert (M : add_faculae_to_map64 rnd sn cs s lat0 lon0 = Raise ValueError).
    { rewrite E. apply I1. exists f. split; auto. split; auto. apply A; auto. }
    split; auto. intros. unfold calc_coverage64, star_jacobian. destruct C as [j [i [P _]]].
    rewrite grid_area_eq. 2:{ intros K. rewrite K in P. apply pixel_bounds in P. cbn in P. lia. }
    cbn [bind]. rewrite mu64_eq, amap_amap, amap2_amap. cbn [bind]. rewrite M. reflexivity.
  - intros K. rewrite E. apply I2. intros f I [C L]. apply (K f I C). apply A; auto.
Qed.

(** ** transits *)
Lemma C128_transit_lemma :
  forall rnd sn cs s lat0 lon0 orbit planet phase incl m pf j i, - PI/2 < lat0 < PI/2 -> pixel (st_grid s) j i ->
  get_angle_between64 rnd sn cs lat0 lon0 (pix_lat (st_grid s) j i) (pix_lon (st_grid s) j i) = NaN ->
  get_transit_mask64 rnd sn cs s lat0 lon0 orbit planet phase incl = Ok (m, pf) -> acell m j i NaN = Fin 0.
Proof.
  intros rnd sn cs s lat0 lon0 orbit planet phase incl m pf j i L P N H. unfold get_transit_mask64 in H.
  assert (Z0 : acell (grid_zeros (st_grid s)) j i NaN = Fin 0) by (rewrite grid_zeros_eq, acell_grid; auto).
  destruct (planet_xy s orbit (phase - PI) incl) as [x y].
  destruct (ngt _ _). { injection H as <- <-. auto. }
  destruct (Rltb 0 (cos phase)). { destruct (get_pl_frac _ _ _ _ _); cbn [bind] in H; [|discriminate]. injection H as <- <-. auto. }
  rewrite grid_area_eq in H. 2:{ intros K. rewrite K in P. apply pixel_bounds in P. cbn in P. lia. }
  cbn [bind] in H. rewrite amap2_amap_r in H. cbn [bind] in H. destruct (existsb _ _); [discriminate|]. injection H as <- <-.
  rewrite acell_grid by auto. fold (pt (st_grid s) (j, i)).
  unfold pix_lat, pix_lon in N. unfold pt. cbn [fst snd]. destruct (acell (grid_points (st_grid s)) j i (0, 0)) as [la lo]. cbn [fst snd] in N.
  unfold get_angle_between64 in N. unfold pixel_covered64, proj_ortho_at. cbn [fst snd]. rewrite N.
  destruct (Req_EM_T (PI/2 - lat0) 0); [lra|]. destruct (Req_EM_T (PI/2 - lat0) PI); [lra|].
  cbn [nsin]. rewrite !nmul_nan_r. cbn [nsub nadd nsq nmul nsqrt nisnan]. rewrite orb_true_r. reflexivity.
Qed.

(** ** a facula below the observer at latitude 8 degrees *)
Lemma f64_round_at : forall x m e, (2 ^ 52 < m < 2 ^ 53)%Z -> (-1074 <= e)%Z -> Rabs (x - IZR m * powerRZ 2 e) < powerRZ 2 e / 2 ->
  f64_round x = IZR m * powerRZ 2 e.
Proof.
  intros x m e M E H. pose proof (p2_pos e) as P. set (u := powerRZ 2 e) in *. apply Rabs_def2 in H.
  assert (M1 : 4503599627370497 <= IZR m) by (apply IZR_le; lia). assert (M2 : IZR m <= 9007199254740991) by (apply IZR_le; lia).
  assert (X1 : 4503599627370496 * u <= x) by nra. assert (X2 : x < 9007199254740992 * u) by nra.
  assert (N : x <> 0) by nra. assert (AX : Rabs x = x) by (apply Rabs_right; nra).
  assert (B : Int_part (ln (Rabs x) / ln 2) = (52 + e)%Z).
  { destruct (binade x N) as [B1 B2]. rewrite AX in *. set (b := Int_part (ln x / ln 2)) in *.
    assert (U52 : powerRZ 2 (52 + e) = 4503599627370496 * u) by (rewrite p2_add, p2_Z by lia; reflexivity).
    assert (U53 : powerRZ 2 (53 + e) = 9007199254740992 * u) by (rewrite p2_add, p2_Z by lia; reflexivity).
    destruct (Z.lt_trichotomy b (52 + e)) as [K|[K|K]]; auto.
    - pose proof (p2_le (b + 1) (52 + e) ltac:(lia)) as Q. rewrite p2_add in Q. simpl (powerRZ 2 1) in Q. lra.
    - pose proof (p2_le (53 + e) b ltac:(lia)) as Q. lra. }
  unfold f64_round. destruct (Req_EM_T x 0); [contradiction|]. unfold f64_exp. rewrite B. replace (Z.max (52 + e - 52) (-1074)) with e by lia. fold u.
  f_equal. f_equal. assert (D : Rabs (IZR m - x / u) < 1/2).
  { replace (IZR m - x / u) with ((IZR m * u - x) * / u) by (field; lra). rewrite Rabs_mult, (Rabs_right (/ u)) by (apply Rle_ge, Rlt_le, Rinv_0_lt_compat; auto).
    assert (Rabs (IZR m * u - x) < u / 2) by (apply Rabs_def1; lra).
    replace (1/2) with (u / 2 * / u) by (field; lra). apply Rmult_lt_compat_r; auto. apply Rinv_0_lt_compat; auto. }
  pose proof (rhe_near (x / u) m) as Q. assert (Q' : Rabs (IZR (rhe (x / u)) - x / u) < 1/2) by lra.
  apply Rabs_def2 in D. apply Rabs_def2 in Q'. assert (K : -1 < IZR (rhe (x / u)) - IZR m < 1) by lra. rewrite <- minus_IZR in K. destruct K as [K1 K2].
  apply lt_IZR in K1. apply lt_IZR in K2. lia.
Qed.
Lemma p2_neg : forall k, powerRZ 2 (Z.neg k) = / IZR (2 ^ Z.pos k).
Proof. intros. change (Z.neg k) with (- Z.pos k)%Z. rewrite powerRZ_neg', p2_Z by lia. auto. Qed.
Lemma fact_up : forall n, INR (fact (S n)) = IZR (Z.of_nat (S n)) * INR (fact n).
Proof. intros. rewrite fact_simpl, mult_INR, INR_IZR_INZ. auto. Qed.
Lemma facts : INR (fact 0) = 1 /\ INR (fact 1) = 1 /\ INR (fact 2) = 2 /\ INR (fact 3) = 6 /\ INR (fact 4) = 24 /\ INR (fact 5) = 120 /\ INR (fact 6) = 720
  /\ INR (fact 7) = 5040 /\ INR (fact 8) = 40320 /\ INR (fact 9) = 362880 /\ INR (fact 10) = 3628800 /\ INR (fact 11) = 39916800 /\ INR (fact 12) = 479001600 /\ INR (fact 13) = 6227020800.
Proof.
  assert (F0 : INR (fact 0) = 1) by reflexivity.
  assert (F1 : INR (fact 1) = 1) by (rewrite fact_up, F0; simpl; lra).
  assert (F2 : INR (fact 2) = 2) by (rewrite fact_up, F1; simpl; lra).
  assert (F3 : INR (fact 3) = 6) by (rewrite fact_up, F2; simpl; lra).
  assert (F4 : INR (fact 4) = 24) by (rewrite fact_up, F3; simpl; lra).
  assert (F5 : INR (fact 5) = 120) by (rewrite fact_up, F4; simpl; lra).
  assert (F6 : INR (fact 6) = 720) by (rewrite fact_up, F5; simpl; lra).
  assert (F7 : INR (fact 7) = 5040) by (rewrite fact_up, F6; simpl; lra).
  assert (F8 : INR (fact 8) = 40320) by (rewrite fact_up, F7; simpl; lra).
  assert (F9 : INR (fact 9) = 362880) by (rewrite fact_up, F8; simpl; lra).
  assert (F10 : INR (fact 10) = 3628800) by (rewrite fact_up, F9; simpl; lra).
  assert (F11 : INR (fact 11) = 39916800) by (rewrite fact_up, F10; simpl; lra).
  assert (F12 : INR (fact 12) = 479001600) by (rewrite fact_up, F11; simpl; lra).
  assert (F13 : INR (fact 13) = 6227020800) by (rewrite fact_up, F12; simpl; lra).
  tauto.
Qed.
Lemma signs : (-1)^0 = 1 /\ (-1)^1 = -1 /\ (-1)^2 = 1 /\ (-1)^3 = -1 /\ (-1)^4 = 1 /\ (-1)^5 = -1 /\ (-1)^6 = 1.
Proof. repeat split; simpl; lra. Qed.
Lemma sin_13 : forall x, 0 <= x <= 1 ->
  x - x^3/6 + x^5/120 - x^7/5040 + x^9/362880 - x^11/39916800 <= sin x <= x - x^3/6 + x^5/120 - x^7/5040 + x^9/362880 - x^11/39916800 + x^13/6227020800.
Proof.
  intros x H. pose proof (pre_sin_bound x 2 ltac:(lra) ltac:(lra)) as [A B]. unfold sin_approx in A, B.
  cbn [sum_f_R0 Nat.mul Nat.add] in A, B. unfold sin_term in A, B. cbn [Nat.mul Nat.add] in A, B.
  destruct facts as [F0 [F1 [F2 [F3 [F4 [F5 [F6 [F7 [F8 [F9 [F10 [F11 [F12 F13]]]]]]]]]]]]].
  rewrite ?F1, ?F3, ?F5, ?F7, ?F9, ?F11 in A, B. rewrite F13 in B. rewrite (proj1 signs), (proj1 (proj2 signs)), (proj1 (proj2 (proj2 signs))), (proj1 (proj2 (proj2 (proj2 signs)))), (proj1 (proj2 (proj2 (proj2 (proj2 signs))))), (proj1 (proj2 (proj2 (proj2 (proj2 (proj2 signs)))))) in A, B.
  rewrite (proj2 (proj2 (proj2 (proj2 (proj2 (proj2 signs)))))) in B. clear - A B. split; lra.
Qed.
Lemma cos_12 : forall x, 0 <= x <= 1 ->
  1 - x^2/2 + x^4/24 - x^6/720 + x^8/40320 - x^10/3628800 <= cos x <= 1 - x^2/2 + x^4/24 - x^6/720 + x^8/40320 - x^10/3628800 + x^12/479001600.
Proof.
  intros x H. pose proof (pre_cos_bound x 2 ltac:(lra) ltac:(lra)) as [A B]. unfold cos_approx in A, B.
  cbn [sum_f_R0 Nat.mul Nat.add] in A, B. unfold cos_term in A, B. cbn [Nat.mul Nat.add] in A, B.
  destruct facts as [F0 [F1 [F2 [F3 [F4 [F5 [F6 [F7 [F8 [F9 [F10 [F11 [F12 F13]]]]]]]]]]]]].
  rewrite ?F0, ?F2, ?F4, ?F6, ?F8, ?F10 in A, B. rewrite F12 in B. rewrite (proj1 signs), (proj1 (proj2 signs)), (proj1 (proj2 (proj2 signs))), (proj1 (proj2 (proj2 (proj2 signs)))), (proj1 (proj2 (proj2 (proj2 (proj2 signs))))), (proj1 (proj2 (proj2 (proj2 (proj2 (proj2 signs)))))) in A, B.
  rewrite (proj2 (proj2 (proj2 (proj2 (proj2 (proj2 signs)))))) in B. clear - A B. split; lra.
Qed.
Definition q8 : Q := 5030569068109113 # 36028797018963968.
Definition qpoly (l : list Q) (x : Q) : Q := fold_right (fun c a => Qplus c (Qmult x a)) 0%Q l.
Lemma q2r_poly : forall l x, Q2R (qpoly l x) = fold_right (fun c a => Q2R c + Q2R x * a) 0 l.
Proof. induction l as [|c l IH]; intros x; cbn [qpoly fold_right]. unfold Q2R; simpl; lra. rewrite Q2R_plus, Q2R_mult. fold (qpoly l x). rewrite IH. auto. Qed.
Lemma q8_val : Q2R q8 = EIGHT_DEG.
Proof. unfold Q2R, q8, EIGHT_DEG. cbn [Qnum Qden]. replace (2 ^ 55) with 36028797018963968 by (simpl; ring). reflexivity. Qed.
Lemma qlt : forall a b, (Qnum a * Z.pos (Qden b) <? Qnum b * Z.pos (Qden a))%Z = true -> Q2R a < Q2R b.
Proof. intros a b H. apply Qlt_Rlt. unfold Qlt. apply Z.ltb_lt; auto. Qed.
Definition sin_c : list Q := [0#1; 1#1; 0#1; -1#6; 0#1; 1#120; 0#1; -1#5040; 0#1; 1#362880; 0#1; -1#39916800]%Q.
Definition cos_c : list Q := [1#1; 0#1; -1#2; 0#1; 1#24; 0#1; -1#720; 0#1; 1#40320; 0#1; -1#3628800]%Q.
Lemma sin_c_val : forall l x, fold_right (fun c a => Q2R c + x * a) 0 (sin_c ++ l)
  = x - x^3/6 + x^5/120 - x^7/5040 + x^9/362880 - x^11/39916800 + x^12 * fold_right (fun c a => Q2R c + x * a) 0 l.
Proof. intros. unfold sin_c. cbn [app fold_right]. set (z := fold_right _ _ l). unfold Q2R. cbn [Qnum Qden]. field. Qed.
Lemma cos_c_val : forall l x, fold_right (fun c a => Q2R c + x * a) 0 (cos_c ++ l)
  = 1 - x^2/2 + x^4/24 - x^6/720 + x^8/40320 - x^10/3628800 + x^11 * fold_right (fun c a => Q2R c + x * a) 0 l.
Proof. intros. unfold cos_c. cbn [app fold_right]. set (z := fold_right _ _ l). unfold Q2R. cbn [Qnum Qden]. field. Qed.
Lemma sin8_bounds : Q2R (qpoly sin_c q8) <= sin EIGHT_DEG <= Q2R (qpoly (sin_c ++ [0#1; 1#6227020800]%Q) q8).
Proof.
  rewrite !q2r_poly, q8_val, sin_c_val. pose proof (sin_13 EIGHT_DEG) as [A B]. { unfold EIGHT_DEG. lra. }
  pose proof (sin_c_val [] EIGHT_DEG) as E. rewrite app_nil_r in E. rewrite E. cbn [fold_right] in *. set (x := EIGHT_DEG) in *.
  replace (Q2R (0#1)) with 0 by (unfold Q2R; simpl; lra). replace (Q2R (1#6227020800)) with (1/6227020800) by (unfold Q2R; cbn [Qnum Qden]; lra).
  clear E. split; lra.
Qed.
Lemma cos8_bounds : Q2R (qpoly cos_c q8) <= cos EIGHT_DEG <= Q2R (qpoly (cos_c ++ [0#1; 1#479001600]%Q) q8).
Proof.
  rewrite !q2r_poly, q8_val, cos_c_val. pose proof (cos_12 EIGHT_DEG) as [A B]. { unfold EIGHT_DEG. lra. }
  pose proof (cos_c_val [] EIGHT_DEG) as E. rewrite app_nil_r in E. rewrite E. cbn [fold_right] in *. set (x := EIGHT_DEG) in *.
  replace (Q2R (0#1)) with 0 by (unfold Q2R; simpl; lra). replace (Q2R (1#479001600)) with (1/479001600) by (unfold Q2R; cbn [Qnum Qden]; lra).
  clear E. split; lra.
Qed.
Lemma q_val : forall n d, Q2R (n # d) = IZR n / IZR (Z.pos d).
Proof. reflexivity. Qed.
Lemma sin8 : f64_round (sin EIGHT_DEG) = 5014239404989977 * powerRZ 2 (-55).
Proof.
  apply f64_round_at; try lia. rewrite p2_neg. change (IZR (2 ^ 55)) with 36028797018963968. destruct sin8_bounds as [A B].
  assert (L : Q2R (10028478809979953 # 72057594037927936) < Q2R (qpoly sin_c q8)) by (apply qlt; vm_compute; reflexivity).
  assert (U : Q2R (qpoly (sin_c ++ [0#1; 1#6227020800]%Q) q8) < Q2R (10028478809979955 # 72057594037927936)) by (apply qlt; vm_compute; reflexivity).
  rewrite q_val in L, U. set (a := Q2R (qpoly sin_c q8)) in *. set (b := Q2R (qpoly _ q8)) in *. clearbody a b. apply Rabs_def1; lra.
Qed.
Lemma cos8 : f64_round (cos EIGHT_DEG) = 8919541810762874 * powerRZ 2 (-53).
Proof.
  apply f64_round_at; try lia. rewrite p2_neg. change (IZR (2 ^ 53)) with 9007199254740992. destruct cos8_bounds as [A B].
  assert (L : Q2R (17839083621525747 # 18014398509481984) < Q2R (qpoly cos_c q8)) by (apply qlt; vm_compute; reflexivity).
  assert (U : Q2R (qpoly (cos_c ++ [0#1; 1#479001600]%Q) q8) < Q2R (17839083621525749 # 18014398509481984)) by (apply qlt; vm_compute; reflexivity).
  rewrite q_val in L, U. set (a := Q2R (qpoly cos_c q8)) in *. set (b := Q2R (qpoly _ q8)) in *. clearbody a b. apply Rabs_def1; lra.
Qed.
Lemma law8 : forall sn cs lon, sn EIGHT_DEG = f64_round (sin EIGHT_DEG) -> cs EIGHT_DEG = f64_round (cos EIGHT_DEG) -> cs 0 = 1 ->
  law_cos64 f64_round sn cs EIGHT_DEG lon EIGHT_DEG lon = 1 + 1/2^52.
Proof.
  intros sn cs lon HS HC H0. unfold law_cos64. rewrite HS, HC, sin8, cos8. replace (lon - lon) with 0 by ring.
  assert (F0 : f64_round 0 = 0) by (unfold f64_round; destruct (Req_EM_T 0 0); [auto|lra]). rewrite F0, H0.
  assert (E1 : f64_round (5014239404989977 * powerRZ 2 (-55) * (5014239404989977 * powerRZ 2 (-55))) = 5582777975588868 * powerRZ 2 (-58)).
  { apply f64_round_at; try lia. rewrite !p2_neg. change (IZR (2 ^ 55)) with 36028797018963968. change (IZR (2 ^ 58)) with 288230376151711744. apply Rabs_def1; lra. }
  assert (E2 : f64_round (8919541810762874 * powerRZ 2 (-53) * (8919541810762874 * powerRZ 2 (-53))) = 8832737443003841 * powerRZ 2 (-53)).
  { apply f64_round_at; try lia. rewrite !p2_neg. change (IZR (2 ^ 53)) with 9007199254740992. apply Rabs_def1; lra. }
  rewrite E1, E2, Rmult_1_r. rewrite (f64_round_at (8832737443003841 * powerRZ 2 (-53)) 8832737443003841 (-53)); try lia.
  2:{ rewrite Rminus_diag_eq, Rabs_R0 by auto. pose proof (p2_pos (-53)). lra. }
  rewrite (f64_round_at _ 4503599627370497 (-52)); try lia; rewrite !p2_neg.
  - change (IZR (2 ^ 52)) with 4503599627370496. lra.
  - change (IZR (2 ^ 52)) with 4503599627370496. change (IZR (2 ^ 53)) with 9007199254740992. change (IZR (2 ^ 58)) with 288230376151711744. apply Rabs_def1; lra.
Qed.
Lemma rounded_accurate : forall x y, Rabs x <= 1 -> y = f64_round x -> Rabs (y - x) <= 1/2^53 /\ -1 <= y <= 1.
Proof.
  intros x y H ->. split. 2:{ apply Rabs_le_between. apply rnd_unit; auto. }
  rewrite u53. destruct (Rle_lt_dec (powerRZ 2 (-1022)) (Rabs x)) as [K|K].
  - apply f64_round_err in K. unfold u64. lra.
  - pose proof (rnd_err x) as E. pose proof eta_small. pose proof eta_pos. pose proof u64_pos.
    assert (P : powerRZ 2 (-1022) <= 1/2). { eapply Rle_trans. apply (p2_le (-1022) (-1)). lia. simpl. lra. } nra.
Qed.
Lemma C128_happens_lemma :
  forall rnd sn cs, double_rounding rnd -> correctly_rounded rnd sn cs ->
  accurate sn cs
  /\ (forall lon, law_cos64 rnd sn cs EIGHT_DEG lon EIGHT_DEG lon = 1 + 1/2^52
        /\ get_angle_between64 rnd sn cs EIGHT_DEG lon EIGHT_DEG lon = NaN)
  /\ (forall s lon0 f, star_unified s -> 0 < st_radius s ->
        (forall h, In h (fcc_facs (st_facs s)) -> paintable h /\ (covers_some s h -> law_cos64 rnd sn cs EIGHT_DEG lon0 (fc_lat h) (fc_lon h) <> 0)) ->
        In f (fcc_facs (st_facs s)) -> covers_some s f -> fc_lat f = EIGHT_DEG -> fc_lon f = lon0 ->
        forall g orbit planet phase incl, calc_coverage64 rnd sn cs s EIGHT_DEG lon0 g orbit planet phase incl = Raise ValueError).
Proof.
  intros rnd sn cs D C. apply double_rounding_eq in D. subst rnd.
  assert (L : forall lon, law_cos64 f64_round sn cs EIGHT_DEG lon EIGHT_DEG lon = 1 + 1/2^52).
  { intros. apply law8; try apply C. destruct (C 0) as [_ ->]. rewrite cos_0. apply f64_round_id, f64_one. }
  assert (N : forall lon, get_angle_between64 f64_round sn cs EIGHT_DEG lon EIGHT_DEG lon = NaN).
  { intros. unfold get_angle_between64. rewrite L. unfold nacos. destruct (Rle_dec (-1) (1 + 1/2^52)); auto. destruct (Rle_dec (1 + 1/2^52) 1); auto. lra. }
  split; [|split; auto].
  - intros x. split; apply rounded_accurate; try apply C. apply rabs_sin. apply rabs_cos.
  - intros s lon0 f U HR HF I Cv E1 E2 g orbit planet phase incl.
    apply (proj1 (C128_crash_lemma f64_round sn cs s EIGHT_DEG lon0 U HR HF)). exists f. split; auto. split; auto. rewrite E1, E2. auto.
Qed.
