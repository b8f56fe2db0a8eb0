(** The far side of the star does not matter *)
From Coq Require Import Reals ZArith Bool List Lra Lia Sorting.Sorted.
From Verif Require Import Num Py MConfig MHelpers MGrid MSpots MFaculae MFlares MGranules MStar
  Spec SpecStar SpecDisk SpecFlux SpecSource SpecFar LBase LGrid LHelpers LSpotMap LSpotCov LFac LDisk LStar LStarFac LTransit LStarCov LCovered LFlux LConv LCap LZonal LSpotDisk LFacDisk LSym LDepth LSource.
Import ListNotations.
Open Scope R_scope.

Lemma temps_exist : forall s lat0 lon0 orbit planet phase incl T D A M C pf,
  disk_view s lat0 lon0 orbit planet phase incl T D A M C pf -> disk s lat0 lon0 A <> 0 -> exists ts, lists_temps s M T D ts.
Proof.
  intros s lat0 lon0 orbit planet phase incl T D A M C pf V NW.
  destruct (calc_coverage_eq _ _ _ _ _ _ _ _ _ _ _ _ _ 0 V NW) as [ul [SS [Ap _]]].
  destruct (in_dec Req_EM_T (T - D) ul) as [I|I].
  - exists ul. split. apply sorted_NoDup; auto. intros t. unfold listed. rewrite Ap. split; auto. intros [K|K]; auto. subst; auto.
  - exists (T - D :: ul). split. constructor; auto. apply sorted_NoDup; auto. intros t. unfold listed. rewrite Ap. simpl. split; intros [K|K]; auto.
Qed.
(** the entries of the report are numbers *)
Lemma entry_fin : forall label s lat0 lon0 orbit planet phase incl T D A M C pf f tot cov,
  two_decimals label ->
  disk_view s lat0 lon0 orbit planet phase incl T D A M C pf -> disk s lat0 lon0 A <> 0 ->
  distinct_labels label s M T D -> (appears (st_grid s) M T \/ D = 0) ->
  calc_coverage s lat0 lon0 (Fin f) orbit planet phase incl = Ok (tot, cov, pf) ->
  forall d t, d = tot \/ d = cov -> listed s M T D t -> dget tkey_eqb d (label t) = Some (Fin (entry d (label t))).
Proof.
  intros label s lat0 lon0 orbit planet phase incl T D A M C pf f tot cov TD V NW DL AP E d t Hd L.
  destruct (C53_label_lemma _ _ _ _ _ _ _ _ _ _ _ _ _ _ f TD V NW DL AP) as [tot0 [cov0 [tot1 [cov1 [E0 [E1 H]]]]]].
  assert (tot1 = tot) by congruence. assert (cov1 = cov) by congruence. subst tot1 cov1.
  destruct (C51_label_lemma _ _ _ _ _ _ _ _ _ _ _ _ _ _ TD V NW DL AP) as [t0 [c0 [E0' [K _]]]].
  assert (t0 = tot0) by congruence. assert (c0 = cov0) by congruence. subst t0 c0.
  assert (X : exists x, dget tkey_eqb d (label t) = Some (Fin x)).
  { assert (Y : exists d0, ((d0, d) = (tot0, tot) \/ (d0, d) = (cov0, cov)) /\ exists x, dget tkey_eqb d0 (label t) = Some (Fin x)).
    { destruct (K t L) as [K1 K2]. destruct Hd; subst d; [exists tot0|exists cov0]; split; eauto. }
    destruct Y as [d0 [Hd0 [x Y]]]. destruct (H d0 d Hd0) as [_ [_ [_ [N4 [N5 N6]]]]].
    destruct (Req_dec D 0) as [Z|Z]. { rewrite N6 by auto. eauto. }
    destruct (N5 Z) as [p [q [_ [_ [P1 P2]]]]].
    destruct (tkey_dec (label t) (label T)) as [->|N1]; eauto. destruct (tkey_dec (label t) (label (T - D))) as [->|N2]; eauto.
    rewrite N4 by auto. eauto. }
  destruct X as [x X]. unfold entry. rewrite X. auto.
Qed.
Lemma report_single : forall label ts d t, NoDup ts -> In t ts ->
  report_flux label (fun x => if Req_EM_T x t then 1 else 0) ts d = entry d (label t).
Proof.
  intros label ts d t N I. unfold report_flux. destruct (in_split _ _ I) as [l1 [l2 ->]]. rewrite map_app, rsum_app. cbn [map rsum fold_right].
  fold (rsum (map (fun t0 => (if Req_EM_T t0 t then 1 else 0) * entry d (label t0)) l2)).
  apply NoDup_remove_2 in N.
  rewrite !rsum_zero. destruct (Req_EM_T t t); [lra|congruence].
  - intros x J. destruct (Req_EM_T x t); [|ring]. subst. exfalso. apply N, in_or_app; auto.
  - intros x J. destruct (Req_EM_T x t); [|ring]. subst. exfalso. apply N, in_or_app; auto.
Qed.
Lemma report_none : forall label ts d t, ~ In t ts ->
  report_flux label (fun x => if Req_EM_T x t then 1 else 0) ts d = 0.
Proof.
  intros label ts d t N. unfold report_flux. apply rsum_zero. intros x J. destruct (Req_EM_T x t); [|ring]. subst; tauto.
Qed.

Lemma C106_lemma : forall label s s' lat0 lon0 orbit planet phase incl T D A A' M M' C C' pf pf' f,
  two_decimals label -> same_face s s' ->
  disk_view s lat0 lon0 orbit planet phase incl T D A M C pf ->
  disk_view s' lat0 lon0 orbit planet phase incl T D A' M' C' pf' ->
  disk s lat0 lon0 A <> 0 ->
  distinct_labels label s M T D -> distinct_labels label s' M' T D ->
  (appears (st_grid s) M T /\ appears (st_grid s) M' T \/ D = 0) ->
  same_front s lat0 lon0 M M' ->
  exists tot cov tot' cov',
    calc_coverage s lat0 lon0 (Fin f) orbit planet phase incl = Ok (tot, cov, pf)
    /\ calc_coverage s' lat0 lon0 (Fin f) orbit planet phase incl = Ok (tot', cov', pf)
    /\ same_table label (listed s M T D) (listed s' M' T D) tot tot'
    /\ same_table label (listed s M T D) (listed s' M' T D) cov cov'
    (* the same spectra *)
    /\ (forall F ts ts', lists_temps s M T D ts -> lists_temps s' M' T D ts' ->
          report_flux label F ts' tot' = report_flux label F ts tot
          /\ report_flux label F ts' cov' = report_flux label F ts cov).
Proof.
  intros label s s' lat0 lon0 orbit planet phase incl T D A A' M M' C C' pf pf' f TD SF V V' NW DL DL' AP SM.
  destruct SF as [S1 [S2 [S3 [S4 [S5 S6]]]]].
  assert (EA : A' = A). { destruct V as [_ _ _ _ _ _ K _ _ _], V' as [_ _ _ _ _ _ K' _ _ _]. rewrite S3 in K'. congruence. }
  assert (EC : C' = C /\ pf' = pf).
  { destruct V as [_ _ _ _ _ _ _ _ _ K1], V' as [_ _ _ _ _ _ _ _ _ K2]. assert (K : get_transit_mask s' lat0 lon0 orbit planet phase incl = get_transit_mask s lat0 lon0 orbit planet phase incl).
    { unfold get_transit_mask, get_pl_frac, planet_xy. rewrite S2, S3. reflexivity. }
    rewrite K, K1 in K2. injection K2; auto. }
  destruct EC as [-> ->]. subst A'.
  assert (WE : forall p, wgt s' lat0 lon0 p = wgt s lat0 lon0 p).
  { intros p. unfold wgt, ld_plot. rewrite S3, S5, S6. reflexivity. }
  assert (ED : disk s' lat0 lon0 A = disk s lat0 lon0 A).
  { unfold disk, seen, pix_mu. rewrite S3, S5, S6. auto. }
  assert (NW' : disk s' lat0 lon0 A <> 0) by (rewrite ED; auto).
  assert (AP1 : appears (st_grid s) M T \/ D = 0) by tauto. assert (AP2 : appears (st_grid s') M' T \/ D = 0) by (rewrite S3; tauto).
  destruct (source_form _ _ _ _ _ _ _ _ _ _ _ _ _ _ f TD V NW DL AP1) as [tm [cm [tot [cov [E [Hc [EW [EV [_ [_ EF]]]]]]]]]].
  destruct (source_form _ _ _ _ _ _ _ _ _ _ _ _ _ _ f TD V' NW' DL' AP2) as [tm' [cm' [tot' [cov' [E' [Hc' [EW' [EV' [_ [_ EF']]]]]]]]]].
  cbv zeta in *. rewrite S3 in *. set (pts := cells (grid_points (st_grid s))) in *.
  exists tot, cov, tot', cov'. split; auto. split; auto.
  assert (FX : forall F ts ts', lists_temps s M T D ts -> lists_temps s' M' T D ts' ->
          report_flux label F ts' tot' = report_flux label F ts tot
          /\ report_flux label F ts' cov' = report_flux label F ts cov).
  { intros F ts ts' L L'. destruct (EF F ts L) as [-> ->]. destruct (EF' F ts' L') as [-> ->]. rewrite ED.
    split; f_equal; apply rsum_map_ext; intros p I; rewrite WE; destruct (wgt_front s lat0 lon0 p I) as [Z|[j [i [-> [P Q]]]]]; try (rewrite Z; ring);
      destruct (EV j i P) as [_ [X1 [X2 _]]]; destruct (EV' j i P) as [_ [Y1 [Y2 _]]]; pose proof (SM j i P Q) as X; rewrite X1, Y1 in X; injection X as ->.
    - auto.
    - rewrite <- X2, <- Y2. auto. }
  destruct (temps_exist _ _ _ _ _ _ _ _ _ _ _ _ _ V NW) as [ts LT]. destruct (temps_exist _ _ _ _ _ _ _ _ _ _ _ _ _ V' NW') as [ts' LT'].
  pose proof (entry_fin _ _ _ _ _ _ _ _ _ _ _ _ _ _ f tot cov TD V NW DL AP1 E) as EN.
  assert (AP2' : appears (st_grid s') M' T \/ D = 0) by (rewrite S3; auto).
  pose proof (entry_fin _ _ _ _ _ _ _ _ _ _ _ _ _ _ f tot' cov' TD V' NW' DL' AP2' E') as EN'.
  destruct LT as [ND LT]. destruct LT' as [ND' LT'].
  assert (K3 : (forall t, listed s M T D t -> listed s' M' T D t ->
          dget tkey_eqb tot' (label t) = dget tkey_eqb tot (label t)
          /\ dget tkey_eqb cov' (label t) = dget tkey_eqb cov (label t))
    /\ (forall t, listed s' M' T D t -> ~ listed s M T D t ->
          dget tkey_eqb tot' (label t) = Some (Fin 0) /\ dget tkey_eqb cov' (label t) = Some (Fin 0))
    /\ (forall t, listed s M T D t -> ~ listed s' M' T D t ->
          dget tkey_eqb tot (label t) = Some (Fin 0) /\ dget tkey_eqb cov (label t) = Some (Fin 0))).
  2:{ destruct K3 as [K3 [K4 K5]]. split; [|split; auto]; (split; [|split]); intros; try apply K3; try apply K4; try apply K5; auto. }
  split; [|split].
  - intros t L L'. destruct (FX (fun x => if Req_EM_T x t then 1 else 0) ts ts') as [K1 K2]; try (split; assumption).
    apply LT in L. apply LT' in L'. rewrite !report_single in K1, K2 by auto. apply LT in L. apply LT' in L'.
    rewrite (EN tot t), (EN cov t), (EN' tot' t), (EN' cov' t) by auto. rewrite K1, K2. auto.
  - intros t L' L. destruct (FX (fun x => if Req_EM_T x t then 1 else 0) ts ts') as [K1 K2]; try (split; assumption).
    rewrite <- LT in L. apply LT' in L'. rewrite report_single, report_none in K1, K2 by auto. apply LT' in L'.
    rewrite (EN' tot' t), (EN' cov' t) by auto. rewrite K1, K2. auto.
  - intros t L L'. destruct (FX (fun x => if Req_EM_T x t then 1 else 0) ts ts') as [K1 K2]; try (split; assumption).
    rewrite <- LT' in L'. apply LT in L. rewrite report_none, report_single in K1, K2 by auto. apply LT in L.
    rewrite (EN tot t), (EN cov t) by auto. rewrite <- K1, <- K2. auto.
Qed.

(** ** painting on a map changes it independently of what is there *)
Definition over (X : R * R -> option num) (F : R * R -> num) (p : R * R) : num := match X p with Some v => v | None => F p end.
Lemma paint_over : forall s lat0 lon0 l, (forall f, In f l -> fc_grid f = st_grid s) -> forall F m,
  paint_faculae s lat0 lon0 (star_mu s lat0 lon0) (amap F (grid_points (st_grid s))) l = Ok m ->
  exists X, m = amap (over X F) (grid_points (st_grid s))
    /\ (forall F', paint_faculae s lat0 lon0 (star_mu s lat0 lon0) (amap F' (grid_points (st_grid s))) l = Ok (amap (over X F') (grid_points (st_grid s))))
    /\ (forall p, In p (cells (grid_points (st_grid s))) -> (forall f, In f l -> insidep s f p = false) -> X p = None).
Proof.
  induction l as [|f l IH]; intros HG F m H.
  - cbn [paint_faculae] in *. injection H as <-. exists (fun _ => None). split; auto.
  - cbn [paint_faculae] in H. apply bind_ok in H. destruct H as [m1 [H1 H]].
    assert (Y : exists X, m1 = amap (over X F) (grid_points (st_grid s))
      /\ (forall F', paint_facula s lat0 lon0 (star_mu s lat0 lon0) (amap F' (grid_points (st_grid s))) f = Ok (amap (over X F') (grid_points (st_grid s))))
      /\ (forall p, In p (cells (grid_points (st_grid s))) -> insidep s f p = false -> X p = None)).
    { assert (Gf : fc_grid f = st_grid s) by (apply HG; left; auto).
      rewrite paint_facula_eq in H1 by auto.
      destruct (negb (existsb (insidep s f) (cells (grid_points (st_grid s))))) eqn:N.
      - injection H1 as <-. exists (fun _ => None). split; auto. split; auto. intros F'. rewrite paint_facula_eq, N by auto. auto.
      - apply bind_ok in H1. destruct H1 as [fr [Q1 H1]]. destruct fr as [|[kw q] [|[kf q'] [|]]]; try discriminate.
        apply bind_ok in H1. destruct H1 as [b [Q2 H1]]. injection H1 as <-.
        exists (fun p => if insidep s f p then Some (if Rleb (mup lat0 lon0 p) b then fac_temp s kw else fac_temp s kf) else None).
        split; [|split].
        + apply amap_ext. intros p. unfold over. destruct (insidep s f p); auto.
        + intros F'. rewrite paint_facula_eq, N by auto. rewrite Q1. cbn [bind]. rewrite Q2. cbn [bind]. f_equal.
          apply amap_ext. intros p. unfold over. destruct (insidep s f p); auto.
        + intros p _ ->. auto. }
    destruct Y as [X1 [-> [Y1 Y2]]]. destruct (IH (fun f' I => HG f' (or_intror I)) _ _ H) as [X2 [-> [Z1 Z2]]].
    exists (fun p => match X2 p with Some v => Some v | None => X1 p end). split; [|split].
    + apply amap_ext. intros p. unfold over. destruct (X2 p); auto.
    + intros F'. cbn [paint_faculae]. rewrite Y1. cbn [bind]. rewrite Z1. f_equal. apply amap_ext. intros p. unfold over. destruct (X2 p); auto.
    + intros p I N. rewrite Z2; auto. apply Y2; auto. apply N; left; auto. intros f' J. apply N; right; auto.
Qed.
Lemma hidden_sep : forall lat0 lon0 la lo a la' lo', is_angle lat0 lon0 la lo a -> 0 < law_cos lat0 lon0 la' lo' ->
  a - PI/2 < acos (law_cos la lo la' lo').
Proof.
  intros lat0 lon0 la lo a la' lo' HA HM.
  pose proof (tri lat0 lon0 la lo la' lo') as Tr. unfold mu in Tr.
  assert (acos (law_cos lat0 lon0 la lo) = a).
  { eapply is_angle_unique; [|exact HA]. split. apply acos_bound. rewrite cos_acos by apply law_cos_bound. apply law_cos_dot. }
  assert (acos (law_cos lat0 lon0 la' lo') < PI/2).
  { pose proof (law_cos_bound lat0 lon0 la' lo') as B. rewrite <- acos_0. apply acos_lt; lra. }
  lra.
Qed.
Lemma pv_hidden : forall Rs lat0 lon0 x p m, spot_hidden Rs lat0 lon0 x -> 0 < law_cos lat0 lon0 (fst p) (snd p) -> pv Rs p m x = m.
Proof.
  intros Rs lat0 lon0 x p m [th [q [a [H1 [H2 [H3 [H4 H5]]]]]]] HM.
  pose proof (hidden_sep _ _ _ _ _ _ _ H4 HM) as K. fold (sep x p) in K.
  assert (S0 : 0 <= sep x p) by (unfold sep; apply acos_bound).
  assert (Q : 1 <= sqrt q) by (rewrite <- sqrt_1; apply sqrt_le_1; lra).
  assert (B : th / sqrt q <= Rmax 0 th).
  { apply Rmult_le_reg_r with (sqrt q). lra. unfold Rdiv. rewrite Rmult_assoc, Rinv_l, Rmult_1_r by lra.
    unfold Rmax. destruct (Rle_dec 0 th). nra. lra. }
  assert (P : pen_b x Rs (Fin (sep x p)) = false). { unfold pen_b. rewrite H1. cbn [nlt]. apply Rltb_false. lra. }
  assert (U : umb_b x Rs (Fin (sep x p)) = false).
  { unfold umb_b. destruct (teff_key_eqb _ _); auto. rewrite H1, H2, nsqrt_fin, ndiv_fin by lra. cbn [nlt]. apply Rltb_false.
    unfold Rmax in B. destruct (Rle_dec 0 th); lra. }
  unfold pv. rewrite U, P. auto.
Qed.
Lemma insidep_hidden : forall s lat0 lon0 f p, 0 < st_radius s -> fac_hidden (st_radius s) lat0 lon0 f -> 0 < law_cos lat0 lon0 (fst p) (snd p) ->
  insidep s f p = false.
Proof.
  intros s lat0 lon0 f p HR [r [a [H1 [H2 H3]]]] HM. pose proof (hidden_sep _ _ _ _ _ _ _ H2 HM) as K.
  unfold insidep, fac_angular_radius. rewrite H1. assert (RK : 0 < st_radius s * RSUN_KM) by (unfold RSUN_KM; lra).
  pose proof PI_RGT_0. rewrite !ndiv_fin, !nmul_fin, !ndiv_fin, !nmul_fin by lra. cbn [nle].
  replace (r / (st_radius s * RSUN_KM) * 180 / PI * (PI / 180)) with (r / (st_radius s * SUN_KM)) by (unfold SUN_KM, RSUN_KM; field; lra).
  rdec; lra.
Qed.
Lemma fold_hidden : forall Rs lat0 lon0 p l m, (forall x, In x l -> spot_hidden Rs lat0 lon0 x) -> 0 < law_cos lat0 lon0 (fst p) (snd p) ->
  fold_left (pv Rs p) l m = m.
Proof.
  induction l as [|x l IH]; intros m H K; auto. cbn [fold_left]. rewrite (pv_hidden Rs lat0 lon0); auto. apply IH; auto. intros; apply H; right; auto. apply H; left; auto.
Qed.
Lemma C106_front_lemma : forall s sl fl s' lat0 lon0 M M',
  star_unified s -> 0 < st_radius s ->
  star_add_fac (star_add_spot s sl) fl = Ok s' -> star_unified s' ->
  (forall x, In x sl -> spot_hidden (st_radius s) lat0 lon0 x) ->
  (forall f, In f fl -> fac_hidden (st_radius s) lat0 lon0 f) ->
  add_faculae_to_map s lat0 lon0 = Ok M -> add_faculae_to_map s' lat0 lon0 = Ok M' ->
  same_face s s' /\ same_front s lat0 lon0 M M'.
Proof.
  intros s sl fl s' lat0 lon0 M M' U HR E U' HS HF HM HM'.
  unfold star_add_fac in E. apply bind_ok in E. destruct E as [c [E0 E]]. injection E as <-.
  unfold fcc_add in E0. apply bind_ok in E0. destruct E0 as [fl2 [E1 E0]]. injection E0 as <-.
  split. { repeat split. }
  assert (HF2 : forall f, In f fl2 -> fac_hidden (st_radius s) lat0 lon0 f).
  { apply mapM_inv in E1. clear - E1 HF. induction E1 as [|x y l l' H HH IH]; intros f I. destruct I.
    destruct I as [<-|I]; [|apply IH; auto; intros; apply HF; right; auto].
    apply bind_ok in H. destruct H as [b [_ H]]. injection H as <-. pose proof (HF x (or_introl eq_refl)) as K. destruct b; auto. }
  assert (HM0 := HM). assert (HM0' := HM').
  unfold add_faculae_to_map in HM, HM'. rewrite star_map_eq in HM, HM' by auto. cbn [bind] in HM, HM'.
  set (s' := star_with_facs _ _) in *. change (st_grid s') with (st_grid s) in HM'.
  change (star_mu s' lat0 lon0) with (star_mu s lat0 lon0) in HM'. change (st_radius s') with (st_radius s) in HM'. change (st_teff s') with (st_teff s) in HM'.
  change (sc_spots (st_spots s')) with (sc_spots (st_spots s) ++ map (fun x => spot_assign_gridmaker x (sc_grid (st_spots s))) sl) in HM'.
  change (fcc_facs (st_facs s')) with (fcc_facs (st_facs s) ++ fl2) in HM'.
  assert (G2 : forall f, In f fl2 -> fc_grid f = st_grid s).
  { destruct U' as [_ [_ [_ [K _]]]]. intros f I. apply (K f). change (In f (fcc_facs (st_facs s) ++ fl2)). apply in_or_app; auto. }
  assert (PE : forall mu m l, paint_faculae s' lat0 lon0 mu m l = paint_faculae s lat0 lon0 mu m l).
  { intros mu m l. revert m. induction l as [|f l IH]; intros m; cbn [paint_faculae]; auto.
    change (paint_facula s' lat0 lon0 mu m f) with (paint_facula s lat0 lon0 mu m f). destruct (paint_facula s lat0 lon0 mu m f); cbn [bind]; auto. }
  rewrite PE, paint_faculae_app in HM'. apply bind_ok in HM'. destruct HM' as [m1 [P1 P2]].
  destruct U as [_ [_ [_ [G1 _]]]].
  destruct (paint_over _ _ _ _ G1 _ _ HM) as [X1 [-> [Y1 _]]]. rewrite Y1 in P1. injection P1 as <-.
  destruct (paint_over _ _ _ _ G2 _ _ P2) as [X2 [-> [_ Z2]]].
  intros j i P Q. rewrite !acell_grid by auto. change (acell (grid_points (st_grid s)) j i (0, 0)) with (pt (st_grid s) (j, i)).
  rewrite pix_mu_pt in Q. unfold over at 1. rewrite Z2.
  - unfold over. destruct (X1 _); auto. rewrite fold_left_app. apply (fold_hidden _ lat0 lon0); auto.
    intros x I. apply in_map_iff in I. destruct I as [y [<- I]]. apply (HS y I).
  - apply pt_In; auto.
  - intros f I. apply (insidep_hidden s lat0 lon0); auto.
Qed.
Lemma C106_far_lemma : forall label s sl fl s' lat0 lon0 orbit planet phase incl T D A A' M M' C C' pf pf' f,
  two_decimals label ->
  star_add_fac (star_add_spot s sl) fl = Ok s' ->
  (forall x, In x sl -> spot_hidden (st_radius s) lat0 lon0 x) ->
  (forall g, In g fl -> fac_hidden (st_radius s) lat0 lon0 g) ->
  disk_view s lat0 lon0 orbit planet phase incl T D A M C pf ->
  disk_view s' lat0 lon0 orbit planet phase incl T D A' M' C' pf' ->
  disk s lat0 lon0 A <> 0 ->
  distinct_labels label s M T D -> distinct_labels label s' M' T D ->
  (appears (st_grid s) M T /\ appears (st_grid s) M' T \/ D = 0) ->
  exists tot cov tot' cov',
    calc_coverage s lat0 lon0 (Fin f) orbit planet phase incl = Ok (tot, cov, pf)
    /\ calc_coverage s' lat0 lon0 (Fin f) orbit planet phase incl = Ok (tot', cov', pf)
    /\ same_table label (listed s M T D) (listed s' M' T D) tot tot'
    /\ same_table label (listed s M T D) (listed s' M' T D) cov cov'
    /\ (forall F ts ts', lists_temps s M T D ts -> lists_temps s' M' T D ts' ->
          report_flux label F ts' tot' = report_flux label F ts tot
          /\ report_flux label F ts' cov' = report_flux label F ts cov).
Proof.
  intros label s sl fl s' lat0 lon0 orbit planet phase incl T D A A' M M' C C' pf pf' f TD E HS HF V V' NW DL DL' AP.
  destruct (C106_front_lemma s sl fl s' lat0 lon0 M M') as [SF SM]; auto; try apply V; try apply V'.
  eapply C106_lemma; eauto.
Qed.
