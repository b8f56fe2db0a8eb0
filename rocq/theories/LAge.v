(** A spotted star while its spots grow and decay *)
From Coq Require Import Reals ZArith Bool List Lra Lia Permutation Sorted.
From Verif Require Import Num Py MConfig MHelpers MGrid MSpots MFaculae MFlares MGranules MStar
  Spec SpecStar SpecDisk SpecFlux SpecAge LBase LGrid LHelpers LSpotAge LSpotMap LSpotCov LFac LDisk LStar LStarFac LTransit LStarCov LCovered LFlux.
Import ListNotations.
Open Scope R_scope.

(** ** Two maps of the same star *)
Lemma darker_maps : forall s l lat0 lon0 T D A C M M' tm tm' cm,
  good_grid (st_grid s) -> - PI/2 <= lat0 <= PI/2 -> grid_area (st_grid s) = Ok A ->
  M = amap (fun p => Fin (tm p)) (grid_points (st_grid s)) -> M' = amap (fun p => Fin (tm' p)) (grid_points (st_grid s)) ->
  (forall p, tm' p <= tm p <= T /\ (tm' p = tm p \/ exists x, In x l /\ (sp_teff_umbra x = Fin (tm' p) \/ sp_teff_pen x = Fin (tm' p)))) ->
  (forall j i, pixel (st_grid s) j i -> cell_val C j i = cm (pt (st_grid s) (j, i))) ->
  (forall p, In p (cells (grid_points (st_grid s))) -> 0 <= cm p <= 1) ->
  darker s lat0 lon0 T D A C M M' l.
Proof.
  intros s l lat0 lon0 T D A C M M' tm tm' cm Vg HL HA EM EM' HP EV Hc.
  assert (EA : A = amap (fun p => Fin (rarea_at (st_grid s) p)) (grid_points (st_grid s))).
  { rewrite grid_area_good in HA by auto. congruence. }
  assert (WN : ld_nonneg s -> forall p, In p (cells (grid_points (st_grid s))) -> 0 <= wgt s lat0 lon0 p) by (intros; apply wgt_nonneg; auto).
  assert (PF : forall F f N tmn, N = amap (fun p => Fin (tmn p)) (grid_points (st_grid s)) -> forall j i, pixel (st_grid s) j i ->
    pix_flux F T D f N j i = (fun t => if Req_EM_T t T then (1 - f) * F T + f * F (T - D) else F t) (tmn (pt (st_grid s) (j, i)))).
  { intros F f N tmn -> j i P. unfold pix_flux, cell_val. rewrite acell_grid by auto. reflexivity. }
  assert (FL : forall F f c cp, ld_nonneg s -> 0 < disk s lat0 lon0 A -> (forall t t', t <= t' -> F t <= F t') ->
        f = 0 \/ (0 <= f <= 1 /\ 0 <= D /\ forall x t, In x l -> sp_teff_umbra x = Fin t \/ sp_teff_pen x = Fin t -> t <= T - D) ->
        (forall j i, pixel (st_grid s) j i -> c j i = cp (pt (st_grid s) (j, i))) -> (forall p, In p (cells (grid_points (st_grid s))) -> 0 <= cp p) ->
        disk_flux s lat0 lon0 A M' F T D f c <= disk_flux s lat0 lon0 A M F T D f c).
  { intros F f c cp LD DP HF HD Ec Hcp. unfold disk_flux. apply Rmult_le_compat_r. left; apply Rinv_0_lt_compat; auto.
    rewrite !(grid_sum_pt _ (fun p => wgt s lat0 lon0 p * cp p * (fun t => if Req_EM_T t T then (1 - f) * F T + f * F (T - D) else F t) (tm' p)) (fun j i => _ * pix_flux F T D f M' j i)).
    2:{ intros j i P. rewrite EA, seen_pt by auto. rewrite Ec, (PF F f M' tm') by auto. auto. }
    rewrite !(grid_sum_pt _ (fun p => wgt s lat0 lon0 p * cp p * (fun t => if Req_EM_T t T then (1 - f) * F T + f * F (T - D) else F t) (tm p)) (fun j i => _ * pix_flux F T D f M j i)).
    2:{ intros j i P. rewrite EA, seen_pt by auto. rewrite Ec, (PF F f M tm) by auto. auto. }
    apply rsum_map_le. intros p I. apply Rmult_le_compat_l. apply Rmult_le_pos; auto.
    destruct (HP p) as [[L1 L2] O]. cbv beta. destruct O as [->|[x [Ix K]]]. lra.
    destruct (Req_EM_T (tm' p) T) as [E1|E1], (Req_EM_T (tm p) T) as [E2|E2]; try lra.
    - destruct HD as [->|[Hf [HD HL']]].
      + pose proof (HF (tm' p) T ltac:(lra)). lra.
      + pose proof (HF (tm' p) (T - D) (HL' x _ Ix K)). pose proof (HF (T - D) T ltac:(lra)). nra.
    - apply HF; auto. }
  constructor.
  - intros j i P. exists (tm (pt (st_grid s) (j, i))), (tm' (pt (st_grid s) (j, i))). rewrite EM, EM', !acell_grid by auto. split; auto. split; auto. apply HP.
  - intros F f LD DP HF HD. split.
    + apply (FL F f _ (fun _ => 1)); auto. intros; lra.
    + apply (FL F f _ (fun p => 1 - cm p)); auto. intros j i P. rewrite EV; auto. intros p I. pose proof (Hc p I). lra.
  - intros LD DP. unfold share. apply Rmult_le_compat_r. left; apply Rinv_0_lt_compat; auto.
    rewrite (grid_sum_pt _ (fun p => if Req_EM_T (tm' p) T then wgt s lat0 lon0 p else 0) (fun j i => match acell M' j i NaN with Fin _ => _ | _ => _ end)).
    2:{ intros j i P. rewrite EA, seen_pt by auto. rewrite EM', acell_grid by auto. change (acell (grid_points (st_grid s)) j i (0, 0)) with (pt (st_grid s) (j, i)). destruct (Req_EM_T _ T); ring. }
    rewrite (grid_sum_pt _ (fun p => if Req_EM_T (tm p) T then wgt s lat0 lon0 p else 0) (fun j i => match acell M j i NaN with Fin _ => _ | _ => _ end)).
    2:{ intros j i P. rewrite EA, seen_pt by auto. rewrite EM, acell_grid by auto. change (acell (grid_points (st_grid s)) j i (0, 0)) with (pt (st_grid s) (j, i)). destruct (Req_EM_T _ T); ring. }
    apply rsum_map_le. intros p I. destruct (HP p) as [[L1 L2] _]. pose proof (WN LD p I). destruct (Req_EM_T (tm' p) T), (Req_EM_T (tm p) T); lra.
Qed.

(** ** Smaller spots mark fewer pixels *)
Definition shrunk (Rs : R) (x x' : spot) : Prop :=
  exists a a' b, x' = spot_with_area x (Fin a') b /\ sp_area x = Fin a /\ 0 <= a' <= a /\ a * MSH_RSUN2 <= 4 * PI * Rs^2.
Lemma shrunk_marks : forall Rs x x' p t, 0 < Rs -> cool_core x -> shrunk Rs x x' -> marksp Rs p x' t -> marksp Rs p x t.
Proof.
  intros Rs x x' p t HR [u [q [r [Eu [Eq [Lu [Er Hr]]]]]]] [a [a' [b [-> [Ea [[A1 A2] A3]]]]]] H.
  pose proof msh_pos as MP. pose proof (two_pi_R2 Rs HR) as TP.
  assert (B : 0 <= a' * MSH_RSUN2 <= 4 * PI * Rs^2) by (split; [apply Rmult_le_pos; lra|apply Rle_trans with (a * MSH_RSUN2); auto; apply Rmult_le_compat_r; lra]).
  destruct (ang_rad_fin (spot_with_area x (Fin a') b) Rs a' eq_refl HR B) as [E' B'].
  destruct (ang_rad_fin x Rs a Ea HR) as [E B2]. split; auto. apply Rmult_le_pos; lra.
  set (th' := acos (1 - a' * MSH_RSUN2 / (2 * PI * Rs^2))) in *. set (th := acos (1 - a * MSH_RSUN2 / (2 * PI * Rs^2))) in *.
  assert (TH : th' <= th).
  { destruct (Req_dec a a') as [<-|N]. unfold th, th'. lra. left. apply acos_lt; try lra.
    assert (a' * MSH_RSUN2 / (2 * PI * Rs^2) < a * MSH_RSUN2 / (2 * PI * Rs^2)); [|lra].
    apply Rmult_lt_compat_r. apply Rinv_0_lt_compat; auto. apply Rmult_lt_compat_r; lra. }
  assert (SQ : 0 < sqrt r) by (apply sqrt_lt_R0; auto).
  unfold marksp in *. cbn [sp_teff_pen sp_teff_umbra spot_with_area] in H.
  change (sep (spot_with_area x (Fin a') b) p) with (sep x p) in H.
  assert (P : pen_b (spot_with_area x (Fin a') b) Rs (Fin (sep x p)) = true -> pen_b x Rs (Fin (sep x p)) = true).
  { unfold pen_b. rewrite E, E'. cbn [nlt]. rewrite !Rltb_true. lra. }
  destruct H as [[-> H]|[-> H]]. left; auto. right. split; auto.
  revert H. unfold umb_b. cbn [sp_teff_pen sp_teff_umbra sp_ratio spot_with_area]. destruct (teff_key_eqb _ _). exact P.
  rewrite E, E', Er, nsqrt_fin by lra. rewrite !ndiv_fin by lra. cbn [nlt]. rewrite !Rltb_true. intros H.
  apply Rlt_le_trans with (1 := H). apply Rmult_le_compat_r; auto. left; apply Rinv_0_lt_compat; auto.
Qed.
Lemma shrunk_temps : forall Rs x x', shrunk Rs x x' -> sp_teff_umbra x' = sp_teff_umbra x /\ sp_teff_pen x' = sp_teff_pen x.
Proof. intros Rs x x' [a [a' [b [-> _]]]]. auto. Qed.
Lemma cool_core_le : forall x, cool_core x -> sp_teff_umbra x <> NaN /\ sp_teff_pen x <> NaN /\ nle (sp_teff_umbra x) (sp_teff_pen x) = true.
Proof.
  intros x [u [q [r [Eu [Eq [L _]]]]]]. rewrite Eu, Eq. split. discriminate. split. discriminate. apply Rleb_true; auto.
Qed.
(** the darker pixel of two lists of spots *)
Lemma shrunk_pixel : forall Rs T l l', 0 < Rs -> (forall x, In x l -> cool_core x) -> (forall x, In x l' -> cool_core x) ->
  (forall x', In x' l' -> exists x, In x l /\ shrunk Rs x x') ->
  forall p, exists v v', fold_left (pv Rs p) l (Fin T) = Fin v /\ fold_left (pv Rs p) l' (Fin T) = Fin v' /\ v <= v' <= T
    /\ (v = v' \/ exists x, In x l /\ (sp_teff_umbra x = Fin v \/ sp_teff_pen x = Fin v)).
Proof.
  intros Rs T l l' HR HL HL' HS p.
  assert (FT : forall k, (forall x, In x k -> cool_core x) -> forall x, In x k -> fin_temps x).
  { intros k Hk x I. destruct (Hk x I) as [u [q [r [Eu [Eq _]]]]]. split; [rewrite Eu|rewrite Eq]; eexists; reflexivity. }
  destruct (fold_pv_fin_le Rs p l T (FT l HL)) as [v [E [Lv O]]]. destruct (fold_pv_fin_le Rs p l' T (FT l' HL')) as [v' [E' [Lv' _]]].
  exists v, v'. split; auto. split; auto.
  assert (TN : Fin T <> NaN) by discriminate.
  destruct (fold_pv_general Rs p l' (Fin T) TN) as [_ [_ D]]. { intros x I. destruct (cool_core_le x (HL' x I)) as [U1 [U2 _]]; auto. }
  assert (LE : v <= v').
  { rewrite E' in D. destruct D as [D|[x' [I D]]]. injection D as ->; auto. destruct (HS x' I) as [x [Ix SX]].
    apply (shrunk_marks Rs x x' p) in D; auto. pose proof (fold_pv_min Rs p l (Fin T) TN (fun y Iy => cool_core_le y (HL y Iy)) x (Fin v') Ix D) as K.
    rewrite E in K. apply Rleb_true in K. auto. }
  split. lra. destruct (Req_dec v v') as [->|N]; auto. right. destruct O as [->|O]; auto. lra.
Qed.
Lemma shrunk_covsum : forall g Rs l l', good_grid g -> 0 < Rs -> (forall x, In x l -> cool_core x) ->
  (forall x', In x' l' -> exists x, In x l /\ shrunk Rs x x') -> covsum g Rs l' <= covsum g Rs l.
Proof.
  intros g Rs l l' G HR HL HS. unfold covsum. apply rsum_map_le. intros p I. pose proof (rarea_nonneg g p G I).
  destruct (covb Rs l' p) eqn:E'. 2:{ destruct (covb Rs l p); lra. }
  replace (covb Rs l p) with true. lra. symmetry. unfold covb in *. apply existsb_exists in E'. destruct E' as [x' [I' E']].
  destruct (HS x' I') as [x [Ix SX]]. apply existsb_exists. exists x. split; auto. apply orb_true_iff in E'. apply orb_true_iff.
  assert (K : forall t, marksp Rs p x t -> pen_b x Rs (Fin (sep x p)) = true \/ umb_b x Rs (Fin (sep x p)) = true) by (intros t [[_ K]|[_ K]]; auto).
  destruct E' as [E'|E'].
  - apply (K (sp_teff_pen x')), (shrunk_marks Rs x x' p); auto. left; auto.
  - apply (K (sp_teff_umbra x')), (shrunk_marks Rs x x' p); auto. right; auto.
Qed.

(** ** Ageing *)
Lemma decay_shrinks : forall Rs x t, spot_wf x -> fits_star Rs x -> sp_growing x = false -> 0 <= t -> spot_dead (agef x t) = false -> shrunk Rs x (agef x t).
Proof.
  intros Rs x t [A [M [g [W [P [HA [Hg HW]]]]]]] [m [Em Hm]] G Ht. pose proof P as [P1 [P2 _]].
  assert (E : 2 * PI / 1000000 = MSH_RSUN2) by (unfold MSH_RSUN2; field). rewrite E in Hm. rewrite P2 in Em. injection Em as <-.
  unfold agef. rewrite (spot_age_decay x A M g W t) by auto. destruct (Rlt_dec M (t * W)); intros D; apply with_area_alive_false in D. lra.
  exists A, (A - t * W), false. split; auto. split; auto. pose proof (Rmult_le_pos t W Ht HW). split. lra.
  apply Rle_trans with (2 := Hm). apply Rmult_le_compat_r. pose proof msh_pos; lra. lra.
Qed.
Lemma growth_shrinks : forall Rs x t, spot_wf x -> fits_star Rs x -> still_growing t x -> 0 <= t ->
  spot_dead (agef x t) = false /\ shrunk Rs (agef x t) x.
Proof.
  intros Rs x t [A [M [g [W [P [HA [Hg HW]]]]]]] [m [Em Hm]] [G SG] Ht. pose proof P as [P1 [P2 [P3 _]]]. specialize (SG A M g P1 P2 P3).
  assert (E : 2 * PI / 1000000 = MSH_RSUN2) by (unfold MSH_RSUN2; field). rewrite E in Hm. rewrite P2 in Em. injection Em as <-.
  pose proof msh_pos as MP.
  assert (BACK : forall a b, x = spot_with_area (spot_with_area x a b) (sp_area x) (sp_growing x)) by (intros; destruct x; reflexivity).
  assert (FIT : forall a, a <= M -> a * MSH_RSUN2 <= 4 * PI * Rs^2) by (intros a Ha; apply Rle_trans with (2 := Hm); apply Rmult_le_compat_r; lra).
  unfold agef. destruct (Req_dec g 0) as [->|Ng].
  - rewrite (spot_age_static x A M W t) by auto. split. apply with_area_growing. exists A, A, true. split. rewrite <- G, <- P1. apply BACK.
    split; auto. split. lra. apply FIT; lra.
  - assert (g0 : 0 < g) by lra. specialize (SG g0). rewrite (spot_age_growing x A M g W t) by auto.
    pose proof (ln1p_pos g g0) as LP. pose proof (ttm_max A M g HA g0) as TM.
    destruct (Rlt_dec t (time_to_max A M g)) as [L|L].
    + split. apply with_area_growing. exists (A * exp (ln (1 + g) * t)), A, true. split. rewrite <- G, <- P1. apply BACK. split; auto.
      assert (0 <= ln (1 + g) * t) by (apply Rmult_le_pos; lra). assert (1 <= exp (ln (1 + g) * t)).
      { destruct (Req_dec (ln (1 + g) * t) 0) as [->|N]. rewrite exp_0; lra. left. apply Rle_lt_trans with (exp 0). rewrite exp_0; lra. apply exp_increasing. lra. }
      split. split. lra. rewrite <- (Rmult_1_r A) at 1. apply Rmult_le_compat_l; lra.
      apply FIT. rewrite <- TM. apply Rmult_le_compat_l. lra. left. apply exp_increasing. apply Rmult_lt_compat_l; auto.
    + replace (t - time_to_max A M g) with 0 by lra. rewrite Rmult_0_l. destruct (Rlt_dec M 0); [lra|].
      rewrite Rminus_0_r. split. apply with_area_alive_false; lra. exists M, A, true. split. rewrite <- G, <- P1. apply BACK. split; auto. split. lra. apply FIT; lra.
Qed.
Lemma cool_core_age : forall x t, cool_core x -> spot_wf x -> cool_core (agef x t).
Proof.
  intros x t HC [A [M [g [W [P [HA [Hg HW]]]]]]]. unfold agef. destruct (sp_growing x) eqn:G.
  - destruct (Req_dec g 0) as [->|]. rewrite (spot_age_static x A M W t) by auto. exact HC.
    rewrite (spot_age_growing x A M g W t) by (auto; lra). repeat destruct (Rlt_dec _ _); exact HC.
  - rewrite (spot_age_decay x A M g W t) by auto. destruct (Rlt_dec _ _); exact HC.
Qed.
Lemma C94_lemma :
  forall s t s' lat0 lon0 orbit planet phase incl T D A M M' C C' pf pf',
  disk_view s lat0 lon0 orbit planet phase incl T D A M C pf ->
  star_age s (Fin t) = Ok s' -> 0 <= t ->
  disk_view s' lat0 lon0 orbit planet phase incl T D A M' C' pf' ->
  fcc_facs (st_facs s) = [] ->
  (forall x, In x (sc_spots (st_spots s)) -> spot_wf x /\ cool_core x /\ fits_star (st_radius s) x) ->
  (* decaying spots: the star gets brighter, and less of it is covered *)
  ((forall x, In x (sc_spots (st_spots s)) -> sp_growing x = false) ->
     darker s lat0 lon0 T D A C M' M (sc_spots (st_spots s))
     /\ exists v v', sc_get_coverage (st_spots s) (st_radius s) = Ok (Fin v) /\ sc_get_coverage (st_spots s') (st_radius s') = Ok (Fin v') /\ v' <= v)
  (* growing spots: the star gets darker, and more of it is covered *)
  /\ ((forall x, In x (sc_spots (st_spots s)) -> still_growing t x) ->
     darker s lat0 lon0 T D A C M M' (sc_spots (st_spots s))
     /\ exists v v', sc_get_coverage (st_spots s) (st_radius s) = Ok (Fin v) /\ sc_get_coverage (st_spots s') (st_radius s') = Ok (Fin v') /\ v <= v')
  (* the planet hides the same part of each pixel *)
  /\ C' = C /\ pf' = pf.
Proof.
  intros s t s' lat0 lon0 orbit planet phase incl T D A M M' C C' pf pf' V HA Ht V' NF HS.
  assert (WF : forall x, In x (sc_spots (st_spots s)) -> spot_wf x) by (intros; apply HS; auto).
  unfold star_age in HA. destruct (st_spots s) as [l g] eqn:ES. rewrite sc_age_eq in HA by auto. cbn [bind] in HA. injection HA as <-.
  cbn [sc_spots] in *.
  assert (HR : 0 < st_radius s) by apply V. assert (HT : st_teff s = Fin T) by apply V.
  assert (G : good_grid (st_grid s)) by apply V.
  assert (HL : - PI/2 <= lat0 <= PI/2) by apply V. assert (HAr : grid_area (st_grid s) = Ok A) by apply V.
  set (s' := star_with_facs _ _) in *.
  assert (EM : M = amap (fun p => fold_left (pv (st_radius s) p) l (Fin T)) (grid_points (st_grid s))).
  { pose proof (no_facs_map s lat0 lon0 M ltac:(apply V) NF ltac:(apply V)) as K. rewrite ES, HT in K. exact K. }
  assert (EM' : M' = amap (fun p => fold_left (pv (st_radius s) p) (aged_list l t) (Fin T)) (grid_points (st_grid s))).
  { pose proof (no_facs_map s' lat0 lon0 M' ltac:(apply V')) as K. rewrite <- HT. apply K. 2: apply V'. unfold s'. cbn [st_facs star_with_facs]. unfold fcc_age, fcc_clean. cbn [fcc_facs]. rewrite NF. reflexivity. }
  destruct (view_form _ _ _ _ _ _ _ _ _ _ _ _ _ V) as [_ [cm [_ [_ [EC [Hc [_ [_ [_ [_ EV]]]]]]]]]].
  assert (U : sc_grid (st_spots s) = st_grid s /\ forall x, In x l -> spot_on (st_grid s) x).
  { pose proof (dv_unified _ _ _ _ _ _ _ _ _ _ _ _ _ V) as U. unfold star_unified in U. rewrite ES in *. cbn [sc_spots sc_grid] in U. intuition. }
  destruct U as [U1 U2]. rewrite ES in U1. cbn [sc_grid] in U1. subst g.
  assert (CC : forall x, In x l -> cool_core x) by (intros; apply HS; auto).
  assert (CC' : forall x, In x (aged_list l t) -> cool_core x).
  { intros x I. unfold aged_list in I. apply filter_In in I. destruct I as [I _]. apply in_map_iff in I. destruct I as [y [<- I]]. apply cool_core_age; auto. }
  assert (FT : forall k, (forall x, In x k -> cool_core x) -> forall x, In x k -> fin_temps x).
  { intros k Hk x I. destruct (Hk x I) as [u [q [r [Eu [Eq _]]]]]. split; [rewrite Eu|rewrite Eq]; eexists; reflexivity. }
  assert (U3 : forall x, In x (aged_list l t) -> spot_on (st_grid s) x).
  { pose proof (dv_unified _ _ _ _ _ _ _ _ _ _ _ _ _ V') as U. unfold star_unified in U. unfold s' in U. cbn in U. intuition. }
  assert (COV : sc_get_coverage (mkSpotColl l (st_grid s)) (st_radius s) = Ok (Fin (covsum (st_grid s) (st_radius s) l))).
  { apply (sc_get_coverage_eq (mkSpotColl l (st_grid s))). auto. cbn [sc_spots sc_grid]. intros x I. split; auto. apply (FT l); auto. }
  assert (COV' : sc_get_coverage (st_spots s') (st_radius s') = Ok (Fin (covsum (st_grid s) (st_radius s) (aged_list l t)))).
  { unfold s'. cbn [st_spots star_with_facs star_with_spots st_radius]. apply (sc_get_coverage_eq (mkSpotColl (aged_list l t) (st_grid s))). auto.
    cbn [sc_spots sc_grid]. intros x I. split; auto. apply (FT (aged_list l t)); auto. }
  split; [|split].
  - intros ND.
    assert (SH : forall x', In x' (aged_list l t) -> exists x, In x l /\ shrunk (st_radius s) x x').
    { intros x' I. unfold aged_list in I. apply filter_In in I. destruct I as [I Al]. apply in_map_iff in I. destruct I as [x [<- I]].
      exists x. split; auto. apply decay_shrinks; auto. apply HS; auto. unfold alivef in Al. destruct (spot_dead (agef x t)); auto; discriminate. }
    split.
    + apply (darker_maps s l lat0 lon0 T D A C M' M (fun p => covr (fold_left (pv (st_radius s) p) (aged_list l t) (Fin T)))
        (fun p => covr (fold_left (pv (st_radius s) p) l (Fin T))) cm); auto.
      * rewrite EM'. apply amap_ext. intros p. destruct (shrunk_pixel (st_radius s) T l _ HR CC CC' SH p) as [v [v' [K1 [K2 _]]]]. rewrite ?K1, ?K2. auto.
      * rewrite EM. apply amap_ext. intros p. destruct (shrunk_pixel (st_radius s) T l _ HR CC CC' SH p) as [v [v' [K1 [K2 _]]]]. rewrite ?K1, ?K2. auto.
      * intros p. destruct (shrunk_pixel (st_radius s) T l _ HR CC CC' SH p) as [v [v' [-> [-> K]]]]. exact K.
    + exists (covsum (st_grid s) (st_radius s) l), (covsum (st_grid s) (st_radius s) (aged_list l t)). split; auto. split; auto. apply shrunk_covsum; auto.
  - intros SG.
    assert (SH : forall x, In x l -> exists x', In x' (aged_list l t) /\ shrunk (st_radius s) x' x).
    { intros x I. destruct (growth_shrinks (st_radius s) x t) as [Al K]; auto. apply HS; auto. exists (agef x t). split; auto.
      unfold aged_list. apply filter_In. split. apply in_map_iff; eauto. unfold alivef. rewrite Al. auto. }
    assert (TE : forall x v, In x (aged_list l t) -> sp_teff_umbra x = Fin v \/ sp_teff_pen x = Fin v -> exists y, In y l /\ (sp_teff_umbra y = Fin v \/ sp_teff_pen y = Fin v)).
    { intros x v I K. unfold aged_list in I. apply filter_In in I. destruct I as [I _]. apply in_map_iff in I. destruct I as [y [<- I]]. exists y. split; auto.
      destruct (growth_shrinks (st_radius s) y t) as [_ KK]; auto. apply HS; auto. apply shrunk_temps in KK. destruct KK as [K1 K2]. rewrite K1, K2. auto. }
    split.
    + apply (darker_maps s l lat0 lon0 T D A C M M' (fun p => covr (fold_left (pv (st_radius s) p) l (Fin T)))
        (fun p => covr (fold_left (pv (st_radius s) p) (aged_list l t) (Fin T))) cm); auto.
      * rewrite EM. apply amap_ext. intros p. destruct (shrunk_pixel (st_radius s) T _ _ HR CC' CC SH p) as [v [v' [K1 [K2 _]]]]. rewrite ?K1, ?K2. auto.
      * rewrite EM'. apply amap_ext. intros p. destruct (shrunk_pixel (st_radius s) T _ _ HR CC' CC SH p) as [v [v' [K1 [K2 _]]]]. rewrite ?K1, ?K2. auto.
      * intros p. destruct (shrunk_pixel (st_radius s) T _ _ HR CC' CC SH p) as [v [v' [-> [-> [K1 K2]]]]]. cbn [covr]. split; auto.
        destruct K2 as [K2|[x [I K2]]]; auto. right. apply (TE x); auto.
    + exists (covsum (st_grid s) (st_radius s) l), (covsum (st_grid s) (st_radius s) (aged_list l t)). split; auto. split; auto. apply shrunk_covsum; auto.
  - pose proof (dv_mask _ _ _ _ _ _ _ _ _ _ _ _ _ V) as MK. pose proof (dv_mask _ _ _ _ _ _ _ _ _ _ _ _ _ V') as MK'.
    change (get_transit_mask s' lat0 lon0 orbit planet phase incl) with (get_transit_mask s lat0 lon0 orbit planet phase incl) in MK'.
    rewrite MK in MK'. injection MK' as -> ->. auto.
Qed.
