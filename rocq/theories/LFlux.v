(** The spectrum computed from a coverage report; adding spots *)
From Coq Require Import Reals ZArith Bool List Lra Lia Permutation Sorted.
From Verif Require Import Num Py MConfig MHelpers MGrid MSpots MFaculae MFlares MGranules MStar
  Spec SpecStar SpecDisk SpecFlux LBase LGrid LHelpers LSpotMap LSpotCov LFac LDisk LStar LStarFac LTransit LStarCov LCovered.
Import ListNotations.
Open Scope R_scope.

Lemma share_flux : forall (pts : list (R * R)) s w tm W F ts, W <> 0 -> NoDup ts -> (forall p, In p pts -> In (tm p) ts) ->
  rsum (map (fun t => F t * bval s pts w tm W t) ts) = rsum (map (fun p => w p * F (tm p)) pts) / W.
Proof.
  intros pts s w tm W F ts NW ND HI.
  rewrite (rsum_map_ext _ _ (fun t => rsum (map (fun p => if Req_EM_T (tm p) t then w p * F (tm p) else 0) pts) / W)).
  - rewrite rsum_map_div. rewrite rsum_by_value; auto.
  - intros t _. unfold bval. unfold Rdiv at 1 2. rewrite <- Rmult_assoc. f_equal. rewrite <- rsum_map_scal. apply rsum_map_ext.
    intros p _. destruct (Req_EM_T (tm p) t) as [->|]; ring.
Qed.
Lemma rsum_one : forall (ts : list R) x (h : R -> R), NoDup ts -> In x ts ->
  rsum (map (fun t => if Req_EM_T t x then h t else 0) ts) = h x.
Proof.
  induction ts as [|a ts IH]; intros x h ND I. destruct I. inversion ND; subst. cbn [map rsum fold_right]. fold (rsum (map (fun t => if Req_EM_T t x then h t else 0) ts)).
  destruct I as [->|I].
  - destruct (Req_EM_T x x) as [_|]; [|congruence].
    rewrite (rsum_map_ext _ _ (fun _ => 0)). rewrite rsum_map_const. ring. intros t It. destruct (Req_EM_T t x); auto. subst. contradiction.
  - destruct (Req_EM_T a x) as [->|]; [contradiction|]. rewrite IH; auto. ring.
Qed.
Lemma C87_lemma :
  forall label s lat0 lon0 orbit planet phase incl T D A M C pf f F ts,
  two_decimals label ->
  disk_view s lat0 lon0 orbit planet phase incl T D A M C pf -> disk s lat0 lon0 A <> 0 ->
  distinct_labels label s M T D -> (appears (st_grid s) M T \/ D = 0) -> lists_temps s M T D ts ->
  exists tot cov, calc_coverage s lat0 lon0 (Fin f) orbit planet phase incl = Ok (tot, cov, pf)
    /\ report_flux label F ts tot = disk_flux s lat0 lon0 A M F T D f (fun _ _ => 1)
    /\ report_flux label F ts cov = disk_flux s lat0 lon0 A M F T D f (cell_val C)
    /\ report_flux label F ts tot - report_flux label F ts cov
       = disk_flux s lat0 lon0 A M F T D f (fun j i => 1 - cell_val C j i).
Proof.
  intros label s lat0 lon0 orbit planet phase incl T D A M C pf f F ts TD V NW DL AP [ND LT].
  destruct (C51_label_lemma _ _ _ _ _ _ _ _ _ _ _ _ _ _ TD V NW DL AP) as [tot0 [cov0 [H0 [SH _]]]].
  destruct (C53_label_lemma _ _ _ _ _ _ _ _ _ _ _ _ _ _ f TD V NW DL AP) as [tot0' [cov0' [tot [cov [H0' [H HG]]]]]].
  rewrite H0 in H0'. injection H0' as <- <-. exists tot, cov. split; auto.
  destruct (view_form _ _ _ _ _ _ _ _ _ _ _ _ _ V) as [tm [cm [EA [EM [EC [Hc [EW [E1 [E2 [Eap EV]]]]]]]]]].
  assert (Vg : good_grid (st_grid s)) by apply V.
  set (W := disk s lat0 lon0 A) in *. set (pts := cells (grid_points (st_grid s))) in *.
  assert (TI : forall p, In p pts -> In (tm p) ts).
  { intros p I. apply LT. left. apply Eap, runiq_In, in_map; auto. }
  assert (LTT : In T ts). { apply LT. destruct AP as [AP|AP]. left; auto. right; lra. }
  assert (LTD : In (T - D) ts) by (apply LT; right; auto).
  assert (PF : forall j i, pixel (st_grid s) j i -> cell_val M j i = tm (pt (st_grid s) (j, i))).
  { intros j i P. unfold cell_val. rewrite EM, acell_grid by auto. auto. }
  set (mixf := fun t => if Req_EM_T t T then (1 - f) * F T + f * F (T - D) else F t).
  assert (DF : forall c cp, (forall j i, pixel (st_grid s) j i -> c j i = cp (pt (st_grid s) (j, i))) ->
    disk_flux s lat0 lon0 A M F T D f c = rsum (map (fun p => wgt s lat0 lon0 p * cp p * mixf (tm p)) pts) / W).
  { intros c cp Hcp. unfold disk_flux. f_equal. apply grid_sum_pt. intros j i P. rewrite EA, seen_pt by auto. rewrite Hcp by auto.
    unfold pix_flux. rewrite PF by auto. reflexivity. }
  (* both dictionaries *)
  assert (MAIN : forall d0 d sh w, (d0, d) = (tot0, tot) \/ (d0, d) = (cov0, cov) ->
    (forall t, listed s M T D t -> dget tkey_eqb d0 (label t) = Some (Fin (sh t))) ->
    (forall t, sh t = bval s pts w tm W t) ->
    report_flux label F ts d = rsum (map (fun p => w p * mixf (tm p)) pts) / W).
  { intros d0 d sh w Hd Hsh Hb. destruct (HG d0 d Hd) as [_ [_ [_ [G1 [G2 G3]]]]]. clear HG.
    assert (EN : forall t, In t ts -> dget tkey_eqb d0 (label t) = Some (Fin (sh t))) by (intros t It; apply Hsh, LT; auto).
    unfold report_flux. rewrite <- (share_flux pts s w tm W mixf ts NW ND TI).
    destruct (Req_dec D 0) as [D0|D0].
    - apply rsum_map_ext. intros t It. rewrite <- Hb. unfold entry. rewrite G3, EN by auto. unfold mixf.
      destruct (Req_EM_T t T) as [->|]; auto. subst D. rewrite Rminus_0_r. ring.
    - destruct (G2 D0) as [p [q [P1 [P2 [P3 P4]]]]]. rewrite EN in P1, P2 by auto. injection P1 as <-. injection P2 as <-.
      rewrite (rsum_map_ext _ _ (fun t => F t * sh t + ((if Req_EM_T t T then - f * F t * sh t else 0) + (if Req_EM_T t (T - D) then f * F t * sh T else 0)))).
      2:{ intros t It. unfold entry. destruct (Req_EM_T t T) as [->|N1].
          - rewrite P3. destruct (Req_EM_T T (T - D)). lra. ring.
          - destruct (Req_EM_T t (T - D)) as [->|N2]. rewrite P4. ring.
            rewrite G1, EN; auto. ring.
            intros E. apply N1. apply DL; auto; apply LT; auto. intros E. apply N2. apply DL; auto; apply LT; auto. }
      rewrite rsum_map_plus, rsum_map_plus. rewrite (rsum_one ts T (fun t => - f * F t * sh t)), (rsum_one ts (T - D) (fun t => f * F t * sh T)) by auto.
      rewrite (rsum_map_ext _ (fun t => mixf t * bval s pts w tm W t)
        (fun t => F t * sh t + (if Req_EM_T t T then (f * F (T - D) - f * F T) * sh t else 0))).
      2:{ intros t It. rewrite <- Hb. unfold mixf. destruct (Req_EM_T t T) as [->|]; ring. }
      rewrite rsum_map_plus. rewrite (rsum_one ts T (fun t => (f * F (T - D) - f * F T) * sh t)) by auto. ring. }
  assert (R1 : report_flux label F ts tot = disk_flux s lat0 lon0 A M F T D f (fun _ _ => 1)).
  { rewrite (MAIN tot0 tot (share s lat0 lon0 A M (fun _ _ => 1)) (wgt s lat0 lon0)); auto. 2:{ intros t Lt. apply SH; auto. }
    rewrite (DF _ (fun _ => 1)) by auto. f_equal. apply rsum_map_ext. intros. ring. }
  assert (R2 : report_flux label F ts cov = disk_flux s lat0 lon0 A M F T D f (cell_val C)).
  { rewrite (MAIN cov0 cov (share s lat0 lon0 A M (cell_val C)) (fun p => wgt s lat0 lon0 p * cm p)); auto. 2:{ intros t Lt. apply SH; auto. }
    rewrite (DF _ cm) by auto. f_equal. }
  split; auto. split; auto. rewrite R1, R2.
  rewrite (DF (cell_val C) cm), (DF (fun _ _ => 1) (fun _ => 1)), (DF (fun j i => 1 - cell_val C j i) (fun p => 1 - cm p)); auto.
  2:{ intros j i P. rewrite EV; auto. }
  rewrite <- Rdiv_minus_distr. f_equal. rewrite (rsum_map_ext _ (fun p => wgt s lat0 lon0 p * 1 * mixf (tm p))
    (fun p => wgt s lat0 lon0 p * cm p * mixf (tm p) + wgt s lat0 lon0 p * (1 - cm p) * mixf (tm p))) by (intros; ring).
  rewrite rsum_map_plus. ring.
Qed.
(** ** Adding spots *)
Lemma fold_pv_fin_le : forall Rs p l m, (forall x, In x l -> fin_temps x) ->
  exists v, fold_left (pv Rs p) l (Fin m) = Fin v /\ v <= m
    /\ (v = m \/ exists x, In x l /\ (sp_teff_umbra x = Fin v \/ sp_teff_pen x = Fin v)).
Proof.
  induction l as [|x l IH]; intros m H; cbn [fold_left]. exists m. split; auto. split. lra. auto.
  assert (X : exists v, pv Rs p (Fin m) x = Fin v /\ v <= m /\ (v = m \/ sp_teff_umbra x = Fin v \/ sp_teff_pen x = Fin v)).
  { destruct (H x (or_introl eq_refl)) as [[u Hu] [q Hq]]. unfold pv. rewrite Hu, Hq. cbv zeta. cbn [nlt].
    destruct (_ && Rltb u m) eqn:E. apply andb_true_iff in E. destruct E as [_ E]. apply Rltb_true in E. exists u. split; auto. split. lra. auto.
    destruct (_ && Rltb q m) eqn:E'. apply andb_true_iff in E'. destruct E' as [_ E']. apply Rltb_true in E'. exists q. split; auto. split. lra. auto.
    exists m. split; auto. split. lra. auto. }
  destruct X as [v [-> [L1 O]]]. destruct (IH v) as [v' [E [L2 O']]]. intros; apply H; right; auto.
  exists v'. split; auto. split. lra. destruct O' as [->|[y [I K]]].
  - destruct O as [->|O]; auto. right. exists x. split. left; auto. auto.
  - right. exists y. split. right; auto. auto.
Qed.
Lemma no_facs_map : forall s lat0 lon0 M, star_unified s -> fcc_facs (st_facs s) = [] -> add_faculae_to_map s lat0 lon0 = Ok M ->
  M = amap (fun p => fold_left (pv (st_radius s) p) (sc_spots (st_spots s)) (st_teff s)) (grid_points (st_grid s)).
Proof.
  intros s lat0 lon0 M U NF H. unfold add_faculae_to_map in H. rewrite NF, star_map_eq in H by auto. cbn [bind paint_faculae] in H. congruence.
Qed.
(** one pixel, before and after *)
Lemma add_spot_pixel : forall s l lat0 lon0 T M M',
  star_unified s -> star_unified (star_add_spot s l) -> fcc_facs (st_facs s) = [] -> st_teff s = Fin T ->
  (forall x, In x (sc_spots (st_spots s)) -> fin_temps x) -> (forall x, In x l -> fin_temps x) ->
  add_faculae_to_map s lat0 lon0 = Ok M -> add_faculae_to_map (star_add_spot s l) lat0 lon0 = Ok M' ->
  exists tm tm', M = amap (fun p => Fin (tm p)) (grid_points (st_grid s)) /\ M' = amap (fun p => Fin (tm' p)) (grid_points (st_grid s))
  /\ forall p, tm' p <= tm p <= T
       /\ (tm' p = tm p \/ exists x, In x l /\ (sp_teff_umbra x = Fin (tm' p) \/ sp_teff_pen x = Fin (tm' p))).
Proof.
  intros s l lat0 lon0 T M M' U U' NF ET H1 H2 H H'.
  apply no_facs_map in H; auto. apply no_facs_map in H'; auto. cbn [star_add_spot star_with_spots st_spots sc_add_spot sc_spots st_grid st_radius st_teff] in H'.
  set (l2 := map (fun x => spot_assign_gridmaker x (sc_grid (st_spots s))) l) in *.
  assert (L2 : forall x, In x l2 -> fin_temps x /\ exists y, In y l /\ sp_teff_umbra x = sp_teff_umbra y /\ sp_teff_pen x = sp_teff_pen y).
  { intros x I. apply in_map_iff in I. destruct I as [y [<- I]]. split. apply (H2 y I). exists y. auto. }
  exists (fun p => covr (fold_left (pv (st_radius s) p) (sc_spots (st_spots s)) (st_teff s))).
  exists (fun p => covr (fold_left (pv (st_radius s) p) (sc_spots (st_spots s) ++ l2) (st_teff s))).
  rewrite ET in *.
  split. { rewrite H. apply amap_ext. intros p. destruct (fold_pv_fin_le (st_radius s) p _ T H1) as [v [-> _]]. auto. }
  split. { rewrite H'. apply amap_ext. intros p. rewrite fold_left_app. destruct (fold_pv_fin_le (st_radius s) p _ T H1) as [v [-> _]].
    destruct (fold_pv_fin_le (st_radius s) p l2 v) as [v' [-> _]]; auto. apply L2. }
  intros p. rewrite fold_left_app. destruct (fold_pv_fin_le (st_radius s) p _ T H1) as [v [-> [Lv _]]].
  destruct (fold_pv_fin_le (st_radius s) p l2 v) as [v' [-> [Lv' O]]]; auto. apply L2. cbn [covr]. split. lra.
  destruct O as [->|[x [I K]]]; auto. right. destruct (L2 x I) as [_ [y [Iy [Y1 Y2]]]]. exists y. rewrite <- Y1, <- Y2. auto.
Qed.
Lemma C88_lemma :
  forall s l lat0 lon0 orbit planet phase incl T D A M M' C C' pf pf',
  disk_view s lat0 lon0 orbit planet phase incl T D A M C pf ->
  disk_view (star_add_spot s l) lat0 lon0 orbit planet phase incl T D A M' C' pf' ->
  fcc_facs (st_facs s) = [] ->
  (forall x, In x (sc_spots (st_spots s)) -> fin_temps x) -> (forall x, In x l -> fin_temps x) ->
  (* no pixel gets warmer *)
  (forall j i, pixel (st_grid s) j i -> exists t t', acell M j i NaN = Fin t /\ acell M' j i NaN = Fin t' /\ t' <= t <= T)
  (* the light of the star, and what passes the planet, decrease, whatever the spectrum *)
  /\ (forall F f, ld_nonneg s -> 0 < disk s lat0 lon0 A -> (forall t t', t <= t' -> F t <= F t') ->
        f = 0 \/ (0 <= f <= 1 /\ 0 <= D /\ forall x t, In x l -> sp_teff_umbra x = Fin t \/ sp_teff_pen x = Fin t -> t <= T - D) ->
        disk_flux s lat0 lon0 A M' F T D f (fun _ _ => 1) <= disk_flux s lat0 lon0 A M F T D f (fun _ _ => 1)
        /\ disk_flux s lat0 lon0 A M' F T D f (fun j i => 1 - cell_val C j i) <= disk_flux s lat0 lon0 A M F T D f (fun j i => 1 - cell_val C j i))
  (* less photosphere *)
  /\ (ld_nonneg s -> 0 < disk s lat0 lon0 A ->
      share s lat0 lon0 A M' (fun _ _ => 1) T <= share s lat0 lon0 A M (fun _ _ => 1) T)
  (* the planet hides the same part of each pixel *)
  /\ C' = C /\ pf' = pf.
Proof.
  intros s l lat0 lon0 orbit planet phase incl T D A M M' C C' pf pf' V V' NF H1 H2.
  destruct (add_spot_pixel s l lat0 lon0 T M M') as [tm [tm' [EM [EM' HP]]]]; try apply V; try apply V'; auto.
  assert (Vg : good_grid (st_grid s)) by apply V.
  assert (EA : A = amap (fun p => Fin (rarea_at (st_grid s) p)) (grid_points (st_grid s))).
  { pose proof (dv_area _ _ _ _ _ _ _ _ _ _ _ _ _ V) as K. rewrite grid_area_good in K by auto. congruence. }
  pose proof (dv_mask _ _ _ _ _ _ _ _ _ _ _ _ _ V) as MK. pose proof (dv_mask _ _ _ _ _ _ _ _ _ _ _ _ _ V') as MK'.
  change (get_transit_mask (star_add_spot s l) lat0 lon0 orbit planet phase incl) with (get_transit_mask s lat0 lon0 orbit planet phase incl) in MK'.
  destruct (view_form _ _ _ _ _ _ _ _ _ _ _ _ _ V) as [_ [cm [_ [_ [EC [Hc [_ [_ [_ [_ EV]]]]]]]]]].
  assert (WN : ld_nonneg s -> forall p, In p (cells (grid_points (st_grid s))) -> 0 <= wgt s lat0 lon0 p) by (intros; apply wgt_nonneg; auto; apply V).
  assert (PF : forall F f N tmn, N = amap (fun p => Fin (tmn p)) (grid_points (st_grid s)) -> forall j i, pixel (st_grid s) j i ->
    pix_flux F T D f N j i = (fun t => if Req_EM_T t T then (1 - f) * F T + f * F (T - D) else F t) (tmn (pt (st_grid s) (j, i)))).
  { intros F f N tmn -> j i P. unfold pix_flux, cell_val. rewrite acell_grid by auto. reflexivity. }
  assert (FL : forall F f c cp, ld_nonneg s -> 0 < disk s lat0 lon0 A -> (forall t t', t <= t' -> F t <= F t') ->
        f = 0 \/ (0 <= f <= 1 /\ 0 <= D /\ forall x t, In x l -> sp_teff_umbra x = Fin t \/ sp_teff_pen x = Fin t -> t <= T - D) ->
        (forall j i, pixel (st_grid s) j i -> c j i = cp (pt (st_grid s) (j, i))) -> (forall p, In p (cells (grid_points (st_grid s))) -> 0 <= cp p) ->
        disk_flux s lat0 lon0 A M' F T D f c <= disk_flux s lat0 lon0 A M F T D f c).
  { intros F f c cp LD DP HF HD Ec Hcp. unfold disk_flux. apply Rmult_le_compat_r. left; apply Rinv_0_lt_compat; auto.
    rewrite !(grid_sum_pt _ (fun p => wgt s lat0 lon0 p * cp p * (fun t => if Req_EM_T t T then (1 - f) * F T + f * F (T - D) else F t) (tm' p)) (fun j i => _ * pix_flux F T D f M' j i)).
    2:{ intros j i P. rewrite EA, seen_pt by auto. rewrite Ec, (PF F f M' tm') by auto. auto. }
    rewrite !(grid_sum_pt _ (fun p => wgt s lat0 lon0 p * cp p * (fun t => if Req_EM_T t T then (1 - f) * F T + f * F (T - D) else F t) (tm p)) (fun j i => _ * pix_flux F T D f M j i)).
    2:{ intros j i P. rewrite EA, seen_pt by auto. rewrite Ec, (PF F f M tm) by auto. auto. }
    apply rsum_map_le. intros p I. apply Rmult_le_compat_l. apply Rmult_le_pos; auto.
    destruct (HP p) as [[L1 L2] O]. cbv beta. destruct O as [->|[x [Ix K]]]. lra.
    destruct (Req_EM_T (tm' p) T) as [E1|E1], (Req_EM_T (tm p) T) as [E2|E2]; try lra.
    - destruct HD as [->|[Hf [HD HL]]].
      + pose proof (HF (tm' p) T ltac:(lra)). lra.
      + pose proof (HF (tm' p) (T - D) (HL x _ Ix K)). pose proof (HF (T - D) T ltac:(lra)). nra.
    - apply HF; auto. }
  split; [|split; [|split]].
  - intros j i P. exists (tm (pt (st_grid s) (j, i))), (tm' (pt (st_grid s) (j, i))). rewrite EM, EM', !acell_grid by auto. split; auto. split; auto. apply HP.
  - intros F f LD DP HF HD. split.
    + apply (FL F f _ (fun _ => 1)); auto. intros; lra.
    + apply (FL F f _ (fun p => 1 - cm p)); auto. intros j i P. rewrite EV; auto. intros p I. pose proof (Hc p I). lra.
  - intros LD DP. unfold share. apply Rmult_le_compat_r. left; apply Rinv_0_lt_compat; auto.
    rewrite (grid_sum_pt _ (fun p => if Req_EM_T (tm' p) T then wgt s lat0 lon0 p else 0) (fun j i => match acell M' j i NaN with Fin _ => _ | _ => _ end)).
    2:{ intros j i P. rewrite EA, seen_pt by auto. rewrite EM', acell_grid by auto. change (acell (grid_points (st_grid s)) j i (0, 0)) with (pt (st_grid s) (j, i)). destruct (Req_EM_T _ T); ring. }
    rewrite (grid_sum_pt _ (fun p => if Req_EM_T (tm p) T then wgt s lat0 lon0 p else 0) (fun j i => match acell M j i NaN with Fin _ => _ | _ => _ end)).
    2:{ intros j i P. rewrite EA, seen_pt by auto. rewrite EM, acell_grid by auto. change (acell (grid_points (st_grid s)) j i (0, 0)) with (pt (st_grid s) (j, i)). destruct (Req_EM_T _ T); ring. }
    apply rsum_map_le. intros p I. destruct (HP p) as [[L1 L2] _]. pose proof (WN LD p I). destruct (Req_EM_T (tm' p) T), (Req_EM_T (tm p) T); lra.
  - rewrite MK in MK'. injection MK' as -> ->. auto.
Qed.
