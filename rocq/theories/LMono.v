(** Monotonicity: larger planets, more spots *)
From Coq Require Import Reals ZArith Bool List Lra Lia Permutation Sorted.
From Verif Require Import Num Py MConfig MHelpers MGrid MSpots MFaculae MFlares MGranules MStar
  Spec SpecStar SpecDisk LBase LGrid LHelpers LSpotMap LFac LDisk LStar LStarFac LTransit LStarCov LCovered.
Import ListNotations.
Open Scope R_scope.

(** ** Larger planets *)
Lemma overlap_mono : forall sx sy dist r r' xs, 0 < sx -> 0 < sy -> r <= r' ->
  (forall i, (S i < length xs)%nat -> nth i xs 0 <= nth (S i) xs 0) ->
  overlap sx sy dist r xs <= overlap sx sy dist r' xs.
Proof.
  intros sx sy dist r r' xs Hx Hy H SX. unfold overlap. apply trapezoid_le; auto. intros y _. apply trapezoid_le; auto. intros x _.
  assert (0 <= bell sx sy x y).
  { unfold bell. apply Rlt_le, Rdiv_lt_0_compat. apply exp_pos. pose proof PI_RGT_0. apply Rmult_lt_0_compat; auto. apply Rmult_lt_0_compat; lra. }
  destruct (Rlt_dec _ r), (Rlt_dec _ r'); lra.
Qed.
Lemma px_cov_mono : forall lat0 lon0 px py r r' p ar c c', - PI/2 <= lat0 <= PI/2 -> - PI/2 <= fst p <= PI/2 -> 0 <= ar -> r <= r' ->
  px_cov lat0 lon0 px py r p ar c -> px_cov lat0 lon0 px py r' p ar c' -> c <= c'.
Proof.
  intros lat0 lon0 px py r r' [lat lon] ar c c' H0 H1 Ha H [B [N X]] [B' [N' X']]. cbn [fst snd] in *.
  destruct (C08_lemma lat0 lon0 lat lon H0 H1) as [_ HV]. destruct (Rlt_le_dec (cos_sep lat0 lon0 lat lon) 0) as [L|L].
  - rewrite N, N' by auto. lra.
  - destruct (HV L) as [x [y [E _]]]. destruct (X x y E) as [X1 [X2 X3]]. destruct (X' x y E) as [Y1 [Y2 Y3]]. clear X X'.
    set (sg := 2 * sqrt ar * cos_sep lat0 lon0 lat lon) in *. set (D := sqrt ((x - px)^2 + (y - py)^2)) in *. pose proof (sqrt_pos ar).
    assert (S0 : 0 <= sg) by (apply Rmult_le_pos; lra).
    destruct (Rlt_le_dec (r + 2 * sg) D) as [A|A]. rewrite X1 by auto; lra.
    destruct (Rlt_le_dec (D + 2 * sg) r') as [A'|A']. rewrite Y2 by auto; lra.
    destruct X3 as [X4 X5]; try lra. destruct Y3 as [Y4 Y5]; try lra.
    destruct (Rle_lt_or_eq_dec 0 sg S0) as [Z|Z].
    + rewrite X5, Y5 by auto. apply overlap_mono; auto. unfold sg in Z. destruct (Req_dec (sqrt ar) 0) as [Q|Q]; [rewrite Q in Z; lra|lra].
      apply linspace_sorted. lra.
    + rewrite X4 by auto. lra.
Qed.
Lemma mask_mono : forall s lat0 lon0 orbit planet planet' phase incl m pf m' pf',
  good_grid (st_grid s) -> - PI/2 <= lat0 <= PI/2 -> 0 < st_radius s -> planet <= planet' ->
  get_transit_mask s lat0 lon0 orbit planet phase incl = Ok (m, pf) ->
  get_transit_mask s lat0 lon0 orbit planet' phase incl = Ok (m', pf') ->
  exists C C', m = amap (fun p => Fin (C p)) (grid_points (st_grid s)) /\ m' = amap (fun p => Fin (C' p)) (grid_points (st_grid s))
    /\ forall p, In p (cells (grid_points (st_grid s))) -> 0 <= C p <= C' p /\ C' p <= 1.
Proof.
  intros s lat0 lon0 orbit planet planet' phase incl m pf m' pf' G L HR HP H H'.
  destruct (transit_mask_form _ _ _ _ _ _ _ _ _ G L HR H) as [C0 [E0 B0]].
  destruct (transit_mask_form _ _ _ _ _ _ _ _ _ G L HR H') as [C0' [E0' B0']].
  set (rp := planet / st_radius s). set (rp' := planet' / st_radius s).
  assert (RP : rp <= rp') by (unfold rp, rp', Rdiv; apply Rmult_le_compat_r; auto; apply Rlt_le, Rinv_0_lt_compat; auto).
  unfold get_transit_mask in H, H'. rewrite planet_xy_eq in H, H' by auto. rewrite ndiv_fin in H, H' by lra. fold rp in H. fold rp' in H'. cbv zeta in H, H'.
  set (px := orbit / st_radius s * - sin phase) in *. set (py := orbit / st_radius s * - cos phase * cos incl) in *.
  assert (Z : m = grid_zeros (st_grid s) -> exists C C', m = amap (fun p => Fin (C p)) (grid_points (st_grid s)) /\ m' = amap (fun p => Fin (C' p)) (grid_points (st_grid s))
    /\ forall p, In p (cells (grid_points (st_grid s))) -> 0 <= C p <= C' p /\ C' p <= 1).
  { intros E. exists (fun _ => 0), C0'. split. rewrite E. apply grid_zeros_eq. split; auto. intros p I. pose proof (B0' p I). lra. }
  destruct (ngt (nsqrt _) (nadd _ (nmul _ (Fin rp)))) eqn:D. { apply Z. congruence. }
  destruct (Rltb 0 (cos phase)). { apply bind_ok in H. destruct H as [v [_ H]]. apply Z. congruence. }
  assert (D' : ngt (nsqrt (nadd (nsq (Fin px)) (nsq (Fin py)))) (nadd (Fin 1) (nmul (Fin 2) (Fin rp'))) = false).
  { revert D. rewrite !nsq_fin, !nmul_fin, !nadd_fin. rewrite nsqrt_fin by nra. unfold ngt. cbn [nlt]. rewrite !Rltb_false. lra. }
  rewrite D' in H'. rewrite grid_area_good in H, H' by auto. cbn [bind] in H, H'. rewrite amap2_amap_r in H, H'. cbn [bind] in H, H'.
  destruct (existsb _ _) in H; [discriminate|]. destruct (existsb _ _) in H'; [discriminate|]. injection H as Hm _. injection H' as Hm' _.
  exists (fun p => covr (pixel_covered lat0 lon0 (Fin px) (Fin py) (Fin rp) p (Fin (rarea_at (st_grid s) p)))),
    (fun p => covr (pixel_covered lat0 lon0 (Fin px) (Fin py) (Fin rp') p (Fin (rarea_at (st_grid s) p)))).
  split; [|split].
  - rewrite <- Hm. apply amap_ext_in. intros p I. destruct (transit_cover s lat0 lon0 px py rp G L p I) as [c [-> _]]. auto.
  - rewrite <- Hm'. apply amap_ext_in. intros p I. destruct (transit_cover s lat0 lon0 px py rp' G L p I) as [c [-> _]]. auto.
  - intros p I. destruct (transit_cover s lat0 lon0 px py rp G L p I) as [c [-> X]]. destruct (transit_cover s lat0 lon0 px py rp' G L p I) as [c' [-> X']].
    cbn [covr]. pose proof (px_cov_mono _ _ _ _ _ _ _ _ _ _ L (cell_lat_range _ _ G I) (rarea_nonneg _ _ G I) RP X X'). destruct X as [X _], X' as [X' _]. lra.
Qed.
Lemma strictly_sorted_ext : forall l l', StronglySorted Rlt l -> StronglySorted Rlt l' -> (forall x, In x l <-> In x l') -> l = l'.
Proof.
  induction l as [|a l]; intros l' HS HS' E.
  - destruct l' as [|b l']; auto. destruct (proj2 (E b)); left; auto.
  - inversion HS as [|? ? S1 F1]; subst. rewrite Forall_forall in F1.
    destruct l' as [|b l']. { destruct (proj1 (E a)); left; auto. }
    inversion HS' as [|? ? S2 F2]; subst. rewrite Forall_forall in F2.
    assert (a = b).
    { destruct (proj1 (E a) (or_introl eq_refl)) as [->|I]; auto. destruct (proj2 (E b) (or_introl eq_refl)) as [->|I']; auto.
      pose proof (F2 _ I). pose proof (F1 _ I'). lra. }
    subst b. f_equal. apply IHl; auto. intros x. split; intros I.
    + destruct (proj1 (E x) (or_intror I)) as [<-|]; auto. pose proof (F1 _ I). lra.
    + destruct (proj2 (E x) (or_intror I)) as [<-|]; auto. pose proof (F2 _ I). lra.
Qed.
(** two planets in front of the same star *)
Lemma cov_mono : forall s lat0 lon0 o r ph i o' r' ph' i' T D A M C pf C' pf' f out out',
  disk_view s lat0 lon0 o r ph i T D A M C pf -> disk_view s lat0 lon0 o' r' ph' i' T D A M C' pf' ->
  disk s lat0 lon0 A <> 0 -> ld_nonneg s -> 0 <= f <= 1 ->
  (forall j i, pixel (st_grid s) j i -> cell_val C j i <= cell_val C' j i) ->
  calc_coverage s lat0 lon0 (Fin f) o r ph i = Ok out -> calc_coverage s lat0 lon0 (Fin f) o' r' ph' i' = Ok out' ->
  fst (fst out') = fst (fst out)
  /\ Forall2 (fun a b => fst b = fst a /\ exists x y, snd a = Fin x /\ snd b = Fin y /\ 0 <= x <= y) (snd (fst out)) (snd (fst out'))
  /\ dict_sum (snd (fst out)) <= dict_sum (snd (fst out')).
Proof.
  intros s lat0 lon0 o r ph i o' r' ph' i' T D A M C pf C' pf' f out out' V V' NW LD Hf HC H H'.
  destruct (calc_coverage_eq _ _ _ _ _ _ _ _ _ _ _ _ _ f V NW) as [ul [SS [Ap [_ E0]]]].
  destruct (calc_coverage_eq _ _ _ _ _ _ _ _ _ _ _ _ _ f V' NW) as [ul' [SS' [Ap' [_ E0']]]].
  assert (ul' = ul) by (apply strictly_sorted_ext; auto; intros x; rewrite <- Ap, <- Ap'; reflexivity). subst ul'.
  assert (SL : forall t, In t ul -> 0 <= share s lat0 lon0 A M (cell_val C) t <= share s lat0 lon0 A M (cell_val C') t).
  { intros t _. destruct (view_form _ _ _ _ _ _ _ _ _ _ _ _ _ V) as [tm [cm [EA [EM [EC [Hc [EW [E1 [E2 [Eap EV]]]]]]]]]].
    destruct (view_form _ _ _ _ _ _ _ _ _ _ _ _ _ V') as [tm' [cm' [_ [EM' [EC' [Hc' [_ [_ [E2' [_ EV']]]]]]]]]].
    rewrite E2, E2'. unfold bval.
    assert (WN : forall p, In p (cells (grid_points (st_grid s))) -> 0 <= wgt s lat0 lon0 p) by (intros; apply wgt_nonneg; auto; apply V).
    assert (0 < disk s lat0 lon0 A). { assert (0 <= disk s lat0 lon0 A). rewrite EW. apply rsum_map_nonneg; auto. lra. }
    assert (TM : forall p, In p (cells (grid_points (st_grid s))) -> tm p = tm' p).
    { intros p I. apply In_pt in I. destruct I as [j [k [P ->]]]. assert (K : acell M j k NaN = acell M j k NaN) by auto. rewrite EM in K at 1. rewrite EM' in K.
      rewrite !acell_grid in K by auto. injection K as K. exact K. }
    split.
    - apply Rmult_le_pos. 2:{ left; apply Rinv_0_lt_compat; auto. } apply rsum_map_nonneg. intros p Ip. destruct (Req_EM_T _ _); [|lra].
      apply Rmult_le_pos; [auto|apply Hc; auto].
    - apply Rmult_le_compat_r. left; apply Rinv_0_lt_compat; auto. apply rsum_map_le. intros p Ip. rewrite <- (TM p Ip). destruct (Req_EM_T _ _); [|lra].
      pose proof (WN p Ip). apply Rmult_le_compat_l; auto. apply In_pt in Ip. destruct Ip as [j [k [P ->]]]. rewrite <- EV, <- EV' by auto. apply HC; auto. }
  rewrite E0 in H. rewrite E0' in H'.
  destruct (rgran (base (share s lat0 lon0 A M (fun _ _ => 1)) ul (T - D)) (key T) (key (T - D)) f) as [d|e] eqn:Gd; [|discriminate].
  cbn [bind] in H, H'. destruct (rgran (base (share s lat0 lon0 A M (cell_val C')) ul (T - D)) (key T) (key (T - D)) f) as [c'|e] eqn:Gc'; [|discriminate].
  destruct (below_rgran _ (base (share s lat0 lon0 A M (cell_val C)) ul (T - D)) _ _ _ _ Hf (below_base _ _ _ _ SL) Gc') as [c [Gc B]].
  rewrite Gc in H. cbn [bind] in H, H'. injection H as <-. injection H' as <-. cbn [fst snd]. split; auto. split.
  - clear - B. induction B as [|[k1 v1] [k2 v2] d c [E L] B IH]; constructor; auto. cbn in *. split; auto. eauto.
  - rewrite !lift_sum. clear - B. unfold rsumd. induction B as [|[k1 v1] [k2 v2] d c [E L] B IH]; cbn [map rsum fold_right snd]. lra.
    fold (rsum (map snd d)) (rsum (map snd c)). cbn [snd] in L. lra.
Qed.
Lemma C85_lemma :
  forall s lat0 lon0 orbit planet planet' phase incl,
  good_grid (st_grid s) -> - PI/2 <= lat0 <= PI/2 -> 0 < st_radius s -> planet <= planet' ->
  (* the masks *)
  (forall m pf m' pf',
     get_transit_mask s lat0 lon0 orbit planet phase incl = Ok (m, pf) ->
     get_transit_mask s lat0 lon0 orbit planet' phase incl = Ok (m', pf') ->
     forall j i, pixel (st_grid s) j i -> exists c c', acell m j i NaN = Fin c /\ acell m' j i NaN = Fin c' /\ 0 <= c <= c' /\ c' <= 1)
  (* the report *)
  /\ (forall T D A M C pf C' pf' f tot cov tot' cov' q q',
        disk_view s lat0 lon0 orbit planet phase incl T D A M C pf -> disk_view s lat0 lon0 orbit planet' phase incl T D A M C' pf' ->
        disk s lat0 lon0 A <> 0 -> ld_nonneg s -> 0 <= f <= 1 ->
        calc_coverage s lat0 lon0 (Fin f) orbit planet phase incl = Ok (tot, cov, q) ->
        calc_coverage s lat0 lon0 (Fin f) orbit planet' phase incl = Ok (tot', cov', q') ->
        tot' = tot
        /\ Forall2 (fun a b => fst b = fst a /\ exists x y, snd a = Fin x /\ snd b = Fin y /\ 0 <= x <= y) cov cov'
        /\ dict_sum cov <= dict_sum cov').
Proof.
  intros s lat0 lon0 orbit planet planet' phase incl G L HR HP.
  assert (MM : forall m pf m' pf',
     get_transit_mask s lat0 lon0 orbit planet phase incl = Ok (m, pf) ->
     get_transit_mask s lat0 lon0 orbit planet' phase incl = Ok (m', pf') ->
     forall j i, pixel (st_grid s) j i -> exists c c', acell m j i NaN = Fin c /\ acell m' j i NaN = Fin c' /\ 0 <= c <= c' /\ c' <= 1).
  { intros m pf m' pf' H H' j i P. destruct (mask_mono _ _ _ _ _ _ _ _ _ _ _ _ G L HR HP H H') as [C [C' [-> [-> B]]]].
    rewrite !acell_grid by auto. change (acell (grid_points (st_grid s)) j i (0, 0)) with (pt (st_grid s) (j, i)). do 2 eexists. split. reflexivity. split. reflexivity. apply B, pt_In; auto. }
  split; auto. intros T D A M C pf C' pf' f tot cov tot' cov' q q' V V' NW LD Hf H H'.
  apply (cov_mono _ _ _ _ _ _ _ _ _ _ _ _ _ _ _ _ _ _ _ _ (tot, cov, q) (tot', cov', q') V V' NW LD Hf); auto.
  - intros j i P. destruct (MM _ _ _ _ (dv_mask _ _ _ _ _ _ _ _ _ _ _ _ _ V) (dv_mask _ _ _ _ _ _ _ _ _ _ _ _ _ V') j i P) as [c [c' [E [E' B]]]].
    unfold cell_val. rewrite E, E'. lra.
Qed.
(** the planet does not change what is there *)
Lemma C85_total_lemma :
  forall s lat0 lon0 orbit planet phase incl orbit' planet' phase' incl' T D A M C pf C' pf' f tot cov tot' cov' q q',
  disk_view s lat0 lon0 orbit planet phase incl T D A M C pf -> disk_view s lat0 lon0 orbit' planet' phase' incl' T D A M C' pf' ->
  disk s lat0 lon0 A <> 0 ->
  calc_coverage s lat0 lon0 (Fin f) orbit planet phase incl = Ok (tot, cov, q) ->
  calc_coverage s lat0 lon0 (Fin f) orbit' planet' phase' incl' = Ok (tot', cov', q') -> tot' = tot.
Proof.
  intros s lat0 lon0 orbit planet phase incl orbit' planet' phase' incl' T D A M C pf C' pf' f tot cov tot' cov' q q' V V' NW H H'.
  destruct (calc_coverage_eq _ _ _ _ _ _ _ _ _ _ _ _ _ f V NW) as [ul [SS [Ap [_ E0]]]].
  destruct (calc_coverage_eq _ _ _ _ _ _ _ _ _ _ _ _ _ f V' NW) as [ul' [SS' [Ap' [_ E0']]]].
  assert (ul' = ul) by (apply strictly_sorted_ext; auto; intros x; rewrite <- Ap, <- Ap'; reflexivity). subst ul'.
  rewrite E0 in H. rewrite E0' in H'.
  destruct (rgran (base (share s lat0 lon0 A M (fun _ _ => 1)) ul (T - D)) (key T) (key (T - D)) f) as [d|e]; [|discriminate].
  cbn [bind] in H, H'. destruct (rgran _ _ _ _) in H; [|discriminate]. destruct (rgran _ _ _ _) in H'; [|discriminate]. cbn [bind] in H, H'. congruence.
Qed.
