(** The light hidden by a planet in front of a star with spots *)
From Coq Require Import Reals ZArith Bool List Lra Lia.
From Coquelicot Require Import Rcomplements.
From Verif Require Import Num Py MConfig MHelpers MGrid MSpots MFaculae MFlares MGranules MStar
  Spec SpecStar SpecDisk SpecFlux SpecSource LBase LGrid LHelpers LSpotMap LSpotCov LFac LDisk LStar LStarFac LTransit LStarCov LCovered LFlux LConv LCap LZonal LSpotDisk LDepth.
Import ListNotations.
Open Scope R_scope.

(** brightness of a temperature, granulation included *)
Definition mixf (F : R -> R) (T D f t : R) : R := if Req_EM_T t T then phot_flux F T D f else F t.

(** everything in terms of points of the grid *)
Lemma source_form : forall label s lat0 lon0 orbit planet phase incl T D A M C pf f,
  two_decimals label ->
  disk_view s lat0 lon0 orbit planet phase incl T D A M C pf -> disk s lat0 lon0 A <> 0 ->
  distinct_labels label s M T D -> (appears (st_grid s) M T \/ D = 0) ->
  exists tm cm tot cov, let pts := cells (grid_points (st_grid s)) in let w := wgt s lat0 lon0 in
    calc_coverage s lat0 lon0 (Fin f) orbit planet phase incl = Ok (tot, cov, pf)
    /\ (forall p, In p pts -> 0 <= cm p <= 1)
    /\ disk s lat0 lon0 A = rsum (map w pts)
    /\ (forall j i, pixel (st_grid s) j i -> seen s lat0 lon0 A j i = w (pt (st_grid s) (j, i))
          /\ acell M j i NaN = Fin (tm (pt (st_grid s) (j, i))) /\ cell_val C j i = cm (pt (st_grid s) (j, i))
          /\ In (pt (st_grid s) (j, i)) pts)
    /\ dict_sum cov = rsum (map (fun p => w p * cm p) pts) / disk s lat0 lon0 A
    /\ dict_sum tot = 1
    /\ forall F ts, lists_temps s M T D ts ->
         report_flux label F ts tot = rsum (map (fun p => w p * mixf F T D f (tm p)) pts) / disk s lat0 lon0 A
         /\ report_flux label F ts cov = rsum (map (fun p => w p * cm p * mixf F T D f (tm p)) pts) / disk s lat0 lon0 A.
Proof.
  intros label s lat0 lon0 orbit planet phase incl T D A M C pf f TD V NW DL AP.
  assert (Vg : good_grid (st_grid s)) by apply V.
  destruct (view_form _ _ _ _ _ _ _ _ _ _ _ _ _ V) as [tm [cm [EA [EM [EC [Hc [EW [_ [_ [_ EV]]]]]]]]]].
  assert (DL' := DL). rewrite (two_decimals_eq label) in DL' by auto.
  destruct (covered_sum _ _ _ _ _ _ _ _ _ _ _ _ _ f cm V NW DL' AP EC) as [tot [cov [E SC]]].
  destruct (C50_label_lemma _ _ _ _ _ _ _ _ _ _ _ _ _ _ f TD V NW DL AP) as [tot1 [cov1 [E1 [_ [ST _]]]]].
  assert (tot1 = tot) by congruence. subst tot1.
  exists tm, cm, tot, cov. cbv zeta. split; auto. split; auto. split; auto. split; [|split; [|split]]; auto.
  - intros j i P. split. rewrite EA, seen_pt; auto. split. rewrite EM, acell_grid; auto. split; auto.
    apply pt_In; auto.
  - rewrite SC. rewrite EW. f_equal; [|unfold gsum]; [unfold hidden|]; apply rsum_map_ext; intros p I; rewrite wgt_bright; auto.
  - intros F ts LT. destruct (C87_lemma _ _ _ _ _ _ _ _ _ _ _ _ _ _ f F ts TD V NW DL AP LT) as [tot2 [cov2 [E2 [R1 [R2 _]]]]].
    assert (tot2 = tot) by congruence. assert (cov2 = cov) by congruence. subst tot2 cov2. rewrite R1, R2. unfold disk_flux.
    split; f_equal; apply grid_sum_pt; intros j i P; rewrite EA, seen_pt by auto; unfold pix_flux, mixf, phot_flux, cell_val;
      rewrite EM, acell_grid by auto; change (acell (grid_points (st_grid s)) j i (0, 0)) with (pt (st_grid s) (j, i)).
    + ring.
    + rewrite EC, acell_grid by auto. auto.
Qed.

Lemma wgt_behind : forall s lat0 lon0 C cm, (forall j i, pixel (st_grid s) j i -> cell_val C j i = cm (pt (st_grid s) (j, i))) ->
  forall p, In p (cells (grid_points (st_grid s))) ->
  wgt s lat0 lon0 p * cm p = 0 \/ exists j i, p = pt (st_grid s) (j, i) /\ behind_planet s lat0 lon0 C j i.
Proof.
  intros s lat0 lon0 C cm EV p I. apply In_pt in I. destruct I as [j [i [P ->]]].
  destruct (Req_dec (cm (pt (st_grid s) (j, i))) 0) as [Z|Z]. left; rewrite Z; ring.
  destruct (Rlt_dec 0 (pix_mu s lat0 lon0 j i)) as [K|K].
  - right. exists j, i. split; auto. split; auto. split; auto. rewrite EV; auto.
  - left. rewrite pix_mu_pt in K. fold (mup lat0 lon0 (pt (st_grid s) (j, i))) in K. unfold wgt, area_projection. rcase; try lra.
Qed.
Lemma wgt_front : forall s lat0 lon0 p, In p (cells (grid_points (st_grid s))) ->
  wgt s lat0 lon0 p = 0 \/ exists j i, p = pt (st_grid s) (j, i) /\ pixel (st_grid s) j i /\ 0 < pix_mu s lat0 lon0 j i.
Proof.
  intros s lat0 lon0 p I. apply In_pt in I. destruct I as [j [i [P ->]]].
  destruct (Rlt_dec 0 (pix_mu s lat0 lon0 j i)) as [K|K].
  - right. exists j, i. auto.
  - left. rewrite pix_mu_pt in K. fold (mup lat0 lon0 (pt (st_grid s) (j, i))) in K. unfold wgt, area_projection. rcase; try lra.
Qed.
Lemma pix_mixf : forall F T D f M j i t, acell M j i NaN = Fin t -> pix_flux F T D f M j i = mixf F T D f t.
Proof. intros. unfold pix_flux, mixf, phot_flux, cell_val. rewrite H. auto. Qed.
Lemma report_mix : forall label F T D f ts tot0, report_flux label (mixf F T D f) ts tot0
  = phot_flux F T D f * (rsum (map (fun t => entry tot0 (label t)) ts) - deficit label F T (phot_flux F T D f) ts tot0) \/ phot_flux F T D f = 0.
Proof.
  intros. destruct (Req_dec (phot_flux F T D f) 0) as [Z|Z]; auto. left. unfold report_flux, deficit. set (B := phot_flux F T D f) in *.
  rewrite (rsum_map_ext _ (fun t => mixf F T D f t * entry tot0 (label t))
    (fun t => B * entry tot0 (label t) + - B * (if Req_EM_T t T then 0 else entry tot0 (label t) * (1 - F t / B)))).
  - rewrite rsum_map_plus, !rsum_map_scal. ring.
  - intros t _. unfold mixf. fold B. destruct (Req_EM_T t T). ring. field. auto.
Qed.

Lemma rsum_map_lt_one : forall A (f g : A -> R) l x, In x l -> (forall y, In y l -> f y <= g y) -> f x < g x -> rsum (map f l) < rsum (map g l).
Proof.
  induction l as [|a l IH]; intros x I H K. destruct I. cbn [map rsum fold_right]. fold (rsum (map f l)). fold (rsum (map g l)). destruct I as [->|I].
  - pose proof (rsum_map_le _ f g l (fun y J => H y (or_intror J))). lra.
  - pose proof (IH x I (fun y J => H y (or_intror J)) K). pose proof (H a (or_introl eq_refl)). lra.
Qed.

Lemma C105_lemma :
  forall label s lat0 lon0 orbit planet phase incl T D A M C pf f F ts,
  two_decimals label ->
  disk_view s lat0 lon0 orbit planet phase incl T D A M C pf -> 0 < disk s lat0 lon0 A ->
  distinct_labels label s M T D -> (appears (st_grid s) M T \/ D = 0) -> lists_temps s M T D ts ->
  exists tot cov tot0 cov0,
    calc_coverage s lat0 lon0 (Fin f) orbit planet phase incl = Ok (tot, cov, pf)
    /\ calc_coverage s lat0 lon0 (Fin 0) orbit planet phase incl = Ok (tot0, cov0, pf)
    /\ let out := report_flux label F ts tot in let lost := report_flux label F ts cov in let hidden := dict_sum cov in
       let B := phot_flux F T D f in
       (* the light lost is that of what lies behind the planet *)
       (forall lo hi, ld_nonneg s -> (forall j i, behind_planet s lat0 lon0 C j i -> lo <= pix_flux F T D f M j i <= hi) ->
          lo * hidden <= lost <= hi * hidden)
       (* the planet in front of the photosphere: spots and faculae elsewhere change the depth *)
       /\ (0 < B -> (forall j i, behind_planet s lat0 lon0 C j i -> acell M j i NaN = Fin T) ->
            lost = B * hidden
            /\ out = B * (1 - deficit label F T B ts tot0)
            /\ (out <> 0 -> lost / out = hidden / (1 - deficit label F T B ts tot0))
            /\ (ld_nonneg s -> 0 < out ->
                 ((forall j i, pixel (st_grid s) j i -> 0 < pix_mu s lat0 lon0 j i -> pix_flux F T D f M j i <= B) -> hidden <= lost / out)
                 /\ ((forall j i, pixel (st_grid s) j i -> 0 < pix_mu s lat0 lon0 j i -> B <= pix_flux F T D f M j i) -> lost / out <= hidden)
                 /\ ((forall j i, pixel (st_grid s) j i -> 0 < pix_mu s lat0 lon0 j i -> pix_flux F T D f M j i <= B) ->
                     (exists j i, pixel (st_grid s) j i /\ 0 < seen s lat0 lon0 A j i /\ pix_flux F T D f M j i < B) ->
                     0 < hidden -> hidden < lost / out))).
Proof.
  intros label s lat0 lon0 orbit planet phase incl T D A M C pf f F ts TD V NW DL AP LT.
  assert (NZ : disk s lat0 lon0 A <> 0) by lra.
  destruct (source_form _ _ _ _ _ _ _ _ _ _ _ _ _ _ f TD V NZ DL AP) as [tm [cm [tot [cov [E [Hc [EW [PX [SC [ST RF]]]]]]]]]].
  destruct (source_form _ _ _ _ _ _ _ _ _ _ _ _ _ _ 0 TD V NZ DL AP) as [tm0 [cm0 [tot0 [cov0 [E0 [_ [_ [PX0 [_ [ST0 RF0]]]]]]]]]].
  set (pts := cells (grid_points (st_grid s))) in *. set (w := wgt s lat0 lon0) in *. set (W := disk s lat0 lon0 A) in *.
  exists tot, cov, tot0, cov0. split; auto. split; auto. cbv zeta.
  destruct (RF F ts LT) as [RO RL]. set (out := report_flux label F ts tot) in *. set (lost := report_flux label F ts cov) in *.
  set (hid := dict_sum cov) in *. set (B := phot_flux F T D f).
  assert (BH : forall p, In p pts -> w p * cm p = 0 \/ exists j i, p = pt (st_grid s) (j, i) /\ behind_planet s lat0 lon0 C j i).
  { apply (wgt_behind s lat0 lon0 C cm). intros j i P. apply PX; auto. }
  assert (MX : forall j i, pixel (st_grid s) j i -> pix_flux F T D f M j i = mixf F T D f (tm (pt (st_grid s) (j, i)))).
  { intros j i P. apply pix_mixf. apply PX; auto. }
  assert (IW : 0 < / W) by (apply Rinv_0_lt_compat; auto).
  assert (SUM : forall (h : R * R -> R) c, c * (rsum (map h pts) / W) = rsum (map (fun p => c * h p) pts) / W).
  { intros. rewrite rsum_map_scal. unfold Rdiv. ring. }
  assert (WN : ld_nonneg s -> forall p, In p pts -> 0 <= w p) by (intros; apply wgt_nonneg; auto; apply V).
  split.
  - intros lo hi LD HB. rewrite SC, RL, !SUM. 
    assert (X : forall p, In p pts -> lo * (w p * cm p) <= w p * cm p * mixf F T D f (tm p) <= hi * (w p * cm p)).
    { intros p I. destruct (BH p I) as [Z|[j [i [-> BP]]]]. rewrite Z; lra. pose proof (HB j i BP) as K. rewrite MX in K by apply BP.
      assert (0 <= w (pt (st_grid s) (j, i)) * cm (pt (st_grid s) (j, i))) by (apply Rmult_le_pos; [apply WN|apply Hc]; auto). nra. }
    split; apply Rmult_le_compat_r; try lra; apply rsum_map_le; intros p I; apply X; auto.
  - intros BP HT.
    assert (L1 : lost = B * hid).
    { rewrite SC, RL, SUM. f_equal. apply rsum_map_ext. intros p I. destruct (BH p I) as [Z|[j [i [-> HB]]]]. rewrite Z; ring.
      pose proof (HT j i HB) as K. destruct (PX j i ltac:(apply HB)) as [_ [K2 _]]. rewrite K in K2. injection K2 as K2. rewrite <- K2.
      unfold mixf. destruct (Req_EM_T T T); try congruence. fold B. ring. }
    assert (L2 : out = B * (1 - deficit label F T B ts tot0)).
    { assert (EN : rsum (map (fun t => entry tot0 (label t)) ts) = 1).
      { destruct (RF0 (fun _ => 1) ts LT) as [K _]. unfold report_flux in K. rewrite (rsum_map_ext _ (fun t => 1 * entry tot0 (label t)) (fun t => entry tot0 (label t))) in K by (intros; ring).
        rewrite K. rewrite EW. rewrite (rsum_map_ext _ _ w). field. rewrite <- EW; auto. intros p I. unfold mixf, phot_flux. destruct (Req_EM_T _ T); ring. }
      destruct (report_mix label F T D f ts tot0) as [K|K]; [|exfalso; unfold B in BP; lra].
      rewrite EN in K. fold B in K. rewrite <- K. destruct (RF0 (mixf F T D f) ts LT) as [K0 _]. rewrite K0, RO. f_equal. apply rsum_map_ext. intros p I.
      apply In_pt in I. destruct I as [j [i [P ->]]]. f_equal.
      destruct (PX j i P) as [_ [K1 _]]. destruct (PX0 j i P) as [_ [K2 _]]. rewrite K1 in K2. injection K2 as <-. set (t := tm _).
      unfold mixf at 2. destruct (Req_EM_T t T) as [->|N]; auto. unfold mixf, phot_flux at 2. destruct (Req_EM_T T T); try congruence. ring. }
    split; auto. split; auto. split.
    { intros NO. assert (1 - deficit label F T B ts tot0 <> 0) by (intros Z; apply NO; rewrite L2, Z; ring). rewrite L1, L2. field. split; auto; lra. }
    intros LD OP.
    assert (FR : forall (P : R -> Prop), (forall j i, pixel (st_grid s) j i -> 0 < pix_mu s lat0 lon0 j i -> P (pix_flux F T D f M j i)) ->
      forall p, In p pts -> w p = 0 \/ P (mixf F T D f (tm p))).
    { intros P HP p I. destruct (wgt_front s lat0 lon0 p I) as [Z|[j [i [-> [K1 K2]]]]]; auto. right. rewrite <- MX by auto. auto. }
    assert (OB : B = rsum (map (fun p => B * w p) pts) / W). { rewrite rsum_map_scal, <- EW. field. auto. }
    assert (HN : 0 <= hid). { rewrite SC. apply Rmult_le_pos; try lra. apply rsum_nonneg. intros x J. apply in_map_iff in J. destruct J as [p [<- J]]. apply Rmult_le_pos; [apply WN|apply Hc]; auto. }
    assert (DIV : forall x, lost / out - x = (lost - x * out) / out) by (intros; field; lra).
    split; [|split].
    + intros HD. assert (out <= B). { rewrite OB, RO. apply Rmult_le_compat_r; try lra. apply rsum_map_le. intros p I. pose proof (WN LD p I).
        destruct (FR (fun x => x <= B) HD p I) as [Z|Z]. rewrite Z; lra. nra. }
      assert (0 <= lost / out - hid). { rewrite DIV. apply Rdiv_le_0_compat; auto. rewrite L1. nra. } lra.
    + intros HD. assert (B <= out). { rewrite OB, RO. apply Rmult_le_compat_r; try lra. apply rsum_map_le. intros p I. pose proof (WN LD p I).
        destruct (FR (fun x => B <= x) HD p I) as [Z|Z]. rewrite Z; lra. nra. }
      assert (0 <= - (lost / out - hid)). { rewrite DIV. replace (- ((lost - hid * out) / out)) with ((hid * out - lost) / out) by (field; lra). apply Rdiv_le_0_compat; auto. rewrite L1. nra. } lra.
    + intros HD [j [i [P [SP PB]]]] HP. assert (out < B).
      { rewrite OB, RO. apply Rmult_lt_compat_r; try lra. apply (rsum_map_lt_one _ _ _ _ (pt (st_grid s) (j, i))).
        - apply PX; auto.
        - intros p I. pose proof (WN LD p I). destruct (FR (fun x => x <= B) HD p I) as [Z|Z]. rewrite Z; lra. nra.
        - rewrite MX in PB by auto. destruct (PX j i P) as [K _]. rewrite K in SP. nra. }
      assert (0 < lost / out - hid). { rewrite DIV. apply Rdiv_lt_0_compat; auto. rewrite L1. nra. } lra.
Qed.

(** two colours *)
Lemma C105_colours_lemma :
  forall label s lat0 lon0 orbit planet phase incl T D A M C pf f F G ts,
  two_decimals label ->
  disk_view s lat0 lon0 orbit planet phase incl T D A M C pf -> 0 < disk s lat0 lon0 A ->
  distinct_labels label s M T D -> (appears (st_grid s) M T \/ D = 0) -> lists_temps s M T D ts -> ld_nonneg s ->
  0 < phot_flux F T D f -> 0 < phot_flux G T D f ->
  (* the planet is in front of the photosphere *)
  (forall j i, behind_planet s lat0 lon0 C j i -> acell M j i NaN = Fin T) ->
  (* spots and faculae are darker, compared with the photosphere, in the colour F *)
  (forall j i, pixel (st_grid s) j i -> 0 < pix_mu s lat0 lon0 j i ->
     pix_flux F T D f M j i / phot_flux F T D f <= pix_flux G T D f M j i / phot_flux G T D f) ->
  exists tot cov, calc_coverage s lat0 lon0 (Fin f) orbit planet phase incl = Ok (tot, cov, pf)
    /\ let depth := fun H => report_flux label H ts cov / report_flux label H ts tot in
       (0 < report_flux label F ts tot -> depth G <= depth F)
       (* a star without spots and faculae: the same depth in all colours, the hidden part of the disk *)
       /\ ((forall j i, pixel (st_grid s) j i -> 0 < pix_mu s lat0 lon0 j i -> acell M j i NaN = Fin T) ->
           depth F = dict_sum cov /\ depth G = dict_sum cov).
Proof.
  intros label s lat0 lon0 orbit planet phase incl T D A M C pf f F G ts TD V NW DL AP LT LD BF BG HT HC.
  destruct (C105_lemma _ _ _ _ _ _ _ _ _ _ _ _ _ _ f F ts TD V NW DL AP LT) as [tot [cov [tot0 [cov0 [E [_ [_ KF]]]]]]].
  destruct (C105_lemma _ _ _ _ _ _ _ _ _ _ _ _ _ _ f G ts TD V NW DL AP LT) as [tot' [cov' [tot0' [cov0' [E' [_ [_ KG]]]]]]].
  assert (tot' = tot) by congruence. assert (cov' = cov) by congruence. subst tot' cov'. exists tot, cov. split; auto. cbv zeta.
  destruct (KF BF HT) as [LF [_ [_ PF]]]. destruct (KG BG HT) as [LG [_ [_ PG]]]. clear KF KG. specialize (PF LD). specialize (PG LD).
  assert (NZ : disk s lat0 lon0 A <> 0) by lra.
  destruct (source_form _ _ _ _ _ _ _ _ _ _ _ _ _ _ f TD V NZ DL AP) as [tm [cm [tot1 [cov1 [E1 [Hc [EW [PX [SC [ST RF]]]]]]]]]].
  assert (tot1 = tot) by congruence. assert (cov1 = cov) by congruence. subst tot1 cov1.
  destruct (RF F ts LT) as [OF _]. destruct (RF G ts LT) as [OG _].
  set (pts := cells (grid_points (st_grid s))) in *. set (w := wgt s lat0 lon0) in *. set (W := disk s lat0 lon0 A) in *.
  set (oF := report_flux label F ts tot) in *. set (oG := report_flux label G ts tot) in *. set (lF := report_flux label F ts cov) in *. set (lG := report_flux label G ts cov) in *.
  set (bF := phot_flux F T D f) in *. set (bG := phot_flux G T D f) in *. set (hid := dict_sum cov) in *.
  assert (WN : forall p, In p pts -> 0 <= w p) by (intros; apply wgt_nonneg; auto; apply V).
  assert (IW : 0 < / W) by (apply Rinv_0_lt_compat; auto).
  assert (HN : 0 <= hid). { rewrite SC. apply Rmult_le_pos; try lra. apply rsum_nonneg. intros x J. apply in_map_iff in J. destruct J as [p [<- J]]. apply Rmult_le_pos; [apply WN|apply Hc]; auto. }
  split.
  - intros PO. assert (CMP : oF / bF <= oG / bG).
    { rewrite OF, OG. unfold Rdiv. rewrite !(Rmult_comm _ (/ W)), !Rmult_assoc. apply Rmult_le_compat_l. lra. 
      rewrite !(Rmult_comm (rsum _)), <- !rsum_map_scal. apply rsum_map_le. intros p I.
      destruct (wgt_front s lat0 lon0 p I) as [Z|[j [i [-> [K1 K2]]]]]. fold w in Z. rewrite Z. lra.
      pose proof (HC j i K1 K2) as K. rewrite !(pix_mixf _ _ _ _ _ _ _ (tm (pt (st_grid s) (j, i)))) in K by (apply PX; auto).
      unfold Rdiv in K. pose proof (WN _ I). set (x := mixf F T D f _) in *. set (y := mixf G T D f _) in *. set (wp := w _) in *.
      replace (/ bF * (wp * x)) with (wp * (x * / bF)) by ring. replace (/ bG * (wp * y)) with (wp * (y * / bG)) by ring. apply Rmult_le_compat_l; auto. }
    assert (QF : 0 < oF / bF) by (apply Rdiv_lt_0_compat; auto). assert (PG' : 0 < oG / bG) by lra.
    assert (OGP : 0 < oG). { replace oG with (oG / bG * bG) by (field; lra). apply Rmult_lt_0_compat; auto. }
    replace (lF / oF) with (hid * / (oF / bF)) by (rewrite LF; field; split; lra).
    replace (lG / oG) with (hid * / (oG / bG)) by (rewrite LG; field; split; lra).
    apply Rmult_le_compat_l; auto. apply Rinv_le_contravar; auto.
  - intros CL.
    assert (FL : forall H j i, pixel (st_grid s) j i -> 0 < pix_mu s lat0 lon0 j i -> pix_flux H T D f M j i = phot_flux H T D f).
    { intros H j i P K. rewrite (pix_mixf _ _ _ _ _ _ _ T) by auto. unfold mixf. destruct (Req_EM_T T T); congruence. }
    assert (OUT : forall H, report_flux label H ts tot = phot_flux H T D f).
    { intros H. destruct (RF H ts LT) as [-> _]. rewrite (rsum_map_ext _ _ (fun p => phot_flux H T D f * w p)).
      - rewrite rsum_map_scal, <- EW. field; auto.
      - intros p I. destruct (wgt_front s lat0 lon0 p I) as [Z|[j [i [-> [K1 K2]]]]]. fold w in Z. rewrite Z. ring.
        rewrite <- (FL H j i K1 K2). rewrite (pix_mixf _ _ _ _ _ _ _ (tm (pt (st_grid s) (j, i)))) by (apply PX; auto). ring. }
    pose proof (OUT F) as X1. pose proof (OUT G) as X2. fold oF bF in X1. fold oG bG in X2. rewrite LF, LG, X1, X2. split; field; lra.
Qed.

(** adding spots *)
Lemma C105_spots_lemma :
  forall label s l lat0 lon0 orbit planet phase incl T D A M M' C C' pf pf' f F ts ts',
  two_decimals label ->
  disk_view s lat0 lon0 orbit planet phase incl T D A M C pf ->
  disk_view (star_add_spot s l) lat0 lon0 orbit planet phase incl T D A M' C' pf' ->
  fcc_facs (st_facs s) = [] ->
  (forall x, In x (sc_spots (st_spots s)) -> fin_temps x) -> (forall x, In x l -> fin_temps x) ->
  ld_nonneg s -> 0 < disk s lat0 lon0 A ->
  distinct_labels label s M T D -> (appears (st_grid s) M T \/ D = 0) -> lists_temps s M T D ts ->
  distinct_labels label (star_add_spot s l) M' T D -> (appears (st_grid s) M' T \/ D = 0) -> lists_temps (star_add_spot s l) M' T D ts' ->
  (forall t t', t <= t' -> F t <= F t') ->
  f = 0 \/ (0 <= f <= 1 /\ 0 <= D /\ forall x t, In x l -> sp_teff_umbra x = Fin t \/ sp_teff_pen x = Fin t -> t <= T - D) ->
  exists tot cov tot' cov',
    calc_coverage s lat0 lon0 (Fin f) orbit planet phase incl = Ok (tot, cov, pf)
    /\ calc_coverage (star_add_spot s l) lat0 lon0 (Fin f) orbit planet phase incl = Ok (tot', cov', pf)
    /\ let out := report_flux label F ts tot in let lost := report_flux label F ts cov in
       let out' := report_flux label F ts' tot' in let lost' := report_flux label F ts' cov' in
       (* the planet hides the same part of the disk, but less light *)
       dict_sum cov' = dict_sum cov /\ out' <= out /\ lost' <= lost
       (* new spots that are nowhere behind the planet: a deeper transit *)
       /\ ((forall j i, behind_planet s lat0 lon0 C j i -> acell M' j i NaN = acell M j i NaN) ->
           lost' = lost /\ (0 <= lost -> 0 < out' -> lost / out <= lost' / out')).
Proof.
  intros label s l lat0 lon0 orbit planet phase incl T D A M M' C C' pf pf' f F ts ts' TD V V' NF H1 H2 LD DP DL AP LT DL' AP' LT' HF HD.
  destruct (C88_lemma _ _ _ _ _ _ _ _ _ _ _ _ _ _ _ _ _ V V' NF H1 H2) as [PXL [FL [_ [EC EP]]]]. subst C' pf'.
  assert (NZ : disk s lat0 lon0 A <> 0) by lra.
  assert (NZ' : disk (star_add_spot s l) lat0 lon0 A <> 0) by exact NZ.
  destruct (source_form _ _ _ _ _ _ _ _ _ _ _ _ _ _ f TD V NZ DL AP) as [tm [cm [tot [cov [E [Hc [EW [PX [SC [ST RF]]]]]]]]]].
  destruct (source_form _ _ _ _ _ _ _ _ _ _ _ _ _ _ f TD V' NZ' DL' AP') as [tm' [cm' [tot' [cov' [E' [Hc' [EW' [PX' [SC' [ST' RF']]]]]]]]]].
  change (st_grid (star_add_spot s l)) with (st_grid s) in *. change (wgt (star_add_spot s l)) with (wgt s) in *.
  change (disk (star_add_spot s l)) with (disk s) in *. change (seen (star_add_spot s l)) with (seen s) in *.
  destruct (RF F ts LT) as [RO RL]. destruct (RF' F ts' LT') as [RO' RL'].
  set (pts := cells (grid_points (st_grid s))) in *. set (w := wgt s lat0 lon0) in *. set (W := disk s lat0 lon0 A) in *.
  exists tot, cov, tot', cov'. split; auto. split; auto. cbv zeta.
  assert (CC : forall p, In p pts -> cm' p = cm p).
  { intros p I. apply In_pt in I. destruct I as [j [i [P ->]]]. destruct (PX j i P) as [_ [_ [<- _]]]. destruct (PX' j i P) as [_ [_ [<- _]]]. auto. }
  assert (IW : 0 < / W) by (apply Rinv_0_lt_compat; auto).
  assert (WN : forall p, In p pts -> 0 <= w p) by (intros; apply wgt_nonneg; auto; apply V).
  destruct (add_spot_pixel s l lat0 lon0 T M M') as [um [um' [EM [EM' HP]]]]; try apply V; try apply V'; auto.
  assert (LE : forall p, In p pts -> mixf F T D f (tm' p) <= mixf F T D f (tm p)).
  { intros p I. apply In_pt in I. destruct I as [j [i [P ->]]].
    destruct (PX j i P) as [_ [K1 _]]. destruct (PX' j i P) as [_ [K2 _]].
    rewrite EM, acell_grid in K1 by auto. rewrite EM', acell_grid in K2 by auto. injection K1 as K1. injection K2 as K2. 
    change (acell (grid_points (st_grid s)) j i (0, 0)) with (pt (st_grid s) (j, i)) in *. rewrite <- K1, <- K2.
    destruct (HP (pt (st_grid s) (j, i))) as [[L1 L2] O]. set (a := um' _) in *. set (b := um _) in *. unfold mixf, phot_flux. destruct O as [->|[x [Ix K]]]. lra.
    destruct (Req_EM_T a T) as [E1|E1], (Req_EM_T b T) as [E2|E2]; try lra.
    - destruct HD as [->|[Hf [HD HL]]].
      + pose proof (HF a T ltac:(lra)). lra.
      + pose proof (HF a (T - D) (HL x _ Ix K)). pose proof (HF (T - D) T ltac:(lra)). nra.
    - apply HF; auto. }
  split; [|split; [|split]].
  - rewrite SC, SC'. f_equal. apply rsum_map_ext. intros p I. rewrite CC; auto.
  - rewrite RO, RO'. apply Rmult_le_compat_r; try lra. apply rsum_map_le. intros p I. apply Rmult_le_compat_l; auto.
  - rewrite RL, RL'. apply Rmult_le_compat_r; try lra. apply rsum_map_le. intros p I. rewrite CC by auto. apply Rmult_le_compat_l; auto. apply Rmult_le_pos; auto. apply Hc; auto.
  - intros SAME. assert (EL : report_flux label F ts' cov' = report_flux label F ts cov).
    { rewrite RL, RL'. f_equal. apply rsum_map_ext. intros p I. rewrite CC by auto.
      destruct (wgt_behind s lat0 lon0 C cm (fun j i P => proj1 (proj2 (proj2 (PX j i P)))) p I) as [Z|[j [i [-> BP]]]].
      - fold w in Z. rewrite Z. ring.
      - pose proof (SAME j i BP) as K. destruct (PX j i ltac:(apply BP)) as [_ [K1 _]]. destruct (PX' j i ltac:(apply BP)) as [_ [K2 _]].
        rewrite K1, K2 in K. injection K as K. rewrite K. auto. }
    split; auto. intros LN OP. rewrite EL. unfold Rdiv. apply Rmult_le_compat_l; auto. apply Rinv_le_contravar; auto.
    rewrite RO, RO'. apply Rmult_le_compat_r; try lra. apply rsum_map_le. intros p I. apply Rmult_le_compat_l; auto.
Qed.
