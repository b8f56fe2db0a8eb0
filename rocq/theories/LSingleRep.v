(** Lemmas for C103-C104: the maps and the report in single precision *)
From Coq Require Import Reals ZArith Bool List Lra Lia Sorted FunctionalExtensionality.
From Verif Require Import Num Py MConfig MHelpers MGrid MSpots MFaculae MXoflares MFlares MGranules MStar MSingle
  Spec SpecStar SpecDisk SpecSingle LBase LGrid LSpotMap LSpotCov LStar LDisk LStarFac LStarCov LSym LTransit LSingle.
Import ListNotations.
Open Scope R_scope.

(** ** the rounding is determined *)
Lemma rhe_tie : forall x z, z <> rhe x -> Rabs (IZR z - x) = Rabs (IZR (rhe x) - x) -> Z.even (rhe x) = true /\ Z.abs (z - rhe x) = 1%Z.
Proof.
  intros x z N E.
  assert (H : Rabs (IZR (rhe x) - x) <= 1/2).
  { destruct (base_Int_part x) as [A B]. set (f := Int_part x) in *.
    destruct (Rle_lt_dec (x - IZR f) (1/2)). eapply Rle_trans. apply (rhe_near _ f). apply Rabs_le; lra.
    eapply Rle_trans. apply (rhe_near _ (f + 1)). rewrite plus_IZR. apply Rabs_le; lra. }
  assert (K : Z.abs (z - rhe x) = 1%Z).
  { assert (L : Rabs (IZR (z - rhe x)) <= 1).
    { rewrite minus_IZR. replace (IZR z - IZR (rhe x)) with ((IZR z - x) + (x - IZR (rhe x))) by ring. eapply Rle_trans. apply Rabs_triang. rewrite (Rabs_minus_sym x). lra. }
    rewrite <- abs_IZR in L. apply le_IZR in L. lia. }
  split; auto.
  assert (H2 : Rabs (IZR (rhe x) - x) = 1/2).
  { assert (1 <= Rabs (IZR (z - rhe x))) by (rewrite <- abs_IZR, K; lra). rewrite minus_IZR in H0.
    replace (IZR z - IZR (rhe x)) with ((IZR z - x) + (x - IZR (rhe x))) in H0 by ring. pose proof (Rabs_triang (IZR z - x) (x - IZR (rhe x))). rewrite (Rabs_minus_sym x) in H1. lra. }
  clear - H2. unfold rhe in *. destruct (base_Int_part x) as [A B]. set (f := Int_part x) in *.
  destruct (Rlt_dec (x - IZR f) (1/2)). { rewrite Rabs_minus_sym, Rabs_right in H2; lra. }
  destruct (Rlt_dec (1/2) (x - IZR f)). { rewrite plus_IZR, Rabs_right in H2; lra. }
  destruct (Z.even f) eqn:E; auto. rewrite Z.even_add, E. auto.
Qed.
Lemma f32_round_nearest : forall x, nearest32 x (f32_round x).
Proof.
  intros x. split; [apply f32_round_value|]. split; [intros; apply f32_round_near; auto|].
  intros z F D E. pose proof (f32_round_near x) as NR. unfold f32_round in *.
  destruct (Req_EM_T x 0) as [-> |N]. { exfalso. apply D. rewrite !Rminus_0_r, Rabs_R0 in E. revert E. unfold Rabs. destruct (Rcase_abs z); lra. }
  set (u := powerRZ 2 (f32_exp x)) in *. assert (U : 0 < u) by apply p2_pos.
  assert (G : exists k : Z, z = IZR k * u).
  { pose proof (binade x N) as [B1 B2]. set (b := Int_part (ln (Rabs x) / ln 2)) in *.
    destruct (Rle_lt_dec (powerRZ 2 b) (Rabs z)) as [H|H]. apply f32_grid; auto.
    destruct (Z_le_gt_dec (-149) b) as [Hb|Hb].
    - exfalso. pose proof (p2_pos b) as Pb.
      assert (V : f32_value (powerRZ 2 b)). { exists 1%Z, b. split. simpl; lia. split; auto. ring. }
      assert (V' : f32_value (- powerRZ 2 b)). { exists (-1)%Z, b. split. simpl; lia. split; auto. ring. }
      apply NR in V. apply NR in V'. rewrite <- E in V, V'. apply Rabs_def2 in H. destruct H.
      revert B1 B2 V V'. clear E NR. unfold Rabs. repeat destruct (Rcase_abs _); lra.
    - destruct F as [m [e [Hm [He ->]]]]. assert (Q : f32_exp x = (-149)%Z) by (unfold f32_exp; fold b; lia). unfold u. rewrite Q.
      exists (m * 2 ^ (e - -149))%Z. rewrite mult_IZR, <- p2_Z by lia. rewrite Rmult_assoc, <- p2_add. do 2 f_equal. lia. }
  destruct G as [k ->]. set (r := rhe (x / u)) in *.
  assert (E' : Rabs (IZR k - x / u) = Rabs (IZR r - x / u)).
  { replace (IZR k * u - x) with ((IZR k - x / u) * u) in E by (field; lra). replace (IZR r * u - x) with ((IZR r - x / u) * u) in E by (field; lra).
    rewrite !Rabs_mult, (Rabs_right u) in E by lra. apply Rmult_eq_reg_r in E; auto. lra. }
  destruct (rhe_tie (x / u) k) as [Ev K]; auto. { intro Q. apply D. rewrite Q. auto. }
  fold r in Ev, K. apply Zeven_bool_iff in Ev. apply Zeven_ex in Ev. destruct Ev as [m Em]. exists m.
  replace (IZR k * u - IZR r * u) with (IZR (k - r) * u) by (rewrite minus_IZR; ring). rewrite Rabs_mult, <- abs_IZR, K, (Rabs_right u) by lra. rewrite Em. ring.
Qed.
Lemma nearest32_unique : forall x y y', nearest32 x y -> nearest32 x y' -> y = y'.
Proof.
  intros x y y' [V [N E]] [V' [N' E']]. destruct (Req_dec y y') as [|D]; auto. exfalso.
  assert (Q : Rabs (y' - x) = Rabs (y - x)) by (apply Rle_antisym; auto).
  destruct (E y' V' (not_eq_sym D) Q) as [m A]. destruct (E' y V D (eq_sym Q)) as [m' A'].
  rewrite Rabs_minus_sym in A'. set (d := Rabs (y' - y)) in *.
  assert (P : 0 < d) by (apply Rabs_pos_lt; lra).
  assert (K : IZR (2 * m' - 2 * m) * d = y' - y) by (rewrite minus_IZR; lra).
  assert (L : Rabs (IZR (2 * m' - 2 * m)) * d = d). { rewrite <- (Rabs_right d) at 1 by lra. rewrite <- Rabs_mult, K. auto. }
  assert (O : Rabs (IZR (2 * m' - 2 * m)) = 1) by (apply (Rmult_eq_reg_r d); lra).
  rewrite <- abs_IZR in O. apply eq_IZR in O. lia.
Qed.
Lemma single_rounding_eq : forall rnd, single_rounding rnd -> rnd = f32_round.
Proof. intros rnd H. apply functional_extensionality. intros x. eapply nearest32_unique. apply H. apply f32_round_nearest. Qed.
Lemma C103_rounding_lemma :
  exists rnd, single_rounding rnd /\ (forall rnd', single_rounding rnd' -> rnd' = rnd)
  /\ (forall x y, x <= y -> rnd x <= rnd y)
  /\ (forall z, (Z.abs z <= 2 ^ 24)%Z -> rnd (IZR z) = IZR z)
  /\ (forall x, powerRZ 2 (-126) <= Rabs x -> Rabs (rnd x - x) <= Rabs x / 2 ^ 24)
  /\ (forall x, Rabs x <= powerRZ 2 127 -> f32 (Fin x) = Fin (rnd x)).
Proof.
  exists f32_round. split; [exact f32_round_nearest|]. split; [intros; apply single_rounding_eq; auto|].
  split; [exact f32_round_mono|]. split; [intros; apply f32_round_id, f32_whole; auto|]. split; [|intros; apply f32_fin; auto].
  intros x H. replace (2 ^ 24) with 16777216 by (simpl; ring). apply f32_round_err; auto.
Qed.

(** ** the maps *)
Lemma p127_big : 16777216 <= powerRZ 2 127.
Proof. replace 16777216 with (powerRZ 2 24) by (rewrite p2_Z by lia; reflexivity). apply p2_le. lia. Qed.
Lemma clip_fits : forall s k T, st_teff s = Fin T -> exists t, fac_temp s k = Fin t /\ Rabs t <= powerRZ 2 127
  /\ ((exists z, T = IZR z) -> exists z, t = IZR z /\ (Z.abs z <= 2 ^ 23)%Z).
Proof.
  intros s k T E. unfold fac_temp, clip_teff. rewrite E, nadd_fin. pose proof p127_big as P. unfold TEFF_HI, TEFF_LO.
  unfold ngt. destruct (nlt (Fin 3900) (Fin (IZR k + T))) eqn:H.
  { exists 3900. split; auto. split. rewrite Rabs_right; lra. intros _. exists 3900%Z. split; auto. simpl. lia. }
  destruct (nlt (Fin (IZR k + T)) (Fin 2300)) eqn:L.
  { exists 2300. split; auto. split. rewrite Rabs_right; lra. intros _. exists 2300%Z. split; auto. simpl. lia. }
  simpl in H, L. apply Rltb_false in H. apply Rltb_false in L. exists (IZR k + T). split; auto. split. rewrite Rabs_right; lra.
  intros [z ->]. exists (k + z)%Z. rewrite plus_IZR. split; auto. rewrite <- plus_IZR in H, L. apply le_IZR in H. apply le_IZR in L. change (2 ^ 23)%Z with 8388608%Z. lia.
Qed.
Lemma fold_pv_P : forall (P : num -> Prop) Rs p l m, P m -> (forall x, In x l -> P (sp_teff_umbra x) /\ P (sp_teff_pen x)) -> P (fold_left (pv Rs p) l m).
Proof.
  induction l as [|x l IH]; intros m M H; simpl; auto. apply IH. 2:{ intros; apply H; right; auto. }
  destruct (H x (or_introl eq_refl)). unfold pv. destruct (umb_b _ _ _ && _)%bool; auto. destruct (pen_b _ _ _ && _)%bool; auto.
Qed.
Lemma faculae_P : forall (P : num -> Prop) s lat0 lon0 l F m, (forall f, In f l -> fc_grid f = st_grid s) -> (forall k, P (fac_temp s k)) -> (forall p, P (F p)) ->
  paint_faculae s lat0 lon0 (star_mu s lat0 lon0) (amap F (grid_points (st_grid s))) l = Ok m ->
  exists G, m = amap G (grid_points (st_grid s)) /\ forall p, P (G p).
Proof.
  induction l as [|f l IH]; intros F m U K H E; cbn [paint_faculae] in E. { injection E as <-. eauto. }
  apply bind_ok in E. destruct E as [m1 [E1 E]]. destruct (paint_facula_inv _ _ _ _ _ _ (U f (or_introl eq_refl)) E1) as [[_ ->]|[kw [kf [q [q' [b [_ ->]]]]]]].
  - apply (IH F); auto. intros; apply U; right; auto.
  - eapply (IH _ m); [intros; apply U; right; auto|auto| |exact E]. intros p. cbv beta. destruct (insidep s f p); auto. destruct (Rleb _ _); auto.
Qed.
Lemma full_map_P : forall (P : num -> Prop) s lat0 lon0 M, star_unified s -> P (st_teff s) ->
  (forall x, In x (sc_spots (st_spots s)) -> P (sp_teff_umbra x) /\ P (sp_teff_pen x)) -> (forall k, P (fac_temp s k)) ->
  add_faculae_to_map s lat0 lon0 = Ok M -> exists G, M = amap G (grid_points (st_grid s)) /\ forall p, P (G p).
Proof.
  intros P s lat0 lon0 M U HT HS HF H. unfold add_faculae_to_map in H. rewrite star_map_eq in H by auto. cbn [bind] in H.
  eapply faculae_P; [| | |exact H]; auto. apply U. intros p. apply fold_pv_P; auto.
Qed.
Lemma spot32_fits : forall x, spot32 x -> fits32 (sp_teff_umbra x) /\ fits32 (sp_teff_pen x).
Proof. intros x [tu [tp [A [B [_ [C D]]]]]]. split; [exists tu|exists tp]; auto. Qed.
Lemma full_map_fits : forall s lat0 lon0 M T, star_unified s -> st_teff s = Fin T -> Rabs T <= powerRZ 2 127 ->
  (forall x, In x (sc_spots (st_spots s)) -> spot32 x) -> add_faculae_to_map s lat0 lon0 = Ok M ->
  exists tm, M = amap (fun p => Fin (tm p)) (grid_points (st_grid s)) /\ (forall p, Rabs (tm p) <= powerRZ 2 127)
    /\ add_faculae_to_map32 s lat0 lon0 = Ok (amap (fun p => Fin (f32_round (tm p))) (grid_points (st_grid s))).
Proof.
  intros s lat0 lon0 M T U ET BT HS H.
  destruct (full_map_P fits32 s lat0 lon0 M U) as [G [-> K]]; auto. { exists T; auto. } { intros; apply spot32_fits; auto. }
  { intros k. destruct (clip_fits s k T ET) as [t [Et [Bt _]]]. exists t; auto. }
  exists (fun p => covr (G p)). assert (Q : forall p, G p = Fin (covr (G p)) /\ Rabs (covr (G p)) <= powerRZ 2 127).
  { intros p. destruct (K p) as [t [-> B]]. auto. }
  split. { apply amap_ext. intros; apply Q. } split. { intros; apply Q. }
  rewrite full_map32, H by (auto; rewrite ET; discriminate). cbn [rmap]. rewrite amap_amap. f_equal. apply amap_ext. intros p.
  destruct (Q p) as [E B]. rewrite E at 1. apply f32_fin; auto.
Qed.
Lemma C103_map_lemma : forall rnd s lat0 lon0 T, single_rounding rnd -> star_unified s -> st_teff s = Fin T -> Rabs T <= powerRZ 2 127 ->
  (forall x, In x (sc_spots (st_spots s)) -> spot32 x) ->
  (forall M, star_map s = Ok M -> exists M32, sc_map_pixels32 (st_spots s) (st_radius s) (st_teff s) = Ok M32 /\ grid_shaped (st_grid s) M32
     /\ forall j i, pixel (st_grid s) j i -> exists t, acell M j i NaN = Fin t /\ acell M32 j i NaN = Fin (rnd t))
  /\ (forall M, add_faculae_to_map s lat0 lon0 = Ok M -> exists M32, add_faculae_to_map32 s lat0 lon0 = Ok M32 /\ grid_shaped (st_grid s) M32
     /\ forall j i, pixel (st_grid s) j i -> exists t, acell M j i NaN = Fin t /\ acell M32 j i NaN = Fin (rnd t))
  /\ (forall e, add_faculae_to_map s lat0 lon0 = Raise e -> add_faculae_to_map32 s lat0 lon0 = Raise e).
Proof.
  intros rnd s lat0 lon0 T SR U ET BT HS. rewrite (single_rounding_eq rnd SR). split; [|split].
  - intros M H. pose proof (star_map_eq s U) as E. rewrite E in H. injection H as <-. unfold star_map in E.
    rewrite map32_eq, E; [|intros x I; split; auto; destruct U as [A [_ [B _]]]; rewrite A; auto|rewrite ET; discriminate].
    cbn [rmap]. rewrite amap_amap. eexists. split; [reflexivity|]. split; [apply grid_shaped_amap|].
    intros j i P. rewrite !acell_grid by auto. match goal with |- context [f32 ?a] => assert (F : fits32 a) end.
    { apply fold_pv_P. exists T; auto. intros; apply spot32_fits; auto. }
    destruct F as [t [-> B]]. exists t. split; auto. apply f32_fin; auto.
  - intros M H. destruct (full_map_fits s lat0 lon0 M T U ET BT HS H) as [tm [-> [B ->]]]. eexists. split; [reflexivity|]. split; [apply grid_shaped_amap|].
    intros j i P. rewrite !acell_grid by auto. eauto.
  - intros e H. rewrite full_map32, H; auto. rewrite ET; discriminate.
Qed.
Lemma C103_coverage_lemma : forall c Rs, (forall x, In x (sc_spots c) -> spot_on (sc_grid c) x /\ spot32 x) ->
  sc_get_coverage32 c Rs = sc_get_coverage c Rs.
Proof. exact coverage32_eq. Qed.

(** ** the report *)
Lemma share_form : forall s lat0 lon0 A C cm tm, good_grid (st_grid s) -> A = amap (fun p => Fin (rarea_at (st_grid s) p)) (grid_points (st_grid s)) ->
  (forall j i, pixel (st_grid s) j i -> C j i = cm (pt (st_grid s) (j, i))) ->
  forall t, share s lat0 lon0 A (amap (fun p => Fin (tm p)) (grid_points (st_grid s))) C t
    = bval s (cells (grid_points (st_grid s))) (fun p => wgt s lat0 lon0 p * cm p) tm (disk s lat0 lon0 A) t.
Proof.
  intros s lat0 lon0 A C cm tm G -> H t. unfold share, bval. f_equal. apply grid_sum_pt. intros j i P. rewrite H, acell_grid, seen_pt by auto.
  unfold pt. cbn [fst snd]. destruct (Req_EM_T _ t); ring.
Qed.
Definition base32 (V : R -> R) (ul : list R) (gt : R) : rdict :=
  let d := foldd V ul [] in if in_dec Req_EM_T (f32_round gt) ul then d else rset d (key gt) 0.
Lemma calc_coverage32_eq : forall s lat0 lon0 orbit planet phase incl T D A M C pf f,
  disk_view s lat0 lon0 orbit planet phase incl T D A M C pf -> disk s lat0 lon0 A <> 0 ->
  Rabs T <= powerRZ 2 127 -> Rabs (T - D) <= powerRZ 2 127 -> (forall x, In x (sc_spots (st_spots s)) -> spot32 x) ->
  exists M32 ul, add_faculae_to_map32 s lat0 lon0 = Ok M32
  /\ (forall j i, pixel (st_grid s) j i -> exists t, acell M j i NaN = Fin t /\ acell M32 j i NaN = Fin (f32_round t))
  /\ StronglySorted Rlt ul /\ (forall t, In t ul <-> exists t', appears (st_grid s) M t' /\ t = f32_round t')
  /\ calc_coverage32 s lat0 lon0 (Fin f) orbit planet phase incl
     = (do tot <- rgran (base32 (share s lat0 lon0 A M32 (fun _ _ => 1)) ul (T - D)) (key T) (key (T - D)) f ;;
        do cov <- rgran (base32 (share s lat0 lon0 A M32 (cell_val C)) ul (T - D)) (key T) (key (T - D)) f ;;
        Ok (lift tot, lift cov, pf)).
Proof.
  intros s lat0 lon0 orbit planet phase incl T D A M C pf f V NW BT BD HS.
  destruct (view_form _ _ _ _ _ _ _ _ _ _ _ _ _ V) as [_ [cm [EA [_ [EC [Hc [EW [_ [_ [_ EV]]]]]]]]]].
  destruct V as [Vu Vg Vr Vl Vt Vd Va Vm Vf Vk]. set (W := disk s lat0 lon0 A) in *. set (gp := grid_points (st_grid s)) in *.
  destruct (full_map_fits s lat0 lon0 M T Vu Vt BT HS Vm) as [tm [EM [Bm Vm']]]. fold gp in EM, Vm'.
  set (M32 := amap (fun p => Fin (f32_round (tm p))) gp) in *. exists M32.
  set (ul := runiq (map (fun p => f32_round (tm p)) (cells gp))) in *. exists ul. split; auto.
  split. { intros j i P. unfold M32. rewrite EM. unfold gp. rewrite !acell_grid by auto. eauto. }
  split; [apply runiq_sorted|].
  split. { intros t. unfold ul. rewrite runiq_In, in_map_iff. rewrite EM. split.
    - intros [p [<- I]]. apply In_pt in I. destruct I as [j [i [P ->]]]. eexists. split; [|reflexivity]. exists j, i. split; auto. unfold gp. rewrite acell_grid by auto. auto.
    - intros [t' [[j [i [P E]]] ->]]. unfold gp in E. rewrite acell_grid in E by auto. exists (pt (st_grid s) (j, i)). split. unfold pt. cbn [fst snd]. congruence. apply pt_In; auto. }
  pose proof Va as Va'. pose proof Vk as Vk'. rewrite EA in Va'. rewrite EC in Vk'. fold gp in Va', Vk'.
  assert (E1 : forall t, share s lat0 lon0 A M32 (fun _ _ => 1) t = bval s (cells gp) (wgt s lat0 lon0) (fun p => f32_round (tm p)) W t).
  { intros t. unfold M32, gp. rewrite (share_form s lat0 lon0 A (fun _ _ => 1) (fun _ => 1)) by auto. unfold bval. f_equal. apply rsum_map_ext. intros p _. destruct (Req_EM_T _ _); ring. }
  assert (E2 : forall t, share s lat0 lon0 A M32 (cell_val C) t = bval s (cells gp) (fun p => wgt s lat0 lon0 p * cm p) (fun p => f32_round (tm p)) W t).
  { intros t. unfold M32, gp. rewrite (share_form s lat0 lon0 A (cell_val C) cm) by auto. auto. }
  unfold calc_coverage32, star_jacobian. rewrite Va'. cbn [bind]. rewrite star_mu_eq. fold gp. rewrite !amap_amap.
  rewrite amap2_amap. cbn [bind]. rewrite Vm', Vk'. cbn [bind]. cbv zeta.
  rewrite amap2_amap. cbn [bind]. unfold M32 at 1 2. rewrite !cells_amap.
  rewrite (amap_ext _ _ (fun x => nmul (Fin (rarea_at (st_grid s) x)) (Fin (area_projection (law_cos lat0 lon0 (fst x) (snd x)))))
             (fun x => Fin (rarea_at (st_grid s) x * area_projection (law_cos lat0 lon0 (fst x) (snd x))))) by (intros; apply nmul_fin).
  rewrite (nsum_map_fin _ _ (wgt s lat0 lon0)).
  2:{ intros p _. rewrite !nmul_fin. auto. }
  fold gp in EW. rewrite <- EW. rewrite <- (map_map (fun p => f32_round (tm p)) Fin), nunique_fin. fold ul.
  pose proof (loop_eq (st_grid s) (fun p => f32_round (tm p)) (fun x => ld_plot s (law_cos lat0 lon0 (fst x) (snd x)))
    (fun x => rarea_at (st_grid s) x * area_projection (law_cos lat0 lon0 (fst x) (snd x))) cm W NW ul [] []) as L.
  fold gp in L. change (lift []) with (@nil (tkey * num)) in L. fold W. match goal with |- bind ?x _ = _ => match type of L with _ = ?r => replace x with r by (symmetry; exact L) end end. cbn [bind]. clear L.
  rewrite Vt, Vd, nsub_fin. fold (key T). fold (key (T - D)). rewrite (proj1 (f32_fin _ BD)).
  assert (NEW : negb (existsb (fun t => neq (Fin (f32_round (T - D))) t) (map Fin ul)) = if in_dec Req_EM_T (f32_round (T - D)) ul then false else true).
  { destruct (in_dec Req_EM_T (f32_round (T - D)) ul) as [I|I].
    - apply negb_false_iff. apply existsb_exists. exists (Fin (f32_round (T - D))). split. apply in_map; auto. apply neq_fin; auto.
    - apply negb_true_iff. apply existsb_false. intros x J. apply in_map_iff in J. destruct J as [t [<- J]]. apply neq_fin_false. congruence. }
  replace (nunique (cells M32)) with (map Fin ul) by (unfold M32; rewrite cells_amap, <- (map_map (fun p => f32_round (tm p)) Fin), nunique_fin; auto).
  rewrite NEW. clear NEW.
  assert (B : forall V V', (forall t, In t ul -> V t = V' t) ->
    (if (if in_dec Req_EM_T (f32_round (T - D)) ul then false else true) then dset tkey_eqb (lift (foldd V ul [])) (key (T - D)) (Fin 0) else lift (foldd V ul []))
    = lift (base32 V' ul (T - D))).
  { intros V V' H. assert (F : foldd V ul [] = foldd V' ul []).
    { generalize (@nil (tkey * R)). clearbody ul. clear - H. unfold foldd. induction ul; intros d; simpl; auto. rewrite H by (left; auto). apply IHul. intros; apply H; right; auto. }
    unfold base32. rewrite F. destruct (in_dec _ _ _); auto. apply lift_dset. }
  rewrite (B _ (share s lat0 lon0 A M32 (fun _ _ => 1))). 2:{ intros t _. rewrite E1. reflexivity. }
  rewrite (B _ (share s lat0 lon0 A M32 (cell_val C))). 2:{ intros t _. rewrite E2. reflexivity. }
  rewrite !granulate_lift.
  destruct (rgran (base32 (share s lat0 lon0 A M32 (fun _ _ => 1)) ul (T - D)) (key T) (key (T - D)) f); cbn [rmap bind]; [|auto].
  destruct (rgran (base32 (share s lat0 lon0 A M32 (cell_val C)) ul (T - D)) (key T) (key (T - D)) f); cbn [rmap bind]; auto.
Qed.

Lemma sorted_same : forall l l', StronglySorted Rlt l -> StronglySorted Rlt l' -> (forall t, In t l' <-> In t l) -> l' = l.
Proof.
  intros ul ul' SS SS'. revert ul SS. induction ul' as [|a l']; intros ul SS H.
  - destruct ul; auto. exfalso. apply (proj2 (H r)). left; auto.
  - inversion SS'; subst. destruct ul as [|b l]. exfalso. apply (proj1 (H a)). left; auto.
    inversion SS; subst. rewrite Forall_forall in *.
    assert (a = b).
    { destruct (proj1 (H a)) as [|I]; [left; auto|auto|]. destruct (proj2 (H b)) as [|J]; [left; auto|auto|].
      apply H5 in I. apply H3 in J. lra. }
    subst. f_equal. apply IHl'; auto. intros t. split; intros I.
    + destruct (proj1 (H t)); [right; auto|subst; apply H3 in I; lra|auto].
    + destruct (proj2 (H t)); [right; auto|subst; apply H5 in I; lra|auto].
Qed.
Lemma sorted_map : forall (r : R -> R) l, (forall x y, x <= y -> r x <= r y) -> (forall x y, In x l -> In y l -> r x = r y -> x = y) ->
  StronglySorted Rlt l -> StronglySorted Rlt (map r l).
Proof.
  intros r l M I SS. induction SS; simpl; constructor.
  - apply IHSS. intros; apply I; try right; auto.
  - rewrite Forall_forall in *. intros y J. apply in_map_iff in J. destruct J as [x [<- J]]. pose proof (H x J).
    destruct (M a x) as [|E]; try lra; auto. apply I in E; [lra|left; auto|right; auto].
Qed.
Lemma foldd_map : forall (r : R -> R) V V' l d, (forall t, In t l -> key (r t) = key t /\ V' (r t) = V t) -> foldd V' (map r l) d = foldd V l d.
Proof.
  unfold foldd. induction l as [|a l IH]; intros d H; simpl; auto. destruct (H a (or_introl eq_refl)) as [-> ->]. apply IH. intros; apply H; right; auto.
Qed.
Lemma C104_same_lemma : forall rnd label s lat0 lon0 orbit planet phase incl T D A M C pf f,
  single_rounding rnd -> two_decimals label ->
  disk_view s lat0 lon0 orbit planet phase incl T D A M C pf -> disk s lat0 lon0 A <> 0 ->
  Rabs T <= powerRZ 2 127 -> Rabs (T - D) <= powerRZ 2 127 -> (forall x, In x (sc_spots (st_spots s)) -> spot32 x) ->
  distinct_labels label s M T D -> (forall t, listed s M T D t -> label (rnd t) = label t) ->
  calc_coverage32 s lat0 lon0 (Fin f) orbit planet phase incl = calc_coverage s lat0 lon0 (Fin f) orbit planet phase incl.
Proof.
  intros rnd label s lat0 lon0 orbit planet phase incl T D A M C pf f SR TD V NW BT BD HS DL KL.
  rewrite (single_rounding_eq rnd SR) in KL. rewrite (two_decimals_eq label TD) in *. clear rnd label SR TD.
  destruct (calc_coverage_eq _ _ _ _ _ _ _ _ _ _ _ _ _ f V NW) as [ul [SS [Ap [_ ->]]]].
  destruct (calc_coverage32_eq _ _ _ _ _ _ _ _ _ _ _ _ _ f V NW BT BD HS) as [M32 [ul' [EM [Hm [SS' [Ap' ->]]]]]].
  assert (INJ : forall t t', listed s M T D t -> listed s M T D t' -> f32_round t = f32_round t' -> t = t').
  { intros t t' H H' E. apply DL; auto. rewrite <- (KL t H), <- (KL t' H'), E. auto. }
  assert (LU : forall t, In t ul -> listed s M T D t) by (intros; left; apply Ap; auto).
  assert (EU : ul' = map f32_round ul).
  { apply sorted_same; auto. apply sorted_map; auto. exact f32_round_mono. intros t. rewrite Ap', in_map_iff. split.
    - intros [t' [H ->]]. exists t'. split; auto. apply Ap; auto.
    - intros [t' [<- H]]. exists t'. split; auto. apply Ap; auto. }
  assert (SH : forall c t, In t ul -> share s lat0 lon0 A M32 c (f32_round t) = share s lat0 lon0 A M c t).
  { intros c t I. unfold share. f_equal. rewrite !grid_sum_idx. apply rsum_map_ext. intros [j i] J. apply idx_In in J. cbn [fst snd].
    destruct (Hm j i J) as [t' [Q1 Q2]]. assert (L' : listed s M T D t') by (left; exists j, i; split; auto). rewrite Q1, Q2.
    destruct (Req_EM_T t' t) as [->|N]. destruct (Req_EM_T _ _); congruence. destruct (Req_EM_T (f32_round t') (f32_round t)) as [E|]; auto. exfalso. apply N, INJ; auto. }
  assert (B : forall c, base32 (share s lat0 lon0 A M32 c) ul' (T - D) = base (share s lat0 lon0 A M c) ul (T - D)).
  { intros c. unfold base32, base. rewrite EU. rewrite (foldd_map f32_round (share s lat0 lon0 A M c)).
    2:{ intros t I. split. apply KL; auto. apply SH; auto. }
    destruct (in_dec Req_EM_T (f32_round (T - D)) (map f32_round ul)) as [I|I], (in_dec Req_EM_T (T - D) ul) as [J|J]; auto; exfalso.
    - apply in_map_iff in I. destruct I as [t [E I]]. apply INJ in E; auto. subst; auto. right; auto.
    - apply I, in_map; auto. }
  rewrite !B. auto.
Qed.
Lemma key_whole : forall z, key (IZR z) = KCenti (100 * z).
Proof.
  intros z. unfold key. destruct (fmt2_two_decimals (IZR z)) as [c [E [B _]]]. rewrite E. f_equal.
  assert (Q : Rabs (IZR (c - 100 * z)) < 1) by (rewrite minus_IZR, mult_IZR; lra). rewrite <- abs_IZR in Q. apply lt_IZR in Q. lia.
Qed.
Lemma C104_whole_lemma : forall s lat0 lon0 orbit planet phase incl T D A M C pf f,
  disk_view s lat0 lon0 orbit planet phase incl T D A M C pf -> disk s lat0 lon0 A <> 0 ->
  (exists z, T = IZR z /\ (Z.abs z <= 2 ^ 23)%Z) -> (exists z, D = IZR z /\ (Z.abs z <= 2 ^ 23)%Z) ->
  (forall x, In x (sc_spots (st_spots s)) -> exists u p, sp_teff_umbra x = Fin (IZR u) /\ sp_teff_pen x = Fin (IZR p)
     /\ (Z.abs u <= 2 ^ 23)%Z /\ (Z.abs p <= 2 ^ 23)%Z /\ (u <= p)%Z) ->
  calc_coverage32 s lat0 lon0 (Fin f) orbit planet phase incl = calc_coverage s lat0 lon0 (Fin f) orbit planet phase incl.
Proof.
  intros s lat0 lon0 orbit planet phase incl T D A M C pf f V NW [zT [ET BT]] [zD [ED BD]] HS. change (2 ^ 23)%Z with 8388608%Z in *.
  assert (BZ : forall z, (Z.abs z <= 16777216)%Z -> Rabs (IZR z) <= powerRZ 2 127).
  { intros z H. pose proof p127_big. rewrite <- abs_IZR. apply IZR_le in H. lra. }
  assert (W : forall t, listed s M T D t -> exists z, t = IZR z /\ (Z.abs z <= 16777216)%Z).
  { intros t [H| ->]. 2:{ exists (zT - zD)%Z. rewrite minus_IZR, <- ET, <- ED. split; auto. lia. }
    destruct V as [Vu Vg Vr Vl Vt Vd Va Vm Vf Vk].
    set (Q := fun n => exists z, n = Fin (IZR z) /\ (Z.abs z <= 8388608)%Z).
    assert (Q1 : Q (st_teff s)) by (rewrite Vt, ET; exists zT; auto).
    assert (Q2 : forall x, In x (sc_spots (st_spots s)) -> Q (sp_teff_umbra x) /\ Q (sp_teff_pen x)).
    { intros x I. destruct (HS x I) as [u [p [-> [-> [? [? _]]]]]]. split; [exists u|exists p]; auto. }
    assert (Q3 : forall k, Q (fac_temp s k)).
    { intros k. destruct (clip_fits s k T Vt) as [t' [-> [_ J]]]. destruct J as [z [-> B]]; [eauto|exists z; auto]. }
    destruct (full_map_P Q s lat0 lon0 M Vu Q1 Q2 Q3 Vm) as [G [-> K]].
    destruct H as [j [i [P E]]]. rewrite acell_grid in E by auto. destruct (K (acell (grid_points (st_grid s)) j i (0, 0))) as [z [E' B]].
      rewrite E in E'. exists z. split; [congruence|lia]. }
  apply (C104_same_lemma f32_round key s lat0 lon0 orbit planet phase incl T D A M C pf f); auto.
  - exact f32_round_nearest.
  - exact fmt2_two_decimals.
  - rewrite ET. apply BZ. lia.
  - destruct (W (T - D)) as [z [-> B]]; [right; auto|auto].
  - intros x I. destruct (HS x I) as [u [p [E1 [E2 [B1 [B2 L]]]]]]. exists (IZR u), (IZR p). split; auto. split; auto. split. apply IZR_le; auto. split; apply BZ; lia.
  - intros t t' H H'. destruct (W t H) as [z [-> _]]. destruct (W t' H') as [z' [-> _]]. rewrite !key_whole. intros E. f_equal. assert (100 * z = 100 * z')%Z by congruence. lia.
  - intros t H. destruct (W t H) as [z [-> B]]. rewrite f32_round_id; auto. apply f32_whole; auto.
Qed.
(** missing labels *)
Lemma rgran_keyerror : forall d kT kG f, ~ In kT (map fst d) -> rgran d kT kG f = Raise KeyError.
Proof.
  intros d kT kG f H. unfold rgran, dindex. destruct (rget d kT) eqn:E; auto. exfalso. apply H, rget_some. eauto.
Qed.
Lemma rgran_keyerror2 : forall d kT kG f, kT <> kG -> ~ In kG (map fst d) -> rgran d kT kG f = Raise KeyError.
Proof.
  intros d kT kG f N H. unfold rgran, dindex. destruct (rget d kT) eqn:E; auto. cbn [bind]. rewrite rget_other by auto.
  destruct (rget d kG) eqn:E'; auto. exfalso. apply H, rget_some. eauto.
Qed.
Lemma base32_keys : forall V ul gt k, In k (map fst (base32 V ul gt)) <-> (exists t, In t ul /\ k = key t) \/ (~ In (f32_round gt) ul /\ k = key gt).
Proof.
  intros. unfold base32. destruct (in_dec Req_EM_T (f32_round gt) ul) as [I|I].
  - rewrite foldd_keys. cbn [map In]. rewrite in_map_iff. split.
    + intros [[]|[t [<- J]]]. eauto.
    + intros [[t [J ->]]|[J _]]; [right; eauto|exfalso; auto].
  - rewrite rget_some. destruct (tkey_dec (key gt) k) as [<-|N].
    + rewrite rget_same. split; eauto.
    + rewrite rget_other by auto. rewrite <- rget_some, foldd_keys. cbn [map In]. rewrite in_map_iff. split.
      * intros [[]|[t [<- J]]]. eauto.
      * intros [[t [J ->]]|[J ->]]; [right; eauto|congruence].
Qed.
Lemma C104_keyerror_lemma : forall rnd label s lat0 lon0 orbit planet phase incl T D A M C pf f,
  single_rounding rnd -> two_decimals label ->
  disk_view s lat0 lon0 orbit planet phase incl T D A M C pf -> disk s lat0 lon0 A <> 0 ->
  Rabs T <= powerRZ 2 127 -> Rabs (T - D) <= powerRZ 2 127 -> (forall x, In x (sc_spots (st_spots s)) -> spot32 x) ->
  let stored t := exists t', appears (st_grid s) M t' /\ t = rnd t' in
  let labelled k := (exists t, stored t /\ label t = k) \/ (~ stored (rnd (T - D)) /\ label (T - D) = k) in
  (labelled (label T) /\ labelled (label (T - D)) ->
     exists tot cov, calc_coverage32 s lat0 lon0 (Fin f) orbit planet phase incl = Ok (tot, cov, pf))
  /\ (~ (labelled (label T) /\ labelled (label (T - D))) -> calc_coverage32 s lat0 lon0 (Fin f) orbit planet phase incl = Raise KeyError).
Proof.
  intros rnd label s lat0 lon0 orbit planet phase incl T D A M C pf f SR TD V NW BT BD HS.
  rewrite (single_rounding_eq rnd SR). rewrite (two_decimals_eq label TD). clear rnd label SR TD. intros stored labelled.
  destruct (calc_coverage32_eq _ _ _ _ _ _ _ _ _ _ _ _ _ f V NW BT BD HS) as [M32 [ul [EM [Hm [SS [Ap ->]]]]]].
  assert (L : forall W k, In k (map fst (base32 W ul (T - D))) <-> labelled k).
  { intros W k. rewrite base32_keys. unfold labelled, stored. rewrite Ap. split.
    - intros [[t [I E]]|[I E]]; [left|right; auto]. exists t. split; auto. apply Ap; auto.
    - intros [[t [I E]]|[I E]]; [left|right; auto]. exists t. split; auto. apply Ap; auto. }
  split.
  - intros [LT LG]. assert (Q : forall W, exists d, rgran (base32 W ul (T - D)) (key T) (key (T - D)) f = Ok d).
    { intros W. apply (L W), rget_some in LT. apply (L W), rget_some in LG. destruct LT as [p P].
      destruct (rgran_ok _ _ _ f p P LG) as [d [E _]]. eauto. }
    destruct (Q (share s lat0 lon0 A M32 (fun _ _ => 1))) as [d ->]. destruct (Q (share s lat0 lon0 A M32 (cell_val C))) as [d' ->]. cbn [bind]. eauto.
  - intros N. assert (Q : rgran (base32 (share s lat0 lon0 A M32 (fun _ _ => 1)) ul (T - D)) (key T) (key (T - D)) f = Raise KeyError).
    { destruct (in_dec tkey_dec (key T) (map fst (base32 (share s lat0 lon0 A M32 (fun _ _ => 1)) ul (T - D)))) as [I|I]; [|apply rgran_keyerror; auto].
      apply rgran_keyerror2.
      - intro E. apply N. apply L in I. split; auto. unfold key in E. rewrite <- E. auto.
      - intro J. apply N. apply L in I. apply L in J. auto. }
    rewrite Q. auto.
Qed.
