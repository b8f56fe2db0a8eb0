(** The photosphere's share of the disk, with spots and faculae. *)
From Coq Require Import Reals ZArith Bool List Lra Lia Permutation.
From Coq Require Classical_Prop.
From Coquelicot Require Import Coquelicot.
From Verif Require Import Num Py MConfig MHelpers MGrid MSpots MFaculae MGranules MStar Spec SpecStar SpecDisk SpecConv SpecWarn SpecCaps
  LBase LGrid LHelpers LCirc LQuad LGauss LSpotMap LSpotCov LStarFac LDisk LSym LSphere LConv LSpiral LStarCov LObserve LZonal LCap LSpotDisk LFlux.
Import ListNotations.
Open Scope R_scope.

(** triangle inequality on the sphere *)
Lemma tri : forall th l th' l' lat lon, acos (mu th l th' l') <= acos (mu th l lat lon) + acos (mu th' l' lat lon).
Proof.
  intros. pose proof (law_cos_bound th l lat lon) as Bm. fold (mu th l lat lon) in Bm. pose proof (law_cos_bound th' l' lat lon) as Bm'. fold (mu th' l' lat lon) in Bm'.
  set (a := acos (mu th l th' l')). set (b := acos (mu th l lat lon)). set (b' := acos (mu th' l' lat lon)).
  pose proof (acos_bound (mu th l th' l')) as Ba. fold a in Ba. pose proof (acos_bound (mu th l lat lon)) as Bb. fold b in Bb. pose proof (acos_bound (mu th' l' lat lon)) as Bb'. fold b' in Bb'.
  assert (X : mu th' l' lat lon <= cos (a - b)).
  { rewrite (frame_split th l). pose proof (frame_norm th l th' l') as N1. pose proof (frame_norm th l lat lon) as N2.
    replace (mu th l th' l') with (cos a) in * by (unfold a; rewrite cos_acos; auto; apply law_cos_bound).
    replace (mu th l lat lon) with (cos b) in * by (unfold b; rewrite cos_acos; auto).
    rewrite cos_minus. assert (Sa : 0 <= sin a) by (apply sin_ge_0; lra). assert (Sb : 0 <= sin b) by (apply sin_ge_0; lra).
    pose proof (sin2_cos2 a) as Qa. pose proof (sin2_cos2 b) as Qb. unfold Rsqr in *.
    set (x := e1 th l th' l') in *. set (y := e2 l th' l') in *. set (u := e1 th l lat lon) in *. set (z := e2 l lat lon) in *.
    assert (Y : (x * u + y * z) * (x * u + y * z) <= (sin a * sin b) * (sin a * sin b)).
    { replace ((sin a * sin b) * (sin a * sin b)) with ((sin a * sin a) * (sin b * sin b)) by ring.
      replace (sin a * sin a) with (x * x + y * y) by (simpl in N1; lra). replace (sin b * sin b) with (u * u + z * z) by (simpl in N2; lra).
      pose proof (Rle_0_sqr (x * z - y * u)) as E0. unfold Rsqr in E0. lra. }
    assert (0 <= sin a * sin b) by (apply Rmult_le_pos; auto). assert (x * u + y * z <= sin a * sin b) by nra. lra. }
  apply Rnot_lt_le. intro C. assert (Z : cos (a - b) < cos b') by (apply cos_decreasing_1; lra).
  unfold b' in Z. rewrite cos_acos in Z by auto. lra.
Qed.
Definition atleast (c m : R) : R := if Rle_dec c m then 1 else 0.
Lemma step_atleast : forall c, step_at c (atleast c).
Proof. intros c. unfold atleast. split; [|split]; intros; destruct (Rle_dec _ _); lra. Qed.
(** a cap with ([false]) or without ([true]) its border *)
Definition stepf (o : bool) := if o then above else atleast.
Lemma step_stepf : forall o c, step_at c (stepf o c).
Proof. intros [] c. apply step_above. apply step_atleast. Qed.
Lemma stepf_01 : forall o c m, stepf o c m = 0 \/ stepf o c m = 1 /\ c <= m.
Proof. intros [] c m; simpl; unfold above, atleast. destruct (Rlt_dec c m); auto. right; lra. destruct (Rle_dec c m); auto. Qed.
Definition cmu (c : cap) := mu (c_lat c) (c_lon c).
Definition cind (oc : bool * cap) (lat lon : R) : R := stepf (fst oc) (cos (c_radius (snd oc))) (cmu (snd oc) lat lon).
Lemma atleast_acos : forall r m, 0 <= r <= PI -> -1 <= m <= 1 -> cos r <= m -> acos m <= r.
Proof.
  intros r m Hr Hm H. apply Rnot_lt_le. intros C. pose proof (acos_bound m) as B.
  assert (X : cos (acos m) < cos r) by (apply cos_decreasing_1; lra). rewrite cos_acos in X by auto. lra.
Qed.
Lemma caps_points : forall c c' lat lon, 0 <= c_radius c <= PI -> 0 <= c_radius c' <= PI -> caps_apart c c' ->
  cos (c_radius c) <= cmu c lat lon -> cos (c_radius c') <= cmu c' lat lon -> False.
Proof.
  intros c c' lat lon H1 H2 Ap K1 K2. unfold cmu in *.
  specialize (Ap (acos (mu (c_lat c) (c_lon c) (c_lat c') (c_lon c')))).
  assert (An : is_angle (c_lat c) (c_lon c) (c_lat c') (c_lon c') (acos (mu (c_lat c) (c_lon c) (c_lat c') (c_lon c')))).
  { split. apply acos_bound. rewrite cos_acos by apply law_cos_bound. apply law_cos_dot. }
  specialize (Ap An). pose proof (tri (c_lat c) (c_lon c) (c_lat c') (c_lon c') lat lon) as Tr.
  apply atleast_acos in K1; auto. 2: apply law_cos_bound. apply atleast_acos in K2; auto. 2: apply law_cos_bound. lra.
Qed.
Definition csum (ocs : list (bool * cap)) (lat lon : R) : R := rsum (map (fun oc => cind oc lat lon) ocs).
Lemma csum_01 : forall ocs lat lon, (forall oc, In oc ocs -> 0 <= c_radius (snd oc) <= PI) -> ForallOrdPairs caps_apart (map snd ocs) ->
  (exists oc, In oc ocs /\ cind oc lat lon = 1) /\ csum ocs lat lon = 1 \/ (forall oc, In oc ocs -> cind oc lat lon = 0) /\ csum ocs lat lon = 0.
Proof.
  induction ocs as [|oc ocs IH]; intros lat lon HR Ap. right. split; auto. intros oc [].
  cbn [map] in Ap. inversion Ap; subst. destruct (IH lat lon ltac:(intros; apply HR; right; auto) H2) as [[[x [I E]] C]|[E C]];
  unfold csum in *; cbn [map rsum fold_right]; fold (rsum (map (fun oc => cind oc lat lon) ocs)); rewrite C;
  destruct (stepf_01 (fst oc) (cos (c_radius (snd oc))) (cmu (snd oc) lat lon)) as [K|[K K']]; fold (cind oc lat lon) in K; rewrite K.
  - left. split; [|lra]. exists x. split; auto. right; auto.
  - exfalso. rewrite Forall_forall in H1. destruct (stepf_01 (fst x) (cos (c_radius (snd x))) (cmu (snd x) lat lon)) as [J|[_ J]].
    unfold cind in E. lra. apply (caps_points (snd oc) (snd x) lat lon); auto. apply HR; left; auto. apply HR; right; auto. apply H1. apply in_map; auto.
  - right. split; [|lra]. intros y [<-|I]; auto.
  - left. split; [|lra]. exists oc. split; auto. left; auto.
Qed.
Lemma ccap_seen : forall g d oc lat0 lon0, good_grid g -> resolution g d -> 0 <= c_radius (snd oc) <= PI -> cap_faces lat0 lon0 (snd oc) ->
  Rabs (gsum g (fun lat lon => cind oc lat lon * bright 0 0 (mu lat0 lon0 lat lon)) - cap_share (snd oc) / 4) <= 121 * sqrt d.
Proof.
  intros g d [o c] lat0 lon0 G Q HR [[A1 A2] F]. cbn [snd] in *. unfold cind. cbn [fst snd]. unfold cmu.
  set (th := c_lat c) in *. set (l := c_lon c) in *. set (r := c_radius c) in *.
  assert (E : mu th l lat0 lon0 = cos (c_angle c)). { rewrite mu_sym. unfold mu. rewrite law_cos_dot. auto. }
  pose proof PI_RGT_0 as PP. unfold cap_share. fold r. destruct F as [F|F].
  - replace (gsum g _) with (gsum g (fun lat lon => stepf o (cos r) (mu th l lat lon) * clamp 0 1 (mu lat0 lon0 lat lon))).
    2:{ unfold gsum. apply rsum_map_ext. intros. rewrite bright_00. auto. }
    replace (Rmax 0 (cos (c_angle c)) * sin r ^ 2 / 4) with (mu th l lat0 lon0 * (sin r * sin r) / 4).
    + apply cap_projected_step; auto. apply step_stepf. rewrite E, acos_cos by auto. lra.
    + rewrite E. rewrite Rmax_right by (apply cos_ge_0; lra). field.
  - rewrite Rmax_left by (apply cos_le_0; lra). rewrite gsum_zero. rewrite Rmult_0_l. replace (0 - 0 / 4) with 0 by field. rewrite Rabs_R0. pose proof (sqrt_pos d). lra.
    intros p I. destruct (stepf_01 o (cos r) (mu th l (fst p) (snd p))) as [->|[-> K]]; [ring|].
    rewrite bright_neg. ring. apply atleast_acos in K; auto. 2: apply law_cos_bound.
    pose proof (tri th l lat0 lon0 (fst p) (snd p)) as Tr. rewrite E, acos_cos in Tr by auto.
    pose proof (law_cos_bound lat0 lon0 (fst p) (snd p)) as Bm. fold (mu lat0 lon0 (fst p) (snd p)) in Bm.
    rewrite <- (cos_acos (mu lat0 lon0 (fst p) (snd p))) by auto. apply cos_le_0. fold r in K. lra. pose proof (acos_bound (mu lat0 lon0 (fst p) (snd p))). lra.
Qed.
(** pixels of a spot are cooler than the photosphere, all others are not changed *)
Lemma sp_cap_view : forall Rs T x c, 0 < Rs -> spot_cap Rs T x c -> exists v, v_spot v = x /\ v_radius v = c_radius c /\ view_ok Rs v.
Proof.
  intros Rs T x c HR [_ [_ [[a [A1 A2]] [[q [Q1 Q2]] _]]]]. exists (mkView x a (c_radius c) (c_radius c / sqrt q) 0). split; auto. split; auto.
  split; auto. split; auto. exists q. auto.
Qed.
Lemma sp_cap_in : forall Rs T x c p, 0 < Rs -> spot_cap Rs T x c ->
  (pen_b x Rs (Fin (sep x p)) = true <-> cind (true, c) (fst p) (snd p) = 1)
  /\ (umb_b x Rs (Fin (sep x p)) = true -> pen_b x Rs (Fin (sep x p)) = true).
Proof.
  intros Rs T x c p HR H. destruct (sp_cap_view Rs T x c HR H) as [v [E1 [E2 V]]]. rewrite <- E1. split; [|apply umb_pen; auto].
  rewrite pen_above by auto. unfold cind, cmu, vmu. cbn [fst snd stepf]. unfold above. rewrite E1, E2. destruct H as [-> [-> _]].
  destruct (Rlt_dec _ _); split; intros; auto; lra.
Qed.
Lemma spots_cool : forall Rs T p xs cs m, 0 < Rs -> Forall2 (spot_cap Rs T) xs cs -> m <= T ->
  exists v, fold_left (pv Rs p) xs (Fin m) = Fin v /\ v <= m
    /\ ((exists c, In c cs /\ cind (true, c) (fst p) (snd p) = 1) -> v < T)
    /\ ((forall c, In c cs -> cind (true, c) (fst p) (snd p) = 0) -> v = m).
Proof.
  intros Rs T p xs cs m HR H. revert m. induction H as [|x c xs cs Hc HF IH]; intros m Hm; cbn [fold_left].
  exists m. split; auto. split. lra. split; auto. intros [c [[] _]].
  destruct (sp_cap_in Rs T x c p HR Hc) as [PB UB]. assert (Hc' := Hc). destruct Hc' as [_ [_ [_ [_ [tu [tp [Tu [Tp [L1 L2]]]]]]]]].
  assert (X : exists v, pv Rs p (Fin m) x = Fin v /\ v <= m /\ (cind (true, c) (fst p) (snd p) = 1 -> v < T) /\ (cind (true, c) (fst p) (snd p) = 0 -> v = m)).
  { unfold pv. rewrite Tu, Tp. cbv zeta. cbn [nlt].
    destruct (umb_b x Rs (Fin (sep x p))) eqn:EU; destruct (pen_b x Rs (Fin (sep x p))) eqn:EP; cbn [andb].
    - destruct (Rltb tu m) eqn:K; [apply Rltb_true in K|apply Rltb_false in K]; [|destruct (Rltb tp m) eqn:K'; [apply Rltb_true in K'|apply Rltb_false in K']].
      + exists tu. split; auto. split. lra. split; intros. lra. destruct PB as [PB _]. specialize (PB eq_refl). lra.
      + exists tp. split; auto. split. lra. split; intros. lra. destruct PB as [PB _]. specialize (PB eq_refl). lra.
      + exists m. split; auto. split. lra. split; intros; lra.
    - specialize (UB eq_refl). discriminate.
    - destruct (Rltb tp m) eqn:K'; [apply Rltb_true in K'|apply Rltb_false in K'].
      + exists tp. split; auto. split. lra. split; intros. lra. destruct PB as [PB _]. specialize (PB eq_refl). lra.
      + exists m. split; auto. split. lra. split; intros; lra.
    - exists m. split; auto. split. lra. split; auto. intros E. destruct PB as [_ PB]. specialize (PB E). discriminate. }
  destruct X as [v [-> [Lv [X1 X2]]]]. destruct (IH v ltac:(lra)) as [v' [E [Lv' [Y1 Y2]]]]. exists v'. split; auto. split. lra. split.
  - intros [d [[<-|I] K]]. specialize (X1 K). lra. apply Y1. eauto.
  - intros A. rewrite Y2 by (intros; apply A; right; auto). apply X2. apply A. left; auto.
Qed.
Lemma fac_cap_covers : forall s lat0 lon0 T f c j i, 0 < st_radius s -> fac_cap (st_radius s) lat0 lon0 T f c ->
  (fac_covers s f j i <-> cind (false, c) (pix_lat (st_grid s) j i) (pix_lon (st_grid s) j i) = 1).
Proof.
  intros s lat0 lon0 T f c j i HR [E1 [E2 [RB [E3 _]]]]. unfold fac_covers, cind, cmu. cbn [fst snd stepf]. unfold atleast. rewrite E1, E2.
  assert (SK : 0 < SUN_KM) by (unfold SUN_KM; lra).
  assert (D : c_radius c * (st_radius s * SUN_KM) / (st_radius s * SUN_KM) = c_radius c) by (field; split; lra).
  set (la := pix_lat _ _ _). set (lo := pix_lon _ _ _). pose proof (law_cos_bound (c_lat c) (c_lon c) la lo) as B. fold (mu (c_lat c) (c_lon c) la lo) in B.
  split.
  - intros [a [r [A [E K]]]]. assert (r = c_radius c * (st_radius s * SUN_KM)) by congruence. subst r. rewrite D in K.
    destruct (Rle_dec _ _) as [|N]; auto. exfalso. apply N. destruct A as [A1 A2]. unfold mu. rewrite law_cos_dot. rewrite <- A2. apply cos_decr_1; lra.
  - destruct (Rle_dec _ _) as [N|]; [|lra]. intros _. exists (acos (mu (c_lat c) (c_lon c) la lo)). eexists. split; [|split; [exact E3|]].
    split. apply acos_bound. rewrite cos_acos by auto. apply law_cos_dot. rewrite D. apply atleast_acos; auto.
Qed.
Lemma Forall2_In_l : forall A B (P : A -> B -> Prop) l l' x, Forall2 P l l' -> In x l -> exists y, In y l' /\ P x y.
Proof. induction 1; intros []; [subst|]. exists y; split; auto. left; auto. destruct IHForall2 as [z [I K]]; auto. exists z; split; auto. right; auto. Qed.
Lemma Forall2_In_r : forall A B (P : A -> B -> Prop) l l' y, Forall2 P l l' -> In y l' -> exists x, In x l /\ P x y.
Proof. induction 1; intros []; [subst|]. exists x; split; auto. left; auto. destruct IHForall2 as [z [I K]]; auto. exists z; split; auto. right; auto. Qed.
Lemma Forall2_app_l : forall A B (P : A -> B -> Prop) l1 x l2 l', Forall2 P (l1 ++ x :: l2) l' ->
  exists l1' y l2', l' = l1' ++ y :: l2' /\ P x y /\ Forall2 P l2 l2'.
Proof.
  intros A B P l1 x l2. induction l1; intros l' H; inversion H; subst. exists [], y, l'0. auto.
  destruct (IHl1 _ H4) as [l1' [z [l2' [-> K]]]]. exists (y :: l1'), z, l2'. auto.
Qed.
Lemma FOP_app : forall A (P : A -> A -> Prop) l l', ForallOrdPairs P (l ++ l') -> ForallOrdPairs P l'.
Proof. induction l; intros l' H; auto. inversion H; subst. apply IHl; auto. Qed.
Lemma last_split : forall A (P : A -> Prop) l, (forall x, P x \/ ~ P x) -> (exists x, In x l /\ P x) ->
  exists l1 x l2, l = l1 ++ x :: l2 /\ P x /\ forall y, In y l2 -> ~ P y.
Proof.
  intros A P l D. induction l as [|a l IH]; intros [x [I K]]; [destruct I|].
  destruct (Classical_Prop.classic (exists x, In x l /\ P x)) as [Y|Y].
  - destruct (IH Y) as [l1 [y [l2 [-> H]]]]. exists (a :: l1), y, l2. auto.
  - exists [], a, l. split; auto. split. destruct I as [->|I]; auto. exfalso; apply Y; eauto. intros y Iy Py. apply Y; eauto.
Qed.
Definition ocaps (scs fcs : list cap) := map (fun c => (true, c)) scs ++ map (fun c => (false, c)) fcs.
Lemma ocaps_snd : forall scs fcs, map snd (ocaps scs fcs) = scs ++ fcs.
Proof. intros. unfold ocaps. rewrite map_app, !map_map. cbn [snd]. rewrite !map_id. auto. Qed.
Lemma marked_radius : forall s lat0 lon0 T scs fcs, marked s lat0 lon0 T scs fcs -> forall c, In c (scs ++ fcs) -> 0 <= c_radius c <= PI.
Proof.
  intros s lat0 lon0 T scs fcs [_ _ _ H1 H2 _ _ _] c I. apply in_app_iff in I. destruct I as [I|I].
  - destruct (Forall2_In_r _ _ _ _ _ _ H1 I) as [x [_ [_ [_ [[a [_ [B _]]] _]]]]]. auto.
  - destruct (Forall2_In_r _ _ _ _ _ _ H2 I) as [x [_ [_ [_ [B _]]]]]. auto.
Qed.
Lemma marked_temp : forall s lat0 lon0 T scs fcs M, marked s lat0 lon0 T scs fcs -> add_faculae_to_map s lat0 lon0 = Ok M ->
  forall j i t, pixel (st_grid s) j i -> acell M j i NaN = Fin t ->
  let la := pix_lat (st_grid s) j i in let lo := pix_lon (st_grid s) j i in
  (t = T /\ (forall oc, In oc (ocaps scs fcs) -> cind oc la lo = 0)) \/ (t <> T /\ exists oc, In oc (ocaps scs fcs) /\ cind oc la lo = 1).
Proof.
  intros s lat0 lon0 T scs fcs M MK HM j i t P Ht la lo. assert (MK' := MK). destruct MK' as [U HR HT HS HF AP _ _].
  assert (FF : forall f, In f (fcc_facs (st_facs s)) -> is_fin (fc_radius f)).
  { intros f I. destruct (Forall2_In_l _ _ _ _ _ _ HF I) as [c [_ [_ [_ [_ [E _]]]]]]. eexists; eauto. }
  destruct (C54_lemma s lat0 lon0 _ M U HR FF (star_map_eq s U) HM) as [_ [K1 K2]].
  destruct (Classical_Prop.classic (exists f, In f (fcc_facs (st_facs s)) /\ fac_covers s f j i)) as [Y|Y].
  - destruct (last_split _ (fun f => fac_covers s f j i) _ ltac:(intros; apply Classical_Prop.classic) Y) as [l1 [f [l2 [E [C N]]]]].
    destruct (K2 l1 f l2 E) as [a [kw [kf [q [q' [b [A1 [A2 [A3 [A4 _]]]]]]]]]]; [eauto|].
    assert (I : In f (fcc_facs (st_facs s))) by (rewrite E; apply in_or_app; right; left; auto).
    destruct (Forall2_In_l _ _ _ _ _ _ HF I) as [c [Ic FC]].
    right. split.
    + destruct FC as [_ [_ [_ [_ [_ FC]]]]]. destruct (A4 j i P C N) as [W F].
      assert (Z : forall k, In k [kw; kf] -> acell M j i NaN = clip_teff (nadd (Fin (IZR k)) (st_teff s)) -> t <> T).
      { intros k Ik Q ->. rewrite HT, nadd_fin in Q. apply (FC k); [|congruence]. exists a. eexists. split; [exact A1|]. split; [exact A2|]. simpl in *. tauto. }
      destruct (Rle_dec (pix_mu s lat0 lon0 j i) b) as [L|L]. apply (Z kw); simpl; auto. apply (Z kf); simpl; auto. apply F. lra.
    + exists (false, c). split. apply in_or_app; right. apply in_map; auto. apply (fac_cap_covers s lat0 lon0 T f c j i HR FC). auto.
  - assert (NF : forall c, In c fcs -> cind (false, c) la lo = 0).
    { intros c I. destruct (Forall2_In_r _ _ _ _ _ _ HF I) as [f [If FC]]. destruct (stepf_01 false (cos (c_radius c)) (cmu c la lo)) as [Q|[Q _]]; auto.
      exfalso. apply Y. exists f. split; auto. apply (fac_cap_covers s lat0 lon0 T f c j i HR FC). auto. }
    rewrite K1 in Ht by (auto; intros f If Cf; apply Y; eauto). rewrite acell_grid in Ht by auto. rewrite HT in Ht.
    destruct (spots_cool (st_radius s) T (pt (st_grid s) (j, i)) _ _ T HR HS ltac:(lra)) as [v [E [Lv [V1 V2]]]].
    change (acell (grid_points (st_grid s)) j i (0, 0)) with (pt (st_grid s) (j, i)) in Ht. rewrite E in Ht. injection Ht as <-.
    change (fst (pt (st_grid s) (j, i))) with la in *. change (snd (pt (st_grid s) (j, i))) with lo in *.
    destruct (Classical_Prop.classic (exists c, In c scs /\ cind (true, c) la lo = 1)) as [Z|Z].
    + right. split. specialize (V1 Z). lra. destruct Z as [c [I C]]. exists (true, c). split; auto. apply in_or_app; left. apply in_map; auto.
    + assert (NS : forall c, In c scs -> cind (true, c) la lo = 0).
      { intros c I. destruct (stepf_01 true (cos (c_radius c)) (cmu c la lo)) as [Q|[Q _]]; auto. exfalso. apply Z. eauto. }
      left. split. apply V2; auto. intros oc I. apply in_app_iff in I. destruct I as [I|I]; apply in_map_iff in I; destruct I as [c [<- I]]; auto.
Qed.
(** ** C90 *)
Lemma C90_lemma :
  forall label s scs fcs lat0 lon0 orbit planet phase incl T D d,
  two_decimals label -> marked s lat0 lon0 T scs fcs -> gr_dteff (st_gran s) = Fin D ->
  fine_grid (st_grid s) -> resolution (st_grid s) d -> - PI/2 <= lat0 <= PI/2 ->
  0 <= orbit -> 0 <= planet -> (planet <= st_radius s \/ cos phase <= 0) ->
  st_u1 s = 0 -> st_u2 s = 0 ->
  (forall M, add_faculae_to_map s lat0 lon0 = Ok M -> distinct_labels label s M T D) ->
  exists tot cov pf, calc_coverage s lat0 lon0 (Fin 0) orbit planet phase incl = Ok (tot, cov, pf)
   /\ let filled := rsum (map cap_share (scs ++ fcs)) in
      let err := (484 * INR (length (scs ++ fcs)) + 320) * sqrt d in
      Rabs (entry tot (label T) - (1 - filled)) <= err.
Proof.
  intros label s scs fcs lat0 lon0 orbit planet phase incl T D d TD MK HD FG Q L HO HP HC U1 U2 DLL.
  assert (LP : ld_positive s) by (intros m Hm; rewrite U1, U2; lra). assert (G := fine_good _ FG).
  assert (Qd : 0 < d <= 1) by apply Q. pose proof (sqrt_d d Qd) as SD. pose proof (sqrt_pos d) as SP.
  assert (MR := marked_radius _ _ _ _ _ _ MK). assert (MK' := MK). destruct MK' as [U HR HT HS HF AP FA CL].
  destruct (C71_lemma s lat0 lon0 orbit planet phase incl T D) as [A [M [C [pf [V [_ [DP _]]]]]]]; auto.
  { intros x I. destruct (Forall2_In_l _ _ _ _ _ _ HS I) as [c [_ [_ [_ [_ [_ [tu [tp [E1 [E2 _]]]]]]]]]]. split; eexists; eauto. }
  { intros f I. destruct (Forall2_In_l _ _ _ _ _ _ HF I) as [c [_ [_ [_ [_ [_ [X _]]]]]]]. auto. }
  destruct (view_form _ _ _ _ _ _ _ _ _ _ _ _ _ V) as [tm [cm [EA [EM [EC [Hcm [ED [ES [_ [EAp _]]]]]]]]]].
  assert (HM := dv_map _ _ _ _ _ _ _ _ _ _ _ _ _ V).
  set (gp := cells (grid_points (st_grid s))) in *. set (br := fun lat lon => bright 0 0 (mu lat0 lon0 lat lon)).
  set (ocs := ocaps scs fcs).
  assert (Htm : forall p, In p gp -> (tm p = T /\ csum ocs (fst p) (snd p) = 0) \/ (tm p <> T /\ csum ocs (fst p) (snd p) = 1)).
  { intros p I. apply In_pt in I. destruct I as [j [i [P ->]]].
    assert (E : acell M j i NaN = Fin (tm (pt (st_grid s) (j, i)))) by (rewrite EM, acell_grid by auto; auto).
    pose proof (csum_01 ocs (pix_lat (st_grid s) j i) (pix_lon (st_grid s) j i)) as CS.
    destruct CS as [[[x [Ix Ex]] CS]|[CN CS]].
    - intros oc I. apply MR. rewrite <- (ocaps_snd scs fcs). apply in_map. auto.
    - unfold ocs. rewrite ocaps_snd. auto.
    - destruct (marked_temp _ _ _ _ _ _ _ MK HM j i _ P E) as [[_ N]|[N _]]. specialize (N x Ix). lra. right. split; auto.
    - destruct (marked_temp _ _ _ _ _ _ _ MK HM j i _ P E) as [[N _]|[_ [x [Ix Ex]]]]. left. split; auto. specialize (CN x Ix). lra. }
  assert (ApT : appears (st_grid s) M T).
  { apply EAp. apply runiq_In, in_map_iff. destruct CL as [j [i [P K]]]. exists (pt (st_grid s) (j, i)). split; [|apply pt_In; auto].
    destruct (Htm _ (pt_In _ _ _ P)) as [[E _]|[_ N]]; auto. exfalso.
    change (fst (pt (st_grid s) (j, i))) with (pix_lat (st_grid s) j i) in N. change (snd (pt (st_grid s) (j, i))) with (pix_lon (st_grid s) j i) in N.
    unfold csum in N. rewrite rsum_zero in N. lra. intros oc I. destruct (stepf_01 (fst oc) (cos (c_radius (snd oc))) (cmu (snd oc) (pix_lat (st_grid s) j i) (pix_lon (st_grid s) j i))) as [Z|[_ Z]]; auto.
    exfalso. specialize (K (snd oc)). unfold cmu, mu in Z. rewrite law_cos_dot in Z. assert (In (snd oc) (scs ++ fcs)) by (rewrite <- ocaps_snd; apply in_map; auto). specialize (K H). lra. }
  specialize (DLL M HM).
  destruct (C51_label_lemma label s lat0 lon0 orbit planet phase incl T D A M C (Fin pf)) as [tot [cov [EQ [Hsh _]]]]; auto. lra.
  exists tot, cov, (Fin pf). split; auto. intros filled err.
  assert (EN : entry tot (label T) = bval s gp (wgt s lat0 lon0) tm (disk s lat0 lon0 A) T).
  { rewrite <- ES. unfold entry. destruct (Hsh T) as [-> _]. left; auto. auto. }
  assert (WB : forall p, wgt s lat0 lon0 p = rarea_at (st_grid s) p * br (fst p) (snd p)) by (intros; rewrite wgt_bright, U1, U2; auto).
  assert (EDg : disk s lat0 lon0 A = gsum (st_grid s) br). { rewrite ED. unfold gsum. apply rsum_map_ext. intros. apply WB. }
  set (SC := gsum (st_grid s) (fun lat lon => csum ocs lat lon * br lat lon)).
  assert (Et : rsum (map (fun p => if Req_EM_T (tm p) T then wgt s lat0 lon0 p else 0) gp) = disk s lat0 lon0 A - SC).
  { rewrite EDg. unfold SC, gsum. rewrite rsum_minus. apply rsum_map_ext. intros p I. rewrite WB.
    destruct (Htm p I) as [[E ->]|[E ->]]; destruct (Req_EM_T _ _); try contradiction; ring. }
  assert (GS : SC = rsum (map (fun oc => gsum (st_grid s) (fun lat lon => cind oc lat lon * br lat lon)) ocs)).
  { rewrite <- gsum_rsum. unfold SC, gsum. apply rsum_map_ext. intros p I. f_equal. unfold csum.
    generalize ocs. intros l. induction l; cbn [map rsum fold_right]; unfold rsum in *. ring. rewrite <- IHl. ring. }
  assert (LN : length ocs = length (scs ++ fcs)) by (rewrite <- (ocaps_snd scs fcs), map_length; auto).
  assert (CC : Rabs (SC - filled / 4) <= INR (length (scs ++ fcs)) * (121 * sqrt d)).
  { rewrite GS, <- LN. replace (filled / 4) with (rsum (map (fun oc => cap_share (snd oc) / 4) ocs)).
    - apply rsum_close. intros oc I. unfold br. assert (I' : In (snd oc) (scs ++ fcs)) by (rewrite <- (ocaps_snd scs fcs); apply in_map; auto). apply ccap_seen; auto.
    - unfold filled. rewrite <- (ocaps_snd scs fcs), map_map. fold ocs. unfold Rdiv. rewrite Rmult_comm, <- rsum_map_scal. apply rsum_map_ext. intros; ring. }
  assert (DT : Rabs (disk s lat0 lon0 A - 1 / 4) <= 40 * sqrt d).
  { rewrite EDg. assert (B0 : brint 0 0 0 / 2 = 1 / 4) by (unfold brint; field). rewrite <- B0. eapply Rle_trans. apply (disk_total _ d); auto. unfold brightB, brightL. rewrite Rabs_R0. lra. }
  assert (BD : 0 <= disk s lat0 lon0 A - SC <= disk s lat0 lon0 A).
  { rewrite <- Et, ED. assert (WN : forall p, In p gp -> 0 <= wgt s lat0 lon0 p).
    { intros. rewrite wgt_bright. apply Rmult_le_pos; auto. apply rarea_nonneg; auto. apply bright_nonneg; auto. }
    split. apply rsum_nonneg. intros x Ix. apply in_map_iff in Ix. destruct Ix as [p [<- I]]. destruct (Req_EM_T _ _); auto. lra.
    apply rsum_map_le. intros p I. specialize (WN p I). destruct (Req_EM_T _ _); lra. }
  rewrite EN. unfold bval. rewrite Et. replace (1 - filled) with ((1 / 4 - filled / 4) / (1 / 4)) by field.
  eapply Rle_trans. apply (ratio_close _ _ _ _ (INR (length (scs ++ fcs)) * (121 * sqrt d) + 40 * sqrt d) (40 * sqrt d)); auto. lra.
  - apply Rabs_le_between in CC. apply Rabs_le_between in DT. apply Rabs_le. lra.
  - unfold err. right. field.
Qed.
