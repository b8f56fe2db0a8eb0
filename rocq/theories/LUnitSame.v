(** Every function of [MUnits] gives the same result in other units *)
From Coq Require Import Reals ZArith Bool List Lra.
From Verif Require Import Num Py MConfig MHelpers MGrid MSpots MFaculae MXoflares MFlares MUnits SpecUnits LBase LUnits.
Import ListNotations.
Open Scope R_scope.

Lemma msh_pos : 0 < usize u_MSH.
Proof.
  unfold u_MSH, usize, RSUN_KM. pose proof PI_RGT_0.
  apply Rmult_lt_0_compat; [lra|]. apply pow_lt. lra.
Qed.
Lemma erg_pos : 0 < usize u_erg.
Proof. simpl. lra. Qed.
Lemma deg_pos : 0 < usize u_deg.
Proof. simpl. pose proof PI_RGT_0. lra. Qed.
Lemma one_pos : 0 < usize u_one.
Proof. simpl. lra. Qed.
Lemma km_pos : 0 < usize u_km.
Proof. simpl. lra. Qed.
Lemma km2_pos : 0 < usize u_km2.
Proof. simpl. lra. Qed.
Lemma day_pos : 0 < usize u_day.
Proof. simpl. lra. Qed.
Lemma hr_pos : 0 < usize u_hr.
Proof. simpl. lra. Qed.
Lemma min_pos : 0 < usize u_min.
Proof. simpl. lra. Qed.
Lemma K_pos : 0 < usize u_K.
Proof. simpl. lra. Qed.
Lemma rad_pos : 0 < usize u_rad.
Proof. simpl. lra. Qed.
Lemma hrkm2_pos : 0 < usize u_hrkm2.
Proof. simpl. lra. Qed.
Lemma Rsun_pos : 0 < usize u_Rsun.
Proof. simpl. unfold RSUN_KM. lra. Qed.
Create HintDb uni.
Global Hint Resolve msh_pos erg_pos deg_pos one_pos km_pos km2_pos day_pos hr_pos min_pos K_pos rad_pos
  hrkm2_pos Rsun_pos : uni.
Global Hint Resolve same_num same_mk same_mul same_div same_sq same_sqrt same_ipow same_pow same_in same_to
  same_add same_sub same_lt same_le same_gt same_fun : uni.
Lemma same_exp : forall a a', same a a' -> alike same (qexp a) (qexp a').
Proof. intros. apply same_fun; auto with uni. Qed.
Lemma same_log : forall a a', same a a' -> alike same (qlog a) (qlog a').
Proof. intros. apply same_fun; auto with uni. Qed.
Lemma same_acos : forall a a', same a a' -> alike same (qacos a) (qacos a').
Proof. intros. apply same_fun; auto with uni. Qed.
Lemma same_asin : forall a a', same a a' -> alike same (qasin a) (qasin a').
Proof. intros. apply same_fun; auto with uni. Qed.
Lemma same_sin : forall a a', same a a' -> alike same (qsin a) (qsin a').
Proof. intros. apply same_fun; auto with uni. Qed.
Lemma same_cos : forall a a', same a a' -> alike same (qcos a) (qcos a').
Proof. intros. apply same_fun; auto with uni. Qed.
Lemma same_tan : forall a a', same a a' -> alike same (qtan a) (qtan a').
Proof. intros. apply same_fun; auto with uni. Qed.
Global Hint Resolve same_exp same_log same_acos same_asin same_sin same_cos same_tan : uni.

Ltac ub := eapply alike_bind; [solve [eauto 20 with uni] | intros ? ? ?; subst].
Ltac ue := first [reflexivity | solve [eauto 20 with uni] | solve [simpl; eauto 20 with uni]].
Ltac uif := match goal with |- alike _ (if ?b then _ else _) (if ?b then _ else _) => destruct b end.
Ltac us := repeat first [ub | uif]; try ue.

(** ** Coordinates *)
Lemma law_cos_same : forall a a' b b' c c' d d', same a a' -> same b b' -> same c c' -> same d d' ->
  alike same (q_law_cos a b c d) (q_law_cos a' b' c' d').
Proof. intros. unfold q_law_cos. us. Qed.
Global Hint Resolve law_cos_same : uni.
Lemma angle_between_same : forall a a' b b' c c' d d', same a a' -> same b b' -> same c c' -> same d d' ->
  alike same (q_angle_between a b c d) (q_angle_between a' b' c' d').
Proof. intros. unfold q_angle_between. us. Qed.
Lemma haversine_same : forall a a' b b' c c' d d', same a a' -> same b b' -> same c c' -> same d d' ->
  alike same (q_haversine a b c d) (q_haversine a' b' c' d').
Proof. intros. unfold q_haversine. us. Qed.
Global Hint Resolve angle_between_same haversine_same : uni.
Lemma clip_same : forall a a', same a a' -> alike same (q_clip_teff a) (q_clip_teff a').
Proof. intros. unfold q_clip_teff. cbv zeta. us. Qed.

(** ** Spots *)
Ltac spots H := destruct H as (Hlat & Hlon & Hmax & Harea & Hratio & Hgrow & Hrate & Hdecay).
Lemma same_spot_with : forall s s' a a' g, same_spot s s' -> same a a' ->
  same_spot (sq_with s a g) (sq_with s' a' g).
Proof. intros s s' a a' g H K. spots H. repeat split; simpl; try assumption; try apply Hlat; try apply Hlon;
  try apply Hmax; try apply K; try apply Hrate; try apply Hdecay. Qed.
Global Hint Resolve same_spot_with : uni.
Lemma spot_radius_same : forall s s', same_spot s s' -> alike same (sq_radius s) (sq_radius s').
Proof. intros s s' H. spots H. unfold sq_radius. us. Qed.
Lemma spot_angular_same : forall s s' r r', same_spot s s' -> same r r' ->
  alike same (sq_angular_radius s r) (sq_angular_radius s' r').
Proof. intros s s' r r' H K. spots H. unfold sq_angular_radius. us. Qed.
Global Hint Resolve spot_angular_same : uni.
Lemma spot_covers_same : forall s s' r r' a a' o o', same_spot s s' -> same r r' -> same a a' -> same o o' ->
  alike eq (sq_covers s r a o) (sq_covers s' r' a' o').
Proof.
  intros s s' r r' a a' o o' H K L M. pose proof H as H'. spots H. unfold sq_covers. rewrite Hratio. us.
Qed.
Lemma spot_age_same : forall s s' t t', same_spot s s' -> same t t' ->
  alike same_spot (sq_age s t) (sq_age s' t').
Proof.
  intros s s' t t' H K. pose proof H as H'. spots H. unfold sq_age. rewrite Hgrow. cbv zeta.
  uif; [|us].
  ub. ub. ub.
  eapply alike_bind with (P := same).
  - rewrite (same_eq a1 b1 (qnum (Fin 0)) (qnum (Fin 0))) by auto with uni. uif; us.
  - intros. us.
Qed.
Global Hint Resolve spot_age_same : uni.
Lemma spot_dead_same : forall s s', same_spot s s' -> alike eq (sq_dead s) (sq_dead s').
Proof. intros s s' H. spots H. unfold sq_dead. rewrite Hgrow. us. Qed.
Global Hint Resolve spot_dead_same : uni.
Lemma spot_clean_same : forall l l', Forall2 same_spot l l' ->
  alike (Forall2 same_spot) (sq_clean l) (sq_clean l').
Proof.
  induction 1 as [|s s' l l' H _ IH]; simpl; [constructor|].
  ub. ub. simpl. destruct b; [assumption|constructor; assumption].
Qed.
Lemma alike_mapM : forall A A' B B' (P : A -> A' -> Prop) (Q : B -> B' -> Prop) f f' l l',
  (forall a a', P a a' -> alike Q (f a) (f' a')) -> Forall2 P l l' ->
  alike (Forall2 Q) (mapM f l) (mapM f' l').
Proof.
  intros A A' B B' P Q f f' l l' F. induction 1 as [|a a' l l' H _ IH]; simpl; [constructor|].
  eapply alike_bind; [apply F; eassumption|]. intros b b' Hb.
  eapply alike_bind; [exact IH|]. intros r r' Hr. simpl. constructor; assumption.
Qed.
Lemma spots_age_same : forall l l' t t', Forall2 same_spot l l' -> same t t' ->
  alike (Forall2 same_spot) (sq_collection_age l t) (sq_collection_age l' t').
Proof.
  intros l l' t t' H K. unfold sq_collection_age. eapply alike_bind.
  - eapply alike_mapM; [|exact H]. intros. now apply spot_age_same.
  - intros. now apply spot_clean_same.
Qed.

Lemma static_same : forall g g', same_gen g g' -> gq_is_static g = gq_is_static g'.
Proof. intros g g' (A & B & C & D & E). unfold gq_is_static. apply same_eq; auto with uni. Qed.
Lemma lifetime_same : forall g g', same_gen g g' -> alike same (gq_mean_lifetime g) (gq_mean_lifetime g').
Proof.
  intros g g' H. unfold gq_mean_lifetime. rewrite (static_same g g' H).
  destruct H as (A & B & C & D & E). us.
Qed.
Global Hint Resolve lifetime_same : uni.
Lemma mean_area_same : forall g g', same_gen g g' -> alike same (gq_mean_area g) (gq_mean_area g').
Proof.
  intros g g' H. unfold gq_mean_area. rewrite (static_same g g' H).
  pose proof H as (A & B & C & D & E). us.
Qed.
Global Hint Resolve mean_area_same : uni.
Lemma n_expected_same : forall g g' t t' r r', same_gen g g' -> same t t' -> same r r' ->
  alike eq (gq_n_expected g t r) (gq_n_expected g' t' r').
Proof.
  intros g g' t t' r r' H K L. unfold gq_n_expected.
  pose proof H as (A & B & C & D & E). rewrite E. us.
Qed.
Lemma max_area_same : forall g g' sg z, same_gen g g' ->
  alike same (gq_max_area g sg z) (gq_max_area g' sg z).
Proof.
  intros g g' sg z (A & B & C & D & E). unfold gq_max_area, qlog, qfun.
  pose proof (same_in (qdiv (gq_mean g) (qmk (Fin 1) u_MSH)) (qdiv (gq_mean g') (qmk (Fin 1) u_MSH)) u_one) as K.
  assert (K' := K ltac:(auto with uni) ltac:(auto with uni)). clear K.
  destruct (qin (qdiv (gq_mean g) _) u_one), (qin (qdiv (gq_mean g') _) u_one); simpl in *; try contradiction; auto.
  subst. auto with uni.
Qed.

(** ** Faculae *)
Ltac facs H := destruct H as (Hlat & Hlon & Hmax & Hrad & Hdep & Hlife & Hfs & Hfm & Hfb & Hws & Hwi & Hgrow).
Lemma same_fac_with : forall f f' r r' g, same_fac f f' -> same r r' ->
  same_fac (fq_with f r g) (fq_with f' r' g).
Proof.
  intros f f' r r' g H K. facs H. unfold same_fac, fq_with. cbn [fq_lat fq_lon fq_rmax fq_radius fq_depth fq_life
    fq_fslope fq_fminrad fq_fbase fq_wslope fq_wint fq_growing]. auto 20.
Qed.
Global Hint Resolve same_fac_with : uni.
Lemma floor_same : forall f f', same_fac f f' -> alike same (fq_floor_dteff f) (fq_floor_dteff f').
Proof. intros f f' H. facs H. unfold fq_floor_dteff. us. Qed.
Lemma wall_same : forall f f', same_fac f f' -> alike same (fq_wall_dteff f) (fq_wall_dteff f').
Proof. intros f f' H. facs H. unfold fq_wall_dteff. us. Qed.
Lemma fac_age_same : forall f f' t t', same_fac f f' -> same t t' ->
  alike same_fac (fq_age f t) (fq_age f' t').
Proof.
  intros f f' t t' H K. pose proof H as H'. facs H. unfold fq_age. rewrite Hgrow. cbv zeta. us.
Qed.
Lemma fac_dead_same : forall f f', same_fac f f' -> alike eq (fq_dead f) (fq_dead f').
Proof. intros f f' H. facs H. unfold fq_dead. rewrite Hgrow. us. Qed.
Global Hint Resolve floor_same wall_same fac_age_same fac_dead_same : uni.
Lemma fac_clean_same : forall l l', Forall2 same_fac l l' ->
  alike (Forall2 same_fac) (fq_clean l) (fq_clean l').
Proof.
  induction 1 as [|s s' l l' H _ IH]; simpl; [constructor|].
  ub. ub. simpl. destruct b; [assumption|constructor; assumption].
Qed.
Lemma facs_age_same : forall l l' t t', Forall2 same_fac l l' -> same t t' ->
  alike (Forall2 same_fac) (fq_collection_age l t) (fq_collection_age l' t').
Proof.
  intros l l' t t' H K. unfold fq_collection_age. eapply alike_bind.
  - eapply alike_mapM; [|exact H]. intros. now apply fac_age_same.
  - intros. now apply fac_clean_same.
Qed.
(** dictionaries of areas *)
Lemma dset_same : forall d d' k q q', Forall2 same_kv d d' -> same q q' ->
  Forall2 same_kv (dset Z.eqb d k q) (dset Z.eqb d' k q').
Proof.
  intros d d' k q q' H K. induction H as [|[k1 q1] [k2 q2] l l' [E F] T IH]; simpl in *.
  - constructor; [split; simpl; auto|constructor].
  - subst k2. destruct (Z.eqb k k1); (constructor; [split; simpl; auto|]); auto.
Qed.
(** the value after [.to(unit)] does not depend on the unit before *)
Lemma to_value : forall a u q, qto a u = Ok q -> qs q = usize u /\ qd q = udim u.
Proof. intros a u q H. unfold qto in H. destruct (qin a u); simpl in H; [|discriminate]. injection H as <-. auto. Qed.
Lemma same_value : forall q q', same q q' -> qs q = qs q' -> qv q = qv q'.
Proof. intros q q' (A & B & C & D) E. rewrite E in D. now apply sc_inj in D. Qed.
Lemma floor_scale : forall f q, fq_floor_dteff f = Ok q -> qs q = 1.
Proof.
  intros f q H. unfold fq_floor_dteff in H. destruct (qsub _ _); simpl in H; [|discriminate].
  destruct (qadd _ _); simpl in H; [|discriminate]. now apply to_value in H.
Qed.
Lemma wall_scale : forall f q, fq_wall_dteff f = Ok q -> qs q = 1.
Proof.
  intros f q H. unfold fq_wall_dteff in H. destruct (qadd _ _); simpl in H; [|discriminate].
  now apply to_value in H.
Qed.
Lemma alike_bind_eq : forall A B B' (Q : B -> B' -> Prop) (m : res A) f f',
  (forall a, m = Ok a -> alike Q (f a) (f' a)) -> alike Q (bind m f) (bind m f').
Proof. intros A B B' Q m f f' H. destruct m; simpl; auto. Qed.
Lemma effective_area_same : forall f f' a a', same_fac f f' -> same a a' ->
  alike (Forall2 same_kv) (fq_effective_area f a) (fq_effective_area f' a').
Proof.
  intros f f' a a' H K. unfold fq_effective_area.
  pose proof (floor_same f f' H) as HF. pose proof (wall_same f f' H) as HW.
  destruct (fq_floor_dteff f) as [fl|] eqn:E1, (fq_floor_dteff f') as [fl'|] eqn:E2; simpl in HF;
    try contradiction; [|exact HF].
  destruct (fq_wall_dteff f) as [wa|] eqn:E3, (fq_wall_dteff f') as [wa'|] eqn:E4; simpl in HW;
    try contradiction; [|exact HW].
  cbn [bind].
  assert (VF : qv fl = qv fl') by (apply same_value; [assumption|];
    rewrite (floor_scale _ _ E1), (floor_scale _ _ E2); reflexivity).
  assert (VW : qv wa = qv wa') by (apply same_value; [assumption|];
    rewrite (wall_scale _ _ E3), (wall_scale _ _ E4); reflexivity).
  rewrite (same_eq fl fl' wa wa') by assumption. rewrite VF, VW.
  facs H. uif; [reflexivity|].
  ub. uif.
  - apply alike_bind_eq. intros kw _. ub. apply alike_bind_eq. intros kf _. cbn [alike bind].
    repeat apply dset_same; auto with uni; try constructor.
  - ub. ub. ub. apply alike_bind_eq. intros c _. cbv zeta. ub.
    apply alike_bind_eq. intros kw _. apply alike_bind_eq. intros kf _. cbn [alike bind].
    repeat apply dset_same; auto 10 with uni; try constructor.
Qed.
Lemma total_same : forall l l' a a', Forall2 same l l' -> same a a' ->
  alike same (q_total a l) (q_total a' l').
Proof.
  intros l l' a a' H. revert a a'. induction H as [|x x' l l' H _ IH]; intros a a' K; simpl; [assumption|].
  ub. now apply IH.
Qed.
Lemma zero_plus_same : forall q q', same q q' ->
  same (mkQ (nadd (Fin 0) (qv q)) (qs q) (qd q)) (mkQ (nadd (Fin 0) (qv q')) (qs q') (qd q')).
Proof.
  intros q q' (A & B & C & D).
  assert (Z : forall x, nadd (Fin 0) x = x) by (intros [x| | |]; simpl; try reflexivity; f_equal; ring).
  rewrite !Z. repeat split; assumption.
Qed.
Lemma fractional_same : forall f f' a a', same_fac f f' -> same a a' ->
  alike eq (fq_fractional_area f a) (fq_fractional_area f' a').
Proof.
  intros f f' a a' H K. unfold fq_fractional_area.
  eapply alike_bind; [apply effective_area_same; eassumption|].
  intros d d' D. destruct D as [|[k q] [k' q'] l l' [E F] D]; [reflexivity|]. simpl in E, F. subst k'.
  eapply alike_bind.
  - apply total_same; [|apply (zero_plus_same q q' F)].
    clear - D. induction D as [|x y l l' [_ E] _ IH]; simpl; constructor; assumption.
  - intros t t' T.
    assert (X : alike (Forall2 eq)
      (mapM (fun kv => do x <- qin (qdiv (snd kv) t) u_one;; Ok (fst kv, x)) ((k, q) :: l))
      (mapM (fun kv => do x <- qin (qdiv (snd kv) t') u_one;; Ok (fst kv, x)) ((k, q') :: l'))).
    { eapply alike_mapM with (P := same_kv).
      - intros [k1 q1] [k2 q2] [E1 E2]. simpl in *. subst k2. ub. reflexivity.
      - constructor; [split; simpl; auto|assumption]. }
    destruct (mapM _ ((k,q)::l)) as [r|], (mapM _ ((k,q')::l')) as [r'|]; simpl in *; try contradiction; auto.
    clear - X. induction X; congruence.
Qed.
Lemma fac_angular_same : forall f f' r r', same_fac f f' -> same r r' ->
  same (fq_angular_radius f r) (fq_angular_radius f' r').
Proof. intros f f' r r' H K. facs H. unfold fq_angular_radius. auto 20 with uni. Qed.
Global Hint Resolve fac_angular_same : uni.
Lemma fac_covers_same : forall f f' r r' a a' o o', same_fac f f' -> same r r' -> same a a' -> same o o' ->
  alike eq (fq_covers f r a o) (fq_covers f' r' a' o').
Proof.
  intros f f' r r' a a' o o' H K L M. pose proof H as H'. facs H. unfold fq_covers. us.
Qed.
Lemma fac_n_expected_same : forall c p p' l l' t t' r r', same p p' -> same l l' -> same t t' -> same r r' ->
  alike eq (gfq_n_expected c p l t r) (gfq_n_expected c p' l' t' r').
Proof. intros. unfold gfq_n_expected, gfq_mean_area. us. Qed.
Lemma fac_new_same : forall p p' l l' rs ls mu, same p p' -> same l l' ->
  same (fst (fst (gfq_new p l rs ls mu))) (fst (fst (gfq_new p' l' rs ls mu)))
  /\ same (snd (fst (gfq_new p l rs ls mu))) (snd (fst (gfq_new p' l' rs ls mu)))
  /\ same (snd (gfq_new p l rs ls mu)) (snd (gfq_new p' l' rs ls mu)).
Proof. intros. unfold gfq_new. cbn [fst snd]. auto 10 with uni. Qed.

(** ** Flares *)
Ltac flares H := destruct H as (Hfw & Hen & Hte & Htp).
Lemma sigma_same : same q_sigma_sb q_sigma_sb.
Proof. apply same_refl. simpl. lra. Qed.
Global Hint Resolve sigma_same : uni.
Lemma peak_area_same : forall f f', same_flare f f' -> alike same (lq_peak_area f) (lq_peak_area f').
Proof. intros f f' H. flares H. unfold lq_peak_area, q_flareintegral. cbv zeta. apply same_to; auto 20 with uni. Qed.
Global Hint Resolve peak_area_same : uni.
Lemma curve_args_same : forall f f', same_flare f f' -> alike eq (lq_curve_args f) (lq_curve_args f').
Proof. intros f f' H. pose proof H as H'. flares H. unfold lq_curve_args. us. Qed.
Lemma frequency_same : forall al be e e', same e e' -> alike same (lgq_frequency al be e) (lgq_frequency al be e').
Proof. intros. unfold lgq_frequency. us. Qed.
Global Hint Resolve frequency_same : uni.
Lemma nexp_same : forall al be e e' t t', same e e' -> same t t' ->
  alike eq (lgq_nexp al be e t) (lgq_nexp al be e' t').
Proof. intros. unfold lgq_nexp. us. Qed.
Lemma cdf_same : forall al m m' e e', same m m' -> same e e' -> alike eq (lgq_cdf al m e) (lgq_cdf al m' e').
Proof. intros. unfold lgq_cdf. us. Qed.
Lemma pdf_same : forall al m m' e e', same m m' -> same e e' -> alike eq (lgq_pdf al m e) (lgq_pdf al m' e').
Proof. intros. unfold lgq_pdf. us. Qed.
Lemma quantile_same : forall al m m' x, same m m' -> same (lgq_quantile al m x) (lgq_quantile al m' x).
Proof. intros. unfold lgq_quantile. auto with uni. Qed.
Lemma fwhm_same : forall m m' s z, same m m' -> alike same (lgq_fwhm m s z) (lgq_fwhm m' s z).
Proof. intros. unfold lgq_fwhm. us. Qed.
Lemma teff_same : forall m m' s s' z, same m m' -> same s s' -> alike same (lgq_teff m s z) (lgq_teff m' s' z).
Proof. intros. unfold lgq_teff. us. Qed.
Lemma in_period_same : forall f f' a a' b b', same_flare f f' -> same a a' -> same b b' ->
  alike eq (lq_in_period f a b) (lq_in_period f' a' b').
Proof. intros f f' a a' b b' H K L. flares H. unfold lq_in_period. us. Qed.
Lemma samples_same : forall a a' b b', same a a' -> same b b' -> alike eq (q_samples a b) (q_samples a' b').
Proof. intros. unfold q_samples. us. Qed.
Lemma planet_same : forall r r' o o' p p' ph ph' i i',
  same r r' -> same o o' -> same p p' -> same ph ph' -> same i i' ->
  alike eq (q_planet r o p ph i) (q_planet r' o' p' ph' i').
Proof. intros. unfold q_planet. us. Qed.
