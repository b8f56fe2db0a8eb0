(** Flares and planets given in any units behave as in the unit-free model *)
From Coq Require Import Reals ZArith Bool List Lra.
From Verif Require Import Num Py MConfig MHelpers MGrid MSpots MFaculae MXoflares MFlares MStar MUnits SpecUnits LBase
  LUnits LUnitSame LUnitEval LUnitFac.
Import ListNotations.
Open Scope R_scope.

Lemma is_of_pos : forall q v u, is_of q v u -> 0 < usize u.
Proof. intros q v u (_ & _ & P & _). exact P. Qed.
Lemma dmul_D0_r : forall d, dmul d D0 = d.
Proof. intros [a b c d e]. unfold dmul, D0. simpl. f_equal; ring. Qed.
Lemma dmul_D0_l : forall d, dmul D0 d = d.
Proof. intros [a b c d e]. unfold dmul, D0. simpl. f_equal; ring. Qed.
Lemma num_mul_of : forall q v u x, is_of q v u -> is_of (qmul (qnum x) q) (nmul x v) u.
Proof.
  intros q v u x H. pose proof (is_of_pos _ _ _ H) as P.
  eapply same_is; [apply same_mul; [apply same_num|exact H]|]. qn.
  apply is_of_mk; [apply dmul_D0_l|ring|lra].
Qed.
Lemma add_of : forall a b v w u, is_of a v u -> is_of b w u ->
  exists q, qadd a b = Ok q /\ is_of q (nadd v w) u.
Proof.
  intros a b v w u H K. pose proof (is_of_pos _ _ _ H) as P.
  pose proof (same_add _ _ _ _ H K) as L. rewrite !qmk_eq, qadd_is in L by auto.
  destruct (qadd a b) as [q|]; [|contradiction]. exists q. split; [reflexivity|exact L].
Qed.
Lemma sub_of : forall a b v w u, is_of a v u -> is_of b w u ->
  exists q, qsub a b = Ok q /\ is_of q (nsub v w) u.
Proof.
  intros a b v w u H K. pose proof (is_of_pos _ _ _ H) as P.
  pose proof (same_sub _ _ _ _ H K) as L. rewrite !qmk_eq, qsub_is in L by auto.
  destruct (qsub a b) as [q|]; [|contradiction]. exists q. split; [reflexivity|exact L].
Qed.
Lemma gt_of : forall a b v w u, is_of a v u -> is_of b w u -> qgt a b = Ok (ngt v w).
Proof.
  intros a b v w u H K. pose proof (is_of_pos _ _ _ H) as P. pose proof (same_gt _ _ _ _ H K) as L.
  unfold qmk in L. rewrite qgt_is in L by auto. exact (alike_eq _ _ _ L).
Qed.
(** conversion to another unit does not change the quantity *)
Lemma to_of : forall q v u w, is_of q v u -> udim u = udim w -> 0 < usize w ->
  exists q', qto q w = Ok q' /\ is_of q' v u.
Proof.
  intros q v u w H E P. pose proof (is_of_pos _ _ _ H) as U.
  pose proof (same_to _ _ w H P) as L. rewrite qmk_eq, qto_sc in L by exact E.
  destruct (qto q w) as [q'|]; [|contradiction]. exists q'. split; [reflexivity|].
  eapply same_is; [exact L|]. unfold is_of, same. cbn [qmk qv qs qd].
  split; [congruence|]. split; [assumption|]. split; [assumption|].
  change (sc (sc v (usize u / usize w)) (usize w) = sc v (usize u)).
  rewrite sc_sc; [|apply Rdiv_lt_0_compat; assumption|assumption]. f_equal. field. lra.
Qed.
Lemma fun_of : forall u f w q x, 0 < usize w -> is_of q x u -> exists q', qfun u f w q = Ok q' /\ is_of q' (f x) w.
Proof.
  intros u f w q x W H. pose proof (is_of_pos _ _ _ H) as P. unfold qfun. rewrite (is_of_in _ _ _ H P).
  eexists. split; [reflexivity|]. now apply same_mk.
Qed.
Lemma ratio_of : forall a b v w u, is_of a v u -> is_of b w u -> is_of (qdiv a b) (ndiv v w) u_one.
Proof.
  intros a b v w u H K. pose proof (is_of_pos _ _ _ H) as P.
  eapply same_is; [apply same_div; eassumption|]. qn. apply is_of_mk.
  - unfold ddiv, dmul, dpow. destruct (udim u). simpl. unfold D0. f_equal; ring.
  - simpl. field. lra.
  - replace (usize u / usize u) with 1 by (field; lra). lra.
Qed.
Lemma product_of : forall a b v w, is_of a v u_one -> is_of b w u_one -> is_of (qmul a b) (nmul v w) u_one.
Proof.
  intros a b v w H K. eapply same_is; [apply same_mul; eassumption|]. qn.
  apply is_of_mk; [dq|simpl; ring|lra].
Qed.

(** ** Flares *)
Definition canon_flare (f : flare) : flareq :=
  mkFlareQ (qmk (fl_fwhm f) u_day) (qmk (fl_energy f) u_erg) (qmk (fl_teff f) u_K) (qmk (Fin (fl_tpeak f)) u_day).
Lemma sigma_erg : same q_sigma_sb (mkQ (Fin SIGMA_SB) (usize u_erg) (qd q_sigma_sb)).
Proof.
  pose proof erg_pos. unfold same, q_sigma_sb. cbn [qd qs qv]. repeat split; [lra|assumption|].
  simpl. f_equal. unfold SIGMA_SB. field.
Qed.
Lemma peak_area_of : forall q f, flare_of q f ->
  alike (fun q v => is_of q v u_km2) (lq_peak_area q) (Ok (peak_area f)).
Proof.
  intros q f (H1 & H2 & H3 & H4). unfold lq_peak_area. cbv zeta.
  assert (A : is_of (qmul (qdiv (qdiv (qdiv (lq_energy q) q_sigma_sb) (qipow (lq_teff q) 4))
     (q_flareintegral (lq_fwhm q) (qmk (Fin 1) u_km2))) (qmk (Fin 1) u_km2)) (peak_area f) u_km2).
  2: { destruct (to_of _ _ _ u_km2 A eq_refl) as (x & -> & X); [sz|exact X]. }
  pose proof erg_pos as EP.
  eapply same_is.
  { apply same_mul; [|apply same_mk; sz]. apply same_div.
    - apply same_div; [apply same_div; [exact H2|exact sigma_erg]|apply same_ipow; exact H3].
    - unfold q_flareintegral. cbv zeta. apply same_mul; [apply same_mul; [apply same_num|apply same_mk; sz]|exact H1]. }
  unfold q_sigma_sb. cbn [qd]. qn.
  apply is_of_mk.
  - replace (INR 4) with 4 by (simpl; lra). dq.
  - cbn [usize u_km2]. replace (usize u_erg / usize u_erg) with 1 by (field; lra). field.
  - replace (usize u_erg / usize u_erg) with 1 by (field; lra). lra.
Qed.
Lemma curve_args_of : forall q f, flare_of q f ->
  lq_curve_args q = Ok (Fin (fl_tpeak f), fl_fwhm f, peak_area f).
Proof.
  intros q f H. pose proof (peak_area_of q f H) as P. destruct H as (H1 & H2 & H3 & H4).
  unfold lq_curve_args. apply alike_ok in P. destruct P as (a & -> & P). cbn [bind].
  rewrite (is_of_in _ _ _ H4), (is_of_in _ _ _ H1), (is_of_in _ _ _ P) by sz. reflexivity.
Qed.
Lemma ntrapz_scale : forall s ts ys, 0 < s ->
  ntrapz (map (fun t => Fin (t * s)) ts) ys = sc (ntrapz (map Fin ts) ys) s.
Proof.
  intros s ts. induction ts as [|t0 ts IH]; intros ys P.
  - simpl. rewrite sc_eq by assumption. f_equal. ring.
  - destruct ts as [|t1 ts].
    + simpl. rewrite sc_eq by assumption. f_equal. ring.
    + destruct ys as [|y0 [|y1 ys]]; try (simpl; rewrite sc_eq by assumption; f_equal; ring).
      specialize (IH (y1 :: ys) P). cbn [map ntrapz] in *. rewrite IH. clear IH.
      rewrite <- nadd_sc by assumption. f_equal.
      replace (nsub (Fin (t1 * s)) (Fin (t0 * s))) with (sc (nsub (Fin t1) (Fin t0)) s)
        by (rewrite sc_eq by assumption; simpl; f_equal; ring).
      rewrite <- (sc_1 (nadd y1 y0)) at 1. rewrite nmul_sc by lra.
      rewrite <- (sc_1 (Fin 2)) at 1. rewrite ndiv_sc by lra. f_equal. field.
Qed.
Lemma timearea_of : forall f u ts areas, udim u = DTime -> 0 < usize u ->
  areacurve f (map (fun t => t * usize u) ts) = Ok areas ->
  exists v, get_timearea f (map (fun t => t * usize u) ts) = Ok v
  /\ alike (fun q v => is_of q v u_hrkm2) (q_timearea areas (map Fin ts) (usize u) (udim u)) (Ok v).
Proof.
  intros f u ts areas D P E. unfold get_timearea. rewrite E. cbn [bind]. eexists. split; [reflexivity|].
  rewrite map_map, ntrapz_scale by assumption. unfold q_timearea. rewrite D.
  rewrite qto_sc by reflexivity. cbn [alike]. apply is_of_value with (sc (ntrapz (map Fin ts) areas) (usize u / usize u_hrkm2)).
  - apply same_mk. simpl. lra.
  - change (sc (ntrapz (map Fin ts) areas) (usize u / usize u_hrkm2) = sc (sc (ntrapz (map Fin ts) areas) (usize u)) 24).
    rewrite sc_sc by lra. f_equal. simpl. field.
Qed.
Lemma frequency_of : forall g e v, is_of e v u_erg ->
  alike (fun q v => is_of q v (u_per u_day)) (lgq_frequency (lg_alpha g) (lg_beta g) e) (Ok (frequency_gt g v)).
Proof.
  intros g e v H. unfold lgq_frequency. rewrite (is_of_in _ _ _ H) by exact erg_pos. cbn [bind alike].
  qn. apply is_of_value with (ndiv (frequency_gt g v) (Fin 1)); [|apply ndiv_1_r].
  apply is_of_mk; [dq|sz|sz].
Qed.
Lemma nexp_of : forall g e v qt t, is_of e v u_erg -> is_of qt t u_day ->
  lgq_nexp (lg_alpha g) (lg_beta g) e qt = Ok (nexp_gt g v t).
Proof.
  intros g e v qt t H K. unfold lgq_nexp. pose proof (frequency_of g e v H) as F. apply alike_ok in F.
  destruct F as (q & -> & F). cbn [bind]. apply is_of_in; [|sz].
  eapply same_is; [apply same_mul; [exact F|exact K]|]. qn. apply is_of_mk; [dq|sz|sz].
Qed.
Lemma cdf_of : forall g m e v, is_of m (lg_min_energy g) u_erg -> is_of e v u_erg ->
  lgq_cdf (lg_alpha g) m e = Ok (flare_cdf g v).
Proof.
  intros g m e v H K. unfold lgq_cdf. rewrite (is_of_in _ _ _ (ratio_of _ _ _ _ _ K H)) by sz. reflexivity.
Qed.
Lemma pdf_of : forall g m e v, is_of m (lg_min_energy g) u_erg -> is_of e v u_erg ->
  lgq_pdf (lg_alpha g) m e = Raise UnitConversionError /\ flare_pdf g v = Raise UnitConversionError.
Proof.
  intros g m e v (H & _) (K & _). split.
  - unfold lgq_pdf. apply qin_bad. unfold qdiv, qmul, qpow, qnum. cbn [qd]. rewrite H, K. cbn [qmk qd udim u_erg].
    intro E. apply (f_equal e_mass) in E. simpl in E. lra.
  - unfold flare_pdf, pdf_quantity. destruct (Req_EM_T _ 0); [lra|reflexivity].
Qed.
Lemma quantile_of : forall g m x, is_of m (lg_min_energy g) u_erg ->
  is_of (lgq_quantile (lg_alpha g) m x) (nmul (lg_min_energy g) (npow (Fin (1 - x)) (1 / lg_alpha g))) u_erg.
Proof.
  intros g m x H. unfold lgq_quantile. pose proof erg_pos.
  eapply same_is; [apply same_mul; [exact H|apply same_num]|]. qn.
  apply is_of_mk; [apply dmul_D0_r|ring|lra].
Qed.
Lemma fwhm_of : forall m v s z, is_of m v u_day ->
  lgq_fwhm m s z = Ok (qmk (npow10 (nadd (nlog10 v) (Fin (s * z)))) u_day).
Proof. intros m v s z H. unfold lgq_fwhm. now rewrite (is_of_in _ _ _ H) by sz. Qed.
Lemma teff_of : forall m v q s z, is_of m v u_K -> is_of q (Fin s) u_K ->
  lgq_teff m q z = Ok (qmk (nadd v (Fin (s * z))) u_K).
Proof. intros m v q s z H K. unfold lgq_teff. rewrite (is_of_in _ _ _ H), (is_of_in _ _ _ K) by sz. reflexivity. Qed.
Lemma in_period_of : forall q f qa a qb b, flare_of q f -> is_of qa (Fin a) u_day -> is_of qb (Fin b) u_day ->
  lq_in_period q qa qb
  = Ok (ngt (nadd (Fin (fl_tpeak f)) (nmul (Fin 20) (fl_fwhm f))) (Fin a)
        && nlt (nsub (Fin (fl_tpeak f)) (nmul (Fin 10) (fl_fwhm f))) (Fin b)).
Proof.
  intros q f qa a qb b (H1 & H2 & H3 & H4) A B. unfold lq_in_period.
  destruct (to_of _ _ _ u_hr H4 eq_refl) as (p & -> & P); [sz|].
  destruct (to_of _ _ _ u_hr H1 eq_refl) as (w & -> & W); [sz|]. cbn [bind].
  destruct (add_of _ _ _ _ _ P (num_mul_of _ _ _ (Fin 20) W)) as (e & -> & E). cbn [bind].
  rewrite (gt_of _ _ _ _ _ E A). cbn [bind].
  destruct (sub_of _ _ _ _ _ P (num_mul_of _ _ _ (Fin 10) W)) as (x & -> & X). cbn [bind].
  rewrite (lt_of _ _ _ _ _ X B). reflexivity.
Qed.
Lemma samples_of : forall qa a qb b, is_of qa (Fin a) u_day -> is_of qb (Fin b) u_day ->
  q_samples qa qb = Ok (Fin ((b - a) / TEN_MIN)).
Proof.
  intros qa a qb b A B. unfold q_samples.
  destruct (sub_of _ _ _ _ _ B A) as (d & -> & D). cbn [bind].
  assert (T : is_of (qmk (Fin 10) u_min) (Fin TEN_MIN) u_day).
  { unfold is_of, same. cbn [qmk qd qs qv udim usize u_min u_day]. repeat split; try lra.
    simpl. f_equal. unfold TEN_MIN. field. }
  rewrite (is_of_in _ _ _ (ratio_of _ _ _ _ _ D T)) by sz. f_equal.
  simpl. unfold TEN_MIN. destruct (Req_EM_T (10 / 1440) 0); [lra|]. f_equal; lra.
Qed.

(** ** Transits *)
Lemma deg180 : is_of (qmk (Fin 180) u_deg) (Fin PI) u_rad.
Proof.
  pose proof deg_pos. unfold is_of, same. cbn [qmk qd qs qv udim usize u_deg u_rad] in *. repeat split; try lra.
  simpl. f_equal. field.
Qed.
Lemma planet_of : forall s qr qo orbit qp planet qph phase qi incl,
  is_of qr (Fin (st_radius s)) u_Rsun -> is_of qo (Fin orbit) u_Rsun -> is_of qp (Fin planet) u_Rsun ->
  is_of qph (Fin phase) u_rad -> is_of qi (Fin incl) u_rad ->
  q_planet qr qo qp qph qi
  = Ok (Rltb 0 (cos phase), (planet_xy s orbit (phase - PI) incl, ndiv (Fin planet) (Fin (st_radius s)))).
Proof.
  intros s qr qo orbit qp planet qph phase qi incl R0' O P PH I. unfold q_planet, qcos, qsin.
  destruct (fun_of u_rad ncos u_one _ _ one_pos PH) as (cp & -> & CP). cbn [bind].
  assert (Z : is_of (qnum (Fin 0)) (Fin 0) u_one) by (apply is_of_mk; [reflexivity|reflexivity|lra]).
  rewrite (gt_of _ _ _ _ _ CP Z). cbn [bind].
  destruct (sub_of _ _ _ _ _ PH deg180) as (a & -> & A). cbn [bind].
  destruct (fun_of u_rad nsin u_one _ _ one_pos A) as (sa & -> & SA). cbn [bind].
  pose proof (ratio_of _ _ _ _ _ O R0') as RT.
  rewrite (is_of_in _ _ _ (product_of _ _ _ _ RT SA)) by sz. cbn [bind].
  destruct (fun_of u_rad ncos u_one _ _ one_pos A) as (ca & -> & CA). cbn [bind].
  destruct (fun_of u_rad ncos u_one _ _ one_pos I) as (ci & -> & CI). cbn [bind].
  rewrite (is_of_in _ _ _ (product_of _ _ _ _ (product_of _ _ _ _ RT CA) CI)) by sz. cbn [bind].
  rewrite (is_of_in _ _ _ (ratio_of _ _ _ _ _ P R0')) by sz. reflexivity.
Qed.
