(** Quantities of the wrong kind are rejected *)
From Coq Require Import Reals ZArith Bool List Lra Lia.
From Verif Require Import Num Py MConfig MHelpers MGrid MSpots MFaculae MXoflares MFlares MStar MUnits SpecUnits LBase
  LHelpers LUnits LUnitSame LUnitEval LUnitFac LUnitFlare.
Import ListNotations.
Open Scope R_scope.

Lemma is_of_dim : forall q v u, is_of q v u -> qd q = udim u.
Proof. intros q v u (H & _). exact H. Qed.
Lemma qgt_bad : forall a b, qd b <> qd a -> qgt a b = Raise UnitConversionError.
Proof. intros a b H. unfold qgt. now rewrite qlike_bad. Qed.
Lemma qle_bad : forall a b, qd b <> qd a -> qle a b = Raise UnitConversionError.
Proof. intros a b H. unfold qle. now rewrite qlike_bad. Qed.
Lemma qlt_bad : forall a b, qd b <> qd a -> qlt a b = Raise UnitConversionError.
Proof. intros a b H. unfold qlt. now rewrite qlike_bad. Qed.
Lemma qadd_bad : forall a b, qd b <> qd a -> qadd a b = Raise UnitConversionError.
Proof. intros a b H. unfold qadd. now rewrite qlike_bad. Qed.
Lemma qsub_bad : forall a b, qd b <> qd a -> qsub a b = Raise UnitConversionError.
Proof. intros a b H. unfold qsub. now rewrite qlike_bad. Qed.
Lemma qfun_bad : forall u f w a, qd a <> udim u -> qfun u f w a = Raise UnitTypeError.
Proof. intros u f w a H. unfold qfun. now rewrite qin_bad. Qed.
Lemma qto_bad : forall a u, qd a <> udim u -> qto a u = Raise UnitConversionError.
Proof. intros a u H. unfold qto. now rewrite qin_bad. Qed.

(** dimensions compare by their exponents *)
Lemma dim_ext : forall d d', e_len d = e_len d' -> e_time d = e_time d' -> e_mass d = e_mass d' ->
  e_temp d = e_temp d' -> e_ang d = e_ang d' -> d = d'.
Proof. intros [a b c d e] [a' b' c' d' e']. simpl. intros. congruence. Qed.
Ltac dimeq H E :=
  apply H; clear H;
  pose proof (f_equal e_len E) as E1; pose proof (f_equal e_time E) as E2; pose proof (f_equal e_mass E) as E3;
  pose proof (f_equal e_temp E) as E4; pose proof (f_equal e_ang E) as E5; clear E;
  cbv [ddiv dmul dpow DArea DEnergy D0 DLen DTime DTemp DAng DMass u_one u_km u_km2 u_Rsun u_MSH
    u_day u_hr u_min u_K u_rad u_deg u_erg u_hrkm2 u_per u_times udim qd qmk qnum
    qmul qdiv qsq qsqrt qv qs] in *; cbn [e_len e_time e_mass e_temp e_ang] in *;
  apply dim_ext; cbn [e_len e_time e_mass e_temp e_ang]; lra.

(** ** Spots *)
Lemma spot_age_bad : forall q s t, spot_of q s -> sp_growth_dim s = (-1)%Z -> qd t <> DTime ->
  sq_age q t = Raise UnitConversionError.
Proof.
  intros q s t (H1 & H2 & H3 & H4 & H5 & H6 & H7 & H8) G B.
  assert (X : qgt (qmul t (sq_decay q)) (sq_amax q) = Raise UnitConversionError).
  { apply qgt_bad. unfold qmul. cbn [qd]. rewrite (is_of_dim _ _ _ H3), (is_of_dim _ _ _ H8). intro E. dimeq B E. }
  unfold sq_age. destruct (sq_growing q).
  - assert (D : is_of (qmul (sq_growth q) (qmk (Fin 1) u_day)) (sp_growth s) u_one).
    { rewrite G in H7. eapply same_is; [apply same_mul; [exact H7|apply same_mk; sz]|]. qn.
      rewrite nmul_1_r. apply is_of_mk; [dq|sz|sz]. }
    destruct (to_of _ _ _ u_one D eq_refl one_pos) as (gd & -> & GD). cbn [bind].
    assert (O : is_of (qnum (Fin 1)) (Fin 1) u_one) by (apply is_of_mk; [reflexivity|reflexivity|lra]).
    destruct (add_of _ _ _ _ _ GD O) as (g1 & -> & G1). cbn [bind].
    destruct (fun_of u_one nln u_one _ _ one_pos G1) as (tau & E & T). unfold qlog at 1. rewrite E. cbn [bind].
    destruct (qeq tau (qnum (Fin 0))).
    + cbn [bind]. rewrite qgt_bad; [reflexivity|]. exact B.
    + destruct (fun_of u_one nln u_one _ _ one_pos (ratio_of _ _ _ _ _ H3 H4)) as (l & E' & L).
      unfold qlog. rewrite E'. cbn [bind]. rewrite qgt_bad; [reflexivity|].
      unfold qmul, qdiv. cbn [qd qmk u_day udim]. rewrite (is_of_dim _ _ _ L), (is_of_dim _ _ _ T).
      intro F. dimeq B F.
  - cbv zeta. rewrite X. reflexivity.
Qed.
Lemma spot_map_bad : forall q s qr qa a qo o, spot_of q s -> is_of qa (Fin a) u_rad -> is_of qo (Fin o) u_rad ->
  qd qr <> DLen ->
  sq_angular_radius q qr = Raise UnitConversionError /\ sq_covers q qr qa qo = Raise UnitConversionError.
Proof.
  intros q s qr qa a qo o (H1 & H2 & H3 & H4 & H5 & H6 & H7 & H8) A O B.
  assert (X : sq_angular_radius q qr = Raise UnitConversionError).
  { unfold sq_angular_radius. rewrite qsub_bad; [reflexivity|].
    unfold qdiv, qmul, qsq. cbn [qd qnum]. rewrite (is_of_dim _ _ _ H4). intro E. dimeq B E. }
  split; [exact X|]. unfold sq_covers.
  pose proof (haversine_of _ _ _ _ _ _ (a, o) H1 H2 A O) as V. apply alike_ok in V. destruct V as (v & -> & _).
  cbn [bind]. now rewrite X.
Qed.
Lemma n_expected_bad : forall q g qt qr, gen_of q g ->
  qd qt = DTime /\ qd qr <> DLen \/ qd qt <> DTime /\ qd qr = DLen ->
  exists e, gq_n_expected q qt qr = Raise e.
Proof.
  intros q g qt qr H B. unfold gq_n_expected.
  pose proof (mean_area_of q g H) as M. pose proof (lifetime_of q g H) as L.
  destruct (gq_mean_area q) as [ma|e], (sg_mean_area g) as [ma'|e1]; cbn [alike] in M; try contradiction;
    [|eexists; reflexivity].
  destruct (gq_mean_lifetime q) as [ml|e], (sg_mean_lifetime g) as [ml'|e1]; cbn [alike] in L; try contradiction;
    [|eexists; reflexivity].
  cbn [bind]. rewrite qin_bad; [eexists; reflexivity|].
  unfold qdiv, qmul, qsq, qnum. cbn [qd]. rewrite (is_of_dim _ _ _ M), (is_of_dim _ _ _ L).
  intro E. destruct B as [[B1 B]|[B B1]]; rewrite B1 in E; dimeq B E.
Qed.

(** ** Faculae *)
Lemma fac_age_bad : forall t q f qt, udim t = DTime -> fac_of t q f -> qd qt <> DTime ->
  fq_age q qt = Raise (if fc_growing f then UnitConversionError else UnitTypeError).
Proof.
  intros t q f qt T (H1 & H2 & H3 & H4 & H5 & H6 & H7 & H8 & H9 & H10 & H11 & H12) B.
  unfold fq_age. rewrite H12. destruct (fc_growing f).
  - destruct (fun_of u_one nln u_one _ _ one_pos (ratio_of _ _ _ _ _ H4 H3)) as (l & E' & L).
    unfold qlog. rewrite E'. cbn [bind]. cbv zeta. rewrite qle_bad; [reflexivity|].
    unfold qmul, qnum. cbn [qd]. rewrite (is_of_dim _ _ _ L), (is_of_dim _ _ _ H6), T. intro F. dimeq B F.
  - unfold qexp. rewrite qfun_bad; [reflexivity|].
    unfold qdiv, qmul, qnum. cbn [qd]. rewrite (is_of_dim _ _ _ H6), T. intro F. dimeq B F.
Qed.
Lemma fac_map_bad : forall t q f qr qa a qo o, fac_of t q f -> is_of qa (Fin a) u_rad -> is_of qo (Fin o) u_rad ->
  qd qr <> DLen -> fq_covers q qr qa qo = Raise UnitConversionError.
Proof.
  intros t q f qr qa a qo o (H1 & H2 & H3 & H4 & _) A O B. unfold fq_covers.
  pose proof (haversine_of _ _ _ _ _ _ (a, o) H1 H2 A O) as V. apply alike_ok in V. destruct V as (v & -> & V).
  cbn [bind]. apply qle_bad. rewrite (is_of_dim _ _ _ V).
  unfold fq_angular_radius, qdiv, qmul, qnum. cbn [qd qmk]. rewrite (is_of_dim _ _ _ H4). intro E. dimeq B E.
Qed.
Lemma fac_n_expected_bad : forall t cov qr r ql l qt qR, udim t = DTime -> is_of qr r u_km -> is_of ql l t ->
  qd qt = DTime /\ qd qR <> DLen \/ qd qt <> DTime /\ qd qR = DLen ->
  gfq_n_expected cov qr ql qt qR = Raise UnitConversionError.
Proof.
  intros t cov qr r ql l qt qR T A C B. unfold gfq_n_expected, gfq_mean_area. apply qin_bad.
  unfold qdiv, qmul, qsq, qnum. cbn [qd]. rewrite (is_of_dim _ _ _ A), (is_of_dim _ _ _ C), T.
  intro E. destruct B as [[B1 B]|[B B1]]; rewrite B1 in E; dimeq B E.
Qed.

(** ** Flares *)
Lemma nexp_bad : forall al be e qt,
  qd e <> DEnergy \/ (exists v, is_of e v u_erg) /\ qd qt <> DTime ->
  lgq_nexp al be e qt = Raise UnitConversionError.
Proof.
  intros al be e qt [B|[[v H] B]]; unfold lgq_nexp, lgq_frequency.
  - now rewrite qin_bad.
  - rewrite (is_of_in _ _ _ H) by exact erg_pos. cbn [bind]. apply qin_bad.
    unfold qmul, qdiv, qnum. cbn [qd qmk]. intro E. dimeq B E.
Qed.
Lemma cdf_bad : forall al m v e, is_of m v u_erg -> qd e <> DEnergy -> lgq_cdf al m e = Raise UnitConversionError.
Proof.
  intros al m v e H B. unfold lgq_cdf. rewrite qin_bad; [reflexivity|].
  unfold qdiv. cbn [qd]. rewrite (is_of_dim _ _ _ H). intro E. dimeq B E.
Qed.
Lemma in_period_bad : forall q f qa qb, flare_of q f ->
  qd qa <> DTime \/ (exists a, is_of qa (Fin a) u_day) /\ qd qb <> DTime ->
  lq_in_period q qa qb = Raise UnitConversionError.
Proof.
  intros q f qa qb (H1 & H2 & H3 & H4) B. unfold lq_in_period.
  destruct (to_of _ _ _ u_hr H4 eq_refl) as (p & -> & P); [sz|].
  destruct (to_of _ _ _ u_hr H1 eq_refl) as (w & -> & W); [sz|]. cbn [bind].
  destruct (add_of _ _ _ _ _ P (num_mul_of _ _ _ (Fin 20) W)) as (e & -> & E). cbn [bind].
  destruct B as [B|[[a A] B]].
  - rewrite qgt_bad; [reflexivity|]. rewrite (is_of_dim _ _ _ E). exact B.
  - rewrite (gt_of _ _ _ _ _ E A). cbn [bind].
    destruct (sub_of _ _ _ _ _ P (num_mul_of _ _ _ (Fin 10) W)) as (x & -> & X). cbn [bind].
    rewrite qlt_bad; [reflexivity|]. rewrite (is_of_dim _ _ _ X). exact B.
Qed.
Lemma flare_energy_bad : forall q f e, flare_of q f -> qd e <> DEnergy ->
  lq_curve_args (mkFlareQ (lq_fwhm q) e (lq_teff q) (lq_tpeak q)) = Raise UnitConversionError.
Proof.
  intros q f e (H1 & H2 & H3 & H4) B. unfold lq_curve_args, lq_peak_area. cbn [lq_fwhm lq_energy lq_teff lq_tpeak].
  cbv zeta. rewrite qto_bad; [reflexivity|].
  unfold qmul, qdiv, q_flareintegral, qipow, q_sigma_sb. cbv zeta. cbn [qd qmul qnum qmk].
  rewrite (is_of_dim _ _ _ H1), (is_of_dim _ _ _ H3). replace (INR 4) with 4 by (simpl; lra).
  intro E. dimeq B E.
Qed.

(** ** Transits and coordinates *)
Lemma planet_bad : forall qr r qo o qp qph ph qi i,
  is_of qr (Fin r) u_Rsun -> is_of qo (Fin o) u_Rsun -> is_of qph (Fin ph) u_rad -> is_of qi (Fin i) u_rad ->
  (qd qp <> DLen -> q_planet qr qo qp qph qi = Raise UnitConversionError)
  /\ (forall x, qd x <> DLen -> q_planet qr x qp qph qi = Raise UnitConversionError)
  /\ (forall x, qd x <> DAng -> q_planet qr qo qp x qi = Raise UnitTypeError)
  /\ (forall x, qd x <> DAng -> q_planet qr qo qp qph x = Raise UnitTypeError).
Proof.
  intros qr r qo o qp qph ph qi i R0' O PH I. unfold q_planet, qcos, qsin.
  destruct (fun_of u_rad ncos u_one _ _ one_pos PH) as (cp & -> & CP).
  assert (Z : is_of (qnum (Fin 0)) (Fin 0) u_one) by (apply is_of_mk; [reflexivity|reflexivity|lra]).
  destruct (sub_of _ _ _ _ _ PH deg180) as (a & E & A).
  destruct (fun_of u_rad nsin u_one _ _ one_pos A) as (sa & ES & SA).
  destruct (fun_of u_rad ncos u_one _ _ one_pos A) as (ca & EC & CA).
  destruct (fun_of u_rad ncos u_one _ _ one_pos I) as (ci & EI & CI).
  pose proof (ratio_of _ _ _ _ _ O R0') as RT.
  cbn [bind]. rewrite (gt_of _ _ _ _ _ CP Z). cbn [bind]. rewrite E. cbn [bind]. rewrite ES, EC, EI. cbn [bind].
  repeat split.
  - intro B. rewrite (is_of_in _ _ _ (product_of _ _ _ _ RT SA)) by sz. cbn [bind].
    rewrite (is_of_in _ _ _ (product_of _ _ _ _ (product_of _ _ _ _ RT CA) CI)) by sz. cbn [bind].
    rewrite qin_bad; [reflexivity|]. unfold qdiv. cbn [qd]. rewrite (is_of_dim _ _ _ R0'). intro F. dimeq B F.
  - intros x B. rewrite qin_bad; [reflexivity|]. unfold qdiv, qmul. cbn [qd].
    rewrite (is_of_dim _ _ _ R0'), (is_of_dim _ _ _ SA). intro F. dimeq B F.
  - intros x B. rewrite qfun_bad; [reflexivity|exact B].
  - intros x B. rewrite (is_of_in _ _ _ (product_of _ _ _ _ RT SA)) by sz. cbn [bind].
    rewrite qfun_bad; [reflexivity|exact B].
Qed.
Lemma angle_between_bad : forall a b c x, qd x <> DAng -> q_angle_between x a b c = Raise UnitTypeError.
Proof.
  intros a b c x B. unfold q_angle_between, q_law_cos, qsin. rewrite qfun_bad; [reflexivity|exact B].
Qed.
Lemma clip_bad : forall q, qd q <> DTemp -> q_clip_teff q = Raise UnitConversionError.
Proof.
  intros q B. unfold q_clip_teff. rewrite qgt_bad; [reflexivity|]. intro E. now apply B.
Qed.
(** [round_teff] rounds in the unit of its argument *)
Lemma round_unit : forall q z, qv q = Fin z ->
  exists n, q_round_teff q = Ok (mkQ (Fin (IZR n)) (qs q) (qd q)) /\ Rabs (IZR n - z) <= 1/2.
Proof.
  intros q z H. unfold q_round_teff. rewrite H.
  destruct (proj1 C12_lemma z) as (n & -> & N & _). exists n. split; [reflexivity|exact N].
Qed.

(** ** The properties *)
Lemma C96_spots_lemma :
  (forall q q' t t', same_spot q q' -> same t t' -> alike same_spot (sq_age q t) (sq_age q' t'))
  /\ (forall l l' t t', Forall2 same_spot l l' -> same t t' ->
        alike (Forall2 same_spot) (sq_collection_age l t) (sq_collection_age l' t'))
  /\ (forall q q' r r' a a' o o', same_spot q q' -> same r r' -> same a a' -> same o o' ->
        alike same (sq_radius q) (sq_radius q')
        /\ alike same (sq_angular_radius q r) (sq_angular_radius q' r')
        /\ alike eq (sq_covers q r a o) (sq_covers q' r' a' o'))
  /\ (forall q s t d, spot_of q s -> is_of t d u_day -> alike spot_of (sq_age q t) (spot_age s d))
  /\ (forall l c t d, Forall2 spot_of l (sc_spots c) -> is_of t d u_day ->
        alike (fun l' c' => Forall2 spot_of l' (sc_spots c')) (sq_collection_age l t) (sc_age c d))
  /\ (forall q s qr r qa qo p, spot_of q s -> is_of qr (Fin r) u_Rsun ->
        is_of qa (Fin (fst p)) u_rad -> is_of qo (Fin (snd p)) u_rad ->
        alike (fun q v => is_of q v u_km) (sq_radius q) (Ok (spot_radius s))
        /\ alike (fun q v => is_of q v u_rad) (sq_angular_radius q qr) (Ok (spot_angular_radius s r))
        /\ sq_covers q qr qa qo
           = Ok (nlt (haversine (sp_lat s) (sp_lon s) p) (ndiv (spot_angular_radius s r) (nsqrt (sp_ratio s))),
                 nlt (haversine (sp_lat s) (sp_lon s) p) (spot_angular_radius s r))).
Proof.
  split; [exact spot_age_same|]. split; [exact spots_age_same|].
  split; [intros; split; [now apply spot_radius_same|split; [now apply spot_angular_same|now apply spot_covers_same]]|].
  split; [exact spot_age_of|]. split; [exact spots_age_of|].
  intros. split; [now apply spot_radius_of|]. split; [now apply spot_angular_of|now apply spot_covers_of].
Qed.
Lemma C96_gen_lemma :
  (forall q q' t t' r r' sigma z, same_gen q q' -> same t t' -> same r r' ->
     gq_is_static q = gq_is_static q'
     /\ alike same (gq_mean_lifetime q) (gq_mean_lifetime q') /\ alike same (gq_mean_area q) (gq_mean_area q')
     /\ alike eq (gq_n_expected q t r) (gq_n_expected q' t' r')
     /\ alike same (gq_max_area q sigma z) (gq_max_area q' sigma z))
  /\ (forall q g qt t qr r sigma z, gen_of q g -> is_of qt t u_day -> is_of qr (Fin r) u_Rsun ->
        gq_is_static q = sg_is_static g
        /\ alike (fun q v => is_of q v u_day) (gq_mean_lifetime q) (sg_mean_lifetime g)
        /\ alike (fun q v => is_of q v u_MSH) (gq_mean_area q) (sg_mean_area g)
        /\ alike eq (gq_n_expected q qt qr) (sg_n_expected g t r)
        /\ alike (fun q v => is_of q v u_MSH) (gq_max_area q sigma z)
                 (Ok (nexp (nadd (nln (sg_mean g)) (Fin (sigma * z)))))).
Proof.
  split.
  - intros. split; [now apply static_same|]. split; [now apply lifetime_same|]. split; [now apply mean_area_same|].
    split; [now apply n_expected_same|now apply max_area_same].
  - intros. split; [now apply static_of|]. split; [now apply lifetime_of|]. split; [now apply mean_area_of|].
    split; [now apply n_expected_of|now apply max_area_of].
Qed.
Lemma C97_facs_lemma :
  (forall q q' t t', same_fac q q' -> same t t' -> alike same_fac (fq_age q t) (fq_age q' t'))
  /\ (forall l l' t t', Forall2 same_fac l l' -> same t t' ->
        alike (Forall2 same_fac) (fq_collection_age l t) (fq_collection_age l' t'))
  /\ (forall q q' r r' a a' o o' x x', same_fac q q' -> same r r' -> same a a' -> same o o' -> same x x' ->
        alike same (fq_floor_dteff q) (fq_floor_dteff q') /\ alike same (fq_wall_dteff q) (fq_wall_dteff q')
        /\ alike (Forall2 same_kv) (fq_effective_area q x) (fq_effective_area q' x')
        /\ alike eq (fq_fractional_area q x) (fq_fractional_area q' x')
        /\ same (fq_angular_radius q r) (fq_angular_radius q' r')
        /\ alike eq (fq_covers q r a o) (fq_covers q' r' a' o'))
  /\ (forall u q f t d, udim u = DTime -> 0 < usize u -> fac_of u q f -> is_of t d u ->
        alike (fac_of u) (fq_age q t) (Ok (fac_age f d)))
  /\ (forall u l c t d, udim u = DTime -> 0 < usize u -> Forall2 (fac_of u) l (fcc_facs c) -> is_of t d u ->
        alike (fun l' c' => Forall2 (fac_of u) l' (fcc_facs c')) (fq_collection_age l t) (Ok (fcc_age c d)))
  /\ (forall u q f qr r qa qo p qx x, fac_of u q f -> is_of qr (Fin r) u_km ->
        is_of qa (Fin (fst p)) u_rad -> is_of qo (Fin (snd p)) u_rad -> is_of qx x u_rad ->
        alike (fun q v => is_of q v u_K) (fq_floor_dteff q) (Ok (fac_floor_dteff f))
        /\ alike (fun q v => is_of q v u_K) (fq_wall_dteff q) (Ok (fac_wall_dteff f))
        /\ alike (Forall2 (kv_of u_km2)) (fq_effective_area q qx) (fac_effective_area f x)
        /\ fq_fractional_area q qx = fac_fractional_area f x
        /\ is_of (fq_angular_radius q qr) (fac_angular_radius f r) u_deg
        /\ fq_covers q qr qa qo
           = Ok (nle (haversine (fc_lat f) (fc_lon f) p) (nmul (fac_angular_radius f r) (Fin (PI/180))))).
Proof.
  split; [exact fac_age_same|]. split; [exact facs_age_same|].
  split. { intros. split; [now apply floor_same|]. split; [now apply wall_same|].
    split; [now apply effective_area_same|]. split; [now apply fractional_same|].
    split; [now apply fac_angular_same|now apply fac_covers_same]. }
  split; [exact fac_age_of|]. split; [exact facs_age_of|].
  intros u q f qr r qa qo p qx x H K A O X. split; [now apply (floor_of u)|]. split; [now apply (wall_of u)|].
  split; [now apply (effective_area_of u)|]. split; [now apply (fractional_of u)|].
  split; [now apply (fac_angular_of u)|now apply (fac_covers_of u)].
Qed.
Lemma C97_gen_lemma :
  (forall c p p' l l' t t' r r', same p p' -> same l l' -> same t t' -> same r r' ->
     alike eq (gfq_n_expected c p l t r) (gfq_n_expected c p' l' t' r'))
  /\ (forall u g qr ql qt t qR r, udim u = DTime -> 0 < usize u ->
        is_of qr (fg_rpeak g) u_km -> is_of ql (fg_lifepeak g) u -> is_of qt t u -> is_of qR (Fin r) u_km ->
        gfq_n_expected (fg_coverage g) qr ql qt qR = Ok (fg_n_expected g t r))
  /\ (forall u qr ql g n d i f, 0 < usize u -> is_of qr (fg_rpeak g) u_km -> is_of ql (fg_lifepeak g) u ->
        nth_error (fg_generate g n d) i = Some f ->
        let '(rmax, r, life) := gfq_new qr ql (fg_rlogsigma g) (fg_lifelogsigma g) (fd_z d i) in
        is_of rmax (fc_rmax f) u_km /\ is_of r (fc_radius f) u_km /\ is_of life (fc_life f) u).
Proof.
  split; [exact fac_n_expected_same|]. split; [exact fac_n_expected_of|].
  intros u qr ql g n d i f P A B E. unfold fg_generate in E.
  rewrite nth_error_map in E. destruct (nth_error (seq 0 n) i) as [k|] eqn:K; [|discriminate].
  simpl in E. injection E as <-. cbn [fc_rmax fc_radius fc_life].
  assert (k = i).
  { pose proof (nth_error_Some (seq 0 n) i) as N. rewrite K in N.
    assert (i < length (seq 0 n))%nat by (apply N; discriminate). rewrite seq_length in H.
    rewrite (nth_error_nth' _ 0%nat) in K by (now rewrite seq_length). injection K as <-. now rewrite seq_nth. }
  subst k. exact (fac_new_of u qr ql _ _ (fg_rlogsigma g) (fg_lifelogsigma g) (fd_z d i) P A B).
Qed.
Lemma C98_flares_lemma :
  (forall q q' a a' b b', same_flare q q' -> same a a' -> same b b' ->
     alike same (lq_peak_area q) (lq_peak_area q') /\ alike eq (lq_curve_args q) (lq_curve_args q')
     /\ alike eq (lq_in_period q a b) (lq_in_period q' a' b') /\ alike eq (q_samples a b) (q_samples a' b'))
  /\ (forall q f qa a qb b, flare_of q f -> is_of qa (Fin a) u_day -> is_of qb (Fin b) u_day ->
        alike (fun q v => is_of q v u_km2) (lq_peak_area q) (Ok (peak_area f))
        /\ lq_curve_args q = Ok (Fin (fl_tpeak f), fl_fwhm f, peak_area f)
        /\ lq_in_period q qa qb
           = Ok (ngt (nadd (Fin (fl_tpeak f)) (nmul (Fin 20) (fl_fwhm f))) (Fin a)
                 && nlt (nsub (Fin (fl_tpeak f)) (nmul (Fin 10) (fl_fwhm f))) (Fin b))
        /\ q_samples qa qb = Ok (Fin ((b - a) / TEN_MIN)))
  /\ (forall f u ts areas, udim u = DTime -> 0 < usize u ->
        areacurve f (map (fun t => t * usize u) ts) = Ok areas ->
        exists v, get_timearea f (map (fun t => t * usize u) ts) = Ok v
        /\ alike (fun q v => is_of q v u_hrkm2) (q_timearea areas (map Fin ts) (usize u) (udim u)) (Ok v)).
Proof.
  split. { intros. split; [now apply peak_area_same|]. split; [now apply curve_args_same|].
    split; [now apply in_period_same|now apply samples_same]. }
  split; [|exact timearea_of].
  intros. split; [now apply peak_area_of|]. split; [now apply curve_args_of|].
  split; [now apply in_period_of|now apply samples_of].
Qed.
Lemma C98_flaregen_lemma :
  (forall al be e e' t t' m m', same e e' -> same t t' -> same m m' ->
     alike same (lgq_frequency al be e) (lgq_frequency al be e')
     /\ alike eq (lgq_nexp al be e t) (lgq_nexp al be e' t')
     /\ alike eq (lgq_cdf al m e) (lgq_cdf al m' e')
     /\ (forall x, same (lgq_quantile al m x) (lgq_quantile al m' x))
     /\ (forall s z, alike same (lgq_fwhm t s z) (lgq_fwhm t' s z)))
  /\ (forall m m' s s' z, same m m' -> same s s' -> alike same (lgq_teff m s z) (lgq_teff m' s' z))
  /\ (forall g m e v qt t, is_of m (lg_min_energy g) u_erg -> is_of e v u_erg -> is_of qt t u_day ->
        alike (fun q v => is_of q v (u_per u_day)) (lgq_frequency (lg_alpha g) (lg_beta g) e) (Ok (frequency_gt g v))
        /\ lgq_nexp (lg_alpha g) (lg_beta g) e qt = Ok (nexp_gt g v t)
        /\ lgq_cdf (lg_alpha g) m e = Ok (flare_cdf g v)
        /\ (forall X es, quantile_func g X = Ok es ->
              Forall2 (fun x E => is_of (lgq_quantile (lg_alpha g) m x) E u_erg) X es))
  /\ (forall g m n z l, is_of m (lg_fwhm_mean g) u_day -> gen_fwhm g n z = Ok l ->
        map (fun i => lgq_fwhm m (lg_fwhm_logsigma g) (z i)) (seq 0 n) = map (fun w => Ok (qmk w u_day)) l)
  /\ (forall g m s n z l, is_of m (lg_teff_mean g) u_K -> is_of s (Fin (lg_teff_sigma g)) u_K ->
        gen_teffs g n z = Ok l ->
        map (fun i => lgq_teff m s (z i)) (seq 0 n) = map (fun w => Ok (qmk w u_K)) l).
Proof.
  split. { intros. split; [now apply frequency_same|]. split; [now apply nexp_same|]. split; [now apply cdf_same|].
    split; [intro; now apply quantile_same|intros; now apply fwhm_same]. }
  split; [intros; now apply teff_same|].
  split. { intros g m e v qt t H K L. split; [now apply frequency_of|]. split; [now apply nexp_of|]. split; [now apply cdf_of|].
    intros X es E. unfold quantile_func in E.
    destruct (negb _); [discriminate|]. destruct (Reqb _ _); [discriminate|]. injection E as <-.
    induction X as [|x X IH]; simpl; constructor; [now apply quantile_of|exact IH]. }
  split.
  - intros g m n z l H E. unfold gen_fwhm in E. destruct (negb _); [discriminate|].
    destruct (Rltb _ _); [discriminate|]. injection E as <-. rewrite map_map. apply map_ext. intro i.
    now rewrite (fwhm_of m (lg_fwhm_mean g)).
  - intros g m s n z l H K E. unfold gen_teffs in E. destruct (Rltb _ _); [discriminate|]. injection E as <-.
    rewrite map_map. apply map_ext. intro i. now rewrite (teff_of m (lg_teff_mean g) s (lg_teff_sigma g)).
Qed.
Lemma C98_sky_lemma :
  (forall a a' b b' c c' d d', same a a' -> same b b' -> same c c' -> same d d' ->
     alike same (q_angle_between a b c d) (q_angle_between a' b' c' d')
     /\ alike same (q_haversine a b c d) (q_haversine a' b' c' d')
     /\ alike same (q_clip_teff a) (q_clip_teff a'))
  /\ (forall r r' o o' p p' ph ph' i i',
        same r r' -> same o o' -> same p p' -> same ph ph' -> same i i' ->
        alike eq (q_planet r o p ph i) (q_planet r' o' p' ph' i'))
  /\ (forall qa qb qc qd a b c d,
        is_of qa (Fin a) u_rad -> is_of qb (Fin b) u_rad -> is_of qc (Fin c) u_rad -> is_of qd (Fin d) u_rad ->
        alike (fun q v => is_of q v u_rad) (q_angle_between qa qb qc qd) (Ok (get_angle_between a b c d))
        /\ alike (fun q v => is_of q v u_rad) (q_haversine qa qb qc qd) (Ok (haversine a b (c, d))))
  /\ (forall q t, is_of q t u_K -> alike (fun q v => is_of q v u_K) (q_clip_teff q) (Ok (clip_teff t)))
  /\ (forall s qr qo orbit qp planet qph phase qi incl,
        is_of qr (Fin (st_radius s)) u_Rsun -> is_of qo (Fin orbit) u_Rsun -> is_of qp (Fin planet) u_Rsun ->
        is_of qph (Fin phase) u_rad -> is_of qi (Fin incl) u_rad ->
        q_planet qr qo qp qph qi
        = Ok (Rltb 0 (cos phase), (planet_xy s orbit (phase - PI) incl, ndiv (Fin planet) (Fin (st_radius s))))).
Proof.
  split. { intros. split; [now apply angle_between_same|]. split; [now apply haversine_same|now apply clip_same]. }
  split; [exact planet_same|].
  split. { intros. split; [now apply angle_between_of|]. now apply haversine_of. }
  split; [exact clip_of|exact planet_of].
Qed.
Lemma C99_wrong_kind_lemma :
  (forall q s t, spot_of q s -> sp_growth_dim s = (-1)%Z -> qd t <> DTime ->
     sq_age q t = Raise UnitConversionError)
  /\ (forall q s qr qa a qo o, spot_of q s -> is_of qa (Fin a) u_rad -> is_of qo (Fin o) u_rad -> qd qr <> DLen ->
        sq_angular_radius q qr = Raise UnitConversionError /\ sq_covers q qr qa qo = Raise UnitConversionError)
  /\ (forall q g qt qr, gen_of q g -> qd qt = DTime /\ qd qr <> DLen \/ qd qt <> DTime /\ qd qr = DLen ->
        exists e, gq_n_expected q qt qr = Raise e)
  /\ (forall u q f t, udim u = DTime -> fac_of u q f -> qd t <> DTime ->
        fq_age q t = Raise (if fc_growing f then UnitConversionError else UnitTypeError))
  /\ (forall u q f qr qa a qo o, fac_of u q f -> is_of qa (Fin a) u_rad -> is_of qo (Fin o) u_rad -> qd qr <> DLen ->
        fq_covers q qr qa qo = Raise UnitConversionError)
  /\ (forall u cov qr r ql l qt qR, udim u = DTime -> is_of qr r u_km -> is_of ql l u ->
        qd qt = DTime /\ qd qR <> DLen \/ qd qt <> DTime /\ qd qR = DLen ->
        gfq_n_expected cov qr ql qt qR = Raise UnitConversionError)
  /\ (forall q f qa qb, flare_of q f ->
        qd qa <> DTime \/ (exists a, is_of qa (Fin a) u_day) /\ qd qb <> DTime ->
        lq_in_period q qa qb = Raise UnitConversionError)
  /\ (forall q f e, flare_of q f -> qd e <> DEnergy ->
        lq_curve_args (mkFlareQ (lq_fwhm q) e (lq_teff q) (lq_tpeak q)) = Raise UnitConversionError)
  /\ (forall al be e qt, qd e <> DEnergy \/ (exists v, is_of e v u_erg) /\ qd qt <> DTime ->
        lgq_nexp al be e qt = Raise UnitConversionError)
  /\ (forall qr r qo o qp qph ph qi i,
        is_of qr (Fin r) u_Rsun -> is_of qo (Fin o) u_Rsun -> is_of qph (Fin ph) u_rad -> is_of qi (Fin i) u_rad ->
        (qd qp <> DLen -> q_planet qr qo qp qph qi = Raise UnitConversionError)
        /\ (forall x, qd x <> DLen -> q_planet qr x qp qph qi = Raise UnitConversionError)
        /\ (forall x, qd x <> DAng -> q_planet qr qo qp x qi = Raise UnitTypeError)
        /\ (forall x, qd x <> DAng -> q_planet qr qo qp qph x = Raise UnitTypeError))
  /\ (forall a b c x, qd x <> DAng -> q_angle_between x a b c = Raise UnitTypeError)
  /\ (forall q, qd q <> DTemp -> q_clip_teff q = Raise UnitConversionError).
Proof.
  split; [exact spot_age_bad|]. split; [exact spot_map_bad|]. split; [exact n_expected_bad|].
  split; [exact fac_age_bad|]. split; [exact fac_map_bad|]. split; [exact fac_n_expected_bad|].
  split; [exact in_period_bad|]. split; [exact flare_energy_bad|]. split; [exact nexp_bad|].
  split; [exact planet_bad|]. split; [exact angle_between_bad|exact clip_bad].
Qed.
Lemma C99_surprises_lemma :
  (forall q z, qv q = Fin z ->
     exists n, q_round_teff q = Ok (mkQ (Fin (IZR n)) (qs q) (qd q)) /\ Rabs (IZR n - z) <= 1/2)
  /\ (exists q q' a b, same q q' /\ q_round_teff q = Ok a /\ q_round_teff q' = Ok b /\ ~ same a b)
  /\ (forall g m e v, is_of m (lg_min_energy g) u_erg -> is_of e v u_erg ->
        lgq_pdf (lg_alpha g) m e = Raise UnitConversionError)
  /\ (forall a b, qd a <> qd b -> qeq a b = false)
  /\ (forall u cov qr r ql l, udim u = DTime -> is_of qr r u_km -> is_of ql l u ->
        exists qt qR v, qd qt <> DTime /\ qd qR <> DLen /\ gfq_n_expected cov qr ql qt qR = Ok v).
Proof.
  split; [exact round_unit|]. split.
  { set (kK := mkUni 1000 DTemp).
    destruct (round_unit (qmk (Fin 3400) u_K) 3400 eq_refl) as (n & E & N).
    destruct (round_unit (qmk (Fin (34/10)) kK) (34/10) eq_refl) as (m & F & M).
    exists (qmk (Fin 3400) u_K), (qmk (Fin (34/10)) kK). do 2 eexists.
    split; [unfold same; cbn [qmk qd qs qv usize udim u_K kK]; repeat split; try lra; simpl; f_equal; lra|].
    split; [exact E|]. split; [exact F|]. intros (_ & _ & _ & H). cbn [qmk qd qs qv usize udim u_K kK] in H.
    simpl in H. injection H as H.
    assert (IZR n = 3400).
    { assert (n = 3400%Z); [|subst; reflexivity].
      assert (L1 : (3399 < n)%Z) by (apply lt_IZR; revert N; unfold Rabs; destruct (Rcase_abs _); intros; lra).
      assert (L2 : (n < 3401)%Z) by (apply lt_IZR; revert N; unfold Rabs; destruct (Rcase_abs _); intros; lra).
      clear - L1 L2. lia. }
    assert (E2 : (n * 1 = m * 1000)%Z) by (apply eq_IZR; rewrite !mult_IZR; exact H).
    assert (n = 3400%Z) by (apply eq_IZR; assumption). lia. }
  split; [intros g m e v H K; exact (proj1 (pdf_of g m e v H K))|].
  split; [intros a b H; unfold qeq; rewrite qlike_bad; [reflexivity|]; intro E; now apply H|].
  intros u cov qr r ql l T A C. exists (mkQ (Fin 1) 1 (mkDim 2 1 0 0 0)), (qnum (Fin 1)).
  eexists. split; [unfold DTime; cbn [qd]; intro E; injection E as E; lra|].
  split; [unfold DLen, qnum, D0; cbn [qd]; intro E; injection E as E; lra|].
  unfold gfq_n_expected, gfq_mean_area, qin.
  replace (deqb _ _) with true; [reflexivity|]. symmetry. apply deqb_eq.
  unfold qdiv, qmul, qsq, qnum. cbn [qd]. rewrite (is_of_dim _ _ _ A), (is_of_dim _ _ _ C), T.
  unfold ddiv, dmul, dpow, D0, DLen, DTime, u_one, u_km. cbn. unfold D0. f_equal; lra.
Qed.
