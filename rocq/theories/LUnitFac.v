(** Faculae, flares and planets given in any units behave as in the unit-free model *)
From Coq Require Import Reals ZArith Bool List Lra.
From Verif Require Import Num Py MConfig MHelpers MGrid MSpots MFaculae MXoflares MFlares MStar MUnits SpecUnits LBase
  LUnits LUnitSame LUnitEval.
Import ListNotations.
Open Scope R_scope.

Lemma same_is : forall q q' v u, same q q' -> is_of q' v u -> is_of q v u.
Proof. intros q q' v u H K. eapply same_trans; eassumption. Qed.

Lemma alike_eq : forall A (r r' : res A), alike eq r r' -> r = r'.
Proof. intros A [a|e] [b|e']; simpl; intro H; try contradiction; congruence. Qed.

(** ** Faculae *)
Definition canon_fac (t : uni) (f : facula) : facq :=
  mkFacQ (qmk (Fin (fc_lat f)) u_rad) (qmk (Fin (fc_lon f)) u_rad) (qmk (fc_rmax f) u_km)
    (qmk (fc_radius f) u_km) (qmk (fc_depth f) u_km) (qmk (fc_life f) t)
    (qmk (fc_fslope f) (u_times u_K (u_per u_km))) (qmk (fc_fminrad f) u_km) (qmk (fc_fbase f) u_K)
    (qmk (fc_wslope f) (u_times u_K (u_per u_km))) (qmk (fc_wint f) u_K) (fc_growing f).
Ltac cf := unfold canon_fac; cbn [fq_lat fq_lon fq_rmax fq_radius fq_depth fq_life fq_fslope fq_fminrad
  fq_fbase fq_wslope fq_wint fq_growing].
Lemma floor_eval : forall t f, fq_floor_dteff (canon_fac t f) = Ok (qmk (fac_floor_dteff f) u_K).
Proof.
  intros t f. unfold fq_floor_dteff. cf. qn.
  rewrite qsub_is by (first [dq | sz]). cbn [bind]. qn.
  rewrite qadd_is by (first [dq | sz]). cbn [bind].
  rewrite qto_is by (first [dq | sz]). reflexivity.
Qed.
Lemma wall_eval : forall t f, fq_wall_dteff (canon_fac t f) = Ok (qmk (fac_wall_dteff f) u_K).
Proof.
  intros t f. unfold fq_wall_dteff. cf. qn.
  rewrite qadd_is by (first [dq | sz]). cbn [bind].
  rewrite qto_is by (first [dq | sz]). reflexivity.
Qed.
Lemma floor_of : forall t q f, fac_of t q f ->
  alike (fun q v => is_of q v u_K) (fq_floor_dteff q) (Ok (fac_floor_dteff f)).
Proof.
  intros t q f H. eapply alike_trans_same; [apply (floor_same q (canon_fac t f)); exact H|].
  rewrite floor_eval. apply same_mk. sz.
Qed.
Lemma wall_of : forall t q f, fac_of t q f ->
  alike (fun q v => is_of q v u_K) (fq_wall_dteff q) (Ok (fac_wall_dteff f)).
Proof.
  intros t q f H. eapply alike_trans_same; [apply (wall_same q (canon_fac t f)); exact H|].
  rewrite wall_eval. apply same_mk. sz.
Qed.
Lemma fac_of_with : forall t q f r v g, fac_of t q f -> is_of r v u_km ->
  fac_of t (fq_with q r g) (fac_with f v g).
Proof.
  intros t q f r v g (H1 & H2 & H3 & H4 & H5 & H6 & H7 & H8 & H9 & H10 & H11 & H12) K.
  unfold fac_of, fq_with, fac_with. cbn [fq_lat fq_lon fq_rmax fq_radius fq_depth fq_life fq_fslope fq_fminrad
  fq_fbase fq_wslope fq_wint fq_growing fc_lat fc_lon fc_rmax fc_radius fc_depth fc_life fc_fslope fc_fminrad
  fc_fbase fc_wslope fc_wint fc_growing]. auto 20.
Qed.
Lemma fac_of_trans : forall t q q' f, same_fac q q' -> fac_of t q' f -> fac_of t q f.
Proof.
  intros t q q' f (H1 & H2 & H3 & H4 & H5 & H6 & H7 & H8 & H9 & H10 & H11 & H12)
    (K1 & K2 & K3 & K4 & K5 & K6 & K7 & K8 & K9 & K10 & K11 & K12).
  unfold fac_of, is_of in *.
  repeat match goal with |- _ /\ _ => split end; try congruence; eapply same_trans; eassumption.
Qed.
Lemma fac_of_canon : forall t f, 0 < usize t -> fac_of t (canon_fac t f) f.
Proof.
  intros t f H. assert (X : forall x u, 0 < usize u -> is_of (qmk x u) x u) by (intros; now apply same_mk).
  assert (Y : 0 < usize (u_times u_K (u_per u_km))) by sz.
  unfold fac_of. cf. repeat match goal with |- _ /\ _ => split end; try (apply X; first [assumption | sz]); reflexivity.
Qed.
Lemma dtime : forall t, udim t = DTime -> t = mkUni (usize t) DTime.
Proof. intros [s d] H. simpl in *. now rewrite H. Qed.
Lemma fac_age_of : forall t q f qt time, udim t = DTime -> 0 < usize t ->
  fac_of t q f -> is_of qt time t ->
  alike (fac_of t) (fq_age q qt) (Ok (fac_age f time)).
Proof.
  intros t q f qt time HT PT H K.
  pose proof (fac_age_same q (canon_fac t f) qt (qmk time t) H K) as S1.
  assert (S2 : alike (fac_of t) (fq_age (canon_fac t f) (qmk time t)) (Ok (fac_age f time))).
  2: { destruct (fq_age q qt), (fq_age (canon_fac t f) (qmk time t)); simpl in *; try contradiction.
       eapply fac_of_trans; eassumption. }
  clear S1 H K q qt. pose proof (fac_of_canon t f PT) as FC.
  unfold fq_age, fac_age. set (F := canon_fac t f) in *.
  replace (fq_growing F) with (fc_growing f) by reflexivity.
  replace (fq_radius F) with (qmk (fc_radius f) u_km) by reflexivity.
  replace (fq_rmax F) with (qmk (fc_rmax f) u_km) by reflexivity.
  replace (fq_life F) with (qmk (fc_life f) t) by reflexivity.
  destruct (fc_growing f).
  - qn. unfold qlog. rewrite qfun_is by (first [dq | sz]). cbn [bind]. cbv zeta. qn. rewrite HT.
    rewrite qle_is by (first [dq | sz]). cbn [bind].
    destruct (nle _ time).
    + rewrite qsub_is by (first [dq | sz]). cbn [bind]. qn.
      unfold qexp. rewrite qfun_is by (first [dq | sz]). cbn [bind alike].
      apply fac_of_with; [exact FC|]. qn. apply is_of_mk; [dq|sz|sz].
    + qn. unfold qexp. rewrite qfun_is by (first [dq | sz]). cbn [bind alike].
      apply fac_of_with; [exact FC|]. qn. apply is_of_mk; [dq|sz|sz].
  - qn. rewrite HT. unfold qexp. rewrite qfun_is by (first [dq | sz]). cbn [bind alike].
    apply fac_of_with; [exact FC|]. qn. apply is_of_mk; [dq|sz|sz].
Qed.
Lemma fac_dead_of : forall t q f, fac_of t q f -> fq_dead q = Ok (fac_dead f).
Proof.
  intros t q f (H1 & H2 & H3 & H4 & H5 & H6 & H7 & H8 & H9 & H10 & H11 & H12). unfold fq_dead, fac_dead.
  rewrite (le_of _ _ _ _ u_km H4 (div_num_of _ _ _ (Fin (exp 1 ^ 2)) H3)). cbn [bind]. now rewrite H12.
Qed.
Lemma fac_clean_of : forall t l l', Forall2 (fac_of t) l l' ->
  exists r, fq_clean l = Ok r /\ Forall2 (fac_of t) r (filter (fun f => negb (fac_dead f)) l').
Proof.
  intros t. induction 1 as [|q s l l' H _ (r & E & F)]; simpl.
  - exists []. split; [reflexivity|constructor].
  - rewrite (fac_dead_of t q s H), E. cbn [bind]. eexists. split; [reflexivity|].
    destruct (fac_dead s); simpl; [assumption|constructor; assumption].
Qed.
Lemma mapM_ok_map : forall A B (f : A -> B) l, mapM (fun x => Ok (f x)) l = Ok (map f l).
Proof. intros A B f l. induction l as [|a l IH]; simpl; [reflexivity|]. now rewrite IH. Qed.
Lemma facs_age_of : forall t l c qt time, udim t = DTime -> 0 < usize t ->
  Forall2 (fac_of t) l (fcc_facs c) -> is_of qt time t ->
  alike (fun l' c' => Forall2 (fac_of t) l' (fcc_facs c')) (fq_collection_age l qt) (Ok (fcc_age c time)).
Proof.
  intros t l c qt time HT PT H K. unfold fq_collection_age.
  assert (A : alike (Forall2 (fac_of t)) (mapM (fun f => fq_age f qt) l)
                (Ok (map (fun f => fac_age f time) (fcc_facs c)))).
  { rewrite <- mapM_ok_map. eapply alike_mapM; [|exact H]. intros q f Q. now apply fac_age_of. }
  apply alike_ok in A. destruct A as (r & -> & R). cbn [bind].
  destruct (fac_clean_of t r _ R) as (x & -> & X). exact X.
Qed.
Lemma dset_of : forall u d d' k q v, Forall2 (kv_of u) d d' -> is_of q v u ->
  Forall2 (kv_of u) (dset Z.eqb d k q) (dset Z.eqb d' k v).
Proof.
  intros u d d' k q v H K. induction H as [|[k1 q1] [k2 q2] l l' [E F] T IH]; simpl in *.
  - constructor; [split; simpl; auto|constructor].
  - subst k2. destruct (Z.eqb k k1); (constructor; [split; simpl; auto|]); auto.
Qed.
Lemma circ_one : forall x y, exists c, circ_fraction x y (Fin 1) = Ok c.
Proof.
  intros x y. unfold circ_fraction. replace (ngt (Fin 1) (Fin 1)) with false.
  2: { unfold ngt. simpl. symmetry. apply Rltb_false. lra. }
  cbv zeta. repeat match goal with |- context [if ?b then _ else _] => destruct b end; eexists; reflexivity.
Qed.
Lemma effective_area_eval : forall t f a,
  alike (Forall2 (kv_of u_km2)) (fq_effective_area (canon_fac t f) (qmk a u_rad)) (fac_effective_area f a).
Proof.
  intros t f a. unfold fq_effective_area, fac_effective_area.
  rewrite floor_eval, wall_eval. cbn [bind]. qn.
  rewrite qeq_is by (first [dq | sz]).
  destruct (neq (fac_floor_dteff f) (fac_wall_dteff f)); [reflexivity|].
  cf. qn. rewrite qlt_is by (first [dq | sz]). cbn [bind qv].
  destruct (nlt (fc_radius f) (fc_fminrad f)).
  - destruct (round_teff (fac_wall_dteff f)) as [kw|e]; [|reflexivity]. cbn [bind].
    unfold qcos. rewrite qfun_is by (first [dq | sz]). cbn [bind].
    destruct (round_teff (fac_floor_dteff f)) as [kf|e]; [|reflexivity]. cbn [bind alike].
    apply dset_of; [apply dset_of; [constructor|]|].
    + qn. apply is_of_mk; [dq|sz|sz].
    + apply is_of_mk; [dq|sz|sz].
  - qn. rewrite qin_is by (first [dq | sz]). cbn [bind].
    unfold qtan. rewrite qfun_is by (first [dq | sz]). cbn [bind]. qn.
    rewrite qin_is by (first [dq | sz]). cbn [bind].
    destruct (circ_one (nmul (ndiv (fc_depth f) (fc_radius f)) (ntan a)) (Fin 0)) as [c ->]. cbn [bind].
    unfold qcos. rewrite qfun_is by (first [dq | sz]). cbn [bind]. cbv zeta.
    destruct (round_teff (fac_wall_dteff f)) as [kw|e]; [|reflexivity]. cbn [bind].
    destruct (round_teff (fac_floor_dteff f)) as [kf|e]; [|reflexivity]. cbn [bind alike]. qn.
    apply dset_of; [apply dset_of; [constructor|]|]; (apply is_of_mk; [dq|sz|sz]).
Qed.
Lemma effective_area_of : forall t q f qa a, fac_of t q f -> is_of qa a u_rad ->
  alike (Forall2 (kv_of u_km2)) (fq_effective_area q qa) (fac_effective_area f a).
Proof.
  intros t q f qa a H K. pose proof (effective_area_same q (canon_fac t f) qa (qmk a u_rad) H K) as X.
  pose proof (effective_area_eval t f a) as Y.
  destruct (fq_effective_area q qa), (fq_effective_area (canon_fac t f) (qmk a u_rad)), (fac_effective_area f a);
    cbn [alike] in *; try contradiction; try congruence.
  clear - X Y. revert a2 Y. induction X as [|p p' l l' [A1 A2] _ IH]; intros m Y; inversion Y; subst; constructor.
  - destruct H1 as [B1 B2]. split; [congruence|]. eapply same_trans; eassumption.
  - now apply IH.
Qed.
Lemma total_of : forall l m acc v, Forall2 (fun q x => is_of q x u_km2) l m -> is_of acc v u_km2 ->
  alike (fun q x => is_of q x u_km2) (q_total acc l) (Ok (fold_left nadd m v)).
Proof.
  intros l m acc v H. revert acc v. induction H as [|q x l m H _ IH]; intros acc v K; simpl; [exact K|].
  pose proof (same_add acc (qmk v u_km2) q (qmk x u_km2) K H) as A.
  rewrite !qmk_eq, qadd_is in A by (first [dq | sz]).
  destruct (qadd acc q) as [s|e]; cbn [alike bind] in *; [|contradiction].
  apply IH. exact A.
Qed.
Lemma fractional_of : forall t q f qa a, fac_of t q f -> is_of qa a u_rad ->
  fq_fractional_area q qa = fac_fractional_area f a.
Proof.
  intros t q f qa a H K. pose proof (effective_area_of t q f qa a H K) as X.
  unfold fq_fractional_area, fac_fractional_area.
  destruct (fq_effective_area q qa) as [l|e], (fac_effective_area f a) as [m|e']; cbn [alike bind] in *;
    try contradiction; [|congruence].
  destruct X as [|p p' l m [A1 A2] F]; [reflexivity|]. cbv zeta.
  assert (T : alike (fun q x => is_of q x u_km2)
    (q_total (mkQ (nadd (Fin 0) (qv (snd p))) (qs (snd p)) (qd (snd p))) (map snd l))
    (Ok (fold_left (fun t kv => nadd t (snd kv)) (p' :: m) (Fin 0)))).
  { cbn [fold_left]. replace (fold_left (fun t kv => nadd t (snd kv)) m (nadd (Fin 0) (snd p')))
      with (fold_left nadd (map snd m) (nadd (Fin 0) (snd p'))).
    2: { generalize (nadd (Fin 0) (snd p')). clear. induction m as [|x m IH]; intro n; simpl; [reflexivity|apply IH]. }
    apply total_of.
    - clear - F. induction F as [|x y l1 m1 [_ F] _ IH]; constructor; assumption.
    - apply zero_plus_same in A2. exact A2. }
  apply alike_ok in T. destruct T as (tot & -> & T). cbn [bind].
  set (v := fold_left _ _ _) in *. clearbody v.
  assert (F2 : Forall2 (kv_of u_km2) (p :: l) (p' :: m)) by (constructor; [split|]; assumption).
  clear - F2 T. remember (p :: l) as l1 eqn:El. remember (p' :: m) as m1 eqn:Em. clear El Em p p' l m.
  induction F2 as [|x y l m [E F] _ IH]; [reflexivity|].
  simpl. rewrite IH. clear IH.
  assert (E1 : qin (qdiv (snd x) tot) u_one = Ok (ndiv (snd y) v)).
  { apply is_of_in; [|sz]. pose proof (same_div _ _ _ _ F T) as G. eapply same_is; [exact G|]. qn.
    apply is_of_mk; [dq|sz|sz]. }
  rewrite E1. cbn [bind]. now rewrite E.
Qed.
Lemma fac_angular_of : forall t q f qr r, fac_of t q f -> is_of qr (Fin r) u_km ->
  is_of (fq_angular_radius q qr) (fac_angular_radius f r) u_deg.
Proof.
  intros t q f qr r H K. eapply same_is; [apply (fac_angular_same q (canon_fac t f) qr _ H K)|].
  unfold fq_angular_radius. cf. qn. rewrite nmul_1_r.
  apply is_of_mk; [dq| |]; cbn [usize u_deg]; pose proof PI_RGT_0; [field|lra].
Qed.
Lemma fac_covers_of : forall t q f qr r qa qo p, fac_of t q f -> is_of qr (Fin r) u_km ->
  is_of qa (Fin (fst p)) u_rad -> is_of qo (Fin (snd p)) u_rad ->
  fq_covers q qr qa qo
  = Ok (nle (haversine (fc_lat f) (fc_lon f) p) (nmul (fac_angular_radius f r) (Fin (PI/180)))).
Proof.
  intros t q f qr r qa qo p H K A O.
  pose proof (fac_covers_same q (canon_fac t f) qr (qmk (Fin r) u_km) qa (qmk (Fin (fst p)) u_rad)
    qo (qmk (Fin (snd p)) u_rad) H K A O) as S1. rewrite (alike_eq _ _ _ S1). clear.
  unfold fq_covers. cf. rewrite haversine_eval. cbn [bind].
  unfold fq_angular_radius. cf. qn. rewrite nmul_1_r.
  unfold qle, qlike. cbn [qs qd]. rewrite qin_sc by dq. cbn [bind]. do 3 f_equal.
  cbn [usize udim u_deg]. unfold sc. do 2 f_equal. field.
Qed.

(** ** Facula generator *)
Lemma fac_mean_area_of : forall qr r, is_of qr r u_km ->
  is_of (gfq_mean_area qr) (nmul (Fin (1/2 * PI * (1 - exp (-2)))) (nsq r)) u_km2.
Proof.
  intros qr r H. eapply same_is; [apply same_mul; [apply same_refl; cbn [qnum qs]; lra|apply same_sq; exact H]|].
  qn. apply is_of_mk; [dq|sz|sz].
Qed.
Lemma fac_n_expected_of : forall t g qr ql qt time qR r, udim t = DTime -> 0 < usize t ->
  is_of qr (fg_rpeak g) u_km -> is_of ql (fg_lifepeak g) t -> is_of qt time t -> is_of qR (Fin r) u_km ->
  gfq_n_expected (fg_coverage g) qr ql qt qR = Ok (fg_n_expected g time r).
Proof.
  intros t g qr ql qt time qR r HT PT A B C D.
  rewrite (alike_eq _ _ _ (fac_n_expected_same _ _ _ _ _ _ _ _ _ A B C D)).
  unfold gfq_n_expected, gfq_mean_area. qn. rewrite HT. rewrite qin_is; [|dq|cbn [usize u_one]; field; lra|sz].
  unfold fg_n_expected, fg_mean_area. do 7 f_equal. simpl. f_equal. ring.
Qed.
Lemma fac_new_of : forall t qr ql r l rs ls mu, 0 < usize t -> is_of qr r u_km -> is_of ql l t ->
  let '(a, b, c) := gfq_new qr ql rs ls mu in
  is_of a (nmul r (Fin (Rpower 10 (mu * rs)))) u_km
  /\ is_of b (ndiv (nmul r (Fin (Rpower 10 (mu * rs)))) (Fin (exp 1 ^ 2))) u_km
  /\ is_of c (nmul l (Fin (Rpower 10 (mu * ls)))) t.
Proof.
  intros t qr ql r l rs ls mu PT A B. unfold gfq_new. cbv zeta.
  assert (X : forall q v u y, is_of q v u -> is_of (qmul q (qnum (Fin y))) (nmul v (Fin y)) u).
  { intros q v u y H. eapply same_is; [apply same_mul; [exact H|apply same_refl; cbn [qnum qs]; lra]|].
    destruct H as (_ & _ & P & _). cbn [qmk qs] in P. destruct u as [s d]. cbn [usize] in P. qn. cbn [usize udim].
    apply is_of_mk; cbn [usize udim]; [|ring|lra].
    destruct d. unfold dmul, D0. simpl. f_equal; ring. }
  split; [now apply X|]. split; [|now apply X].
  apply div_num_of. now apply X.
Qed.
