(** The functions of [MUnits], applied to quantities in any units, compute what the unit-free
    model computes *)
From Coq Require Import Reals ZArith Bool List Lra.
From Verif Require Import Num Py MConfig MHelpers MGrid MSpots MFaculae MXoflares MFlares MUnits SpecUnits LBase LUnits LUnitSame.
Import ListNotations.
Open Scope R_scope.

Lemma qin_is : forall v c d u, d = udim u -> c = usize u -> 0 < usize u -> qin (mkQ v c d) u = Ok v.
Proof.
  intros v c d u -> -> H. unfold qin. cbn [qd qs qv].
  rewrite (proj2 (deqb_eq _ _) eq_refl). f_equal.
  replace (usize u / usize u) with 1 by (field; lra). apply sc_1.
Qed.
Lemma qin_sc : forall v c d u, d = udim u -> qin (mkQ v c d) u = Ok (sc v (c / usize u)).
Proof. intros v c d u ->. unfold qin. cbn [qd qs qv]. now rewrite (proj2 (deqb_eq _ _) eq_refl). Qed.
Lemma qin_bad : forall q u, qd q <> udim u -> qin q u = Raise UnitConversionError.
Proof. intros q u H. unfold qin. now rewrite deqb_neq. Qed.
Lemma qlike_is : forall v c d w k e, e = d -> k = c -> 0 < c -> qlike (mkQ v c d) (mkQ w k e) = Ok w.
Proof. intros v c d w k e -> -> H. unfold qlike. cbn [qs qd]. now apply qin_is. Qed.
Lemma qlike_bad : forall a b, qd b <> qd a -> qlike a b = Raise UnitConversionError.
Proof. intros a b H. unfold qlike. now apply qin_bad. Qed.
Lemma qadd_is : forall v c d w k e, e = d -> k = c -> 0 < c ->
  qadd (mkQ v c d) (mkQ w k e) = Ok (mkQ (nadd v w) c d).
Proof. intros. unfold qadd. rewrite qlike_is by assumption. reflexivity. Qed.
Lemma qsub_is : forall v c d w k e, e = d -> k = c -> 0 < c ->
  qsub (mkQ v c d) (mkQ w k e) = Ok (mkQ (nsub v w) c d).
Proof. intros. unfold qsub. rewrite qlike_is by assumption. reflexivity. Qed.
Lemma qlt_is : forall v c d w k e, e = d -> k = c -> 0 < c ->
  qlt (mkQ v c d) (mkQ w k e) = Ok (nlt v w).
Proof. intros. unfold qlt. rewrite qlike_is by assumption. reflexivity. Qed.
Lemma qle_is : forall v c d w k e, e = d -> k = c -> 0 < c ->
  qle (mkQ v c d) (mkQ w k e) = Ok (nle v w).
Proof. intros. unfold qle. rewrite qlike_is by assumption. reflexivity. Qed.
Lemma qgt_is : forall v c d w k e, e = d -> k = c -> 0 < c ->
  qgt (mkQ v c d) (mkQ w k e) = Ok (ngt v w).
Proof. intros. unfold qgt. rewrite qlike_is by assumption. reflexivity. Qed.
Lemma qeq_is : forall v c d w k e, e = d -> k = c -> 0 < c ->
  qeq (mkQ v c d) (mkQ w k e) = neq v w.
Proof. intros. unfold qeq. rewrite qlike_is by assumption. reflexivity. Qed.
Lemma qfun_is : forall u f v x c d, d = udim u -> c = usize u -> 0 < usize u ->
  qfun u f v (mkQ x c d) = Ok (qmk (f x) v).
Proof. intros. unfold qfun. rewrite qin_is by assumption. reflexivity. Qed.
Lemma qfun_sc : forall u f v x c d, d = udim u ->
  qfun u f v (mkQ x c d) = Ok (qmk (f (sc x (c / usize u))) v).
Proof. intros. unfold qfun. rewrite qin_sc by assumption. reflexivity. Qed.
Lemma qto_is : forall u x c d, d = udim u -> c = usize u -> 0 < usize u ->
  qto (mkQ x c d) u = Ok (qmk x u).
Proof. intros. unfold qto. rewrite qin_is by assumption. reflexivity. Qed.
Lemma qto_sc : forall u x c d, d = udim u -> qto (mkQ x c d) u = Ok (qmk (sc x (c / usize u)) u).
Proof. intros. unfold qto. rewrite qin_sc by assumption. reflexivity. Qed.
Lemma qmk_eq : forall x u, qmk x u = mkQ x (usize u) (udim u).
Proof. reflexivity. Qed.
Lemma is_of_mk : forall x c d u, d = udim u -> c = usize u -> 0 < c -> is_of (mkQ x c d) x u.
Proof. intros x c d u -> -> H. unfold is_of. now apply same_mk. Qed.
Lemma is_of_value : forall q v w u, is_of q v u -> v = w -> is_of q w u.
Proof. intros q v w u H <-. exact H. Qed.
Lemma is_of_unit : forall q v u w, is_of q v u -> udim u = udim w -> usize u = usize w -> is_of q v w.
Proof. intros q v u w (A & B & C & D) E F. unfold is_of, same in *. cbn [qmk qd qs qv] in *. rewrite <- E, <- F. auto. Qed.
Lemma is_of_in : forall q v u, is_of q v u -> 0 < usize u -> qin q u = Ok v.
Proof.
  intros q v u H P. pose proof (same_in q (qmk v u) u H P) as K.
  unfold qmk in K at 1. rewrite (qin_is v (usize u) (udim u) u) in K by auto.
  destruct (qin q u); simpl in K; [congruence|contradiction].
Qed.

Lemma nmul_1_r : forall x, nmul x (Fin 1) = x.
Proof. exact sc_1. Qed.
Lemma nmul_1_l : forall x, nmul (Fin 1) x = x.
Proof. intro x. destruct x; simpl; try (rewrite inf_signed_pos by lra; reflexivity); [f_equal; ring|reflexivity]. Qed.
Lemma ndiv_1_r : forall x, ndiv x (Fin 1) = x.
Proof.
  intro x. destruct x as [r| | |]; simpl; try reflexivity; try (destruct (Rlt_dec 1 0); [lra|reflexivity]).
  destruct (Req_EM_T 1 0); [lra|]. f_equal. field.
Qed.

Lemma alike_ok : forall A B (P : A -> B -> Prop) r b, alike P r (Ok b) <-> exists a, r = Ok a /\ P a b.
Proof.
  intros A B P r b. destruct r; simpl; split.
  - intro H. eauto.
  - intros (x & E & H). injection E as ->. exact H.
  - intros [].
  - intros (x & E & _). discriminate.
Qed.
(** results about quantities follow from results about one choice of units *)
Lemma alike_trans_same : forall r r' (x : num) u, alike same r r' ->
  alike (fun q v => is_of q v u) r' (Ok x) -> alike (fun q v => is_of q v u) r (Ok x).
Proof.
  intros r r' x u H K. destruct r, r'; simpl in *; try contradiction.
  eapply same_trans; eassumption.
Qed.

Ltac dq := cbv [ddiv dmul dpow DArea DEnergy D0 DLen DTime DTemp DAng DMass u_one u_km u_km2 u_Rsun u_MSH
  u_day u_hr u_min u_K u_rad u_deg u_erg u_hrkm2 u_per u_times u_daypow udim usize
  e_len e_time e_mass e_temp e_ang qd qmk qnum]; f_equal; lra.

Lemma qnum_eq : forall x, qnum x = mkQ x 1 D0.
Proof. reflexivity. Qed.
Lemma qmul_Q : forall a s d b t e, qmul (mkQ a s d) (mkQ b t e) = mkQ (nmul a b) (s*t) (dmul d e).
Proof. reflexivity. Qed.
Lemma qdiv_Q : forall a s d b t e, qdiv (mkQ a s d) (mkQ b t e) = mkQ (ndiv a b) (s/t) (ddiv d e).
Proof. reflexivity. Qed.
Lemma qsq_Q : forall a s d, qsq (mkQ a s d) = mkQ (nsq a) (s*s) (dpow d 2).
Proof. reflexivity. Qed.
Lemma qsqrt_Q : forall a s d, qsqrt (mkQ a s d) = mkQ (nsqrt a) (sqrt s) (dpow d (1/2)).
Proof. reflexivity. Qed.
Lemma qipow_Q : forall k a s d, qipow (mkQ a s d) k = mkQ (nipow a k) (s^k) (dpow d (INR k)).
Proof. reflexivity. Qed.
Ltac qn := rewrite ?qmk_eq, ?qnum_eq; repeat first [rewrite qmul_Q | rewrite qdiv_Q | rewrite qsq_Q
  | rewrite qsqrt_Q | rewrite qipow_Q];
  cbn [usize udim u_one u_km u_km2 u_day u_hr u_min u_K u_rad u_times u_per u_daypow].
Ltac sz := cbn [usize u_one u_km u_km2 u_day u_hr u_min u_K u_rad u_times u_per u_daypow];
  first [lra | reflexivity | (rewrite ?Rinv_1; lra) | (field; lra) | (field; repeat split; lra)].

(** ** Coordinates *)
Lemma law_cos_eval : forall a b c d,
  q_law_cos (qmk (Fin a) u_rad) (qmk (Fin b) u_rad) (qmk (Fin c) u_rad) (qmk (Fin d) u_rad)
  = Ok (mkQ (Fin (law_cos a b c d)) (1*1) (dmul D0 D0)).
Proof.
  intros a b c d. unfold q_law_cos, qsin, qcos, qmk.
  rewrite !qfun_is by (first [reflexivity | simpl; lra]). cbn [bind].
  rewrite qsub_is by (first [reflexivity | simpl; lra]). cbn [bind].
  rewrite !qfun_is by (first [reflexivity | simpl; lra]). cbn [bind].
  unfold qmk, qmul. cbn [qv qs qd usize udim u_one].
  rewrite qadd_is by (first [dq | lra]).
  reflexivity.
Qed.
Lemma law_cos_of : forall qa qb qc qd a b c d,
  is_of qa (Fin a) u_rad -> is_of qb (Fin b) u_rad -> is_of qc (Fin c) u_rad -> is_of qd (Fin d) u_rad ->
  alike (fun q v => is_of q v u_one) (q_law_cos qa qb qc qd) (Ok (Fin (law_cos a b c d))).
Proof.
  intros qa qb qc qd a b c d Ha Hb Hc Hd.
  eapply alike_trans_same; [apply law_cos_same; eassumption|].
  rewrite law_cos_eval. simpl. apply is_of_mk; [dq|simpl; lra|lra].
Qed.
Lemma angle_between_of : forall qa qb qc qd a b c d,
  is_of qa (Fin a) u_rad -> is_of qb (Fin b) u_rad -> is_of qc (Fin c) u_rad -> is_of qd (Fin d) u_rad ->
  alike (fun q v => is_of q v u_rad) (q_angle_between qa qb qc qd) (Ok (get_angle_between a b c d)).
Proof.
  intros qa qb qc qd a b c d Ha Hb Hc Hd.
  eapply alike_trans_same; [apply angle_between_same; eassumption|].
  unfold q_angle_between. rewrite law_cos_eval. cbn [bind]. unfold qacos.
  rewrite qfun_is by (first [dq | simpl; lra]). simpl. apply same_mk. simpl; lra.
Qed.
Lemma haversine_eval : forall a b p,
  q_haversine (qmk (Fin a) u_rad) (qmk (Fin b) u_rad) (qmk (Fin (fst p)) u_rad) (qmk (Fin (snd p)) u_rad)
  = Ok (mkQ (haversine a b p) (1*1) (dmul D0 DAng)).
Proof.
  intros a b [lat lon]. cbn [fst snd]. unfold q_haversine, qsin, qcos, qasin, qmk.
  cbn [usize udim u_rad].
  rewrite !qsub_is by (first [reflexivity | lra]). cbn [bind]. unfold qnum, qmul.
  cbn [qv qs qd].
  rewrite !qfun_is by (first [reflexivity | dq | simpl; lra]). cbn [bind].
  rewrite ?qfun_is by (first [reflexivity | dq | simpl; lra]). cbn [bind].
  unfold qmk, qsq. cbn [qv qs qd usize udim u_one].
  rewrite qadd_is by (first [dq | lra]). cbn [bind].
  unfold qsqrt. cbn [qv qs qd].
  rewrite qfun_is; [|dq| |simpl; lra].
  2: { rewrite Rmult_1_l. simpl. apply sqrt_1. }
  cbn [bind]. unfold qmk. cbn [qv qs qd usize udim u_rad]. f_equal. f_equal.
  unfold haversine. f_equal. f_equal. f_equal. unfold nsq. simpl.
  f_equal. unfold Rminus. ring.
Qed.
Lemma haversine_of : forall qa qb qc qd a b p,
  is_of qa (Fin a) u_rad -> is_of qb (Fin b) u_rad ->
  is_of qc (Fin (fst p)) u_rad -> is_of qd (Fin (snd p)) u_rad ->
  alike (fun q v => is_of q v u_rad) (q_haversine qa qb qc qd) (Ok (haversine a b p)).
Proof.
  intros qa qb qc qd a b p Ha Hb Hc Hd.
  eapply alike_trans_same; [apply haversine_same; eassumption|].
  rewrite haversine_eval. simpl. apply is_of_mk; [dq|simpl; lra|lra].
Qed.
Lemma clip_of : forall q t, is_of q t u_K ->
  alike (fun q v => is_of q v u_K) (q_clip_teff q) (Ok (clip_teff t)).
Proof.
  intros q t H. eapply alike_trans_same; [apply clip_same; eassumption|].
  unfold q_clip_teff, qmk. cbn [usize udim u_K].
  rewrite qgt_is by (first [reflexivity | lra]). cbn [bind]. unfold clip_teff.
  destruct (ngt t (Fin TEFF_HI)); [apply (same_mk _ u_K); simpl; lra|].
  rewrite qlt_is by (first [reflexivity | lra]). cbn [bind].
  destruct (nlt t (Fin TEFF_LO)); apply (same_mk _ u_K); simpl; lra.
Qed.

(** ** Spots *)
Lemma msh_rsun : usize u_MSH = MSH_RSUN2 * RSUN_KM^2.
Proof. reflexivity. Qed.
Definition canon_spot (s : spot) : spotq :=
  mkSpotQ (qmk (Fin (sp_lat s)) u_rad) (qmk (Fin (sp_lon s)) u_rad)
          (qmk (sp_area_max s) u_MSH) (qmk (sp_area s) u_MSH) (sp_ratio s) (sp_growing s)
          (qmk (sp_growth s) (u_daypow (sp_growth_dim s)))
          (qmk (sp_decay s) (u_times u_MSH (u_per u_day))).
Lemma canon_spot_same : forall q s, spot_of q s <-> same_spot q (canon_spot s).
Proof. reflexivity. Qed.
Lemma spot_radius_of : forall q s, spot_of q s ->
  alike (fun q v => is_of q v u_km) (sq_radius q) (Ok (spot_radius s)).
Proof.
  intros q s H. eapply alike_trans_same; [apply spot_radius_same, canon_spot_same, H|].
  unfold sq_radius. cbn [sq_area canon_spot]. unfold qsqrt, qdiv, qmk, qnum. cbn [qv qs qd].
  pose proof msh_pos as MP.
  rewrite qto_sc by dq. cbn [usize u_km].
  apply is_of_value with (sc (nsqrt (ndiv (sp_area s) (Fin PI))) (sqrt (usize u_MSH / 1) / 1)).
  - apply same_mk. simpl; lra.
  - replace (sqrt (usize u_MSH / 1) / 1) with (sqrt (usize u_MSH)) by (unfold Rdiv; now rewrite !Rinv_1, !Rmult_1_r).
    rewrite <- nsqrt_sc by assumption. unfold spot_radius. f_equal.
    rewrite <- msh_rsun. fold (sc (sp_area s) (usize u_MSH)).
    rewrite <- (sc_1 (Fin PI)) at 2. rewrite ndiv_sc by lra. f_equal. field.
Qed.
Lemma spot_angular_eval : forall s r, 
  sq_angular_radius (canon_spot s) (qmk (Fin r) u_Rsun)
  = Ok (qmk (sc (spot_angular_radius s r) (usize u_rad / usize u_deg)) u_deg).
Proof.
  intros s r. unfold sq_angular_radius. cbn [sq_area canon_spot].
  unfold qsq, qdiv, qmul, qmk, qnum. cbn [qv qs qd usize u_Rsun udim].
  pose proof msh_pos as MP.
  unfold qsub, qlike. cbn [qs qd]. rewrite qin_sc by dq. cbn [bind usize qv].
  unfold qacos. rewrite qfun_is; [|reflexivity|reflexivity|simpl; lra]. cbn [bind].
  assert (PR : 0 < RSUN_KM) by (unfold RSUN_KM; lra).
  assert (PM : 0 < MSH_RSUN2) by (unfold MSH_RSUN2; pose proof PI_RGT_0; lra).
  match goal with |- context [nacos (nsub (Fin 1) ?x)] =>
    assert (E : x = ndiv (nmul (sp_area s) (Fin MSH_RSUN2)) (Fin (2 * PI * r ^ 2))) end.
  2: { rewrite E. rewrite qmk_eq, qto_sc by reflexivity. reflexivity. }
  fold (sc (sp_area s) MSH_RSUN2).
  replace (nmul (Fin (2 * PI)) (nsq (Fin r))) with (Fin (2 * PI * r ^ 2)) by (simpl; f_equal; ring).
  rewrite <- (sc_1 (Fin (2 * PI * r ^ 2))) at 2. rewrite ndiv_sc by lra. f_equal.
  rewrite msh_rsun. field. lra.
Qed.
Lemma spot_angular_of : forall q s qr r, spot_of q s -> is_of qr (Fin r) u_Rsun ->
  alike (fun q v => is_of q v u_rad) (sq_angular_radius q qr) (Ok (spot_angular_radius s r)).
Proof.
  intros q s qr r H K.
  eapply alike_trans_same; [apply spot_angular_same; [apply canon_spot_same, H|exact K]|].
  rewrite spot_angular_eval. simpl. unfold is_of, same, qmk. cbn [qd qs qv].
  split; [reflexivity|]. pose proof deg_pos. pose proof rad_pos. split; [assumption|]. split; [assumption|].
  change (sc (sc (spot_angular_radius s r) (1 / (PI/180))) (usize u_deg)
          = sc (spot_angular_radius s r) (usize u_rad)).
  rewrite sc_sc; [|apply Rdiv_lt_0_compat; [lra|assumption]|assumption].
  f_equal. simpl. field. pose proof PI_RGT_0; lra.
Qed.
Lemma alike_bind_ok : forall A B C (P : A -> C -> Prop) (Q : B -> Prop) (m : res A) (f : A -> res B) c,
  alike P m (Ok c) -> (forall a, P a c -> exists b, f a = Ok b /\ Q b) ->
  exists b, bind m f = Ok b /\ Q b.
Proof. intros A B C P Q m f c H K. apply alike_ok in H. destruct H as (a & -> & H). simpl. auto. Qed.
(** comparing quantities that are known in one unit *)
Lemma lt_of : forall a b v w u, is_of a v u -> is_of b w u -> qlt a b = Ok (nlt v w).
Proof.
  intros a b v w u H K. pose proof (same_lt _ _ _ _ H K) as L.
  assert (P : 0 < usize u) by (destruct H as (_ & _ & P & _); exact P).
  unfold qmk in L. rewrite qlt_is in L by auto. destruct (qlt a b); simpl in L; [congruence|contradiction].
Qed.
Lemma le_of : forall a b v w u, is_of a v u -> is_of b w u -> qle a b = Ok (nle v w).
Proof.
  intros a b v w u H K. pose proof (same_le _ _ _ _ H K) as L.
  assert (P : 0 < usize u) by (destruct H as (_ & _ & P & _); exact P).
  unfold qmk in L. rewrite qle_is in L by auto. destruct (qle a b); simpl in L; [congruence|contradiction].
Qed.
Lemma div_num_of : forall a v u x, is_of a v u -> is_of (qdiv a (qnum x)) (ndiv v x) u.
Proof.
  intros a v u x H. assert (P : 0 < usize u) by (destruct H as (_ & _ & P & _); exact P).
  unfold is_of. eapply same_trans; [apply same_div; [exact H|apply same_num]|].
  unfold qdiv, qmk, qnum. cbn [qv qs qd]. apply is_of_mk; [|field|lra].
  destruct (udim u). dq.
Qed.
Lemma spot_covers_of : forall q s qr r qa qo p, spot_of q s -> is_of qr (Fin r) u_Rsun ->
  is_of qa (Fin (fst p)) u_rad -> is_of qo (Fin (snd p)) u_rad ->
  sq_covers q qr qa qo
  = Ok (nlt (haversine (sp_lat s) (sp_lon s) p) (ndiv (spot_angular_radius s r) (nsqrt (sp_ratio s))),
        nlt (haversine (sp_lat s) (sp_lon s) p) (spot_angular_radius s r)).
Proof.
  intros q s qr r qa qo p H Hr Ha Ho. unfold sq_covers.
  pose proof (spot_angular_of q s qr r H Hr) as A. apply alike_ok in A. destruct A as (ar & EA & A).
  destruct H as (Hlat & Hlon & _ & _ & Hratio & _).
  pose proof (haversine_of _ _ _ _ _ _ p Hlat Hlon Ha Ho) as V. apply alike_ok in V. destruct V as (hv & EV & V).
  rewrite EV. cbn [bind]. rewrite EA. cbn [bind]. rewrite Hratio.
  rewrite (lt_of hv _ _ _ u_rad V (div_num_of ar _ u_rad (nsqrt (sp_ratio s)) A)). cbn [bind].
  rewrite (lt_of hv ar _ _ u_rad V A). reflexivity.
Qed.

Lemma u_daypow_minus1 : udim (u_daypow (-1)) = dpow DTime (-1).
Proof. reflexivity. Qed.
Lemma spot_of_canon : forall s, spot_of (canon_spot s) s.
Proof.
  intro s. assert (X : forall x u, 0 < usize u -> is_of (qmk x u) x u) by (intros; now apply same_mk).
  pose proof msh_pos.
  unfold spot_of, canon_spot. cbn [sq_lat sq_lon sq_amax sq_area sq_ratio sq_growing sq_growth sq_decay].
  repeat split; cbn [usize u_times u_per u_day u_daypow u_rad qmk qs]; try lra;
    try (rewrite Rinv_1; lra); assumption.
Qed.
Lemma spot_of_with : forall q s a v g, spot_of q s -> is_of a v u_MSH ->
  spot_of (sq_with q a g) (spot_with_area s v g).
Proof.
  intros q s a v g (H1 & H2 & H3 & H4 & H5 & H6 & H7 & H8) K.
  unfold spot_of, sq_with. cbn [sq_lat sq_lon sq_amax sq_area sq_ratio sq_growing sq_growth sq_decay].
  auto 10.
Qed.
Lemma spot_age_of : forall q s qt t, spot_of q s -> is_of qt t u_day ->
  alike spot_of (sq_age q qt) (spot_age s t).
Proof.
  intros q s qt t H K.
  pose proof (spot_age_same q (canon_spot s) qt (qmk t u_day) H K) as S1.
  assert (S2 : alike spot_of (sq_age (canon_spot s) (qmk t u_day)) (spot_age s t)).
  2: { destruct (sq_age q qt), (sq_age (canon_spot s) (qmk t u_day)), (spot_age s t);
       simpl in *; try contradiction; try congruence.
       clear - S1 S2. destruct S1 as (A1 & A2 & A3 & A4 & A5 & A6 & A7 & A8).
       destruct S2 as (B1 & B2 & B3 & B4 & B5 & B6 & B7 & B8).
       unfold spot_of, is_of in *.
       repeat match goal with |- _ /\ _ => split end; try congruence; eapply same_trans; eassumption. }
  clear S1 K H q qt. pose proof msh_pos as MP. pose proof (spot_of_canon s) as SC.
  assert (D : forall x, is_of (qmk x u_MSH) x u_MSH) by (intro; now apply same_mk).
  unfold sq_age, spot_age. cbn [sq_growing canon_spot].
  destruct (sp_growing s) eqn:EG.
  - cbn [sq_growth sq_amax sq_area sq_decay canon_spot]. qn.
    destruct (Z.eqb (sp_growth_dim s) (-1)) eqn:EZ; cbn [negb].
    2: { unfold qto. rewrite qin_bad; [reflexivity|]. cbn [qd]. cbn. intro E.
         apply (f_equal e_time) in E. simpl in E. assert (IZR (sp_growth_dim s) = -1) by lra.
         apply Z.eqb_neq in EZ. apply EZ. apply eq_IZR. exact H. }
    apply Z.eqb_eq in EZ. rewrite EZ.
    rewrite qto_is by (first [dq | sz]). cbn [bind]. qn.
    rewrite nmul_1_r.
    rewrite qadd_is by (first [dq | sz]). cbn [bind].
    unfold qlog at 1. rewrite qfun_is by (first [dq | sz]). cbn [bind].
    set (tau := nln (nadd (sp_growth s) (Fin 1))).
    qn. rewrite qeq_is by (first [dq | sz]).
    match goal with |- alike _ (bind ?m _) _ =>
      assert (TM : exists x, m = Ok x /\ qs x = 1 /\ qd x = DTime
         /\ qv x = if neq tau (Fin 0) then PInf else ndiv (nln (ndiv (sp_area_max s) (sp_area s))) tau) end.
    { destruct (neq tau (Fin 0)).
      - eexists. split; [reflexivity|]. repeat split.
      - unfold qlog. rewrite qfun_is by (first [dq | sz]). cbn [bind]. qn.
        eexists. split; [reflexivity|]. cbn [qv qs qd].
        split; [sz|]. split; [dq|]. apply nmul_1_r. }
    destruct TM as ([tv ts td] & -> & Hs & Hd & Hv). cbn [qv qs qd] in Hs, Hd, Hv. subst ts td.
    cbn [bind]. rewrite <- Hv.
    rewrite qgt_is by (first [dq | sz]). cbn [bind].
    destruct (ngt tv t).
    + qn. unfold qexp. rewrite qfun_is by (first [dq | sz]). cbn [bind].
      rewrite ndiv_1_r. cbn [alike]. apply spot_of_with; [exact SC|].
      qn. apply is_of_mk; [dq|sz|sz].
    + rewrite qsub_is by (first [dq | sz]). cbn [bind]. cbv zeta. qn.
      rewrite qgt_is by (first [dq | sz]). cbn [bind].
      destruct (ngt _ (sp_area_max s)); cbn [alike].
      * apply spot_of_with; auto. apply (D (Fin 0)).
      * rewrite qsub_is by (first [dq | sz]).
        cbn [bind alike]. apply spot_of_with; auto. apply D.
  - cbn [sq_growth sq_amax sq_area sq_decay canon_spot]. cbv zeta. qn.
    rewrite qgt_is by (first [dq | sz]). cbn [bind].
    destruct (ngt _ (sp_area_max s)); cbn [alike].
    + apply spot_of_with; auto. apply (D (Fin 0)).
    + rewrite qsub_is by (first [dq | sz]). cbn [bind alike]. apply spot_of_with; auto. apply D.
Qed.
Lemma spot_dead_of : forall q s, spot_of q s -> sq_dead q = Ok (spot_dead s).
Proof.
  intros q s (H1 & H2 & H3 & H4 & H5 & H6 & H7 & H8). unfold sq_dead, spot_dead.
  rewrite (le_of _ _ _ (Fin 0) u_MSH H4 (same_mk _ _ msh_pos)). cbn [bind]. now rewrite H6.
Qed.
Lemma spot_clean_of : forall l l', Forall2 spot_of l l' ->
  exists r, sq_clean l = Ok r /\ Forall2 spot_of r (filter (fun s => negb (spot_dead s)) l').
Proof.
  induction 1 as [|q s l l' H _ (r & E & F)]; simpl.
  - exists []. split; [reflexivity|constructor].
  - rewrite (spot_dead_of q s H), E. cbn [bind]. eexists. split; [reflexivity|].
    destruct (spot_dead s); simpl; [assumption|constructor; assumption].
Qed.
Lemma spots_age_of : forall l c qt t, Forall2 spot_of l (sc_spots c) -> is_of qt t u_day ->
  alike (fun l' c' => Forall2 spot_of l' (sc_spots c')) (sq_collection_age l qt) (sc_age c t).
Proof.
  intros l c qt t H K. unfold sq_collection_age, sc_age. eapply alike_bind.
  - eapply alike_mapM; [|exact H]. intros q s Q. exact (spot_age_of q s qt t Q K).
  - intros r r' R. destruct (spot_clean_of r r' R) as (x & -> & X). exact X.
Qed.

(** ** The generator of spots *)
Definition canon_gen (g : spotgen) : spotgenq :=
  mkSpotGenQ (qmk (sg_mean g) u_MSH) (qmk (sg_growth g) (u_daypow (sg_growth_dim g)))
             (qmk (sg_decay g) (u_times u_MSH (u_per u_day))) (qmk (sg_init g) u_MSH) (sg_coverage g).
Lemma static_of : forall q g, gen_of q g -> gq_is_static q = sg_is_static g.
Proof.
  intros q g H. rewrite (static_same q (canon_gen g) H). unfold gq_is_static, sg_is_static.
  unfold canon_gen, qdiv, qmk. cbn [gq_decay qv qs qd usize udim u_times u_per u_day].
  pose proof msh_pos. rewrite qeq_is; [|dq|field|rewrite Rinv_1; lra]. now rewrite ndiv_1_r.
Qed.
Lemma lifetime_of : forall q g, gen_of q g ->
  alike (fun q v => is_of q v u_day) (gq_mean_lifetime q) (sg_mean_lifetime g).
Proof.
  intros q g H.
  pose proof (lifetime_same q (canon_gen g) H) as S1.
  assert (S2 : alike (fun q v => is_of q v u_day) (gq_mean_lifetime (canon_gen g)) (sg_mean_lifetime g)).
  2: { destruct (gq_mean_lifetime q), (gq_mean_lifetime (canon_gen g)), (sg_mean_lifetime g);
       simpl in *; try contradiction; try congruence. eapply same_trans; eassumption. }
  unfold gq_mean_lifetime. rewrite <- (static_same q (canon_gen g) H), (static_of q g H).
  unfold sg_mean_lifetime. destruct (sg_is_static g); [apply same_mk; simpl; lra|].
  pose proof msh_pos.
  unfold canon_gen. cbn [gq_mean gq_growth gq_decay gq_init]. qn.
  unfold qlog. rewrite qfun_is by (first [dq | sz]). cbn [bind]. qn.
  destruct (Z.eqb (sg_growth_dim g) (-1)) eqn:EZ; cbn [negb].
  - apply Z.eqb_eq in EZ. rewrite EZ.
    rewrite qsub_is; [|dq|sz|].
    2: { replace (usize u_MSH / (usize u_MSH * / 1)) with 1 by (field; lra). lra. }
    cbn [bind]. rewrite qto_is by (first [dq | sz]).
    apply same_mk. simpl; lra.
  - unfold qsub. rewrite qlike_bad; [reflexivity|]. cbn [qd]. intro E. apply (f_equal e_time) in E. simpl in E.
    apply Z.eqb_neq in EZ. apply EZ. apply eq_IZR. lra.
Qed.
Lemma mean_area_of : forall q g, gen_of q g ->
  alike (fun q v => is_of q v u_MSH) (gq_mean_area q) (sg_mean_area g).
Proof.
  intros q g H.
  pose proof (lifetime_of q g H) as LF.
  pose proof (mean_area_same q (canon_gen g) H) as S1.
  assert (S2 : alike (fun q v => is_of q v u_MSH) (gq_mean_area (canon_gen g)) (sg_mean_area g)).
  2: { destruct (gq_mean_area q), (gq_mean_area (canon_gen g)), (sg_mean_area g);
       simpl in *; try contradiction; try congruence. eapply same_trans; eassumption. }
  assert (GC : gen_of (canon_gen g) g).
  { destruct H as (A & B & C & D & E). unfold gen_of, canon_gen, is_of. cbn [gq_mean gq_growth gq_decay gq_init gq_coverage].
    pose proof msh_pos.
    repeat split; cbn [usize u_times u_per u_day u_daypow qmk qs]; try lra; rewrite Rinv_1; lra. }
  clear LF S1. pose proof (lifetime_of _ g GC) as LF.
  unfold gq_mean_area. rewrite (static_of _ g GC).
  unfold sg_mean_area. pose proof msh_pos.
  destruct (sg_is_static g) eqn:ES; [now apply same_mk|].
  destruct (Z.eqb (sg_growth_dim g) (-1)) eqn:EZ; cbn [negb].
  - apply Z.eqb_eq in EZ.
    set (life := gq_mean_lifetime (canon_gen g)) in *.
    unfold canon_gen. cbn [gq_mean gq_growth gq_decay gq_init]. qn.
    rewrite EZ.
    rewrite qadd_is; [|reflexivity|reflexivity|sz]. cbn [bind].
    rewrite qadd_is; [|dq|sz|sz]. cbn [bind].
    destruct life as [[lv ls ld]|e], (sg_mean_lifetime g) as [ml|e']; simpl in LF; try contradiction; cbn [bind alike]; [|exact LF].
    assert (X : same (qdiv (mkQ (nadd (nadd (ndiv (sg_mean g) (sg_growth g)) (ndiv (sg_init g) (sg_growth g)))
              (ndiv (ndiv (nsq (sg_mean g)) (Fin 2)) (sg_decay g))) (usize u_MSH / 1) (ddiv DArea (dpow DTime (-1))))
              (mkQ lv ls ld))
        (qdiv (mkQ (nadd (nadd (ndiv (sg_mean g) (sg_growth g)) (ndiv (sg_init g) (sg_growth g)))
              (ndiv (ndiv (nsq (sg_mean g)) (Fin 2)) (sg_decay g))) (usize u_MSH / 1) (ddiv DArea (dpow DTime (-1)))) (qmk ml u_day))).
    { apply same_div; [apply same_refl; cbn [qs]; lra|exact LF]. }
    eapply same_trans; [exact X|]. qn.
    apply is_of_mk; [dq|sz|sz].
  - set (life := gq_mean_lifetime (canon_gen g)) in *.
    unfold canon_gen. cbn [gq_mean gq_growth gq_decay gq_init]. qn.
    rewrite qadd_is; [|reflexivity|reflexivity|sz]. cbn [bind].
    unfold qadd. rewrite qlike_bad; [reflexivity|]. cbn [qd]. intro E. apply (f_equal e_time) in E. simpl in E.
    apply Z.eqb_neq in EZ. apply EZ. apply eq_IZR. lra.
Qed.
Lemma n_expected_of : forall q g qt t qr r, gen_of q g -> is_of qt t u_day -> is_of qr (Fin r) u_Rsun ->
  alike eq (gq_n_expected q qt qr) (sg_n_expected g t r).
Proof.
  intros q g qt t qr r H K L. unfold gq_n_expected, sg_n_expected.
  pose proof msh_pos.
  pose proof H as (_ & _ & _ & _ & EC). rewrite EC.
  eapply alike_bind; [apply mean_area_of; exact H|]. intros qa va A.
  eapply alike_bind; [apply lifetime_of; exact H|]. intros ql vl B.
  pose proof (same_in
    (qdiv (qmul (qdiv (qmul (qnum (sg_coverage g)) (qmul (qnum (Fin (4 * PI))) (qsq qr))) qa) qt) ql)
    (qdiv (qmul (qdiv (qmul (qnum (sg_coverage g)) (qmul (qnum (Fin (4 * PI))) (qsq (qmk (Fin r) u_Rsun)))) (qmk va u_MSH)) (qmk t u_day)) (qmk vl u_day))
    u_one) as X.
  assert (X' := X ltac:(auto 20 with uni) one_pos). clear X.
  assert (Y : qin (qdiv (qmul (qdiv (qmul (qnum (sg_coverage g)) (qmul (qnum (Fin (4 * PI))) (qsq (qmk (Fin r) u_Rsun)))) (qmk va u_MSH)) (qmk t u_day)) (qmk vl u_day)) u_one
     = Ok (ndiv (nmul (ndiv (nmul (sg_coverage g) (Fin (4 * PI * r ^ 2))) (nmul va (Fin MSH_RSUN2))) t) vl)).
  { assert (PR : 0 < RSUN_KM) by (unfold RSUN_KM; lra).
    assert (PM : 0 < MSH_RSUN2) by (unfold MSH_RSUN2; pose proof PI_RGT_0; lra).
    unfold qdiv, qmul, qsq, qmk, qnum. cbn [qv qs qd usize udim u_Rsun u_day].
    rewrite qin_sc by dq. f_equal. cbn [usize u_one].
    replace (nmul (Fin (4 * PI)) (nsq (Fin r))) with (Fin (4 * PI * r ^ 2)) by (simpl; f_equal; ring).
    fold (sc va MSH_RSUN2).
    set (x := nmul (sg_coverage g) (Fin (4 * PI * r ^ 2))).
    assert (E1 : ndiv x (sc va MSH_RSUN2) = sc (ndiv x va) (1 / MSH_RSUN2)).
    { rewrite <- (sc_1 x) at 1. apply ndiv_sc; lra. }
    rewrite E1.
    assert (P1 : 0 < 1 / MSH_RSUN2) by (apply Rdiv_lt_0_compat; lra).
    rewrite <- (sc_1 t) at 2. rewrite nmul_sc by lra.
    rewrite <- (sc_1 vl) at 2. rewrite ndiv_sc by lra.
    f_equal. rewrite msh_rsun. field. lra. }
  rewrite Y in X'. exact X'.
Qed.
Lemma max_area_of : forall q g sg z, gen_of q g ->
  alike (fun q v => is_of q v u_MSH) (gq_max_area q sg z) (Ok (nexp (nadd (nln (sg_mean g)) (Fin (sg * z))))).
Proof.
  intros q g sg z H. eapply alike_trans_same; [apply (max_area_same q (canon_gen g)); exact H|].
  pose proof msh_pos.
  unfold gq_max_area, canon_gen, qdiv, qmk. cbn [gq_mean qv qs qd usize udim].
  unfold qlog. rewrite qfun_is; [|dq|cbn [usize u_one]; field; lra|simpl; lra]. cbn [bind].
  unfold qmk. cbn [qv]. rewrite ndiv_1_r. now apply same_mk.
Qed.
