(** Lemmas for C121: long programs on stars whose generators draw from streams *)
From Coq Require Import Reals ZArith Bool String Lra Lia List.
From Verif Require Import Num Py MConfig MGrid MHelpers MSpots MFaculae MFlares MGranules MStar MHeap MRng
  Spec SpecStar SpecFlare SpecFrame SpecSim SpecRng SpecLive LBase LMature LSim LRng LRngRun.
Import ListNotations.
Open Scope R_scope.

Lemma spells_sensible : forall s c k, spells_out c k -> sensible_call s c -> sensible s k.
Proof.
  intros s c k H K. destruct c, k; simpl in *; try contradiction; try (subst; exact K).
  - destruct H as [-> _]. exact K.
  - destruct H as [-> _]. exact K.
  - destruct H as [-> D]. destruct K as [K1 K2]. split; auto. split; auto. intros i. destruct (D i) as [_ [U1 U2]]. lra.
  - destruct H as [-> D]. auto.
Qed.
Lemma spells_prompt : forall c k, spells_out c k -> ~ searches c -> prompt k.
Proof. intros c k H K. destruct c, k; simpl in *; try contradiction; auto; exfalso; auto. Qed.
Lemma sensible_call_body : forall s s' c, same_body s s' -> sensible_call s c -> sensible_call s' c.
Proof.
  intros s s' c [_ [_ [_ [G [_ [SG _]]]]]] H. destruct c; cbn [sensible_call] in *; auto; rewrite ?G, ?SG; auto.
Qed.
Lemma ends_call_body : forall s s' c, same_body s s' -> ends_call s c -> ends_call s' c.
Proof.
  intros s s' c [_ [_ [_ [G [_ [SG _]]]]]] H. destruct c; cbn [ends_call] in *; auto; rewrite ?SG; auto.
Qed.
Lemma same_body_refl : forall s, same_body s s.
Proof. intros. unfold same_body. repeat split. Qed.
(** one call *)
Lemma call_healthy : forall St (np : numpy St) fuel s c st, numpy_ok np -> healthy s -> sensible_call s c ->
  ((exists s', fst (rcall_star np fuel s c st) = Ok s' /\ healthy s' /\ same_body s s')
   \/ (fst (rcall_star np fuel s c st) = Raise OutOfDraws /\ searches c)).
Proof.
  intros St np fuel s c st OK H K. destruct (C115_draws_lemma St np fuel s c st OK) as [k [K1 K2]].
  destruct (exec_healthy s k H (spells_sensible _ _ _ K1 K)) as [A B]. rewrite <- K2. destruct A as [A|A]; [left; exact A|].
  right. split; auto. destruct c; cbn [searches]; auto; apply (B (spells_prompt _ _ K1 (fun x => x)) A).
Qed.
Lemma rexec_eq : forall St (np : numpy St) h x c, exists l,
  (forall fuel', rexec np fuel' h x c =
    (fun k => if Nat.eqb k l then snd (rcall_star np fuel' (rs_star x) c (h l)) else h k,
     with_star x (fst (rcall_star np fuel' (rs_star x) c (h l))), outcome (fst (rcall_star np fuel' (rs_star x) c (h l))))).
Proof.
  intros. exists (match rcall_rng x c with Some l => l | None => rs_rng x end). intros. unfold rexec.
  destruct (rcall_star np fuel' (rs_star x) c _) as [r s']. reflexivity.
Qed.
Lemma C121_run_lemma :
  forall (St : Type) (np : numpy St) fuel h st prog h' st' log, numpy_ok np ->
  (forall i, healthy (rs_star (st i))) -> (forall i c, In (i, c) prog -> sensible_call (rs_star (st i)) c) ->
  rrun np fuel h st prog = (h', st', log) ->
  map fst log = map fst prog
  /\ (forall i, healthy (rs_star (st' i)) /\ same_body (rs_star (st i)) (rs_star (st' i)))
  /\ (forall k i e, nth_error log k = Some (i, Some e) ->
        e = OutOfDraws /\ exists c, nth_error prog k = Some (i, c) /\ searches c).
Proof.
  intros St np fuel h st prog. revert h st. induction prog as [|[i c] prog IH]; intros h st h' st' log OK H K E.
  - simpl in E. inversion E; subst. split; auto. split. { intros i. split; auto. apply same_body_refl. }
    intros [|k] i e X; discriminate.
  - cbn [rrun] in E. destruct (rexec_eq _ np h (st i) c) as [l EX]. rewrite EX in E.
    set (r := rcall_star np fuel (rs_star (st i)) c (h l)) in *.
    match type of E with context [rrun _ _ ?a ?b _] => set (h1 := a) in *; set (st1 := b) in * end.
    destruct (rrun np fuel h1 st1 prog) as [[h2 st2] log2] eqn:E2. inversion E; subst; clear E.
    assert (P : forall j, healthy (rs_star (st1 j)) /\ same_body (rs_star (st j)) (rs_star (st1 j))).
    { intros j. unfold st1. destruct (Nat.eqb_spec j i) as [->|_]. 2: split; auto; apply same_body_refl.
      destruct (call_healthy _ np fuel (rs_star (st i)) c (h l) OK (H i) (K i c (or_introl eq_refl))) as [[s' [X [Y Z]]]|[X _]];
        fold r in X; rewrite X; simpl; auto. split; auto. apply same_body_refl. }
    destruct (IH h1 st1 h' st' log2 OK) as [A [B C]]; auto.
    { intros j. apply P. }
    { intros j d Hj. apply (sensible_call_body (rs_star (st j))). apply P. apply K. right; auto. }
    split. { simpl. f_equal. auto. }
    split. { intros j. destruct (B j) as [B1 B2]. split; auto. eapply same_body_trans. apply P. auto. }
    intros [|k] j e X; cbn [nth_error] in *.
    + inversion X; subst. destruct (call_healthy _ np fuel (rs_star (st j)) c (h l) OK (H j) (K j c (or_introl eq_refl))) as [[s' [Y _]]|[Y Z]];
        fold r in Y; rewrite Y in *; simpl in *; try discriminate. split. congruence. exists c. auto.
    + apply (C k j e X).
Qed.

(** ** more fuel changes nothing once a computation has ended *)
Definition extends {St A} (m m' : stream St A) : Prop := forall s, fst (m s) <> Raise OutOfDraws -> m' s = m s.
Lemma extends_refl : forall St A (m : stream St A), extends m m.
Proof. intros St A m s _. reflexivity. Qed.
Lemma extends_bind : forall St A B (m m' : stream St A) (k k' : A -> stream St B),
  extends m m' -> (forall a, extends (k a) (k' a)) -> extends (sbind m k) (sbind m' k').
Proof.
  intros St A B m m' k k' H K s E. unfold sbind in *. destruct (m s) as [[a|e] s1] eqn:M.
  - rewrite H by (rewrite M; discriminate). rewrite M. apply K. exact E.
  - rewrite H by (rewrite M; simpl in *; congruence). rewrite M. reflexivity.
Qed.
Lemma ratios_extends : forall St (np : numpy St) n fuel fuel', (fuel <= fuel')%nat -> extends (s_ratios np n fuel) (s_ratios np n fuel').
Proof.
  intros St np n fuel. induction fuel; intros fuel' L s E.
  - destruct fuel'; simpl in *; auto. destruct (takes (np_normal np) n s) as [z s1]. destruct (existsb _ _); auto. simpl in E. congruence.
  - destruct fuel'; [lia|]. simpl in *. destruct (takes (np_normal np) n s) as [z s1]. destruct (existsb _ _); auto.
    apply IHfuel; auto. lia.
Qed.
Lemma generate_extends : forall St (np : numpy St) g n fuel fuel', (fuel <= fuel')%nat ->
  extends (s_generate_spots np g n fuel) (s_generate_spots np g n fuel').
Proof.
  intros. unfold s_generate_spots. apply extends_bind. apply extends_refl. intros z.
  apply extends_bind. apply ratios_extends; auto. intros r. apply extends_refl.
Qed.
Lemma one_extends : forall St (np : numpy St) g fuel fuel', (fuel <= fuel')%nat ->
  extends (s_mature_one np g fuel) (s_mature_one np g fuel').
Proof. intros. unfold s_mature_one. apply extends_bind. apply generate_extends; auto. intros l. apply extends_refl. Qed.
Lemma loop_extends : forall St (np : numpy St) g Rs target rf rf' fuel fuel' om, (rf <= rf')%nat -> (fuel <= fuel')%nat ->
  extends (s_mature_loop np g Rs target rf fuel om) (s_mature_loop np g Rs target rf' fuel' om).
Proof.
  intros St np g Rs target rf rf' fuel. induction fuel; intros fuel' om L L'.
  - destruct fuel'; cbn [s_mature_loop]; destruct (nlt om target); try apply extends_refl.
    intros s E. simpl in E. congruence.
  - destruct fuel'; [lia|]. cbn [s_mature_loop]. destruct (nlt om target); try apply extends_refl.
    apply extends_bind. apply one_extends; auto. intros x. apply extends_bind. apply IHfuel; auto; lia. intros; apply extends_refl.
Qed.
Lemma call_extends : forall St (np : numpy St) fuel fuel' s c, (fuel <= fuel')%nat ->
  extends (rcall_star np fuel s c) (rcall_star np fuel' s c).
Proof.
  intros St np fuel fuel' s c L. destruct c; cbn [rcall_star]; try apply extends_refl.
  - apply extends_bind; [|intros; apply extends_refl]. unfold s_birth_spots. apply extends_bind. apply extends_refl.
    intros ne. apply extends_bind. apply extends_refl. intros n. apply generate_extends; auto.
  - apply extends_bind; [|intros; apply extends_refl]. unfold s_generate_mature. destruct (_ || _)%bool. apply extends_refl.
    apply loop_extends; auto.
Qed.
Lemma outcome_none : forall r e, outcome r <> Some e -> r <> Raise e.
Proof. intros r e H ->. apply H. reflexivity. Qed.
Lemma C121_fuel_lemma :
  forall (St : Type) (np : numpy St) fuel fuel' h st prog h' st' log, (fuel <= fuel')%nat ->
  rrun np fuel h st prog = (h', st', log) -> (forall i, ~ In (i, Some OutOfDraws) log) ->
  rrun np fuel' h st prog = (h', st', log).
Proof.
  intros St np fuel fuel' h st prog. revert h st. induction prog as [|[i c] prog IH]; intros h st h' st' log L E N.
  - exact E.
  - cbn [rrun] in *. destruct (rexec_eq _ np h (st i) c) as [l EX]. rewrite EX in *.
    match type of E with context [rrun _ _ ?a ?b _] => destruct (rrun np fuel a b prog) as [[h2 st2] log2] eqn:E2 end.
    inversion E; subst; clear E.
    assert (X : rcall_star np fuel' (rs_star (st i)) c (h l) = rcall_star np fuel (rs_star (st i)) c (h l)).
    { apply (call_extends _ np fuel fuel' _ c L). apply outcome_none. intros X. apply (N i). left. rewrite X. reflexivity. }
    rewrite X. rewrite (IH _ _ _ _ _ L E2). reflexivity. intros j Hj. apply (N j). right. auto.
Qed.

(** ** programs come to their end *)
Lemma ready_ratios : forall St (np : numpy St) n s, ready np n s -> exists fuel l s', s_ratios np n fuel s = (Ok l, s').
Proof.
  intros St np n s H. induction H as [s H|s H [fuel [l [s' E]]]].
  - exists O. simpl. destruct (takes (np_normal np) n s) as [z s1]. simpl in H.
    destruct (existsb _ _) eqn:X. 2: do 2 eexists; reflexivity.
    exfalso. apply existsb_exists in X. destruct X as [r [I X]]. apply in_map_iff in I. destruct I as [y [<- I]].
    rewrite List.Forall_forall in H. apply H in I. unfold Rleb in X. destruct (Rle_dec _ _); try discriminate. lra.
  - destruct (takes (np_normal np) n s) as [z s1] eqn:T. simpl in E.
    destruct (existsb (fun r => Rleb r 0) (map (fun x => 5 + x) z)) eqn:X.
    + exists (S fuel), l, s'. simpl. rewrite T, X. exact E.
    + exists O, (map (fun x => 5 + x) z), s1. simpl. rewrite T, X. reflexivity.
Qed.
Lemma coords_no_fuel : forall St (np : numpy St) g n s, fst (s_spot_coords np g n s) <> Raise OutOfDraws.
Proof.
  intros. unfold s_spot_coords. destruct (sg_dist g); unfold sbind, sample, sret; simpl;
    repeat (match goal with |- context [takes ?f ?n ?s] => destruct (takes f n s) end); simpl; discriminate.
Qed.
Lemma mapM_no_fuel : forall A B (f : A -> res B) l, (forall a, f a <> Raise OutOfDraws) -> mapM f l <> Raise OutOfDraws.
Proof.
  intros A B f l H. induction l; simpl. discriminate. specialize (H a). destruct (f a) as [b|e]; simpl. 2: intros X; congruence.
  destruct (mapM f l); simpl; try discriminate. intros X; congruence.
Qed.
Lemma generate_ends : forall St (np : numpy St) g n s, (forall s, ready np n s) ->
  exists fuel, fst (s_generate_spots np g n fuel s) <> Raise OutOfDraws.
Proof.
  intros St np g n s H. unfold s_generate_spots, sbind.
  destruct (s_areas np g n s) as [[z|e] s1] eqn:A.
  2:{ exists O. simpl. unfold s_areas in A. destruct (Rltb _ _). inversion A; discriminate.
      unfold sample in A. destruct (takes _ _ _); discriminate. }
  destruct (ready_ratios _ np n s1 (H s1)) as [fuel [l [s2 E]]]. exists fuel. rewrite E.
  pose proof (coords_no_fuel _ np g n s2) as C. destruct (s_spot_coords np g n s2) as [[[[[ulon x] hemi] zlat]|e] s3].
  2:{ simpl in *. congruence. } apply s_ratios_ok in E. destruct E as [L X]. simpl. unfold sg_generate. destruct (Rltb _ _). discriminate.
  rewrite (redraw_const n l O) by auto. cbn [bind].
  unfold sg_coords. destruct (sg_dist g); simpl; try discriminate; apply mapM_no_fuel; discriminate.
Qed.
Lemma expected_no_fuel : forall g t Rs, sg_n_expected g t Rs <> Raise OutOfDraws.
Proof.
  intros. unfold sg_n_expected, sg_mean_area, sg_mean_lifetime. destruct (sg_is_static g); simpl. discriminate.
  destruct (negb _); simpl; discriminate.
Qed.
(** a mature spot of a generator without decay has a minimal size *)
Lemma takes_1 : forall St A (f : St -> A * St) s, takes f 1 s = ([fst (f s)], snd (f s)).
Proof. intros. simpl. destruct (f s). reflexivity. Qed.
Definition least (g : spotgen) (B : R) : R :=
  match sg_mean g, sg_init g with Fin M, Fin A => Rmin A (exp (ln M - sg_logsigma g * B)) | _, _ => 0 end.
Lemma least_pos : forall g B, healthy_spotgen g -> 0 < least g B.
Proof.
  intros g B H. destruct (hg_rates g H) as [M [A [r [W [E1 [E2 [_ [_ [HA _]]]]]]]]]. unfold least. rewrite E1, E2.
  apply Rmin_pos. lra. apply exp_pos.
Qed.
Lemma coords_ok : forall St (np : numpy St) g n s, sg_dist g <> UnknownDist -> exists x s', s_spot_coords np g n s = (Ok x, s').
Proof.
  intros. unfold s_spot_coords. destruct (sg_dist g); try congruence; unfold sbind, sample, sret; simpl;
    repeat (match goal with |- context [takes ?f ?n ?s] => destruct (takes f n s) end); simpl; eauto.
Qed.
Lemma one_ends : forall St (np : numpy St) g B s, numpy_ok np -> (forall s, ready np 1 s) -> (forall s, - B <= fst (np_normal np s)) ->
  healthy_spotgen g -> sg_decay g = Fin 0 ->
  exists fuel x s' a, s_mature_one np g fuel s = (Ok x, s') /\ sp_area x = Fin a /\ least g B <= a.
Proof.
  intros St np g B s [OK _] HR HB HG HD. destruct (hg_rates g HG) as [M [A [r [W [E1 [E2 [_ [_ [HA _]]]]]]]]].
  assert (NL : nln (Fin M) = Fin (ln M)). { unfold nln. destruct (Rlt_dec M 0); [lra|]. destruct (Req_EM_T M 0); [lra|]. reflexivity. }
  pose proof (hg_sigma g HG) as HS. unfold s_mature_one, s_generate_spots, sbind, s_areas.
  rewrite (proj2 (Rltb_false (sg_logsigma g) 0)) by lra. unfold sample at 1. rewrite takes_1.
  set (z := fst (np_normal np s)). set (s1 := snd (np_normal np s)).
  destruct (ready_ratios _ np 1%nat s1 (HR s1)) as [fuel [l [s2 E]]]. exists fuel. rewrite E.
  destruct (coords_ok _ np g 1%nat s2 (hg_dist g HG)) as [[[[ulon x] hemi] zlat] [s3 C]]. rewrite C.
  apply s_ratios_ok in E. destruct E as [L X]. unfold slift. unfold sg_generate.
  rewrite (proj2 (Rltb_false (sg_logsigma g) 0)) by lra. rewrite (redraw_const 1 l O) by auto. cbn [bind].
  set (d := mkSDraws _ _ _ _ _ _).
  assert (CO : exists ll, sg_coords g d 0 = Ok ll). { unfold sg_coords. pose proof (hg_dist g HG). destruct (sg_dist g); try congruence; eauto. }
  destruct CO as [ll CO]. simpl mapM. rewrite CO. cbn [bind]. unfold sample. rewrite takes_1.
  unfold sg_is_static. rewrite HD. replace (neq (Fin 0) (Fin 0)) with true. 2:{ simpl. unfold Reqb. destruct (Req_EM_T 0 0); auto. lra. }
  unfold sret. eexists. eexists. eexists. split. reflexivity. cbn [sp_area spot_with_area sp_area_max spot_init spot_set_gridmaker].
  rewrite E1, E2, NL. unfold d, at_index. cbn [d_z nth].
  simpl. split. reflexivity. unfold least. rewrite E1, E2.
  set (a := exp (ln M + sg_logsigma g * z)). set (b := exp (ln M - sg_logsigma g * B)).
  assert (AB : b <= a).
  { unfold a, b. assert (Q : ln M - sg_logsigma g * B <= ln M + sg_logsigma g * z).
    { specialize (HB s). fold z in HB. assert (0 <= sg_logsigma g * (z + B)) by (apply Rmult_le_pos; lra). lra. }
    destruct Q as [Q|Q]. left. apply exp_increasing; auto. right. rewrite Q. reflexivity. }
  set (u := fst (np_random np s3)). assert (U : 0 <= u < 1) by apply OK.
  pose proof (Rmin_l A b). pose proof (Rmin_r A b).
  replace (u * (a + - A) + A) with (u * a + (1 - u) * A) by ring.
  apply Rle_trans with (u * Rmin A b + (1 - u) * Rmin A b). right; ring.
  apply Rplus_le_compat; apply Rmult_le_compat_l; lra.
Qed.
Lemma angle_least : forall x Rs a m, 0 < Rs -> sp_area x = Fin a -> 0 < m <= a ->
  spot_solid_angle x Rs = NaN
  \/ exists w, spot_solid_angle x Rs = Fin w /\ 2 * (m * MSH_RSUN2 / (2 * PI * Rs^2)) * (180/PI)^2 * PI <= w.
Proof.
  intros x Rs a m HR E H. pose proof PI_RGT_0 as PP.
  assert (Q : 0 < 2 * PI * Rs^2). { apply Rmult_lt_0_compat; [lra|]. apply pow_lt; auto. }
  assert (HM : 0 < MSH_RSUN2) by (unfold MSH_RSUN2; lra).
  unfold spot_solid_angle, spot_angular_radius. rewrite E. change (nmul (Fin a) (Fin MSH_RSUN2)) with (Fin (a * MSH_RSUN2)).
  unfold ndiv. destruct (Req_EM_T _ 0); [lra|].
  set (y := a * MSH_RSUN2 / (2 * PI * Rs^2)). set (y0 := m * MSH_RSUN2 / (2 * PI * Rs^2)).
  assert (Y : 0 < y0 <= y).
  { unfold y, y0, Rdiv. split. apply Rmult_lt_0_compat. nra. apply Rinv_0_lt_compat; auto.
    apply Rmult_le_compat_r. left; apply Rinv_0_lt_compat; auto. nra. }
  cbn [nsub nadd nneg nacos]. fold y. destruct (Rle_dec (-1) (1 + - y)); [|left; reflexivity]. destruct (Rle_dec (1 + - y) 1); [|exfalso; lra].
  right. simpl. eexists. split. reflexivity. set (th := acos (1 + - y)).
  assert (B : 0 <= th <= PI) by apply acos_bound. destruct (cap_disc th B) as [_ CD].
  unfold th in CD at 1. rewrite cos_acos in CD by lra.
  assert (C2 : 2 * y <= th^2). { assert (PI * (2 * y) <= PI * th^2) by lra. apply Rmult_le_reg_l with PI; auto. }
  replace (th * (180 / PI) * (th * (180 / PI)) * PI) with (th^2 * (180/PI)^2 * PI) by ring.
  apply Rmult_le_compat_r. lra. apply Rmult_le_compat_r. apply pow2_ge_0. lra.
Qed.
Lemma loop_ends : forall St (np : numpy St) g B Rs, numpy_ok np -> (forall s, ready np 1 s) -> (forall s, - B <= fst (np_normal np s)) ->
  healthy_spotgen g -> sg_decay g = Fin 0 -> 0 < Rs ->
  forall target e, e = 2 * (least g B * MSH_RSUN2 / (2 * PI * Rs^2)) * (180/PI)^2 * PI ->
  forall k om s, target - om <= INR k * e ->
  exists rf fuel, fst (s_mature_loop np g Rs (Fin target) rf fuel (Fin om) s) <> Raise OutOfDraws.
Proof.
  intros St np g B Rs OK HR HB HG HD HRs target e He k. induction k as [|k IH]; intros om s Hk.
  - exists O, O. simpl. rewrite (proj2 (Rltb_false om target)). discriminate. simpl in Hk. lra.
  - destruct (one_ends St np g B s OK HR HB HG HD) as [f1 [x [s1 [a [E [EA LA]]]]]].
    pose proof (least_pos g B HG) as LP.
    assert (NX : exists rf fuel, fst (s_mature_loop np g Rs (Fin target) rf fuel (nadd (Fin om) (spot_solid_angle x Rs)) s1) <> Raise OutOfDraws).
    { destruct (angle_least x Rs a (least g B) HRs EA ltac:(split; auto)) as [N|[w [N W]]]; rewrite N.
      - exists O, O. simpl. discriminate.
      - simpl nadd. apply IH. rewrite <- He in W. rewrite S_INR in Hk. lra. }
    destruct NX as [rf [fuel NX]]. exists (Nat.max f1 rf), (S fuel). cbn [s_mature_loop].
    destruct (nlt (Fin om) (Fin target)); [|discriminate]. unfold sbind.
    rewrite (one_extends _ np g f1 (Nat.max f1 rf) ltac:(lia) s) by (rewrite E; discriminate). rewrite E.
    pose proof (loop_extends _ np g Rs (Fin target) rf (Nat.max f1 rf) fuel fuel (nadd (Fin om) (spot_solid_angle x Rs)) ltac:(lia) ltac:(lia) s1 NX) as Q.
    rewrite Q. destruct (s_mature_loop _ _ _ _ _ _ _ _) as [[r|ex] s2]; simpl in *. discriminate. intros Y. apply NX. congruence.
Qed.
Lemma nat_above : forall x, exists k, x < INR k.
Proof.
  intros x. exists (Z.to_nat (up x)). destruct (archimed x) as [A _]. destruct (Z_le_gt_dec 0 (up x)) as [P|P].
  - rewrite INR_IZR_INZ, Z2Nat.id by auto. lra.
  - apply Rlt_le_trans with (IZR (up x)). lra. apply Rle_trans with 0. apply IZR_le. lia. apply pos_INR.
Qed.
Lemma call_ends : forall St (np : numpy St) B s c st, numpy_ok np -> (forall n s, ready np n s) -> (forall s, - B <= fst (np_normal np s)) ->
  healthy s -> sensible_call s c -> ends_call s c ->
  exists fuel, fst (rcall_star np fuel s c st) <> Raise OutOfDraws.
Proof.
  intros St np B s c st OK HR HB H K E.
  assert (D : ~ searches c -> exists fuel, fst (rcall_star np fuel s c st) <> Raise OutOfDraws).
  { intros N. exists O. destruct (call_healthy _ np O s c st OK H K) as [[s' [X _]]|[_ X]]; [rewrite X; discriminate|contradiction]. }
  destruct c; try (apply D; simpl; auto; fail).
  - cbn [rcall_star]. unfold sbind, s_birth_spots, sbind, slift. pose proof (expected_no_fuel (st_spotgen s) time (st_radius s)) as X.
    destruct (sg_n_expected _ _ _) as [ne|e]. 2:{ exists O. simpl. intros Y; congruence. }
    destruct (s_poisson np ne st) as [[n|e] s1] eqn:P.
    2:{ exists O. simpl. unfold s_poisson, poisson in P. intros Y. inversion Y; subst. destruct ne; try discriminate.
        destruct (Rlt_dec _ _); try discriminate. destruct (Req_EM_T _ _); try discriminate. destruct (np_poisson _ _ _); discriminate. }
    destruct (generate_ends _ np (st_spotgen s) n s1 (HR n)) as [fuel G]. exists fuel.
    destruct (s_generate_spots _ _ _ _ s1) as [[l|e] s2]; simpl in *. discriminate. intros Y; congruence.
  - destruct K as [KD [c [-> Hc]]]. cbn [rcall_star ends_call] in *. unfold s_generate_mature.
    replace (ngt (Fin c) (Fin 1) || nlt (Fin c) (Fin 0))%bool with false.
    2:{ unfold ngt. simpl. rewrite (proj2 (Rltb_false 1 c)), (proj2 (Rltb_false c 0)) by lra. reflexivity. }
    simpl nmul. set (T := 4 * PI * c * ((180/PI)^2)).
    change (180 / PI * (180 / PI * 1)) with ((180/PI)^2). fold T.
    pose proof (least_pos (st_spotgen s) B (h_spotgen s H)) as LP. pose proof PI_RGT_0 as PP. pose proof (h_radius s H) as HRs.
    remember (2 * (least (st_spotgen s) B * MSH_RSUN2 / (2 * PI * (st_radius s)^2)) * (180/PI)^2 * PI) as e eqn:Ee.
    assert (e0 : 0 < e).
    { rewrite Ee. assert (0 < MSH_RSUN2) by (unfold MSH_RSUN2; lra).
      assert (0 < (180/PI)^2). { apply pow_lt. apply Rdiv_lt_0_compat; lra. }
      apply Rmult_lt_0_compat; auto. apply Rmult_lt_0_compat; auto. apply Rmult_lt_0_compat. lra.
      apply Rdiv_lt_0_compat. apply Rmult_lt_0_compat; auto. apply Rmult_lt_0_compat. lra. apply pow_lt; auto. }
    destruct (nat_above (T / e)) as [k Hk].
    destruct (loop_ends _ np (st_spotgen s) B (st_radius s) OK (HR 1%nat) HB (h_spotgen s H) E HRs T e Ee k 0 st) as [rf [fuel L]].
    { rewrite Rminus_0_r. left. apply Rmult_lt_reg_r with (/ e). apply Rinv_0_lt_compat; auto. rewrite Rmult_assoc, Rinv_r, Rmult_1_r by lra. unfold Rdiv in Hk. lra. }
    exists (Nat.max rf fuel). unfold sbind.
    rewrite (loop_extends _ np (st_spotgen s) (st_radius s) (Fin T) rf (Nat.max rf fuel) fuel (Nat.max rf fuel) (Fin 0) ltac:(lia) ltac:(lia) st L).
    destruct (s_mature_loop _ _ _ _ _ _ _ _) as [[r|ex] s2]; simpl in *. discriminate. intros Y. apply L. congruence.
Qed.
Lemma C121_ends_lemma :
  forall (St : Type) (np : numpy St) B h st prog, numpy_ok np -> (forall n s, ready np n s) -> (forall s, - B <= fst (np_normal np s)) ->
  (forall i, healthy (rs_star (st i))) ->
  (forall i c, In (i, c) prog -> sensible_call (rs_star (st i)) c /\ ends_call (rs_star (st i)) c) ->
  exists fuel h' st' log, rrun np fuel h st prog = (h', st', log) /\ (forall i e, In (i, e) log -> e = None).
Proof.
  intros St np B h st prog OK HR HB. revert h st. induction prog as [|[i c] prog IH]; intros h st H K.
  - exists O. do 3 eexists. split. reflexivity. intros i e [].
  - destruct (K i c (or_introl eq_refl)) as [K1 K2].
    destruct (rexec_eq _ np h (st i) c) as [l EX].
    destruct (call_ends _ np B (rs_star (st i)) c (h l) OK HR HB (H i) K1 K2) as [f1 F1].
    destruct (call_healthy _ np f1 (rs_star (st i)) c (h l) OK (H i) K1) as [[s' [X [Y Z]]]|[X _]]; [|congruence].
    set (h1 := fun k => if Nat.eqb k l then snd (rcall_star np f1 (rs_star (st i)) c (h l)) else h k).
    set (x1 := with_star (st i) (Ok s')).
    assert (P : forall j, healthy (rs_star (if Nat.eqb j i then x1 else st j)) /\ same_body (rs_star (st j)) (rs_star (if Nat.eqb j i then x1 else st j))).
    { intros j. destruct (Nat.eqb_spec j i) as [->|_]; simpl; auto. split; auto. apply same_body_refl. }
    destruct (IH h1 (fun k => if Nat.eqb k i then x1 else st k)) as [f2 [h2 [st2 [log2 [R2 N2]]]]].
    { intros j. apply P. }
    { intros j d Hj. destruct (K j d (or_intror Hj)) as [Q1 Q2]. split.
      eapply sensible_call_body; eauto. apply P. eapply ends_call_body; eauto. apply P. }
    exists (Nat.max f1 f2), h2, st2, ((i, None) :: log2). split.
    + cbn [rrun]. rewrite EX. rewrite (call_extends _ np f1 (Nat.max f1 f2) (rs_star (st i)) c ltac:(lia) (h l) F1).
      rewrite X. simpl outcome. fold h1. fold x1.
      rewrite (C121_fuel_lemma _ np f2 (Nat.max f1 f2) h1 _ prog h2 st2 log2 ltac:(lia) R2). reflexivity.
      intros j Hj. apply N2 in Hj. discriminate.
    + intros j e [Q|Q]. congruence. eapply N2; eauto.
Qed.
