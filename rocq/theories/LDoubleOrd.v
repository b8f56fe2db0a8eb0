(** Lemmas for C111: relations between the entries that rounding keeps exactly *)
From Coq Require Import Reals ZArith Bool List Lra Lia Sorted Permutation Classical FunctionalExtensionality.
From Verif Require Import Num Py MConfig MHelpers MGrid MSpots MFaculae MXoflares MFlares MGranules MStar MSingle MDouble
  Spec SpecStar SpecDisk SpecSingle SpecDouble LBase LGrid LSpotMap LSpotCov LStar LDisk LStarFac LStarCov LSym LTransit LSingle LSingleRep LReport
  LDouble LDoubleSum LDoubleRep.
Import ListNotations.
Open Scope R_scope.

Lemma gr_phot_mono : forall P P' g, 0 <= g <= 1 -> P <= P' -> gr_phot P g <= gr_phot P' g.
Proof. intros P P' g G H. unfold gr_phot. apply f64_round_mono. destruct (sub_fin1 g G). nra. Qed.
Lemma gr_gran_mono : forall P P' Q Q' g, 0 <= g <= 1 -> P <= P' -> Q <= Q' -> gr_gran Q P g <= gr_gran Q' P' g.
Proof. intros P P' Q Q' g G H H'. unfold gr_gran. apply f64_round_mono. assert (f64_round (P * g) <= f64_round (P' * g)) by (apply f64_round_mono; nra). lra. Qed.
Lemma val_mono : forall o n h l p c t v v' x, weights64 n l p c -> adds o n h -> exists_weight n l p -> (forall i, (i < n)%nat -> v i <= v' i) ->
  val64 o t v (wa l p) x <= val64 o t v' (wa l p) x.
Proof.
  intros o n h l p c t v v' x W A EX H. assert (SP : 0 < rtree o (wa l p)). { eapply tree_strict; eauto. intros i I. destruct (wa_range _ _ _ _ _ W I). split; auto. lra. }
  unfold val64. apply f64_round_mono. apply Rmult_le_compat_r. left. apply Rinv_0_lt_compat; auto. apply rtree_mono. intros i I. apply (leaves_lt _ _ _ _ A) in I. specialize (H i I). unfold pick. destruct (Req_EM_T _ _); lra.
Qed.
(** both dictionaries at once *)
Lemma tot64_rel : forall o n h l p c t v v' T D g d d', weights64 n l p c -> adds o n h -> exists_weight n l p -> part64 n l p v -> part64 n l p v' -> 0 <= g <= 1 ->
  (forall i, (i < n)%nat -> v i <= v' i) -> tot64 o n l p v t T D g = Ok d -> tot64 o n l p v' t T D g = Ok d' -> at_most d d'.
Proof.
  intros o n h l p c t v v' T D g d d' W A EX PV PV' G H E E'. set (gt := f64_round (T - D)). set (gs := f32_round gt).
  assert (O : occurs64 kf n t gt gs (kf T) /\ occurs64 kf n t gt gs (kf gt)). { apply NNPP. intros N. rewrite tot64_fail in E by exact N. discriminate. }
  destruct O as [OT OG].
  destruct (tot64_ok o n h l p c t v T D g W A EX PV G OT OG) as [d1 [P [Q [E1 [K [ND [EP [EQ [RP [RQ HH]]]]]]]]]].
  destruct (tot64_ok o n h l p c t v' T D g W A EX PV' G OT OG) as [d2 [P' [Q' [E2 [K' [ND' [EP' [EQ' [RP' [RQ' HH']]]]]]]]]].
  rewrite E in E1. injection E1 as <-. rewrite E' in E2. injection E2 as <-. fold gt gs in K, K', EP, EP', EQ, EQ', HH, HH'.
  assert (KK : map fst d = map fst d'). 
  { rewrite K, K'. unfold dict64, basen. assert (F : forall V V' l d d', map fst d = map fst d' -> map fst (foldn tkey_eqb kf V l d) = map fst (foldn tkey_eqb kf V' l d')).
    { assert (F1 : forall k x y (d d' : dict tkey num), map fst d = map fst d' -> map fst (dset tkey_eqb d k x) = map fst (dset tkey_eqb d' k y)).
      { intros k x y. induction d0 as [|[a b] d0 IH]; intros [|[a' b'] d0'] Q0; cbn [map fst dset] in *; auto; try discriminate. injection Q0 as -> Q0. destruct (tkey_eqb k a'); cbn [map fst]; auto. f_equal. auto. f_equal; auto. }
      intros V V'. induction l0 as [|a l0 IH]; intros d0 d0' Q0; auto. apply (IH (dset tkey_eqb d0 (kf a) (Fin (V a))) (dset tkey_eqb d0' (kf a) (Fin (V' a)))). apply F1; auto. }
    specialize (F (val64 o t v (wa l p)) (val64 o t v' (wa l p)) (runiq (map t (seq 0 n))) [] [] eq_refl).
    assert (F1 : forall k x y (d d' : dict tkey num), map fst d = map fst d' -> map fst (dset tkey_eqb d k x) = map fst (dset tkey_eqb d' k y)).
    { intros k x y. induction d0 as [|[a b] d0 IH]; intros [|[a' b'] d0'] Q0; cbn [map fst dset] in *; auto; try discriminate. injection Q0 as -> Q0. destruct (tkey_eqb k a'); cbn [map fst]; auto. f_equal. auto. f_equal; auto. }
    destruct (newb n t gs); auto. }
  assert (BASE : forall k r r', dget tkey_eqb (dict64 o n l p v t gt gs) k = Some (Fin r) -> dget tkey_eqb (dict64 o n l p v' t gt gs) k = Some (Fin r') -> 0 <= r <= r').
  { intros k r r'. apply (dict_rel (fun r r' => 0 <= r <= r')). lra. intros x _. split. eapply val_range; eauto. eapply val_mono; eauto. }
  destruct (BASE _ _ _ EP EP') as [BP1 BP]. destruct (BASE _ _ _ EQ EQ') as [BQ1 BQ].
  split; auto. intros k y I. pose proof (in_map fst _ _ I) as Ik. cbn [fst] in Ik. rewrite KK in Ik. apply (in_keys_iff _ _ tkey_eqb_spec) in Ik. destruct Ik as [y' I'].
  apply (dget_iff _ _ tkey_eqb_spec) in I; auto. destruct (HH k y I) as [A1 [A2 [A3 A4]]]. destruct (HH' k y' I') as [B1 [B2 [B3 B4]]].
  apply (dget_iff _ _ tkey_eqb_spec) in I'; auto.
  assert (PH : 0 <= gr_phot P g <= gr_phot P' g). { split. unfold gr_phot. destruct (sub_fin1 g G). apply rnd_pos. nra. apply gr_phot_mono; auto. }
  assert (GR : forall x x', 0 <= x <= x' -> 0 <= gr_gran x P g <= gr_gran x' P' g).
  { intros x x' X. split. unfold gr_gran. apply rnd_pos. assert (0 <= f64_round (P * g)) by (apply rnd_pos; nra). lra. apply gr_gran_mono; auto. lra. }
  destruct (classic (k = kf T)) as [C1|C1]; destruct (classic (k = kf gt)) as [C2|C2].
  - rewrite (A4 C1 C2). rewrite (B4 C1 C2) in I'. eexists. eexists. split. reflexivity. split. exact I'. apply GR; auto.
  - rewrite (A2 C1 C2). rewrite (B2 C1 C2) in I'. eexists. eexists. split. reflexivity. split. exact I'. auto.
  - rewrite (A3 C1 C2). rewrite (B3 C1 C2) in I'. eexists. eexists. split. reflexivity. split. exact I'. apply GR; auto.
  - specialize (A1 C1 C2). specialize (B1 C1 C2).
    assert (Ok : occurs64 kf n t gt gs k). { apply (dict_keys (val64 o t v (wa l p))). apply (in_keys_iff _ _ tkey_eqb_spec). exists y. exact A1. }
    destruct (dict_fin (val64 o t v (wa l p)) _ _ _ _ _ Ok) as [r [Er _]]. change (dget tkey_eqb (dict64 o n l p v t gt gs) k = Some (Fin r)) in Er. rewrite A1 in Er. injection Er as ->.
    destruct (dict_fin (val64 o t v' (wa l p)) _ _ _ _ _ Ok) as [r' [Er' _]]. change (dget tkey_eqb (dict64 o n l p v' t gt gs) k = Some (Fin r')) in Er'. rewrite B1 in Er'. injection Er' as ->.
    exists r, r'. split; auto. split; auto. eapply BASE; eauto.
Qed.
Lemma split64 : forall rnd ord P n h l p c t T D g tot cov, double_rounding rnd -> inputs64 rnd ord P n h l p c T D g ->
  report64 ord (pixels P t) (pixels P l) (pixels P p) (pixels P c) (Fin T) (Fin D) (Fin g) = Ok (tot, cov) ->
  tot64 (ord n) n l p (wa l p) t T D g = Ok tot /\ tot64 (ord n) n l p (wb l p c) t T D g = Ok cov
  /\ adds (ord n) n h /\ weights64 n l p c /\ exists_weight n l p /\ 0 <= g <= 1 /\ f64_value g.
Proof.
  intros rnd ord P n h l p c t T D g tot cov DR [EP [A [N [H [W [EX [B [G VG]]]]]]]] E. pose proof (double_rounding_eq rnd DR) as ->.
  unfold pixels in E. rewrite (report64_eq ord n h) in E by auto. apply bind_ok in E. destruct E as [tot' [E E2]]. apply bind_ok in E2. destruct E2 as [cov' [E' E2]]. injection E2 as -> ->. exact (conj E (conj E' (conj A (conj W (conj EX (conj G VG)))))).
Qed.
Lemma C111_lemma : forall rnd ord P n h l p c c' t T D g tot cov tot' cov',
  double_rounding rnd -> inputs64 rnd ord P n h l p c T D g -> inputs64 rnd ord P n h l p c' T D g -> (forall i, (i < n)%nat -> c i <= c' i) ->
  report64 ord (pixels P t) (pixels P l) (pixels P p) (pixels P c) (Fin T) (Fin D) (Fin g) = Ok (tot, cov) ->
  report64 ord (pixels P t) (pixels P l) (pixels P p) (pixels P c') (Fin T) (Fin D) (Fin g) = Ok (tot', cov') ->
  at_most cov cov' /\ at_most cov' tot /\ tot' = tot
  /\ ((forall i, (i < n)%nat -> c' i = 1) -> cov' = tot) /\ ((forall i, (i < n)%nat -> c i = 0) -> forall k y, In (k, y) cov -> y = Fin 0).
Proof.
  intros rnd ord P n h l p c c' t T D g tot cov tot' cov' DR I1 I2 L E1 E2.
  destruct (split64 _ _ _ _ _ _ _ _ _ _ _ _ _ _ DR I1 E1) as [T1 [C1 [A [W [EX [G VG]]]]]]. destruct (split64 _ _ _ _ _ _ _ _ _ _ _ _ _ _ DR I2 E2) as [T2 [C2 [_ [W' _]]]].
  split. { eapply (tot64_rel (ord n) n h l p c t (wb l p c) (wb l p c')); eauto. eapply part_b; eauto. eapply part_b; eauto.
    intros i I. unfold wb. apply f64_round_mono. destruct (wa_range _ _ _ _ _ W I). specialize (L i I). nra. }
  split. { eapply (tot64_rel (ord n) n h l p c t (wb l p c') (wa l p)); eauto. eapply part_b; eauto. eapply part_a; eauto. intros i I. apply (wb_range n l p c'); auto. }
  split. { rewrite T2 in T1. congruence. } split.
  - intros U. assert (X : tot64 (ord n) n l p (wb l p c') t T D g = tot64 (ord n) n l p (wa l p) t T D g).
    { unfold tot64. cbv zeta. assert (V : val64 (ord n) t (wb l p c') (wa l p) = val64 (ord n) t (wa l p) (wa l p)).
      { apply functional_extensionality. intros x. unfold val64. do 2 f_equal. apply rtree_ext. intros i I. apply (leaves_lt _ _ _ _ A) in I. unfold pick. destruct (Req_EM_T _ _); auto.
        unfold wb. rewrite U, Rmult_1_r by auto. apply f64_round_id. eapply wa_range; eauto. }
      rewrite V. auto. }
    congruence.
  - intros Z k y I. assert (Q : at_most cov cov).
    { eapply (tot64_rel (ord n) n h l p c t (wb l p c) (wb l p c)); eauto. eapply part_b; eauto. eapply part_b; eauto. intros; lra. }
    set (gt := f64_round (T - D)). set (gs := f32_round gt).
    assert (O : occurs64 kf n t gt gs (kf T) /\ occurs64 kf n t gt gs (kf gt)). { apply NNPP. intros N. rewrite tot64_fail in C1 by exact N. discriminate. }
    destruct O as [OT OG]. destruct (tot64_ok (ord n) n h l p c t (wb l p c) T D g W A EX (part_b _ _ _ _ W) G OT OG) as [d1 [P1 [Q1 [E3 [K [ND [EP [EQ [RP [RQ HH]]]]]]]]]].
    rewrite C1 in E3. injection E3 as <-. fold gt gs in K, EP, EQ, HH.
    assert (VZ : forall x, val64 (ord n) t (wb l p c) (wa l p) x = 0).
    { intros x. unfold val64. assert (R0' : rtree (ord n) (pick t (wb l p c) x) = 0).
      { destruct (rtree_bounds (ord n) (pick t (wb l p c) x) (depth (ord n))) as [_ [B0 [_ B1]]]; auto.
        - intros i J. apply (leaves_lt _ _ _ _ A) in J. unfold pick. destruct (Req_EM_T _ _). destruct (wb_range n l p c i W J). split; auto. lra. split. apply f64_zero. lra.
        - rewrite rsum_zero in B1. lra. intros i J. apply (leaves_lt _ _ _ _ A) in J. unfold pick. destruct (Req_EM_T _ _); auto. unfold wb. rewrite Z, Rmult_0_r by auto. apply rnd0. }
      rewrite R0'. unfold Rdiv. rewrite Rmult_0_l. apply rnd0. }
    assert (BZ : forall k r, dget tkey_eqb (dict64 (ord n) n l p (wb l p c) t gt gs) k = Some r -> r = Fin 0).
    { intros k' r Hr. unfold dict64 in Hr. rewrite (basen_get _ _ tkey_eqb_spec) in Hr by apply runiq_sorted. destruct Hr as [[x [_ [_ ->]]]|[_ [_ ->]]]; auto. rewrite VZ. auto. }
    pose proof (BZ _ _ EP) as X. injection X as ->. pose proof (BZ _ _ EQ) as X. injection X as ->.
    assert (PZ : gr_phot 0 g = 0) by (unfold gr_phot; rewrite Rmult_0_l; apply rnd0). assert (GZ : gr_gran 0 0 g = 0) by (unfold gr_gran; rewrite Rmult_0_l, rnd0, Rplus_0_l; apply rnd0).
    apply (dget_iff _ _ tkey_eqb_spec) in I; auto. destruct (HH k y I) as [A1 [A2 [A3 A4]]].
    destruct (classic (k = kf T)) as [D1|D1]; destruct (classic (k = kf gt)) as [D2|D2].
    + rewrite (A4 D1 D2), PZ, GZ. auto.
    + rewrite (A2 D1 D2), PZ. auto.
    + rewrite (A3 D1 D2), GZ. auto.
    + apply (BZ k). auto.
Qed.
Lemma C111_bound_lemma : forall label rnd single ord P n h l p c t T D g tot cov,
  two_decimals label -> double_rounding rnd -> single_rounding single -> inputs64 rnd ord P n h l p c T D g ->
  report64 ord (pixels P t) (pixels P l) (pixels P p) (pixels P c) (Fin T) (Fin D) (Fin g) = Ok (tot, cov) ->
  let gt := rnd (T - D) in
  forall k y, In (k, y) tot -> exists r, y = Fin r /\ f64_value r /\ 0 <= r <= 2
    /\ (k <> label gt \/ (~ on_map n t (single gt) /\ label T <> label gt) -> r <= 1).
Proof.
  intros label rnd single ord P n h l p c t T D g tot cov TD DR SR IN E gt k y I. destruct (split64 _ _ _ _ _ _ _ _ _ _ _ _ _ _ DR IN E) as [T1 [C1 [A [W [EX [G VG]]]]]].
  pose proof (two_kf label TD) as ->. pose proof (double_rounding_eq rnd DR) as ->. pose proof (single_rounding_eq single SR) as ->.
  set (gs := f32_round gt). assert (O : occurs64 kf n t gt gs (kf T) /\ occurs64 kf n t gt gs (kf gt)). { apply NNPP. intros N. rewrite tot64_fail in T1 by exact N. discriminate. }
  destruct O as [OT OG]. destruct (tot64_ok (ord n) n h l p c t (wa l p) T D g W A EX (part_a _ _ _ _ W) G OT OG) as [d1 [P1 [Q1 [E3 [K [ND [EP [EQ [RP [RQ HH]]]]]]]]]].
  rewrite T1 in E3. injection E3 as <-. fold gt gs in K, EP, EQ, HH.
  apply (dget_iff _ _ tkey_eqb_spec) in I; auto. destruct (HH k y I) as [A1 [A2 [A3 A4]]]. destruct (sub_fin1 g G) as [_ G1].
  assert (PH : f64_value (gr_phot P1 g) /\ 0 <= gr_phot P1 g <= 1). { split. apply f64_round_value. unfold gr_phot. split. apply rnd_pos; nra. apply rnd_le1; nra. }
  assert (V2 : f64_value 2) by (apply (f64_whole 2); simpl; lia).
  assert (PG : 0 <= f64_round (P1 * g) <= 1) by (split; [apply rnd_pos|apply rnd_le1]; nra).
  assert (GR : forall x, 0 <= x <= 1 -> f64_value (gr_gran x P1 g) /\ 0 <= gr_gran x P1 g <= 2).
  { intros x X. split. apply f64_round_value. unfold gr_gran. split. apply rnd_pos; lra. rewrite <- (f64_round_id 2 V2). apply f64_round_mono. lra. }
  destruct (classic (k = kf T)) as [D1|D1]; destruct (classic (k = kf gt)) as [D2|D2].
  - eexists. split. apply A4; auto. destruct PH as [_ PH]. destruct (GR _ PH) as [B1 B2]. split; auto. split; auto. intros [X|[_ X]]; exfalso; congruence.
  - eexists. split. apply A2; auto. split. apply PH. split. lra. intros _. apply PH.
  - eexists. split. apply A3; auto. destruct (GR _ RQ) as [B1 B2]. split; auto. split; auto. intros [X|[X _]]. congruence.
    apply newb_true in X. unfold dict64 in EQ. rewrite (basen_get _ _ tkey_eqb_spec) in EQ by apply runiq_sorted. destruct EQ as [[x [[_ [_ [C|C]]] [C' _]]]|[_ [_ C]]]; try congruence.
    injection C as ->. unfold gr_gran. apply rnd_le1. lra.
  - specialize (A1 D1 D2). assert (Ok : occurs64 kf n t gt gs k). { apply (dict_keys (val64 (ord n) t (wa l p) (wa l p))). apply (in_keys_iff _ _ tkey_eqb_spec). exists y. exact A1. }
    unfold dict64 in A1. rewrite (basen_get _ _ tkey_eqb_spec) in A1 by apply runiq_sorted. destruct A1 as [[x [_ [_ ->]]]|[_ [_ ->]]].
    + eexists. split. reflexivity. split. apply f64_round_value. pose proof (val_range (ord n) n h l p c t (wa l p) x W A EX (part_a _ _ _ _ W)). split. lra. intros _. lra.
    + exists 0. split; auto. split. apply f64_zero. lra.
Qed.
Lemma C111_uniform_lemma : forall label rnd single ord P n h l p c t T D g,
  two_decimals label -> double_rounding rnd -> single_rounding single -> inputs64 rnd ord P n h l p c T D g -> (forall i, (i < n)%nat -> t i = T) ->
  single (rnd (T - D)) <> T -> label (rnd (T - D)) <> label T ->
  exists cov, report64 ord (pixels P t) (pixels P l) (pixels P p) (pixels P c) (Fin T) (Fin D) (Fin g)
    = Ok ([(label T, Fin (rnd (1 - g))); (label (rnd (T - D)), Fin g)], cov).
Proof.
  intros label rnd single ord P n h l p c t T D g TD DR SR IN U NG NL.
  pose proof (two_kf label TD) as ->. pose proof (double_rounding_eq rnd DR) as ->. pose proof (single_rounding_eq single SR) as ->.
  destruct IN as [EP [A [N [H [W [EX [B [G VG]]]]]]]]. unfold pixels. rewrite (report64_eq ord n h) by auto.
  set (gt := f64_round (T - D)) in *. set (gs := f32_round gt) in *.
  assert (NZ : (0 < n)%nat) by (destruct EX as [i [I _]]; lia).
  assert (EU : runiq (map t (seq 0 n)) = [T]).
  { assert (X : forall x, In x (runiq (map t (seq 0 n))) <-> x = T). { intros x. rewrite ul_on. split. intros [i [I <-]]; auto. intros ->. exists 0%nat. split; auto. }
    pose proof (runiq_sorted (map t (seq 0 n))) as SS. destruct (runiq (map t (seq 0 n))) as [|a [|b r]].
    - exfalso. apply (proj2 (X T) eq_refl).
    - f_equal. apply X. left; auto.
    - exfalso. inversion SS as [|? ? S1 S2]; subst. rewrite Forall_forall in S2. specialize (S2 b (or_introl eq_refl)). pose proof (proj1 (X a) (or_introl eq_refl)). pose proof (proj1 (X b) (or_intror (or_introl eq_refl))). lra. }
  assert (OT : occurs64 kf n t gt gs (kf T)). { left. exists T. split; auto. exists 0%nat. auto. }
  assert (OG : occurs64 kf n t gt gs (kf gt)). { right. split; auto. intros [i [I E]]. rewrite U in E by auto. congruence. }
  destruct (tot64_ok (ord n) n h l p c t (wb l p c) T D g W A EX (part_b _ _ _ _ W) G OT OG) as [d1 [_ [_ [-> _]]]].
  unfold tot64. fold gt gs. cbv zeta. rewrite EU. destruct (in_dec Req_EM_T gs [T]) as [[I|[]]|_]; [congruence|].
  assert (V1 : val64 (ord n) t (wa l p) (wa l p) T = 1).
  { unfold val64. assert (SP : 0 < rtree (ord n) (wa l p)). { eapply tree_strict; eauto. intros i I. destruct (wa_range _ _ _ _ _ W I). split; auto. lra. }
    replace (rtree (ord n) (pick t (wa l p) T)) with (rtree (ord n) (wa l p)). replace (_ / _) with 1 by (field; lra). apply f64_round_id, f64_one.
    apply rtree_ext. intros i I. apply (leaves_lt _ _ _ _ A) in I. unfold pick. destruct (Req_EM_T (t i) T); auto. rewrite U in n0 by auto. congruence. }
  assert (KN : tkey_eqb (kf gt) (kf T) = false). { destruct (tkey_eqb (kf gt) (kf T)) eqn:X; auto. apply tkey_eqb_spec in X. congruence. }
  assert (KS : forall k, tkey_eqb k k = true) by (intros; apply tkey_eqb_spec; auto).
  unfold basen, foldn. cbn [fold_left dset]. rewrite V1. cbn [dset]. rewrite KN. unfold granulate64, dindex. cbn [dget]. rewrite KS. cbn [bind dset]. rewrite KS. destruct (sub_fin1 g G) as [-> G1].
  cbn [dget]. rewrite KN. cbn [dget]. rewrite KS. cbn [bind dset]. rewrite KN. cbn [dset]. rewrite KS. cbn [bind].
  assert (B20 : 2 <= 2 ^ 20) by (simpl; lra).
  rewrite !mul_fin by lra. rewrite !Rmult_1_l. rewrite (f64_round_id (f64_round (1 - g))) by apply f64_round_value. rewrite (f64_round_id g) by auto.
  unfold add64. rewrite nadd_fin, Rplus_0_l. pose proof big1023. rewrite f64_fin_pos by lra. rewrite (f64_round_id g) by auto. exists d1. auto.
Qed.
