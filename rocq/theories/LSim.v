(** Lemmas for C80: simulating and observing a healthy star *)
From Coq Require Import Reals ZArith Bool List Lra Lia.
From Coq Require Classical_Prop.
From Verif Require Import Num Py MConfig MHelpers MGrid MSpots MFaculae MFlares MGranules MStar MHeap
  Spec SpecStar SpecFlare SpecDisk SpecFrame SpecSim LBase LGrid LHelpers LSpotMap LSpotAge LSpotGen LFac LFlareGen LStar LFrame LStarCov LObserve.
Import ListNotations.
Open Scope R_scope.

Lemma healthy_area : forall x a b, healthy_spot x -> (b = true -> 0 < a) -> healthy_spot (spot_with_area x (Fin a) b).
Proof. intros x a b [T D G W M A] H. constructor; auto. exists a. split; auto. Qed.
Lemma age_healthy : forall x t, healthy_spot x -> exists x', spot_age x (Fin t) = Ok x' /\ healthy_spot x'.
Proof.
  intros x t H. pose proof H as [T D [g [Hg g0]] [w Hw] [M [HM M0]] [a [Ha a0]]].
  destruct (sp_growing x) eqn:G.
  - specialize (a0 eq_refl). unfold spot_age. rewrite G, D, Ha, HM, Hg, Hw. simpl Z.eqb. simpl negb. cbv beta iota.
    rewrite nadd_fin, nln_fin by lra. cbn [neq]. destruct (Reqb (ln (g + 1)) 0) eqn:E; rb.
    + unfold ngt. cbn [nlt]. rewrite nmul_fin, nexp_fin, nmul_fin. eexists. split; [reflexivity|].
      apply healthy_area; auto. intros _. apply Rmult_lt_0_compat; auto. apply exp_pos.
    + rewrite ndiv_fin by lra. rewrite nln_fin by (apply Rdiv_lt_0_compat; lra). rewrite ndiv_fin by auto.
      unfold ngt. cbn [nlt]. destruct (Rltb t _).
      * rewrite nmul_fin, nexp_fin, nmul_fin. eexists. split; [reflexivity|].
        apply healthy_area; auto. intros _. apply Rmult_lt_0_compat; auto. apply exp_pos.
      * rewrite nsub_fin, nmul_fin. cbn [nlt]. destruct (Rltb M _); rewrite ?nsub_fin; eexists; (split; [reflexivity|]);
          apply healthy_area; auto; discriminate.
  - rewrite (spot_age_decay x a M g w t) by (auto; split; auto; split; auto; split; auto; split; auto).
    destruct (Rlt_dec _ _); eexists; (split; [reflexivity|]); apply healthy_area; auto; discriminate.
Qed.
Lemma sc_age_healthy : forall c t, (forall x, In x (sc_spots c) -> healthy_spot x) ->
  exists c', sc_age c (Fin t) = Ok c' /\ forall x, In x (sc_spots c') -> healthy_spot x.
Proof.
  intros c t H. unfold sc_age.
  assert (E : exists l, mapM (fun s => spot_age s (Fin t)) (sc_spots c) = Ok l /\ forall x, In x l -> healthy_spot x).
  { induction (sc_spots c) as [|y l IH]. exists []. split; [reflexivity|]. intros x K; destruct K.
    cbn [mapM]. destruct (age_healthy y t (H y ltac:(left; auto))) as [y' [-> Hy]]. cbn [bind].
    destruct IH as [l' [-> Hl]]. intros; apply H; right; auto. cbn [bind]. eexists. split; [reflexivity|].
    intros x [<-|I]; auto. }
  destruct E as [l [-> Hl]]. cbn [bind]. eexists. split; [reflexivity|]. intros x I. unfold sc_clean in I. cbn [sc_spots] in I.
  apply filter_In in I. apply Hl. apply I.
Qed.

Lemma fac_age_healthy : forall f t, 0 <= t -> healthy_fac f -> healthy_fac (fac_age f (Fin t)).
Proof.
  intros f t Ht [[r [rm [L [S [Hr HL]]]]] Tn]. destruct C29_lemma as [Q1 Q2].
  assert (E : exists r' b, fac_aged f (fac_age f (Fin t)) r' b).
  { destruct (Q1 f r rm L t S Hr HL Ht) as [X Y]. destruct (fc_growing f).
    - destruct (X eq_refl) as [b [Z _]]. eauto.
    - eauto. }
  destruct E as [r' [b [_ [_ [E3 [_ [E5 [_ [E7 [E8 [E9 [E10 [E11 _]]]]]]]]]]]]].
  constructor.
  - destruct (Q2 f [t]) as [_ W]. exists r, rm, L; auto. intros x [<-|[]]; auto. discriminate.
    cbn [rsum fold_right] in W. rewrite Rplus_0_r in W. exact W.
  - rewrite E3, E5, E7, E8, E9, E10, E11. exact Tn.
Qed.

(** ** births *)
Lemma with_coverage : forall g c, sg_coverage g = Fin c -> sg_with_coverage g (Fin c) = g.
Proof. intros [] c H. cbn in *. subst. reflexivity. Qed.
Lemma fg_coverage_same : forall g c, fg_coverage g = Fin c -> fg_with_coverage g (Fin c) = g.
Proof. intros [] c H. cbn in *. subst. reflexivity. Qed.
Lemma newborn_healthy : forall g n d fuel l, healthy_spotgen g -> sg_growth_dim g = (-1)%Z ->
  sg_generate g n d fuel = Ok l -> forall x, In x l -> healthy_spot x.
Proof.
  intros g n d fuel l [_ _ [Tu Tp] _ [M [A [r [W [HM [HA [Hr [HW [HA0 [Hr0 _]]]]]]]]]]] D H x I.
  destruct C25_lemma as [Q _]. destruct (Q g n d fuel l H) as [L [k [_ [_ P]]]].
  destruct (In_nth _ _ x I) as [i [Hi E]]. rewrite L in Hi. destruct (P i x Hi) as [[N1 [N2 [N3 [N4 [N5 [N6 [N7 _]]]]]]] [_ [_ [_ MX]]]].
  rewrite E in *. destruct (MX M HM ltac:(lra)) as [a [Ea [a0 _]]]. constructor.
  - unfold fin_temps. rewrite N3, N4. auto.
  - congruence.
  - exists r. rewrite N5. split; auto. lra.
  - exists W. congruence.
  - exists a. auto.
  - exists A. rewrite N2. split; auto. intros; lra.
Qed.
Lemma birth_healthy : forall g t Rs n d fuel, healthy_spotgen g -> 0 <= t -> 0 < Rs ->
  ((exists l, sg_birth g (Fin t) Rs n d fuel = Ok l /\ forall x, In x l -> healthy_spot x)
   \/ sg_birth g (Fin t) Rs n d fuel = Raise OutOfDraws)
  /\ ((exists k, (k <= fuel)%nat /\ forall i, (i < n)%nat -> 0 < d_ratio d k i) -> sg_birth g (Fin t) Rs n d fuel <> Raise OutOfDraws).
Proof.
  intros g t Rs n d fuel H Ht HR. pose proof H as [Sg Ds _ [c [Hc c0]] [M [A [r [W [HM [HA [Hr [HW [HA0 [Hr0 K]]]]]]]]]]].
  destruct C26_lemma as [Q1 [Q2 _]]. destruct K as [->|[W0 [r0 D]]].
  - destruct (Q2 g M c t Rs n d fuel HM ltac:(lra) HW Hc Sg Ds) as [_ E]. rewrite E. split; [|discriminate].
    left. exists []. split; auto. intros x [].
  - assert (P : sg_params g M A r W) by (repeat (split; auto)).
    destruct (Q1 g M A r W Rs P HA0 r0 W0 HR) as [k [k0 [E _]]]. specialize (E c t). rewrite with_coverage in E by auto.
    unfold sg_birth. rewrite E. cbn [bind]. assert (0 <= k * c * t) by (apply Rmult_le_pos; auto; apply Rmult_le_pos; lra).
    assert (PO : exists n', poisson (Fin (k * c * t)) n = Ok n' /\ (n' <= n)%nat).
    { unfold poisson. destruct (Rlt_dec _ _); [lra|]. destruct (Req_EM_T _ _); eexists; split; eauto. lia. }
    destruct PO as [n' [-> Hn]]. cbn [bind]. split.
    + destruct (sg_generate g n' d fuel) as [l|e] eqn:G.
      * left. exists l. split; auto. eapply newborn_healthy; eauto.
      * right. destruct C25_lemma as [_ [_ [_ Q]]]. destruct (Q g n' d fuel e G) as [->| ->]; auto.
        exfalso. unfold sg_generate in G. rewrite (proj2 (Rltb_false _ _) Sg) in G.
        assert (C : forall i, exists ll, sg_coords g d i = Ok ll).
        { intros i. unfold sg_coords. destruct (sg_dist g); eauto. congruence. }
        destruct (redraw_ratio fuel 0 d n') as [k'|e] eqn:RR; cbn [bind] in G.
        -- destruct (C 0%nat) as [ll El]. rewrite El in G. cbn [bind] in G.
           apply mapM_raise in G. destruct G as [i [_ G]]. destruct (C i) as [ll' El']. rewrite El' in G. discriminate.
        -- injection G as ->. clear - RR. revert RR. generalize 0%nat as j. induction fuel; intros j RR; cbn [redraw_ratio] in RR;
             destruct (existsb _ _); try discriminate. eapply IHfuel; eauto.
    + intros [k' [Hk Pk]]. destruct C25_lemma as [_ [Q _]]. destruct (Q g n' d fuel k' Sg Ds Hk) as [l ->]; [|discriminate].
      intros; apply Pk; lia.
Qed.
Lemma mature_healthy : forall g c Rs draws rf fuel l, healthy_spotgen g -> sg_growth_dim g = (-1)%Z ->
  (forall i, 0 <= snd (draws i) <= 1) ->
  sg_generate_mature g (Fin c) Rs draws rf fuel = Ok l -> forall x, In x l -> healthy_spot x.
Proof.
  intros g c Rs draws rf fuel l H D HU E x I. pose proof H as [_ _ _ _ [M [A [r [W [HM [HA [Hr [HW [HA0 [Hr0 K]]]]]]]]]]].
  destruct C28_lemma as [_ [_ [_ [Q _]]]]. destruct (Q g c Rs draws rf fuel l E) as [_ [_ P]].
  destruct (In_nth _ _ x I) as [i [Hi Ei]]. destruct (P i x Hi) as [_ [s0 [G0 [NB [P1 P2]]]]]. rewrite Ei in *.
  assert (H0 : healthy_spot s0) by (eapply newborn_healthy; eauto; left; auto).
  destruct K as [->|[W0 [r0 _]]].
  - destruct H0 as [T0 D0 G1 W1 [m [Hm m0]] A1]. specialize (P1 m A HW HA Hm). specialize (HU i).
    destruct P1 as [_ [_ [E3 [E4 [E5 [E6 [_ [E8 [E9 [E10 [E11 _]]]]]]]]]]]. constructor.
    + unfold fin_temps. rewrite E5, E6. exact T0.
    + congruence.
    + rewrite E9. exact G1.
    + rewrite E11. exact W1.
    + exists m. split; auto. congruence.
    + eexists. split; eauto. intros _. set (u := snd (draws i)) in *. 
      replace (A + u * (m - A)) with ((1 - u) * A + u * m) by ring.
      destruct (Req_dec u 0) as [->|N]. lra.
      assert (0 < u * m) by (apply Rmult_lt_0_compat; lra). assert (0 <= (1 - u) * A) by (apply Rmult_le_pos; lra). lra.
  - assert (Pm : sg_params g M A r W) by (repeat (split; auto)).
    specialize (P2 M A r W Pm HA0 r0 W0). destruct (age_healthy s0 (snd (draws i) * (M / W + ln (M / A) / r)) H0) as [x' [E' Hx]].
    rewrite E' in P2. injection P2 as <-. exact Hx.
Qed.
Lemma fg_birth_healthy : forall g t Rkm n d, healthy_facgen g -> 0 <= t -> 0 < Rkm ->
  exists l, fg_birth g (Fin t) Rkm n d = Ok l /\ forall f, In f l -> healthy_fac f.
Proof.
  intros g t Rkm n d [[r0 [Hr Pr]] [L [HL PL]] [S1 S2] [c [Hc c0]] [Td Tn]] Ht HR.
  destruct C34_lemma as [Q _]. destruct (Q g r0 L Rkm Hr HL Pr PL HR) as [k [k0 [E _]]]. specialize (E c t).
  rewrite fg_coverage_same in E by auto. unfold fg_birth. rewrite E.
  assert (0 <= k * c * t) by (apply Rmult_le_pos; auto; apply Rmult_le_pos; lra).
  assert (PO : exists n', poisson (Fin (k * c * t)) n = Ok n').
  { unfold poisson. destruct (Rlt_dec _ _); [lra|]. destruct (Req_EM_T _ _); eauto. }
  destruct PO as [n' ->]. cbn [bind]. eexists. split; [reflexivity|]. intros f I.
  destruct (C35_lemma g n' d r0 L Hr HL Pr PL S1 S2) as [Ln [P _]]. destruct (In_nth _ _ f I) as [i [Hi Ei]]. rewrite Ln in Hi.
  destruct (P i f Hi) as [rm [lf [_ [_ [_ [Wf [_ [_ [_ [_ [E1 [E2 [E3 [E4 [E5 [E6 _]]]]]]]]]]]]]]]].
  rewrite Ei in *. constructor; auto. rewrite E1, E2, E3, E4, E5, E6. split; auto.
  destruct Tn as [a [b [e [p [q [X1 [X2 [X3 [X4 [X5 X6]]]]]]]]]]. exists a, b, e, p, q. repeat (split; auto).
Qed.

(** ** one call, and many *)
Lemma healthy_body : forall s s', healthy s -> same_body s s' -> star_unified s' ->
  (forall x, In x (sc_spots (st_spots s')) -> healthy_spot x) ->
  (forall f, In f (fcc_facs (st_facs s')) -> healthy_fac f) -> healthy s'.
Proof.
  intros s s' [] [B1 [B2 [_ [B4 [B5 [B6 [B7 [B8 [B9 B10]]]]]]]]] U HS HF. constructor; auto; try congruence.
  - unfold ld_positive in *. rewrite B9, B10. auto.
  - rewrite B5. auto.
Qed.
Lemma exec_healthy : forall s c, healthy s -> sensible s c ->
  ((exists s', vexec s c = Ok s' /\ healthy s' /\ same_body s s') \/ vexec s c = Raise OutOfDraws)
  /\ (prompt c -> vexec s c <> Raise OutOfDraws).
Proof.
  intros s c H Hc. pose proof H as [U F HR LP HT HD HS HF HG HFG HL]. 
  destruct (C68_lemma s U) as [Q1 [Q2 [Q3 [Q4 [Q5 [Q6 Q7]]]]]].
  assert (Fin' : forall s', star_step s s' -> same_body s s' ->
     (forall x, In x (sc_spots (st_spots s')) -> healthy_spot x) ->
     (forall f, In f (fcc_facs (st_facs s')) -> healthy_fac f) -> healthy s').
  { intros s' St B A1 A2. apply (healthy_body s); auto. apply (star_step_unified s s' St U). }
  destruct c; cbn [vexec sensible prompt] in *.
  - destruct Hc as [t [-> Ht]]. destruct (sc_age_healthy (st_spots s) t HS) as [c' [E Hc']]. specialize (Q1 (Fin t)).
    rewrite E in Q1. destruct Q1 as [s' [E' [B [_ [E1 E2]]]]]. rewrite E'. split; [|discriminate]. left. exists s'. split; auto. split; auto.
    apply Fin'; auto. econstructor; eauto. rewrite E1; auto. rewrite E2. intros f I. unfold fcc_age, fcc_clean in I. cbn [fcc_facs] in I.
    apply filter_In in I. destruct I as [I _]. apply in_map_iff in I. destruct I as [y [<- I]]. apply fac_age_healthy; auto.
  - split; [|discriminate]. left. destruct (Q2 l) as [B [_ [E1 E2]]]. intros x I; apply Hc; auto. eexists. split; [reflexivity|]. split; auto.
    apply Fin'; auto. apply step_add_spot. intros x I; apply Hc; auto. rewrite E2. intros x I. apply in_app_or in I. destruct I; auto. apply Hc; auto.
    all: rewrite ?E1; auto.
  - assert (E : exists s', star_add_fac s l = Ok s' /\ fcc_facs (st_facs s') = fcc_facs (st_facs s) ++ l).
    { unfold star_add_fac, fcc_add. assert (GG : fcc_grid (st_facs s) = st_grid s) by apply U.
      assert (M : mapM (fun f => do same <- grid_eq (fc_grid f) (Some (fcc_grid (st_facs s))) ;;
                 Ok (if same then f else fac_assign_grid f (fcc_grid (st_facs s)))) l = Ok l).
      { rewrite GG. clear - Hc. induction l as [|f l IH]; auto. cbn [mapM]. rewrite (proj2 (Hc f ltac:(left; auto))).
        rewrite IH by (intros; apply Hc; right; auto). destruct (st_grid s); cbn; rewrite ?Nat.eqb_refl; reflexivity. }
      rewrite M. cbn [bind]. eexists. split; reflexivity. }
    destruct E as [s' [E E']]. rewrite E. split; [|discriminate]. left. exists s'. split; auto. destruct (Q3 l s' E) as [B [_ [E1 _]]]. split; auto.
    apply Fin'; auto. eapply step_add_fac; eauto. rewrite E1; auto. rewrite E'. intros f I. apply in_app_or in I. destruct I; auto. apply Hc; auto.
  - destruct Hc as [t [-> Ht]]. destruct (birth_healthy (st_spotgen s) t (st_radius s) pdraw d fuel HG Ht HR) as [X Y].
    specialize (Q4 (Fin t) pdraw d fuel). destruct (sg_birth _ _ _ _ _ _) as [l|e].
    + destruct Q4 as [s' [E' [B [_ [E1 E2]]]]]. rewrite E'. split; [|discriminate]. left. exists s'. split; auto. split; auto.
      destruct X as [[l' [X1 X2]]|X1]; [|discriminate]. injection X1 as <-.
      apply Fin'; auto. eapply step_birth_spots; eauto. rewrite E2. intros x I. apply in_app_or in I. destruct I; auto. rewrite E1; auto.
    + rewrite Q4. destruct X as [[l' [X1 X2]]|X1]; [discriminate|]. assert (e = OutOfDraws) by congruence. subst e. split; auto. intros K _. apply (Y K). reflexivity.
  - destruct Hc as [t [-> Ht]]. destruct (fg_birth_healthy (st_facgen s) t (st_radius s * SUN_KM) pdraw d HFG Ht) as [l [E Hl]].
    unfold SUN_KM; lra. specialize (Q6 (Fin t) pdraw d). rewrite E in Q6. destruct Q6 as [s' [E' [B [_ [E1 E2]]]]]. rewrite E'.
    split; [|discriminate]. left. exists s'. split; auto. split; auto. apply Fin'; auto. eapply step_birth_faculae; eauto. rewrite E1; auto.
    rewrite E2. intros f I. apply in_app_or in I. destruct I; auto.
  - destruct Hc as [D [[c [-> Hc]] Hu]]. split; [|tauto]. destruct C28_lemma as [_ [X _]].
    destruct (X (st_spotgen s) c (st_radius s) draws rfuel fuel Hc (hg_sigma _ HG) (hg_dist _ HG) D) as [[l E]|E];
      specialize (Q5 (Fin c) draws rfuel fuel); rewrite E in Q5; auto.
    destruct Q5 as [s' [E' [B [_ [E1 E2]]]]]. left. exists s'. split; auto. split; auto. apply Fin'; auto. eapply step_mature; eauto.
    rewrite E2. intros x I. apply in_app_or in I. destruct I; auto. eapply mature_healthy; eauto. rewrite E1; auto.
  - destruct Hc as [Ht Hd]. assert (E : exists l, generate_flare_series (st_flaregen s) time pdraw d = Ok l).
    { destruct HL as [->|[em He]]. eexists; apply C44_off_lemma. destruct (C44_lemma _ em time pdraw d He Hd Ht) as [l [E _]]. eauto. }
    destruct E as [l E]. specialize (Q7 time pdraw d). rewrite E in Q7. destruct Q7 as [s' [E' [B [E1 [E2 _]]]]]. rewrite E'.
    split; [|discriminate]. left. exists s'. split; auto. split; auto. apply Fin'; auto. eapply step_flares; eauto. rewrite E1; auto. rewrite E2; auto.
Qed.
Lemma sensible_body : forall s s' c, same_body s s' -> sensible s c -> sensible s' c.
Proof.
  intros s s' c [_ [_ [_ [G [_ [SG _]]]]]] H. destruct c; cbn [sensible] in *; auto; rewrite ?G, ?SG; auto.
Qed.
Lemma same_body_trans : forall a b c, same_body a b -> same_body b c -> same_body a c.
Proof. unfold same_body. intros a b c H K. decompose [and] H. decompose [and] K. repeat (split; try congruence). Qed.
Lemma C80_run_lemma : forall s cs, healthy s -> (forall c, In c cs -> sensible s c) ->
  ((exists s', vrun s cs = Ok s' /\ healthy s' /\ same_body s s') \/ vrun s cs = Raise OutOfDraws)
  /\ ((forall c, In c cs -> prompt c) -> vrun s cs <> Raise OutOfDraws).
Proof.
  intros s cs. revert s. induction cs as [|c cs IH]; intros s H Hc; cbn [vrun].
  - split; [|discriminate]. left. exists s. split; auto. split; auto. unfold same_body. repeat split.
  - destruct (exec_healthy s c H (Hc c ltac:(left; auto))) as [[[s1 [E [H1 B]]]|E] P]; rewrite E in *; cbn [bind].
    + destruct (IH s1 H1) as [X Y]. intros; apply (sensible_body s); auto; apply Hc; right; auto.
      split; [|intros K; apply Y; intros; apply K; right; auto].
      destruct X as [[s2 [X1 [X2 X3]]]|X]; auto. left. exists s2. split; auto. split; auto. eapply same_body_trans; eauto.
    + split; auto. intros K. apply P. apply K. left; auto.
Qed.

(** ** observing *)
Lemma rhe_apart : forall x y, 1 < Rabs (x - y) -> rhe x <> rhe y.
Proof.
  intros x y H E. pose proof (proj1 (rhe_spec x)) as A. pose proof (proj1 (rhe_spec y)) as B. rewrite E in *.
  unfold Rabs in *. repeat destruct (Rcase_abs _); lra.
Qed.
Lemma healthy_drawable : forall lat0 lon0 f, healthy_fac f -> cos_sep lat0 lon0 (fc_lat f) (fc_lon f) <> 0 -> drawable lat0 lon0 f.
Proof.
  intros lat0 lon0 f [[r [rm [L [[S1 [S2 S3]] [Hr HL]]]]] [[d [Hd d0]] [a [b [c [p [q [X1 [X2 [X3 [X4 [X5 X6]]]]]]]]]]]] N.
  exists r, d, a, b, c, p, q, (rhe (wall_diff r p q)), (rhe (floor_diff r a b c)).
  split. repeat (split; auto). split. lra. split. auto. split. reflexivity. split. reflexivity. split; auto.
  apply rhe_apart. apply X6. lra. exists rm. split; auto. lra.
Qed.
Lemma C80_observe_lemma : forall s lat0 lon0 orbit planet phase incl, healthy s -> - PI/2 <= lat0 <= PI/2 ->
  (forall f, In f (fcc_facs (st_facs s)) -> cos_sep lat0 lon0 (fc_lat f) (fc_lon f) <> 0) ->
  0 <= orbit -> 0 <= planet -> (planet <= st_radius s \/ cos phase <= 0) ->
  exists M, add_faculae_to_map s lat0 lon0 = Ok M /\
  forall f,
    (exists tot cov pf, calc_coverage s lat0 lon0 (Fin f) orbit planet phase incl = Ok (tot, cov, Fin pf) /\ 0 <= pf <= 1)
    \/ (calc_coverage s lat0 lon0 (Fin f) orbit planet phase incl = Raise KeyError
        /\ exists T, st_teff s = Fin T /\ ~ appears (st_grid s) M T /\ gr_dteff (st_gran s) <> Fin 0).
Proof.
  intros s lat0 lon0 orbit planet phase incl H HL HF HO HP HC. pose proof H as [U G HR LP [T HT] [D HD] HS HFa _ _ _].
  destruct (C71_lemma s lat0 lon0 orbit planet phase incl T D U G HR LP HT HD) as [A [M [C [pf [V [B [DP K]]]]]]]; auto.
  { intros x I. apply HS; auto. }
  { intros f I. apply healthy_drawable; auto. }
  exists M. split. apply V. intros f.
  destruct (C52_keyerror_lemma s lat0 lon0 orbit planet phase incl T D A M C (Fin pf) f V ltac:(lra)) as [Y Z].
  destruct (Classical_Prop.classic (exists t, listed s M T D t /\ fmt2 (Fin t) = fmt2 (Fin T))) as [X|X].
  - left. destruct (Y X) as [tot [cov E]]. exists tot, cov, pf. auto.
  - right. split. apply Z. intros t I E. apply X. exists t. auto.
    exists T. split; auto. split. intros Q. apply X. exists T. split; auto. left; auto.
    intros Q. rewrite Q in HD. injection HD as <-. apply X. exists T. split; auto. right. lra.
Qed.

(** ** building *)
Lemma healthy_spot_grid : forall x g, healthy_spot x -> healthy_spot (spot_assign_gridmaker (spot_set_gridmaker x g) g).
Proof. intros x g []. constructor; auto. Qed.
Lemma healthy_fac_grid : forall f g, healthy_fac f -> healthy_fac (fac_assign_grid (fac_assign_grid f g) g).
Proof. intros x g []. constructor; auto. Qed.
Lemma C80_init_lemma : forall teff radius period spots facs gp flg spg fcg gran u1 u2 g,
  grid_new gp = Ok g -> fine_grid g -> is_fin teff -> 0 < radius ->
  (forall mu, 0 < mu <= 1 -> 0 < 1 - u1 * (1 - mu) - u2 * (1 - mu)^2) ->
  (forall x, In x (sc_spots spots) -> healthy_spot x) -> (forall f, In f (fcc_facs facs) -> healthy_fac f) ->
  (match flg with Some l => l = lg_off \/ exists em, flaregen_ok l em | None => True end) ->
  (match spg with Some x => healthy_spotgen x | None => True end) ->
  (match fcg with Some x => healthy_facgen x | None => True end) ->
  (match gran with Some x => is_fin (gr_dteff x) | None => True end) ->
  exists s, star_init teff radius period spots facs gp flg spg fcg gran u1 u2 = Ok s /\ healthy s /\ st_grid s = g.
Proof.
  intros teff radius period spots facs gp flg spg fcg gran u1 u2 g HG FG HT HR HL HS HF H1 H2 H3 H4.
  destruct (star_init teff radius period spots facs gp flg spg fcg gran u1 u2) as [s|] eqn:E.
  2:{ unfold star_init in E. rewrite HG in E. discriminate. }
  destruct (star_init_unified _ _ _ _ _ _ _ _ _ _ _ _ _ E) as [G U]. rewrite HG in G. injection G as G.
  exists s. split; auto. split; auto. unfold star_init in E. rewrite HG in E. cbn [bind] in E. injection E as <-.
  constructor; auto; cbn [st_grid st_radius st_u1 st_u2 st_teff st_gran st_spots st_facs st_spotgen st_facgen st_flaregen] in *.
  - destruct gran; auto. eexists; reflexivity.
  - intros x I. unfold set_spot_grid, sc_set_gridmaker in I. cbn [sc_spots] in I. rewrite map_map in I.
    apply in_map_iff in I. destruct I as [y [<- I]]. apply healthy_spot_grid. auto.
  - intros x I. unfold set_fac_grid, fcc_set_gridmaker in I. cbn [fcc_facs] in I. rewrite map_map in I.
    apply in_map_iff in I. destruct I as [y [<- I]]. apply healthy_fac_grid. auto.
  - destruct spg as [x|].
    + destruct H2. unfold adopt_grid. destruct (grid_ne _ _) as [[]|[]]; constructor; auto.
    + constructor; cbn [sg_off sg_logsigma sg_dist sg_teff_umbra sg_teff_pen sg_coverage sg_mean sg_init sg_growth sg_decay sg_growth_dim].
      lra. discriminate. split; eexists; reflexivity. exists 0; split; auto; lra.
      exists 10, 10, 0, 0. repeat (split; auto); lra.
  - destruct fcg as [x|].
    + destruct H3. unfold adopt_grid. destruct (grid_ne _ _) as [[]|[]]; constructor; auto.
    + constructor; cbn [fg_off fg_rpeak fg_lifepeak fg_rlogsigma fg_lifelogsigma fg_coverage fg_depth fg_fslope fg_fminrad fg_fbase fg_wslope fg_wint].
      exists 100; split; auto; lra. exists 6; split; auto; lra. split; lra. exists 0; split; auto; lra.
      split. exists 10; split; auto; lra. exists 0, 20, (-100), 0, 100. repeat (split; auto). intros r _ _. unfold wall_diff, floor_diff.
      replace (100 + 0 * r - (-100 + 0 * (r - 20))) with 200 by ring. rewrite Rabs_right; lra.
  - destruct flg; auto.
Qed.
