(** Spot ageing (C13-C17) *)
From Coq Require Import Reals ZArith Bool List Lra Lia Psatz.
From Verif Require Import Num Py MConfig MHelpers MGrid MSpots MFaculae Spec SpecStar LBase LGrid LHelpers.
Import ListNotations.
Open Scope R_scope.

Lemma with_area_aged : forall s a b, aged_to s (spot_with_area s (Fin a) b) a b.
Proof. intros; destruct s; unfold aged_to; simpl; repeat split. Qed.
Lemma ln1p_pos : forall g, 0 < g -> 0 < ln (1 + g).
Proof. intros. rewrite <- ln_1. apply ln_increasing; lra. Qed.
Lemma ttm_nonneg : forall A M g, 0 < A <= M -> 0 < g -> 0 <= time_to_max A M g.
Proof.
  intros. unfold time_to_max. pose proof (ln1p_pos g H0). apply le_div; auto. rewrite Rmult_0_l.
  rewrite <- ln_1. assert (1 <= M / A) by (apply le_div; lra).
  destruct (Req_dec (M / A) 1) as [->|]; [lra|]. left. apply ln_increasing; lra.
Qed.
Lemma ttm_max : forall A M g, 0 < A <= M -> 0 < g -> A * exp (ln (1 + g) * time_to_max A M g) = M.
Proof.
  intros. unfold time_to_max. pose proof (ln1p_pos g H0).
  replace (ln (1 + g) * (ln (M / A) / ln (1 + g))) with (ln (M / A)) by (field; lra).
  assert (0 < M / A) by (apply Rdiv_lt_0_compat; lra). rewrite exp_ln by auto. field. lra.
Qed.

(** ** the step, in closed form *)
Lemma spot_age_growing : forall s A M g W t, spot_params s A M g W -> sp_growing s = true ->
  0 < A <= M -> 0 < g ->
  spot_age s (Fin t) = Ok (
    if Rlt_dec t (time_to_max A M g) then spot_with_area s (Fin (A * exp (ln (1 + g) * t))) true
    else if Rlt_dec M ((t - time_to_max A M g) * W) then spot_with_area s (Fin 0) false
    else spot_with_area s (Fin (M - (t - time_to_max A M g) * W)) false).
Proof.
  intros s A M g W t [Ha [Hm [Hg [Hd Hw]]]] Hgr HA Hg0.
  unfold spot_age. rewrite Hgr, Ha, Hm, Hg, Hd, Hw. simpl Z.eqb. simpl negb. cbv beta iota.
  rewrite nadd_fin. pose proof (ln1p_pos g Hg0) as L. rewrite (Rplus_comm g 1).
  rewrite nln_fin by lra. cbn [neq]. destruct (Reqb (ln (1 + g)) 0) eqn:E; rb; [lra|].
  rewrite ndiv_fin by lra. rewrite nln_fin by (apply Rdiv_lt_0_compat; lra).
  rewrite ndiv_fin by lra. fold (time_to_max A M g). unfold ngt. cbn [nlt].
  unfold Rltb. destruct (Rlt_dec t (time_to_max A M g)).
  - rewrite nmul_fin, nexp_fin, nmul_fin. reflexivity.
  - rewrite nsub_fin, nmul_fin. cbn [nlt]. unfold Rltb.
    destruct (Rlt_dec M ((t - time_to_max A M g) * W)); auto.
Qed.
Lemma spot_age_static : forall s A M W t, spot_params s A M 0 W -> sp_growing s = true ->
  spot_age s (Fin t) = Ok (spot_with_area s (Fin A) true).
Proof.
  intros s A M W t [Ha [Hm [Hg [Hd Hw]]]] Hgr.
  unfold spot_age. rewrite Hgr, Ha, Hm, Hg, Hd, Hw. simpl Z.eqb. simpl negb. cbv beta iota.
  rewrite nadd_fin. rewrite nln_fin by lra. replace (0 + 1) with 1 by ring. rewrite ln_1. cbn [neq].
  destruct (Reqb 0 0) eqn:E; rb; [|lra]. unfold ngt. cbn [nlt].
  rewrite nmul_fin, nexp_fin, nmul_fin. rewrite Rmult_0_l, exp_0, Rmult_1_r. auto.
Qed.
Lemma spot_age_decay : forall s A M g W t, spot_params s A M g W -> sp_growing s = false ->
  spot_age s (Fin t) = Ok (
    if Rlt_dec M (t * W) then spot_with_area s (Fin 0) false
    else spot_with_area s (Fin (A - t * W)) false).
Proof.
  intros s A M g W t [Ha [Hm [Hg [Hd Hw]]]] Hgr.
  unfold spot_age. rewrite Hgr, Ha, Hm, Hw. rewrite nmul_fin. unfold ngt. cbn [nlt]. unfold Rltb.
  destruct (Rlt_dec M (t * W)); auto.
Qed.

Lemma C13_lemma : forall s A M g W t, spot_params s A M g W -> 0 < A <= M -> 0 <= g -> 0 <= t ->
  exists s', spot_age s (Fin t) = Ok s'
  /\ (sp_growing s = true -> 0 < g -> t < time_to_max A M g ->
        aged_to s s' (A * Rpower (1 + g) t) true)
  /\ (sp_growing s = true -> 0 < g -> time_to_max A M g <= t ->
        aged_to s s' (Rmax 0 (M - W * (t - time_to_max A M g))) false)
  /\ (sp_growing s = true -> g = 0 -> aged_to s s' A true)
  /\ (sp_growing s = false -> W * t <= M -> aged_to s s' (A - W * t) false)
  /\ (sp_growing s = false -> M < W * t -> aged_to s s' 0 false).
Proof.
  intros. destruct (sp_growing s) eqn:G.
  - destruct (Req_dec g 0) as [->|].
    + rewrite (spot_age_static s A M W t) by auto. eexists; split; eauto.
      split; [intros; lra|]. split; [intros; lra|]. split; [|split; intros; discriminate].
      intros. apply with_area_aged.
    + assert (0 < g) by lra. rewrite (spot_age_growing s A M g W t) by auto.
      eexists; split; eauto. split; [|split; [|split; [intros; lra|split; intros; discriminate]]]; intros.
      * destruct (Rlt_dec t (time_to_max A M g)); [|lra].
        unfold Rpower. rewrite (Rmult_comm t). apply with_area_aged.
      * destruct (Rlt_dec t (time_to_max A M g)); [lra|].
        destruct (Rlt_dec M ((t - time_to_max A M g) * W)).
        -- rewrite Rmax_left by lra. apply with_area_aged.
        -- rewrite Rmax_right by lra. rewrite (Rmult_comm W). apply with_area_aged.
  - rewrite (spot_age_decay s A M g W t) by auto. eexists; split; eauto.
    split; [intros; discriminate|]. split; [intros; discriminate|]. split; [intros; discriminate|].
    rewrite (Rmult_comm W). destruct (Rlt_dec M (t * W)); split; intros; try lra; apply with_area_aged.
Qed.

(** ** dead or alive *)
Lemma spot_dead_alive : forall s, spot_dead s = false <-> spot_alive s.
Proof.
  intros. unfold spot_dead, spot_alive. destruct (sp_growing s).
  - rewrite andb_false_r. split; auto.
  - rewrite andb_true_r. destruct (sp_area s); simpl; split; intros; auto; try discriminate.
    + right. apply Rleb_false; auto.
    + apply Rleb_false. destruct H; auto; discriminate.
    + destruct H; try discriminate; contradiction.
Qed.
Lemma filter_keeps : forall (P : spot -> Prop) f l, (forall x, f x = true <-> P x) -> keeps P l (filter f l).
Proof.
  intros. induction l; simpl. constructor. destruct (f a) eqn:E.
  constructor; auto. apply H; auto. constructor; auto. rewrite <- H, E. discriminate.
Qed.
Lemma C17_lemma : forall c,
  keeps spot_alive (sc_spots c) (sc_spots (sc_clean c)) /\ sc_grid (sc_clean c) = sc_grid c
  /\ (forall t c', sc_age c t = Ok c' -> exists aged,
        length aged = length (sc_spots c)
        /\ (forall i d, (i < length aged)%nat -> spot_age (nth i (sc_spots c) d) t = Ok (nth i aged d))
        /\ keeps spot_alive aged (sc_spots c')).
Proof.
  assert (K : forall c, keeps spot_alive (sc_spots c) (sc_spots (sc_clean c))).
  { intros. apply filter_keeps. intros. rewrite <- spot_dead_alive. destruct (spot_dead x); simpl; split; auto; discriminate. }
  intros. split; auto. split; auto. intros. unfold sc_age in H.
  apply bind_ok in H. destruct H as [l [Hl Hc]]. inversion Hc; subst. exists l.
  split. eapply mapM_length; eauto. split; [|apply (K (mkSpotColl l (sc_grid c)))].
  clear - Hl. revert l Hl. induction (sc_spots c); simpl; intros.
  - inversion Hl; subst. simpl in H; lia.
  - apply bind_ok in Hl. destruct Hl as [y [Hy Hl]]. apply bind_ok in Hl. destruct Hl as [ys [Hys Hl]].
    inversion Hl; subst. destruct i; auto. simpl in *. apply IHl; auto. lia.
Qed.

(** ** slicing *)
Definition agef (s : spot) (t : R) : spot := match spot_age s (Fin t) with Ok s' => s' | Raise _ => s end.
Lemma spot_age_ok : forall s t, spot_wf s -> spot_age s (Fin t) = Ok (agef s t).
Proof.
  intros s t [A [M [g [W [P [HA [Hg HW]]]]]]]. unfold agef. destruct (sp_growing s) eqn:G.
  - destruct (Req_dec g 0) as [->|]. rewrite (spot_age_static s A M W t) by auto; auto.
    rewrite (spot_age_growing s A M g W t) by (auto; lra). auto.
  - rewrite (spot_age_decay s A M g W t) by auto. auto.
Qed.
Lemma with_area_params : forall s A M g W a b, spot_params s A M g W ->
  spot_params (spot_with_area s (Fin a) b) a M g W.
Proof. intros. unfold spot_params in *. destruct s; simpl in *. tauto. Qed.
Lemma with_area_twice : forall s a b a' b',
  spot_with_area (spot_with_area s a b) a' b' = spot_with_area s a' b'.
Proof. reflexivity. Qed.
Lemma with_area_dead : forall s a, spot_dead (spot_with_area s (Fin a) false) = true <-> a <= 0.
Proof. intros. unfold spot_dead; simpl. rewrite andb_true_r. apply Rleb_true. Qed.
Lemma with_area_alive_false : forall s a, spot_dead (spot_with_area s (Fin a) false) = false <-> 0 < a.
Proof. intros. unfold spot_dead; simpl. rewrite andb_true_r. apply Rleb_false. Qed.
Lemma with_area_growing : forall s a, spot_dead (spot_with_area s a true) = false.
Proof. intros. unfold spot_dead; simpl. apply andb_false_r. Qed.

(** the result of a step keeps the spot sensible, unless it is dead *)
Lemma agef_wf : forall s t, spot_wf s -> 0 <= t -> spot_dead (agef s t) = false -> spot_wf (agef s t).
Proof.
  intros s t [A [M [g [W [P [HA [Hg HW]]]]]]] Ht. unfold agef. destruct (sp_growing s) eqn:G.
  - destruct (Req_dec g 0) as [->|].
    + rewrite (spot_age_static s A M W t) by auto. intros _.
      exists A, M, 0, W. split. eapply with_area_params; eauto. auto.
    + rewrite (spot_age_growing s A M g W t) by (auto; lra).
      destruct (Rlt_dec t (time_to_max A M g)).
      * intros _. exists (A * exp (ln (1 + g) * t)), M, g, W. split. eapply with_area_params; eauto.
        split; [|lra]. pose proof (exp_pos (ln (1 + g) * t)). split. apply Rmult_lt_0_compat; lra.
        rewrite <- (ttm_max A M g) by lra. apply Rmult_le_compat_l. lra. left. apply exp_increasing.
        apply Rmult_lt_compat_l; auto. apply ln1p_pos; lra.
      * destruct (Rlt_dec M ((t - time_to_max A M g) * W)); intros D; rewrite with_area_alive_false in D. lra.
        exists (M - (t - time_to_max A M g) * W), M, g, W. split. eapply with_area_params; eauto.
        split; [|lra]. split; auto. assert (0 <= (t - time_to_max A M g) * W) by (apply Rmult_le_pos; lra). lra.
  - rewrite (spot_age_decay s A M g W t) by auto.
    destruct (Rlt_dec M (t * W)); intros D; rewrite with_area_alive_false in D. lra.
    exists (A - t * W), M, g, W. split. eapply with_area_params; eauto. split; [|lra]. split; auto.
    assert (0 <= t * W) by (apply Rmult_le_pos; lra). lra.
Qed.
Lemma agef_dead_mono : forall s t1 t2, spot_wf s -> 0 <= t1 -> 0 <= t2 ->
  spot_dead (agef s t1) = true -> spot_dead (agef s (t1 + t2)) = true.
Proof.
  intros s t1 t2 [A [M [g [W [P [HA [Hg HW]]]]]]] H1 H2. unfold agef. destruct (sp_growing s) eqn:G.
  - destruct (Req_dec g 0) as [->|].
    + rewrite (spot_age_static s A M W t1) by auto. rewrite with_area_growing. discriminate.
    + rewrite !(spot_age_growing s A M g W) by (auto; lra).
      set (T := time_to_max A M g) in *.
      destruct (Rlt_dec t1 T). rewrite with_area_growing. discriminate.
      destruct (Rlt_dec (t1 + t2) T); [lra|].
      assert ((t1 - T) * W <= (t1 + t2 - T) * W) by (apply Rmult_le_compat_r; lra).
      destruct (Rlt_dec M ((t1 - T) * W)); destruct (Rlt_dec M ((t1 + t2 - T) * W));
        rewrite !with_area_dead; lra.
  - rewrite !(spot_age_decay s A M g W) by auto.
    assert (t1 * W <= (t1 + t2) * W) by (apply Rmult_le_compat_r; lra).
    destruct (Rlt_dec M (t1 * W)); destruct (Rlt_dec M ((t1 + t2) * W)); rewrite !with_area_dead; lra.
Qed.
Lemma ttm_shift : forall A M g t, 0 < A <= M -> 0 < g ->
  time_to_max (A * exp (ln (1 + g) * t)) M g = time_to_max A M g - t.
Proof.
  intros. unfold time_to_max. pose proof (ln1p_pos g H0). pose proof (exp_pos (ln (1 + g) * t)).
  assert (0 < M / A) by (apply Rdiv_lt_0_compat; lra).
  replace (M / (A * exp (ln (1 + g) * t))) with (M / A * exp (- (ln (1 + g) * t))).
  2:{ rewrite exp_Ropp. field. split; lra. }
  rewrite ln_mult, ln_exp by (auto; apply exp_pos). field. lra.
Qed.
(** two steps are one step, up to both results being dead *)
Lemma agef_add : forall s t1 t2, spot_wf s -> 0 <= t1 -> 0 <= t2 -> spot_dead (agef s t1) = false ->
  agef (agef s t1) t2 = agef s (t1 + t2)
  \/ (spot_dead (agef (agef s t1) t2) = true /\ spot_dead (agef s (t1 + t2)) = true).
Proof.
  intros s t1 t2 [A [M [g [W [P [HA [Hg HW]]]]]]] H1 H2. destruct (sp_growing s) eqn:G.
  - destruct (Req_dec g 0) as [->|].
    + intros _. left. unfold agef. rewrite !(spot_age_static s A M W) by auto.
      rewrite (spot_age_static _ A M W); auto. eapply with_area_params; eauto.
    + assert (Hg0 : 0 < g) by lra. unfold agef. rewrite !(spot_age_growing s A M g W) by auto.
      pose proof (ttm_shift A M g t1 HA Hg0) as TS.
      set (T := time_to_max A M g) in *.
      destruct (Rlt_dec t1 T) as [L1|L1].
      * intros _. assert (0 < A * exp (ln (1 + g) * t1) <= M).
        { pose proof (exp_pos (ln (1 + g) * t1)). split. apply Rmult_lt_0_compat; lra.
          rewrite <- (ttm_max A M g) by lra. apply Rmult_le_compat_l. lra. left. apply exp_increasing.
          apply Rmult_lt_compat_l; auto. apply ln1p_pos; lra. }
        rewrite (spot_age_growing (spot_with_area s (Fin (A * exp (ln (1 + g) * t1))) true)
                   (A * exp (ln (1 + g) * t1)) M g W t2); auto.
        2:{ eapply with_area_params; eauto. }
        rewrite TS. left. replace (t2 - (T - t1)) with (t1 + t2 - T) by ring.
        destruct (Rlt_dec t2 (T - t1)); destruct (Rlt_dec (t1 + t2) T); try lra.
        -- rewrite with_area_twice. do 2 f_equal. rewrite Rmult_plus_distr_l, exp_plus. ring.
        -- destruct (Rlt_dec M ((t1 + t2 - T) * W)); apply with_area_twice.
      * destruct (Rlt_dec M ((t1 - T) * W)) as [D1|D1]; intros D; rewrite with_area_alive_false in D; [lra|].
        rewrite (spot_age_decay (spot_with_area s (Fin (M - (t1 - T) * W)) false)
                   (M - (t1 - T) * W) M g W t2); auto.
        2:{ eapply with_area_params; eauto. }
        destruct (Rlt_dec (t1 + t2) T); [lra|].
        assert ((t1 + t2 - T) * W = (t1 - T) * W + t2 * W) by ring.
        assert (0 <= (t1 - T) * W) by (apply Rmult_le_pos; lra).
        destruct (Rlt_dec M (t2 * W)); destruct (Rlt_dec M ((t1 + t2 - T) * W)); try lra.
        -- left. apply with_area_twice.
        -- right. rewrite with_area_twice, !with_area_dead. lra.
        -- left. rewrite with_area_twice. do 2 f_equal. lra.
  - unfold agef. rewrite !(spot_age_decay s A M g W) by auto.
    destruct (Rlt_dec M (t1 * W)) as [D1|D1]; intros D; rewrite with_area_alive_false in D; [lra|].
    rewrite (spot_age_decay (spot_with_area s (Fin (A - t1 * W)) false) (A - t1 * W) M g W t2); auto.
    2:{ eapply with_area_params; eauto. }
    assert ((t1 + t2) * W = t1 * W + t2 * W) by ring.
    assert (0 <= t1 * W) by (apply Rmult_le_pos; lra).
    destruct (Rlt_dec M (t2 * W)); destruct (Rlt_dec M ((t1 + t2) * W)); try lra.
    + left. apply with_area_twice.
    + right. rewrite with_area_twice, !with_area_dead. lra.
    + left. rewrite with_area_twice. do 2 f_equal. lra.
Qed.

(** collections *)
Definition alivef (s : spot) : bool := negb (spot_dead s).
Definition aged_list (l : list spot) (t : R) : list spot := filter alivef (map (fun s => agef s t) l).
Lemma sc_age_eq : forall l g t, (forall s, In s l -> spot_wf s) ->
  sc_age (mkSpotColl l g) (Fin t) = Ok (mkSpotColl (aged_list l t) g).
Proof.
  intros. unfold sc_age. simpl. rewrite (mapM_ok _ _ _ (fun s => agef s t)).
  reflexivity. intros. apply spot_age_ok; auto.
Qed.
Lemma aged_list_wf : forall l t, (forall s, In s l -> spot_wf s) -> 0 <= t ->
  forall s, In s (aged_list l t) -> spot_wf s.
Proof.
  intros. unfold aged_list in H1. apply filter_In in H1. destruct H1 as [H1 D].
  apply in_map_iff in H1. destruct H1 as [s0 [<- I]]. apply agef_wf; auto.
  unfold alivef in D. destruct (spot_dead (agef s0 t)); auto; discriminate.
Qed.
Lemma aged_list_add : forall l t1 t2, (forall s, In s l -> spot_wf s) -> 0 <= t1 -> 0 <= t2 ->
  aged_list (aged_list l t1) t2 = aged_list l (t1 + t2).
Proof.
  induction l; intros; auto. unfold aged_list. simpl.
  assert (IH := IHl t1 t2 ltac:(intros; apply H; right; auto) H0 H1). unfold aged_list in IH.
  assert (Wa : spot_wf a) by (apply H; left; auto).
  unfold alivef at 2. destruct (spot_dead (agef a t1)) eqn:D; simpl.
  - unfold alivef at 3. rewrite (agef_dead_mono a t1 t2) by auto. simpl. auto.
  - destruct (agef_add a t1 t2 Wa H0 H1 D) as [E | [E1 E2]].
    + rewrite E. rewrite IH. auto.
    + unfold alivef at 1. rewrite E1. simpl. unfold alivef at 3. rewrite E2. simpl. auto.
Qed.
Lemma sc_run_eq : forall ts l g, (forall s, In s l -> spot_wf s) -> all_nonneg ts -> ts <> [] ->
  sc_run (mkSpotColl l g) ts = Ok (mkSpotColl (aged_list l (rsum ts)) g).
Proof.
  induction ts; intros. congruence. simpl sc_run. rewrite sc_age_eq by auto. simpl bind.
  assert (0 <= a) by (apply H0; left; auto).
  destruct ts as [|b ts].
  - simpl. rewrite Rplus_0_r. auto.
  - rewrite IHts; try discriminate.
    + do 2 f_equal. change (rsum (a :: b :: ts)) with (a + rsum (b :: ts)). apply aged_list_add; auto.
      apply rsum_nonneg. intros; apply H0; right; auto.
    + apply aged_list_wf; auto.
    + intros t Ht. apply H0; right; auto.
Qed.
Lemma coll_eta : forall c, c = mkSpotColl (sc_spots c) (sc_grid c).
Proof. destruct c; auto. Qed.
Lemma C14_lemma : forall c ts, (forall s, In s (sc_spots c) -> spot_wf s) -> all_nonneg ts -> ts <> [] ->
  exists c', sc_run c ts = Ok c' /\ sc_age c (Fin (rsum ts)) = Ok c'
    /\ (forall s, In s (sc_spots c') -> spot_wf s).
Proof.
  intros. rewrite (coll_eta c). rewrite sc_run_eq, sc_age_eq by auto. eexists. split; eauto. split; auto.
  simpl. apply aged_list_wf; auto. apply rsum_nonneg. auto.
Qed.

Lemma agef_inv : forall s t, spot_wf s -> 0 <= t -> spot_dead (agef s t) = false ->
  exists A M g W a b, spot_params s A M g W /\ aged_to s (agef s t) a b /\ 0 < a <= M
    /\ (sp_growing s = false -> b = false /\ a <= A).
Proof.
  intros s t Hw Ht D. pose proof (agef_wf s t Hw Ht D) as W2.
  destruct Hw as [A [M [g [W [P [HA [Hg HW]]]]]]].
  assert (X : exists a b, agef s t = spot_with_area s (Fin a) b /\ (sp_growing s = false -> b = false /\ (0 < a -> a <= A))).
  { unfold agef. destruct (sp_growing s) eqn:G.
    - destruct (Req_dec g 0) as [->|].
      + rewrite (spot_age_static s A M W t) by auto. do 2 eexists. split; eauto. discriminate.
      + rewrite (spot_age_growing s A M g W t) by (auto; lra).
        destruct (Rlt_dec t (time_to_max A M g)); [|destruct (Rlt_dec M ((t - time_to_max A M g) * W))];
          do 2 eexists; (split; [reflexivity | discriminate]).
    - rewrite (spot_age_decay s A M g W t) by auto.
      assert (0 <= t * W) by (apply Rmult_le_pos; lra).
      destruct (Rlt_dec M (t * W)); do 2 eexists; (split; [reflexivity | split; auto; lra]). }
  destruct X as [a [b [E I]]]. rewrite E in *.
  destruct W2 as [A' [M' [g' [W' [P' [HA' _]]]]]].
  destruct P' as [Pa [Pm _]]. destruct P as [Qa [Qm P]]. simpl in Pa, Pm. rewrite Qm in Pm.
  inversion Pa; inversion Pm; subst.
  exists A, M', g, W, A', b. split. split; auto. split. apply with_area_aged. split; auto.
  intros G. destruct (I G). split; auto. apply H0; lra.
Qed.
Lemma C15_lemma : forall c ts, (forall s, In s (sc_spots c) -> spot_wf s) -> all_nonneg ts -> ts <> [] ->
  exists c', sc_run c ts = Ok c' /\ sc_grid c' = sc_grid c
  /\ (forall s', In s' (sc_spots c') -> exists s A M g W a b,
        In s (sc_spots c) /\ spot_params s A M g W /\ aged_to s s' a b
        /\ 0 < a <= M
        /\ (sp_growing s = false -> b = false /\ a <= A)).
Proof.
  intros. rewrite (coll_eta c). rewrite sc_run_eq by auto. eexists. split; eauto. split; auto.
  simpl. intros. apply filter_In in H2. destruct H2 as [I D]. apply in_map_iff in I.
  destruct I as [s [<- I]]. unfold alivef in D. apply negb_true_iff in D.
  destruct (agef_inv s (rsum ts)) as [A [M [g [W [a [b [P [Q [R S]]]]]]]]]; auto.
  apply rsum_nonneg; auto.
  exists s, A, M, g, W, a, b. auto.
Qed.
Lemma C15_direct_lemma : forall s A M g W t, spot_params s A M g W -> sp_growing s = false ->
  0 < A <= M -> 0 <= W -> 0 <= t ->
  exists s' a, spot_age s (Fin t) = Ok s' /\ sp_area s' = Fin a /\ (a < 0 <-> A < W * t <= M).
Proof.
  intros. rewrite (spot_age_decay s A M g W t) by auto. rewrite (Rmult_comm t W).
  destruct (Rlt_dec M (W * t)); do 2 eexists; (split; [reflexivity|]); simpl; (split; [reflexivity|]); lra.
Qed.

(** ** C16: death time *)
Lemma aged_list_app : forall l l' t, aged_list (l ++ l') t = aged_list l t ++ aged_list l' t.
Proof. intros. unfold aged_list. rewrite map_app, filter_app. auto. Qed.
Lemma C16_lemma : forall l1 s l2 g0 ts A M g W,
  (forall x, In x (l1 ++ s :: l2) -> spot_wf x) -> all_nonneg ts -> ts <> [] ->
  spot_params s A M g W -> sp_growing s = true -> 0 < A <= M -> 0 < g -> 0 < W ->
  exists r1 rs r2,
    sc_run (mkSpotColl l1 g0) ts = Ok (mkSpotColl r1 g0)
    /\ sc_run (mkSpotColl l2 g0) ts = Ok (mkSpotColl r2 g0)
    /\ sc_run (mkSpotColl (l1 ++ s :: l2) g0) ts = Ok (mkSpotColl (r1 ++ rs ++ r2) g0)
    /\ (time_to_max A M g + M / W <= rsum ts -> rs = [])
    /\ (rsum ts < time_to_max A M g + M / W -> exists s' a b, rs = [s'] /\ aged_to s s' a b /\ 0 < a).
Proof.
  intros l1 s l2 g0 ts A M g W Hw Hts Hne P G HA Hg HW.
  exists (aged_list l1 (rsum ts)), (aged_list [s] (rsum ts)), (aged_list l2 (rsum ts)).
  rewrite !sc_run_eq; auto.
  2:{ intros; apply Hw; apply in_or_app; right; right; auto. }
  2:{ intros; apply Hw; apply in_or_app; left; auto. }
  split; auto. split; auto. split.
  { change (s :: l2) with ([s] ++ l2). rewrite !aged_list_app. auto. }
  assert (Ht : 0 <= rsum ts) by (apply rsum_nonneg; auto). set (t := rsum ts) in *.
  unfold aged_list, alivef, agef. simpl. rewrite (spot_age_growing s A M g W t) by auto.
  pose proof (ttm_nonneg A M g HA Hg). set (T := time_to_max A M g) in *.
  assert (0 < M / W) by (apply Rdiv_lt_0_compat; lra).
  assert (MW : M / W * W = M) by (field; lra).
  destruct (Rlt_dec t T).
  - rewrite with_area_growing. simpl. split; intros. lra.
    do 3 eexists. split; eauto. split. apply with_area_aged. apply Rmult_lt_0_compat; [lra|apply exp_pos].
  - split; intros.
    + assert (M <= (t - T) * W). { rewrite <- MW. apply Rmult_le_compat_r; lra. }
      destruct (Rlt_dec M ((t - T) * W)).
      * replace (spot_dead (spot_with_area s (Fin 0) false)) with true by (symmetry; apply with_area_dead; lra). auto.
      * replace (spot_dead (spot_with_area s (Fin (M - (t - T) * W)) false)) with true
          by (symmetry; apply with_area_dead; lra). auto.
    + assert ((t - T) * W < M). { rewrite <- MW. apply Rmult_lt_compat_r; lra. }
      destruct (Rlt_dec M ((t - T) * W)); [lra|].
      replace (spot_dead (spot_with_area s (Fin (M - (t - T) * W)) false)) with false
        by (symmetry; apply with_area_alive_false; lra).
      simpl. do 3 eexists. split; eauto. split. apply with_area_aged. lra.
Qed.
