(** The closed form of a star after any history *)
From Coq Require Import Reals ZArith Bool List Lra Lia.
From Verif Require Import Num Py MHelpers MGrid MSpots MFaculae MFlares MGranules MStar
  Spec SpecStar SpecDisk SpecFrame SpecHist LBase LSpotAge LFac.
Import ListNotations.
Open Scope R_scope.

Definition sleft (gr : list spot * list R) : list spot :=
  match snd gr with [] => fst gr | ts => aged_list (fst gr) (rsum ts) end.
Definition fleft (gr : list facula * list R) : list facula :=
  match snd gr with [] => fst gr | ts => faged (fst gr) (rsum ts) end.
Lemma alivef_alive : forall s, alivef s = true <-> spot_alive s.
Proof.
  intros. unfold alivef, spot_dead, spot_alive. rewrite negb_true_iff, andb_false_iff, negb_false_iff.
  destruct (sp_area s); cbn [nle]; try (split; [tauto|]; intros [|]; auto; fail).
  - rewrite Rleb_false. split; [intros [|]; auto|intros [|]; auto].
  - split; intros [|]; auto; discriminate.
Qed.
Lemma sleft_spec : forall gr, (forall s, In s (fst gr) -> spot_wf s) -> spots_left gr (sleft gr).
Proof.
  intros [l [|t ts]] H; unfold spots_left, sleft; cbn [fst snd] in *. auto.
  exists (map (fun s => agef s (rsum (t :: ts))) l). split.
  - induction l; constructor. apply spot_age_ok, H; left; auto. apply IHl. intros; apply H; right; auto.
  - unfold aged_list. apply filter_keeps_g. apply alivef_alive.
Qed.
Lemma fleft_spec : forall gr, facs_left gr (fleft gr).
Proof.
  intros [l [|t ts]]; unfold facs_left, fleft; cbn [fst snd] in *. auto. apply filter_keeps_g. apply fkeep_alive.
Qed.
Lemma sleft_app : forall a b ts, sleft (a ++ b, ts) = sleft (a, ts) ++ sleft (b, ts).
Proof. intros a b [|t ts]; unfold sleft; cbn [fst snd]; auto. unfold aged_list. rewrite map_app, filter_app. auto. Qed.
Lemma fleft_app : forall a b ts, fleft (a ++ b, ts) = fleft (a, ts) ++ fleft (b, ts).
Proof. intros a b [|t ts]; unfold fleft; cbn [fst snd]; auto. unfold faged. rewrite map_app, filter_app. auto. Qed.
Lemma waits_nonneg : forall h, sensible_history h -> all_nonneg (waits h).
Proof.
  induction h as [|x h]; intros H t I. destruct I.
  assert (SH : sensible_history h) by (intros y Y; apply H; right; auto).
  pose proof (H x (or_introl eq_refl)) as X. destruct x; cbn [waits] in I; try (apply IHh; auto; fail).
  destruct I as [<-|I]; auto. apply IHh; auto.
Qed.
Lemma sleft_step : forall l t ts, (forall s, In s l -> spot_wf s) -> 0 <= t -> all_nonneg ts ->
  sleft (aged_list l t, ts) = sleft (l, t :: ts).
Proof.
  intros l t [|b ts] W Ht Hts; unfold sleft; cbn [fst snd].
  - cbn [rsum fold_right]. rewrite Rplus_0_r. auto.
  - rewrite aged_list_add; auto. apply rsum_nonneg; auto.
Qed.
Lemma fleft_step : forall l t ts, (forall s, In s l -> fac_wf s) -> 0 <= t -> all_nonneg ts ->
  fleft (faged l t, ts) = fleft (l, t :: ts).
Proof.
  intros l t [|b ts] W Ht Hts; unfold fleft; cbn [fst snd].
  - cbn [rsum fold_right]. rewrite Rplus_0_r. auto.
  - rewrite faged_add; auto. apply rsum_nonneg; auto.
Qed.
Lemma same_body_refl : forall s, same_body s s.
Proof. intros. repeat split. Qed.
Lemma same_body_trans : forall a b c, same_body a b -> same_body b c -> same_body a c.
Proof. unfold same_body. intros a b c H1 H2. intuition congruence. Qed.
Lemma spots_calls_frame : forall s s1,
  (exists l0, star_add_spot s l0 = s1)
  \/ (exists t n d fuel, star_birth_spots s t n d fuel = Ok s1)
  \/ (exists c d rf fuel, star_mature_spots s c d rf fuel = Ok s1) -> same_body s s1 /\ st_facs s1 = st_facs s.
Proof.
  intros s s1 [[l0 <-]|[[t [n [d [fu H]]]]|[c [d [rf [fu H]]]]]].
  - repeat split.
  - unfold star_birth_spots in H. apply bind_ok in H. destruct H as [l [_ H]]. injection H as <-. repeat split.
  - unfold star_mature_spots in H. apply bind_ok in H. destruct H as [l [_ H]]. injection H as <-. repeat split.
Qed.
Lemma facs_calls_frame : forall s s1,
  (exists l0, star_add_fac s l0 = Ok s1) \/ (exists t n d, star_birth_faculae s t n d = Ok s1) ->
  same_body s s1 /\ st_spots s1 = st_spots s.
Proof.
  assert (X : forall s l0 s1, star_add_fac s l0 = Ok s1 -> same_body s s1 /\ st_spots s1 = st_spots s).
  { intros s l0 s1 H. unfold star_add_fac in H. apply bind_ok in H. destruct H as [l [_ H]]. injection H as <-. repeat split. }
  intros s s1 [[l0 H]|[t [n [d H]]]]. eauto. unfold star_birth_faculae in H. apply bind_ok in H. destruct H as [l [_ H]]. eauto.
Qed.
Lemma history_eq : forall s h s', history s h s' -> sensible_history h ->
  (forall x, In x (sc_spots (st_spots s)) -> spot_wf x) -> (forall f, In f (fcc_facs (st_facs s)) -> fac_wf f) ->
  same_body s s'
  /\ sc_spots (st_spots s') = concat (map sleft ((sc_spots (st_spots s), waits h) :: spot_groups h))
  /\ fcc_facs (st_facs s') = concat (map fleft ((fcc_facs (st_facs s), waits h) :: fac_groups h)).
Proof.
  intros s h s' H. induction H; intros SH W F; try (assert (SH' : sensible_history h) by (intros y Y; apply SH; right; auto)).
  - split. apply same_body_refl. cbn. rewrite !app_nil_r. auto.
  - assert (Ht : 0 <= t) by (apply (SH (Wait t)); left; auto).
    unfold star_age in H. rewrite (coll_eta (st_spots s)), sc_age_eq in H by auto. cbn [bind] in H. injection H as <-.
    destruct (st_facs s) as [fl fg] eqn:EF. rewrite fcc_age_eq in *. cbn [fcc_facs] in *.
    destruct IHhistory as [B [E1 E2]]; auto.
    { intros x. apply aged_list_wf; auto. } { intros x. apply faged_wf; auto. }
    split. apply B. cbn [st_spots st_facs star_with_facs star_with_spots sc_spots fcc_facs map concat waits spot_groups fac_groups] in *.
    rewrite sleft_step in E1 by (auto; apply waits_nonneg; auto). rewrite fleft_step in E2 by (auto; apply waits_nonneg; auto). auto.
  - destruct (spots_calls_frame _ _ H) as [B1 E]. assert (Wl : forall x, In x l -> spot_wf x) by (apply (SH (NewSpots l)); left; auto).
    destruct IHhistory as [B [E1 E2]]; auto.
    { rewrite H0. intros x I. apply in_app_or in I. destruct I; auto. } { rewrite E. auto. }
    split. eapply same_body_trans; eauto. rewrite E in E2. rewrite H0 in E1.
    cbn [map concat waits spot_groups fac_groups] in *. rewrite sleft_app, <- app_assoc in E1. auto.
  - destruct (facs_calls_frame _ _ H) as [B1 E]. assert (Wl : forall x, In x l -> fac_wf x) by (apply (SH (NewFacs l)); left; auto).
    destruct IHhistory as [B [E1 E2]]; auto.
    { rewrite E. auto. } { rewrite H0. intros x I. apply in_app_or in I. destruct I; auto. }
    split. eapply same_body_trans; eauto. rewrite E in E1. rewrite H0 in E2.
    cbn [map concat waits spot_groups fac_groups] in *. rewrite fleft_app, <- app_assoc in E2. auto.
  - unfold star_get_flares in H. apply bind_ok in H. destruct H as [c [_ H]]. injection H as <-.
    destruct IHhistory as [B [E1 E2]]; auto.
Qed.
Lemma groups_wf : forall h, sensible_history h -> forall gr, In gr (spot_groups h) -> forall s, In s (fst gr) -> spot_wf s.
Proof.
  induction h as [|x h]; intros SH gr I. destruct I.
  assert (SH' : sensible_history h) by (intros y Y; apply SH; right; auto).
  pose proof (SH x (or_introl eq_refl)) as X. destruct x; cbn [spot_groups] in I; eauto.
  destruct I as [<-|I]; eauto.
Qed.
Lemma Forall2_map_spec : forall A B (f : A -> B) (P : A -> B -> Prop) l, (forall x, In x l -> P x (f x)) -> Forall2 P l (map f l).
Proof. induction l; intros; constructor. apply H; left; auto. apply IHl. intros; apply H; right; auto. Qed.
Lemma C86_lemma :
  forall s h s', history s h s' -> sensible_history h ->
  (forall x, In x (sc_spots (st_spots s)) -> spot_wf x) -> (forall f, In f (fcc_facs (st_facs s)) -> fac_wf f) ->
  same_body s s'
  /\ (exists gs, Forall2 spots_left ((sc_spots (st_spots s), waits h) :: spot_groups h) gs
        /\ sc_spots (st_spots s') = concat gs)
  /\ (exists gs, Forall2 facs_left ((fcc_facs (st_facs s), waits h) :: fac_groups h) gs
        /\ fcc_facs (st_facs s') = concat gs).
Proof.
  intros s h s' H SH W F. destruct (history_eq _ _ _ H SH W F) as [B [E1 E2]]. split; auto. split.
  - eexists. split; [|exact E1]. apply Forall2_map_spec. intros gr I. apply sleft_spec. destruct I as [<-|I]; auto. apply (groups_wf h); auto.
  - eexists. split; [|exact E2]. apply Forall2_map_spec. intros gr I. apply fleft_spec.
Qed.
(** waiting in one go or in several, and when the waits are interleaved with new flares, is the same *)
Lemma C86_slicing_lemma :
  forall s ts, all_nonneg ts -> ts <> [] ->
  (forall x, In x (sc_spots (st_spots s)) -> spot_wf x) -> (forall f, In f (fcc_facs (st_facs s)) -> fac_wf f) ->
  exists s', star_age s (Fin (rsum ts)) = Ok s'
    /\ fold_left (fun r t => do x <- r ;; star_age x (Fin t)) ts (Ok s) = Ok s'
    /\ (forall x, In x (sc_spots (st_spots s')) -> spot_wf x) /\ (forall f, In f (fcc_facs (st_facs s')) -> fac_wf f).
Proof.
  assert (A1 : forall s t, (forall x, In x (sc_spots (st_spots s)) -> spot_wf x) ->
    star_age s (Fin t) = Ok (star_with_facs (star_with_spots s (mkSpotColl (aged_list (sc_spots (st_spots s)) t) (sc_grid (st_spots s))))
      (mkFacColl (faged (fcc_facs (st_facs s)) t) (fcc_grid (st_facs s))))).
  { intros s t W. unfold star_age. rewrite (coll_eta (st_spots s)) at 1. rewrite sc_age_eq by auto. cbn [bind].
    destruct (st_facs s). auto. }
  intros s ts. revert s. induction ts as [|t ts IH]; intros s HT NE W F. congruence.
  assert (Ht : 0 <= t) by (apply HT; left; auto). assert (HT' : all_nonneg ts) by (intros x X; apply HT; right; auto).
  rewrite A1 by auto. eexists. split. reflexivity. cbn [fold_left bind]. rewrite A1 by auto.
  assert (WW : forall a, 0 <= a -> forall x, In x (aged_list (sc_spots (st_spots s)) a) -> spot_wf x) by (intros a Ha x; apply aged_list_wf; auto).
  assert (FF : forall a, 0 <= a -> forall x, In x (faged (fcc_facs (st_facs s)) a) -> fac_wf x) by (intros a Ha x; apply faged_wf; auto).
  split. 2:{ cbn. split; [apply WW|apply FF]; apply (rsum_nonneg (t :: ts)); auto. }
  destruct ts as [|b ts].
  - cbn [fold_left rsum fold_right]. rewrite Rplus_0_r. auto.
  - edestruct IH as [s' [E1 [E2 _]]]; [auto|discriminate| | |rewrite E2, <- E1, A1].
    { cbn. apply WW; auto. } { cbn. apply FF; auto. }
    + cbn [st_spots st_facs star_with_facs star_with_spots sc_spots fcc_facs sc_grid fcc_grid].
      rewrite aged_list_add, faged_add by (auto; apply rsum_nonneg; auto). reflexivity.
    + cbn. apply WW; auto.
Qed.
