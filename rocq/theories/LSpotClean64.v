(** Proofs for C134 *)
From Coq Require Import Reals ZArith Bool List Lra Lia.
From Coquelicot Require Import Rcomplements.
From Verif Require Import Num Py MConfig MHelpers MGrid MSpots MFaculae MXoflares MFlares MGranules MStar MSingle MDouble MAge64 MSpotClean64
  Spec SpecStar SpecDisk SpecSingle SpecDouble SpecAge64 SpecSpot64 SpecSpotClean64 LBase LSingle LDouble LDoubleSum LAge64 LSpot64 LSpotGone64 LClean64.
Import ListNotations.
Open Scope R_scope.

(** the spots that are not removed while they age by the times [ts] *)
Fixpoint stays (ex lg : R -> R) (ts : list R) (s : spot) : bool :=
  match ts with
  | [] => true
  | t :: r => match spot_age64 ex lg s (Fin t) with Ok s' => negb (spot_dead s') && stays ex lg r s' | Raise _ => false end
  end.
Lemma all_age : forall ex lg t l, (forall s, In s l -> exists s', spot_age64 ex lg s (Fin t) = Ok s') ->
  exists l1, mapM (fun s => spot_age64 ex lg s (Fin t)) l = Ok l1 /\ Forall2 (fun s s' => spot_age64 ex lg s (Fin t) = Ok s') l l1.
Proof.
  intros ex lg t. induction l as [|s l IH]; intros H. exists []. split; [reflexivity|constructor].
  destruct (H s (or_introl eq_refl)) as [s' E]. destruct IH as [l1 [E1 F1]]. { intros x I. apply H. right; auto. }
  exists (s' :: l1). split. cbn [mapM]. rewrite E. cbn [bind]. rewrite E1. reflexivity. constructor; auto.
Qed.
Lemma coll_stays : forall ex lg ts c, (forall s, In s (sc_spots c) -> exists s', spot_aged64 ex lg s ts = Ok s') ->
  exists c', spots64 ex lg c ts = Ok c' /\ sc_grid c' = sc_grid c
    /\ Forall2 (fun s s' => spot_aged64 ex lg s ts = Ok s') (filter (stays ex lg ts) (sc_spots c)) (sc_spots c').
Proof.
  intros ex lg. induction ts as [|t ts IH]; intros c H.
  - exists c. split. reflexivity. split. reflexivity. clear H. cbn [stays]. induction (sc_spots c) as [|s l IL]; cbn [filter]; constructor; auto.
  - assert (H1 : forall s, In s (sc_spots c) -> exists s1, spot_age64 ex lg s (Fin t) = Ok s1 /\ exists s', spot_aged64 ex lg s1 ts = Ok s').
    { intros s I. destruct (H s I) as [s' E]. cbn [spot_aged64] in E. destruct (spot_age64 ex lg s (Fin t)) as [s1|] eqn:A; [|discriminate]. exists s1. split; auto. exists s'. exact E. }
    destruct (all_age ex lg t (sc_spots c)) as [l1 [E1 F1]]. { intros s I. destruct (H1 s I) as [s1 [A _]]. eauto. }
    set (c1 := sc_clean (mkSpotColl l1 (sc_grid c))). destruct (IH c1) as [c' [E2 [G2 F2]]].
    { intros s1 I. unfold c1, sc_clean in I. cbn [sc_spots] in I. apply filter_In in I. destruct I as [I _]. clear - F1 H1 I.
      induction F1 as [|s s1' l l1 A F IF]. contradiction. destruct I as [<-|I]. { destruct (H1 s (or_introl eq_refl)) as [x [B C]]. rewrite A in B. injection B as <-. exact C. } apply IF; auto. intros x J. apply H1. right; auto. }
    exists c'. split. { cbn [spots64]. unfold sc_age64. rewrite E1. cbn [bind]. exact E2. } split. { rewrite G2. reflexivity. }
    unfold c1, sc_clean in F2. cbn [sc_spots] in F2. clear - F1 F2. revert F2. generalize (sc_spots c'). induction F1 as [|s s1 l l1 A F IF]; intros out F2. inversion F2. constructor.
    cbn [filter stays] in *. rewrite A. destruct (negb (spot_dead s1)); cbn [andb filter] in *; [|apply IF; auto]. destruct (stays ex lg ts s1); [|apply IF; auto].
    inversion F2; subst. constructor. cbn [spot_aged64]. rewrite A. cbn [bind]. auto. apply IF; auto.
Qed.
Lemma stays_prefixes : forall ex lg ts s, (forall k, (1 <= k <= length ts)%nat -> exists s', spot_aged64 ex lg s (firstn k ts) = Ok s' /\ spot_dead s' = false) -> stays ex lg ts s = true.
Proof.
  intros ex lg. induction ts as [|t ts IH]; intros s H. reflexivity. cbn [stays]. destruct (H 1%nat) as [s1 [E D]]. cbn [length]; lia. cbn in E.
  destruct (spot_age64 ex lg s (Fin t)) as [x|] eqn:A; [|discriminate]. cbn in E. injection E as ->. rewrite D. cbn [negb andb]. apply IH. intros k K.
  destruct (H (Datatypes.S k)) as [s2 [E2 D2]]. cbn [length]; lia. cbn [firstn spot_aged64] in E2. rewrite A in E2. exists s2. auto.
Qed.
Lemma stays_end : forall ex lg ts s s', ts <> [] -> spot_aged64 ex lg s ts = Ok s' -> spot_dead s' = true -> stays ex lg ts s = false.
Proof.
  intros ex lg. induction ts as [|t ts IH]; intros s s' N E D. congruence. cbn [stays]. cbn [spot_aged64] in E. destruct (spot_age64 ex lg s (Fin t)) as [s1|] eqn:A; [|reflexivity]. cbn [bind] in E.
  destruct ts as [|t' ts]. cbn in E. injection E as ->. rewrite D. reflexivity. rewrite (IH s1 s'); auto. apply andb_false_r. discriminate.
Qed.
(** a spot that does not grow: what is left is at most what the exact law leaves, up to the rounding errors *)
Lemma left_over : forall ex lg s a am g W ts, spot_params s a am g W -> sane64 a -> sane64 am -> a <= am -> decay64 W -> sp_growing s = false -> (forall t, In t ts -> time64 t) -> INR (length ts) <= 1000000000000 ->
  exists s' a', spot_aged64 ex lg s ts = Ok s' /\ aged_to s s' a' false /\ f64_value a' /\ a' <= a /\ Rabs a' <= (2 * INR (length ts) + 1) * am
    /\ (a' <= 0 \/ a' <= a - W * rsum ts + 6 * INR (length ts) * vv * am).
Proof.
  intros ex lg s a am g W ts P Sa Sm H DW G. destruct (lnb a Sa) as [Ha _]. destruct (lnb am Sm) as [Hm _]. pose proof vv_pos as VP. pose proof vv_small as VS.
  induction ts as [|t ts IH] using rev_ind; intros Ht Hn.
  - exists s, a. split; auto. split. rewrite <- G. eapply sp_self; eauto. split. apply Sa. split. lra. simpl. split. rewrite Rabs_right; lra. right. lra.
  - rewrite app_length, plus_INR in *. simpl (length [t]) in *. change (INR 1) with 1 in *. rewrite rsum_snoc.
    assert (Q1 : forall t0, In t0 ts -> time64 t0) by (intros; apply Ht; apply in_or_app; auto). assert (Q2 : time64 t) by (apply Ht; apply in_or_app; right; left; auto).
    destruct IH as [s1 [a1 [E [A [V [L [B D]]]]]]]; auto. lra. pose proof (pos_INR (length ts)) as n0. set (n := INR (length ts)) in *.
    destruct (sp_state _ _ _ _ _ _ _ _ P A) as [Sg Eg]. assert (BB : Rabs a1 <= 10000000000000 * am). { eapply Rle_trans. exact B. apply Rmult_le_compat_r; lra. }
    destruct (decaying ex lg s1 a1 am g W t Sg Eg V Sm BB DW Q2) as [s2 [a2 [E2 [A2 [V2 [B2 [C2 J]]]]]]].
    exists s2, a2. rewrite spot_snoc, E. cbn [bind]. split; auto. split. eapply sp_trans; eauto. split; auto.
    split. { eapply Rle_trans. apply B2. unfold Rmax. destruct (Rle_dec a1 0); lra. } split. lra.
    destruct (Rle_dec a1 0) as [Z|Z]. { left. rewrite Rmax_right in B2 by lra. auto. } destruct D as [D|D]; [lra|].
    destruct (Rle_dec a1 (W * t)) as [U|U]. { left. eapply (used_up ex lg s1 a1 am g W t s2 a2 false); eauto. }
    right. specialize (J a1 0 0 am). assert (K : Rabs (a2 - (a1 - W * t)) <= 0 + (0 + 6 * vv) * am). { apply J; try lra. rewrite (Rminus_diag_eq a1 a1 eq_refl), Rabs_R0. lra. }
    apply Rabs_le_between in K. replace (6 * (n + 1) * vv * am) with (6 * n * vv * am + 6 * vv * am) by ring. lra.
Qed.
Lemma dead_area : forall s s' a b, aged_to s s' a b -> spot_dead s' = Rleb a 0 && negb b.
Proof. intros s s' a b (_ & _ & _ & A & _ & _ & _ & B & _). unfold spot_dead. rewrite A, B. reflexivity. Qed.
Lemma spot_ages : forall ex lg s a am g W ts, accurate_exp ex -> accurate_log lg -> sane_spot s a am g W -> (forall t, In t ts -> time64 t) -> INR (length ts) <= 1000000000000 ->
  exists s', spot_aged64 ex lg s ts = Ok s'.
Proof.
  intros ex lg s a am g W ts AE AL (P & Sa & Sm & H & Hg & VW & HW) Ht Hn. destruct (C131_bounds_lemma ex lg s a am g W ts) as (s' & _ & _ & E & _); auto. eauto.
Qed.
Lemma C134_lemma : forall ex lg c ts, accurate_exp ex -> accurate_log lg -> (forall t, In t ts -> time64 t) -> INR (length ts) <= 1000000000000 ->
  (forall s, In s (sc_spots c) -> exists a am g W, sane_spot s a am g W) ->
  exists c' keep, spots64 ex lg c ts = Ok c' /\ sc_grid c' = sc_grid c
    /\ Forall2 (fun s s' => spot_aged64 ex lg s ts = Ok s') (filter keep (sc_spots c)) (sc_spots c')
    /\ forall s a am g W, In s (sc_spots c) -> sane_spot s a am g W ->
         let tau := ln (1 + g) in
         (sp_growing s = true -> spot_drift64 (length ts) (ln (am / a)) tau * (am + W / tau) < am - W * (rsum ts - time_to_max a am g) -> keep s = true)
         /\ (sp_growing s = true -> ts <> [] -> am - W * (rsum ts - time_to_max a am g) <= - (spot_drift64 (length ts) (ln (am / a)) tau * (am + W / tau)) -> keep s = false)
         /\ (sp_growing s = false -> INR (length ts) / 1000000000000000 * am < a - W * rsum ts -> keep s = true)
         /\ (sp_growing s = false -> ts <> [] -> a - W * rsum ts <= - (INR (length ts) / 1000000000000000 * am) -> keep s = false).
Proof.
  intros ex lg c ts AE AL HT HN HS. destruct (coll_stays ex lg ts c) as (c' & E1 & E2 & E3).
  { intros s I. destruct (HS s I) as (a & am & g & W & SS). eapply spot_ages; eauto. }
  exists c', (stays ex lg ts). split; auto. split; auto. split; auto. intros s a am g W I SS tau. pose proof SS as (P & Sa & Sm & H & Hg & VW & HW).
  destruct (lnb a Sa) as [Ha _]. destruct (lnb am Sm) as [Hm _]. pose proof vv_pos as VP. pose proof vv_small as VS.
  assert (TP : forall t, In t ts -> 0 <= t) by (intros t J; destruct (HT t J) as [_ [? _]]; auto).
  assert (G0 : 0 < g) by (destruct Hg as [_ [? _]]; pose proof (p2_pos (-20)); lra). assert (T0 : 0 < tau) by (unfold tau; rewrite <- ln_1; apply ln_increasing; lra).
  assert (PF : forall k, (1 <= k <= length ts)%nat -> (forall t, In t (firstn k ts) -> time64 t) /\ 0 <= INR (length (firstn k ts)) <= INR (length ts) /\ 0 <= rsum (firstn k ts) <= rsum ts /\ W * rsum (firstn k ts) <= W * rsum ts).
  { intros k K. split. { intros t J. apply HT. eapply in_firstn; eauto. } split. { split. apply pos_INR. apply le_INR. rewrite firstn_length. lia. } pose proof (rsum_firstn ts k TP). split; auto. apply Rmult_le_compat_l; lra. }
  assert (WT : 0 <= W / tau) by (apply Rmult_le_pos; [lra|left; apply Rinv_0_lt_compat; auto]).
  split; [|split; [|split]].
  - intros G D. apply stays_prefixes. intros k K. destruct (PF k K) as (P1 & P2 & P3 & P4). set (e := spot_drift64 (length ts) (ln (am / a)) tau) in *.
    set (e1 := spot_drift64 (length (firstn k ts)) (ln (am / a)) tau). assert (L0 : 0 <= ln (am / a)). { rewrite ln_div by lra. assert (ln a <= ln am) by (destruct H as [H| ->]; [left; apply ln_increasing; auto|lra]). lra. }
    assert (Q0 : 0 <= (ln (am / a) + 1) / tau) by (apply Rmult_le_pos; [lra|left; apply Rinv_0_lt_compat; auto]).
    assert (EE : 0 <= e1 <= e) by (unfold e1, e, spot_drift64; lra).
    assert (EM : 0 <= e1 * (am + W / tau) <= e * (am + W / tau)) by (split; [apply Rmult_le_pos; lra|apply Rmult_le_compat_r; lra]).
    destruct (C131_law_lemma ex lg s a am g W (firstn k ts)) as (s' & a' & b & E & A & _ & B2); auto. lra. { rewrite Rmult_minus_distr_l in *. lra. }
    exists s'. split; auto. rewrite (dead_area _ _ _ _ A). destruct b; [apply andb_false_r|]. destruct (B2 eq_refl) as [B3 _]. fold tau in B3. fold e1 in B3. apply Rabs_le_between in B3.
    destruct (Rleb a' 0) eqn:Z; auto. apply Rleb_true in Z. rewrite Rmult_minus_distr_l in *. lra.
  - intros G N D. destruct (gone_lemma ex lg s a am g W ts) as (s' & a' & E & A & B); auto. eapply stays_end; eauto. rewrite (dead_area _ _ _ _ A), andb_true_r. apply Rleb_true. auto.
  - intros G D. apply stays_prefixes. intros k K. destruct (PF k K) as (P1 & P2 & P3 & P4).
    assert (NM : 0 <= INR (length (firstn k ts)) / 1000000000000000 * am <= INR (length ts) / 1000000000000000 * am) by (split; [apply Rmult_le_pos; lra|apply Rmult_le_compat_r; lra]).
    destruct (C131_decay_lemma ex lg s a am g W (firstn k ts)) as (s' & a' & E & A & _ & B); auto. lra. lra.
    exists s'. split; auto. rewrite (dead_area _ _ _ _ A). apply Rabs_le_between in B. destruct (Rleb a' 0) eqn:Z; auto. apply Rleb_true in Z. lra.
  - intros G N D. destruct (left_over ex lg s a am g W ts) as (s' & a' & E & A & _ & _ & _ & B); auto. { split; auto. }
    eapply stays_end; eauto. rewrite (dead_area _ _ _ _ A), andb_true_r. apply Rleb_true. destruct B as [B|B]; auto.
    assert (6 * INR (length ts) * vv * am <= INR (length ts) / 1000000000000000 * am). { apply Rmult_le_compat_r. lra. pose proof (pos_INR (length ts)). assert (INR (length ts) * vv <= INR (length ts) * (1.12 / 10000000000000000)) by (apply Rmult_le_compat_l; lra). lra. } lra.
Qed.
