(** Lemmas for C13, C22 and C36: objects straight from their constructors *)
From Coq Require Import Reals ZArith Bool List Lra Lia.
From Verif Require Import Num Py MConfig MHelpers MGrid MSpots MFaculae Spec SpecStar LBase LGrid LSpotAge LSpotMap LSpotCov LFac.
Import ListNotations.
Open Scope R_scope.

Lemma C13_new_lemma : forall lat lon A M tu tp q growing g W gr t, 0 < A <= M -> 0 <= g -> 0 <= t ->
  let s := spot_init lat lon (Fin M) (Fin A) tu tp q growing (Fin g) (-1) (Fin W) gr in
  spot_on gr s
  /\ exists s', spot_age s (Fin t) = Ok s'
  /\ (growing = true -> 0 < g -> t < time_to_max A M g -> aged_to s s' (A * Rpower (1 + g) t) true)
  /\ (growing = true -> 0 < g -> time_to_max A M g <= t -> aged_to s s' (Rmax 0 (M - W * (t - time_to_max A M g))) false)
  /\ (growing = true -> g = 0 -> aged_to s s' A true)
  /\ (growing = false -> W * t <= M -> aged_to s s' (A - W * t) false)
  /\ (growing = false -> M < W * t -> aged_to s s' 0 false)
  /\ sp_lat s' = lat /\ sp_lon s' = lon /\ sp_teff_umbra s' = tu /\ sp_teff_pen s' = tp /\ sp_ratio s' = q.
Proof.
  intros lat lon A M tu tp q growing g W gr t HA Hg Ht s. split. apply set_gridmaker_on.
  assert (P : spot_params s A M g W) by (repeat split).
  destruct (C13_lemma s A M g W t P HA Hg Ht) as [s' [E [H1 [H2 [H3 [H4 H5]]]]]]. change (sp_growing s) with growing in *.
  exists s'. split; auto. split; auto. split; auto. split; auto. split; auto. split; auto.
  assert (K : exists a b, aged_to s s' a b).
  { destruct growing.
    - destruct (Req_dec g 0). eauto. destruct (Rlt_le_dec t (time_to_max A M g)); [eexists; eexists; apply H1|eexists; eexists; apply H2]; auto; lra.
    - destruct (Rle_lt_dec (W * t) M); eauto. }
  destruct K as [a [b K]]. destruct K as [K1 [K2 [_ [_ [K3 [K4 [K5 _]]]]]]]. repeat split; assumption.
Qed.
Lemma C22_new_lemma : forall spots g Rs T, let c := sc_init spots g in
  sc_grid c = g /\ Forall2 same_spot spots (sc_spots c) /\ (forall s, In s (sc_spots c) -> spot_on g s)
  /\ exists m, sc_map_pixels c Rs T = Ok m /\ grid_shaped g m.
Proof. intros spots g Rs T. destruct C22_lemma as [_ [H _]]. apply (H (mkSpotColl spots g) g Rs T). Qed.
Lemma C36_new_lemma : forall l g, let c := fcc_init l g in
  fcc_grid c = g /\ Forall2 (fun f f' => same_fac f f' /\ fc_grid f' = g) l (fcc_facs c).
Proof. intros l g. simpl. split; auto. induction l; simpl; constructor; auto. repeat split. Qed.
