(** Lemmas for C70: hidden parts never exceed what is there *)
From Coq Require Import Reals ZArith Bool List Lra Lia Permutation Sorted.
From Verif Require Import Num Py MConfig MHelpers MGrid MSpots MFaculae MFlares MGranules MStar
  Spec SpecStar SpecDisk LBase LGrid LHelpers LSpotMap LFac LDisk LStar LStarFac LTransit LStarCov.
Import ListNotations.
Open Scope R_scope.

Definition below (d c : rdict) : Prop := Forall2 (fun a b => fst b = fst a /\ 0 <= snd b <= snd a) d c.
Lemma below_rset : forall d c k v w, below d c -> 0 <= w <= v -> below (dset tkey_eqb d k v) (dset tkey_eqb c k w).
Proof.
  intros d c k v w B H. induction B as [|[k1 v1] [k2 v2] d c [E L] B IH]; cbn [dset].
  - constructor; [|constructor]. split; auto.
  - cbn [fst snd] in *. subst k2. destruct (tkey_eqb k k1). constructor; auto. constructor; auto.
Qed.
Lemma below_rget : forall d c k v, below d c -> dget tkey_eqb d k = Some v -> exists w, dget tkey_eqb c k = Some w /\ 0 <= w <= v.
Proof.
  intros d c k v B. induction B as [|[k1 v1] [k2 v2] d c [E L] B IH]; cbn [dget]. discriminate.
  cbn [fst snd] in *. subst k2. destruct (tkey_eqb k k1); auto. intros Q. injection Q as <-. eauto.
Qed.
Lemma below_foldd : forall V W l d c, (forall t, In t l -> 0 <= W t <= V t) -> below d c -> below (foldd V l d) (foldd W l c).
Proof.
  unfold foldd. induction l as [|t l IH]; intros d c H B; cbn [fold_left]; auto. apply IH. intros; apply H; right; auto.
  apply below_rset; auto. apply H; left; auto.
Qed.
Lemma below_base : forall V W ul gt, (forall t, In t ul -> 0 <= W t <= V t) -> below (base V ul gt) (base W ul gt).
Proof.
  intros. unfold base. assert (below (foldd V ul []) (foldd W ul [])) by (apply below_foldd; auto; constructor).
  destruct (in_dec Req_EM_T gt ul); auto. apply below_rset; auto. lra.
Qed.
Lemma below_rgran : forall d c kT kG f d', 0 <= f <= 1 -> below d c -> rgran d kT kG f = Ok d' ->
  exists c', rgran c kT kG f = Ok c' /\ below d' c'.
Proof.
  intros d c kT kG f d' Hf B H. unfold rgran, dindex in *.
  destruct (dget tkey_eqb d kT) as [p|] eqn:P; [|discriminate]. destruct (below_rget _ _ _ _ B P) as [q [Q Lq]]. rewrite Q. cbn [bind] in *.
  assert (B1 : below (dset tkey_eqb d kT (p * (1 - f))) (dset tkey_eqb c kT (q * (1 - f)))).
  { apply below_rset; auto. split. apply Rmult_le_pos; lra. apply Rmult_le_compat_r; lra. }
  destruct (dget tkey_eqb (dset tkey_eqb d kT (p * (1 - f))) kG) as [o|] eqn:O; [|discriminate].
  destruct (below_rget _ _ _ _ B1 O) as [o' [O' Lo]]. rewrite O'. cbn [bind] in *. injection H as <-.
  eexists. split. reflexivity. apply below_rset; auto. assert (0 <= q * f) by (apply Rmult_le_pos; lra).
  assert (q * f <= p * f) by (apply Rmult_le_compat_r; lra). lra.
Qed.
Lemma C70_lemma : forall s lat0 lon0 orbit planet phase incl,
  (* every mask, at every phase *)
  (forall m pf, good_grid (st_grid s) -> - PI/2 <= lat0 <= PI/2 -> 0 < st_radius s ->
     get_transit_mask s lat0 lon0 orbit planet phase incl = Ok (m, pf) ->
     grid_shaped (st_grid s) m
     /\ forall j i, pixel (st_grid s) j i -> exists c, acell m j i NaN = Fin c /\ 0 <= c <= 1)
  (* every entry of the dictionaries *)
  /\ (forall T D A M C pf f tot cov pf', disk_view s lat0 lon0 orbit planet phase incl T D A M C pf ->
     disk s lat0 lon0 A <> 0 -> ld_nonneg s -> 0 <= f <= 1 ->
     calc_coverage s lat0 lon0 (Fin f) orbit planet phase incl = Ok (tot, cov, pf') ->
     pf' = pf
     /\ Forall2 (fun a b => fst b = fst a /\ exists x y, snd a = Fin x /\ snd b = Fin y /\ 0 <= y <= x) tot cov
     /\ 0 <= dict_sum cov <= dict_sum tot).
Proof.
  intros s lat0 lon0 orbit planet phase incl. split.
  - intros m pf G L HR H. destruct (transit_mask_form s lat0 lon0 orbit planet phase incl m pf G L HR H) as [C [-> HC]].
    split. apply grid_shaped_amap. intros j i P. rewrite acell_grid by auto. exists (C (pt (st_grid s) (j, i))). split; auto.
    apply HC. apply pt_In; auto.
  - intros T D A M C pf f tot cov pf' V NW LD Hf H.
    destruct (calc_coverage_eq _ _ _ _ _ _ _ _ _ _ _ _ _ f V NW) as [ul [SS [Ap [_ E0]]]].
    assert (SL : forall t, In t ul -> 0 <= share s lat0 lon0 A M (cell_val C) t <= share s lat0 lon0 A M (fun _ _ => 1) t).
    { intros t _. destruct (view_form _ _ _ _ _ _ _ _ _ _ _ _ _ V) as [tm [cm [EA [EM [EC [Hc [EW [E1 [E2 [Eap EV]]]]]]]]]].
      rewrite E1, E2. unfold bval.
      assert (WN : forall p, In p (cells (grid_points (st_grid s))) -> 0 <= wgt s lat0 lon0 p) by (intros; apply wgt_nonneg; auto; apply V).
      assert (0 < disk s lat0 lon0 A).
      { assert (0 <= disk s lat0 lon0 A). rewrite EW. apply rsum_map_nonneg; auto. lra. }
      split.
      - apply Rmult_le_pos. 2:{ left; apply Rinv_0_lt_compat; auto. } apply rsum_map_nonneg. intros p Ip. destruct (Req_EM_T _ _); [|lra].
        apply Rmult_le_pos; [auto|apply Hc; auto].
      - apply Rmult_le_compat_r. left; apply Rinv_0_lt_compat; auto. apply rsum_map_le. intros p Ip. destruct (Req_EM_T _ _); [|lra].
        pose proof (WN p Ip). pose proof (Hc p Ip). nra. }
    rewrite E0 in H. destruct (rgran (base (share s lat0 lon0 A M (fun _ _ => 1)) ul (T - D)) (key T) (key (T - D)) f) as [d|e] eqn:Gd; [|discriminate].
    destruct (below_rgran _ (base (share s lat0 lon0 A M (cell_val C)) ul (T - D)) _ _ _ _ Hf (below_base _ _ _ _ SL) Gd) as [c [Gc B]].
    rewrite Gc in H. cbn [bind] in H. injection H as <- <- <-. split; auto. split.
    + clear - B. induction B as [|[k1 v1] [k2 v2] d c [E L] B IH]; constructor; auto. cbn in *. split; auto. eauto.
    + rewrite !lift_sum. clear - B. unfold rsumd. induction B as [|[k1 v1] [k2 v2] d c [E L] B IH]; cbn [map rsum fold_right snd]. lra.
      fold (rsum (map snd d)) (rsum (map snd c)). cbn [snd] in L. lra.
Qed.
