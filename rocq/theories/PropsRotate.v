(** Property C125: the mean of the reports over one rotation *)
From Coq Require Import Reals ZArith Bool String List Lra Lia Permutation.
From Coquelicot Require Import Coquelicot.
From Verif Require Import Num Py MConfig MHelpers MGrid MSpots MFaculae MXoflares MFlares MGranules MStar
  Spec SpecStar SpecDisk SpecFlux SpecSym SpecConv SpecRotate LBase LGrid LSpotMap LSpotCov LDisk LStar LStarCov LRotate PropsStar PropsSym.
Import ListNotations.
Open Scope R_scope.

(** C125 *)
Theorem C125_observable :
  forall label s nlat nlon lat0 lon0 orbit planet phase incl T D,
  two_decimals label -> st_grid s = Rect nlat nlon -> star_unified s -> fine_grid (st_grid s) -> 0 < st_radius s -> ld_positive s ->
  st_teff s = Fin T -> gr_dteff (st_gran s) = Fin D -> (forall x, In x (sc_spots (st_spots s)) -> fin_temps x) -> fcc_facs (st_facs s) = [] ->
  - PI/2 <= lat0 <= PI/2 ->
  (forall k, (k < nlon)%nat -> 0 <= orbit k /\ 0 <= planet k /\ (planet k <= st_radius s \/ cos (phase k) <= 0)) ->
  (forall t t', own_temp s T D t -> own_temp s T D t' -> label t = label t' -> t = t') ->
  (D = 0 \/ forall M, star_map s = Ok M -> appears (st_grid s) M T) ->
  exists A M C pf ts, rotation_view label s nlat nlon lat0 lon0 orbit planet phase incl T D A M C pf ts.
Proof. exact C125_observable_lemma. Qed.
Print Assumptions C125_observable.
Theorem C125_mean :
  forall label s nlat nlon lat0 lon0 orbit planet phase incl T D A M C pf f F ts,
  rotation_view label s nlat nlon lat0 lon0 orbit planet phase incl T D A M C pf ts ->
  (exists tot, rotation_reports s nlon lat0 lon0 f orbit planet phase incl tot)
  /\ (forall tot, rotation_reports s nlon lat0 lon0 f orbit planet phase incl tot ->
       rotation_mean (fun k => report_flux label F ts (tot k)) nlon
       = rsum (map (fun i => zone s lat0 lon0 A nlon i * zone_mean (pix_flux F T D f M) nlon i) (seq 0 nlat)))
  /\ rsum (map (zone s lat0 lon0 A nlon) (seq 0 nlat)) = 1
  /\ (ld_nonneg s -> 0 < disk s lat0 lon0 A -> forall i, (i < nlat)%nat -> 0 <= zone s lat0 lon0 A nlon i).
Proof. exact C125_mean_lemma. Qed.
Print Assumptions C125_mean.
Theorem C125_longitudes :
  forall label s s' nlat nlon lat0 lon0 orbit planet phase incl orbit' planet' phase' incl' T D A A' M M' C C' pf pf' f F ts ts' vs vs' tot tot',
  rotation_view label s nlat nlon lat0 lon0 orbit planet phase incl T D A M C pf ts ->
  rotation_view label s' nlat nlon lat0 lon0 orbit' planet' phase' incl' T D A' M' C' pf' ts' ->
  separate_spots s vs -> separate_spots s' vs' -> rearranged nlon s s' ->
  rotation_reports s nlon lat0 lon0 f orbit planet phase incl tot -> rotation_reports s' nlon lat0 lon0 f orbit' planet' phase' incl' tot' ->
  rotation_mean (fun k => report_flux label F ts (tot k)) nlon = rotation_mean (fun k => report_flux label F ts' (tot' k)) nlon.
Proof. exact C125_longitudes_lemma. Qed.
Print Assumptions C125_longitudes.
(** two spots on the equator, the first at two different longitudes; the grid has 6 latitudes and 8 longitudes *)
Definition ex_two (l : R) : star :=
  match star_init (Fin 3300) 1 30 (mkSpotColl [ex_sym_spot 0 l; ex_sym_spot 0 PI] (Spiral 100)) (mkFacColl [] (Spiral 100))
    (PyTuple [PyInt 6; PyInt 8]) None None None None 0 0 with
  | Ok s => s
  | Raise _ => ex_star 1 [] [] 0 0
  end.
Lemma ex_two_init : forall l, star_init (Fin 3300) 1 30 (mkSpotColl [ex_sym_spot 0 l; ex_sym_spot 0 PI] (Spiral 100)) (mkFacColl [] (Spiral 100))
    (PyTuple [PyInt 6; PyInt 8]) None None None None 0 0 = Ok (ex_two l).
Proof. reflexivity. Qed.
Lemma ex_two_labels : forall l t t', own_temp (ex_two l) 3300 0 t -> own_temp (ex_two l) 3300 0 t' -> fmt2 (Fin t) = fmt2 (Fin t') -> t = t'.
Proof.
  assert (O : forall l t, own_temp (ex_two l) 3300 0 t -> t = 3300 \/ t = 2500 \/ t = 2700).
  { intros l t [K|[K|[x [I K]]]]; [lra|lra|]. destruct I as [<-|[<-|[]]]; destruct K as [K|K]; cbn in K; injection K as <-; auto. }
  intros l t t' H H' E. apply O in H. apply O in H'.
  destruct (fmt2_two_decimals t) as [c [E1 [B1 _]]]. destruct (fmt2_two_decimals t') as [c' [E2 [B2 _]]]. rewrite E1, E2 in E. injection E as <-.
  assert (K : Rabs (100 * t - 100 * t') <= 1).
  { replace (100 * t - 100 * t') with ((IZR c - 100 * t') - (IZR c - 100 * t)) by ring. eapply Rle_trans. apply Rabs_triang. rewrite Rabs_Ropp. lra. }
  apply Rabs_le_between in K. lra.
Qed.
Example C125_observable_nonvacuous : forall l, st_grid (ex_two l) = Rect 6 8 /\ star_unified (ex_two l) /\ fine_grid (st_grid (ex_two l)) /\ 0 < st_radius (ex_two l)
  /\ ld_positive (ex_two l) /\ st_teff (ex_two l) = Fin 3300 /\ gr_dteff (st_gran (ex_two l)) = Fin 0
  /\ (forall x, In x (sc_spots (st_spots (ex_two l))) -> fin_temps x) /\ fcc_facs (st_facs (ex_two l)) = [].
Proof.
  intros l. split. reflexivity. split. apply (star_init_unified _ _ _ _ _ _ _ _ _ _ _ _ _ (ex_two_init l)). split. { cbn; lia. } split. { cbn; lra. }
  split. { intros mu H. change (st_u1 _) with 0. change (st_u2 _) with 0. lra. } split. reflexivity. split. reflexivity.
  split. { intros x [<-|[<-|[]]]; split; eexists; reflexivity. } reflexivity.
Qed.
Lemma ex_two_view : forall l, exists A M C pf ts,
  rotation_view (fun t => fmt2 (Fin t)) (ex_two l) 6 8 (1/2) 0 (fun _ => 100) (fun _ => 1/10) (fun k => PI + INR k) (fun _ => PI/2) 3300 0 A M C pf ts.
Proof.
  intros l. destruct (C125_observable_nonvacuous l) as [E1 [E2 [E3 [E4 [E5 [E6 [E7 [E8 E9]]]]]]]]. apply C125_observable_lemma; auto.
  - apply fmt2_two_decimals.
  - pose proof PI2_1. lra.
  - intros k _. cbn. repeat split; try lra.
  - apply ex_two_labels.
Qed.
Definition ex_cap (l : R) : spot_view :=
  mkView (nth 0 (sc_spots (st_spots (ex_two l))) (ex_sym_spot 0 l)) 1000 (acos (999/1000)) (acos (999/1000) / sqrt 5) 0.
Example C125_nonvacuous : rearranged 8 (ex_two 0) (ex_two (PI/2)) /\ sc_spots (st_spots (ex_two 0)) <> sc_spots (st_spots (ex_two (PI/2)))
  /\ exists vs vs', separate_spots (ex_two 0) vs /\ separate_spots (ex_two (PI/2)) vs'.
Proof.
  assert (P : 0 < PI) by apply PI_RGT_0. split; [|split].
  - split. reflexivity. split. reflexivity. split. reflexivity.
    assert (E8 : INR 8 = 8) by (simpl; lra).
    constructor; [|constructor; [|constructor]].
    + exists 2%Z. split; [|repeat split]. split; auto. exists 0%Z. change (PI/2 = 0 + 2 * PI * IZR 2 / INR 8 + 2 * PI * IZR 0). rewrite E8. lra.
    + exists 0%Z. split; [|repeat split]. split; auto. exists 0%Z. cbn. lra.
  - intros E. apply (f_equal (map sp_lon)) in E. cbn in E. injection E as E. lra.
  - exists [ex_cap 0; ex_cap PI], [ex_cap (PI/2); ex_cap PI].
    assert (CA : cos (acos (999/1000)) = 999/1000) by (apply cos_acos; lra).
    pose proof (acos_bound (999/1000)) as AB.
    assert (VO : forall l, view_ok 1 (ex_cap l)).
    { intros l. split. reflexivity. split. { split. exact AB. unfold ex_cap. cbn [v_radius v_area]. rewrite CA. lra. }
      exists 5. split. reflexivity. split. lra. reflexivity. }
    assert (A4 : acos (999/1000) <= PI / 4).
    { destruct (Rle_lt_dec (acos (999/1000)) (PI/4)) as [K|K]; auto. exfalso.
      assert (Z : cos (acos (999/1000)) < cos (PI/4)) by (apply cos_decreasing_1; lra). rewrite CA, cos_PI4 in Z.
      assert (S2 : 1.4 < sqrt 2) by (rewrite <- (sqrt_Rsqr 1.4) by lra; apply sqrt_lt_1_alt; unfold Rsqr; lra).
      apply (Rmult_lt_compat_r (sqrt 2)) in Z; [|lra]. unfold Rdiv in Z. rewrite Rmult_1_l, Rinv_l in Z by lra. lra. }
    assert (AP : forall l, cos (l - PI) <= 0 -> apart (ex_cap l) (ex_cap PI)).
    { intros l L a [RA CE]. cbn in CE. unfold cos_sep, dot, vec in CE. change (v_radius (ex_cap l)) with (acos (999/1000)). change (v_radius (ex_cap PI)) with (acos (999/1000)).
      rewrite sin_0, cos_0 in CE. rewrite cos_minus in L.
      destruct (Rle_lt_dec (PI/2) a) as [K|K]. lra. exfalso. assert (0 < cos a) by (apply cos_gt_0; lra). lra. }
    split.
    + split. reflexivity. split. reflexivity. split. { intros v [<-|[<-|[]]]; apply VO. }
      constructor. constructor; [|constructor]. apply AP. replace (0 - PI) with (- PI) by ring. rewrite cos_neg, cos_PI. lra. constructor. constructor. constructor.
    + split. reflexivity. split. reflexivity. split. { intros v [<-|[<-|[]]]; apply VO. }
      constructor. constructor; [|constructor]. apply AP. replace (PI/2 - PI) with (- (PI/2)) by field. rewrite cos_neg, cos_PI2. lra. constructor. constructor. constructor.
Qed.
