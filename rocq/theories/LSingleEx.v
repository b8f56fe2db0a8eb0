(** Lemmas for C104: when single precision changes a label *)
From Coq Require Import Reals ZArith Bool List Lra Lia Sorted.
From Coquelicot Require Import Rcomplements.
From Verif Require Import Num Py MConfig MHelpers MGrid MSpots MFaculae MXoflares MFlares MGranules MStar MSingle
  Spec SpecStar SpecDisk SpecSingle LBase LGrid LSpotMap LSpotCov LStar LDisk LStarFac LStarCov LObserve LSingle LSingleRep.
Import ListNotations.
Open Scope R_scope.

Lemma C104_margin_lemma : forall rnd label t, single_rounding rnd -> two_decimals label -> powerRZ 2 (-126) <= Rabs t ->
  (forall c : Z, 100 * (Rabs t / 2 ^ 24) < Rabs (100 * t - (IZR c + 1/2))) -> label (rnd t) = label t.
Proof.
  intros rnd label t SR TD B H. rewrite (single_rounding_eq rnd SR). destruct (TD t) as [c [E [A _]]]. destruct (TD (f32_round t)) as [c' [E' [A' K']]].
  rewrite E, E'. f_equal. pose proof (f32_round_err t B) as Q. replace (2 ^ 24) with 16777216 in H by (simpl; ring).
  pose proof (H c) as H1. pose proof (H (c - 1)%Z) as H2. rewrite minus_IZR in H2.
  assert (S1 : Rabs (IZR c - 100 * f32_round t) < 1/2).
  { revert A Q H1 H2. generalize (Rabs t / 16777216). intros e. unfold Rabs. repeat destruct (Rcase_abs _); lra. }
  assert (L : Rabs (IZR (c' - c)) < 1).
  { rewrite minus_IZR. revert A' S1. unfold Rabs. repeat destruct (Rcase_abs _); lra. }
  rewrite <- abs_IZR in L. apply lt_IZR in L. lia.
Qed.
(** a star without spots and faculae *)
Lemma clean_map : forall s lat0 lon0, star_unified s -> sc_spots (st_spots s) = [] -> fcc_facs (st_facs s) = [] ->
  add_faculae_to_map s lat0 lon0 = Ok (amap (fun _ => st_teff s) (grid_points (st_grid s))).
Proof.
  intros s lat0 lon0 U NS NF. unfold add_faculae_to_map. rewrite star_map_eq by auto. cbn [bind]. rewrite NF, NS. auto.
Qed.
Lemma C104_spotless_lemma : forall rnd label s lat0 lon0 orbit planet phase incl T D f,
  single_rounding rnd -> two_decimals label ->
  star_unified s -> fine_grid (st_grid s) -> 0 < st_radius s -> ld_positive s -> st_teff s = Fin T -> gr_dteff (st_gran s) = Fin D ->
  Rabs T <= powerRZ 2 127 -> Rabs (T - D) <= powerRZ 2 127 ->
  sc_spots (st_spots s) = [] -> fcc_facs (st_facs s) = [] ->
  - PI/2 <= lat0 <= PI/2 -> 0 <= orbit -> 0 <= planet -> (planet <= st_radius s \/ cos phase <= 0) ->
  (exists r, calc_coverage s lat0 lon0 (Fin f) orbit planet phase incl = Ok r)
  /\ (rnd (T - D) <> rnd T -> ((exists r, calc_coverage32 s lat0 lon0 (Fin f) orbit planet phase incl = Ok r)
      <-> label (rnd T) = label T \/ label (T - D) = label T))
  /\ (D = 0 -> ((exists r, calc_coverage32 s lat0 lon0 (Fin f) orbit planet phase incl = Ok r) <-> label (rnd T) = label T))
  /\ (label (rnd T) <> label T -> label (T - D) <> label T ->
      calc_coverage32 s lat0 lon0 (Fin f) orbit planet phase incl = Raise KeyError).
Proof.
  intros rnd label s lat0 lon0 orbit planet phase incl T D f SR TD U F HR LP HT HD BT BD NS NF L HO HP HC.
  destruct (C71_lemma s lat0 lon0 orbit planet phase incl T D) as [A [M [C [pf [V [_ [ND K]]]]]]]; auto. { rewrite NS. intros x []. } { rewrite NF. intros x []. }
  assert (EM : M = amap (fun _ => Fin T) (grid_points (st_grid s))).
  { pose proof (dv_map _ _ _ _ _ _ _ _ _ _ _ _ _ V) as Q. rewrite clean_map, HT in Q by auto. congruence. }
  assert (AP : forall t, appears (st_grid s) M t <-> t = T).
  { intros t. rewrite EM. unfold appears. split.
    - intros [j [i [P Q]]]. rewrite acell_grid in Q by auto. congruence.
    - intros ->. assert (P : exists j i, pixel (st_grid s) j i).
      { destruct (st_grid s) as [nlat nlon|n]; simpl in F; exists 0%nat, 0%nat; apply pixel_iff; simpl; lia. }
      destruct P as [j [i P]]. exists j, i. split; auto. rewrite acell_grid; auto. }
  assert (PH : appears (st_grid s) M T) by (apply AP; auto).
  destruct (K (or_introl PH) f) as [tot [cov EX]]. split; eauto.
  destruct (C104_keyerror_lemma rnd label s lat0 lon0 orbit planet phase incl T D A M C (Fin pf) f SR TD V ltac:(lra) BT BD) as [OK ERR]. { rewrite NS. intros x []. }
  set (stored := fun t : R => exists t' : R, appears (st_grid s) M t' /\ t = rnd t') in *.
  assert (ST : forall t, stored t <-> t = rnd T). { intros t. unfold stored. split. intros [t' [Q ->]]. apply AP in Q. subst; auto. intros ->. exists T. auto. }
  set (labelled := fun k : tkey => (exists t : R, stored t /\ label t = k) \/ ~ stored (rnd (T - D)) /\ label (T - D) = k) in *.
  assert (LB : forall k, labelled k <-> label (rnd T) = k \/ (rnd (T - D) <> rnd T /\ label (T - D) = k)).
  { intros k. unfold labelled. rewrite ST. split; (intros [Q|Q]; [left|right; auto]). destruct Q as [t [Q <-]]. apply ST in Q. subst; auto. exists (rnd T). split; auto. apply ST; auto. }
  assert (DEC : labelled (label T) /\ labelled (label (T - D)) \/ ~ (labelled (label T) /\ labelled (label (T - D)))).
  { rewrite !LB. destruct (tkey_dec (label (rnd T)) (label T)), (tkey_dec (label (rnd T)) (label (T - D))), (tkey_dec (label (T - D)) (label T)), (Req_EM_T (rnd (T - D)) (rnd T)); tauto. }
  assert (OK' : labelled (label T) /\ labelled (label (T - D)) -> exists tot cov, calc_coverage32 s lat0 lon0 (Fin f) orbit planet phase incl = Ok (tot, cov, Fin pf)) by exact OK.
  assert (ERR' : ~ (labelled (label T) /\ labelled (label (T - D))) -> calc_coverage32 s lat0 lon0 (Fin f) orbit planet phase incl = Raise KeyError) by exact ERR.
  clear OK ERR. clearbody labelled.
  split; [|split].
  - intros NR. split.
    + intros [r Hr]. destruct DEC as [[D1 _]|D1]. apply LB in D1. tauto. apply ERR' in D1. rewrite D1 in Hr. discriminate.
    + intros H. destruct OK' as [t [c E]]; eauto. rewrite !LB. tauto.
  - intros ->. replace (T - 0) with T in * by ring. split.
    + intros [r Hr]. destruct DEC as [[D1 _]|D1]. apply LB in D1. tauto. apply ERR' in D1. rewrite D1 in Hr. discriminate.
    + intros H. destruct OK' as [t [c E]]; eauto. rewrite !LB. tauto.
  - intros N1 N2. apply ERR'. rewrite !LB. tauto.
Qed.
(** 3300.005001 K is stored as 3300.0048828125 K *)
Lemma f32_fine : forall y, f32_value y -> 2048 < y -> exists k : Z, y = IZR k / 4096.
Proof.
  intros y [m [e [Hm [He ->]]]] H. change (2 ^ 24)%Z with 16777216%Z in Hm. destruct (Z_le_gt_dec (-12) e) as [L|G].
  - exists (m * 2 ^ (e + 12))%Z. rewrite mult_IZR, <- p2_Z by lia. rewrite p2_add, (p2_Z 12) by lia. change (IZR (2 ^ 12)) with 4096. field.
  - exfalso. pose proof (p2_le e (-13) ltac:(lia)) as Q. replace (powerRZ 2 (-13)) with (/ 8192) in Q by (simpl; lra).
    pose proof (p2_pos e) as Pe. apply IZR_le in Hm. rewrite abs_IZR in Hm. assert (IZR m <= 16777216) by (revert Hm; unfold Rabs; destruct (Rcase_abs _); lra). nra.
Qed.
Lemma ex_round : forall rnd, single_rounding rnd -> rnd 3300.005001 = 13516820 / 4096.
Proof.
  intros rnd SR. destruct (SR 3300.005001) as [V [N _]].
  assert (W : f32_value (13516820 / 4096)).
  { exists 13516820%Z, (-12)%Z. split. simpl; lia. split. lia. replace (powerRZ 2 (-12)) with (/ 4096) by (simpl; lra). reflexivity. }
  specialize (N _ W). assert (B : 3300.0048 < rnd 3300.005001 < 3300.0052).
  { revert N. rewrite (Rabs_left (13516820 / 4096 - _)) by lra. intros N. apply Rabs_le_between in N. lra. }
  destruct (f32_fine _ V) as [k E]. lra. rewrite E in *. f_equal. f_equal.
  assert ((13516819 < k)%Z /\ (k < 13516822)%Z) by (split; apply lt_IZR; lra).
  assert (k = 13516820 \/ k = 13516821)%Z as [-> | ->] by lia; auto. exfalso.
  revert N. rewrite (Rabs_left (13516820 / 4096 - _)), (Rabs_right (13516821 / 4096 - _)) by lra. lra.
Qed.
Lemma ex_label : forall label c t, two_decimals label -> Rabs (IZR c - 100 * t) < 1/2 -> label t = KCenti c.
Proof.
  intros label c t TD H. destruct (TD t) as [c' [-> [A _]]]. f_equal.
  assert (L : Rabs (IZR (c' - c)) < 1). { rewrite minus_IZR. revert A H. unfold Rabs. repeat destruct (Rcase_abs _); lra. }
  rewrite <- abs_IZR in L. apply lt_IZR in L. lia.
Qed.
