(** Property C108: the labels of the report *)
From Coq Require Import Reals ZArith NArith Bool String Ascii List Lra Lia.
From Coquelicot Require Import Coquelicot.
From Verif Require Import Num Py MConfig MHelpers MGrid MSpots MFaculae MXoflares MFlares MGranules MStar MFormat MLabel
  Spec SpecStar SpecDisk SpecConv SpecFlux SpecFar SpecText SpecLabel LBase LGrid LHelpers LSpotMap LFac LDisk LStar LStarFac LStarCov LObserve LSpotDisk LFar LText LLabel
  PropsStar PropsConv PropsFar PropsText.
Import ListNotations.
Open Scope R_scope.

Definition kelvin : tunit := mkTUnit "K" 1.
Definition kilokelvin : tunit := mkTUnit "kK" 1000.
(** everything in kelvin; the star in kilokelvin and its spots in kelvin *)
Definition all_kelvin : tunits := mkTUnits kelvin (fun _ => (kelvin, kelvin)).
Definition all_kilo : tunits := mkTUnits kilokelvin (fun _ => (kilokelvin, kilokelvin)).
Definition mixed_units : tunits := mkTUnits kilokelvin (fun _ => (kelvin, kelvin)).
Lemma ex_units_ok : forall l us, us = all_kelvin \/ us = all_kilo \/ us = mixed_units -> sizes_positive us /\ units_ok us l.
Proof.
  intros l us [->|[->| ->]]; (split; [split; [cbn; lra|intros; cbn; lra]|]); intros i x _; cbn; auto.
Qed.
Lemma ex_dark_view : exists A M C pf, disk_view ex_dark (- (PI/2)) 0 100 (1/10) PI (PI/2) 3300 200 A M C (Fin pf)
  /\ 0 < disk ex_dark (- (PI/2)) 0 A /\ appears (st_grid ex_dark) M 3300 /\ forall t, named ex_dark M 3300 200 t -> In t [2500; 2700; 3300; 3100; 3450; 3200].
Proof.
  pose proof PI_RGT_0 as PP. pose proof PI2_3_2 as P3.
  assert (FG : fine_grid (Spiral 100)) by (simpl; lia).
  assert (LP : forall x, 0 < x <= 1 -> 0 < 1 - 0 * (1 - x) - 0 * (1 - x)^2) by (intros; lra).
  destruct (C71_lemma ex_dark (- (PI/2)) 0 100 (1/10) PI (PI/2) 3300 200 ex_dark_unified FG ltac:(change (st_radius ex_dark) with 1; lra) LP eq_refl eq_refl) as [A [M [C [pf [V [_ [DP _]]]]]]]; try lra.
  { intros x [<-|[]]. split; eexists; reflexivity. }
  { intros f [<-|[]]. destruct ex_far_rounds as [R1 R2]. exists 100000, 100, 0, 20, (-100), 0, 150, 150%Z, (-100)%Z. split. apply ex_far_thermal.
    split. lra. split. lra. split; auto. split; auto. split. discriminate.
    change (fc_lat ex_far_fac) with (PI/2). change (fc_lon ex_far_fac) with 0. destruct ex_pole_angle as [_ <-]. rewrite cos_PI. lra. }
  { left. change (st_radius ex_dark) with 1. lra. }
  exists A, M, C, pf. split; auto. split; auto. split.
  - set (s := ex_spotted 100 0 0 []).
    destruct (C71_lemma s (- (PI/2)) 0 100 (1/10) PI (PI/2) 3300 200 (ex_spotted_unified 100 0 0 []) FG ltac:(change (st_radius s) with 1; lra) LP eq_refl eq_refl) as [A' [M' [C' [pf' [V' _]]]]]; try lra.
    { intros x []. } { intros f []. } { left. change (st_radius s) with 1. lra. }
    assert (SH : spot_hidden 1 (- (PI/2)) 0 (ex_polar (PI/2) 100)).
    { exists (PI/3), 4, PI. split. apply (cap_rad_eq 1 (PropsConv.ex_view (PI/2) 0 100)); [lra|apply ex_view_ok]. split. reflexivity. split. lra. split. apply ex_pole_angle. lra. }
    assert (FH : fac_hidden 1 (- (PI/2)) 0 ex_far_fac).
    { exists 100000, PI. split. reflexivity. split. apply ex_pole_angle. unfold SUN_KM. rewrite Rmult_1_l. lra. }
    assert (MM : forall j i, pixel (Spiral 100) j i -> acell M' j i NaN = Fin 3300).
    { intros j i P. destruct V' as [Vu _ _ _ _ _ _ K _ _]. unfold add_faculae_to_map in K. rewrite star_map_eq in K by auto. cbn [bind] in K.
      change (fcc_facs (st_facs s)) with (@nil facula) in K. cbn [paint_faculae] in K. injection K as <-. change (st_grid s) with (Spiral 100). rewrite acell_grid by auto. reflexivity. }
    assert (SM : same_front s (- (PI/2)) 0 M' M).
    { apply (C106_front_lemma s [ex_polar (PI/2) 100] [ex_far_fac] ex_dark); first [apply V | apply V' | apply ex_dark_eq | intros x [<-|[]]; assumption]. }
    assert (P99 : pixel (Spiral 100) 0 99) by (apply ex_pixel; lia).
    exists 0%nat, 99%nat. split; auto. rewrite SM; auto.
    unfold pix_mu. change (st_grid s) with (Spiral 100). destruct (ex_pt 100 99 ltac:(lia)) as [-> ->]. rewrite <- law_cos_dot. unfold law_cos. rewrite sin_neg, cos_neg, sin_PI2, cos_PI2, spiral_sin_lat by lia.
    replace (INR 99) with 99 by (simpl; lra). replace (INR 100) with 100 by (simpl; lra). lra.
  - intros t [[[j [i [P K]]]| ->]| ->]; cbn [In].
    + destruct (ex_far_temps M j i ltac:(apply V) P) as [u [Eu [Iu _]]]. rewrite Eu in K; injection K as <-; cbn [In] in Iu; tauto.
    + right; right; right; left; lra.
    + tauto.
Qed.
Lemma ex_kilo_inj : forall text, writes kilokelvin text -> forall t t', In t [2500; 2700; 3300; 3100; 3450; 3200] -> In t' [2500; 2700; 3300; 3100; 3450; 3200] ->
  text t = text t' -> t = t'.
Proof.
  intros text W t t' I I' E.
  rewrite !(writes_eq kilokelvin text ltac:(cbn; lra) W) in E. unfold label_u in E. apply fmt_quantity_inj in E. destruct E as [E _].
  unfold in_unit in E. rewrite !ndiv_fin in E by (cbn; lra). destruct E as [_ [k [[A _] [B _]]]]. apply Rabs_le_between in A, B. cbn [kilokelvin tu_size] in A, B.
  assert (Q : forall x, In x [2500; 2700; 3300; 3100; 3450; 3200] -> 0 <= x) by (intros x [<-|[<-|[<-|[<-|[<-|[<-|[]]]]]]]; lra).
  pose proof (Q t I). pose proof (Q t' I'). rewrite (Rabs_pos_eq (t / 1000)) in A by lra. rewrite (Rabs_pos_eq (t' / 1000)) in B by lra.
  clear Q. cbn [In] in I, I'. destruct I as [<-|[<-|[<-|[<-|[<-|[<-|[]]]]]]]; destruct I' as [<-|[<-|[<-|[<-|[<-|[<-|[]]]]]]]; lra.
Qed.

Theorem C108_relabelled :
  forall label text s us lat0 lon0 orbit planet phase incl T D A M C pf g,
  two_decimals label -> writes (us_star us) text -> sizes_positive us -> units_ok us (sc_spots (st_spots s)) ->
  disk_view s lat0 lon0 orbit planet phase incl T D A M C pf ->
  map_unit us (length (sc_spots (st_spots s))) = us_star us ->
  (forall t t', named s M T D t -> named s M T D t' -> (label t = label t' <-> text t = text t')) ->
  match calc_coverage s lat0 lon0 g orbit planet phase incl, calc_coverage_u s us lat0 lon0 g orbit planet phase incl with
  | Ok (tot, cov, p), Ok (tot', cov', p') => relabelled s M T D label text tot tot' /\ relabelled s M T D label text cov cov' /\ p = p'
  | Raise e, Raise e' => e = e'
  | _, _ => False
  end.
Proof. exact C108_relabelled_lemma. Qed.
Print Assumptions C108_relabelled.
Example C108_relabelled_nonvacuous : exists label text A M C pf,
  two_decimals label /\ writes (us_star all_kilo) text /\ sizes_positive all_kilo /\ units_ok all_kilo (sc_spots (st_spots ex_dark))
  /\ disk_view ex_dark (- (PI/2)) 0 100 (1/10) PI (PI/2) 3300 200 A M C pf
  /\ map_unit all_kilo (length (sc_spots (st_spots ex_dark))) = us_star all_kilo
  /\ (forall t t', named ex_dark M 3300 200 t -> named ex_dark M 3300 200 t' -> (label t = label t' <-> text t = text t'))
  /\ appears (st_grid ex_dark) M 3300.
Proof.
  destruct ex_dark_view as [A [M [C [pf [V [_ [Ap N]]]]]]].
  exists (fun t => fmt2 (Fin t)), (fun t => label_u kilokelvin (in_unit kilokelvin (Fin t))), A, M, C, (Fin pf).
  assert (W : writes kilokelvin (fun t => label_u kilokelvin (in_unit kilokelvin (Fin t)))) by (apply label_writes; cbn; lra).
  split. apply fmt2_two_decimals. split. exact W. destruct (ex_units_ok (sc_spots (st_spots ex_dark)) all_kilo) as [U1 U2]; auto.
  split; auto. split; auto. split; auto. split. reflexivity. split; auto. intros t t' I I'. split; intros E; f_equal; f_equal; f_equal; f_equal.
  - apply ex_far_labels; auto.
  - apply (ex_kilo_inj _ W); auto.
Qed.

Theorem C108_kelvin :
  forall label text s us lat0 lon0 orbit planet phase incl T D A M C pf g,
  two_decimals label -> writes (us_star us) text -> sizes_positive us -> units_ok us (sc_spots (st_spots s)) ->
  disk_view s lat0 lon0 orbit planet phase incl T D A M C pf ->
  map_unit us (length (sc_spots (st_spots s))) = us_star us -> tu_size (us_star us) = 1 ->
  (forall t, named s M T D t -> 0 <= t) ->
  match calc_coverage s lat0 lon0 g orbit planet phase incl, calc_coverage_u s us lat0 lon0 g orbit planet phase incl with
  | Ok (tot, cov, p), Ok (tot', cov', p') => relabelled s M T D label text tot tot' /\ relabelled s M T D label text cov cov' /\ p = p'
  | Raise e, Raise e' => e = e'
  | _, _ => False
  end.
Proof. exact C108_kelvin_lemma. Qed.
Print Assumptions C108_kelvin.
Example C108_kelvin_nonvacuous : exists label text A M C pf,
  two_decimals label /\ writes (us_star all_kelvin) text /\ sizes_positive all_kelvin /\ units_ok all_kelvin (sc_spots (st_spots ex_dark))
  /\ disk_view ex_dark (- (PI/2)) 0 100 (1/10) PI (PI/2) 3300 200 A M C pf
  /\ map_unit all_kelvin (length (sc_spots (st_spots ex_dark))) = us_star all_kelvin /\ tu_size (us_star all_kelvin) = 1
  /\ (forall t, named ex_dark M 3300 200 t -> 0 <= t)
  /\ appears (st_grid ex_dark) M 3300 /\ text 3300 = "3300.00 K"%string.
Proof.
  destruct ex_dark_view as [A [M [C [pf [V [_ [Ap N]]]]]]].
  exists (fun t => fmt2 (Fin t)), (fun t => label_u kelvin (in_unit kelvin (Fin t))), A, M, C, (Fin pf).
  split. apply fmt2_two_decimals. split. apply label_writes; cbn; lra. destruct (ex_units_ok (sc_spots (st_spots ex_dark)) all_kelvin) as [U1 U2]; auto.
  split; auto. split; auto. split; auto. split. reflexivity. split. reflexivity. split.
  { intros t I. apply N in I. cbn [In] in I. destruct I as [<-|[<-|[<-|[<-|[<-|[<-|[]]]]]]]; lra. }
  split; auto. unfold in_unit, label_u. rewrite ndiv_fin by (cbn; lra). cbn [tu_size kelvin]. replace (3300 / 1) with 3300 by field.
  unfold fmt_quantity. rewrite (proj1 C107_text_nonvacuous). reflexivity.
Qed.

Theorem C108_labels :
  forall text_map text_star s us lat0 lon0 orbit planet phase incl T D A M C pf g,
  writes (map_unit us (length (sc_spots (st_spots s)))) text_map -> writes (us_star us) text_star ->
  sizes_positive us -> units_ok us (sc_spots (st_spots s)) ->
  disk_view s lat0 lon0 orbit planet phase incl T D A M C pf ->
  let labels := labelled s M T D text_map text_star in
  (labels (text_star T) /\ labels (text_star (T - D)) ->
     exists tot cov, calc_coverage_u s us lat0 lon0 g orbit planet phase incl = Ok (tot, cov, pf)
       /\ NoDup (map fst tot) /\ NoDup (map fst cov) /\ (forall k, In k (map fst tot) <-> labels k) /\ (forall k, In k (map fst cov) <-> labels k))
  /\ (~ (labels (text_star T) /\ labels (text_star (T - D))) -> calc_coverage_u s us lat0 lon0 g orbit planet phase incl = Raise KeyError).
Proof. exact C108_labels_lemma. Qed.
Print Assumptions C108_labels.
Example C108_labels_nonvacuous : exists text A M C pf,
  writes (map_unit all_kilo (length (sc_spots (st_spots ex_dark)))) text /\ writes (us_star all_kilo) text
  /\ sizes_positive all_kilo /\ units_ok all_kilo (sc_spots (st_spots ex_dark))
  /\ disk_view ex_dark (- (PI/2)) 0 100 (1/10) PI (PI/2) 3300 200 A M C pf
  /\ labelled ex_dark M 3300 200 text text (text 3300) /\ labelled ex_dark M 3300 200 text text (text (3300 - 200)).
Proof.
  destruct ex_dark_view as [A [M [C [pf [V [_ [Ap N]]]]]]].
  exists (fun t => label_u kilokelvin (in_unit kilokelvin (Fin t))), A, M, C, (Fin pf).
  assert (W : writes kilokelvin (fun t => label_u kilokelvin (in_unit kilokelvin (Fin t)))) by (apply label_writes; cbn; lra).
  destruct (ex_units_ok (sc_spots (st_spots ex_dark)) all_kilo) as [U1 U2]; auto.
  split. exact W. split. exact W. split; auto. split; auto. split; auto. split. { left. exists 3300. auto. }
  destruct (Classical_Prop.classic (appears (st_grid ex_dark) M (3300 - 200))); [left|right]; eauto.
Qed.

Theorem C108_mixed :
  forall text s us lat0 lon0 orbit planet phase incl T D A M C pf g,
  writes (us_star us) text -> sizes_positive us -> units_ok us (sc_spots (st_spots s)) ->
  disk_view s lat0 lon0 orbit planet phase incl T D A M C pf ->
  tu_name (map_unit us (length (sc_spots (st_spots s)))) <> tu_name (us_star us) ->
  appears (st_grid s) M (T - D) \/ text T <> text (T - D) ->
  calc_coverage_u s us lat0 lon0 g orbit planet phase incl = Raise KeyError.
Proof. exact C108_mixed_lemma. Qed.
Print Assumptions C108_mixed.
Example C108_mixed_nonvacuous : exists text A M C pf,
  writes (us_star mixed_units) text /\ sizes_positive mixed_units /\ units_ok mixed_units (sc_spots (st_spots ex_dark))
  /\ disk_view ex_dark (- (PI/2)) 0 100 (1/10) PI (PI/2) 3300 200 A M C pf
  /\ tu_name (map_unit mixed_units (length (sc_spots (st_spots ex_dark)))) <> tu_name (us_star mixed_units)
  /\ (appears (st_grid ex_dark) M (3300 - 200) \/ text 3300 <> text (3300 - 200))
  (* the same star with all temperatures in kelvin gives a report *)
  /\ exists tot cov, calc_coverage_u ex_dark all_kelvin (- (PI/2)) 0 (Fin (1/5)) 100 (1/10) PI (PI/2) = Ok (tot, cov, pf).
Proof.
  destruct ex_dark_view as [A [M [C [pf [V [_ [Ap N]]]]]]].
  exists (fun t => label_u kilokelvin (in_unit kilokelvin (Fin t))), A, M, C, (Fin pf).
  assert (W : writes kilokelvin (fun t => label_u kilokelvin (in_unit kilokelvin (Fin t)))) by (apply label_writes; cbn; lra).
  assert (W' : writes kelvin (fun t => label_u kelvin (in_unit kelvin (Fin t)))) by (apply label_writes; cbn; lra).
  destruct (ex_units_ok (sc_spots (st_spots ex_dark)) mixed_units) as [U1 U2]; auto.
  split. exact W. split; auto. split; auto. split; auto. split. { cbn. discriminate. } split.
  { right. intros E. apply (ex_kilo_inj _ W) in E; [lra|cbn [In]; tauto|]. replace (3300 - 200) with 3100 by lra. cbn [In]; tauto. }
  destruct (ex_units_ok (sc_spots (st_spots ex_dark)) all_kelvin) as [U1' U2']; auto.
  destruct (C108_labels_lemma _ _ ex_dark all_kelvin (- (PI/2)) 0 100 (1/10) PI (PI/2) 3300 200 A M C (Fin pf) (Fin (1/5)) W' W' U1' U2' V) as [K _].
  destruct K as [tot [cov [K _]]]; [|eauto]. split. { left. exists 3300. auto. }
  destruct (Classical_Prop.classic (appears (st_grid ex_dark) M (3300 - 200))); [left|right]; eauto.
Qed.
