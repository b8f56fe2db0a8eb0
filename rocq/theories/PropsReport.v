(** Property C109: the report in all cases *)
From Coq Require Import Reals ZArith NArith Bool String Ascii List Lra Lia.
From Coquelicot Require Import Coquelicot.
From Verif Require Import Num Py MConfig MHelpers MGrid MSpots MFaculae MXoflares MFlares MGranules MStar MFormat MLabel
  Spec SpecStar SpecDisk SpecConv SpecFlux SpecFar SpecText SpecLabel SpecReport LBase LGrid LHelpers LSpotMap LFac LDisk LStar LStarFac LStarCov LObserve LText LLabel LReport
  PropsStar PropsConv PropsFar PropsText PropsLabel.
Import ListNotations.
Open Scope R_scope.

Theorem C109_report :
  forall label s lat0 lon0 orbit planet phase incl T D A M C pf f,
  two_decimals label -> disk_view s lat0 lon0 orbit planet phase incl T D A M C pf -> disk s lat0 lon0 A <> 0 ->
  (occurs label label s M T D (label T) ->
     exists tot cov, calc_coverage s lat0 lon0 (Fin f) orbit planet phase incl = Ok (tot, cov, pf)
       /\ reports label label s lat0 lon0 A M T D (fun _ _ => 1) f tot /\ reports label label s lat0 lon0 A M T D (cell_val C) f cov)
  /\ (~ occurs label label s M T D (label T) -> calc_coverage s lat0 lon0 (Fin f) orbit planet phase incl = Raise KeyError).
Proof. exact C109_lemma. Qed.
Print Assumptions C109_report.
Theorem C109_lost :
  forall K (lm ls : R -> K) s lat0 lon0 orbit planet phase incl T D A M C pf f d,
  disk_view s lat0 lon0 orbit planet phase incl T D A M C pf -> disk s lat0 lon0 A <> 0 ->
  reports lm ls s lat0 lon0 A M T D (fun _ _ => 1) f d ->
  (forall ts, NoDup ts -> (forall t, In t ts <-> lost lm ls s M T D t) -> dict_sum d = 1 - rsum (map (share s lat0 lon0 A M (fun _ _ => 1)) ts))
  /\ (ld_nonneg s -> dict_sum d <= 1 /\ (dict_sum d = 1 <-> forall t, lost lm ls s M T D t -> share s lat0 lon0 A M (fun _ _ => 1) t = 0)).
Proof. exact C109_lost_lemma. Qed.
Print Assumptions C109_lost.
(** a spot 0.001 K cooler than the photosphere: its share is lost *)
Example C109_nonvacuous : exists label s A M C, two_decimals label
  /\ disk_view s (ex_lat 2) 0 100 (1/10) PI (PI/2) 3300 0 A M C (Fin 1) /\ disk s (ex_lat 2) 0 A <> 0 /\ ld_nonneg s
  /\ occurs label label s M 3300 0 (label 3300) /\ counted label label s M 3300 0 3300
  /\ lost label label s M 3300 0 (3299.999) /\ 0 < share s (ex_lat 2) 0 A M (fun _ _ => 1) (3299.999)
  /\ forall f, exists tot, reports label label s (ex_lat 2) 0 A M 3300 0 (fun _ _ => 1) f tot.
Proof.
  destruct C52_collision_nonvacuous as [label [s [A [M [C [H1 [H2 [H3 [H4 [H5 [H6 [H7 [H8 [H9 [HA H10]]]]]]]]]]]]]]].
  exists label, s, A, M, C. split; auto. split; auto. split; auto. split; auto.
  assert (O : occurs label label s M 3300 0 (label 3300)) by (left; eauto). split; auto.
  split. { split; auto. split. intros t' A' _. destruct (HA t' A'); lra. left. replace (3300 - 0) with 3300 by lra. auto. }
  split. { split; auto. intros [_ [K _]]. specialize (K 3300 H6 (eq_sym H8)). lra. }
  split; auto. intros f. destruct (C109_lemma label s (ex_lat 2) 0 100 (1/10) PI (PI/2) 3300 0 A M C (Fin 1) f H1 H2 H3) as [K _].
  destruct (K O) as [tot [cov [_ [R _]]]]. eauto.
Qed.

Theorem C109_text :
  forall text_map text_star s us lat0 lon0 orbit planet phase incl T D A M C pf f,
  writes (map_unit us (length (sc_spots (st_spots s)))) text_map -> writes (us_star us) text_star ->
  sizes_positive us -> units_ok us (sc_spots (st_spots s)) ->
  disk_view s lat0 lon0 orbit planet phase incl T D A M C pf -> disk s lat0 lon0 A <> 0 ->
  occurs text_map text_star s M T D (text_star T) -> occurs text_map text_star s M T D (text_star (T - D)) ->
  exists tot cov, calc_coverage_u s us lat0 lon0 (Fin f) orbit planet phase incl = Ok (tot, cov, pf)
    /\ reports text_map text_star s lat0 lon0 A M T D (fun _ _ => 1) f tot /\ reports text_map text_star s lat0 lon0 A M T D (cell_val C) f cov.
Proof. exact C109_text_lemma. Qed.
Print Assumptions C109_text.
Example C109_text_nonvacuous : exists text A M C pf,
  writes (map_unit all_kilo (length (sc_spots (st_spots ex_dark)))) text /\ writes (us_star all_kilo) text
  /\ sizes_positive all_kilo /\ units_ok all_kilo (sc_spots (st_spots ex_dark))
  /\ disk_view ex_dark (- (PI/2)) 0 100 (1/10) PI (PI/2) 3300 200 A M C pf /\ disk ex_dark (- (PI/2)) 0 A <> 0
  /\ occurs text text ex_dark M 3300 200 (text 3300) /\ occurs text text ex_dark M 3300 200 (text (3300 - 200)).
Proof.
  destruct ex_dark_view as [A [M [C [pf [V [DP [Ap N]]]]]]].
  exists (fun t => label_u kilokelvin (in_unit kilokelvin (Fin t))), A, M, C, (Fin pf).
  assert (W : writes kilokelvin (fun t => label_u kilokelvin (in_unit kilokelvin (Fin t)))) by (apply label_writes; cbn; lra).
  destruct (ex_units_ok (sc_spots (st_spots ex_dark)) all_kilo) as [U1 U2]; auto.
  split. exact W. split. exact W. split; auto. split; auto. split; auto. split. lra. split. { left. exists 3300. auto. }
  apply (occurs_gran _ (fun t => label_u kilokelvin (in_unit kilokelvin (Fin t)))).
Qed.

Theorem C109_vanish :
  forall label s lat0 lon0 orbit planet phase incl T D A M C pf f,
  two_decimals label -> disk_view s lat0 lon0 orbit planet phase incl T D A M C pf -> disk s lat0 lon0 A <> 0 ->
  label (T - D) = label T -> ~ appears (st_grid s) M (T - D) ->
  exists tot cov, calc_coverage s lat0 lon0 (Fin f) orbit planet phase incl = Ok (tot, cov, pf)
    /\ dget tkey_eqb tot (label T) = Some (Fin 0) /\ dget tkey_eqb cov (label T) = Some (Fin 0)
    /\ ((forall t, appears (st_grid s) M t -> t = T) -> tot = [(label T, Fin 0)] /\ cov = [(label T, Fin 0)]).
Proof. exact C109_vanish_lemma. Qed.
Print Assumptions C109_vanish.
(** a star without spots and faculae, granulation 0.002 K cooler than the photosphere: the report is empty *)
Example C109_vanish_nonvacuous : exists label s A M C pf, two_decimals label
  /\ disk_view s (ex_lat 6) 0 100 (1/10) PI (PI/2) 3300 (2/1000) A M C pf /\ disk s (ex_lat 6) 0 A <> 0
  /\ label (3300 - 2/1000) = label 3300 /\ ~ appears (st_grid s) M (3300 - 2/1000)
  /\ (forall t, appears (st_grid s) M t -> t = 3300) /\ appears (st_grid s) M 3300.
Proof.
  set (s := ex_star 6 [] [] 3300 (2/1000)). assert (U : star_unified s) by apply ex_unified.
  assert (LP : ld_positive s) by (intros mu H; change (st_u1 s) with 0; change (st_u2 s) with 0; lra).
  destruct (C71_lemma s (ex_lat 6) 0 100 (1/10) PI (PI/2) 3300 (2/1000)) as [A [M [C [pf [V [_ [DP _]]]]]]]; auto; try lra; try (simpl; lia).
  { change (st_radius s) with 1; lra. } { apply ex_lat_range; lia. } { rewrite cos_PI; lra. }
  assert (MM : forall j i, pixel (Spiral 6) j i -> acell M j i NaN = Fin 3300).
  { intros j i P. destruct V as [Vu _ _ _ _ _ _ K _ _]. unfold add_faculae_to_map in K. rewrite star_map_eq in K by auto. cbn [bind] in K.
    change (fcc_facs (st_facs s)) with (@nil facula) in K. cbn [paint_faculae] in K. injection K as <-. change (st_grid s) with (Spiral 6). rewrite acell_grid by auto. reflexivity. }
  assert (MT : forall t, appears (st_grid s) M t -> t = 3300). { intros t [j [i [P E]]]. rewrite MM in E by auto. injection E; auto. }
  exists (fun t => fmt2 (Fin t)), s, A, M, C, (Fin pf). split. apply fmt2_two_decimals. split; auto. split. lra. split.
  { unfold fmt2. f_equal. replace (3300 * 100) with (IZR 330000) by lra. rewrite rhe_IZR.
    destruct (rhe_spec ((3300 - 2/1000) * 100)) as [H _]. apply Rabs_le_inv in H.
    assert (IZR 329999 < IZR (rhe ((3300 - 2/1000) * 100)) < IZR 330001) by lra. destruct H0 as [X Y]. apply lt_IZR in X, Y. lia. }
  split. { intros H. apply MT in H. lra. } split; auto. exists 0%nat, 0%nat. split; [|apply MM]; apply ex_pixel; lia.
Qed.
