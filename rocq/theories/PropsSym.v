(** Property C75: the coverage report has the symmetries of the sphere *)
From Coq Require Import Reals ZArith Bool String List Lra Lia.
From Coquelicot Require Import Coquelicot.
From Verif Require Import Num Py MConfig MHelpers MGrid MSpots MFaculae MXoflares MFlares MGranules MStar
  Spec SpecStar SpecDisk SpecSym LBase LGrid LFac LDisk LStar LStarFac LObserve LSym PropsStar PropsMore.
Import ListNotations.
Open Scope R_scope.

(** stars with one spot and one facula, on a 6 x 8 grid *)
Definition ex_sym_spot (lat lon : R) : spot :=
  spot_init lat lon (Fin 1000) (Fin 1000) (Fin 2500) (Fin 2700) (Fin 5) false (Fin (1/2)) (-1) (Fin 10) (Spiral 2).
Definition ex_sym_fac (lat lon : R) : facula :=
  {| fc_lat := lat; fc_lon := lon; fc_rmax := Fin 1000; fc_radius := Fin 1000; fc_depth := Fin 100; fc_life := Fin 6;
     fc_fslope := Fin 0; fc_fminrad := Fin 20; fc_fbase := Fin (-100); fc_wslope := Fin 0; fc_wint := Fin 150;
     fc_growing := false; fc_grid := Spiral 5 |}.
Definition ex_sym (a b c d : R) : star :=
  match star_init (Fin 3300) 1 30 (mkSpotColl [ex_sym_spot a b] (Spiral 100)) (mkFacColl [ex_sym_fac c d] (Spiral 100))
    (PyTuple [PyInt 6; PyInt 8]) None None None None 0 0 with
  | Ok s => s
  | Raise _ => ex_star 1 [] [] 0 0
  end.
Lemma ex_sym_init : forall a b c d,
  star_init (Fin 3300) 1 30 (mkSpotColl [ex_sym_spot a b] (Spiral 100)) (mkFacColl [ex_sym_fac c d] (Spiral 100))
    (PyTuple [PyInt 6; PyInt 8]) None None None None 0 0 = Ok (ex_sym a b c d).
Proof. reflexivity. Qed.
Lemma ex_sym_unified : forall a b c d, star_unified (ex_sym a b c d).
Proof. intros. apply (star_init_unified _ _ _ _ _ _ _ _ _ _ _ _ _ (ex_sym_init a b c d)). Qed.
Lemma ex_sym_moved : forall (rel : R * R -> R * R -> Prop) a b c d a' b' c' d', rel (a, b) (a', b') -> rel (c, d) (c', d') ->
  moved_star rel (ex_sym a b c d) (ex_sym a' b' c' d').
Proof.
  intros rel a b c d a' b' c' d' H1 H2. repeat split; try reflexivity.
  - constructor; [|constructor]. repeat split. exact H1.
  - constructor; [|constructor]. repeat split. exact H2.
Qed.
(** the report of such a star, seen in transit from above its facula *)
Lemma ex_sym_report : forall a b c d, - PI/2 <= c <= PI/2 -> exists tot cov pf,
  calc_coverage (ex_sym a b c d) c d (Fin (1/5)) 100 (1/10) PI (PI/2) = Ok (tot, cov, Fin pf).
Proof.
  intros a b c d L. destruct (C71_lemma (ex_sym a b c d) c d 100 (1/10) PI (PI/2) 3300 0) as [A [M [C [pf [V [_ [D K]]]]]]].
  - apply ex_sym_unified.
  - simpl; lia.
  - simpl; lra.
  - intros mu H. change (st_u1 _) with 0. change (st_u2 _) with 0. lra.
  - reflexivity.
  - reflexivity.
  - intros x [<-|[]]. split; eexists; reflexivity.
  - auto.
  - intros f [<-|[]]. destruct ex_rounds as [R1 R2]. exists 1000, 100, 0, 20, (-100), 0, 150, 150%Z, (-100)%Z. split. repeat split.
    split. lra. split. lra. split; auto. split; auto. split. discriminate.
    cbn [fc_lat fc_lon fac_assign_grid ex_sym_fac]. rewrite cos_sep_self. lra.
  - lra.
  - lra.
  - right. rewrite cos_PI; lra.
  - destruct (K (or_intror eq_refl) (1/5)) as [tot [cov E]]. eauto.
Qed.

(** C75: turning star and observer by three of the eight longitude steps *)
Theorem C75_turn :
  forall s s' nlat nlon (k : Z) lat0 lon0 lon0' gf orbit planet phase incl,
  star_unified s -> star_unified s' -> st_grid s = Rect nlat nlon ->
  moved_star (turned (2 * PI * IZR k / INR nlon)) s s' ->
  turned (2 * PI * IZR k / INR nlon) (lat0, lon0) (lat0, lon0') -> - PI/2 < lat0 < PI/2 ->
  calc_coverage s' lat0 lon0' gf orbit planet phase incl = calc_coverage s lat0 lon0 gf orbit planet phase incl.
Proof. exact C75_turn_lemma. Qed.
Print Assumptions C75_turn.
Theorem C75_full_turn :
  forall s s' lat0 lon0 lon0' gf orbit planet phase incl,
  star_unified s -> star_unified s' -> moved_star (turned 0) s s' ->
  turned 0 (lat0, lon0) (lat0, lon0') -> - PI/2 <= lat0 <= PI/2 ->
  calc_coverage s' lat0 lon0' gf orbit planet phase incl = calc_coverage s lat0 lon0 gf orbit planet phase incl.
Proof. exact C75_full_lemma. Qed.
Print Assumptions C75_full_turn.
Theorem C75_east_west :
  forall s s' nlat nlon lat0 lon0 lon0' gf orbit planet phase phase' incl (m : Z),
  star_unified s -> star_unified s' -> st_grid s = Rect nlat nlon -> moved_star mirrored_ew s s' ->
  mirrored_ew (lat0, lon0) (lat0, lon0') -> - PI/2 <= lat0 <= PI/2 -> phase' = - phase + 2 * PI * IZR m ->
  calc_coverage s' lat0 lon0' gf orbit planet phase' incl = calc_coverage s lat0 lon0 gf orbit planet phase incl.
Proof. exact C75_east_west_lemma. Qed.
Print Assumptions C75_east_west.
Theorem C75_north_south :
  forall s s' nlat nlon lat0 lon0 lon0' gf orbit planet phase incl,
  star_unified s -> star_unified s' -> st_grid s = Rect nlat nlon -> nlat <> 1%nat -> moved_star mirrored_ns s s' ->
  mirrored_ns (lat0, lon0) (- lat0, lon0') -> - PI/2 <= lat0 <= PI/2 ->
  calc_coverage s' (- lat0) lon0' gf orbit planet phase (PI - incl) = calc_coverage s lat0 lon0 gf orbit planet phase incl.
Proof. exact C75_north_south_lemma. Qed.
Print Assumptions C75_north_south.
Theorem C75_half_turn :
  forall s s' n lat0 lon0 lon0' gf orbit planet phase phase' incl (m : Z),
  let c := PI * (INR n - 1) / GOLDEN_RATIO in
  star_unified s -> star_unified s' -> st_grid s = Spiral n -> moved_star (turned_over c) s s' ->
  turned_over c (lat0, lon0) (- lat0, lon0') -> - PI/2 < lat0 < PI/2 -> phase' = - phase + 2 * PI * IZR m ->
  calc_coverage s' (- lat0) lon0' gf orbit planet phase' (PI - incl) = calc_coverage s lat0 lon0 gf orbit planet phase incl.
Proof. exact C75_half_turn_lemma. Qed.
Print Assumptions C75_half_turn.
Example C75_turn_nonvacuous : exists s s' lat0 lon0 lon0' tot cov pf,
  star_unified s /\ star_unified s' /\ st_grid s = Rect 6 8 /\ moved_star (turned (2 * PI * IZR 3 / INR 8)) s s'
  /\ turned (2 * PI * IZR 3 / INR 8) (lat0, lon0) (lat0, lon0') /\ - PI/2 < lat0 < PI/2
  /\ sc_spots (st_spots s) <> [] /\ fcc_facs (st_facs s) <> []
  /\ calc_coverage s lat0 lon0 (Fin (1/5)) 100 (1/10) PI (PI/2) = Ok (tot, cov, Fin pf).
Proof.
  pose proof PI_RGT_0. set (d := 2 * PI * IZR 3 / INR 8).
  destruct (ex_sym_report (1/5) (1/3) (1/10) (1/7)) as [tot [cov [pf E]]]; [pose proof PI2_3_2; lra|].
  assert (T : forall a b, turned d (a, b) (a, b + d)) by (intros; split; [reflexivity|exists 0%Z; cbn [snd]; ring]).
  exists (ex_sym (1/5) (1/3) (1/10) (1/7)), (ex_sym (1/5) (1/3 + d) (1/10) (1/7 + d)), (1/10), (1/7), (1/7 + d), tot, cov, pf.
  split. apply ex_sym_unified. split. apply ex_sym_unified. split. reflexivity.
  split. apply ex_sym_moved; apply T. split. apply T. split. pose proof PI2_3_2; lra. split. discriminate. split. discriminate. exact E.
Qed.
Example C75_full_nonvacuous : exists s s', star_unified s /\ star_unified s' /\ moved_star (turned 0) s s'
  /\ turned 0 (0, 1) (0, 1 - 2 * PI) /\ sc_spots (st_spots s) <> [] /\ fcc_facs (st_facs s) <> [].
Proof.
  assert (T : forall a b, turned 0 (a, b) (a, b - 2 * PI)) by (intros; split; [reflexivity|exists (-1)%Z; cbn [snd]; ring]).
  exists (ex_sym (1/5) (1/3) (1/10) (1/7)), (ex_sym (1/5) (1/3 - 2 * PI) (1/10) (1/7 - 2 * PI)).
  split. apply ex_sym_unified. split. apply ex_sym_unified. split. apply ex_sym_moved; apply T. split. apply T. split; discriminate.
Qed.
Example C75_mirror_nonvacuous : exists s e n tot cov pf,
  star_unified s /\ star_unified e /\ star_unified n /\ st_grid s = Rect 6 8
  /\ moved_star mirrored_ew s e /\ mirrored_ew (1/10, 1/7) (1/10, - (1/7))
  /\ moved_star mirrored_ns s n /\ mirrored_ns (1/10, 1/7) (- (1/10), 1/7) /\ - PI/2 <= 1/10 <= PI/2
  /\ sc_spots (st_spots s) <> [] /\ fcc_facs (st_facs s) <> []
  /\ calc_coverage s (1/10) (1/7) (Fin (1/5)) 100 (1/10) PI (PI/2) = Ok (tot, cov, Fin pf).
Proof.
  destruct (ex_sym_report (1/5) (1/3) (1/10) (1/7)) as [tot [cov [pf E]]]; [pose proof PI2_3_2; lra|].
  assert (T1 : forall a b, mirrored_ew (a, b) (a, - b)) by (intros; split; [reflexivity|exists 0%Z; cbn [snd]; ring]).
  assert (T2 : forall a b, mirrored_ns (a, b) (- a, b)) by (intros; split; [reflexivity|exists 0%Z; cbn [snd]; ring]).
  exists (ex_sym (1/5) (1/3) (1/10) (1/7)), (ex_sym (1/5) (- (1/3)) (1/10) (- (1/7))), (ex_sym (- (1/5)) (1/3) (- (1/10)) (1/7)), tot, cov, pf.
  split. apply ex_sym_unified. split. apply ex_sym_unified. split. apply ex_sym_unified. split. reflexivity.
  split. apply ex_sym_moved; apply T1. split. apply T1. split. apply ex_sym_moved; apply T2. split. apply T2.
  split. pose proof PI2_3_2; lra. split. discriminate. split. discriminate. exact E.
Qed.
(** the same star on a spiral grid of 20 points *)
Definition ex_spi (a b c d : R) : star :=
  match star_init (Fin 3300) 1 30 (mkSpotColl [ex_sym_spot a b] (Spiral 100)) (mkFacColl [ex_sym_fac c d] (Spiral 100))
    (PyInt 20) None None None None 0 0 with
  | Ok s => s
  | Raise _ => ex_star 1 [] [] 0 0
  end.
Lemma ex_spi_init : forall a b c d,
  star_init (Fin 3300) 1 30 (mkSpotColl [ex_sym_spot a b] (Spiral 100)) (mkFacColl [ex_sym_fac c d] (Spiral 100))
    (PyInt 20) None None None None 0 0 = Ok (ex_spi a b c d).
Proof. reflexivity. Qed.
Lemma ex_spi_unified : forall a b c d, star_unified (ex_spi a b c d).
Proof. intros. apply (star_init_unified _ _ _ _ _ _ _ _ _ _ _ _ _ (ex_spi_init a b c d)). Qed.
Example C75_half_turn_nonvacuous : let k := PI * (INR 20 - 1) / GOLDEN_RATIO in exists s s' tot cov pf,
  star_unified s /\ star_unified s' /\ st_grid s = Spiral 20 /\ moved_star (turned_over k) s s'
  /\ turned_over k (1/10, 1/7) (- (1/10), 2 * k - 1/7) /\ - PI/2 < 1/10 < PI/2
  /\ sc_spots (st_spots s) <> [] /\ fcc_facs (st_facs s) <> []
  /\ calc_coverage s (1/10) (1/7) (Fin (1/5)) 100 (1/10) PI (PI/2) = Ok (tot, cov, Fin pf).
Proof.
  intros k.
  assert (T : forall a b, turned_over k (a, b) (- a, 2 * k - b)) by (intros; split; [reflexivity|exists 0%Z; cbn [snd]; ring]).
  set (s := ex_spi (1/5) (1/3) (1/10) (1/7)).
  destruct (C71_lemma s (1/10) (1/7) 100 (1/10) PI (PI/2) 3300 0) as [A [M [C [pf [V [_ [D K]]]]]]].
  - apply ex_spi_unified.
  - simpl; lia.
  - simpl; lra.
  - intros mu H. change (st_u1 _) with 0. change (st_u2 _) with 0. lra.
  - reflexivity.
  - reflexivity.
  - intros x [<-|[]]. split; eexists; reflexivity.
  - pose proof PI2_3_2; lra.
  - intros f [<-|[]]. destruct ex_rounds as [R1 R2]. exists 1000, 100, 0, 20, (-100), 0, 150, 150%Z, (-100)%Z. split. repeat split.
    split. lra. split. lra. split; auto. split; auto. split. discriminate.
    cbn [fc_lat fc_lon fac_assign_grid ex_sym_fac]. rewrite cos_sep_self. lra.
  - lra.
  - lra.
  - right. rewrite cos_PI; lra.
  - destruct (K (or_intror eq_refl) (1/5)) as [tot [cov E]].
    exists s, (ex_spi (- (1/5)) (2 * k - 1/3) (- (1/10)) (2 * k - 1/7)), tot, cov, pf.
    split. apply ex_spi_unified. split. apply ex_spi_unified. split. reflexivity.
    split. { repeat split; try reflexivity.
      - constructor; [|constructor]. repeat split. exists 0%Z. cbn. ring.
      - constructor; [|constructor]. repeat split. exists 0%Z. cbn. ring. }
    split. apply T. split. pose proof PI2_3_2; lra. split. discriminate. split. discriminate. exact E.
Qed.
