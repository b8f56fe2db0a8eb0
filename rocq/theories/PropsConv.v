(** Properties C76-C79: sums over the grid approach surface integrals, and reported coverages
    approach the exact areas of caps *)
From Coq Require Import Reals ZArith Bool String List Lra Lia.
From Coquelicot Require Import Coquelicot.
From Verif Require Import Num Py MConfig MHelpers MGrid MSpots MFaculae MXoflares MFlares MGranules MStar
  Spec SpecStar SpecDisk SpecConv LBase LGrid LSpotMap LSpotCov LDisk LStar LStarCov LObserve LSphere LZonal LSpotDisk PropsStar.
Import ListNotations.
Open Scope R_scope.

(** grids of every resolution *)
Lemma res_rect : forall m, (2 <= m)%nat -> good_grid (Rect (S m) m) /\ resolution (Rect (S m) m) (/ INR m).
Proof.
  intros m H. assert (1 <= INR m) by (change 1 with (INR 1); apply le_INR; lia). split. simpl. lia.
  split. split. apply Rinv_0_lt_compat; lra. rewrite <- Rinv_1. apply Rinv_le_contravar; lra.
  rewrite S_INR. replace (INR m + 1 - 1) with (INR m) by ring. rewrite Rinv_l by lra. lra.
Qed.
Lemma res_spiral : forall m, (1 <= m)%nat -> resolution (Spiral (m ^ 3)) (/ INR m).
Proof.
  intros m H. assert (1 <= INR m) by (change 1 with (INR 1); apply le_INR; lia).
  split. split. apply Rinv_0_lt_compat; lra. rewrite <- Rinv_1. apply Rinv_le_contravar; lra.
  rewrite pow_INR, <- Rpow_mult_distr, Rinv_l, pow1 by lra. lra.
Qed.
Lemma fine_d : forall e, 0 < e -> exists m, (2 <= m)%nat /\ sqrt (/ INR m) <= e.
Proof.
  intros e He. destruct (nfloor_ex (/ (e * e) + 2)) as [m [_ Hm]]. { assert (0 < / (e * e)) by (apply Rinv_0_lt_compat; nra). lra. }
  assert (0 < / (e * e)) by (apply Rinv_0_lt_compat; nra). exists (S m). rewrite S_INR.
  split. { apply INR_le. change (INR 2) with 2. rewrite S_INR. lra. }
  replace e with (sqrt (e * e)) by (apply sqrt_square; lra). apply sqrt_le_1_alt. rewrite <- (Rinv_inv (e * e)). apply Rinv_le_contravar; lra.
Qed.

(** C76: the cosine of the angle to a point, on grids of both kinds and of every resolution *)
Theorem C76_quadrature :
  forall B L phi g d, sphere_fun B L phi -> good_grid g -> resolution g d ->
  exists A, grid_area g = Ok A /\ Rabs (area_sum g A phi - sphere_mean phi) <= 20 * (B + L) * d.
Proof. exact C76_lemma. Qed.
Print Assumptions C76_quadrature.
Example C76_nonvacuous : exists phi, sphere_fun 1 1 phi /\ phi (PI/6) 1 = 1
  /\ forall m, (2 <= m)%nat -> (good_grid (Rect (S m) m) /\ resolution (Rect (S m) m) (/ INR m))
       /\ (good_grid (Spiral (m ^ 3)) /\ resolution (Spiral (m ^ 3)) (/ INR m)).
Proof.
  exists (mu (PI/6) 1). split. apply mu_sf. split. unfold mu. rewrite law_cos_dot. apply cos_sep_self.
  intros m H. split. apply res_rect; auto. split. simpl. assert ((m * (m * (m * 1)) >= 1)%nat) by nia. lia. apply res_spiral; lia.
Qed.

(** spots covering 60 degrees around the poles, on a star of one solar radius; a grid of
    arbitrarily many points *)
Definition ex_polar (lat : R) (n : nat) : spot :=
  spot_init lat 0 (Fin 600000) (Fin 500000) (Fin 2500) (Fin 2700) (Fin 4) false (Fin (1/2)) (-1) (Fin 10) (Spiral n).
Definition ex_view (lat th : R) (n : nat) : spot_view := mkView (ex_polar lat n) 500000 (PI/3) (PI/6) th.
Lemma ex_view_ok : forall lat th n, view_ok 1 (ex_view lat th n).
Proof.
  intros. pose proof PI_RGT_0. split. reflexivity. split. split. cbn [v_radius ex_view]. lra.
  cbn [v_radius v_area ex_view]. rewrite cos_PI3. lra.
  exists 4. split. reflexivity. split. lra. cbn [v_umbra v_radius ex_view]. replace 4 with (2 * 2) by lra. rewrite sqrt_square by lra. lra.
Qed.
Lemma ex_polar_apart : forall n, ForallOrdPairs apart [ex_view (PI/2) 0 n; ex_view (- (PI/2)) PI n].
Proof.
  intros n. constructor; [|constructor; constructor]. constructor; [|constructor]. intros a [B E]. pose proof PI_RGT_0. cbn [v_radius ex_view].
  assert (C : cos a = -1). { rewrite E. rewrite <- law_cos_dot. unfold law_cos. change (sp_lat _) with (PI/2) at 1. change (sp_lat _) with (PI/2) at 2. change (sp_lat (v_spot (ex_view (- (PI/2)) PI n))) with (- (PI/2)).
    rewrite sin_neg, cos_neg, sin_PI2, cos_PI2. lra. }
  apply Rnot_lt_le. intro K. pose proof (cos_decreasing_1 a PI ltac:(lra) ltac:(lra) ltac:(lra) ltac:(lra) ltac:(lra)). rewrite cos_PI in *. lra.
Qed.
Lemma ex_middle : forall m, (2 <= m)%nat -> exists i, (i < m)%nat /\ Rabs (sin (spiral_lat m i)) <= 1/2.
Proof.
  intros m H. exists (m / 2)%nat. assert (D := Nat.div_mod_eq m 2). pose proof (Nat.mod_upper_bound m 2 ltac:(lia)) as B. assert (L : (m / 2 < m)%nat) by lia. split; auto.
  rewrite spiral_sin_lat by auto. assert (M : 2 <= INR m) by (change 2 with (INR 2); apply le_INR; lia).
  assert (E : INR m = 2 * INR (m / 2) + INR (m mod 2)). { rewrite D at 1. rewrite plus_INR, mult_INR. auto. }
  assert (R0' : 0 <= INR (m mod 2) <= 1). { split. apply pos_INR. change 1 with (INR 1). apply le_INR. lia. }
  replace (1 - 2 * (INR (m / 2) + 1/2) / INR m) with ((INR (m mod 2) - 1) / INR m) by (rewrite E; field; lra).
  unfold Rdiv. rewrite Rabs_mult, (Rabs_right (/ INR m)) by (apply Rle_ge, Rlt_le, Rinv_0_lt_compat; lra).
  assert (/ INR m <= / 2) by (apply Rinv_le_contravar; lra). assert (0 < / INR m) by (apply Rinv_0_lt_compat; lra).
  assert (Rabs (INR (m mod 2) - 1) <= 1) by (apply Rabs_le; lra). pose proof (Rabs_pos (INR (m mod 2) - 1)). nra.
Qed.
Lemma cube_ge : forall m, (2 <= m)%nat -> (6 <= m ^ 3)%nat /\ (m <= m ^ 3)%nat.
Proof. intros. simpl. nia. Qed.

(** C77: two spots at opposite poles, grids fine enough for every accuracy *)
Theorem C77_surface_fraction :
  forall c Rs d vs, good_grid (sc_grid c) -> resolution (sc_grid c) d -> 0 < Rs -> sc_spots c = map v_spot vs ->
  (forall v, In v vs -> view_ok Rs v /\ spot_on (sc_grid c) (v_spot v) /\ fin_temps (v_spot v)) ->
  exists x, sc_get_coverage c Rs = Ok (Fin x)
    /\ x <= rsum (map (surface_fraction Rs) vs) + INR (length vs) * (101 * sqrt d)
    /\ (ForallOrdPairs apart vs -> Rabs (x - rsum (map (surface_fraction Rs) vs)) <= INR (length vs) * (101 * sqrt d)).
Proof. exact C77_lemma. Qed.
Print Assumptions C77_surface_fraction.
Example C77_nonvacuous : forall e, 0 < e -> exists c d vs, good_grid (sc_grid c) /\ resolution (sc_grid c) d /\ sc_spots c = map v_spot vs
  /\ (forall v, In v vs -> view_ok 1 v /\ spot_on (sc_grid c) (v_spot v) /\ fin_temps (v_spot v))
  /\ ForallOrdPairs apart vs /\ length vs = 2%nat /\ rsum (map (surface_fraction 1) vs) = 1/2 /\ INR (length vs) * (101 * sqrt d) <= e.
Proof.
  intros e He. destruct (fine_d (e / 202)) as [m [H2 Hm]]. lra. destruct (cube_ge m H2) as [C1 C2]. pose proof PI_RGT_0 as PP.
  exists (mkSpotColl [ex_polar (PI/2) (m ^ 3); ex_polar (- (PI/2)) (m ^ 3)] (Spiral (m ^ 3))), (/ INR m), [ex_view (PI/2) 0 (m ^ 3); ex_view (- (PI/2)) PI (m ^ 3)].
  split. cbn [sc_grid good_grid]. lia. split. apply res_spiral; lia. split. reflexivity. split.
  { intros v [<-|[<-|[]]]; (split; [apply ex_view_ok|split; [apply spot_init_on|split; eexists; reflexivity]]). }
  split. apply ex_polar_apart. split. reflexivity. split.
  { cbn [map rsum fold_right]. unfold surface_fraction. cbn [v_area ex_view]. field. lra. }
  cbn [length]. change (INR 2) with 2. lra.
Qed.

(** C78: seen from above the north pole: one spot entirely visible, the other hidden *)
Lemma ex_labels : forall label D, two_decimals label -> D = 0 \/ D = 200 ->
  forall t t', In t [2500; 2700; 3300; 3300 - D] -> In t' [2500; 2700; 3300; 3300 - D] -> label t = label t' -> t = t'.
Proof.
  intros label D TD HD t t' I I' E. destruct (TD t) as [c [E1 [B1 _]]]. destruct (TD t') as [c' [E2 [B2 _]]].
  rewrite E1, E2 in E. injection E as <-. apply Rabs_le_between in B1. apply Rabs_le_between in B2.
  cbn [In] in I, I'. destruct I as [<-|[<-|[<-|[<-|[]]]]]; destruct I' as [<-|[<-|[<-|[<-|[]]]]]; destruct HD as [-> | ->]; lra.
Qed.
Definition ex_spotted (n : nat) (u1 u2 : R) (sp : list spot) : star :=
  match star_init (Fin 3300) 1 30 (mkSpotColl sp (Spiral 100)) (mkFacColl [] (Spiral 100))
    (PyInt n) None None None (Some (gran_init (Fin (1/5)) (Fin (1/100)) (Fin 5) (Fin 200))) u1 u2 with
  | Ok s => s
  | Raise _ => ex_star 1 [] [] 0 0
  end.
Lemma ex_spotted_init : forall n u1 u2 sp, star_init (Fin 3300) 1 30 (mkSpotColl sp (Spiral 100)) (mkFacColl [] (Spiral 100))
    (PyInt n) None None None (Some (gran_init (Fin (1/5)) (Fin (1/100)) (Fin 5) (Fin 200))) u1 u2 = Ok (ex_spotted n u1 u2 sp).
Proof. reflexivity. Qed.
Lemma ex_spotted_unified : forall n u1 u2 sp, star_unified (ex_spotted n u1 u2 sp).
Proof. intros. apply (star_init_unified _ _ _ _ _ _ _ _ _ _ _ _ _ (ex_spotted_init n u1 u2 sp)). Qed.
Lemma ex_spotted_ok : forall n u1 u2 vs, (2 <= n)%nat -> (forall v, In v vs -> v = ex_view (PI/2) 0 n \/ v = ex_view (- (PI/2)) PI n) -> ForallOrdPairs apart vs ->
  spotted (ex_spotted n u1 u2 (map v_spot vs)) vs 3300 200 2500 2700.
Proof.
  intros n u1 u2 vs Hn Hv HA. split.
  - apply ex_spotted_unified.
  - simpl; lra.
  - reflexivity.
  - reflexivity.
  - reflexivity.
  - change (map (fun x => spot_assign_gridmaker x (Spiral n)) (map (fun x => spot_set_gridmaker x (Spiral n)) (map v_spot vs)) = map v_spot vs). rewrite !map_map. apply map_ext_in. intros v I.
    destruct (Hv v I) as [-> | ->]; reflexivity.
  - intros v I. change (st_radius _) with 1. destruct (Hv v I) as [-> | ->]; apply ex_view_ok.
  - intros v I. destruct (Hv v I) as [-> | ->]; split; reflexivity.
  - lra.
  - auto.
  - destruct (ex_middle n Hn) as [i [Hi Q]]. exists 0%nat, i. change (st_grid _) with (Spiral n). split. apply ex_pixel; auto.
    intros v I. apply Rabs_le_between in Q. rewrite (proj1 (ex_pt n i Hi)). set (lon := pix_lon _ _ _).
    rewrite <- law_cos_dot. unfold law_cos.
    destruct (Hv v I) as [-> | ->]; cbn [v_radius v_spot ex_view ex_polar spot_init spot_set_gridmaker sp_lat]; rewrite cos_PI3, ?sin_neg, ?cos_neg, sin_PI2, cos_PI2; lra.
Qed.
Theorem C78_foreshortening :
  forall label s vs lat0 lon0 orbit planet phase incl T D tu tp d,
  two_decimals label -> spotted s vs T D tu tp -> fine_grid (st_grid s) -> resolution (st_grid s) d -> - PI/2 <= lat0 <= PI/2 ->
  0 <= orbit -> 0 <= planet -> (planet <= st_radius s \/ cos phase <= 0) ->
  (forall t t', In t [tu; tp; T; T - D] -> In t' [tu; tp; T; T - D] -> label t = label t' -> t = t') ->
  st_u1 s = 0 -> st_u2 s = 0 -> (forall v, In v vs -> faces lat0 lon0 v) ->
  exists tot cov pf, calc_coverage s lat0 lon0 (Fin 0) orbit planet phase incl = Ok (tot, cov, pf)
   /\ let umbra := rsum (map (fun v => foreshortened v (v_umbra v)) vs) in
      let all := rsum (map (fun v => foreshortened v (v_radius v)) vs) in
      let err := (968 * INR (length vs) + 320) * sqrt d in
      Rabs (entry tot (label tu) - umbra) <= err
      /\ Rabs (entry tot (label tp) - (all - umbra)) <= err
      /\ Rabs (entry tot (label T) - (1 - all)) <= err.
Proof. exact C78_lemma. Qed.
Print Assumptions C78_foreshortening.
Example C78_nonvacuous : forall e, 0 < e -> exists label s vs d, two_decimals label /\ spotted s vs 3300 200 2500 2700
  /\ fine_grid (st_grid s) /\ resolution (st_grid s) d /\ - PI/2 <= PI/2 <= PI/2
  /\ (forall t t', In t [2500; 2700; 3300; 3300 - 200] -> In t' [2500; 2700; 3300; 3300 - 200] -> label t = label t' -> t = t')
  /\ st_u1 s = 0 /\ st_u2 s = 0 /\ (forall v, In v vs -> faces (PI/2) 0 v)
  /\ length vs = 2%nat /\ rsum (map (fun v => foreshortened v (v_umbra v)) vs) = 1/4 /\ rsum (map (fun v => foreshortened v (v_radius v)) vs) = 3/4
  /\ (968 * INR (length vs) + 320) * sqrt d <= e.
Proof.
  intros e He. destruct (fine_d (e / 2256)) as [m [H2 Hm]]. lra. destruct (cube_ge m H2) as [C1 C2]. pose proof PI_RGT_0 as PP.
  set (n := (m ^ 3)%nat) in *. set (vs := [ex_view (PI/2) 0 n; ex_view (- (PI/2)) PI n]).
  exists (fun t => fmt2 (Fin t)), (ex_spotted n 0 0 (map v_spot vs)), vs, (/ INR m). change (st_grid _) with (Spiral n).
  split. apply fmt2_two_decimals. split. apply ex_spotted_ok. lia. intros v [<-|[<-|[]]]; auto. apply ex_polar_apart.
  split. exact C1. split. apply res_spiral; lia. split. lra. split. apply ex_labels. apply fmt2_two_decimals. auto.
  split. reflexivity. split. reflexivity. split.
  { intros v [<-|[<-|[]]]; split; try split; cbn [v_angle v_radius ex_view]; try lra.
    - rewrite cos_0. change (1 = cos_sep (PI/2) 0 (PI/2) 0). rewrite cos_sep_self. auto.
    - rewrite cos_PI. change (-1 = cos_sep (PI/2) 0 (- (PI/2)) 0). rewrite <- law_cos_dot. unfold law_cos. rewrite sin_neg, cos_neg, sin_PI2, cos_PI2. lra. }
  split. reflexivity. unfold vs. cbn [map rsum fold_right length]. unfold foreshortened. cbn [v_angle v_umbra v_radius ex_view].
  rewrite cos_0, cos_PI, sin_PI6, sin_PI3. rewrite Rmax_right, Rmax_left by lra. pose proof (sqrt_sqrt 3 ltac:(lra)) as S3. change (INR 2) with 2. split. lra. split.
  replace ((sqrt 3 / 2) ^ 2) with (sqrt 3 * sqrt 3 / 4) by field. rewrite S3. lra. lra.
Qed.

(** C79: the northern spot alone, seen from above, with limb darkening *)
Theorem C79_disk_centre :
  forall label s v lat0 lon0 orbit planet phase incl T D tu tp d,
  two_decimals label -> spotted s [v] T D tu tp -> fine_grid (st_grid s) -> resolution (st_grid s) d -> - PI/2 <= lat0 <= PI/2 ->
  0 <= orbit -> 0 <= planet -> (planet <= st_radius s \/ cos phase <= 0) ->
  (forall t t', In t [tu; tp; T; T - D] -> In t' [tu; tp; T; T - D] -> label t = label t' -> t = t') ->
  ld_positive s -> sp_lat (v_spot v) = lat0 -> sp_lon (v_spot v) = lon0 -> v_radius v <= PI / 2 ->
  exists tot cov pf, calc_coverage s lat0 lon0 (Fin 0) orbit planet phase incl = Ok (tot, cov, pf)
   /\ let light r := disk_light (st_u1 s) (st_u2 s) (cos r) in
      let whole := disk_light (st_u1 s) (st_u2 s) 0 in
      let err := 804 * (1 + Rabs (st_u1 s) + Rabs (st_u2 s)) * sqrt d / whole in
      0 < whole
      /\ Rabs (entry tot (label tu) - light (v_umbra v) / whole) <= err
      /\ Rabs (entry tot (label tp) - (light (v_radius v) - light (v_umbra v)) / whole) <= err
      /\ Rabs (entry tot (label T) - (1 - light (v_radius v) / whole)) <= err.
Proof. exact C79_lemma. Qed.
Print Assumptions C79_disk_centre.
Example C79_nonvacuous : forall e, 0 < e -> exists label s v d, two_decimals label /\ spotted s [v] 3300 200 2500 2700
  /\ fine_grid (st_grid s) /\ resolution (st_grid s) d /\ - PI/2 <= PI/2 <= PI/2
  /\ (forall t t', In t [2500; 2700; 3300; 3300 - 200] -> In t' [2500; 2700; 3300; 3300 - 200] -> label t = label t' -> t = t')
  /\ ld_positive s /\ st_u1 s = 1/2 /\ st_u2 s = 1/4 /\ sp_lat (v_spot v) = PI/2 /\ sp_lon (v_spot v) = 0 /\ v_radius v <= PI / 2
  /\ 0 < v_umbra v < v_radius v /\ 804 * (1 + Rabs (st_u1 s) + Rabs (st_u2 s)) * sqrt d <= e.
Proof.
  intros e He. destruct (fine_d (e / 1407)) as [m [H2 Hm]]. lra. destruct (cube_ge m H2) as [C1 C2]. pose proof PI_RGT_0 as PP.
  set (n := (m ^ 3)%nat) in *. set (v := ex_view (PI/2) 0 n).
  exists (fun t => fmt2 (Fin t)), (ex_spotted n (1/2) (1/4) (map v_spot [v])), v, (/ INR m). change (st_grid _) with (Spiral n).
  split. apply fmt2_two_decimals. split. apply ex_spotted_ok. lia. intros w [<-|[]]; auto. constructor; constructor.
  split. exact C1. split. apply res_spiral; lia. split. lra. split. apply ex_labels. apply fmt2_two_decimals. auto.
  change (st_u1 _) with (1/2). change (st_u2 _) with (1/4).
  split. { intros x Hx. change (st_u1 _) with (1/2). change (st_u2 _) with (1/4). nra. }
  split. reflexivity. split. reflexivity. split. reflexivity. split. reflexivity. cbn [v_radius v_umbra v ex_view]. split. lra. split. lra.
  rewrite !Rabs_right by lra. lra.
Qed.
