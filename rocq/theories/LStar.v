(** Lemmas for C49, C57, C59, C60 *)
From Coq Require Import Reals ZArith Bool List Lra Lia.
From Coquelicot Require Import Coquelicot.
From Verif Require Import Num Py MConfig MHelpers MGrid MSpots MFaculae MXoflares MFlares MGranules MStar
  Spec SpecStar SpecDisk LBase LGrid LHelpers LCirc LSpotMap LSpotCov LSpotGen LFac.
Import ListNotations.
Open Scope R_scope.

(** ** C49 *)
Lemma C49_lemma : forall s,
  (forall mu, mu < 0 -> ld_mask s mu = 0 /\ ld_plot s mu = 0)
  /\ ld_plot s 1 = 1
  /\ (st_u1 s = 0 -> st_u2 s = 0 -> forall mu, 0 <= mu -> ld_mask s mu = mu)
  /\ (0 <= st_u1 s -> 0 <= st_u2 s -> st_u1 s + st_u2 s <= 1 ->
        (forall mu, -1 <= mu <= 1 -> 0 <= ld_plot s mu <= 1)
        /\ (forall mu mu', -1 <= mu -> mu <= mu' -> mu' <= 1 -> ld_plot s mu <= ld_plot s mu'))
  /\ (forall mu, area_projection mu = Rmax mu 0).
Proof.
  intros. split; [|split; [|split; [|split]]].
  - intros. unfold ld_mask, ld_plot. rcase; auto; lra.
  - unfold ld_plot. rcase. lra. ring.
  - intros E1 E2 mu H. unfold ld_mask. rewrite E1, E2. rcase. lra. ring.
  - intros A B C. set (u := st_u1 s) in *. set (v := st_u2 s) in *.
    assert (M : forall x y, 0 <= x -> x <= y -> y <= 1 ->
              1 - u * (1 - x) - v * (1 - x)^2 <= 1 - u * (1 - y) - v * (1 - y)^2).
    { intros. assert (u * (1 - y) <= u * (1 - x)) by (apply Rmult_le_compat_l; lra).
      assert (v * (1 - y)^2 <= v * (1 - x)^2). { apply Rmult_le_compat_l; auto. apply pow_incr. lra. } lra. }
    assert (P : forall x, 0 <= x <= 1 -> 0 <= 1 - u * (1 - x) - v * (1 - x)^2 <= 1).
    { intros. pose proof (M 0 x ltac:(lra) ltac:(lra) ltac:(lra)). pose proof (M x 1 ltac:(lra) ltac:(lra) ltac:(lra)).
      replace (1 - u * (1 - 1) - v * (1 - 1)^2) with 1 in H1 by ring.
      replace (1 - u * (1 - 0) - v * (1 - 0)^2) with (1 - u - v) in H0 by ring. lra. }
    split; intros; unfold ld_plot; fold u v; rcase.
    + lra.
    + apply P; lra.
    + lra.
    + apply P; lra.
    + lra.
    + apply M; lra.
  - intros. unfold area_projection. rcase. rewrite Rmax_left; lra. rewrite Rmax_right; lra.
Qed.

(** ** C59 *)
Lemma assign_on : forall g x, spot_on g x -> spot_assign_gridmaker x g = x.
Proof. intros g x H. apply spot_on_iff in H. rewrite <- H. reflexivity. Qed.
Lemma adopt_grid_eq : forall G (get : G -> grid) set gen g, (forall x y, get (set x y) = y) ->
  get (adopt_grid get set gen g) = g.
Proof.
  intros. unfold adopt_grid, grid_ne, grid_eq. destruct (get gen) as [a b|n] eqn:E; destruct g as [a' b'|n0]; cbn [bind negb]; auto.
  - destruct (Nat.eqb a a' && Nat.eqb b b')%bool eqn:B; cbn [negb]; auto.
    apply andb_true_iff in B. destruct B as [B1 B2]. apply Nat.eqb_eq in B1, B2. subst; auto.
  - destruct (Nat.eqb n n0) eqn:B; cbn [negb]; auto. apply Nat.eqb_eq in B. subst; auto.
Qed.
Lemma star_init_unified : forall teff radius period spots facs gp flg spg fcg gran u1 u2 s,
  star_init teff radius period spots facs gp flg spg fcg gran u1 u2 = Ok s ->
  grid_new gp = Ok (st_grid s) /\ star_unified s.
Proof.
  intros. unfold star_init in H. destruct (grid_new gp) as [g|]; [|discriminate]. cbn [bind] in H. injection H as <-.
  split; auto. unfold star_unified. cbn [st_grid st_spots st_facs st_spotgen st_facgen].
  unfold set_spot_grid, sc_set_gridmaker, set_fac_grid, fcc_set_gridmaker. cbn [sc_grid sc_spots fcc_grid fcc_facs].
  split; auto. split; auto. split; [|split; [|split]].
  - intros x I. rewrite map_map in I. apply in_map_iff in I. destruct I as [y [<- _]].
    rewrite assign_on; apply set_gridmaker_on.
  - intros f I. apply in_map_iff in I. destruct I as [y [<- _]]. reflexivity.
  - destruct spg; auto. apply adopt_grid_eq. reflexivity.
  - destruct fcg; auto. apply adopt_grid_eq. reflexivity.
Qed.
Lemma sg_generate_on : forall g n d fuel l, sg_generate g n d fuel = Ok l -> forall x, In x l -> spot_on (sg_grid g) x.
Proof.
  intros. destruct C25_lemma as [C _]. destruct (C g n d fuel l H) as [L [k [_ [_ K]]]].
  apply In_nth with (d := x) in H0. destruct H0 as [i [Hi <-]]. rewrite L in Hi.
  destruct (K i x Hi) as [N _]. cbv zeta in N. apply N.
Qed.
Lemma sg_birth_on : forall g t Rs n d fuel l, sg_birth g t Rs n d fuel = Ok l -> forall x, In x l -> spot_on (sg_grid g) x.
Proof.
  intros g t Rs n d fuel l H. unfold sg_birth in H. apply bind_ok in H. destruct H as [ne [_ H]].
  apply bind_ok in H. destruct H as [k [_ H]]. eapply sg_generate_on; eauto.
Qed.
Lemma mature_one_on : forall g d u rf s, sg_mature_one g d u rf = Ok s -> spot_on (sg_grid g) s.
Proof.
  intros. destruct (sg_mature_inv _ _ _ _ _ H) as [s0 [_ [N [A B]]]].
  assert (O : spot_on (sg_grid g) s0) by apply N.
  destruct (sg_is_static g).
  - rewrite A by auto. apply spot_on_with_area; auto.
  - destruct B as [L [_ B]]; auto. eapply spot_age_on; eauto.
Qed.
Lemma mature_loop_on : forall g Rs T draws rf fuel i om l, mature_loop g Rs T draws rf fuel i om = Ok l ->
  forall x, In x l -> spot_on (sg_grid g) x.
Proof.
  induction fuel; intros i om l H; cbn [mature_loop] in H; destruct (nlt om T); try discriminate;
    try (injection H as <-; intros x []).
  destruct (draws i) as [d u]. apply bind_ok in H. destruct H as [s [Hs H]].
  apply bind_ok in H. destruct H as [r [Hr H]]. injection H as <-. intros x [<-|I].
  - eapply mature_one_on; eauto.
  - eapply IHfuel; eauto.
Qed.
Lemma sc_age_on : forall c t c', sc_age c t = Ok c' -> sc_grid c' = sc_grid c /\
  forall g, (forall x, In x (sc_spots c) -> spot_on g x) -> forall x, In x (sc_spots c') -> spot_on g x.
Proof.
  intros. unfold sc_age in H. apply bind_ok in H. destruct H as [l [Hl H]]. injection H as <-.
  split; auto. intros g A x I. unfold sc_clean in I. cbn [sc_spots] in I. apply filter_In in I. destruct I as [I _].
  apply mapM_inv in Hl. clear - Hl A I. induction Hl. contradiction. destruct I as [<-|I].
  - eapply spot_age_on; eauto. apply A; left; auto.
  - apply IHHl; auto. intros; apply A; right; auto.
Qed.
Lemma fac_age_grid : forall f t, fc_grid (fac_age f t) = fc_grid f.
Proof. intros. unfold fac_age. destruct (fc_growing f); auto. destruct (nle _ _); auto. Qed.
Lemma fcc_add_on : forall c l c', fcc_add c l = Ok c' -> fcc_grid c' = fcc_grid c /\
  ((forall f, In f (fcc_facs c) -> fc_grid f = fcc_grid c) -> forall f, In f (fcc_facs c') -> fc_grid f = fcc_grid c).
Proof.
  intros. unfold fcc_add in H. apply bind_ok in H. destruct H as [l' [Hl H]]. injection H as <-.
  split; auto. cbn [fcc_facs]. intros A f I. apply in_app_or in I. destruct I as [I|I]; auto.
  apply mapM_inv in Hl. clear A. induction Hl. contradiction. destruct I as [<-|I]; auto.
  apply bind_ok in H. destruct H as [b [E H]]. injection H as <-. destruct b; auto.
  unfold grid_eq in E. destruct (fc_grid x) as [a0 b0|n] eqn:E1; destruct (fcc_grid c) as [a' b'|n0] eqn:E2; try discriminate.
  - assert (B : (Nat.eqb a0 a' && Nat.eqb b0 b')%bool = true) by congruence.
    apply andb_true_iff in B. destruct B as [B1 B2]. apply Nat.eqb_eq in B1, B2. congruence.
  - assert (B : Nat.eqb n n0 = true) by congruence. apply Nat.eqb_eq in B. congruence.
Qed.
Lemma add_spot_unified : forall s l, star_unified s -> (forall x, In x l -> spot_on (st_grid s) x) ->
  star_unified (star_add_spot s l).
Proof.
  intros s l [A [B [C [D [E F]]]]] H. unfold star_unified, star_add_spot, star_with_spots, sc_add_spot.
  cbn [st_grid st_spots st_facs st_spotgen st_facgen sc_grid sc_spots]. split; [auto|]. split; [auto|]. split; [|split; auto].
  intros x I. apply in_app_or in I. destruct I as [I|I]; auto. apply in_map_iff in I. destruct I as [y [<- I]].
  rewrite A, assign_on; auto.
Qed.
Lemma add_fac_unified : forall s l s', star_unified s -> star_add_fac s l = Ok s' -> star_unified s' /\ st_grid s' = st_grid s.
Proof.
  intros s l s' [A [B [C [D [E F]]]]] H. unfold star_add_fac in H. apply bind_ok in H. destruct H as [c [Hc H]].
  injection H as <-. destruct (fcc_add_on _ _ _ Hc) as [G K]. split; auto.
  unfold star_unified, star_with_facs. cbn [st_grid st_spots st_facs st_spotgen st_facgen].
  repeat (split; auto). congruence. rewrite B in K. intros; apply K; auto.
Qed.
Lemma star_step_unified : forall s s', star_step s s' -> star_unified s -> star_unified s' /\ st_grid s' = st_grid s.
Proof.
  intros s s' H U. destruct H.
  - destruct U as [A [B [C [D [E F]]]]]. unfold star_age in H. apply bind_ok in H. destruct H as [c [Hc H]]. injection H as <-.
    destruct (sc_age_on _ _ _ Hc) as [G K]. split; auto.
    unfold star_unified, star_with_facs, star_with_spots. cbn [st_grid st_spots st_facs st_spotgen st_facgen].
    split. congruence. split. auto. split. auto. split; auto.
    intros f I. unfold fcc_age, fcc_clean in I. cbn [fcc_facs] in I. apply filter_In in I. destruct I as [I _].
    apply in_map_iff in I. destruct I as [y [<- I]]. rewrite fac_age_grid. auto.
  - eapply add_fac_unified; eauto.
  - unfold star_birth_spots in H. apply bind_ok in H. destruct H as [l [Hl H]]. injection H as <-.
    split; auto. apply add_spot_unified; auto. intros x I. assert (E : sg_grid (st_spotgen s) = st_grid s) by apply U.
    rewrite <- E. eapply sg_birth_on; eauto.
  - unfold star_birth_faculae in H. apply bind_ok in H. destruct H as [l [Hl H]]. eapply add_fac_unified; eauto.
  - unfold star_mature_spots in H. apply bind_ok in H. destruct H as [l [Hl H]]. injection H as <-.
    split; auto. apply add_spot_unified; auto. intros x I. assert (E : sg_grid (st_spotgen s) = st_grid s) by apply U.
    rewrite <- E. unfold sg_generate_mature in Hl. destruct (_ || _); [discriminate|]. eapply mature_loop_on; eauto.
  - unfold star_get_flares in H. apply bind_ok in H. destruct H as [l [Hl H]]. injection H as <-. split; auto.
  - split; auto. apply add_spot_unified; auto.
Qed.
Lemma star_steps_unified : forall s s', star_steps s s' -> star_unified s -> star_unified s' /\ st_grid s' = st_grid s.
Proof.
  induction 1; intros; auto. destruct (star_step_unified _ _ H H1) as [U E].
  destruct (IHstar_steps U) as [U' E']. split; auto. congruence.
Qed.
Lemma C59_lemma : forall teff radius period spots facs gp flg spg fcg gran u1 u2 s s',
  star_init teff radius period spots facs gp flg spg fcg gran u1 u2 = Ok s ->
  star_steps s s' -> grid_new gp = Ok (st_grid s') /\ star_unified s'.
Proof.
  intros. destruct (star_init_unified _ _ _ _ _ _ _ _ _ _ _ _ _ H) as [G U].
  destruct (star_steps_unified _ _ H0 U) as [U' E]. split; auto. congruence.
Qed.

(** ** C60 *)
Lemma granulate_nonempty : forall d k k' g d', granulate d k k' g = Ok d' -> d' <> [].
Proof.
  intros. unfold granulate in H. apply bind_ok in H. destruct H as [p [_ H]]. apply bind_ok in H. destruct H as [o [Ho H]].
  injection H as <-. destruct (dset tkey_eqb d k _) as [|[a b] t]; try discriminate. cbn [dset]. destruct (tkey_eqb k' a); discriminate.
Qed.
Lemma calc_coverage_nonempty : forall s lat0 lon0 g o p ph inc tot cov f,
  calc_coverage s lat0 lon0 g o p ph inc = Ok (tot, cov, f) -> tot <> [] /\ cov <> [].
Proof.
  intros. unfold calc_coverage in H. cbv zeta in H.
  repeat (apply bind_ok in H; destruct H as [? [? H]]; try (destruct x as [? ?]);
    try match type of H with (let (_, _) := ?x in _) = _ => destruct x end).
  injection H as <- <- <-. split; eapply granulate_nonempty; eauto.
Qed.
Lemma C60_lemma : forall s lat0 lon0,
  (exists e, average_teff s lat0 lon0 = Raise e)
  /\ (forall r, calc_coverage s lat0 lon0 (Fin 0) AU_RSUN REARTH_RSUN (PI/2) 0 = Ok r ->
        average_teff s lat0 lon0 = Raise TypeError).
Proof.
  intros. assert (K : forall r, calc_coverage s lat0 lon0 (Fin 0) AU_RSUN REARTH_RSUN (PI/2) 0 = Ok r ->
        average_teff s lat0 lon0 = Raise TypeError).
  { intros [[tot cov] f] H. unfold average_teff. rewrite H. cbn [bind].
    apply calc_coverage_nonempty in H. destruct tot as [|[k v] t]; [destruct H; congruence|]. reflexivity. }
  split; auto. destruct (calc_coverage s lat0 lon0 (Fin 0) AU_RSUN REARTH_RSUN (PI/2) 0) as [r|e] eqn:E.
  - eauto.
  - exists e. unfold average_teff. rewrite E. auto.
Qed.

(** ** C57 *)
Definition sky_dist (s : star) (orbit phase incl : R) : R :=
  orbit / st_radius s * sqrt ((sin phase)^2 + (cos phase)^2 * (cos incl)^2).
Lemma planet_xy_eq : forall s orbit phase incl, 0 < st_radius s ->
  planet_xy s orbit (phase - PI) incl
  = (Fin (orbit / st_radius s * (- sin phase)), Fin (orbit / st_radius s * (- cos phase) * cos incl)).
Proof.
  intros. unfold planet_xy. rewrite ndiv_fin by lra.
  replace (sin (phase - PI)) with (- sin phase) by (rewrite sin_minus, sin_PI, cos_PI; ring).
  replace (cos (phase - PI)) with (- cos phase) by (rewrite cos_minus, sin_PI, cos_PI; ring).
  rewrite !nmul_fin. reflexivity.
Qed.
Lemma sky_dist_eq : forall s orbit phase incl, 0 < st_radius s -> 0 <= orbit ->
  sqrt ((orbit / st_radius s * (- sin phase))^2 + (orbit / st_radius s * (- cos phase) * cos incl)^2)
  = sky_dist s orbit phase incl.
Proof.
  intros. unfold sky_dist. set (k := orbit / st_radius s). assert (0 <= k). { unfold k. apply Rmult_le_pos; auto. apply Rlt_le, Rinv_0_lt_compat; auto. }
  replace ((k * (- sin phase))^2 + (k * (- cos phase) * cos incl)^2) with (k^2 * ((sin phase)^2 + (cos phase)^2 * (cos incl)^2)) by ring.
  rewrite sqrt_mult_alt by nra. rewrite sqrt_pow2; auto.
Qed.
Lemma C57_lemma : forall s lat0 lon0 orbit planet phase incl,
  0 < st_radius s -> 0 <= orbit -> 0 <= planet ->
  let rp := planet / st_radius s in
  let d := orbit / st_radius s * sqrt ((sin phase)^2 + (cos phase)^2 * (cos incl)^2) in
  let no_shadow m := grid_shaped (st_grid s) m /\ (forall x, In x (cells m) -> x = Fin 0) in
  (1 + 2 * rp < d ->
     exists m, get_transit_mask s lat0 lon0 orbit planet phase incl = Ok (m, Fin 1) /\ no_shadow m)
  /\ (d <= 1 + 2 * rp -> 0 < cos phase -> rp <= 1 ->
       exists m v, get_transit_mask s lat0 lon0 orbit planet phase incl = Ok (m, Fin v) /\ no_shadow m
         /\ 0 <= v <= 1 /\ (v = 0 <-> d <= 1 - rp) /\ (1 + rp <= d -> 0 < rp -> v = 1)
         /\ (0 < rp -> is_RInt (overlap_slice rp d) (d - rp) (d + rp) ((1 - v) * (PI * rp^2))))
  /\ (d <= 1 + 2 * rp -> 0 < cos phase -> 1 < rp ->
       get_transit_mask s lat0 lon0 orbit planet phase incl = Raise ValueError)
  /\ (cos phase <= 0 -> forall m v, get_transit_mask s lat0 lon0 orbit planet phase incl = Ok (m, v) -> v = Fin 1).
Proof.
  intros s lat0 lon0 orbit planet phase incl HR HO HP rp d no_shadow.
  assert (NS : no_shadow (grid_zeros (st_grid s))).
  { split. rewrite grid_zeros_eq. apply grid_shaped_amap.
    intros x. rewrite grid_zeros_eq, cells_amap. intros I. apply in_map_iff in I. destruct I as [? [<- _]]. auto. }
  pose proof (sky_dist_eq s orbit phase incl HR HO) as SD. fold d in SD. unfold sky_dist in SD. fold d in SD.
  unfold get_transit_mask. rewrite planet_xy_eq by auto.
  set (x := orbit / st_radius s * (- sin phase)) in *. set (y := orbit / st_radius s * (- cos phase) * cos incl) in *.
  rewrite !ndiv_fin by lra. fold rp. rewrite !nsq_fin, nmul_fin, !nadd_fin.
  replace (x * x + y * y) with (x^2 + y^2) by ring. rewrite nsqrt_fin by nra. rewrite SD.
  unfold ngt. cbn [nlt].
  assert (RP : 0 <= rp). { unfold rp. apply Rmult_le_pos; auto. apply Rlt_le, Rinv_0_lt_compat; auto. }
  assert (PF : get_pl_frac s (phase - PI) orbit planet incl = (do c <- circ_fraction (Fin x) (Fin y) (Fin rp) ;; Ok (nsub (Fin 1) c))).
  { unfold get_pl_frac. rewrite planet_xy_eq by auto. rewrite !ndiv_fin by lra. reflexivity. }
  destruct (C10_lemma x y rp) as [CB CA]. rewrite SD in CA.
  split; [|split; [|split]].
  - intros H. rewrite (proj2 (Rltb_true _ _)) by auto. eauto.
  - intros H1 H2 H3. rewrite (proj2 (Rltb_false _ _)) by auto. rewrite (proj2 (Rltb_true 0 _)) by auto.
    rewrite PF. destruct CA as [v [E [V [V1 [V0 [_ _]]]]]]; [lra|]. rewrite E. cbn [bind]. rewrite nsub_fin.
    exists (grid_zeros (st_grid s)), (1 - v). split; auto. split; auto. split. lra. split.
    rewrite <- V1. lra. split.
    + intros A B. assert (v = 0) by (apply V0; auto). lra.
    + intros B. destruct (C11_lemma rp) as [f [F1 [F2 _]]]; [lra|].
      pose proof (F1 x y) as G. rewrite E, SD in G. assert (v = f d) by congruence.
      replace ((1 - (1 - v)) * (PI * rp^2)) with (f d * (PI * rp^2)) by (subst v; ring).
      apply F2. unfold d. apply Rmult_le_pos; [|apply sqrt_pos]. apply Rmult_le_pos; auto. apply Rlt_le, Rinv_0_lt_compat; auto.
  - intros H1 H2 H3. rewrite (proj2 (Rltb_false _ _)) by auto. rewrite (proj2 (Rltb_true 0 _)) by auto.
    rewrite PF, CB by auto. auto.
  - intros H m v. rewrite (proj2 (Rltb_false 0 _)) by auto. destruct (Rltb (1 + 2 * rp) d).
    congruence. intros E. apply bind_ok in E. destruct E as [ar [_ E]]. apply bind_ok in E. destruct E as [cv [_ E]].
    destruct (existsb nisnan (cells cv)); congruence.
Qed.
