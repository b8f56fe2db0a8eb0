(** Properties C24-C28: random positions and the spot generator *)
From Coq Require Import Reals ZArith Bool List Lra Lia.
From Coquelicot Require Import Coquelicot.
From Verif Require Import Num Py MConfig MHelpers MGrid MSpots MFaculae MFlares Spec SpecStar LBase LGrid LHelpers LSpotAge LSpotMap LSpotCov LSpotGen.
Import ListNotations.
Open Scope R_scope.

(** a dynamic and a static generator, and constant random draws *)
Definition ex_sg : spotgen :=
  {| sg_mean := Fin 500; sg_logsigma := 1/5; sg_teff_umbra := Fin 2500; sg_teff_pen := Fin 2700;
     sg_growth := Fin (1/2); sg_growth_dim := (-1)%Z; sg_decay := Fin 10; sg_init := Fin 100;
     sg_dist := Iso; sg_coverage := Fin (1/5); sg_grid := Rect 50 100 |}.
Definition ex_sg_static : spotgen :=
  {| sg_mean := Fin 500; sg_logsigma := 0; sg_teff_umbra := Fin 2500; sg_teff_pen := Fin 2700;
     sg_growth := Fin (1/2); sg_growth_dim := (-1)%Z; sg_decay := Fin 0; sg_init := Fin 100;
     sg_dist := Iso; sg_coverage := Fin (1/5); sg_grid := Rect 50 100 |}.
(* the first round of area ratios contains a negative one and is drawn again *)
Definition ex_draws : sdraws :=
  mkSDraws (fun _ => 1) (fun k i => if Nat.eqb k 0 then -1 else 5) (fun _ => 1/3) (fun _ => 1/4) (fun _ => true) (fun _ => 0).

(** C24 *)
Theorem C24_isotropic :
  (forall g d i, sg_dist g = Iso -> unit_draw (d_x d i) -> unit_draw (d_ulon d i) ->
     exists lat lon, sg_coords g d i = Ok (lat, lon) /\ area_uniform (d_x d i) (d_ulon d i) lat lon)
  /\ (forall g n d i dflt, (i < n)%nat -> unit_draw (fd_x d i) -> unit_draw (fd_ulon d i) ->
        area_uniform (fd_x d i) (fd_ulon d i) (fc_lat (nth i (fg_generate g n d) dflt)) (fc_lon (nth i (fg_generate g n d) dflt)))
  /\ (forall n x ul i, (i < n)%nat -> unit_draw (x i) -> unit_draw (ul i) ->
        length (fst (gen_coords n x ul)) = n /\ length (snd (gen_coords n x ul)) = n
        /\ area_uniform (x i) (ul i) (nth i (fst (gen_coords n x ul)) 0) (nth i (snd (gen_coords n x ul)) 0))
  /\ (forall g d i, sg_dist g = UnknownDist -> sg_coords g d i = Raise ValueError)
  /\ (forall g d i, sg_dist g = Solar -> unit_draw (d_ulon d i) ->
        exists lat lon, sg_coords g d i = Ok (lat, lon) /\ 0 <= lon < 2 * PI
          /\ lat = (if d_hemi d i then 1 else -1) * (15 + 5 * d_nlat d i) * PI / 180)
  /\ (forall g B, sg_dist g = Solar -> exists d lat lon, sg_coords g d 0 = Ok (lat, lon) /\ B < lat).
Proof. exact C24_lemma. Qed.
Print Assumptions C24_isotropic.
Example C24_nonvacuous : unit_draw (1/4) /\ unit_draw (1/3).
Proof. unfold unit_draw; lra. Qed.

(** C25 *)
Theorem C25_generate_spots :
  (forall g n d fuel l, sg_generate g n d fuel = Ok l ->
     length l = n
     /\ exists k, (k <= fuel)%nat
        /\ (forall k', (k' < k)%nat -> exists i, (i < n)%nat /\ d_ratio d k' i <= 0)
        /\ forall i dflt, (i < n)%nat -> let s := nth i l dflt in
             newborn g s /\ sp_ratio s = Fin (d_ratio d k i) /\ 0 < d_ratio d k i
             /\ sg_coords g d i = Ok (sp_lat s, sp_lon s)
             /\ (forall M, sg_mean g = Fin M -> 0 < M ->
                   exists a, sp_area_max s = Fin a /\ 0 < a /\ ln a = ln M + sg_logsigma g * d_z d i))
  /\ (forall g n d fuel k, 0 <= sg_logsigma g -> sg_dist g <> UnknownDist -> (k <= fuel)%nat ->
        (forall i, (i < n)%nat -> 0 < d_ratio d k i) -> exists l, sg_generate g n d fuel = Ok l)
  /\ (forall g n d fuel, (exists l, sg_generate g n d fuel = Ok l) ->
        0 <= sg_logsigma g /\ sg_dist g <> UnknownDist)
  /\ (forall g n d fuel e, sg_generate g n d fuel = Raise e -> e = ValueError \/ e = OutOfDraws).
Proof. exact C25_lemma. Qed.
Print Assumptions C25_generate_spots.
Example C25_nonvacuous : exists l, sg_generate ex_sg 3 ex_draws 5 = Ok l /\ length l = 3%nat
  /\ sg_generate ex_sg 3 ex_draws 0 = Raise OutOfDraws.
Proof.
  destruct C25_lemma as [C1 [C2 _]]. destruct (C2 ex_sg 3%nat ex_draws 5%nat 1%nat) as [l E].
  simpl; lra. simpl; discriminate. lia. intros; simpl; lra.
  exists l. split; auto. split. apply (C1 _ _ _ _ _ E).
  unfold sg_generate. simpl sg_logsigma. rewrite (proj2 (Rltb_false _ _)) by lra.
  replace (redraw_ratio 0 0 ex_draws 3) with (@Raise nat OutOfDraws). reflexivity.
  simpl. rewrite (proj2 (Rleb_true (-1) 0)) by lra. reflexivity.
Qed.

(** C26 *)
Theorem C26_expected_births :
  (* a dynamic generator: the expectation is proportional to coverage and time *)
  (forall s M A g W Rs, sg_params s M A g W -> 0 < A <= M -> 0 < g -> 0 < W -> 0 < Rs ->
     exists k, 0 < k
       /\ (forall c t, sg_n_expected (sg_with_coverage s (Fin c)) (Fin t) Rs = Ok (Fin (k * c * t)))
       /\ (forall t1 t2 c, exists n1 n2 n12,
             sg_n_expected (sg_with_coverage s (Fin c)) (Fin t1) Rs = Ok (Fin n1)
             /\ sg_n_expected (sg_with_coverage s (Fin c)) (Fin t2) Rs = Ok (Fin n2)
             /\ sg_n_expected (sg_with_coverage s (Fin c)) (Fin (t1 + t2)) Rs = Ok (Fin n12)
             /\ n12 = n1 + n2)
       (* births per unit time x lifetime x mean area = coverage x area of the star; an MSH is
          the millionth part of half a sphere of unit radius *)
       /\ (forall L ma, sg_mean_lifetime s = Ok (Fin L) -> sg_mean_area s = Ok (Fin ma) ->
             forall c, k * c * L * (ma * (2 * PI / 10^6)) = c * (4 * PI * Rs^2)))
  (* static spots (decay rate 0) live forever: none are born *)
  /\ (forall s M c t Rs pdraw d fuel, sg_mean s = Fin M -> 0 < M -> sg_decay s = Fin 0 -> sg_coverage s = Fin c ->
        0 <= sg_logsigma s -> sg_dist s <> UnknownDist ->
        sg_n_expected s (Fin t) Rs = Ok (Fin 0) /\ sg_birth s (Fin t) Rs pdraw d fuel = Ok [])
  (* off(): zero, and nothing is ever born *)
  /\ (forall gr t Rs pdraw d fuel, sg_n_expected (sg_off gr) (Fin t) Rs = Ok (Fin 0)
        /\ sg_birth (sg_off gr) (Fin t) Rs pdraw d fuel = Ok [])
  (* growth rate 0 with decay: NaN, and birth_spots raises even for coverage 0 *)
  /\ (forall s M A W Rs t pdraw d fuel, sg_params s M A 0 W -> 0 < A <= M -> 0 < W ->
        sg_n_expected s (Fin t) Rs = Ok NaN /\ sg_birth s (Fin t) Rs pdraw d fuel = Raise ValueError).
Proof. exact C26_lemma. Qed.
Print Assumptions C26_expected_births.
Example C26_nonvacuous : sg_params ex_sg 500 100 (1/2) 10 /\ 0 < 100 <= 500 /\ 0 < 1/2 /\ 0 < 10.
Proof. split. repeat split. lra. Qed.

(** C27 *)
Theorem C27_means_vs_law :
  forall s M A g W, sg_params s M A g W -> 0 < A <= M -> 0 < g -> 0 < W ->
  exists L ma, sg_mean_lifetime s = Ok (Fin L) /\ sg_mean_area s = Ok (Fin ma)
  /\ 0 < L /\ L = M / W + ln (M / A) / g
  /\ ma * L = M / g + A / g + M^2 / (2 * W)
  (* the lifetime of a spot with maximal area M (C16) is longer *)
  /\ (A < M -> L < time_to_max A M g + M / W)
  /\ (A = M -> L = time_to_max A M g + M / W)
  (* so a spot of exactly mean size still exists at age L *)
  /\ (A < M -> forall sp, spot_params sp A M g W -> sp_growing sp = true ->
        exists sp' a b, spot_age sp (Fin L) = Ok sp' /\ aged_to sp sp' a b /\ 0 < a)
  (* time integrals of the areas: e-folding growth at rate g, then linear decay *)
  /\ (exists I1 I2, is_RInt (fun t => A * exp (g * t)) 0 (ln (M / A) / g) I1
        /\ is_RInt (fun t => M - W * t) 0 (M / W) I2
        /\ ma * L = I1 + I2 + 2 * A / g)
  (* and of the growth law that age() really applies *)
  /\ (exists I1', is_RInt (fun t => A * Rpower (1 + g) t) 0 (time_to_max A M g) I1'
        /\ I1' = (M - A) / ln (1 + g)).
Proof. exact C27_lemma. Qed.
Print Assumptions C27_means_vs_law.
Example C27_nonvacuous : sg_params ex_sg 500 100 (1/2) 10 /\ 0 < 100 < 500
  /\ exists sp, spot_params sp 100 500 (1/2) 10 /\ sp_growing sp = true.
Proof.
  split. repeat split. split. lra.
  exists (spot_init (1/3) 1 (Fin 500) (Fin 100) (Fin 2500) (Fin 2700) (Fin 5) true (Fin (1/2)) (-1) (Fin 10) (Rect 50 100)).
  split; repeat split.
Qed.

(** C28 *)
Theorem C28_mature_spots :
  (forall g c Rs draws rf fuel, (c < 0 \/ 1 < c) -> sg_generate_mature g (Fin c) Rs draws rf fuel = Raise ValueError)
  (* inside [0,1] a valid generator never raises (running out of draws = still looping) *)
  /\ (forall g c Rs draws rf fuel, 0 <= c <= 1 ->
        0 <= sg_logsigma g -> sg_dist g <> UnknownDist -> sg_growth_dim g = (-1)%Z ->
        (exists l, sg_generate_mature g (Fin c) Rs draws rf fuel = Ok l)
        \/ sg_generate_mature g (Fin c) Rs draws rf fuel = Raise OutOfDraws)
  /\ (forall g Rs draws rf fuel, sg_generate_mature g (Fin 0) Rs draws rf fuel = Ok [])
  /\ (forall g c Rs draws rf fuel l, sg_generate_mature g (Fin c) Rs draws rf fuel = Ok l ->
        0 <= c <= 1 /\ reaches_minimally Rs (4 * PI * c) l
        /\ forall k dflt, (k < length l)%nat -> let s := nth k l dflt in let u := snd (draws k) in
             spot_on (sg_grid g) s
             /\ exists s0, sg_generate g 1 (fst (draws k)) rf = Ok [s0] /\ newborn g s0
                /\ (forall M A, sg_decay g = Fin 0 -> sg_init g = Fin A -> sp_area_max s0 = Fin M ->
                      aged_to s0 s (A + u * (M - A)) true)
                /\ (forall M A gr W, sg_params g M A gr W -> 0 < A <= M -> 0 < gr -> 0 < W ->
                      spot_age s0 (Fin (u * (M / W + ln (M / A) / gr))) = Ok s))
  (* it ends as soon as the spots have a minimal size ... *)
  /\ (forall g c Rs draws rf th0, 0 <= c <= 1 -> 0 < th0 ->
        (forall i, exists s th, sg_mature_one g (fst (draws i)) (snd (draws i)) rf = Ok s
                     /\ spot_angular_radius s Rs = Fin th /\ th0 <= th) ->
        forall fuel, 4 * c <= INR fuel * th0^2 -> exists l, sg_generate_mature g (Fin c) Rs draws rf fuel = Ok l)
  (* ... and never when they have no area at all *)
  /\ (forall g c Rs draws rf, 0 < c <= 1 ->
        (forall i, exists s, sg_mature_one g (fst (draws i)) (snd (draws i)) rf = Ok s /\ spot_angular_radius s Rs = Fin 0) ->
        forall fuel, sg_generate_mature g (Fin c) Rs draws rf fuel = Raise OutOfDraws).
Proof. exact C28_lemma. Qed.
Print Assumptions C28_mature_spots.
Example C28_nonvacuous : exists fuel l,
  sg_generate_mature ex_sg_static (Fin (1/10)) 1 (fun _ => (ex_draws, 1/2)) 5 fuel = Ok l /\ l <> [].
Proof.
  destruct C28_lemma as [_ [_ [_ [M [D _]]]]].
  assert (A : 0 < acos (1 - 300 * MSH_RSUN2 / (2 * PI * 1^2))).
  { pose proof PI_RGT_0. unfold MSH_RSUN2.
    replace (1 - 300 * (1 / 1000000 * (1 / 2) * (4 * PI)) / (2 * PI * 1^2)) with (1 - 300/1000000) by (field; lra).
    pose proof (acos_lt (1 - 300/1000000) 1 ltac:(lra) ltac:(lra) ltac:(lra)) as Q. rewrite acos_1 in Q. exact Q. }
  set (th0 := acos (1 - 300 * MSH_RSUN2 / (2 * PI * 1^2))) in *.
  assert (exists fuel, INR fuel > 4 * (1/10) / th0^2) as [fuel Hf].
  { exists (Z.to_nat (up (4 * (1/10) / th0^2))). destruct (archimed (4 * (1/10) / th0^2)) as [U _].
    assert (0 < 4 * (1/10) / th0^2) by (apply Rdiv_lt_0_compat; [lra|apply pow_lt; auto]).
    rewrite INR_IZR_INZ, Z2Nat.id; auto. apply le_IZR. lra. }
  assert (HF : 4 * (1/10) <= INR fuel * th0^2).
  { assert (0 < th0^2) by (apply pow_lt; auto). apply Rmult_gt_compat_r with (r := th0^2) in Hf; auto.
    unfold Rdiv in Hf at 1. rewrite Rmult_assoc, Rinv_l, Rmult_1_r in Hf by lra. lra. }
  destruct (D ex_sg_static (1/10) 1 (fun _ => (ex_draws, 1/2)) 5%nat th0) with (fuel := fuel) as [l E]; auto; try lra.
  - intros _. simpl fst; simpl snd. destruct C25_lemma as [C1 [C2 _]].
    destruct (C2 ex_sg_static 1%nat ex_draws 5%nat 1%nat) as [l E].
    simpl; lra. simpl; discriminate. lia. intros; simpl; lra.
    destruct (C1 _ _ _ _ _ E) as [Len [k [_ [_ Hi]]]]. destruct l as [|s0 [|]]; try discriminate.
    destruct (Hi 0%nat s0 ltac:(lia)) as [NB [_ [_ [_ AM]]]]. simpl in NB, AM.
    destruct (AM 500 eq_refl ltac:(lra)) as [a [Ea [Pa La]]].
    assert (Ha : a = 500). { apply ln_inv; lra. }
    unfold sg_mature_one. rewrite E. cbn [bind].
    replace (sg_is_static ex_sg_static) with true by (symmetry; apply Reqb_true; auto).
    eexists. exists th0. split. reflexivity. split; [|lra].
    destruct (ang_rad_fin (spot_with_area s0 (Fin 300) true) 1 300 eq_refl ltac:(lra)) as [R _].
    pose proof PI_RGT_0. unfold MSH_RSUN2. lra. fold th0 in R. rewrite <- R. f_equal. destruct NB as [-> _].
    rewrite Ea, Ha. simpl sg_init. rewrite nsub_fin, nmul_fin, nadd_fin. f_equal. f_equal. lra.
  - exists fuel, l. split; auto. intros ->. destruct (M _ _ _ _ _ _ _ E) as [_ [R _]]. pose proof PI_RGT_0.
    destruct R as [[ths [R1 [R2 _]]]|[l0 [s [ths [R1 _]]]]].
    destruct ths; try discriminate. unfold disc_sum in R2. simpl in R2. lra.
    destruct l0; discriminate.
Qed.
