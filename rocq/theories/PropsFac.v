(** Properties C29-C36: faculae *)
From Coq Require Import Reals ZArith Bool List Lra Lia.
From Coquelicot Require Import Coquelicot.
From Verif Require Import Num Py MConfig MHelpers MGrid MSpots MFaculae Spec SpecStar LBase LGrid LHelpers LCirc LSpotAge LSpotMap LSpotCov LSpotGen LFac LNew.
Import ListNotations.
Open Scope R_scope.

(** the default-like generator and a newborn facula of peak radius 100 km living 2*6 hours *)
Definition ex_fg : facgen := fg_with_coverage (fg_off (Spiral 1000)) (Fin (1/10)).
Definition ex_fac (r : R) (g : bool) : facula :=
  {| fc_lat := 1/3; fc_lon := 1; fc_rmax := Fin 100; fc_radius := Fin r; fc_depth := Fin 10; fc_life := Fin 6;
     fc_fslope := Fin 0; fc_fminrad := Fin 20; fc_fbase := Fin (-100); fc_wslope := Fin 1; fc_wint := Fin 100;
     fc_growing := g; fc_grid := Spiral 1000 |}.
Example ex_fac_wf : forall g, fac_wf (ex_fac 50 g).
Proof. intros. exists 50, 100, 6. split. repeat split. lra. Qed.
Example ex_newborn : fac_state (ex_fac (100 / exp 2) true) (100 / exp 2) 100 6 /\ fac_wf (ex_fac (100 / exp 2) true).
Proof.
  split. repeat split. exists (100 / exp 2), 100, 6. split. repeat split. split; [|lra].
  pose proof (exp_pos 2). split. apply Rdiv_lt_0_compat; lra. apply div_le; auto. pose proof (exp_ineq1 2). nra.
Qed.

(** C29 *)
Theorem C29_facula_law :
  (* the radius law *)
  (forall f r rm L t, fac_state f r rm L -> 0 < r <= rm -> 0 < L -> 0 <= t ->
     (fc_growing f = true -> exists b,
        fac_aged f (fac_age f (Fin t)) (rm * exp (-2 * Rabs (t - time_to_peak r rm L) / L)) b
        /\ (b = true <-> t < time_to_peak r rm L))
     /\ (fc_growing f = false -> fac_aged f (fac_age f (Fin t)) (r * exp (-2 * t / L)) false))
  (* independent of slicing, and the radius stays in (0, rmax] *)
  /\ (forall f ts, fac_wf f -> all_nonneg ts -> ts <> [] ->
        fold_left (fun x t => fac_age x (Fin t)) ts f = fac_age f (Fin (rsum ts))
        /\ fac_wf (fac_age f (Fin (rsum ts)))).
Proof. exact C29_lemma. Qed.
Print Assumptions C29_facula_law.
Example C29_nonvacuous : fac_state (ex_fac 50 true) 50 100 6 /\ 0 < 50 <= 100 /\ fac_wf (ex_fac 50 true)
  /\ 0 < time_to_peak 50 100 6 /\ all_nonneg [1; 2; 7].
Proof.
  split. repeat split. split. lra. split. apply ex_fac_wf. split.
  unfold time_to_peak. assert (0 < ln (100/50)) by (rewrite <- ln_1; apply ln_increasing; lra). lra.
  intros t [<-|[<-|[<-|[]]]]; lra.
Qed.

(** C30 *)
Theorem C30_facula_lifetime :
  (* any slicing of a collection's ageing gives the same collection *)
  (forall c ts, (forall f, In f (fcc_facs c) -> fac_wf f) -> all_nonneg ts -> ts <> [] ->
     fcc_run c ts = fcc_age c (Fin (rsum ts)))
  (* a newborn facula lives exactly 2 lifetimes *)
  /\ (forall l1 f l2 g0 ts rm L, (forall x, In x (l1 ++ f :: l2) -> fac_wf x) -> all_nonneg ts -> ts <> [] ->
        fac_state f (rm / exp 2) rm L -> fc_growing f = true ->
        exists fs, fcc_run (mkFacColl (l1 ++ f :: l2) g0) ts
             = mkFacColl (fcc_facs (fcc_run (mkFacColl l1 g0) ts) ++ fs ++ fcc_facs (fcc_run (mkFacColl l2 g0) ts)) g0
          /\ (2 * L <= rsum ts -> fs = [])
          /\ (rsum ts < 2 * L -> fs = [fac_age f (Fin (rsum ts))]))
  (* clean_faclist *)
  /\ (forall c, keeps fac_alive (fcc_facs c) (fcc_facs (fcc_clean c)) /\ fcc_grid (fcc_clean c) = fcc_grid c)
  /\ (forall c t, keeps fac_alive (map (fun f => fac_age f t) (fcc_facs c)) (fcc_facs (fcc_age c t))).
Proof. exact C30_lemma. Qed.
Print Assumptions C30_facula_lifetime.
Example C30_nonvacuous : (forall x, In x ([ex_fac 50 false] ++ ex_fac (100 / exp 2) true :: [ex_fac 50 true]) -> fac_wf x)
  /\ fac_state (ex_fac (100 / exp 2) true) (100 / exp 2) 100 6 /\ all_nonneg [1; 2] /\ rsum [1; 2] < 2 * 6.
Proof.
  split. intros x [<-|[<-|[<-|[]]]]; try apply ex_fac_wf; apply ex_newborn.
  split. repeat split. split. intros t [<-|[<-|[]]]; lra. simpl; lra.
Qed.

(** C31 *)
Theorem C31_wall_floor :
  forall f r d fs fm fb ws wi kw kf,
  fac_thermal f r d fs fm fb ws wi -> 0 < r -> 0 <= d ->
  round_teff (Fin (wall_diff r ws wi)) = Ok kw -> round_teff (Fin (floor_diff r fs fm fb)) = Ok kf -> kw <> kf ->
  exists w : R -> R,
    (forall a, cos a <> 0 ->
       fac_effective_area f (Fin a)
         = Ok [(kw, Fin (w a * (PI * r^2 * cos a))); (kf, Fin ((1 - w a) * (PI * r^2 * cos a)))]
       /\ fac_fractional_area f (Fin a) = Ok [(kw, Fin (w a)); (kf, Fin (1 - w a))]
       /\ 0 <= w a <= 1)
    /\ (r < fm -> forall a, w a = 1)
    /\ (fm <= r ->
          w 0 = 0
          (* the floor is the overlap of two discs displaced by depth*tan(angle) *)
          /\ (forall a, is_RInt (overlap_slice 1 (Rabs (d / r * tan a)))
                          (Rabs (d / r * tan a) - 1) (Rabs (d / r * tan a) + 1) ((1 - w a) * PI))
          /\ (forall a b, 0 <= a <= b -> b < PI/2 -> w a <= w b)
          /\ (forall a, 0 <= a < PI/2 -> (w a = 1 <-> 2 * r <= d * tan a))).
Proof. exact C31_lemma. Qed.
Print Assumptions C31_wall_floor.
Example C31_nonvacuous : fac_thermal (ex_fac 50 true) 50 10 0 20 (-100) 1 100
  /\ round_teff (Fin (wall_diff 50 1 100)) = Ok 150%Z /\ round_teff (Fin (floor_diff 50 0 20 (-100))) = Ok (-100)%Z /\ cos 1 <> 0.
Proof.
  split. repeat split. unfold wall_diff, floor_diff. cbn [round_teff].
  split. replace (100 + 1 * 50) with 150 by ring. f_equal. apply rhe_IZR.
  split. replace (-100 + 0 * (50 - 20)) with (-100) by ring. f_equal. apply (rhe_IZR (-100)).
  assert (0 < cos 1). { apply cos_gt_0; pose proof PI2_1; lra. } lra.
Qed.

(** C32, first half: the facula itself (C32_star: drawing it) *)
Theorem C32_guard :
  forall f r d fs fm fb ws wi a,
  fac_thermal f r d fs fm fb ws wi -> 0 < r -> cos a <> 0 ->
  (wall_diff r ws wi = floor_diff r fs fm fb -> fac_effective_area f (Fin a) = Raise ValueError)
  /\ (wall_diff r ws wi <> floor_diff r fs fm fb ->
        (exists areas, fac_effective_area f (Fin a) = Ok areas)
        /\ forall k, round_teff (Fin (wall_diff r ws wi)) = Ok k -> round_teff (Fin (floor_diff r fs fm fb)) = Ok k ->
             exists v, fac_effective_area f (Fin a) = Ok [(k, v)]).
Proof. exact C32_lemma. Qed.
Print Assumptions C32_guard.
Example C32_nonvacuous : exists k, round_teff (Fin (wall_diff 50 1 (-149.9))) = Ok k
  /\ round_teff (Fin (floor_diff 50 0 20 (-100))) = Ok k /\ wall_diff 50 1 (-149.9) <> floor_diff 50 0 20 (-100).
Proof.
  exists (-100)%Z. unfold wall_diff, floor_diff. cbn [round_teff]. split; [|split].
  - f_equal. assert (rhe (-100) <= rhe (-149.9 + 1 * 50) <= -100)%Z.
    { split. apply rhe_mono; lra. destruct (rhe_spec (-149.9 + 1 * 50)) as [H _].
      apply Rabs_le_inv in H. assert (IZR (rhe (-149.9 + 1 * 50)) < IZR (-99)) by lra. apply lt_IZR in H0. lia. }
    rewrite (rhe_IZR (-100)) in H. lia.
  - replace (-100 + 0 * (50 - 20)) with (-100) by ring. f_equal. apply (rhe_IZR (-100)).
  - lra.
Qed.

(** C33 *)
Theorem C33_mean_area :
  forall g r0 f L, fg_rpeak g = Fin r0 -> 0 < r0 -> 0 < L ->
  fac_state f (r0 / exp 2) r0 L -> fc_growing f = true ->
  exists (rad : R -> R) I m,
    (forall t, 0 <= t -> fc_radius (fac_age f (Fin t)) = Fin (rad t))
    /\ is_RInt (fun t => PI * rad t ^ 2) 0 (2 * L) I
    /\ I / (2 * L) = PI * r0^2 * (1 - exp (-4)) / 4
    /\ fg_mean_area g = Fin m /\ m = PI * r0^2 * (1 - exp (-2)) / 2
    /\ I / (2 * L) < m.
Proof. exact C33_lemma. Qed.
Print Assumptions C33_mean_area.
Example C33_nonvacuous : fg_rpeak ex_fg = Fin 100 /\ fac_state (ex_fac (100 / exp 2) true) (100 / exp 2) 100 6.
Proof. repeat split. Qed.

(** C34 *)
Theorem C34_expected :
  (forall g r0 L Rkm, fg_rpeak g = Fin r0 -> fg_lifepeak g = Fin L -> 0 < r0 -> 0 < L -> 0 < Rkm ->
     exists k, 0 < k
       /\ (forall c t, fg_n_expected (fg_with_coverage g (Fin c)) (Fin t) Rkm = Fin (k * c * t))
       /\ (forall m c t, fg_mean_area g = Fin m -> k * c * t * m * (2 * L) = c * (4 * PI * Rkm^2) * t))
  /\ (forall gr t Rkm pdraw d, 0 < Rkm ->
        fg_n_expected (fg_off gr) (Fin t) Rkm = Fin 0 /\ fg_birth (fg_off gr) (Fin t) Rkm pdraw d = Ok [])
  /\ (forall g, fg_init true Solar g = Raise NotImplementedError
        /\ fg_init true UnknownDist g = Raise ValueError
        /\ (forall dist, fg_init false dist g = Raise TypeError)
        /\ fg_init true Iso g = Ok g).
Proof. exact C34_lemma. Qed.
Print Assumptions C34_expected.
Example C34_nonvacuous : fg_rpeak ex_fg = Fin 100 /\ fg_lifepeak ex_fg = Fin 6.
Proof. repeat split. Qed.

(** C35 *)
Theorem C35_generate :
  forall g n d r0 L, fg_rpeak g = Fin r0 -> fg_lifepeak g = Fin L -> 0 < r0 -> 0 < L ->
  0 <= fg_rlogsigma g -> 0 <= fg_lifelogsigma g ->
  length (fg_generate g n d) = n
  /\ (forall i dflt, (i < n)%nat -> let f := nth i (fg_generate g n d) dflt in
        exists rm lf, fac_state f (rm / exp 2) rm lf /\ 0 < rm /\ 0 < lf /\ fac_wf f
          /\ ln (rm / r0) = fd_z d i * fg_rlogsigma g * ln 10
          /\ ln (lf / L) = fd_z d i * fg_lifelogsigma g * ln 10
          /\ fc_growing f = true /\ fc_grid f = fg_grid g /\ fc_depth f = fg_depth g
          /\ fc_fslope f = fg_fslope g /\ fc_fminrad f = fg_fminrad g /\ fc_fbase f = fg_fbase g
          /\ fc_wslope f = fg_wslope g /\ fc_wint f = fg_wint g
          /\ (unit_draw (fd_x d i) -> unit_draw (fd_ulon d i) -> area_uniform (fd_x d i) (fd_ulon d i) (fc_lat f) (fc_lon f)))
  /\ (forall i j dflt rmi rmj li lj, (i < n)%nat -> (j < n)%nat ->
        fac_state (nth i (fg_generate g n d) dflt) (rmi / exp 2) rmi li ->
        fac_state (nth j (fg_generate g n d) dflt) (rmj / exp 2) rmj lj ->
        rmi < rmj -> li <= lj).
Proof. exact C35_lemma. Qed.
Print Assumptions C35_generate.
Example C35_nonvacuous : fg_rpeak ex_fg = Fin 100 /\ fg_lifepeak ex_fg = Fin 6 /\ 0 <= fg_rlogsigma ex_fg /\ 0 <= fg_lifelogsigma ex_fg
  /\ fac_state (nth 1 (fg_generate ex_fg 2 (mkFDraws (fun i => INR i) (fun _ => 1/2) (fun _ => 1/2))) (ex_fac 1 true))
       (100 * Rpower 10 (1/10) / exp 2) (100 * Rpower 10 (1/10)) (6 * Rpower 10 (2/10)).
Proof.
  split; auto. split; auto. split. simpl; lra. split. simpl; lra. unfold fac_state, fg_generate.
  cbn [map seq nth fc_radius fc_rmax fc_life fd_z]. change (fg_rpeak ex_fg) with (Fin 100). change (fg_lifepeak ex_fg) with (Fin 6).
  change (fg_rlogsigma ex_fg) with (1/10). change (fg_lifelogsigma ex_fg) with (2/10). change (INR 1) with 1.
  rewrite !nmul_fin, exp2, !Rmult_1_l. pose proof (exp_pos 2). rewrite ndiv_fin by lra. auto.
Qed.

(** C36 *)
Theorem C36_add_faculae :
  forall c new,
  ((exists f a b n, In f new /\ fc_grid f = Rect a b /\ fcc_grid c = Spiral n) -> fcc_add c new = Raise TypeError)
  /\ ((forall f, In f new -> forall a b n, ~ (fc_grid f = Rect a b /\ fcc_grid c = Spiral n)) ->
        exists c' new', fcc_add c new = Ok c' /\ fcc_grid c' = fcc_grid c
          /\ fcc_facs c' = fcc_facs c ++ new'
          /\ Forall2 (fun f f' => same_fac f f' /\ fc_grid f' = fcc_grid c) new new').
Proof. exact C36_lemma. Qed.
Print Assumptions C36_add_faculae.
Theorem C36_constructed :
  forall l g, let c := fcc_init l g in
  fcc_grid c = g /\ Forall2 (fun f f' => same_fac f f' /\ fc_grid f' = g) l (fcc_facs c).
Proof. exact C36_new_lemma. Qed.
Print Assumptions C36_constructed.
Example C36_nonvacuous : forall f, In f [ex_fac 50 true; ex_fac 30 false] -> forall a b n, ~ (fc_grid f = Rect a b /\ Rect 5 6 = Spiral n).
Proof. intros f [<-|[<-|[]]]; intros a b n [H _]; discriminate. Qed.
