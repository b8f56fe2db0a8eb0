(** Property C132: construction of stars from the arguments that are written; C112, continued *)
From Coq Require Import Reals ZArith Bool List Lra Lia.
From Verif Require Import Num Py MConfig MHelpers MGrid MSpots MFaculae MXoflares MFlares MGranules MStar MArgs SpecArgs SpecStar MMake SpecMake LMake.
Import ListNotations.
Open Scope R_scope.

(** C112 *)
Theorem C112_methods :
  forall (A : Type) g lat0 lon0 (rest : arr R -> arr num -> res A) teff (paint add : arr num -> res A) spots sg fg v,
  p_coverage (lift g) lat0 lon0 rest = (do jac <- grid_area g ;; rest (grid_mu g lat0 lon0) jac)
  /\ p_map (lift g) (Fin teff) paint = paint (amap (fun _ => Fin teff) (grid_points g))
  /\ p_get_coverage (lift g) add = (do area <- grid_area g ;; add area)
  /\ (grid_new v = Ok g -> exists rs, p_star_grids (liftv v) spots sg fg = Ok (lift g, rs, lift g, lift g)
        /\ rs = map (fun s => amap (fun p => Fin (acos (law_cos (fst s) (snd s) (fst p) (snd p)))) (grid_points g)) spots).
Proof. exact C112_methods_lemma. Qed.
Print Assumptions C112_methods.
Example C112_methods_nonvacuous : grid_new (PyTuple [PyInt 3; PyInt 5]) = Ok (Rect 3 5).
Proof. reflexivity. Qed.

(** C132 *)
Theorem C132_same :
  forall a b p q, same_but_grids a b -> make_parts a = Ok p -> make_parts b = Ok q -> make_star a = make_star b.
Proof. exact C132_same_lemma. Qed.
Print Assumptions C132_same.
Theorem C132_star :
  forall a v g p, make_parts a = Ok p -> or_else (so_params (ta_opts a)) (GInt 1000) = liftv v -> grid_new v = Ok g ->
  exists n s, make_star a = Ok n /\ star_meant v g a = Ok s /\ star_is g n s.
Proof. exact C132_star_lemma. Qed.
Print Assumptions C132_star.
Theorem C132_errors :
  (forall a, (gets_none (sa_params a) (sa_grid a) -> new_spot a = Raise TypeError)
     /\ (forall g, gets (sa_params a) (sa_grid a) g ->
           (has_points g -> exists s, new_spot a = Ok s) /\ (is_rect g -> ~ sizes_ok g -> new_spot a = Raise ValueError)
           /\ (g = PBase -> new_spot a = Raise NotImplementedError)))
  /\ (forall l p m, (gets_none p m -> new_spotcoll l p m = Raise TypeError)
     /\ (forall g, gets p m g -> (l = [] \/ has_points g -> exists c, new_spotcoll l p m = Ok c)
           /\ (l <> [] -> is_rect g -> ~ sizes_ok g -> new_spotcoll l p m = Raise ValueError)
           /\ (l <> [] -> g = PBase -> new_spotcoll l p m = Raise NotImplementedError)))
  /\ (forall a, (gets_none (fa_params a) (fa_grid a) -> new_facula a = Raise TypeError)
     /\ (forall g, gets (fa_params a) (fa_grid a) g -> exists f, new_facula a = Ok f))
  /\ (forall l p m, (gets_none p m -> new_faccoll l p m = Raise TypeError) /\ (forall g, gets p m g -> exists c, new_faccoll l p m = Ok c))
  /\ (forall a, (gets_none (ga_params a) (ga_grid a) -> new_sg a = Raise TypeError)
     /\ (forall g, gets (ga_params a) (ga_grid a) g -> exists f, new_sg a = Ok f))
  /\ (forall a, (ha_coverage a = COther -> new_fg a = Raise TypeError)
     /\ (ha_coverage a <> COther -> (ha_dist a = Some Solar -> new_fg a = Raise NotImplementedError)
          /\ (ha_dist a = Some UnknownDist -> new_fg a = Raise ValueError)
          /\ (ha_dist a = None \/ ha_dist a = Some Iso -> (gets_none (ha_params a) (ha_grid a) -> new_fg a = Raise TypeError)
               /\ (forall g, gets (ha_params a) (ha_grid a) g -> exists f, new_fg a = Ok f))))
  /\ (forall teff radius period sc fc sg fg o,
       (no_meaning (or_else (so_params o) (GInt 1000)) -> new_star teff radius period sc fc sg fg o = Raise TypeError)
       /\ (forall g, means (or_else (so_params o) (GInt 1000)) g ->
            (nsc_spots sc = [] \/ has_points g -> exists n, new_star teff radius period sc fc sg fg o = Ok n /\ nst_grid n = g)
            /\ (nsc_spots sc <> [] -> ~ has_points g -> new_star teff radius period sc fc sg fg o = Raise ValueError))).
Proof. exact C132_errors_lemma. Qed.
Print Assumptions C132_errors.
Theorem C132_left_out :
  forall a p, make_parts a = Ok p -> bare_star a -> 0 < ta_radius a ->
  exists n s, make_star a = Ok n /\ star_is (Spiral 1000) n s
    /\ (forall t pdraw d fuel, sg_birth (st_spotgen s) (Fin t) (st_radius s) pdraw d fuel = Ok [])
    /\ (forall t pdraw d, fg_birth (st_facgen s) (Fin t) (st_radius s * RSUN_KM) pdraw d = Ok [])
    /\ (forall t pdraw d, generate_flare_series (st_flaregen s) t pdraw d = Ok [])
    /\ (forall k sample, star_granulation s k sample = Ok (repeat (Fin 0) k))
    /\ (forall mu, 0 <= mu -> ld_mask s mu = mu)
    /\ (forall i x A M, nth_error (ta_spots a) i = Some x -> bare_spot x -> sa_area x = Fin A -> sa_amax x = Fin M -> 0 < A <= M ->
         exists y, nth_error (sc_spots (st_spots s)) i = Some y /\ sp_lat y = sa_lat x /\ sp_lon y = sa_lon x /\ sp_ratio y = Fin 5
         /\ forall t, 0 <= t -> exists z, spot_age y (Fin t) = Ok z
            /\ (t < ln (M/A) / ln (152/100) -> sp_area z = Fin (A * Rpower (152/100) t) /\ sp_growing z = true)
            /\ (ln (M/A) / ln (152/100) <= t -> sp_area z = Fin (Rmax 0 (M - 1089/100 * (t - ln (M/A) / ln (152/100)))) /\ sp_growing z = false)).
Proof. exact C132_left_out_lemma. Qed.
Print Assumptions C132_left_out.
(** a spot on a grid of 4 latitudes and 8 longitudes, or on a spiral, in collections on other grids *)
Definition make_spot (p : option gval) (m : option pgrid) : spot_args :=
  mkSpotArgs 0 1 (Fin 100) (Fin 10) (Fin 2500) (Fin 2700) None None None None p m.
Definition make_fac (p : option gval) (m : option pgrid) : fac_args :=
  mkFacArgs 0 1 (Fin 100) (Fin 10) (Fin 5) (Fin 6) (Fin 0) (Fin 20) (Fin (-100)) (Fin 0) (Fin 100) None p m.
Definition make_example (p q : option gval) (m : option pgrid) : star_args :=
  mkStarArgs (Fin 3000) 1 10 [make_spot p None; make_spot None m] q None [make_fac p m] None m None None (mkStarOpts None None None None None).
Example C132_nonvacuous : exists a b p q, make_parts a = Ok p /\ make_parts b = Ok q /\ same_but_grids a b /\ a <> b /\ bare_star a /\ 0 < ta_radius a
  /\ nth_error (ta_spots a) 1 = Some (make_spot None (Some (PRect 3 5))) /\ bare_spot (make_spot None (Some (PRect 3 5)))
  /\ or_else (so_params (ta_opts a)) (GInt 1000) = liftv (PyInt 1000) /\ grid_new (PyInt 1000) = Ok (Spiral 1000)
  /\ sa_area (make_spot None (Some (PRect 3 5))) = Fin 10 /\ sa_amax (make_spot None (Some (PRect 3 5))) = Fin 100.
Proof.
  exists (make_example (Some (GTuple [GInt 4; GInt 8])) (Some (GInt 7)) (Some (PRect 3 5))), (make_example (Some (GInt (-2))) None None).
  eexists. eexists. split. reflexivity. split. reflexivity. split. reflexivity. split. { intros E. apply (f_equal ta_sc_params) in E. discriminate. }
  split. { split; [reflexivity|]. split; reflexivity. } split. { cbn. lra. } split. reflexivity. split. { split; [reflexivity|]. split; [reflexivity|]. split; reflexivity. }
  split. reflexivity. split. reflexivity. split; reflexivity.
Qed.
(** every kind of error happens *)
Example C132_errors_nonvacuous :
  gets_none (Some GOther) None /\ gets_none (Some (GTuple [GInt 1; GInt 2; GInt 3])) None
  /\ gets None (Some PBase) PBase /\ gets (Some GOther) (Some (PSpiral 5)) (PSpiral 5) /\ has_points (PSpiral 5)
  /\ gets (Some (GTuple [GInt (-1)])) None (PRect (-1) 1000) /\ is_rect (PRect (-1) 1000) /\ ~ sizes_ok (PRect (-1) 1000)
  /\ gets None None (PRect 500 1000) /\ has_points (PRect 500 1000).
Proof.
  split. { split; auto. exists GOther. split; auto. intros g H. inversion H. }
  split. { split; auto. eexists. split. reflexivity. intros g H. inversion H. }
  split. { left. reflexivity. } split. { left. reflexivity. } split. { left. exists 5%Z. reflexivity. }
  split. { right. split; auto. right. eexists. split. reflexivity. constructor. } split. { exists (-1)%Z, 1000%Z. reflexivity. }
  split. { cbn. lia. } split. { right. split; auto. } right. split. { exists 500%Z, 1000%Z. reflexivity. } cbn. lia.
Qed.
