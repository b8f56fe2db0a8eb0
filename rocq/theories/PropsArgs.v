(** Properties C112-C114: arguments of other kinds *)
From Coq Require Import Reals ZArith Bool List Lra Lia.
From Coquelicot Require Import Coquelicot.
From Verif Require Import Num Py MConfig MHelpers MGrid MSpots MFaculae MXoflares MFlares MGranules MStar MWarn MHeap MUnits MArgs
  SpecArgs LBase LHeap LUnits LArgs PropsHeap PropsFlare.
Import ListNotations.
Open Scope R_scope.

(** C112 *)
Theorem C112_sizes :
  forall g v other nlat nlon n lat0 lon0 data,
  p_new (liftv v) = lift_res (grid_new v) /\ p_grid (lift g) = Ok (grid_points g) /\ p_zeros (lift g) = Ok (grid_zeros g)
  /\ p_mu (lift g) lat0 lon0 = Ok (grid_mu g lat0 lon0) /\ p_area (lift g) = grid_area g
  /\ p_display (lift g) (Z.of_nat nlat) (Z.of_nat nlon) data = display_grid g nlat nlon data
  /\ p_eq (lift g) (option_map lift other) = grid_eq g other /\ p_eq_warnings (lift g) (option_map lift other) = grid_eq_warnings g other
  /\ p_dlat (Z.of_nat n) = dlat n /\ p_dlon (Z.of_nat n) = dlon n.
Proof. exact C112_sizes_lemma. Qed.
Print Assumptions C112_sizes.
Theorem C112_negative :
  forall (A : Type) g, g <> PBase ->
  (~ sizes_ok g ->
     p_zeros g = Raise ValueError /\ p_area g = Raise ValueError
     /\ (forall nlat nlon, g = PRect nlat nlon -> p_oned nlat nlon = Raise ValueError /\ p_grid g = Raise ValueError
          /\ (forall lat0 lon0, p_mu g lat0 lon0 = Raise ValueError)
          /\ forall m n data, (has_shape data n m -> p_display g m n data = Raise ValueError)
                              /\ (~ has_shape data n m -> p_display g m n data = Raise TypeError))
     /\ (is_spiral g -> (exists pts, p_grid g = Ok pts /\ a2d pts = false /\ cells pts = [])
          /\ (forall lat0 lon0, exists mu, p_mu g lat0 lon0 = Ok mu /\ cells mu = [])
          /\ forall m n data, p_display g m n data = Raise ValueError)
     /\ (forall lat0 lon0 (rest : arr R -> arr num -> res A), p_coverage g lat0 lon0 rest = Raise ValueError)
     /\ (forall teff (rest : arr num -> res A), p_map g teff rest = Raise ValueError)
     /\ (forall (rest : arr num -> res A), p_get_coverage g rest = Raise ValueError))
  /\ (sizes_ok g -> exists s, g = lift s)
  /\ (forall m n data, is_spiral g -> ~ sizes_ok (PRect m n) -> p_display g m n data = Raise ValueError).
Proof. exact C112_negative_lemma. Qed.
Print Assumptions C112_negative.
Theorem C112_compare :
  forall a b,
  (p_eq a (Some b) = Ok true <-> a = b /\ a <> PBase)
  /\ (p_eq a (Some b) = Raise TypeError <-> (is_rect a /\ ~ is_rect b) \/ (a = PBase /\ is_rect b))
  /\ (p_eq a (Some b) = Raise NotImplementedError <-> a = PBase /\ b = PBase)
  /\ (forall e, p_eq a (Some b) = Raise e -> e = TypeError \/ e = NotImplementedError)
  /\ (p_eq_warnings a (Some b) <> [] <-> (is_spiral a /\ ~ is_spiral b) \/ (a = PBase /\ is_spiral b))
  /\ (p_eq_warnings a (Some b) <> [] -> p_eq_warnings a (Some b) = [WGridKinds] /\ p_eq a (Some b) = Ok false)
  /\ (a <> PBase -> p_eq a None = Raise TypeError) /\ p_eq PBase None = Raise NotImplementedError
  /\ (forall lat0 lon0 m n data, p_grid PBase = Raise NotImplementedError /\ p_zeros PBase = Raise NotImplementedError /\ p_area PBase = Raise NotImplementedError
        /\ p_mu PBase lat0 lon0 = Raise NotImplementedError /\ p_display PBase m n data = Raise NotImplementedError).
Proof. exact C112_compare_lemma. Qed.
Print Assumptions C112_compare.
Theorem C112_star :
  forall params spots sg fg,
  (forall e, p_new params = Raise e -> e = TypeError /\ p_star_grids params spots sg fg = Raise TypeError)
  /\ (forall g, p_new params = Ok g ->
       (spots = [] \/ sizes_ok g \/ is_spiral g -> exists rs, p_star_grids params spots sg fg = Ok (g, rs, g, g) /\ length rs = length spots)
       /\ (spots <> [] -> ~ sizes_ok g -> is_rect g -> p_star_grids params spots sg fg = Raise ValueError))
  /\ (forall z, p_new (GInt z) = Ok (PSpiral z)) /\ (forall a b, p_new (GTuple [GInt a; GInt b]) = Ok (PRect a b)).
Proof. exact C112_star_lemma. Qed.
Print Assumptions C112_star.
Example C112_nonvacuous : exists g1 g2, p_new (GInt (-5)) = Ok g1 /\ g1 <> PBase /\ ~ sizes_ok g1 /\ is_spiral g1
  /\ p_new (GTuple [GInt 10; GInt (-1)]) = Ok g2 /\ g2 <> PBase /\ ~ sizes_ok g2 /\ is_rect g2
  /\ sizes_ok (PRect 10 0) /\ p_eq g1 (Some g2) = Ok false /\ p_eq g2 (Some g1) = Raise TypeError /\ p_eq g2 (Some g2) = Ok true.
Proof.
  exists (PSpiral (-5)), (PRect 10 (-1)). split. reflexivity. split. discriminate. split. cbn; lia. split. exists (-5)%Z; auto. split. reflexivity.
  split. discriminate. split. cbn; lia. split. exists 10%Z, (-1)%Z; auto. split. cbn; lia. auto.
Qed.

(** C113 *)
Theorem C113_spots :
  forall w c ls g arg l, w_sc w c = (ls, g) ->
  (gives arg l -> exists w', w_add_spot_arg w c arg = (w', None) /\ spots_changed w w' l g c (ls ++ l, g))
  /\ (arg = AOnce (map Good l) -> exists w', w_add_spot_arg w c arg = (w', None) /\ spots_changed w w' l g c (ls, g))
  /\ (gives_then arg l Alien -> exists w', w_add_spot_arg w c arg = (w', Some AttributeError) /\ spots_changed w w' l g c (ls, g))
  /\ (arg = ANot -> w_add_spot_arg w c arg = (w, Some TypeError)).
Proof. exact C113_spots_lemma. Qed.
Print Assumptions C113_spots.
Theorem C113_faculae :
  forall w c ls g arg l, w_fc w c = (ls, g) -> (forall k, In k l -> ~ refused (w_fac w k) g) ->
  (gives arg l -> exists w', w_add_fac_arg w c arg = (w', None) /\ facs_changed w w' l g c (ls ++ l, g))
  /\ (arg = AOnce (map Good l) -> exists w', w_add_fac_arg w c arg = (w', None) /\ facs_changed w w' l g c (ls, g))
  /\ (gives_then arg l Alien -> exists w', w_add_fac_arg w c arg = (w', Some AttributeError) /\ facs_changed w w' l g c (ls, g))
  /\ (forall k, gives_then arg l (Good k) \/ (arg = AOne k /\ l = []) -> refused (w_fac w k) g ->
        exists w', w_add_fac_arg w c arg = (w', Some TypeError) /\ facs_changed w w' l g c (ls, g))
  /\ (arg = ANot -> w_add_fac_arg w c arg = (w, Some TypeError)).
Proof. exact C113_faculae_lemma. Qed.
Print Assumptions C113_faculae.
Theorem C113_flares :
  forall l l' arg a b so,
  (gives arg l -> flc_arg arg = Ok (flc_init l))
  /\ (arg = AOnce (map Good l) -> exists c, flc_arg arg = Ok c /\ length (flc_mask c a b) = length l
        /\ flc_in_period c a b = [] /\ flc_visible c a b so = [] /\ (flc_integral c a b so = Ok [] \/ flc_integral c a b so = Raise ValueError))
  /\ (gives_then arg l Alien -> flc_arg arg = Raise AttributeError) /\ (arg = ANot -> flc_arg arg = Raise TypeError)
  /\ flc_in_period (flc_list_changed (flc_init l) (l ++ l')) a b = flc_in_period (flc_init l) a b
  /\ (forall f, In f (flc_in_period (flc_list_changed (flc_init l) l') a b) <-> exists i f0, nth_error l' i = Some f /\ nth_error l i = Some f0 /\ in_window a b f0)
  /\ flc_index (flc_list_changed (flc_init l) l') = flc_init l'.
Proof. exact C113_flares_lemma. Qed.
Print Assumptions C113_flares.
(** a collection of two spots on a spiral grid; a third one comes from an iterator, or before a number in a list *)
Example C113_nonvacuous : exists w g, w_sc w 0 = ([0; 1]%nat, g) /\ gives (AOne 2%nat) [2%nat] /\ gives (ASeq [Good 2; Good 3]%nat) [2; 3]%nat
  /\ gives_then (ASeq [Good 2%nat; Alien; Good 3%nat]) [2%nat] Alien /\ sp_grid (w_spot w 2) = g.
Proof.
  exists (ex_world (fun _ => [0; 1]%nat)), (Spiral 2). split. reflexivity. split. left. exists 2%nat. auto. split. right. reflexivity.
  split. exists [Good 3%nat]. left. reflexivity. reflexivity.
Qed.
(** the first flare was seen and is removed from the list: its neighbour is reported in its place *)
Example C113_flares_nonvacuous : exists f1 f2, in_window 0 1 f1 /\ ~ in_window 0 1 f2 /\ f1 <> f2
  /\ In f2 (flc_in_period (flc_list_changed (flc_init [f1; f2]) [f2]) 0 1) /\ ~ In f2 (flc_in_period (flc_init [f2]) 0 1).
Proof.
  assert (W1 : in_window 0 1 ex_flare). { split; cbn [ex_flare fl_tpeak fl_fwhm nmul nadd nsub]. apply nlt_fin. lra. apply nlt_fin. lra. }
  assert (W2 : ~ in_window 0 1 ex_flare2). { intros [_ H]. cbn [ex_flare2 fl_tpeak fl_fwhm nmul nsub] in H. apply nlt_fin in H. lra. }
  exists ex_flare, ex_flare2. split. auto. split. auto. split. intros E. injection E. intros. lra.
  destruct (C113_flares_lemma [ex_flare; ex_flare2] [ex_flare2] ANot 0 1 None) as [_ [_ [_ [_ [_ [H _]]]]]]. split.
  - apply H. exists 0%nat, ex_flare. auto.
  - destruct (C113_flares_lemma [ex_flare2] [ex_flare2] ANot 0 1 None) as [_ [_ [_ [_ [_ [K _]]]]]]. change (flc_init [ex_flare2]) with (flc_list_changed (flc_init [ex_flare2]) [ex_flare2]).
    rewrite K. intros [i [f0 [A [B C]]]]. destruct i as [|i]; [|destruct i; discriminate]. cbn in B. injection B as <-. contradiction.
Qed.

(** C114 *)
Theorem C114_projection :
  forall lat0 lon0 lat lon,
  (forall a0 o0 a o, angle_arg lat0 a0 -> angle_arg lon0 o0 -> angle_arg lat a -> angle_arg lon o -> proj_ortho_arg lat0 lon0 lat lon = Ok (proj_ortho a0 o0 (a, o)))
  /\ (proj_ortho_arg lat0 lon0 lat lon = Raise TypeError <-> lat0 = None \/ lon0 = None \/ lat = None \/ lon = None)
  /\ (proj_ortho_arg lat0 lon0 lat lon = Raise UnitConversionError <->
        ~ (lat0 = None \/ lon0 = None \/ lat = None \/ lon = None) /\ exists v q, In (Some (v, q)) [lat0; lon0; lat; lon] /\ udim q <> DAng).
Proof. exact C114_lemma. Qed.
Print Assumptions C114_projection.
Example C114_nonvacuous : angle_arg (Some (90, u_deg)) (PI/2) /\ angle_arg (Some (1, u_rad)) 1 /\ udim u_km <> DAng.
Proof.
  split. exists 90, u_deg. split. reflexivity. split. reflexivity. cbn. field.
  split. exists 1, u_rad. split. reflexivity. split. reflexivity. cbn. ring. unfold u_km, DLen, DAng. cbn [udim]. intros E. injection E. intros. lra.
Qed.
