(** Properties C66-C71: spot radius, facula index map, frame conditions, plotting data,
    hidden parts, observability *)
From Coq Require Import Reals ZArith Bool String List Lra Lia Permutation Sorted.
From Coquelicot Require Import Coquelicot.
From Verif Require Import Num Py MConfig MHelpers MGrid MSpots MFaculae MXoflares MFlares MGranules MStar MPlot
  Spec SpecStar SpecDisk SpecFrame LBase LGrid LHelpers LCirc LSpotAge LSpotMap LSpotCov LFac LDisk LStar LStarFac LTransit LStarCov
  LFrame LCovered LPlot LObserve PropsStar.
Import ListNotations.
Open Scope R_scope.

(** C66 *)
Theorem C66_spot_radius :
  forall s a, sp_area s = Fin a ->
  (0 <= a -> exists r, spot_radius s = Fin r /\ 0 <= r
     /\ PI * r^2 = a * (2 * PI * SUN_KM^2 / 1000000))
  /\ (a < 0 -> spot_radius s = NaN)
  /\ (forall th, 0 <= a -> spot_angular_radius s 1 = Fin th ->
        exists r, spot_radius s = Fin r /\ r^2 = 2 * SUN_KM^2 * (1 - cos th)).
Proof. exact C66_lemma. Qed.
Print Assumptions C66_spot_radius.
Example C66_nonvacuous : exists s th, sp_area s = Fin 1000 /\ spot_angular_radius s 1 = Fin th.
Proof.
  exists ex_spot2. destruct (C18_lemma ex_spot2 1 1000 eq_refl ltac:(lra)) as [H _].
  destruct H as [th [H _]]. pose proof PI_RGT_0; lra. exists th. split. reflexivity. exact H.
Qed.

(** C67: one facula, marking the first of two pixels *)
Theorem C67_index_map :
  forall c P Rkm T, 0 < Rkm ->
  (forall f, In f (fcc_facs c) -> fc_grid f = fcc_grid c /\ is_fin (fc_radius f)) -> grid_shaped (fcc_grid c) P ->
  (Z.of_nat (length (fcc_facs c)) <= 32767)%Z ->
  let marks f j i := fac_near (fcc_grid c) f Rkm j i /\ acell P j i NaN = Fin T in
  exists m d, fcc_map_pixels c P Rkm (Fin T) = Ok (m, d) /\ grid_shaped (fcc_grid c) m
    (* the dictionary sends index k to the number k+1 *)
    /\ map fst d = seq 0 (length (fcc_facs c)) /\ (forall k v, In (k, v) d -> v = S k)
    /\ forall j i, pixel (fcc_grid c) j i ->
        (acell m j i (-1)%Z = 0%Z <-> forall f, In f (fcc_facs c) -> ~ marks f j i)
        /\ forall k, acell m j i (-1)%Z = Z.of_nat (S k) <->
             exists f, nth_error (fcc_facs c) k = Some f /\ marks f j i
               /\ forall k' f', (k < k')%nat -> nth_error (fcc_facs c) k' = Some f' -> ~ marks f' j i.
Proof. exact C67_lemma. Qed.
Print Assumptions C67_index_map.
Theorem C67_overflow :
  forall c P Rkm T, 0 < Rkm ->
  (forall f, In f (fcc_facs c) -> fc_grid f = fcc_grid c /\ is_fin (fc_radius f)) -> grid_shaped (fcc_grid c) P ->
  let marks f j i := fac_near (fcc_grid c) f Rkm j i /\ acell P j i NaN = Fin T in
  exists m d, fcc_map_pixels c P Rkm (Fin T) = Ok (m, d) /\ grid_shaped (fcc_grid c) m
    (* the dictionary sends index k to the number k+1 *)
    /\ map fst d = seq 0 (length (fcc_facs c)) /\ (forall k v, In (k, v) d -> v = S k)
    (* the map holds the 16 lowest bits of the number *)
    /\ forall j i, pixel (fcc_grid c) j i ->
        ((forall f, In f (fcc_facs c) -> ~ marks f j i) -> acell m j i (-1)%Z = 0%Z)
        /\ forall k f, nth_error (fcc_facs c) k = Some f -> marks f j i ->
             (forall k' f', (k < k')%nat -> nth_error (fcc_facs c) k' = Some f' -> ~ marks f' j i) ->
             (-32768 <= acell m j i (-1) < 32768)%Z /\ exists q, (acell m j i (-1) = Z.of_nat (S k) + 65536 * q)%Z.
Proof. exact C67_any_lemma. Qed.
Print Assumptions C67_overflow.
Example C67_nonvacuous : exists c P f, (forall f, In f (fcc_facs c) -> fc_grid f = fcc_grid c /\ is_fin (fc_radius f))
  /\ grid_shaped (fcc_grid c) P /\ (Z.of_nat (length (fcc_facs c)) <= 32767)%Z /\ In f (fcc_facs c) /\ pixel (fcc_grid c) 0 0
  /\ fac_near (fcc_grid c) f (1 * SUN_KM) 0 0 /\ acell P 0 0 NaN = Fin 3300.
Proof.
  set (f := fac_assign_grid (ex_facula 2 150) (Spiral 2)).
  exists (mkFacColl [f] (Spiral 2)), (amap (fun _ => Fin 3300) (grid_points (Spiral 2))), f. cbn [fcc_facs fcc_grid].
  split. { intros x [<-|[]]. split. reflexivity. eexists; reflexivity. }
  split. apply grid_shaped_amap. split. simpl; lia. split. left; auto. split. apply ex_pixel; lia.
  split. exact (ex_covers0 2 [] [] 3300 0 150 ltac:(lia)). rewrite acell_grid; auto. apply ex_pixel; lia.
Qed.

(** C68: a unified star with a spot and a facula, and a spot that can be added to it *)
Theorem C68_init :
  forall teff radius period spots facs gp flg spg fcg gran u1 u2,
  (forall e, grid_new gp = Raise e -> star_init teff radius period spots facs gp flg spg fcg gran u1 u2 = Raise e)
  /\ forall g, grid_new gp = Ok g -> exists s,
  star_init teff radius period spots facs gp flg spg fcg gran u1 u2 = Ok s
  /\ st_teff s = teff /\ st_radius s = radius /\ st_period s = period /\ st_u1 s = u1 /\ st_u2 s = u2
  /\ st_grid s = g /\ st_flares s = None
  /\ Forall2 same_spot (sc_spots spots) (sc_spots (st_spots s))
  /\ Forall2 same_fac (fcc_facs facs) (fcc_facs (st_facs s))
  /\ (forall x, flg = Some x -> st_flaregen s = x) /\ (forall x, gran = Some x -> st_gran s = x)
  /\ (forall x, spg = Some x -> same_spotgen x (st_spotgen s))
  /\ (forall x, fcg = Some x -> same_facgen x (st_facgen s))
  (* left out: nothing is generated *)
  /\ (flg = None -> forall time n d, generate_flare_series (st_flaregen s) time n d = Ok [])
  /\ (spg = None -> sg_coverage (st_spotgen s) = Fin 0) /\ (fcg = None -> fg_coverage (st_facgen s) = Fin 0)
  /\ (gran = None -> gr_dteff (st_gran s) = Fin 0).
Proof. exact C68_init_lemma. Qed.
Print Assumptions C68_init.
Theorem C68_frame :
  forall s, star_unified s ->
  (* age: spots and faculae, by the same time *)
  (forall t, match sc_age (st_spots s) t with
             | Ok c => exists s', star_age s t = Ok s' /\ same_body s s' /\ st_flares s' = st_flares s
                         /\ st_spots s' = c /\ st_facs s' = fcc_age (st_facs s) t
             | Raise e => star_age s t = Raise e end)
  (* adding by hand *)
  /\ (forall l, (forall x, In x l -> spot_on (st_grid s) x) -> let s' := star_add_spot s l in
        same_body s s' /\ st_flares s' = st_flares s /\ st_facs s' = st_facs s
        /\ sc_spots (st_spots s') = sc_spots (st_spots s) ++ l)
  /\ (forall l s', star_add_fac s l = Ok s' ->
        same_body s s' /\ st_flares s' = st_flares s /\ st_spots s' = st_spots s
        /\ exists l', fcc_facs (st_facs s') = fcc_facs (st_facs s) ++ l' /\ Forall2 same_fac l l')
  (* the generators' products, made for this star's radius, are appended *)
  /\ (forall t n d fuel, match sg_birth (st_spotgen s) t (st_radius s) n d fuel with
        | Ok l => exists s', star_birth_spots s t n d fuel = Ok s' /\ same_body s s' /\ st_flares s' = st_flares s
                    /\ st_facs s' = st_facs s /\ sc_spots (st_spots s') = sc_spots (st_spots s) ++ l
        | Raise e => star_birth_spots s t n d fuel = Raise e end)
  /\ (forall c d rf fuel, match sg_generate_mature (st_spotgen s) c (st_radius s) d rf fuel with
        | Ok l => exists s', star_mature_spots s c d rf fuel = Ok s' /\ same_body s s' /\ st_flares s' = st_flares s
                    /\ st_facs s' = st_facs s /\ sc_spots (st_spots s') = sc_spots (st_spots s) ++ l
        | Raise e => star_mature_spots s c d rf fuel = Raise e end)
  /\ (forall t n d, match fg_birth (st_facgen s) t (st_radius s * SUN_KM) n d with
        | Ok l => exists s', star_birth_faculae s t n d = Ok s' /\ same_body s s' /\ st_flares s' = st_flares s
                    /\ st_spots s' = st_spots s /\ fcc_facs (st_facs s') = fcc_facs (st_facs s) ++ l
        | Raise e => star_birth_faculae s t n d = Raise e end)
  (* flares replace those of the previous call *)
  /\ (forall t n d, match generate_flare_series (st_flaregen s) t n d with
        | Ok l => exists s', star_get_flares s t n d = Ok s' /\ same_body s s'
                    /\ st_spots s' = st_spots s /\ st_facs s' = st_facs s /\ st_flares s' = Some (flc_init l)
        | Raise e => star_get_flares s t n d = Raise e end).
Proof. exact C68_lemma. Qed.
Print Assumptions C68_frame.
Example C68_nonvacuous : exists s x c, star_unified s /\ spot_on (st_grid s) x
  /\ sc_spots (st_spots s) <> [] /\ fcc_facs (st_facs s) <> [] /\ sc_age (st_spots s) (Fin 1) = Ok c.
Proof.
  set (s := ex_star 2 [ex_spot2] [ex_facula 2 150] 3300 300).
  assert (W : forall x, In x (sc_spots (st_spots s)) -> spot_wf x).
  { intros x [<-|[]]. exists 1000, 1000, (1/2), 10. split. repeat split. lra. }
  destruct (C14_lemma (st_spots s) [1] W) as [c [_ [E _]]]. intros t [<-|[]]; lra. discriminate.
  cbn [rsum fold_right] in E. rewrite Rplus_0_r in E.
  exists s, ex_spot2, c. split. apply ex_unified. split. apply spot_init_on. split. discriminate. split. discriminate. exact E.
Qed.
Example C68_init_nonvacuous : grid_new (PyInt 2) = Ok (Spiral 2).
Proof. reflexivity. Qed.

(** a star on the rectangular grid of 4 latitudes and 3 longitudes *)
Definition ex_rect : star :=
  match star_init (Fin 3300) 1 30 (mkSpotColl [ex_spot2] (Spiral 100)) (mkFacColl [] (Spiral 100))
    (PyTuple [PyInt 4; PyInt 3]) None None None None 0 0 with Ok s => s | Raise _ => ex_star 2 [] [] 0 0 end.
Lemma ex_rect_init : star_init (Fin 3300) 1 30 (mkSpotColl [ex_spot2] (Spiral 100)) (mkFacColl [] (Spiral 100))
    (PyTuple [PyInt 4; PyInt 3]) None None None None 0 0 = Ok ex_rect.
Proof. reflexivity. Qed.

(** C71: stars on both kinds of grids, with a spot and a facula, in transit *)
Theorem C71_observable :
  forall s lat0 lon0 orbit planet phase incl T D,
  star_unified s -> fine_grid (st_grid s) -> 0 < st_radius s -> ld_positive s -> st_teff s = Fin T -> gr_dteff (st_gran s) = Fin D ->
  (forall x, In x (sc_spots (st_spots s)) -> fin_temps x) ->
  - PI/2 <= lat0 <= PI/2 -> (forall f, In f (fcc_facs (st_facs s)) -> drawable lat0 lon0 f) ->
  0 <= orbit -> 0 <= planet -> (planet <= st_radius s \/ cos phase <= 0) ->
  exists A M C pf, disk_view s lat0 lon0 orbit planet phase incl T D A M C (Fin pf) /\ 0 <= pf <= 1
    /\ 0 < disk s lat0 lon0 A
    /\ (appears (st_grid s) M T \/ D = 0 -> forall f, exists tot cov,
          calc_coverage s lat0 lon0 (Fin f) orbit planet phase incl = Ok (tot, cov, Fin pf)).
Proof. exact C71_lemma. Qed.
Print Assumptions C71_observable.
Example C71_nonvacuous : exists s, star_unified s /\ fine_grid (st_grid s) /\ 0 < st_radius s /\ ld_positive s
  /\ st_teff s = Fin 3300 /\ gr_dteff (st_gran s) = Fin 0
  /\ (forall x, In x (sc_spots (st_spots s)) -> fin_temps x) /\ - PI/2 <= ex_lat 6 <= PI/2
  /\ (forall f, In f (fcc_facs (st_facs s)) -> drawable (ex_lat 6) 0 f) /\ cos PI <= 0
  /\ sc_spots (st_spots s) <> [] /\ fcc_facs (st_facs s) <> [].
Proof.
  exists (ex_star 6 [ex_spot2] [ex_facula 6 150] 3300 0). split. apply ex_unified. split. simpl; lia. split. simpl; lra.
  split. { intros mu H. change (st_u1 _) with 0. change (st_u2 _) with 0. lra. }
  split. reflexivity. split. reflexivity. split. { intros x [<-|[]]. split; eexists; reflexivity. }
  split. apply ex_lat_range; lia. split.
  - intros f I. rewrite ex_facs in I. destruct I as [<-|[]].
    destruct ex_rounds as [R1 R2]. exists 1000, 100, 0, 20, (-100), 0, 150, 150%Z, (-100)%Z. split. repeat split.
    split. lra. split. lra. split; auto. split; auto. split. discriminate.
    cbn [fc_lat fc_lon fac_assign_grid ex_facula]. unfold ex_lat. rewrite cos_sep_self. lra.
  - split. rewrite cos_PI; lra. split; discriminate.
Qed.
Lemma ex_rect_view : exists A M C pf, disk_view ex_rect 0 0 100 (1/10) PI (PI/2) 3300 0 A M C (Fin pf) /\ 0 < disk ex_rect 0 0 A.
Proof.
  destruct (C71_lemma ex_rect 0 0 100 (1/10) PI (PI/2) 3300 0) as [A [M [C [pf [V [_ [D _]]]]]]].
  - apply (star_init_unified _ _ _ _ _ _ _ _ _ _ _ _ _ ex_rect_init).
  - simpl; lia.
  - simpl; lra.
  - intros mu H. change (st_u1 _) with 0. change (st_u2 _) with 0. lra.
  - reflexivity.
  - reflexivity.
  - intros x [<-|[]]. split; eexists; reflexivity.
  - pose proof PI_RGT_0; lra.
  - intros f [].
  - lra.
  - lra.
  - right. rewrite cos_PI; lra.
  - exists A, M, C, pf. auto.
Qed.

(** C69: a rectangular star plotted at its own resolution *)
Theorem C69_plot_data :
  forall s lat0 lon0 orbit planet phase incl T D A M C pf nlon nlat,
  disk_view s lat0 lon0 orbit planet phase incl T D A M C pf ->
  let plot := plot_surface s lat0 lon0 orbit planet phase incl nlon nlat in
  let g := st_grid s in
  (* a rectangular grid can only be plotted at its own resolution *)
  (forall a b, g = Rect a b -> ~ (nlat = a /\ nlon = b) -> plot = Raise TypeError)
  /\ ((forall a b, g = Rect a b -> nlat = a /\ nlon = b) -> exists pd, plot = Ok pd
      (* axes, in degrees *)
      /\ length (pd_lats pd) = nlat /\ length (pd_lons pd) = nlon
      /\ (forall k, (k < nlat)%nat -> nth k (pd_lats pd) 0 = -90 + INR k * (180 / INR (nlat - 1)))
      /\ (forall k, (k < nlon)%nat -> nth k (pd_lons pd) 0 = INR k * (360 / INR nlon))
      /\ has_shape (pd_temps pd) true nlon nlat /\ has_shape (pd_planet pd) true nlon nlat
      (* rectangular: the map and the pixels more than half covered *)
      /\ (forall a b, g = Rect a b -> forall j i, (j < nlon)%nat -> (i < nlat)%nat ->
            acell (pd_temps pd) j i NaN = acell M j i NaN
            /\ acell (pd_planet pd) j i (Fin 0) = if Rlt_dec (1/2) (cell_val C j i) then Fin 1 else NaN)
      (* spiral: averages of the map; black only where something is covered *)
      /\ (forall n, g = Spiral n -> forall j i, (j < nlon)%nat -> (i < nlat)%nat ->
            (exists t, acell (pd_temps pd) j i NaN = Fin t
              /\ (forall lo hi, (forall k, (k < n)%nat -> lo <= cell_val M 0 k <= hi) -> lo <= t <= hi))
            /\ (acell (pd_planet pd) j i (Fin 0) = Fin 1 /\ (exists k, (k < n)%nat /\ 1/2 < cell_val C 0 k)
                \/ acell (pd_planet pd) j i (Fin 0) = NaN /\ (exists k, (k < n)%nat /\ cell_val C 0 k <= 1/2)))
      (* the planet is drawn above the star exactly when none of it is hidden *)
      /\ pd_zorder pd = (if neq pf (Fin 1) then 100 else -100)%Z
      (* opacity of the limb-darkening overlay *)
      /\ grid_shaped g (pd_alpha pd)
      /\ ((exists j i, pixel g j i /\ 0 < brightness s lat0 lon0 j i) -> exists top,
           (exists j i, pixel g j i /\ brightness s lat0 lon0 j i = top)
           /\ forall j i, pixel g j i -> brightness s lat0 lon0 j i <= top /\ exists al,
               acell (pd_alpha pd) j i NaN = Fin al /\ al = 1 - brightness s lat0 lon0 j i / top
               /\ (ld_nonneg s -> 0 <= al <= 1) /\ (pix_mu s lat0 lon0 j i < 0 -> al = 1)
               /\ (al = 0 <-> brightness s lat0 lon0 j i = top))).
Proof. exact C69_lemma. Qed.
Print Assumptions C69_plot_data.
Example C69_nonvacuous : exists s A M C pf, disk_view s 0 0 100 (1/10) PI (PI/2) 3300 0 A M C (Fin pf)
  /\ st_grid s = Rect 4 3 /\ exists j i, pixel (st_grid s) j i /\ 0 < brightness s 0 0 j i.
Proof.
  destruct ex_rect_view as [A [M [C [pf [V _]]]]]. exists ex_rect, A, M, C, pf. split; auto. split. reflexivity.
  destruct (hemisphere (st_grid ex_rect) 0 0) as [j [i [P [H _]]]]. simpl; lia. pose proof PI_RGT_0; lra.
  exists j, i. split; auto. unfold brightness. rewrite pix_mu_pt. destruct (Rlt_dec _ 0). lra.
  change (st_u1 _) with 0. change (st_u2 _) with 0. lra.
Qed.

(** C70 *)
Theorem C70_hidden_parts :
  forall s lat0 lon0 orbit planet phase incl,
  (* every mask, at every phase *)
  (forall m pf, good_grid (st_grid s) -> - PI/2 <= lat0 <= PI/2 -> 0 < st_radius s ->
     get_transit_mask s lat0 lon0 orbit planet phase incl = Ok (m, pf) ->
     grid_shaped (st_grid s) m
     /\ forall j i, pixel (st_grid s) j i -> exists c, acell m j i NaN = Fin c /\ 0 <= c <= 1)
  (* every entry of the dictionaries *)
  /\ (forall T D A M C pf f tot cov pf', disk_view s lat0 lon0 orbit planet phase incl T D A M C pf ->
     disk s lat0 lon0 A <> 0 -> ld_nonneg s -> 0 <= f <= 1 ->
     calc_coverage s lat0 lon0 (Fin f) orbit planet phase incl = Ok (tot, cov, pf') ->
     pf' = pf
     /\ Forall2 (fun a b => fst b = fst a /\ exists x y, snd a = Fin x /\ snd b = Fin y /\ 0 <= y <= x) tot cov
     /\ 0 <= dict_sum cov <= dict_sum tot).
Proof. exact C70_lemma. Qed.
Print Assumptions C70_hidden_parts.
Example C70_nonvacuous : exists s A M C pf tot cov, disk_view s 0 0 100 (1/10) PI (PI/2) 3300 0 A M C (Fin pf)
  /\ disk s 0 0 A <> 0 /\ ld_nonneg s /\ calc_coverage s 0 0 (Fin (1/5)) 100 (1/10) PI (PI/2) = Ok (tot, cov, Fin pf).
Proof.
  destruct ex_rect_view as [A [M [C [pf [V D]]]]].
  destruct (C52_keyerror_lemma _ _ _ _ _ _ _ _ _ _ _ _ _ (1/5) V ltac:(lra)) as [K _].
  destruct K as [tot [cov K]]. { exists 3300. split; auto. right. lra. }
  exists ex_rect, A, M, C, pf, tot, cov. split; auto. split. lra. split; auto.
  intros mu H. change (st_u1 _) with 0. change (st_u2 _) with 0. lra.
Qed.
