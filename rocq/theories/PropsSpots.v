(** Properties C13-C23: star spots and spot collections *)
From Coq Require Import Reals ZArith Bool List Lra Lia Permutation.
From Coquelicot Require Import Coquelicot.
From Verif Require Import Num Py MConfig MHelpers MGrid MSpots MFaculae Spec SpecStar SpecFlare LBase LGrid LHelpers LSpotAge LSpotMap LSpotCov LQuad LNew.
Import ListNotations.
Open Scope R_scope.

(** A typical spot on a rectangular grid: area 100 MSH of at most 500, growing 50% a day,
    decaying 10 MSH a day; and a later, decaying one. *)
Definition ex_grid : grid := Rect 50 100.
Definition ex_spot : spot :=
  spot_init (1/3) 1 (Fin 500) (Fin 100) (Fin 2500) (Fin 2700) (Fin 5) true (Fin (1/2)) (-1) (Fin 10) ex_grid.
Definition ex_old : spot :=
  spot_init (-1/3) 2 (Fin 500) (Fin 300) (Fin 2600) (Fin 2800) (Fin 5) false (Fin (1/2)) (-1) (Fin 10) ex_grid.
Example ex_params : spot_params ex_spot 100 500 (1/2) 10. Proof. repeat split. Qed.
Example ex_old_params : spot_params ex_old 300 500 (1/2) 10. Proof. repeat split. Qed.
Example ex_wf : forall s, In s [ex_spot; ex_old] -> spot_wf s.
Proof.
  intros s [<-|[<-|[]]]; [exists 100, 500, (1/2), 10 | exists 300, 500, (1/2), 10]; repeat split; try reflexivity; lra.
Qed.
Example ex_on : forall s, In s [ex_spot; ex_old] -> spot_on ex_grid s.
Proof. intros s [<-|[<-|[]]]; apply spot_init_on. Qed.

(** C13 *)
Theorem C13_spot_law :
  forall s A M g W t, spot_params s A M g W -> 0 < A <= M -> 0 <= g -> 0 <= t ->
  exists s', spot_age s (Fin t) = Ok s'
  /\ (sp_growing s = true -> 0 < g -> t < time_to_max A M g ->
        aged_to s s' (A * Rpower (1 + g) t) true)
  /\ (sp_growing s = true -> 0 < g -> time_to_max A M g <= t ->
        aged_to s s' (Rmax 0 (M - W * (t - time_to_max A M g))) false)
  /\ (sp_growing s = true -> g = 0 -> aged_to s s' A true)
  /\ (sp_growing s = false -> W * t <= M -> aged_to s s' (A - W * t) false)
  /\ (sp_growing s = false -> M < W * t -> aged_to s s' 0 false).
Proof. exact C13_lemma. Qed.
Print Assumptions C13_spot_law.
Theorem C13_constructed :
  forall lat lon A M tu tp q growing g W gr t, 0 < A <= M -> 0 <= g -> 0 <= t ->
  let s := spot_init lat lon (Fin M) (Fin A) tu tp q growing (Fin g) (-1) (Fin W) gr in
  spot_on gr s
  /\ exists s', spot_age s (Fin t) = Ok s'
  /\ (growing = true -> 0 < g -> t < time_to_max A M g -> aged_to s s' (A * Rpower (1 + g) t) true)
  /\ (growing = true -> 0 < g -> time_to_max A M g <= t -> aged_to s s' (Rmax 0 (M - W * (t - time_to_max A M g))) false)
  /\ (growing = true -> g = 0 -> aged_to s s' A true)
  /\ (growing = false -> W * t <= M -> aged_to s s' (A - W * t) false)
  /\ (growing = false -> M < W * t -> aged_to s s' 0 false)
  /\ sp_lat s' = lat /\ sp_lon s' = lon /\ sp_teff_umbra s' = tu /\ sp_teff_pen s' = tp /\ sp_ratio s' = q.
Proof. exact C13_new_lemma. Qed.
Print Assumptions C13_constructed.
Example C13_nonvacuous : spot_params ex_spot 100 500 (1/2) 10 /\ 0 < 100 <= 500 /\ sp_growing ex_spot = true
  /\ 0 < time_to_max 100 500 (1/2).
Proof.
  split. apply ex_params. split. lra. split. reflexivity. unfold time_to_max.
  assert (0 < ln (500/100)) by (rewrite <- ln_1; apply ln_increasing; lra).
  assert (0 < ln (1 + 1/2)) by (rewrite <- ln_1; apply ln_increasing; lra).
  apply Rdiv_lt_0_compat; auto.
Qed.

(** C14 *)
Theorem C14_slicing :
  forall c ts, (forall s, In s (sc_spots c) -> spot_wf s) -> all_nonneg ts -> ts <> [] ->
  exists c', sc_run c ts = Ok c' /\ sc_age c (Fin (rsum ts)) = Ok c'
    /\ (forall s, In s (sc_spots c') -> spot_wf s).
Proof. exact C14_lemma. Qed.
Print Assumptions C14_slicing.
Example C14_nonvacuous : (forall s, In s (sc_spots (mkSpotColl [ex_spot; ex_old] ex_grid)) -> spot_wf s)
  /\ all_nonneg [1; 1/2; 7] /\ [1; 1/2; 7] <> [].
Proof. split. apply ex_wf. split. intros t [<-|[<-|[<-|[]]]]; lra. discriminate. Qed.

(** C15 *)
Theorem C15_invariants :
  forall c ts, (forall s, In s (sc_spots c) -> spot_wf s) -> all_nonneg ts -> ts <> [] ->
  exists c', sc_run c ts = Ok c' /\ sc_grid c' = sc_grid c
  /\ (forall s', In s' (sc_spots c') -> exists s A M g W a b,
        In s (sc_spots c) /\ spot_params s A M g W /\ aged_to s s' a b
        /\ 0 < a <= M
        /\ (sp_growing s = false -> b = false /\ a <= A)).
Proof. exact C15_lemma. Qed.
Print Assumptions C15_invariants.
Theorem C15_direct_negative :
  forall s A M g W t, spot_params s A M g W -> sp_growing s = false ->
  0 < A <= M -> 0 <= W -> 0 <= t ->
  exists s' a, spot_age s (Fin t) = Ok s' /\ sp_area s' = Fin a /\ (a < 0 <-> A < W * t <= M).
Proof. exact C15_direct_lemma. Qed.
Print Assumptions C15_direct_negative.
Example C15_direct_nonvacuous : spot_params ex_old 300 500 (1/2) 10 /\ sp_growing ex_old = false /\ 0 < 300 <= 500
  /\ 300 < 10 * 40 <= 500.
Proof. split. apply ex_old_params. split. reflexivity. lra. Qed.

(** C16 *)
Theorem C16_death_time :
  forall l1 s l2 g0 ts A M g W,
  (forall x, In x (l1 ++ s :: l2) -> spot_wf x) -> all_nonneg ts -> ts <> [] ->
  spot_params s A M g W -> sp_growing s = true -> 0 < A <= M -> 0 < g -> 0 < W ->
  exists r1 rs r2,
    sc_run (mkSpotColl l1 g0) ts = Ok (mkSpotColl r1 g0)
    /\ sc_run (mkSpotColl l2 g0) ts = Ok (mkSpotColl r2 g0)
    /\ sc_run (mkSpotColl (l1 ++ s :: l2) g0) ts = Ok (mkSpotColl (r1 ++ rs ++ r2) g0)
    /\ (time_to_max A M g + M / W <= rsum ts -> rs = [])
    /\ (rsum ts < time_to_max A M g + M / W -> exists s' a b, rs = [s'] /\ aged_to s s' a b /\ 0 < a).
Proof. exact C16_lemma. Qed.
Print Assumptions C16_death_time.
Example C16_nonvacuous : (forall x, In x ([] ++ ex_spot :: [ex_old]) -> spot_wf x) /\ 0 < 1/2 /\ 0 < 10.
Proof. split. apply ex_wf. lra. Qed.

(** C17: no hypotheses *)
Theorem C17_clean :
  forall c,
  keeps spot_alive (sc_spots c) (sc_spots (sc_clean c)) /\ sc_grid (sc_clean c) = sc_grid c
  /\ (forall t c', sc_age c t = Ok c' -> exists aged,
        length aged = length (sc_spots c)
        /\ (forall i d, (i < length aged)%nat -> spot_age (nth i (sc_spots c) d) t = Ok (nth i aged d))
        /\ keeps spot_alive aged (sc_spots c')).
Proof. exact C17_lemma. Qed.
Print Assumptions C17_clean.

(** C18 *)
Theorem C18_angular_radius :
  forall s Rs A, sp_area s = Fin A -> 0 < Rs ->
  (0 <= A * (2 * PI / 1000000) <= 4 * PI * Rs^2 ->
     exists th, spot_angular_radius s Rs = Fin th /\ 0 <= th <= PI
       /\ 2 * PI * Rs^2 * (1 - cos th) = A * (2 * PI / 1000000)
       /\ (forall s' A', sp_area s' = Fin A' -> A < A' -> A' * (2 * PI / 1000000) <= 4 * PI * Rs^2 ->
             exists th', spot_angular_radius s' Rs = Fin th' /\ th < th'))
  /\ (A < 0 \/ 4 * PI * Rs^2 < A * (2 * PI / 1000000) ->
        spot_angular_radius s Rs = NaN /\ forall j i t, ~ spot_marks s Rs j i t).
Proof. exact C18_lemma. Qed.
Print Assumptions C18_angular_radius.
Example C18_nonvacuous : sp_area ex_spot = Fin 100 /\ 0 <= 100 * (2 * PI / 1000000) <= 4 * PI * 1^2.
Proof. split. reflexivity. pose proof PI_RGT_0. lra. Qed.

(** C19 *)
Theorem C19_coolest :
  forall c Rs T, T <> NaN ->
  (forall s, In s (sc_spots c) -> spot_on (sc_grid c) s /\ nle (sp_teff_umbra s) (sp_teff_pen s) = true) ->
  exists m, sc_map_pixels c Rs T = Ok m /\ grid_shaped (sc_grid c) m
  /\ (forall j i, pixel (sc_grid c) j i ->
        let v := acell m j i NaN in
        nle v T = true
        /\ (forall s t, In s (sc_spots c) -> spot_marks s Rs j i t -> nle v t = true)
        /\ (v = T \/ exists s, In s (sc_spots c) /\ spot_marks s Rs j i v))
  /\ (forall l', Permutation (sc_spots c) l' -> sc_map_pixels (mkSpotColl l' (sc_grid c)) Rs T = Ok m).
Proof. exact C19_lemma. Qed.
Print Assumptions C19_coolest.
Theorem C19_any_temps :
  forall c Rs T, T <> NaN ->
  (forall s, In s (sc_spots c) -> spot_on (sc_grid c) s /\ sp_teff_umbra s <> NaN /\ sp_teff_pen s <> NaN) ->
  exists m, sc_map_pixels c Rs T = Ok m /\ grid_shaped (sc_grid c) m
  /\ (forall j i, pixel (sc_grid c) j i ->
        let v := acell m j i NaN in
        nle v T = true
        /\ (v = T \/ exists s, In s (sc_spots c) /\ spot_marks s Rs j i v)).
Proof. exact C19_general_lemma. Qed.
Print Assumptions C19_any_temps.
Theorem C19_order_dependence :
  exists s1 s2 m12 m21,
  spot_on (Spiral 1) s1 /\ spot_on (Spiral 1) s2
  /\ sc_map_pixels (mkSpotColl [s1; s2] (Spiral 1)) 1 (Fin 3000) = Ok m12
  /\ sc_map_pixels (mkSpotColl [s2; s1] (Spiral 1)) 1 (Fin 3000) = Ok m21
  /\ acell m12 0 0 NaN = Fin 2550 /\ acell m21 0 0 NaN = Fin 2000
  /\ spot_marks s1 1 0 0 (Fin 2000).
Proof. exact C19_order_lemma. Qed.
Print Assumptions C19_order_dependence.
Example C19_nonvacuous : forall s, In s (sc_spots (mkSpotColl [ex_spot; ex_old] ex_grid)) ->
  spot_on (sc_grid (mkSpotColl [ex_spot; ex_old] ex_grid)) s /\ nle (sp_teff_umbra s) (sp_teff_pen s) = true.
Proof.
  intros s I. split. apply ex_on; auto. destruct I as [<-|[<-|[]]]; apply Rleb_true; simpl; lra.
Qed.

(** C20 *)
Theorem C20_umbra_inside :
  forall g s Rs th q j i a,
  spot_on g s -> pixel g j i -> spot_angular_radius s Rs = Fin th -> sp_ratio s = Fin q -> 0 < q ->
  is_angle (sp_lat s) (sp_lon s) (pix_lat g j i) (pix_lon g j i) a ->
  (sp_teff_umbra s <> sp_teff_pen s ->
     (spot_marks s Rs j i (sp_teff_pen s) <-> a < th)
     /\ (spot_marks s Rs j i (sp_teff_umbra s) <-> a < th / sqrt q)
     /\ (1 <= q -> spot_marks s Rs j i (sp_teff_umbra s) -> spot_marks s Rs j i (sp_teff_pen s)))
  /\ (sp_teff_umbra s = sp_teff_pen s -> forall t, spot_marks s Rs j i t <-> t = sp_teff_pen s /\ a < th)
  /\ (q < 1 -> 0 < th -> th < th / sqrt q).
Proof. exact C20_lemma. Qed.
Print Assumptions C20_umbra_inside.
Example C20_nonvacuous : spot_on ex_grid ex_spot /\ pixel ex_grid 3 7 /\ (exists th, spot_angular_radius ex_spot 1 = Fin th)
  /\ sp_ratio ex_spot = Fin 5 /\ sp_teff_umbra ex_spot <> sp_teff_pen ex_spot.
Proof.
  split. apply spot_init_on. split. unfold pixel, ex_grid. rewrite rect_points_eq. cbn [arows].
  rewrite map_length, seq_length. split. lia. rewrite nth_map_seq by lia. rewrite map_length, seq_length. lia.
  split. destruct (C18_lemma ex_spot 1 100 eq_refl ltac:(lra)) as [H _].
  destruct H as [th [H _]]. pose proof PI_RGT_0; lra. eauto.
  split. reflexivity. simpl. intros E. inversion E. lra.
Qed.

(** C21 *)
Theorem C21_coverage :
  forall c Rs A, good_grid (sc_grid c) -> grid_area (sc_grid c) = Ok A ->
  (forall s, In s (sc_spots c) -> spot_on (sc_grid c) s /\ fin_temps s) ->
  exists v mask, sc_get_coverage c Rs = Ok (Fin v)
  /\ grid_shaped (sc_grid c) mask
  /\ (forall j i, pixel (sc_grid c) j i -> (acell mask j i false = true <-> in_some_spot c Rs j i))
  /\ v = masked_sum A mask / masked_sum A (amap (fun _ => true) mask)
  /\ 0 <= v <= 1
  /\ (sc_spots c = [] -> v = 0)
  /\ (forall l', Permutation (sc_spots c) l' -> sc_get_coverage (mkSpotColl l' (sc_grid c)) Rs = Ok (Fin v))
  /\ (forall s, spot_on (sc_grid c) s -> fin_temps s ->
        exists v', sc_get_coverage (sc_add_spot c [s]) Rs = Ok (Fin v') /\ v <= v').
Proof. exact C21_lemma. Qed.
Print Assumptions C21_coverage.
Example C21_nonvacuous : good_grid ex_grid /\ (exists A, grid_area ex_grid = Ok A)
  /\ forall s, In s [ex_spot; ex_old] -> spot_on ex_grid s /\ fin_temps s.
Proof.
  assert (G : good_grid ex_grid) by (split; lia). split; auto.
  split. rewrite grid_area_good by auto. eauto.
  intros s I. split. apply ex_on; auto. destruct I as [<-|[<-|[]]]; split; eexists; reflexivity.
Qed.

(** C22 *)
Theorem C22_grids :
  (* set_gridmaker recomputes the distances *)
  (forall s g, spot_on g (spot_set_gridmaker s g) /\ same_spot s (spot_set_gridmaker s g))
  /\ (forall c g Rs T, let c' := sc_set_gridmaker c g in
        sc_grid c' = g /\ Forall2 same_spot (sc_spots c) (sc_spots c')
        /\ (forall s, In s (sc_spots c') -> spot_on g s)
        /\ exists m, sc_map_pixels c' Rs T = Ok m /\ grid_shaped g m)
  (* add_spot does not: fine on the same grid *)
  /\ (forall c new, (forall s, In s (sc_spots c) -> spot_on (sc_grid c) s) ->
        (forall s, In s new -> spot_on (sc_grid c) s) ->
        sc_spots (sc_add_spot c new) = sc_spots c ++ new
        /\ forall s, In s (sc_spots (sc_add_spot c new)) -> spot_on (sc_grid (sc_add_spot c new)) s)
  (* the spot keeps the old distances *)
  /\ (forall c new, exists new', sc_spots (sc_add_spot c new) = sc_spots c ++ new'
        /\ sc_grid (sc_add_spot c new) = sc_grid c
        /\ Forall2 (fun s s' => same_spot s s' /\ sp_r s' = sp_r s /\ sp_grid s' = sc_grid c) new new')
  (* incompatible shapes: the next map raises *)
  /\ (forall c s g Rs T, (forall x, In x (sc_spots c) -> spot_on (sc_grid c) x) -> spot_on g s ->
        match sc_grid c, g with
        | Spiral n, Spiral n' => n <> n' /\ (2 <= n)%nat /\ (2 <= n')%nat
        | Rect a b, Rect a' b' => (a, b) <> (a', b') /\ (2 <= a)%nat /\ (2 <= b)%nat /\ (2 <= a')%nat /\ (2 <= b')%nat
        | _, _ => False
        end -> sc_map_pixels (sc_add_spot c [s]) Rs T = Raise ValueError)
  (* compatible shapes: silently wrong pixels; the map of the spiral grid's spot does
     not depend on the longitude of the rectangular grid's pixel *)
  /\ (forall nlat nlon s Rs T, spot_on (Spiral nlat) s ->
        exists m, sc_map_pixels (sc_add_spot (mkSpotColl [] (Rect nlat nlon)) [s]) Rs T = Ok m
        /\ grid_shaped (Rect nlat nlon) m
        /\ forall j j' i, (j < nlon)%nat -> (j' < nlon)%nat -> (i < nlat)%nat ->
             acell m j i NaN = acell m j' i NaN).
Proof. exact C22_lemma. Qed.
Print Assumptions C22_grids.
Theorem C22_constructed :
  forall spots g Rs T, let c := sc_init spots g in
  sc_grid c = g /\ Forall2 same_spot spots (sc_spots c) /\ (forall s, In s (sc_spots c) -> spot_on g s)
  /\ exists m, sc_map_pixels c Rs T = Ok m /\ grid_shaped g m.
Proof. exact C22_new_lemma. Qed.
Print Assumptions C22_constructed.
Example C22_nonvacuous : exists c s g,
  (forall x, In x (sc_spots c) -> spot_on (sc_grid c) x) /\ spot_on g s
  /\ sc_grid c = Spiral 100 /\ g = Spiral 200.
Proof.
  exists (sc_set_gridmaker (mkSpotColl [ex_old] ex_grid) (Spiral 100)), (spot_set_gridmaker ex_spot (Spiral 200)), (Spiral 200).
  split. intros x [<-|[]]; apply set_gridmaker_on. split. apply set_gridmaker_on. split; reflexivity.
Qed.

(** C23 *)
Theorem C23_surface_fraction :
  forall s lat0 lon0 Rs n A c, 0 < Rs ->
  sp_area s = Fin A -> 0 <= A * (2 * PI / 1000000) <= 4 * PI * Rs^2 ->
  is_angle lat0 lon0 (sp_lat s) (sp_lon s) c ->
  exists v th, spot_surface_fraction s lat0 lon0 Rs n = Fin v /\ 0 <= v
  /\ spot_angular_radius s Rs = Fin th
  /\ (PI / 2 <= c - th -> v = 0)
  /\ (forall A' b, A <= A' -> A' * (2 * PI / 1000000) <= 4 * PI * Rs^2 ->
        exists v', spot_surface_fraction (spot_with_area s (Fin A') b) lat0 lon0 Rs n = Fin v' /\ v <= v').
Proof. exact C23_lemma. Qed.
Print Assumptions C23_surface_fraction.
Theorem C23_value :
  forall s lat0 lon0 Rs th c,
  spot_angular_radius s Rs = Fin th -> is_angle lat0 lon0 (sp_lat s) (sp_lon s) c ->
  (* width at t of the disc of radius th around c (0 outside the disc), foreshortened by cos t *)
  let slice t := 2 * cos t * sqrt (th^2 - (t - c)^2) in
  exists v, (forall n, spot_surface_fraction s lat0 lon0 Rs n = Fin (v n))
  /\ (forall n, exists xs, length xs = n
        /\ (forall i, (i < n)%nat -> nth i xs 0 = - PI/2 + INR i * (PI / INR (n - 1)))
        /\ v n = trapezoid slice xs / (2 * PI))
  /\ is_lim_seq v (RInt slice (- PI/2) (PI/2) / (2 * PI)).
Proof. exact C23_value_lemma. Qed.
Print Assumptions C23_value.
Example C23_nonvacuous : exists c, is_angle 0 0 (sp_lat ex_spot) (sp_lon ex_spot) c.
Proof.
  exists (acos (cos_sep 0 0 (sp_lat ex_spot) (sp_lon ex_spot))). split. apply acos_bound.
  apply cos_acos. rewrite <- law_cos_dot. apply law_cos_bound.
Qed.
