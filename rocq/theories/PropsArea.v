(** Property C123: areas of the pixels in single precision *)
From Coq Require Import Reals ZArith Bool String List Lra Lia Permutation.
From Coquelicot Require Import Coquelicot.
From Verif Require Import Num Py MConfig MHelpers MGrid MSpots MFaculae MXoflares MFlares MGranules MStar MSingle MDouble MArea
  Spec SpecStar SpecDisk SpecSingle SpecDouble LBase LGrid LSpotMap LSpotCov LDisk LStar LStarFac LStarCov LSingle LSingleRep LSingleEx LArea PropsStar PropsSingle.
Import ListNotations.
Open Scope R_scope.

(** C123 *)
Theorem C123_areas :
  forall n, (1 <= n)%nat -> INR n <= 2 ^ 100 ->
  exists A a, grid_area32 (Spiral n) = Ok A /\ grid_shaped (Spiral n) A
    /\ (forall j i, pixel (Spiral n) j i -> acell A j i NaN = Fin a)
    /\ f32_value a /\ 0 < a /\ Rabs (a * INR n - 1) <= / 2 ^ 23
    /\ ((exists k, n = (2 ^ k)%nat) -> a = 1 / INR n).
Proof. exact C123_areas_lemma. Qed.
Print Assumptions C123_areas.
Theorem C123_mask :
  forall s lat0 lon0 orbit planet phase incl n, 0 < st_radius s -> - PI/2 <= lat0 <= PI/2 ->
  st_grid s = Spiral n -> (1 <= n)%nat -> INR n <= 2 ^ 100 ->
  let rp := planet / st_radius s in
  (* position of the planet on the sky, in stellar radii *)
  let px := - (orbit / st_radius s * sin phase) in
  let py := - (orbit / st_radius s * cos phase * cos incl) in
  (1 + 2 * rp < sqrt (px^2 + py^2) \/ 0 < cos phase ->
     get_transit_mask32 s lat0 lon0 orbit planet phase incl = get_transit_mask s lat0 lon0 orbit planet phase incl)
  /\ (sqrt (px^2 + py^2) <= 1 + 2 * rp -> cos phase <= 0 ->
     exists m r, get_transit_mask32 s lat0 lon0 orbit planet phase incl = Ok (m, Fin 1)
    /\ grid_shaped (st_grid s) m /\ 0 < r /\ Rabs (INR n * (r / 2)^2 - 1) <= / 2 ^ 21
    /\ forall j i, pixel (st_grid s) j i -> exists c, acell m j i NaN = Fin c
         /\ 0 <= c <= 1
         /\ (pix_mu s lat0 lon0 j i < 0 -> c = 0)
         /\ (forall x y, proj_ortho lat0 lon0 (pix_lat (st_grid s) j i, pix_lon (st_grid s) j i) = (Fin x, Fin y) ->
               let sigma := r * pix_mu s lat0 lon0 j i in
               let dist := sqrt ((x - px)^2 + (y - py)^2) in
               (rp + 2 * sigma < dist -> c = 0) /\ (dist + 2 * sigma < rp -> c = 1)
               /\ (dist <= rp + 2 * sigma -> rp <= dist + 2 * sigma ->
                     (sigma = 0 -> c = 0)
                     /\ (0 < sigma -> exists xs, length xs = 100%nat
                          /\ (forall k, (k < 100)%nat -> nth k xs 0 = sigma * (-3 + INR k * (6/99)))
                          /\ c = overlap sigma r dist rp xs)))).
Proof. exact C123_mask_lemma. Qed.
Print Assumptions C123_mask.
Theorem C123_report :
  forall s lat0 lon0 orbit planet phase incl T D A M C pf f n,
  disk_view s lat0 lon0 orbit planet phase incl T D A M C pf -> disk s lat0 lon0 A <> 0 ->
  Rabs T <= powerRZ 2 127 -> Rabs (T - D) <= powerRZ 2 127 -> (forall x, In x (sc_spots (st_spots s)) -> spot32 x) ->
  st_grid s = Spiral n -> (1 <= n)%nat -> INR n <= 2 ^ 100 -> ld_nonneg s -> 0 <= f <= 1 ->
  (* outside transits nothing changes *)
  (1 + 2 * (planet / st_radius s) < sqrt ((orbit / st_radius s * sin phase)^2 + (orbit / st_radius s * cos phase * cos incl)^2) \/ 0 < cos phase ->
     calc_coverage_areas32 s lat0 lon0 (Fin f) orbit planet phase incl = calc_coverage32 s lat0 lon0 (Fin f) orbit planet phase incl)
  (* in transits what is there does not change, and the hidden parts change with the mask *)
  /\ exists C32, get_transit_mask32 s lat0 lon0 orbit planet phase incl = Ok (C32, pf)
  /\ (forall e, calc_coverage32 s lat0 lon0 (Fin f) orbit planet phase incl = Raise e -> calc_coverage_areas32 s lat0 lon0 (Fin f) orbit planet phase incl = Raise e)
  /\ forall tot cov pf', calc_coverage32 s lat0 lon0 (Fin f) orbit planet phase incl = Ok (tot, cov, pf') ->
     pf' = pf /\ exists cov', calc_coverage_areas32 s lat0 lon0 (Fin f) orbit planet phase incl = Ok (tot, cov', pf)
     /\ length cov = length tot /\ length cov' = length tot
     /\ forall eps, (forall j i, pixel (st_grid s) j i -> Rabs (cell_val C32 j i - cell_val C j i) <= eps) ->
        forall i, (i < length tot)%nat -> exists k x y y',
          nth_error tot i = Some (k, Fin x) /\ nth_error cov i = Some (k, Fin y) /\ nth_error cov' i = Some (k, Fin y')
          /\ 0 <= y' <= x /\ Rabs (y' - y) <= eps * x.
Proof. exact C123_report_lemma. Qed.
Print Assumptions C123_report.
Theorem C123_coverage :
  forall ord h c Rs n, sc_grid c = Spiral n -> INR n <= 2 ^ 100 -> adds (ord n) n h -> INR h <= 2 ^ 20 ->
  (forall x, In x (sc_spots c) -> spot_on (sc_grid c) x /\ spot32 x) ->
  exists v q, sc_get_coverage c Rs = Ok (Fin v) /\ sc_get_coverage_areas32 ord c Rs = Ok (Fin q)
    /\ 0 <= q <= 1 /\ f32_value q /\ (q = 0 <-> v = 0) /\ (v = 1 -> q = 1) /\ Rabs (q - v) <= INR (h + 1) / 2 ^ 22 * v
    (* more spots cover no less *)
    /\ forall c', sc_grid c' = sc_grid c -> (forall x, In x (sc_spots c') -> spot_on (sc_grid c) x /\ spot32 x) ->
         (forall x, In x (sc_spots c) -> In x (sc_spots c')) ->
         exists q', sc_get_coverage_areas32 ord c' Rs = Ok (Fin q') /\ q <= q'.
Proof. exact C123_coverage_lemma. Qed.
Print Assumptions C123_coverage.
Lemma ex_few : forall n, (n <= 8)%nat -> INR n <= 2 ^ 100.
Proof.
  intros n H. apply le_INR in H. replace 100%nat with (3 + 97)%nat by lia. rewrite pow_add. pose proof (pow_R1_Rle 2 97 ltac:(lra)). set (z := 2 ^ 97) in *. simpl in *. lra.
Qed.
(** a planet in front of the middle of a star with a facula *)
Example C123_report_nonvacuous : exists s A M C, disk_view s (ex_lat 2) 0 100 (1/10) PI (PI/2) 3300 300 A M C (Fin 1) /\ disk s (ex_lat 2) 0 A <> 0
  /\ Rabs 3300 <= powerRZ 2 127 /\ Rabs (3300 - 300) <= powerRZ 2 127 /\ (forall x, In x (sc_spots (st_spots s)) -> spot32 x)
  /\ st_grid s = Spiral 2 /\ INR 2 <= 2 ^ 100 /\ ld_nonneg s
  /\ sqrt ((- (100 / st_radius s * sin PI))^2 + (- (100 / st_radius s * cos PI * cos (PI/2)))^2) <= 1 + 2 * ((1/10) / st_radius s) /\ cos PI <= 0
  /\ (exists t, appears (st_grid s) M t /\ t <> 3300).
Proof.
  destruct (ex_view 2 300) as [A [M [C V]]]. lia. exists (ex_star 2 [] [ex_facula 2 150] 3300 300), A, M, C. split; auto.
  split. { pose proof (ex_disk 2 [] [ex_facula 2 150] 3300 300 A ltac:(lia)) as K. specialize (K ltac:(apply V)). lra. }
  split. { apply ex_big; rewrite Rabs_right; lra. } split. { apply ex_big; rewrite Rabs_right; lra. }
  split. { intros x []. } split. reflexivity. split. { apply ex_few. lia. }
  split. { intros mu H. change (0 <= 1 - 0 * (1 - mu) - 0 * (1 - mu)^2). lra. }
  split. { rewrite sin_PI, cos_PI2. replace (_ + _) with 0 by ring. rewrite sqrt_0. change (st_radius _) with 1. lra. }
  split. { rewrite cos_PI. lra. }
  destruct (ex_temps 2 300 M ltac:(lia)) as [E0 _]. apply V.
  destruct E0 as [E0|E0]; eexists; (split; [exists 0%nat, 0%nat; split; [apply ex_pixel; lia|exact E0]|lra]).
Qed.
(** a spot on a grid of two points, which covers something, and two more of the same *)
Definition ex_coll (k : nat) : spotcoll := mkSpotColl (repeat ex_single_spot k) (Spiral 2).
Definition ex_pair (n : nat) : sumtree := SNode (SLeaf 1) (SLeaf 0).
Example C123_coverage_nonvacuous : (forall k x, In x (sc_spots (ex_coll k)) -> spot_on (sc_grid (ex_coll k)) x /\ spot32 x)
  /\ adds (ex_pair 2) 2 1 /\ INR 1 <= 2 ^ 20 /\ INR 2 <= 2 ^ 100 /\ (forall x, In x (sc_spots (ex_coll 1)) -> In x (sc_spots (ex_coll 3)))
  /\ exists v, sc_get_coverage (ex_coll 1) 1 = Ok (Fin v) /\ 0 < v.
Proof.
  assert (S1 : forall k x, In x (sc_spots (ex_coll k)) -> spot_on (sc_grid (ex_coll k)) x /\ spot32 x).
  { intros k x I. apply repeat_spec in I. subst x. split; [|apply ex_single_spot32].
    destruct (ex_unified 2 [ex_single_spot] [ex_facula 2 150] 3300 300) as [_ [_ [B _]]]. apply B. left; auto. }
  split; auto. split. { split. apply perm_swap. cbn. lia. } split. { simpl; lra. } split. { apply ex_few; lia. }
  split. { cbn. tauto. }
  assert (FT : forall x, In x (sc_spots (ex_coll 1)) -> spot_on (sc_grid (ex_coll 1)) x /\ fin_temps x).
  { intros x I. split. apply S1; auto. destruct (S1 1%nat x I) as [_ [tu [tp [E1 [E2 _]]]]]. split; [rewrite E1|rewrite E2]; eexists; eauto. }
  eexists. split. { apply sc_get_coverage_eq; auto. cbn. lia. }
  destruct (C18_lemma ex_single_spot 1 1000 eq_refl ltac:(lra)) as [H18 _].
  destruct H18 as [th [Hth [Rth [Cth _]]]]. pose proof PI_RGT_0; lra.
  assert (CT : cos th = 999/1000). { pose proof PI_RGT_0 as PP. assert (Z0 : 2 * PI * (1 - cos th - 1/1000) = 0) by lra. apply Rmult_integral in Z0. lra. }
  assert (C0 : covb 1 (sc_spots (ex_coll 1)) (spiral_lat 2 0, spiral_lon 0) = true).
  { apply existsb_exists. exists ex_single_spot. split. left; auto. apply orb_true_iff. left. unfold pen_b. rewrite Hth. apply nlt_fin. unfold sep. cbn [fst snd].
    rewrite law_cos_dot, ex_lon0. change (sp_lat ex_single_spot) with (spiral_lat 2 0). change (sp_lon ex_single_spot) with 0. rewrite cos_sep_self, acos_1.
    destruct (Rle_lt_or_eq_dec 0 th); try lra. subst th. rewrite cos_0 in CT. lra. }
  unfold covsum. change (sc_grid (ex_coll 1)) with (Spiral 2). change (cells (grid_points (Spiral 2))) with [(spiral_lat 2 0, spiral_lon 0); (spiral_lat 2 1, spiral_lon 1)].
  cbn [map]. rewrite C0. unfold rarea_at, rsum. cbn [fold_right]. replace (INR 2) with 2 by (simpl; lra). match goal with |- context [if ?b then _ else _] => destruct b end; lra.
Qed.
