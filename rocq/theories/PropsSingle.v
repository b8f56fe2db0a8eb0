(** Properties C103-C104: maps in single precision *)
From Coq Require Import Reals ZArith Bool String List Lra Lia.
From Coquelicot Require Import Coquelicot.
From Verif Require Import Num Py MConfig MHelpers MGrid MSpots MFaculae MXoflares MFlares MGranules MStar MSingle
  Spec SpecStar SpecDisk SpecSingle LBase LGrid LSpotMap LSpotCov LDisk LStar LStarFac LStarCov LSingle LSingleRep LSingleEx PropsStar.
Import ListNotations.
Open Scope R_scope.

Lemma ex_big : forall x, Rabs x <= 16777216 -> Rabs x <= powerRZ 2 127.
Proof. intros x H. pose proof p127_big. lra. Qed.
Definition ex_single_spot : spot :=
  spot_init (spiral_lat 2 0) 0 (Fin 1000) (Fin 1000) (Fin 2500) (Fin 2900) (Fin 5) false (Fin (1/2)) (-1) (Fin 10) (Spiral 2).
Lemma ex_single_spot32 : spot32 ex_single_spot.
Proof. exists 2500, 2900. split; auto. split; auto. split. lra. split; apply ex_big; rewrite Rabs_right; lra. Qed.

(** C103 *)
Theorem C103_rounding :
  exists rnd, single_rounding rnd /\ (forall rnd', single_rounding rnd' -> rnd' = rnd)
  /\ (forall x y, x <= y -> rnd x <= rnd y)
  /\ (forall z, (Z.abs z <= 2 ^ 24)%Z -> rnd (IZR z) = IZR z)
  /\ (forall x, powerRZ 2 (-126) <= Rabs x -> Rabs (rnd x - x) <= Rabs x / 2 ^ 24)
  /\ (forall x, Rabs x <= powerRZ 2 127 -> f32 (Fin x) = Fin (rnd x)).
Proof. exact C103_rounding_lemma. Qed.
Print Assumptions C103_rounding.
Theorem C103_map :
  forall rnd s lat0 lon0 T, single_rounding rnd -> star_unified s -> st_teff s = Fin T -> Rabs T <= powerRZ 2 127 ->
  (forall x, In x (sc_spots (st_spots s)) -> spot32 x) ->
  (forall M, star_map s = Ok M -> exists M32, sc_map_pixels32 (st_spots s) (st_radius s) (st_teff s) = Ok M32 /\ grid_shaped (st_grid s) M32
     /\ forall j i, pixel (st_grid s) j i -> exists t, acell M j i NaN = Fin t /\ acell M32 j i NaN = Fin (rnd t))
  /\ (forall M, add_faculae_to_map s lat0 lon0 = Ok M -> exists M32, add_faculae_to_map32 s lat0 lon0 = Ok M32 /\ grid_shaped (st_grid s) M32
     /\ forall j i, pixel (st_grid s) j i -> exists t, acell M j i NaN = Fin t /\ acell M32 j i NaN = Fin (rnd t))
  /\ (forall e, add_faculae_to_map s lat0 lon0 = Raise e -> add_faculae_to_map32 s lat0 lon0 = Raise e).
Proof. exact C103_map_lemma. Qed.
Print Assumptions C103_map.
Theorem C103_coverage :
  forall c Rs, (forall x, In x (sc_spots c) -> spot_on (sc_grid c) x /\ spot32 x) ->
  sc_get_coverage32 c Rs = sc_get_coverage c Rs.
Proof. exact C103_coverage_lemma. Qed.
Print Assumptions C103_coverage.
(** a spot, a facula and a photosphere whose temperature is not a single-precision number *)
Example C103_nonvacuous : exists rnd s M, single_rounding rnd /\ star_unified s /\ st_teff s = Fin 3300.005001 /\ Rabs 3300.005001 <= powerRZ 2 127
  /\ (forall x, In x (sc_spots (st_spots s)) -> spot32 x) /\ length (sc_spots (st_spots s)) = 1%nat /\ length (fcc_facs (st_facs s)) = 1%nat
  /\ add_faculae_to_map s (ex_lat 2) 0 = Ok M /\ rnd 3300.005001 = 13516820 / 4096
  /\ (forall x, In x (sc_spots (st_spots s)) -> spot_on (sc_grid (st_spots s)) x /\ spot32 x).
Proof.
  destruct (ex_map 2 [ex_single_spot] 3300.005001 300) as [M HM].
  exists f32_round, (ex_star 2 [ex_single_spot] [ex_facula 2 150] 3300.005001 300), M.
  assert (S32 : forall x, In x (sc_spots (st_spots (ex_star 2 [ex_single_spot] [ex_facula 2 150] 3300.005001 300))) -> spot32 x).
  { intros x [<-|[]]. apply ex_single_spot32. }
  split. exact f32_round_nearest. split. apply ex_unified. split. reflexivity. split. apply ex_big; rewrite Rabs_right; lra.
  split. exact S32. split. reflexivity. split. reflexivity. split. auto. split. apply ex_round. exact f32_round_nearest.
  intros x I. split; auto. destruct (ex_unified 2 [ex_single_spot] [ex_facula 2 150] 3300.005001 300) as [A [_ [B _]]]. rewrite A. apply B; auto.
Qed.

(** C104 *)
Theorem C104_same :
  forall rnd label s lat0 lon0 orbit planet phase incl T D A M C pf f,
  single_rounding rnd -> two_decimals label ->
  disk_view s lat0 lon0 orbit planet phase incl T D A M C pf -> disk s lat0 lon0 A <> 0 ->
  Rabs T <= powerRZ 2 127 -> Rabs (T - D) <= powerRZ 2 127 -> (forall x, In x (sc_spots (st_spots s)) -> spot32 x) ->
  distinct_labels label s M T D -> (forall t, listed s M T D t -> label (rnd t) = label t) ->
  calc_coverage32 s lat0 lon0 (Fin f) orbit planet phase incl = calc_coverage s lat0 lon0 (Fin f) orbit planet phase incl.
Proof. exact C104_same_lemma. Qed.
Print Assumptions C104_same.
Theorem C104_whole :
  forall s lat0 lon0 orbit planet phase incl T D A M C pf f,
  disk_view s lat0 lon0 orbit planet phase incl T D A M C pf -> disk s lat0 lon0 A <> 0 ->
  (exists z, T = IZR z /\ (Z.abs z <= 2 ^ 23)%Z) -> (exists z, D = IZR z /\ (Z.abs z <= 2 ^ 23)%Z) ->
  (forall x, In x (sc_spots (st_spots s)) -> exists u p, sp_teff_umbra x = Fin (IZR u) /\ sp_teff_pen x = Fin (IZR p)
     /\ (Z.abs u <= 2 ^ 23)%Z /\ (Z.abs p <= 2 ^ 23)%Z /\ (u <= p)%Z) ->
  calc_coverage32 s lat0 lon0 (Fin f) orbit planet phase incl = calc_coverage s lat0 lon0 (Fin f) orbit planet phase incl.
Proof. exact C104_whole_lemma. Qed.
Print Assumptions C104_whole.
Theorem C104_margin :
  forall rnd label t, single_rounding rnd -> two_decimals label -> powerRZ 2 (-126) <= Rabs t ->
  (forall c : Z, 100 * (Rabs t / 2 ^ 24) < Rabs (100 * t - (IZR c + 1/2))) -> label (rnd t) = label t.
Proof. exact C104_margin_lemma. Qed.
Print Assumptions C104_margin.
Theorem C104_keyerror :
  forall rnd label s lat0 lon0 orbit planet phase incl T D A M C pf f,
  single_rounding rnd -> two_decimals label ->
  disk_view s lat0 lon0 orbit planet phase incl T D A M C pf -> disk s lat0 lon0 A <> 0 ->
  Rabs T <= powerRZ 2 127 -> Rabs (T - D) <= powerRZ 2 127 -> (forall x, In x (sc_spots (st_spots s)) -> spot32 x) ->
  let stored t := exists t', appears (st_grid s) M t' /\ t = rnd t' in
  let labelled k := (exists t, stored t /\ label t = k) \/ (~ stored (rnd (T - D)) /\ label (T - D) = k) in
  (labelled (label T) /\ labelled (label (T - D)) ->
     exists tot cov, calc_coverage32 s lat0 lon0 (Fin f) orbit planet phase incl = Ok (tot, cov, pf))
  /\ (~ (labelled (label T) /\ labelled (label (T - D))) -> calc_coverage32 s lat0 lon0 (Fin f) orbit planet phase incl = Raise KeyError).
Proof. exact C104_keyerror_lemma. Qed.
Print Assumptions C104_keyerror.
Theorem C104_spotless :
  forall rnd label s lat0 lon0 orbit planet phase incl T D f,
  single_rounding rnd -> two_decimals label ->
  star_unified s -> fine_grid (st_grid s) -> 0 < st_radius s -> ld_positive s -> st_teff s = Fin T -> gr_dteff (st_gran s) = Fin D ->
  Rabs T <= powerRZ 2 127 -> Rabs (T - D) <= powerRZ 2 127 ->
  sc_spots (st_spots s) = [] -> fcc_facs (st_facs s) = [] ->
  - PI/2 <= lat0 <= PI/2 -> 0 <= orbit -> 0 <= planet -> (planet <= st_radius s \/ cos phase <= 0) ->
  (exists r, calc_coverage s lat0 lon0 (Fin f) orbit planet phase incl = Ok r)
  /\ (rnd (T - D) <> rnd T -> ((exists r, calc_coverage32 s lat0 lon0 (Fin f) orbit planet phase incl = Ok r)
      <-> label (rnd T) = label T \/ label (T - D) = label T))
  /\ (D = 0 -> ((exists r, calc_coverage32 s lat0 lon0 (Fin f) orbit planet phase incl = Ok r) <-> label (rnd T) = label T))
  /\ (label (rnd T) <> label T -> label (T - D) <> label T ->
      calc_coverage32 s lat0 lon0 (Fin f) orbit planet phase incl = Raise KeyError).
Proof. exact C104_spotless_lemma. Qed.
Print Assumptions C104_spotless.
Lemma ex_listed : forall A M C t, disk_view (ex_star 2 [] [ex_facula 2 150] 3300 300) (ex_lat 2) 0 100 (1/10) PI (PI/2) 3300 300 A M C (Fin 1) ->
  listed (ex_star 2 [] [ex_facula 2 150] 3300 300) M 3300 300 t -> t = 3450 \/ t = 3200 \/ t = 3300 \/ t = 3000.
Proof.
  intros A M C t V [[j [i [P E]]]| ->]; [|lra]. destruct (ex_temps 2 300 M ltac:(lia)) as [E0 E1]. apply V. specialize (E1 eq_refl).
  apply ex_pixel in P. destruct P as [-> P]. assert (i = 0 \/ i = 1)%nat as [-> | ->] by lia.
  destruct E0 as [X|X]; rewrite X in E; injection E as <-; auto. rewrite E1 in E; injection E as <-; auto.
Qed.
(** whole kelvins: the report does not change *)
Example C104_nonvacuous : exists rnd label s A M C, single_rounding rnd /\ two_decimals label
  /\ disk_view s (ex_lat 2) 0 100 (1/10) PI (PI/2) 3300 300 A M C (Fin 1) /\ disk s (ex_lat 2) 0 A <> 0
  /\ distinct_labels label s M 3300 300 /\ (forall t, listed s M 3300 300 t -> label (rnd t) = label t)
  /\ sc_spots (st_spots s) = [] /\ (exists t, appears (st_grid s) M t /\ t <> 3300).
Proof.
  destruct (ex_view 2 300) as [A [M [C V]]]. lia. exists f32_round, (fun t => fmt2 (Fin t)), (ex_star 2 [] [ex_facula 2 150] 3300 300), A, M, C.
  split. exact f32_round_nearest. split. apply fmt2_two_decimals. split; auto.
  split. { pose proof (ex_disk 2 [] [ex_facula 2 150] 3300 300 A ltac:(lia)) as K. specialize (K ltac:(apply V)). lra. }
  destruct (ex_labels 300 A M C V) as [L1 L2]; auto. split; auto. split.
  { intros t I. rewrite f32_round_id; auto. destruct (ex_listed _ _ _ _ V I) as [-> |[-> |[-> | ->]]]; apply f32_whole; simpl; lia. }
  split. reflexivity.
  destruct (ex_temps 2 300 M ltac:(lia)) as [E0 _]. apply V.
  destruct E0 as [E0|E0]; eexists; (split; [exists 0%nat, 0%nat; split; [apply ex_pixel; lia|exact E0]|lra]).
Qed.
(** 3300.123 K keeps its label, 3300.005001 K does not *)
Example C104_margin_nonvacuous : powerRZ 2 (-126) <= Rabs 3300.123 /\ forall c : Z, 100 * (Rabs 3300.123 / 2 ^ 24) < Rabs (100 * 3300.123 - (IZR c + 1/2)).
Proof.
  rewrite (Rabs_right 3300.123) by lra. split. { eapply Rle_trans. apply (p2_le (-126) 0); lia. simpl. lra. }
  intros c. assert (c <= 330011 \/ 330012 <= c)%Z as [H|H] by lia; apply IZR_le in H.
  - rewrite Rabs_right; simpl; lra.
  - rewrite Rabs_left; simpl; lra.
Qed.
(** a star of 3300.005001 K without spots: no observer gets a report *)
Definition ex_odd : star := ex_star 6 [] [] 3300.005001 300.
Example C104_spotless_nonvacuous : exists rnd label, single_rounding rnd /\ two_decimals label
  /\ star_unified ex_odd /\ fine_grid (st_grid ex_odd) /\ 0 < st_radius ex_odd /\ ld_positive ex_odd /\ st_teff ex_odd = Fin 3300.005001
  /\ gr_dteff (st_gran ex_odd) = Fin 300 /\ sc_spots (st_spots ex_odd) = [] /\ fcc_facs (st_facs ex_odd) = []
  /\ label 3300.005001 = KCenti 330001 /\ label (rnd 3300.005001) = KCenti 330000
  /\ forall lat0 lon0 orbit planet phase incl f, - PI/2 <= lat0 <= PI/2 -> 0 <= orbit -> 0 <= planet <= 1 ->
       (exists r, calc_coverage ex_odd lat0 lon0 (Fin f) orbit planet phase incl = Ok r)
       /\ calc_coverage32 ex_odd lat0 lon0 (Fin f) orbit planet phase incl = Raise KeyError.
Proof.
  exists f32_round, (fun t => fmt2 (Fin t)). pose proof fmt2_two_decimals as TD. pose proof f32_round_nearest as SR.
  assert (U : star_unified ex_odd) by apply ex_unified. assert (F : fine_grid (st_grid ex_odd)) by (simpl; lia).
  assert (LP : ld_positive ex_odd). { intros mu H. change (st_u1 ex_odd) with 0. change (st_u2 ex_odd) with 0. lra. }
  assert (E1 : fmt2 (Fin 3300.005001) = KCenti 330001). { apply (ex_label _ 330001 _ TD). unfold Rabs; destruct (Rcase_abs _); lra. }
  assert (E2 : fmt2 (Fin (f32_round 3300.005001)) = KCenti 330000). { rewrite (ex_round _ SR). apply (ex_label _ 330000 _ TD). unfold Rabs; destruct (Rcase_abs _); lra. }
  assert (E3 : fmt2 (Fin (3300.005001 - 300)) = KCenti 300001). { apply (ex_label _ 300001 _ TD). unfold Rabs; destruct (Rcase_abs _); lra. }
  split. exact SR. split. exact TD. split. auto. split. auto. split. simpl; lra. split. auto. split. reflexivity. split. reflexivity. split. reflexivity. split. reflexivity.
  split. auto. split. auto. intros lat0 lon0 orbit planet phase incl f HL HO HP.
  destruct (C104_spotless_lemma f32_round (fun t => fmt2 (Fin t)) ex_odd lat0 lon0 orbit planet phase incl 3300.005001 300 f SR TD U F) as [H1 [_ [_ H2]]]; auto; try reflexivity; try lra.
  - simpl; lra.
  - apply ex_big. rewrite Rabs_right; lra.
  - apply ex_big. rewrite Rabs_right; lra.
  - left. simpl. lra.
  - split; auto. apply H2. rewrite E1, E2. discriminate. rewrite E1, E3. discriminate.
Qed.
