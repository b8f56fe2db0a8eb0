(** Lemmas for C103-C105: rounding to single precision *)
From Coq Require Import Reals ZArith Bool List Lra Lia.
From Verif Require Import Num Py MConfig MHelpers MGrid MSpots MFaculae MXoflares MFlares MGranules MStar MSingle
  Spec SpecStar SpecDisk SpecSingle LBase LGrid LSpotMap LSpotCov LStar LDisk LStarFac LStarCov LSym.
Import ListNotations.
Open Scope R_scope.

(** ** powers of two *)
Lemma p2_pos : forall e, 0 < powerRZ 2 e.
Proof. intros. apply powerRZ_lt. lra. Qed.
Lemma p2_add : forall e k, powerRZ 2 (e + k) = powerRZ 2 e * powerRZ 2 k.
Proof. intros. apply powerRZ_add. lra. Qed.
Lemma p2_nat : forall n, powerRZ 2 (Z.of_nat n) = IZR (2 ^ Z.of_nat n).
Proof. intros. rewrite <- pow_powerRZ, pow_IZR. auto. Qed.
Lemma p2_Z : forall e, (0 <= e)%Z -> powerRZ 2 e = IZR (2 ^ e).
Proof. intros. rewrite <- (Z2Nat.id e) by auto. apply p2_nat. Qed.
Lemma p2_le : forall e k, (e <= k)%Z -> powerRZ 2 e <= powerRZ 2 k.
Proof.
  intros. replace k with (e + (k - e))%Z by lia. rewrite p2_add, (p2_Z (k - e)) by lia. pose proof (p2_pos e).
  assert (1 <= IZR (2 ^ (k - e))). { apply IZR_le. pose proof (Z.pow_pos_nonneg 2 (k - e)). lia. } nra.
Qed.
Lemma p2_ln : forall e, ln (powerRZ 2 e) = IZR e * ln 2.
Proof.
  intros. rewrite powerRZ_Rpower by lra. unfold Rpower. apply ln_exp.
Qed.
Lemma ln2_pos : 0 < ln 2.
Proof. rewrite <- ln_1. apply ln_increasing; lra. Qed.
(** the binade of a number *)
Lemma binade : forall x, x <> 0 -> powerRZ 2 (Int_part (ln (Rabs x) / ln 2)) <= Rabs x < 2 * powerRZ 2 (Int_part (ln (Rabs x) / ln 2)).
Proof.
  intros x N. assert (P : 0 < Rabs x) by (apply Rabs_pos_lt; auto). pose proof ln2_pos as L.
  set (y := ln (Rabs x) / ln 2). destruct (base_Int_part y) as [B1 B2]. set (e := Int_part y) in *.
  assert (Ey : ln (Rabs x) = y * ln 2) by (unfold y; field; lra). split.
  - apply Rnot_lt_le. intro K. apply ln_increasing in K; auto. rewrite Ey, p2_ln in K. nra.
  - replace (2 * powerRZ 2 e) with (powerRZ 2 (e + 1)) by (rewrite p2_add; simpl; ring).
    apply Rnot_le_lt. intros [K|K].
    + apply ln_increasing in K; [|apply p2_pos]. rewrite Ey, p2_ln, plus_IZR in K. assert (y < IZR e + 1) by lra. nra.
    + assert (J : ln (Rabs x) = IZR (e + 1) * ln 2) by (rewrite <- K; apply p2_ln). rewrite Ey, plus_IZR in J. assert (y = IZR e + 1) by nra. lra.
Qed.
Lemma rhe_near : forall x z, Rabs (IZR (rhe x) - x) <= Rabs (IZR z - x).
Proof.
  intros. assert (H : Rabs (IZR (rhe x) - x) <= 1/2).
  { unfold rhe. destruct (base_Int_part x) as [A B]. set (f := Int_part x) in *.
    destruct (Rlt_dec (x - IZR f) (1/2)). { apply Rabs_le; lra. } destruct (Rlt_dec (1/2) (x - IZR f)). { rewrite plus_IZR. apply Rabs_le; lra. }
    destruct (Z.even f); [|rewrite plus_IZR]; apply Rabs_le; lra. }
  destruct (Z.eq_dec z (rhe x)) as [-> |D]. lra.
  assert (1 <= Rabs (IZR z - IZR (rhe x))). { rewrite <- minus_IZR, <- abs_IZR. apply IZR_le. lia. }
  pose proof (Rabs_triang (IZR z - x) (x - IZR (rhe x))) as T. replace (IZR z - x + (x - IZR (rhe x))) with (IZR z - IZR (rhe x)) in T by ring.
  rewrite (Rabs_minus_sym x) in T. lra.
Qed.
Lemma f32_grid : forall x y, x <> 0 -> f32_value y -> powerRZ 2 (Int_part (ln (Rabs x) / ln 2)) <= Rabs y ->
  exists k : Z, y = IZR k * powerRZ 2 (f32_exp x).
Proof.
  intros x y N [m [e [Hm [He ->]]]] H. unfold f32_exp. set (b := Int_part (ln (Rabs x) / ln 2)) in *.
  destruct (Z_le_gt_dec (Z.max (b - 23) (-149)) e) as [L|G].
  - exists (m * 2 ^ (e - Z.max (b - 23) (-149)))%Z. rewrite mult_IZR, <- p2_Z by lia. rewrite Rmult_assoc, <- p2_add. do 2 f_equal. lia.
  - assert (e < b - 23)%Z by lia. replace (Z.max (b - 23) (-149)) with (b - 23)%Z by lia.
    rewrite Rabs_mult, (Rabs_right (powerRZ 2 e)), <- abs_IZR in H by (apply Rle_ge, Rlt_le, p2_pos).
    assert (A : IZR (Z.abs m) <= IZR (2 ^ 24)) by (apply IZR_le; auto). pose proof (p2_pos e) as Pe.
    assert (B : powerRZ 2 b <= powerRZ 2 (e + 24)). { rewrite (p2_add e 24), (p2_Z 24) by lia. nra. }
    assert (e + 24 = b)%Z. { destruct (Z_lt_le_dec (e + 24) b); [|lia]. exfalso. pose proof (p2_le (e + 24 + 1) b ltac:(lia)). rewrite p2_add in H1. pose proof (p2_pos (e + 24)). simpl (powerRZ 2 1) in H1. lra. }
    subst b. rewrite <- H1 in H. rewrite p2_add, (p2_Z 24) in H by lia.
    assert (Em : IZR (Z.abs m) = IZR (2 ^ 24)) by nra. apply eq_IZR in Em.
    rewrite <- H1. replace (e + 24 - 23)%Z with (e + 1)%Z by lia.
    exists (Z.sgn m * 2 ^ 23)%Z. rewrite p2_add. replace m with (Z.sgn m * 2 ^ 24)%Z at 1 by (rewrite <- Em, Z.mul_comm; apply Z.abs_sgn).
    rewrite !mult_IZR. change (IZR (2 ^ 24)) with 16777216. change (IZR (2 ^ 23)) with 8388608. simpl (powerRZ 2 1). ring.
Qed.
Lemma f32_round_value : forall x, f32_value (f32_round x).
Proof.
  intros. unfold f32_round. destruct (Req_EM_T x 0). { exists 0%Z, 0%Z. split. simpl; lia. split. lia. ring. }
  pose proof (binade x n) as [B1 B2]. set (u := powerRZ 2 (f32_exp x)). exists (rhe (x / u)), (f32_exp x).
  assert (U : 0 < u) by apply p2_pos.
  split; [|split; [unfold f32_exp; lia|auto]].
  assert (Q : Rabs (x / u) < 16777216).
  { unfold Rdiv. rewrite Rabs_mult, (Rabs_right (/ u)) by (apply Rle_ge, Rlt_le, Rinv_0_lt_compat; auto). apply (Rmult_lt_reg_r u); auto. rewrite Rmult_assoc, Rinv_l by lra.
    assert (powerRZ 2 (Int_part (ln (Rabs x) / ln 2) - 23) <= u) by (apply p2_le; unfold f32_exp; lia).
    unfold Z.sub in H. rewrite p2_add in H. replace (powerRZ 2 (-(23))) with (/ 8388608) in H by (simpl; lra). lra. }
  assert (P : forall z, Rabs (IZR z - x / u) <= 1 -> (Z.abs z <= 16777216)%Z).
  { intros z Hz. apply Z.lt_succ_r. apply lt_IZR. rewrite abs_IZR, succ_IZR. pose proof (Rabs_triang (IZR z - x / u) (x / u)) as T. replace (IZR z - x / u + x / u) with (IZR z) in T by ring. lra. }
  change (2 ^ 24)%Z with 16777216%Z. apply P.
  destruct (base_Int_part (x / u)) as [C1 C2]. eapply Rle_trans. apply (rhe_near _ (Int_part (x / u))). apply Rabs_le. lra.
Qed.
Lemma f32_round_near : forall x y, f32_value y -> Rabs (f32_round x - x) <= Rabs (y - x).
Proof.
  intros x y F. unfold f32_round. destruct (Req_EM_T x 0) as [-> |N]. { rewrite Rminus_0_r, Rabs_R0. apply Rabs_pos. }
  set (u := powerRZ 2 (f32_exp x)). assert (U : 0 < u) by apply p2_pos.
  assert (G : forall k : Z, Rabs (IZR (rhe (x / u)) * u - x) <= Rabs (IZR k * u - x)).
  { intros k. replace (IZR (rhe (x / u)) * u - x) with ((IZR (rhe (x / u)) - x / u) * u) by (field; lra). replace (IZR k * u - x) with ((IZR k - x / u) * u) by (field; lra).
    rewrite !Rabs_mult. apply Rmult_le_compat_r. apply Rabs_pos. apply rhe_near. }
  pose proof (binade x N) as [B1 B2]. set (b := Int_part (ln (Rabs x) / ln 2)) in *.
  destruct (Rle_lt_dec (powerRZ 2 b) (Rabs y)) as [H|H].
  - destruct (f32_grid x y N F H) as [k ->]. apply G.
  - destruct (Z_le_gt_dec (-149) b) as [Hb|Hb].
    + (* the bottom of the binade lies between y and x *)
      assert (V : f32_value (powerRZ 2 b)). { exists 1%Z, b. split. simpl; lia. split; auto. ring. }
      assert (V' : f32_value (- powerRZ 2 b)). { exists (-1)%Z, b. split. simpl; lia. split; auto. ring. }
      pose proof (p2_pos b) as Pb.
      destruct (Rcase_abs x) as [X|X].
      * rewrite (Rabs_left x) in B1, B2 by auto. destruct (f32_grid x _ N V') as [k E]. { fold b. rewrite Rabs_Ropp, Rabs_right; lra. }
        eapply Rle_trans. apply (G k). fold u in E. rewrite <- E. apply Rabs_def2 in H. destruct H. unfold Rabs. repeat destruct (Rcase_abs _); lra.
      * rewrite (Rabs_right x) in B1, B2 by auto. destruct (f32_grid x _ N V) as [k E]. { fold b. rewrite Rabs_right; lra. }
        eapply Rle_trans. apply (G k). fold u in E. rewrite <- E. apply Rabs_def2 in H. destruct H. unfold Rabs. repeat destruct (Rcase_abs _); lra.
    + destruct F as [m [e [Hm [He ->]]]]. assert (f32_exp x = (-149))%Z by (unfold f32_exp; fold b; lia). unfold u in *. rewrite H0 in *.
      replace (IZR m * powerRZ 2 e) with (IZR (m * 2 ^ (e - -149)) * powerRZ 2 (-149)). apply G.
      rewrite mult_IZR, <- p2_Z by lia. rewrite Rmult_assoc, <- p2_add. do 2 f_equal. lia.
Qed.
Lemma f32_round_id : forall x, f32_value x -> f32_round x = x.
Proof. intros x H. pose proof (f32_round_near x x H) as K. rewrite (Rminus_diag_eq x x eq_refl), Rabs_R0 in K. unfold Rabs in K. destruct (Rcase_abs _); lra. Qed.
Lemma f32_round_mono : forall x y, x <= y -> f32_round x <= f32_round y.
Proof.
  intros x y [L|<-]; [|lra]. apply Rnot_lt_le. intro K.
  pose proof (f32_round_near x _ (f32_round_value y)) as A. pose proof (f32_round_near y _ (f32_round_value x)) as B.
  unfold Rabs in *. repeat destruct (Rcase_abs _); lra.
Qed.
Lemma f32_whole : forall z, (Z.abs z <= 2 ^ 24)%Z -> f32_value (IZR z).
Proof. intros z H. exists z, 0%Z. split; auto. split. lia. simpl. ring. Qed.
Lemma f32_round_err : forall x, powerRZ 2 (-126) <= Rabs x -> Rabs (f32_round x - x) <= Rabs x / 16777216.
Proof.
  intros x H. assert (N : x <> 0). { intros ->. rewrite Rabs_R0 in H. pose proof (p2_pos (-126)). lra. }
  pose proof (binade x N) as [B1 B2]. unfold f32_round. destruct (Req_EM_T x 0); [contradiction|].
  set (b := Int_part (ln (Rabs x) / ln 2)) in *.
  assert (Hb : (-126 <= b)%Z). { apply Z.nlt_ge. intro K. pose proof (p2_le (b + 1) (-126) ltac:(lia)) as Q. rewrite p2_add in Q. simpl (powerRZ 2 1) in Q. lra. }
  assert (E : f32_exp x = (b - 23)%Z) by (unfold f32_exp; fold b; lia). rewrite E. set (u := powerRZ 2 (b - 23)). assert (U : 0 < u) by apply p2_pos.
  assert (Eu : powerRZ 2 b = 8388608 * u). { unfold u. replace b with (b - 23 + 23)%Z at 1 by lia. rewrite p2_add, (p2_Z 23) by lia. change (IZR (2 ^ 23)) with 8388608. ring. }
  replace (IZR (rhe (x / u)) * u - x) with ((IZR (rhe (x / u)) - x / u) * u) by (field; lra). rewrite Rabs_mult, (Rabs_right u) by lra.
  assert (R1 : Rabs (IZR (rhe (x / u)) - x / u) <= 1/2).
  { destruct (base_Int_part (x / u)) as [A B]. set (f := Int_part (x / u)) in *.
    destruct (Rle_lt_dec (x / u - IZR f) (1/2)). eapply Rle_trans. apply (rhe_near _ f). apply Rabs_le; lra.
    eapply Rle_trans. apply (rhe_near _ (f + 1)). rewrite plus_IZR. apply Rabs_le; lra. }
  nra.
Qed.

(** ** numbers with infinities *)
Lemma p127 : powerRZ 2 127 < powerRZ 2 128.
Proof. replace 128%Z with (127 + 1)%Z by lia. rewrite p2_add. pose proof (p2_pos 127). simpl (powerRZ 2 1). lra. Qed.
Lemma f32_fin : forall x, Rabs x <= powerRZ 2 127 -> f32 (Fin x) = Fin (f32_round x) /\ Rabs (f32_round x) <= powerRZ 2 127.
Proof.
  intros x H. pose proof p127 as P. assert (V : f32_value (powerRZ 2 127)). { exists 1%Z, 127%Z. split. simpl; lia. split. lia. ring. }
  assert (V' : f32_value (- powerRZ 2 127)). { exists (-1)%Z, 127%Z. split. simpl; lia. split. lia. ring. }
  assert (B : - powerRZ 2 127 <= x <= powerRZ 2 127) by (unfold Rabs in H; destruct (Rcase_abs x); lra).
  assert (B1 : f32_round x <= powerRZ 2 127) by (rewrite <- (f32_round_id _ V); apply f32_round_mono; lra).
  assert (B2 : - powerRZ 2 127 <= f32_round x) by (rewrite <- (f32_round_id _ V'); apply f32_round_mono; lra).
  split. 2:{ apply Rabs_le. lra. } pose proof (p2_pos 127). unfold f32. cbv zeta.
  rewrite (proj2 (Rleb_false (powerRZ 2 128) _)), (proj2 (Rleb_false _ (- powerRZ 2 128))) by lra. auto.
Qed.
Lemma f32_nan : forall a, a <> NaN -> f32 a <> NaN.
Proof. intros [x| | |] H; try discriminate; auto. unfold f32. cbv zeta. destruct (Rleb _ _); [discriminate|]. destruct (Rleb _ _); discriminate. Qed.
Lemma f32_mono : forall a b, nle a b = true -> nle (f32 a) (f32 b) = true.
Proof.
  intros [x| | |] [y| | |] H; try discriminate; auto.
  - apply nle_fin in H. apply f32_round_mono in H. unfold f32. cbv zeta. pose proof (p2_pos 128).
    destruct (Rleb (powerRZ 2 128) (f32_round x)) eqn:E1.
    + apply Rleb_true in E1. rewrite (proj2 (Rleb_true (powerRZ 2 128) (f32_round y))) by lra. auto.
    + destruct (Rleb (powerRZ 2 128) (f32_round y)) eqn:E2. { destruct (Rleb (f32_round x) _); auto. }
      destruct (Rleb (f32_round x) (- powerRZ 2 128)) eqn:E3. { destruct (Rleb (f32_round y) _); auto. }
      apply Rleb_false in E3. rewrite (proj2 (Rleb_false (f32_round y) _)) by lra. apply nle_fin. auto.
  - unfold f32. cbv zeta. destruct (Rleb _ _); auto. destruct (Rleb _ _); auto.
  - unfold f32. cbv zeta. destruct (Rleb _ _); auto. destruct (Rleb _ _); auto.
Qed.
Lemma f32_idem : forall a, f32 (f32 a) = f32 a.
Proof.
  intros [x| | |]; auto. unfold f32 at 2 3. cbv zeta. destruct (Rleb _ _) eqn:E1; auto. destruct (Rleb (f32_round x) _) eqn:E2; auto.
  unfold f32. cbv zeta. rewrite f32_round_id by apply f32_round_value. rewrite E1, E2. auto.
Qed.
Lemma nlt_f32 : forall a b, a <> NaN -> b <> NaN -> nlt (f32 a) (f32 b) = true -> nlt a b = true.
Proof.
  intros a b A B H. destruct (nlt a b) eqn:E; auto. apply nlt_false_le in E; auto. apply f32_mono in E.
  exfalso. revert E H. generalize (f32 a) (f32 b). intros [x| | |] [y| | |]; simpl; try discriminate. intros E F. apply Rleb_true in E. apply Rltb_true in F. lra.
Qed.
Lemma nlt_f32_false : forall a b, a <> NaN -> b <> NaN -> nlt a b = true -> nlt (f32 a) (f32 b) = false -> f32 a = f32 b.
Proof.
  intros a b A B H F. apply nlt_false_le in F; try (apply f32_nan; auto). apply nle_antisym; auto. apply f32_mono, nlt_le; auto.
Qed.

(** ** the map of the spots *)
Definition pv32 (Rs : R) (p : R * R) (m : num) (s : spot) : num :=
  let d := Fin (sep s p) in
  if umb_b s Rs d && nlt (f32 (sp_teff_umbra s)) m then f32 (sp_teff_umbra s)
  else if pen_b s Rs d && nlt (f32 (sp_teff_pen s)) m then f32 (sp_teff_pen s) else m.
Lemma paint_spot32_eq : forall g Rs f s, spot_on g s ->
  paint_spot32 Rs (amap f (grid_points g)) s = Ok (amap (fun p => pv32 Rs p (f p) s) (grid_points g)).
Proof.
  intros. destruct (spot_on_r g s H) as [_ Hr]. unfold paint_spot32.
  rewrite dindex_pen. cbn [bind]. rewrite Hr, !amap_amap, amap2_amap. cbn [bind].
  rewrite dindex_umb. cbn [bind]. rewrite Hr, !amap_amap, amap2_amap. cbn [bind].
  rewrite awhere_amap. cbn [bind]. rewrite awhere_amap. f_equal.
Qed.
Lemma paint_spots32_eq : forall g Rs l f, (forall s, In s l -> spot_on g s) ->
  paint_spots32 Rs (amap f (grid_points g)) l
  = Ok (amap (fun p => fold_left (pv32 Rs p) l (f p)) (grid_points g)).
Proof.
  induction l; simpl; intros; auto. rewrite paint_spot32_eq by auto. simpl. rewrite IHl by auto. auto.
Qed.
Lemma sc_map_pixels32_eq : forall c Rs T, (forall s, In s (sc_spots c) -> spot_on (sc_grid c) s) ->
  sc_map_pixels32 c Rs T = Ok (amap (fun p => fold_left (pv32 Rs p) (sc_spots c) (f32 T)) (grid_points (sc_grid c))).
Proof.
  intros. unfold sc_map_pixels32. rewrite grid_zeros_eq, amap_amap. rewrite paint_spots32_eq by auto.
  rewrite nadd_0_l, f32_idem. auto.
Qed.
Lemma pv32_eq : forall Rs p m s, spot32 s -> m <> NaN -> pv32 Rs p (f32 m) s = f32 (pv Rs p m s) /\ pv Rs p m s <> NaN.
Proof.
  intros Rs p m s [tu [tp [Eu [Ep [L _]]]]] N. unfold pv32, pv. rewrite Eu, Ep. cbv zeta.
  assert (NU : Fin tu <> NaN) by discriminate. assert (NP : Fin tp <> NaN) by discriminate.
  assert (ML : nle (f32 (Fin tu)) (f32 (Fin tp)) = true) by (apply f32_mono, nle_fin; auto).
  split. 2:{ destruct (umb_b _ _ _ && _)%bool; auto. destruct (pen_b _ _ _ && _)%bool; auto. }
  assert (Inner : (if (pen_b s Rs (Fin (sep s p)) && nlt (f32 (Fin tp)) (f32 m))%bool then f32 (Fin tp) else f32 m)
    = f32 (if (pen_b s Rs (Fin (sep s p)) && nlt (Fin tp) m)%bool then Fin tp else m)).
  { destruct (pen_b s Rs (Fin (sep s p))); cbn [andb]; auto. destruct (nlt (f32 (Fin tp)) (f32 m)) eqn:E.
    - rewrite (nlt_f32 _ _ NP N E). auto.
    - destruct (nlt (Fin tp) m) eqn:E'; auto. symmetry. apply nlt_f32_false; auto. }
  destruct (umb_b s Rs (Fin (sep s p))); cbn [andb]; [|apply Inner].
  destruct (nlt (f32 (Fin tu)) (f32 m)) eqn:E.
  - rewrite (nlt_f32 _ _ NU N E). auto.
  - destruct (nlt (Fin tu) m) eqn:E'; [|apply Inner].
    pose proof (nlt_f32_false _ _ NU N E' E) as Q. rewrite Q.
    assert (X : nlt (f32 (Fin tp)) (f32 m) = false).
    { rewrite <- Q. revert ML. generalize (f32 (Fin tu)) (f32 (Fin tp)). intros [x| | |] [y| | |]; simpl; try discriminate; auto.
      intros Y. apply Rleb_true in Y. apply Rltb_false. auto. }
    rewrite X, andb_false_r. auto.
Qed.
Lemma fold_pv32 : forall Rs p l m, (forall s, In s l -> spot32 s) -> m <> NaN ->
  fold_left (pv32 Rs p) l (f32 m) = f32 (fold_left (pv Rs p) l m).
Proof.
  induction l as [|s l IH]; intros m H N; simpl; auto. destruct (pv32_eq Rs p m s (H s (or_introl eq_refl)) N) as [E N']. rewrite E. apply IH; auto. intros; apply H; right; auto.
Qed.
Lemma map32_eq : forall c Rs T, (forall s, In s (sc_spots c) -> spot_on (sc_grid c) s /\ spot32 s) -> T <> NaN ->
  sc_map_pixels32 c Rs T = rmap (amap f32) (sc_map_pixels c Rs T).
Proof.
  intros c Rs T H N. rewrite sc_map_pixels32_eq, sc_map_pixels_eq by (intros; apply H; auto). cbn [rmap]. rewrite amap_amap. f_equal.
  apply amap_ext. intros p. apply fold_pv32; auto. intros; apply H; auto.
Qed.
Lemma coverage32_eq : forall c Rs, (forall s, In s (sc_spots c) -> spot_on (sc_grid c) s /\ spot32 s) ->
  sc_get_coverage32 c Rs = sc_get_coverage c Rs.
Proof.
  intros c Rs H. unfold sc_get_coverage32, sc_get_coverage. destruct (grid_area (sc_grid c)) as [A|]; cbn [bind]; auto.
  rewrite (map32_eq c Rs PInf H) by discriminate. rewrite sc_map_pixels_eq by (intros; apply H; auto). cbn [rmap bind]. rewrite !amap_amap.
  rewrite (amap_ext _ _ (fun x => negb (neq (f32 (fold_left (pv Rs x) (sc_spots c) PInf)) (f32 PInf))) (fun x => negb (neq (fold_left (pv Rs x) (sc_spots c) PInf) PInf))); auto.
  intros p. f_equal. assert (Q : forall l m, (m = PInf \/ fits32 m) -> (forall s, In s l -> spot32 s) -> fold_left (pv Rs p) l m = PInf \/ fits32 (fold_left (pv Rs p) l m)).
  { induction l as [|s l IH]; intros m M K; simpl; auto. apply IH; [|intros; apply K; right; auto].
    destruct (K s (or_introl eq_refl)) as [tu [tp [Eu [Ep [_ [B1 B2]]]]]]. unfold pv. rewrite Eu, Ep. cbv zeta.
    destruct (umb_b _ _ _ && _)%bool. right; exists tu; auto. destruct (pen_b _ _ _ && _)%bool; auto. right; exists tp; auto. }
  destruct (Q (sc_spots c) PInf) as [E|[x [E B]]]; auto. { intros; apply H; auto. } rewrite E; auto. rewrite E. rewrite (proj1 (f32_fin x B)). auto.
Qed.

(** ** the faculae *)
Lemma paint_facula32_eq : forall s lat0 lon0 F f, fc_grid f = st_grid s ->
  paint_facula32 s lat0 lon0 (star_mu s lat0 lon0) (amap (fun p => f32 (F p)) (grid_points (st_grid s))) f
  = rmap (amap f32) (paint_facula s lat0 lon0 (star_mu s lat0 lon0) (amap F (grid_points (st_grid s))) f).
Proof.
  intros s lat0 lon0 F f G. rewrite paint_facula_eq by auto. unfold paint_facula32. rewrite fac_map_pixels_eq by auto. rewrite any_true_existsb.
  destruct (negb _). { cbn [rmap]. rewrite amap_amap. auto. } destruct (fac_fractional_area _ _) as [fr|e]; cbn [bind rmap]; auto.
  destruct fr as [|[kw q] [|[kf q'] [|]]]; auto.
  rewrite star_mu_eq. rewrite zip_same_amap. cbn [bind]. rewrite cells_amap, filter_map_comm, map_map.
  change (fun x : R * R => fst (law_cos lat0 lon0 (fst x) (snd x), insidep s f x)) with (mup lat0 lon0).
  change (fun x : R * R => snd (law_cos lat0 lon0 (fst x) (snd x), insidep s f x)) with (insidep s f).
  destruct (quantile _ _) as [b|e]; cbn [bind rmap]; auto.
  rewrite !amap_amap, !amap2_amap. cbn [bind]. unfold mask_assign. rewrite zip_same_amap. cbn [bind].
  rewrite amap_amap, zip_same_amap. cbn [bind]. rewrite amap_amap. f_equal. apply amap_ext. intros p. cbn [fst snd].
  unfold mup, fac_temp. destruct (insidep s f p); cbn [andb]; auto. unfold Rleb, Rltb.
  destruct (Rle_dec (law_cos lat0 lon0 (fst p) (snd p)) b), (Rlt_dec b (law_cos lat0 lon0 (fst p) (snd p))); auto; lra.
Qed.
Lemma paint_faculae32_eq : forall s lat0 lon0 l F, (forall f, In f l -> fc_grid f = st_grid s) ->
  paint_faculae32 s lat0 lon0 (star_mu s lat0 lon0) (amap (fun p => f32 (F p)) (grid_points (st_grid s))) l
  = rmap (amap f32) (paint_faculae s lat0 lon0 (star_mu s lat0 lon0) (amap F (grid_points (st_grid s))) l).
Proof.
  induction l as [|f l IH]; intros F H; cbn [paint_faculae32 paint_faculae]. { cbn [rmap]. rewrite amap_amap. auto. }
  rewrite paint_facula32_eq by (apply H; left; auto).
  destruct (paint_facula s lat0 lon0 (star_mu s lat0 lon0) (amap F (grid_points (st_grid s))) f) as [m|e] eqn:E; cbn [bind rmap]; auto.
  assert (X : exists G, m = amap G (grid_points (st_grid s))).
  { destruct (paint_facula_inv _ _ _ _ _ _ (H f (or_introl eq_refl)) E) as [[_ ->]|[? [? [? [? [? [_ ->]]]]]]]; eauto. }
  destruct X as [G ->]. rewrite amap_amap. apply IH. intros; apply H; right; auto.
Qed.
Lemma full_map32 : forall s lat0 lon0, star_unified s -> (forall x, In x (sc_spots (st_spots s)) -> spot32 x) -> st_teff s <> NaN ->
  add_faculae_to_map32 s lat0 lon0 = rmap (amap f32) (add_faculae_to_map s lat0 lon0).
Proof.
  intros s lat0 lon0 U H N. unfold add_faculae_to_map32, add_faculae_to_map, star_map.
  rewrite map32_eq; auto. 2:{ intros x I. split; auto. destruct U as [A [_ [B _]]]. rewrite A. auto. }
  pose proof (star_map_eq s U) as E. unfold star_map in E. rewrite E. cbn [rmap bind]. rewrite amap_amap.
  apply paint_faculae32_eq. apply U.
Qed.
