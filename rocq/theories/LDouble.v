(** Lemmas for C110-C111: rounding to double precision *)
From Coq Require Import Reals ZArith Bool List Lra Lia Sorted Permutation Classical FunctionalExtensionality.
From Verif Require Import Num Py MConfig MHelpers MGrid MSpots MFaculae MXoflares MFlares MGranules MStar MSingle MDouble
  Spec SpecStar SpecDisk SpecSingle SpecDouble LBase LGrid LSpotMap LSpotCov LStar LDisk LStarFac LStarCov LSym LTransit LSingle LSingleRep.
Import ListNotations.
Open Scope R_scope.

Lemma f64_grid : forall x y, x <> 0 -> f64_value y -> powerRZ 2 (Int_part (ln (Rabs x) / ln 2)) <= Rabs y ->
  exists k : Z, y = IZR k * powerRZ 2 (f64_exp x).
Proof.
  intros x y N [m [e [Hm [He ->]]]] H. unfold f64_exp. set (b := Int_part (ln (Rabs x) / ln 2)) in *.
  destruct (Z_le_gt_dec (Z.max (b - 52) (-1074)) e) as [L|G].
  - exists (m * 2 ^ (e - Z.max (b - 52) (-1074)))%Z. rewrite mult_IZR, <- p2_Z by lia. rewrite Rmult_assoc, <- p2_add. do 2 f_equal. lia.
  - assert (e < b - 52)%Z by lia. replace (Z.max (b - 52) (-1074)) with (b - 52)%Z by lia.
    rewrite Rabs_mult, (Rabs_right (powerRZ 2 e)), <- abs_IZR in H by (apply Rle_ge, Rlt_le, p2_pos).
    assert (A : IZR (Z.abs m) <= IZR (2 ^ 53)) by (apply IZR_le; auto). pose proof (p2_pos e) as Pe.
    assert (B : powerRZ 2 b <= powerRZ 2 (e + 53)). { rewrite (p2_add e 53), (p2_Z 53) by lia. nra. }
    assert (e + 53 = b)%Z. { destruct (Z_lt_le_dec (e + 53) b); [|lia]. exfalso. pose proof (p2_le (e + 53 + 1) b ltac:(lia)). rewrite p2_add in H1. pose proof (p2_pos (e + 53)). simpl (powerRZ 2 1) in H1. lra. }
    subst b. rewrite <- H1 in H. rewrite p2_add, (p2_Z 53) in H by lia.
    assert (Em : IZR (Z.abs m) = IZR (2 ^ 53)) by nra. apply eq_IZR in Em.
    rewrite <- H1. replace (e + 53 - 52)%Z with (e + 1)%Z by lia.
    exists (Z.sgn m * 2 ^ 52)%Z. rewrite p2_add. replace m with (Z.sgn m * 2 ^ 53)%Z at 1 by (rewrite <- Em, Z.mul_comm; apply Z.abs_sgn).
    rewrite !mult_IZR. change (IZR (2 ^ 53)) with 9007199254740992. change (IZR (2 ^ 52)) with 4503599627370496. simpl (powerRZ 2 1). ring.
Qed.
Lemma f64_round_value : forall x, f64_value (f64_round x).
Proof.
  intros. unfold f64_round. destruct (Req_EM_T x 0). { exists 0%Z, 0%Z. split. simpl; lia. split. lia. ring. }
  pose proof (binade x n) as [B1 B2]. set (u := powerRZ 2 (f64_exp x)). exists (rhe (x / u)), (f64_exp x).
  assert (U : 0 < u) by apply p2_pos.
  split; [|split; [unfold f64_exp; lia|auto]].
  assert (Q : Rabs (x / u) < 9007199254740992).
  { unfold Rdiv. rewrite Rabs_mult, (Rabs_right (/ u)) by (apply Rle_ge, Rlt_le, Rinv_0_lt_compat; auto). apply (Rmult_lt_reg_r u); auto. rewrite Rmult_assoc, Rinv_l by lra.
    assert (powerRZ 2 (Int_part (ln (Rabs x) / ln 2) - 52) <= u) by (apply p2_le; unfold f64_exp; lia).
    unfold Z.sub in H. rewrite p2_add in H. replace (powerRZ 2 (-(52))) with (/ 4503599627370496) in H by (simpl; lra). lra. }
  assert (P : forall z, Rabs (IZR z - x / u) <= 1 -> (Z.abs z <= 9007199254740992)%Z).
  { intros z Hz. apply Z.lt_succ_r. apply lt_IZR. rewrite abs_IZR, succ_IZR. pose proof (Rabs_triang (IZR z - x / u) (x / u)) as T. replace (IZR z - x / u + x / u) with (IZR z) in T by ring. lra. }
  change (2 ^ 53)%Z with 9007199254740992%Z. apply P.
  destruct (base_Int_part (x / u)) as [C1 C2]. eapply Rle_trans. apply (rhe_near _ (Int_part (x / u))). apply Rabs_le. lra.
Qed.
Lemma f64_round_near : forall x y, f64_value y -> Rabs (f64_round x - x) <= Rabs (y - x).
Proof.
  intros x y F. unfold f64_round. destruct (Req_EM_T x 0) as [-> |N]. { rewrite Rminus_0_r, Rabs_R0. apply Rabs_pos. }
  set (u := powerRZ 2 (f64_exp x)). assert (U : 0 < u) by apply p2_pos.
  assert (G : forall k : Z, Rabs (IZR (rhe (x / u)) * u - x) <= Rabs (IZR k * u - x)).
  { intros k. replace (IZR (rhe (x / u)) * u - x) with ((IZR (rhe (x / u)) - x / u) * u) by (field; lra). replace (IZR k * u - x) with ((IZR k - x / u) * u) by (field; lra).
    rewrite !Rabs_mult. apply Rmult_le_compat_r. apply Rabs_pos. apply rhe_near. }
  pose proof (binade x N) as [B1 B2]. set (b := Int_part (ln (Rabs x) / ln 2)) in *.
  destruct (Rle_lt_dec (powerRZ 2 b) (Rabs y)) as [H|H].
  - destruct (f64_grid x y N F H) as [k ->]. apply G.
  - destruct (Z_le_gt_dec (-1074) b) as [Hb|Hb].
    + (* the bottom of the binade lies between y and x *)
      assert (V : f64_value (powerRZ 2 b)). { exists 1%Z, b. split. simpl; lia. split; auto. ring. }
      assert (V' : f64_value (- powerRZ 2 b)). { exists (-1)%Z, b. split. simpl; lia. split; auto. ring. }
      pose proof (p2_pos b) as Pb.
      destruct (Rcase_abs x) as [X|X].
      * rewrite (Rabs_left x) in B1, B2 by auto. destruct (f64_grid x _ N V') as [k E]. { fold b. rewrite Rabs_Ropp, Rabs_right; lra. }
        eapply Rle_trans. apply (G k). fold u in E. rewrite <- E. apply Rabs_def2 in H. destruct H. unfold Rabs. repeat destruct (Rcase_abs _); lra.
      * rewrite (Rabs_right x) in B1, B2 by auto. destruct (f64_grid x _ N V) as [k E]. { fold b. rewrite Rabs_right; lra. }
        eapply Rle_trans. apply (G k). fold u in E. rewrite <- E. apply Rabs_def2 in H. destruct H. unfold Rabs. repeat destruct (Rcase_abs _); lra.
    + destruct F as [m [e [Hm [He ->]]]]. assert (f64_exp x = (-1074))%Z by (unfold f64_exp; fold b; lia). unfold u in *. rewrite H0 in *.
      replace (IZR m * powerRZ 2 e) with (IZR (m * 2 ^ (e - -1074)) * powerRZ 2 (-1074)). apply G.
      rewrite mult_IZR, <- p2_Z by lia. rewrite Rmult_assoc, <- p2_add. do 2 f_equal. lia.
Qed.
Lemma f64_round_id : forall x, f64_value x -> f64_round x = x.
Proof. intros x H. pose proof (f64_round_near x x H) as K. rewrite (Rminus_diag_eq x x eq_refl), Rabs_R0 in K. unfold Rabs in K. destruct (Rcase_abs _); lra. Qed.
Lemma f64_round_mono : forall x y, x <= y -> f64_round x <= f64_round y.
Proof.
  intros x y [L|<-]; [|lra]. apply Rnot_lt_le. intro K.
  pose proof (f64_round_near x _ (f64_round_value y)) as A. pose proof (f64_round_near y _ (f64_round_value x)) as B.
  unfold Rabs in *. repeat destruct (Rcase_abs _); lra.
Qed.
Lemma f64_whole : forall z, (Z.abs z <= 2 ^ 53)%Z -> f64_value (IZR z).
Proof. intros z H. exists z, 0%Z. split; auto. split. lia. simpl. ring. Qed.
Lemma f64_round_err : forall x, powerRZ 2 (-1022) <= Rabs x -> Rabs (f64_round x - x) <= Rabs x / 9007199254740992.
Proof.
  intros x H. assert (N : x <> 0). { intros ->. rewrite Rabs_R0 in H. pose proof (p2_pos (-1022)). lra. }
  pose proof (binade x N) as [B1 B2]. unfold f64_round. destruct (Req_EM_T x 0); [contradiction|].
  set (b := Int_part (ln (Rabs x) / ln 2)) in *.
  assert (Hb : (-1022 <= b)%Z). { apply Z.nlt_ge. intro K. pose proof (p2_le (b + 1) (-1022) ltac:(lia)) as Q. rewrite p2_add in Q. simpl (powerRZ 2 1) in Q. lra. }
  assert (E : f64_exp x = (b - 52)%Z) by (unfold f64_exp; fold b; lia). rewrite E. set (u := powerRZ 2 (b - 52)). assert (U : 0 < u) by apply p2_pos.
  assert (Eu : powerRZ 2 b = 4503599627370496 * u). { unfold u. replace b with (b - 52 + 52)%Z at 1 by lia. rewrite p2_add, (p2_Z 52) by lia. change (IZR (2 ^ 52)) with 4503599627370496. ring. }
  replace (IZR (rhe (x / u)) * u - x) with ((IZR (rhe (x / u)) - x / u) * u) by (field; lra). rewrite Rabs_mult, (Rabs_right u) by lra.
  assert (R1 : Rabs (IZR (rhe (x / u)) - x / u) <= 1/2).
  { destruct (base_Int_part (x / u)) as [A B]. set (f := Int_part (x / u)) in *.
    destruct (Rle_lt_dec (x / u - IZR f) (1/2)). eapply Rle_trans. apply (rhe_near _ f). apply Rabs_le; lra.
    eapply Rle_trans. apply (rhe_near _ (f + 1)). rewrite plus_IZR. apply Rabs_le; lra. }
  nra.
Qed.

(** ** numbers with infinities *)
Lemma p1023 : powerRZ 2 1023 < powerRZ 2 1024.
Proof. replace 1024%Z with (1023 + 1)%Z by lia. rewrite p2_add. pose proof (p2_pos 1023). simpl (powerRZ 2 1). lra. Qed.
Lemma f64_fin : forall x, Rabs x <= powerRZ 2 1023 -> f64 (Fin x) = Fin (f64_round x) /\ Rabs (f64_round x) <= powerRZ 2 1023.
Proof.
  intros x H. pose proof p1023 as P. assert (V : f64_value (powerRZ 2 1023)). { exists 1%Z, 1023%Z. split. simpl; lia. split. lia. ring. }
  assert (V' : f64_value (- powerRZ 2 1023)). { exists (-1)%Z, 1023%Z. split. simpl; lia. split. lia. ring. }
  assert (B : - powerRZ 2 1023 <= x <= powerRZ 2 1023) by (unfold Rabs in H; destruct (Rcase_abs x); lra).
  assert (B1 : f64_round x <= powerRZ 2 1023) by (rewrite <- (f64_round_id _ V); apply f64_round_mono; lra).
  assert (B2 : - powerRZ 2 1023 <= f64_round x) by (rewrite <- (f64_round_id _ V'); apply f64_round_mono; lra).
  split. 2:{ apply Rabs_le. lra. } pose proof (p2_pos 1023). unfold f64. cbv zeta.
  rewrite (proj2 (Rleb_false (powerRZ 2 1024) _)), (proj2 (Rleb_false _ (- powerRZ 2 1024))) by lra. auto.
Qed.
Lemma f64_round_nearest : forall x, nearest64 x (f64_round x).
Proof.
  intros x. split; [apply f64_round_value|]. split; [intros; apply f64_round_near; auto|].
  intros z F D E. pose proof (f64_round_near x) as NR. unfold f64_round in *.
  destruct (Req_EM_T x 0) as [-> |N]. { exfalso. apply D. rewrite !Rminus_0_r, Rabs_R0 in E. revert E. unfold Rabs. destruct (Rcase_abs z); lra. }
  set (u := powerRZ 2 (f64_exp x)) in *. assert (U : 0 < u) by apply p2_pos.
  assert (G : exists k : Z, z = IZR k * u).
  { pose proof (binade x N) as [B1 B2]. set (b := Int_part (ln (Rabs x) / ln 2)) in *.
    destruct (Rle_lt_dec (powerRZ 2 b) (Rabs z)) as [H|H]. apply f64_grid; auto.
    destruct (Z_le_gt_dec (-1074) b) as [Hb|Hb].
    - exfalso. pose proof (p2_pos b) as Pb.
      assert (V : f64_value (powerRZ 2 b)). { exists 1%Z, b. split. simpl; lia. split; auto. ring. }
      assert (V' : f64_value (- powerRZ 2 b)). { exists (-1)%Z, b. split. simpl; lia. split; auto. ring. }
      apply NR in V. apply NR in V'. rewrite <- E in V, V'. apply Rabs_def2 in H. destruct H.
      revert B1 B2 V V'. clear E NR. unfold Rabs. repeat destruct (Rcase_abs _); lra.
    - destruct F as [m [e [Hm [He ->]]]]. assert (Q : f64_exp x = (-1074)%Z) by (unfold f64_exp; fold b; lia). unfold u. rewrite Q.
      exists (m * 2 ^ (e - -1074))%Z. rewrite mult_IZR, <- p2_Z by lia. rewrite Rmult_assoc, <- p2_add. do 2 f_equal. lia. }
  destruct G as [k ->]. set (r := rhe (x / u)) in *.
  assert (E' : Rabs (IZR k - x / u) = Rabs (IZR r - x / u)).
  { replace (IZR k * u - x) with ((IZR k - x / u) * u) in E by (field; lra). replace (IZR r * u - x) with ((IZR r - x / u) * u) in E by (field; lra).
    rewrite !Rabs_mult, (Rabs_right u) in E by lra. apply Rmult_eq_reg_r in E; auto. lra. }
  destruct (rhe_tie (x / u) k) as [Ev K]; auto. { intro Q. apply D. rewrite Q. auto. }
  fold r in Ev, K. apply Zeven_bool_iff in Ev. apply Zeven_ex in Ev. destruct Ev as [m Em]. exists m.
  replace (IZR k * u - IZR r * u) with (IZR (k - r) * u) by (rewrite minus_IZR; ring). rewrite Rabs_mult, <- abs_IZR, K, (Rabs_right u) by lra. rewrite Em. ring.
Qed.
Lemma nearest64_unique : forall x y y', nearest64 x y -> nearest64 x y' -> y = y'.
Proof.
  intros x y y' [V [N E]] [V' [N' E']]. destruct (Req_dec y y') as [|D]; auto. exfalso.
  assert (Q : Rabs (y' - x) = Rabs (y - x)) by (apply Rle_antisym; auto).
  destruct (E y' V' (not_eq_sym D) Q) as [m A]. destruct (E' y V D (eq_sym Q)) as [m' A'].
  rewrite Rabs_minus_sym in A'. set (d := Rabs (y' - y)) in *.
  assert (P : 0 < d) by (apply Rabs_pos_lt; lra).
  assert (K : IZR (2 * m' - 2 * m) * d = y' - y) by (rewrite minus_IZR; lra).
  assert (L : Rabs (IZR (2 * m' - 2 * m)) * d = d). { rewrite <- (Rabs_right d) at 1 by lra. rewrite <- Rabs_mult, K. auto. }
  assert (O : Rabs (IZR (2 * m' - 2 * m)) = 1) by (apply (Rmult_eq_reg_r d); lra).
  rewrite <- abs_IZR in O. apply eq_IZR in O. lia.
Qed.
Lemma double_rounding_eq : forall rnd, double_rounding rnd -> rnd = f64_round.
Proof. intros rnd H. apply functional_extensionality. intros x. eapply nearest64_unique. apply H. apply f64_round_nearest. Qed.
Lemma C110_rounding_lemma :
  exists rnd, double_rounding rnd /\ (forall rnd', double_rounding rnd' -> rnd' = rnd)
  /\ (forall x y, x <= y -> rnd x <= rnd y)
  /\ (forall z, (Z.abs z <= 2 ^ 53)%Z -> rnd (IZR z) = IZR z)
  /\ (forall x, powerRZ 2 (-1022) <= Rabs x -> Rabs (rnd x - x) <= Rabs x / 2 ^ 53)
  /\ (forall x, Rabs x <= powerRZ 2 1023 -> f64 (Fin x) = Fin (rnd x)).
Proof.
  exists f64_round. split; [exact f64_round_nearest|]. split; [intros; apply double_rounding_eq; auto|].
  split; [exact f64_round_mono|]. split; [intros; apply f64_round_id, f64_whole; auto|]. split; [|intros; apply f64_fin; auto].
  intros x H. replace (2 ^ 53) with 9007199254740992 by (simpl; ring). apply f64_round_err; auto.
Qed.
