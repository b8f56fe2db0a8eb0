(** Sums over points of the unit sphere that keep their distance from each other. *)
From Coq Require Import Reals ZArith Bool List Lra Lia.
From Coquelicot Require Import Coquelicot.
From Verif Require Import Num Py LBase.
Import ListNotations.
Open Scope R_scope.

Lemma rsum_incl : forall A (f : A -> R) (l l' : list A), NoDup l -> incl l l' -> (forall x, In x l' -> 0 <= f x) ->
  rsum (map f l) <= rsum (map f l').
Proof.
  intros A f l. induction l as [|x l IH]; intros l' N I P.
  - apply rsum_map_nonneg. auto.
  - inversion N; subst. destruct (in_split x l' (I x (or_introl eq_refl))) as [l1 [l2 ->]].
    rewrite map_app, rsum_app. change (rsum (map f (x :: l))) with (f x + rsum (map f l)). change (rsum (map f (x :: l2))) with (f x + rsum (map f l2)). specialize (IH (l1 ++ l2) H2). rewrite map_app, rsum_app in IH.
    assert (rsum (map f l) <= rsum (map f l1) + rsum (map f l2)); [|lra]. apply IH.
    + intros y Y. destruct (in_app_or _ _ _ (I y (or_intror Y))) as [?|[?|?]]. apply in_or_app; auto. subst. contradiction. apply in_or_app; auto.
    + intros y Y. apply P. apply in_app_or in Y. apply in_or_app. simpl. tauto.
Qed.
Definition gz (k : Z) : R := / (1 + IZR k ^ 2).
Lemma gz_pos : forall k, 0 < gz k.
Proof. intros. apply Rinv_0_lt_compat. pose proof (pow2_ge_0 (IZR k)). lra. Qed.
Lemma gz_sum : forall m, rsum (map (fun k => gz (Z.of_nat k)) (seq 0 (S m))) <= 3 - 2 / (INR m + 1).
Proof.
  induction m. simpl. unfold gz. simpl. lra.
  rewrite seq_S, map_app, rsum_app. rewrite S_INR. eapply Rle_trans. apply Rplus_le_compat_r. apply IHm.
  cbn [map rsum]. rewrite Nat.add_0_l. unfold gz. rewrite <- INR_IZR_INZ, S_INR. pose proof (pos_INR m) as P. set (x := INR m) in *.
  assert (H : / (1 + (x + 1) ^ 2) <= 2 / (x + 1) - 2 / (x + 1 + 1)).
  { replace (2 / (x + 1) - 2 / (x + 1 + 1)) with (/ ((x + 1) * (x + 2) / 2)) by (field; lra). apply Rinv_le_contravar; nra. }
  unfold rsum. cbn [fold_right]. lra.
Qed.
Lemma gz_all : forall l : list Z, NoDup l -> rsum (map gz l) <= 6.
Proof.
  intros l N. assert (B : exists m, forall k, In k l -> (Z.abs_nat k <= m)%nat).
  { clear N. induction l as [|x l [m IH]]. exists 0%nat. intros k []. exists (max m (Z.abs_nat x)). intros k [->|I]. lia. specialize (IH k I). lia. }
  destruct B as [m B].
  set (l' := map Z.of_nat (seq 0 (S m)) ++ map (fun k => - Z.of_nat k)%Z (seq 0 (S m))).
  eapply Rle_trans. apply (rsum_incl _ gz l l'); auto.
  - intros k I. specialize (B k I). unfold l'. apply in_or_app. destruct (Z_le_dec 0 k).
    left. apply in_map_iff. exists (Z.abs_nat k). split. lia. apply in_seq. lia.
    right. apply in_map_iff. exists (Z.abs_nat k). split. lia. apply in_seq. lia.
  - intros. apply Rlt_le, gz_pos.
  - unfold l'. rewrite map_app, rsum_app, !map_map. pose proof (gz_sum m) as G.
    rewrite (rsum_map_ext _ (fun x => gz (- Z.of_nat x)) (fun k => gz (Z.of_nat k))).
    assert (0 < 2 / (INR m + 1)). { apply Rdiv_lt_0_compat. lra. pose proof (pos_INR m). lra. } lra.
    intros. unfold gz. rewrite opp_IZR. f_equal. ring.
Qed.
Lemma rsum_prod : forall A B (f : A -> R) (g : B -> R) l l',
  rsum (map (fun p => f (fst p) * g (snd p)) (list_prod l l')) = rsum (map f l) * rsum (map g l').
Proof.
  intros. induction l; simpl. ring. rewrite map_app, rsum_app, IHl, map_map. cbn [fst snd]. rewrite rsum_map_scal. ring.
Qed.
Lemma gz_grid : forall A (l : list A) (p q : A -> Z), NoDup l ->
  (forall x y, In x l -> In y l -> p x = p y -> q x = q y -> x = y) ->
  rsum (map (fun x => gz (p x) * gz (q x)) l) <= 36.
Proof.
  intros A l p q N I.
  set (lp := nodup Z.eq_dec (map p l)). set (lq := nodup Z.eq_dec (map q l)).
  eapply Rle_trans with (rsum (map (fun z => gz (fst z) * gz (snd z)) (list_prod lp lq))).
  - rewrite <- (map_map (fun x => (p x, q x)) (fun z => gz (fst z) * gz (snd z))). apply rsum_incl.
    + clear lp lq. induction l as [|x l IH]; simpl. constructor. inversion N; subst. constructor.
      intro C. apply in_map_iff in C. destruct C as [y [E Y]]. inversion E. assert (x = y) by (apply I; simpl; auto). subst. contradiction.
      apply IH; auto. intros. apply I; simpl; auto.
    + intros z Z. apply in_map_iff in Z. destruct Z as [x [<- X]]. apply in_prod; apply nodup_In; apply in_map; auto.
    + intros. apply Rmult_le_pos; apply Rlt_le, gz_pos.
  - rewrite rsum_prod. pose proof (gz_all lp (NoDup_nodup _ _)). pose proof (gz_all lq (NoDup_nodup _ _)).
    assert (0 <= rsum (map gz lp)) by (apply rsum_map_nonneg; intros; apply Rlt_le, gz_pos).
    assert (0 <= rsum (map gz lq)) by (apply rsum_map_nonneg; intros; apply Rlt_le, gz_pos). nra.
Qed.

(** ** Boxes *)
Definition box (h x : R) : Z := Int_part (x / h).
Lemma box_near : forall h x y, 0 < h -> box h x = box h y -> Rabs (x - y) < h.
Proof.
  intros h x y H E. unfold box in E. destruct (base_Int_part (x / h)) as [A B]. destruct (base_Int_part (y / h)) as [C D]. rewrite E in *.
  assert (- 1 < x / h - y / h < 1) by lra.
  replace (x - y) with ((x / h - y / h) * h) by (field; lra). apply Rabs_def1; nra.
Qed.
Lemma box_far : forall n x y, 0 < n -> / (1 + n * (x - y) ^ 2) <= 25 / 8 * gz (box (4/5 / sqrt n) x - box (4/5 / sqrt n) y).
Proof.
  intros n x y N. set (h := 4/5 / sqrt n). pose proof (sqrt_lt_R0 n N) as Q. pose proof (sqrt_sqrt n ltac:(lra)) as QQ.
  assert (H : 0 < h) by (apply Rdiv_lt_0_compat; lra).
  assert (E : n * (x - y) ^ 2 = 16/25 * (x / h - y / h) ^ 2). { rewrite <- QQ. unfold h. field. lra. }
  rewrite E. unfold box, gz. rewrite minus_IZR. destruct (base_Int_part (x / h)) as [A B]. destruct (base_Int_part (y / h)) as [C D].
  set (d := x / h - y / h) in *. set (k := IZR _ - IZR _).
  assert (K : -1 < k - d < 1) by (unfold k, d; lra).
  assert (k ^ 2 <= 2 * d ^ 2 + 2). { assert ((k - d) ^ 2 < 1) by (simpl; nra). pose proof (pow2_ge_0 (k - 2 * d)). nra. }
  pose proof (pow2_ge_0 d). pose proof (pow2_ge_0 k).
  replace (25 / 8 * / (1 + k ^ 2)) with (/ (8 / 25 * (1 + k ^ 2))) by (field; lra).
  apply Rinv_le_contravar; lra.
Qed.
(** points on the face of the cube around the first axis *)
Lemma face_sum : forall (l : list nat) (W U V : nat -> R) n u v, 0 < n -> NoDup l ->
  (forall i, In i l -> W i ^ 2 + U i ^ 2 + V i ^ 2 = 1 /\ Rabs (U i) <= W i /\ Rabs (V i) <= W i) ->
  (forall i j, In i l -> In j l -> i <> j -> 4 / n <= (W i - W j) ^ 2 + (U i - U j) ^ 2 + (V i - V j) ^ 2) ->
  rsum (map (fun i => / (1 + n * (U i - u) ^ 2) * / (1 + n * (V i - v) ^ 2)) l) <= 352.
Proof.
  intros l W U V n u v N ND F S.
  set (h := 4/5 / sqrt n). pose proof (sqrt_lt_R0 n N) as Q. pose proof (sqrt_sqrt n ltac:(lra)) as QQ.
  assert (H : 0 < h) by (apply Rdiv_lt_0_compat; lra). assert (HH : h * h = 16/25 / n) by (rewrite <- QQ; unfold h; field; lra).
  eapply Rle_trans with (rsum (map (fun i => (25/8 * (25/8)) * (gz (box h (U i) - box h u) * gz (box h (V i) - box h v))) l)).
  - apply rsum_map_le. intros i _. pose proof (box_far n (U i) u N). pose proof (box_far n (V i) v N). fold h in H0, H1.
    assert (0 <= / (1 + n * (U i - u) ^ 2)) by (apply Rlt_le, Rinv_0_lt_compat; pose proof (pow2_ge_0 (U i - u)); nra).
    assert (0 <= / (1 + n * (V i - v) ^ 2)) by (apply Rlt_le, Rinv_0_lt_compat; pose proof (pow2_ge_0 (V i - v)); nra).
    eapply Rle_trans. apply Rmult_le_compat; eauto. lra.
  - rewrite rsum_map_scal.
    assert (rsum (map (fun i => gz (box h (U i) - box h u) * gz (box h (V i) - box h v)) l) <= 36).
    { apply (gz_grid _ l (fun i => box h (U i) - box h u)%Z (fun i => box h (V i) - box h v)%Z); auto.
      intros i j Hi Hj E1 E2. destruct (Nat.eq_dec i j) as [|D]; auto. exfalso.
      specialize (S i j Hi Hj D). destruct (F i Hi) as [I1 [I2 I3]]. destruct (F j Hj) as [J1 [J2 J3]].
      pose proof (box_near h (U i) (U j) H ltac:(lia)) as B1. pose proof (box_near h (V i) (V j) H ltac:(lia)) as B2.
      assert (C1 : (U i - U j) ^ 2 < h * h) by (rewrite <- Rsqr_pow2; unfold Rsqr; apply Rabs_def2 in B1; nra).
      assert (C2 : (V i - V j) ^ 2 < h * h) by (rewrite <- Rsqr_pow2; unfold Rsqr; apply Rabs_def2 in B2; nra).
      assert (HN : 4 / n = 25 / 4 * (h * h)) by (rewrite HH; field; lra). rewrite HN in S.
      set (dW := W i - W j) in *. set (dU := U i - U j) in *. set (dV := V i - V j) in *.
      assert (E : dW * (W i + W j) = - (dU * (U i + U j) + dV * (V i + V j))) by (unfold dW, dU, dV; nra).
      assert (P0 : 0 < W i + W j).
      { apply Rabs_le_between in I2. apply Rabs_le_between in I3. apply Rabs_le_between in J2. apply Rabs_le_between in J3. apply Rnot_le_lt. intro.
        assert (W i = 0) by lra. assert (U i = 0) by lra. assert (V i = 0) by lra. rewrite H1, H2, H3 in I1. lra. }
      assert (X : Rabs dW <= Rabs dU + Rabs dV).
      { apply Rmult_le_reg_r with (W i + W j); auto. rewrite <- (Rabs_right (W i + W j)) at 1 by lra. rewrite <- Rabs_mult, E, Rabs_Ropp.
        eapply Rle_trans. apply Rabs_triang. rewrite !Rabs_mult.
        assert (Rabs (U i + U j) <= W i + W j) by (eapply Rle_trans; [apply Rabs_triang|lra]).
        assert (Rabs (V i + V j) <= W i + W j) by (eapply Rle_trans; [apply Rabs_triang|lra]).
        pose proof (Rabs_pos dU). pose proof (Rabs_pos dV). nra. }
      assert (Y : dW ^ 2 <= 2 * dU ^ 2 + 2 * dV ^ 2).
      { rewrite <- (pow2_abs dW), <- (pow2_abs dU), <- (pow2_abs dV). pose proof (Rabs_pos dW). pose proof (pow2_ge_0 (Rabs dU - Rabs dV)). nra. }
      nra. }
    lra.
Qed.
