(** Sums over the points of the spiral grid converge to integrals over the sphere. *)
From Coq Require Import Reals ZArith Bool List Lra Lia Permutation.
From Coquelicot Require Import Coquelicot.
From Verif Require Import Num Py MConfig MHelpers MGrid MSpots Spec SpecConv LBase LGrid LHelpers LCirc LQuad LSym LSphere LConv.
Import ListNotations.
Open Scope R_scope.

(** ** The golden ratio and Fibonacci numbers *)
Definition gal : R := / GOLDEN_RATIO.
Lemma gal_eq : gal * gal = 1 - gal /\ 0 < gal < 1.
Proof.
  pose proof (sqrt_lt_1 1 5 ltac:(lra) ltac:(lra) ltac:(lra)) as H. rewrite sqrt_1 in H.
  pose proof (sqrt_sqrt 5 ltac:(lra)) as Q.
  assert (E : gal = (sqrt 5 - 1) / 2).
  { unfold gal, GOLDEN_RATIO. apply Rmult_eq_reg_l with (1 / 2 * (1 + sqrt 5)). 2: lra. rewrite Rinv_r by lra. nra. }
  rewrite E. assert (sqrt 5 < 3). { apply Rnot_le_lt. intro. nra. }
  split; [|lra]. nra.
Qed.
Fixpoint fibp (k : nat) : nat * nat := match k with O => (0, 1)%nat | S k => let '(a, b) := fibp k in (b, a + b)%nat end.
Definition fib (k : nat) : nat := fst (fibp k).
Lemma fib_SS : forall k, fib (S (S k)) = (fib k + fib (S k))%nat.
Proof. intros. unfold fib. cbn [fibp]. destruct (fibp k). auto. Qed.
Lemma fib_pos : forall k, (1 <= fib (S k))%nat.
Proof.
  intros. enough (H : (1 <= fib (S k) /\ 1 <= fib (S (S k)))%nat) by tauto. induction k. split; unfold fib; simpl; auto.
  destruct IHk. split; auto. rewrite (fib_SS (S k)). lia.
Qed.
Lemma fib_double : forall k, (fib (S (S k)) <= 2 * fib (S k))%nat.
Proof. intros. destruct k. unfold fib; simpl; lia. rewrite (fib_SS (S k)). pose proof (fib_SS k). lia. Qed.
Lemma fib_gcd : forall k, Nat.gcd (fib k) (fib (S k)) = 1%nat.
Proof.
  induction k. reflexivity. rewrite fib_SS, Nat.add_comm. replace (fib (S k) + fib k)%nat with (fib k + 1 * fib (S k))%nat by lia.
  rewrite Nat.gcd_add_mult_diag_r. rewrite Nat.gcd_comm. auto.
Qed.
Lemma fib_diff : forall k, INR (fib (S k)) * gal - INR (fib k) = gal * (- gal) ^ k.
Proof.
  destruct gal_eq as [G _]. intros. enough (H : INR (fib (S k)) * gal - INR (fib k) = gal * (- gal) ^ k
    /\ INR (fib (S (S k))) * gal - INR (fib (S k)) = gal * (- gal) ^ (S k)) by tauto.
  induction k. split; unfold fib; simpl; nra.
  destruct IHk as [A B]. split; auto. rewrite (fib_SS (S k)), plus_INR.
  replace ((INR (fib (S k)) + INR (fib (S (S k)))) * gal - INR (fib (S (S k))))
    with ((INR (fib (S k)) * gal - INR (fib k)) + (INR (fib (S (S k))) * gal - INR (fib (S k))) + (INR (fib k) + INR (fib (S k)) - INR (fib (S (S k))))) by ring.
  rewrite A, B. rewrite fib_SS, plus_INR. simpl pow. replace (- gal * (- gal * (- gal) ^ k)) with ((gal * gal) * (- gal) ^ k) by ring. rewrite G. ring.
Qed.
Lemma fib_upper : forall k, INR (fib (S k)) * gal ^ k <= 1.
Proof.
  destruct gal_eq as [G P]. intros. enough (H : INR (fib (S k)) * gal ^ k <= 1 /\ INR (fib (S (S k))) * gal ^ (S k) <= 1) by tauto.
  induction k. split; unfold fib; simpl; lra.
  destruct IHk as [A B]. split; auto. rewrite (fib_SS (S k)), plus_INR.
  replace ((INR (fib (S k)) + INR (fib (S (S k)))) * gal ^ S (S k)) with (gal * gal * (INR (fib (S k)) * gal ^ k) + gal * (INR (fib (S (S k))) * gal ^ S k)) by (simpl; ring).
  rewrite G. nra.
Qed.
Lemma fib_approx : forall k, Rabs (INR (fib (S k)) * gal - INR (fib k)) <= / INR (fib (S k)).
Proof.
  intros. destruct gal_eq as [G P]. pose proof (fib_upper k) as U. assert (Q : 0 < INR (fib (S k))) by (apply lt_0_INR; pose proof (fib_pos k); lia).
  rewrite fib_diff, Rabs_mult, <- RPow_abs, Rabs_Ropp, (Rabs_right gal) by lra.
  apply Rmult_le_reg_l with (INR (fib (S k))); auto. rewrite Rinv_r by lra.
  pose proof (pow_lt gal k ltac:(lra)). nra.
Qed.
Lemma fib_between : forall x, 1 <= x -> exists k, x <= INR (fib (S k)) <= 2 * x.
Proof.
  intros x Hx.
  assert (U : forall k, INR k <= INR (fib (S (S k)))).
  { intros. apply le_INR. induction k. lia. rewrite (fib_SS (S k)). pose proof (fib_pos k). lia. }
  destruct (nfloor_ex x ltac:(lra)) as [n0 [_ Hn]]. rewrite <- S_INR in Hn. revert Hn. generalize (S n0). intros n Hn.
  assert (H : x <= INR (fib (S (S n)))) by (specialize (U n); lra).
  clear Hn U. revert H. generalize (S n). clear n. intros n. induction n; intros H.
  - exists 0%nat. unfold fib in *; simpl in *. lra.
  - destruct (Rle_dec x (INR (fib (S n)))) as [?|C]; auto. exists (S n). split; auto.
    pose proof (le_INR _ _ (fib_double n)) as D. rewrite mult_INR in D. simpl (INR 2) in D. lra.
Qed.

(** ** Multiplication by a unit permutes the residues *)
Lemma perm_inj : forall n (h : nat -> nat), (forall i, (i < n)%nat -> (h i < n)%nat) ->
  (forall i j, (i < n)%nat -> (j < n)%nat -> h i = h j -> i = j) -> Permutation (map h (seq 0 n)) (seq 0 n).
Proof.
  intros n h B I. apply NoDup_Permutation_bis.
  - apply NoDup_map_in; [apply seq_NoDup|]. intros x y X Y E. apply in_seq in X. apply in_seq in Y. apply I; auto; lia.
  - rewrite map_length. lia.
  - intros x X. apply in_map_iff in X. destruct X as [i [<- X]]. apply in_seq in X. apply in_seq. specialize (B i). lia.
Qed.
Lemma mul_inj0 : forall q p i j, (0 < q)%nat -> Nat.gcd p q = 1%nat -> (i <= j)%nat -> (j < q)%nat ->
  (i * p mod q = j * p mod q)%nat -> i = j.
Proof.
  intros q p i j Hq G L J E.
  assert (D : Nat.divide q (p * (j - i))).
  { exists (j * p / q - i * p / q)%nat. pose proof (Nat.div_mod (i * p) q ltac:(lia)). pose proof (Nat.div_mod (j * p) q ltac:(lia)).
    rewrite Nat.mul_sub_distr_r. nia. }
  apply Nat.gauss in D; [|rewrite Nat.gcd_comm; auto]. destruct D as [z D]. destruct z; nia.
Qed.
Lemma perm_mul : forall q p, (0 < q)%nat -> Nat.gcd p q = 1%nat -> Permutation (map (fun r => r * p mod q)%nat (seq 0 q)) (seq 0 q).
Proof.
  intros. apply perm_inj. intros; apply Nat.mod_upper_bound; lia.
  intros i j Hi Hj E. destruct (le_lt_dec i j). apply (mul_inj0 q p); auto. symmetry. apply (mul_inj0 q p); auto; lia.
Qed.

(** ** Periodic functions *)
Lemma per_nat : forall f : R -> R, (forall x, f (x + 2 * PI) = f x) -> forall n x, f (x + INR n * (2 * PI)) = f x.
Proof.
  intros f H n. induction n; intros. simpl. f_equal; ring. rewrite S_INR. replace (x + (INR n + 1) * (2 * PI)) with (x + INR n * (2 * PI) + 2 * PI) by ring.
  rewrite H. auto.
Qed.
Lemma per_Z : forall f : R -> R, (forall x, f (x + 2 * PI) = f x) -> forall z x, f (x + IZR z * (2 * PI)) = f x.
Proof.
  intros f H z x. destruct z.
  - f_equal. simpl. ring.
  - rewrite <- positive_nat_Z, <- INR_IZR_INZ. apply per_nat; auto.
  - rewrite <- Pos2Z.opp_pos, opp_IZR, <- positive_nat_Z, <- INR_IZR_INZ. rewrite <- (per_nat f H (Pos.to_nat p)). f_equal. ring.
Qed.
Lemma per_RInt : forall f : R -> R, (forall x, f (x + 2 * PI) = f x) -> (forall a b, ex_RInt f a b) ->
  forall c, RInt f c (c + 2 * PI) = RInt f 0 (2 * PI).
Proof.
  intros f H E c.
  pose proof (@RInt_Chasles R_CompleteNormedModule f 0 c (c + 2 * PI) (E _ _) (E _ _)) as C1.
  pose proof (@RInt_Chasles R_CompleteNormedModule f 0 (2 * PI) (c + 2 * PI) (E _ _) (E _ _)) as C2.
  pose proof (@RInt_comp_lin R_CompleteNormedModule f 1 (2 * PI) 0 c (E _ _)) as C3.
  rewrite (RInt_ext (fun y => scal 1 (f (1 * y + 2 * PI))) f) in C3.
  2:{ intros x _. change (1 * f (1 * x + 2 * PI) = f x). rewrite !Rmult_1_l. apply H. }
  replace (1 * 0 + 2 * PI) with (2 * PI) in C3 by ring. replace (1 * c + 2 * PI) with (c + 2 * PI) in C3 by ring.
  rewrite <- C3 in C2.
  change (RInt f 0 c + RInt f c (c + 2 * PI) = RInt f 0 (c + 2 * PI)) in C1.
  change (RInt f 0 (2 * PI) + RInt f 0 c = RInt f 0 (c + 2 * PI)) in C2. lra.
Qed.

(** ** Modulus of continuity of the latitude as a function of the height *)
Lemma jordan : forall e, 0 <= e <= PI / 2 -> 2 * e / PI <= sin e.
Proof.
  intros e He. pose proof PI_RGT_0.
  destruct (Req_dec e 0) as [->|E0]. rewrite sin_0. right. field. lra.
  destruct (Req_dec e (PI / 2)) as [->|E1]. rewrite sin_PI2. right. field. lra.
  destruct (MVT_cor2 sin cos 0 e ltac:(lra)) as [c1 [A1 B1]]. intros; apply derivable_pt_lim_sin.
  destruct (MVT_cor2 sin cos e (PI / 2) ltac:(lra)) as [c2 [A2 B2]]. intros; apply derivable_pt_lim_sin.
  rewrite sin_0 in A1. rewrite sin_PI2 in A2.
  assert (C : cos c2 <= cos c1) by (apply cos_decr_1; lra).
  apply Rmult_le_reg_l with PI; auto. replace (PI * (2 * e / PI)) with (2 * e) by (field; lra).
  assert (D : cos c2 * (e * (PI / 2 - e)) <= cos c1 * (e * (PI / 2 - e))) by (apply Rmult_le_compat_r; auto; apply Rmult_le_pos; lra).
  assert (D1 : cos c1 * (e * (PI / 2 - e)) = sin e * (PI / 2 - e)) by (replace (sin e) with (cos c1 * (e - 0)) by lra; ring).
  assert (D2 : cos c2 * (e * (PI / 2 - e)) = (1 - sin e) * e) by (rewrite A2; ring).
  nra.
Qed.
Lemma acos_mod0 : forall x y, 0 <= x -> x <= y -> y <= PI -> (y - x) * (y - x) <= PI * PI * ((cos x - cos y) / 2).
Proof.
  intros x y Hx Hxy Hy. pose proof PI_RGT_0. rewrite form2.
  set (m := (x + y) / 2). set (e := (y - x) / 2).
  replace ((x - y) / 2) with (- e) by (unfold e; field). rewrite sin_neg.
  assert (He : 0 <= e <= PI / 2) by (unfold e; lra). pose proof (jordan e He) as J.
  assert (M : sin e <= sin m).
  { destruct (Rle_dec m (PI / 2)). apply sin_incr_1; unfold m, e in *; lra.
    rewrite <- (sin_PI_x m). apply sin_incr_1; unfold m, e in *; lra. }
  assert (E0 : 0 <= 2 * e / PI) by (apply Rdiv_le_0_compat; lra).
  replace (y - x) with (PI * (2 * e / PI)) by (unfold e; field; lra). set (w := 2 * e / PI) in *.
  replace (PI * w * (PI * w)) with (PI * PI * (w * w)) by ring. apply Rmult_le_compat_l. nra. nra.
Qed.
Lemma acos_mod : forall a b, -1 <= a <= 1 -> -1 <= b <= 1 -> Rabs (acos a - acos b) <= PI * sqrt (Rabs (a - b) / 2).
Proof.
  assert (W : forall a b, -1 <= a -> a <= b -> b <= 1 -> Rabs (acos a - acos b) <= PI * sqrt (Rabs (a - b) / 2)).
  { intros a b Ha Hab Hb. pose proof PI_RGT_0.
    pose proof (acos_bound a). pose proof (acos_bound b).
    assert (D : acos b <= acos a). { apply Rnot_lt_le. intro C. apply (cos_decreasing_1 (acos a) (acos b)) in C; try lra. rewrite !cos_acos in C by lra. lra. }
    pose proof (acos_mod0 (acos b) (acos a) ltac:(lra) D ltac:(lra)) as M. rewrite !cos_acos in M by lra.
    rewrite (Rabs_right (acos a - acos b)) by lra. rewrite (Rabs_left1 (a - b)) by lra.
    replace (- (a - b)) with (b - a) by ring. pose proof (sqrt_pos ((b - a) / 2)). pose proof (sqrt_sqrt ((b - a) / 2) ltac:(lra)) as Q.
    apply Rnot_lt_le. intro C.
    assert (X : (PI * sqrt ((b - a) / 2)) * (PI * sqrt ((b - a) / 2)) < (acos a - acos b) * (acos a - acos b)).
    { apply Rmult_le_0_lt_compat; auto; apply Rmult_le_pos; lra. }
    replace ((PI * sqrt ((b - a) / 2)) * (PI * sqrt ((b - a) / 2))) with (PI * PI * (sqrt ((b - a) / 2) * sqrt ((b - a) / 2))) in X by ring.
    rewrite Q in X. lra. }
  intros a b Ha Hb. destruct (Rle_dec a b). apply W; lra. rewrite Rabs_minus_sym, (Rabs_minus_sym a). apply W; lra.
Qed.
Definition ulat (u : R) : R := PI / 2 - acos (1 - 2 * u).
Lemma ulat_mod : forall u v, 0 <= u <= 1 -> 0 <= v <= 1 -> Rabs (ulat u - ulat v) <= PI * sqrt (Rabs (u - v)).
Proof.
  intros. unfold ulat. replace (PI / 2 - acos (1 - 2 * u) - (PI / 2 - acos (1 - 2 * v))) with (- (acos (1 - 2 * u) - acos (1 - 2 * v))) by ring.
  rewrite Rabs_Ropp. replace (Rabs (u - v)) with (Rabs (1 - 2 * u - (1 - 2 * v)) / 2). apply acos_mod; lra.
  replace (1 - 2 * u - (1 - 2 * v)) with (- (2 * (u - v))) by ring. rewrite Rabs_Ropp, Rabs_mult, (Rabs_right 2) by lra. field.
Qed.
Lemma ulat_continuous : forall u, continuous ulat u.
Proof.
  intros. unfold ulat. apply (continuous_minus (fun _ => PI / 2) (fun u => acos (1 - 2 * u))). apply continuous_const.
  apply (continuous_comp (fun u => 1 - 2 * u) acos). 2: apply continuous_acos.
  apply (continuous_minus (fun _ : R => 1) (fun u => 2 * u)). apply continuous_const.
  apply (continuous_scal_r 2 (fun u : R => u)). apply continuous_id.
Qed.
Lemma smean_u : forall B L phi, sphere_fun B L phi -> smean phi = RInt (fun u => lonmean phi (ulat u)) 0 1.
Proof.
  intros B L phi SF. pose proof PI_RGT_0. pose proof (lonmean_lip _ _ _ SF) as LL.
  assert (C : forall u, continuous (fun u => lonmean phi (ulat u)) u).
  { intros. apply (continuous_comp ulat (lonmean phi)). apply ulat_continuous. eapply lip_continuous; eauto. }
  pose proof (@RInt_comp R_CompleteNormedModule (fun u => lonmean phi (ulat u)) (fun x => (1 - sin x) / 2) (fun x => - cos x / 2) (- PI / 2) (PI / 2)) as S.
  assert (D : forall x, is_derive (fun x => (1 - sin x) / 2) x (- cos x / 2)).
  { intros. auto_derive; auto. field. }
  assert (CD : forall x, continuous (fun x => - cos x / 2) x).
  { intros. apply (@ex_derive_continuous R_AbsRing R_NormedModule). auto_derive; auto. }
  specialize (S (fun x _ => C _) (fun x _ => conj (D x) (CD x))). cbv beta in S.
  replace ((1 - sin (- PI / 2)) / 2) with 1 in S. 2:{ replace (- PI / 2) with (- (PI / 2)) by field. rewrite sin_neg, sin_PI2. field. }
  replace ((1 - sin (PI / 2)) / 2) with 0 in S by (rewrite sin_PI2; field).
  rewrite <- (@opp_RInt_swap R_CompleteNormedModule (fun u => lonmean phi (ulat u)) 0 1) in S by (apply (@ex_RInt_continuous R_CompleteNormedModule); intros; apply C).
  rewrite (RInt_ext _ (fun lat => - / 2 * (cos lat * lonmean phi lat))) in S.
  - rewrite (@RInt_scal R_CompleteNormedModule (fun lat => cos lat * lonmean phi lat)) in S.
    + change (- / 2 * RInt (fun lat => cos lat * lonmean phi lat) (- PI / 2) (PI / 2) = - RInt (fun u => lonmean phi (ulat u)) 0 1) in S.
      unfold smean. lra.
    + eapply lip_ex_RInt. apply (lip_cos_mult B L). intros; eapply lonmean_bound; eauto. auto.
  - intros x Hx. rewrite Rmin_left, Rmax_right in Hx by lra.
    change (scal (- cos x / 2) (lonmean phi (ulat ((1 - sin x) / 2)))) with (- cos x / 2 * lonmean phi (ulat ((1 - sin x) / 2))).
    replace (ulat ((1 - sin x) / 2)) with x. req; field.
    unfold ulat. replace (1 - 2 * ((1 - sin x) / 2)) with (sin x) by field. rewrite <- cos_shift, acos_cos by lra. ring.
Qed.

(** ** One block of consecutive points *)
Lemma golden_lon : forall f : R -> R, (forall x, f (x + 2 * PI) = f x) -> forall i, f (spiral_lon i) = f (2 * PI * (INR i * gal)).
Proof.
  intros f H i. unfold spiral_lon, rmod. rewrite <- (per_Z f H (Int_part (2 * PI * INR i / GOLDEN_RATIO / (2 * PI)))). f_equal.
  unfold gal. unfold Rdiv. ring.
Qed.
Lemma rabs_rsum : forall A (f : A -> R) (e : R) l, (forall x, In x l -> Rabs (f x) <= e) -> Rabs (rsum (map f l)) <= INR (length l) * e.
Proof.
  induction l; intros H. simpl. rewrite Rabs_R0. lra.
  cbn [map rsum fold_right length]. rewrite S_INR. eapply Rle_trans. apply Rabs_triang.
  pose proof (H a (or_introl eq_refl)). pose proof (IHl (fun x i => H x (or_intror i))) as X. unfold rsum in X. lra.
Qed.
Lemma block : forall B L phi k s lat d (la : nat -> R), sphere_fun B L phi ->
  (forall r, (r < fib (S k))%nat -> Rabs (la r - lat) <= d) ->
  Rabs (lonmean phi lat - / INR (fib (S k)) * rsum (map (fun r => phi (la r) (spiral_lon (s + r))) (seq 0 (fib (S k)))))
   <= L * (d + 4 * PI / INR (fib (S k))).
Proof.
  intros B L phi k s lat d la SF Hla. pose proof PI_RGT_0 as PP. destruct (sf_pos _ _ _ SF) as [HB HL].
  set (q := fib (S k)) in *. set (p := fib k). pose proof (fib_pos k) as Hq. fold q in Hq.
  assert (Pq : 0 < INR q) by (apply lt_0_INR; lia).
  assert (AP : Rabs (INR q * gal - INR p) <= / INR q) by apply fib_approx.
  set (c := 2 * PI * (INR s * gal)).
  set (v := fun m : nat => phi lat (c + INR m * ((c + 2 * PI - c) / INR q))).
  (* permuted sum *)
  assert (E1 : rsum (map v (seq 0 q)) = rsum (map (fun r => phi lat (c + INR (r * p) * (2 * PI / INR q))) (seq 0 q))).
  { rewrite <- (rsum_perm _ _ (Permutation_map v (perm_mul q p ltac:(lia) (fib_gcd k)))). rewrite map_map. apply rsum_map_ext.
    intros r _. unfold v. rewrite <- (per_nat (phi lat) (sf_per _ _ _ SF lat) (r * p / q)). f_equal.
    rewrite (Nat.div_mod (r * p) q) at 3 by lia. rewrite plus_INR, mult_INR. field. lra. }
  (* Riemann sum *)
  assert (E2 : Rabs (/ INR q * rsum (map v (seq 0 q)) - lonmean phi lat) <= L * (2 * PI / INR q)).
  { pose proof (riemann_left (phi lat) c (c + 2 * PI) q L ltac:(lra) ltac:(lia) (sf_lip_lon _ _ _ lat SF)) as R.
    rewrite (per_RInt (phi lat)) in R. 2: apply (sf_per _ _ _ SF). 2: intros; eapply sf_lon_ex; eauto.
    fold v in R. change (fun j : nat => (c + 2 * PI - c) / INR q * phi lat (c + INR j * ((c + 2 * PI - c) / INR q))) with (fun j : nat => (c + 2 * PI - c) / INR q * v j) in R.
    rewrite rsum_map_scal in R. unfold lonmean. set (X := rsum (map v (seq 0 q))) in *.
    replace (/ INR q * X - / (2 * PI) * RInt (phi lat) 0 (2 * PI)) with (/ (2 * PI) * ((c + 2 * PI - c) / INR q * X - RInt (phi lat) 0 (2 * PI))) by (field; lra).
    rewrite Rabs_mult, (Rabs_right (/ (2 * PI))). 2: apply Rle_ge, Rlt_le, Rinv_0_lt_compat; lra.
    apply Rmult_le_reg_l with (2 * PI). lra. rewrite <- Rmult_assoc, Rinv_r, Rmult_1_l by lra.
    eapply Rle_trans. apply R. right. field. lra. }
  (* perturbation *)
  set (X := rsum (map (fun r => phi (la r) (spiral_lon (s + r))) (seq 0 q))).
  assert (E3 : Rabs (X - rsum (map v (seq 0 q))) <= INR q * (L * (d + 2 * PI / INR q))).
  { rewrite E1. unfold X. replace (_ - _) with (rsum (map (fun r => phi (la r) (spiral_lon (s + r)) - phi lat (c + INR (r * p) * (2 * PI / INR q))) (seq 0 q))).
    - eapply Rle_trans; [apply rabs_rsum with (e := L * (d + 2 * PI / INR q))|rewrite seq_length; lra]. intros r Hr. apply in_seq in Hr.
      rewrite (golden_lon (phi (la r)) (sf_per _ _ _ SF (la r))).
      eapply Rle_trans. apply (sf_lip _ _ _ SF). apply Rmult_le_compat_l; auto. apply Rplus_le_compat. apply Hla; lia.
      rewrite plus_INR, mult_INR. unfold c.
      replace (2 * PI * ((INR s + INR r) * gal) - (2 * PI * (INR s * gal) + INR r * INR p * (2 * PI / INR q))) with (2 * PI * (INR r / INR q) * (INR q * gal - INR p)) by (field; lra).
      rewrite Rabs_mult, Rabs_right.
      2:{ apply Rle_ge. apply Rmult_le_pos. lra. apply Rdiv_le_0_compat; auto. apply pos_INR. }
      assert (INR r / INR q <= 1). { apply Rmult_le_reg_r with (INR q); auto. unfold Rdiv. rewrite Rmult_assoc, Rinv_l, Rmult_1_r, Rmult_1_l by lra. apply le_INR. lia. }
      assert (0 <= INR r / INR q) by (apply Rdiv_le_0_compat; auto; apply pos_INR).
      replace (2 * PI / INR q) with (2 * PI * 1 * / INR q) by (field; lra).
      apply Rmult_le_compat; auto using Rabs_pos. nra. nra.
    - rewrite (rsum_map_ext _ _ (fun r => phi (la r) (spiral_lon (s + r)) + -1 * phi lat (c + INR (r * p) * (2 * PI / INR q)))) by (intros; ring).
      rewrite rsum_map_plus, (rsum_map_scal _ (fun r => phi lat (c + INR (r * p) * (2 * PI / INR q)))). ring. }
  replace (lonmean phi lat - / INR q * X) with (- ((/ INR q * rsum (map v (seq 0 q)) - lonmean phi lat) + / INR q * (X - rsum (map v (seq 0 q))))) by ring.
  rewrite Rabs_Ropp. eapply Rle_trans. apply Rabs_triang. rewrite (Rabs_mult (/ INR q)), (Rabs_right (/ INR q)). 2: apply Rle_ge, Rlt_le, Rinv_0_lt_compat; auto.
  assert (E4 : / INR q * Rabs (X - rsum (map v (seq 0 q))) <= L * (d + 2 * PI / INR q)).
  { apply Rmult_le_reg_l with (INR q); auto. rewrite <- Rmult_assoc, Rinv_r, Rmult_1_l by lra. auto. }
  replace (L * (d + 4 * PI / INR q)) with (L * (2 * PI / INR q) + L * (d + 2 * PI / INR q)) by (field; lra). lra.
Qed.

(** ** The whole grid *)
Lemma map_add_seq : forall a n s, map (fun r => a + r)%nat (seq s n) = seq (a + s) n.
Proof. induction n; intros; simpl; auto. rewrite IHn. do 2 f_equal. lia. Qed.
Lemma seq_blocks : forall q m, flat_map (fun b => map (fun r => b * q + r)%nat (seq 0 q)) (seq 0 m) = seq 0 (m * q).
Proof.
  intros q m. induction m. simpl; auto.
  rewrite seq_S, flat_map_app, IHm. cbn [flat_map Nat.add]. rewrite app_nil_r, map_add_seq.
  replace (S m * q)%nat with (m * q + q)%nat by lia. rewrite seq_app. do 2 f_equal. lia.
Qed.
Lemma spiral_lat_u : forall n i, spiral_lat n i = ulat ((INR i + 1 / 2) / INR n).
Proof. intros. unfold spiral_lat, spiral_colat, ulat. do 3 f_equal. unfold Rdiv. ring. Qed.
Lemma spiral_gsum : forall n phi, gsum (Spiral n) phi = / INR n * rsum (map (fun i => phi (spiral_lat n i) (spiral_lon i)) (seq 0 n)).
Proof.
  intros. unfold gsum. unfold cells, grid_points. cbn [arows concat]. rewrite app_nil_r, map_map. rewrite <- rsum_map_scal.
  apply rsum_map_ext. intros. cbn [rarea_at fst snd]. unfold Rdiv. ring.
Qed.
Lemma spiral_fib : forall B L phi n k, sphere_fun B L phi -> (1 <= n)%nat ->
  Rabs (gsum (Spiral n) phi - smean phi)
   <= L * (PI * sqrt (INR (fib (S k)) / INR n) + 4 * PI / INR (fib (S k))) + 2 * B * (INR (fib (S k)) / INR n).
Proof.
  intros B L phi n k SF Hn. pose proof PI_RGT_0 as PP. destruct (sf_pos _ _ _ SF) as [HB HL].
  pose proof (fib_pos k) as Hq. set (q := fib (S k)) in *.
  assert (Pq : 0 < INR q) by (apply lt_0_INR; lia). assert (Pn : 0 < INR n) by (apply lt_0_INR; lia).
  set (m := (n / q)%nat). set (r := (n mod q)%nat). assert (NE : n = (m * q + r)%nat) by (unfold m, r; rewrite (Nat.div_mod n q) at 1; lia).
  assert (Hr : (r < q)%nat) by (apply Nat.mod_upper_bound; lia).
  set (h := INR q / INR n). assert (Ph : 0 < h) by (apply Rdiv_lt_0_compat; auto).
  set (f := fun i => phi (spiral_lat n i) (spiral_lon i)).
  set (g := fun u => lonmean phi (ulat u)).
  assert (CG : forall u, continuous g u).
  { intros. apply (continuous_comp ulat (lonmean phi)). apply ulat_continuous. eapply lip_continuous. eapply lonmean_lip; eauto. }
  assert (EG : forall a b, ex_RInt g a b) by (intros; apply (@ex_RInt_continuous R_CompleteNormedModule); intros; apply CG).
  assert (GB : forall u, Rabs (g u) <= B) by (intro u; exact (lonmean_bound B L phi (ulat u) SF)).
  set (v := fun b => / INR q * rsum (map (fun i => f (b * q + i)%nat) (seq 0 q))).
  set (e := L * (PI * sqrt h + 4 * PI / INR q)).
  assert (e0 : 0 <= e). { unfold e. apply Rmult_le_pos; auto. apply Rplus_le_le_0_compat. apply Rmult_le_pos. lra. apply sqrt_pos. apply Rdiv_le_0_compat; lra. }
  assert (MH : INR m * h <= 1).
  { unfold h. replace (INR m * (INR q / INR n)) with (INR (m * q) / INR n) by (rewrite mult_INR; field; lra).
    apply Rmult_le_reg_r with (INR n); auto. unfold Rdiv. rewrite Rmult_assoc, Rinv_l, Rmult_1_r, Rmult_1_l by lra. apply le_INR. lia. }
  assert (MH' : 1 - h <= INR m * h).
  { unfold h. apply Rmult_le_reg_r with (INR n); auto. replace ((1 - INR q / INR n) * INR n) with (INR n - INR q) by (field; lra).
    replace (INR m * (INR q / INR n) * INR n) with (INR (m * q)) by (rewrite mult_INR; field; lra).
    assert (INR n <= INR (m * q) + INR q) by (rewrite <- plus_INR; apply le_INR; lia). lra. }
  pose proof (riemann_tagged g 0 h m v e (Rlt_le _ _ Ph) EG) as R.
  assert (R' : Rabs (rsum (map (fun j => h * v j) (seq 0 m)) - RInt g 0 (0 + INR m * h)) <= INR m * h * e).
  { apply R. intros b x Hb Hx. unfold g, v, e, f. 
    assert (IB : INR (b * q) / INR n = INR b * h) by (unfold h; rewrite mult_INR; field; lra).
    assert (IB' : (INR b + 1) * h <= INR m * h). { apply Rmult_le_compat_r. lra. rewrite <- S_INR. apply le_INR. lia. }
    assert (B0 : 0 <= INR b * h) by (apply Rmult_le_pos; [apply pos_INR|lra]).
    apply (block B L phi k (b * q) (ulat x) (PI * sqrt h) (fun i => spiral_lat n (b * q + i)) SF).
    intros i Hi. fold q in Hi. rewrite spiral_lat_u.
    assert (UI : INR b * h <= (INR (b * q + i) + 1 / 2) / INR n <= (INR b + 1) * h).
    { rewrite <- IB. replace ((INR b + 1) * h) with ((INR (b * q) + INR q) / INR n) by (unfold h; rewrite mult_INR; field; lra).
      assert (INR i + 1 <= INR q) by (rewrite <- S_INR; apply le_INR; lia). pose proof (pos_INR i). rewrite plus_INR.
      split; apply Rmult_le_compat_r; try (apply Rlt_le, Rinv_0_lt_compat; auto); lra. }
    eapply Rle_trans. apply ulat_mod; lra. apply Rmult_le_compat_l. lra. apply sqrt_le_1_alt. apply Rabs_le. lra. }
  rewrite Rplus_0_l in R'.
  assert (TS : gsum (Spiral n) phi = rsum (map (fun j => h * v j) (seq 0 m)) + / INR n * rsum (map f (seq (m * q) r))).
  { rewrite spiral_gsum. fold f. rewrite NE at 2. rewrite seq_app, map_app, rsum_app, Rmult_plus_distr_l. f_equal.
    rewrite <- seq_blocks, rsum_flat_map, <- rsum_map_scal. apply rsum_map_ext. intros b _. rewrite map_map. unfold v, h. field. lra. }
  assert (TL : Rabs (/ INR n * rsum (map f (seq (m * q) r))) <= h * B).
  { rewrite Rabs_mult, Rabs_right. 2: apply Rle_ge, Rlt_le, Rinv_0_lt_compat; auto.
    assert (Rabs (rsum (map f (seq (m * q) r))) <= INR q * B).
    { eapply Rle_trans. apply rabs_rsum. intros; apply (sf_bound _ _ _ SF). rewrite seq_length. apply Rmult_le_compat_r; auto. apply le_INR. lia. }
    unfold h. replace (INR q / INR n * B) with (/ INR n * (INR q * B)) by (field; lra). apply Rmult_le_compat_l; auto. apply Rlt_le, Rinv_0_lt_compat; auto. }
  rewrite (smean_u B L phi SF). fold g.
  pose proof (@RInt_Chasles R_CompleteNormedModule g 0 (INR m * h) 1 (EG _ _) (EG _ _)) as C.
  change (RInt g 0 (INR m * h) + RInt g (INR m * h) 1 = RInt g 0 1) in C.
  assert (TI : Rabs (RInt g (INR m * h) 1) <= h * B).
  { eapply Rle_trans. apply abs_RInt_le_const with (M := B); auto. apply Rmult_le_compat_r; auto. lra. }
  rewrite TS, <- C. set (X := rsum (map (fun j => h * v j) (seq 0 m))) in *. set (Y := / INR n * rsum (map f (seq (m * q) r))) in *.
  replace (X + Y - (RInt g 0 (INR m * h) + RInt g (INR m * h) 1)) with ((X - RInt g 0 (INR m * h)) + (Y + - RInt g (INR m * h) 1)) by ring.
  eapply Rle_trans. apply Rabs_triang. fold e.
  assert (INR m * h * e <= e) by (assert (0 <= INR m * h) by (apply Rmult_le_pos; [apply pos_INR|lra]); nra).
  pose proof (Rabs_triang Y (- RInt g (INR m * h) 1)) as T. rewrite Rabs_Ropp in T. lra.
Qed.
Lemma spiral_converges : forall B L phi n x, sphere_fun B L phi -> (1 <= n)%nat -> 1 <= x -> x ^ 3 <= INR n ->
  Rabs (gsum (Spiral n) phi - smean phi) <= (6 * PI * L + 4 * B) / x.
Proof.
  intros B L phi n x SF Hn Hx H3. pose proof PI_RGT_0 as PP. destruct (sf_pos _ _ _ SF) as [HB HL].
  destruct (fib_between x Hx) as [k [Q1 Q2]]. assert (Pn : 0 < INR n) by (apply lt_0_INR; lia).
  eapply Rle_trans. apply (spiral_fib B L phi n k SF Hn). set (q := INR (fib (S k))) in *.
  assert (A : q / INR n <= 2 / x ^ 2).
  { apply Rmult_le_reg_r with (INR n); auto. replace (q / INR n * INR n) with q by (field; lra).
    apply Rle_trans with (2 / x ^ 2 * x ^ 3). replace (2 / x ^ 2 * x ^ 3) with (2 * x) by (field; lra). auto.
    apply Rmult_le_compat_l; auto. apply Rdiv_le_0_compat. lra. apply pow_lt; lra. }
  assert (SQ : sqrt (q / INR n) <= 2 / x).
  { rewrite <- (sqrt_Rsqr (2 / x)). 2: apply Rdiv_le_0_compat; lra. apply sqrt_le_1_alt. eapply Rle_trans. apply A.
    unfold Rsqr. replace (2 / x * (2 / x)) with (2 * (2 / x ^ 2)) by (field; lra).
    assert (0 <= 2 / x ^ 2) by (apply Rdiv_le_0_compat; [lra|apply pow_lt; lra]). lra. }
  assert (Q : 4 * PI / q <= 4 * PI / x) by (apply Rmult_le_compat_l; [lra|]; apply Rinv_le_contravar; lra).
  assert (A' : q / INR n <= 2 / x).
  { eapply Rle_trans. apply A. apply Rmult_le_compat_l. lra. apply Rinv_le_contravar. lra. simpl. nra. }
  replace ((6 * PI * L + 4 * B) / x) with (L * (PI * (2 / x) + 4 * PI / x) + 2 * B * (2 / x)) by (field; lra).
  apply Rplus_le_compat. apply Rmult_le_compat_l; auto. apply Rplus_le_compat; auto. apply Rmult_le_compat_l; lra.
  apply Rmult_le_compat_l; lra.
Qed.
