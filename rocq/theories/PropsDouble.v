(** Properties C110-C111: the report in double precision *)
From Coq Require Import Reals ZArith Bool String List Lra Lia Permutation.
From Coquelicot Require Import Coquelicot.
From Verif Require Import Num Py MConfig MHelpers MGrid MSpots MFaculae MXoflares MFlares MGranules MStar MSingle MDouble
  Spec SpecStar SpecDisk SpecSingle SpecDouble LBase LGrid LSpotMap LSpotCov LDisk LStar LStarFac LStarCov LSingle LSingleRep LSingleEx
  LDouble LDoubleSum LDoubleRep LDoubleMain LDoubleOrd.
Import ListNotations.
Open Scope R_scope.

(** three pixels, added from left to right; the weights are the doubles next to 1/3, 1/4 and 1/5 *)
Definition ex_pixels : arr nat := mkArr false [[0; 1; 2]%nat].
Definition ex_order (n : nat) : sumtree := SNode (SNode (SLeaf 0) (SLeaf 1)) (SLeaf 2).
Definition ex_one (i : nat) : R := 1.
Definition ex_third (i : nat) : R := f64_round (/ (INR i + 3)).
Definition ex_half (i : nat) : R := match i with 0%nat => 0 | 1%nat => 1/2 | _ => 1 end.
Definition ex_two (i : nat) : R := match i with 0%nat => 2900 | _ => 3300 end.
Definition ex_tenth : R := f64_round (1/10).
Lemma ex_half_value : f64_value (1/2).
Proof. exists 1%Z, (-1)%Z. split. simpl; lia. split. lia. simpl. lra. Qed.
Lemma ex_third_range : forall i, (i < 3)%nat -> 1/8 <= ex_third i <= 1.
Proof.
  intros i I. assert (V : f64_value (1/8)). { exists 1%Z, (-3)%Z. split. simpl; lia. split. lia. simpl. lra. }
  apply rnd_range; auto. apply f64_one. destruct i as [|[|[|i]]]; try lia; simpl; lra.
Qed.
Lemma ex_weights : weights64 3 ex_one ex_third ex_half.
Proof.
  intros i I. pose proof (ex_third_range i I). split; [|split].
  - split. apply f64_one. unfold ex_one. lra.
  - split. apply f64_round_value. lra.
  - destruct i as [|[|i]]; simpl; split; try lra; auto using f64_zero, f64_one, ex_half_value.
Qed.
Lemma ex_inputs : inputs64 f64_round ex_order ex_pixels 3 2 ex_one ex_third ex_half 3300 300 ex_tenth.
Proof.
  split. reflexivity. split. { split. apply Permutation_refl. simpl. lia. }
  assert (B1 : 8 <= 2 ^ 1000). { replace 1000%nat with (3 + 997)%nat by lia. rewrite pow_add. pose proof (pow_R1_Rle 2 997 ltac:(lra)). set (z := 2 ^ 997) in *. simpl pow. lra. }
  split. { simpl INR. lra. } split. { simpl. lra. } split. exact ex_weights.
  split. { exists 0%nat. split. lia. unfold ex_one. rewrite Rmult_1_l. rewrite f64_round_id by apply f64_round_value. pose proof (ex_third_range 0 ltac:(lia)). lra. }
  split. { replace (3300 - 300) with 3000 by lra. rewrite Rabs_right by lra. pose proof p127_big. lra. }
  split; [|apply f64_round_value]. split. apply rnd_pos; lra. apply rnd_le1; lra.
Qed.
Lemma ex_3000 : f64_round (3300 - 300) = 3000 /\ f32_round 3000 = 3000.
Proof. split. replace (3300 - 300) with (IZR 3000) by lra. apply f64_round_id, f64_whole. simpl; lia. apply f32_round_id, (f32_whole 3000). simpl; lia. Qed.
Lemma ex_lab : forall z, fmt2 (Fin (IZR z)) = KCenti (100 * z).
Proof. intros z. apply (ex_label _ (100 * z) _ fmt2_two_decimals). rewrite mult_IZR. replace (_ - _) with 0 by ring. rewrite Rabs_R0. lra. Qed.
Lemma ex_not : ~ on_map 3 ex_two 3000.
Proof. intros [i [I E]]. destruct i as [|i]; simpl in E; lra. Qed.
Lemma ex_on : forall x, on_map 3 ex_two x -> x = 2900 \/ x = 3300.
Proof. intros x [i [I E]]. destruct i as [|i]; simpl in E; lra. Qed.
Lemma ex_occurs : forall label gt gs, gt = 3000 -> gs = 3000 -> occurs64 label 3 ex_two gt gs (label 3300) /\ occurs64 label 3 ex_two gt gs (label gt).
Proof. intros label gt gs -> ->. split. left. exists 3300. split; auto. exists 1%nat. split; auto. right. split; auto. apply ex_not. Qed.
Lemma ex_distinct : distinct64 (fun t => fmt2 (Fin t)) 3 ex_two 3000 3000.
Proof.
  pose proof (ex_lab 2900) as A. pose proof (ex_lab 3300) as B. pose proof (ex_lab 3000) as C. split.
  - intros x y X Y E. apply ex_on in X. apply ex_on in Y. destruct X as [-> | ->], Y as [-> | ->]; auto; rewrite A, B in E; discriminate.
  - right. intros x X. apply ex_on in X. destruct X as [-> | ->]; [rewrite A, C|rewrite B, C]; discriminate.
Qed.
Lemma ex_no_underflow : forall i, (i < 3)%nat -> no_underflow (ex_one i * ex_third i) /\ no_underflow (ex_one i * ex_third i * ex_half i).
Proof.
  intros i I. pose proof (ex_third_range i I) as H. unfold ex_one. assert (P : powerRZ 2 (-1021) <= / 16). { replace (/ 16) with (powerRZ 2 (-4)) by (simpl; lra). apply p2_le. lia. }
  split. right. lra. destruct i as [|[|i]]; simpl ex_half. left; lra. right; lra. right; lra.
Qed.

(** C110 *)
Theorem C110_rounding :
  exists rnd, double_rounding rnd /\ (forall rnd', double_rounding rnd' -> rnd' = rnd)
  /\ (forall x y, x <= y -> rnd x <= rnd y)
  /\ (forall z, (Z.abs z <= 2 ^ 53)%Z -> rnd (IZR z) = IZR z)
  /\ (forall x, powerRZ 2 (-1022) <= Rabs x -> Rabs (rnd x - x) <= Rabs x / 2 ^ 53)
  /\ (forall x, Rabs x <= powerRZ 2 1023 -> f64 (Fin x) = Fin (rnd x)).
Proof. exact C110_rounding_lemma. Qed.
Print Assumptions C110_rounding.
Theorem C110_entries :
  forall label rnd single ord P n h l p c t T D g,
  two_decimals label -> double_rounding rnd -> single_rounding single -> inputs64 rnd ord P n h l p c T D g ->
  (forall i, (i < n)%nat -> no_underflow (l i * p i) /\ no_underflow (l i * p i * c i)) ->
  let gt := rnd (T - D) in let gs := single gt in let w := fun i => l i * p i in
  let r := report64 ord (pixels P t) (pixels P l) (pixels P p) (pixels P c) (Fin T) (Fin D) (Fin g) in
  (occurs64 label n t gt gs (label T) -> occurs64 label n t gt gs (label gt) ->
     exists tot cov, r = Ok (tot, cov) /\ reports64 label n w w t T gt gs g (h + 6) tot /\ reports64 label n w (fun i => w i * c i) t T gt gs g (h + 6) cov)
  /\ (~ (occurs64 label n t gt gs (label T) /\ occurs64 label n t gt gs (label gt)) -> r = Raise KeyError).
Proof. exact C110_lemma. Qed.
Print Assumptions C110_entries.
Theorem C110_normalised :
  forall label rnd single ord P n h l p c t T D g tot cov,
  two_decimals label -> double_rounding rnd -> single_rounding single -> inputs64 rnd ord P n h l p c T D g ->
  distinct64 label n t (rnd (T - D)) (single (rnd (T - D))) ->
  report64 ord (pixels P t) (pixels P l) (pixels P p) (pixels P c) (Fin T) (Fin D) (Fin g) = Ok (tot, cov) ->
  (forall k y, In (k, y) tot -> exists r, y = Fin r /\ 0 <= r) /\ Rabs (dict_sum tot - 1) <= (INR h + 5) / 2^51.
Proof. exact C110_normalised_lemma. Qed.
Print Assumptions C110_normalised.
Theorem C110_weights :
  forall rnd ord P n u1 u2 mu jac c t T D g, double_rounding rnd -> cells P = seq 0 n -> view64 n u1 u2 mu jac c ->
  exists l p, weights64 n l p c
  /\ coverage64 ord (Fin u1) (Fin u2) (pixels P mu) (pixels P jac) (pixels P t) (pixels P c) (Fin T) (Fin D) (Fin g)
     = report64 ord (pixels P t) (pixels P l) (pixels P p) (pixels P c) (Fin T) (Fin D) (Fin g)
  /\ forall i, (i < n)%nat -> (mu i < 0 -> l i = 0) /\ (mu i <= 0 -> p i = 0) /\ (0 < mu i -> p i = rnd (jac i * mu i))
       /\ (0 <= mu i -> u1 = 0 -> u2 = 0 -> l i = 1)
       /\ (0 <= mu i -> l i = rnd (rnd (1 - rnd (u1 * rnd (1 - mu i))) - rnd (u2 * rnd (rnd (1 - mu i) * rnd (1 - mu i))))).
Proof. exact C110_weights_lemma. Qed.
Print Assumptions C110_weights.
Example C110_nonvacuous : exists label rnd single tot cov, two_decimals label /\ double_rounding rnd /\ single_rounding single
  /\ inputs64 rnd ex_order ex_pixels 3 2 ex_one ex_third ex_half 3300 300 ex_tenth
  /\ (forall i, (i < 3)%nat -> no_underflow (ex_one i * ex_third i) /\ no_underflow (ex_one i * ex_third i * ex_half i))
  /\ occurs64 label 3 ex_two (rnd (3300 - 300)) (single (rnd (3300 - 300))) (label 3300)
  /\ occurs64 label 3 ex_two (rnd (3300 - 300)) (single (rnd (3300 - 300))) (label (rnd (3300 - 300)))
  /\ distinct64 label 3 ex_two (rnd (3300 - 300)) (single (rnd (3300 - 300)))
  /\ report64 ex_order (pixels ex_pixels ex_two) (pixels ex_pixels ex_one) (pixels ex_pixels ex_third) (pixels ex_pixels ex_half) (Fin 3300) (Fin 300) (Fin ex_tenth) = Ok (tot, cov).
Proof.
  exists (fun t => fmt2 (Fin t)), f64_round, f32_round. pose proof fmt2_two_decimals as TD. pose proof f32_round_nearest as SR. pose proof f64_round_nearest as DR.
  destruct (ex_occurs (fun t => fmt2 (Fin t)) (f64_round (3300 - 300)) (f32_round (f64_round (3300 - 300)))) as [O1 O2]. apply ex_3000. rewrite (proj1 ex_3000). apply ex_3000.
  destruct (proj1 (C110_lemma _ _ _ ex_order ex_pixels 3 2 ex_one ex_third ex_half ex_two 3300 300 ex_tenth TD DR SR ex_inputs ex_no_underflow) O1 O2) as [tot [cov [E _]]].
  exists tot, cov. split. auto. split. auto. split. auto. split. exact ex_inputs. split. exact ex_no_underflow. split. auto. split. auto. split; auto.
  rewrite (proj1 ex_3000), (proj2 ex_3000). exact ex_distinct.
Qed.
(** limb darkening 1/2, 1/4, on the three pixels *)
Example C110_weights_nonvacuous : cells ex_pixels = seq 0 3 /\ view64 3 (1/2) (1/4) (fun i => match i with 0%nat => -1 | _ => ex_third i end) (fun _ => 1/4) ex_half.
Proof.
  assert (V : f64_value (1/4)). { exists 1%Z, (-2)%Z. split. simpl; lia. split. lia. simpl. lra. }
  split. reflexivity. split. apply ex_half_value. split. auto. split. lra. split. lra. split. lra. intros i I. split; [|split].
  - destruct i as [|i]. split. apply (f64_int (-1)); lia. lra. split. apply f64_round_value. pose proof (ex_third_range (S i) I). lra.
  - split. auto. lra.
  - apply (ex_weights i I).
Qed.

(** C111 *)
Theorem C111_order :
  forall rnd ord P n h l p c c' t T D g tot cov tot' cov',
  double_rounding rnd -> inputs64 rnd ord P n h l p c T D g -> inputs64 rnd ord P n h l p c' T D g -> (forall i, (i < n)%nat -> c i <= c' i) ->
  report64 ord (pixels P t) (pixels P l) (pixels P p) (pixels P c) (Fin T) (Fin D) (Fin g) = Ok (tot, cov) ->
  report64 ord (pixels P t) (pixels P l) (pixels P p) (pixels P c') (Fin T) (Fin D) (Fin g) = Ok (tot', cov') ->
  at_most cov cov' /\ at_most cov' tot /\ tot' = tot
  /\ ((forall i, (i < n)%nat -> c' i = 1) -> cov' = tot) /\ ((forall i, (i < n)%nat -> c i = 0) -> forall k y, In (k, y) cov -> y = Fin 0).
Proof. exact C111_lemma. Qed.
Print Assumptions C111_order.
Theorem C111_bound :
  forall label rnd single ord P n h l p c t T D g tot cov,
  two_decimals label -> double_rounding rnd -> single_rounding single -> inputs64 rnd ord P n h l p c T D g ->
  report64 ord (pixels P t) (pixels P l) (pixels P p) (pixels P c) (Fin T) (Fin D) (Fin g) = Ok (tot, cov) ->
  let gt := rnd (T - D) in
  forall k y, In (k, y) tot -> exists r, y = Fin r /\ f64_value r /\ 0 <= r <= 2
    /\ (k <> label gt \/ (~ on_map n t (single gt) /\ label T <> label gt) -> r <= 1).
Proof. exact C111_bound_lemma. Qed.
Print Assumptions C111_bound.
Theorem C111_uniform :
  forall label rnd single ord P n h l p c t T D g,
  two_decimals label -> double_rounding rnd -> single_rounding single -> inputs64 rnd ord P n h l p c T D g -> (forall i, (i < n)%nat -> t i = T) ->
  single (rnd (T - D)) <> T -> label (rnd (T - D)) <> label T ->
  exists cov, report64 ord (pixels P t) (pixels P l) (pixels P p) (pixels P c) (Fin T) (Fin D) (Fin g)
    = Ok ([(label T, Fin (rnd (1 - g))); (label (rnd (T - D)), Fin g)], cov).
Proof. exact C111_uniform_lemma. Qed.
Print Assumptions C111_uniform.
(** the planet hides the second pixel half and the third, or only a quarter of the second *)
Definition ex_quarter (i : nat) : R := match i with 1%nat => 1/4 | _ => 0 end.
Lemma ex_inputs2 : inputs64 f64_round ex_order ex_pixels 3 2 ex_one ex_third ex_quarter 3300 300 ex_tenth.
Proof.
  destruct ex_inputs as [A [B [C [D [E [F G]]]]]]. split; auto. split; auto. split; auto. split; auto. split; auto.
  intros i I. destruct (E i I) as [E1 [E2 _]]. split; auto. split; auto. assert (V : f64_value (1/4)). { exists 1%Z, (-2)%Z. split. simpl; lia. split. lia. simpl. lra. }
  destruct i as [|[|i]]; simpl; split; try lra; auto using f64_zero.
Qed.
Example C111_nonvacuous : exists rnd tot cov tot' cov', double_rounding rnd
  /\ inputs64 rnd ex_order ex_pixels 3 2 ex_one ex_third ex_quarter 3300 300 ex_tenth /\ inputs64 rnd ex_order ex_pixels 3 2 ex_one ex_third ex_half 3300 300 ex_tenth
  /\ (forall i, (i < 3)%nat -> ex_quarter i <= ex_half i)
  /\ report64 ex_order (pixels ex_pixels ex_two) (pixels ex_pixels ex_one) (pixels ex_pixels ex_third) (pixels ex_pixels ex_quarter) (Fin 3300) (Fin 300) (Fin ex_tenth) = Ok (tot, cov)
  /\ report64 ex_order (pixels ex_pixels ex_two) (pixels ex_pixels ex_one) (pixels ex_pixels ex_third) (pixels ex_pixels ex_half) (Fin 3300) (Fin 300) (Fin ex_tenth) = Ok (tot', cov').
Proof.
  exists f64_round. pose proof fmt2_two_decimals as TD. pose proof f32_round_nearest as SR. pose proof f64_round_nearest as DR.
  destruct (ex_occurs (fun t => fmt2 (Fin t)) (f64_round (3300 - 300)) (f32_round (f64_round (3300 - 300)))) as [O1 O2]. apply ex_3000. rewrite (proj1 ex_3000). apply ex_3000.
  destruct (proj1 (C110_lemma _ _ _ ex_order ex_pixels 3 2 ex_one ex_third ex_half ex_two 3300 300 ex_tenth TD DR SR ex_inputs ex_no_underflow) O1 O2) as [tot' [cov' [E' _]]].
  assert (NU : forall i, (i < 3)%nat -> no_underflow (ex_one i * ex_third i) /\ no_underflow (ex_one i * ex_third i * ex_quarter i)).
  { intros i I. pose proof (ex_third_range i I) as H. unfold ex_one. assert (P : powerRZ 2 (-1021) <= / 32). { replace (/ 32) with (powerRZ 2 (-5)) by (simpl; lra). apply p2_le. lia. }
    split. right. lra. destruct i as [|[|i]]; simpl ex_quarter. left; lra. right; lra. left; lra. }
  destruct (proj1 (C110_lemma _ _ _ ex_order ex_pixels 3 2 ex_one ex_third ex_quarter ex_two 3300 300 ex_tenth TD DR SR ex_inputs2 NU) O1 O2) as [tot [cov [E _]]].
  exists tot, cov, tot', cov'. split. auto. split. exact ex_inputs2. split. exact ex_inputs. split; auto. intros i I. destruct i as [|[|i]]; simpl; lra.
Qed.
Example C111_uniform_nonvacuous : exists label rnd single, two_decimals label /\ double_rounding rnd /\ single_rounding single
  /\ inputs64 rnd ex_order ex_pixels 3 2 ex_one ex_third ex_half 3300 300 ex_tenth /\ (forall i, (i < 3)%nat -> (fun _ => 3300) i = 3300)
  /\ single (rnd (3300 - 300)) <> 3300 /\ label (rnd (3300 - 300)) <> label 3300.
Proof.
  exists (fun t => fmt2 (Fin t)), f64_round, f32_round. split. exact fmt2_two_decimals. split. exact f64_round_nearest. split. exact f32_round_nearest. split. exact ex_inputs. split. auto.
  rewrite (proj1 ex_3000), (proj2 ex_3000). split. lra. pose proof (ex_lab 3000) as A. pose proof (ex_lab 3300) as B. rewrite A, B. discriminate.
Qed.
