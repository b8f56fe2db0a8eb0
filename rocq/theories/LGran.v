(** Lemmas for C47, C48: granulation *)
From Coq Require Import Reals ZArith Bool String List Lra Lia.
From Coquelicot Require Import Coquelicot.
From Verif Require Import Num Py MConfig MHelpers MGrid MSpots MFaculae MXoflares MFlares MGranules MStar Spec LBase LCirc LFac.
Import ListNotations.
Open Scope R_scope.

Lemma save_cast1_range : forall c, c <> NaN -> num_in 0 1 (save_cast1 c).
Proof.
  intros. unfold save_cast1. destruct c; try congruence; unfold num_in.
  - destruct (nlt (Fin r) (Fin 0)) eqn:E; unfold ngt.
    + exists 0. split; [|lra]. unfold nlt. rcase; auto; lra.
    + unfold nlt in E. rb. unfold nlt. rcase. exists 1; split; auto; lra. exists r; split; auto; lra.
  - exists 1. split; auto; lra.
  - exists 0. split; [|lra]. cbn [nlt ngt]. unfold ngt, nlt. rcase; auto; lra.
Qed.
Lemma save_cast1_id : forall r, 0 <= r <= 1 -> save_cast1 (Fin r) = Fin r.
Proof. intros. unfold save_cast1, ngt, nlt. rcase; try lra. auto. Qed.
Lemma save_cast1_nan : save_cast1 NaN = NaN.
Proof. reflexivity. Qed.
Lemma save_cast1_clamped : forall x, clamped x (save_cast1 x).
Proof.
  destruct x; simpl; auto.
  - split; [|split]; intros; unfold save_cast1, ngt, nlt; rcase; try lra; auto.
  - unfold save_cast1, ngt, nlt. rcase; try lra; auto.
Qed.
Lemma C47_cast_lemma : forall l,
  length (save_cast_coverage l) = length l /\
  (forall i, (i < length l)%nat -> clamped (nth i l NaN) (nth i (save_cast_coverage l) NaN)) /\
  (forall i, (i < length l)%nat -> nth i l NaN <> NaN -> num_in 0 1 (nth i (save_cast_coverage l) NaN)) /\
  save_cast_coverage (save_cast_coverage l) = save_cast_coverage l.
Proof.
  intros. unfold save_cast_coverage.
  assert (K : forall i, nth i (map save_cast1 l) NaN = save_cast1 (nth i l NaN)) by (intros; apply (map_nth save_cast1 l NaN)).
  split. apply map_length. split; [|split].
  - intros. rewrite K. apply save_cast1_clamped.
  - intros. rewrite K. apply save_cast1_range; auto.
  - rewrite map_map. apply map_ext. intros. destruct a; try apply save_cast1_nan;
      match goal with |- save_cast1 (save_cast1 ?c) = _ => destruct (save_cast1_range c ltac:(congruence)) as [? [-> B]]; apply save_cast1_id; auto end.
Qed.
Lemma C47_star_lemma : forall s mean amp per dt n sample, st_gran s = gran_init mean amp per dt ->
  (neq dt (Fin 0) = true -> star_granulation s n sample = Ok (repeat (Fin 0) n)) /\
  (neq dt (Fin 0) = false -> neq mean (Fin 0) = true -> star_granulation s n sample = Raise KeyError) /\
  (neq dt (Fin 0) = false -> neq mean (Fin 0) = false ->
     exists l, star_granulation s n sample = Ok l /\ length l = n /\
       (forall c, In c l -> num_in 0 1 c) /\
       (forall i, (i < n)%nat -> sample i = NaN -> nth i l NaN = Fin 0) /\
       (forall i, (i < n)%nat -> sample i <> NaN -> clamped (sample i) (nth i l NaN))).
Proof.
  intros. unfold star_granulation. rewrite H. cbn [gr_dteff gran_init gr_params].
  split; [|split]; intros; rewrite ?H0; auto.
  - cbn [dindex String.eqb Ascii.eqb Bool.eqb]. cbv [dindex dget]. cbn [String.eqb Ascii.eqb Bool.eqb bind]. rewrite H1.
    cbn [String.eqb Ascii.eqb Bool.eqb bind]. reflexivity.
  - cbv [dindex dget]. cbn [String.eqb Ascii.eqb Bool.eqb bind]. rewrite H1. cbn [bind].
    eexists. split; [reflexivity|]. unfold gran_get_coverage, save_cast_coverage. rewrite !map_map.
    split. rewrite map_length, seq_length; auto.
    assert (R : forall x, num_in 0 1 (if nisnan (save_cast1 x) then Fin 0 else save_cast1 x)).
    { intros. destruct (nisnan x) eqn:E.
      - destruct x; try discriminate. exists 0. split; auto; lra.
      - destruct (save_cast1_range x) as [r [Er B]]. intros ->; discriminate. rewrite Er. cbn [nisnan]. exists r; auto. }
    split; [|split].
    + intros c I. apply in_map_iff in I. destruct I as [i [<- _]]. apply R.
    + intros i L E. rewrite (LGrid.nth_map_seq _ _ n i NaN L). rewrite E. reflexivity.
    + intros i L E. rewrite (LGrid.nth_map_seq _ _ n i NaN L).
      destruct (save_cast1_range (sample i) E) as [r [Er B]].
      replace (if nisnan (save_cast1 (sample i)) then Fin 0 else save_cast1 (sample i)) with (save_cast1 (sample i)) by (rewrite Er; auto).
      apply save_cast1_clamped.
Qed.

(** ** C48 *)
Lemma sqrt2_pos : 0 < sqrt 2.
Proof. apply sqrt_lt_R0; lra. Qed.
Lemma cos_shift : forall x, cos (x - PI / 4) = (cos x + sin x) / sqrt 2.
Proof. intros. rewrite cos_minus, cos_PI4, sin_PI4. field. pose proof sqrt2_pos; lra. Qed.
Lemma damp_bound : forall x, 0 <= x -> Rabs (exp (- x) * (cos x + sin x)) <= 1.
Proof.
  intros. assert (A : Rabs (cos x + sin x) <= exp x).
  { pose proof (exp_pos x). apply Rabs_le. 
    assert (S : (cos x + sin x)^2 <= (exp x)^2).
    { replace ((exp x)^2) with (exp (2 * x)) by (replace (2 * x) with (x + x) by ring; rewrite exp_plus; ring).
      replace ((cos x + sin x)^2) with (1 + sin (2 * x)).
      2:{ rewrite sin_2a. pose proof (sin2_cos2 x) as P. unfold Rsqr in P. rewrite <- P. ring. }
      assert (sin (2 * x) <= 2 * x). { destruct (Req_dec x 0) as [->|]. rewrite Rmult_0_r, sin_0; lra. left. apply sin_lt_x. lra. }
      pose proof (exp_ineq1_le (2 * x)). lra. }
    split; nra. }
  rewrite Rabs_mult, (Rabs_right (exp (- x))) by (left; apply exp_pos).
  rewrite exp_Ropp. pose proof (exp_pos x). rewrite Rmult_comm. fold (Rabs (cos x + sin x) / exp x). apply div_le; lra.
Qed.
Lemma kterm_eq : forall s f tau, kernel_term s f tau
  = s * f / sqrt 2 * (exp (- (f * tau / sqrt 2)) * (cos (f * tau / sqrt 2) + sin (f * tau / sqrt 2))).
Proof.
  intros. unfold kernel_term. rewrite cos_shift. replace (- f * tau / sqrt 2) with (- (f * tau / sqrt 2)).
  field. pose proof sqrt2_pos; lra. field. pose proof sqrt2_pos; lra.
Qed.
Lemma kterm_bound : forall s per tau, 0 <= s -> 0 < per -> 0 <= tau ->
  Rabs (kernel_term s (1 / per) tau) <= s * (1 / per) / sqrt 2.
Proof.
  intros. rewrite kterm_eq. pose proof sqrt2_pos. assert (0 < 1 / per) by (apply Rdiv_lt_0_compat; lra).
  assert (0 <= s * (1 / per) / sqrt 2). { apply le_div; auto. rewrite Rmult_0_l. apply Rmult_le_pos; lra. }
  assert (0 <= 1 / per * tau / sqrt 2). { apply le_div; auto. rewrite Rmult_0_l. apply Rmult_le_pos; lra. }
  rewrite Rabs_mult, (Rabs_right (s * (1 / per) / sqrt 2)) by lra.
  pose proof (damp_bound _ H5). rewrite <- (Rmult_1_r (s * (1 / per) / sqrt 2)) at 2. apply Rmult_le_compat_l; auto.
Qed.
Lemma rsum_abs_le : forall A (f g : A -> R) l, (forall x, In x l -> Rabs (f x) <= g x) ->
  Rabs (rsum (map f l)) <= rsum (map g l).
Proof.
  induction l; intros. cbn. rewrite Rabs_R0. lra. cbn [map rsum fold_right].
  eapply Rle_trans. apply Rabs_triang. apply Rplus_le_compat. apply H; left; auto. apply IHl. intros; apply H; right; auto.
Qed.
Lemma exp_neg_bound : forall x, 0 < x -> exp (- x) <= 1 / x.
Proof.
  intros. rewrite exp_Ropp. pose proof (exp_ineq1_le x). unfold Rdiv. rewrite Rmult_1_l. apply Rinv_le_contravar; lra.
Qed.
Lemma kterm_decay : forall s per tau, 0 <= s -> 0 < per -> 0 < tau ->
  Rabs (kernel_term s (1 / per) tau) <= 2 * s / tau.
Proof.
  intros. rewrite kterm_eq. pose proof sqrt2_pos. set (q := sqrt 2) in *.
  assert (0 < 1 / per) by (apply Rdiv_lt_0_compat; lra).
  set (x := 1 / per * tau / q). assert (X : 0 < x). { unfold x. apply lt_div; auto. rewrite Rmult_0_l. apply Rmult_lt_0_compat; auto. }
  rewrite !Rabs_mult. rewrite (Rabs_right (s * (1 / per) / q)).
  2:{ apply Rle_ge, le_div; auto. rewrite Rmult_0_l. apply Rmult_le_pos; lra. }
  rewrite (Rabs_right (exp (- x))) by (left; apply exp_pos).
  assert (Rabs (cos x + sin x) <= 2). { eapply Rle_trans. apply Rabs_triang. pose proof (COS_bound x). pose proof (SIN_bound x).
    assert (Rabs (cos x) <= 1) by (apply Rabs_le; lra). assert (Rabs (sin x) <= 1) by (apply Rabs_le; lra). lra. }
  pose proof (exp_neg_bound x X). pose proof (exp_pos (- x)). pose proof (Rabs_pos (cos x + sin x)).
  assert (exp (- x) * Rabs (cos x + sin x) <= 1 / x * 2). { apply Rmult_le_compat; lra. }
  apply Rle_trans with (s * (1 / per) / q * (1 / x * 2)).
  - apply Rmult_le_compat_l; auto. apply le_div; auto. rewrite Rmult_0_l. apply Rmult_le_pos; lra.
  - right. unfold x. field. repeat split; lra.
Qed.
Lemma C48_lemma : forall comps, (forall p, In p comps -> 0 <= fst p /\ 0 < snd p) ->
  (forall a b, kernel_eval comps a b = kernel_eval comps b a) /\
  (forall a b h, kernel_eval comps (a + h) (b + h) = kernel_eval comps a b) /\
  (forall a, kernel_eval comps a a = rsum (map (fun p => fst p / snd p) comps) / sqrt 2) /\
  (forall a b, Rabs (kernel_eval comps a b) <= kernel_eval comps a a) /\
  (forall a, is_lim (fun h => kernel_eval comps (a + h) a) p_infty 0).
Proof.
  intros comps Hc. pose proof sqrt2_pos as Q.
  assert (D : forall a, kernel_eval comps a a = rsum (map (fun p => fst p / snd p) comps) / sqrt 2).
  { intros. unfold kernel_eval. clear Hc. induction comps as [|p l]; cbn [map rsum fold_right]. field; lra.
    unfold rsum in IHl. rewrite IHl. rewrite Rminus_diag_eq, Rabs_R0 by auto. rewrite kterm_eq.
    replace (1 / snd p * 0 / sqrt 2) with 0 by (unfold Rdiv; ring). rewrite Ropp_0, exp_0, cos_0, sin_0. unfold Rdiv. ring. }
  repeat split; intros.
  - unfold kernel_eval. rewrite Rabs_minus_sym. auto.
  - unfold kernel_eval. replace (a + h - (b + h)) with (a - b) by ring. auto.
  - apply D.
  - rewrite D. unfold kernel_eval. eapply Rle_trans.
    + apply rsum_abs_le with (g := fun p => fst p * (1 / snd p) / sqrt 2). intros p I. destruct (Hc p I).
      apply kterm_bound; auto. apply Rabs_pos.
    + right. clear. induction comps; cbn [map rsum fold_right]. unfold Rdiv; ring. unfold rsum in IHcomps. rewrite IHcomps. unfold Rdiv; ring.
  - set (S := rsum (map (fun p : R * R => 2 * fst p) comps)).
    assert (B : forall h, 0 < h -> Rabs (kernel_eval comps (a + h) a) <= S / h).
    { intros. unfold kernel_eval, S. replace (a + h - a) with h by ring. rewrite (Rabs_right h) by lra.
      eapply Rle_trans. apply rsum_abs_le with (g := fun p => 2 * fst p / h). intros p I. destruct (Hc p I). apply kterm_decay; auto.
      right. clear. induction comps; cbn [map rsum fold_right]. unfold Rdiv; ring. unfold rsum in IHcomps. rewrite IHcomps. unfold Rdiv; ring. }
    apply is_lim_le_le_loc with (f := fun h => - (S * / h)) (g := fun h => S * / h).
    + exists 0. intros h Hh. specialize (B h Hh). apply Rabs_le_between in B. exact B.
    + replace (Finite 0) with (Rbar_opp (Rbar_mult S 0)) by (simpl; f_equal; ring).
      apply is_lim_opp. apply is_lim_scal_l. apply (is_lim_inv (fun h => h) p_infty p_infty). apply is_lim_id. discriminate.
    + replace (Finite 0) with (Rbar_mult S 0) by (simpl; f_equal; ring).
      apply is_lim_scal_l. apply (is_lim_inv (fun h => h) p_infty p_infty). apply is_lim_id. discriminate.
Qed.
