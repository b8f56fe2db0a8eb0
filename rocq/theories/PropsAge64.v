(** Property C130: ageing faculae in double precision *)
From Coq Require Import Reals ZArith Bool String List Lra Lia.
From Verif Require Import Num Py MConfig MHelpers MGrid MSpots MFaculae MXoflares MFlares MGranules MStar MSingle MDouble MAge64
  Spec SpecStar SpecDisk SpecSingle SpecDouble SpecAge64 LBase LGrid LFac LSingle LDouble LDoubleSum LAge64 PropsFac.
Import ListNotations.
Open Scope R_scope.

(** C130 *)
Theorem C130_law :
  forall ex lg f r rm L ts,
  accurate_exp ex -> accurate_log lg -> fac_state f r rm L -> sane64 r -> sane64 rm -> sane64 L -> r <= rm -> (forall t, In t ts -> time64 t) ->
  INR (length ts) <= 1000000000000 -> 2 * rsum ts / L <= 250 ->
  exists r' b re, fac_aged f (aged64 ex lg f ts) r' b /\ fc_radius (aged_exactly f ts) = Fin re /\ 0 < re
    /\ (fc_growing f = true ->
          let peak := time_to_peak r rm L in let e := drift64 (length ts) (2 * rsum ts / L) (ln (rm / r)) in
          re = rm * exp (- 2 * Rabs (rsum ts - peak) / L) /\ Rabs (r' - re) <= e * re
          /\ (b = true -> rsum ts <= peak + e * L) /\ (b = false -> peak - e * L <= rsum ts))
    /\ (fc_growing f = false ->
          re = r * exp (- 2 * rsum ts / L) /\ Rabs (r' - re) <= drift64 (length ts) (2 * rsum ts / L) 0 * re /\ b = false).
Proof. exact C130_law_lemma. Qed.
Print Assumptions C130_law.
Theorem C130_bounds :
  forall ex lg f r rm L ts,
  accurate_exp ex -> accurate_log lg -> fac_state f r rm L -> sane64 r -> sane64 rm -> sane64 L -> r <= rm -> (forall t, In t ts -> time64 t) ->
  exists r' b, fac_aged f (aged64 ex lg f ts) r' b /\ 0 <= r' <= rm * (1 + / 1000000000000) /\ (b = true -> r <= r')
    /\ forall t, time64 t -> exists r'' b', fac_aged f (aged64 ex lg f (ts ++ [t])) r'' b'
         /\ (b = false -> b' = false /\ r'' <= r') /\ (b' = true -> r' <= r'').
Proof. exact C130_bounds_lemma. Qed.
Print Assumptions C130_bounds.
Theorem C130_slicing :
  forall ex lg f r rm L ts ts',
  accurate_exp ex -> accurate_log lg -> fac_state f r rm L -> sane64 r -> sane64 rm -> sane64 L -> r <= rm ->
  (forall t, In t (ts ++ ts') -> time64 t) -> rsum ts = rsum ts' ->
  INR (length ts) <= 1000000000000 -> INR (length ts') <= 1000000000000 -> 2 * rsum ts / L <= 250 ->
  exists r1 r2, fc_radius (aged64 ex lg f ts) = Fin r1 /\ fc_radius (aged64 ex lg f ts') = Fin r2
    /\ Rabs (r1 - r2) <= 3 * drift64 (length ts + length ts') (2 * rsum ts / L) (ln (rm / r)) * Rmin r1 r2.
Proof. exact C130_slicing_lemma. Qed.
Print Assumptions C130_slicing.
(** exact functions are accurate; so are some that are a little off *)
Lemma ex_exp : accurate_exp (fun x => if Rlt_dec x (-1) then exp x * (1 + / 2251799813685248) else exp x).
Proof.
  intros x. pose proof (exp_pos x). destruct (Rlt_dec x (-1)) as [K|K].
  - split; [|split; intros; [|lra]]. rewrite Rabs_right; lra.
    pose proof (exp_increasing x (-1) K) as M. replace (exp (-1)) with (/ exp 1) in M by (rewrite <- exp_Ropp; f_equal; lra). pose proof (exp_ineq1_le 1).
    assert (/ exp 1 <= / 2) by (apply Rinv_le_contravar; lra). lra.
  - split; [|split; intros].
    + rewrite (Rminus_diag_eq _ _ eq_refl), Rabs_R0. lra.
    + rewrite <- exp_0. destruct H0 as [H0| ->]; [left; apply exp_increasing; auto|lra].
    + rewrite <- exp_0. destruct H0 as [H0| <-]; [left; apply exp_increasing; auto|lra].
Qed.
Lemma ex_log : accurate_log (fun x => ln x * (1 - / 2251799813685248)).
Proof.
  intros x H. replace (ln x * (1 - / 2251799813685248) - ln x) with (- (ln x * / 2251799813685248)) by ring.
  rewrite Rabs_Ropp, Rabs_mult, (Rabs_right (/ _)); lra.
Qed.
Lemma ex_sane : forall z, (1 <= z <= 1000)%Z -> sane64 (IZR z).
Proof.
  intros z H. split. apply f64_whole. lia. destruct H as [A B]. apply IZR_le in A. apply IZR_le in B.
  pose proof (p2_le (-300) 0 ltac:(lia)) as P. pose proof (p2_le 10 300 ltac:(lia)) as Q. simpl (powerRZ 2 0) in P. rewrite (p2_Z 10) in Q by lia. change (2 ^ 10)%Z with 1024%Z in Q. lra.
Qed.
Lemma ex_time : forall z, (0 <= z <= 1000)%Z -> time64 (IZR z).
Proof.
  intros z [A B]. split. apply f64_whole. lia. apply IZR_le in A. apply IZR_le in B.
  pose proof (p2_le 10 300 ltac:(lia)) as Q. rewrite (p2_Z 10) in Q by lia. change (2 ^ 10)%Z with 1024%Z in Q. lra.
Qed.
(** a growing facula that turns after 3 ln 2 = 2.08 h; and the same one shrinking *)
Example C130_law_nonvacuous : forall g, fac_state (ex_fac 50 g) 50 100 6 /\ sane64 50 /\ sane64 100 /\ sane64 6
  /\ (forall t, In t ([1; 2; 7; 0] ++ [10]) -> time64 t) /\ INR (length [1; 2; 7; 0]) <= 1000000000000
  /\ 2 * rsum [1; 2; 7; 0] / 6 <= 250 /\ rsum [1; 2; 7; 0] = rsum [10] /\ time_to_peak 50 100 6 < 3
  /\ drift64 4 (20/6) (ln (100/50)) <= / 1000000000000.
Proof.
  intros g. split. repeat split. split. apply (ex_sane 50); lia. split. apply (ex_sane 100); lia. split. apply (ex_sane 6); lia.
  split. { intros t [<-|[<-|[<-|[<-|[<-|[]]]]]]; [apply (ex_time 1)|apply (ex_time 2)|apply (ex_time 7)|apply (ex_time 0)|apply (ex_time 10)]; lia. }
  split. simpl; lra. split. simpl; lra. split. simpl; lra. unfold time_to_peak, drift64. replace (100/50) with 2 by lra. pose proof ln2_hi. split. lra. simpl; lra.
Qed.
