(** Property C134: which spots a collection keeps, in double precision *)
From Coq Require Import Reals ZArith Bool String List Lra Lia.
From Verif Require Import Num Py MConfig MHelpers MGrid MSpots MFaculae MXoflares MFlares MGranules MStar MSingle MDouble MAge64 MSpotClean64
  Spec SpecStar SpecDisk SpecSingle SpecDouble SpecAge64 SpecSpot64 SpecSpotClean64 LBase LGrid LSpotAge LSingle LDouble LDoubleSum LAge64 LSpot64 LClean64 LSpotClean64
  PropsSpots PropsFac PropsAge64 PropsSpot64.
Import ListNotations.
Open Scope R_scope.

(** C134 *)
@THM C134_kept C134_lemma
(** a growing spot and one that does not grow: after 3 days both are there, after 31 days only the first, after 100 days none *)
Example C134_kept_nonvacuous : let ts := [1; 2; 28] in
  sane_spot ex_spot 100 500 (1/2) 10 /\ sane_spot ex_old 300 500 (1/2) 10 /\ (forall t, In t ts -> time64 t) /\ INR (length ts) <= 1000000000000
  /\ sp_growing ex_spot = true /\ sp_growing ex_old = false
  /\ (let tau := ln (1 + 1/2) in spot_drift64 (length ts) (ln (500 / 100)) tau * (500 + 10 / tau) < 500 - 10 * (rsum ts - time_to_max 100 500 (1/2)))
  /\ 300 - 10 * rsum ts <= - (INR (length ts) / 1000000000000000 * 500)
  /\ (let tau := ln (1 + 1/2) in 500 - 10 * (100 - time_to_max 100 500 (1/2)) <= - (spot_drift64 (length [100]) (ln (500 / 100)) tau * (500 + 10 / tau)))
  /\ INR (length [1; 2]) / 1000000000000000 * 500 < 300 - 10 * rsum [1; 2].
Proof.
  intros ts. assert (P : f64_value 10 /\ 0 <= 10 <= powerRZ 2 300) by (split; [apply (f64_whole 10); simpl; lia|destruct (ex_time 10) as [_ [_ T]]; [lia|lra]]).
  assert (S : sane64 500) by (apply (ex_sane 500); lia).
  split. { split. repeat split. split. apply (ex_sane 100); lia. split. auto. split. lra. split. apply ex_growth. exact P. }
  split. { split. repeat split. split. apply (ex_sane 300); lia. split. auto. split. lra. split. apply ex_growth. exact P. }
  split. { intros t [<-|[<-|[<-|[]]]]; [apply (ex_time 1)|apply (ex_time 2)|apply (ex_time 28)]; lia. }
  split. simpl; lra. split. reflexivity. split. reflexivity. unfold time_to_max. replace (500 / 100) with 5 by lra. set (tau := ln (1 + 1/2)). set (q := ln 5).
  assert (LX : forall x, 0 < x -> ln x <= x - 1). { intros x X. pose proof (exp_ineq1_le (ln x)) as K. rewrite exp_ln in K by auto. lra. }
  assert (Q : 0 <= q <= 4). { split. unfold q. rewrite <- ln_1. left. apply ln_increasing; lra. unfold q. pose proof (LX 5). lra. }
  assert (T : / 3 <= tau). { unfold tau. replace (1 + 1/2) with (/ (2/3)) by lra. rewrite ln_Rinv by lra. pose proof (LX (2/3)). lra. }
  assert (I : 0 < / tau <= 3). { split. apply Rinv_0_lt_compat; lra. rewrite <- (Rinv_inv 3). apply Rinv_le_contravar; lra. }
  assert (A : 0 <= q * / tau) by (apply Rmult_le_pos; lra). assert (B : q * / tau <= 4 * 3) by (apply Rmult_le_compat; lra).
  assert (D : forall n, (n <= 3)%nat -> 0 <= spot_drift64 n q tau * (500 + 10 / tau) <= 1).
  { intros n N. apply le_INR in N. simpl (INR 3) in N. pose proof (pos_INR n). unfold spot_drift64. replace ((q + 1) / tau) with (q * / tau + / tau) by (unfold Rdiv; ring). unfold Rdiv.
    split. apply Rmult_le_pos; lra. apply Rle_trans with (/ 1000 * 1000). apply Rmult_le_compat; lra. lra. }
  split. { pose proof (D 3%nat ltac:(lia)). cbv zeta. simpl length. unfold Rdiv at 2. simpl rsum. lra. }
  split. { simpl. lra. } split. { pose proof (D 1%nat ltac:(lia)). cbv zeta. simpl length. unfold Rdiv at 1. lra. } simpl. lra.
Qed.
