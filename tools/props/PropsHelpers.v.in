(** Properties C07-C12: helper functions *)
From Coq Require Import Reals ZArith List Lra Lia.
From Coquelicot Require Import Coquelicot.
From Verif Require Import Num Py MConfig MHelpers MGrid MSpots Spec LBase LGrid LHelpers LCirc LCircErr.
Import ListNotations.
Open Scope R_scope.

(** C07: no hypotheses *)
@THM C07_angle_between C07_lemma

(** C08 *)
@THM C08_proj_radius C08_lemma
Example C08_nonvacuous : - PI/2 <= 0 <= PI/2 /\ - PI/2 <= PI/4 <= PI/2 /\ 0 <= cos_sep 0 0 (PI/4) 0
  /\ cos_sep 0 0 (PI/4) PI < 0.
Proof.
  pose proof PI_RGT_0. unfold cos_sep, dot, vec. rewrite sin_0, cos_0, sin_PI, cos_PI.
  assert (0 < cos (PI/4)) by (apply cos_gt_0; lra). repeat split; nra.
Qed.

(** C09: accuracy away from the poles, and the pole-centred case *)
@THM C09_proj_accuracy C09_lemma
Example C09_nonvacuous : - PI/2 < PI/6 < PI/2 /\ - PI/2 <= PI/4 <= PI/2 /\ 0 <= cos_sep (PI/6) 0 (PI/4) 0.
Proof.
  pose proof PI_RGT_0. unfold cos_sep, dot, vec. rewrite sin_0, cos_0.
  assert (0 < cos (PI/4)) by (apply cos_gt_0; lra). assert (0 < cos (PI/6)) by (apply cos_gt_0; lra).
  assert (0 < sin (PI/4)) by (apply sin_gt_0; lra). assert (0 < sin (PI/6)) by (apply sin_gt_0; lra).
  repeat split; nra.
Qed.
@THM C09_proj_pole C09_pole_lemma
Example C09_pole_nonvacuous : (PI/2 = PI/2 \/ PI/2 = - PI/2) /\ - PI/2 <= PI/4 <= PI/2
  /\ 0 <= cos_sep (PI/2) 1 (PI/4) 0 /\ cos (PI/4) <> 0 /\ ~ (exists k : Z, 1 = 2 * PI * IZR k).
Proof.
  pose proof PI_RGT_0. pose proof Ratan.PI2_3_2.
  unfold cos_sep, dot, vec. rewrite sin_0, cos_0, sin_PI2, cos_PI2.
  assert (0 < cos (PI/4)) by (apply cos_gt_0; lra). assert (0 < sin (PI/4)) by (apply sin_gt_0; lra).
  split; [auto|]. split; [lra|]. split; [nra|]. split; [lra|].
  intros [k Hk]. destruct (Z_le_gt_dec k 0).
  - apply IZR_le in l. nra.
  - assert (K : (1 <= k)%Z) by lia. apply IZR_le in K. nra.
Qed.

(** C10 *)
@THM C10_circ_total C10_lemma
@THM C10_raises C10_raises_lemma
Example C10_raises_nonvacuous : circ_fraction (Fin 0) (Fin 0) (Fin 2) = Raise ValueError.
Proof. apply C10_raises_lemma. right. exists 2. split; auto; lra. Qed.
(** C11 *)
@THM C11_circ_area C11_lemma
Example C11_nonvacuous : 0 < 1/2 <= 1. Proof. lra. Qed.

(** C12 *)
@THM C12_round_clip C12_lemma
