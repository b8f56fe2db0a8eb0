(** Properties C07-C12: helper functions *)
From Coq Require Import Reals ZArith List Lra Lia.
From Coquelicot Require Import Coquelicot.
From Verif Require Import Num Py MConfig MHelpers MGrid MSpots Spec LBase LGrid LHelpers LCirc LCircErr.
Import ListNotations.
Open Scope R_scope.

(** C07: no hypotheses *)
Theorem C07_angle_between :
  forall lat1 lon1 lat2 lon2, exists th,
  get_angle_between lat1 lon1 lat2 lon2 = Fin th
  /\ is_angle lat1 lon1 lat2 lon2 th
  /\ get_angle_between lat2 lon2 lat1 lon1 = Fin th
  /\ (th = 0 <-> vec lat1 lon1 = vec lat2 lon2)
  /\ haversine lat1 lon1 (lat2, lon2) = Fin th.
Proof. exact C07_lemma. Qed.
Print Assumptions C07_angle_between.

(** C08 *)
Theorem C08_proj_radius :
  forall lat0 lon0 lat lon,
  - PI/2 <= lat0 <= PI/2 -> - PI/2 <= lat <= PI/2 ->
  (cos_sep lat0 lon0 lat lon < 0 -> proj_ortho lat0 lon0 (lat, lon) = (NaN, NaN))
  /\ (0 <= cos_sep lat0 lon0 lat lon -> exists x y,
        proj_ortho lat0 lon0 (lat, lon) = (Fin x, Fin y)
        /\ x^2 + y^2 = 1 - (cos_sep lat0 lon0 lat lon)^2
        /\ x^2 + y^2 <= 1
        /\ (- PI/2 < lat0 < PI/2 -> 0 <= x * sin (lon - lon0))).
Proof. exact C08_lemma. Qed.
Print Assumptions C08_proj_radius.
Example C08_nonvacuous : - PI/2 <= 0 <= PI/2 /\ - PI/2 <= PI/4 <= PI/2 /\ 0 <= cos_sep 0 0 (PI/4) 0
  /\ cos_sep 0 0 (PI/4) PI < 0.
Proof.
  pose proof PI_RGT_0. unfold cos_sep, dot, vec. rewrite sin_0, cos_0, sin_PI, cos_PI.
  assert (0 < cos (PI/4)) by (apply cos_gt_0; lra). repeat split; nra.
Qed.

(** C09: accuracy away from the poles, and the pole-centred case *)
Theorem C09_proj_accuracy :
  forall lat0 lon0 lat lon, - PI/2 < lat0 < PI/2 -> - PI/2 <= lat <= PI/2 ->
  0 <= cos_sep lat0 lon0 lat lon ->
  exists x y th, proj_ortho lat0 lon0 (lat, lon) = (Fin x, Fin y)
   /\ is_angle lat0 lon0 lat lon th
   /\ Rabs (y - ortho_y lat0 lon0 lat lon) <= 5/100000 * sin th
   /\ Rabs (x^2 - (ortho_x lat0 lon0 lat lon)^2) <= 1/10000 * (sin th)^2
   /\ (lon = lon0 -> x = ortho_x lat0 lon0 lat lon /\ y = ortho_y lat0 lon0 lat lon).
Proof. exact C09_lemma. Qed.
Print Assumptions C09_proj_accuracy.
Example C09_nonvacuous : - PI/2 < PI/6 < PI/2 /\ - PI/2 <= PI/4 <= PI/2 /\ 0 <= cos_sep (PI/6) 0 (PI/4) 0.
Proof.
  pose proof PI_RGT_0. unfold cos_sep, dot, vec. rewrite sin_0, cos_0.
  assert (0 < cos (PI/4)) by (apply cos_gt_0; lra). assert (0 < cos (PI/6)) by (apply cos_gt_0; lra).
  assert (0 < sin (PI/4)) by (apply sin_gt_0; lra). assert (0 < sin (PI/6)) by (apply sin_gt_0; lra).
  repeat split; nra.
Qed.
Theorem C09_proj_pole :
  forall lat0 lon0 lat lon, lat0 = PI/2 \/ lat0 = - PI/2 ->
  - PI/2 <= lat <= PI/2 -> 0 <= cos_sep lat0 lon0 lat lon ->
  proj_ortho lat0 lon0 (lat, lon) = (Fin (ortho_x lat0 0 lat lon), Fin (ortho_y lat0 0 lat lon))
  /\ (ortho_x lat0 0 lat lon = ortho_x lat0 lon0 lat lon
       /\ ortho_y lat0 0 lat lon = ortho_y lat0 lon0 lat lon
       <-> cos lat = 0 \/ exists k : Z, lon0 = 2 * PI * IZR k).
Proof. exact C09_pole_lemma. Qed.
Print Assumptions C09_proj_pole.
Example C09_pole_nonvacuous : (PI/2 = PI/2 \/ PI/2 = - PI/2) /\ - PI/2 <= PI/4 <= PI/2
  /\ 0 <= cos_sep (PI/2) 1 (PI/4) 0 /\ cos (PI/4) <> 0 /\ ~ (exists k : Z, 1 = 2 * PI * IZR k).
Proof.
  pose proof PI_RGT_0. pose proof Ratan.PI2_3_2.
  unfold cos_sep, dot, vec. rewrite sin_0, cos_0, sin_PI2, cos_PI2.
  assert (0 < cos (PI/4)) by (apply cos_gt_0; lra). assert (0 < sin (PI/4)) by (apply sin_gt_0; lra).
  split; [auto|]. split; [lra|]. split; [nra|]. split; [lra|].
  intros [k Hk]. destruct (Z_le_gt_dec k 0).
  - apply IZR_le in l. nra.
  - assert (K : (1 <= k)%Z) by lia. apply IZR_le in K. nra.
Qed.

(** C10 *)
Theorem C10_circ_total :
  forall x y r,
  (1 < r -> circ_fraction (Fin x) (Fin y) (Fin r) = Raise ValueError)
  /\ (0 <= r <= 1 -> exists v, circ_fraction (Fin x) (Fin y) (Fin r) = Ok (Fin v)
        /\ 0 <= v <= 1
        /\ (v = 1 <-> sqrt (x^2 + y^2) <= 1 - r)
        /\ (0 < r -> (v = 0 <-> 1 + r <= sqrt (x^2 + y^2)))
        /\ (r = 0 -> (v = 0 <-> 1 < sqrt (x^2 + y^2)))
        /\ (forall x' y', sqrt (x'^2 + y'^2) = sqrt (x^2 + y^2) ->
              circ_fraction (Fin x') (Fin y') (Fin r) = Ok (Fin v))).
Proof. exact C10_lemma. Qed.
Print Assumptions C10_circ_total.
Theorem C10_raises :
  forall x y r,
  (forall e, circ_fraction x y r = Raise e -> e = ValueError) /\
  (circ_fraction x y r = Raise ValueError <-> r = PInf \/ exists v, r = Fin v /\ 1 < v).
Proof. exact C10_raises_lemma. Qed.
Print Assumptions C10_raises.
Example C10_raises_nonvacuous : circ_fraction (Fin 0) (Fin 0) (Fin 2) = Raise ValueError.
Proof. apply C10_raises_lemma. right. exists 2. split; auto; lra. Qed.
(** C11 *)
Theorem C11_circ_area :
  forall r, 0 < r <= 1 -> exists f : R -> R,
  (forall x y, circ_fraction (Fin x) (Fin y) (Fin r) = Ok (Fin (f (sqrt (x^2 + y^2)))))
  /\ (forall d, 0 <= d -> is_RInt (overlap_slice r d) (d - r) (d + r) (f d * (PI * r^2)))
  /\ (forall d d', d <= d' -> f d' <= f d)
  /\ (forall d, continuity_pt f d)
  /\ f (1 - r) = 1 /\ f (1 + r) = 0.
Proof. exact C11_lemma. Qed.
Print Assumptions C11_circ_area.
Example C11_nonvacuous : 0 < 1/2 <= 1. Proof. lra. Qed.

(** C12 *)
Theorem C12_round_clip :
  (forall x, exists z, round_teff (Fin x) = Ok z
     /\ Rabs (IZR z - x) <= 1/2
     /\ (Rabs (IZR z - x) = 1/2 -> Z.even z = true)
     /\ round_teff (Fin (IZR z)) = Ok z)
  /\ (forall x y zx zy, x <= y -> round_teff (Fin x) = Ok zx -> round_teff (Fin y) = Ok zy -> (zx <= zy)%Z)
  /\ (forall x, exists v, clip_teff (Fin x) = Fin v /\ 2300 <= v <= 3900
        /\ (2300 <= x <= 3900 -> v = x) /\ clip_teff (Fin v) = Fin v)
  /\ (forall x y vx vy, x <= y -> clip_teff (Fin x) = Fin vx -> clip_teff (Fin y) = Fin vy -> vx <= vy).
Proof. exact C12_lemma. Qed.
Print Assumptions C12_round_clip.
