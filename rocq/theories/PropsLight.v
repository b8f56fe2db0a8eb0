(** Property C91: the light curve of a transit *)
From Coq Require Import Reals ZArith Bool String List Lra Lia.
From Coquelicot Require Import Coquelicot.
From Verif Require Import Num Py MConfig MHelpers MGrid MSpots MFaculae MXoflares MFlares MGranules MStar
  Spec SpecStar SpecDisk SpecConv SpecDepth LBase LGrid LCirc LSpotMap LSpotCov LDisk LStar LStarCov LObserve LSphere LZonal LSpotDisk LDepth LLight PropsStar PropsConv PropsDepth.
Import ListNotations.
Open Scope R_scope.

(** C91: the planet's centre in front of the limb: half way through ingress *)
Theorem C91_light_curve :
  forall label s lat0 lon0 orbit planet phase incl T D A M C pf f d,
  two_decimals label -> disk_view s lat0 lon0 orbit planet phase incl T D A M C pf -> ld_positive s ->
  distinct_labels label s M T D -> (appears (st_grid s) M T \/ D = 0) ->
  resolution (st_grid s) d -> d <= 1 / 1000000 -> 0 <= orbit -> 0 <= planet -> cos phase <= 0 ->
  let rp := sky_r s planet in
  let px := sky_x s orbit phase in let py := sky_y s orbit phase incl in
  let b0 := sqrt (px^2 + py^2) in
  0 < b0 ->
  exists tot cov, calc_coverage s lat0 lon0 (Fin f) orbit planet phase incl = Ok (tot, cov, Fin 1)
    /\ let whole := disk_light (st_u1 s) (st_u2 s) 0 in
       0 < whole
       /\ Rabs (dict_sum cov - hidden_light (st_u1 s) (st_u2 s) b0 rp / whole)
            <= (1 + Rabs (st_u1 s) + Rabs (st_u2 s)) * light_error px py rp d / whole.
Proof. exact C91_lemma. Qed.
Print Assumptions C91_light_curve.
Example C91_nonvacuous : forall e, 0 < e <= 1 / 1000 -> exists label s A M C pf d, two_decimals label
  /\ disk_view s (PI/6) 1 2 (1/10) (5 * PI / 6) (PI/2) 3300 200 A M C pf /\ ld_positive s
  /\ distinct_labels label s M 3300 200 /\ appears (st_grid s) M 3300 /\ resolution (st_grid s) d /\ d <= 1 / 1000000 /\ cos (5 * PI / 6) <= 0
  /\ sky_r s (1/10) = 1/10 /\ sky_x s 2 (5 * PI / 6) = - 1 /\ sky_y s 2 (5 * PI / 6) (PI/2) = 0
  /\ sqrt ((- 1)^2 + 0^2) = 1 /\ st_u1 s = 1/5 /\ st_u2 s = 3/10
  /\ light_error (- 1) 0 (1/10) d <= 1/10000 + 1/1000 + e.
Proof.
  intros e He. destruct (fine_m (e / 1100)) as [m [H2 [C1 [G [Q Hm]]]]]. lra. pose proof PI_RGT_0 as PP. set (n := (m ^ 3)%nat) in *.
  assert (HS : sin (5 * PI / 6) = 1/2) by (replace (5 * PI / 6) with (PI - PI / 6) by field; rewrite sin_minus, sin_PI, cos_PI, sin_PI6; lra).
  assert (HC : cos (5 * PI / 6) <= 0). { replace (5 * PI / 6) with (PI - PI / 6) by field; rewrite cos_minus, sin_PI, cos_PI. pose proof (cos_ge_0 (PI / 6) ltac:(lra) ltac:(lra)). lra. }
  destruct (ex_clean_view n (1/5) (3/10) (PI/6) 1 2 (1/10) (5 * PI / 6) (PI/2) C1 (ex_ld n []) ltac:(lra) ltac:(lra) ltac:(lra) HC) as [A [M [C [pf [V [AP DL]]]]]].
  exists (fun t => fmt2 (Fin t)), (ex_spotted n (1/5) (3/10) []), A, M, C, pf, (/ INR m). change (st_grid (ex_spotted n (1/5) (3/10) [])) with (Spiral n) in *.
  assert (D1 : 0 < / INR m <= 1) by apply Q. pose proof (sqrt_sqrt (/ INR m) ltac:(lra)) as SS. pose proof (sqrt_pos (/ INR m)).
  split. apply fmt2_two_decimals. split. auto. split. apply ex_ld. split. auto. split. apply AP; auto. split. auto. split. nra. split. auto.
  split. unfold sky_r. change (st_radius _) with 1. field.
  split. unfold sky_x. change (st_radius _) with 1. rewrite HS. field.
  split. unfold sky_y. change (st_radius _) with 1. rewrite cos_PI2. field.
  split. replace ((- 1)^2 + 0^2) with 1 by ring. apply sqrt_1.
  split. reflexivity. split. reflexivity.
  unfold light_error, rounding. pose proof (Rmin_r (Rabs (- 1) / 100) (1 / 10000 + 1 / 10 / 100)). rewrite Rabs_R0. lra.
Qed.
Theorem C91_uniform :
  forall label s lat0 lon0 orbit planet phase incl T D A M C pf f d,
  two_decimals label -> disk_view s lat0 lon0 orbit planet phase incl T D A M C pf -> st_u1 s = 0 -> st_u2 s = 0 ->
  distinct_labels label s M T D -> (appears (st_grid s) M T \/ D = 0) ->
  resolution (st_grid s) d -> d <= 1 / 1000000 -> 0 <= orbit -> cos phase <= 0 ->
  let rp := sky_r s planet in
  let px := sky_x s orbit phase in let py := sky_y s orbit phase incl in
  0 < rp <= 1 -> 0 < sqrt (px^2 + py^2) ->
  exists tot cov v, calc_coverage s lat0 lon0 (Fin f) orbit planet phase incl = Ok (tot, cov, Fin 1)
    /\ circ_fraction (Fin px) (Fin py) (Fin rp) = Ok (Fin v)
    /\ Rabs (dict_sum cov - v * rp^2) <= rounding px py rp + 4000 * sqrt d.
Proof. exact C91_uniform_lemma. Qed.
Print Assumptions C91_uniform.
Example C91_uniform_nonvacuous : forall e, 0 < e <= 1 / 1000 -> exists label s A M C pf d v, two_decimals label
  /\ disk_view s (PI/6) 1 2 (1/10) (5 * PI / 6) (PI/2) 3300 200 A M C pf /\ st_u1 s = 0 /\ st_u2 s = 0
  /\ distinct_labels label s M 3300 200 /\ appears (st_grid s) M 3300 /\ resolution (st_grid s) d /\ d <= 1 / 1000000 /\ cos (5 * PI / 6) <= 0
  /\ sky_r s (1/10) = 1/10 /\ sky_x s 2 (5 * PI / 6) = - 1 /\ sky_y s 2 (5 * PI / 6) (PI/2) = 0
  /\ sqrt ((- 1)^2 + 0^2) = 1 /\ circ_fraction (Fin (- 1)) (Fin 0) (Fin (1/10)) = Ok (Fin v) /\ 0 < v < 1
  /\ rounding (- 1) 0 (1/10) + 4000 * sqrt d <= (1/10)^2 / 4 + 4 * e.
Proof.
  intros e He. destruct (fine_m (e / 1100)) as [m [H2 [C1 [G [Q Hm]]]]]. lra. pose proof PI_RGT_0 as PP. set (n := (m ^ 3)%nat) in *.
  assert (HS : sin (5 * PI / 6) = 1/2) by (replace (5 * PI / 6) with (PI - PI / 6) by field; rewrite sin_minus, sin_PI, cos_PI, sin_PI6; lra).
  assert (HC : cos (5 * PI / 6) <= 0). { replace (5 * PI / 6) with (PI - PI / 6) by field; rewrite cos_minus, sin_PI, cos_PI. pose proof (cos_ge_0 (PI / 6) ltac:(lra) ltac:(lra)). lra. }
  assert (LP : ld_positive (ex_spotted n 0 0 [])) by (intros x Hx; change (st_u1 _) with 0; change (st_u2 _) with 0; lra).
  destruct (ex_clean_view n 0 0 (PI/6) 1 2 (1/10) (5 * PI / 6) (PI/2) C1 LP ltac:(lra) ltac:(lra) ltac:(lra) HC) as [A [M [C [pf [V [AP DL]]]]]].
  exists (fun t => fmt2 (Fin t)), (ex_spotted n 0 0 []), A, M, C, pf, (/ INR m), (frac (1/10) (sqrt ((- 1)^2 + 0^2))). change (st_grid (ex_spotted n 0 0 [])) with (Spiral n) in *.
  assert (D1 : 0 < / INR m <= 1) by apply Q. pose proof (sqrt_sqrt (/ INR m) ltac:(lra)) as SS. pose proof (sqrt_pos (/ INR m)).
  assert (E1 : sqrt ((- 1)^2 + 0^2) = 1) by (replace ((- 1)^2 + 0^2) with 1 by ring; apply sqrt_1).
  split. apply fmt2_two_decimals. split. auto. split. reflexivity. split. reflexivity. split. auto. split. apply AP; auto. split. auto. split. nra. split. auto.
  split. unfold sky_r. change (st_radius _) with 1. field.
  split. unfold sky_x. change (st_radius _) with 1. rewrite HS. field.
  split. unfold sky_y. change (st_radius _) with 1. rewrite cos_PI2. field.
  split. auto. split. apply circ_fraction_eq; lra. split. rewrite E1. apply frac_mid; lra.
  unfold rounding. pose proof (Rmin_r (Rabs (- 1) / 100) (1 / 10000 + 1 / 10 / 100)). rewrite Rabs_R0. lra.
Qed.

(** what the hidden light of the specification means: which part of each circle is hidden, and its
    value for planets off the disk, over all of it, and in between *)
Theorem C91_behind :
  forall b rp r t, 0 < b -> 0 < r -> 0 <= t <= PI ->
  (t < PI * behind b rp r -> (r * cos t - b) ^ 2 + (r * sin t) ^ 2 <= rp ^ 2)
  /\ (PI * behind b rp r < t -> rp ^ 2 <= (r * cos t - b) ^ 2 + (r * sin t) ^ 2).
Proof. exact C91_behind_lemma. Qed.
Print Assumptions C91_behind.
Example C91_behind_nonvacuous : behind 1 1 1 = / 3 /\ PI * / 3 <= PI.
Proof.
  pose proof PI_RGT_0. split; [|lra]. unfold behind. replace ((1 ^ 2 + 1 ^ 2 - 1 ^ 2) / (2 * 1 * 1)) with (1 / 2) by field.
  rewrite <- cos_PI3. rewrite acos_cos by lra. field. lra.
Qed.
Theorem C91_range :
  forall u1 u2 b rp rp', (forall x, 0 < x <= 1 -> 0 <= 1 - u1 * (1 - x) - u2 * (1 - x) ^ 2) -> 0 < b -> 0 <= rp <= rp' ->
  (1 + rp <= b -> hidden_light u1 u2 b rp = 0)
  /\ (1 + b <= rp -> hidden_light u1 u2 b rp = disk_light u1 u2 0)
  /\ 0 <= hidden_light u1 u2 b rp <= hidden_light u1 u2 b rp' /\ hidden_light u1 u2 b rp' <= disk_light u1 u2 0.
Proof. exact C91_range_lemma. Qed.
Print Assumptions C91_range.
Example C91_range_nonvacuous : (forall x, 0 < x <= 1 -> 0 <= 1 - 1/5 * (1 - x) - 3/10 * (1 - x) ^ 2) /\ 0 < hidden_light 0 0 1 1 < disk_light 0 0 0.
Proof.
  split. intros; nra. pose proof PI_RGT_0. rewrite light_brint by lra. rewrite hl_uniform, larea_frac by lra.
  pose proof (frac_mid 1 1 ltac:(lra) ltac:(lra)) as [A B]. set (v := frac 1 1) in *.
  replace (v * (PI * 1 ^ 2) / (2 * PI)) with (v / 2) by (field; lra). unfold LCap.brint. split; lra.
Qed.
