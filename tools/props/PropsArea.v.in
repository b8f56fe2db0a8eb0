(** Property C123: areas of the pixels in single precision *)
From Coq Require Import Reals ZArith Bool String List Lra Lia Permutation.
From Coquelicot Require Import Coquelicot.
From Verif Require Import Num Py MConfig MHelpers MGrid MSpots MFaculae MXoflares MFlares MGranules MStar MSingle MDouble MArea
  Spec SpecStar SpecDisk SpecSingle SpecDouble LBase LGrid LSpotMap LSpotCov LDisk LStar LStarFac LStarCov LSingle LSingleRep LSingleEx LArea PropsStar PropsSingle.
Import ListNotations.
Open Scope R_scope.

(** C123 *)
@THM C123_areas C123_areas_lemma
@THM C123_mask C123_mask_lemma
@THM C123_report C123_report_lemma
@THM C123_coverage C123_coverage_lemma
Lemma ex_few : forall n, (n <= 8)%nat -> INR n <= 2 ^ 100.
Proof.
  intros n H. apply le_INR in H. replace 100%nat with (3 + 97)%nat by lia. rewrite pow_add. pose proof (pow_R1_Rle 2 97 ltac:(lra)). set (z := 2 ^ 97) in *. simpl in *. lra.
Qed.
(** a planet in front of the middle of a star with a facula *)
Example C123_report_nonvacuous : exists s A M C, disk_view s (ex_lat 2) 0 100 (1/10) PI (PI/2) 3300 300 A M C (Fin 1) /\ disk s (ex_lat 2) 0 A <> 0
  /\ Rabs 3300 <= powerRZ 2 127 /\ Rabs (3300 - 300) <= powerRZ 2 127 /\ (forall x, In x (sc_spots (st_spots s)) -> spot32 x)
  /\ st_grid s = Spiral 2 /\ INR 2 <= 2 ^ 100 /\ ld_nonneg s
  /\ sqrt ((- (100 / st_radius s * sin PI))^2 + (- (100 / st_radius s * cos PI * cos (PI/2)))^2) <= 1 + 2 * ((1/10) / st_radius s) /\ cos PI <= 0
  /\ (exists t, appears (st_grid s) M t /\ t <> 3300).
Proof.
  destruct (ex_view 2 300) as [A [M [C V]]]. lia. exists (ex_star 2 [] [ex_facula 2 150] 3300 300), A, M, C. split; auto.
  split. { pose proof (ex_disk 2 [] [ex_facula 2 150] 3300 300 A ltac:(lia)) as K. specialize (K ltac:(apply V)). lra. }
  split. { apply ex_big; rewrite Rabs_right; lra. } split. { apply ex_big; rewrite Rabs_right; lra. }
  split. { intros x []. } split. reflexivity. split. { apply ex_few. lia. }
  split. { intros mu H. change (0 <= 1 - 0 * (1 - mu) - 0 * (1 - mu)^2). lra. }
  split. { rewrite sin_PI, cos_PI2. replace (_ + _) with 0 by ring. rewrite sqrt_0. change (st_radius _) with 1. lra. }
  split. { rewrite cos_PI. lra. }
  destruct (ex_temps 2 300 M ltac:(lia)) as [E0 _]. apply V.
  destruct E0 as [E0|E0]; eexists; (split; [exists 0%nat, 0%nat; split; [apply ex_pixel; lia|exact E0]|lra]).
Qed.
(** a spot on a grid of two points, which covers something, and two more of the same *)
Definition ex_coll (k : nat) : spotcoll := mkSpotColl (repeat ex_single_spot k) (Spiral 2).
Definition ex_pair (n : nat) : sumtree := SNode (SLeaf 1) (SLeaf 0).
Example C123_coverage_nonvacuous : (forall k x, In x (sc_spots (ex_coll k)) -> spot_on (sc_grid (ex_coll k)) x /\ spot32 x)
  /\ adds (ex_pair 2) 2 1 /\ INR 1 <= 2 ^ 20 /\ INR 2 <= 2 ^ 100 /\ (forall x, In x (sc_spots (ex_coll 1)) -> In x (sc_spots (ex_coll 3)))
  /\ exists v, sc_get_coverage (ex_coll 1) 1 = Ok (Fin v) /\ 0 < v.
Proof.
  assert (S1 : forall k x, In x (sc_spots (ex_coll k)) -> spot_on (sc_grid (ex_coll k)) x /\ spot32 x).
  { intros k x I. apply repeat_spec in I. subst x. split; [|apply ex_single_spot32].
    destruct (ex_unified 2 [ex_single_spot] [ex_facula 2 150] 3300 300) as [_ [_ [B _]]]. apply B. left; auto. }
  split; auto. split. { split. apply perm_swap. cbn. lia. } split. { simpl; lra. } split. { apply ex_few; lia. }
  split. { cbn. tauto. }
  assert (FT : forall x, In x (sc_spots (ex_coll 1)) -> spot_on (sc_grid (ex_coll 1)) x /\ fin_temps x).
  { intros x I. split. apply S1; auto. destruct (S1 1%nat x I) as [_ [tu [tp [E1 [E2 _]]]]]. split; [rewrite E1|rewrite E2]; eexists; eauto. }
  eexists. split. { apply sc_get_coverage_eq; auto. cbn. lia. }
  destruct (C18_lemma ex_single_spot 1 1000 eq_refl ltac:(lra)) as [H18 _].
  destruct H18 as [th [Hth [Rth [Cth _]]]]. pose proof PI_RGT_0; lra.
  assert (CT : cos th = 999/1000). { pose proof PI_RGT_0 as PP. assert (Z0 : 2 * PI * (1 - cos th - 1/1000) = 0) by lra. apply Rmult_integral in Z0. lra. }
  assert (C0 : covb 1 (sc_spots (ex_coll 1)) (spiral_lat 2 0, spiral_lon 0) = true).
  { apply existsb_exists. exists ex_single_spot. split. left; auto. apply orb_true_iff. left. unfold pen_b. rewrite Hth. apply nlt_fin. unfold sep. cbn [fst snd].
    rewrite law_cos_dot, ex_lon0. change (sp_lat ex_single_spot) with (spiral_lat 2 0). change (sp_lon ex_single_spot) with 0. rewrite cos_sep_self, acos_1.
    destruct (Rle_lt_or_eq_dec 0 th); try lra. subst th. rewrite cos_0 in CT. lra. }
  unfold covsum. change (sc_grid (ex_coll 1)) with (Spiral 2). change (cells (grid_points (Spiral 2))) with [(spiral_lat 2 0, spiral_lon 0); (spiral_lat 2 1, spiral_lon 1)].
  cbn [map]. rewrite C0. unfold rarea_at, rsum. cbn [fold_right]. replace (INR 2) with 2 by (simpl; lra). match goal with |- context [if ?b then _ else _] => destruct b end; lra.
Qed.
