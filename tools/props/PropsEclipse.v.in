(** Properties C119-C120: the eclipse of the planet through its orbit *)
From Coq Require Import Reals ZArith Bool String List Lra Lia.
From Coquelicot Require Import Coquelicot.
From Verif Require Import Num Py MConfig MHelpers MGrid MSpots MFaculae MXoflares MFlares MGranules MStar
  Spec SpecStar LBase LStar LEclipse PropsStar.
Import ListNotations.
Open Scope R_scope.

(** C119 *)
@THM C119_eclipse C119_lemma
(** a planet that is a tenth of its star, three stellar radii away, seen edge-on: hidden behind the middle of the star,
    partly visible at its limb *)
Example C119_nonvacuous : let s := ex_star 2 [] [] 3300 0 in
  0 < st_radius s /\ 0 < 1/10 <= st_radius s /\ st_radius s + 1/10 <= 3 /\ sin (PI/2) <> 0
  /\ (exists m, get_transit_mask s 0 0 3 (1/10) 0 (PI/2) = Ok (m, Fin 0))
  /\ (exists m v, get_transit_mask s 0 0 3 (1/10) (asin (1/3)) (PI/2) = Ok (m, Fin v) /\ 0 < v < 1).
Proof.
  intros s. assert (SR : st_radius s = 1) by reflexivity. rewrite SR.
  split. lra. split. lra. split. lra. split. rewrite sin_PI2; lra.
  destruct (C119_lemma 1 3 (1/10) (PI/2) ltac:(lra) ltac:(lra) ltac:(lra)) as [V [_ [_ [E [VR [V0 [V1 _]]]]]]].
  assert (D : forall p, 0 <= sin p -> sqrt ((sin p)^2 + (cos p)^2 * (cos (PI/2))^2) = sin p).
  { intros p P. rewrite cos_PI2. replace ((sin p)^2 + (cos p)^2 * 0^2) with ((sin p)^2) by ring. apply sqrt_pow2; auto. }
  split.
  - destruct (E s 0 0 0 SR) as [m M]. rewrite cos_0; lra. exists m. rewrite M. do 3 f_equal.
    apply V0. rewrite D by (rewrite sin_0; lra). rewrite cos_0, sin_0. lra.
  - pose proof (sin_asin (1/3) ltac:(lra)) as SA. pose proof (asin_bound (1/3)) as AB.
    assert (C : 0 < cos (asin (1/3))). { rewrite cos_asin by lra. apply sqrt_lt_R0. unfold Rsqr. lra. }
    destruct (E s 0 0 (asin (1/3)) SR C) as [m M]. exists m, (V (asin (1/3))). split; auto.
    specialize (V0 (asin (1/3))). specialize (V1 (asin (1/3))). rewrite D in V0, V1 by lra. rewrite SA in V0, V1.
    destruct (VR (asin (1/3))) as [[A|A] [B|B]]; split; auto.
    + apply V1 in B. lra.
    + symmetry in A. apply V0 in A. lra.
    + symmetry in A. apply V0 in A. lra.
    + lra.
Qed.

(** C120 *)
@THM C120_contacts C120_lemma
Example C120_nonvacuous : let s := ex_star 2 [] [] 3300 0 in
  0 < st_radius s /\ 0 < 1/10 <= st_radius s /\ st_radius s + 1/10 <= 3
  /\ 3 * Rabs (cos (PI/2)) <= st_radius s - 1/10 /\ - PI <= 0 <= PI
  /\ exists m v, get_transit_mask s 0 0 3 (1/10) 0 (PI/2) = Ok (m, Fin v).
Proof.
  destruct C119_nonvacuous as [A [B [C [_ [[m E] _]]]]]. intros s. split; auto. split; auto. split; auto.
  split. rewrite cos_PI2, Rabs_R0. simpl. lra. split. pose proof PI_RGT_0; lra. exists m, 0. auto.
Qed.
