(** Property C131: ageing spots in double precision *)
From Coq Require Import Reals ZArith Bool String List Lra Lia.
From Verif Require Import Num Py MConfig MHelpers MGrid MSpots MFaculae MXoflares MFlares MGranules MStar MSingle MDouble MAge64
  Spec SpecStar SpecDisk SpecSingle SpecDouble SpecAge64 SpecSpot64 LBase LGrid LSpotAge LSingle LDouble LDoubleSum LAge64 LSpot64 PropsSpots PropsFac PropsAge64.
Import ListNotations.
Open Scope R_scope.

(** C131 *)
Theorem C131_law :
  forall ex lg s a am g W ts,
  accurate_exp ex -> accurate_log lg -> spot_params s a am g W -> sane64 a -> sane64 am -> a <= am -> growth64 g -> f64_value W -> 0 <= W <= powerRZ 2 300 ->
  sp_growing s = true -> (forall t, In t ts -> time64 t) -> INR (length ts) <= 1000000000000 ->
  let T := rsum ts in let peak := time_to_max a am g in let tau := ln (1 + g) in let e := spot_drift64 (length ts) (ln (am / a)) tau in
  W * (T - peak) <= am ->
  exists s' a' b, spot_aged64 ex lg s ts = Ok s' /\ aged_to s s' a' b
    /\ (b = true -> Rabs (a' - a * Rpower (1 + g) T) <= e * (a * Rpower (1 + g) T) /\ T <= peak + e / tau)
    /\ (b = false -> Rabs (a' - (am - W * (T - peak))) <= e * (am + W / tau) /\ peak - e / tau <= T).
Proof. exact C131_law_lemma. Qed.
Print Assumptions C131_law.
Theorem C131_bounds :
  forall ex lg s a am g W ts,
  accurate_exp ex -> accurate_log lg -> spot_params s a am g W -> sane64 a -> sane64 am -> a <= am -> growth64 g -> f64_value W -> 0 <= W <= powerRZ 2 300 ->
  (forall t, In t ts -> time64 t) -> INR (length ts) <= 1000000000000 ->
  exists s' a' b, spot_aged64 ex lg s ts = Ok s' /\ aged_to s s' a' b /\ a' <= am * (1 + / 1000000000000) /\ (b = true -> a <= a')
    /\ forall t, time64 t -> exists s2 a2 b', spot_aged64 ex lg s (ts ++ [t]) = Ok s2 /\ aged_to s s2 a2 b'
         /\ (b = false -> b' = false /\ a2 <= Rmax a' 0) /\ (b' = true -> a' <= a2).
Proof. exact C131_bounds_lemma. Qed.
Print Assumptions C131_bounds.
Theorem C131_decay :
  forall ex lg s a am g W ts,
  spot_params s a am g W -> sane64 a -> sane64 am -> a <= am -> f64_value W -> 0 <= W <= powerRZ 2 300 ->
  sp_growing s = false -> (forall t, In t ts -> time64 t) -> INR (length ts) <= 1000000000000 -> W * rsum ts <= a ->
  exists s' a', spot_aged64 ex lg s ts = Ok s' /\ aged_to s s' a' false /\ a' <= a /\ Rabs (a' - (a - W * rsum ts)) <= INR (length ts) / 1000000000000000 * am.
Proof. exact C131_decay_lemma. Qed.
Print Assumptions C131_decay.
Theorem C131_tiny :
  forall ex lg s a am g W ts,
  accurate_exp ex -> accurate_log lg -> spot_params s a am g W -> sane64 a -> 0 <= g < / 9007199254740992 -> sp_growing s = true -> 
  exists s', spot_aged64 ex lg s ts = Ok s' /\ aged_to s s' a true.
Proof. exact C131_tiny_lemma. Qed.
Print Assumptions C131_tiny.
Lemma ex_growth : growth64 (1/2).
Proof.
  split. { exists 1%Z, (-1)%Z. split. lia. split. lia. simpl. lra. }
  pose proof (p2_le (-20) (-1) ltac:(lia)) as P. pose proof (p2_le 0 20 ltac:(lia)) as Q. simpl (powerRZ 2 (-1)) in P. simpl (powerRZ 2 0) in Q. lra.
Qed.
(** a growing spot, up to 43 days after its maximum; the decaying one loses 10 MSH a day *)
Example C131_law_nonvacuous :
  spot_params ex_spot 100 500 (1/2) 10 /\ sane64 100 /\ sane64 500 /\ growth64 (1/2) /\ f64_value 10 /\ 0 <= 10 <= powerRZ 2 300
  /\ sp_growing ex_spot = true /\ (forall t, In t [1; 2; 7; 0; 33] -> time64 t) /\ INR (length [1; 2; 7; 0; 33]) <= 1000000000000
  /\ 10 * (rsum [1; 2; 7; 0; 33] - time_to_max 100 500 (1/2)) <= 500.
Proof.
  split. repeat split. split. apply (ex_sane 100); lia. split. apply (ex_sane 500); lia. split. apply ex_growth. split. apply (f64_whole 10); simpl; lia.
  split. { destruct (ex_time 10) as [_ [_ T]]. lia. lra. } split. reflexivity.
  split. { intros t [<-|[<-|[<-|[<-|[<-|[]]]]]]; [apply (ex_time 1)|apply (ex_time 2)|apply (ex_time 7)|apply (ex_time 0)|apply (ex_time 33)]; lia. }
  split. simpl; lra. simpl. assert (0 <= time_to_max 100 500 (1/2)). { unfold time_to_max. assert (0 < ln (500/100)) by (rewrite <- ln_1; apply ln_increasing; lra). assert (0 < ln (1 + 1/2)) by (rewrite <- ln_1; apply ln_increasing; lra). left. apply Rdiv_lt_0_compat; auto. } lra.
Qed.
Example C131_decay_nonvacuous : spot_params ex_old 300 500 (1/2) 10 /\ sane64 300 /\ sp_growing ex_old = false /\ 10 * rsum [1; 2; 7; 0] <= 300.
Proof. split. repeat split. split. apply (ex_sane 300); lia. split. reflexivity. simpl. lra. Qed.
(** a spot that the exact law would let grow *)
Definition ex_slow : spot := spot_init (1/3) 1 (Fin 500) (Fin 100) (Fin 2500) (Fin 2700) (Fin 5) true (Fin (/ 100000000000000000)) (-1) (Fin 10) ex_grid.
Example C131_tiny_nonvacuous : spot_params ex_slow 100 500 (/ 100000000000000000) 10 /\ 0 <= / 100000000000000000 < / 9007199254740992
  /\ sp_growing ex_slow = true /\ 0 < / 100000000000000000.
Proof. split. repeat split. split. lra. split. reflexivity. lra. Qed.
