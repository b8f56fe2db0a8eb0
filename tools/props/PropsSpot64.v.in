(** Property C131: ageing spots in double precision *)
From Coq Require Import Reals ZArith Bool String List Lra Lia.
From Verif Require Import Num Py MConfig MHelpers MGrid MSpots MFaculae MXoflares MFlares MGranules MStar MSingle MDouble MAge64
  Spec SpecStar SpecDisk SpecSingle SpecDouble SpecAge64 SpecSpot64 LBase LGrid LSpotAge LSingle LDouble LDoubleSum LAge64 LSpot64 PropsSpots PropsFac PropsAge64.
Import ListNotations.
Open Scope R_scope.

(** C131 *)
@THM C131_law C131_law_lemma
@THM C131_bounds C131_bounds_lemma
@THM C131_decay C131_decay_lemma
@THM C131_tiny C131_tiny_lemma
Lemma ex_growth : growth64 (1/2).
Proof.
  split. { exists 1%Z, (-1)%Z. split. lia. split. lia. simpl. lra. }
  pose proof (p2_le (-20) (-1) ltac:(lia)) as P. pose proof (p2_le 0 20 ltac:(lia)) as Q. simpl (powerRZ 2 (-1)) in P. simpl (powerRZ 2 0) in Q. lra.
Qed.
(** a growing spot, up to 43 days after its maximum; the decaying one loses 10 MSH a day *)
Example C131_law_nonvacuous :
  spot_params ex_spot 100 500 (1/2) 10 /\ sane64 100 /\ sane64 500 /\ growth64 (1/2) /\ f64_value 10 /\ 0 <= 10 <= powerRZ 2 300
  /\ sp_growing ex_spot = true /\ (forall t, In t [1; 2; 7; 0; 33] -> time64 t) /\ INR (length [1; 2; 7; 0; 33]) <= 1000000000000
  /\ 10 * (rsum [1; 2; 7; 0; 33] - time_to_max 100 500 (1/2)) <= 500.
Proof.
  split. repeat split. split. apply (ex_sane 100); lia. split. apply (ex_sane 500); lia. split. apply ex_growth. split. apply (f64_whole 10); simpl; lia.
  split. { destruct (ex_time 10) as [_ [_ T]]. lia. lra. } split. reflexivity.
  split. { intros t [<-|[<-|[<-|[<-|[<-|[]]]]]]; [apply (ex_time 1)|apply (ex_time 2)|apply (ex_time 7)|apply (ex_time 0)|apply (ex_time 33)]; lia. }
  split. simpl; lra. simpl. assert (0 <= time_to_max 100 500 (1/2)). { unfold time_to_max. assert (0 < ln (500/100)) by (rewrite <- ln_1; apply ln_increasing; lra). assert (0 < ln (1 + 1/2)) by (rewrite <- ln_1; apply ln_increasing; lra). left. apply Rdiv_lt_0_compat; auto. } lra.
Qed.
Example C131_decay_nonvacuous : spot_params ex_old 300 500 (1/2) 10 /\ sane64 300 /\ sp_growing ex_old = false /\ 10 * rsum [1; 2; 7; 0] <= 300.
Proof. split. repeat split. split. apply (ex_sane 300); lia. split. reflexivity. simpl. lra. Qed.
(** a spot that the exact law would let grow *)
Definition ex_slow : spot := spot_init (1/3) 1 (Fin 500) (Fin 100) (Fin 2500) (Fin 2700) (Fin 5) true (Fin (/ 100000000000000000)) (-1) (Fin 10) ex_grid.
Example C131_tiny_nonvacuous : spot_params ex_slow 100 500 (/ 100000000000000000) 10 /\ 0 <= / 100000000000000000 < / 9007199254740992
  /\ sp_growing ex_slow = true /\ 0 < / 100000000000000000.
Proof. split. repeat split. split. lra. split. reflexivity. lra. Qed.
