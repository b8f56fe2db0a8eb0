(** Property C133: which faculae a collection keeps, in double precision *)
From Coq Require Import Reals ZArith Bool String List Lra Lia.
From Verif Require Import Num Py MConfig MHelpers MGrid MSpots MFaculae MXoflares MFlares MGranules MStar MSingle MDouble MAge64 MClean64
  Spec SpecStar SpecDisk SpecSingle SpecDouble SpecAge64 SpecClean64 LBase LGrid LFac LSingle LDouble LDoubleSum LAge64 LClean64 PropsFac PropsAge64.
Import ListNotations.
Open Scope R_scope.

(** C133 *)
@THM C133_kept C133_lemma
@THM C133_exact C133_exact_lemma
(** a growing facula and a shrinking one; after 6 h the first is there and the second is not *)
Example C133_kept_nonvacuous : forall gr, let ts := [1; 2; 3] in let c := mkFacColl [ex_fac 50 true; ex_fac 50 false] gr in
  accurate_e2 (exp 2 * (1 + / 1125899906842624)) /\ (forall t, In t ts -> time64 t) /\ INR (length ts) <= 1000000000
  /\ (forall f, In f (fcc_facs c) -> sane_facula f 50 100 6 /\ 2 * rsum ts / 6 <= 250)
  /\ (let e := drift64 (length ts) (2 * rsum ts / 6) (ln (100 / 50)) in
      rsum ts <= lifespan (ex_fac 50 true) 50 100 6 - e * 6 /\ lifespan (ex_fac 50 false) 50 100 6 + e * 6 <= rsum ts).
Proof.
  intros gr ts c. pose proof (exp_pos 2) as E2. split. { unfold accurate_e2. rewrite Rabs_right; lra. }
  split. { intros t [<-|[<-|[<-|[]]]]; [apply (ex_time 1)|apply (ex_time 2)|apply (ex_time 3)]; lia. }
  split. simpl; lra. split.
  { intros f I. assert (X : 2 * rsum ts / 6 <= 250) by (simpl; lra).
    destruct I as [<-|[<-|[]]]; (split; [|exact X]; split; [repeat split|split; [apply (ex_sane 50); lia|split; [apply (ex_sane 100); lia|split; [apply (ex_sane 6); lia|lra]]]]). }
  unfold lifespan, time_to_peak, drift64. cbn [ex_fac fc_growing]. replace (100/50) with 2 by lra. pose proof ln2_hi as H. pose proof ln_lt_2. simpl. split; lra.
Qed.
Example C133_exact_nonvacuous : forall g, fac_state (ex_fac 50 g) 50 100 6 /\ ~ lifespan (ex_fac 50 g) 50 100 6 <= 3 /\ lifespan (ex_fac 50 g) 50 100 6 <= 9.
Proof.
  intros g. split. repeat split. unfold lifespan, time_to_peak. cbn [ex_fac fc_growing]. replace (100/50) with 2 by lra. pose proof ln2_hi. pose proof ln_lt_2. destruct g; lra.
Qed.
