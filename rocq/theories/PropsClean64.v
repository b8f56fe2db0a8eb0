(** Property C133: which faculae a collection keeps, in double precision *)
From Coq Require Import Reals ZArith Bool String List Lra Lia.
From Verif Require Import Num Py MConfig MHelpers MGrid MSpots MFaculae MXoflares MFlares MGranules MStar MSingle MDouble MAge64 MClean64
  Spec SpecStar SpecDisk SpecSingle SpecDouble SpecAge64 SpecClean64 LBase LGrid LFac LSingle LDouble LDoubleSum LAge64 LClean64 PropsFac PropsAge64.
Import ListNotations.
Open Scope R_scope.

(** C133 *)
Theorem C133_kept :
  forall ex lg e2 c ts, accurate_exp ex -> accurate_log lg -> accurate_e2 e2 -> (forall t, In t ts -> time64 t) ->
  INR (length ts) <= 1000000000 ->
  (forall f, In f (fcc_facs c) -> exists r rm L, sane_facula f r rm L /\ 2 * rsum ts / L <= 250) ->
  exists keep : facula -> bool,
    fcc_facs (collection64 ex lg e2 c ts) = map (fun f => aged64 ex lg f ts) (filter keep (fcc_facs c))
    /\ fcc_grid (collection64 ex lg e2 c ts) = fcc_grid c
    /\ forall f r rm L, In f (fcc_facs c) -> sane_facula f r rm L ->
         let e := drift64 (length ts) (2 * rsum ts / L) (ln (rm / r)) in
         (rsum ts <= lifespan f r rm L - e * L -> keep f = true)
         /\ (ts <> [] -> lifespan f r rm L + e * L <= rsum ts -> keep f = false).
Proof. exact C133_lemma. Qed.
Print Assumptions C133_kept.
Theorem C133_exact :
  forall f r rm L t, fac_state f r rm L -> 0 < r -> r <= rm -> 0 < L -> 0 <= t ->
  (fac_dead (fac_age f (Fin t)) = true <-> lifespan f r rm L <= t).
Proof. exact C133_exact_lemma. Qed.
Print Assumptions C133_exact.
(** a growing facula and a shrinking one; after 6 h the first is there and the second is not *)
Example C133_kept_nonvacuous : forall gr, let ts := [1; 2; 3] in let c := mkFacColl [ex_fac 50 true; ex_fac 50 false] gr in
  accurate_e2 (exp 2 * (1 + / 1125899906842624)) /\ (forall t, In t ts -> time64 t) /\ INR (length ts) <= 1000000000
  /\ (forall f, In f (fcc_facs c) -> sane_facula f 50 100 6 /\ 2 * rsum ts / 6 <= 250)
  /\ (let e := drift64 (length ts) (2 * rsum ts / 6) (ln (100 / 50)) in
      rsum ts <= lifespan (ex_fac 50 true) 50 100 6 - e * 6 /\ lifespan (ex_fac 50 false) 50 100 6 + e * 6 <= rsum ts).
Proof.
  intros gr ts c. pose proof (exp_pos 2) as E2. split. { unfold accurate_e2. rewrite Rabs_right; lra. }
  split. { intros t [<-|[<-|[<-|[]]]]; [apply (ex_time 1)|apply (ex_time 2)|apply (ex_time 3)]; lia. }
  split. simpl; lra. split.
  { intros f I. assert (X : 2 * rsum ts / 6 <= 250) by (simpl; lra).
    destruct I as [<-|[<-|[]]]; (split; [|exact X]; split; [repeat split|split; [apply (ex_sane 50); lia|split; [apply (ex_sane 100); lia|split; [apply (ex_sane 6); lia|lra]]]]). }
  unfold lifespan, time_to_peak, drift64. cbn [ex_fac fc_growing]. replace (100/50) with 2 by lra. pose proof ln2_hi as H. pose proof ln_lt_2. simpl. split; lra.
Qed.
Example C133_exact_nonvacuous : forall g, fac_state (ex_fac 50 g) 50 100 6 /\ ~ lifespan (ex_fac 50 g) 50 100 6 <= 3 /\ lifespan (ex_fac 50 g) 50 100 6 <= 9.
Proof.
  intros g. split. repeat split. unfold lifespan, time_to_peak. cbn [ex_fac fc_growing]. replace (100/50) with 2 by lra. pose proof ln2_hi. pose proof ln_lt_2. destruct g; lra.
Qed.
