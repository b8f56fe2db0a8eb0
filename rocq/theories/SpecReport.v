(** Vocabulary for C109: the report, whatever the labels *)
From Coq Require Import Reals ZArith Bool String List.
From Verif Require Import Num Py MHelpers MGrid MSpots MFaculae MFlares MGranules MStar Spec SpecStar SpecDisk.
Import ListNotations.
Open Scope R_scope.

(** a temperature of the map, labelled by [lm], whose entry stays in the report: it is the hottest on the map with its
    label, and granulation (labelled by [ls]) does not take the label, which it does if its own temperature is not on
    the map *)
Definition counted {K} (lm ls : R -> K) (s : star) (M : arr num) (T D t : R) : Prop :=
  appears (st_grid s) M t /\ (forall t', appears (st_grid s) M t' -> lm t' = lm t -> t' <= t)
  /\ (appears (st_grid s) M (T - D) \/ lm t <> ls (T - D)).
(** the labels that occur *)
Definition occurs {K} (lm ls : R -> K) (s : star) (M : arr num) (T D : R) (k : K) : Prop :=
  (exists t, appears (st_grid s) M t /\ k = lm t) \/ (~ appears (st_grid s) M (T - D) /\ k = ls (T - D)).
(** the contents of a dictionary of the report: [c] the weight of a pixel, [f] the granulation fraction *)
Definition reports {K} (lm ls : R -> K) (s : star) (lat0 lon0 : R) (A M : arr num) (T D : R) (c : nat -> nat -> R) (f : R)
  (d : dict K num) : Prop :=
  NoDup (map fst d) /\ (forall k, In k (map fst d) <-> occurs lm ls s M T D k)
  (* the entries before granulation *)
  /\ (exists e : K -> R,
        (forall t, counted lm ls s M T D t -> e (lm t) = share s lat0 lon0 A M c t)
        /\ (forall k, (forall t, counted lm ls s M T D t -> lm t <> k) -> e k = 0)
        (* granulation moves a fraction of the photosphere's entry *)
        /\ forall k v, In (k, v) d ->
             (k <> ls T -> k <> ls (T - D) -> v = Fin (e k))
             /\ (k = ls T -> k <> ls (T - D) -> v = Fin (e k * (1 - f)))
             /\ (k <> ls T -> k = ls (T - D) -> v = Fin (e k + e (ls T) * f))
             /\ (k = ls T -> k = ls (T - D) -> v = Fin (e k)))
  (* the sum of the entries *)
  /\ forall ts, NoDup ts -> (forall t, In t ts <-> counted lm ls s M T D t) -> dict_sum d = rsum (map (share s lat0 lon0 A M c) ts).
(** the temperatures of the map that are missing in the report *)
Definition lost {K} (lm ls : R -> K) (s : star) (M : arr num) (T D t : R) : Prop :=
  appears (st_grid s) M t /\ ~ counted lm ls s M T D t.
