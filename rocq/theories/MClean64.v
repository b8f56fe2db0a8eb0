(** Ageing of collections of faculae in double precision: [FaculaCollection.age] and [clean_faclist] (faculae.py:387-413).
    SIMPLIFICATIONS: those of MAge64.v; [np.e**2] is an argument; radii and maximal radii are in the same unit. *)
From Coq Require Import Reals ZArith Bool String List.
From Verif Require Import Num Py MConfig MHelpers MGrid MSpots MFaculae MXoflares MFlares MGranules MStar MSingle MDouble MAge64.
Import ListNotations.
Open Scope R_scope.

(** faculae.py:394: the condition for removal; [e2] is the value of [np.e**2] *)
Definition fac_dead64 (e2 : R) (f : facula) : bool :=
  nle (fc_radius f) (div64 (fc_rmax f) (Fin e2)) && negb (fc_growing f).
(** faculae.py:387-413 [clean_faclist] and [age] *)
Definition fcc_age64 (ex lg : R -> R) (e2 : R) (c : faccoll) (time : num) : faccoll :=
  mkFacColl (filter (fun f => negb (fac_dead64 e2 f)) (map (fun f => fac_age64 ex lg f time) (fcc_facs c))) (fcc_grid c).
