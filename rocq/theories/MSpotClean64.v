(** Ageing of collections of spots in double precision: [SpotCollection.age] and [clean_spotlist] (spots.py:396-415, 452-466).
    SIMPLIFICATIONS: those of MAge64.v. *)
From Coq Require Import Reals ZArith Bool String List.
From Verif Require Import Num Py MConfig MHelpers MGrid MSpots MFaculae MXoflares MFlares MGranules MStar MSingle MDouble MAge64.
Import ListNotations.
Open Scope R_scope.

(** spots.py:452-466 [SpotCollection.age]; comparing areas with 0 does not round, so [clean_spotlist] is that of MSpots.v *)
Definition sc_age64 (ex lg : R -> R) (c : spotcoll) (time : num) : res spotcoll :=
  do l <- mapM (fun s => spot_age64 ex lg s time) (sc_spots c) ;;
  Ok (sc_clean (mkSpotColl l (sc_grid c))).
