(** Specification vocabulary: the order in which spots, faculae and flares are stored *)
From Coq Require Import Reals ZArith Bool List Permutation.
From Verif Require Import Num Py MHelpers MGrid MSpots MFaculae MFlares MGranules MStar MHeap Spec SpecStar SpecDisk SpecFrame SpecFar.
Import ListNotations.
Open Scope R_scope.

(** both calls raise the same exception, or both succeed with results that are related *)
Definition both {A} (P : A -> A -> Prop) (r r' : res A) : Prop :=
  match r, r' with Ok a, Ok b => P a b | Raise e, Raise e' => e' = e | _, _ => False end.
(** the same flares in another order *)
Definition flares_reordered (c c' : option flarecoll) : Prop :=
  match c, c' with
  | None, None => True
  | Some a, Some b => exists l l', a = flc_init l /\ b = flc_init l' /\ Permutation l l'
  | _, _ => False
  end.
(** the same star, with spots, faculae and flares in another order *)
Definition reordered (s s' : star) : Prop :=
  same_body s s' /\ sc_grid (st_spots s') = sc_grid (st_spots s) /\ fcc_grid (st_facs s') = fcc_grid (st_facs s)
  /\ Permutation (sc_spots (st_spots s)) (sc_spots (st_spots s')) /\ Permutation (fcc_facs (st_facs s)) (fcc_facs (st_facs s'))
  /\ flares_reordered (st_flares s) (st_flares s').
(** the same call, with the added objects in another order *)
Definition reordered_call (c c' : cmd) : Prop :=
  match c, c' with
  | CAddSpot l, CAddSpot l' => Permutation l l'
  | CAddFac l, CAddFac l' => Permutation l l'
  | _, _ => c' = c
  end.
(** no pixel is in both faculae *)
Definition facs_apart (s : star) (f g : facula) : Prop :=
  forall j i, pixel (st_grid s) j i -> ~ (fac_covers s f j i /\ fac_covers s g j i).
(** the pixels of [f] are all in [g] *)
Definition fac_under (s : star) (f g : facula) : Prop :=
  forall j i, pixel (st_grid s) j i -> fac_covers s f j i -> fac_covers s g j i.
(** exchanging neighbouring faculae without common pixels, and leaving out faculae that the next
    one covers completely, any number of times *)
Inductive tidied (s : star) : list facula -> list facula -> Prop :=
| tidied_same : forall l, tidied s l l
| tidied_swap : forall l1 f g l2 l, facs_apart s f g -> tidied s (l1 ++ g :: f :: l2) l -> tidied s (l1 ++ f :: g :: l2) l
| tidied_drop : forall l1 f g l2 l, fac_under s f g -> tidied s (l1 ++ g :: l2) l -> tidied s (l1 ++ f :: g :: l2) l.
(** the same spots, in whatever order and however often each *)
Definition same_spots (s s' : star) : Prop :=
  forall x, In x (sc_spots (st_spots s)) <-> In x (sc_spots (st_spots s')).
