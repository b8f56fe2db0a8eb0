(** Specification vocabulary: stars that share objects, and stars that do not *)
From Coq Require Import Reals ZArith Bool List.
From Verif Require Import Num Py MGrid MSpots MFaculae MFlares MGranules MStar MHeap.
Import ListNotations.
Open Scope R_scope.

(** the spots and faculae of a star, by address *)
Definition spots_of (w : world) (s : hstar) : list nat := fst (w_sc w (hs_sc s)).
Definition facs_of (w : world) (s : hstar) : list nat := fst (w_fc w (hs_fc s)).
(** no spot and no facula is in the star twice, and all of them exist *)
Definition tidy (w : world) (s : hstar) : Prop :=
  NoDup (spots_of w s) /\ NoDup (facs_of w s) /\
  (forall l, In l (spots_of w s) -> (l < w_nspot w)%nat) /\
  (forall l, In l (facs_of w s) -> (l < w_nfac w)%nat).
(** two stars without a collection, spot or facula in common (generators may be shared) *)
Definition apart (w : world) (s o : hstar) : Prop :=
  hs_sc s <> hs_sc o /\ hs_fc s <> hs_fc o /\
  (forall l, In l (spots_of w s) -> ~ In l (spots_of w o)) /\
  (forall l, In l (facs_of w s) -> ~ In l (facs_of w o)).
(** the calls made on star [i] by a program *)
Definition calls_on (i : nat) (prog : list (nat * cmd)) : list cmd :=
  map snd (filter (fun p => Nat.eqb (fst p) i) prog).
(** [n] calls of a method one after the other *)
Fixpoint repeat_call {A} (n : nat) (f : A -> res A) (a : A) : res A :=
  match n with O => Ok a | S n => do b <- f a ;; repeat_call n f b end.
(** how often the object at address [l] is in the list *)
Definition times_in (l : nat) (ls : list nat) : nat := count_occ Nat.eq_dec ls l.
