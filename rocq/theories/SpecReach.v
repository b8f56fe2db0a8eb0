(** Public mutating operations of a star, as a transition relation. *)
From Coq Require Import Reals ZArith List.
From Verif Require Import Num Py MGrid MSpots MFaculae MFlares MStar.
Import ListNotations.
Open Scope R_scope.

(** one successful call that changes a star, other than [get_flares_over_observation] *)
Inductive star_op : star -> star -> Prop :=
| op_age : forall s t s', star_age s t = Ok s' -> star_op s s'
| op_add_spot : forall s l, star_op s (star_add_spot s l)
| op_add_fac : forall s l s', star_add_fac s l = Ok s' -> star_op s s'
| op_birth_spots : forall s t n d fuel s', star_birth_spots s t n d fuel = Ok s' -> star_op s s'
| op_birth_faculae : forall s t n d s', star_birth_faculae s t n d = Ok s' -> star_op s s'
| op_mature : forall s c d rf f s', star_mature_spots s c d rf f = Ok s' -> star_op s s'.
(** any number of them *)
Inductive star_ops : star -> star -> Prop :=
| ops_none : forall s, star_ops s s
| ops_more : forall s s' s'', star_op s s' -> star_ops s' s'' -> star_ops s s''.
