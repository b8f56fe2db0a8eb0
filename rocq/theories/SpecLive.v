(** Specification vocabulary: long programs on stars whose generators draw from streams *)
From Coq Require Import Reals ZArith Bool List.
From Verif Require Import Num Py MGrid MSpots MFaculae MFlares MGranules MStar MHeap MRng Spec SpecStar SpecFlare SpecSim SpecRng.
Import ListNotations.
Open Scope R_scope.

(** a sensible call on the star [s]: times forward, spots and faculae that fit, a coverage of
    at most the whole surface *)
Definition sensible_call (s : star) (c : rcall) : Prop :=
  match c with
  | RAge t | RBirthSpots t | RBirthFaculae t => finite_nonneg t
  | RAddSpot l => forall x, In x l -> healthy_spot x /\ spot_on (st_grid s) x
  | RAddFac l => forall f, In f l -> healthy_fac f /\ fc_grid f = st_grid s
  | RMature cov => sg_growth_dim (st_spotgen s) = (-1)%Z /\ exists c, cov = Fin c /\ 0 <= c <= 1
  | RFlares t => 0 < t
  end.
(** the calls that draw until something is found *)
Definition searches (c : rcall) : Prop :=
  match c with RBirthSpots _ | RMature _ => True | _ => False end.

(** from the state [s] on, some round of [n] normal draws has all its values above -5 *)
Inductive ready {St} (np : numpy St) (n : nat) : St -> Prop :=
| ready_now : forall s, List.Forall (fun z => -5 < z) (fst (takes (np_normal np) n s)) -> ready np n s
| ready_later : forall s, ready np n (snd (takes (np_normal np) n s)) -> ready np n s.

(** a call that comes to its end if the draws are [ready]: a search for a coverage needs
    spots that stay as they are (no decay) *)
Definition ends_call (s : star) (c : rcall) : Prop :=
  match c with RMature _ => sg_decay (st_spotgen s) = Fin 0 | _ => True end.
