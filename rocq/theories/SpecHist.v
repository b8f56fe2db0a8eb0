(** Specification vocabulary: the whole history of a star *)
From Coq Require Import Reals ZArith Bool List.
From Verif Require Import Num Py MGrid MSpots MFaculae MFlares MGranules MStar Spec SpecStar SpecDisk SpecFrame.
Import ListNotations.
Open Scope R_scope.

(** what happened: time passed (days), spots or faculae appeared *)
Inductive happening : Type :=
| Wait (t : R)
| NewSpots (l : list spot)
| NewFacs (l : list facula).

(** a sequence of successful calls on a star, with what happened: [l] is what the call put at
    the end of the list of spots or faculae *)
Inductive history : star -> list happening -> star -> Prop :=
| hist_start : forall s, history s [] s
| hist_age : forall s t s1 h s', star_age s (Fin t) = Ok s1 -> history s1 h s' -> history s (Wait t :: h) s'
| hist_spots : forall s s1 l h s',
    (exists l0, star_add_spot s l0 = s1)
    \/ (exists t n d fuel, star_birth_spots s t n d fuel = Ok s1)
    \/ (exists c d rf fuel, star_mature_spots s c d rf fuel = Ok s1) ->
    sc_spots (st_spots s1) = sc_spots (st_spots s) ++ l ->
    history s1 h s' -> history s (NewSpots l :: h) s'
| hist_facs : forall s s1 l h s',
    (exists l0, star_add_fac s l0 = Ok s1) \/ (exists t n d, star_birth_faculae s t n d = Ok s1) ->
    fcc_facs (st_facs s1) = fcc_facs (st_facs s) ++ l ->
    history s1 h s' -> history s (NewFacs l :: h) s'
| hist_flares : forall s t n d s1 h s', star_get_flares s t n d = Ok s1 -> history s1 h s' -> history s h s'.

(** the times waited *)
Fixpoint waits (h : list happening) : list R :=
  match h with [] => [] | Wait t :: r => t :: waits r | _ :: r => waits r end.
(** the groups of spots (faculae) that appeared, each with the times waited since *)
Fixpoint spot_groups (h : list happening) : list (list spot * list R) :=
  match h with [] => [] | NewSpots l :: r => (l, waits r) :: spot_groups r | _ :: r => spot_groups r end.
Fixpoint fac_groups (h : list happening) : list (list facula * list R) :=
  match h with [] => [] | NewFacs l :: r => (l, waits r) :: fac_groups r | _ :: r => fac_groups r end.
(** what is left of a group: each member aged ONCE by the total time, the dead ones gone *)
Definition spots_left (gr : list spot * list R) (l' : list spot) : Prop :=
  match snd gr with
  | [] => l' = fst gr
  | ts => exists aged, Forall2 (fun s s' => spot_age s (Fin (rsum ts)) = Ok s') (fst gr) aged /\ keeps spot_alive aged l'
  end.
Definition facs_left (gr : list facula * list R) (l' : list facula) : Prop :=
  match snd gr with
  | [] => l' = fst gr
  | ts => keeps fac_alive (map (fun f => fac_age f (Fin (rsum ts))) (fst gr)) l'
  end.
(** sensible times, spots and faculae *)
Definition sensible_history (h : list happening) : Prop :=
  forall x, In x h -> match x with
                      | Wait t => 0 <= t
                      | NewSpots l => forall s, In s l -> spot_wf s
                      | NewFacs l => forall f, In f l -> fac_wf f
                      end.
