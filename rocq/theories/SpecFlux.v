(** Specification vocabulary: the spectrum computed from a coverage report *)
From Coq Require Import Reals ZArith Bool List.
From Verif Require Import Num Py MHelpers MGrid MSpots MFaculae MFlares MGranules MStar Spec SpecStar SpecDisk.
Import ListNotations.
Open Scope R_scope.

(** the entry of a dictionary under a label *)
Definition entry (d : dict tkey num) (k : tkey) : R := match dget tkey_eqb d k with Some (Fin x) => x | _ => 0 end.
(** what a user of the report computes: the entries times the spectrum [F] at their temperature *)
Definition report_flux (label : R -> tkey) (F : R -> R) (ts : list R) (d : dict tkey num) : R :=
  rsum (map (fun t => F t * entry d (label t)) ts).
(** [ts] lists the temperatures of the report without repetition *)
Definition lists_temps (s : star) (M : arr num) (T D : R) (ts : list R) : Prop :=
  NoDup ts /\ forall t, In t ts <-> listed s M T D t.
(** brightness of a pixel: a fraction [f] of the photosphere (temperature [T]) is granules, cooler by [D] *)
Definition pix_flux (F : R -> R) (T D f : R) (M : arr num) (j i : nat) : R :=
  let t := cell_val M j i in if Req_EM_T t T then (1 - f) * F T + f * F (T - D) else F t.
(** the flux of the disk, each pixel counted with the weight [c] *)
Definition disk_flux (s : star) (lat0 lon0 : R) (A M : arr num) (F : R -> R) (T D f : R) (c : nat -> nat -> R) : R :=
  grid_sum (st_grid s) (fun j i => seen s lat0 lon0 A j i * c j i * pix_flux F T D f M j i) / disk s lat0 lon0 A.
