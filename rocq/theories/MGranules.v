(** Model of /repo/vspec_vsm/granules.py.  Time in hours. *)
From Coq Require Import Reals ZArith Bool String List.
From Verif Require Import Num Py.
Import ListNotations.
Open Scope R_scope.

(** granules.py:37-47 [GranulationKernel]: [scale] and [1/period] as 1-d arrays.
    SIMPLIFICATION: finite non-zero periods (freq is a real number); equal lengths. *)
Definition kernel_term (scale freq tau : R) : R :=
  scale * freq * exp (- freq * tau / sqrt 2) * cos (freq * tau / sqrt 2 - PI / 4).
(** granules.py:41-47 [GranulationKernel.evaluate] *)
Definition kernel_eval (comps : list (R * R)) (x1 x2 : R) : R :=
  rsum (map (fun sp => kernel_term (fst sp) (1 / snd sp) (Rabs (x1 - x2))) comps).

(** granules.py:71-82 [save_cast_coverage] *)
Definition save_cast1 (c : num) : num :=
  let c := if nlt c (Fin 0) then Fin 0 else c in
  if ngt c (Fin 1) then Fin 1 else c.
(** granules.py:71-82 [save_cast_coverage] of an array *)
Definition save_cast_coverage (l : list num) : list num := map save_cast1 l.

(** granules.py:108-122: the instance; [params] is a dictionary with string keys *)
Record granulation : Type := mkGran { gr_params : dict string num; gr_dteff : num }.
(** granules.py:108-122 [Granulation.__init__] (the seed is not modelled: samples are
    arguments) *)
Definition gran_init (mean amplitude period dteff : num) : granulation :=
  mkGran [("mean"%string, mean); ("scale"%string, amplitude); ("period"%string, period)] dteff.
(** granules.py:124-142 [off] *)
Definition gran_off : granulation := gran_init (Fin 0) (Fin 0) (Fin 0) (Fin 0).

(** granules.py:37-47 on possibly non-finite parameters, one component (the case built by
    [build_gp]) *)
Definition kernel_num (scale period : num) (x1 x2 : R) : num :=
  let freq := ndiv (Fin 1) period in
  let tau := Fin (Rabs (x1 - x2)) in
  nmul (nmul (nmul scale freq) (nexp (ndiv (nmul (nneg freq) tau) (Fin (sqrt 2)))))
       (ncos (nsub (ndiv (nmul freq tau) (Fin (sqrt 2))) (Fin (PI / 4)))).
(** granules.py:63-68: the arguments of the tinygp [GaussianProcess] *)
Record gproc : Type := mkGP {
  gp_scale : num; gp_period : num; gp_x : list R; gp_diag : R; gp_mean : num }.
(** granules.py:50-68 [build_gp] *)
Definition build_gp (params : dict string num) (X : list R) : res gproc :=
  do scale <- dindex String.eqb params "scale"%string ;;
  do period <- dindex String.eqb params "period"%string ;;
  do mean <- dindex String.eqb params "mean"%string ;;
  Ok (mkGP scale period X 0 mean).
(** granules.py:144-145 [_build_gp] *)
Definition gran_build_gp (g : granulation) (X : list R) : res gproc := build_gp (gr_params g) X.
(** granules.py:63-68: entry [(i, j)] of the covariance matrix tinygp forms from the kernel
    and [diag] (tinygp's documented behaviour, an external dependency) *)
Definition gp_cov (p : gproc) (i j : nat) : option num :=
  match nth_error (gp_x p) i, nth_error (gp_x p) j with
  | Some a, Some b => Some (nadd (kernel_num (gp_scale p) (gp_period p) a b)
                                 (Fin (if Nat.eqb i j then gp_diag p else 0)))
  | _, _ => None
  end.

(** granules.py:147-164 [get_coverage]; [sample] is the value the gaussian process
    library returns (tinygp, an external dependency) for [n] times *)
Definition gran_get_coverage (g : granulation) (n : nat) (sample : nat -> num) : list num :=
  save_cast_coverage (map sample (seq 0 n)).
