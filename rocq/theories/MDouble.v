(** Double precision.  The areas and fractions of the report are float64 numbers: every operation on them
    rounds its result.  This file models the part of [Star.calc_coverage] that makes the report from the map and
    the arrays of pixel weights (star.py:550-573) with this rounding.
    SIMPLIFICATIONS: the arrays themselves (limb darkening, projected areas, covered fractions) are arguments;
    the order in which numpy adds the elements of an array, which depends on its version and on the
    processor, is an argument too. *)
From Coq Require Import Reals ZArith Bool String List.
From Verif Require Import Num Py MConfig MHelpers MGrid MSpots MFaculae MXoflares MFlares MGranules MStar MSingle.
Import ListNotations.
Open Scope R_scope.

(** numpy float64 (star.py:553-571): the exponent of the last binary digit of a double near [x] *)
Definition f64_exp (x : R) : Z := Z.max (Int_part (ln (Rabs x) / ln 2) - 52) (-1074).
(** numpy float64 (star.py:553-571): the multiple of 2^exponent next to [x], ties to even *)
Definition f64_round (x : R) : R :=
  if Req_EM_T x 0 then 0 else IZR (rhe (x / powerRZ 2 (f64_exp x))) * powerRZ 2 (f64_exp x).
(** numpy float64 (star.py:553-571): the double of a number; from 2^1024 on it is infinite *)
Definition f64 (x : num) : num :=
  match x with
  | Fin r => let y := f64_round r in
      if Rleb (powerRZ 2 1024) y then PInf else if Rleb y (- powerRZ 2 1024) then NInf else Fin y
  | y => y
  end.
(** star.py:553-557, 568, 571: sums *)
Definition add64 (a b : num) : num := f64 (nadd a b).
(** star.py:560, 567, 570: differences *)
Definition sub64 (a b : num) : num := f64 (nsub a b).
(** star.py:553-571: products *)
Definition mul64 (a b : num) : num := f64 (nmul a b).
(** star.py:558-559: quotients *)
Definition div64 (a b : num) : num := f64 (ndiv a b).

(** numpy (star.py:553, 556-557): an order of summation, by the indices of the elements *)
Inductive sumtree : Type := SLeaf (i : nat) | SNode (a b : sumtree).
(** numpy (star.py:553, 556-557): the sum in this order, rounding after each addition *)
Fixpoint sum_tree (o : sumtree) (l : list num) : num :=
  match o with
  | SLeaf i => nth i l NaN
  | SNode a b => add64 (sum_tree a l) (sum_tree b l)
  end.
(** numpy (star.py:553, 556-557): [np.sum]; [ord] gives the order for each length *)
Definition sum64 (ord : nat -> sumtree) (l : list num) : num :=
  match l with [] => Fin 0 | _ => sum_tree (ord (length l)) l end.

(** star.py:555-559: one temperature *)
Definition coverage_step64 (ord : nat -> sumtree) (smap ld proj covered : arr num) (total : num)
  (acc : dict tkey num * dict tkey num) (teff : num) : res (dict tkey num * dict tkey num) :=
  let pix := amap (fun t => Fin (if neq t teff then 1 else 0)) smap in
  do a <- amap2 mul64 pix ld ;;
  do a <- amap2 mul64 a proj ;;
  do c <- amap2 mul64 a covered ;;
  let nominal := sum64 ord (cells a) in
  let cov := sum64 ord (cells c) in
  Ok (dset tkey_eqb (fst acc) (fmt2 teff) (div64 nominal total),
      dset tkey_eqb (snd acc) (fmt2 teff) (div64 cov total)).
(** star.py:554-559, the loop *)
Fixpoint coverage_loop64 ord smap ld proj covered total acc (teffs : list num)
  : res (dict tkey num * dict tkey num) :=
  match teffs with
  | [] => Ok acc
  | t :: rest =>
      do acc' <- coverage_step64 ord smap ld proj covered total acc t ;;
      coverage_loop64 ord smap ld proj covered total acc' rest
  end.
(** star.py:566-571: move the granulation fraction of the photosphere entry *)
Definition granulate64 (d : dict tkey num) (kphot kgran : tkey) (g : num) : res (dict tkey num) :=
  do phot <- dindex tkey_eqb d kphot ;;
  let d := dset tkey_eqb d kphot (mul64 phot (sub64 (Fin 1) g)) in
  do old <- dindex tkey_eqb d kgran ;;
  Ok (dset tkey_eqb d kgran (add64 old (mul64 phot g))).
(** star.py:550-573, the second half of [calc_coverage]: the map, limb darkening, projected areas and covered
    fractions of the pixels, the temperatures of the star and of the granulation contrast, and the granulation
    fraction.  The elements of [teffs] are single-precision numbers, see [MSingle.calc_coverage32] *)
Definition report64 (ord : nat -> sumtree) (smap ld proj covered : arr num) (teff dteff g : num)
  : res (dict tkey num * dict tkey num) :=
  let teffs := nunique (cells smap) in
  do lp <- amap2 mul64 ld proj ;;
  let total := sum64 ord (cells lp) in
  do tc <- coverage_loop64 ord smap ld proj covered total ([], []) teffs ;;
  let '(tot, cov) := tc in
  let gteff := sub64 teff dteff in
  let new := negb (existsb (fun t => neq (f32 gteff) t) teffs) in
  let tot := if new then dset tkey_eqb tot (fmt2 gteff) (Fin 0) else tot in
  let cov := if new then dset tkey_eqb cov (fmt2 gteff) (Fin 0) else cov in
  do tot <- granulate64 tot (fmt2 teff) (fmt2 gteff) g ;;
  do cov <- granulate64 cov (fmt2 teff) (fmt2 gteff) g ;;
  Ok (tot, cov).

(** star.py:302-310 [ld_mask_for_plotting], one pixel *)
Definition ld64 (u1 u2 mu : num) : num :=
  if nlt mu (Fin 0) then Fin 0
  else let d := sub64 (Fin 1) mu in sub64 (sub64 (Fin 1) (mul64 u1 d)) (mul64 u2 (mul64 d d)).
(** star.py:285-300 [area_projection_coefficient], one pixel *)
Definition proj64 (mu : num) : num := if ngt mu (Fin 0) then mu else Fin 0.
(** star.py:533-573 [calc_coverage]: from the cosines [mu] of the angles from the disk centre (star.py:533), the areas
    [jac] of the pixels (star.py:537), the map (star.py:540) and the covered fractions (star.py:542) on *)
Definition coverage64 (ord : nat -> sumtree) (u1 u2 : num) (mu jac smap covered : arr num) (teff dteff g : num)
  : res (dict tkey num * dict tkey num) :=
  do proj <- amap2 mul64 jac (amap proj64 mu) ;;
  report64 ord smap (amap (ld64 u1 u2) mu) proj covered teff dteff g.
