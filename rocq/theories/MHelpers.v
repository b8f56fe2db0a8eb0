(** Model of /repo/vspec_vsm/helpers.py *)
From Coq Require Import Reals ZArith Bool List.
From Verif Require Import Num Py MConfig.
Import ListNotations.
Open Scope R_scope.

(** helpers.py:11-47 [round_teff]: [int(round(val)) * unit].
    [round(nan)] raises ValueError, [round(inf)] raises OverflowError. *)
Definition round_teff (teff : num) : res Z :=
  match teff with
  | Fin x => Ok (rhe x)
  | NaN => Raise ValueError
  | PInf | NInf => Raise OverflowError
  end.

(** the spherical law of cosines used at helpers.py:100-102, helpers.py:188-190,
    coordinate_grid.py:132-134, spots.py:244-246 and flares.py:643-645
    (angles in radians) *)
Definition law_cos (lat1 lon1 lat2 lon2 : R) : R :=
  sin lat1 * sin lat2 + cos lat1 * cos lat2 * cos (lon1 - lon2).

(** helpers.py:49-103 [get_angle_between] *)
Definition get_angle_between (lat1 lon1 lat2 lon2 : R) : num :=
  nacos (Fin (law_cos lat1 lon1 lat2 lon2)).

(** [np.round(x, 4)] (helpers.py:200): round half to even of [x*10^4], over 10^4 *)
Definition round4 (x : R) : R := IZR (rhe (x * 10000)) / 10000.
(** helpers.py:200 on possibly non-finite values *)
Definition nround4 (x : num) : num :=
  match x with Fin r => Fin (round4 r) | _ => x end.

(** helpers.py:105-220 [proj_ortho], at one point [(lat,lon)] of the arrays
    [lats], [lons] (every operation of the function is elementwise).
    The four isinstance checks (helpers.py:166-173) are not modelled: arguments
    are quantities. *)
Definition proj_ortho (lat0 lon0 : R) (p : R * R) : num * num :=
  let (lat, lon) := p in
  let b := PI/2 - lat0 in
  let c := PI/2 - lat in
  let '(a, C) :=
    if Req_EM_T b 0 then                                   (* helpers.py:181-183 *)
      (Fin c, if Rle_dec c (PI/2) then Fin (PI - lon) else NaN)
    else if Req_EM_T b PI then                             (* helpers.py:184-186 *)
      (Fin c, if Rle_dec (PI/2) c then Fin lon else NaN)
    else                                                   (* helpers.py:187-217 *)
      let mu := law_cos lat0 lon0 lat lon in
      let a := nacos (Fin mu) in
      let nume := nsub (Fin (cos c)) (nmul (ncos a) (Fin (cos b))) in
      let den0 := nmul (nsin a) (Fin (sin b)) in
      let den := if neq den0 (Fin 0) then Fin (1/100000000000000000000) else den0 in
      let cosC := if Rlt_dec mu 1 then ndiv nume den else Fin 1 in
      let cosC := nround4 cosC in
      let C := if Req_EM_T lon lon0 then Fin 0 else nacos cosC in
      let C := if Req_EM_T lon lon0 then (if Rlt_dec lat lat0 then Fin PI else C) else C in
      let C := if Rle_dec 0 mu then C else NaN in
      let C := if Rlt_dec (sin (lon - lon0)) 0 then nneg C else C in
      (a, C) in
  (nmul (nsin C) (nsin a), nmul (ncos C) (nsin a)).

(** helpers.py:275-276, the local function [area] *)
Definition segment_area (rr d : num) : num :=
  nsub (nmul (nsq rr) (nacos (ndiv d rr))) (nmul d (nsqrt (nsub (nsq rr) (nsq d)))).

(** helpers.py:223-282 [calc_circ_fraction_inside_unit_circle] *)
Definition circ_fraction (x y r : num) : res num :=
  let r0 := Fin 1 in
  let d := nsqrt (nadd (nsq (nsub x (Fin 0))) (nsq (nsub y (Fin 0)))) in
  if ngt r (Fin 1) then Raise ValueError
  else if ngt d (nadd r0 r) then Ok (Fin 0)
  else if nle d (nsub r0 r) then Ok (Fin 1)
  else if neq d (Fin 0) && neq r (Fin 1) then Ok (Fin 1)
  else
    let rR := r0 in
    let d1 := ndiv (nadd (nsub (nsq d) (nsq r)) (nsq rR)) (nmul (Fin 2) d) in
    let d2 := ndiv (nsub (nadd (nsq d) (nsq r)) (nsq rR)) (nmul (Fin 2) d) in
    let a1 := segment_area rR d1 in
    let a2 := segment_area r d2 in
    Ok (ndiv (nadd a1 a2) (nmul (Fin PI) (nsq r))).

(** helpers.py:284-314 [clip_teff] (for its warnings see [MWarn.clip_warnings]) *)
Definition clip_teff (teff : num) : num :=
  if ngt teff (Fin TEFF_HI) then Fin TEFF_HI
  else if nlt teff (Fin TEFF_LO) then Fin TEFF_LO
  else teff.
