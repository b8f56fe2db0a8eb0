(** Ageing in double precision.  [Facula.age] (faculae.py:200-226) and [StarSpot.age] (spots.py:255-317)
    with the rounding of every operation.
    SIMPLIFICATIONS: the times are in the unit of the lifetime (astropy converts them otherwise); numpy's
    [exp] and [log], which depend on its version and on the processor, are arguments. *)
From Coq Require Import Reals ZArith Bool String List.
From Verif Require Import Num Py MConfig MHelpers MGrid MSpots MFaculae MXoflares MFlares MGranules MStar MSingle MDouble.
Import ListNotations.
Open Scope R_scope.

(** faculae.py:222, 224, 226 [np.exp]; [ex] is what the library computes before the last rounding *)
Definition exp64 (ex : R -> R) (a : num) : num :=
  match a with Fin x => f64 (Fin (ex x)) | PInf => PInf | NInf => Fin 0 | NaN => NaN end.
(** faculae.py:218 [np.log]; [lg] is what the library computes before the last rounding *)
Definition log64 (lg : R -> R) (a : num) : num :=
  match a with
  | Fin x => if Rlt_dec x 0 then NaN else if Req_EM_T x 0 then NInf else f64 (Fin (lg x))
  | PInf => PInf | NInf => NaN | NaN => NaN
  end.
(** faculae.py:200-226 [Facula.age] *)
Definition fac_age64 (ex lg : R -> R) (f : facula) (time : num) : facula :=
  if fc_growing f then
    let time_from_max :=
      mul64 (mul64 (mul64 (Fin (-1)) (log64 lg (div64 (fc_radius f) (fc_rmax f)))) (fc_life f)) (Fin (1/2)) in
    if nle time_from_max time then
      let time' := sub64 time time_from_max in
      fac_with f (mul64 (fc_rmax f) (exp64 ex (div64 (mul64 (Fin (-2)) time') (fc_life f)))) false
    else
      fac_with f (mul64 (fc_radius f) (exp64 ex (div64 (mul64 (Fin 2) time) (fc_life f)))) true
  else
    fac_with f (mul64 (fc_radius f) (exp64 ex (div64 (mul64 (Fin (-2)) time) (fc_life f)))) false.

(** spots.py:255-317 [StarSpot.age].  SIMPLIFICATIONS as above: times in days, areas in MSH, growth rates per day, decay
    rates in MSH per day (a growth rate of another dimension raises as in [MSpots.spot_age]) *)
Definition spot_age64 (ex lg : R -> R) (s : spot) (time : num) : res spot :=
  if sp_growing s then
    if negb (Z.eqb (sp_growth_dim s) (-1)) then Raise UnitConversionError
    else
      let tau := log64 lg (add64 (sp_growth s) (Fin 1)) in
      let time_to_max :=
        if neq tau (Fin 0) then PInf
        else div64 (log64 lg (div64 (sp_area_max s) (sp_area s))) tau in
      if ngt time_to_max time then
        Ok (spot_with_area s (mul64 (sp_area s) (exp64 ex (mul64 tau time))) true)
      else
        let decay_time := sub64 time time_to_max in
        let area_decay := mul64 decay_time (sp_decay s) in
        if ngt area_decay (sp_area_max s)
        then Ok (spot_with_area s (Fin 0) false)
        else Ok (spot_with_area s (sub64 (sp_area_max s) area_decay) false)
  else
    let area_decay := mul64 time (sp_decay s) in
    if ngt area_decay (sp_area_max s)
    then Ok (spot_with_area s (Fin 0) false)
    else Ok (spot_with_area s (sub64 (sp_area s) area_decay) false).
