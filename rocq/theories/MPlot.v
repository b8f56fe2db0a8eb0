(** Model of [Star.plot_surface] (/repo/vspec_vsm/star.py:627-689) up to the data handed to
    matplotlib/cartopy.  Projection, axes, colour bar and the drawing itself are not
    modelled, nor the [rasterize], [vmin], [vmax] arguments that are passed through. *)
From Coq Require Import Reals ZArith Bool List.
From Verif Require Import Num Py MConfig MHelpers MGrid MSpots MFaculae MXoflares MFlares MGranules MStar.
Import ListNotations.
Open Scope R_scope.

(** star.py:667-679.  SIMPLIFICATION: [display_grid] is modelled for finite data only; other
    cells are replaced by 0 (the theorems assume there are none). *)
Definition fins (a : arr num) : arr R := amap (fun x => match x with Fin r => r | _ => 0 end) a.
(** star.py:687: [np.max] of a non-empty list *)
Definition rmaxl (l : list R) : R := match l with [] => 0 | x :: t => fold_left Rmax t x end.

(** star.py:667-689: the data handed to matplotlib *)
Record plotdata : Type := mkPlot {
  pd_lats : list R; pd_lons : list R;   (* star.py:669-670, degrees *)
  pd_temps : arr num;                   (* star.py:671-672, before transposition *)
  pd_planet : arr num;                  (* star.py:681, 1 or NaN *)
  pd_zorder : Z;                        (* star.py:682 *)
  pd_alpha : arr num }.                 (* star.py:687, before transposition *)

(** star.py:657-687.  The opacity is computed last; [np.max] of an empty array raises
    ValueError. *)
Definition plot_surface (s : star) (lat0 lon0 orbit planet phase incl : R) (nlon nlat : nat)
  : res plotdata :=
  do tm <- get_transit_mask s lat0 lon0 orbit planet phase incl ;;
  do m <- add_faculae_to_map s lat0 lon0 ;;
  do d <- display_grid (st_grid s) nlat nlon (fins m) ;;
  do c <- display_grid (st_grid s) nlat nlon (fins (fst tm)) ;;
  let ld := amap (ld_plot s) (star_mu s lat0 lon0) in
  match cells ld with
  | [] => Raise ValueError
  | _ =>
    Ok {| pd_lats := map rad2deg (fst (fst d)); pd_lons := map rad2deg (snd (fst d));
          pd_temps := snd d;
          pd_planet := amap (fun x => if ngt x (Fin (1/2)) then Fin 1 else NaN) (snd c);
          pd_zorder := if neq (snd tm) (Fin 1) then 100%Z else (-100)%Z;
          pd_alpha := amap (fun l => nsub (Fin 1) (ndiv (Fin l) (Fin (rmaxl (cells ld))))) ld |}
  end.
