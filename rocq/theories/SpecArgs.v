(** Vocabulary for C112-C114: arguments of other kinds *)
From Coq Require Import Reals ZArith Bool List.
From Verif Require Import Num Py MConfig MHelpers MGrid MSpots MFaculae MXoflares MFlares MGranules MStar MWarn MHeap MUnits MArgs.
Import ListNotations.
Open Scope R_scope.

(** the same grid, and the same argument, with integers for natural numbers *)
Definition lift (g : grid) : pgrid :=
  match g with Rect a b => PRect (Z.of_nat a) (Z.of_nat b) | Spiral n => PSpiral (Z.of_nat n) end.
Fixpoint liftv (v : pyval) : gval :=
  match v with PyInt n => GInt (Z.of_nat n) | PyTuple l => GTuple (map liftv l) | PyOther => GOther end.
Definition lift_res (r : res grid) : res pgrid := match r with Ok g => Ok (lift g) | Raise e => Raise e end.
(** a grid of one of the two classes with sizes that are not negative *)
Definition sizes_ok (g : pgrid) : Prop :=
  match g with PRect a b => (0 <= a /\ 0 <= b)%Z | PSpiral n => (0 <= n)%Z | PBase => False end.
Definition is_rect (g : pgrid) : Prop := exists a b, g = PRect a b.
Definition is_spiral (g : pgrid) : Prop := exists n, g = PSpiral n.
(** an array of the shape (rows, cols) *)
Definition has_shape {A} (a : arr A) (rows cols : Z) : Prop :=
  exists r c, arr_shape a = (true, (r, c)) /\ Z.of_nat r = rows /\ Z.of_nat c = cols.

(** the spot or facula with another grid attribute; distances computed before stay *)
Definition on_grid (s : spot) (g : grid) : spot :=
  mkSpot (sp_lat s) (sp_lon s) (sp_area_max s) (sp_area s) (sp_teff_umbra s) (sp_teff_pen s) (sp_ratio s) (sp_growing s)
    (sp_growth s) (sp_growth_dim s) (sp_decay s) g (sp_r s).
Definition fac_on_grid (f : facula) (g : grid) : facula := fac_assign_grid f g.
(** a call changed the grid of the spots in [l] to [g] and the collection [c] to [v], and nothing else *)
Definition spots_changed (w w' : world) (l : list nat) (g : grid) (c : nat) (v : list nat * grid) : Prop :=
  (forall k, In k l -> w_spot w' k = on_grid (w_spot w k) g) /\ (forall k, ~ In k l -> w_spot w' k = w_spot w k)
  /\ w_sc w' c = v /\ (forall k, k <> c -> w_sc w' k = w_sc w k)
  /\ w_nspot w' = w_nspot w /\ w_fac w' = w_fac w /\ w_nfac w' = w_nfac w /\ w_fc w' = w_fc w /\ w_sg w' = w_sg w /\ w_fg w' = w_fg w.
Definition facs_changed (w w' : world) (l : list nat) (g : grid) (c : nat) (v : list nat * grid) : Prop :=
  (forall k, In k l -> w_fac w' k = fac_on_grid (w_fac w k) g) /\ (forall k, ~ In k l -> w_fac w' k = w_fac w k)
  /\ w_fc w' c = v /\ (forall k, k <> c -> w_fc w' k = w_fc w k)
  /\ w_nspot w' = w_nspot w /\ w_spot w' = w_spot w /\ w_nfac w' = w_nfac w /\ w_sc w' = w_sc w /\ w_sg w' = w_sg w /\ w_fg w' = w_fg w.
(** the argument contains the objects [l] of the right class and nothing else: one object, or a sequence of them *)
Definition gives {A} (arg : argument A) (l : list A) : Prop := (exists x, arg = AOne x /\ l = [x]) \/ arg = ASeq (map Good l).
(** the objects [l], then something else, as a sequence or from an iterator *)
Definition gives_then {A} (arg : argument A) (l : list A) (x : item A) : Prop :=
  exists t, arg = ASeq (map Good l ++ x :: t) \/ arg = AOnce (map Good l ++ x :: t).
(** faculae on a rectangular grid are refused by collections on a spiral grid *)
Definition refused (f : facula) (g : grid) : Prop := (exists a b, fc_grid f = Rect a b) /\ exists n, g = Spiral n.
(** the flare may be seen in the time between [a] and [b]: from 10 widths before to 20 widths after the peak *)
Definition in_window (a b : R) (f : flare) : Prop :=
  ngt (nadd (Fin (fl_tpeak f)) (nmul (Fin 20) (fl_fwhm f))) (Fin a) = true
  /\ nlt (nsub (Fin (fl_tpeak f)) (nmul (Fin 10) (fl_fwhm f))) (Fin b) = true.
(** a quantity with a value and a unit, and an angle given as such *)
Definition angle_arg (x : option (R * uni)) (a : R) : Prop :=
  exists v q, x = Some (v, q) /\ udim q = DAng /\ v * usize q = a.
