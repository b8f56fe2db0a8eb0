(** Specification vocabulary for the kinds of grids (no proofs) *)
From Verif Require Import MGrid.

(** the grid is a spiral of points (and not rectangular) *)
Definition is_spiral (g : grid) : Prop := match g with Spiral _ => True | Rect _ _ => False end.
