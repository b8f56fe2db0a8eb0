(** Properties C01-C06, C61, C62: coordinate grids.  Statements are in terms of the
    modelled API ([grid_area], [grid_points], ...) and of Spec.v. *)
From Coq Require Import Reals ZArith List Lra Lia.
From Verif Require Import Num Py MConfig MHelpers MGrid Spec LBase LGrid.
Import ListNotations.
Open Scope R_scope.

(** C01: areas of the rectangular grid *)
@THM C01_rect_area C01_lemma
Example C01_rect_area_nonvacuous : (3 <= 5)%nat /\ (1 <= 4)%nat.
Proof. lia. Qed.
(** C01: with a single latitude the areas are all NaN *)
@THM C01_rect_area_nan C01_nan_lemma

(** C02: points of the rectangular grid *)
@THM C02_rect_points C02_lemma
Example C02_rect_points_nonvacuous : exists lats lons,
  (2 <= 5)%nat /\ (1 <= 7)%nat /\ rect_oned 5 7 = (lats, lons).
Proof. do 2 eexists; repeat split; lia. Qed.

(** C03: points and areas of the spiral grid *)
@THM C03_spiral C03_lemma
Example C03_spiral_nonvacuous : (1 <= 11)%nat. Proof. lia. Qed.
@THM C03_spiral_zero C03_zero_lemma

(** C04: [CoordinateGrid.new] *)
@THM C04_grid_new C04_lemma
Example C04_reject_nonvacuous : grid_new (PyTuple [PyInt 3; PyOther]) = Raise TypeError
  /\ grid_new (PyTuple [PyInt 3; PyInt 3; PyInt 3]) = Raise TypeError.
Proof. split; reflexivity. Qed.

(** C05: equality of grids *)
@THM C05_grid_eq C05_lemma

(** C06: cosine of the angle from disk centre *)
@THM C06_mu C06_lemma
Example C06_mu_nonvacuous : exists lat lon,
  (2 < length (arows (grid_points (Rect 5 4))))%nat
  /\ (3 < length (nth 2 (arows (grid_points (Rect 5 4))) []))%nat
  /\ acell (grid_points (Rect 5 4)) 2 3 (0, 0) = (lat, lon).
Proof. do 2 eexists. split; [|split]; [| | apply surjective_pairing]; unfold grid_points; simpl; lia. Qed.

(** C61: [display_grid] of a spiral grid is a weighted mean *)
@THM C61_display_spiral C61_lemma
Example C61_nonvacuous : (1 <= 3)%nat /\ length [1; 2; 3] = 3%nat.
Proof. simpl; lia. Qed.
@THM C61_display_spiral_reject C61_reject_lemma

(** C62: [display_grid] of a rectangular grid *)
@THM C62_display_rect C62_lemma
Example C62_nonvacuous : (1 <= 2)%nat /\ has_shape (mkArr true [[1; 2; 3]; [4; 5; 6]]) true 2 3.
Proof. split; [lia|]. repeat split. simpl. intros r [<- | [<- | []]]; reflexivity. Qed.
