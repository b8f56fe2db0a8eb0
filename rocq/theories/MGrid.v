(** Model of /repo/vspec_vsm/coordinate_grid.py
    SIMPLIFICATION: sizes are natural numbers (numpy rejects negative sizes later). *)
From Coq Require Import Reals ZArith Bool List.
From Verif Require Import Num Py MConfig MHelpers.
Import ListNotations.
Open Scope R_scope.

(** [np.linspace(a, b, n)] (coordinate_grid.py:25, spots.py:248, xoflares.py:137,
    flares.py:683) *)
Definition linspace (a b : R) (n : nat) : list R :=
  map (fun i => a + INR i * ((b - a) / INR (n - 1))) (seq 0 n).
(** [np.linspace(a, b, n, endpoint=False)] (coordinate_grid.py:43) *)
Definition linspace_open (a b : R) (n : nat) : list R :=
  map (fun i => a + INR i * ((b - a) / INR n)) (seq 0 n).

(** coordinate_grid.py:11-26, degrees *)
Definition get_lat_points (n : nat) : list R := linspace (-90) 90 n.
(** coordinate_grid.py:29-44, degrees *)
Definition get_lon_points (n : nat) : list R := linspace_open 0 360 n.

(** the two concrete subclasses (coordinate_grid.py:219, 408) with their attributes *)
Inductive grid : Type :=
| Rect (nlat nlon : nat)
| Spiral (n : nat).

(** coordinate_grid.py:56-85, 266-272: Python values that can be passed as [grid_params] *)
Inductive pyval : Type :=
| PyInt (n : nat)
| PyTuple (l : list pyval)
| PyOther.

(** coordinate_grid.py:266-272 [RectangularGrid.__init__] *)
Definition rect_init (nlat nlon : pyval) : res grid :=
  match nlat with
  | PyInt a => match nlon with
               | PyInt b => Ok (Rect a b)
               | _ => Raise TypeError
               end
  | _ => Raise TypeError
  end.

(** coordinate_grid.py:56-85 [CoordinateGrid.new]; [RectangularGrid( *grid_params )]
    fills missing arguments with the defaults 500, 1000 and rejects more than two *)
Definition grid_new (g : pyval) : res grid :=
  match g with
  | PyInt n => Ok (Spiral n)
  | PyTuple [] => rect_init (PyInt 500) (PyInt 1000)
  | PyTuple [a] => rect_init a (PyInt 1000)
  | PyTuple [a; b] => rect_init a b
  | PyTuple _ => Raise TypeError
  | PyOther => Raise TypeError
  end.

(** coordinate_grid.py:274-288 [RectangularGrid.oned], degrees *)
Definition rect_oned (nlat nlon : nat) : list R * list R :=
  (get_lat_points nlat, get_lon_points nlon).

(** coordinate_grid.py:413 *)
Definition GOLDEN_RATIO : R := 1/2 * (1 + sqrt 5).
(** Python/numpy [x % m] for [m > 0] (coordinate_grid.py:436) *)
Definition rmod (x m : R) : R := x - m * IZR (Int_part (x / m)).

(** coordinate_grid.py:418-439, the i-th point, radians *)
Definition spiral_lon (i : nat) : R := rmod (2 * PI * INR i / GOLDEN_RATIO) (2 * PI).
(** coordinate_grid.py:437 *)
Definition spiral_colat (n i : nat) : R := acos (1 - 2 * (INR i + 1/2) / INR n).
(** coordinate_grid.py:438 *)
Definition spiral_lat (n i : nat) : R := PI/2 - spiral_colat n i.

(** coordinate_grid.py:87-98 [grid], :290-303 [RectangularGrid._grid] (np.meshgrid of
    latitudes and longitudes: row j = longitude j), :418-439 [SpiralGrid._grid].
    Each cell holds (lat, lon) in radians. *)
Definition grid_points (g : grid) : arr (R * R) :=
  match g with
  | Rect nlat nlon =>
      let (lats, lons) := rect_oned nlat nlon in
      mkArr true (map (fun lon => map (fun lat => (deg2rad lat, deg2rad lon)) lats) lons)
  | Spiral n => mkArr false [map (fun i => (spiral_lat n i, spiral_lon i)) (seq 0 n)]
  end.

(** coordinate_grid.py:159-174, 305-320, 441-442 [zeros] *)
Definition grid_zeros (g : grid) : arr num :=
  match g with
  | Rect nlat nlon => mkArr true (repeat (repeat (Fin 0) nlat) nlon)
  | Spiral n => mkArr false [repeat (Fin 0) n]
  end.

(** coordinate_grid.py:100-135 [cos_angle_from_disk_center] *)
Definition grid_mu (g : grid) (lat0 lon0 : R) : arr R :=
  amap (fun p => law_cos lat0 lon0 (fst p) (snd p)) (grid_points g).

(** coordinate_grid.py:137-153 [area]; :347-361 [RectangularGrid._area]
    ([np.sin(latgrid + 90 deg)] over its sum); :444-449 [SpiralGrid._area]
    ([zeros + 1/n_points], a Python int division) *)
Definition grid_area (g : grid) : res (arr num) :=
  match g with
  | Rect _ _ =>
      let jac := amap (fun p => sin (fst p + deg2rad 90)) (grid_points g) in
      let norm := rsum (cells jac) in
      Ok (amap (fun j => ndiv (Fin j) (Fin norm)) jac)
  | Spiral 0 => Raise ZeroDivisionError
  | Spiral n => Ok (amap (fun z => nadd z (Fin (1 / INR n))) (grid_zeros g))
  end.

(** coordinate_grid.py:363-385, degrees *)
Definition dlat (nlat : nat) : num := ndiv (Fin 180) (Fin (INR nlat - 1)).
(** coordinate_grid.py:375-385, degrees *)
Definition dlon (nlon : nat) : num := ndiv (Fin 360) (Fin (INR nlon)).

(** coordinate_grid.py:322-345 and 451-460 [__eq__]; [None] = not a grid *)
Definition grid_eq (self : grid) (other : option grid) : res bool :=
  match self, other with
  | Rect a b, Some (Rect a' b') => Ok (Nat.eqb a a' && Nat.eqb b b')
  | Rect _ _, _ => Raise TypeError
  | Spiral n, Some (Spiral n') => Ok (Nat.eqb n n')
  | Spiral _, Some (Rect _ _) => Ok false
  | Spiral _, None => Raise TypeError
  end.
(** star.py:147, 162: Python derives [!=] from [__eq__] (coordinate_grid.py:322-345, 451-460) *)
Definition grid_ne (self : grid) (other : option grid) : res bool :=
  do b <- grid_eq self other ;; Ok (negb b).

(** coordinate_grid.py:462-493 [SpiralGrid._display_grid]: gaussian-weighted mean at
    one output point *)
Definition char_len (n : nat) : R := 1 / sqrt (INR n / (4 * PI)).
(** coordinate_grid.py:462-493: the gaussian weight of a source point *)
Definition display_weight (n : nat) (src out : R * R) : R :=
  let r := acos (law_cos (fst src) (snd src) (fst out) (snd out)) in
  exp (- (r / char_len n) ^ 2).
(** coordinate_grid.py:462-493: the weighted mean at one output point *)
Definition spiral_resample (n : nat) (data : list R) (out : R * R) : num :=
  let ws := map (fun src => display_weight n src out) (cells (grid_points (Spiral n))) in
  let nume := rsum (map (fun p => fst p * snd p) (combine ws data)) in
  let deno := rsum (map fst (combine ws data)) in
  ndiv (Fin nume) (Fin deno).

(** coordinate_grid.py:184-216 [display_grid] with :387-405 and :462-493;
    returns latitudes, longitudes (radians) and the data array *)
Definition display_grid (g : grid) (nlat nlon : nat) (data : arr R)
  : res (list R * list R * arr num) :=
  match g with
  | Rect glat glon =>
      let '(nd, (rows, cols)) := arr_shape data in
      if negb nd then Raise TypeError
      else if negb (Nat.eqb rows nlon) then Raise TypeError
      else if negb (Nat.eqb cols nlat) then Raise TypeError
      else let (lats, lons) := rect_oned glat glon in
           Ok (map deg2rad lats, map deg2rad lons, amap Fin data)
  | Spiral n =>
      let '(nd, (_, cols)) := arr_shape data in
      if nd then Raise ValueError
      else if negb (Nat.eqb cols n) then Raise ValueError
      else let (lats, lons) := rect_oned nlat nlon in
           Ok (map deg2rad lats, map deg2rad lons,
               amap (spiral_resample n (cells data)) (grid_points (Rect nlat nlon)))
  end.
