(** Properties C01-C06, C61, C62: coordinate grids.  Statements are in terms of the
    modelled API ([grid_area], [grid_points], ...) and of Spec.v. *)
From Coq Require Import Reals ZArith List Lra Lia.
From Verif Require Import Num Py MConfig MHelpers MGrid Spec LBase LGrid.
Import ListNotations.
Open Scope R_scope.

(** C01: areas of the rectangular grid *)
Theorem C01_rect_area :
  forall nlat nlon, (3 <= nlat)%nat -> (1 <= nlon)%nat ->
  exists A k, grid_area (Rect nlat nlon) = Ok A
  /\ has_shape A true nlon nlat
  /\ 0 < k
  /\ (forall j i, (j < nlon)%nat -> (i < nlat)%nat ->
        exists a, acell A j i NaN = Fin a /\ 0 <= a
          /\ a = k * cos (- PI/2 + INR i * (PI / INR (nlat - 1)))
          /\ (a = 0 <-> i = 0%nat \/ i = (nlat - 1)%nat))
  /\ nsum (cells A) = Fin 1.
Proof. exact C01_lemma. Qed.
Print Assumptions C01_rect_area.
Example C01_rect_area_nonvacuous : (3 <= 5)%nat /\ (1 <= 4)%nat.
Proof. lia. Qed.
(** C01: with a single latitude the areas are all NaN *)
Theorem C01_rect_area_nan :
  forall nlon, exists A, grid_area (Rect 1 nlon) = Ok A
  /\ has_shape A true nlon 1 /\ (forall x, In x (cells A) -> x = NaN).
Proof. exact C01_nan_lemma. Qed.
Print Assumptions C01_rect_area_nan.

(** C02: points of the rectangular grid *)
Theorem C02_rect_points :
  forall nlat nlon lats lons, (2 <= nlat)%nat -> (1 <= nlon)%nat ->
  rect_oned nlat nlon = (lats, lons) ->
  length lats = nlat /\ length lons = nlon
  /\ nth 0 lats 0 = -90 /\ nth (nlat - 1) lats 0 = 90
  /\ (exists d, dlat nlat = Fin d /\ 0 < d
        /\ forall i, (S i < nlat)%nat -> nth (S i) lats 0 - nth i lats 0 = d)
  /\ nth 0 lons 0 = 0
  /\ (exists d, dlon nlon = Fin d /\ 0 < d
        /\ (forall j, (S j < nlon)%nat -> nth (S j) lons 0 - nth j lons 0 = d)
        /\ nth (nlon - 1) lons 0 = 360 - d)
  /\ (forall j, (j < nlon)%nat -> 0 <= nth j lons 0 < 360)
  /\ has_shape (grid_points (Rect nlat nlon)) true nlon nlat
  /\ (forall j i, (j < nlon)%nat -> (i < nlat)%nat ->
        acell (grid_points (Rect nlat nlon)) j i (0, 0)
        = (nth i lats 0 * PI / 180, nth j lons 0 * PI / 180))
  /\ has_shape (grid_zeros (Rect nlat nlon)) true nlon nlat
  /\ (forall x, In x (cells (grid_zeros (Rect nlat nlon))) -> x = Fin 0).
Proof. exact C02_lemma. Qed.
Print Assumptions C02_rect_points.
Example C02_rect_points_nonvacuous : exists lats lons,
  (2 <= 5)%nat /\ (1 <= 7)%nat /\ rect_oned 5 7 = (lats, lons).
Proof. do 2 eexists; repeat split; lia. Qed.

(** C03: points and areas of the spiral grid *)
Theorem C03_spiral :
  forall n, (1 <= n)%nat ->
  has_shape (grid_points (Spiral n)) false 1 n
  /\ (forall i, (i < n)%nat -> exists lat lon,
        acell (grid_points (Spiral n)) 0 i (0, 0) = (lat, lon)
        /\ - PI/2 < lat < PI/2
        /\ sin lat = 1 - (2 * INR i + 1) / INR n
        /\ 0 <= lon < 2 * PI
        /\ (exists k : Z, lon = 2 * PI * INR i / ((1 + sqrt 5) / 2) - 2 * PI * IZR k))
  /\ (forall i, (S i < n)%nat ->
        fst (acell (grid_points (Spiral n)) 0 (S i) (0, 0)) < fst (acell (grid_points (Spiral n)) 0 i (0, 0)))
  /\ (forall i, (i < n)%nat ->
        fst (acell (grid_points (Spiral n)) 0 (n - 1 - i) (0, 0)) = - fst (acell (grid_points (Spiral n)) 0 i (0, 0)))
  /\ exists A, grid_area (Spiral n) = Ok A /\ has_shape A false 1 n
      /\ (forall x, In x (cells A) -> x = Fin (1 / INR n)) /\ nsum (cells A) = Fin 1.
Proof. exact C03_lemma. Qed.
Print Assumptions C03_spiral.
Example C03_spiral_nonvacuous : (1 <= 11)%nat. Proof. lia. Qed.
Theorem C03_spiral_zero :
  grid_area (Spiral 0) = Raise ZeroDivisionError.
Proof. exact C03_zero_lemma. Qed.
Print Assumptions C03_spiral_zero.

(** C04: [CoordinateGrid.new] *)
Theorem C04_grid_new :
  (forall n, grid_new (PyInt n) = Ok (Spiral n))
  /\ (forall a b, grid_new (PyTuple [PyInt a; PyInt b]) = Ok (Rect a b))
  /\ (forall a, grid_new (PyTuple [PyInt a]) = Ok (Rect a 1000))
  /\ grid_new (PyTuple []) = Ok (Rect 500 1000)
  /\ (forall v, ~ (exists n, v = PyInt n) ->
        ~ (exists l, v = PyTuple l /\ (length l <= 2)%nat /\ forall x, In x l -> exists n, x = PyInt n) ->
        grid_new v = Raise TypeError).
Proof. exact C04_lemma. Qed.
Print Assumptions C04_grid_new.
Example C04_reject_nonvacuous : grid_new (PyTuple [PyInt 3; PyOther]) = Raise TypeError
  /\ grid_new (PyTuple [PyInt 3; PyInt 3; PyInt 3]) = Raise TypeError.
Proof. split; reflexivity. Qed.

(** C05: equality of grids *)
Theorem C05_grid_eq :
  (forall a b a' b', exists e, grid_eq (Rect a b) (Some (Rect a' b')) = Ok e
      /\ (e = true <-> Rect a b = Rect a' b') /\ grid_ne (Rect a b) (Some (Rect a' b')) = Ok (negb e))
  /\ (forall n n', exists e, grid_eq (Spiral n) (Some (Spiral n')) = Ok e
      /\ (e = true <-> Spiral n = Spiral n') /\ grid_ne (Spiral n) (Some (Spiral n')) = Ok (negb e))
  /\ (forall n a b, grid_eq (Spiral n) (Some (Rect a b)) = Ok false
       /\ grid_eq (Rect a b) (Some (Spiral n)) = Raise TypeError)
  /\ (forall g, grid_eq g None = Raise TypeError /\ grid_ne g None = Raise TypeError).
Proof. exact C05_lemma. Qed.
Print Assumptions C05_grid_eq.

(** C06: cosine of the angle from disk centre *)
Theorem C06_mu :
  forall g lat0 lon0,
  (forall b r c, has_shape (grid_points g) b r c -> has_shape (grid_mu g lat0 lon0) b r c)
  /\ (forall j i lat lon, (j < length (arows (grid_points g)))%nat ->
        (i < length (nth j (arows (grid_points g)) []))%nat ->
        acell (grid_points g) j i (0, 0) = (lat, lon) ->
        acell (grid_mu g lat0 lon0) j i 0 = dot (vec lat0 lon0) (vec lat lon)
        /\ -1 <= acell (grid_mu g lat0 lon0) j i 0 <= 1
        /\ (lat = lat0 -> lon = lon0 -> acell (grid_mu g lat0 lon0) j i 0 = 1)
        /\ acell (grid_mu g (- lat0) (lon0 + PI)) j i 0 = - acell (grid_mu g lat0 lon0) j i 0
        /\ (forall k : Z, acell (grid_mu g lat0 (lon0 + 2 * PI * IZR k)) j i 0
                          = acell (grid_mu g lat0 lon0) j i 0)).
Proof. exact C06_lemma. Qed.
Print Assumptions C06_mu.
Example C06_mu_nonvacuous : exists lat lon,
  (2 < length (arows (grid_points (Rect 5 4))))%nat
  /\ (3 < length (nth 2 (arows (grid_points (Rect 5 4))) []))%nat
  /\ acell (grid_points (Rect 5 4)) 2 3 (0, 0) = (lat, lon).
Proof. do 2 eexists. split; [|split]; [| | apply surjective_pairing]; unfold grid_points; simpl; lia. Qed.

(** C61: [display_grid] of a spiral grid is a weighted mean *)
Theorem C61_display_spiral :
  forall n nlat nlon d, (1 <= n)%nat -> length d = n ->
  exists lats lons out,
    display_grid (Spiral n) nlat nlon (mkArr false [d]) = Ok (lats, lons, out)
    /\ length lats = nlat /\ length lons = nlon /\ has_shape out true nlon nlat
    /\ (forall j i, (j < nlon)%nat -> (i < nlat)%nat ->
         exists v ws, acell out j i NaN = Fin v
         /\ (forall lo hi, (forall x, In x d -> lo <= x <= hi) -> lo <= v <= hi)
         /\ length ws = n
         /\ (forall k, (k < n)%nat -> exists th,
              is_angle (fst (acell (grid_points (Spiral n)) 0 k (0, 0)))
                       (snd (acell (grid_points (Spiral n)) 0 k (0, 0)))
                       (fst (acell (grid_points (Rect nlat nlon)) j i (0, 0)))
                       (snd (acell (grid_points (Rect nlat nlon)) j i (0, 0))) th
              /\ nth k ws 0 = exp (- (th^2 * INR n / (4 * PI))))
         /\ v = rsum (map (fun p => fst p * snd p) (combine ws d)) / rsum ws).
Proof. exact C61_lemma. Qed.
Print Assumptions C61_display_spiral.
Example C61_nonvacuous : (1 <= 3)%nat /\ length [1; 2; 3] = 3%nat.
Proof. simpl; lia. Qed.
Theorem C61_display_spiral_reject :
  forall n nlat nlon data,
  (a2d data = true \/ exists d, arows data = [d] /\ length d <> n) ->
  display_grid (Spiral n) nlat nlon data = Raise ValueError.
Proof. exact C61_reject_lemma. Qed.
Print Assumptions C61_display_spiral_reject.

(** C62: [display_grid] of a rectangular grid *)
Theorem C62_display_rect :
  forall glat glon nlat nlon (data : arr R) b rows cols,
  (1 <= rows)%nat -> has_shape data b rows cols ->
  ((b = true /\ rows = nlon /\ cols = nlat) ->
    exists lats lons out, display_grid (Rect glat glon) nlat nlon data = Ok (lats, lons, out)
     /\ length lats = glat /\ length lons = glon
     /\ has_shape out true nlon nlat
     /\ (forall j i, (j < nlon)%nat -> (i < nlat)%nat -> acell out j i NaN = Fin (acell data j i 0)))
  /\ (~ (b = true /\ rows = nlon /\ cols = nlat) ->
    display_grid (Rect glat glon) nlat nlon data = Raise TypeError).
Proof. exact C62_lemma. Qed.
Print Assumptions C62_display_rect.
Example C62_nonvacuous : (1 <= 2)%nat /\ has_shape (mkArr true [[1; 2; 3]; [4; 5; 6]]) true 2 3.
Proof. split; [lia|]. repeat split. simpl. intros r [<- | [<- | []]]; reflexivity. Qed.
