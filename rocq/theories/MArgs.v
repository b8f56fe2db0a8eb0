(** Arguments of other kinds than the rest of the model accepts: grids with sizes of any sign and the abstract base
    class of /repo/vspec_vsm/coordinate_grid.py, comparisons of grids of different classes, one object, sequences,
    iterators and other objects given to [add_spot], [add_faculae] and [FlareCollection], and [proj_ortho] with plain
    numbers or quantities.
    SIMPLIFICATION: [True] and [False] are the integers 1 and 0. *)
From Coq Require Import Reals ZArith Bool List.
From Verif Require Import Num Py MConfig MHelpers MGrid MSpots MFaculae MXoflares MFlares MGranules MStar MWarn MHeap MUnits.
Import ListNotations.
Open Scope R_scope.

(** ** Grids of any integer size *)
(** coordinate_grid.py:47-405: instances of [RectangularGrid], [SpiralGrid] and of the base class itself *)
Inductive pgrid : Type :=
| PRect (nlat nlon : Z)
| PSpiral (n : Z)
| PBase.
(** coordinate_grid.py:56-85: Python values that can be passed as [grid_params] *)
Inductive gval : Type :=
| GInt (z : Z)
| GTuple (l : list gval)
| GOther.
(** coordinate_grid.py:266-272 [RectangularGrid.__init__] *)
Definition p_rect_init (nlat nlon : gval) : res pgrid :=
  match nlat with
  | GInt a => match nlon with GInt b => Ok (PRect a b) | _ => Raise TypeError end
  | _ => Raise TypeError
  end.
(** coordinate_grid.py:56-85 [CoordinateGrid.new], :415-416 [SpiralGrid.__init__] *)
Definition p_new (g : gval) : res pgrid :=
  match g with
  | GInt n => Ok (PSpiral n)
  | GTuple [] => p_rect_init (GInt 500) (GInt 1000)
  | GTuple [a] => p_rect_init a (GInt 1000)
  | GTuple [a; b] => p_rect_init a b
  | GTuple _ => Raise TypeError
  | GOther => Raise TypeError
  end.
(** numpy: [np.linspace] rejects a negative number of samples (coordinate_grid.py:25, 43) *)
Definition p_linspace (f : nat -> list R) (n : Z) : res (list R) :=
  if (n <? 0)%Z then Raise ValueError else Ok (f (Z.to_nat n)).
(** coordinate_grid.py:274-288 [RectangularGrid.oned], degrees *)
Definition p_oned (nlat nlon : Z) : res (list R * list R) :=
  do lats <- p_linspace get_lat_points nlat ;;
  do lons <- p_linspace get_lon_points nlon ;;
  Ok (lats, lons).
(** coordinate_grid.py:87-98 [grid], :51-53, 290-303, 418-439 [_grid]; [np.arange] of a negative number is empty *)
Definition p_grid (g : pgrid) : res (arr (R * R)) :=
  match g with
  | PRect nlat nlon =>
      do (lats, lons) <- p_oned nlat nlon ;;
      Ok (mkArr true (map (fun lon => map (fun lat => (deg2rad lat, deg2rad lon)) lats) lons))
  | PSpiral n => Ok (mkArr false [map (fun i => (spiral_lat (Z.to_nat n) i, spiral_lon i)) (seq 0 (Z.to_nat n))])
  | PBase => Raise NotImplementedError
  end.
(** coordinate_grid.py:159-174 [zeros], :155-157, 305-320, 441-442 [_zeros]; [np.zeros] rejects negative sizes *)
Definition p_zeros (g : pgrid) : res (arr num) :=
  match g with
  | PRect nlat nlon =>
      if ((nlon <? 0) || (nlat <? 0))%Z then Raise ValueError
      else Ok (mkArr true (repeat (repeat (Fin 0) (Z.to_nat nlat)) (Z.to_nat nlon)))
  | PSpiral n => if (n <? 0)%Z then Raise ValueError else Ok (mkArr false [repeat (Fin 0) (Z.to_nat n)])
  | PBase => Raise NotImplementedError
  end.
(** coordinate_grid.py:100-135 [cos_angle_from_disk_center] *)
Definition p_mu (g : pgrid) (lat0 lon0 : R) : res (arr R) :=
  do pts <- p_grid g ;; Ok (amap (fun p => law_cos lat0 lon0 (fst p) (snd p)) pts).
(** coordinate_grid.py:137-153 [area], :347-361, 444-449 [_area]: [self.zeros() + 1/self.n_points] from the left *)
Definition p_area (g : pgrid) : res (arr num) :=
  match g with
  | PRect _ _ =>
      do pts <- p_grid g ;;
      let jac := amap (fun p => sin (fst p + deg2rad 90)) pts in
      Ok (amap (fun j => ndiv (Fin j) (Fin (rsum (cells jac)))) jac)
  | PSpiral n =>
      do z <- p_zeros g ;;
      if (n =? 0)%Z then Raise ZeroDivisionError else Ok (amap (fun x => nadd x (Fin (1 / IZR n))) z)
  | PBase => Raise NotImplementedError
  end.
(** coordinate_grid.py:363-385 [dlat], [dlon], degrees *)
Definition p_dlat (nlat : Z) : num := ndiv (Fin 180) (Fin (IZR (nlat - 1))).
(** coordinate_grid.py:375-385 [dlon], degrees *)
Definition p_dlon (nlon : Z) : num := ndiv (Fin 360) (Fin (IZR nlon)).
(** coordinate_grid.py:184-216 [display_grid], :180-182, 387-405, 462-493 [_display_grid] *)
Definition p_display (g : pgrid) (nlat nlon : Z) (data : arr R) : res (list R * list R * arr num) :=
  let '(nd, (rows, cols)) := arr_shape data in
  match g with
  | PRect glat glon =>
      if negb nd then Raise TypeError
      else if negb (Z.of_nat rows =? nlon)%Z then Raise TypeError
      else if negb (Z.of_nat cols =? nlat)%Z then Raise TypeError
      else do (lats, lons) <- p_oned glat glon ;;
           Ok (map deg2rad lats, map deg2rad lons, amap Fin data)
  | PSpiral n =>
      if nd then Raise ValueError
      else if negb (Z.of_nat cols =? n)%Z then Raise ValueError
      else
        do _ <- p_zeros (PRect nlat nlon) ;;
        do pts <- p_grid (PRect nlat nlon) ;;
        do (lats, lons) <- p_oned nlat nlon ;;
        Ok (map deg2rad lats, map deg2rad lons, amap (spiral_resample (Z.to_nat n) (cells data)) pts)
  | PBase => Raise NotImplementedError
  end.

(** coordinate_grid.py:176-178, 322-345, 451-460: the methods [__eq__]; [None] = not a grid *)
Definition p_eq_method (self : pgrid) (other : option pgrid) : res bool :=
  match self, other with
  | PRect a b, Some (PRect a' b') => Ok ((a =? a') && (b =? b'))%Z
  | PRect _ _, _ => Raise TypeError
  | PSpiral n, Some (PSpiral n') => Ok (n =? n')%Z
  | PSpiral _, Some _ => Ok false
  | PSpiral _, None => Raise TypeError
  | PBase, _ => Raise NotImplementedError
  end.
(** Python (coordinate_grid.py:176-178, 322-345, 451-460): whether [other]'s class is a proper subclass of [self]'s;
    its method then comes first, with the operands exchanged *)
Definition p_reflected (self other : pgrid) : bool :=
  match self, other with PBase, PRect _ _ => true | PBase, PSpiral _ => true | _, _ => false end.
(** Python (coordinate_grid.py:176-178, 322-345, 451-460): [self == other]; [None] = not a grid.  [x == self] for an
    [x] that is not a grid ends in the same method *)
Definition p_eq (self : pgrid) (other : option pgrid) : res bool :=
  match other with
  | Some o => if p_reflected self o then p_eq_method o (Some self) else p_eq_method self other
  | None => p_eq_method self None
  end.
(** coordinate_grid.py:455-458: the warning of a comparison *)
Definition p_eq_method_warnings (self : pgrid) (other : option pgrid) : list warning :=
  match self, other with
  | PSpiral _, Some (PSpiral _) => []
  | PSpiral _, Some _ => [WGridKinds]
  | _, _ => []
  end.
(** Python (coordinate_grid.py:455-458): the warnings of [self == other] *)
Definition p_eq_warnings (self : pgrid) (other : option pgrid) : list warning :=
  match other with
  | Some o => if p_reflected self o then p_eq_method_warnings o (Some self) else p_eq_method_warnings self other
  | None => p_eq_method_warnings self None
  end.

(** ** Stars on such grids *)
(** star.py:146-150, 161-165: [!=] and the adoption of the star's grid by a generator *)
Definition p_adopt (own star : pgrid) : res pgrid :=
  match p_eq own (Some star) with
  | Ok true => Ok own
  | Ok false => Ok star
  | Raise TypeError => Ok star
  | Raise e => Raise e
  end.
(** spots.py:135-149 [StarSpot.set_gridmaker]: the distances of the grid's points from the spot at [(lat, lon)] *)
Definition p_spot_r (g : pgrid) (s : R * R) : res (arr num) :=
  do pts <- p_grid g ;; Ok (amap (haversine (fst s) (snd s)) pts).
(** star.py:126-173 [Star.__init__], what it does with grids: the grid, the distances for each spot, and the grids of
    the two generators.  Faculae only store the grid (faculae.py:356-368) *)
Definition p_star_grids (params : gval) (spots : list (R * R)) (sg fg : option pgrid)
  : res (pgrid * list (arr num) * pgrid * pgrid) :=
  do g <- p_new params ;;
  do rs <- mapM (p_spot_r g) spots ;;
  do sg' <- match sg with Some x => p_adopt x g | None => Ok g end ;;
  do fg' <- match fg with Some x => p_adopt x g | None => Ok g end ;;
  Ok (g, rs, sg', fg').
(** star.py:533-538, the beginning of [calc_coverage]; [rest] is the remainder *)
Definition p_coverage {A} (g : pgrid) (lat0 lon0 : R) (rest : arr R -> arr num -> res A) : res A :=
  do mu <- p_mu g lat0 lon0 ;;
  do jac <- p_area g ;;
  rest mu jac.
(** spots.py:432-435, 480-482, the beginning of [SpotCollection.map_pixels]; [rest] paints the spots *)
Definition p_map {A} (g : pgrid) (teff : num) (rest : arr num -> res A) : res A :=
  do z <- p_zeros g ;; rest (amap (fun x => nadd x teff) z).
(** spots.py:468-485 [SpotCollection.get_coverage]; [rest] is the remainder after the area *)
Definition p_get_coverage {A} (g : pgrid) (rest : arr num -> res A) : res A :=
  do area <- p_area g ;; rest area.

(** ** One object or several *)
(** what a list or iterator contains (spots.py:392-393, faculae.py:381-384, flares.py:558-560): objects of the right
    class, or others, without the attributes that are used *)
Inductive item (A : Type) : Type := Good (a : A) | Alien.
Arguments Good {A} a.
Arguments Alien {A}.
(** the argument of [add_spot], [add_faculae], [FlareCollection] (spots.py:372, faculae.py:370, flares.py:540): an
    object of the class, something that can be iterated again and again (list, tuple, array, dict, text), an iterator
    or generator, which can be iterated once, or something that cannot be iterated *)
Inductive argument (A : Type) : Type :=
| AOne (a : A)
| ASeq (l : list (item A))
| AOnce (l : list (item A))
| ANot.
Arguments AOne {A} a.
Arguments ASeq {A} l.
Arguments AOnce {A} l.
Arguments ANot {A}.
(** Python (spots.py:390-394, faculae.py:379-385, flares.py:541-545): what the first and the second iteration over the
    argument see, after one object was put in a list *)
Definition iterations {A} (a : argument A) : res (list (item A) * list (item A)) :=
  match a with
  | AOne x => Ok ([Good x], [Good x])
  | ASeq l => Ok (l, l)
  | AOnce l => Ok (l, [])
  | ANot => Raise TypeError
  end.
(** the objects of the right class (spots.py:394, faculae.py:385); after the loop there are no others *)
Definition goods {A} (l : list (item A)) : list A := flat_map (fun i => match i with Good a => [a] | Alien => [] end) l.
(** spots.py:392-393, faculae.py:381-384: the loop; other objects raise [AttributeError] *)
Fixpoint heach_items {A} (f : A -> res A) (h : nat -> A) (ls : list (item nat)) : (nat -> A) * option exn :=
  match ls with
  | [] => (h, None)
  | Alien :: _ => (h, Some AttributeError)
  | Good l :: t => match f (h l) with
                   | Ok a => heach_items f (hset h l a) t
                   | Raise e => (h, Some e)
                   end
  end.
(** spots.py:372-394 [add_spot] *)
Definition w_add_spot_arg (w : world) (c : nat) (arg : argument nat) : world * option exn :=
  let '(ls, g) := w_sc w c in
  match iterations arg with
  | Raise e => (w, Some e)
  | Ok (first, second) =>
      match heach_items (fun s => Ok (spot_assign_gridmaker s g)) (w_spot w) first with
      | (h, None) => (w_spots w h c (ls ++ goods second, g), None)
      | (h, Some e) => (w_spots w h c (ls, g), Some e)
      end
  end.
(** faculae.py:370-385 [add_faculae] *)
Definition w_add_fac_arg (w : world) (c : nat) (arg : argument nat) : world * option exn :=
  let '(ls, g) := w_fc w c in
  match iterations arg with
  | Raise e => (w, Some e)
  | Ok (first, second) =>
      match heach_items (fun f =>
              do same <- grid_eq (fc_grid f) (Some g) ;;
              Ok (if same then f else fac_assign_grid f g)) (w_fac w) first with
      | (h, None) => (w_facs w h c (ls ++ goods second, g), None)
      | (h, Some e) => (w_facs w h c (ls, g), Some e)
      end
  end.
(** flares.py:540-565 [FlareCollection.__init__]: [index] is the first iteration *)
Definition flc_arg (arg : argument flare) : res flarecoll :=
  do (first, second) <- iterations arg ;;
  if existsb (fun i => match i with Alien => true | Good _ => false end) first then Raise AttributeError
  else Ok (mkFlareColl (goods second) (map fl_tpeak (goods first)) (map fl_fwhm (goods first))).
(** flares.py:544: the collection keeps the caller's list; when the caller changes the list, the cached times stay *)
Definition flc_list_changed (c : flarecoll) (l : list flare) : flarecoll :=
  mkFlareColl l (flc_peaks c) (flc_fwhms c).
(** flares.py:547-565 [index], called again *)
Definition flc_index (c : flarecoll) : flarecoll := flc_init (flc_flares c).

(** ** The projection with its checks *)
(** helpers.py:166-178: the argument is a quantity ([Some]) with a finite value, converted to radians *)
Definition to_radians (x : option (R * uni)) : res R :=
  match x with
  | None => Raise TypeError
  | Some (v, q) => if deqb (udim q) DAng then Ok (v * usize q) else Raise UnitConversionError
  end.
(** helpers.py:105-220 [proj_ortho], at one point of the arrays.  The checks of all arguments come before the
    conversions; [None] is not a quantity *)
Definition proj_ortho_arg (lat0 lon0 lat lon : option (R * uni)) : res (num * num) :=
  match lon0, lat0, lon, lat with
  | Some _, Some _, Some _, Some _ =>
      do o <- to_radians lon0 ;; do a <- to_radians lat0 ;; do o1 <- to_radians lon ;; do a1 <- to_radians lat ;;
      Ok (proj_ortho a o (a1, o1))
  | _, _, _, _ => Raise TypeError
  end.
