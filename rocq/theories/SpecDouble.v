(** Vocabulary for C110-C111: the report in double precision *)
From Coq Require Import Reals ZArith Bool List Permutation.
From Verif Require Import Num Py MConfig MHelpers MGrid MSpots MFaculae MXoflares MFlares MGranules MStar MSingle MDouble
  Spec SpecStar SpecDisk SpecSingle.
Import ListNotations.
Open Scope R_scope.

(** numbers with 53 binary digits and an exponent of at least -1074 *)
Definition f64_value (y : R) : Prop := exists m e : Z, (Z.abs m <= 2 ^ 53)%Z /\ (-1074 <= e)%Z /\ y = IZR m * powerRZ 2 e.
(** [y] is such a number, none is nearer to [x], and if another one is as near then [y] is an even
    multiple of the distance between the two *)
Definition nearest64 (x y : R) : Prop :=
  f64_value y /\ (forall z, f64_value z -> Rabs (y - x) <= Rabs (z - x))
  /\ (forall z, f64_value z -> z <> y -> Rabs (z - x) = Rabs (y - x) -> exists m : Z, y = IZR (2 * m) * Rabs (z - y)).
(** rounding to double precision *)
Definition double_rounding (rnd : R -> R) : Prop := forall x, nearest64 x (rnd x).

(** the elements that an order of summation adds, and how many additions each of them goes through at most *)
Fixpoint leaves (o : sumtree) : list nat := match o with SLeaf i => [i] | SNode a b => leaves a ++ leaves b end.
(** the number of additions *)
Fixpoint depth (o : sumtree) : nat := match o with SLeaf _ => 0%nat | SNode a b => S (Nat.max (depth a) (depth b)) end.
(** [o] adds [n] elements, each of them once, and each of them goes through at most [h] additions *)
Definition adds (o : sumtree) (n h : nat) : Prop := Permutation (leaves o) (seq 0 n) /\ (depth o <= h)%nat.

(** the arrays of the report: pixel [i] of [n] has the limb darkening [l i], the projected area [p i] and the covered
    fraction [c i], which are doubles *)
Definition weights64 (n : nat) (l p c : nat -> R) : Prop :=
  forall i, (i < n)%nat -> (f64_value (l i) /\ 0 <= l i <= 1024) /\ (f64_value (p i) /\ 0 <= p i <= 1)
                           /\ (f64_value (c i) /\ 0 <= c i <= 1).
(** a temperature of the map *)
Definition on_map (n : nat) (t : nat -> R) (x : R) : Prop := exists i, (i < n)%nat /\ t i = x.
(** the sum of the weights of all pixels, and of those with the temperature [x] *)
Definition weight_all (n : nat) (w : nat -> R) : R := rsum (map w (seq 0 n)).
Definition weight_at (n : nat) (w t : nat -> R) (x : R) : R := rsum (map (fun i => if Req_EM_T (t i) x then w i else 0) (seq 0 n)).
(** a temperature of the map whose entry stays in the report: it is the hottest with its label, and granulation, of
    temperature [gt] ([gs] in single precision), does not take the label *)
Definition counted64 (label : R -> tkey) (n : nat) (t : nat -> R) (gt gs x : R) : Prop :=
  on_map n t x /\ (forall y, on_map n t y -> label y = label x -> y <= x) /\ (on_map n t gs \/ label x <> label gt).
(** the labels that occur *)
Definition occurs64 (label : R -> tkey) (n : nat) (t : nat -> R) (gt gs : R) (k : tkey) : Prop :=
  (exists x, on_map n t x /\ k = label x) \/ (~ on_map n t gs /\ k = label gt).
(** [x] is [e] up to [m] units of 2^-51, relative to [e], and an absolute error of 2^-1070 *)
Definition near64 (m : nat) (x e : R) : Prop := 0 <= x /\ Rabs (x - e) <= INR m / 2^51 * e + powerRZ 2 (-1070).
(** a dictionary of the report, up to [m] units: pixel [i] has the weight [w i] in total, of which [v i] are counted,
    [g] is the granulation fraction *)
Definition reports64 (label : R -> tkey) (n : nat) (w v t : nat -> R) (T gt gs g : R) (m : nat) (d : dict tkey num) : Prop :=
  NoDup (map fst d) /\ (forall k, In k (map fst d) <-> occurs64 label n t gt gs k)
  /\ exists e : tkey -> R,
       (forall x, counted64 label n t gt gs x -> e (label x) = weight_at n v t x / weight_all n w)
       /\ (forall k, (forall x, counted64 label n t gt gs x -> label x <> k) -> e k = 0)
       /\ forall k y, In (k, y) d -> exists r, y = Fin r
            /\ (k <> label T -> k <> label gt -> near64 m r (e k))
            /\ (k = label T -> k <> label gt -> near64 m r (e k * (1 - g)))
            /\ (k <> label T -> k = label gt -> near64 m r (e k + e (label T) * g))
            /\ (k = label T -> k = label gt -> near64 m r (e k)).
(** no two temperatures of the map have the same label, and granulation, if it is not on the map, has a label of its
    own *)
Definition distinct64 (label : R -> tkey) (n : nat) (t : nat -> R) (gt gs : R) : Prop :=
  (forall x y, on_map n t x -> on_map n t y -> label x = label y -> x = y)
  /\ (on_map n t gs \/ forall x, on_map n t x -> label x <> label gt).
(** products that are zero or too large for the loss of digits near zero *)
Definition no_underflow (x : R) : Prop := x = 0 \/ powerRZ 2 (-1021) <= x.
(** the array with the value [f i] at pixel [i]; [P] numbers the pixels *)
Definition pixels (P : arr nat) (f : nat -> R) : arr num := amap (fun i => Fin (f i)) P.
(** what the theorems about the report require: [n] numbered pixels, an order of summation with at most [h] additions
    for each of them, doubles as weights, of which at least one is positive, and a granulation fraction *)
Definition inputs64 (rnd : R -> R) (ord : nat -> sumtree) (P : arr nat) (n h : nat) (l p c : nat -> R) (T D g : R) : Prop :=
  cells P = seq 0 n /\ adds (ord n) n h /\ INR n <= 2^1000 /\ INR h <= 2^48
  /\ weights64 n l p c /\ (exists i, (i < n)%nat /\ 0 < rnd (l i * p i)) /\ Rabs (T - D) <= powerRZ 2 127 /\ 0 <= g <= 1 /\ f64_value g.
(** two dictionaries with the same labels in the same order, the entries of the first at most as large *)
Definition at_most (d d' : dict tkey num) : Prop :=
  map fst d = map fst d' /\ forall k y, In (k, y) d -> exists r r', y = Fin r /\ In (k, Fin r') d' /\ 0 <= r <= r'.
(** what the pixels are seen with: doubles for the cosines of the angles from the disk centre (not exactly in [-1, 1]),
    the areas, the covered fractions and the coefficients of limb darkening *)
Definition view64 (n : nat) (u1 u2 : R) (mu jac c : nat -> R) : Prop :=
  f64_value u1 /\ f64_value u2 /\ 0 <= u1 /\ 0 <= u2 /\ u1 + u2 <= 1
  /\ forall i, (i < n)%nat -> (f64_value (mu i) /\ -2 <= mu i <= 2) /\ (f64_value (jac i) /\ 0 <= jac i <= 1/2) /\ (f64_value (c i) /\ 0 <= c i <= 1).
