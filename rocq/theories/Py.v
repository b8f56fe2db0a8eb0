(** Python/numpy scaffolding shared by the model: exceptions, arrays with
    broadcasting, dictionaries. *)
From Coq Require Import Reals ZArith Bool List.
From Verif Require Import Num.
Import ListNotations.

(** ** Exceptions *)
Inductive exn : Type :=
| TypeError | ValueError | KeyError | IndexError | ZeroDivisionError
| AttributeError | NotImplementedError | UnitConversionError | UnitTypeError | OverflowError
| OutOfDraws (* model artefact: a rejection/while loop used up the supplied random
                draws; not a Python exception, excluded by the theorems' hypotheses *).

Inductive res (A : Type) : Type :=
| Ok (a : A)
| Raise (e : exn).
Arguments Ok {A} a.
Arguments Raise {A} e.

Definition bind {A B} (m : res A) (f : A -> res B) : res B :=
  match m with Ok a => f a | Raise e => Raise e end.
Notation "'do' x <- m ;; f" := (bind m (fun x => f))
  (at level 200, x pattern, m at level 100, f at level 200).

Fixpoint mapM {A B} (f : A -> res B) (l : list A) : res (list B) :=
  match l with
  | [] => Ok []
  | x :: t => do y <- f x ;; do ys <- mapM f t ;; Ok (y :: ys)
  end.

(** ** Arrays
    A numpy array of one or two dimensions: [a2d = false] means shape
    [(n,)] stored as a single row; [a2d = true] means shape [(rows, cols)]. *)
Record arr (A : Type) : Type := mkArr { a2d : bool; arows : list (list A) }.
Arguments mkArr {A} a2d arows.
Arguments a2d {A} a.
Arguments arows {A} a.

Definition cells {A} (a : arr A) : list A := concat (arows a).
Definition amap {A B} (f : A -> B) (a : arr A) : arr B :=
  mkArr (a2d a) (map (map f) (arows a)).

(** numpy broadcasting of one axis: equal lengths, or one of them is 1 *)
Definition bcast {A B} (la : list A) (lb : list B) : option (list (A * B)) :=
  if Nat.eqb (length la) (length lb) then Some (combine la lb)
  else match la, lb with
       | [a], _ => Some (map (fun b => (a, b)) lb)
       | _, [b] => Some (map (fun a => (a, b)) la)
       | _, _ => None
       end.
Fixpoint all_some {A} (l : list (option A)) : option (list A) :=
  match l with
  | [] => Some []
  | None :: _ => None
  | Some x :: t => match all_some t with None => None | Some xs => Some (x :: xs) end
  end.
(** broadcasting of two arrays; incompatible shapes raise [ValueError]
    ("operands could not be broadcast together") *)
Definition azip {A B} (a : arr A) (b : arr B) : res (arr (A * B)) :=
  match bcast (arows a) (arows b) with
  | None => Raise ValueError
  | Some prs =>
      match all_some (map (fun p => bcast (fst p) (snd p)) prs) with
      | None => Raise ValueError
      | Some rows => Ok (mkArr (a2d a || a2d b) rows)
      end
  end.
Definition amap2 {A B C} (f : A -> B -> C) (a : arr A) (b : arr B) : res (arr C) :=
  do z <- azip a b ;; Ok (amap (fun p => f (fst p) (snd p)) z).

(** ** Dictionaries: insertion-ordered, assignment to an existing key keeps
    its position and replaces the value. *)
Section Dict.
  Context {K V : Type} (eqb : K -> K -> bool).
  Definition dict := list (K * V).
  Fixpoint dget (d : dict) (k : K) : option V :=
    match d with
    | [] => None
    | (k', v) :: t => if eqb k k' then Some v else dget t k
    end.
  Fixpoint dset (d : dict) (k : K) (v : V) : dict :=
    match d with
    | [] => [(k, v)]
    | (k', v') :: t => if eqb k k' then (k', v) :: t else (k', v') :: dset t k v
    end.
  (** [d[k]]: KeyError when absent *)
  Definition dindex (d : dict) (k : K) : res V :=
    match dget d k with Some v => Ok v | None => Raise KeyError end.
End Dict.
Arguments dict : clear implicits.

Definition arr_shape {A} (a : arr A) : bool * (nat * nat) :=
  (a2d a, (length (arows a), match arows a with [] => 0%nat | r :: _ => length r end)).
(** same shape, row by row *)
Fixpoint rows_same {A B} (l : list (list A)) (l' : list (list B)) : bool :=
  match l, l' with
  | [], [] => true
  | r :: t, r' :: t' => Nat.eqb (length r) (length r') && rows_same t t'
  | _, _ => false
  end.
Definition same_shape {A B} (a : arr A) (b : arr B) : bool :=
  eqb (a2d a) (a2d b) && rows_same (arows a) (arows b).
(** elementwise operation that numpy only accepts for identical shapes
    (boolean-mask indexing [m[mask]]); other shapes raise IndexError *)
Definition zip_same {A B} (a : arr A) (b : arr B) : res (arr (A * B)) :=
  if same_shape a b
  then Ok (mkArr (a2d a) (map (fun p => combine (fst p) (snd p)) (combine (arows a) (arows b))))
  else Raise IndexError.

(** ** Random draws
    The model takes the value drawn as an argument.  [np.random.Generator.poisson]
    rejects a negative or NaN rate, and a rate too large for its sampler ([inf]);
    at rate 0 the result is 0. *)
Definition poisson (lam : num) (draw : nat) : res nat :=
  match lam with
  | NaN | NInf | PInf => Raise ValueError
  | Fin l => if Rlt_dec l 0 then Raise ValueError
             else if Req_EM_T l 0 then Ok 0%nat else Ok draw
  end.
(** [np.where(mask, v, m)] with a scalar [v] *)
Definition awhere {A} (mask : arr bool) (v : A) (m : arr A) : res (arr A) :=
  amap2 (fun (b : bool) x => if b then v else x) mask m.
