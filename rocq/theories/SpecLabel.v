(** Vocabulary for C108: the labels of the report *)
From Coq Require Import Reals ZArith NArith Bool String Ascii List.
From Verif Require Import Num Py MConfig MHelpers MGrid MSpots MFaculae MXoflares MFlares MGranules MStar MLabel
  Spec SpecStar SpecDisk SpecText.
Import ListNotations.
Open Scope R_scope.

(** units of positive size *)
Definition sizes_positive (us : tunits) : Prop :=
  0 < tu_size (us_star us) /\ forall i, 0 < tu_size (fst (us_spot us i)) /\ 0 < tu_size (snd (us_spot us i)).
(** the unit of the temperature map: that of the umbra of the last spot, that of the star if there is none *)
Definition map_unit (us : tunits) (n : nat) : tunit :=
  match n with O => us_star us | S k => fst (us_spot us k) end.
(** [label] writes a temperature, in kelvin, with two decimals in the unit [u]: the nearest hundredth, halves to even,
    a space and the name of the unit *)
Definition writes (u : tunit) (label : R -> string) : Prop :=
  forall t, exists text k, label t = (text ++ " " ++ tu_name u)%string
    /\ decimal_text 2 text (if Rlt_dec t 0 then true else false) k /\ rounds_to 2 (Rabs (t / tu_size u)) k.
(** the temperatures that the report mentions, and that of the photosphere *)
Definition named (s : star) (M : arr num) (T D t : R) : Prop := listed s M T D t \/ t = T.
(** the same entries in the same order, the labels of the temperatures replaced *)
Definition relabelled {K K'} (s : star) (M : arr num) (T D : R) (label : R -> K) (label' : R -> K') (d : dict K num) (d' : dict K' num) : Prop :=
  Forall2 (fun e e' => exists t, named s M T D t /\ fst e = label t /\ fst e' = label' t /\ snd e = snd e') d d'.
(** each spot: units of the same name have the same size, and umbra and penumbra of equal temperature have one unit *)
Definition units_ok (us : tunits) (l : list spot) : Prop :=
  forall i x, nth_error l i = Some x ->
    let '(uu, up) := us_spot us i in
    (tu_name uu = tu_name up -> tu_size uu = tu_size up) /\ (sp_teff_umbra x = sp_teff_pen x -> uu = up).
(** the labels that occur in the report: the temperatures on the map in the unit of the map, that of granulation, if
    it is not on the map, in the unit of the star *)
Definition labelled (s : star) (M : arr num) (T D : R) (text_map text_star : R -> string) (k : string) : Prop :=
  (exists t, appears (st_grid s) M t /\ k = text_map t) \/ (~ appears (st_grid s) M (T - D) /\ k = text_star (T - D)).
