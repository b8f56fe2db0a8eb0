(** Specification vocabulary: the long-run area of spots and faculae *)
From Coq Require Import Reals ZArith Bool List.
From Verif Require Import Num Py MGrid MSpots MFaculae MFlares MGranules MStar Spec SpecStar.
Import ListNotations.
Open Scope R_scope.

Definition val (x : num) : R := match x with Fin r => r | _ => 0 end.
(** the area of a star's spots (MSH) and of its faculae (km^2), added up *)
Definition spot_total (s : star) : R := rsum (map (fun x => val (sp_area x)) (sc_spots (st_spots s))).
Definition fac_total (s : star) : R := rsum (map (fun f => PI * val (fc_radius f) ^ 2) (fcc_facs (st_facs s))).

(** [spot_cycles dt s births stars]: again and again, give birth to the spots of the next [dt] days
    (any random draws) and wait these [dt] days; [births] are the spots born in each cycle and
    [stars] the star after each cycle *)
Inductive spot_cycles (dt : R) : star -> list (list spot) -> list star -> Prop :=
| spot_cycles_end : forall s, spot_cycles dt s [] []
| spot_cycles_next : forall s n d fuel s1 l s2 ls ss,
    star_birth_spots s (Fin dt) n d fuel = Ok s1 ->
    sc_spots (st_spots s1) = sc_spots (st_spots s) ++ l ->
    star_age s1 (Fin dt) = Ok s2 -> spot_cycles dt s2 ls ss -> spot_cycles dt s (l :: ls) (s2 :: ss).
(** the same for faculae *)
Inductive fac_cycles (dt : R) : star -> list (list facula) -> list star -> Prop :=
| fac_cycles_end : forall s, fac_cycles dt s [] []
| fac_cycles_next : forall s n d s1 l s2 ls ss,
    star_birth_faculae s (Fin dt) n d = Ok s1 ->
    fcc_facs (st_facs s1) = fcc_facs (st_facs s) ++ l ->
    star_age s1 (Fin dt) = Ok s2 -> fac_cycles dt s2 ls ss -> fac_cycles dt s (l :: ls) (s2 :: ss).

(** for each thing born: [w x n], when [n] cycles (its own included) were left; added up *)
Fixpoint tally {A} (w : A -> nat -> R) (ls : list (list A)) : R :=
  match ls with [] => 0 | l :: r => rsum (map (fun x => w x (length (l :: r))) l) + tally w r end.
(** how many were born, and how many early enough to reach the age [life] *)
Definition born {A} (ls : list (list A)) : R := tally (fun _ _ => 1) ls.
Definition born_early {A} (life dt : R) (ls : list (list A)) : R :=
  tally (fun _ n => if Rle_dec life (INR n * dt) then 1 else 0) ls.

(** a newborn spot: the time until it vanishes (days) and the time integral of its area (MSH day) *)
Definition spot_life (s : spot) : R :=
  time_to_max (val (sp_area s)) (val (sp_area_max s)) (val (sp_growth s)) + val (sp_area_max s) / val (sp_decay s).
Definition spot_area_time (s : spot) : R :=
  (val (sp_area_max s) - val (sp_area s)) / ln (1 + val (sp_growth s)) + val (sp_area_max s) ^ 2 / (2 * val (sp_decay s)).
(** a newborn facula *)
Definition fac_area_time (f : facula) : R :=
  PI * val (fc_rmax f) ^ 2 * val (fc_life f) * (1 - exp (-4)) / 2.

(** the area-time that the generator assumes for a spot of mean size, and what such a spot has *)
Definition assumed_area_time (M A g W : R) : R := M / g + A / g + M^2 / (2 * W).
Definition real_area_time (M A g W : R) : R := (M - A) / ln (1 + g) + M^2 / (2 * W).
(** the part of the star covered, on average over the given times; spot areas in MSH (the millionth
    part of half a sphere of one solar radius), facula areas in km^2 *)
Definition mean_spot_cover (ss : list star) (Rs : R) : R :=
  rsum (map spot_total ss) / INR (length ss) * (2 * PI / 10^6) / (4 * PI * Rs^2).
Definition mean_fac_cover (ss : list star) (Rkm : R) : R :=
  rsum (map fac_total ss) / INR (length ss) / (4 * PI * Rkm^2).
