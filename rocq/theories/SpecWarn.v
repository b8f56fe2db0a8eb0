(** Specification vocabulary for warnings (no proofs) *)
From Coq Require Import Reals ZArith List.
From Verif Require Import Num Py MHelpers MGrid MFaculae MStar MWarn Spec SpecStar SpecDisk SpecDepth.
Import ListNotations.
Open Scope R_scope.

(** radius of a pixel on the sky (stellar radii), its foreshortening included; [A] the table of
    pixel areas *)
Definition sky_size (s : star) (lat0 lon0 : R) (A : arr num) (j i : nat) : R :=
  2 * sqrt (cell_val A j i) * pix_mu s lat0 lon0 j i.
(** the pixel is on the visible side and its disc of twice that radius meets the planet *)
Definition in_reach (s : star) (lat0 lon0 px py rp : R) (A : arr num) (j i : nat) : Prop :=
  0 <= pix_mu s lat0 lon0 j i
  /\ exists x y, proj_ortho lat0 lon0 (pix_lat (st_grid s) j i, pix_lon (st_grid s) j i) = (Fin x, Fin y)
       /\ sqrt ((x - px)^2 + (y - py)^2) <= rp + 2 * sky_size s lat0 lon0 A j i.
(** mean pixel radius over a list of pixels *)
Definition mean_size (s : star) (lat0 lon0 : R) (A : arr num) (l : list (nat * nat)) : R :=
  rsum (map (fun ji => sky_size s lat0 lon0 A (fst ji) (snd ji)) l) / INR (length l).

(** a facula with at least one pixel *)
Definition on_map (s : star) (f : facula) : Prop :=
  In f (fcc_facs (st_facs s)) /\ exists j i, pixel (st_grid s) j i /\ fac_covers s f j i.
(** [k] is the contrast (K) of the wall or of the floor of the facula, as its surface
    fractions are labelled for this observer *)
Definition contrast (lat0 lon0 : R) (f : facula) (k : Z) : Prop :=
  exists a d, is_angle lat0 lon0 (fc_lat f) (fc_lon f) a
    /\ fac_fractional_area f (Fin a) = Ok d /\ In k (map fst d).
(** no warning about a temperature out of range *)
Definition no_clip_warning (w : list warning) : Prop :=
  forall t, ~ In (WTooHigh t) w /\ ~ In (WTooLow t) w.
(** number of deprecation warnings of the temperature clipping *)
Definition clip_calls (w : list warning) : nat :=
  length (filter (fun x => match x with WClipDeprecated => true | _ => false end) w).
