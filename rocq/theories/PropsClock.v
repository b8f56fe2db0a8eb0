(** Property C127: flares on another clock, at other places, of other energies and temperatures *)
From Coq Require Import Reals ZArith Bool String List Lra Lia.
From Verif Require Import Num Py MConfig MHelpers MGrid MSpots MFaculae MXoflares MFlares MGranules MStar
  Spec SpecStar SpecFlare SpecScale SpecClock LBase LGrid LFlare LClock PropsFlare PropsFlareRun PropsStar.
Import ListNotations.
Open Scope R_scope.

(** C127 *)
Theorem C127_other_flares :
  forall a c dt o o' s s' l l' t0 t1, 0 < a -> 0 < c ->
  st_flares s = Some (flc_init l) -> st_flares s' = Some (flc_init l') -> Forall2 (flare_image a c dt o o') l l' ->
  star_flare_int s' (t0 + dt) (t1 + dt) (Some o')
  = rmap (map (fun e => (nscale c (fst e), nscale (a / c^4) (snd e)))) (star_flare_int s t0 t1 (Some o)).
Proof. exact C127_lemma. Qed.
Print Assumptions C127_other_flares.
(** the flares of [ex_flaring] three days later, at twice the energy, with half the temperature and a quarter turn away *)
Definition ex_later (f : flare) : flare :=
  {| fl_fwhm := fl_fwhm f; fl_energy := nscale 2 (fl_energy f); fl_lat := fl_lat f; fl_lon := fl_lon f + PI/2;
     fl_teff := nscale (1/2) (fl_teff f); fl_tpeak := fl_tpeak f + 3 |}.
Definition ex_flaring_later : star := star_with_flares ex_flaring (flc_init [ex_later ex_hidden; ex_later ex_flare]).
Example C127_nonvacuous : 0 < 2 /\ 0 < 1/2 /\ st_flares ex_flaring = Some (flc_init [ex_hidden; ex_flare])
  /\ st_flares ex_flaring_later = Some (flc_init [ex_later ex_hidden; ex_later ex_flare])
  /\ Forall2 (flare_image 2 (1/2) 3 (0, 0) (0, PI/2)) [ex_hidden; ex_flare] [ex_later ex_hidden; ex_later ex_flare]
  /\ In ex_flare (flc_visible (flc_init [ex_hidden; ex_flare]) 0 8 (Some (0, 0))).
Proof.
  split. lra. split. lra. split. reflexivity. split. reflexivity. split.
  - assert (I : forall f, flare_image 2 (1/2) 3 (0, 0) (0, PI/2) f (ex_later f)).
    { intros f. split. reflexivity. split. reflexivity. split. reflexivity. split. reflexivity. cbn [fst snd ex_later fl_lat fl_lon].
      rewrite <- !law_cos_dot. unfold law_cos. replace (PI/2 - (fl_lon f + PI/2)) with (0 - fl_lon f) by ring.
      replace (fl_lon f + PI/2 - PI/2) with (fl_lon f - 0) by ring. tauto. }
    constructor; auto.
  - unfold flc_visible. cbn [sub_obs fst snd]. apply filter_In. split.
    + rewrite in_period_eq. apply filter_In. split. { right; left; reflexivity. }
      unfold win_b. cbn. apply andb_true_iff; split; apply Rltb_true; lra.
    + apply Rltb_true. unfold law_cos. rewrite sin_0, cos_0. cbn [fl_lat fl_lon ex_flare].
      assert (0 < cos (1/3)) by (apply cos_gt_0; pose proof PI2_1; lra).
      assert (0 < cos (0 - 1/2)) by (apply cos_gt_0; pose proof PI2_1; lra).
      assert (0 < cos (1/3) * cos (0 - 1/2)) by (apply Rmult_lt_0_compat; auto). lra.
Qed.
