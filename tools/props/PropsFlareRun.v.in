(** Property C122: observing the flares of a star without gaps *)
From Coq Require Import Reals ZArith Bool String List Lra Lia Permutation.
From Coquelicot Require Import Coquelicot.
From Verif Require Import Num Py MConfig MHelpers MGrid MSpots MFaculae MXoflares MFlares MGranules MStar Spec SpecStar SpecFlare SpecReach SpecFlareRun
  LBase LHelpers LFlare LFlareGen LFlareAcc LFlareRun PropsFlare PropsStar.
Import ListNotations.
Open Scope R_scope.

(** C122 *)
@THM C122_no_gaps C122_run
@THM C122_short_windows C122_short
(** two observations of four days, with a star spot added in between; one flare on the side of the observer, one behind *)
Definition ex_hidden : flare :=
  {| fl_fwhm := Fin (1/4); fl_energy := Fin (10^33); fl_lat := 0; fl_lon := PI; fl_teff := Fin 9000; fl_tpeak := 5 |}.
Definition ex_flaring : star := star_with_flares (ex_star 6 [] [] 3300 200) (flc_init [ex_hidden; ex_flare]).
Definition ex_night (t : R) : obs := mkObs (star_add_spot ex_flaring []) t (t + 4) 0 0.
Example C122_nonvacuous : st_flares ex_flaring = Some (flc_init [ex_hidden; ex_flare])
  /\ Permutation [ex_hidden; ex_flare] ([ex_flare] ++ [ex_hidden])
  /\ (forall f, In f [ex_hidden; ex_flare] -> exists w E T, flare_is f w E T /\ 0 < w /\ 0 < T /\ 0 <= E)
  /\ back_to_back 500 0 8 [ex_night 0; ex_night 4]
  /\ (forall o, In o [ex_night 0; ex_night 4] -> star_ops ex_flaring (ob_star o))
  /\ (forall f, In f [ex_flare] -> (exists w, fl_fwhm f = Fin w /\ 0 <= fl_tpeak f - w /\ fl_tpeak f + 20 * w <= 8) /\
       forall o, In o [ex_night 0; ex_night 4] -> active f o -> faces (ob_lat o) (ob_lon o) f)
  /\ (forall f, In f [ex_hidden] -> forall o, In o [ex_night 0; ex_night 4] -> active f o -> ~ faces (ob_lat o) (ob_lon o) f).
Proof.
  split; [reflexivity|split]. { constructor. }
  split. { intros f [<-|[<-|[]]]; [exists (1/4), (10^33), 9000|exists (1/4), (10^34), 9000]; repeat split; try lra; apply pow_le; lra. }
  split. { cbn [back_to_back ex_night ob_start ob_end]. assert (E : INR 500 = 500) by (rewrite INR_IZR_INZ; f_equal). rewrite E. repeat split; lra. }
  split. { intros o I. assert (ob_star o = star_add_spot ex_flaring []) as -> by (destruct I as [<-|[<-|[]]]; reflexivity).
    eapply ops_more; [apply op_add_spot|apply ops_none]. }
  split.
  - intros f [<-|[]]. split. { exists (1/4). cbn. repeat split; lra. }
    intros o I _. assert (E : ob_lat o = 0 /\ ob_lon o = 0) by (destruct I as [<-|[<-|[]]]; split; reflexivity). destruct E as [-> ->].
    apply faces_spec. apply Rltb_true. unfold law_cos. rewrite sin_0, cos_0. cbn [fl_lat fl_lon ex_flare].
    assert (0 < cos (1/3)) by (apply cos_gt_0; pose proof PI2_1; lra).
    assert (0 < cos (0 - 1/2)) by (apply cos_gt_0; pose proof PI2_1; lra).
    assert (0 < cos (1/3) * cos (0 - 1/2)) by (apply Rmult_lt_0_compat; auto). lra.
  - intros f [<-|[]] o I _. assert (E : ob_lat o = 0 /\ ob_lon o = 0) by (destruct I as [<-|[<-|[]]]; split; reflexivity). destruct E as [-> ->].
    intros F. apply faces_spec in F. rb. unfold law_cos in F. cbn [fl_lat fl_lon ex_hidden] in F. rewrite sin_0, cos_0 in F.
    replace (0 - PI) with (- PI) in F by ring. rewrite cos_neg, cos_PI in F. lra.
Qed.
(** and two looks of ten minutes at them *)
Example C122_short_nonvacuous : forall o, In o [mkObs ex_flaring 1 (1 + 10/1440) 0 0; mkObs ex_flaring (1 + 10/1440) (1 + 20/1440) 0 0] ->
  star_ops ex_flaring (ob_star o) /\ 0 <= ob_end o - ob_start o < 20 / 1440.
Proof. intros o [<-|[<-|[]]]; cbn; (split; [apply ops_none|lra]). Qed.
