(** Property C124: only ratios of lengths matter *)
From Coq Require Import Reals ZArith Bool String List Lra Lia Permutation.
From Coquelicot Require Import Coquelicot.
From Verif Require Import Num Py MConfig MHelpers MGrid MSpots MFaculae MXoflares MFlares MGranules MStar MHeap
  Spec SpecStar SpecFlare SpecScale LBase LHelpers LFlare LScale LSingleEx PropsFlare PropsStar PropsSingle PropsFlareRun.
Import ListNotations.
Open Scope R_scope.

(** C124 *)
@THM C124_programs C124_run_lemma
@THM C124_reports C124_report_lemma
@THM C124_flares C124_flares_lemma
(** a star with a facula and two flares, to which a spot is added; twice as large it is another star *)
Definition ex_small : star := star_with_flares (ex_star 2 [] [ex_facula 2 150] 3300 300) (flc_init [ex_hidden; ex_flare]).
Example C124_nonvacuous : 0 < 2 /\ (exists s', vrun ex_small [CAddSpot [ex_single_spot]] = Ok s'
    /\ sc_spots (st_spots s') <> [] /\ fcc_facs (st_facs s') <> [] /\ scale_star 2 s' <> s'
    /\ st_radius (scale_star 2 s') = 2 /\ map fc_radius (fcc_facs (st_facs (scale_star 2 s'))) = [Fin 2000])
  /\ flc_visible (flc_init [ex_hidden; ex_flare]) 0 8 (Some (0, 0)) <> [].
Proof.
  split. lra. split.
  - eexists. split. reflexivity. split. discriminate. split. discriminate. split.
    + intros K. apply (f_equal st_radius) in K. cbn [st_radius scale_star] in K. change (2 * 1 = 1) in K. lra.
    + split. { change (2 * 1 = 2). ring. } change ([Fin (2 * 1000)] = [Fin 2000]). replace (2 * 1000) with 2000 by ring. reflexivity.
  - intros K. assert (I : In ex_flare (flc_visible (flc_init [ex_hidden; ex_flare]) 0 8 (Some (0, 0)))); [|rewrite K in I; destruct I].
    unfold flc_visible. cbn [sub_obs fst snd]. apply filter_In. split.
    + rewrite in_period_eq. apply filter_In. split. { right; left; reflexivity. }
      unfold win_b. cbn. apply andb_true_iff; split; apply Rltb_true; lra.
    + apply Rltb_true. unfold law_cos. rewrite sin_0, cos_0. cbn [fl_lat fl_lon ex_flare].
      assert (0 < cos (1/3)) by (apply cos_gt_0; pose proof PI2_1; lra).
      assert (0 < cos (0 - 1/2)) by (apply cos_gt_0; pose proof PI2_1; lra).
      assert (0 < cos (1/3) * cos (0 - 1/2)) by (apply Rmult_lt_0_compat; auto). lra.
Qed.
