(** Property C126: the order of spots, faculae and flares *)
From Coq Require Import Reals ZArith Bool String List Lra Lia Permutation.
From Verif Require Import Num Py MConfig MHelpers MGrid MSpots MFaculae MXoflares MFlares MGranules MStar MHeap
  Spec SpecStar SpecDisk SpecFrame SpecFar SpecOrder LBase LGrid LSpotMap LDisk LStar LStarFac LHelpers LOrder PropsFlare PropsFlareRun PropsStar PropsSym PropsScale.
Import ListNotations.
Open Scope R_scope.

(** C126 *)
Theorem C126_programs :
  forall s s' cs cs', reordered s s' -> Forall2 reordered_call cs cs' -> both reordered (vrun s cs) (vrun s' cs').
Proof. exact C126_run_lemma. Qed.
Print Assumptions C126_programs.
Theorem C126_reports :
  forall s s' lat0 lon0, star_unified s -> star_unified s' -> same_face s s' -> 0 < st_radius s -> st_teff s <> NaN ->
  (forall x, In x (sc_spots (st_spots s)) -> nle (sp_teff_umbra x) (sp_teff_pen x) = true) -> same_spots s s' ->
  star_map s' = star_map s
  /\ sc_get_coverage (st_spots s') (st_radius s') = sc_get_coverage (st_spots s) (st_radius s)
  (* the same faculae *)
  /\ (fcc_facs (st_facs s') = fcc_facs (st_facs s) ->
        add_faculae_to_map s' lat0 lon0 = add_faculae_to_map s lat0 lon0
        /\ forall gf orbit planet phase incl, calc_coverage s' lat0 lon0 gf orbit planet phase incl = calc_coverage s lat0 lon0 gf orbit planet phase incl)
  (* faculae exchanged and left out *)
  /\ ((forall f, In f (fcc_facs (st_facs s)) -> is_fin (fc_radius f)) -> tidied s (fcc_facs (st_facs s)) (fcc_facs (st_facs s')) ->
        (forall M, add_faculae_to_map s lat0 lon0 = Ok M -> add_faculae_to_map s' lat0 lon0 = Ok M)
        /\ forall gf orbit planet phase incl r, calc_coverage s lat0 lon0 gf orbit planet phase incl = Ok r ->
             calc_coverage s' lat0 lon0 gf orbit planet phase incl = Ok r).
Proof. exact C126_report_lemma. Qed.
Print Assumptions C126_reports.
Theorem C126_flares :
  forall s s' l l' t0 t1 so, st_flares s = Some (flc_init l) -> st_flares s' = Some (flc_init l') -> Permutation l l' ->
  both (@Permutation (num * num)) (star_flare_int s t0 t1 so) (star_flare_int s' t0 t1 so).
Proof. exact C126_flares_lemma. Qed.
Print Assumptions C126_flares.
(** two spots in both orders, one of them twice; two faculae at different places in both orders, one on top of a third *)
Definition ex_ofac (i : nat) (wall : R) : facula :=
  {| fc_lat := spiral_lat 2 i; fc_lon := spiral_lon i; fc_rmax := Fin 1000; fc_radius := Fin 1000; fc_depth := Fin 100; fc_life := Fin 6;
     fc_fslope := Fin 0; fc_fminrad := Fin 20; fc_fbase := Fin (-100); fc_wslope := Fin 0; fc_wint := Fin wall;
     fc_growing := false; fc_grid := Spiral 5 |}.
Definition ex_spot_a : spot := ex_sym_spot 0 0.
Definition ex_spot_b : spot := ex_sym_spot 0 PI.
Definition ex_order1 : star := star_with_flares (ex_star 2 [ex_spot_a; ex_spot_b] [ex_ofac 0 120; ex_ofac 0 150; ex_ofac 1 150] 3300 0) (flc_init [ex_hidden; ex_flare]).
Definition ex_order2 : star := star_with_flares (ex_star 2 [ex_spot_b; ex_spot_a; ex_spot_b] [ex_ofac 1 150; ex_ofac 0 150] 3300 0) (flc_init [ex_flare; ex_hidden]).
Definition ex_order3 : star := star_with_flares (ex_star 2 [ex_spot_b; ex_spot_a] [ex_ofac 1 150; ex_ofac 0 120; ex_ofac 0 150] 3300 0) (flc_init [ex_flare; ex_hidden]).
Definition ex_calls1 : list cmd := [CAddSpot [ex_spot_a; ex_spot_b]; CAddFac [ex_ofac 0 120; ex_ofac 1 150]].
Definition ex_calls2 : list cmd := [CAddSpot [ex_spot_b; ex_spot_a]; CAddFac [ex_ofac 1 150; ex_ofac 0 120]].
Lemma ex_swap : forall A (a b : A), Permutation [a; b] [b; a].
Proof. intros. constructor. Qed.
Example C126_programs_nonvacuous : reordered ex_order1 ex_order3 /\ sc_spots (st_spots ex_order1) <> sc_spots (st_spots ex_order3)
  /\ Forall2 reordered_call ex_calls1 ex_calls2 /\ exists s, vrun ex_order1 ex_calls1 = Ok s.
Proof.
  split; [|split; [|split]].
  - split. repeat split. split. reflexivity. split. reflexivity. split; [apply ex_swap|]. split.
    + cbn. eapply perm_trans; [apply perm_skip, perm_swap|]. apply perm_swap.
    + exists [ex_hidden; ex_flare], [ex_flare; ex_hidden]. split. reflexivity. split. reflexivity. apply ex_swap.
  - intros K. apply (f_equal (fun l => match l with x :: _ => sp_lon x | [] => 0 end)) in K.
    change (0 = PI) in K. pose proof PI_RGT_0. lra.
  - repeat constructor.
  - eexists. reflexivity.
Qed.
Lemma ex_ocovers : forall i j w, (i < 2)%nat -> (j < 2)%nat ->
  (fac_covers ex_order1 (fac_assign_grid (ex_ofac i w) (Spiral 2)) 0 j <-> i = j).
Proof.
  intros i j w Hi Hj. destruct (ex_pt 2 j) as [E1 E2]; auto. split.
  - intros [a [r [[A1 A2] [B C]]]]. cbn [fc_lat fc_lon fac_assign_grid ex_ofac fc_radius] in *. injection B as <-.
    change (st_grid ex_order1) with (Spiral 2) in *. change (st_radius ex_order1) with 1 in *. rewrite E1, E2 in A2. unfold SUN_KM in C. rewrite Rmult_1_l in C.
    assert (1/2 < cos a) by (apply cos_small; lra). pose proof ex_far as F. rewrite <- ex_lon0 in F.
    destruct i as [|[|]]; [| |lia]; (destruct j as [|[|]]; [| |lia]); auto; exfalso; [lra|].
    assert (S0 : cos_sep (spiral_lat 2 1) (spiral_lon 1) (spiral_lat 2 0) (spiral_lon 0) = cos_sep (spiral_lat 2 0) (spiral_lon 0) (spiral_lat 2 1) (spiral_lon 1)).
    { unfold cos_sep, dot, vec. ring. }
    lra.
  - intros <-. exists 0, 1000. cbn [fc_lat fc_lon fac_assign_grid ex_ofac fc_radius].
    split; [|split; auto]. split. pose proof PI_RGT_0; lra.
    change (st_grid ex_order1) with (Spiral 2). rewrite E1, E2, cos_sep_self. apply cos_0.
    change (st_radius ex_order1) with 1. unfold SUN_KM. rewrite Rmult_1_l. lra.
Qed.
Lemma ex_round : forall w, (w = 120)%Z \/ (w = 150)%Z -> round_teff (Fin (wall_diff 1000 0 (IZR w))) = Ok w.
Proof.
  intros w H. unfold wall_diff. cbn [round_teff]. replace (IZR w + 0 * 1000) with (IZR w) by ring. f_equal. apply rhe_IZR.
Qed.
Example C126_reports_nonvacuous : star_unified ex_order1 /\ star_unified ex_order2 /\ same_face ex_order1 ex_order2 /\ 0 < st_radius ex_order1
  /\ st_teff ex_order1 <> NaN
  /\ (forall x, In x (sc_spots (st_spots ex_order1)) -> nle (sp_teff_umbra x) (sp_teff_pen x) = true) /\ same_spots ex_order1 ex_order2
  /\ (forall f, In f (fcc_facs (st_facs ex_order1)) -> is_fin (fc_radius f))
  /\ tidied ex_order1 (fcc_facs (st_facs ex_order1)) (fcc_facs (st_facs ex_order2))
  /\ fcc_facs (st_facs ex_order1) <> fcc_facs (st_facs ex_order2)
  /\ exists M, add_faculae_to_map ex_order1 (PI/2) 0 = Ok M.
Proof.
  assert (U : star_unified ex_order1) by apply (ex_unified 2 [ex_spot_a; ex_spot_b] [ex_ofac 0 120; ex_ofac 0 150; ex_ofac 1 150] 3300 0).
  split; [exact U|]. split. { apply (ex_unified 2 [ex_spot_b; ex_spot_a; ex_spot_b] [ex_ofac 1 150; ex_ofac 0 150] 3300 0). }
  split. repeat split. split. { cbn; lra. } split. discriminate. split.
  { intros x [<-|[<-|[]]]; cbn; unfold Rleb; destruct (Rle_dec 2500 2700); auto; lra. }
  split. { intros x. cbn. tauto. }
  split. { intros f [<-|[<-|[<-|[]]]]; eexists; reflexivity. }
  split. { apply (tidied_drop ex_order1 []).
    - intros j i P C. apply ex_pixel in P. destruct P as [-> L]. apply (ex_ocovers 0 i 120) in C; auto. apply (ex_ocovers 0 i 150); auto.
    - apply (tidied_swap ex_order1 []); [|constructor].
      intros j i P [C1 C2]. apply ex_pixel in P. destruct P as [-> L]. apply (ex_ocovers 0 i 150) in C1; auto. apply (ex_ocovers 1 i 150) in C2; auto. lia. }
  split. { discriminate. }
  apply C54_total_lemma; auto. destruct ex_rounds as [_ E2].
  assert (E0 : forall i, (i < 2)%nat -> cos_sep (PI/2) 0 (spiral_lat 2 i) (spiral_lon i) <> 0).
  { intros i L. rewrite <- law_cos_dot. unfold law_cos. rewrite sin_PI2, cos_PI2.
    assert (S0 := spiral_sin_lat 2 i L). rewrite S0. destruct i as [|[|]]; [| |lia]; simpl; lra. }
  intros f [<-|[<-|[<-|[]]]].
  - exists 1000, 100, 0, 20, (-100), 0, 120, 120%Z, (-100)%Z. split. repeat split. split. lra. split. lra. split. apply (ex_round 120); auto. split; auto. split. discriminate.
    apply E0. lia.
  - exists 1000, 100, 0, 20, (-100), 0, 150, 150%Z, (-100)%Z. split. repeat split. split. lra. split. lra. split. apply (ex_round 150); auto. split; auto. split. discriminate.
    apply E0. lia.
  - exists 1000, 100, 0, 20, (-100), 0, 150, 150%Z, (-100)%Z. split. repeat split. split. lra. split. lra. split. apply (ex_round 150); auto. split; auto. split. discriminate.
    apply E0. lia.
Qed.
Example C126_flares_nonvacuous : st_flares ex_order1 = Some (flc_init [ex_hidden; ex_flare]) /\ st_flares ex_order2 = Some (flc_init [ex_flare; ex_hidden])
  /\ Permutation [ex_hidden; ex_flare] [ex_flare; ex_hidden] /\ [ex_hidden; ex_flare] <> [ex_flare; ex_hidden].
Proof.
  split. reflexivity. split. reflexivity. split. apply ex_swap. intros K. apply (f_equal (fun l => match l with x :: _ => fl_tpeak x | [] => 0 end)) in K. cbn in K. lra.
Qed.
