(** Property C80: a sensibly configured star is simulated and observed without exceptions *)
From Coq Require Import Reals ZArith Bool String List Lra Lia.
From Verif Require Import Num Py MConfig MHelpers MGrid MSpots MFaculae MXoflares MFlares MGranules MStar MHeap
  Spec SpecStar SpecFlare SpecDisk SpecFrame SpecSim LBase LGrid LFac LSpotMap LSpotCov LStar LSim PropsSpotGen PropsFac PropsFlare PropsSym.
Import ListNotations.
Open Scope R_scope.

(** C80 *)
@THM C80_init C80_init_lemma
@THM C80_run C80_run_lemma
@THM C80_observe C80_observe_lemma

(** a star with a spot, a facula and three generators, on a 6 x 8 grid *)
Lemma ex_sim_spot : healthy_spot (ex_sym_spot 0 1).
Proof.
  constructor; cbn.
  - split; eexists; reflexivity.
  - reflexivity.
  - exists (1/2). split; auto. lra.
  - eexists; reflexivity.
  - exists 1000. split; auto. lra.
  - exists 1000. split; auto. discriminate.
Qed.
Lemma ex_sim_fac : forall a b, healthy_fac (ex_sym_fac a b).
Proof.
  intros. constructor; cbn.
  - exists 1000, 1000, 6. split. repeat split. lra.
  - split. exists 100. split; auto. lra. exists 0, 20, (-100), 0, 150. repeat (split; auto). intros r _ _.
    unfold wall_diff, floor_diff. replace (150 + 0 * r - (-100 + 0 * (r - 20))) with 250 by ring. rewrite Rabs_right; lra.
Qed.
Lemma ex_sim_sg : healthy_spotgen ex_sg.
Proof.
  constructor; cbn.
  - lra.
  - discriminate.
  - split; eexists; reflexivity.
  - exists (1/5). split; auto. lra.
  - exists 500, 100, (1/2), 10. repeat (split; auto); try lra. right. split; [lra|]. split; [lra|reflexivity].
Qed.
Lemma ex_sim_fg : healthy_facgen ex_fg.
Proof.
  constructor; cbn.
  - exists 100; split; auto; lra.
  - exists 6; split; auto; lra.
  - split; lra.
  - exists (1/10). split; auto. lra.
  - split. exists 10; split; auto; lra. exists 0, 20, (-100), 0, 100. repeat (split; auto). intros r _ _.
    unfold wall_diff, floor_diff. replace (100 + 0 * r - (-100 + 0 * (r - 20))) with 200 by ring. rewrite Rabs_right; lra.
Qed.
Definition ex_sim_program : list cmd :=
  [CAge (Fin 1); CBirthSpots (Fin 2) 3 ex_draws 1; CBirthFaculae (Fin 2) 4 (mkFDraws (fun _ => 1) (fun _ => 1/3) (fun _ => 1/5));
   CFlares 5 2 ex_ld; CAddSpot [spot_init 1 2 (Fin 300) (Fin 30) (Fin 2500) (Fin 2700) (Fin 5) true (Fin (1/2)) (-1) (Fin 10) (Rect 6 8)];
   CAddFac [fac_assign_grid (ex_sym_fac 1 2) (Rect 6 8)]; CAge (Fin 30)].
(** such a star exists; the program above (and any longer one with a coverage search) is sensible
    and runs to its end; the star is then observable *)
Example C80_nonvacuous : exists s s', 
  star_init (Fin 3300) 1 30 (mkSpotColl [ex_sym_spot 0 1] (Spiral 100)) (mkFacColl [ex_sym_fac 0 0] (Spiral 100))
    (PyTuple [PyInt 6; PyInt 8]) (Some ex_lg) (Some ex_sg) (Some ex_fg) None 0 0 = Ok s
  /\ healthy s
  /\ sensible s (CMature (Fin (1/4)) (fun _ => (ex_draws, 1/2)) 10 10)
  /\ (forall c, In c ex_sim_program -> sensible s c /\ prompt c)
  /\ vrun s ex_sim_program = Ok s' /\ healthy s'
  /\ (forall f, In f (fcc_facs (st_facs s)) -> cos_sep 0 0 (fc_lat f) (fc_lon f) <> 0).
Proof.
  destruct (C80_init (Fin 3300) 1 30 (mkSpotColl [ex_sym_spot 0 1] (Spiral 100)) (mkFacColl [ex_sym_fac 0 0] (Spiral 100))
    (PyTuple [PyInt 6; PyInt 8]) (Some ex_lg) (Some ex_sg) (Some ex_fg) None 0 0 (Rect 6 8)) as [s [E [H G]]].
  - reflexivity.
  - cbn. lia.
  - eexists; reflexivity.
  - lra.
  - intros. lra.
  - intros x [<-|[]]. apply ex_sim_spot.
  - intros x [<-|[]]. apply ex_sim_fac.
  - right. exists (10^33). apply ex_lg_ok.
  - apply ex_sim_sg.
  - apply ex_sim_fg.
  - exact I.
  - assert (P : forall c, In c ex_sim_program -> sensible s c /\ prompt c).
    { intros c K. unfold ex_sim_program in K. repeat (destruct K as [<-|K]); try destruct K; cbn [sensible prompt].
      - split; auto. exists 1. split; auto; lra.
      - split. exists 2. split; auto; lra. exists 1%nat. split. lia. intros. cbn. lra.
      - split; auto. exists 2. split; auto; lra.
      - split; auto. split. lra. apply ex_ld_ok.
      - split; auto. rewrite G. intros x [<-|[]]. split.
        + constructor; cbn.
          * split; eexists; reflexivity.
          * reflexivity.
          * exists (1/2). split; auto. lra.
          * eexists; reflexivity.
          * exists 300. split; auto. lra.
          * exists 30. split; auto. intros; lra.
        + apply spot_init_on.
      - split; auto. rewrite G. intros x [<-|[]]. split; auto. destruct (ex_sim_fac 1 2). constructor; auto.
      - split; auto. exists 30. split; auto; lra. }
    destruct (C80_run s ex_sim_program H (fun c K => proj1 (P c K))) as [[[s' [R1 [H' _]]]|R1] R2].
    2:{ exfalso. apply (R2 (fun c K => proj2 (P c K))). exact R1. }
    exists s, s'. split; [exact E|]. split; [exact H|]. split; [|split; [exact P|split; [exact R1|split; [exact H'|]]]].
    + cbn [sensible]. split; [|split].
      * unfold star_init in E. cbn in E. injection E as <-. reflexivity.
      * exists (1/4). split; auto; lra.
      * intros; cbn; lra.
    + unfold star_init in E. cbn in E. injection E as <-. cbn [st_facs fcc_facs]. intros f [<-|[]]. cbn.
      unfold cos_sep. rewrite ?Rminus_diag, ?sin_0, ?cos_0. lra.
Qed.
