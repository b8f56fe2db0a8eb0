(** Property C121: long programs on stars whose generators draw from shared streams *)
From Coq Require Import Reals ZArith Bool String List Lra Lia.
From Verif Require Import Num Py MConfig MHelpers MGrid MSpots MFaculae MXoflares MFlares MGranules MStar MHeap MRng
  Spec SpecStar SpecFlare SpecDisk SpecFrame SpecSim SpecRng SpecLive LBase LGrid LStar LSim LRng LRngRun LRngGran LLive
  PropsSpotGen PropsFac PropsFlare PropsSym PropsSim.
Import ListNotations.
Open Scope R_scope.

(** C121 *)
@THM C121_run C121_run_lemma
@THM C121_fuel C121_fuel_lemma
@THM C121_ends C121_ends_lemma
(** a star with spots that never decay, sharing one stream among all its generators *)
Lemma ex_live_sg_ok : healthy_spotgen ex_sg_static.
Proof.
  constructor; cbn.
  - lra.
  - discriminate.
  - split; eexists; reflexivity.
  - exists (1/5). split; auto. lra.
  - exists 500, 100, (1/2), 0. repeat (split; auto); lra.
Qed.
Definition ex_live_program : list (nat * rcall) :=
  [(0%nat, RMature (Fin (1/3))); (1%nat, RBirthSpots (Fin 1)); (0%nat, RBirthFaculae (Fin 1)); (1%nat, RFlares 5); (1%nat, RAge (Fin 2));
   (0%nat, RMature (Fin 1)); (0%nat, RAddFac [fac_assign_grid (ex_sym_fac 1 2) (Rect 6 8)])].
(** two stars that share this one stream, a program that searches for coverages, and its end *)
Example C121_nonvacuous : numpy_ok ex_np /\ (forall n s, ready ex_np n s) /\ (forall s, - 0 <= fst (np_normal ex_np s))
  /\ exists s, healthy s /\ sg_decay (st_spotgen s) = Fin 0
     /\ let x := mkRStar s 0 0 0 0 in
        (forall i c, In (i, c) ex_live_program -> sensible_call (rs_star x) c /\ ends_call (rs_star x) c)
        /\ exists fuel h' st' log, rrun ex_np fuel (fun _ => O) (fun _ => x) ex_live_program = (h', st', log)
             /\ List.length log = 7%nat /\ (forall i e, In (i, e) log -> e = None).
Proof.
  assert (RD : forall n s, ready ex_np n s).
  { intros n s. apply ready_now. revert s. induction n; intros s; simpl. constructor.
    specialize (IHn (S s)). destruct (takes _ n (S s)) as [l s']. constructor; auto. lra. }
  assert (NB : forall s, - 0 <= fst (np_normal ex_np s)) by (intros; simpl; lra).
  split. apply ex_np_ok. split; auto. split; auto.
  destruct (C80_init (Fin 3300) 1 30 (mkSpotColl [ex_sym_spot 0 1] (Spiral 100)) (mkFacColl [ex_sym_fac 0 0] (Spiral 100))
    (PyTuple [PyInt 6; PyInt 8]) (Some ex_lg) (Some ex_sg_static) (Some ex_fg) None 0 0 (Rect 6 8)) as [s [E [H G]]].
  - reflexivity.
  - cbn. lia.
  - eexists; reflexivity.
  - lra.
  - intros. lra.
  - intros x [<-|[]]. apply ex_sim_spot.
  - intros x [<-|[]]. apply ex_sim_fac.
  - right. exists (10^33). apply ex_lg_ok.
  - apply ex_live_sg_ok.
  - apply ex_sim_fg.
  - exact I.
  - assert (D : sg_decay (st_spotgen s) = Fin 0 /\ sg_growth_dim (st_spotgen s) = (-1)%Z).
    { cbn in E. injection E as <-. split; reflexivity. }
    destruct D as [D1 D2]. exists s. split; auto. split; auto. intros x.
    assert (P : forall i c, In (i, c) ex_live_program -> sensible_call (rs_star x) c /\ ends_call (rs_star x) c).
    { intros i c K. unfold ex_live_program in K. change (rs_star x) with s.
      repeat (destruct K as [K|K]); try contradiction; inversion K; subst i c; clear K; cbn [sensible_call ends_call].
      - split; auto. split; auto. exists (1/3). split; auto; lra.
      - split; auto. exists 1. split; auto; lra.
      - split; auto. exists 1. split; auto; lra.
      - split; auto. lra.
      - split; auto. exists 2. split; auto; lra.
      - split; auto. split; auto. exists 1. split; auto; lra.
      - split; auto. rewrite G. intros f [<-|[]]. split; auto. destruct (ex_sim_fac 1 2). constructor; auto. }
    split; auto.
    destruct (C121_ends nat ex_np 0 (fun _ => O) (fun _ => x) ex_live_program ex_np_ok RD NB (fun _ => H) P) as [fuel [h' [st' [log [R1 R2]]]]].
    exists fuel, h', st', log. split; auto. split; auto.
    destruct (C121_run nat ex_np fuel (fun _ => O) (fun _ => x) ex_live_program h' st' log ex_np_ok (fun _ => H) (fun i c K => proj1 (P i c K)) R1) as [L _].
    rewrite <- (map_length fst log), L. reflexivity.
Qed.
