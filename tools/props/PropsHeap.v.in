(** Properties C73-C74: stars as objects with identity, sharing *)
From Coq Require Import Reals ZArith Bool String List Lra Lia.
From Coquelicot Require Import Coquelicot.
From Verif Require Import Num Py MConfig MHelpers MGrid MSpots MFaculae MXoflares MFlares MGranules MStar MHeap
  Spec SpecStar SpecDisk SpecHeap LBase LGrid LSpotAge LSpotGen LStar LHeap PropsSpotGen PropsStar.
Import ListNotations.
Open Scope R_scope.

(** a store of decaying spots and of faculae, one in each collection; the generators work on
    another grid *)
Definition ex_world (ls : nat -> list nat) : world :=
  mkWorld (fun _ => ex_spot2) 2 (fun _ => ex_facula 2 150) 2 (fun k => (ls k, Spiral 2)) (fun k => ([k], Spiral 2))
    (fun _ => ex_sg) (fun _ => fg_off (Rect 50 100)).
Definition ex_hstar (k : nat) : hstar := mkHStar (ex_star 2 [] [] 3300 0) k k 0 0.
Lemma ex_aged : spot_age ex_spot2 (Fin 1) = Ok (spot_with_area ex_spot2 (nsub (Fin 1000) (Fin (1 * 10))) false).
Proof.
  unfold spot_age. change (sp_growing ex_spot2) with false. change (sp_decay ex_spot2) with (Fin 10).
  change (sp_area_max ex_spot2) with (Fin 1000). cbv iota zeta. cbn [nmul].
  destruct (ngt (Fin (1 * 10)) (Fin 1000)) eqn:E; [unfold ngt in E; apply nlt_fin in E; lra|]. reflexivity.
Qed.

(** C73 *)
@THM C73_identity C73_lemma
Example C73_nonvacuous : exists w st prog,
  (forall i, (i < 2)%nat -> tidy w (st i)) /\
  (forall i j, (i < 2)%nat -> (j < 2)%nat -> i <> j -> apart w (st i) (st j)) /\
  List.Forall (fun p => (fst p < 2)%nat) prog /\ snd (hrun w st prog) = None /\
  calls_on 0 prog = [CAge (Fin 1); CAddFac []] /\ calls_on 1 prog = [CAddSpot [ex_spot2]; CAge (Fin 1)].
Proof.
  set (prog := [(0%nat, CAge (Fin 1)); (1%nat, CAddSpot [ex_spot2]); (0%nat, CAddFac []); (1%nat, CAge (Fin 1))]).
  assert (T : forall i, (i < 2)%nat -> tidy (ex_world (fun k => [k])) (ex_hstar i)).
  { intros i L. unfold tidy. cbn. repeat split; try (constructor; [intros []|constructor]); intros l [<-|[]]; auto. }
  assert (A : forall i j, (i < 2)%nat -> (j < 2)%nat -> i <> j -> apart (ex_world (fun k => [k])) (ex_hstar i) (ex_hstar j)).
  { intros i j _ _ N. unfold apart. cbn. repeat split; auto; intros l [<-|[]] [X|[]]; auto. }
  assert (P : List.Forall (fun p : nat * cmd => (fst p < 2)%nat) prog) by (repeat constructor).
  exists (ex_world (fun k => [k])), ex_hstar, prog. split; auto. split; auto. split; auto. split; [|split; reflexivity].
  apply (proj1 (C73_lemma 2 _ ex_hstar prog T A P)). intros i L.
  assert (i = 0 \/ i = 1)%nat as [->| ->] by lia.
  - change (calls_on 0 prog) with [CAge (Fin 1); CAddFac []]. cbn [vrun vexec]. unfold star_age, sc_age.
    cbn [view view_sc ex_hstar ex_world st_spots sc_spots hs_sc w_sc w_spot fst snd map mapM].
    rewrite ex_aged. cbn [bind]. eexists. reflexivity.
  - change (calls_on 1 prog) with [CAddSpot [ex_spot2]; CAge (Fin 1)]. cbn [vrun vexec]. unfold star_age, sc_age, star_add_spot, sc_add_spot, star_with_spots.
    cbn [view view_sc ex_hstar ex_world st_spots sc_spots sc_grid hs_sc w_sc w_spot fst snd map mapM app bind].
    change (spot_assign_gridmaker ex_spot2 (Spiral 2)) with ex_spot2.
    rewrite ex_aged. cbn [bind]. eexists. reflexivity.
Qed.

(** C73: construction *)
@THM C73_init C73_init_lemma
Example C73_init_nonvacuous : exists w v o,
  star_init (Fin 3300) 1 30 (view_sc w 1) (view_fc w 1) (PyInt 3) None (Some (w_sg w 1)) (Some (w_fg w 1)) None 0 0 = Ok v /\
  hs_sc o <> 1%nat /\ hs_fc o <> 1%nat /\ hs_sg o <> 1%nat /\ hs_fg o <> 1%nat /\
  (forall l, In l (spots_of w o) -> ~ In l (fst (w_sc w 1))) /\ (forall l, In l (facs_of w o) -> ~ In l (fst (w_fc w 1))) /\
  spots_of w o <> [] /\ fst (w_sc w 1) <> [].
Proof.
  exists (ex_world (fun k => [k])). eexists. exists (ex_hstar 0). split. reflexivity. cbn. repeat split; auto.
  1, 2: intros l [<-|[]] [X|[]]; discriminate. all: discriminate.
Qed.

(** C74: the same spot twice in one star *)
@THM C74_age C74_age_lemma
@THM C74_twice C74_twice_lemma
Example C74_nonvacuous : exists w s w', h_age w s (Fin 1) = (w', None) /\ times_in 0 (spots_of w s) = 2%nat /\
  sp_area (w_spot w 0) = Fin 1000 /\ sp_area (w_spot w' 0) = Fin 980.
Proof.
  set (w := ex_world (fun _ => [0; 0]%nat)). set (s := ex_hstar 0).
  assert (H : exists w', h_age w s (Fin 1) = (w', None)).
  { unfold h_age, w_sc_age, w, s. cbn [ex_world ex_hstar w_sc hs_sc w_spot heach]. rewrite ex_aged.
    rewrite hset_eq. unfold spot_age at 1. cbn [spot_with_area sp_growing]. cbv zeta.
    match goal with |- context [ngt ?a ?b] => destruct (ngt a b) end; eexists; reflexivity. }
  destruct H as [w' H]. exists w, s, w'. split; auto. split. reflexivity. split. reflexivity.
  rewrite (C74_twice_lemma w s 1 w' 0 1000 1000 10 H); try reflexivity; try lra.
  f_equal. change (times_in 0 (spots_of w s)) with 2%nat. simpl INR. lra.
Qed.

(** C74: a second star over the collection of the first *)
@THM C74_regrid C74_regrid_lemma
Example C74_regrid_nonvacuous : exists w w' s o,
  h_init w (Fin 3300) 1 30 0 1 (PyInt 3) None 1 1 None 0 0 = (w', Ok s) /\
  hs_sc o = 0%nat /\ st_grid (view w o) = Spiral 2 /\ st_grid (view w' s) = Spiral 3 /\ spots_of w o <> [].
Proof.
  exists (ex_world (fun k => [k])). eexists. eexists. exists (ex_hstar 0). split. reflexivity.
  repeat split. cbn. discriminate.
Qed.

(** C74: births from a generator on another grid *)
@THM C74_births C74_births_lemma
Example C74_births_nonvacuous : exists w o w' o', tidy w o /\
  hexec w o (CBirthSpots (Fin 1) 3 ex_draws 5) = (w', o', None) /\ length (spots_of w' o') = 4%nat /\
  snd (w_sc w (hs_sc o)) = Spiral 2 /\ sg_grid (w_sg w (hs_sg o)) = Rect 50 100.
Proof.
  assert (B : exists l, sg_birth ex_sg (Fin 1) 1 3 ex_draws 5 = Ok l /\ length l = 3%nat).
  { destruct C26_lemma as [C _]. destruct (C ex_sg 500 100 (1/2) 10 1) as [k [Hk [E _]]]; try lra. repeat split.
    specialize (E (1/5) 1). change (sg_with_coverage ex_sg (Fin (1/5))) with ex_sg in E.
    destruct C25_nonvacuous as [l [G [Ll _]]]. exists l. split; auto.
    unfold sg_birth. rewrite E. cbn [bind]. unfold poisson.
    destruct (Rlt_dec (k * (1/5) * 1) 0); [lra|]. destruct (Req_EM_T (k * (1/5) * 1) 0); [lra|]. exact G. }
  destruct B as [l [B Ll]].
  exists (ex_world (fun k => [k])), (ex_hstar 0). unfold hexec.
  change (st_radius (hs_attrs (ex_hstar 0))) with 1. change (w_sg (ex_world (fun k => [k])) (hs_sg (ex_hstar 0))) with ex_sg.
  rewrite B. exists (fst (h_new_spots (ex_world (fun k => [k])) (ex_hstar 0) l)), (ex_hstar 0).
  assert (T : tidy (ex_world (fun k => [k])) (ex_hstar 0)).
  { unfold tidy. cbn. repeat split; try (constructor; [intros []|constructor]); intros k [<-|[]]; auto. }
  split; auto. split. { rewrite (proj1 (new_spots_view _ _ l T)). reflexivity. }
  split; [|split; reflexivity].
  unfold h_new_spots. pose proof (halloc_addr _ l (w_spot (ex_world (fun k => [k]))) 2) as Ha.
    change (w_nspot (ex_world (fun k => [k]))) with 2%nat. destruct (halloc (w_spot (ex_world (fun k => [k]))) 2 l) as [h ls].
    cbn [snd] in Ha. subst ls. unfold spots_of. cbn -[seq length]. cbn [length]. rewrite seq_length, Ll. reflexivity.
Qed.
