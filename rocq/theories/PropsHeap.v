(** Properties C73-C74: stars as objects with identity, sharing *)
From Coq Require Import Reals ZArith Bool String List Lra Lia.
From Coquelicot Require Import Coquelicot.
From Verif Require Import Num Py MConfig MHelpers MGrid MSpots MFaculae MXoflares MFlares MGranules MStar MHeap
  Spec SpecStar SpecDisk SpecHeap LBase LGrid LSpotAge LSpotGen LStar LHeap PropsSpotGen PropsStar.
Import ListNotations.
Open Scope R_scope.

(** a store of decaying spots and of faculae, one in each collection; the generators work on
    another grid *)
Definition ex_world (ls : nat -> list nat) : world :=
  mkWorld (fun _ => ex_spot2) 2 (fun _ => ex_facula 2 150) 2 (fun k => (ls k, Spiral 2)) (fun k => ([k], Spiral 2))
    (fun _ => ex_sg) (fun _ => fg_off (Rect 50 100)).
Definition ex_hstar (k : nat) : hstar := mkHStar (ex_star 2 [] [] 3300 0) k k 0 0.
Lemma ex_aged : spot_age ex_spot2 (Fin 1) = Ok (spot_with_area ex_spot2 (nsub (Fin 1000) (Fin (1 * 10))) false).
Proof.
  unfold spot_age. change (sp_growing ex_spot2) with false. change (sp_decay ex_spot2) with (Fin 10).
  change (sp_area_max ex_spot2) with (Fin 1000). cbv iota zeta. cbn [nmul].
  destruct (ngt (Fin (1 * 10)) (Fin 1000)) eqn:E; [unfold ngt in E; apply nlt_fin in E; lra|]. reflexivity.
Qed.

(** C73 *)
Theorem C73_identity :
  forall n w st prog,
  (forall i, (i < n)%nat -> tidy w (st i)) ->
  (forall i j, (i < n)%nat -> (j < n)%nat -> i <> j -> apart w (st i) (st j)) ->
  List.Forall (fun p => (fst p < n)%nat) prog ->
  let w' := fst (fst (hrun w st prog)) in let st' := snd (fst (hrun w st prog)) in let err := snd (hrun w st prog) in
  (err = None <-> (forall i, (i < n)%nat -> exists v, vrun (view w (st i)) (calls_on i prog) = Ok v)) /\
  (err = None -> forall i, (i < n)%nat -> vrun (view w (st i)) (calls_on i prog) = Ok (view w' (st' i))) /\
  (forall i, (i < n)%nat -> tidy w' (st' i)) /\
  (forall i j, (i < n)%nat -> (j < n)%nat -> i <> j -> apart w' (st' i) (st' j)).
Proof. exact C73_lemma. Qed.
Print Assumptions C73_identity.
Example C73_nonvacuous : exists w st prog,
  (forall i, (i < 2)%nat -> tidy w (st i)) /\
  (forall i j, (i < 2)%nat -> (j < 2)%nat -> i <> j -> apart w (st i) (st j)) /\
  List.Forall (fun p => (fst p < 2)%nat) prog /\ snd (hrun w st prog) = None /\
  calls_on 0 prog = [CAge (Fin 1); CAddFac []] /\ calls_on 1 prog = [CAddSpot [ex_spot2]; CAge (Fin 1)].
Proof.
  set (prog := [(0%nat, CAge (Fin 1)); (1%nat, CAddSpot [ex_spot2]); (0%nat, CAddFac []); (1%nat, CAge (Fin 1))]).
  assert (T : forall i, (i < 2)%nat -> tidy (ex_world (fun k => [k])) (ex_hstar i)).
  { intros i L. unfold tidy. cbn. repeat split; try (constructor; [intros []|constructor]); intros l [<-|[]]; auto. }
  assert (A : forall i j, (i < 2)%nat -> (j < 2)%nat -> i <> j -> apart (ex_world (fun k => [k])) (ex_hstar i) (ex_hstar j)).
  { intros i j _ _ N. unfold apart. cbn. repeat split; auto; intros l [<-|[]] [X|[]]; auto. }
  assert (P : List.Forall (fun p : nat * cmd => (fst p < 2)%nat) prog) by (repeat constructor).
  exists (ex_world (fun k => [k])), ex_hstar, prog. split; auto. split; auto. split; auto. split; [|split; reflexivity].
  apply (proj1 (C73_lemma 2 _ ex_hstar prog T A P)). intros i L.
  assert (i = 0 \/ i = 1)%nat as [->| ->] by lia.
  - change (calls_on 0 prog) with [CAge (Fin 1); CAddFac []]. cbn [vrun vexec]. unfold star_age, sc_age.
    cbn [view view_sc ex_hstar ex_world st_spots sc_spots hs_sc w_sc w_spot fst snd map mapM].
    rewrite ex_aged. cbn [bind]. eexists. reflexivity.
  - change (calls_on 1 prog) with [CAddSpot [ex_spot2]; CAge (Fin 1)]. cbn [vrun vexec]. unfold star_age, sc_age, star_add_spot, sc_add_spot, star_with_spots.
    cbn [view view_sc ex_hstar ex_world st_spots sc_spots sc_grid hs_sc w_sc w_spot fst snd map mapM app bind].
    change (spot_assign_gridmaker ex_spot2 (Spiral 2)) with ex_spot2.
    rewrite ex_aged. cbn [bind]. eexists. reflexivity.
Qed.

(** C73: construction *)
Theorem C73_init :
  forall w teff radius period c f gp flg sg fg gran u1 u2,
  match star_init teff radius period (view_sc w c) (view_fc w f) gp flg (Some (w_sg w sg)) (Some (w_fg w fg)) gran u1 u2 with
  | Raise e => h_init w teff radius period c f gp flg sg fg gran u1 u2 = (w, Raise e)
  | Ok v => exists w' s, h_init w teff radius period c f gp flg sg fg gran u1 u2 = (w', Ok s) /\
      view w' s = v /\ spots_of w' s = fst (w_sc w c) /\ facs_of w' s = fst (w_fc w f) /\
      (forall o, hs_sc o <> c -> hs_fc o <> f -> hs_sg o <> sg -> hs_fg o <> fg ->
         (forall l, In l (spots_of w o) -> ~ In l (fst (w_sc w c))) ->
         (forall l, In l (facs_of w o) -> ~ In l (fst (w_fc w f))) ->
         view w' o = view w o /\ (tidy w o -> tidy w' o) /\ apart w' s o)
  end.
Proof. exact C73_init_lemma. Qed.
Print Assumptions C73_init.
Example C73_init_nonvacuous : exists w v o,
  star_init (Fin 3300) 1 30 (view_sc w 1) (view_fc w 1) (PyInt 3) None (Some (w_sg w 1)) (Some (w_fg w 1)) None 0 0 = Ok v /\
  hs_sc o <> 1%nat /\ hs_fc o <> 1%nat /\ hs_sg o <> 1%nat /\ hs_fg o <> 1%nat /\
  (forall l, In l (spots_of w o) -> ~ In l (fst (w_sc w 1))) /\ (forall l, In l (facs_of w o) -> ~ In l (fst (w_fc w 1))) /\
  spots_of w o <> [] /\ fst (w_sc w 1) <> [].
Proof.
  exists (ex_world (fun k => [k])). eexists. exists (ex_hstar 0). split. reflexivity. cbn. repeat split; auto.
  1, 2: intros l [<-|[]] [X|[]]; discriminate. all: discriminate.
Qed.

(** C74: the same spot twice in one star *)
Theorem C74_age :
  forall w s t w', h_age w s t = (w', None) ->
  (forall l, repeat_call (times_in l (spots_of w s)) (fun x => spot_age x t) (w_spot w l) = Ok (w_spot w' l)) /\
  (forall l, repeat_call (times_in l (facs_of w s)) (fun x => Ok (fac_age x t)) (w_fac w l) = Ok (w_fac w' l)) /\
  (forall o, hs_sc o <> hs_sc s -> spots_of w' o = spots_of w o) /\
  (forall o, hs_fc o <> hs_fc s -> facs_of w' o = facs_of w o).
Proof. exact C74_age_lemma. Qed.
Print Assumptions C74_age.
Theorem C74_twice :
  forall w s t w' l A M W, h_age w s (Fin t) = (w', None) ->
  sp_growing (w_spot w l) = false -> sp_area (w_spot w l) = Fin A -> sp_area_max (w_spot w l) = Fin M ->
  sp_decay (w_spot w l) = Fin W -> t * W <= M ->
  sp_area (w_spot w' l) = Fin (A - INR (times_in l (spots_of w s)) * (t * W)).
Proof. exact C74_twice_lemma. Qed.
Print Assumptions C74_twice.
Example C74_nonvacuous : exists w s w', h_age w s (Fin 1) = (w', None) /\ times_in 0 (spots_of w s) = 2%nat /\
  sp_area (w_spot w 0) = Fin 1000 /\ sp_area (w_spot w' 0) = Fin 980.
Proof.
  set (w := ex_world (fun _ => [0; 0]%nat)). set (s := ex_hstar 0).
  assert (H : exists w', h_age w s (Fin 1) = (w', None)).
  { unfold h_age, w_sc_age, w, s. cbn [ex_world ex_hstar w_sc hs_sc w_spot heach]. rewrite ex_aged.
    rewrite hset_eq. unfold spot_age at 1. cbn [spot_with_area sp_growing]. cbv zeta.
    match goal with |- context [ngt ?a ?b] => destruct (ngt a b) end; eexists; reflexivity. }
  destruct H as [w' H]. exists w, s, w'. split; auto. split. reflexivity. split. reflexivity.
  rewrite (C74_twice_lemma w s 1 w' 0 1000 1000 10 H); try reflexivity; try lra.
  f_equal. change (times_in 0 (spots_of w s)) with 2%nat. simpl INR. lra.
Qed.

(** C74: a second star over the collection of the first *)
Theorem C74_regrid :
  forall w teff radius period c f gp flg sg fg gran u1 u2 w' s o,
  h_init w teff radius period c f gp flg sg fg gran u1 u2 = (w', Ok s) ->
  let g := st_grid (view w' s) in
  st_grid (view w' o) = st_grid (view w o) /\
  (hs_sc o = c -> sc_grid (st_spots (view w' o)) = g) /\
  (hs_fc o = f -> fcc_grid (st_facs (view w' o)) = g) /\
  (forall l, In l (fst (w_sc w c)) -> spot_on g (w_spot w' l)) /\
  (forall l, In l (fst (w_fc w f)) -> fc_grid (w_fac w' l) = g) /\
  (hs_sg o = sg -> sg_grid (st_spotgen (view w' o)) = g) /\
  (hs_fg o = fg -> fg_grid (st_facgen (view w' o)) = g) /\
  (st_grid (view w o) <> g ->
     hs_sc o = c \/ hs_fc o = f \/ hs_sg o = sg \/ hs_fg o = fg \/
     (hs_sc o <> c /\ exists l, In l (spots_of w o) /\ In l (fst (w_sc w c))) \/
     (hs_fc o <> f /\ exists l, In l (facs_of w o) /\ In l (fst (w_fc w f))) ->
     ~ star_unified (view w' o)).
Proof. exact C74_regrid_lemma. Qed.
Print Assumptions C74_regrid.
Example C74_regrid_nonvacuous : exists w w' s o,
  h_init w (Fin 3300) 1 30 0 1 (PyInt 3) None 1 1 None 0 0 = (w', Ok s) /\
  hs_sc o = 0%nat /\ st_grid (view w o) = Spiral 2 /\ st_grid (view w' s) = Spiral 3 /\ spots_of w o <> [].
Proof.
  exists (ex_world (fun k => [k])). eexists. eexists. exists (ex_hstar 0). split. reflexivity.
  repeat split. cbn. discriminate.
Qed.

(** C74: births from a generator on another grid *)
Theorem C74_births :
  forall w o t n d fuel w' o', tidy w o ->
  hexec w o (CBirthSpots t n d fuel) = (w', o', None) ->
  exists new, spots_of w' o' = spots_of w o ++ new /\
  forall l, In l new -> sp_grid (w_spot w' l) = snd (w_sc w (hs_sc o)) /\
    exists y, spot_on (sg_grid (w_sg w (hs_sg o))) y /\ same_spot y (w_spot w' l) /\ sp_r (w_spot w' l) = sp_r y.
Proof. exact C74_births_lemma. Qed.
Print Assumptions C74_births.
Example C74_births_nonvacuous : exists w o w' o', tidy w o /\
  hexec w o (CBirthSpots (Fin 1) 3 ex_draws 5) = (w', o', None) /\ length (spots_of w' o') = 4%nat /\
  snd (w_sc w (hs_sc o)) = Spiral 2 /\ sg_grid (w_sg w (hs_sg o)) = Rect 50 100.
Proof.
  assert (B : exists l, sg_birth ex_sg (Fin 1) 1 3 ex_draws 5 = Ok l /\ length l = 3%nat).
  { destruct C26_lemma as [C _]. destruct (C ex_sg 500 100 (1/2) 10 1) as [k [Hk [E _]]]; try lra. repeat split.
    specialize (E (1/5) 1). change (sg_with_coverage ex_sg (Fin (1/5))) with ex_sg in E.
    destruct C25_nonvacuous as [l [G [Ll _]]]. exists l. split; auto.
    unfold sg_birth. rewrite E. cbn [bind]. unfold poisson.
    destruct (Rlt_dec (k * (1/5) * 1) 0); [lra|]. destruct (Req_EM_T (k * (1/5) * 1) 0); [lra|]. exact G. }
  destruct B as [l [B Ll]].
  exists (ex_world (fun k => [k])), (ex_hstar 0). unfold hexec.
  change (st_radius (hs_attrs (ex_hstar 0))) with 1. change (w_sg (ex_world (fun k => [k])) (hs_sg (ex_hstar 0))) with ex_sg.
  rewrite B. exists (fst (h_new_spots (ex_world (fun k => [k])) (ex_hstar 0) l)), (ex_hstar 0).
  assert (T : tidy (ex_world (fun k => [k])) (ex_hstar 0)).
  { unfold tidy. cbn. repeat split; try (constructor; [intros []|constructor]); intros k [<-|[]]; auto. }
  split; auto. split. { rewrite (proj1 (new_spots_view _ _ l T)). reflexivity. }
  split; [|split; reflexivity].
  unfold h_new_spots. pose proof (halloc_addr _ l (w_spot (ex_world (fun k => [k]))) 2) as Ha.
    change (w_nspot (ex_world (fun k => [k]))) with 2%nat. destruct (halloc (w_spot (ex_world (fun k => [k]))) 2 l) as [h ls].
    cbn [snd] in Ha. subst ls. unfold spots_of. cbn -[seq length]. cbn [length]. rewrite seq_length, Ll. reflexivity.
Qed.
