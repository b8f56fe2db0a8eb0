(** Lemmas for C89: warnings about grids of different kinds *)
From Coq Require Import Reals ZArith Bool List Lra Lia.
From Verif Require Import Num Py MConfig MHelpers MGrid MSpots MFaculae MXoflares MFlares MGranules MStar MWarn
  Spec SpecStar SpecDisk SpecKinds LBase.
Import ListNotations.
Open Scope R_scope.

Lemma kind_dec : forall g, {is_spiral g} + {~ is_spiral g}.
Proof. intros [a b|n]; simpl; auto. Qed.
Lemma eq_warnings_cases : forall g h,
  grid_eq_warnings g (Some h) = (if kind_dec g then if kind_dec h then [] else [WGridKinds] else [])
  /\ (grid_eq g (Some h) = Raise TypeError <-> ~ is_spiral g /\ is_spiral h)
  /\ (~ (~ is_spiral g /\ is_spiral h) -> exists b, grid_eq g (Some h) = Ok b).
Proof.
  intros [a b|n] [a' b'|n']; simpl; destruct (kind_dec _); simpl in *; try tauto; repeat split; intros; try discriminate; try tauto; eauto;
  try destruct (kind_dec _); simpl in *; try tauto; try discriminate.
Qed.
(** adding faculae *)
Lemma C89_lemma :
  forall c new,
  (fcc_add c new = Raise TypeError <-> is_spiral (fcc_grid c) /\ exists f, In f new /\ ~ is_spiral (fc_grid f))
  /\ (forall c', fcc_add c new = Ok c' ->
       (forall w, In w (fcc_add_warnings c new) -> w = WGridKinds)
       /\ (is_spiral (fcc_grid c) -> fcc_add_warnings c new = [])
       /\ (~ is_spiral (fcc_grid c) -> forall odd, keeps (fun f => is_spiral (fc_grid f)) new odd ->
             length (fcc_add_warnings c new) = length odd)).
Proof.
  intros [fs g] new. split.
  - unfold fcc_add. cbn [fcc_grid fcc_facs]. split.
    + intros H. assert (mapM (fun f => do same <- grid_eq (fc_grid f) (Some g);; Ok (if same then f else fac_assign_grid f g)) new = Raise TypeError).
      { destruct (mapM _ new); simpl in H; congruence. } clear H. induction new as [|f l]; [discriminate|].
      cbn [mapM] in H0. destruct (eq_warnings_cases (fc_grid f) g) as [_ [E1 E2]].
      destruct (kind_dec (fc_grid f)) as [K|K].
      * destruct E2 as [b E]; [tauto|]. rewrite E in H0. cbn [bind] in H0. destruct IHl as [A [x [I X]]].
        { destruct (mapM _ l); simpl in H0; congruence. } split; auto. exists x; split; auto. right; auto.
      * destruct (kind_dec g). split; auto. exists f; split; auto. left; auto.
        destruct E2 as [b E]; [tauto|]. rewrite E in H0. cbn [bind] in H0. destruct IHl as [A [x [I X]]].
        { destruct (mapM _ l); simpl in H0; congruence. } tauto.
    + intros [K [f [I N]]]. assert (Q : mapM (fun f => do same <- grid_eq (fc_grid f) (Some g);; Ok (if same then f else fac_assign_grid f g)) new = Raise TypeError).
      { induction new as [|x l]; [contradiction|]. cbn [mapM]. destruct (eq_warnings_cases (fc_grid x) g) as [_ [E1 E2]].
        destruct (kind_dec (fc_grid x)) as [Kx|Kx].
        - destruct E2 as [b E]; [tauto|]. rewrite E. cbn [bind]. destruct I as [->|I]; [tauto|]. rewrite IHl; auto.
        - rewrite (proj2 E1); auto. }
      rewrite Q. reflexivity.
  - intros c' _. unfold fcc_add_warnings. cbn [fcc_grid].
    assert (W : forall f, grid_eq_warnings (fc_grid f) (Some g) = if kind_dec (fc_grid f) then if kind_dec g then [] else [WGridKinds] else []).
    { intros; apply eq_warnings_cases. }
    split; [|split].
    + intros w I. apply in_flat_map in I. destruct I as [f [_ I]]. rewrite W in I. destruct (kind_dec (fc_grid f)), (kind_dec g); simpl in I; tauto || (destruct I as [<-|[]]; auto).
    + intros K. induction new as [|f l]; auto. cbn [flat_map]. rewrite IHl, W. destruct (kind_dec (fc_grid f)), (kind_dec g); auto; tauto.
    + intros K odd HO. induction HO; auto; cbn [flat_map]; rewrite W; destruct (kind_dec (fc_grid x)), (kind_dec g); simpl; try tauto. auto.
Qed.
(** building a star *)
Lemma C89_init_lemma :
  forall teff radius period spots facs gp flg spg fcg gran u1 u2 s,
  star_init teff radius period spots facs gp flg spg fcg gran u1 u2 = Ok s ->
  let W := star_init_warnings (st_grid s) spg fcg in
  let odd := fun g => is_spiral g /\ ~ is_spiral (st_grid s) in
  (forall w, In w W -> w = WGridKinds)
  /\ (forall x y, spg = Some x -> fcg = Some y -> (length W = 2%nat <-> odd (sg_grid x) /\ odd (fg_grid y))
        /\ (W = [] <-> ~ odd (sg_grid x) /\ ~ odd (fg_grid y)))
  /\ (forall x, spg = Some x -> fcg = None -> (length W = 1%nat <-> odd (sg_grid x)) /\ (W = [] <-> ~ odd (sg_grid x)))
  /\ (forall y, spg = None -> fcg = Some y -> (length W = 1%nat <-> odd (fg_grid y)) /\ (W = [] <-> ~ odd (fg_grid y)))
  /\ (spg = None -> fcg = None -> W = [])
  /\ sg_grid (st_spotgen s) = st_grid s /\ fg_grid (st_facgen s) = st_grid s.
Proof.
  intros teff radius period spots facs gp flg spg fcg gran u1 u2 s H W odd. unfold W, star_init_warnings, odd.
  assert (E : forall g h, grid_eq_warnings g (Some h) = if kind_dec g then if kind_dec h then [] else [WGridKinds] else []) by (intros; apply eq_warnings_cases).
  split; [|split; [|split; [|split; [|split]]]].
  - intros w I. apply in_app_iff in I. destruct I as [I|I].
    + destruct spg; [|contradiction]. rewrite E in I. repeat (destruct (kind_dec _)); simpl in I; intuition.
    + destruct fcg; [|contradiction]. rewrite E in I. repeat (destruct (kind_dec _)); simpl in I; intuition.
  - intros x y -> ->. rewrite !E. destruct (kind_dec (sg_grid x)), (kind_dec (fg_grid y)), (kind_dec (st_grid s)); simpl; split; split; intros; try discriminate; try tauto.
  - intros x -> ->. rewrite !E. destruct (kind_dec (sg_grid x)), (kind_dec (st_grid s)); simpl; split; split; intros; try discriminate; try tauto.
  - intros x -> ->. rewrite !E. destruct (kind_dec (fg_grid x)), (kind_dec (st_grid s)); simpl; split; split; intros; try discriminate; try tauto.
  - intros -> ->. auto.
  - unfold star_init in H. apply bind_ok in H. destruct H as [g [_ H]]. injection H as <-. cbn [st_spotgen st_facgen st_grid].
    assert (A : forall G (get : G -> grid) set x, (forall x, get (set x g) = g) -> get (adopt_grid get set x g) = g).
    { intros G get set x Hs. unfold adopt_grid, grid_ne. destruct (get x) as [a b|n] eqn:X; destruct g as [a' b'|n']; simpl; auto.
      - destruct (Nat.eqb a a') eqn:A1, (Nat.eqb b b') eqn:A2; simpl; auto. apply Nat.eqb_eq in A1, A2. subst; auto.
      - destruct (Nat.eqb n n') eqn:A1; simpl; auto. apply Nat.eqb_eq in A1. subst; auto. }
    split. destruct spg; auto. destruct fcg; auto.
Qed.
(** births never warn *)
Lemma C89_births_lemma :
  forall s time p d s', star_unified s -> star_birth_faculae s time p d = Ok s' ->
  exists new, fg_birth (st_facgen s) time (st_radius s * RSUN_KM) p d = Ok new
    /\ fcc_facs (st_facs s') = fcc_facs (st_facs s) ++ new /\ fcc_add_warnings (st_facs s) new = [].
Proof.
  intros s time p d s' U H. unfold star_birth_faculae in H. apply bind_ok in H. destruct H as [new [HN H]]. exists new. split; auto.
  destruct U as [_ [U2 [_ [_ [_ U6]]]]].
  assert (K : forall f, In f new -> fc_grid f = st_grid s).
  { unfold fg_birth in HN. apply bind_ok in HN. destruct HN as [n [_ HN]]. injection HN as <-. intros f I. unfold fg_generate in I.
    apply in_map_iff in I. destruct I as [i [<- _]]. auto. }
  clear HN. unfold star_add_fac in H. apply bind_ok in H. destruct H as [c [HC H]]. injection H as <-. cbn [st_facs star_with_facs].
  unfold fcc_add in HC. rewrite U2 in HC. unfold fcc_add_warnings. rewrite U2.
  assert (R : forall g, grid_eq g (Some g) = Ok true) by (intros [a b|n]; simpl; rewrite ?Nat.eqb_refl; auto).
  assert (M : mapM (fun f => do same <- grid_eq (fc_grid f) (Some (st_grid s));; Ok (if same then f else fac_assign_grid f (st_grid s))) new = Ok new).
  { clear HC. induction new as [|f l]; auto. cbn [mapM]. rewrite (K f) by (left; auto). rewrite R. cbn [bind].
    rewrite IHl by (intros; apply K; right; auto). reflexivity. }
  rewrite M in HC. cbn [bind] in HC. injection HC as <-. split; auto.
  clear M. induction new as [|f l]; auto. cbn [flat_map]. rewrite (K f) by (left; auto). rewrite IHl by (intros; apply K; right; auto).
  destruct (st_grid s); auto.
Qed.
