(** Objects with identity: the value model is exact for stars that share no objects *)
From Coq Require Import Reals ZArith Bool List Lra Lia FunctionalExtensionality.
From Verif Require Import Num Py MConfig MHelpers MGrid MSpots MFaculae MXoflares MFlares MGranules MStar MHeap
  Spec SpecStar SpecDisk SpecHeap LBase LDisk LStar.
Import ListNotations.
Open Scope R_scope.

Lemma hset_eq : forall A (h : nat -> A) l a, hset h l a l = a.
Proof. intros. unfold hset. rewrite Nat.eqb_refl. auto. Qed.
Lemma hset_ne : forall A (h : nat -> A) l a k, k <> l -> hset h l a k = h k.
Proof. intros. unfold hset. destruct (Nat.eqb_spec k l); congruence. Qed.
Lemma map_hset_out : forall A (h : nat -> A) l a ls, ~ In l ls -> map (hset h l a) ls = map h ls.
Proof. intros. apply map_ext_in. intros. apply hset_ne. congruence. Qed.

Lemma heach_frame : forall A (f : A -> res A) ls h k, ~ In k ls -> fst (heach f h ls) k = h k.
Proof.
  induction ls as [|l ls]; intros; cbn [heach]; auto. cbn in H. destruct (f (h l)); cbn [fst]; auto.
  rewrite IHls by tauto. apply hset_ne. intuition.
Qed.
Lemma heach_nodup : forall A (f : A -> res A) ls h, NoDup ls ->
  match mapM f (map h ls) with
  | Ok l' => map (fst (heach f h ls)) ls = l' /\ snd (heach f h ls) = None
  | Raise e => snd (heach f h ls) = Some e
  end.
Proof.
  induction ls as [|l ls]; intros h N; cbn [heach map mapM]; auto. inversion N; subst.
  destruct (f (h l)) as [a|e] eqn:E; cbn [bind]; auto. specialize (IHls (hset h l a) H2).
  rewrite map_hset_out in IHls by auto. destruct (mapM f (map h ls)); cbn [bind]; auto.
  destruct IHls as [I1 I2]. split; auto. cbn [map]. f_equal; auto.
  rewrite heach_frame by auto. apply hset_eq.
Qed.
Lemma heach_total : forall A (f : A -> A) ls h, snd (heach (fun x => Ok (f x)) h ls) = None.
Proof. induction ls; intros; cbn; auto. Qed.
Lemma heach_idem : forall A (f : A -> A) ls h k, (forall a, f (f a) = f a) -> In k ls ->
  fst (heach (fun x => Ok (f x)) h ls) k = f (h k).
Proof.
  intros A f ls h k F. revert h. induction ls as [|l ls]; intros h I; cbn [heach]. contradiction.
  destruct (in_dec Nat.eq_dec k ls).
  - rewrite IHls by auto. destruct (Nat.eq_dec k l). subst; rewrite hset_eq; auto. rewrite hset_ne; auto.
  - rewrite heach_frame by auto. destruct I; [|contradiction]. subst. apply hset_eq.
Qed.
Lemma heach_idem_map : forall A (f : A -> A) ls h, (forall a, f (f a) = f a) ->
  map (fst (heach (fun x => Ok (f x)) h ls)) ls = map f (map h ls).
Proof. intros. rewrite map_map. apply map_ext_in. intros. apply heach_idem; auto. Qed.

(** a loop over a list with repetitions *)
Lemma heach_count : forall A (f : A -> res A) ls h h', heach f h ls = (h', None) ->
  forall k, repeat_call (times_in k ls) f (h k) = Ok (h' k).
Proof.
  induction ls as [|l ls]; intros h h' E k; cbn [heach] in E. injection E as <-. reflexivity.
  destruct (f (h l)) as [a|] eqn:F; [|discriminate]. specialize (IHls _ _ E k).
  unfold times_in in *. cbn [count_occ]. destruct (Nat.eq_dec l k).
  - subst. rewrite hset_eq in IHls. cbn [repeat_call]. rewrite F. auto.
  - rewrite hset_ne in IHls by auto. auto.
Qed.

Lemma halloc_addr : forall A (l : list A) h n, snd (halloc h n l) = seq n (length l).
Proof.
  induction l; intros; cbn [halloc]; auto. specialize (IHl (hset h n a) (S n)).
  destruct (halloc (hset h n a) (S n) l). cbn [snd length seq] in *. congruence.
Qed.
Lemma halloc_old : forall A (l : list A) h n k, (k < n)%nat -> fst (halloc h n l) k = h k.
Proof.
  induction l; intros; cbn [halloc]; auto. specialize (IHl (hset h n a) (S n) k).
  destruct (halloc (hset h n a) (S n) l). cbn [fst] in *. rewrite IHl by lia. apply hset_ne. lia.
Qed.
Lemma halloc_new : forall A (l : list A) h n, map (fst (halloc h n l)) (seq n (length l)) = l.
Proof.
  induction l; intros; cbn [halloc]; auto. specialize (IHl (hset h n a) (S n)).
  pose proof (halloc_old _ l (hset h n a) (S n) n).
  destruct (halloc (hset h n a) (S n) l). cbn [fst length seq map] in *. f_equal; auto.
  rewrite H by lia. apply hset_eq.
Qed.

(** ** the store seen by another star *)
Lemma view_ext : forall w w' s,
  w_sc w' (hs_sc s) = w_sc w (hs_sc s) -> w_fc w' (hs_fc s) = w_fc w (hs_fc s) ->
  (forall l, In l (spots_of w s) -> w_spot w' l = w_spot w l) ->
  (forall l, In l (facs_of w s) -> w_fac w' l = w_fac w l) ->
  w_sg w' (hs_sg s) = w_sg w (hs_sg s) -> w_fg w' (hs_fg s) = w_fg w (hs_fg s) ->
  view w' s = view w s.
Proof.
  intros. unfold view, view_sc, view_fc, spots_of, facs_of in *. rewrite H, H0, H3, H4.
  rewrite (map_ext_in (w_spot w') (w_spot w)) by auto. rewrite (map_ext_in (w_fac w') (w_fac w)) by auto. auto.
Qed.

(** what a call may change: the star's own collections and objects, and new objects *)
Definition touches (w w' : world) (s s' : hstar) : Prop :=
  hs_sc s' = hs_sc s /\ hs_fc s' = hs_fc s /\ hs_sg s' = hs_sg s /\ hs_fg s' = hs_fg s /\
  w_sg w' = w_sg w /\ w_fg w' = w_fg w /\
  (w_nspot w <= w_nspot w')%nat /\ (w_nfac w <= w_nfac w')%nat /\
  (forall c, c <> hs_sc s -> w_sc w' c = w_sc w c) /\ (forall c, c <> hs_fc s -> w_fc w' c = w_fc w c) /\
  (forall l, (l < w_nspot w)%nat -> ~ In l (spots_of w s) -> w_spot w' l = w_spot w l) /\
  (forall l, (l < w_nfac w)%nat -> ~ In l (facs_of w s) -> w_fac w' l = w_fac w l) /\
  (forall l, In l (spots_of w' s) -> In l (spots_of w s) \/ (w_nspot w <= l < w_nspot w')%nat) /\
  (forall l, In l (facs_of w' s) -> In l (facs_of w s) \/ (w_nfac w <= l < w_nfac w')%nat) /\
  (NoDup (spots_of w s) -> (forall l, In l (spots_of w s) -> (l < w_nspot w)%nat) -> NoDup (spots_of w' s)) /\
  (NoDup (facs_of w s) -> (forall l, In l (facs_of w s) -> (l < w_nfac w)%nat) -> NoDup (facs_of w' s)).

Lemma touches_refl : forall w s, touches w w s s.
Proof. intros. unfold touches. repeat split; auto. Qed.
Lemma spots_of_ext : forall w s s', hs_sc s' = hs_sc s -> spots_of w s' = spots_of w s.
Proof. intros. unfold spots_of. rewrite H. auto. Qed.
Lemma facs_of_ext : forall w s s', hs_fc s' = hs_fc s -> facs_of w s' = facs_of w s.
Proof. intros. unfold facs_of. rewrite H. auto. Qed.
Lemma touches_trans : forall w w' w'' s s' s'', tidy w s -> touches w w' s s' -> touches w' w'' s' s'' -> touches w w'' s s''.
Proof.
  intros w w' w'' s s' s'' [Td1 [Td2 [Td3 Td4]]] T1 T2.
  destruct T1 as [A1 [A2 [A3 [A4 [A5 [A6 [A7 [A8 [A9 [A10 [A11 [A12 [A13 [A14 [A15 A16]]]]]]]]]]]]]]].
  destruct T2 as [B1 [B2 [B3 [B4 [B5 [B6 [B7 [B8 [B9 [B10 [B11 [B12 [B13 [B14 [B15 B16]]]]]]]]]]]]]]].
  rewrite (spots_of_ext w' s s'), (spots_of_ext w'' s s') in * by auto.
  rewrite (facs_of_ext w' s s'), (facs_of_ext w'' s s') in * by auto.
  unfold touches. repeat split; try congruence; try lia.
  - intros. rewrite B9 by congruence. apply A9. auto.
  - intros. rewrite B10 by congruence. apply A10. auto.
  - intros l L N. rewrite B11; [apply A11; auto|lia|]. intros I. destruct (A13 _ I); [auto|lia].
  - intros l L N. rewrite B12; [apply A12; auto|lia|]. intros I. destruct (A14 _ I); [auto|lia].
  - intros l I. destruct (B13 _ I) as [J|J]; [destruct (A13 _ J); [auto|lia]|lia].
  - intros l I. destruct (B14 _ I) as [J|J]; [destruct (A14 _ J); [auto|lia]|lia].
  - intros N L. apply B15. apply A15; auto. intros l I. destruct (A13 _ I) as [J|J]; [specialize (L _ J)|]; lia.
  - intros N L. apply B16. apply A16; auto. intros l I. destruct (A14 _ I) as [J|J]; [specialize (L _ J)|]; lia.
Qed.
Lemma touches_tidy : forall w w' s s', tidy w s -> touches w w' s s' -> tidy w' s'.
Proof.
  intros w w' s s' [Td1 [Td2 [Td3 Td4]]] T1.
  destruct T1 as [A1 [A2 [A3 [A4 [A5 [A6 [A7 [A8 [A9 [A10 [A11 [A12 [A13 [A14 [A15 A16]]]]]]]]]]]]]]].
  unfold tidy. rewrite (spots_of_ext w' s s'), (facs_of_ext w' s s') by auto. repeat split; auto.
  - intros l I. destruct (A13 _ I) as [J|J]; [specialize (Td3 _ J)|]; lia.
  - intros l I. destruct (A14 _ I) as [J|J]; [specialize (Td4 _ J)|]; lia.
Qed.
(** a call on [s] leaves the stars apart from it as they were *)
Lemma touches_other : forall w w' s s' o, touches w w' s s' -> tidy w o -> apart w s o ->
  view w' o = view w o /\ tidy w' o /\ apart w' s' o /\ spots_of w' o = spots_of w o /\ facs_of w' o = facs_of w o.
Proof.
  intros w w' s s' o T1 [Td1 [Td2 [Td3 Td4]]] [P1 [P2 [P3 P4]]].
  destruct T1 as [A1 [A2 [A3 [A4 [A5 [A6 [A7 [A8 [A9 [A10 [A11 [A12 [A13 [A14 [A15 A16]]]]]]]]]]]]]]].
  assert (Eo : spots_of w' o = spots_of w o) by (unfold spots_of; rewrite A9; auto).
  assert (Fo : facs_of w' o = facs_of w o) by (unfold facs_of; rewrite A10; auto).
  split; [|split; [|split; [|auto]]].
  - apply view_ext; try congruence; auto.
    + intros l I. apply A11; auto. intros J. eapply P3; eauto.
    + intros l I. apply A12; auto. intros J. eapply P4; eauto.
  - unfold tidy. rewrite Eo, Fo. repeat split; auto; intros l I; [specialize (Td3 _ I)|specialize (Td4 _ I)]; lia.
  - unfold apart. rewrite Eo, Fo, (spots_of_ext w' s s'), (facs_of_ext w' s s') by auto.
    repeat split; try congruence; intros l I J.
    + destruct (A13 _ I) as [K|K]. eapply P3; eauto. specialize (Td3 _ J); lia.
    + destruct (A14 _ I) as [K|K]. eapply P4; eauto. specialize (Td4 _ J); lia.
Qed.

Lemma filter_map_comm : forall A (P : A -> bool) (h : nat -> A) ls,
  filter P (map h ls) = map h (filter (fun l => P (h l)) ls).
Proof. induction ls; cbn; auto. destruct (P (h a)); cbn; congruence. Qed.
Lemma filter_sub : forall A (P : A -> bool) ls l, In l (filter P ls) -> In l ls.
Proof. intros. apply filter_In in H. tauto. Qed.

Lemma w_spots_touch : forall w s h v,
  (forall l, (l < w_nspot w)%nat -> ~ In l (spots_of w s) -> h l = w_spot w l) ->
  (forall l, In l (fst v) -> In l (spots_of w s)) -> (NoDup (spots_of w s) -> NoDup (fst v)) ->
  touches w (w_spots w h (hs_sc s) v) s s.
Proof.
  intros. unfold touches, w_spots, spots_of, facs_of in *; cbn. rewrite hset_eq.
  repeat split; auto. intros. apply hset_ne; auto.
Qed.
Lemma w_facs_touch : forall w s h v,
  (forall l, (l < w_nfac w)%nat -> ~ In l (facs_of w s) -> h l = w_fac w l) ->
  (forall l, In l (fst v) -> In l (facs_of w s)) -> (NoDup (facs_of w s) -> NoDup (fst v)) ->
  touches w (w_facs w h (hs_fc s) v) s s.
Proof.
  intros. unfold touches, w_facs, spots_of, facs_of in *; cbn. rewrite hset_eq.
  repeat split; auto. intros. apply hset_ne; auto.
Qed.

Lemma sc_age_touch : forall w s t, touches w (fst (w_sc_age w (hs_sc s) t)) s s.
Proof.
  intros. unfold w_sc_age. destruct (w_sc w (hs_sc s)) as [ls g] eqn:E.
  pose proof (heach_frame _ (fun s => spot_age s t) ls (w_spot w)) as F.
  destruct (heach (fun s => spot_age s t) (w_spot w) ls) as [h [e|]] eqn:Eh; cbn [fst] in *;
  apply w_spots_touch; unfold spots_of; rewrite E; cbn [fst]; auto.
  - intros l. apply filter_sub.
  - apply NoDup_filter.
Qed.
Lemma sc_age_view : forall w c t, NoDup (fst (w_sc w c)) ->
  match sc_age (view_sc w c) t with
  | Ok v => snd (w_sc_age w c t) = None /\ view_sc (fst (w_sc_age w c t)) c = v
  | Raise e => snd (w_sc_age w c t) = Some e
  end.
Proof.
  intros w c t N. unfold w_sc_age, sc_age, view_sc at 1 2. destruct (w_sc w c) as [ls g] eqn:E. cbn [fst snd sc_spots sc_grid] in *.
  pose proof (heach_nodup _ (fun s => spot_age s t) ls (w_spot w) N) as H.
  destruct (mapM (fun s => spot_age s t) (map (w_spot w) ls)) as [l'|e]; cbn [bind].
  - destruct H as [H1 H2]. destruct (heach (fun s => spot_age s t) (w_spot w) ls) as [h o]. cbn [fst snd] in *. subst o.
    cbn [fst snd]. split; auto. unfold view_sc, w_spots, sc_clean; cbn. rewrite hset_eq. cbn [fst snd]. f_equal.
    rewrite <- H1, filter_map_comm. auto.
  - destruct (heach (fun s => spot_age s t) (w_spot w) ls) as [h o]. cbn [fst snd] in *. subst o. auto.
Qed.
Lemma fc_age_touch : forall w s t, touches w (w_fc_age w (hs_fc s) t) s s.
Proof.
  intros. unfold w_fc_age. destruct (w_fc w (hs_fc s)) as [ls g] eqn:E.
  apply w_facs_touch; unfold facs_of; rewrite E; cbn [fst].
  - intros. apply heach_frame; auto.
  - intros l. apply filter_sub.
  - apply NoDup_filter.
Qed.
Lemma mapM_pure : forall A B (f : A -> B) l, mapM (fun x => Ok (f x)) l = Ok (map f l).
Proof. induction l; cbn; auto. rewrite IHl. auto. Qed.
Lemma fc_age_view : forall w c t, NoDup (fst (w_fc w c)) ->
  view_fc (w_fc_age w c t) c = fcc_age (view_fc w c) t.
Proof.
  intros w c t N. unfold w_fc_age, fcc_age, fcc_clean, view_fc. destruct (w_fc w c) as [ls g] eqn:E. cbn [fst snd fcc_facs fcc_grid] in *.
  pose proof (heach_nodup _ (fun f => Ok (fac_age f t)) ls (w_fac w) N) as H. rewrite mapM_pure in H. destruct H as [H _].
  unfold w_facs; cbn. rewrite hset_eq. cbn [fst snd]. f_equal. rewrite <- H, filter_map_comm. auto.
Qed.

Lemma spot_assign_idem : forall g a, spot_assign_gridmaker (spot_assign_gridmaker a g) g = spot_assign_gridmaker a g.
Proof. reflexivity. Qed.
Lemma spot_set_idem : forall g a, spot_set_gridmaker (spot_set_gridmaker a g) g = spot_set_gridmaker a g.
Proof. reflexivity. Qed.
Lemma fac_assign_idem : forall g a, fac_assign_grid (fac_assign_grid a g) g = fac_assign_grid a g.
Proof. reflexivity. Qed.

Lemma new_spots_touch : forall w s l, touches w (fst (h_new_spots w s l)) s s.
Proof.
  intros. unfold h_new_spots. pose proof (halloc_addr _ l (w_spot w) (w_nspot w)) as Ha.
  pose proof (halloc_old _ l (w_spot w) (w_nspot w)) as Ho.
  destruct (halloc (w_spot w) (w_nspot w) l) as [h ls]. cbn [fst snd] in *. subst ls.
  unfold w_sc_add. cbn [w_sc]. destruct (w_sc w (hs_sc s)) as [l0 g] eqn:E.
  unfold touches, w_spots, spots_of, facs_of. cbn. rewrite !hset_eq, E. cbn [fst].
  repeat split; auto; try lia.
  - intros. apply hset_ne; auto.
  - intros k L N. rewrite heach_frame. apply Ho; auto. rewrite in_seq. lia.
  - intros k I. apply in_app_or in I. destruct I as [I|I]; auto. apply in_seq in I. lia.
  - intros N L. apply NoDup_app_intro; auto. apply seq_NoDup. intros k I J. specialize (L _ I). apply in_seq in J. lia.
Qed.
Lemma new_spots_view : forall w s l, tidy w s ->
  snd (h_new_spots w s l) = None /\ view (fst (h_new_spots w s l)) s = star_add_spot (view w s) l.
Proof.
  intros w s l [_ [_ [L _]]]. unfold h_new_spots. pose proof (halloc_addr _ l (w_spot w) (w_nspot w)) as Ha.
  pose proof (halloc_old _ l (w_spot w) (w_nspot w)) as Ho. pose proof (halloc_new _ l (w_spot w) (w_nspot w)) as Hn.
  destruct (halloc (w_spot w) (w_nspot w) l) as [h ls]. cbn [fst snd] in *. subst ls. split; auto.
  unfold w_sc_add, spots_of in *. cbn [w_sc]. destruct (w_sc w (hs_sc s)) as [l0 g] eqn:E. cbn [fst] in L.
  unfold star_add_spot, star_with_spots, view, w_spots, sc_add_spot, view_sc, view_fc; cbn. rewrite hset_eq, E. cbn [fst snd].
  f_equal. f_equal. rewrite map_app. f_equal.
  - apply map_ext_in. intros k I. rewrite heach_frame. apply Ho; auto. rewrite in_seq. specialize (L _ I). lia.
  - rewrite heach_idem_map by apply spot_assign_idem. rewrite Hn. auto.
Qed.
Lemma new_facs_touch : forall w s l, touches w (fst (h_new_facs w s l)) s s.
Proof.
  intros. unfold h_new_facs. pose proof (halloc_addr _ l (w_fac w) (w_nfac w)) as Ha.
  pose proof (halloc_old _ l (w_fac w) (w_nfac w)) as Ho.
  destruct (halloc (w_fac w) (w_nfac w) l) as [h ls]. cbn [fst snd] in *. subst ls.
  unfold w_fc_add. cbn [w_fc w_fac]. destruct (w_fc w (hs_fc s)) as [l0 g] eqn:E.
  match goal with |- context [heach ?F h ?X] => pose proof (heach_frame _ F X h) as Fr; destruct (heach F h X) as [h' [e|]] end; cbn [fst] in *.
  all: unfold touches, w_facs, spots_of, facs_of; cbn; rewrite !hset_eq, E; cbn [fst].
  all: repeat split; auto; try lia.
  1, 3: intros; apply hset_ne; auto.
  1, 2: intros k L N; rewrite Fr; [apply Ho; auto|rewrite in_seq; lia].
  - intros k I. apply in_app_or in I. destruct I as [I|I]; auto. apply in_seq in I. lia.
  - intros N L. apply NoDup_app_intro; auto. apply seq_NoDup. intros k I J. specialize (L _ I). apply in_seq in J. lia.
Qed.
Lemma new_facs_view : forall w s l, tidy w s ->
  match star_add_fac (view w s) l with
  | Ok v => snd (h_new_facs w s l) = None /\ view (fst (h_new_facs w s l)) s = v
  | Raise e => snd (h_new_facs w s l) = Some e
  end.
Proof.
  intros w s l [_ [_ [_ L]]]. unfold h_new_facs. pose proof (halloc_addr _ l (w_fac w) (w_nfac w)) as Ha.
  pose proof (halloc_old _ l (w_fac w) (w_nfac w)) as Ho. pose proof (halloc_new _ l (w_fac w) (w_nfac w)) as Hn.
  destruct (halloc (w_fac w) (w_nfac w) l) as [h ls]. cbn [fst snd] in *. subst ls.
  unfold w_fc_add, facs_of, star_add_fac, fcc_add in *. cbn [w_fc w_fac]. unfold view at 1 2. cbn [st_facs]. unfold view_fc at 1.
  destruct (w_fc w (hs_fc s)) as [l0 g] eqn:E. cbn [fst snd fcc_facs fcc_grid] in *.
  set (F := fun f : facula => do same <- grid_eq (fc_grid f) (Some g);; Ok (if same then f else fac_assign_grid f g)).
  pose proof (heach_nodup _ F (seq (w_nfac w) (length l)) h (seq_NoDup _ _)) as H. rewrite Hn in H.
  pose proof (heach_frame _ F (seq (w_nfac w) (length l)) h) as Fr.
  unfold view_fc at 1. rewrite E. cbn [fst snd fcc_grid]. fold F.
  destruct (heach F h (seq (w_nfac w) (length l))) as [h' o]. cbn [fst snd] in *.
  destruct (mapM F l) as [l'|e]; cbn [bind].
  - destruct H as [H1 ->]. cbn [fst snd]. split; auto.
    unfold star_with_facs, view, w_facs, view_fc, view_sc; cbn. rewrite hset_eq, E. cbn [fst snd]. f_equal. f_equal.
    rewrite map_app. f_equal; auto. apply map_ext_in. intros k I. specialize (L _ I). rewrite Fr. apply Ho; auto. rewrite in_seq. lia.
  - subst o. auto.
Qed.
Lemma age_touch : forall w s t, tidy w s -> touches w (fst (h_age w s t)) s s.
Proof.
  intros. unfold h_age. pose proof (sc_age_touch w s t). destruct (w_sc_age w (hs_sc s) t) as [w' [e|]]; cbn [fst] in *; auto.
  eapply touches_trans; eauto. apply fc_age_touch.
Qed.
Lemma age_view : forall w s t, tidy w s ->
  match star_age (view w s) t with
  | Ok v => snd (h_age w s t) = None /\ view (fst (h_age w s t)) s = v
  | Raise e => snd (h_age w s t) = Some e
  end.
Proof.
  intros w s t [N1 [N2 _]]. unfold h_age, star_age. unfold view at 1 2. cbn [st_spots].
  pose proof (sc_age_view w (hs_sc s) t N1) as H. pose proof (sc_age_touch w s t) as T.
  unfold view at 1. cbn [st_spots].
  destruct (sc_age (view_sc w (hs_sc s)) t) as [v|e]; cbn [bind].
  - destruct H as [H1 H2]. destruct (w_sc_age w (hs_sc s) t) as [w' o] eqn:E. cbn [fst snd] in *. subst o. cbn [fst snd]. split; auto.
    destruct T as [_ [_ [_ [_ [A5 [A6 _]]]]]].
    assert (Ff : view_fc w' (hs_fc s) = view_fc w (hs_fc s) /\ fst (w_fc w' (hs_fc s)) = fst (w_fc w (hs_fc s))).
    { unfold w_sc_age in E. destruct (w_sc w (hs_sc s)) as [ls g].
      destruct (heach (fun s => spot_age s t) (w_spot w) ls) as [h [e|]]; injection E as <-; split; reflexivity. }
    destruct Ff as [Ff1 Ff2].
    assert (Fs : view_sc (w_fc_age w' (hs_fc s) t) (hs_sc s) = view_sc w' (hs_sc s)).
    { unfold w_fc_age. destruct (w_fc w' (hs_fc s)). reflexivity. }
    unfold star_with_facs, star_with_spots. cbn. unfold view. rewrite fc_age_view, Fs, H2, Ff1.
    2: { rewrite Ff2. exact N2. }
    unfold w_fc_age. destruct (w_fc w' (hs_fc s)). cbn. rewrite A5, A6. reflexivity.
  - destruct (w_sc_age w (hs_sc s) t) as [w' o]. cbn [fst snd] in *. subst o. auto.
Qed.

(** ** one call *)
Lemma hexec_touch : forall w s c, tidy w s -> touches w (fst (fst (hexec w s c))) s (snd (fst (hexec w s c))).
Proof.
  intros w s c T. destruct c; cbn [hexec fst snd].
  - apply age_touch; auto.
  - apply new_spots_touch.
  - apply new_facs_touch.
  - destruct (sg_birth _ _ _ _ _ _); cbn [fst snd]. apply new_spots_touch. apply touches_refl.
  - destruct (fg_birth _ _ _ _ _); cbn [fst snd]. apply new_facs_touch. apply touches_refl.
  - destruct (sg_generate_mature _ _ _ _ _ _); cbn [fst snd]. apply new_spots_touch. apply touches_refl.
  - destruct (generate_flare_series _ _ _ _); cbn [fst snd]. 2: apply touches_refl.
    unfold touches, spots_of, facs_of; cbn. repeat split; auto.
Qed.
Lemma hexec_view : forall w s c, tidy w s ->
  match vexec (view w s) c with
  | Ok v => snd (hexec w s c) = None /\ view (fst (fst (hexec w s c))) (snd (fst (hexec w s c))) = v
  | Raise e => snd (hexec w s c) = Some e
  end.
Proof.
  intros w s c T. destruct c; cbn [hexec vexec fst snd].
  - apply age_view; auto.
  - apply new_spots_view; auto.
  - apply new_facs_view; auto.
  - unfold star_birth_spots. cbn [view st_spotgen st_radius]. destruct (sg_birth _ _ _ _ _ _); cbn [bind fst snd]; auto.
    apply new_spots_view; auto.
  - unfold star_birth_faculae. cbn [view st_facgen st_radius]. destruct (fg_birth _ _ _ _ _); cbn [bind fst snd]; auto.
    apply new_facs_view; auto.
  - unfold star_mature_spots. cbn [view st_spotgen st_radius]. destruct (sg_generate_mature _ _ _ _ _ _); cbn [bind fst snd]; auto.
    apply new_spots_view; auto.
  - unfold star_get_flares. cbn [view st_flaregen]. destruct (generate_flare_series _ _ _ _); cbn [bind fst snd]; auto.
Qed.

(** ** programs *)
Lemma apart_sym : forall w s o, apart w s o -> apart w o s.
Proof. intros w s o [A [B [C D]]]. repeat split; auto; intros l I J; [eapply C|eapply D]; eauto. Qed.
Lemma apart_ext : forall w w' s s' o, spots_of w' s' = spots_of w s -> facs_of w' s' = facs_of w s ->
  spots_of w' o = spots_of w o -> facs_of w' o = facs_of w o -> hs_sc s' = hs_sc s -> hs_fc s' = hs_fc s ->
  apart w s o -> apart w' s' o.
Proof. intros. unfold apart in *. rewrite H, H0, H1, H2, H3, H4. auto. Qed.
Definition household (n : nat) (w : world) (st : nat -> hstar) : Prop :=
  (forall i, (i < n)%nat -> tidy w (st i)) /\
  (forall i j, (i < n)%nat -> (j < n)%nat -> i <> j -> apart w (st i) (st j)).
Lemma household_step : forall n w st i c, household n w st -> (i < n)%nat ->
  household n (fst (fst (hexec w (st i) c))) (hset st i (snd (fst (hexec w (st i) c)))).
Proof.
  intros n w st i c [T P] I. pose proof (hexec_touch w (st i) c (T i I)) as X.
  set (w' := fst (fst (hexec w (st i) c))) in *. set (s' := snd (fst (hexec w (st i) c))) in *.
  assert (O : forall j, (j < n)%nat -> j <> i -> tidy w' (st j) /\ apart w' s' (st j) /\
     spots_of w' (st j) = spots_of w (st j) /\ facs_of w' (st j) = facs_of w (st j)).
  { intros j J Ne. apply (touches_other w w' (st i) s' (st j) X); auto. }
  split.
  - intros j J. unfold hset. destruct (Nat.eqb_spec j i). subst. eapply touches_tidy; eauto. apply O; auto.
  - intros j k J K Ne. unfold hset. destruct (Nat.eqb_spec j i), (Nat.eqb_spec k i); subst.
    + congruence.
    + apply O; auto.
    + apply apart_sym. apply O; auto.
    + destruct (O j J) as [_ [_ [E1 E2]]]; auto. destruct (O k K) as [_ [_ [E3 E4]]]; auto. eapply apart_ext; eauto.
Qed.
Lemma calls_on_cons : forall i j c prog,
  calls_on i ((j, c) :: prog) = if Nat.eqb j i then c :: calls_on i prog else calls_on i prog.
Proof. intros. unfold calls_on. cbn [filter fst]. destruct (Nat.eqb j i); auto. Qed.

Lemma hrun_all : forall n prog w st, household n w st -> List.Forall (fun p => (fst p < n)%nat) prog ->
  (snd (hrun w st prog) = None <-> (forall i, (i < n)%nat -> exists v, vrun (view w (st i)) (calls_on i prog) = Ok v)) /\
  household n (fst (fst (hrun w st prog))) (snd (fst (hrun w st prog))) /\
  (snd (hrun w st prog) = None -> forall i, (i < n)%nat ->
     vrun (view w (st i)) (calls_on i prog) = Ok (view (fst (fst (hrun w st prog))) (snd (fst (hrun w st prog)) i))).
Proof.
  induction prog as [|[j c] prog]; intros w st Hh Hp.
  - cbn. repeat split; auto; try apply Hh; intros; eauto.
  - inversion Hp as [|? ? Hj Hp']; subst. cbn [fst] in Hj. cbn [hrun].
    pose proof (household_step n w st j c Hh Hj) as Hs.
    pose proof (hexec_view w (st j) c (proj1 Hh j Hj)) as Hv.
    assert (O : forall i, (i < n)%nat -> i <> j -> view (fst (fst (hexec w (st j) c))) (st i) = view w (st i)).
    { intros i I Ne. destruct Hh as [T P]. apply (touches_other w _ (st j) _ (st i) (hexec_touch w (st j) c (T j Hj))); auto. }
    destruct (hexec w (st j) c) as [[w' s'] o] eqn:E. cbn [fst snd] in *.
    destruct o as [e|].
    + cbn [fst snd]. split; [|split; [auto|discriminate]]. split. discriminate. intros A. exfalso.
      destruct (A j Hj) as [v V]. rewrite calls_on_cons, Nat.eqb_refl in V. cbn [vrun] in V.
      destruct (vexec (view w (st j)) c); cbn [bind] in V; [|discriminate]. destruct Hv; discriminate.
    + destruct (vexec (view w (st j)) c) as [v|e] eqn:Ev; [|discriminate]. destruct Hv as [_ Hv].
      destruct (IHprog w' (hset st j s') Hs Hp') as [I1 [I2 I3]].
      assert (Q : forall i, (i < n)%nat -> vrun (view w (st i)) (calls_on i ((j, c) :: prog)) = vrun (view w' (hset st j s' i)) (calls_on i prog)).
      { intros i I. rewrite calls_on_cons. unfold hset. rewrite (Nat.eqb_sym i j). destruct (Nat.eqb_spec j i).
        - subst i. cbn [vrun]. rewrite Ev. cbn [bind]. rewrite Hv. auto.
        - rewrite O; auto. }
      split; [|split; auto].
      * rewrite I1. split; intros A i I; destruct (A i I) as [v' V]; exists v'; [rewrite Q|rewrite <- Q]; auto.
      * intros N i I. rewrite Q by auto. apply I3; auto.
Qed.

Lemma C73_lemma : forall n w st prog,
  (forall i, (i < n)%nat -> tidy w (st i)) ->
  (forall i j, (i < n)%nat -> (j < n)%nat -> i <> j -> apart w (st i) (st j)) ->
  List.Forall (fun p => (fst p < n)%nat) prog ->
  let w' := fst (fst (hrun w st prog)) in let st' := snd (fst (hrun w st prog)) in let err := snd (hrun w st prog) in
  (err = None <-> (forall i, (i < n)%nat -> exists v, vrun (view w (st i)) (calls_on i prog) = Ok v)) /\
  (err = None -> forall i, (i < n)%nat -> vrun (view w (st i)) (calls_on i prog) = Ok (view w' (st' i))) /\
  (forall i, (i < n)%nat -> tidy w' (st' i)) /\
  (forall i j, (i < n)%nat -> (j < n)%nat -> i <> j -> apart w' (st' i) (st' j)).
Proof.
  intros n w st prog T P Hp w' st' err. destruct (hrun_all n prog w st (conj T P) Hp) as [A [[B1 B2] C]]. auto.
Qed.

(** ** construction *)
Lemma h_init_ok : forall w teff radius period c f gp flg sg fg gran u1 u2 v,
  star_init teff radius period (view_sc w c) (view_fc w f) gp flg (Some (w_sg w sg)) (Some (w_fg w fg)) gran u1 u2 = Ok v ->
  exists w' s, h_init w teff radius period c f gp flg sg fg gran u1 u2 = (w', Ok s) /\
  view w' s = v /\ hs_sc s = c /\ hs_fc s = f /\ hs_sg s = sg /\ hs_fg s = fg /\
  w_sc w' c = (fst (w_sc w c), st_grid v) /\ w_fc w' f = (fst (w_fc w f), st_grid v) /\
  w_nspot w' = w_nspot w /\ w_nfac w' = w_nfac w /\
  (forall k, k <> c -> w_sc w' k = w_sc w k) /\ (forall k, k <> f -> w_fc w' k = w_fc w k) /\
  (forall k, k <> sg -> w_sg w' k = w_sg w k) /\ (forall k, k <> fg -> w_fg w' k = w_fg w k) /\
  (forall l, ~ In l (fst (w_sc w c)) -> w_spot w' l = w_spot w l) /\
  (forall l, ~ In l (fst (w_fc w f)) -> w_fac w' l = w_fac w l).
Proof.
  intros w teff radius period c f gp flg sg fg gran u1 u2 v E. unfold h_init. rewrite E.
  unfold star_init in E. destruct (grid_new gp) as [g|]; cbn [bind] in E; [|discriminate]. injection E as <-.
  cbn [st_grid]. eexists. eexists. split. reflexivity.
  unfold w_fc_assign_grid, w_sc_assign_grid, w_adopt, w_sc_set_gridmaker, w_fc_set_gridmaker, w_facs, w_spots.
  cbn -[sc_set_gridmaker set_spot_grid fcc_set_gridmaker set_fac_grid]. rewrite !hset_eq. cbn [fst snd].
  split; [|repeat split; auto].
  - unfold view, view_sc, view_fc. cbn -[sc_set_gridmaker set_spot_grid fcc_set_gridmaker set_fac_grid]. rewrite !hset_eq. cbn [fst snd].
    f_equal.
    + unfold set_spot_grid, sc_set_gridmaker. cbn. f_equal.
      rewrite heach_idem_map by apply spot_assign_idem. rewrite heach_idem_map by apply spot_set_idem. auto.
    + unfold set_fac_grid, fcc_set_gridmaker. cbn. f_equal.
      rewrite heach_idem_map by apply fac_assign_idem. rewrite heach_idem_map by apply fac_assign_idem. auto.
  - intros. rewrite !hset_ne; auto.
  - intros. rewrite !hset_ne; auto.
  - intros. rewrite !hset_ne; auto.
  - intros. rewrite !hset_ne; auto.
  - intros. rewrite !heach_frame; auto.
  - intros. rewrite !heach_frame; auto.
Qed.

Lemma C73_init_lemma : forall w teff radius period c f gp flg sg fg gran u1 u2,
  match star_init teff radius period (view_sc w c) (view_fc w f) gp flg (Some (w_sg w sg)) (Some (w_fg w fg)) gran u1 u2 with
  | Raise e => h_init w teff radius period c f gp flg sg fg gran u1 u2 = (w, Raise e)
  | Ok v => exists w' s, h_init w teff radius period c f gp flg sg fg gran u1 u2 = (w', Ok s) /\
      view w' s = v /\ spots_of w' s = fst (w_sc w c) /\ facs_of w' s = fst (w_fc w f) /\
      (forall o, hs_sc o <> c -> hs_fc o <> f -> hs_sg o <> sg -> hs_fg o <> fg ->
         (forall l, In l (spots_of w o) -> ~ In l (fst (w_sc w c))) ->
         (forall l, In l (facs_of w o) -> ~ In l (fst (w_fc w f))) ->
         view w' o = view w o /\ (tidy w o -> tidy w' o) /\ apart w' s o)
  end.
Proof.
  intros. destruct (star_init teff radius period (view_sc w c) (view_fc w f) gp flg (Some (w_sg w sg)) (Some (w_fg w fg)) gran u1 u2) as [v|e] eqn:E.
  - destruct (h_init_ok _ _ _ _ _ _ _ _ _ _ _ _ _ _ E) as [w' [s [H [Hv [S1 [S2 [S3 [S4 [C1 [C2 [N1 [N2 [F1 [F2 [F3 [F4 [F5 F6]]]]]]]]]]]]]]]]].
    exists w', s. split; auto. split; auto. unfold spots_of at 1, facs_of at 1. rewrite S1, S2, C1, C2. split; auto. split; auto.
    intros o O1 O2 O3 O4 O5 O6.
    assert (Eo : spots_of w' o = spots_of w o) by (unfold spots_of; rewrite F1; auto).
    assert (Fo : facs_of w' o = facs_of w o) by (unfold facs_of; rewrite F2; auto).
    split; [|split].
    + apply view_ext; auto.
    + unfold tidy. rewrite Eo, Fo, N1, N2. auto.
    + unfold apart. rewrite Eo, Fo. unfold spots_of at 1, facs_of at 1. rewrite S1, S2, C1, C2. cbn [fst].
      repeat split; auto; intros l I J; [eapply O5|eapply O6]; eauto.
  - unfold h_init. rewrite E. auto.
Qed.

(** ** sharing *)
Lemma w_sc_age_store : forall w c t w', w_sc_age w c t = (w', None) ->
  (forall l, repeat_call (times_in l (fst (w_sc w c))) (fun x => spot_age x t) (w_spot w l) = Ok (w_spot w' l)) /\
  w_fac w' = w_fac w /\ w_fc w' = w_fc w /\ (forall k, k <> c -> w_sc w' k = w_sc w k).
Proof.
  intros w c t w' E. unfold w_sc_age in E. destruct (w_sc w c) as [ls g] eqn:Ec.
  destruct (heach (fun s => spot_age s t) (w_spot w) ls) as [h [e|]] eqn:Eh; [discriminate|]. injection E as <-.
  cbn. repeat split; auto.
  - intros. eapply heach_count; eauto.
  - intros. apply hset_ne; auto.
Qed.
Lemma w_fc_age_store : forall w c t,
  (forall l, repeat_call (times_in l (fst (w_fc w c))) (fun x => Ok (fac_age x t)) (w_fac w l) = Ok (w_fac (w_fc_age w c t) l)) /\
  w_spot (w_fc_age w c t) = w_spot w /\ w_sc (w_fc_age w c t) = w_sc w /\ (forall k, k <> c -> w_fc (w_fc_age w c t) k = w_fc w k).
Proof.
  intros w c t. unfold w_fc_age. destruct (w_fc w c) as [ls g] eqn:Ec. cbn. repeat split; auto.
  - intros. pose proof (heach_total _ (fun f => fac_age f t) ls (w_fac w)) as N.
    destruct (heach (fun f => Ok (fac_age f t)) (w_fac w) ls) as [h o] eqn:Eh. cbn in N. subst o.
    apply (heach_count _ _ _ _ _ Eh).
  - intros. apply hset_ne; auto.
Qed.

Lemma C74_age_lemma : forall w s t w', h_age w s t = (w', None) ->
  (forall l, repeat_call (times_in l (spots_of w s)) (fun x => spot_age x t) (w_spot w l) = Ok (w_spot w' l)) /\
  (forall l, repeat_call (times_in l (facs_of w s)) (fun x => Ok (fac_age x t)) (w_fac w l) = Ok (w_fac w' l)) /\
  (forall o, hs_sc o <> hs_sc s -> spots_of w' o = spots_of w o) /\
  (forall o, hs_fc o <> hs_fc s -> facs_of w' o = facs_of w o).
Proof.
  intros w s t w' E. unfold h_age in E. destruct (w_sc_age w (hs_sc s) t) as [w1 [e|]] eqn:E1; [discriminate|].
  injection E as <-. destruct (w_sc_age_store _ _ _ _ E1) as [A1 [A2 [A3 A4]]].
  destruct (w_fc_age_store w1 (hs_fc s) t) as [B1 [B2 [B3 B4]]].
  unfold spots_of, facs_of. repeat split.
  - intros. rewrite B2. apply A1.
  - intros. rewrite A2, A3 in B1. apply B1.
  - intros. rewrite B3, A4 by auto. auto.
  - intros. rewrite B4, A3 by auto. auto.
Qed.

Lemma repeat_decay : forall k (x x' : spot) A M W t, sp_growing x = false ->
  sp_area x = Fin A -> sp_area_max x = Fin M -> sp_decay x = Fin W -> t * W <= M ->
  repeat_call k (fun x => spot_age x (Fin t)) x = Ok x' -> sp_area x' = Fin (A - INR k * (t * W)).
Proof.
  induction k; intros x x' A M W t G a m d C E.
  - cbn in E. injection E as <-. rewrite a. cbn. f_equal. ring.
  - cbn [repeat_call] in E. unfold spot_age at 1 in E. rewrite G, m, d in E. cbn [nmul] in E.
    destruct (ngt (Fin (t * W)) (Fin M)) eqn:Eg; [unfold ngt in Eg; apply nlt_fin in Eg; lra|]. cbn [bind] in E.
    rewrite (IHk (spot_with_area x (nsub (sp_area x) (Fin (t * W))) false) x' (A - t * W) M W t); auto.
    + rewrite S_INR. f_equal. ring.
    + cbn. rewrite a. cbn. auto.
Qed.
(** a decaying spot that is in the star [k] times decays [k] times as fast *)
Lemma C74_twice_lemma : forall w s t w' l A M W, h_age w s (Fin t) = (w', None) ->
  sp_growing (w_spot w l) = false -> sp_area (w_spot w l) = Fin A -> sp_area_max (w_spot w l) = Fin M ->
  sp_decay (w_spot w l) = Fin W -> t * W <= M ->
  sp_area (w_spot w' l) = Fin (A - INR (times_in l (spots_of w s)) * (t * W)).
Proof.
  intros. destruct (C74_age_lemma _ _ _ _ H) as [X _]. eapply repeat_decay; eauto.
Qed.

(** a second star built over objects of the first takes them onto its own grid *)
Lemma C74_regrid_lemma : forall w teff radius period c f gp flg sg fg gran u1 u2 w' s o,
  h_init w teff radius period c f gp flg sg fg gran u1 u2 = (w', Ok s) ->
  let g := st_grid (view w' s) in
  st_grid (view w' o) = st_grid (view w o) /\
  (hs_sc o = c -> sc_grid (st_spots (view w' o)) = g) /\
  (hs_fc o = f -> fcc_grid (st_facs (view w' o)) = g) /\
  (forall l, In l (fst (w_sc w c)) -> spot_on g (w_spot w' l)) /\
  (forall l, In l (fst (w_fc w f)) -> fc_grid (w_fac w' l) = g) /\
  (hs_sg o = sg -> sg_grid (st_spotgen (view w' o)) = g) /\
  (hs_fg o = fg -> fg_grid (st_facgen (view w' o)) = g) /\
  (st_grid (view w o) <> g ->
     hs_sc o = c \/ hs_fc o = f \/ hs_sg o = sg \/ hs_fg o = fg \/
     (hs_sc o <> c /\ exists l, In l (spots_of w o) /\ In l (fst (w_sc w c))) \/
     (hs_fc o <> f /\ exists l, In l (facs_of w o) /\ In l (fst (w_fc w f))) ->
     ~ star_unified (view w' o)).
Proof.
  intros w teff radius period c f gp flg sg fg gran u1 u2 w' s o H.
  destruct (star_init teff radius period (view_sc w c) (view_fc w f) gp flg (Some (w_sg w sg)) (Some (w_fg w fg)) gran u1 u2) as [v|e] eqn:E.
  2: { unfold h_init in H. rewrite E in H. discriminate. }
  destruct (h_init_ok _ _ _ _ _ _ _ _ _ _ _ _ _ _ E) as [w1 [s1 [H1 [Hv [S1 [S2 [S3 [S4 [C1 [C2 [N1 [N2 [F1 [F2 [F3 [F4 [F5 F6]]]]]]]]]]]]]]]]].
  rewrite H in H1. injection H1 as <- <-. cbv zeta. rewrite Hv.
  pose proof (star_init_unified _ _ _ _ _ _ _ _ _ _ _ _ _ E) as [_ [U1 [U2 [U3 [U4 [U5 U6]]]]]]. rewrite <- Hv in U3, U4, U5, U6.
  assert (G0 : st_grid (view w' o) = st_grid (view w o)) by reflexivity.
  assert (G1 : hs_sc o = c -> sc_grid (st_spots (view w' o)) = st_grid v).
  { intros X. cbn. rewrite X, C1. auto. }
  assert (G2 : hs_fc o = f -> fcc_grid (st_facs (view w' o)) = st_grid v).
  { intros X. cbn. rewrite X, C2. auto. }
  assert (G3 : forall l, In l (fst (w_sc w c)) -> spot_on (st_grid v) (w_spot w' l)).
  { intros l I. rewrite <- Hv. apply U3. cbn. rewrite S1, C1. cbn. apply in_map; auto. }
  assert (G4 : forall l, In l (fst (w_fc w f)) -> fc_grid (w_fac w' l) = st_grid v).
  { intros l I. rewrite <- Hv. apply U4. cbn. rewrite S2, C2. cbn. apply in_map; auto. }
  assert (G5 : hs_sg o = sg -> sg_grid (st_spotgen (view w' o)) = st_grid v).
  { intros X. rewrite <- Hv. rewrite <- U5. cbn. rewrite X, S3. auto. }
  assert (G6 : hs_fg o = fg -> fg_grid (st_facgen (view w' o)) = st_grid v).
  { intros X. rewrite <- Hv. rewrite <- U6. cbn. rewrite X, S4. auto. }
  split; auto. split; auto. split; auto. split; auto. split; auto. split; auto. split; auto.
  intros Ne Sh [V1 [V2 [V3 [V4 [V5 V6]]]]]. rewrite G0 in *. destruct Sh as [X|[X|[X|[X|[X|X]]]]].
  - rewrite G1 in V1 by auto. congruence.
  - rewrite G2 in V2 by auto. congruence.
  - rewrite G5 in V5 by auto. congruence.
  - rewrite G6 in V6 by auto. congruence.
  - destruct X as [X [l [I J]]]. assert (Y : spot_on (st_grid (view w o)) (w_spot w' l)).
    { apply V3. cbn. rewrite F1 by auto. apply in_map. auto. }
    destruct (G3 l J) as [Z _]. destruct Y as [Y _]. congruence.
  - destruct X as [X [l [I J]]]. assert (Y : fc_grid (w_fac w' l) = st_grid (view w o)).
    { apply V4. cbn. rewrite F2 by auto. apply in_map. auto. }
    pose proof (G4 l J). congruence.
Qed.

(** spots born from a generator that works on another grid keep the distances of that grid *)
Lemma C74_births_lemma : forall w o t n d fuel w' o', tidy w o ->
  hexec w o (CBirthSpots t n d fuel) = (w', o', None) ->
  exists new, spots_of w' o' = spots_of w o ++ new /\
  forall l, In l new -> sp_grid (w_spot w' l) = snd (w_sc w (hs_sc o)) /\
    exists y, spot_on (sg_grid (w_sg w (hs_sg o))) y /\ same_spot y (w_spot w' l) /\ sp_r (w_spot w' l) = sp_r y.
Proof.
  intros w o t n d fuel w' o' T E. unfold hexec in E.
  destruct (sg_birth (w_sg w (hs_sg o)) t (st_radius (hs_attrs o)) n d fuel) as [l|] eqn:Eb; [|discriminate].
  injection E as E <- _. subst w'. pose proof (sg_birth_on _ _ _ _ _ _ _ Eb) as On.
  unfold h_new_spots. pose proof (halloc_addr _ l (w_spot w) (w_nspot w)) as Ha.
  pose proof (halloc_new _ l (w_spot w) (w_nspot w)) as Hn.
  destruct (halloc (w_spot w) (w_nspot w) l) as [h ls]. cbn [fst snd] in *. subst ls.
  unfold w_sc_add, spots_of. cbn [w_sc]. destruct (w_sc w (hs_sc o)) as [l0 g] eqn:Ew. cbn. rewrite hset_eq. cbn [fst snd].
  eexists. split. reflexivity. intros k I.
  rewrite heach_idem by (auto using spot_assign_idem). split. reflexivity.
  exists (h k). split. apply On. rewrite <- Hn. apply in_map; auto. split; [|reflexivity].
  unfold same_spot. cbn. auto 20.
Qed.
