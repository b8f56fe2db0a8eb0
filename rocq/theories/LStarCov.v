(** Lemmas for C50-C53: the coverage dictionaries *)
From Coq Require Import Reals ZArith Bool List Lra Lia Permutation Sorted FunctionalExtensionality.
From Coquelicot Require Import Coquelicot.
From Verif Require Import Num Py MConfig MHelpers MGrid MSpots MFaculae MFlares MGranules MStar
  Spec SpecStar SpecDisk LBase LGrid LHelpers LCirc LSpotMap LFac LDisk LStar LStarFac LTransit.
Import ListNotations.
Open Scope R_scope.

(** ** labels *)
Lemma tkey_eqb_spec : forall a b, tkey_eqb a b = true <-> a = b.
Proof.
  intros [x| | |] [y| | |]; cbn [tkey_eqb]; split; intros H; try discriminate; auto.
  - apply Z.eqb_eq in H. congruence.
  - injection H as ->. apply Z.eqb_refl.
Qed.
Lemma tkey_eqb_neq : forall a b, a <> b -> tkey_eqb a b = false.
Proof. intros. destruct (tkey_eqb a b) eqn:E; auto. apply tkey_eqb_spec in E. congruence. Qed.
Definition key (t : R) : tkey := fmt2 (Fin t).
Definition labels_distinct (s : star) (M : arr num) (T D : R) : Prop :=
  forall t t', listed s M T D t -> listed s M T D t' -> fmt2 (Fin t) = fmt2 (Fin t') -> t = t'.
Global Arguments key : simpl never.
Global Arguments fmt2 : simpl never.
Global Arguments tkey_eqb : simpl never.
(** temperatures more than 0.01 apart have different labels *)
Lemma label_gap : forall t t', key t = key t' -> Rabs (t - t') <= 1/100.
Proof.
  intros t t' E. unfold key, fmt2 in E. injection E as E.
  destruct (rhe_spec (t * 100)) as [A _]. destruct (rhe_spec (t' * 100)) as [B _]. rewrite E in A.
  apply Rabs_le. apply Rabs_le_inv in A. apply Rabs_le_inv in B. lra.
Qed.

(** ** real-valued dictionaries *)
Definition rdict := dict tkey R.
Definition lift (d : rdict) : dict tkey num := map (fun kv => (fst kv, Fin (snd kv))) d.
Lemma lift_dset : forall d k v, dset tkey_eqb (lift d) k (Fin v) = lift (dset tkey_eqb d k v).
Proof. induction d as [|[k' v'] d]; simpl; intros; auto. destruct (tkey_eqb k k'); simpl; auto. rewrite IHd; auto. Qed.
Lemma lift_dget : forall d k, dget tkey_eqb (lift d) k = option_map Fin (dget tkey_eqb d k).
Proof. induction d as [|[k' v'] d]; simpl; intros; auto. destruct (tkey_eqb k k'); simpl; auto. Qed.
Lemma lift_keys : forall d, map fst (lift d) = map fst d.
Proof. intros. unfold lift. rewrite map_map. auto. Qed.
Definition rsumd (d : rdict) : R := rsum (map snd d).
Lemma lift_sum : forall d, dict_sum (lift d) = rsumd d.
Proof. intros. unfold dict_sum, lift, rsumd. rewrite map_map. auto. Qed.
Definition oval (o : option R) : R := match o with Some x => x | None => 0 end.
Lemma rsumd_dset : forall d k v, rsumd (dset tkey_eqb d k v) = rsumd d + v - oval (dget tkey_eqb d k).
Proof.
  unfold rsumd. induction d as [|[k' v'] d]; intros; cbn [dset dget map snd rsum fold_right oval].
  - lra.
  - destruct (tkey_eqb k k'); cbn [map snd rsum fold_right oval]; fold (rsum (map snd d)). lra.
    fold (rsum (map snd (dset tkey_eqb d k v))). rewrite IHd. lra.
Qed.
Notation rget := (dget tkey_eqb).
Notation rset := (dset tkey_eqb).
Lemma rget_same : forall (d : rdict) k v, rget (rset d k v) k = Some v.
Proof. intros. apply dget_dset_same. apply tkey_eqb_spec. Qed.
Lemma rget_other : forall (d : rdict) k k' v, k <> k' -> rget (rset d k v) k' = rget d k'.
Proof. intros. apply dget_dset_other; auto. apply tkey_eqb_spec. Qed.
Lemma tkey_dec : forall a b : tkey, {a = b} + {a <> b}.
Proof. intros. destruct (tkey_eqb a b) eqn:E. left; apply tkey_eqb_spec; auto. right; intros K; apply tkey_eqb_spec in K; congruence. Qed.
Lemma rget_some : forall (d : rdict) k, In k (map fst d) <-> exists v, rget d k = Some v.
Proof.
  intros. destruct (rget d k) eqn:E.
  - split; eauto. intros _. apply (in_map fst) with (x := (k, r)). eapply dget_In; eauto. apply tkey_eqb_spec.
  - split. intros I. exfalso. eapply dget_None; eauto. apply tkey_eqb_spec. intros [v K]; discriminate.
Qed.

(** ** setting one entry per temperature *)
Definition foldd (V : R -> R) (l : list R) (d : rdict) : rdict := fold_left (fun d t => rset d (key t) (V t)) l d.
Lemma foldd_app : forall V l l' d, foldd V (l ++ l') d = foldd V l' (foldd V l d).
Proof. intros. unfold foldd. apply fold_left_app. Qed.
Lemma foldd_other : forall V l d k, (forall t, In t l -> key t <> k) -> rget (foldd V l d) k = rget d k.
Proof.
  induction l; simpl; intros; auto. unfold foldd in *. simpl. rewrite IHl by auto. apply rget_other. apply H; auto.
Qed.
Lemma foldd_last : forall V l1 t l2 d, (forall t', In t' l2 -> key t' <> key t) ->
  rget (foldd V (l1 ++ t :: l2) d) (key t) = Some (V t).
Proof.
  intros. rewrite foldd_app. unfold foldd at 1. cbn [fold_left]. fold (foldd V l2 (rset (foldd V l1 d) (key t) (V t))).
  rewrite foldd_other by auto. apply rget_same.
Qed.
Lemma foldd_NoDup : forall V l d, NoDup (map fst d) -> NoDup (map fst (foldd V l d)).
Proof. induction l; simpl; intros; auto. unfold foldd in *. simpl. apply IHl. apply dset_NoDup; auto. apply tkey_eqb_spec. Qed.
Lemma foldd_keys : forall V l d k, In k (map fst (foldd V l d)) <-> In k (map fst d) \/ In k (map key l).
Proof.
  induction l; simpl; intros. tauto.
  unfold foldd in *. simpl. rewrite IHl. rewrite !rget_some. destruct (tkey_dec (key a) k) as [<-|N].
  - rewrite rget_same. split; eauto.
  - rewrite rget_other by auto. split; intuition.
Qed.
Lemma foldd_sum_le : forall V l d, (forall t, In t l -> 0 <= V t) -> (forall kv, In kv d -> 0 <= snd kv) ->
  rsumd (foldd V l d) <= rsumd d + rsum (map V l) /\ (forall kv, In kv (foldd V l d) -> 0 <= snd kv).
Proof.
  induction l; intros d HV Hd; cbn [map rsum fold_right].
  - unfold foldd; simpl. split; auto. lra.
  - fold (rsum (map V l)). unfold foldd in *. cbn [fold_left].
    assert (Hd' : forall kv, In kv (rset d (key a) (V a)) -> 0 <= snd kv).
    { assert (0 <= V a) by (apply HV; left; auto). clear - Hd H. induction d as [|[k v] d]; simpl; intros kv I.
      - destruct I as [<-|[]]; auto.
      - destruct (tkey_eqb (key a) k); simpl in I; destruct I as [<-|I]; auto.
        + apply Hd; right; auto.
        + apply Hd; left; auto.
        + apply IHd; auto. intros; apply Hd; right; auto. }
    destruct (IHl (rset d (key a) (V a))) as [A B]; auto. intros; apply HV; right; auto.
    split; auto. rewrite rsumd_dset in A.
    assert (0 <= oval (rget d (key a))). { destruct (rget d (key a)) eqn:E; simpl; [|lra]. apply (dget_In _ tkey_eqb_spec) in E. apply (Hd _ E). }
    lra.
Qed.
Lemma foldd_sum_new : forall V l d, NoDup (map key l) -> (forall t, In t l -> rget d (key t) = None) ->
  rsumd (foldd V l d) = rsumd d + rsum (map V l).
Proof.
  induction l; intros d N H; cbn [map rsum fold_right].
  - unfold foldd; simpl. lra.
  - fold (rsum (map V l)). cbn [map] in N. inversion N; subst. unfold foldd in *. cbn [fold_left]. rewrite IHl; auto.
    + rewrite rsumd_dset. rewrite H by (left; auto). simpl. lra.
    + intros t I. rewrite rget_other. apply H; right; auto. intros E. apply H2. rewrite E. apply in_map; auto.
Qed.

(** ** granulation *)
Definition rgran (d : rdict) (kT kG : tkey) (f : R) : res rdict :=
  do p <- dindex tkey_eqb d kT ;;
  let d := rset d kT (p * (1 - f)) in
  do o <- dindex tkey_eqb d kG ;; Ok (rset d kG (o + p * f)).
Definition rmap {A B} (h : A -> B) (x : res A) : res B := match x with Ok a => Ok (h a) | Raise e => Raise e end.
Lemma granulate_lift : forall d kT kG f, granulate (lift d) kT kG (Fin f) = rmap lift (rgran d kT kG f).
Proof.
  intros. unfold granulate, rgran, dindex. rewrite lift_dget. destruct (rget d kT) as [p|]; cbn [option_map bind rmap]; auto.
  rewrite nsub_fin, !nmul_fin, lift_dset, lift_dget.
  destruct (rget (rset d kT (p * (1 - f))) kG); cbn [option_map bind rmap]; auto. rewrite nadd_fin, lift_dset. auto.
Qed.
Lemma rgran_sum : forall d kT kG f d', rgran d kT kG f = Ok d' -> rsumd d' = rsumd d.
Proof.
  intros d kT kG f d' H. unfold rgran, dindex in H. destruct (rget d kT) as [p|] eqn:P; [|discriminate]. cbn [bind] in H.
  destruct (rget (rset d kT (p * (1 - f))) kG) as [o|] eqn:O; [|discriminate]. cbn [bind] in H. injection H as <-.
  rewrite !rsumd_dset, O, P. cbn [oval]. lra.
Qed.
Lemma rgran_ok : forall d kT kG f p, rget d kT = Some p -> (exists q, rget d kG = Some q) ->
  exists d', rgran d kT kG f = Ok d'
   /\ (forall k, k <> kT -> k <> kG -> rget d' k = rget d k)
   /\ (kT <> kG -> rget d' kT = Some (p * (1 - f)))
   /\ (kT <> kG -> forall q, rget d kG = Some q -> rget d' kG = Some (q + p * f))
   /\ (kT = kG -> rget d' kT = Some p)
   /\ (forall k, In k (map fst d') <-> In k (map fst d))
   /\ (NoDup (map fst d) -> NoDup (map fst d')).
Proof.
  intros d kT kG f p P [q Q]. unfold rgran, dindex. rewrite P. cbn [bind].
  assert (K : exists o, rget (rset d kT (p * (1 - f))) kG = Some o).
  { destruct (tkey_dec kT kG) as [->|N]. rewrite rget_same; eauto. rewrite rget_other by auto. eauto. }
  destruct K as [o O]. rewrite O. cbn [bind]. eexists. split. reflexivity. split; [|split; [|split; [|split; [|split]]]].
  - intros. rewrite !rget_other by auto. auto.
  - intros. rewrite rget_other by auto. apply rget_same.
  - intros N q' Q'. rewrite rget_same. rewrite rget_other in O by auto. congruence.
  - intros <-. rewrite rget_same. rewrite rget_same in O. assert (o = p * (1 - f)) by congruence. subst. f_equal. ring.
  - intros k. rewrite !dset_keys_in; try tauto; try apply tkey_eqb_spec; congruence.
  - intros. apply dset_NoDup. apply tkey_eqb_spec. apply dset_NoDup; auto. apply tkey_eqb_spec.
Qed.

(** ** np.unique on reals *)
Fixpoint rui (x : R) (l : list R) : list R :=
  match l with [] => [x] | y :: t => if Reqb x y then l else if Rltb x y then x :: l else y :: rui x t end.
Definition runiq (l : list R) : list R := fold_right rui [] l.
Lemma uinsert_fin : forall x l, uinsert (Fin x) (map Fin l) = map Fin (rui x l).
Proof.
  induction l; simpl; auto. rewrite !orb_false_r. destruct (Reqb x a); auto. destruct (Rltb x a); auto. simpl. rewrite IHl; auto.
Qed.
Lemma nunique_fin : forall l, nunique (map Fin l) = map Fin (runiq l).
Proof. induction l; simpl; auto. unfold nunique in *. simpl. rewrite IHl. apply uinsert_fin. Qed.
Lemma rui_In : forall x l y, In y (rui x l) <-> y = x \/ In y l.
Proof.
  induction l; simpl; intros. intuition. destruct (Reqb x a) eqn:E; rb.
  - subst. simpl. intuition.
  - destruct (Rltb x a); simpl. intuition. rewrite IHl. intuition.
Qed.
Lemma rui_sorted : forall x l, StronglySorted Rlt l -> StronglySorted Rlt (rui x l).
Proof.
  induction l; simpl; intros. constructor; auto. inversion H; subst. destruct (Reqb x a) eqn:E; auto. destruct (Rltb x a) eqn:E2; rb.
  - constructor; auto. constructor; auto. eapply Forall_impl; [|eauto]. intros; simpl in *; lra.
  - constructor; auto. apply Forall_forall. intros y I. apply rui_In in I. rewrite Forall_forall in H3. destruct I as [->|I]; auto. lra.
Qed.
Lemma runiq_In : forall l y, In y (runiq l) <-> In y l.
Proof. induction l; simpl; intros. tauto. rewrite rui_In, IHl. intuition. Qed.
Lemma runiq_sorted : forall l, StronglySorted Rlt (runiq l).
Proof. induction l; simpl. constructor. apply rui_sorted; auto. Qed.
Lemma sorted_NoDup : forall l, StronglySorted Rlt l -> NoDup l.
Proof.
  induction l; intros. constructor. inversion H; subst. constructor; auto. intros I. rewrite Forall_forall in H3. pose proof (H3 _ I). lra.
Qed.
(** summing by temperature *)
Lemma rsum_by_value : forall A (pts : list A) (tm w : A -> R) ul, NoDup ul -> (forall p, In p pts -> In (tm p) ul) ->
  rsum (map (fun t => rsum (map (fun p => if Req_EM_T (tm p) t then w p else 0) pts)) ul) = rsum (map w pts).
Proof.
  induction pts as [|p pts]; intros tm w ul N H.
  - cbn [map rsum fold_right]. apply rsum_zero. auto.
  - cbn [map rsum fold_right]. fold (rsum (map w pts)).
    transitivity (rsum (map (fun t => (if Req_EM_T (tm p) t then w p else 0) + rsum (map (fun p => if Req_EM_T (tm p) t then w p else 0) pts)) ul)).
    { apply rsum_map_ext. intros; reflexivity. }
    rewrite rsum_map_plus. rewrite IHpts by (auto; intros; apply H; right; auto). f_equal.
    assert (I : In (tm p) ul) by (apply H; left; auto). clear - N I. induction ul; simpl in I; [tauto|].
    inversion N; subst. cbn [map rsum fold_right]. match goal with |- _ + fold_right Rplus 0 ?l = _ => fold (rsum l) end.
    destruct (Req_EM_T (tm p) a) as [E|E].
    + rewrite rsum_zero. lra. intros x Ix. destruct (Req_EM_T (tm p) x); auto. subst. congruence.
    + rewrite IHul; auto. lra. destruct I; congruence.
Qed.

(** ** the loop over temperatures *)
Section Loop.
  Context (g : grid) (tm ldp pr cm : R * R -> R) (W : R).
  Let gp := grid_points g.
  Let S1 (t : R) := rsum (map (fun p => if Req_EM_T (tm p) t then ldp p * pr p else 0) (cells gp)).
  Let S2 (t : R) := rsum (map (fun p => if Req_EM_T (tm p) t then ldp p * pr p * cm p else 0) (cells gp)).
  Hypothesis HW : W <> 0.
  Lemma step_eq : forall d1 d2 t,
    coverage_step (amap (fun p => Fin (tm p)) gp) (amap ldp gp) (amap (fun p => Fin (pr p)) gp) (amap (fun p => Fin (cm p)) gp)
      (Fin W) (lift d1, lift d2) (Fin t)
    = Ok (lift (rset d1 (key t) (S1 t / W)), lift (rset d2 (key t) (S2 t / W))).
  Proof.
    intros. unfold coverage_step. rewrite !amap_amap. rewrite amap2_amap. cbn [bind]. rewrite amap2_amap. cbn [bind].
    rewrite amap2_amap. cbn [bind fst snd]. rewrite !cells_amap.
    rewrite (nsum_map_fin _ _ (fun p => if Req_EM_T (tm p) t then ldp p * pr p else 0)).
    2:{ intros p _. cbn [neq]. rewrite !nmul_fin. f_equal. unfold Reqb. destruct (Req_EM_T (tm p) t); ring. }
    rewrite (nsum_map_fin _ _ (fun p => if Req_EM_T (tm p) t then ldp p * pr p * cm p else 0)).
    2:{ intros p _. cbn [neq]. rewrite !nmul_fin. f_equal. unfold Reqb. destruct (Req_EM_T (tm p) t); ring. }
    rewrite !ndiv_fin by auto. fold (key t). rewrite !lift_dset. auto.
  Qed.
  Lemma loop_eq : forall ul d1 d2,
    coverage_loop (amap (fun p => Fin (tm p)) gp) (amap ldp gp) (amap (fun p => Fin (pr p)) gp) (amap (fun p => Fin (cm p)) gp)
      (Fin W) (lift d1, lift d2) (map Fin ul)
    = Ok (lift (foldd (fun t => S1 t / W) ul d1), lift (foldd (fun t => S2 t / W) ul d2)).
  Proof.
    induction ul; intros; cbn [map coverage_loop]; auto.
    rewrite step_eq. cbn [bind]. rewrite IHul. auto.
  Qed.
End Loop.

(** ** the ingredients, per pixel *)
Lemma add_faculae_form : forall s lat0 lon0 M, star_unified s -> add_faculae_to_map s lat0 lon0 = Ok M ->
  exists G, M = amap G (grid_points (st_grid s)).
Proof.
  intros s lat0 lon0 M U H. unfold add_faculae_to_map in H. rewrite star_map_eq in H by auto. cbn [bind] in H.
  apply paint_faculae_inv in H. destruct H as [G [-> _]]; eauto. apply U.
Qed.
Definition wgt (s : star) (lat0 lon0 : R) (p : R * R) : R :=
  ld_plot s (mup lat0 lon0 p) * (rarea_at (st_grid s) p * area_projection (mup lat0 lon0 p)).
Definition bval (s : star) (pts : list (R * R)) (w tm : R * R -> R) (W t : R) : R :=
  rsum (map (fun p => if Req_EM_T (tm p) t then w p else 0) pts) / W.
Lemma seen_pt : forall s lat0 lon0 j i, good_grid (st_grid s) -> pixel (st_grid s) j i ->
  seen s lat0 lon0 (amap (fun p => Fin (rarea_at (st_grid s) p)) (grid_points (st_grid s))) j i = wgt s lat0 lon0 (pt (st_grid s) (j, i)).
Proof.
  intros s lat0 lon0 j i G P. unfold seen, wgt, cell_val. rewrite acell_grid by auto.
  change (acell (grid_points (st_grid s)) j i (0, 0)) with (pt (st_grid s) (j, i)).
  rewrite pix_mu_pt. fold (mup lat0 lon0 (pt (st_grid s) (j, i))). unfold area_projection, ld_plot.
  destruct (Rlt_dec 0 (mup lat0 lon0 (pt (st_grid s) (j, i)))).
  - rewrite (proj2 (Rltb_true 0 _)) by auto. rewrite (proj2 (Rltb_false _ 0)) by lra. ring.
  - rewrite (proj2 (Rltb_false 0 _)) by lra. ring.
Qed.
Lemma grid_sum_pt : forall g (f : R * R -> R) h, (forall j i, pixel g j i -> h j i = f (pt g (j, i))) ->
  grid_sum g h = rsum (map f (cells (grid_points g))).
Proof.
  intros. rewrite rsum_cells. rewrite !grid_sum_idx. apply rsum_map_ext. intros [j i] I. apply idx_In in I. simpl. auto.
Qed.
(** what the record [disk_view] gives, in terms of points *)
Lemma view_form : forall s lat0 lon0 orbit planet phase incl T D A M C pf,
  disk_view s lat0 lon0 orbit planet phase incl T D A M C pf ->
  exists tm cm,
    A = amap (fun p => Fin (rarea_at (st_grid s) p)) (grid_points (st_grid s))
    /\ M = amap (fun p => Fin (tm p)) (grid_points (st_grid s))
    /\ C = amap (fun p => Fin (cm p)) (grid_points (st_grid s))
    /\ (forall p, In p (cells (grid_points (st_grid s))) -> 0 <= cm p <= 1)
    /\ disk s lat0 lon0 A = rsum (map (wgt s lat0 lon0) (cells (grid_points (st_grid s))))
    /\ (forall t, share s lat0 lon0 A M (fun _ _ => 1) t = bval s (cells (grid_points (st_grid s))) (wgt s lat0 lon0) tm (disk s lat0 lon0 A) t)
    /\ (forall t, share s lat0 lon0 A M (cell_val C) t = bval s (cells (grid_points (st_grid s))) (fun p => wgt s lat0 lon0 p * cm p) tm (disk s lat0 lon0 A) t)
    /\ (forall t, appears (st_grid s) M t <-> In t (runiq (map tm (cells (grid_points (st_grid s))))))
    /\ (forall j i, pixel (st_grid s) j i -> cell_val C j i = cm (pt (st_grid s) (j, i))).
Proof.
  intros s lat0 lon0 orbit planet phase incl T D A M C pf V. destruct V as [Vu Vg Vr Vl Vt Vd Va Vm Vf Vk].
  rewrite grid_area_good in Va by auto. injection Va as <-.
  destruct (add_faculae_form s lat0 lon0 M) as [G ->]; auto.
  destruct (transit_mask_form s lat0 lon0 orbit planet phase incl C pf) as [cm [-> Hcm]]; auto.
  set (gp := grid_points (st_grid s)) in *. exists (fun p => covr (G p)), cm.
  assert (FG : forall p, In p (cells gp) -> G p = Fin (covr (G p))).
  { intros p I. apply In_pt in I. destruct I as [j [i [P ->]]]. pose proof (Vf j i P) as K.
    unfold gp in K. rewrite acell_grid in K by auto. destruct K as [r K].
    change (acell (grid_points (st_grid s)) j i (0, 0)) with (pt (st_grid s) (j, i)) in K. rewrite K. auto. }
  assert (EM : amap G gp = amap (fun p => Fin (covr (G p))) gp) by (apply amap_ext_in; auto).
  assert (CV : forall j i, pixel (st_grid s) j i -> cell_val (amap (fun p => Fin (cm p)) gp) j i = cm (pt (st_grid s) (j, i))).
  { intros j i P. unfold cell_val. unfold gp. rewrite acell_grid by auto. auto. }
  split; auto. split; auto. split; auto. split; auto. rewrite EM.
  split; [|split; [|split; [|split]]]; auto.
  - unfold disk. apply grid_sum_pt. intros. apply seen_pt; auto.
  - intros t. unfold share, bval. f_equal. apply grid_sum_pt. intros j i P. unfold gp. rewrite acell_grid by auto.
    rewrite seen_pt by auto. unfold pt. cbn [fst snd]. destruct (Req_EM_T _ t); ring.
  - intros t. unfold share, bval. f_equal. apply grid_sum_pt. intros j i P. rewrite CV by auto. unfold gp. rewrite acell_grid by auto.
    rewrite seen_pt by auto. unfold pt. cbn [fst snd]. destruct (Req_EM_T _ t); ring.
  - intros t. rewrite runiq_In, in_map_iff. unfold appears. split.
    + intros [j [i [P E]]]. unfold gp in E. rewrite acell_grid in E by auto. exists (pt (st_grid s) (j, i)).
      split. unfold pt. cbn [fst snd]. congruence. apply pt_In; auto.
    + intros [p [E I]]. apply In_pt in I. destruct I as [j [i [P ->]]]. exists j, i. split; auto. unfold gp. rewrite acell_grid by auto.
      unfold pt in E. cbn [fst snd] in E. congruence.
Qed.
(** the whole computation on real dictionaries *)
Definition base (V : R -> R) (ul : list R) (gt : R) : rdict :=
  let d := foldd V ul [] in if in_dec Req_EM_T gt ul then d else rset d (key gt) 0.
Lemma calc_coverage_eq : forall s lat0 lon0 orbit planet phase incl T D A M C pf f,
  disk_view s lat0 lon0 orbit planet phase incl T D A M C pf -> disk s lat0 lon0 A <> 0 ->
  exists ul, StronglySorted Rlt ul /\ (forall t, appears (st_grid s) M t <-> In t ul)
  /\ rsum (map (share s lat0 lon0 A M (fun _ _ => 1)) ul) = 1
  /\ calc_coverage s lat0 lon0 (Fin f) orbit planet phase incl
     = (do tot <- rgran (base (share s lat0 lon0 A M (fun _ _ => 1)) ul (T - D)) (key T) (key (T - D)) f ;;
        do cov <- rgran (base (share s lat0 lon0 A M (cell_val C)) ul (T - D)) (key T) (key (T - D)) f ;;
        Ok (lift tot, lift cov, pf)).
Proof.
  intros s lat0 lon0 orbit planet phase incl T D A M C pf f V NW.
  destruct (view_form _ _ _ _ _ _ _ _ _ _ _ _ _ V) as [tm [cm [EA [EM [EC [Hc [EW [E1 [E2 [Eap _]]]]]]]]]].
  destruct V as [Vu Vg Vr Vl Vt Vd Va Vm Vf Vk]. set (W := disk s lat0 lon0 A) in *. set (gp := grid_points (st_grid s)) in *.
  set (ul := runiq (map tm (cells gp))) in *. exists ul.
  split; [apply runiq_sorted|]. split; auto.
  split. { rewrite (rsum_map_ext _ _ _ _ (fun t _ => E1 t)). unfold bval. rewrite rsum_map_div. rewrite rsum_by_value.
    - rewrite <- EW. field; auto.
    - apply sorted_NoDup, runiq_sorted.
    - intros p I. unfold ul. rewrite runiq_In. apply in_map; auto. }
  pose proof Va as Va'. pose proof Vm as Vm'. pose proof Vk as Vk'. rewrite EA in Va'. rewrite EM in Vm'. rewrite EC in Vk'. fold gp in Va', Vm', Vk'.
  unfold calc_coverage, star_jacobian. rewrite Va'. cbn [bind]. rewrite star_mu_eq. fold gp. rewrite !amap_amap.
  rewrite amap2_amap. cbn [bind]. rewrite Vm', Vk'. cbn [bind]. cbv zeta.
  rewrite amap2_amap. cbn [bind]. rewrite cells_amap.
  rewrite (amap_ext _ _ (fun x => nmul (Fin (rarea_at (st_grid s) x)) (Fin (area_projection (law_cos lat0 lon0 (fst x) (snd x)))))
             (fun x => Fin (rarea_at (st_grid s) x * area_projection (law_cos lat0 lon0 (fst x) (snd x))))) by (intros; apply nmul_fin).
  rewrite (nsum_map_fin _ _ (wgt s lat0 lon0)).
  2:{ intros p _. rewrite !nmul_fin. auto. }
  rewrite <- EW. rewrite cells_amap, <- (map_map tm Fin), nunique_fin. fold ul.
  pose proof (loop_eq (st_grid s) tm (fun x => ld_plot s (law_cos lat0 lon0 (fst x) (snd x)))
    (fun x => rarea_at (st_grid s) x * area_projection (law_cos lat0 lon0 (fst x) (snd x))) cm W NW ul [] []) as L.
  fold gp in L. change (lift []) with (@nil (tkey * num)) in L. fold W. match goal with |- bind ?x _ = _ => match type of L with _ = ?r => replace x with r by (symmetry; exact L) end end. cbn [bind]. clear L.
  rewrite Vt, Vd, nsub_fin. fold (key T). fold (key (T - D)).
  assert (NEW : negb (existsb (fun t => neq (Fin (T - D)) t) (map Fin ul)) = if in_dec Req_EM_T (T - D) ul then false else true).
  { destruct (in_dec Req_EM_T (T - D) ul) as [I|I].
    - apply negb_false_iff. apply existsb_exists. exists (Fin (T - D)). split. apply in_map; auto. apply neq_fin; auto.
    - apply negb_true_iff. apply existsb_false. intros x J. apply in_map_iff in J. destruct J as [t [<- J]]. apply neq_fin_false. congruence. }
  rewrite NEW. clear NEW.
  assert (B : forall V V', (forall t, In t ul -> V t = V' t) ->
    (if (if in_dec Req_EM_T (T - D) ul then false else true) then dset tkey_eqb (lift (foldd V ul [])) (key (T - D)) (Fin 0) else lift (foldd V ul []))
    = lift (base V' ul (T - D))).
  { intros V V' H. assert (F : foldd V ul [] = foldd V' ul []).
    { generalize (@nil (tkey * R)). clearbody ul. clear - H. unfold foldd. induction ul; intros d; simpl; auto. rewrite H by (left; auto). apply IHul. intros; apply H; right; auto. }
    unfold base. rewrite F. destruct (in_dec _ _ _); auto. apply lift_dset. }
  rewrite (B _ (share s lat0 lon0 A M (fun _ _ => 1))). 2:{ intros t _. rewrite E1. reflexivity. }
  rewrite (B _ (share s lat0 lon0 A M (cell_val C))). 2:{ intros t _. rewrite E2. reflexivity. }
  rewrite !granulate_lift.
  destruct (rgran (base (share s lat0 lon0 A M (fun _ _ => 1)) ul (T - D)) (key T) (key (T - D)) f); cbn [rmap bind]; [|auto].
  destruct (rgran (base (share s lat0 lon0 A M (cell_val C)) ul (T - D)) (key T) (key (T - D)) f); cbn [rmap bind]; auto.
Qed.

(** ** the dictionaries before granulation *)
Lemma base_key_gt : forall V ul gt, exists q, rget (base V ul gt) (key gt) = Some q.
Proof.
  intros. unfold base. destruct (in_dec Req_EM_T gt ul).
  - apply rget_some. apply foldd_keys. right. apply in_map; auto.
  - rewrite rget_same; eauto.
Qed.
Lemma base_keys : forall V ul gt k, In k (map fst (base V ul gt)) <-> exists t, (In t ul \/ t = gt) /\ k = key t.
Proof.
  intros. unfold base. destruct (in_dec Req_EM_T gt ul) as [I|I].
  - rewrite foldd_keys. cbn [map In]. rewrite in_map_iff. split.
    + intros [[]|[t [<- J]]]. eauto.
    + intros [t [[J|J] ->]]; right; [|subst]; eauto.
  - rewrite rget_some. destruct (tkey_dec (key gt) k) as [<-|N].
    + rewrite rget_same. split; eauto.
    + rewrite rget_other by auto. rewrite <- rget_some, foldd_keys. cbn [map In]. rewrite in_map_iff. split.
      * intros [[]|[t [<- J]]]. eauto.
      * intros [t [[J|J] ->]]; [right; eauto|subst; congruence].
Qed.
Lemma base_NoDup : forall V ul gt, NoDup (map fst (base V ul gt)).
Proof.
  intros. unfold base. destruct (in_dec Req_EM_T gt ul). apply foldd_NoDup; constructor.
  apply dset_NoDup. apply tkey_eqb_spec. apply foldd_NoDup; constructor.
Qed.
Section Distinct.
  Context (V : R -> R) (ul : list R) (gt : R).
  Hypothesis ND : NoDup ul.
  Hypothesis DL : forall t t', (In t ul \/ t = gt) -> (In t' ul \/ t' = gt) -> key t = key t' -> t = t'.
  Lemma foldd_get : forall t, In t ul -> rget (foldd V ul []) (key t) = Some (V t).
  Proof.
    intros t I. destruct (in_split _ _ I) as [l1 [l2 E]]. rewrite E. apply foldd_last. intros t' J K.
    assert (In t' ul) by (rewrite E; apply in_or_app; right; right; auto).
    assert (t' = t) by (apply DL; auto). subst t'. rewrite E in ND. apply NoDup_remove_2 in ND. apply ND. apply in_or_app; auto.
  Qed.
  Lemma base_get : forall t, In t ul -> rget (base V ul gt) (key t) = Some (V t).
  Proof.
    intros t I. unfold base. destruct (in_dec Req_EM_T gt ul) as [J|J]. apply foldd_get; auto.
    rewrite rget_other. apply foldd_get; auto. intros K. apply DL in K; auto. subst; auto.
  Qed.
  Lemma base_get_gt : ~ In gt ul -> rget (base V ul gt) (key gt) = Some 0.
  Proof. intros N. unfold base. destruct (in_dec Req_EM_T gt ul). tauto. apply rget_same. Qed.
  Lemma base_sum : rsumd (base V ul gt) = rsum (map V ul).
  Proof.
    assert (F : rsumd (foldd V ul []) = rsum (map V ul)).
    { rewrite foldd_sum_new. unfold rsumd; simpl; lra. apply NoDup_map_inj; auto. intros; auto. }
    unfold base. destruct (in_dec Req_EM_T gt ul) as [J|J]; auto. rewrite rsumd_dset, F.
    rewrite foldd_other. simpl; lra. intros t I K. apply DL in K; auto. subst; auto.
  Qed.
End Distinct.
Lemma base_sum_le : forall V ul gt, (forall t, In t ul -> 0 <= V t) -> rsumd (base V ul gt) <= rsumd (foldd V ul []).
Proof.
  intros. unfold base. destruct (in_dec Req_EM_T gt ul). lra. rewrite rsumd_dset.
  destruct (foldd_sum_le V ul [] H) as [_ P]. intros kv [].
  destruct (rget (foldd V ul []) (key gt)) eqn:E; simpl; [|lra]. apply (dget_In _ tkey_eqb_spec) in E. apply P in E. simpl in E. lra.
Qed.
(** an overwritten entry is lost *)
Lemma foldd_sum_lost : forall V ul t t', StronglySorted Rlt ul -> (forall x, In x ul -> 0 <= V x) -> In t ul -> In t' ul -> t < t' -> key t = key t' ->
  rsumd (foldd V ul []) <= rsum (map V ul) - V t.
Proof.
  intros V ul t t' S P I I' L K. destruct (in_split _ _ I) as [l1 [l2 E]].
  assert (I2 : In t' l2).
  { rewrite E in I', S. apply in_app_or in I'. destruct I' as [I'|[I'|I']]; auto; [|lra].
    exfalso. clear - S I' L. induction l1; simpl in *; [tauto|]. inversion S; subst. destruct I' as [->|I']; auto.
    rewrite Forall_forall in H2. assert (t' < t) by (apply H2, in_or_app; right; left; auto). lra. }
  (* first later temperature with this label *)
  assert (F : exists m1 x m2, l2 = m1 ++ x :: m2 /\ key x = key t /\ forall y, In y m1 -> key y <> key t).
  { clear - I2 K. induction l2 as [|y l2]; simpl in I2; [tauto|]. destruct (tkey_dec (key y) (key t)) as [Ey|Ny].
    - exists [], y, l2. split; auto.
    - destruct I2 as [->|I2]; [congruence|]. destruct (IHl2 I2) as [m1 [x [m2 [-> [Kx N]]]]]. exists (y :: m1), x, m2.
      split; auto. split; auto. intros z [<-|J]; auto. }
  destruct F as [m1 [x [m2 [-> [Kx N]]]]]. rewrite E in *.
  set (d := foldd V (l1 ++ t :: m1) []).
  assert (EQ : foldd V (l1 ++ t :: m1 ++ x :: m2) [] = foldd V m2 (rset d (key x) (V x))).
  { replace (l1 ++ t :: m1 ++ x :: m2) with ((l1 ++ t :: m1) ++ x :: m2) by (rewrite <- app_assoc; auto).
    rewrite foldd_app. auto. }
  rewrite EQ.
  assert (Pd : rsumd d <= rsum (map V (l1 ++ t :: m1)) /\ forall kv, In kv d -> 0 <= snd kv).
  { destruct (foldd_sum_le V (l1 ++ t :: m1) []) as [A B].
    - intros y J. apply P. apply in_app_or in J. apply in_or_app. destruct J as [J|[->|J]]; auto. right; left; auto. right; right; apply in_or_app; auto.
    - intros kv [].
    - split; auto. unfold rsumd at 2 in A. simpl in A. fold d in A. lra. }
  destruct Pd as [Pd1 Pd2].
  assert (G : rget d (key x) = Some (V t)).
  { rewrite Kx. apply foldd_last. intros y J. apply N; auto. }
  assert (Px : 0 <= V x). { apply P. apply in_or_app; right; right. apply in_or_app; right; left; auto. }
  destruct (foldd_sum_le V m2 (rset d (key x) (V x))) as [A _].
  - intros y J. apply P. apply in_or_app; right; right. apply in_or_app; right; right; auto.
  - destruct (foldd_sum_le V [x] d) as [_ Q]; auto. intros y [<-|[]]; auto.
  - rewrite rsumd_dset, G in A. cbn [oval] in A.
    replace (l1 ++ t :: m1 ++ x :: m2) with ((l1 ++ t :: m1) ++ x :: m2) by (rewrite <- app_assoc; auto).
    rewrite map_app, rsum_app. cbn [map rsum fold_right]. fold (rsum (map V m2)). lra.
Qed.

(** ** shares *)
Lemma wgt_nonneg : forall s lat0 lon0 p, good_grid (st_grid s) -> ld_nonneg s -> In p (cells (grid_points (st_grid s))) -> 0 <= wgt s lat0 lon0 p.
Proof.
  intros s lat0 lon0 p G L I. unfold wgt, area_projection, ld_plot. pose proof (rarea_nonneg _ _ G I).
  rcase; try lra. pose proof (law_cos_bound lat0 lon0 (fst p) (snd p)) as B. fold (mup lat0 lon0 p) in B.
  rcase; try lra. apply Rmult_le_pos. apply L; lra. apply Rmult_le_pos; lra.
Qed.
Lemma share_absent : forall s lat0 lon0 A M c t, ~ appears (st_grid s) M t -> share s lat0 lon0 A M c t = 0.
Proof.
  intros. unfold share. rewrite grid_sum_idx. rewrite rsum_zero. unfold Rdiv; ring.
  intros [j i] I. apply idx_In in I. cbn [fst snd]. destruct (acell M j i NaN) eqn:E; auto. destruct (Req_EM_T r t); auto.
  exfalso. apply H. exists j, i. subst; auto.
Qed.

Lemma C53_lemma : forall s lat0 lon0 orbit planet phase incl T D A M C pf f,
  disk_view s lat0 lon0 orbit planet phase incl T D A M C pf -> disk s lat0 lon0 A <> 0 ->
  labels_distinct s M T D -> (appears (st_grid s) M T \/ D = 0) ->
  exists tot0 cov0 tot cov,
    calc_coverage s lat0 lon0 (Fin 0) orbit planet phase incl = Ok (tot0, cov0, pf)
    /\ calc_coverage s lat0 lon0 (Fin f) orbit planet phase incl = Ok (tot, cov, pf)
    /\ forall d0 d, (d0, d) = (tot0, tot) \/ (d0, d) = (cov0, cov) ->
         (* the same labels, those of the temperatures on the map and of granulation *)
         NoDup (map fst d) /\ (forall k, In k (map fst d) <-> exists t, listed s M T D t /\ k = fmt2 (Fin t))
         /\ (forall k, In k (map fst d0) <-> In k (map fst d))
         /\ (forall k, k <> fmt2 (Fin T) -> k <> fmt2 (Fin (T - D)) -> dget tkey_eqb d k = dget tkey_eqb d0 k)
         /\ (D <> 0 -> exists p q, dget tkey_eqb d0 (fmt2 (Fin T)) = Some (Fin p) /\ dget tkey_eqb d0 (fmt2 (Fin (T - D))) = Some (Fin q)
               /\ dget tkey_eqb d (fmt2 (Fin T)) = Some (Fin ((1 - f) * p))
               /\ dget tkey_eqb d (fmt2 (Fin (T - D))) = Some (Fin (q + f * p)))
         /\ (D = 0 -> forall k, dget tkey_eqb d k = dget tkey_eqb d0 k).
Proof.
  intros s lat0 lon0 orbit planet phase incl T D A M C pf f V NW DL PH.
  destruct (calc_coverage_eq _ _ _ _ _ _ _ _ _ _ _ _ _ 0 V NW) as [ul [SS [Ap [_ E0]]]].
  destruct (calc_coverage_eq _ _ _ _ _ _ _ _ _ _ _ _ _ f V NW) as [ul' [SS' [Ap' [_ Ef]]]].
  assert (ul' = ul).
  { clear - SS SS' Ap Ap'. assert (H : forall t, In t ul' <-> In t ul) by (intros; rewrite <- Ap, Ap'; tauto). clear Ap Ap'.
    revert ul SS H. induction ul' as [|a l']; intros ul SS H.
    - destruct ul; auto. exfalso. apply (proj2 (H r)). left; auto.
    - inversion SS'; subst. destruct ul as [|b l]. exfalso. apply (proj1 (H a)). left; auto.
      inversion SS; subst. rewrite Forall_forall in *.
      assert (a = b).
      { destruct (proj1 (H a)) as [|I]; [left; auto|auto|]. destruct (proj2 (H b)) as [|J]; [left; auto|auto|].
        apply H5 in I. apply H3 in J. lra. }
      subst. f_equal. apply IHl'; auto. intros t. split; intros I.
      + destruct (proj1 (H t)); [right; auto|subst; apply H3 in I; lra|auto].
      + destruct (proj2 (H t)); [right; auto|subst; apply H5 in I; lra|auto]. }
  subst ul'.
  assert (ND := sorted_NoDup _ SS).
  assert (DL' : forall t t', (In t ul \/ t = T - D) -> (In t' ul \/ t' = T - D) -> key t = key t' -> t = t').
  { intros t t' H H' K. apply DL; auto; unfold listed; rewrite Ap; auto. }
  assert (K : forall W, exists p, rget (base W ul (T - D)) (key T) = Some p).
  { intros W. destruct PH as [PH| ->]. exists (W T). apply base_get; auto. apply Ap; auto.
    replace (T - 0) with T by ring. apply base_key_gt. }
  assert (J : forall W, exists d0 d, rgran (base W ul (T - D)) (key T) (key (T - D)) 0 = Ok d0
      /\ rgran (base W ul (T - D)) (key T) (key (T - D)) f = Ok d
      /\ (NoDup (map fst (lift d)) /\ (forall k, In k (map fst (lift d)) <-> exists t, listed s M T D t /\ k = fmt2 (Fin t))
         /\ (forall k, In k (map fst (lift d0)) <-> In k (map fst (lift d)))
         /\ (forall k, k <> fmt2 (Fin T) -> k <> fmt2 (Fin (T - D)) -> dget tkey_eqb (lift d) k = dget tkey_eqb (lift d0) k)
         /\ (D <> 0 -> exists p q, dget tkey_eqb (lift d0) (fmt2 (Fin T)) = Some (Fin p) /\ dget tkey_eqb (lift d0) (fmt2 (Fin (T - D))) = Some (Fin q)
               /\ dget tkey_eqb (lift d) (fmt2 (Fin T)) = Some (Fin ((1 - f) * p))
               /\ dget tkey_eqb (lift d) (fmt2 (Fin (T - D))) = Some (Fin (q + f * p)))
         /\ (D = 0 -> forall k, dget tkey_eqb (lift d) k = dget tkey_eqb (lift d0) k))).
  { intros W. destruct (K W) as [p P]. destruct (base_key_gt W ul (T - D)) as [q Q].
    destruct (rgran_ok _ (key T) (key (T - D)) 0 p P (ex_intro _ q Q)) as [d0 [R0' [A1 [A2 [A3 [A4 [A5 A6]]]]]]].
    destruct (rgran_ok _ (key T) (key (T - D)) f p P (ex_intro _ q Q)) as [d [Rf [B1 [B2 [B3 [B4 [B5 B6]]]]]]].
    exists d0, d. split; auto. split; auto. rewrite !lift_keys.
    split. apply B6, base_NoDup. split.
    { intros k. rewrite B5, base_keys. unfold listed. split; intros [t [H ->]]; exists t; split; auto; destruct H as [H|H]; auto; left; apply Ap; auto. }
    split. { intros k. rewrite A5, B5. tauto. }
    split. { intros k k1 k2. rewrite !lift_dget. rewrite A1, B1; auto. }
    assert (NE : D <> 0 -> key T <> key (T - D)).
    { intros N E. destruct PH as [PH|PH]; auto. apply DL' in E; [lra|left; apply Ap; auto|auto]. }
    split.
    - intros N. specialize (NE N). exists p, q. rewrite !lift_dget. fold (key T). fold (key (T - D)).
      rewrite A2, (A3 NE q Q), B2, (B3 NE q Q) by auto. cbn [option_map].
      split; [f_equal; f_equal; ring|]. split; [f_equal; f_equal; ring|]. split; f_equal; f_equal; ring.
    - intros Z k. rewrite !lift_dget. assert (EQ : key T = key (T - D)) by (rewrite Z; f_equal; ring).
      destruct (tkey_dec k (key T)) as [->|NK]. rewrite A4, B4; auto. rewrite A1, B1; congruence. }
  destruct (J (share s lat0 lon0 A M (fun _ _ => 1))) as [d0 [d [G0 [Gf GG]]]].
  destruct (J (share s lat0 lon0 A M (cell_val C))) as [c0 [c [H0 [Hf HH]]]].
  exists (lift d0), (lift c0), (lift d), (lift c). rewrite E0, Ef, G0, Gf, H0, Hf. cbn [bind]. split; auto. split; auto.
  intros x y [E|E]; injection E as -> ->; auto.
Qed.
Lemma C51_lemma : forall s lat0 lon0 orbit planet phase incl T D A M C pf,
  disk_view s lat0 lon0 orbit planet phase incl T D A M C pf -> disk s lat0 lon0 A <> 0 ->
  labels_distinct s M T D -> (appears (st_grid s) M T \/ D = 0) ->
  exists tot cov, calc_coverage s lat0 lon0 (Fin 0) orbit planet phase incl = Ok (tot, cov, pf)
    /\ (forall t, listed s M T D t ->
          dget tkey_eqb tot (fmt2 (Fin t)) = Some (Fin (share s lat0 lon0 A M (fun _ _ => 1) t))
          /\ dget tkey_eqb cov (fmt2 (Fin t)) = Some (Fin (share s lat0 lon0 A M (cell_val C) t)))
    /\ (ld_nonneg s ->
         forall k, In k (map fst tot) -> exists c v, dget tkey_eqb cov k = Some (Fin c) /\ dget tkey_eqb tot k = Some (Fin v) /\ 0 <= c <= v).
Proof.
  intros s lat0 lon0 orbit planet phase incl T D A M C pf V NW DL PH.
  destruct (calc_coverage_eq _ _ _ _ _ _ _ _ _ _ _ _ _ 0 V NW) as [ul [SS [Ap [_ E0]]]].
  assert (ND := sorted_NoDup _ SS).
  assert (DL' : forall t t', (In t ul \/ t = T - D) -> (In t' ul \/ t' = T - D) -> key t = key t' -> t = t').
  { intros t t' H H' K. apply DL; auto; unfold listed; rewrite Ap; auto. }
  assert (J : forall W, (forall t, ~ In t ul -> W t = 0) -> exists d, rgran (base W ul (T - D)) (key T) (key (T - D)) 0 = Ok d
     /\ forall t, (In t ul \/ t = T - D) -> rget d (key t) = Some (W t)).
  { intros W W0.
    assert (BG : forall t, (In t ul \/ t = T - D) -> rget (base W ul (T - D)) (key t) = Some (W t)).
    { intros t H. destruct (in_dec Req_EM_T t ul) as [I|I]. apply base_get; auto. destruct H as [H|H]; [tauto|]. subst t. rewrite base_get_gt by auto. rewrite W0; auto. }
    assert (P : rget (base W ul (T - D)) (key T) = Some (W T)). { apply BG. destruct PH as [PH| ->]. left; apply Ap; auto. right; ring. }
    destruct (base_key_gt W ul (T - D)) as [q Q].
    destruct (rgran_ok _ (key T) (key (T - D)) 0 (W T) P (ex_intro _ q Q)) as [d [Rf [B1 [B2 [B3 [B4 [B5 B6]]]]]]].
    exists d. split; auto. intros t H. destruct (tkey_dec (key T) (key (T - D))) as [E|NE].
    - destruct (tkey_dec (key t) (key T)) as [K|K].
      + rewrite K, B4 by auto. rewrite <- P, <- K. auto.
      + rewrite B1 by congruence. auto.
    - destruct (tkey_dec (key t) (key T)) as [K|K].
      + rewrite K, B2 by auto. rewrite <- (BG t H), K, P. f_equal; ring.
      + destruct (tkey_dec (key t) (key (T - D))) as [K2|K2].
        * rewrite K2, (B3 NE q Q). rewrite <- (BG t H), K2, Q. f_equal; ring.
        * rewrite B1 by auto. auto. }
  assert (S0 : forall c t, ~ In t ul -> share s lat0 lon0 A M c t = 0). { intros. apply share_absent. rewrite Ap; auto. }
  destruct (J (share s lat0 lon0 A M (fun _ _ => 1))) as [d [G0 Gf]]; auto.
  destruct (J (share s lat0 lon0 A M (cell_val C))) as [c [H0 Hf]]; auto.
  exists (lift d), (lift c). rewrite E0, G0, H0. cbn [bind]. split; auto.
  assert (Gt : forall t, listed s M T D t ->
          dget tkey_eqb (lift d) (fmt2 (Fin t)) = Some (Fin (share s lat0 lon0 A M (fun _ _ => 1) t))
          /\ dget tkey_eqb (lift c) (fmt2 (Fin t)) = Some (Fin (share s lat0 lon0 A M (cell_val C) t))).
  { intros t H. rewrite !lift_dget. fold (key t). assert (In t ul \/ t = T - D) by (destruct H as [H|H]; auto; left; apply Ap; auto).
    rewrite Gf, Hf by auto. auto. }
  split; auto.
  intros LD k I.
  assert (KT : exists t, listed s M T D t /\ k = key t).
  { rewrite lift_keys in I. assert (P : exists p, rget (base (share s lat0 lon0 A M (fun _ _ => 1)) ul (T - D)) (key T) = Some p).
    { destruct PH as [PH| ->]. eexists. apply base_get; auto. apply Ap; auto. replace (T - 0) with T by ring. apply base_key_gt. }
    destruct P as [p P]. destruct (rgran_ok _ (key T) (key (T - D)) 0 p P (base_key_gt _ _ _)) as [d' [R' [_ [_ [_ [_ [B5 _]]]]]]].
    assert (d' = d) by congruence. subst d'. apply B5, base_keys in I. destruct I as [t [H ->]]. exists t. split; auto.
    destruct H as [H|H]; [left; apply Ap; auto|right; auto]. }
  destruct KT as [t [Lt ->]]. destruct (Gt t Lt) as [X Y]. unfold key. exists (share s lat0 lon0 A M (cell_val C) t), (share s lat0 lon0 A M (fun _ _ => 1) t).
  split; auto. split; auto.
  destruct (view_form _ _ _ _ _ _ _ _ _ _ _ _ _ V) as [tm [cm [EA [EM [EC [Hc [EW [E1 [E2 [Eap EV]]]]]]]]]].
  rewrite E1, E2. unfold bval.
  assert (WN : forall p, In p (cells (grid_points (st_grid s))) -> 0 <= wgt s lat0 lon0 p) by (intros; apply wgt_nonneg; auto; apply V).
  assert (0 < disk s lat0 lon0 A).
  { assert (0 <= disk s lat0 lon0 A). rewrite EW. apply rsum_map_nonneg; auto. lra. }
  split.
  - apply Rmult_le_pos. 2:{ left; apply Rinv_0_lt_compat; auto. } apply rsum_map_nonneg. intros p Ip. destruct (Req_EM_T _ _); [|lra].
    apply Rmult_le_pos; [auto|apply Hc; auto].
  - apply Rmult_le_compat_r. left; apply Rinv_0_lt_compat; auto. apply rsum_map_le. intros p Ip. destruct (Req_EM_T _ _); [|lra].
    pose proof (WN p Ip). pose proof (Hc p Ip). nra.
Qed.
Lemma share_nonneg : forall s lat0 lon0 orbit planet phase incl T D A M C pf t,
  disk_view s lat0 lon0 orbit planet phase incl T D A M C pf -> ld_nonneg s -> 0 <= share s lat0 lon0 A M (fun _ _ => 1) t.
Proof.
  intros. destruct (view_form _ _ _ _ _ _ _ _ _ _ _ _ _ H) as [tm [cm [EA [EM [EC [Hc [EW [E1 [E2 [Eap EV]]]]]]]]]].
  rewrite E1. unfold bval. 
  assert (WN : forall p, In p (cells (grid_points (st_grid s))) -> 0 <= wgt s lat0 lon0 p) by (intros; apply wgt_nonneg; auto; apply H).
  assert (0 <= disk s lat0 lon0 A). rewrite EW. apply rsum_map_nonneg; auto.
  assert (0 <= rsum (map (fun p => if Req_EM_T (tm p) t then wgt s lat0 lon0 p else 0) (cells (grid_points (st_grid s))))).
  { apply rsum_map_nonneg. intros. destruct (Req_EM_T _ _); auto. lra. }
  destruct (Req_dec (disk s lat0 lon0 A) 0) as [Z|Z].
  - rewrite Z. unfold Rdiv. rewrite Rinv_0. lra.
  - apply Rmult_le_pos; auto. left; apply Rinv_0_lt_compat; lra.
Qed.
Lemma C50_lemma : forall s lat0 lon0 orbit planet phase incl T D A M C pf f,
  disk_view s lat0 lon0 orbit planet phase incl T D A M C pf -> disk s lat0 lon0 A <> 0 ->
  labels_distinct s M T D -> (appears (st_grid s) M T \/ D = 0) ->
  exists tot cov, calc_coverage s lat0 lon0 (Fin f) orbit planet phase incl = Ok (tot, cov, pf)
    /\ (forall k v, In (k, v) tot -> is_fin v) /\ dict_sum tot = 1
    /\ (ld_nonneg s -> 0 <= f <= 1 -> forall k v, In (k, v) tot -> num_in 0 1 v).
Proof.
  intros s lat0 lon0 orbit planet phase incl T D A M C pf f V NW DL PH.
  destruct (C53_lemma _ _ _ _ _ _ _ _ _ _ _ _ _ f V NW DL PH) as [tot0 [cov0 [tot [cov [E0 [Ef H]]]]]].
  destruct (C51_lemma _ _ _ _ _ _ _ _ _ _ _ _ _ V NW DL PH) as [t0 [c0 [E0' [H1 _]]]].
  assert (t0 = tot0) by congruence. subst t0.
  destruct (H tot0 tot (or_introl eq_refl)) as [N1 [N2 [N3 [N4 [N5 N6]]]]].
  destruct (calc_coverage_eq _ _ _ _ _ _ _ _ _ _ _ _ _ f V NW) as [ul [SS [Ap [SU EE]]]].
  exists tot, cov. split; auto.
  assert (LF : exists d, tot = lift d /\ rsumd d = 1).
  { rewrite Ef in EE. destruct (rgran (base (share s lat0 lon0 A M (fun _ _ => 1)) ul (T - D)) (key T) (key (T - D)) f) as [d|] eqn:X; cbn [bind] in EE; [|discriminate].
    destruct (rgran (base (share s lat0 lon0 A M (cell_val C)) ul (T - D)) (key T) (key (T - D)) f); cbn [bind] in EE; [|discriminate].
    exists d. split. congruence. rewrite (rgran_sum _ _ _ _ _ X). rewrite base_sum; auto. apply sorted_NoDup; auto.
    intros t t' I I' K. apply DL; auto; unfold listed; rewrite Ap; auto. }
  destruct LF as [d [-> S1]].
  split. { intros k v I. unfold lift in I. apply in_map_iff in I. destruct I as [[k' v'] [E I]]. injection E as <- <-. eexists; reflexivity. }
  split. { rewrite lift_sum; auto. }
  intros LD F01.
  assert (NN : forall kv, In kv d -> 0 <= snd kv).
  { intros [k v] I. cbn [snd]. assert (I' : In (k, Fin v) (lift d)) by (unfold lift; apply (in_map (fun kv => (fst kv, Fin (snd kv))) d (k, v)); auto).
    assert (G := In_dget _ tkey_eqb_spec _ _ _ N1 I').
    assert (Ik : In k (map fst (lift d))) by (apply (in_map fst) in I'; auto).
    apply N2 in Ik. destruct Ik as [t [Lt ->]].
    pose proof (share_nonneg s lat0 lon0 _ _ _ _ _ _ _ _ _ _ t V LD) as Sn.
    destruct (Req_dec D 0) as [Z|Z].
    - rewrite N6 in G by auto. destruct (H1 t Lt) as [X _]. rewrite X in G. injection G as <-. auto.
    - destruct (N5 Z) as [p [q [P [Q [P' Q']]]]].
      assert (LT : listed s M T D T) by (destruct PH as [PH|PH]; [left; auto|lra]).
      assert (LG : listed s M T D (T - D)) by (right; auto).
      destruct (H1 T LT) as [X _]. rewrite X in P. assert (p = share s lat0 lon0 A M (fun _ _ => 1) T) by congruence.
      destruct (H1 _ LG) as [X' _]. rewrite X' in Q. assert (q = share s lat0 lon0 A M (fun _ _ => 1) (T - D)) by congruence.
      pose proof (share_nonneg s lat0 lon0 _ _ _ _ _ _ _ _ _ _ T V LD) as SnT.
      pose proof (share_nonneg s lat0 lon0 _ _ _ _ _ _ _ _ _ _ (T - D) V LD) as SnG.
      destruct (tkey_dec (key t) (key T)) as [K|K].
      + unfold key in K. rewrite K, P' in G. injection G as <-. subst p. apply Rmult_le_pos; lra.
      + destruct (tkey_dec (key t) (key (T - D))) as [K2|K2].
        * unfold key in K2. rewrite K2, Q' in G. injection G as <-. subst p q. apply Rplus_le_le_0_compat; auto. apply Rmult_le_pos; lra.
        * rewrite N4 in G by auto. destruct (H1 t Lt) as [Y _]. rewrite Y in G. injection G as <-. auto. }
  intros k v I. unfold lift in I. apply in_map_iff in I. destruct I as [[k' v'] [E I]]. injection E as <- <-. exists v'. split; auto.
  split. apply (NN _ I).
  rewrite <- S1. unfold rsumd. clear - I NN. cbn [snd].
  induction d as [|[k1 v1] d]; simpl in I; [tauto|]. cbn [map rsum fold_right snd]. fold (rsum (map snd d)).
  assert (0 <= v1) by (apply (NN (k1, v1)); left; auto).
  assert (0 <= rsum (map snd d)) by (apply rsum_map_nonneg; intros; apply NN; right; auto).
  destruct I as [E|I]. injection E as -> ->; lra. assert (v' <= rsum (map snd d)). { apply IHd; auto. intros; apply NN; right; auto. } lra.
Qed.
Lemma C52_keyerror_lemma : forall s lat0 lon0 orbit planet phase incl T D A M C pf f,
  disk_view s lat0 lon0 orbit planet phase incl T D A M C pf -> disk s lat0 lon0 A <> 0 ->
  ((exists t, listed s M T D t /\ fmt2 (Fin t) = fmt2 (Fin T)) ->
     exists tot cov, calc_coverage s lat0 lon0 (Fin f) orbit planet phase incl = Ok (tot, cov, pf))
  /\ ((forall t, listed s M T D t -> fmt2 (Fin t) <> fmt2 (Fin T)) ->
     calc_coverage s lat0 lon0 (Fin f) orbit planet phase incl = Raise KeyError).
Proof.
  intros s lat0 lon0 orbit planet phase incl T D A M C pf f V NW.
  destruct (calc_coverage_eq _ _ _ _ _ _ _ _ _ _ _ _ _ f V NW) as [ul [SS [Ap [SU EE]]]]. rewrite EE. split.
  - intros [t [L K]].
    assert (P : forall W, exists p, rget (base W ul (T - D)) (key T) = Some p).
    { intros. apply rget_some, base_keys. exists t. split; auto. destruct L as [L|L]; auto. left; apply Ap; auto. }
    assert (Q : forall W, exists d, rgran (base W ul (T - D)) (key T) (key (T - D)) f = Ok d).
    { intros W. destruct (P W) as [p X]. destruct (rgran_ok _ (key T) (key (T - D)) f p X (base_key_gt _ _ _)) as [d [Y _]]. eauto. }
    destruct (Q (share s lat0 lon0 A M (fun _ _ => 1))) as [d ->]. destruct (Q (share s lat0 lon0 A M (cell_val C))) as [d' ->].
    cbn [bind]. eauto.
  - intros N. unfold rgran at 1, dindex. destruct (rget (base (share s lat0 lon0 A M (fun _ _ => 1)) ul (T - D)) (key T)) as [v|] eqn:X; auto.
    exfalso. assert (I : In (key T) (map fst (base (share s lat0 lon0 A M (fun _ _ => 1)) ul (T - D)))) by (apply rget_some; eauto).
    apply base_keys in I. destruct I as [t [L K]]. apply (N t); auto. destruct L as [L|L]; [left; apply Ap; auto|right; auto].
Qed.
Lemma C52_collision_lemma : forall s lat0 lon0 orbit planet phase incl T D A M C pf f t t' tot cov pf',
  disk_view s lat0 lon0 orbit planet phase incl T D A M C pf -> disk s lat0 lon0 A <> 0 -> ld_nonneg s ->
  appears (st_grid s) M t -> appears (st_grid s) M t' -> t < t' -> fmt2 (Fin t) = fmt2 (Fin t') ->
  calc_coverage s lat0 lon0 (Fin f) orbit planet phase incl = Ok (tot, cov, pf') ->
  dict_sum tot <= 1 - share s lat0 lon0 A M (fun _ _ => 1) t
  /\ ((forall x, appears (st_grid s) M x -> fmt2 (Fin x) = fmt2 (Fin t') -> x <= t') ->
      fmt2 (Fin t') <> fmt2 (Fin T) -> fmt2 (Fin t') <> fmt2 (Fin (T - D)) ->
      dget tkey_eqb tot (fmt2 (Fin t')) = Some (Fin (share s lat0 lon0 A M (fun _ _ => 1) t'))).
Proof.
  intros s lat0 lon0 orbit planet phase incl T D A M C pf f t t' tot cov pf' V NW LD I I' L K E.
  destruct (calc_coverage_eq _ _ _ _ _ _ _ _ _ _ _ _ _ f V NW) as [ul [SS [Ap [SU EE]]]]. rewrite EE in E.
  apply bind_ok in E. destruct E as [d [X E]]. apply bind_ok in E. destruct E as [d' [_ E]]. injection E as <- <- <-.
  apply Ap in I, I'. split.
  - rewrite lift_sum, (rgran_sum _ _ _ _ _ X).
    assert (P : forall x, In x ul -> 0 <= share s lat0 lon0 A M (fun _ _ => 1) x) by (intros; eapply share_nonneg; eauto).
    pose proof (base_sum_le _ ul (T - D) P). pose proof (foldd_sum_lost _ ul t t' SS P I I' L K). lra.
  - intros MX N1 N2. rewrite lift_dget. fold (key t'). fold (key t') in N1, N2. fold (key T) in N1. fold (key (T - D)) in N2.
    assert (B : rget (base (share s lat0 lon0 A M (fun _ _ => 1)) ul (T - D)) (key t') = Some (share s lat0 lon0 A M (fun _ _ => 1) t')).
    { assert (F : rget (foldd (share s lat0 lon0 A M (fun _ _ => 1)) ul []) (key t') = Some (share s lat0 lon0 A M (fun _ _ => 1) t')).
      { destruct (in_split _ _ I') as [l1 [l2 Eu]]. rewrite Eu. apply foldd_last. intros x J Kx.
        assert (Ix : In x ul) by (rewrite Eu; apply in_or_app; right; right; auto).
        assert (x <= t') by (apply MX; auto; apply Ap; auto).
        rewrite Eu in SS. clear - SS J H. induction l1; simpl in *; inversion SS as [|? ? S1 F1]; subst; auto. rewrite Forall_forall in F1. apply F1 in J. lra. }
      unfold base. destruct (in_dec _ _ _); auto. rewrite rget_other; auto. }
    unfold rgran, dindex in X. destruct (rget (base (share s lat0 lon0 A M (fun _ _ => 1)) ul (T - D)) (key T)) as [p|] eqn:P; [|discriminate].
    destruct (rgran_ok _ (key T) (key (T - D)) f p P (base_key_gt _ _ _)) as [d2 [R2 [A1 _]]].
    unfold rgran, dindex in R2. rewrite P in R2. cbn [bind] in X, R2. assert (d2 = d) by congruence. subst d2. rewrite A1; auto. rewrite B; auto.
Qed.

(** ** The same statements for any labelling by two decimals *)
Lemma near_even_unique : forall x a b, Rabs (IZR a - x) <= 1/2 -> (Rabs (IZR a - x) = 1/2 -> Z.even a = true) ->
  Rabs (IZR b - x) <= 1/2 -> (Rabs (IZR b - x) = 1/2 -> Z.even b = true) -> a = b.
Proof.
  intros x a b A1 A2 B1 B2. destruct (Z.eq_dec a b) as [|N]; auto. exfalso.
  assert (K : forall a b, (a < b)%Z -> Rabs (IZR a - x) <= 1/2 -> (Rabs (IZR a - x) = 1/2 -> Z.even a = true) ->
     Rabs (IZR b - x) <= 1/2 -> (Rabs (IZR b - x) = 1/2 -> Z.even b = true) -> False).
  { clear. intros a b L A1 A2 B1 B2. apply Rabs_le_between in A1. apply Rabs_le_between in B1.
    assert (L1 : IZR a + 1 <= IZR b) by (rewrite <- plus_IZR; apply IZR_le; lia).
    assert (E : IZR b = IZR (a + 1)) by (rewrite plus_IZR; lra). apply eq_IZR in E. subst b. rewrite plus_IZR in *.
    rewrite Rabs_left1 in A2 by lra. rewrite Rabs_right in B2 by lra.
    specialize (A2 ltac:(lra)). specialize (B2 ltac:(lra)). rewrite Z.add_1_r, Z.even_succ, <- Z.negb_even, A2 in B2. discriminate. }
  destruct (Z.lt_ge_cases a b). eapply (K a b); eauto. apply (K b a); auto. lia.
Qed.
Lemma fmt2_two_decimals : two_decimals (fun t => fmt2 (Fin t)).
Proof.
  intros t. exists (rhe (t * 100)). split. reflexivity. replace (100 * t) with (t * 100) by ring. apply rhe_spec.
Qed.
Lemma two_decimals_eq : forall label, two_decimals label -> label = fun t => fmt2 (Fin t).
Proof.
  intros label H. apply functional_extensionality. intros t. destruct (H t) as [c [E [A B]]].
  destruct (fmt2_two_decimals t) as [c' [E' [A' B']]]. rewrite E, E'. f_equal. eapply near_even_unique; eauto.
Qed.
Lemma C50_label_lemma : forall label s lat0 lon0 orbit planet phase incl T D A M C pf f,
  two_decimals label ->
  disk_view s lat0 lon0 orbit planet phase incl T D A M C pf -> disk s lat0 lon0 A <> 0 ->
  distinct_labels label s M T D -> (appears (st_grid s) M T \/ D = 0) ->
  exists tot cov, calc_coverage s lat0 lon0 (Fin f) orbit planet phase incl = Ok (tot, cov, pf)
    /\ (forall k v, In (k, v) tot -> is_fin v) /\ dict_sum tot = 1
    /\ (ld_nonneg s -> 0 <= f <= 1 -> forall k v, In (k, v) tot -> num_in 0 1 v).
Proof. intros label; intros. rewrite (two_decimals_eq label) in * by auto. eapply C50_lemma; eauto. Qed.
Lemma C51_label_lemma : forall label s lat0 lon0 orbit planet phase incl T D A M C pf,
  two_decimals label ->
  disk_view s lat0 lon0 orbit planet phase incl T D A M C pf -> disk s lat0 lon0 A <> 0 ->
  distinct_labels label s M T D -> (appears (st_grid s) M T \/ D = 0) ->
  exists tot cov, calc_coverage s lat0 lon0 (Fin 0) orbit planet phase incl = Ok (tot, cov, pf)
    /\ (forall t, listed s M T D t ->
          dget tkey_eqb tot (label t) = Some (Fin (share s lat0 lon0 A M (fun _ _ => 1) t))
          /\ dget tkey_eqb cov (label t) = Some (Fin (share s lat0 lon0 A M (cell_val C) t)))
    /\ (ld_nonneg s ->
         forall k, In k (map fst tot) -> exists c v, dget tkey_eqb cov k = Some (Fin c) /\ dget tkey_eqb tot k = Some (Fin v) /\ 0 <= c <= v).
Proof. intros label; intros. rewrite (two_decimals_eq label) in * by auto. eapply C51_lemma; eauto. Qed.
Lemma C53_label_lemma : forall label s lat0 lon0 orbit planet phase incl T D A M C pf f,
  two_decimals label ->
  disk_view s lat0 lon0 orbit planet phase incl T D A M C pf -> disk s lat0 lon0 A <> 0 ->
  distinct_labels label s M T D -> (appears (st_grid s) M T \/ D = 0) ->
  exists tot0 cov0 tot cov,
    calc_coverage s lat0 lon0 (Fin 0) orbit planet phase incl = Ok (tot0, cov0, pf)
    /\ calc_coverage s lat0 lon0 (Fin f) orbit planet phase incl = Ok (tot, cov, pf)
    /\ forall d0 d, (d0, d) = (tot0, tot) \/ (d0, d) = (cov0, cov) ->
         (* the same labels, those of the temperatures on the map and of granulation *)
         NoDup (map fst d) /\ (forall k, In k (map fst d) <-> exists t, listed s M T D t /\ k = label t)
         /\ (forall k, In k (map fst d0) <-> In k (map fst d))
         /\ (forall k, k <> label T -> k <> label (T - D) -> dget tkey_eqb d k = dget tkey_eqb d0 k)
         /\ (D <> 0 -> exists p q, dget tkey_eqb d0 (label T) = Some (Fin p) /\ dget tkey_eqb d0 (label (T - D)) = Some (Fin q)
               /\ dget tkey_eqb d (label T) = Some (Fin ((1 - f) * p))
               /\ dget tkey_eqb d (label (T - D)) = Some (Fin (q + f * p)))
         /\ (D = 0 -> forall k, dget tkey_eqb d k = dget tkey_eqb d0 k).
Proof. intros label; intros. rewrite (two_decimals_eq label) in * by auto. eapply C53_lemma; eauto. Qed.
Lemma C52_keyerror_label_lemma : forall label s lat0 lon0 orbit planet phase incl T D A M C pf f,
  two_decimals label ->
  disk_view s lat0 lon0 orbit planet phase incl T D A M C pf -> disk s lat0 lon0 A <> 0 ->
  ((exists t, listed s M T D t /\ label t = label T) ->
     exists tot cov, calc_coverage s lat0 lon0 (Fin f) orbit planet phase incl = Ok (tot, cov, pf))
  /\ ((forall t, listed s M T D t -> label t <> label T) ->
     calc_coverage s lat0 lon0 (Fin f) orbit planet phase incl = Raise KeyError).
Proof. intros label; intros. rewrite (two_decimals_eq label) in * by auto. eapply C52_keyerror_lemma; eauto. Qed.
Lemma C52_collision_label_lemma : forall label s lat0 lon0 orbit planet phase incl T D A M C pf f t t' tot cov pf',
  two_decimals label ->
  disk_view s lat0 lon0 orbit planet phase incl T D A M C pf -> disk s lat0 lon0 A <> 0 -> ld_nonneg s ->
  appears (st_grid s) M t -> appears (st_grid s) M t' -> t < t' -> label t = label t' ->
  calc_coverage s lat0 lon0 (Fin f) orbit planet phase incl = Ok (tot, cov, pf') ->
  dict_sum tot <= 1 - share s lat0 lon0 A M (fun _ _ => 1) t
  /\ ((forall x, appears (st_grid s) M x -> label x = label t' -> x <= t') ->
      label t' <> label T -> label t' <> label (T - D) ->
      dget tkey_eqb tot (label t') = Some (Fin (share s lat0 lon0 A M (fun _ _ => 1) t'))).
Proof. intros label; intros. rewrite (two_decimals_eq label) in * by auto. eapply C52_collision_lemma; eauto. Qed.
