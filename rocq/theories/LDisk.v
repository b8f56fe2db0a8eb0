(** Pixels as index pairs; per-pixel form of the maps of a unified star *)
From Coq Require Import Reals ZArith Bool List Lra Lia Permutation.
From Verif Require Import Num Py MConfig MHelpers MGrid MSpots MFaculae MFlares MGranules MStar
  Spec SpecStar SpecDisk LBase LGrid LHelpers LSpotMap.
Import ListNotations.
Open Scope R_scope.

(** ** index pairs of the pixels *)
Definition idx (g : grid) : list (nat * nat) :=
  concat (map (fun j => map (pair j) (seq 0 (g_cols g))) (seq 0 (g_rows g))).
Lemma row_length : forall g j, (j < g_rows g)%nat -> length (nth j (arows (grid_points g)) []) = g_cols g.
Proof. intros. destruct (grid_points_shape g) as [_ [B C]]. apply C. apply nth_In. lia. Qed.
Lemma rows_length : forall g, length (arows (grid_points g)) = g_rows g.
Proof. intros. apply (grid_points_shape g). Qed.
Lemma pixel_iff : forall g j i, pixel g j i <-> (j < g_rows g)%nat /\ (i < g_cols g)%nat.
Proof.
  intros. unfold pixel. rewrite rows_length. split; intros [A B].
  - rewrite row_length in B; auto.
  - rewrite row_length; auto.
Qed.
Lemma idx_In : forall g j i, In (j, i) (idx g) <-> pixel g j i.
Proof.
  intros. rewrite pixel_iff. unfold idx. rewrite in_concat. split.
  - intros [x [A B]]. apply in_map_iff in A. destruct A as [j' [<- A]]. apply in_map_iff in B.
    destruct B as [i' [E B]]. injection E as -> ->. apply in_seq in A, B. lia.
  - intros [A B]. exists (map (pair j) (seq 0 (g_cols g))). split; apply in_map_iff.
    + exists j. split; auto. apply in_seq; lia.
    + exists i. split; auto. apply in_seq; lia.
Qed.
Lemma NoDup_app_intro : forall A (l l' : list A), NoDup l -> NoDup l' -> (forall x, In x l -> ~ In x l') -> NoDup (l ++ l').
Proof.
  induction l; simpl; intros; auto. inversion H; subst. constructor.
  - intros I. apply in_app_or in I. destruct I; auto. apply (H1 a); auto.
  - apply IHl; auto.
Qed.
Lemma NoDup_map_inj : forall A B (f : A -> B) l, (forall x y, In x l -> In y l -> f x = f y -> x = y) -> NoDup l -> NoDup (map f l).
Proof.
  induction l; simpl; intros. constructor. inversion H0; subst. constructor.
  - intros I. apply in_map_iff in I. destruct I as [y [E I]]. assert (y = a) by (apply H; auto). subst; auto.
  - apply IHl; auto.
Qed.
Lemma idx_NoDup : forall g, NoDup (idx g).
Proof.
  intros. unfold idx. generalize (seq 0 (g_cols g)) (seq_NoDup (g_cols g) 0). intros c Hc. generalize 0%nat as k.
  induction (g_rows g) as [|r]; intros k; cbn [seq map concat]. constructor.
  apply NoDup_app_intro; auto.
  - apply NoDup_map_inj. intros; congruence. auto.
  - intros [j i] A B. apply in_map_iff in A. destruct A as [i' [E _]]. injection E as <- <-.
    apply in_concat in B. destruct B as [x [B C]]. apply in_map_iff in B. destruct B as [j' [<- B]].
    apply in_map_iff in C. destruct C as [? [E _]]. injection E as ? ?. apply in_seq in B. lia.
Qed.
Definition pt (g : grid) (ji : nat * nat) : R * R := acell (grid_points g) (fst ji) (snd ji) (0, 0).
Lemma map_nth_seq_k : forall A B (f : A -> B) l d, map f l = map (fun i => f (nth i l d)) (seq 0 (length l)).
Proof. intros. rewrite <- (map_nth_seq A l d) at 1. rewrite map_map. auto. Qed.
Lemma cells_idx : forall g, cells (grid_points g) = map (pt g) (idx g).
Proof.
  intros. unfold idx, cells. rewrite concat_map, map_map. f_equal.
  rewrite <- (map_id (arows (grid_points g))) at 1. rewrite (map_nth_seq_k _ _ (fun x => x) _ []). rewrite rows_length.
  apply map_ext_in. intros j I. apply in_seq in I. rewrite map_map. unfold pt, acell. cbn [fst snd].
  rewrite <- (map_nth_seq _ (nth j (arows (grid_points g)) []) (0, 0)) at 1. rewrite row_length by lia. auto.
Qed.
Lemma grid_sum_idx : forall g w, grid_sum g w = rsum (map (fun ji => w (fst ji) (snd ji)) (idx g)).
Proof.
  intros. unfold grid_sum, idx. rewrite rows_length.
  assert (E : forall k r, (k + r <= g_rows g)%nat ->
    rsum (map (fun j => rsum (map (w j) (seq 0 (length (nth j (arows (grid_points g)) []))))) (seq k r))
    = rsum (map (fun ji => w (fst ji) (snd ji)) (concat (map (fun j => map (pair j) (seq 0 (g_cols g))) (seq k r))))).
  { intros k r. revert k. induction r; intros k L; cbn [seq map concat]. reflexivity.
    rewrite map_app, rsum_app, map_map. cbn [rsum fold_right].
    change (fold_right Rplus 0 ?l) with (rsum l). rewrite IHr by lia. rewrite row_length by lia. cbn [fst snd]. reflexivity. }
  apply E. lia.
Qed.
Lemma rsum_cells : forall g (f : R * R -> R), rsum (map f (cells (grid_points g))) = grid_sum g (fun j i => f (pt g (j, i))).
Proof. intros. rewrite grid_sum_idx, cells_idx, map_map. f_equal; apply map_ext; intros [j i]; auto. Qed.
Lemma filter_map_comm : forall A B (f : A -> B) h l, filter h (map f l) = map f (filter (fun x => h (f x)) l).
Proof. induction l; simpl; auto. rewrite IHl. destruct (h (f a)); auto. Qed.
Lemma lists_pixels_perm : forall g P h L, lists_pixels g P L ->
  (forall j i, pixel g j i -> (h (j, i) = true <-> P j i)) -> Permutation L (filter h (idx g)).
Proof.
  intros g P h L [N E] H. apply NoDup_Permutation; auto. apply NoDup_filter, idx_NoDup.
  intros [j i]. rewrite E, filter_In, idx_In. split; intros [A B]; split; auto; apply (H j i A); auto.
Qed.

(** ** observer *)
Lemma pix_mu_pt : forall s lat0 lon0 j i, pix_mu s lat0 lon0 j i = law_cos lat0 lon0 (fst (pt (st_grid s) (j, i))) (snd (pt (st_grid s) (j, i))).
Proof. intros. unfold pix_mu. rewrite law_cos_dot. reflexivity. Qed.
Lemma star_mu_eq : forall s lat0 lon0, star_mu s lat0 lon0 = amap (fun p => law_cos lat0 lon0 (fst p) (snd p)) (grid_points (st_grid s)).
Proof. reflexivity. Qed.
Lemma star_map_eq : forall s, star_unified s ->
  star_map s = Ok (amap (fun p => fold_left (pv (st_radius s) p) (sc_spots (st_spots s)) (st_teff s)) (grid_points (st_grid s))).
Proof.
  intros s [A [_ [B _]]]. unfold star_map. rewrite sc_map_pixels_eq. rewrite A. auto. intros; rewrite A; auto.
Qed.
