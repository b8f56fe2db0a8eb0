(** Lemmas for C32 (star half), C54, C55, C56: painting faculae on the map *)
From Coq Require Import Reals ZArith Bool List Lra Lia Permutation Sorted.
From Coquelicot Require Import Coquelicot.
From Verif Require Import Num Py MConfig MHelpers MGrid MSpots MFaculae MFlares MGranules MStar
  Spec SpecStar SpecDisk LBase LGrid LHelpers LCirc LSpotMap LFac LDisk LStar.
Import ListNotations.
Open Scope R_scope.

(** ** order statistics *)
Lemma rinsert_perm : forall x l, Permutation (rinsert x l) (x :: l).
Proof.
  induction l; simpl; auto. destruct (Rle_dec x a); auto. rewrite IHl. apply perm_swap.
Qed.
Lemma rsort_perm : forall l, Permutation (rsort l) l.
Proof. induction l; simpl; auto. unfold rsort in *. simpl. rewrite rinsert_perm, IHl. auto. Qed.
Lemma rinsert_sorted : forall x l, StronglySorted Rle l -> StronglySorted Rle (rinsert x l).
Proof.
  induction l; simpl; intros. constructor; auto.
  inversion H; subst. destruct (Rle_dec x a).
  - constructor; auto. constructor; auto. eapply Forall_impl; [|eauto]. intros; simpl in *; lra.
  - constructor; auto. assert (P := rinsert_perm x l). apply (Permutation_Forall (Permutation_sym P)). constructor; auto. lra.
Qed.
Lemma rsort_sorted : forall l, StronglySorted Rle (rsort l).
Proof. induction l; simpl. constructor. apply rinsert_sorted; auto. Qed.
Lemma sorted_nth : forall l i j d, StronglySorted Rle l -> (i <= j < length l)%nat -> nth i l d <= nth j l d.
Proof.
  induction l; intros i j d S L. simpl in L; lia. inversion S; subst. destruct i, j; simpl in *; try lra; try lia.
  - rewrite Forall_forall in H2. apply H2. apply nth_In. lia.
  - apply IHl; auto. lia.
Qed.
Lemma filter_length_perm : forall A (h : A -> bool) l l', Permutation l l' -> length (filter h l) = length (filter h l').
Proof. intros. induction H; simpl; auto. destruct (h x); simpl; auto. destruct (h x), (h y); simpl; auto. congruence. Qed.
Lemma filter_all : forall A (h : A -> bool) l, (forall x, In x l -> h x = true) -> filter h l = l.
Proof. induction l; simpl; intros; auto. rewrite H by auto. f_equal. apply IHl; auto. Qed.
Lemma filter_none : forall A (h : A -> bool) l, (forall x, In x l -> h x = false) -> filter h l = [].
Proof. induction l; simpl; intros; auto. rewrite H by auto. apply IHl; auto. Qed.
Lemma skipn_nth_In : forall A (l : list A) k x d, In x (skipn k l) -> exists i, (k <= i < length l)%nat /\ nth i l d = x.
Proof.
  intros. apply In_nth with (d := d) in H. destruct H as [i [Hi E]]. exists (k + i)%nat.
  rewrite skipn_length in Hi. split. lia. rewrite <- E. revert l Hi E. induction k; simpl; intros; auto.
  destruct l; simpl in *. destruct i; auto. apply IHk; auto.
Qed.
Lemma firstn_nth_In : forall A (l : list A) k x d, In x (firstn k l) -> exists i, (i < k)%nat /\ (i < length l)%nat /\ nth i l d = x.
Proof.
  intros. apply In_nth with (d := d) in H. destruct H as [i [Hi E]]. exists i. rewrite firstn_length in Hi.
  split. lia. split. lia. rewrite <- E. clear E. revert i l Hi. induction k; simpl; intros. lia.
  destruct l; simpl in *. lia. destruct i; auto. apply IHk. lia.
Qed.
Lemma quantile_count : forall l q b, l <> [] -> NoDup l -> quantile l (Fin q) = Ok b ->
  0 <= q <= 1 /\ Z.of_nat (length (filter (fun x => Rleb x b) l)) = (Int_part (q * (INR (length l) - 1)) + 1)%Z.
Proof.
  intros l q b NE ND H. unfold quantile in H. destruct (Rleb 0 q && Rleb q 1)%bool eqn:B; [|discriminate].
  apply andb_true_iff in B. destruct B as [B1 B2]. rb. split; auto.
  set (n := length l) in *. set (s := rsort l) in *. set (ix := q * (INR n - 1)) in *.
  assert (N1 : (1 <= n)%nat). { unfold n. destruct l; simpl. congruence. lia. }
  assert (N1R : 1 <= INR n) by (apply (le_INR 1); auto).
  assert (IX : 0 <= ix <= INR n - 1). { unfold ix. split. apply Rmult_le_pos; lra. nra. }
  destruct (Int_part_spec ix) as [I1 I2]. set (z := Int_part ix) in *.
  assert (Z0 : (0 <= z)%Z). { assert (IZR (-1) < IZR z) by lra. apply lt_IZR in H0. lia. }
  assert (Zn : (z <= Z.of_nat n - 1)%Z). { apply le_IZR. rewrite minus_IZR, <- INR_IZR_INZ. lra. }
  set (lo := Z.to_nat z) in *. assert (LO : (lo <= n - 1)%nat) by (unfold lo; lia).
  assert (SP : Permutation s l) by apply rsort_perm. assert (SL : length s = n) by (apply Permutation_length; auto).
  assert (SS : StronglySorted Rle s) by apply rsort_sorted.
  assert (SN : NoDup s) by (eapply Permutation_NoDup; [apply Permutation_sym; eauto|auto]).
  assert (Hb : b = nth lo s 0 + (ix - IZR z) * (nth (Nat.min (lo + 1) (n - 1)) s 0 - nth lo s 0)) by congruence.
  assert (ab : nth lo s 0 <= nth (Nat.min (lo + 1) (n - 1)) s 0) by (apply sorted_nth; auto; lia).
  rewrite <- (filter_length_perm _ _ _ _ SP). rewrite <- (firstn_skipn (lo + 1) s). rewrite filter_app, app_length.
  rewrite filter_all, filter_none.
  - rewrite firstn_length, SL. simpl length. unfold lo in *. lia.
  - intros x I. apply skipn_nth_In with (d := 0) in I. destruct I as [k [K <-]]. rewrite SL in K.
    assert (M : Nat.min (lo + 1) (n - 1) = (lo + 1)%nat) by lia. rewrite M in *.
    assert (nth (lo + 1) s 0 <= nth k s 0) by (apply sorted_nth; auto; lia).
    assert (nth lo s 0 <> nth (lo + 1) s 0).
    { intros E. apply (NoDup_nth s 0) in E; auto; lia. }
    apply Rleb_false. rewrite Hb. set (A := nth lo s 0) in *. set (C := nth (lo + 1) s 0) in *.
    assert (A < C) by lra. assert ((ix - IZR z) * (C - A) < 1 * (C - A)) by (apply Rmult_lt_compat_r; lra). lra.
  - intros x I. apply firstn_nth_In with (d := 0) in I. destruct I as [k [K [K2 <-]]].
    assert (nth k s 0 <= nth lo s 0) by (apply sorted_nth; auto; lia).
    apply Rleb_true. rewrite Hb. assert (0 <= (ix - IZR z) * (nth (Nat.min (lo + 1) (n - 1)) s 0 - nth lo s 0)) by (apply Rmult_le_pos; lra). lra.
Qed.

(** ** one facula *)
Definition insidep (s : star) (f : facula) (p : R * R) : bool :=
  nle (Fin (acos (law_cos (fc_lat f) (fc_lon f) (fst p) (snd p))))
      (nmul (fac_angular_radius f (st_radius s * RSUN_KM)) (Fin (PI/180))).
Lemma fac_map_pixels_eq : forall s f, fc_grid f = st_grid s ->
  fac_map_pixels f (st_radius s * RSUN_KM) = amap (insidep s f) (grid_points (st_grid s)).
Proof.
  intros. unfold fac_map_pixels, fac_r. rewrite amap_amap, H. apply amap_ext. intros p. unfold insidep. rewrite haversine_eq. auto.
Qed.
Lemma insidep_covers : forall s f j i, 0 < st_radius s -> is_fin (fc_radius f) ->
  (insidep s f (pt (st_grid s) (j, i)) = true <-> fac_covers s f j i).
Proof.
  intros s f j i H [r Hr]. unfold insidep, fac_angular_radius. rewrite Hr.
  assert (RK : 0 < st_radius s * RSUN_KM) by (unfold RSUN_KM; lra).
  pose proof PI_RGT_0. rewrite !ndiv_fin, !nmul_fin, !ndiv_fin, !nmul_fin by lra. rewrite nle_fin.
  replace (r / (st_radius s * RSUN_KM) * 180 / PI * (PI / 180)) with (r / (st_radius s * SUN_KM)) by (unfold SUN_KM, RSUN_KM; field; lra).
  set (p := pt (st_grid s) (j, i)).
  assert (A : is_angle (fc_lat f) (fc_lon f) (pix_lat (st_grid s) j i) (pix_lon (st_grid s) j i)
                (acos (law_cos (fc_lat f) (fc_lon f) (fst p) (snd p)))).
  { split. apply acos_bound. rewrite cos_acos by apply law_cos_bound. rewrite law_cos_dot. reflexivity. }
  unfold fac_covers. split.
  - intros L. eexists. exists r. split; [apply A|]. split; auto.
  - intros [a [r' [B [C D]]]]. assert (r' = r) by congruence. subst r'. rewrite (is_angle_unique _ _ _ _ _ _ A B). auto.
Qed.
Definition mup (lat0 lon0 : R) (p : R * R) : R := law_cos lat0 lon0 (fst p) (snd p).
Definition fac_temp (s : star) (k : Z) : num := clip_teff (nadd (Fin (IZR k)) (st_teff s)).
Definition painted (s : star) (lat0 lon0 : R) (f : facula) (kw kf : Z) (q q' : num) (b : R) : Prop :=
  fac_fractional_area f (get_angle_between lat0 lon0 (fc_lat f) (fc_lon f)) = Ok [(kw, q); (kf, q')]
  /\ quantile (map (mup lat0 lon0) (filter (insidep s f) (cells (grid_points (st_grid s))))) q = Ok b.
Lemma any_true_amap : forall g h, any_true (amap h (grid_points g)) = true <-> exists p, In p (cells (grid_points g)) /\ h p = true.
Proof.
  intros. unfold any_true. rewrite cells_amap, existsb_exists. split.
  - intros [x [A ->]]. apply in_map_iff in A. destruct A as [p [E A]]. eauto.
  - intros [p [A E]]. exists true. split; auto. apply in_map_iff; eauto.
Qed.
Lemma paint_facula_inv : forall s lat0 lon0 F f m, fc_grid f = st_grid s ->
  paint_facula s lat0 lon0 (star_mu s lat0 lon0) (amap F (grid_points (st_grid s))) f = Ok m ->
  ((forall p, In p (cells (grid_points (st_grid s))) -> insidep s f p = false) /\ m = amap F (grid_points (st_grid s)))
  \/ (exists kw kf q q' b, painted s lat0 lon0 f kw kf q q' b
       /\ m = amap (fun p => if insidep s f p then (if Rleb (mup lat0 lon0 p) b then fac_temp s kw else fac_temp s kf) else F p)
                (grid_points (st_grid s))).
Proof.
  intros s lat0 lon0 F f m G H. unfold paint_facula in H. rewrite fac_map_pixels_eq in H by auto.
  destruct (any_true _) eqn:E; cbn [negb] in H.
  - right. apply bind_ok in H. destruct H as [fr [Hf H]].
    destruct fr as [|[kw q] [|[kf q'] [|]]]; try discriminate.
    rewrite star_mu_eq in H. rewrite zip_same_amap in H. cbn [bind] in H.
    apply bind_ok in H. destruct H as [b [Hb H]]. rewrite !amap_amap in H.
    rewrite !amap2_amap in H. cbn [bind] in H. unfold mask_assign in H. rewrite zip_same_amap in H. cbn [bind] in H.
    rewrite amap_amap in H. rewrite zip_same_amap in H. cbn [bind] in H. injection H as <-.
    exists kw, kf, q, q', b. split.
    + split; auto. rewrite <- Hb. f_equal. rewrite cells_amap. rewrite filter_map_comm, map_map. reflexivity.
    + rewrite amap_amap. apply amap_ext. intros p. cbn [fst snd]. unfold mup, fac_temp.
      destruct (insidep s f p); cbn [andb]; auto. unfold Rleb, Rltb.
      destruct (Rle_dec (law_cos lat0 lon0 (fst p) (snd p)) b), (Rlt_dec b (law_cos lat0 lon0 (fst p) (snd p))); auto; lra.
  - left. injection H as <-. split; auto. intros p I. destruct (insidep s f p) eqn:K; auto.
    rewrite (proj2 (any_true_amap (st_grid s) (insidep s f))) in E; [discriminate|]. eauto.
Qed.
Lemma paint_faculae_inv : forall s lat0 lon0 l F m, (forall f, In f l -> fc_grid f = st_grid s) ->
  paint_faculae s lat0 lon0 (star_mu s lat0 lon0) (amap F (grid_points (st_grid s))) l = Ok m ->
  exists G, m = amap G (grid_points (st_grid s))
   /\ (forall p, In p (cells (grid_points (st_grid s))) -> (forall f, In f l -> insidep s f p = false) -> G p = F p)
   /\ (forall l1 f l2, l = l1 ++ f :: l2 -> (exists p, In p (cells (grid_points (st_grid s))) /\ insidep s f p = true) ->
        exists kw kf q q' b, painted s lat0 lon0 f kw kf q q' b
         /\ forall p, In p (cells (grid_points (st_grid s))) -> insidep s f p = true ->
              (forall f', In f' l2 -> insidep s f' p = false) ->
              G p = if Rleb (mup lat0 lon0 p) b then fac_temp s kw else fac_temp s kf).
Proof.
  induction l as [|f0 l]; intros F m U H; cbn [paint_faculae] in H.
  - injection H as <-. exists F. split; auto. split; auto. intros l1 f l2 E. destruct l1; discriminate.
  - apply bind_ok in H. destruct H as [m1 [H1 H]].
    assert (U1 : fc_grid f0 = st_grid s) by (apply U; left; auto).
    assert (U2 : forall f, In f l -> fc_grid f = st_grid s) by (intros; apply U; right; auto).
    destruct (paint_facula_inv _ _ _ _ _ _ U1 H1) as [[N ->]|[kw [kf [q [q' [b [P ->]]]]]]].
    + destruct (IHl F m U2 H) as [G [-> [A B]]]. exists G. split; auto. split.
      * intros. apply A; auto. intros; apply H2; right; auto.
      * intros l1 f l2 E X. destruct l1 as [|f1 l1]; injection E as -> ->.
        -- destruct X as [p [I X]]. rewrite N in X; auto. discriminate.
        -- apply (B l1 f l2); auto.
    + destruct (IHl _ m U2 H) as [G [-> [A B]]]. exists G. split; auto. split.
      * intros. rewrite A; auto. rewrite (H2 f0); auto. left; auto. intros; apply H2; right; auto.
      * intros l1 f l2 E X. destruct l1 as [|f1 l1]; injection E as -> ->.
        -- exists kw, kf, q, q', b. split; auto. intros. rewrite A; auto. rewrite H2. auto.
        -- apply (B l1 f l2); auto.
Qed.
Lemma get_angle_fin : forall lat0 lon0 lat lon, exists a, get_angle_between lat0 lon0 lat lon = Fin a /\ is_angle lat0 lon0 lat lon a.
Proof.
  intros. unfold get_angle_between. rewrite nacos_fin by apply law_cos_bound. eexists. split; auto.
  split. apply acos_bound. rewrite cos_acos by apply law_cos_bound. apply law_cos_dot.
Qed.
Lemma quantile_fin : forall l q b, quantile l q = Ok b -> exists x, q = Fin x /\ 0 <= x <= 1.
Proof.
  intros. destruct q; try discriminate. unfold quantile in H. destruct (Rleb 0 r && Rleb r 1)%bool eqn:B; [|discriminate].
  apply andb_true_iff in B. destruct B. rb. eauto.
Qed.
Lemma pt_In : forall g j i, pixel g j i -> In (pt g (j, i)) (cells (grid_points g)).
Proof. intros. apply pixel_cell. auto. Qed.
Lemma In_pt : forall g p, In p (cells (grid_points g)) -> exists j i, pixel g j i /\ p = pt g (j, i).
Proof.
  intros. rewrite cells_idx in H. apply in_map_iff in H. destruct H as [[j i] [<- I]]. apply idx_In in I. eauto.
Qed.
Lemma C54_lemma : forall s lat0 lon0 M0 M, star_unified s -> 0 < st_radius s ->
  (forall f, In f (fcc_facs (st_facs s)) -> is_fin (fc_radius f)) ->
  star_map s = Ok M0 -> add_faculae_to_map s lat0 lon0 = Ok M ->
  grid_shaped (st_grid s) M
  /\ (forall j i, pixel (st_grid s) j i -> (forall f, In f (fcc_facs (st_facs s)) -> ~ fac_covers s f j i) ->
        acell M j i NaN = acell M0 j i NaN)
  /\ (forall l1 f l2, fcc_facs (st_facs s) = l1 ++ f :: l2 -> (exists j i, pixel (st_grid s) j i /\ fac_covers s f j i) ->
        exists a kw kf q q' border,
          is_angle lat0 lon0 (fc_lat f) (fc_lon f) a
          /\ fac_fractional_area f (Fin a) = Ok [(kw, Fin q); (kf, q')] /\ 0 <= q <= 1
          /\ (forall j i, pixel (st_grid s) j i -> fac_covers s f j i ->
                (forall f', In f' l2 -> ~ fac_covers s f' j i) ->
                (pix_mu s lat0 lon0 j i <= border -> acell M j i NaN = clip_teff (nadd (Fin (IZR kw)) (st_teff s)))
                /\ (border < pix_mu s lat0 lon0 j i -> acell M j i NaN = clip_teff (nadd (Fin (IZR kf)) (st_teff s))))
          (* the number of pixels on the wall side of the border *)
          /\ (forall covered wall, lists_pixels (st_grid s) (fac_covers s f) covered ->
                lists_pixels (st_grid s) (fun j i => fac_covers s f j i /\ pix_mu s lat0 lon0 j i <= border) wall ->
                (forall j i j' i', In (j, i) covered -> In (j', i') covered ->
                    pix_mu s lat0 lon0 j i = pix_mu s lat0 lon0 j' i' -> (j, i) = (j', i')) ->
                Z.of_nat (length wall) = (Int_part ((INR (length covered) - 1) * q) + 1)%Z)).
Proof.
  intros s lat0 lon0 M0 M U HR HF H0 H. rewrite star_map_eq in H0 by auto. injection H0 as <-.
  unfold add_faculae_to_map in H. rewrite star_map_eq in H by auto. cbn [bind] in H.
  assert (UF : forall f, In f (fcc_facs (st_facs s)) -> fc_grid f = st_grid s) by apply U.
  destruct (paint_faculae_inv _ _ _ _ _ _ UF H) as [G [-> [A B]]]. clear H.
  split. apply grid_shaped_amap. split.
  - intros j i Pj N. rewrite !acell_grid by auto. apply A. apply pixel_cell; auto.
    intros f I. destruct (insidep s f (acell (grid_points (st_grid s)) j i (0, 0))) eqn:E; auto.
    exfalso. apply (N f I). apply insidep_covers; auto.
  - intros l1 f l2 E [j0 [i0 [Pj C]]].
    assert (HFf : is_fin (fc_radius f)) by (apply HF; rewrite E; apply in_or_app; right; left; auto).
    assert (HF2 : forall f', In f' l2 -> is_fin (fc_radius f')) by (intros; apply HF; rewrite E; apply in_or_app; right; right; auto).
    assert (I0 : insidep s f (pt (st_grid s) (j0, i0)) = true) by (apply insidep_covers; auto).
    destruct (B l1 f l2 E) as [kw [kf [q [q' [b [[P1 P2] P3]]]]]]. exists (pt (st_grid s) (j0, i0)). split; auto. apply pt_In; auto.
    destruct (get_angle_fin lat0 lon0 (fc_lat f) (fc_lon f)) as [a [Ha Hang]]. rewrite Ha in P1.
    destruct (quantile_fin _ _ _ P2) as [x [-> Hx]].
    exists a, kw, kf, x, q', b. split; auto. split; auto. split; auto. split.
    + intros j i Pp Cp Np. rewrite !acell_grid by auto. change (acell (grid_points (st_grid s)) j i (0, 0)) with (pt (st_grid s) (j, i)).
      rewrite P3; [|apply pt_In; auto|apply insidep_covers; auto|].
      * rewrite pix_mu_pt. fold (mup lat0 lon0 (pt (st_grid s) (j, i))). unfold fac_temp. rcase; split; intros; auto; lra.
      * intros f' I. destruct (insidep s f' (pt (st_grid s) (j, i))) eqn:K; auto. exfalso. apply (Np f' I). apply insidep_covers; auto.
    + intros cov wall L1 L2 D.
      set (h1 := fun ji : nat * nat => insidep s f (pt (st_grid s) ji)).
      assert (Q1 : Permutation cov (filter h1 (idx (st_grid s)))).
      { eapply lists_pixels_perm; eauto. intros. apply insidep_covers; auto. }
      set (h2 := fun ji : nat * nat => (insidep s f (pt (st_grid s) ji) && Rleb (mup lat0 lon0 (pt (st_grid s) ji)) b)%bool).
      assert (Q2 : Permutation wall (filter h2 (idx (st_grid s)))).
      { eapply lists_pixels_perm; eauto. intros. unfold h2. rewrite andb_true_iff, Rleb_true, insidep_covers by auto. rewrite pix_mu_pt. reflexivity. }
      rewrite cells_idx in P2. rewrite filter_map_comm, map_map in P2. fold h1 in P2.
      set (l := map (fun ji => mup lat0 lon0 (pt (st_grid s) ji)) (filter h1 (idx (st_grid s)))) in *.
      assert (Ln : length l = length cov) by (unfold l; rewrite map_length; symmetry; apply Permutation_length; auto).
      assert (ND : NoDup l).
      { unfold l. apply NoDup_map_inj. intros [j i] [j' i'] X Y Z.
        apply (D j i j' i'). eapply Permutation_in; [apply Permutation_sym; eauto|auto]. eapply Permutation_in; [apply Permutation_sym; eauto|auto].
        rewrite !pix_mu_pt. exact Z. apply NoDup_filter, idx_NoDup. }
      assert (NE : l <> []).
      { intros El. apply (f_equal (@length R)) in El. rewrite Ln in El. destruct cov; [|discriminate].
        apply Permutation_nil in Q1. assert (In (j0, i0) (filter h1 (idx (st_grid s)))). apply filter_In. split; auto. apply idx_In; auto.
        rewrite Q1 in H. contradiction. }
      destruct (quantile_count l x b NE ND P2) as [_ K]. rewrite Ln in K.
      replace ((INR (length cov) - 1) * x) with (x * (INR (length cov) - 1)) by ring. rewrite <- K. f_equal.
      rewrite (Permutation_length Q2). unfold l. rewrite filter_map_comm, map_length.
      clear. unfold h1, h2. induction (idx (st_grid s)); simpl; auto. destruct (insidep s f (pt (st_grid s) a)); simpl; auto.
      destruct (Rleb _ b); simpl; auto.
Qed.

(** ** C55 *)
Lemma fac_covers_dec : forall s f j i, 0 < st_radius s -> is_fin (fc_radius f) -> fac_covers s f j i \/ ~ fac_covers s f j i.
Proof.
  intros. destruct (insidep s f (pt (st_grid s) (j, i))) eqn:E.
  - left. apply insidep_covers; auto.
  - right. intros C. apply insidep_covers in C; auto. congruence.
Qed.
Lemma filter_split_perm : forall A (h : A -> bool) l, Permutation l (filter h l ++ filter (fun x => negb (h x)) l).
Proof.
  induction l; simpl; auto. destruct (h a); simpl. constructor; auto.
  eapply perm_trans; [constructor; apply IHl|]. apply Permutation_middle.
Qed.
Lemma Int_part_IZR : forall z, Int_part (IZR z) = z.
Proof.
  intros. destruct (Int_part_spec (IZR z)) as [A B]. apply le_IZR in A.
  assert (IZR z < IZR (Int_part (IZR z) + 1)) by (rewrite plus_IZR; auto). apply lt_IZR in H. lia.
Qed.
Lemma C55_lemma : forall s lat0 lon0 M l1 f l2 covered, star_unified s -> 0 < st_radius s ->
  (forall f, In f (fcc_facs (st_facs s)) -> is_fin (fc_radius f)) ->
  add_faculae_to_map s lat0 lon0 = Ok M ->
  fcc_facs (st_facs s) = l1 ++ f :: l2 ->
  lists_pixels (st_grid s) (fac_covers s f) covered -> covered <> [] ->
  (forall f' j i, In f' l2 -> In (j, i) covered -> ~ fac_covers s f' j i) ->
  (forall j i j' i', In (j, i) covered -> In (j', i') covered ->
      pix_mu s lat0 lon0 j i = pix_mu s lat0 lon0 j' i' -> (j, i) = (j', i')) ->
  exists a kw kf q q' wall floor,
    is_angle lat0 lon0 (fc_lat f) (fc_lon f) a
    /\ fac_fractional_area f (Fin a) = Ok [(kw, Fin q); (kf, q')] /\ 0 <= q <= 1
    /\ Permutation covered (wall ++ floor)
    /\ (forall j i, In (j, i) wall -> acell M j i NaN = clip_teff (nadd (Fin (IZR kw)) (st_teff s)))
    /\ (forall j i, In (j, i) floor -> acell M j i NaN = clip_teff (nadd (Fin (IZR kf)) (st_teff s)))
    /\ (forall j i j' i', In (j, i) wall -> In (j', i') floor -> pix_mu s lat0 lon0 j i < pix_mu s lat0 lon0 j' i')
    /\ Z.of_nat (length wall) = (Int_part ((INR (length covered) - 1) * q) + 1)%Z
    /\ wall <> [] /\ (q = 1 -> floor = []).
Proof.
  intros s lat0 lon0 M l1 f l2 cov U HR HF HM E L NE NO D.
  assert (HM0 := star_map_eq s U).
  destruct (C54_lemma s lat0 lon0 _ M U HR HF HM0 HM) as [_ [_ K]].
  destruct cov as [|[j0 i0] cov']; [congruence|]. set (cov := (j0, i0) :: cov') in *.
  assert (P0 : pixel (st_grid s) j0 i0 /\ fac_covers s f j0 i0) by (apply L; left; auto).
  destruct (K l1 f l2 E) as [a [kw [kf [q [q' [b [A1 [A2 [A3 [A4 A5]]]]]]]]]]. do 2 eexists; apply P0.
  set (h := fun ji : nat * nat => Rleb (pix_mu s lat0 lon0 (fst ji) (snd ji)) b).
  exists a, kw, kf, q, q', (filter h cov), (filter (fun x => negb (h x)) cov).
  split; auto. split; auto. split; auto. split. apply filter_split_perm.
  assert (W : forall j i, In (j, i) (filter h cov) <-> In (j, i) cov /\ pix_mu s lat0 lon0 j i <= b).
  { intros. rewrite filter_In. unfold h. cbn [fst snd]. rewrite Rleb_true. tauto. }
  assert (F : forall j i, In (j, i) (filter (fun x => negb (h x)) cov) <-> In (j, i) cov /\ b < pix_mu s lat0 lon0 j i).
  { intros. rewrite filter_In. unfold h. cbn [fst snd]. rewrite negb_true_iff, Rleb_false. tauto. }
  split. { intros j i I. apply W in I. destruct I as [I I2]. assert (I' := I). apply L in I'. apply A4; try apply I'; auto. }
  split. { intros j i I. apply F in I. destruct I as [I I2]. assert (I' := I). apply L in I'. apply A4; try apply I'; auto. }
  split. { intros j i j' i' I I'. apply W in I. apply F in I'. lra. }
  assert (N : Z.of_nat (length (filter h cov)) = (Int_part ((INR (length cov) - 1) * q) + 1)%Z).
  { apply A5; auto. split. apply NoDup_filter, L. intros j i. rewrite W. rewrite (proj2 L j i). tauto. }
  split; auto. 
  assert (C1 : 1 <= INR (length cov)) by (apply (le_INR 1); simpl; lia).
  split.
  - intros X. rewrite X in N. change (Z.of_nat (length (@nil (nat * nat)))) with 0%Z in N.
    assert (G : (0 <= Int_part ((INR (length cov) - 1) * q))%Z).
    { destruct (Int_part_spec ((INR (length cov) - 1) * q)) as [_ I2].
      assert (0 <= (INR (length cov) - 1) * q) by (apply Rmult_le_pos; lra).
      assert (T : IZR (-1) < IZR (Int_part ((INR (length cov) - 1) * q))) by lra. apply lt_IZR in T. lia. }
    lia.
  - intros ->. rewrite Rmult_1_r in N.
    assert (Z.of_nat (length (filter h cov)) = Z.of_nat (length cov)).
    { rewrite N. rewrite INR_IZR_INZ. replace (IZR (Z.of_nat (length cov)) - 1) with (IZR (Z.of_nat (length cov) - 1)) by (rewrite minus_IZR; auto).
      rewrite Int_part_IZR. lia. }
    pose proof (Permutation_length (filter_split_perm _ h cov)) as PL. rewrite app_length in PL.
    apply length_zero_iff_nil. lia.
Qed.

(** ** C56 *)
Lemma last_inside : forall s l p, (exists f, In f l /\ insidep s f p = true) ->
  exists l1 f l2, l = l1 ++ f :: l2 /\ insidep s f p = true /\ forall f', In f' l2 -> insidep s f' p = false.
Proof.
  induction l as [|f0 l]; intros p [f [I H]]. contradiction.
  destruct (existsb (fun f => insidep s f p) l) eqn:E.
  - apply existsb_exists in E. destruct (IHl p E) as [l1 [f1 [l2 [-> X]]]]. exists (f0 :: l1), f1, l2. auto.
  - exists [], f0, l. split; auto.
    assert (N : forall f', In f' l -> insidep s f' p = false).
    { intros f' I'. destruct (insidep s f' p) eqn:K; auto. assert (existsb (fun f => insidep s f p) l = true).
      apply existsb_exists; eauto. congruence. }
    split; auto; destruct I as [->|I]; auto; rewrite N in H; auto; discriminate.
Qed.
Lemma C56_lemma : forall s lat0 lon0 M f j i T, star_unified s -> 0 < st_radius s ->
  (forall f, In f (fcc_facs (st_facs s)) -> is_fin (fc_radius f)) ->
  add_faculae_to_map s lat0 lon0 = Ok M -> st_teff s = Fin T ->
  pixel (st_grid s) j i -> In f (fcc_facs (st_facs s)) -> fac_covers s f j i ->
  exists v, acell M j i NaN = Fin v /\ 2300 <= v <= 3900 /\ (3900 < T -> v < T).
Proof.
  intros s lat0 lon0 M f j i T U HR HF HM HT P I C.
  assert (HM0 := star_map_eq s U).
  destruct (C54_lemma s lat0 lon0 _ M U HR HF HM0 HM) as [_ [_ K]].
  destruct (last_inside s (fcc_facs (st_facs s)) (pt (st_grid s) (j, i))) as [l1 [f1 [l2 [E [X Y]]]]].
  { exists f. split; auto. apply insidep_covers; auto. }
  assert (HF1 : is_fin (fc_radius f1)) by (apply HF; rewrite E; apply in_or_app; right; left; auto).
  assert (HF2 : forall f', In f' l2 -> is_fin (fc_radius f')) by (intros; apply HF; rewrite E; apply in_or_app; right; right; auto).
  apply insidep_covers in X; auto.
  destruct (K l1 f1 l2 E) as [a [kw [kf [q [q' [b [A1 [A2 [A3 [A4 _]]]]]]]]]]; eauto.
  assert (N : forall f', In f' l2 -> ~ fac_covers s f' j i).
  { intros f' I' C'. apply insidep_covers in C'; auto. rewrite (Y f' I') in C'. discriminate. }
  destruct (A4 j i P X N) as [W F]. destruct C12_lemma as [_ [_ [CL _]]].
  assert (Z : forall k, exists v, clip_teff (nadd (Fin (IZR k)) (st_teff s)) = Fin v /\ 2300 <= v <= 3900 /\ (3900 < T -> v < T)).
  { intros k. rewrite HT, nadd_fin. destruct (CL (IZR k + T)) as [v [Ev [Bv _]]]. exists v. split; auto. split; auto. lra. }
  destruct (Rle_dec (pix_mu s lat0 lon0 j i) b).
  - rewrite W by auto. apply Z.
  - rewrite F by lra. apply Z.
Qed.

(** ** success and failure of the painting *)
Lemma quantile_total : forall l q, 0 <= q <= 1 -> exists b, quantile l (Fin q) = Ok b.
Proof. intros. unfold quantile. rewrite (proj2 (Rleb_true 0 q)), (proj2 (Rleb_true q 1)) by lra. simpl. eauto. Qed.
Definition fac_drawable (s : star) (lat0 lon0 : R) (f : facula) : Prop :=
  exists r d fs fm fb ws wi kw kf, fac_thermal f r d fs fm fb ws wi /\ 0 < r /\ 0 <= d
    /\ round_teff (Fin (wall_diff r ws wi)) = Ok kw /\ round_teff (Fin (floor_diff r fs fm fb)) = Ok kf /\ kw <> kf
    /\ cos_sep lat0 lon0 (fc_lat f) (fc_lon f) <> 0.
Lemma paint_facula_total : forall s lat0 lon0 F f, fc_grid f = st_grid s -> fac_drawable s lat0 lon0 f ->
  exists G, paint_facula s lat0 lon0 (star_mu s lat0 lon0) (amap F (grid_points (st_grid s))) f = Ok (amap G (grid_points (st_grid s))).
Proof.
  intros s lat0 lon0 F f G [r [d [fs [fm [fb [ws [wi [kw [kf [T [R1 [R2 [K1 [K2 [NE C]]]]]]]]]]]]]]].
  assert (X : exists m, paint_facula s lat0 lon0 (star_mu s lat0 lon0) (amap F (grid_points (st_grid s))) f = Ok m).
  { unfold paint_facula. rewrite fac_map_pixels_eq by auto. destruct (negb _); eauto.
    destruct (C31_lemma f r d fs fm fb ws wi kw kf T R1 R2 K1 K2 NE) as [w [W _]].
    destruct (get_angle_fin lat0 lon0 (fc_lat f) (fc_lon f)) as [a [-> [_ Ha]]].
    destruct (W a) as [_ [E B]]. rewrite Ha; auto. rewrite E. cbn [bind].
    rewrite star_mu_eq, zip_same_amap. cbn [bind].
    destruct (quantile_total (map fst (filter snd (cells (amap (fun x => (law_cos lat0 lon0 (fst x) (snd x), insidep s f x)) (grid_points (st_grid s)))))) (w a) B) as [b ->].
    cbn [bind]. rewrite !amap_amap, !amap2_amap. cbn [bind]. unfold mask_assign. rewrite zip_same_amap. cbn [bind].
    rewrite amap_amap, zip_same_amap. cbn [bind]. eauto. }
  destruct X as [m X]. rewrite X. destruct (paint_facula_inv _ _ _ _ _ _ G X) as [[_ ->]|[? [? [? [? [? [_ ->]]]]]]]; eauto.
Qed.
Lemma C54_total_lemma : forall s lat0 lon0, star_unified s ->
  (forall f, In f (fcc_facs (st_facs s)) -> exists r d fs fm fb ws wi kw kf,
      fac_thermal f r d fs fm fb ws wi /\ 0 < r /\ 0 <= d
      /\ round_teff (Fin (wall_diff r ws wi)) = Ok kw /\ round_teff (Fin (floor_diff r fs fm fb)) = Ok kf /\ kw <> kf
      /\ cos_sep lat0 lon0 (fc_lat f) (fc_lon f) <> 0) ->
  exists M, add_faculae_to_map s lat0 lon0 = Ok M.
Proof.
  intros s lat0 lon0 U D. unfold add_faculae_to_map. rewrite star_map_eq by auto. cbn [bind].
  assert (UF : forall f, In f (fcc_facs (st_facs s)) -> fc_grid f = st_grid s) by apply U.
  generalize (fun p : R * R => fold_left (pv (st_radius s) p) (sc_spots (st_spots s)) (st_teff s)).
  revert D UF. generalize (fcc_facs (st_facs s)). induction l as [|f l]; intros D UF F; cbn [paint_faculae]; eauto.
  destruct (paint_facula_total s lat0 lon0 F f) as [G ->]. apply UF; left; auto. apply D; left; auto.
  cbn [bind]. apply IHl; intros; [apply D|apply UF]; right; auto.
Qed.

(** ** C32, star half *)
Lemma paint_faculae_app : forall s lat0 lon0 mu l l' m,
  paint_faculae s lat0 lon0 mu m (l ++ l') = (do m' <- paint_faculae s lat0 lon0 mu m l ;; paint_faculae s lat0 lon0 mu m' l').
Proof. induction l; simpl; intros; auto. destruct (paint_facula _ _ _ _ _ _); simpl; auto. Qed.
Lemma C32_star_lemma : forall s lat0 lon0 l1 f l2 r d fs fm fb ws wi k, star_unified s -> 0 < st_radius s ->
  fcc_facs (st_facs s) = l1 ++ f :: l2 ->
  fac_thermal f r d fs fm fb ws wi -> 0 < r -> cos_sep lat0 lon0 (fc_lat f) (fc_lon f) <> 0 ->
  round_teff (Fin (wall_diff r ws wi)) = Ok k -> round_teff (Fin (floor_diff r fs fm fb)) = Ok k ->
  (exists j i, pixel (st_grid s) j i /\ fac_covers s f j i) ->
  (exists e, add_faculae_to_map s lat0 lon0 = Raise e)
  /\ (l1 = [] -> add_faculae_to_map s lat0 lon0 = Raise ValueError)
  /\ (forall g orbit planet phase incl, exists e, calc_coverage s lat0 lon0 g orbit planet phase incl = Raise e).
Proof.
  intros s lat0 lon0 l1 f l2 r d fs fm fb ws wi k U HR E T Hr C K1 K2 [j [i [P Cv]]].
  assert (UF : forall f, In f (fcc_facs (st_facs s)) -> fc_grid f = st_grid s) by apply U. rewrite E in UF.
  assert (B : forall F, paint_facula s lat0 lon0 (star_mu s lat0 lon0) (amap F (grid_points (st_grid s))) f = Raise ValueError).
  { intros F. unfold paint_facula. rewrite fac_map_pixels_eq by (apply UF; apply in_or_app; right; left; auto).
    rewrite (proj2 (any_true_amap (st_grid s) (insidep s f))).
    2:{ exists (pt (st_grid s) (j, i)). split. apply pt_In; auto. apply insidep_covers; auto. exists r. apply T. }
    cbn [negb]. destruct (get_angle_fin lat0 lon0 (fc_lat f) (fc_lon f)) as [a [-> [_ Ha]]].
    assert (Hc : cos a <> 0) by (rewrite Ha; auto).
    destruct (C32_lemma f r d fs fm fb ws wi a T Hr Hc) as [X Y].
    unfold fac_fractional_area. destruct (Req_dec (wall_diff r ws wi) (floor_diff r fs fm fb)) as [Q|Q].
    - rewrite X by auto. auto.
    - destruct Y as [_ Y]; auto. destruct (Y k K1 K2) as [v ->]. reflexivity. }
  assert (A : exists e, add_faculae_to_map s lat0 lon0 = Raise e /\ (l1 = [] -> e = ValueError)).
  { unfold add_faculae_to_map. rewrite star_map_eq by auto. cbn [bind]. rewrite E, paint_faculae_app.
    destruct (paint_faculae s lat0 lon0 (star_mu s lat0 lon0) _ l1) as [m|e] eqn:Q.
    - assert (U1 : forall f0, In f0 l1 -> fc_grid f0 = st_grid s) by (intros; apply UF; apply in_or_app; auto).
      destruct (paint_faculae_inv _ _ _ _ _ _ U1 Q) as [G [-> _]]. cbn [bind paint_faculae]. rewrite B. cbn [bind]. eauto.
    - cbn [bind]. exists e. split; auto. intros ->. cbn in Q. discriminate. }
  destruct A as [e [A1 A2]]. split; eauto. split. intros; rewrite A1, A2; auto.
  intros. destruct (calc_coverage s lat0 lon0 g orbit planet phase incl) as [x|] eqn:X; eauto.
  exfalso. unfold calc_coverage in X. cbv zeta in X.
  apply bind_ok in X. destruct X as [? [_ X]]. apply bind_ok in X. destruct X as [? [_ X]]. rewrite A1 in X. discriminate.
Qed.
