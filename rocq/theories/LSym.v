(** Lemmas for C75: the coverage report has the symmetries of the sphere that preserve the
    grid *)
From Coq Require Import Reals ZArith Bool List Lra Lia Permutation.
From Verif Require Import Num Py MConfig MHelpers MGrid MSpots MFaculae MFlares MGranules MStar
  Spec SpecStar SpecDisk SpecSym LBase LGrid LHelpers LSpotMap LSpotCov LFac LDisk LStar LStarFac LTransit LStarCov.
Import ListNotations.
Open Scope R_scope.

(** ** results that do not depend on the order of the cells *)
Lemma nadd_comm : forall a b, nadd a b = nadd b a.
Proof. intros [x| | |] [y| | |]; simpl; auto. rewrite Rplus_comm; auto. Qed.
Lemma nadd_assoc : forall a b c, nadd a (nadd b c) = nadd (nadd a b) c.
Proof. intros [x| | |] [y| | |] [z| | |]; simpl; auto. rewrite Rplus_assoc; auto. Qed.
Lemma nsum_perm : forall l l', Permutation l l' -> nsum l = nsum l'.
Proof.
  induction 1; unfold nsum in *; simpl; auto. rewrite IHPermutation; auto.
  rewrite !nadd_assoc, (nadd_comm y x); auto. congruence.
Qed.
Definition ncmp (x y : num) : comparison :=
  if neq x y || (nisnan x && nisnan y) then Eq else if nlt x y || nisnan y then Lt else Gt.
Lemma uinsert_cmp : forall x y t, uinsert x (y :: t)
  = match ncmp x y with Eq => y :: t | Lt => x :: y :: t | Gt => y :: uinsert x t end.
Proof. intros. simpl. unfold ncmp. destruct (_ || (_ && _)); auto. destruct (_ || _); auto. Qed.
Lemma ncmp_eq : forall x y, ncmp x y = Eq <-> x = y.
Proof.
  intros [x| | |] [y| | |]; unfold ncmp; simpl; unfold Reqb, Rltb; split; intros; try congruence; try discriminate.
  - destruct (Req_EM_T x y); simpl in *; [congruence|]. destruct (Rlt_dec x y); discriminate.
  - injection H as ->. destruct (Req_EM_T y y); auto. congruence.
Qed.
Lemma ncmp_trans : forall x y z, ncmp x y = Lt -> ncmp y z = Lt -> ncmp x z = Lt.
Proof.
  intros [x| | |] [y| | |] [z| | |]; unfold ncmp; simpl; unfold Reqb, Rltb; intros; try discriminate; auto;
    repeat (match goal with
    | H : context [Req_EM_T ?a ?b] |- _ => destruct (Req_EM_T a b); simpl in H; try discriminate
    | H : context [Rlt_dec ?a ?b] |- _ => destruct (Rlt_dec a b); simpl in H; try discriminate
    | |- context [Req_EM_T ?a ?b] => destruct (Req_EM_T a b); simpl
    | |- context [Rlt_dec ?a ?b] => destruct (Rlt_dec a b); simpl
    end); auto; try lra.
Qed.
Lemma ncmp_gt : forall x y, ncmp x y = Gt <-> ncmp y x = Lt.
Proof.
  intros [x| | |] [y| | |]; unfold ncmp; simpl; unfold Reqb, Rltb; split; intros; try discriminate; auto;
    repeat (match goal with
    | H : context [Req_EM_T ?a ?b] |- _ => destruct (Req_EM_T a b); simpl in H; try discriminate
    | H : context [Rlt_dec ?a ?b] |- _ => destruct (Rlt_dec a b); simpl in H; try discriminate
    | |- context [Req_EM_T ?a ?b] => destruct (Req_EM_T a b); simpl
    | |- context [Rlt_dec ?a ?b] => destruct (Rlt_dec a b); simpl
    end); auto; try lra.
Qed.
Lemma uinsert_comm_lt : forall x y l, ncmp x y = Lt -> uinsert x (uinsert y l) = uinsert y (uinsert x l).
Proof.
  intros x y l H. assert (H' : ncmp y x = Gt) by (apply ncmp_gt; auto).
  induction l as [|a l].
  - change (uinsert y []) with [y]. change (uinsert x []) with [x]. rewrite !uinsert_cmp, H, H'. auto.
  - rewrite (uinsert_cmp y a), (uinsert_cmp x a).
    assert (XX : ncmp x x = Eq) by (apply ncmp_eq; auto). assert (YY : ncmp y y = Eq) by (apply ncmp_eq; auto).
    destruct (ncmp y a) eqn:E1.
    + apply ncmp_eq in E1. subst a. rewrite H, !uinsert_cmp, H, H'; rewrite ?uinsert_cmp, ?YY. auto.
    + pose proof (ncmp_trans _ _ _ H E1) as E2. rewrite E2, !uinsert_cmp, H, H'; rewrite ?uinsert_cmp, ?E1; auto.
    + destruct (ncmp x a) eqn:E2.
      * rewrite !uinsert_cmp, E2, E1. auto.
      * rewrite !uinsert_cmp, E2, H'; rewrite ?uinsert_cmp, ?E1; auto.
      * rewrite !uinsert_cmp, E2, E1, IHl. auto.
Qed.
Lemma uinsert_comm : forall x y l, uinsert x (uinsert y l) = uinsert y (uinsert x l).
Proof.
  intros. destruct (ncmp x y) eqn:E.
  - apply ncmp_eq in E. subst; auto.
  - apply uinsert_comm_lt; auto.
  - symmetry. apply uinsert_comm_lt. apply ncmp_gt; auto.
Qed.
Lemma nunique_perm : forall l l', Permutation l l' -> nunique l = nunique l'.
Proof.
  induction 1; unfold nunique in *; simpl; auto. rewrite IHPermutation; auto. apply uinsert_comm. congruence.
Qed.
Lemma rinsert_comm : forall x y l, rinsert x (rinsert y l) = rinsert y (rinsert x l).
Proof.
  intros x y. induction l as [|a l]; simpl.
  - destruct (Rle_dec x y), (Rle_dec y x); auto; try lra. assert (x = y) by lra. subst; auto.
  - destruct (Rle_dec y a), (Rle_dec x a); simpl;
    repeat match goal with |- context [Rle_dec ?a ?b] => destruct (Rle_dec a b) end; try lra; auto.
    + assert (x = y) by lra. subst; auto.
    + rewrite IHl; auto.
Qed.
Lemma rsort_perm_eq : forall l l', Permutation l l' -> rsort l = rsort l'.
Proof.
  induction 1; unfold rsort in *; simpl; auto. rewrite IHPermutation; auto. apply rinsert_comm. congruence.
Qed.
Lemma quantile_perm : forall l l' q, Permutation l l' -> quantile l q = quantile l' q.
Proof.
  intros. unfold quantile. rewrite (rsort_perm_eq _ _ H), (Permutation_length H). auto.
Qed.
Lemma existsb_perm : forall A (h : A -> bool) l l', Permutation l l' -> existsb h l = existsb h l'.
Proof.
  intros. apply eq_true_iff_eq. rewrite !existsb_exists. split; intros [x [I E]]; exists x; split; auto.
  apply (Permutation_in x H); auto. apply (Permutation_in x (Permutation_sym H)); auto.
Qed.

(** ** pixels matched in pairs *)
Definition matched (g : grid) (prs : list ((R * R) * (R * R))) : Prop :=
  map fst prs = cells (grid_points g) /\ Permutation (map snd prs) (cells (grid_points g)).
Definition agree {X} (prs : list ((R * R) * (R * R))) (F F' : R * R -> X) : Prop :=
  forall p q, In (p, q) prs -> F' q = F p.
Lemma agree_map : forall X (F F' : R * R -> X) prs, agree prs F F' -> map F' (map snd prs) = map F (map fst prs).
Proof.
  intros X F F'. induction prs as [|[p q] prs]; intros A; cbn [map fst snd]; auto.
  rewrite (A p q) by (left; auto). rewrite IHprs; auto. intros p' q' I. apply A. right; auto.
Qed.
Lemma agree_perm : forall X g prs (F F' : R * R -> X), matched g prs -> agree prs F F' ->
  Permutation (map F' (cells (grid_points g))) (map F (cells (grid_points g))).
Proof.
  intros X g prs F F' [M1 M2] A. rewrite <- (Permutation_map F' M2), <- M1, (agree_map _ F F'); auto.
Qed.
Lemma agree_perm_cells : forall X g prs (F F' : R * R -> X), matched g prs -> agree prs F F' ->
  Permutation (cells (amap F' (grid_points g))) (cells (amap F (grid_points g))).
Proof. intros. rewrite !cells_amap. eapply agree_perm; eauto. Qed.
Lemma agree_filter : forall X g prs (B B' : R * R -> bool) (F F' : R * R -> X), matched g prs -> agree prs B B' -> agree prs F F' ->
  Permutation (map F' (filter B' (cells (grid_points g)))) (map F (filter B (cells (grid_points g)))).
Proof.
  intros X g prs B B' F F' [M1 M2] AB AF.
  assert (E : map F' (filter B' (map snd prs)) = map F (filter B (map fst prs))).
  { clear M1 M2. revert AB AF. induction prs as [|[p q] prs]; intros AB AF; cbn [map fst snd filter]; auto.
    rewrite (AB p q) by (left; auto). destruct (B p); cbn [map].
    rewrite (AF p q) by (left; auto). rewrite IHprs; auto; intros p' q' I; [apply AB|apply AF]; right; auto.
    apply IHprs; intros p' q' I; [apply AB|apply AF]; right; auto. }
  rewrite M1 in E. rewrite <- E. apply Permutation_map. symmetry.
  clear - M2. revert M2. generalize (map snd prs) (cells (grid_points g)). induction 1; simpl; auto.
  destruct (B' x); auto. destruct (B' x), (B' y); auto. constructor. eapply perm_trans; eauto.
Qed.

(** ** equational form of the painting loop *)
Lemma any_true_existsb : forall A (h : A -> bool) a, any_true (amap h a) = existsb h (cells a).
Proof.
  intros. unfold any_true. rewrite cells_amap. induction (cells a); simpl; auto. rewrite IHl; auto.
Qed.
Lemma paint_facula_eq : forall s lat0 lon0 F f, fc_grid f = st_grid s ->
  paint_facula s lat0 lon0 (star_mu s lat0 lon0) (amap F (grid_points (st_grid s))) f
  = if negb (existsb (insidep s f) (cells (grid_points (st_grid s)))) then Ok (amap F (grid_points (st_grid s)))
    else do fracs <- fac_fractional_area f (get_angle_between lat0 lon0 (fc_lat f) (fc_lon f)) ;;
      match fracs with
      | [(kw, q); (kf, _)] =>
          do b <- quantile (map (mup lat0 lon0) (filter (insidep s f) (cells (grid_points (st_grid s))))) q ;;
          Ok (amap (fun p => if insidep s f p then (if Rleb (mup lat0 lon0 p) b then fac_temp s kw else fac_temp s kf) else F p)
                (grid_points (st_grid s)))
      | _ => Raise ValueError
      end.
Proof.
  intros s lat0 lon0 F f G. unfold paint_facula. rewrite fac_map_pixels_eq by auto. rewrite any_true_existsb.
  destruct (negb _); auto. destruct (fac_fractional_area _ _) as [fr|e]; cbn [bind]; auto.
  destruct fr as [|[kw q] [|[kf q'] [|]]]; auto.
  rewrite star_mu_eq. rewrite zip_same_amap. cbn [bind]. rewrite cells_amap, filter_map_comm, map_map.
  change (fun x : R * R => fst (law_cos lat0 lon0 (fst x) (snd x), insidep s f x)) with (mup lat0 lon0).
  change (fun x : R * R => snd (law_cos lat0 lon0 (fst x) (snd x), insidep s f x)) with (insidep s f).
  destruct (quantile _ _) as [b|e]; cbn [bind]; auto.
  rewrite !amap_amap, !amap2_amap. cbn [bind]. unfold mask_assign. rewrite zip_same_amap. cbn [bind].
  rewrite amap_amap, zip_same_amap. cbn [bind]. rewrite amap_amap. f_equal. apply amap_ext. intros p. cbn [fst snd].
  unfold mup, fac_temp. destruct (insidep s f p); cbn [andb]; auto. unfold Rleb, Rltb.
  destruct (Rle_dec (law_cos lat0 lon0 (fst p) (snd p)) b), (Rlt_dec b (law_cos lat0 lon0 (fst p) (snd p))); auto; lra.
Qed.

Lemma grid_eq_dec0 : forall g, {g = Spiral 0} + {g <> Spiral 0}.
Proof. intros [a b|[|n]]; [right; discriminate|left; auto|right; discriminate]. Qed.
(** ** the moved star *)
Definition isometry (rel : R * R -> R * R -> Prop) : Prop :=
  forall p p' q q', rel p q -> rel p' q' ->
    law_cos (fst q) (snd q) (fst q') (snd q') = law_cos (fst p) (snd p) (fst p') (snd p').
Definition same_paint (g : grid) prs (a b : res (arr num)) : Prop :=
  match a, b with
  | Ok m, Ok m' => exists F F', m = amap F (grid_points g) /\ m' = amap F' (grid_points g) /\ agree prs F F'
  | Raise e, Raise e' => e = e'
  | _, _ => False
  end.
Lemma moved_frac : forall rel f h a, moved_fac rel f h -> fac_fractional_area h a = fac_fractional_area f a.
Proof.
  intros rel f h a [_ [E1 [E2 [E3 [E4 [E5 [E6 E7]]]]]]]. unfold fac_fractional_area, fac_effective_area, fac_floor_dteff, fac_wall_dteff.
  rewrite E1, E2, E3, E4, E5, E6, E7. auto.
Qed.
Record sym_case (rel : R * R -> R * R -> Prop) (s s' : star) (prs : list ((R * R) * (R * R)))
  (lat0 lon0 lat0' lon0' : R) : Prop := {
  ISO : isometry rel; MV : moved_star rel s s'; MT : matched (st_grid s) prs;
  RP : forall p q, In (p, q) prs -> rel p q; RC : forall p q, In (p, q) prs -> cos (fst q) = cos (fst p);
  RO : rel (lat0, lon0) (lat0', lon0'); U0 : star_unified s; U1 : star_unified s' }.
Lemma sym_mu : forall rel s s' prs lat0 lon0 lat0' lon0', sym_case rel s s' prs lat0 lon0 lat0' lon0' ->
  agree prs (mup lat0 lon0) (mup lat0' lon0').
Proof.
  intros rel s s' prs lat0 lon0 lat0' lon0' SC. pose proof SC as [ISO MV MT RP RC RO U U']. intros p q I. apply (ISO (lat0, lon0) p (lat0', lon0') q); auto. Qed.
Lemma sym_inside : forall rel s s' prs lat0 lon0 lat0' lon0', sym_case rel s s' prs lat0 lon0 lat0' lon0' ->
  forall f h, moved_fac rel f h -> agree prs (insidep s f) (insidep s' h).
Proof.
  intros rel s s' prs lat0 lon0 lat0' lon0' SC. pose proof SC as [ISO MV MT RP RC RO U U'].
  intros f h [E [E1 _]] p q I. unfold insidep, fac_angular_radius. rewrite E1.
  destruct MV as [_ [_ [-> _]]]. do 2 f_equal. apply f_equal. apply (ISO (fc_lat f, fc_lon f) p (fc_lat h, fc_lon h) q); auto.
Qed.
Lemma sym_pv : forall rel s s' prs lat0 lon0 lat0' lon0', sym_case rel s s' prs lat0 lon0 lat0' lon0' ->
  forall x y, moved_spot rel x y -> forall p q, In (p, q) prs -> forall m, pv (st_radius s') q m y = pv (st_radius s) p m x.
Proof.
  intros rel s s' prs lat0 lon0 lat0' lon0' SC. pose proof SC as [ISO MV MT RP RC RO U U'].
  intros x y [E [E1 [E2 [E3 E4]]]] p q I m. unfold pv, umb_b, pen_b, spot_angular_radius, sep. rewrite E1, E2, E3, E4.
  destruct MV as [_ [_ [-> _]]].
  pose proof (ISO (sp_lat x, sp_lon x) p (sp_lat y, sp_lon y) q E (RP p q I)) as Q. cbn [fst snd] in Q. rewrite Q. auto.
Qed.
Lemma sym_spots : forall rel s s' prs lat0 lon0 lat0' lon0', sym_case rel s s' prs lat0 lon0 lat0' lon0' ->
  agree prs (fun p => fold_left (pv (st_radius s) p) (sc_spots (st_spots s)) (st_teff s))
  (fun p => fold_left (pv (st_radius s') p) (sc_spots (st_spots s')) (st_teff s')).
Proof.
  intros rel s s' prs lat0 lon0 lat0' lon0' SC. pose proof SC as [ISO MV MT RP RC RO U U'].
  intros p q I. pose proof (sym_pv _ _ _ _ _ _ _ _ SC) as P. destruct MV as [_ [-> [_ [_ [_ [_ [FS _]]]]]]].
  generalize (st_teff s). induction FS; cbn [fold_left]; auto. intros. rewrite (P _ _ H p q I). apply IHFS.
Qed.
Lemma sym_paint : forall rel s s' prs lat0 lon0 lat0' lon0', sym_case rel s s' prs lat0 lon0 lat0' lon0' ->
  forall l l', Forall2 (moved_fac rel) l l' -> (forall f, In f l -> fc_grid f = st_grid s) ->
  (forall f, In f l' -> fc_grid f = st_grid s') -> forall F F', agree prs F F' ->
  same_paint (st_grid s) prs (paint_faculae s lat0 lon0 (star_mu s lat0 lon0) (amap F (grid_points (st_grid s))) l)
     (paint_faculae s' lat0' lon0' (star_mu s' lat0' lon0') (amap F' (grid_points (st_grid s))) l').
Proof.
  intros rel s s' prs lat0 lon0 lat0' lon0' SC. pose proof SC as [ISO MV MT RP RC RO U U'].
  induction 1 as [|f h l l' MF FF IH]; intros UF UF' F F' A; cbn [paint_faculae].
  - exists F, F'. auto.
  - assert (Eg : st_grid s' = st_grid s) by apply MV.
    assert (Et : forall k, fac_temp s' k = fac_temp s k). { intros. unfold fac_temp. destruct MV as [_ [-> _]]; auto. }
    pose proof (paint_facula_eq s' lat0' lon0' F' h (UF' h (or_introl eq_refl))) as PE. rewrite Eg in PE. rewrite PE. clear PE.
    rewrite paint_facula_eq by (apply UF; left; auto). set (gp := grid_points (st_grid s)) in *.
    pose proof (sym_inside _ _ _ _ _ _ _ _ SC f h MF) as AI. pose proof (sym_mu _ _ _ _ _ _ _ _ SC) as AM.
    rewrite (moved_frac rel f h) by auto.
    assert (EX : existsb (insidep s' h) (cells gp) = existsb (insidep s f) (cells gp)).
    { destruct MT as [M1 M2]. change (grid_points (st_grid s)) with gp in M1, M2. rewrite <- (existsb_perm _ (insidep s' h) _ _ M2), <- M1.
      clear - AI. revert AI. induction prs as [|[p q] r]; intros AI; cbn [map existsb fst snd]; auto. rewrite (AI p q) by (left; auto).
      rewrite IHr; auto. intros p' q' I. apply AI; right; auto. }
    rewrite EX. destruct (negb _) eqn:EN; cbn [bind].
    + apply IH; auto; intros; [apply UF|apply UF']; right; auto.
    + assert (EA : get_angle_between lat0' lon0' (fc_lat h) (fc_lon h) = get_angle_between lat0 lon0 (fc_lat f) (fc_lon f)).
      { unfold get_angle_between. do 2 f_equal. apply (ISO (lat0, lon0) (fc_lat f, fc_lon f) (lat0', lon0') (fc_lat h, fc_lon h)); auto. apply MF. }
      rewrite EA. destruct (fac_fractional_area _ _) as [fr|e]; cbn [bind]; [|reflexivity].
      destruct fr as [|[kw q] [|[kf q'] [|]]]; cbn [bind]; try reflexivity.
      pose proof (quantile_perm _ _ q (agree_filter _ (st_grid s) prs _ _ _ _ MT AI AM)) as QE.
      change (grid_points (st_grid s)) with gp in QE. rewrite QE. clear QE.
      destruct (quantile _ _) as [b|e]; cbn [bind]; [|reflexivity].
      apply IH.
      { intros; apply UF; right; auto. } { intros; apply UF'; right; auto. }
      intros p r I. rewrite (AI p r I), (AM p r I), (A p r I), !Et. auto.
Qed.

(** ** transit mask *)
Definition same_mask (g : grid) prs (a b : res (arr num * num)) : Prop :=
  match a, b with
  | Ok (m, f), Ok (m', f') => f' = f /\ exists F F', m = amap F (grid_points g) /\ m' = amap F' (grid_points g) /\ agree prs F F'
  | Raise e, Raise e' => e = e'
  | _, _ => False
  end.
Lemma area_agree : forall g prs, (forall p q, In (p, q) prs -> cos (fst q) = cos (fst p)) -> agree prs (area_at g) (area_at g).
Proof. intros g prs RC p q I. unfold area_at. destruct g; auto. rewrite (RC p q I). auto. Qed.
Lemma nsub_0_r : forall x, nsub x (Fin 0) = x.
Proof. destruct x; simpl; auto. f_equal; ring. Qed.
Lemma circ_fraction_sq : forall x y x' y' r, nsq x' = nsq x -> nsq y' = nsq y -> circ_fraction x' y' r = circ_fraction x y r.
Proof. intros. unfold circ_fraction. rewrite !nsub_0_r, H, H0. auto. Qed.
Lemma sym_mask : forall rel s s' prs lat0 lon0 lat0' lon0', sym_case rel s s' prs lat0 lon0 lat0' lon0' ->
  forall orbit planet phase incl phase' incl' x y x' y',
  planet_xy s orbit (phase - PI) incl = (x, y) -> planet_xy s' orbit (phase' - PI) incl' = (x', y') ->
  nsq x' = nsq x -> nsq y' = nsq y -> cos phase' = cos phase ->
  (forall p q r ar, In (p, q) prs -> pixel_covered lat0' lon0' x' y' r q ar = pixel_covered lat0 lon0 x y r p ar) ->
  same_mask (st_grid s) prs (get_transit_mask s lat0 lon0 orbit planet phase incl)
    (get_transit_mask s' lat0' lon0' orbit planet phase' incl').
Proof.
  intros rel s s' prs lat0 lon0 lat0' lon0' SC. pose proof SC as [ISO MV MT RP RC RO U U'].
  intros orbit planet phase incl phase' incl' x y x' y' E1 E2 Ex Ey Ec HP.
  unfold get_transit_mask. rewrite E1, E2, Ex, Ey, Ec. unfold get_pl_frac. rewrite E1, E2.
  assert (Eg : st_grid s' = st_grid s) by apply MV. assert (Er : st_radius s' = st_radius s) by apply MV.
  rewrite Eg, Er. rewrite (circ_fraction_sq x y x' y') by auto.
  assert (Z : forall v, same_mask (st_grid s) prs (Ok (grid_zeros (st_grid s), v)) (Ok (grid_zeros (st_grid s), v))).
  { intros v. simpl. split; auto. exists (fun _ => Fin 0), (fun _ => Fin 0). rewrite grid_zeros_eq. split; auto. split; auto. intros p q _; auto. }
  destruct (ngt _ _); auto. destruct (Rltb _ _).
  - destruct (circ_fraction _ _ _); cbn [bind]; auto. reflexivity.
  - destruct (grid_eq_dec0 (st_grid s)) as [E0|N0].
    + rewrite E0. reflexivity.
    + rewrite grid_area_eq by auto. cbn [bind]. rewrite !amap2_amap_r. cbn [bind].
      set (r := ndiv (Fin planet) (Fin (st_radius s))).
      assert (AG : agree prs (fun p => pixel_covered lat0 lon0 x y r p (area_at (st_grid s) p))
                     (fun p => pixel_covered lat0' lon0' x' y' r p (area_at (st_grid s) p))).
      { intros p q I. rewrite (area_agree (st_grid s) prs RC p q I). apply HP; auto. }
      rewrite (existsb_perm _ nisnan _ _ (agree_perm_cells _ _ _ _ _ MT AG)).
      destruct (existsb _ _); [reflexivity|]. split; auto. eauto.
Qed.

(** ** the report *)
Lemma loop_agree : forall g prs T T' L L' P P' C C' total, matched g prs -> agree prs T T' -> agree prs L L' -> agree prs P P' -> agree prs C C' ->
  forall teffs acc, coverage_loop (amap T' (grid_points g)) (amap L' (grid_points g)) (amap P' (grid_points g)) (amap C' (grid_points g)) total acc teffs
  = coverage_loop (amap T (grid_points g)) (amap L (grid_points g)) (amap P (grid_points g)) (amap C (grid_points g)) total acc teffs.
Proof.
  intros g prs T T' L L' P P' C C' total MT AT AL AP AC. induction teffs as [|t r]; intros acc; cbn [coverage_loop]; auto.
  unfold coverage_step. rewrite !amap_amap, !amap2_amap. cbn [bind]. rewrite !amap2_amap. cbn [bind]. rewrite !amap2_amap. cbn [bind].
  rewrite !cells_amap. 
  set (f := fun z : R * R => nmul (nmul (Fin (if neq (T z) t then 1 else 0)) (Fin (L z))) (P z)).
  set (f' := fun z : R * R => nmul (nmul (Fin (if neq (T' z) t then 1 else 0)) (Fin (L' z))) (P' z)).
  assert (Af : agree prs f f') by (intros p q I; unfold f, f'; rewrite (AT p q I), (AL p q I), (AP p q I); auto).
  assert (Ac : agree prs (fun z => nmul (f z) (C z)) (fun z => nmul (f' z) (C' z))) by (intros p q I; rewrite (Af p q I), (AC p q I); auto).
  rewrite (nsum_perm _ _ (agree_perm _ _ _ _ _ MT Af)). 
  change (fun x : R * R => nmul (nmul (nmul (Fin (if neq (T x) t then 1 else 0)) (Fin (L x))) (P x)) (C x)) with (fun z => nmul (f z) (C z)).
  change (fun x : R * R => nmul (nmul (nmul (Fin (if neq (T' x) t then 1 else 0)) (Fin (L' x))) (P' x)) (C' x)) with (fun z => nmul (f' z) (C' z)).
  rewrite (nsum_perm _ _ (agree_perm _ _ _ _ _ MT Ac)). apply IHr.
Qed.
Lemma sym_coverage : forall rel s s' prs lat0 lon0 lat0' lon0', sym_case rel s s' prs lat0 lon0 lat0' lon0' ->
  forall gf orbit planet phase incl phase' incl' x y x' y',
  planet_xy s orbit (phase - PI) incl = (x, y) -> planet_xy s' orbit (phase' - PI) incl' = (x', y') ->
  nsq x' = nsq x -> nsq y' = nsq y -> cos phase' = cos phase ->
  (forall p q r ar, In (p, q) prs -> pixel_covered lat0' lon0' x' y' r q ar = pixel_covered lat0 lon0 x y r p ar) ->
  calc_coverage s' lat0' lon0' gf orbit planet phase' incl' = calc_coverage s lat0 lon0 gf orbit planet phase incl.
Proof.
  intros rel s s' prs lat0 lon0 lat0' lon0' SC. pose proof SC as [ISO MV MT RP RC RO U U'].
  intros gf orbit planet phase incl phase' incl' x y x' y' E1 E2 Ex Ey Ec HP.
  assert (Eg : st_grid s' = st_grid s) by apply MV. assert (Et : st_teff s' = st_teff s) by apply MV.
  assert (Ed : gr_dteff (st_gran s') = gr_dteff (st_gran s)) by apply MV.
  assert (Eu : st_u1 s' = st_u1 s) by apply MV. assert (Ev : st_u2 s' = st_u2 s) by apply MV.
  pose proof (sym_mask _ _ _ _ _ _ _ _ SC orbit planet phase incl phase' incl' x y x' y' E1 E2 Ex Ey Ec HP) as SM.
  assert (SP : same_paint (st_grid s) prs (add_faculae_to_map s lat0 lon0) (add_faculae_to_map s' lat0' lon0')).
  { unfold add_faculae_to_map. rewrite !star_map_eq by auto. cbn [bind]. rewrite Eg at 1.
    apply (sym_paint _ _ _ _ _ _ _ _ SC). apply MV. apply U. apply U'. apply (sym_spots _ _ _ _ _ _ _ _ SC). }
  unfold calc_coverage. rewrite !star_mu_eq. unfold star_jacobian. rewrite Eg, Et, Ed.
  destruct (grid_eq_dec0 (st_grid s)) as [E0|N0]; [rewrite E0; reflexivity|].
  rewrite grid_area_eq by auto. cbn [bind]. rewrite !amap_amap, !amap2_amap. cbn [bind].
  destruct (add_faculae_to_map s lat0 lon0) as [m|e]; destruct (add_faculae_to_map s' lat0' lon0') as [m'|e']; simpl in SP; try contradiction; [|subst; auto].
  cbn [bind]. destruct SP as [T [T' [-> [-> AT]]]].
  destruct (get_transit_mask s lat0 lon0 orbit planet phase incl) as [[c f]|e]; destruct (get_transit_mask s' lat0' lon0' orbit planet phase' incl') as [[c' f']|e']; simpl in SM; try contradiction; [|subst; auto].
  cbn [bind]. destruct SM as [-> [C [C' [-> [-> AC]]]]].
  rewrite !amap2_amap. cbn [bind].
  pose proof (sym_mu _ _ _ _ _ _ _ _ SC) as AM.
  set (L := fun p : R * R => ld_plot s (law_cos lat0 lon0 (fst p) (snd p))).
  set (L' := fun p : R * R => ld_plot s' (law_cos lat0' lon0' (fst p) (snd p))).
  set (P := fun p : R * R => nmul (area_at (st_grid s) p) (Fin (area_projection (law_cos lat0 lon0 (fst p) (snd p))))).
  set (P' := fun p : R * R => nmul (area_at (st_grid s) p) (Fin (area_projection (law_cos lat0' lon0' (fst p) (snd p))))).
  assert (AL : agree prs L L'). { intros p q I. unfold L, L'. pose proof (AM p q I) as M. unfold mup in M. rewrite M. unfold ld_plot. rewrite Eu, Ev. auto. }
  assert (AP : agree prs P P'). { intros p q I. unfold P, P'. pose proof (AM p q I) as M. unfold mup in M. rewrite M. rewrite (area_agree (st_grid s) prs RC p q I). auto. }
  rewrite !cells_amap. rewrite (nunique_perm _ _ (agree_perm _ _ _ _ _ MT AT)).
  assert (AS : agree prs (fun p => nmul (Fin (L p)) (P p)) (fun p => nmul (Fin (L' p)) (P' p))) by (intros p q I; rewrite (AL p q I), (AP p q I); auto).
  pose proof (nsum_perm _ _ (agree_perm _ _ _ _ _ MT AS)) as SE. unfold L', P', L, P in SE. rewrite SE. clear SE.
  rewrite (loop_agree _ prs T T' L L' P P' C C') by auto. auto.
Qed.

(** ** where a place is drawn *)
Lemma po_ratio_x0 : forall lat0 lon0 lat lon, ortho_x lat0 lon0 lat lon = 0 -> law_cos lat0 lon0 lat lon < 1 -> -1 < law_cos lat0 lon0 lat lon ->
  po_ratio lat0 lon0 lat lon = 1 \/ po_ratio lat0 lon0 lat lon = -1.
Proof.
  intros. destruct (po_ratio_bound lat0 lon0 lat lon) as [P _]; auto.
  pose proof (ortho_pyth lat0 lon0 lat lon) as Y. rewrite <- law_cos_dot in Y. rewrite H in Y.
  assert (B : -1 <= law_cos lat0 lon0 lat lon <= 1) by lra. pose proof (sin_acos_sq _ B) as S2. unfold po_ratio.
  set (t := sin (acos (law_cos lat0 lon0 lat lon))) in *. set (y := ortho_y lat0 lon0 lat lon) in *.
  assert ((y - t) * (y + t) = 0) by nra. apply Rmult_integral in H2. destruct H2; [left|right].
  - replace y with t by lra. field. lra.
  - replace y with (- t) by lra. field. lra.
Qed.
Definition sgn (x : R) : R := if Rlt_dec x 0 then -1 else 1.
Lemma round4_1 : round4 1 = 1.
Proof. unfold round4. replace (1 * 10000) with (IZR 10000) by lra. rewrite rhe_IZR. lra. Qed.
Lemma round4_m1 : round4 (-1) = -1.
Proof. unfold round4. replace (-1 * 10000) with (IZR (-10000)) by lra. rewrite rhe_IZR. lra. Qed.
Lemma rhe_neg : forall x, rhe (- x) = (- rhe x)%Z.
Proof.
  intros. destruct (rhe_spec x) as [A A2]. destruct (rhe_spec (-x)) as [B B2].
  set (a := rhe x) in *. set (b := rhe (-x)) in *.
  assert (C : Rabs (IZR (b + a)) <= 1). { rewrite plus_IZR. unfold Rabs in *. repeat destruct (Rcase_abs _); lra. }
  rewrite <- abs_IZR in C. apply le_IZR in C.
  destruct (Z.eq_dec (b + a) 0) as [|N]; [lia|]. exfalso.
  assert (D : Rabs (IZR (b + a)) = 1). { rewrite <- abs_IZR. f_equal. lia. }
  rewrite plus_IZR in D.
  assert (EA : Rabs (IZR a - x) = 1/2) by (unfold Rabs in *; repeat destruct (Rcase_abs _); lra).
  assert (EB : Rabs (IZR b - - x) = 1/2) by (unfold Rabs in *; repeat destruct (Rcase_abs _); lra).
  specialize (A2 EA). specialize (B2 EB). apply Z.even_spec in A2. apply Z.even_spec in B2.
  destruct A2, B2. lia.
Qed.
Lemma round4_neg : forall x, round4 (- x) = - round4 x.
Proof.
  intros. unfold round4. replace (- x * 10000) with (- (x * 10000)) by ring. rewrite rhe_neg, opp_IZR. lra.
Qed.
Lemma po_cosC_x0 : forall lat0 lon0 lat lon, ortho_x lat0 lon0 lat lon = 0 -> -1 < law_cos lat0 lon0 lat lon ->
  (po_cosC lat0 lon0 lat lon)^2 = 1.
Proof.
  intros. unfold po_cosC. destruct (Rlt_dec _ _); [|ring].
  destruct (po_ratio_x0 lat0 lon0 lat lon) as [-> | ->]; auto. rewrite round4_1; ring. rewrite round4_m1; ring.
Qed.
Lemma proj_canon : forall lat0 lon0 lat lon, - PI/2 < lat0 < PI/2 -> - PI/2 <= lat <= PI/2 -> 0 <= law_cos lat0 lon0 lat lon ->
  proj_ortho lat0 lon0 (lat, lon)
  = (Fin (sgn (sin (lon - lon0)) * sqrt (1 - (po_cosC lat0 lon0 lat lon)^2) * sin (acos (law_cos lat0 lon0 lat lon))),
     Fin (po_cosC lat0 lon0 lat lon * sin (acos (law_cos lat0 lon0 lat lon)))).
Proof.
  intros lat0 lon0 lat lon L0 L V. rewrite proj_ortho_visible by (rewrite <- ?law_cos_dot; auto).
  assert (KB : -1 <= po_cosC lat0 lon0 lat lon <= 1) by (apply po_cosC_bound; lra).
  set (t := sin (acos (law_cos lat0 lon0 lat lon))). unfold po_C.
  destruct (Req_EM_T lon lon0) as [->|N].
  - assert (D0 : lon0 - lon0 = 0) by ring. rewrite D0, sin_0. unfold sgn. destruct (Rlt_dec 0 0); [lra|].
    assert (X0 : ortho_x lat0 lon0 lat lon0 = 0) by (rewrite ortho_x_eq, D0, sin_0; ring).
    assert (K1 : (po_cosC lat0 lon0 lat lon0)^2 = 1) by (apply po_cosC_x0; auto; lra).
    rewrite K1. replace (1 - 1) with 0 by ring. rewrite sqrt_0.
    assert (M : law_cos lat0 lon0 lat lon0 = cos (lat - lat0)). { unfold law_cos. rewrite D0, cos_0, cos_minus. ring. }
    assert (Y : ortho_y lat0 lon0 lat lon0 = sin (lat - lat0)).
    { pose proof (ortho_y_eq lat0 lon0 lat lon0). assert (0 < cos lat0) by (apply cos_gt_0; lra).
      apply Rmult_eq_reg_r with (cos lat0); [|lra].
      assert (sin (lat - lat0) * cos lat0 = sin lat - law_cos lat0 lon0 lat lon0 * sin lat0).
      { rewrite M. rewrite sin_minus, cos_minus. pose proof (sin2_cos2 lat0) as Q. unfold Rsqr in Q.
        transitivity (sin lat * (cos lat0 * cos lat0) - cos lat * sin lat0 * cos lat0); [ring|].
        replace (cos lat0 * cos lat0) with (1 - sin lat0 * sin lat0) by lra. ring. }
      lra. }
    destruct (Rlt_dec lat lat0) as [LT|GE].
    + assert (AC : acos (law_cos lat0 lon0 lat lon0) = lat0 - lat).
      { rewrite M. replace (lat - lat0) with (- (lat0 - lat)) by ring. rewrite cos_neg. apply acos_cos. lra. }
      assert (M1 : law_cos lat0 lon0 lat lon0 < 1).
      { assert (0 < sin (lat0 - lat)) by (apply sin_gt_0; lra). pose proof (sin_acos_sq (law_cos lat0 lon0 lat lon0) (law_cos_bound _ _ _ _)) as Q.
        rewrite AC in Q. destruct (law_cos_bound lat0 lon0 lat lon0) as [_ [?|E]]; auto. rewrite E in Q. nra. }
      assert (K : po_cosC lat0 lon0 lat lon0 = -1).
      { unfold po_cosC. destruct (Rlt_dec _ _); [|lra]. unfold po_ratio. rewrite Y, AC.
        replace (lat - lat0) with (- (lat0 - lat)) by ring. rewrite sin_neg. assert (0 < sin (lat0 - lat)) by (apply sin_gt_0; lra).
        replace (- sin (lat0 - lat) / sin (lat0 - lat)) with (-1) by (field; lra). apply round4_m1. }
      rewrite K, sin_PI, cos_PI. f_equal; f_equal; ring.
    + rewrite sin_0, cos_0. destruct (Req_dec lat lat0) as [->|NE].
      * assert (T0 : t = 0). { unfold t. rewrite M. replace (lat0 - lat0) with 0 by ring. rewrite cos_0, acos_1, sin_0. auto. }
        rewrite T0. f_equal; f_equal; ring.
      * assert (AC : acos (law_cos lat0 lon0 lat lon0) = lat - lat0) by (rewrite M; apply acos_cos; lra).
        assert (SP : 0 < sin (lat - lat0)) by (apply sin_gt_0; lra).
        assert (M1 : law_cos lat0 lon0 lat lon0 < 1).
        { pose proof (sin_acos_sq (law_cos lat0 lon0 lat lon0) (law_cos_bound _ _ _ _)) as Q.
          rewrite AC in Q. destruct (law_cos_bound lat0 lon0 lat lon0) as [_ [?|E]]; auto. rewrite E in Q. nra. }
        assert (K : po_cosC lat0 lon0 lat lon0 = 1).
        { unfold po_cosC. destruct (Rlt_dec _ _); [|lra]. unfold po_ratio. rewrite Y, AC.
          replace (sin (lat - lat0) / sin (lat - lat0)) with 1 by (field; lra). apply round4_1. }
        rewrite K. f_equal; f_equal; ring.
  - unfold sgn. destruct (Rlt_dec (sin (lon - lon0)) 0).
    + rewrite sin_neg, cos_neg, cos_acos, sin_acos by auto. unfold Rsqr. f_equal; f_equal.
      replace (po_cosC lat0 lon0 lat lon ^ 2) with (po_cosC lat0 lon0 lat lon * po_cosC lat0 lon0 lat lon) by ring. ring.
    + rewrite cos_acos, sin_acos by auto. unfold Rsqr. f_equal; f_equal.
      replace (po_cosC lat0 lon0 lat lon ^ 2) with (po_cosC lat0 lon0 lat lon * po_cosC lat0 lon0 lat lon) by ring. ring.
Qed.
Lemma proj_split : forall lat0 lon0 lat lon, - PI/2 <= lat0 <= PI/2 -> - PI/2 <= lat <= PI/2 ->
  law_cos lat0 lon0 lat lon < 0 -> proj_ortho lat0 lon0 (lat, lon) = (NaN, NaN).
Proof. intros. apply C08_lemma; auto. rewrite <- law_cos_dot; auto. Qed.
(** the projection of a turned place *)
Lemma proj_turn : forall d lat0 lon0 lat lon lon0' lon', - PI/2 < lat0 < PI/2 -> - PI/2 <= lat <= PI/2 ->
  turned d (lat0, lon0) (lat0, lon0') -> turned d (lat, lon) (lat, lon') ->
  proj_ortho lat0 lon0' (lat, lon') = proj_ortho lat0 lon0 (lat, lon).
Proof.
  intros d lat0 lon0 lat lon lon0' lon' L0 L [_ [m0 E0]] [_ [m1 E1]]. cbn [fst snd] in *.
  assert (D : lon' - lon0' = lon - lon0 + 2 * PI * IZR (m1 - m0)) by (rewrite E0, E1, minus_IZR; ring).
  assert (M : law_cos lat0 lon0' lat lon' = law_cos lat0 lon0 lat lon).
  { unfold law_cos. replace (lon0' - lon') with (- (lon' - lon0')) by ring. rewrite cos_neg, D, cos_2kPI.
    replace (lon0 - lon) with (- (lon - lon0)) by ring. rewrite cos_neg. auto. }
  destruct (Rlt_dec (law_cos lat0 lon0 lat lon) 0).
  - rewrite !proj_split; auto; try lra.
  - assert (O : ortho_y lat0 lon0' lat lon' = ortho_y lat0 lon0 lat lon).
    { assert (0 < cos lat0) by (apply cos_gt_0; lra). apply Rmult_eq_reg_r with (cos lat0); [|lra].
      pose proof (ortho_y_eq lat0 lon0' lat lon'). pose proof (ortho_y_eq lat0 lon0 lat lon). rewrite M in H0. lra. }
    rewrite !proj_canon by lra. unfold po_cosC, po_ratio. rewrite M, O, D, sin_2kPI. auto.
Qed.

Lemma pole_or : forall lat0, - PI/2 <= lat0 <= PI/2 -> - PI/2 < lat0 < PI/2 \/ (lat0 = PI/2 \/ lat0 = - PI/2).
Proof. intros. destruct (Rle_lt_or_eq_dec (-PI/2) lat0); try lra; destruct (Rle_lt_or_eq_dec lat0 (PI/2)); lra. Qed.
Lemma proj_full_turn : forall lat0 lon0 lat lon lon0' lon', - PI/2 <= lat0 <= PI/2 -> - PI/2 <= lat <= PI/2 ->
  turned 0 (lat0, lon0) (lat0, lon0') -> turned 0 (lat, lon) (lat, lon') ->
  proj_ortho lat0 lon0' (lat, lon') = proj_ortho lat0 lon0 (lat, lon).
Proof.
  intros lat0 lon0 lat lon lon0' lon' L0 L T0 T1. destruct (pole_or lat0 L0) as [I|P].
  - apply (proj_turn 0); auto.
  - destruct (proj_ortho_pole lat0 lon0 lat lon P L) as [A B]. destruct (proj_ortho_pole lat0 lon0' lat lon' P L) as [A' B'].
    assert (E : forall a b, cos_sep lat0 a lat b = sin lat0 * sin lat).
    { intros. rewrite <- law_cos_dot. unfold law_cos. assert (cos lat0 = 0). { destruct P as [-> | ->]. apply cos_PI2. replace (-PI/2) with (- (PI/2)) by lra. rewrite cos_neg. apply cos_PI2. }
      rewrite H. ring. }
    destruct T1 as [_ [m E1]]. cbn [fst snd] in E1.
    rewrite E in *. destruct (Rlt_dec (sin lat0 * sin lat) 0).
    + rewrite B, B'; auto.
    + rewrite A, A' by lra. unfold ortho_x, ortho_y, east, north, dot, vec. 
      replace lon' with (lon + 2 * PI * IZR m) by lra. rewrite sin_2kPI, cos_2kPI. auto.
Qed.
Lemma sgn_opp : forall x, x <> 0 -> sgn (- x) = - sgn x.
Proof. intros. unfold sgn. destruct (Rlt_dec (-x) 0), (Rlt_dec x 0); try lra. Qed.
Definition onx (f : num -> num) (p : num * num) := (f (fst p), snd p).
Definition ony (f : num -> num) (p : num * num) := (fst p, f (snd p)).
Lemma proj_ew : forall lat0 lon0 lat lon lon0' lon', - PI/2 <= lat0 <= PI/2 -> - PI/2 <= lat <= PI/2 ->
  mirrored_ew (lat0, lon0) (lat0, lon0') -> mirrored_ew (lat, lon) (lat, lon') ->
  proj_ortho lat0 lon0' (lat, lon') = onx nneg (proj_ortho lat0 lon0 (lat, lon)).
Proof.
  intros lat0 lon0 lat lon lon0' lon' L0 L [_ [m0 E0]] [_ [m1 E1]]. cbn [fst snd] in *.
  assert (D : lon' - lon0' = - (lon - lon0) + 2 * PI * IZR (m1 - m0)) by (rewrite E0, E1, minus_IZR; ring).
  assert (M : law_cos lat0 lon0' lat lon' = law_cos lat0 lon0 lat lon).
  { unfold law_cos. replace (lon0' - lon') with (- (lon' - lon0')) by ring. rewrite cos_neg, D, cos_2kPI.
    replace (lon0 - lon) with (- (lon - lon0)) by ring. auto. }
  destruct (Rlt_dec (law_cos lat0 lon0 lat lon) 0) as [V|V].
  - rewrite !proj_split; auto; try lra.
  - destruct (pole_or lat0 L0) as [I|P].
    + assert (O : ortho_y lat0 lon0' lat lon' = ortho_y lat0 lon0 lat lon).
      { assert (0 < cos lat0) by (apply cos_gt_0; lra). apply Rmult_eq_reg_r with (cos lat0); [|lra].
        pose proof (ortho_y_eq lat0 lon0' lat lon'). pose proof (ortho_y_eq lat0 lon0 lat lon). rewrite M in H0. lra. }
      rewrite !proj_canon by lra.
      assert (K : po_cosC lat0 lon0' lat lon' = po_cosC lat0 lon0 lat lon) by (unfold po_cosC, po_ratio; rewrite M, O; auto).
      rewrite K, M, D, sin_2kPI, sin_neg. unfold onx. cbn [fst snd nneg]. f_equal. f_equal.
      destruct (Req_dec (sin (lon - lon0)) 0) as [Z|N].
      * rewrite po_cosC_x0; [|rewrite ortho_x_eq, Z; ring|lra]. replace (1 - 1) with 0 by ring. rewrite sqrt_0. ring.
      * rewrite sgn_opp by auto. ring.
    + destruct (proj_ortho_pole lat0 lon0 lat lon P L) as [A _]. destruct (proj_ortho_pole lat0 lon0' lat lon' P L) as [A' _].
      rewrite <- law_cos_dot in A, A'. rewrite A, A' by lra. unfold onx. cbn [fst snd nneg].
      unfold ortho_x, ortho_y, east, north, dot, vec. rewrite E1, sin_2kPI, cos_2kPI, sin_neg, cos_neg, sin_0. f_equal; f_equal; ring.
Qed.
Lemma proj_ns : forall lat0 lon0 lat lon lon0' lon', - PI/2 <= lat0 <= PI/2 -> - PI/2 <= lat <= PI/2 ->
  mirrored_ns (lat0, lon0) (- lat0, lon0') -> mirrored_ns (lat, lon) (- lat, lon') ->
  proj_ortho (- lat0) lon0' (- lat, lon') = ony nneg (proj_ortho lat0 lon0 (lat, lon)).
Proof.
  intros lat0 lon0 lat lon lon0' lon' L0 L [_ [m0 E0]] [_ [m1 E1]]. cbn [fst snd] in *.
  assert (D : lon' - lon0' = lon - lon0 + 2 * PI * IZR (m1 - m0)) by (rewrite E0, E1, minus_IZR; ring).
  assert (M : law_cos (- lat0) lon0' (- lat) lon' = law_cos lat0 lon0 lat lon).
  { unfold law_cos. replace (lon0' - lon') with (- (lon' - lon0')) by ring. rewrite !cos_neg, D, cos_2kPI, !sin_neg.
    replace (lon0 - lon) with (- (lon - lon0)) by ring. rewrite cos_neg. ring. }
  destruct (Rlt_dec (law_cos lat0 lon0 lat lon) 0) as [V|V].
  - rewrite !proj_split; auto; try lra.
  - destruct (pole_or lat0 L0) as [I|P].
    + assert (O : ortho_y (- lat0) lon0' (- lat) lon' = - ortho_y lat0 lon0 lat lon).
      { assert (0 < cos lat0) by (apply cos_gt_0; lra). apply Rmult_eq_reg_r with (cos lat0); [|lra].
        pose proof (ortho_y_eq (- lat0) lon0' (- lat) lon') as Y1. pose proof (ortho_y_eq lat0 lon0 lat lon). rewrite M, cos_neg, !sin_neg in Y1. lra. }
      rewrite !proj_canon by lra. rewrite M, D, sin_2kPI. unfold ony. cbn [fst snd nneg].
      destruct (Rlt_dec (law_cos lat0 lon0 lat lon) 1) as [LT|GE].
      * assert (K : po_cosC (- lat0) lon0' (- lat) lon' = - po_cosC lat0 lon0 lat lon).
        { unfold po_cosC, po_ratio. rewrite M, O. destruct (Rlt_dec _ 1); [|lra].
          rewrite <- round4_neg. f_equal. destruct (po_ratio_bound lat0 lon0 lat lon) as [Q _]; try lra. }
        rewrite K. f_equal; f_equal; [|ring]. replace ((- po_cosC lat0 lon0 lat lon)^2) with ((po_cosC lat0 lon0 lat lon)^2) by ring. auto.
      * assert (E : law_cos lat0 lon0 lat lon = 1) by (pose proof (law_cos_bound lat0 lon0 lat lon); lra).
        rewrite E, acos_1, sin_0. f_equal; f_equal; ring.
    + assert (P' : - lat0 = PI/2 \/ - lat0 = - PI/2) by lra. assert (L' : - PI/2 <= - lat <= PI/2) by lra.
      destruct (proj_ortho_pole lat0 lon0 lat lon P L) as [A _]. destruct (proj_ortho_pole (- lat0) lon0' (- lat) lon' P' L') as [A' _].
      rewrite <- law_cos_dot in A, A'. rewrite A, A' by lra. unfold ony. cbn [fst snd nneg].
      unfold ortho_x, ortho_y, east, north, dot, vec. rewrite E1, sin_2kPI, cos_2kPI, !sin_neg, !cos_neg, sin_0, cos_0. f_equal; f_equal; ring.
Qed.
(** ** the mask of a mirrored view *)
Lemma nsq_neg : forall x, nsq (nneg x) = nsq x.
Proof. intros [x| | |]; simpl; auto. f_equal. ring. Qed.
Lemma nsub_neg : forall a b, nsub (nneg a) (nneg b) = nneg (nsub a b).
Proof. intros [x| | |] [y| | |]; simpl; auto. f_equal. ring. Qed.
Lemma inf_signed_opp : forall x b, inf_signed (- x) b = nneg (inf_signed x b).
Proof.
  intros. unfold inf_signed. destruct (Rlt_dec 0 (-x)), (Rlt_dec 0 x), (Rlt_dec (-x) 0), (Rlt_dec x 0); try lra; destruct b; auto.
Qed.
Lemma nmul_opp_r : forall a x, nmul a (Fin (- x)) = nneg (nmul a (Fin x)).
Proof. intros [a| | |] x; simpl; auto. f_equal; ring. apply inf_signed_opp. apply inf_signed_opp. Qed.
Lemma pixel_ew : forall lat0 lon0 lon0' x y r p q ar, law_cos lat0 lon0' (fst q) (snd q) = law_cos lat0 lon0 (fst p) (snd p) ->
  proj_ortho lat0 lon0' q = onx nneg (proj_ortho lat0 lon0 p) ->
  pixel_covered lat0 lon0' (nneg x) y r q ar = pixel_covered lat0 lon0 x y r p ar.
Proof.
  intros. unfold pixel_covered. rewrite H, H0. destruct (proj_ortho lat0 lon0 p) as [xc yc]. unfold onx. cbn [fst snd].
  rewrite nsub_neg, nsq_neg. auto.
Qed.
Lemma pixel_ns : forall lat0 lon0 lat0' lon0' x y r p q ar, law_cos lat0' lon0' (fst q) (snd q) = law_cos lat0 lon0 (fst p) (snd p) ->
  proj_ortho lat0' lon0' q = ony nneg (proj_ortho lat0 lon0 p) ->
  pixel_covered lat0' lon0' x (nneg y) r q ar = pixel_covered lat0 lon0 x y r p ar.
Proof.
  intros. unfold pixel_covered. rewrite H, H0. destruct (proj_ortho lat0 lon0 p) as [xc yc]. unfold ony. cbn [fst snd].
  rewrite nsub_neg, nsq_neg. auto.
Qed.
Lemma pixel_same : forall lat0 lon0 lat0' lon0' x y r p q ar, law_cos lat0' lon0' (fst q) (snd q) = law_cos lat0 lon0 (fst p) (snd p) ->
  proj_ortho lat0' lon0' q = proj_ortho lat0 lon0 p ->
  pixel_covered lat0' lon0' x y r q ar = pixel_covered lat0 lon0 x y r p ar.
Proof. intros. unfold pixel_covered. rewrite H, H0. auto. Qed.

(** ** isometries *)
Lemma law_cos_flip : forall a b c d k, law_cos a (b + 2 * PI * IZR k) c d = law_cos a b c d.
Proof. intros. unfold law_cos. replace (b + 2 * PI * IZR k - d) with (b - d + 2 * PI * IZR k) by ring. rewrite cos_2kPI. auto. Qed.
Lemma law_cos_flip_r : forall a b c d k, law_cos a b c (d + 2 * PI * IZR k) = law_cos a b c d.
Proof.
  intros. unfold law_cos. replace (b - (d + 2 * PI * IZR k)) with (b - d + 2 * PI * IZR (- k)) by (rewrite opp_IZR; ring).
  rewrite cos_2kPI. auto.
Qed.
Lemma iso_turn : forall d, isometry (turned d).
Proof.
  intros d p p' q q' [A [m E]] [A' [m' E']]. rewrite E, E', A, A', law_cos_flip, law_cos_flip_r. unfold law_cos.
  do 2 f_equal. f_equal. ring.
Qed.
Lemma iso_ew : isometry mirrored_ew.
Proof.
  intros p p' q q' [A [m E]] [A' [m' E']]. rewrite E, E', A, A', law_cos_flip, law_cos_flip_r. unfold law_cos.
  replace (- snd p - - snd p') with (- (snd p - snd p')) by ring. rewrite cos_neg. auto.
Qed.
Lemma iso_ns : isometry mirrored_ns.
Proof.
  intros p p' q q' [A [m E]] [A' [m' E']]. rewrite E, E', A, A', law_cos_flip, law_cos_flip_r. unfold law_cos.
  rewrite !sin_neg, !cos_neg. ring.
Qed.

(** ** pairing the pixels of a grid *)
Definition rlat (a j : nat) : R := deg2rad (-90 + INR j * ((90 - -90) / INR (a - 1))).
Definition rlon (b i : nat) : R := deg2rad (0 + INR i * ((360 - 0) / INR b)).
Definition rp (a b i j : nat) : R * R := (rlat a j, rlon b i).
Lemma rect_cells : forall a b, cells (grid_points (Rect a b)) = flat_map (fun i => map (rp a b i) (seq 0 a)) (seq 0 b).
Proof.
  intros. unfold cells, grid_points, rect_oned, get_lat_points, get_lon_points, linspace, linspace_open. cbn [arows].
  rewrite flat_map_concat_map. f_equal. rewrite map_map. apply map_ext. intros i. rewrite map_map. auto.
Qed.
Lemma NoDup_map_in : forall A B (f : A -> B) l, NoDup l -> (forall x y, In x l -> In y l -> f x = f y -> x = y) -> NoDup (map f l).
Proof.
  induction 1; intros I; cbn [map]; constructor.
  - intros X. apply in_map_iff in X. destruct X as [y [E Y]]. apply I in E; [|right; auto|left; auto]. subst; auto.
  - apply IHNoDup. intros; apply I; auto; right; auto.
Qed.
Lemma perm_index : forall n (h k : nat -> nat), (forall i, (i < n)%nat -> (h i < n)%nat) -> (forall i, (i < n)%nat -> k (h i) = i) ->
  Permutation (map h (seq 0 n)) (seq 0 n).
Proof.
  intros n h k B I. apply NoDup_Permutation_bis.
  - apply NoDup_map_in; [apply seq_NoDup|]. intros x y X Y E. apply in_seq in X. apply in_seq in Y.
    rewrite <- (I x), <- (I y) by lia. congruence.
  - rewrite map_length. lia.
  - intros x X. apply in_map_iff in X. destruct X as [i [<- X]]. apply in_seq in X. apply in_seq. specialize (B i). lia.
Qed.
Lemma flat_map_perm : forall A B (f g : A -> list B) l, (forall x, Permutation (f x) (g x)) -> Permutation (flat_map f l) (flat_map g l).
Proof. induction l; intros; simpl; auto. apply Permutation_app; auto. Qed.
Lemma flat_map_map_in : forall A B C (f : A -> B) (g : B -> list C) l, flat_map g (map f l) = flat_map (fun x => g (f x)) l.
Proof. induction l; simpl; auto. rewrite IHl; auto. Qed.
Definition rpairs (a b : nat) (si tj : nat -> nat) : list ((R * R) * (R * R)) :=
  flat_map (fun i => map (fun j => (rp a b i j, rp a b (si i) (tj j))) (seq 0 a)) (seq 0 b).
Lemma rpairs_matched : forall a b si tj, Permutation (map si (seq 0 b)) (seq 0 b) -> Permutation (map tj (seq 0 a)) (seq 0 a) ->
  matched (Rect a b) (rpairs a b si tj).
Proof.
  intros a b si tj PI PJ. unfold matched. rewrite rect_cells. unfold rpairs. split.
  - rewrite flat_map_concat_map, concat_map, map_map, flat_map_concat_map. f_equal. apply map_ext. intros i. rewrite map_map. auto.
  - rewrite flat_map_concat_map, concat_map, map_map, <- flat_map_concat_map.
    apply perm_trans with (flat_map (fun i => map (rp a b (si i)) (seq 0 a)) (seq 0 b)).
    + apply flat_map_perm. intros i. rewrite map_map. cbn [snd]. rewrite <- (map_map tj (rp a b (si i))). apply Permutation_map. auto.
    + rewrite <- (flat_map_map_in _ _ _ si (fun i => map (rp a b i) (seq 0 a))). apply Permutation_flat_map. auto.
Qed.
Lemma rpairs_In : forall a b si tj p q, In (p, q) (rpairs a b si tj) ->
  exists i j, (i < b)%nat /\ (j < a)%nat /\ p = rp a b i j /\ q = rp a b (si i) (tj j).
Proof.
  intros a b si tj p q I. apply in_flat_map in I. destruct I as [i [X I]]. apply in_map_iff in I. destruct I as [j [E J]].
  apply in_seq in X. apply in_seq in J. injection E as <- <-. exists i, j. repeat split; lia.
Qed.
Lemma rlat_range : forall a j, (j < a)%nat -> - PI/2 <= rlat a j <= PI/2.
Proof.
  intros. pose proof PI_RGT_0. unfold rlat, deg2rad.
  assert (0 <= INR j * ((90 - -90) / INR (a - 1)) <= 180).
  { destruct (Nat.eq_dec a 1) as [->|N].
    - replace j with 0%nat by lia. simpl. lra.
    - assert (0 < INR (a - 1)) by (apply lt_0_INR; lia). assert (INR j <= INR (a - 1)) by (apply le_INR; lia). pose proof (pos_INR j).
      split. apply Rmult_le_pos; auto. apply Rlt_le. apply Rdiv_lt_0_compat; lra.
      apply Rmult_le_reg_r with (INR (a - 1)); auto. unfold Rdiv. rewrite !Rmult_assoc, Rinv_l by lra. nra. }
  set (u := INR j * ((90 - -90) / INR (a - 1))) in *. split; nra.
Qed.
Lemma any_lat_range : forall g p, In p (cells (grid_points g)) -> - PI/2 <= fst p <= PI/2.
Proof.
  intros [a b|n] p I.
  - rewrite rect_cells in I. apply in_flat_map in I. destruct I as [i [_ I]]. apply in_map_iff in I. destruct I as [j [<- J]].
    apply in_seq in J. apply rlat_range. lia.
  - destruct n. simpl in I. contradiction. apply (cell_lat_range (Spiral (S n))); auto. simpl. lia.
Qed.
Lemma rlat_flip : forall a j, (j < a)%nat -> a <> 1%nat -> rlat a (a - 1 - j) = - rlat a j.
Proof.
  intros. unfold rlat, deg2rad. assert (0 < INR (a - 1)) by (apply lt_0_INR; lia). rewrite (minus_INR (a - 1) j) by lia. field. lra.
Qed.
Lemma rlon_shift : forall b i k m, (0 < b)%nat -> forall i', (Z.of_nat i' = Z.of_nat i + k + Z.of_nat b * m)%Z ->
  rlon b i' = rlon b i + 2 * PI * IZR k / INR b + 2 * PI * IZR m.
Proof.
  intros b i k m B i' E. unfold rlon, deg2rad. assert (0 < INR b) by (apply lt_0_INR; auto).
  rewrite (INR_IZR_INZ i'), E, !plus_IZR, mult_IZR, <- !INR_IZR_INZ. field. lra.
Qed.
Definition turn_ix (b : nat) (k : Z) (i : nat) : nat := Z.to_nat ((Z.of_nat i + k) mod Z.of_nat b).
Lemma turn_ix_spec : forall b k i, (i < b)%nat -> (turn_ix b k i < b)%nat
  /\ (Z.of_nat (turn_ix b k i) = Z.of_nat i + k + Z.of_nat b * (- ((Z.of_nat i + k) / Z.of_nat b)))%Z.
Proof.
  intros. unfold turn_ix. pose proof (Z.mod_pos_bound (Z.of_nat i + k) (Z.of_nat b)).
  pose proof (Z.div_mod (Z.of_nat i + k) (Z.of_nat b)). lia.
Qed.
Lemma turn_ix_perm : forall b k, Permutation (map (turn_ix b k) (seq 0 b)) (seq 0 b).
Proof.
  intros. apply perm_index with (turn_ix b (- k)). intros; apply turn_ix_spec; auto.
  intros i Hi. destruct (turn_ix_spec b k i Hi) as [A E]. unfold turn_ix at 1. rewrite E.
  replace (Z.of_nat i + k + Z.of_nat b * - ((Z.of_nat i + k) / Z.of_nat b) + - k)%Z
    with (Z.of_nat i + (- ((Z.of_nat i + k) / Z.of_nat b)) * Z.of_nat b)%Z by ring.
  rewrite Z.mod_add by lia. rewrite Z.mod_small by lia. lia.
Qed.
Definition mirror_ix (b : nat) (i : nat) : nat := Z.to_nat ((- Z.of_nat i) mod Z.of_nat b).
Lemma mirror_ix_spec : forall b i, (i < b)%nat -> (mirror_ix b i < b)%nat
  /\ (Z.of_nat (mirror_ix b i) = - Z.of_nat i + Z.of_nat b * (- ((- Z.of_nat i) / Z.of_nat b)))%Z.
Proof.
  intros. unfold mirror_ix. pose proof (Z.mod_pos_bound (- Z.of_nat i) (Z.of_nat b)).
  pose proof (Z.div_mod (- Z.of_nat i) (Z.of_nat b)). lia.
Qed.
Lemma mirror_ix_perm : forall b, Permutation (map (mirror_ix b) (seq 0 b)) (seq 0 b).
Proof.
  intros. apply perm_index with (mirror_ix b). intros; apply mirror_ix_spec; auto.
  intros i Hi. destruct (mirror_ix_spec b i Hi) as [A E]. unfold mirror_ix at 1. rewrite E.
  replace (- (- Z.of_nat i + Z.of_nat b * - (- Z.of_nat i / Z.of_nat b)))%Z
    with (Z.of_nat i + (- Z.of_nat i / Z.of_nat b) * Z.of_nat b)%Z by ring.
  rewrite Z.mod_add by lia. rewrite Z.mod_small by lia. lia.
Qed.
Lemma id_perm : forall n, Permutation (map (fun i : nat => i) (seq 0 n)) (seq 0 n).
Proof. intros. rewrite map_id. auto. Qed.
Lemma flip_perm : forall n, Permutation (map (fun j => n - 1 - j)%nat (seq 0 n)) (seq 0 n).
Proof. intros. apply perm_index with (fun j => n - 1 - j)%nat; intros; lia. Qed.

Lemma pairs_lat : forall g prs p q, matched g prs -> In (p, q) prs -> (- PI/2 <= fst p <= PI/2) /\ (- PI/2 <= fst q <= PI/2).
Proof.
  intros g prs p q [M1 M2] I. split; apply (any_lat_range g).
  - rewrite <- M1. apply (in_map fst) in I. auto.
  - apply (Permutation_in _ M2). apply (in_map snd) in I. auto.
Qed.
Lemma planet_same : forall rel s s' orbit a incl, moved_star rel s s' -> planet_xy s' orbit a incl = planet_xy s orbit a incl.
Proof. intros. unfold planet_xy. destruct H as [_ [_ [-> _]]]. auto. Qed.

Lemma C75_turn_lemma : forall s s' nlat nlon (k : Z) lat0 lon0 lon0' gf orbit planet phase incl,
  star_unified s -> star_unified s' -> st_grid s = Rect nlat nlon ->
  moved_star (turned (2 * PI * IZR k / INR nlon)) s s' ->
  turned (2 * PI * IZR k / INR nlon) (lat0, lon0) (lat0, lon0') -> - PI/2 < lat0 < PI/2 ->
  calc_coverage s' lat0 lon0' gf orbit planet phase incl = calc_coverage s lat0 lon0 gf orbit planet phase incl.
Proof.
  intros s s' nlat nlon k lat0 lon0 lon0' gf orbit planet phase incl U U' G MV T L0.
  set (d := 2 * PI * IZR k / INR nlon) in *. set (prs := rpairs nlat nlon (turn_ix nlon k) (fun j => j)).
  assert (MT : matched (st_grid s) prs) by (rewrite G; apply rpairs_matched; [apply turn_ix_perm|apply id_perm]).
  assert (RP : forall p q, In (p, q) prs -> turned d p q).
  { intros p q I. apply rpairs_In in I. destruct I as [i [j [Hi [Hj [-> ->]]]]]. split; auto.
    destruct (turn_ix_spec nlon k i Hi) as [_ E]. eexists. apply (rlon_shift nlon i k); [lia|]. apply E. }
  destruct (planet_xy s orbit (phase - PI) incl) as [x y] eqn:EP.
  apply (sym_coverage (turned d) s s' prs lat0 lon0 lat0 lon0') with (x := x) (y := y) (x' := x) (y' := y); auto.
  - constructor; auto. apply iso_turn. intros p q I. destruct (RP p q I) as [-> _]; auto.
  - rewrite (planet_same _ _ _ _ _ _ MV). auto.
  - intros p q r ar I. pose proof (RP p q I) as R. destruct (pairs_lat _ _ _ _ MT I) as [B _]. apply pixel_same.
    + apply (iso_turn d (lat0, lon0) p (lat0, lon0') q); auto.
    + destruct p as [la lo], q as [la' lo']. assert (la' = la) by (destruct R as [E _]; exact E). subst la'.
      apply (proj_turn d); auto.
Qed.
Lemma C75_full_lemma : forall s s' lat0 lon0 lon0' gf orbit planet phase incl,
  star_unified s -> star_unified s' -> moved_star (turned 0) s s' ->
  turned 0 (lat0, lon0) (lat0, lon0') -> - PI/2 <= lat0 <= PI/2 ->
  calc_coverage s' lat0 lon0' gf orbit planet phase incl = calc_coverage s lat0 lon0 gf orbit planet phase incl.
Proof.
  intros s s' lat0 lon0 lon0' gf orbit planet phase incl U U' MV T L0.
  set (prs := map (fun p : R * R => (p, p)) (cells (grid_points (st_grid s)))).
  assert (MT : matched (st_grid s) prs). { unfold matched, prs. rewrite !map_map. cbn [fst snd]. rewrite map_id. auto. }
  assert (RE : forall p q, In (p, q) prs -> q = p). { intros p q I. apply in_map_iff in I. destruct I as [z [E _]]. injection E as <- <-. auto. }
  assert (RP : forall p q, In (p, q) prs -> turned 0 p q).
  { intros p q I. rewrite (RE p q I). split; auto. exists 0%Z. ring. }
  destruct (planet_xy s orbit (phase - PI) incl) as [x y] eqn:EP.
  apply (sym_coverage (turned 0) s s' prs lat0 lon0 lat0 lon0') with (x := x) (y := y) (x' := x) (y' := y); auto.
  - constructor; auto. apply iso_turn. intros p q I. destruct (RP p q I) as [-> _]; auto.
  - rewrite (planet_same _ _ _ _ _ _ MV). auto.
  - intros p q r ar I. pose proof (RP p q I) as R. destruct (pairs_lat _ _ _ _ MT I) as [B _]. apply pixel_same.
    + apply (iso_turn 0 (lat0, lon0) p (lat0, lon0') q); auto.
    + destruct p as [la lo], q as [la' lo']. assert (la' = la) by (destruct R as [E _]; exact E). subst la'.
      apply proj_full_turn; auto.
Qed.
Lemma C75_east_west_lemma : forall s s' nlat nlon lat0 lon0 lon0' gf orbit planet phase phase' incl (m : Z),
  star_unified s -> star_unified s' -> st_grid s = Rect nlat nlon -> moved_star mirrored_ew s s' ->
  mirrored_ew (lat0, lon0) (lat0, lon0') -> - PI/2 <= lat0 <= PI/2 -> phase' = - phase + 2 * PI * IZR m ->
  calc_coverage s' lat0 lon0' gf orbit planet phase' incl = calc_coverage s lat0 lon0 gf orbit planet phase incl.
Proof.
  intros s s' nlat nlon lat0 lon0 lon0' gf orbit planet phase phase' incl m U U' G MV T L0 EPH.
  set (prs := rpairs nlat nlon (mirror_ix nlon) (fun j => j)).
  assert (MT : matched (st_grid s) prs) by (rewrite G; apply rpairs_matched; [apply mirror_ix_perm|apply id_perm]).
  assert (RP : forall p q, In (p, q) prs -> mirrored_ew p q).
  { intros p q I. apply rpairs_In in I. destruct I as [i [j [Hi [Hj [-> ->]]]]]. split; auto.
    destruct (mirror_ix_spec nlon i Hi) as [_ E]. exists (- ((- Z.of_nat i) / Z.of_nat nlon))%Z. cbn [fst snd rp].
    assert (0 < INR nlon) by (apply lt_0_INR; lia). unfold rp, rlon, deg2rad. cbn [snd].
    rewrite (INR_IZR_INZ (mirror_ix nlon i)), E, plus_IZR, mult_IZR, opp_IZR, <- !INR_IZR_INZ. field. lra. }
  destruct (planet_xy s orbit (phase - PI) incl) as [x y] eqn:EP.
  assert (C1 : sin (phase' - PI) = - sin (phase - PI)).
  { rewrite EPH. replace (- phase + 2 * PI * IZR m - PI) with (- (phase - PI) + 2 * PI * IZR (m - 1)) by (rewrite minus_IZR; ring).
    rewrite sin_2kPI, sin_neg. auto. }
  assert (C2 : cos (phase' - PI) = cos (phase - PI)).
  { rewrite EPH. replace (- phase + 2 * PI * IZR m - PI) with (- (phase - PI) + 2 * PI * IZR (m - 1)) by (rewrite minus_IZR; ring).
    rewrite cos_2kPI, cos_neg. auto. }
  apply (sym_coverage mirrored_ew s s' prs lat0 lon0 lat0 lon0') with (x := x) (y := y) (x' := nneg x) (y' := y); auto.
  - constructor; auto. apply iso_ew. intros p q I. destruct (RP p q I) as [-> _]; auto.
  - rewrite (planet_same _ _ _ _ _ _ MV). unfold planet_xy in *. rewrite C1, C2, nmul_opp_r. injection EP as <- <-. auto.
  - apply nsq_neg.
  - rewrite EPH, cos_2kPI, cos_neg. auto.
  - intros p q r ar I. pose proof (RP p q I) as R. destruct (pairs_lat _ _ _ _ MT I) as [B _]. apply pixel_ew.
    + apply (iso_ew (lat0, lon0) p (lat0, lon0') q); auto.
    + destruct p as [la lo], q as [la' lo']. assert (la' = la) by (destruct R as [E _]; exact E). subst la'.
      apply proj_ew; auto.
Qed.
Lemma C75_north_south_lemma : forall s s' nlat nlon lat0 lon0 lon0' gf orbit planet phase incl,
  star_unified s -> star_unified s' -> st_grid s = Rect nlat nlon -> nlat <> 1%nat -> moved_star mirrored_ns s s' ->
  mirrored_ns (lat0, lon0) (- lat0, lon0') -> - PI/2 <= lat0 <= PI/2 ->
  calc_coverage s' (- lat0) lon0' gf orbit planet phase (PI - incl) = calc_coverage s lat0 lon0 gf orbit planet phase incl.
Proof.
  intros s s' nlat nlon lat0 lon0 lon0' gf orbit planet phase incl U U' G N1 MV T L0.
  set (prs := rpairs nlat nlon (fun i => i) (fun j => nlat - 1 - j)%nat).
  assert (MT : matched (st_grid s) prs) by (rewrite G; apply rpairs_matched; [apply id_perm|apply flip_perm]).
  assert (RP : forall p q, In (p, q) prs -> mirrored_ns p q).
  { intros p q I. apply rpairs_In in I. destruct I as [i [j [Hi [Hj [-> ->]]]]]. split. apply rlat_flip; auto.
    exists 0%Z. cbn [snd rp]. ring. }
  destruct (planet_xy s orbit (phase - PI) incl) as [x y] eqn:EP.
  apply (sym_coverage mirrored_ns s s' prs lat0 lon0 (- lat0) lon0') with (x := x) (y := y) (x' := x) (y' := nneg y); auto.
  - constructor; auto. apply iso_ns. intros p q I. destruct (RP p q I) as [-> _]. apply cos_neg.
  - rewrite (planet_same _ _ _ _ _ _ MV). unfold planet_xy in *. rewrite Rtrigo_facts.cos_pi_minus, nmul_opp_r. injection EP as <- <-. auto.
  - apply nsq_neg.
  - intros p q r ar I. pose proof (RP p q I) as R. destruct (pairs_lat _ _ _ _ MT I) as [B _]. apply pixel_ns.
    + apply (iso_ns (lat0, lon0) p (- lat0, lon0') q); auto.
    + destruct p as [la lo], q as [la' lo']. assert (la' = - la) by (destruct R as [E _]; exact E). subst la'.
      apply proj_ns; auto.
Qed.

(** ** the half turn of a spiral grid *)
Lemma iso_over : forall c, isometry (turned_over c).
Proof.
  intros c p p' q q' [A [m E]] [A' [m' E']]. rewrite E, E', A, A', law_cos_flip, law_cos_flip_r. unfold law_cos.
  rewrite !sin_neg, !cos_neg. replace (2 * c - snd p - (2 * c - snd p')) with (- (snd p - snd p')) by ring. rewrite cos_neg. ring.
Qed.
Lemma proj_over : forall c lat0 lon0 lat lon lon0' lon', - PI/2 < lat0 < PI/2 -> - PI/2 <= lat <= PI/2 ->
  turned_over c (lat0, lon0) (- lat0, lon0') -> turned_over c (lat, lon) (- lat, lon') ->
  proj_ortho (- lat0) lon0' (- lat, lon') = onx nneg (ony nneg (proj_ortho lat0 lon0 (lat, lon))).
Proof.
  intros c lat0 lon0 lat lon lon0' lon' L0 L [_ [m0 E0]] [_ [m1 E1]]. cbn [fst snd] in *.
  rewrite <- (proj_ns lat0 lon0 lat lon lon0 lon); [|lra|lra|split; [reflexivity|exists 0%Z; cbn [snd]; ring]|split; [reflexivity|exists 0%Z; cbn [snd]; ring]].
  rewrite <- (proj_ew (- lat0) lon0 (- lat) lon (- lon0) (- lon)); [|lra|lra|split; [reflexivity|exists 0%Z; cbn [snd]; ring]|split; [reflexivity|exists 0%Z; cbn [snd]; ring]].
  apply (proj_turn (2 * c)); [lra|lra|split; [reflexivity|exists m0; cbn [snd]; lra]|split; [reflexivity|exists m1; cbn [snd]; lra]].
Qed.
Lemma pixel_over : forall lat0 lon0 lat0' lon0' x y r p q ar, law_cos lat0' lon0' (fst q) (snd q) = law_cos lat0 lon0 (fst p) (snd p) ->
  proj_ortho lat0' lon0' q = onx nneg (ony nneg (proj_ortho lat0 lon0 p)) ->
  pixel_covered lat0' lon0' (nneg x) (nneg y) r q ar = pixel_covered lat0 lon0 x y r p ar.
Proof.
  intros. unfold pixel_covered. rewrite H, H0. destruct (proj_ortho lat0 lon0 p) as [xc yc]. unfold onx, ony. cbn [fst snd].
  rewrite !nsub_neg, !nsq_neg. auto.
Qed.
Lemma C75_half_turn_lemma : forall s s' n lat0 lon0 lon0' gf orbit planet phase phase' incl (m : Z),
  let c := PI * (INR n - 1) / GOLDEN_RATIO in
  star_unified s -> star_unified s' -> st_grid s = Spiral n -> moved_star (turned_over c) s s' ->
  turned_over c (lat0, lon0) (- lat0, lon0') -> - PI/2 < lat0 < PI/2 -> phase' = - phase + 2 * PI * IZR m ->
  calc_coverage s' (- lat0) lon0' gf orbit planet phase' (PI - incl) = calc_coverage s lat0 lon0 gf orbit planet phase incl.
Proof.
  intros s s' n lat0 lon0 lon0' gf orbit planet phase phase' incl m c U U' G MV T L0 EPH.
  set (pt := fun i => (spiral_lat n i, spiral_lon i)).
  set (prs := map (fun i => (pt i, pt (n - 1 - i)%nat)) (seq 0 n)).
  assert (CE : cells (grid_points (Spiral n)) = map pt (seq 0 n)) by (unfold cells, grid_points; cbn [arows concat]; apply app_nil_r).
  assert (MT : matched (st_grid s) prs).
  { rewrite G. unfold matched, prs. rewrite CE, !map_map. cbn [fst snd]. split; auto.
    rewrite <- (map_map (fun i => n - 1 - i)%nat pt). apply Permutation_map. apply flip_perm. }
  assert (GR : GOLDEN_RATIO <> 0). { unfold GOLDEN_RATIO. pose proof (sqrt_pos 5). lra. }
  assert (RP : forall p q, In (p, q) prs -> turned_over c p q).
  { intros p q I. apply in_map_iff in I. destruct I as [i [E I]]. apply in_seq in I. injection E as <- <-.
    split. apply spiral_lat_sym; lia. unfold pt. cbn [fst snd]. unfold spiral_lon, rmod.
    set (k1 := Int_part (2 * PI * INR (n - 1 - i) / GOLDEN_RATIO / (2 * PI))). set (k2 := Int_part (2 * PI * INR i / GOLDEN_RATIO / (2 * PI))).
    exists (- k1 - k2)%Z. rewrite minus_IZR, opp_IZR. unfold c. rewrite !minus_INR by lia. simpl (INR 1). field. auto. }
  destruct (planet_xy s orbit (phase - PI) incl) as [x y] eqn:EP.
  assert (C1 : sin (phase' - PI) = - sin (phase - PI)).
  { rewrite EPH. replace (- phase + 2 * PI * IZR m - PI) with (- (phase - PI) + 2 * PI * IZR (m - 1)) by (rewrite minus_IZR; ring).
    rewrite sin_2kPI, sin_neg. auto. }
  assert (C2 : cos (phase' - PI) = cos (phase - PI)).
  { rewrite EPH. replace (- phase + 2 * PI * IZR m - PI) with (- (phase - PI) + 2 * PI * IZR (m - 1)) by (rewrite minus_IZR; ring).
    rewrite cos_2kPI, cos_neg. auto. }
  apply (sym_coverage (turned_over c) s s' prs lat0 lon0 (- lat0) lon0') with (x := x) (y := y) (x' := nneg x) (y' := nneg y); auto.
  - constructor; auto. apply iso_over. intros p q I. destruct (RP p q I) as [-> _]. apply cos_neg.
  - rewrite (planet_same _ _ _ _ _ _ MV). unfold planet_xy in *. rewrite C1, C2, Rtrigo_facts.cos_pi_minus, !nmul_opp_r. injection EP as <- <-. auto.
  - apply nsq_neg.
  - apply nsq_neg.
  - rewrite EPH, cos_2kPI, cos_neg. auto.
  - intros p q r ar I. pose proof (RP p q I) as R. destruct (pairs_lat _ _ _ _ MT I) as [B _]. apply pixel_over.
    + apply (iso_over c (lat0, lon0) p (- lat0, lon0') q); auto.
    + destruct p as [la lo], q as [la' lo']. assert (la' = - la) by (destruct R as [E _]; exact E). subst la'.
      apply (proj_over c); auto.
Qed.
