(** Proofs for C112-C114 *)
From Coq Require Import Reals ZArith Bool List Lra Lia.
From Verif Require Import Num Py MConfig MHelpers MGrid MSpots MFaculae MXoflares MFlares MGranules MStar MWarn MHeap MUnits MArgs SpecArgs LBase LHeap LUnits.
Import ListNotations.
Open Scope R_scope.

Lemma zlt_nat : forall n, (Z.of_nat n <? 0)%Z = false.
Proof. intros. apply Z.ltb_ge. lia. Qed.
Lemma zeq_nat : forall a b, (Z.of_nat a =? Z.of_nat b)%Z = Nat.eqb a b.
Proof. intros. destruct (Nat.eqb_spec a b). subst. apply Z.eqb_refl. apply Z.eqb_neq. lia. Qed.
Lemma p_oned_nat : forall a b, p_oned (Z.of_nat a) (Z.of_nat b) = Ok (rect_oned a b).
Proof. intros. unfold p_oned, p_linspace, rect_oned. rewrite !zlt_nat, !Nat2Z.id. reflexivity. Qed.
Lemma p_grid_lift : forall g, p_grid (lift g) = Ok (grid_points g).
Proof. intros [a b|n]; cbn [lift p_grid grid_points]. rewrite p_oned_nat. reflexivity. rewrite Nat2Z.id. reflexivity. Qed.
Lemma p_zeros_lift : forall g, p_zeros (lift g) = Ok (grid_zeros g).
Proof. intros [a b|n]; cbn [lift p_zeros grid_zeros]; rewrite ?zlt_nat, ?Nat2Z.id; reflexivity. Qed.
Lemma p_area_lift : forall g, p_area (lift g) = grid_area g.
Proof.
  intros [a b|n]; cbn [p_area lift].
  - change (PRect (Z.of_nat a) (Z.of_nat b)) with (lift (Rect a b)). rewrite p_grid_lift. reflexivity.
  - change (PSpiral (Z.of_nat n)) with (lift (Spiral n)). rewrite p_zeros_lift. cbn [bind]. destruct n as [|n]. reflexivity.
    destruct (Z.eqb_spec (Z.of_nat (S n)) 0). lia. unfold grid_area. rewrite (INR_IZR_INZ (Datatypes.S n)). reflexivity.
Qed.
Lemma C112_sizes_lemma : forall g v other nlat nlon n lat0 lon0 data,
  p_new (liftv v) = lift_res (grid_new v) /\ p_grid (lift g) = Ok (grid_points g) /\ p_zeros (lift g) = Ok (grid_zeros g)
  /\ p_mu (lift g) lat0 lon0 = Ok (grid_mu g lat0 lon0) /\ p_area (lift g) = grid_area g
  /\ p_display (lift g) (Z.of_nat nlat) (Z.of_nat nlon) data = display_grid g nlat nlon data
  /\ p_eq (lift g) (option_map lift other) = grid_eq g other /\ p_eq_warnings (lift g) (option_map lift other) = grid_eq_warnings g other
  /\ p_dlat (Z.of_nat n) = dlat n /\ p_dlon (Z.of_nat n) = dlon n.
Proof.
  intros. split.
  { destruct v as [m|l|]; try reflexivity. cbn [liftv]. destruct l as [|x [|y [|z l]]]; cbn [map]; try reflexivity.
    destruct x; reflexivity. destruct x, y; reflexivity. }
  split. apply p_grid_lift. split. apply p_zeros_lift.
  split. { unfold p_mu. rewrite p_grid_lift. reflexivity. } split. apply p_area_lift.
  split. { unfold p_display, display_grid. destruct g as [a b|m]; cbn [lift]; destruct (arr_shape data) as [nd [r c]]; destruct nd; cbn [negb]; auto.
    - rewrite !zeq_nat, p_oned_nat. destruct (Nat.eqb r nlon); cbn [negb]; auto.
    - rewrite zeq_nat. destruct (Nat.eqb c m); cbn [negb]; auto. change (PRect (Z.of_nat nlat) (Z.of_nat nlon)) with (lift (Rect nlat nlon)).
      rewrite p_zeros_lift, p_grid_lift, p_oned_nat, Nat2Z.id. reflexivity. }
  split. { destruct g as [a b|m], other as [[a' b'|m']|]; cbn; rewrite ?zeq_nat; reflexivity. }
  split. { destruct g as [a b|m], other as [[a' b'|m']|]; reflexivity. }
  unfold p_dlat, p_dlon, dlat, dlon. rewrite minus_IZR, <- INR_IZR_INZ. auto.
Qed.

Lemma rect_bad : forall a b, ~ sizes_ok (PRect a b) -> p_oned a b = Raise ValueError /\ p_zeros (PRect a b) = Raise ValueError.
Proof.
  intros a b N. cbn in N. unfold p_oned, p_linspace. cbn [p_zeros]. destruct (Z.ltb_spec a 0); cbn [bind].
  - rewrite orb_true_r. auto.
  - destruct (Z.ltb_spec b 0); cbn; auto. exfalso. apply N. lia.
Qed.
Lemma spiral_bad : forall n, (n < 0)%Z -> Z.to_nat n = 0%nat.
Proof. intros. destruct n; auto. lia. Qed.
Lemma arr_shape_data : forall A (a : arr A), exists nd r c, arr_shape a = (nd, (r, c)).
Proof. intros. destruct (arr_shape a) as [nd [r c]]. eauto. Qed.
Lemma C112_negative_lemma : forall (A : Type) g, g <> PBase ->
  (~ sizes_ok g ->
     p_zeros g = Raise ValueError /\ p_area g = Raise ValueError
     /\ (forall nlat nlon, g = PRect nlat nlon -> p_oned nlat nlon = Raise ValueError /\ p_grid g = Raise ValueError
          /\ (forall lat0 lon0, p_mu g lat0 lon0 = Raise ValueError)
          /\ forall m n data, (has_shape data n m -> p_display g m n data = Raise ValueError)
                              /\ (~ has_shape data n m -> p_display g m n data = Raise TypeError))
     /\ (is_spiral g -> (exists pts, p_grid g = Ok pts /\ a2d pts = false /\ cells pts = [])
          /\ (forall lat0 lon0, exists mu, p_mu g lat0 lon0 = Ok mu /\ cells mu = [])
          /\ forall m n data, p_display g m n data = Raise ValueError)
     /\ (forall lat0 lon0 (rest : arr R -> arr num -> res A), p_coverage g lat0 lon0 rest = Raise ValueError)
     /\ (forall teff (rest : arr num -> res A), p_map g teff rest = Raise ValueError)
     /\ (forall (rest : arr num -> res A), p_get_coverage g rest = Raise ValueError))
  /\ (sizes_ok g -> exists s, g = lift s)
  /\ (forall m n data, is_spiral g -> ~ sizes_ok (PRect m n) -> p_display g m n data = Raise ValueError).
Proof.
  intros A g NB. split; [|split].
  - intros N. destruct g as [a b|n|]; [| |congruence].
    + destruct (rect_bad a b N) as [E1 E2]. assert (G : p_grid (PRect a b) = Raise ValueError) by (cbn [p_grid]; rewrite E1; reflexivity).
      assert (M : forall lat0 lon0, p_mu (PRect a b) lat0 lon0 = Raise ValueError) by (intros; unfold p_mu; rewrite G; reflexivity).
      assert (AR : p_area (PRect a b) = Raise ValueError) by (unfold p_area; rewrite G; reflexivity).
      split. auto. split. auto. split.
      { intros nlat nlon [= <- <-]. split. auto. split. auto. split. auto. intros m n data. unfold p_display, has_shape.
        destruct (arr_shape data) as [nd [r c]]. split.
        - intros [r' [c' [E [H1 H2]]]]. injection E as -> -> ->. subst m n. cbn [negb]. rewrite !Z.eqb_refl. cbn [negb]. rewrite E1. reflexivity.
        - intros H. destruct nd; cbn [negb]; auto. destruct (Z.eqb_spec (Z.of_nat r) n); cbn [negb]; auto. destruct (Z.eqb_spec (Z.of_nat c) m); cbn [negb]; auto.
          exfalso. apply H. eauto. }
      split. intros [k K]; discriminate. split. intros. unfold p_coverage. rewrite M. reflexivity.
      split. intros. unfold p_map. rewrite E2. reflexivity. intros. unfold p_get_coverage. rewrite AR. reflexivity.
    + cbn in N. assert (N' : (n < 0)%Z) by lia. assert (Z0 : p_zeros (PSpiral n) = Raise ValueError). { cbn [p_zeros]. destruct (Z.ltb_spec n 0); auto; lia. }
      assert (AR : p_area (PSpiral n) = Raise ValueError) by (unfold p_area; rewrite Z0; reflexivity).
      split. auto. split. auto. split. intros; discriminate. split.
      { intros _. split. eexists. split. reflexivity. split. reflexivity. cbn [arows cells]. rewrite (spiral_bad n N'). reflexivity.
        split. intros. eexists. split. reflexivity. unfold cells, amap. cbn [arows]. rewrite (spiral_bad n N'). reflexivity.
        intros m k data. unfold p_display. destruct (arr_shape data) as [nd [r c]]. destruct nd; auto. destruct (Z.eqb_spec (Z.of_nat c) n); auto. lia. }
      split. intros. unfold p_coverage, p_mu. cbn [p_grid bind]. rewrite AR. reflexivity.
      split. intros. unfold p_map. rewrite Z0. reflexivity. intros. unfold p_get_coverage. rewrite AR. reflexivity.
  - intros H. destruct g as [a b|n|]; [| |contradiction]; cbn in H.
    exists (Rect (Z.to_nat a) (Z.to_nat b)). cbn. rewrite !Z2Nat.id by lia. reflexivity. exists (Spiral (Z.to_nat n)). cbn. rewrite Z2Nat.id by lia. reflexivity.
  - intros m n data [k ->] N. unfold p_display. destruct (arr_shape data) as [nd [r c]]. destruct nd; auto. destruct (negb _); auto. destruct (rect_bad m n N) as [_ E]. rewrite E. reflexivity.
Qed.

Lemma C112_compare_lemma : forall a b,
  (p_eq a (Some b) = Ok true <-> a = b /\ a <> PBase)
  /\ (p_eq a (Some b) = Raise TypeError <-> (is_rect a /\ ~ is_rect b) \/ (a = PBase /\ is_rect b))
  /\ (p_eq a (Some b) = Raise NotImplementedError <-> a = PBase /\ b = PBase)
  /\ (forall e, p_eq a (Some b) = Raise e -> e = TypeError \/ e = NotImplementedError)
  /\ (p_eq_warnings a (Some b) <> [] <-> (is_spiral a /\ ~ is_spiral b) \/ (a = PBase /\ is_spiral b))
  /\ (p_eq_warnings a (Some b) <> [] -> p_eq_warnings a (Some b) = [WGridKinds] /\ p_eq a (Some b) = Ok false)
  /\ (a <> PBase -> p_eq a None = Raise TypeError) /\ p_eq PBase None = Raise NotImplementedError
  /\ (forall lat0 lon0 m n data, p_grid PBase = Raise NotImplementedError /\ p_zeros PBase = Raise NotImplementedError /\ p_area PBase = Raise NotImplementedError
        /\ p_mu PBase lat0 lon0 = Raise NotImplementedError /\ p_display PBase m n data = Raise NotImplementedError).
Proof.
  intros a b. unfold is_rect, is_spiral.
  assert (RR : forall x y : Z, exists a b, PRect x y = PRect a b) by (intros x y; exists x, y; auto). assert (SS : forall x : Z, exists n, PSpiral x = PSpiral n) by (intros x; exists x; auto).
  assert (RS : forall x : Z, ~ exists a b, PSpiral x = PRect a b) by (intros x [? [? ?]]; discriminate). assert (RB : ~ exists a b, PBase = PRect a b) by (intros [? [? ?]]; discriminate).
  assert (SR : forall x y : Z, ~ exists n, PRect x y = PSpiral n) by (intros x y [? ?]; discriminate). assert (SB : ~ exists n, PBase = PSpiral n) by (intros [? ?]; discriminate).
  split. { destruct a as [a1 a2|n|], b as [b1 b2|m|]; cbn; try (split; [intros; discriminate|intros [E N]; congruence]).
    - split. intros E. injection E as E. apply andb_true_iff in E. destruct E as [E1 E2]. apply Z.eqb_eq in E1, E2. split; congruence.
      intros [E _]. injection E as -> ->. rewrite !Z.eqb_refl. reflexivity.
    - split. intros E. injection E as E. apply Z.eqb_eq in E. split; congruence. intros [E _]. injection E as ->. rewrite Z.eqb_refl. reflexivity. }
  split. { destruct a as [a1 a2|n|], b as [b1 b2|m|]; cbn; split; intros H; try discriminate; try reflexivity; try (left; split; [apply RR|first [apply RS|apply RB]]; fail); try (right; split; [reflexivity|apply RR]; fail); exfalso; destruct H as [[H H']|[H H']]; try discriminate; first [apply (RS _ H)|apply (RB H)|apply (RS _ H')|apply (RB H')|apply (H' (RR _ _))]. }
  split. { destruct a as [a1 a2|n|], b as [b1 b2|m|]; cbn; split; intros H; try discriminate; auto; destruct H; discriminate. }
  split. { intros e H. destruct a as [a1 a2|n|], b as [b1 b2|m|]; cbn in H; try discriminate; injection H as <-; auto. }
  split. { destruct a as [a1 a2|n|], b as [b1 b2|m|]; cbn; split; intros H; try congruence; try (left; split; [apply SS|first [apply SR|apply SB]]; fail); try (right; split; [reflexivity|apply SS]; fail); exfalso; destruct H as [[H H']|[H H']]; try discriminate; first [apply (SR _ _ H)|apply (SB H)|apply (SR _ _ H')|apply (SB H')|apply (H' (SS _))]. }
  split. { intros H. destruct a as [a1 a2|n|], b as [b1 b2|m|]; cbn in *; try congruence; auto. }
  split. { intros N. destruct a; auto. congruence. } split. reflexivity. intros. split. auto. split. auto. split. auto. split. auto. unfold p_display. destruct (arr_shape data) as [nd [r c]]. reflexivity.
Qed.

Lemma p_adopt_star : forall x g, g <> PBase -> p_adopt x g = Ok g.
Proof.
  intros x g N. unfold p_adopt. destruct x as [a b|n|], g as [a' b'|m|]; cbn; auto; try congruence.
  - destruct (Z.eqb_spec a a'), (Z.eqb_spec b b'); cbn; congruence.
  - destruct (Z.eqb_spec n m); congruence.
Qed.
Lemma p_new_not_base : forall v g, p_new v = Ok g -> g <> PBase.
Proof.
  intros v g E N. subst g. assert (R : forall a b, p_rect_init a b <> Ok PBase). { intros a b. unfold p_rect_init. destruct a, b; discriminate. }
  destruct v as [z|l|]; cbn in E; try discriminate. destruct l as [|a [|b [|c l]]]; try discriminate; eapply R; eauto.
Qed.
Lemma mapM_const_ok : forall A B (f : A -> res B) l, (forall x, In x l -> exists y, f x = Ok y) -> exists ys, mapM f l = Ok ys /\ length ys = length l.
Proof.
  intros A B f. induction l as [|x l IH]; intros H. exists []. auto. destruct (H x (or_introl eq_refl)) as [y Y]. destruct IH as [ys [E L]]. intros; apply H; right; auto.
  exists (y :: ys). cbn. rewrite Y. cbn [bind]. rewrite E. cbn. auto.
Qed.
Lemma C112_star_lemma : forall params spots sg fg,
  (forall e, p_new params = Raise e -> e = TypeError /\ p_star_grids params spots sg fg = Raise TypeError)
  /\ (forall g, p_new params = Ok g ->
       (spots = [] \/ sizes_ok g \/ is_spiral g -> exists rs, p_star_grids params spots sg fg = Ok (g, rs, g, g) /\ length rs = length spots)
       /\ (spots <> [] -> ~ sizes_ok g -> is_rect g -> p_star_grids params spots sg fg = Raise ValueError))
  /\ (forall z, p_new (GInt z) = Ok (PSpiral z)) /\ (forall a b, p_new (GTuple [GInt a; GInt b]) = Ok (PRect a b)).
Proof.
  intros params spots sg fg. split; [|split; [|split]]; [| |auto|auto].
  - intros e E. assert (T : e = TypeError). { destruct params as [z|l|]; cbn in E; try congruence. destruct l as [|a [|b [|c l]]]; try congruence; unfold p_rect_init in E; cbn in E; try congruence; destruct a; try congruence; destruct b; congruence. }
    split; auto. unfold p_star_grids. rewrite E. subst e. reflexivity.
  - intros g E. pose proof (p_new_not_base _ _ E) as NB. unfold p_star_grids. rewrite E. cbn [bind]. split.
    + intros H. assert (OK : forall x, In x spots -> exists y, p_spot_r g x = Ok y).
      { intros x I. unfold p_spot_r. destruct H as [->|[H|[n ->]]]. contradiction.
        - destruct (C112_negative_lemma unit g NB) as [_ [L _]]. destruct (L H) as [s ->]. rewrite p_grid_lift. cbn. eauto.
        - cbn. eauto. }
      destruct (mapM_const_ok _ _ _ _ OK) as [rs [E2 L]]. exists rs. rewrite E2. cbn [bind]. destruct sg as [x|], fg as [y|]; rewrite ?p_adopt_star by auto; cbn; auto.
    + intros NE NS [a [b ->]]. destruct spots as [|s t]. congruence. cbn [mapM]. unfold p_spot_r. destruct (rect_bad a b NS) as [E1 _]. cbn [p_grid]. rewrite E1. reflexivity.
Qed.

(** ** C113 *)
Lemma heach_items_app : forall A (f : A -> res A) (G : A -> A) l t h,
  (forall a, G (G a) = G a) -> (forall k, In k l -> f (h k) = Ok (G (h k)) /\ f (G (h k)) = Ok (G (h k))) ->
  exists h', heach_items f h (map Good l ++ t) = heach_items f h' t /\ (forall k, In k l -> h' k = G (h k)) /\ (forall k, ~ In k l -> h' k = h k).
Proof.
  intros A f G. induction l as [|k l IH]; intros t h GG H.
  - exists h. cbn. split; auto. split; intros; [contradiction|auto].
  - cbn [map app heach_items]. rewrite (proj1 (H k (or_introl eq_refl))). destruct (IH t (hset h k (G (h k))) GG) as [h' [E [I1 I2]]].
    { intros j J. unfold hset. destruct (Nat.eqb_spec j k). subst j. destruct (H k (or_introl eq_refl)). rewrite GG. auto. apply H. right. auto. }
    exists h'. split. exact E. split.
    + intros j J. destruct (in_dec Nat.eq_dec j l) as [JL|JL].
      * rewrite I1 by auto. unfold hset. destruct (Nat.eqb_spec j k); auto. subst. apply GG.
      * destruct J as [->|J]; [|contradiction]. rewrite I2 by auto. unfold hset. rewrite Nat.eqb_refl. reflexivity.
    + intros j J. rewrite I2 by (intro; apply J; right; auto). unfold hset. destruct (Nat.eqb_spec j k); auto. subst. exfalso. apply J. left. auto.
Qed.
Lemma goods_map : forall A (l : list A), goods (map Good l) = l.
Proof. intros A. induction l as [|a l IH]; auto. cbn. unfold goods in IH. rewrite IH. reflexivity. Qed.
Lemma sc_set : forall w h c v, w_sc (w_spots w h c v) c = v /\ (forall k, k <> c -> w_sc (w_spots w h c v) k = w_sc w k).
Proof. intros. unfold w_spots, hset. cbn. split. rewrite Nat.eqb_refl. auto. intros k N. destruct (Nat.eqb_spec k c); congruence. Qed.
Lemma fc_set : forall w h c v, w_fc (w_facs w h c v) c = v /\ (forall k, k <> c -> w_fc (w_facs w h c v) k = w_fc w k).
Proof. intros. unfold w_facs, hset. cbn. split. rewrite Nat.eqb_refl. auto. intros k N. destruct (Nat.eqb_spec k c); congruence. Qed.

Lemma C113_spots_lemma : forall w c ls g arg l, w_sc w c = (ls, g) ->
  (gives arg l -> exists w', w_add_spot_arg w c arg = (w', None) /\ spots_changed w w' l g c (ls ++ l, g))
  /\ (arg = AOnce (map Good l) -> exists w', w_add_spot_arg w c arg = (w', None) /\ spots_changed w w' l g c (ls, g))
  /\ (gives_then arg l Alien -> exists w', w_add_spot_arg w c arg = (w', Some AttributeError) /\ spots_changed w w' l g c (ls, g))
  /\ (arg = ANot -> w_add_spot_arg w c arg = (w, Some TypeError)).
Proof.
  intros w c ls g arg l E. unfold w_add_spot_arg. rewrite E.
  assert (K : forall t, exists h', heach_items (fun s => Ok (spot_assign_gridmaker s g)) (w_spot w) (map Good l ++ t) = heach_items (fun s => Ok (spot_assign_gridmaker s g)) h' t
    /\ (forall k, In k l -> h' k = on_grid (w_spot w k) g) /\ (forall k, ~ In k l -> h' k = w_spot w k)).
  { intros t. apply (heach_items_app _ _ (fun s => spot_assign_gridmaker s g)); auto. }
  assert (CH : forall h' v, (forall k, In k l -> h' k = on_grid (w_spot w k) g) -> (forall k, ~ In k l -> h' k = w_spot w k) -> spots_changed w (w_spots w h' c v) l g c v).
  { intros h' v A B. destruct (sc_set w h' c v). unfold spots_changed. cbn [w_spots w_spot w_nspot w_fac w_nfac w_fc w_sg w_fg]. repeat split; auto. }
  split; [|split; [|split]].
  - intros G. destruct (K []) as [h' [K1 [K2 K3]]]. rewrite app_nil_r in K1. cbn [heach_items] in K1. destruct G as [[x [-> ->]]| ->]; cbn [iterations].
    + change [Good x] with (map (@Good nat) [x]). rewrite K1, goods_map. eexists. split. reflexivity. auto.
    + rewrite K1, goods_map. eexists. split. reflexivity. auto.
  - intros ->. destruct (K []) as [h' [K1 [K2 K3]]]. rewrite app_nil_r in K1. cbn [heach_items] in K1. cbn [iterations]. rewrite K1. cbn [goods flat_map]. rewrite app_nil_r. eexists. split. reflexivity. auto.
  - intros [t G]. destruct (K (Alien :: t)) as [h' [K1 [K2 K3]]]. cbn [heach_items] in K1. destruct G as [-> | ->]; cbn [iterations]; rewrite K1; eexists; (split; [reflexivity|auto]).
  - intros ->. reflexivity.
Qed.

Lemma accept : forall f g, ~ refused f g -> (do same <- grid_eq (fc_grid f) (Some g) ;; Ok (if same then f else fac_assign_grid f g)) = Ok (fac_on_grid f g).
Proof.
  intros f g N. unfold refused in N. unfold fac_on_grid. destruct (fc_grid f) as [a b|n] eqn:EF, g as [a' b'|m]; cbn [grid_eq bind].
  - destruct (Nat.eqb_spec a a'), (Nat.eqb_spec b b'); cbn [andb]; auto. subst. destruct f. cbn in EF. subst. reflexivity.
  - exfalso. apply N. eauto.
  - reflexivity.
  - destruct (Nat.eqb_spec n m); auto. subst. destruct f. cbn in EF. subst. reflexivity.
Qed.
Lemma C113_faculae_lemma : forall w c ls g arg l, w_fc w c = (ls, g) -> (forall k, In k l -> ~ refused (w_fac w k) g) ->
  (gives arg l -> exists w', w_add_fac_arg w c arg = (w', None) /\ facs_changed w w' l g c (ls ++ l, g))
  /\ (arg = AOnce (map Good l) -> exists w', w_add_fac_arg w c arg = (w', None) /\ facs_changed w w' l g c (ls, g))
  /\ (gives_then arg l Alien -> exists w', w_add_fac_arg w c arg = (w', Some AttributeError) /\ facs_changed w w' l g c (ls, g))
  /\ (forall k, gives_then arg l (Good k) \/ (arg = AOne k /\ l = []) -> refused (w_fac w k) g ->
        exists w', w_add_fac_arg w c arg = (w', Some TypeError) /\ facs_changed w w' l g c (ls, g))
  /\ (arg = ANot -> w_add_fac_arg w c arg = (w, Some TypeError)).
Proof.
  intros w c ls g arg l E NR. unfold w_add_fac_arg. rewrite E. set (F := fun f => do same <- grid_eq (fc_grid f) (Some g) ;; Ok (if same then f else fac_assign_grid f g)).
  assert (K : forall t, exists h', heach_items F (w_fac w) (map Good l ++ t) = heach_items F h' t
    /\ (forall k, In k l -> h' k = fac_on_grid (w_fac w k) g) /\ (forall k, ~ In k l -> h' k = w_fac w k)).
  { intros t. apply (heach_items_app _ _ (fun f => fac_on_grid f g)). auto. intros k I. split. apply accept. auto.
    unfold F. rewrite accept. reflexivity. intros [[a [b A]] [n N]]. cbn in A. subst. discriminate. }
  assert (CH : forall h' v, (forall k, In k l -> h' k = fac_on_grid (w_fac w k) g) -> (forall k, ~ In k l -> h' k = w_fac w k) -> facs_changed w (w_facs w h' c v) l g c v).
  { intros h' v A B. destruct (fc_set w h' c v). unfold facs_changed. cbn [w_facs w_spot w_nspot w_fac w_nfac w_sc w_sg w_fg]. repeat split; auto. }
  assert (RF : forall f, refused f g -> F f = Raise TypeError). { intros f [[a [b A]] [n N]]. unfold F. rewrite A, N. reflexivity. }
  split; [|split; [|split; [|split]]].
  - intros G. destruct (K []) as [h' [K1 [K2 K3]]]. rewrite app_nil_r in K1. cbn [heach_items] in K1. destruct G as [[x [-> ->]]| ->]; cbn [iterations].
    + change [Good x] with (map (@Good nat) [x]). rewrite K1, goods_map. eexists. split. reflexivity. auto.
    + rewrite K1, goods_map. eexists. split. reflexivity. auto.
  - intros ->. destruct (K []) as [h' [K1 [K2 K3]]]. rewrite app_nil_r in K1. cbn [heach_items] in K1. cbn [iterations]. rewrite K1. cbn [goods flat_map]. rewrite app_nil_r. eexists. split. reflexivity. auto.
  - intros [t G]. destruct (K (Alien :: t)) as [h' [K1 [K2 K3]]]. cbn [heach_items] in K1. destruct G as [-> | ->]; cbn [iterations]; rewrite K1; eexists; (split; [reflexivity|auto]).
  - intros k G RK. assert (NK : ~ In k l) by (intros I; apply (NR k I); auto). destruct G as [[t G]|[-> ->]].
    + destruct (K (Good k :: t)) as [h' [K1 [K2 K3]]]. cbn [heach_items] in K1. rewrite (K3 k NK), (RF _ RK) in K1. destruct G as [-> | ->]; cbn [iterations]; rewrite K1; eexists; (split; [reflexivity|auto]).
    + cbn [iterations heach_items]. rewrite (RF _ RK). eexists. split. reflexivity. apply CH; intros; [contradiction|reflexivity].
  - intros ->. reflexivity.
Qed.

Lemma no_alien : forall A (l : list A), existsb (fun i => match i with Alien => true | Good _ => false end) (map Good l) = false.
Proof. intros A. induction l; auto. Qed.
Definition win (a b : R) (f : flare) : bool :=
  ngt (nadd (Fin (fl_tpeak f)) (nmul (Fin 20) (fl_fwhm f))) (Fin a) && nlt (nsub (Fin (fl_tpeak f)) (nmul (Fin 10) (fl_fwhm f))) (Fin b).
Lemma win_spec : forall a b f, win a b f = true <-> in_window a b f.
Proof. intros. unfold win, in_window. apply andb_true_iff. Qed.
Lemma mask_spec : forall l a b, flc_mask (flc_init l) a b = map (win a b) l.
Proof.
  intros l a b. unfold flc_mask, flc_init. cbn [flc_peaks flc_fwhms]. induction l as [|f l IH]; auto. cbn [map combine]. rewrite IH. reflexivity.
Qed.
Lemma stale : forall l l' a b f, In f (flc_in_period (flc_list_changed (flc_init l) l') a b) <->
  exists i f0, nth_error l' i = Some f /\ nth_error l i = Some f0 /\ in_window a b f0.
Proof.
  intros l l' a b f. unfold flc_in_period, flc_list_changed. change (flc_mask _ a b) with (flc_mask (flc_init l) a b). rewrite mask_spec. cbn [flc_flares].
  revert l. induction l' as [|f' l' IH]; intros l.
  - cbn. split. contradiction. intros [i [f0 [H _]]]. destruct i; discriminate.
  - destruct l as [|x l]; cbn [map combine filter].
    + split. contradiction. intros [i [f0 [_ [H _]]]]. destruct i; discriminate.
    + specialize (IH l). destruct (win a b x) eqn:W; [apply win_spec in W|assert (NW : ~ in_window a b x) by (intros Q; apply win_spec in Q; congruence)]; cbn [snd map fst In]; rewrite IH; split.
      * intros [->|[i [f0 H]]]. exists 0%nat, x. auto. exists (S i), f0. auto.
      * intros [i [f0 [H1 [H2 H3]]]]. destruct i as [|i]. left. cbn in H1. congruence. right. exists i, f0. auto.
      * intros [i [f0 H]]. exists (S i), f0. auto.
      * intros [i [f0 [H1 [H2 H3]]]]. destruct i as [|i]. cbn in H2. congruence. exists i, f0. auto.
Qed.
Lemma combine_app_short : forall A B (l1 l2 : list A) (m : list B), length m = length l1 -> combine (l1 ++ l2) m = combine l1 m.
Proof. intros A B. induction l1 as [|a l1 IH]; intros l2 [|b m] H; cbn in *; try discriminate; auto. destruct l2; auto. rewrite IH; auto. Qed.
Lemma C113_flares_lemma : forall l l' arg a b so,
  (gives arg l -> flc_arg arg = Ok (flc_init l))
  /\ (arg = AOnce (map Good l) -> exists c, flc_arg arg = Ok c /\ length (flc_mask c a b) = length l
        /\ flc_in_period c a b = [] /\ flc_visible c a b so = [] /\ (flc_integral c a b so = Ok [] \/ flc_integral c a b so = Raise ValueError))
  /\ (gives_then arg l Alien -> flc_arg arg = Raise AttributeError) /\ (arg = ANot -> flc_arg arg = Raise TypeError)
  /\ flc_in_period (flc_list_changed (flc_init l) (l ++ l')) a b = flc_in_period (flc_init l) a b
  /\ (forall f, In f (flc_in_period (flc_list_changed (flc_init l) l') a b) <-> exists i f0, nth_error l' i = Some f /\ nth_error l i = Some f0 /\ in_window a b f0)
  /\ flc_index (flc_list_changed (flc_init l) l') = flc_init l'.
Proof.
  intros l l' arg a b so. split; [|split; [|split; [|split; [|split; [|split]]]]].
  - intros [[x [-> ->]]| ->]; unfold flc_arg; cbn [iterations bind]. reflexivity. rewrite no_alien, goods_map. reflexivity.
  - intros ->. unfold flc_arg; cbn [iterations bind]. rewrite no_alien, goods_map. eexists. split. reflexivity.
    split. { unfold flc_mask. cbn [flc_peaks flc_fwhms]. rewrite map_length, combine_length, !map_length. lia. }
    split. reflexivity. assert (V : forall so, flc_visible {| flc_flares := goods []; flc_peaks := map fl_tpeak l; flc_fwhms := map fl_fwhm l |} a b so = []).
    { intros s. unfold flc_visible. destruct (sub_obs s). reflexivity. }
    split. apply V. unfold flc_integral. rewrite V. cbn [mapM]. destruct (_ <? 0)%Z; auto.
  - assert (X : forall t, existsb (fun i => match i with Alien => true | Good _ => false end) (map (@Good flare) l ++ Alien :: t) = true).
    { intros t. rewrite existsb_app. cbn [existsb]. apply orb_true_r. }
    intros [t [-> | ->]]; unfold flc_arg; cbn [iterations bind]; rewrite X; reflexivity.
  - intros ->. reflexivity.
  - unfold flc_in_period. change (flc_mask (flc_list_changed _ _) a b) with (flc_mask (flc_init l) a b). cbn [flc_flares flc_list_changed flc_init].
    rewrite combine_app_short. reflexivity. rewrite mask_spec, map_length. reflexivity.
  - intros f. apply stale.
  - reflexivity.
Qed.

(** ** C114 *)
Lemma C114_lemma : forall lat0 lon0 lat lon,
  (forall a0 o0 a o, angle_arg lat0 a0 -> angle_arg lon0 o0 -> angle_arg lat a -> angle_arg lon o -> proj_ortho_arg lat0 lon0 lat lon = Ok (proj_ortho a0 o0 (a, o)))
  /\ (proj_ortho_arg lat0 lon0 lat lon = Raise TypeError <-> lat0 = None \/ lon0 = None \/ lat = None \/ lon = None)
  /\ (proj_ortho_arg lat0 lon0 lat lon = Raise UnitConversionError <->
        ~ (lat0 = None \/ lon0 = None \/ lat = None \/ lon = None) /\ exists v q, In (Some (v, q)) [lat0; lon0; lat; lon] /\ udim q <> DAng).
Proof.
  assert (T : forall v q, to_radians (Some (v, q)) = if deqb (udim q) DAng then Ok (v * usize q) else Raise UnitConversionError) by reflexivity.
  intros lat0 lon0 lat lon. split; [|split].
  - intros a0 o0 a o [v1 [q1 [-> [D1 E1]]]] [v2 [q2 [-> [D2 E2]]]] [v3 [q3 [-> [D3 E3]]]] [v4 [q4 [-> [D4 E4]]]]. unfold proj_ortho_arg. rewrite !T, D1, D2, D3, D4.
    assert (D : deqb DAng DAng = true) by (apply deqb_eq; reflexivity). rewrite !D. cbn [bind]. congruence.
  - unfold proj_ortho_arg. destruct lon0 as [[v2 q2]|], lat0 as [[v1 q1]|], lon as [[v4 q4]|], lat as [[v3 q3]|]; try (split; [auto 6|reflexivity]).
    rewrite !T. split. destruct (deqb (udim q2) DAng), (deqb (udim q1) DAng), (deqb (udim q4) DAng), (deqb (udim q3) DAng); cbn [bind]; intros; discriminate. intros [|[|[|]]]; discriminate.
  - unfold proj_ortho_arg. destruct lon0 as [[v2 q2]|], lat0 as [[v1 q1]|], lon as [[v4 q4]|], lat as [[v3 q3]|]; try (split; [intros; discriminate|intros [H _]; exfalso; apply H; auto 6]).
    rewrite !T. assert (N : forall q, deqb (udim q) DAng = false <-> udim q <> DAng). { intros q. rewrite <- not_true_iff_false, deqb_eq. reflexivity. }
    split.
    + intros H. split. intros [|[|[|]]]; discriminate. destruct (deqb (udim q2) DAng) eqn:E2. destruct (deqb (udim q1) DAng) eqn:E1. destruct (deqb (udim q4) DAng) eqn:E4. destruct (deqb (udim q3) DAng) eqn:E3.
      cbn [bind] in H. discriminate. exists v3, q3. split. cbn; auto 6. apply N; auto. exists v4, q4. split. cbn; auto 6. apply N; auto. exists v1, q1. split. cbn; auto. apply N; auto. exists v2, q2. split. cbn; auto. apply N; auto.
    + intros [_ [v [q [I D]]]]. apply N in D. cbn [In] in I. destruct I as [I|[I|[I|[I|[]]]]]; injection I as -> ->; rewrite D; cbn [bind];
        repeat (match goal with |- context [deqb ?x DAng] => destruct (deqb x DAng) end; cbn [bind]; auto); try reflexivity.
Qed.
