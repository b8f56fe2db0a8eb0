(** Proofs for C132 *)
From Coq Require Import Reals ZArith Bool List Lra Lia.
From Verif Require Import Num Py MConfig MHelpers MGrid MSpots MFaculae MXoflares MFlares MGranules MStar MArgs SpecArgs LBase LGrid LArgs LHelpers LSpotAge LSpotGen LFac LFlareGen SpecStar MMake SpecMake.
Import ListNotations.
Open Scope R_scope.

Lemma p_new_means : forall v g, p_new v = Ok g <-> means v g.
Proof.
  intros v g. split.
  - destruct v as [z|l|]; cbn; intros E; try discriminate. injection E as <-. constructor.
    destruct l as [|a [|b [|c l]]]; try discriminate; cbn in E.
    + injection E as <-. constructor.
    + destruct a; try discriminate. injection E as <-. constructor.
    + destruct a; try discriminate. destruct b; try discriminate. injection E as <-. constructor.
  - intros H. destruct H; reflexivity.
Qed.
Lemma p_new_err : forall v, no_meaning v -> p_new v = Raise TypeError.
Proof.
  intros v N. destruct (p_new v) as [g|e] eqn:E. apply p_new_means in E. elim (N g E).
  destruct (C112_star_lemma v [] None None) as [H _]. destruct (H e E) as [-> _]. reflexivity.
Qed.
Lemma which_gets : forall p m g, which_grid PARTS_PARAMS p m = Ok g <-> gets p m g.
Proof.
  intros p m g. unfold which_grid, gets. destruct m as [x|].
  - split. intros E. injection E as ->. auto. intros [E|[E _]]. congruence. discriminate.
  - destruct p as [v|]; cbn [arg].
    + rewrite p_new_means. split. intros M. right. split; auto. right. eauto. intros [E|[_ [[E _]|[v' [E M]]]]]; congruence.
    + cbn. split. intros E. injection E as <-. right. auto. intros [E|[_ [[_ E]|[v' [E M]]]]]; congruence.
Qed.
Lemma which_err : forall p m e, which_grid PARTS_PARAMS p m = Raise e <-> gets_none p m /\ e = TypeError.
Proof.
  intros p m e. unfold which_grid, gets_none. destruct m as [x|]. split. discriminate. intros [[E _] _]. discriminate.
  destruct p as [v|]; cbn [arg].
  - split.
    + intros E. destruct (C112_star_lemma v [] None None) as [H _]. destruct (H e E) as [-> _]. split; auto. split; auto. exists v. split; auto.
      intros g M. apply p_new_means in M. congruence.
    + intros [[_ [v' [E N]]] ->]. injection E as <-. apply p_new_err; auto.
  - cbn. split. discriminate. intros [[_ [v' [E N]]] _]. discriminate.
Qed.
Lemma points_ok : forall g s, has_points g -> exists r, p_spot_r g s = Ok r.
Proof.
  intros g s [[n ->]|[[a [b ->]] [A B]]]. cbn. eauto. unfold p_spot_r. cbn [p_grid]. unfold p_oned, p_linspace.
  unfold sizes_ok in B. destruct (Z.ltb_spec a 0), (Z.ltb_spec b 0); try lia. cbn. eauto.
Qed.
Lemma points_bad : forall g s, ~ has_points g ->
  p_spot_r g s = Raise (match g with PBase => NotImplementedError | _ => ValueError end).
Proof.
  intros [a b|n|] s N.
  - destruct (rect_bad a b) as [E _]. intros K. apply N. right. split. exists a, b. auto. exact K. unfold p_spot_r. cbn [p_grid]. rewrite E. reflexivity.
  - elim N. left. exists n. auto.
  - reflexivity.
Qed.
Lemma has_points_dec : forall g, has_points g \/ ~ has_points g.
Proof.
  intros [a b|n|].
  - assert (H : (0 <= a /\ 0 <= b \/ ~ (0 <= a /\ 0 <= b))%Z) by lia. destruct H as [H|H].
    + left. right. split. exists a, b; auto. exact H.
    + right. intros K. destruct K as [K|K]. destruct K as [k K]. discriminate. destruct K as [_ K]. apply H. exact K.
  - left. left. exists n; auto.
  - right. intros K. destruct K as [K|K]. destruct K as [k K]. discriminate. destruct K as [_ K]. exact K.
Qed.

(** ** What is left of the parts' arguments *)
Lemma mapM_rel : forall A B (f : A -> res B) (P : A -> B -> Prop) l ys, (forall x y, f x = Ok y -> P x y) -> mapM f l = Ok ys -> Forall2 P l ys.
Proof.
  intros A B f P. induction l as [|x l IH]; intros ys H E. injection E as <-. constructor.
  cbn in E. destruct (f x) as [y|e] eqn:Y; [|discriminate]. cbn [bind] in E. destruct (mapM f l) as [t|e]; [|discriminate]. injection E as <-. constructor; auto.
Qed.
Lemma f2_map : forall A B C (f : A -> C) (g : B -> C) l m, Forall2 (fun x y => g y = f x) l m -> map g m = map f l.
Proof. intros A B C f g l m H. induction H; cbn; congruence. Qed.
Lemma ns_set_attrs : forall s g t, ns_set_gridmaker s g = Ok t -> ns_attrs t = ns_attrs s.
Proof. intros s g t. unfold ns_set_gridmaker. destruct (p_spot_r _ _); cbn; intros E; [|discriminate]. injection E as <-. reflexivity. Qed.
Lemma new_spot_attrs : forall a s, new_spot a = Ok s -> ns_attrs s = spot_attrs a.
Proof. intros a s. unfold new_spot. destruct (which_grid _ _ _); cbn [bind]; [|discriminate]. intros E. apply ns_set_attrs in E. exact E. Qed.
Lemma nsc_set_attrs : forall c g d, nsc_set_gridmaker c g = Ok d -> map ns_attrs (nsc_spots d) = map ns_attrs (nsc_spots c).
Proof.
  intros c g d. unfold nsc_set_gridmaker. destruct (mapM _ _) as [l|e] eqn:M; cbn [bind]; [|discriminate]. intros E. injection E as <-. cbn [nsc_spots].
  apply f2_map. apply (mapM_rel _ _ (fun s => ns_set_gridmaker s g)); auto. intros x y. apply ns_set_attrs.
Qed.
Lemma nsc_set_ext : forall c c' g, map ns_attrs (nsc_spots c) = map ns_attrs (nsc_spots c') -> nsc_set_gridmaker c g = nsc_set_gridmaker c' g.
Proof.
  intros [l h] [l' h'] g. cbn [nsc_spots]. intros E. unfold nsc_set_gridmaker. cbn [nsc_spots].
  assert (K : mapM (fun s => ns_set_gridmaker s g) l = mapM (fun s => ns_set_gridmaker s g) l'); [|rewrite K; reflexivity].
  revert l' E. induction l as [|x l IH]; intros [|y m] E; try discriminate. reflexivity. cbn in E. assert (E1 := f_equal (hd (ns_attrs x)) E). assert (E2 := f_equal (@tl _) E). cbn in E1, E2.
  cbn [mapM]. unfold ns_set_gridmaker at 1 3. rewrite E1, (IH m E2). reflexivity.
Qed.
Lemma nfc_set_ext : forall c c' g, map nf_attrs (nfc_facs c) = map nf_attrs (nfc_facs c') -> nfc_set_gridmaker c g = nfc_set_gridmaker c' g.
Proof.
  intros [l h] [l' h'] g. cbn [nfc_facs]. intros E. unfold nfc_set_gridmaker. cbn [nfc_facs]. f_equal.
  rewrite <- (map_map nf_attrs (fun f => mkNfac f g)), E, map_map. reflexivity.
Qed.
Lemma new_facula_attrs : forall a f, new_facula a = Ok f -> nf_attrs f = fac_attrs a.
Proof. intros a f. unfold new_facula. destruct (which_grid _ _ _); cbn [bind]; [|discriminate]. intros E. injection E as <-. reflexivity. Qed.
Definition fg_cov (a : fg_args) : num := match ha_coverage a with CFloat v => v | CInt z => Fin (IZR z) | COther => NaN end.
Lemma make_parts_attrs : forall a sc fc sg fg, make_parts a = Ok (sc, fc, sg, fg) ->
  map ns_attrs (nsc_spots sc) = map spot_attrs (ta_spots a) /\ map nf_attrs (nfc_facs fc) = map fac_attrs (ta_facs a)
  /\ option_map nsg_attrs sg = option_map sg_attrs (ta_sg a) /\ option_map nfg_attrs fg = option_map (fun x => fg_attrs x (fg_cov x)) (ta_fg a).
Proof.
  intros a sc fc sg fg. unfold make_parts.
  destruct (mapM new_spot _) as [ss|e] eqn:E1; cbn [bind]; [|discriminate].
  destruct (new_spotcoll _ _ _) as [c|e] eqn:E2; cbn [bind]; [|discriminate].
  destruct (mapM new_facula _) as [fs|e] eqn:E3; cbn [bind]; [|discriminate].
  destruct (new_faccoll _ _ _) as [d|e] eqn:E4; cbn [bind]; [|discriminate].
  destruct (maybe new_sg _) as [s|e] eqn:E5; cbn [bind]; [|discriminate].
  destruct (maybe new_fg _) as [f|e] eqn:E6; cbn [bind]; [|discriminate].
  intros E. assert (c = sc /\ d = fc /\ s = sg /\ f = fg) as (-> & -> & -> & ->) by (injection E; auto). clear E.
  split; [|split; [|split]].
  - unfold new_spotcoll in E2. destruct (which_grid _ _ _); cbn [bind] in E2; [|discriminate]. apply nsc_set_attrs in E2. rewrite E2. cbn [nsc_spots].
    apply f2_map. apply (mapM_rel _ _ new_spot); auto. exact new_spot_attrs.
  - unfold new_faccoll in E4. destruct (which_grid _ _ _); cbn [bind] in E4; [|discriminate]. injection E4 as <-. cbn [nfc_facs nfc_set_gridmaker]. rewrite map_map. cbn [nf_attrs].
    apply f2_map. apply (mapM_rel _ _ new_facula); auto. exact new_facula_attrs.
  - destruct (ta_sg a) as [x|]; cbn in E5; [|injection E5 as <-; reflexivity]. unfold new_sg in E5. destruct (which_grid _ _ _); cbn [bind] in E5; [|discriminate]. injection E5 as <-. reflexivity.
  - destruct (ta_fg a) as [x|]; cbn in E6; [|injection E6 as <-; reflexivity]. unfold new_fg in E6. cbn. unfold fg_cov. destruct (ha_coverage x); cbn [bind] in E6; try discriminate;
      (destruct (arg Iso (ha_dist x)); cbn [bind] in E6; try discriminate); (destruct (which_grid _ _ _); cbn [bind] in E6; [|discriminate]); injection E6 as <-; reflexivity.
Qed.
Lemma new_star_sg : forall g (x : option nspotgen), g <> PBase ->
  match x with Some x => do g' <- p_adopt (nsg_grid x) g ;; Ok (mkNspotgen (nsg_attrs x) g') | None => Ok (mkNspotgen (sg_off (Spiral 0)) g) end
  = Ok (mkNspotgen (match option_map nsg_attrs x with Some a => a | None => sg_off (Spiral 0) end) g).
Proof. intros g [x|] N; [|reflexivity]. rewrite p_adopt_star by auto. reflexivity. Qed.
Lemma new_star_fg : forall g (x : option nfacgen), g <> PBase ->
  match x with Some x => do g' <- p_adopt (nfg_grid x) g ;; Ok (mkNfacgen (nfg_attrs x) g') | None => Ok (mkNfacgen (fg_off (Spiral 0)) g) end
  = Ok (mkNfacgen (match option_map nfg_attrs x with Some a => a | None => fg_off (Spiral 0) end) g).
Proof. intros g [x|] N; [|reflexivity]. rewrite p_adopt_star by auto. reflexivity. Qed.
Lemma new_star_ext : forall teff radius period sc sc' fc fc' sg sg' fg fg' o,
  map ns_attrs (nsc_spots sc) = map ns_attrs (nsc_spots sc') -> map nf_attrs (nfc_facs fc) = map nf_attrs (nfc_facs fc') ->
  option_map nsg_attrs sg = option_map nsg_attrs sg' -> option_map nfg_attrs fg = option_map nfg_attrs fg' ->
  new_star teff radius period sc fc sg fg o = new_star teff radius period sc' fc' sg' fg' o.
Proof.
  intros teff radius period sc sc' fc fc' sg sg' fg fg' o H1 H2 H3 H4. unfold new_star. destruct (p_new _) as [g|e] eqn:E; [|reflexivity]. cbn [bind]. cbv zeta.
  pose proof (p_new_not_base _ _ E) as NB. rewrite (nsc_set_ext _ _ g H1), (nfc_set_ext _ _ g H2). rewrite !new_star_sg, !new_star_fg by auto. rewrite H3, H4. reflexivity.
Qed.

Lemma C132_same_lemma : forall a b p q, same_but_grids a b -> make_parts a = Ok p -> make_parts b = Ok q -> make_star a = make_star b.
Proof.
  intros a b [[[sc fc] sg] fg] [[[sc' fc'] sg'] fg'] S Ha Hb. unfold make_star. rewrite Ha, Hb. cbn [bind]. unfold same_but_grids in S.
  apply make_parts_attrs in Ha. apply make_parts_attrs in Hb. destruct Ha as (A1 & A2 & A3 & A4), Hb as (B1 & B2 & B3 & B4).
  assert (T1 := f_equal ta_teff S). assert (T2 := f_equal ta_radius S). assert (T3 := f_equal ta_period S). assert (T4 := f_equal ta_spots S).
  assert (T5 := f_equal ta_facs S). assert (T6 := f_equal ta_sg S). assert (T7 := f_equal ta_fg S). assert (T8 := f_equal ta_opts S). cbn in T1, T2, T3, T4, T5, T6, T7, T8.
  rewrite T1, T2, T3, T8. apply new_star_ext.
  - rewrite A1, B1. assert (K : forall l, map spot_attrs l = map spot_attrs (map spot_no_grid l)) by (intros l; rewrite map_map; reflexivity).
    rewrite (K (ta_spots a)), (K (ta_spots b)), T4. reflexivity.
  - rewrite A2, B2. assert (K : forall l, map fac_attrs l = map fac_attrs (map fac_no_grid l)) by (intros l; rewrite map_map; reflexivity).
    rewrite (K (ta_facs a)), (K (ta_facs b)), T5. reflexivity.
  - rewrite A3, B3. destruct (ta_sg a) as [x|], (ta_sg b) as [y|]; try discriminate; auto. cbn in T6 |- *. f_equal.
    assert (U : sg_no_grid x = sg_no_grid y) by exact (f_equal (fun o => match o with Some z => z | None => sg_no_grid x end) T6). change (sg_attrs (sg_no_grid x) = sg_attrs (sg_no_grid y)). congruence.
  - rewrite A4, B4. destruct (ta_fg a) as [x|], (ta_fg b) as [y|]; try discriminate; auto. cbn in T7 |- *. f_equal.
    assert (U : fg_no_grid x = fg_no_grid y) by exact (f_equal (fun o => match o with Some z => z | None => fg_no_grid x end) T7).
    change (fg_attrs (fg_no_grid x) (fg_cov (fg_no_grid x)) = fg_attrs (fg_no_grid y) (fg_cov (fg_no_grid y))). congruence.
Qed.

Lemma f2_maps : forall A B C (P : B -> C -> Prop) (f : A -> B) (g : A -> C) l, (forall x, P (f x) (g x)) -> Forall2 P (map f l) (map g l).
Proof. intros A B C P f g l H. induction l; cbn; constructor; auto. Qed.
(** the spots after the star's grid was set *)
Definition spot_done (g : grid) (a : spot_args) : nspot :=
  mkNspot (spot_attrs a) (lift g) (amap (haversine (sa_lat a) (sa_lon a)) (grid_points g)).
Lemma nsc_set_done : forall c g l, map ns_attrs (nsc_spots c) = map spot_attrs l ->
  nsc_set_gridmaker c (lift g) = Ok (mkNspotcoll (map (spot_done g) l) (lift g)).
Proof.
  intros [s h] g l. cbn [nsc_spots]. intros E. unfold nsc_set_gridmaker. cbn [nsc_spots].
  assert (K : mapM (fun s => ns_set_gridmaker s (lift g)) s = Ok (map (spot_done g) l)); [|rewrite K; reflexivity].
  revert l E. induction s as [|x s IH]; intros [|y l] E; try discriminate. reflexivity. cbn in E. assert (E1 := f_equal (hd (ns_attrs x)) E). assert (E2 := f_equal (@tl _) E). cbn [hd tl] in E1, E2.
  cbn [mapM map]. unfold ns_set_gridmaker at 1. rewrite E1. unfold p_spot_r. rewrite p_grid_lift. cbn [bind]. rewrite (IH l E2). reflexivity.
Qed.
Lemma C132_star_lemma : forall a v g p, make_parts a = Ok p -> or_else (so_params (ta_opts a)) (GInt 1000) = liftv v -> grid_new v = Ok g ->
  exists n s, make_star a = Ok n /\ star_meant v g a = Ok s /\ star_is g n s.
Proof.
  intros a v g [[[sc fc] sg] fg] Hp Ho Hg. pose proof (make_parts_attrs _ _ _ _ _ Hp) as (A1 & A2 & A3 & A4).
  assert (PN : p_new (arg STAR_PARAMS (so_params (ta_opts a))) = Ok (lift g)).
  { change (arg STAR_PARAMS (so_params (ta_opts a))) with (or_else (so_params (ta_opts a)) (GInt 1000)). rewrite Ho.
    destruct (C112_sizes_lemma g v None 0 0 0 0 0 (mkArr false [])) as [-> _]. rewrite Hg. reflexivity. }
  unfold make_star. rewrite Hp. cbn [bind]. unfold new_star. rewrite PN. cbn [bind]. cbv zeta. rewrite (nsc_set_done _ _ _ A1). cbn [bind].
  pose proof (p_new_not_base _ _ PN) as NB. rewrite new_star_sg, new_star_fg by auto. cbn [bind]. eexists. eexists. split. reflexivity.
  unfold star_meant, star_init. rewrite Hg. cbn [bind]. split. reflexivity. rewrite A3, A4.
  assert (AD : forall x, adopt_grid sg_grid sg_assign_grid (sg_meant g x) g = sg_meant g x).
  { intros x. unfold adopt_grid. destruct (grid_ne _ _) as [[]|[]]; reflexivity. }
  assert (AF : forall x, adopt_grid fg_grid fg_assign_grid (fg_meant g x) g = fg_meant g x).
  { intros x. unfold adopt_grid. destruct (grid_ne _ _) as [[]|[]]; reflexivity. }
  unfold star_is. cbn [nst_teff nst_radius nst_period nst_spots nst_facs nst_grid nst_flaregen nst_flares nst_spotgen nst_facgen nst_gran nst_u1 nst_u2
    st_teff st_radius st_period st_spots st_facs st_grid st_flaregen st_flares st_spotgen st_facgen st_gran st_u1 st_u2 nsc_grid sc_grid nsc_spots sc_spots nfc_grid fcc_grid nfc_facs fcc_facs
    set_spot_grid sc_set_gridmaker sc_init set_fac_grid fcc_set_gridmaker fcc_init nfc_set_gridmaker nsg_grid nsg_attrs nfg_grid nfg_attrs].
  repeat match goal with |- _ /\ _ => split end; try reflexivity.
  - rewrite !map_map. apply f2_maps. intros x. split; reflexivity.
  - rewrite !map_map. cbn [nf_attrs]. rewrite <- (map_map nf_attrs (fun f => mkNfac f (lift g))), A2, map_map. apply f2_maps. intros x. split; reflexivity.
  - destruct (ta_sg a) as [x|]; cbn [option_map]. rewrite AD. reflexivity. reflexivity.
  - destruct (ta_fg a) as [x|]; cbn [option_map]. rewrite AF. unfold fg_meant, fg_attrs, fg_cov, cov_num. reflexivity. reflexivity.
Qed.

(** ** Errors *)
Lemma C132_errors_lemma :
  (forall a, (gets_none (sa_params a) (sa_grid a) -> new_spot a = Raise TypeError)
     /\ (forall g, gets (sa_params a) (sa_grid a) g ->
           (has_points g -> exists s, new_spot a = Ok s) /\ (is_rect g -> ~ sizes_ok g -> new_spot a = Raise ValueError)
           /\ (g = PBase -> new_spot a = Raise NotImplementedError)))
  /\ (forall l p m, (gets_none p m -> new_spotcoll l p m = Raise TypeError)
     /\ (forall g, gets p m g -> (l = [] \/ has_points g -> exists c, new_spotcoll l p m = Ok c)
           /\ (l <> [] -> is_rect g -> ~ sizes_ok g -> new_spotcoll l p m = Raise ValueError)
           /\ (l <> [] -> g = PBase -> new_spotcoll l p m = Raise NotImplementedError)))
  /\ (forall a, (gets_none (fa_params a) (fa_grid a) -> new_facula a = Raise TypeError)
     /\ (forall g, gets (fa_params a) (fa_grid a) g -> exists f, new_facula a = Ok f))
  /\ (forall l p m, (gets_none p m -> new_faccoll l p m = Raise TypeError) /\ (forall g, gets p m g -> exists c, new_faccoll l p m = Ok c))
  /\ (forall a, (gets_none (ga_params a) (ga_grid a) -> new_sg a = Raise TypeError)
     /\ (forall g, gets (ga_params a) (ga_grid a) g -> exists f, new_sg a = Ok f))
  /\ (forall a, (ha_coverage a = COther -> new_fg a = Raise TypeError)
     /\ (ha_coverage a <> COther -> (ha_dist a = Some Solar -> new_fg a = Raise NotImplementedError)
          /\ (ha_dist a = Some UnknownDist -> new_fg a = Raise ValueError)
          /\ (ha_dist a = None \/ ha_dist a = Some Iso -> (gets_none (ha_params a) (ha_grid a) -> new_fg a = Raise TypeError)
               /\ (forall g, gets (ha_params a) (ha_grid a) g -> exists f, new_fg a = Ok f))))
  /\ (forall teff radius period sc fc sg fg o,
       (no_meaning (or_else (so_params o) (GInt 1000)) -> new_star teff radius period sc fc sg fg o = Raise TypeError)
       /\ (forall g, means (or_else (so_params o) (GInt 1000)) g ->
            (nsc_spots sc = [] \/ has_points g -> exists n, new_star teff radius period sc fc sg fg o = Ok n /\ nst_grid n = g)
            /\ (nsc_spots sc <> [] -> ~ has_points g -> new_star teff radius period sc fc sg fg o = Raise ValueError))).
Proof.
  assert (SO : forall s g, has_points g -> exists t, ns_set_gridmaker s g = Ok t).
  { intros s g H. unfold ns_set_gridmaker. destruct (points_ok g (sp_lat (ns_attrs s), sp_lon (ns_attrs s)) H) as [r ->]. cbn. eauto. }
  assert (SB : forall s g, ~ has_points g -> ns_set_gridmaker s g = Raise (match g with PBase => NotImplementedError | _ => ValueError end)).
  { intros s g H. unfold ns_set_gridmaker. rewrite points_bad by auto. reflexivity. }
  assert (CO : forall c g, nsc_spots c = [] \/ has_points g -> exists d, nsc_set_gridmaker c g = Ok d).
  { intros [l h] g H. cbn in H. unfold nsc_set_gridmaker. cbn [nsc_spots]. destruct (mapM_const_ok _ _ (fun s => ns_set_gridmaker s g) l) as [ys [-> _]].
    { intros x I. destruct H as [->|H]. contradiction. auto. } cbn. eauto. }
  assert (CB : forall c g, nsc_spots c <> [] -> ~ has_points g -> nsc_set_gridmaker c g = Raise (match g with PBase => NotImplementedError | _ => ValueError end)).
  { intros [[|x l] h] g H N; cbn in H. congruence. unfold nsc_set_gridmaker. cbn [nsc_spots mapM]. rewrite SB by auto. reflexivity. }
  assert (RB : forall g, is_rect g -> ~ sizes_ok g -> ~ has_points g).
  { intros g [x [y ->]] N [K|[_ K]]. destruct K as [k K]. discriminate. auto. }
  assert (BB : ~ has_points PBase). { intros [K|[_ K]]. destruct K as [k K]. discriminate. exact K. }
  assert (WN : forall p m, gets_none p m -> which_grid PARTS_PARAMS p m = Raise TypeError). { intros p m H. apply which_err. auto. }
  assert (WG : forall p m g, gets p m g -> which_grid PARTS_PARAMS p m = Ok g). { intros p m g H. apply which_gets. auto. }
  split. { intros a. unfold new_spot. split. intros H. rewrite WN by auto. reflexivity. intros g H. rewrite (WG _ _ _ H). cbn [bind]. split. auto. split.
    intros R1 R2. rewrite SB by auto. destruct R1 as [x [y ->]]. reflexivity. intros ->. rewrite SB by auto. reflexivity. }
  split. { intros l p m. unfold new_spotcoll. split. intros H. rewrite WN by auto. reflexivity. intros g H. rewrite (WG _ _ _ H). cbn [bind]. split. intros K. apply CO. exact K. split.
    intros NE R1 R2. rewrite CB by auto. destruct R1 as [x [y ->]]. reflexivity. intros NE ->. rewrite CB by auto. reflexivity. }
  split. { intros a. unfold new_facula. split. intros H. rewrite WN by auto. reflexivity. intros g H. rewrite (WG _ _ _ H). cbn. eauto. }
  split. { intros l p m. unfold new_faccoll. split. intros H. rewrite WN by auto. reflexivity. intros g H. rewrite (WG _ _ _ H). cbn. eauto. }
  split. { intros a. unfold new_sg. split. intros H. rewrite WN by auto. reflexivity. intros g H. rewrite (WG _ _ _ H). cbn. eauto. }
  split. { intros a. unfold new_fg. split. intros ->. reflexivity. intros NC.
    assert (CC : exists c, match ha_coverage a with CFloat v => Ok v | CInt z => Ok (Fin (IZR z)) | COther => Raise TypeError end = Ok c) by (destruct (ha_coverage a); eauto; congruence).
    destruct CC as [c ->]. cbn [bind]. split. intros ->. reflexivity. split. intros ->. reflexivity.
    intros D. assert (DD : arg Iso (ha_dist a) = Iso) by (destruct D as [->| ->]; reflexivity). rewrite DD. cbn [bind]. split. intros H. rewrite WN by auto. reflexivity.
    intros g H. rewrite (WG _ _ _ H). cbn. eauto. }
  intros teff radius period sc fc sg fg o. unfold new_star. change (arg STAR_PARAMS (so_params o)) with (or_else (so_params o) (GInt 1000)). split.
  - intros N. rewrite p_new_err by auto. reflexivity.
  - intros g M. apply p_new_means in M. rewrite M. cbn [bind]. cbv zeta. pose proof (p_new_not_base _ _ M) as NB. split.
    + intros H. destruct (CO _ _ H) as [d ->]. cbn [bind]. rewrite new_star_sg, new_star_fg by auto. cbn [bind]. eexists. split. reflexivity. reflexivity.
    + intros NE H. rewrite CB by auto. cbn [bind]. destruct g; auto. congruence.
Qed.

(** ** What is left out *)
Lemma left_out : forall v g a s, grid_new v = Ok g -> star_meant v g a = Ok s -> ta_sg a = None -> ta_fg a = None ->
  so_flaregen (ta_opts a) = None -> so_gran (ta_opts a) = None -> so_u1 (ta_opts a) = None -> so_u2 (ta_opts a) = None -> 0 < ta_radius a ->
    (forall t pdraw d fuel, sg_birth (st_spotgen s) (Fin t) (st_radius s) pdraw d fuel = Ok [])
    /\ (forall t pdraw d, fg_birth (st_facgen s) (Fin t) (st_radius s * RSUN_KM) pdraw d = Ok [])
    /\ (forall t pdraw d, generate_flare_series (st_flaregen s) t pdraw d = Ok [])
    /\ (forall k sample, star_granulation s k sample = Ok (repeat (Fin 0) k))
    /\ (forall mu, 0 <= mu -> ld_mask s mu = mu)
    /\ (forall i x A M, nth_error (ta_spots a) i = Some x -> bare_spot x -> sa_area x = Fin A -> sa_amax x = Fin M -> 0 < A <= M ->
         exists y, nth_error (sc_spots (st_spots s)) i = Some y /\ sp_lat y = sa_lat x /\ sp_lon y = sa_lon x /\ sp_ratio y = Fin 5
         /\ forall t, 0 <= t -> exists z, spot_age y (Fin t) = Ok z
            /\ (t < ln (M/A) / ln (152/100) -> sp_area z = Fin (A * Rpower (152/100) t) /\ sp_growing z = true)
            /\ (ln (M/A) / ln (152/100) <= t -> sp_area z = Fin (Rmax 0 (M - 1089/100 * (t - ln (M/A) / ln (152/100)))) /\ sp_growing z = false)).
Proof.
  intros v g a s Hg Es B1 B2 B3 B4 B5 B6 RR. unfold star_meant, star_init in Es. rewrite Hg, B1, B2, B3, B4, B5, B6 in Es. cbn [bind option_map or_else] in Es.
  injection Es as <-.
  cbn [st_spotgen st_facgen st_flaregen st_radius st_spots sc_spots set_spot_grid sc_set_gridmaker sc_init].
  split. { intros t pdraw d fuel. destruct C26_lemma as (_ & _ & C & _). apply C. }
  split. { intros t pdraw d. destruct C34_lemma as (_ & C & _). apply C. unfold RSUN_KM. nra. }
  split. { intros. apply C44_off_lemma. }
  split. { intros k sample. unfold star_granulation. cbn [st_gran gran_off gr_dteff gran_init]. replace (neq (Fin 0) (Fin 0)) with true by (symmetry; apply Reqb_true; reflexivity). reflexivity. }
  split. { intros mu H. unfold ld_mask. cbn [st_u1 st_u2]. destruct (Rltb mu 0) eqn:L. apply Rltb_true in L. lra. ring. }
  intros i x A M E (X1 & X2 & X3 & X4) XA XM HAM. eexists. split. rewrite !map_map. apply map_nth_error. exact E.
  split. reflexivity. split. reflexivity. split. cbn. rewrite X1. reflexivity. intros t Ht.
  match goal with |- exists z, spot_age ?y _ = _ /\ _ => destruct (C13_lemma y A M (52/100) (1089/100) t) as (z & Ez & Z1 & Z2 & _) end.
  - unfold spot_params. cbn. rewrite X3, X4. cbn. auto.
  - auto.
  - lra.
  - auto.
  - cbn [sp_growing spot_assign_gridmaker spot_set_gridmaker spot_meant spot_init] in Z1, Z2. rewrite X2 in Z1, Z2. cbn [or_else] in Z1, Z2. unfold time_to_max in Z1, Z2.
    replace (1 + 52/100) with (152/100) in Z1, Z2 by lra. exists z. split. exact Ez. split; intros H.
    + destruct (Z1 eq_refl ltac:(lra) H) as (_ & _ & _ & Q & _ & _ & _ & G & _). auto.
    + destruct (Z2 eq_refl ltac:(lra) H) as (_ & _ & _ & Q & _ & _ & _ & G & _). auto.
Qed.

Lemma C132_left_out_lemma : forall a p, make_parts a = Ok p -> bare_star a -> 0 < ta_radius a ->
  exists n s, make_star a = Ok n /\ star_is (Spiral 1000) n s
    /\ (forall t pdraw d fuel, sg_birth (st_spotgen s) (Fin t) (st_radius s) pdraw d fuel = Ok [])
    /\ (forall t pdraw d, fg_birth (st_facgen s) (Fin t) (st_radius s * RSUN_KM) pdraw d = Ok [])
    /\ (forall t pdraw d, generate_flare_series (st_flaregen s) t pdraw d = Ok [])
    /\ (forall k sample, star_granulation s k sample = Ok (repeat (Fin 0) k))
    /\ (forall mu, 0 <= mu -> ld_mask s mu = mu)
    /\ (forall i x A M, nth_error (ta_spots a) i = Some x -> bare_spot x -> sa_area x = Fin A -> sa_amax x = Fin M -> 0 < A <= M ->
         exists y, nth_error (sc_spots (st_spots s)) i = Some y /\ sp_lat y = sa_lat x /\ sp_lon y = sa_lon x /\ sp_ratio y = Fin 5
         /\ forall t, 0 <= t -> exists z, spot_age y (Fin t) = Ok z
            /\ (t < ln (M/A) / ln (152/100) -> sp_area z = Fin (A * Rpower (152/100) t) /\ sp_growing z = true)
            /\ (ln (M/A) / ln (152/100) <= t -> sp_area z = Fin (Rmax 0 (M - 1089/100 * (t - ln (M/A) / ln (152/100)))) /\ sp_growing z = false)).
Proof.
  intros a p Hp (B1 & B2 & B3) RR.
  assert (Ho : or_else (so_params (ta_opts a)) (GInt 1000) = liftv (PyInt 1000)) by (rewrite B3; reflexivity).
  destruct (C132_star_lemma a (PyInt 1000) (Spiral 1000) p Hp Ho eq_refl) as (n & s & En & Es & Is).
  exists n, s. split. exact En. split. exact Is. apply (left_out (PyInt 1000) (Spiral 1000) a s); try (rewrite B3; reflexivity); auto.
Qed.

(** ** C112, the beginnings of the methods that use a grid *)
Lemma C112_methods_lemma : forall (A : Type) g lat0 lon0 (rest : arr R -> arr num -> res A) teff (paint add : arr num -> res A) spots sg fg v,
  p_coverage (lift g) lat0 lon0 rest = (do jac <- grid_area g ;; rest (grid_mu g lat0 lon0) jac)
  /\ p_map (lift g) (Fin teff) paint = paint (amap (fun _ => Fin teff) (grid_points g))
  /\ p_get_coverage (lift g) add = (do area <- grid_area g ;; add area)
  /\ (grid_new v = Ok g -> exists rs, p_star_grids (liftv v) spots sg fg = Ok (lift g, rs, lift g, lift g)
        /\ rs = map (fun s => amap (fun p => Fin (acos (law_cos (fst s) (snd s) (fst p) (snd p)))) (grid_points g)) spots).
Proof.
  intros A g lat0 lon0 rest teff paint add spots sg fg v. split; [|split; [|split]].
  - unfold p_coverage, p_mu. rewrite p_grid_lift, p_area_lift. reflexivity.
  - unfold p_map. rewrite p_zeros_lift. cbn [bind]. f_equal. rewrite grid_zeros_eq, amap_amap. apply amap_ext. intros p. rewrite nadd_fin. f_equal. ring.
  - unfold p_get_coverage. rewrite p_area_lift. reflexivity.
  - intros Hg. assert (PN : p_new (liftv v) = Ok (lift g)). { destruct (C112_sizes_lemma g v None 0 0 0 0 0 (mkArr false [])) as [-> _]. rewrite Hg. reflexivity. }
    unfold p_star_grids. rewrite PN. cbn [bind]. pose proof (p_new_not_base _ _ PN) as NB.
    assert (M : mapM (p_spot_r (lift g)) spots = Ok (map (fun s => amap (fun p => Fin (acos (law_cos (fst s) (snd s) (fst p) (snd p)))) (grid_points g)) spots)).
    { induction spots as [|s l IH]. reflexivity. cbn [mapM map]. unfold p_spot_r at 1. rewrite p_grid_lift. cbn [bind]. rewrite IH. cbn [bind]. do 2 f_equal. apply amap_ext. intros p. apply haversine_eq. }
    rewrite M. cbn [bind]. eexists. split; [|reflexivity]. destruct sg as [x|], fg as [y|]; rewrite ?p_adopt_star by auto; reflexivity.
Qed.
