(** C108: the report with its texts *)
From Coq Require Import Reals ZArith NArith Bool String Ascii List Sorted Lra Lia.
From Verif Require Import Num Py MConfig MHelpers MGrid MSpots MFaculae MXoflares MFlares MGranules MStar MFormat MLabel
  Spec SpecStar SpecDisk SpecText SpecLabel LBase LHelpers LGrid LDisk LStarCov LText.
Import ListNotations.
Open Scope R_scope.

(** ** conversions *)
Lemma in_unit_eq : forall u x, 0 < tu_size u -> in_unit u x = match x with Fin r => Fin (r / tu_size u) | y => y end.
Proof.
  intros u x H. unfold in_unit. destruct x; cbn [ndiv]; auto.
  - destruct (Req_EM_T _ _); auto. lra.
  - destruct (Rlt_dec _ _); auto. lra.
  - destruct (Rlt_dec _ _); auto. lra.
Qed.
Lemma convert_in : forall u v x, 0 < tu_size u -> 0 < tu_size v -> convert u v (in_unit u x) = in_unit v x.
Proof.
  intros u v x U V. assert (P : 0 < tu_size u / tu_size v) by (apply Rdiv_lt_0_compat; auto).
  rewrite !in_unit_eq by auto. unfold convert. destruct x; cbn [nmul]; auto; unfold inf_signed.
  - f_equal. field. lra.
  - destruct (Rlt_dec _ _); auto. lra.
  - destruct (Rlt_dec _ _); auto. lra.
Qed.
Lemma in_unit_inj : forall u x y, 0 < tu_size u -> in_unit u x = in_unit u y -> x = y.
Proof.
  intros u x y U. rewrite !in_unit_eq by auto. destruct x, y; auto; try discriminate. intros E. f_equal. injection E as E.
  apply (Rmult_eq_reg_r (/ tu_size u)); auto. apply Rinv_neq_0_compat. lra.
Qed.
Lemma div_lt_iff : forall a b s, 0 < s -> (a / s < b / s <-> a < b).
Proof.
  intros a b s H. assert (0 < / s) by (apply Rinv_0_lt_compat; auto). unfold Rdiv. split; intros.
  - apply (Rmult_lt_reg_r (/ s)); auto.
  - apply Rmult_lt_compat_r; auto.
Qed.
Lemma nlt_in : forall u x y, 0 < tu_size u -> nlt (in_unit u x) (in_unit u y) = nlt x y.
Proof.
  intros u x y U. rewrite !in_unit_eq by auto. destruct x as [a| | |], y as [b| | |]; auto. unfold nlt, Rltb. pose proof (div_lt_iff a b _ U).
  destruct (Rlt_dec (a / tu_size u) (b / tu_size u)), (Rlt_dec a b); tauto.
Qed.
Lemma ngt_in : forall u x y, 0 < tu_size u -> ngt (in_unit u x) (in_unit u y) = ngt x y.
Proof. intros. unfold ngt. apply nlt_in; auto. Qed.
Lemma neq_in : forall u x y, 0 < tu_size u -> neq (in_unit u x) (in_unit u y) = neq x y.
Proof.
  intros u x y U. rewrite !in_unit_eq by auto. destruct x as [a| | |], y as [b| | |]; auto. unfold neq, Reqb.
  destruct (Req_EM_T (a / tu_size u) (b / tu_size u)) as [E|E], (Req_EM_T a b) as [F|F]; auto; exfalso.
  - apply F. apply (Rmult_eq_reg_r (/ tu_size u)); auto. apply Rinv_neq_0_compat. lra.
  - subst; auto.
Qed.
Lemma nisnan_in : forall u x, 0 < tu_size u -> nisnan (in_unit u x) = nisnan x.
Proof. intros u x U. rewrite in_unit_eq by auto. destruct x; auto. Qed.
Lemma nunique_in : forall u l, 0 < tu_size u -> nunique (map (in_unit u) l) = map (in_unit u) (nunique l).
Proof.
  intros u l U. unfold nunique. induction l as [|x l IH]; cbn [map fold_right]; auto. rewrite IH. generalize (fold_right uinsert [] l). clear l IH.
  induction l as [|y l IH]; cbn [map uinsert]; auto. rewrite neq_in, nlt_in, !nisnan_in by auto.
  destruct (neq x y || (nisnan x && nisnan y)); auto. destruct (nlt x y || nisnan y); cbn [map]; auto. rewrite IH. auto.
Qed.
Lemma nsub_in : forall u x y, 0 < tu_size u -> nsub (in_unit u x) (in_unit u y) = in_unit u (nsub x y).
Proof.
  intros u x y U. rewrite !in_unit_eq by auto. destruct x as [a| | |], y as [b| | |]; auto. unfold nsub. cbn [nneg nadd]. f_equal. field. lra.
Qed.
(** ** arrays *)
Lemma bcast_map_r : forall A B C (h : B -> C) (la : list A) lb,
  bcast la (map h lb) = option_map (map (fun p => (fst p, h (snd p)))) (bcast la lb).
Proof.
  intros. unfold bcast. rewrite map_length. destruct (Nat.eqb (length la) (length lb)) eqn:E.
  - cbn [option_map]. f_equal. apply Nat.eqb_eq in E. revert lb E. induction la; intros [|b lb] E; cbn in *; auto; try lia. f_equal. apply IHla. lia.
  - destruct la as [|a [|a' la]]; cbn.
    + destruct lb as [|b [|b' lb]]; cbn in *; auto.
    + f_equal. rewrite !map_map. auto.
    + destruct lb as [|b [|b' lb]]; cbn in *; auto. do 3 f_equal. rewrite map_map. auto.
Qed.
Lemma azip_amap_r : forall A B C (h : B -> C) (a : arr A) b, azip a (amap h b) = rmap (amap (fun p => (fst p, h (snd p)))) (azip a b).
Proof.
  intros. unfold azip. cbn [amap arows a2d]. rewrite bcast_map_r. destruct (bcast (arows a) (arows b)) as [l|]; cbn [option_map rmap]; auto.
  rewrite map_map. cbn [fst snd].
  assert (E : all_some (map (fun x => bcast (fst x) (map h (snd x))) l)
    = option_map (map (map (fun p => (fst p, h (snd p))))) (all_some (map (fun p => bcast (fst p) (snd p)) l))).
  { induction l as [|x l IH]; cbn [map all_some]; auto. rewrite bcast_map_r. destruct (bcast (fst x) (snd x)) as [y|]; [|reflexivity].
    cbn [option_map]. rewrite IH. destruct (all_some (map (fun p => bcast (fst p) (snd p)) l)); reflexivity. }
  rewrite E. destruct (all_some (map (fun p => bcast (fst p) (snd p)) l)); reflexivity.
Qed.
Lemma amap2_map_r : forall A B C D (f : A -> C -> D) (h : B -> C) a b, amap2 f a (amap h b) = amap2 (fun x y => f x (h y)) a b.
Proof.
  intros. unfold amap2. rewrite azip_amap_r. destruct (azip a b); cbn [rmap bind]; auto. rewrite amap_amap. auto.
Qed.
Lemma amap2_out : forall A B C D (f : A -> B -> C) (g : C -> D) a b, rmap (amap g) (amap2 f a b) = amap2 (fun x y => g (f x y)) a b.
Proof. intros. unfold amap2. destruct (azip a b); cbn [rmap bind]; auto. rewrite amap_amap. auto. Qed.
Lemma amap2_ext : forall A B C (f g : A -> B -> C) a b, (forall x y, f x y = g x y) -> amap2 f a b = amap2 g a b.
Proof. intros. unfold amap2. destruct (azip a b); cbn [bind]; auto. f_equal. apply amap_ext. auto. Qed.
Lemma awhere_map : forall A B (g : A -> B) m v a, awhere m (g v) (amap g a) = rmap (amap g) (awhere m v a).
Proof. intros. unfold awhere. rewrite amap2_map_r, amap2_out. apply amap2_ext. intros [] y; auto. Qed.
Lemma zip_same_map : forall A B C (g : A -> C) (a : arr A) (b : arr B), zip_same (amap g a) b = rmap (amap (fun p => (g (fst p), snd p))) (zip_same a b).
Proof.
  intros. unfold zip_same. assert (E : same_shape (amap g a) b = same_shape a b).
  { unfold same_shape. cbn [amap a2d arows]. f_equal. generalize (arows b). induction (arows a) as [|r t IH]; intros [|r' t']; cbn; auto. rewrite map_length, IH. auto. }
  rewrite E. destruct (same_shape a b); auto. cbn [rmap]. f_equal. unfold amap. cbn [a2d arows]. f_equal. clear E.
  generalize (arows b). induction (arows a) as [|r t IH]; intros [|r' t']; cbn; auto. f_equal; auto.
  clear. revert r'. induction r; intros [|]; cbn; auto. f_equal; auto.
Qed.
Lemma mask_assign_map : forall (g : num -> num) m k v, mask_assign (amap g m) k (g v) = rmap (amap g) (mask_assign m k v).
Proof.
  intros. unfold mask_assign. rewrite zip_same_map. destruct (zip_same m k); cbn [rmap bind]; auto. rewrite !amap_amap. f_equal. apply amap_ext.
  intros [x []]; auto.
Qed.
(** ** the map *)
Lemma tkb : forall a b, teff_key_eqb a b = true <-> a = b.
Proof.
  intros a b. unfold teff_key_eqb. destruct a, b; cbn; try (split; [discriminate|congruence]); try tauto.
  rewrite orb_false_r. unfold Reqb. destruct (Req_EM_T _ _); split; intros; try congruence.
Qed.
Lemma qkb : forall a b, qkey_eqb a b = true <-> a = b.
Proof.
  intros [a n] [b m]. unfold qkey_eqb. cbn [fst snd]. rewrite andb_true_iff, tkb, String.eqb_eq. split; [intros [-> ->]; auto|intros E; injection E; auto].
Qed.
Definition spot_units_ok (x : spot) (uu up : tunit) : Prop :=
  (tu_name uu = tu_name up -> tu_size uu = tu_size up) /\ (sp_teff_umbra x = sp_teff_pen x -> uu = up).
Lemma eqb_of : forall K (e : K -> K -> bool), (forall a b, e a b = true <-> a = b) -> forall a b, a <> b -> e a b = false.
Proof. intros K e H a b N. destruct (e a b) eqn:E; auto. apply H in E. tauto. Qed.
Lemma eqb_same : forall K (e : K -> K -> bool), (forall a b, e a b = true <-> a = b) -> forall a, e a a = true.
Proof. intros K e H a. apply H. auto. Qed.
Lemma paint_spot_u_eq : forall Rs u uu up m x, 0 < tu_size u -> 0 < tu_size uu -> 0 < tu_size up -> spot_units_ok x uu up ->
  paint_spot_u Rs u uu up (amap (in_unit u) m) x = rmap (amap (in_unit uu)) (paint_spot Rs m x).
Proof.
  intros Rs u uu up m x U UU UP [N1 N2]. unfold paint_spot_u, paint_spot.
  set (ku := (in_unit uu (sp_teff_umbra x), tu_name uu)). set (kp := (in_unit up (sp_teff_pen x), tu_name up)).
  assert (K : ku = kp <-> sp_teff_umbra x = sp_teff_pen x).
  { unfold ku, kp. split; intros E.
    - injection E as E1 E2. apply (in_unit_inj uu); auto. rewrite E1. rewrite !in_unit_eq by auto. rewrite (N1 E2). auto.
    - rewrite (N2 E), E. auto. }
  set (Pm := amap (fun r => nlt r (spot_angular_radius x Rs)) (sp_r x)).
  set (Um := amap (fun r => nlt r (ndiv (spot_angular_radius x Rs) (nsqrt (sp_ratio x)))) (sp_r x)).
  assert (DP : dindex qkey_eqb (spot_map_pixels_u x uu up Rs) kp = dindex teff_key_eqb (spot_map_pixels x Rs) (sp_teff_pen x)
    /\ dindex qkey_eqb (spot_map_pixels_u x uu up Rs) ku = dindex teff_key_eqb (spot_map_pixels x Rs) (sp_teff_umbra x)).
  { unfold spot_map_pixels_u, spot_map_pixels. fold ku kp Pm Um. cbn [dset]. unfold dindex.
    destruct (qkey_eqb kp ku) eqn:E.
    - apply qkb in E. symmetry in E. rewrite (proj1 K E), (eqb_same _ _ tkb). cbn [dget]. rewrite E, (eqb_same _ _ qkb), (eqb_same _ _ tkb). auto.
    - assert (F : ku <> kp) by (intros Q; rewrite Q, (eqb_same _ _ qkb) in E; discriminate).
      assert (F' : sp_teff_umbra x <> sp_teff_pen x) by tauto.
      rewrite (eqb_of _ _ tkb (sp_teff_pen x) (sp_teff_umbra x)) by auto. cbn [dget].
      rewrite E, (eqb_same _ _ qkb), (eqb_same _ _ qkb), (eqb_of _ _ tkb (sp_teff_pen x) (sp_teff_umbra x)), (eqb_same _ _ tkb), (eqb_same _ _ tkb) by auto. auto. }
  destruct DP as [-> ->]. destruct (dindex teff_key_eqb (spot_map_pixels x Rs) (sp_teff_pen x)) as [dp|]; cbn [bind rmap]; auto.
  rewrite !convert_in by auto. rewrite !amap_amap.
  rewrite (amap_ext _ _ (fun x0 => ngt (in_unit u x0) (in_unit u (sp_teff_pen x))) (fun t => ngt t (sp_teff_pen x))) by (intros; apply ngt_in; auto).
  rewrite (amap_ext _ _ (fun x0 => ngt (in_unit u x0) (in_unit u (sp_teff_umbra x))) (fun t => ngt t (sp_teff_umbra x))) by (intros; apply ngt_in; auto).
  rewrite (amap_ext _ _ (fun x0 => convert u up (in_unit u x0)) (in_unit up)) by (intros; apply convert_in; auto).
  destruct (amap2 andb dp _) as [pm|]; cbn [bind rmap]; auto.
  destruct (dindex teff_key_eqb (spot_map_pixels x Rs) (sp_teff_umbra x)) as [du|]; cbn [bind rmap]; auto.
  destruct (amap2 andb du _) as [um|]; cbn [bind rmap]; auto.
  rewrite awhere_map. destruct (awhere pm _ m) as [inner|]; cbn [bind rmap]; auto.
  rewrite amap_amap. rewrite (amap_ext _ _ (fun x0 => convert up uu (in_unit up x0)) (in_unit uu)) by (intros; apply convert_in; auto).
  apply awhere_map.
Qed.
Definition last_unit (us : nat -> tunit * tunit) (i : nat) (u : tunit) (l : list spot) : tunit :=
  match l with [] => u | _ :: t => fst (us (i + length t)%nat) end.
Lemma paint_spots_u_eq : forall Rs us l i u m, 0 < tu_size u -> (forall j, 0 < tu_size (fst (us j)) /\ 0 < tu_size (snd (us j))) ->
  (forall j x, nth_error l j = Some x -> spot_units_ok x (fst (us (i + j)%nat)) (snd (us (i + j)%nat))) ->
  paint_spots_u Rs us i u (amap (in_unit u) m) l = rmap (fun m' => (amap (in_unit (last_unit us i u l)) m', last_unit us i u l)) (paint_spots Rs m l).
Proof.
  intros Rs us. induction l as [|x l IH]; intros i u m U P H; cbn [paint_spots_u paint_spots]; auto.
  rewrite paint_spot_u_eq; try apply P; auto.
  2:{ specialize (H 0%nat x eq_refl). rewrite Nat.add_0_r in H. auto. }
  destruct (paint_spot Rs m x) as [m'|]; cbn [rmap bind]; auto.
  rewrite IH; try apply P; auto.
  2:{ intros j y J. specialize (H (S j) y J). replace (S i + j)%nat with (i + S j)%nat by lia. auto. }
  replace (last_unit us (S i) (fst (us i)) l) with (last_unit us i u (x :: l)); auto.
  unfold last_unit. destruct l; cbn [length]. rewrite Nat.add_0_r; auto. do 2 f_equal. lia.
Qed.
Lemma sc_map_pixels_u_eq : forall c us Rs T, sizes_positive us ->
  (forall j x, nth_error (sc_spots c) j = Some x -> spot_units_ok x (fst (us_spot us j)) (snd (us_spot us j))) ->
  sc_map_pixels_u c us Rs T = rmap (fun m => (amap (in_unit (map_unit us (length (sc_spots c)))) m, map_unit us (length (sc_spots c)))) (sc_map_pixels c Rs T).
Proof.
  intros c us Rs T [P Q] H. unfold sc_map_pixels_u, sc_map_pixels.
  replace (amap (fun z => nadd z (in_unit (us_star us) T)) (grid_zeros (sc_grid c))) with (amap (in_unit (us_star us)) (amap (fun z => nadd z T) (grid_zeros (sc_grid c)))).
  2:{ rewrite grid_zeros_eq. rewrite !amap_amap. apply amap_ext. intros _. rewrite !in_unit_eq by auto. destruct T; cbn [nadd]; auto. f_equal. field. lra. }
  rewrite paint_spots_u_eq; auto. unfold last_unit, map_unit. destruct (sc_spots c); auto.
Qed.
Lemma paint_facula_u_eq : forall s lat0 lon0 mu u m f, 0 < tu_size u ->
  paint_facula_u s lat0 lon0 mu u (amap (in_unit u) m) f = rmap (amap (in_unit u)) (paint_facula s lat0 lon0 mu m f).
Proof.
  intros. unfold paint_facula_u, paint_facula. destruct (negb _); auto.
  destruct (fac_fractional_area _ _) as [fr|]; cbn [bind rmap]; auto.
  destruct fr as [|[dw fw] [|[df ff] [|]]]; auto.
  destruct (zip_same mu _); cbn [bind rmap]; auto. destruct (quantile _ _); cbn [bind rmap]; auto.
  destruct (amap2 andb _ _) as [w|]; cbn [bind rmap]; auto. destruct (amap2 andb _ _) as [fl|]; cbn [bind rmap]; auto.
  rewrite mask_assign_map. destruct (mask_assign m w _); cbn [bind rmap]; auto. apply mask_assign_map.
Qed.
Lemma paint_faculae_u_eq : forall s lat0 lon0 mu u l m, 0 < tu_size u ->
  paint_faculae_u s lat0 lon0 mu u (amap (in_unit u) m) l = rmap (amap (in_unit u)) (paint_faculae s lat0 lon0 mu m l).
Proof.
  induction l as [|f l IH]; intros m U; cbn [paint_faculae_u paint_faculae]; auto. rewrite paint_facula_u_eq by auto.
  destruct (paint_facula s lat0 lon0 mu m f); cbn [bind rmap]; auto.
Qed.
Lemma map_unit_pos : forall us n, sizes_positive us -> 0 < tu_size (map_unit us n).
Proof. intros us n [P Q]. destruct n; cbn; auto. apply Q. Qed.
Lemma add_faculae_u_eq : forall s us lat0 lon0, sizes_positive us ->
  (forall j x, nth_error (sc_spots (st_spots s)) j = Some x -> spot_units_ok x (fst (us_spot us j)) (snd (us_spot us j))) ->
  let u := map_unit us (length (sc_spots (st_spots s))) in
  add_faculae_to_map_u s us lat0 lon0 = rmap (fun m => (amap (in_unit u) m, u)) (add_faculae_to_map s lat0 lon0).
Proof.
  intros s us lat0 lon0 P H u. unfold add_faculae_to_map_u, add_faculae_to_map, star_map. rewrite sc_map_pixels_u_eq by auto. fold u.
  destruct (sc_map_pixels _ _ _) as [m|]; cbn [bind rmap fst snd]; auto.
  rewrite paint_faculae_u_eq by (apply map_unit_pos; auto). destruct (paint_faculae _ _ _ _ _ _); cbn [bind rmap]; auto.
Qed.

(** ** the report *)
Definition rel {K K'} (P : num -> Prop) (lab : num -> K) (lab' : num -> K') (e : K * num) (e' : K' * num) : Prop :=
  exists t, P t /\ fst e = lab t /\ fst e' = lab' t /\ snd e = snd e'.
Definition agree {K K'} (P : num -> Prop) (lab : num -> K) (lab' : num -> K') : Prop :=
  forall t t', P t -> P t' -> (lab t = lab t' <-> lab' t = lab' t').
Lemma agree_eqb : forall K K' P (lab : num -> K) (lab' : num -> K') (e : K -> K -> bool) (e' : K' -> K' -> bool),
  (forall a b, e a b = true <-> a = b) -> (forall a b, e' a b = true <-> a = b) -> agree P lab lab' ->
  forall t t', P t -> P t' -> e (lab t) (lab t') = e' (lab' t) (lab' t').
Proof.
  intros K K' P lab lab' e e' H H' A t t' Pt Pt'. specialize (A t t' Pt Pt').
  destruct (e (lab t) (lab t')) eqn:E, (e' (lab' t) (lab' t')) eqn:E'; auto.
  - apply H in E. apply A in E. apply H' in E. congruence.
  - apply H' in E'. apply A in E'. apply H in E'. congruence.
Qed.
Definition relr {A B} (Q : A -> B -> Prop) (x : res A) (y : res B) : Prop :=
  match x, y with Ok a, Ok b => Q a b | Raise e, Raise e' => e = e' | _, _ => False end.
Lemma relr_bind : forall A B C D (Q : A -> B -> Prop) (Q' : C -> D -> Prop) x y f g,
  relr Q x y -> (forall a b, Q a b -> relr Q' (f a) (g b)) -> relr Q' (bind x f) (bind y g).
Proof. intros A B C D Q Q' [a|e] [b|e'] f g H K; cbn in *; auto; try tauto. Qed.
Lemma dset_rel : forall P lab (lab' : num -> string) d d' t v, agree P lab lab' -> P t -> Forall2 (rel P lab lab') d d' ->
  Forall2 (rel P lab lab') (dset tkey_eqb d (lab t) v) (dset String.eqb d' (lab' t) v).
Proof.
  intros P lab lab' d d' t v A Pt F. induction F as [|[k x] [k' x'] d d' R F IH]; cbn [dset].
  - constructor; auto. exists t; auto.
  - destruct R as [t' [P' [E1 [E2 E3]]]]. cbn [fst snd] in *. subst k k' x'.
    rewrite (agree_eqb _ _ P lab lab' tkey_eqb String.eqb) by (auto; try apply tkey_eqb_spec; apply String.eqb_eq).
    destruct (String.eqb (lab' t) (lab' t')); constructor; auto; exists t'; auto.
Qed.
Lemma dindex_rel : forall P lab (lab' : num -> string) d d' t, agree P lab lab' -> P t -> Forall2 (rel P lab lab') d d' ->
  relr eq (dindex tkey_eqb d (lab t)) (dindex String.eqb d' (lab' t)).
Proof.
  intros P lab lab' d d' t A Pt F. unfold dindex. induction F as [|[k x] [k' x'] d d' R F IH]; cbn [dget].
  - reflexivity.
  - destruct R as [t' [P' [E1 [E2 E3]]]]. cbn [fst snd] in *. subst k k' x'.
    rewrite (agree_eqb _ _ P lab lab' tkey_eqb String.eqb) by (auto; try apply tkey_eqb_spec; apply String.eqb_eq).
    destruct (String.eqb (lab' t) (lab' t')); cbn; auto.
Qed.
Lemma granulate_rel : forall P lab (lab' : num -> string) d d' t t' g, agree P lab lab' -> P t -> P t' -> Forall2 (rel P lab lab') d d' ->
  relr (Forall2 (rel P lab lab')) (granulate d (lab t) (lab t') g) (granulate_u d' (lab' t) (lab' t') g).
Proof.
  intros P lab lab' d d' t t' g A Pt Pt' F. unfold granulate, granulate_u.
  eapply relr_bind; [apply (dindex_rel P); auto|]. intros x y ->. cbv zeta.
  eapply relr_bind; [apply (dindex_rel P); auto; apply dset_rel; auto|]. intros z w ->.
  cbn [relr]. apply dset_rel; auto. apply dset_rel; auto.
Qed.
Lemma loop_rel : forall (P : num -> Prop) u M ld proj cov W l acc acc', 0 < tu_size u -> (forall t, In t l -> P t) ->
  let lab' := fun t => label_u u (in_unit u t) in
  agree P fmt2 lab' -> Forall2 (rel P fmt2 lab') (fst acc) (fst acc') -> Forall2 (rel P fmt2 lab') (snd acc) (snd acc') ->
  relr (fun a b => Forall2 (rel P fmt2 lab') (fst a) (fst b) /\ Forall2 (rel P fmt2 lab') (snd a) (snd b))
    (coverage_loop M ld proj cov W acc l) (coverage_loop_u u (amap (in_unit u) M) ld proj cov W acc' (map (in_unit u) l)).
Proof.
  intros P u M ld proj cov W l acc acc' U I lab' A. revert acc acc'.
  induction l as [|t l IH]; intros acc acc' F1 F2; cbn [map coverage_loop coverage_loop_u]; [cbn; auto|].
  eapply relr_bind with (Q := fun a b => Forall2 (rel P fmt2 lab') (fst a) (fst b) /\ Forall2 (rel P fmt2 lab') (snd a) (snd b)).
  2:{ intros a b [B1 B2]. apply IH; auto. intros; apply I; right; auto. }
  unfold coverage_step, coverage_step_u. rewrite amap_amap.
  rewrite (amap_ext _ _ (fun x => Fin (if neq (in_unit u x) (in_unit u t) then 1 else 0)) (fun x => Fin (if neq x t then 1 else 0))) by (intros; rewrite neq_in; auto).
  destruct (amap2 nmul _ (amap Fin ld)); cbn [bind relr]; auto.
  destruct (amap2 nmul a proj) as [b|]; cbn [bind relr]; auto.
  destruct (amap2 nmul b cov) as [c|]; cbn [bind relr]; auto. cbn [fst snd].
  assert (Pt : P t) by (apply I; left; auto).
  split; apply (dset_rel P fmt2 lab'); auto.
Qed.
Lemma existsb_in : forall u g l, 0 < tu_size u -> existsb (fun t => neq (in_unit u g) t) (map (in_unit u) l) = existsb (fun t => neq g t) l.
Proof. intros u g l U. induction l; cbn [map existsb]; auto. rewrite neq_in, IHl by auto. auto. Qed.
Lemma uinsert_In : forall x t l, In t (uinsert x l) -> t = x \/ In t l.
Proof.
  induction l as [|y l IH]; cbn [uinsert]. intros [<-|[]]; auto.
  destruct (_ || _); [intros H; auto|]. destruct (_ || _). intros [<-|H]; auto. intros [<-|H]; [right; left; auto|]. apply IH in H. destruct H; auto. right; right; auto.
Qed.
Lemma nunique_In : forall t l, In t (nunique l) -> In t l.
Proof. intros t. induction l; cbn [nunique fold_right]; auto. intros H. apply uinsert_In in H. destruct H; [left|right]; auto. Qed.
(** reports with the same grouping of temperatures have the same entries *)
Lemma report_rel : forall s us lat0 lon0 g orbit planet phase incl M (P : num -> Prop), sizes_positive us ->
  (forall j x, nth_error (sc_spots (st_spots s)) j = Some x -> spot_units_ok x (fst (us_spot us j)) (snd (us_spot us j))) ->
  let u := us_star us in let lab' := fun t => label_u u (in_unit u t) in
  map_unit us (length (sc_spots (st_spots s))) = u ->
  add_faculae_to_map s lat0 lon0 = Ok M -> (forall t, In t (cells M) -> P t) -> P (st_teff s) -> P (nsub (st_teff s) (gr_dteff (st_gran s))) ->
  agree P fmt2 lab' ->
  relr (fun a b => Forall2 (rel P fmt2 lab') (fst (fst a)) (fst (fst b)) /\ Forall2 (rel P fmt2 lab') (snd (fst a)) (snd (fst b)) /\ snd a = snd b)
    (calc_coverage s lat0 lon0 g orbit planet phase incl) (calc_coverage_u s us lat0 lon0 g orbit planet phase incl).
Proof.
  intros s us lat0 lon0 g orbit planet phase incl M P SP SU u lab' EU EM I PT PG A.
  assert (U : 0 < tu_size u) by apply SP.
  unfold calc_coverage, calc_coverage_u. rewrite (add_faculae_u_eq s us lat0 lon0 SP SU), EU, EM.
  destruct (star_jacobian s) as [jac|]; cbn [bind relr]; auto.
  destruct (amap2 nmul jac _) as [proj|]; cbn [bind relr rmap]; auto.
  destruct (get_transit_mask _ _ _ _ _ _ _) as [[cov pf]|]; cbn [bind relr]; auto.
  destruct (amap2 nmul (amap Fin _) proj) as [lp|]; cbn [bind relr]; auto.
  rewrite cells_amap, nunique_in by auto.
  eapply relr_bind. { apply (loop_rel P u); auto. intros t H. apply I, nunique_In; auto. constructor. constructor. }
  intros [tot covd] [tot' covd'] [F1 F2]. cbn [fst snd] in F1, F2. fold u. rewrite nsub_in, convert_in, existsb_in by auto.
  set (G := nsub (st_teff s) (gr_dteff (st_gran s))) in *.
  set (new := negb _).
  change (label_u u (in_unit u (st_teff s))) with (lab' (st_teff s)). change (label_u u (in_unit u G)) with (lab' G).
  assert (H : forall d d', Forall2 (rel P fmt2 lab') d d' ->
    Forall2 (rel P fmt2 lab') (if new then dset tkey_eqb d (fmt2 G) (Fin 0) else d) (if new then dset String.eqb d' (lab' G) (Fin 0) else d')).
  { intros d d' F. destruct new; auto. apply dset_rel; auto. }
  eapply relr_bind. { apply (granulate_rel P); auto. }
  intros a b Fa. eapply relr_bind. { apply (granulate_rel P); auto. }
  intros a' b' Fb. cbn. auto.
Qed.
(** ** texts *)
Lemma writes_eq : forall u text, 0 < tu_size u -> writes u text -> forall t, text t = label_u u (in_unit u (Fin t)).
Proof.
  intros u text U W t. destruct (W t) as [x [k [-> [H R]]]]. rewrite in_unit_eq by auto. unfold label_u, fmt_quantity. f_equal.
  destruct (C107_text_lemma 2 (t / tu_size u)) as [k' [H' R']].
  apply (C107_unique_lemma 2 _ _ _ _ _ _ H H'). split.
  - pose proof (div_lt_iff t 0 _ U). replace (0 / tu_size u) with 0 in H0 by (unfold Rdiv; ring).
    destruct (Rlt_dec t 0), (Rlt_dec (t / tu_size u) 0); tauto.
  - eapply rounds_unique; eauto.
Qed.
Lemma label_writes : forall u, 0 < tu_size u -> writes u (fun t => label_u u (in_unit u (Fin t))).
Proof.
  intros u U t. rewrite in_unit_eq by auto. destruct (C107_text_lemma 2 (t / tu_size u)) as [k [H R]].
  exists (fmt_fixed 2 (Fin (t / tu_size u))), k. split; auto. split; auto.
  pose proof (div_lt_iff t 0 _ U) as Q. replace (0 / tu_size u) with 0 in Q by (unfold Rdiv; ring).
  replace (if Rlt_dec t 0 then true else false) with (if Rlt_dec (t / tu_size u) 0 then true else false); auto.
  destruct (Rlt_dec t 0), (Rlt_dec (t / tu_size u) 0); tauto.
Qed.
Lemma units_ok_spot : forall us l, units_ok us l -> forall j x, nth_error l j = Some x -> spot_units_ok x (fst (us_spot us j)) (snd (us_spot us j)).
Proof. intros us l H j x E. specialize (H j x E). destruct (us_spot us j). exact H. Qed.
Lemma appears_cells : forall s lat0 lon0 orbit planet phase incl T D A M C pf,
  disk_view s lat0 lon0 orbit planet phase incl T D A M C pf -> forall x, In x (cells M) <-> exists t, x = Fin t /\ appears (st_grid s) M t.
Proof.
  intros s lat0 lon0 orbit planet phase incl T D A M C pf V x. destruct (view_form _ _ _ _ _ _ _ _ _ _ _ _ _ V) as [tm [cm [_ [EM [_ [_ [_ [_ [_ [Ap _]]]]]]]]]].
  rewrite EM, cells_amap, in_map_iff. split.
  - intros [p [<- I]]. exists (tm p). split; auto. rewrite <- EM. apply Ap. rewrite runiq_In. apply in_map; auto.
  - intros [t [-> H]]. rewrite <- EM in H. apply Ap in H. rewrite runiq_In in H. apply in_map_iff in H. destruct H as [p [<- I]]. exists p; auto.
Qed.
Lemma C108_relabelled_lemma : forall label text s us lat0 lon0 orbit planet phase incl T D A M C pf g,
  two_decimals label -> writes (us_star us) text -> sizes_positive us -> units_ok us (sc_spots (st_spots s)) ->
  disk_view s lat0 lon0 orbit planet phase incl T D A M C pf ->
  map_unit us (length (sc_spots (st_spots s))) = us_star us ->
  (forall t t', named s M T D t -> named s M T D t' -> (label t = label t' <-> text t = text t')) ->
  match calc_coverage s lat0 lon0 g orbit planet phase incl, calc_coverage_u s us lat0 lon0 g orbit planet phase incl with
  | Ok (tot, cov, p), Ok (tot', cov', p') => relabelled s M T D label text tot tot' /\ relabelled s M T D label text cov cov' /\ p = p'
  | Raise e, Raise e' => e = e'
  | _, _ => False
  end.
Proof.
  intros label text s us lat0 lon0 orbit planet phase incl T D A M C pf g TD W SP UO V EU AG.
  pose proof (two_decimals_eq _ TD) as EL. pose proof (writes_eq _ _ (proj1 SP) W) as ET.
  set (P := fun x => exists t, x = Fin t /\ named s M T D t).
  pose proof (appears_cells _ _ _ _ _ _ _ _ _ _ _ _ _ V) as AC. destruct V as [Vu Vg Vr Vl Vt Vd Va Vm Vf Vk].
  assert (R := report_rel s us lat0 lon0 g orbit planet phase incl M P SP (units_ok_spot _ _ UO) EU Vm). cbv zeta in R.
  assert (Q1 : forall t, In t (cells M) -> P t).
  { intros t I. apply AC in I. destruct I as [r [-> H]]. exists r. split; auto. left; left; auto. }
  assert (Q2 : P (st_teff s)) by (rewrite Vt; exists T; split; auto; right; auto).
  assert (Q3 : P (nsub (st_teff s) (gr_dteff (st_gran s)))) by (rewrite Vt, Vd, nsub_fin; exists (T - D); split; auto; left; right; auto).
  assert (Q4 : agree P fmt2 (fun t => label_u (us_star us) (in_unit (us_star us) t))).
  { intros x y [t [-> Pt]] [t' [-> Pt']]. rewrite <- !ET. specialize (AG t t' Pt Pt'). rewrite EL in AG. exact AG. }
  pose proof (R Q1 Q2 Q3 Q4) as RR.
  clear R. assert (F : forall d d', Forall2 (rel P fmt2 (fun t => label_u (us_star us) (in_unit (us_star us) t))) d d' -> relabelled s M T D label text d d').
  { intros d d' F. unfold relabelled. induction F; constructor; auto. destruct H as [? [[t [-> Pt]] [E1 [E2 E3]]]]. exists t. split; auto. split; [rewrite EL; auto|]. split; auto. rewrite ET. auto. }
  destruct (calc_coverage s lat0 lon0 g orbit planet phase incl) as [[[tot cov] p]|], (calc_coverage_u s us lat0 lon0 g orbit planet phase incl) as [[[tot' cov'] p']|]; cbn in RR; auto.
  destruct RR as [R1 [R2 R3]]. auto.
Qed.
Lemma C108_kelvin_lemma : forall label text s us lat0 lon0 orbit planet phase incl T D A M C pf g,
  two_decimals label -> writes (us_star us) text -> sizes_positive us -> units_ok us (sc_spots (st_spots s)) ->
  disk_view s lat0 lon0 orbit planet phase incl T D A M C pf ->
  map_unit us (length (sc_spots (st_spots s))) = us_star us -> tu_size (us_star us) = 1 ->
  (forall t, named s M T D t -> 0 <= t) ->
  match calc_coverage s lat0 lon0 g orbit planet phase incl, calc_coverage_u s us lat0 lon0 g orbit planet phase incl with
  | Ok (tot, cov, p), Ok (tot', cov', p') => relabelled s M T D label text tot tot' /\ relabelled s M T D label text cov cov' /\ p = p'
  | Raise e, Raise e' => e = e'
  | _, _ => False
  end.
Proof.
  intros label text s us lat0 lon0 orbit planet phase incl T D A M C pf g TD W SP UO V EU ES NN.
  apply (C108_relabelled_lemma label text s us lat0 lon0 orbit planet phase incl T D A M C pf g); auto.
  intros t t' Pt Pt'. rewrite !(writes_eq _ _ (proj1 SP) W). rewrite !in_unit_eq by apply SP. rewrite ES.
  replace (t / 1) with t by field. replace (t' / 1) with t' by field. rewrite (two_decimals_eq _ TD).
  assert (K : forall x, 0 <= x -> fmt2 (Fin x) = KCenti (rhe (Rabs x * 10 ^ 2)) /\ decimal_text 2 (fmt_fixed 2 (Fin x)) false (Z.to_N (rhe (Rabs x * 10 ^ 2)))).
  { intros x H. split.
    - cbn [fmt2]. rewrite Rabs_pos_eq by auto. replace (x * 10 ^ 2) with (x * 100) by ring. auto.
    - pose proof (fmt_fixed_text 2 x) as Q. unfold Rltb in Q. destruct (Rlt_dec x 0); [lra|auto]. }
  destruct (K t (NN t Pt)) as [K1 K2], (K t' (NN t' Pt')) as [K1' K2']. rewrite K1, K1'.
  assert (Z1 : forall x, (0 <= rhe (Rabs x * 10 ^ 2))%Z) by (intros; apply rhe_nonneg, Rmult_le_pos; [apply Rabs_pos|lra]).
  unfold label_u. rewrite fmt_quantity_inj, <- C107_same_lemma, (C107_unique_lemma _ _ _ _ _ _ _ K2 K2'). pose proof (Z1 t). pose proof (Z1 t'). split.
  - intros E. assert (E' : rhe (Rabs t * 10 ^ 2) = rhe (Rabs t' * 10 ^ 2)) by congruence. rewrite E'. auto.
  - intros [[_ E] _]. f_equal. lia.
Qed.
(** ** which labels occur *)
Definition skeys (d : dict string num) := map fst d.
Lemma sget_some : forall (d : dict string num) k, In k (skeys d) <-> exists v, dget String.eqb d k = Some v.
Proof.
  intros. destruct (dget String.eqb d k) as [v|] eqn:E.
  - split; eauto. intros _. apply (in_map fst) with (x := (k, v)). eapply dget_In; eauto. apply String.eqb_eq.
  - split; [intros I; exfalso; eapply dget_None; eauto; apply String.eqb_eq|intros [v K]; discriminate].
Qed.
Lemma skeys_dset : forall (d : dict string num) k v k', In k' (skeys (dset String.eqb d k v)) <-> In k' (skeys d) \/ k' = k.
Proof.
  intros. rewrite !sget_some. destruct (string_dec k k') as [<-|N].
  - rewrite (dget_dset_same _ String.eqb_eq). split; eauto.
  - rewrite (dget_dset_other _ String.eqb_eq) by auto. split; [auto|intros [H| ->]; auto; congruence].
Qed.
Lemma granulate_u_keys : forall d kp kg g,
  (In kp (skeys d) /\ In kg (skeys d) -> exists d', granulate_u d kp kg g = Ok d' /\ (forall k, In k (skeys d') <-> In k (skeys d)) /\ (NoDup (skeys d) -> NoDup (skeys d')))
  /\ (~ (In kp (skeys d) /\ In kg (skeys d)) -> granulate_u d kp kg g = Raise KeyError).
Proof.
  intros d kp kg g. unfold granulate_u, dindex. split.
  - intros [P G]. destruct (proj1 (sget_some _ _) P) as [v E]. rewrite E. cbn [bind].
    assert (G' : In kg (skeys (dset String.eqb d kp (nmul v (nsub (Fin 1) g))))) by (rewrite skeys_dset; auto).
    destruct (proj1 (sget_some _ _) G') as [w ->]. cbn [bind]. eexists. split; [reflexivity|]. split.
    + intros k. rewrite !skeys_dset. split; [intros [[H| ->]| ->]; auto|auto].
    + intros ND. unfold skeys. apply dset_NoDup; [apply String.eqb_eq|]. apply dset_NoDup; [apply String.eqb_eq|]. auto.
  - intros N. destruct (dget String.eqb d kp) as [v|] eqn:E; auto. cbn [bind].
    assert (P : In kp (skeys d)) by (apply sget_some; eauto).
    destruct (dget String.eqb (dset String.eqb d kp (nmul v (nsub (Fin 1) g))) kg) as [w|] eqn:E'; auto. exfalso. apply N. split; auto.
    assert (Q : In kg (skeys (dset String.eqb d kp (nmul v (nsub (Fin 1) g))))) by (apply sget_some; eauto). rewrite skeys_dset in Q. destruct Q; subst; auto.
Qed.
Lemma loop_u_keys : forall X (gp : arr X) u F ld pr cm W l acc,
  exists r, coverage_loop_u u (amap F gp) (amap ld gp) (amap pr gp) (amap cm gp) W acc l = Ok r
  /\ (forall k, In k (skeys (fst r)) <-> In k (skeys (fst acc)) \/ exists t, In t l /\ k = label_u u t)
  /\ (forall k, In k (skeys (snd r)) <-> In k (skeys (snd acc)) \/ exists t, In t l /\ k = label_u u t)
  /\ (NoDup (skeys (fst acc)) -> NoDup (skeys (fst r))) /\ (NoDup (skeys (snd acc)) -> NoDup (skeys (snd r))).
Proof.
  intros X gp u F ld pr cm W. induction l as [|t l IH]; intros acc; cbn [coverage_loop_u].
  - exists acc. split; auto. split; [|split]; auto; intros k; (split; [auto|intros [H|[t [[] _]]]; auto]).
  - unfold coverage_step_u. rewrite !amap_amap, amap2_amap. cbn [bind]. rewrite amap2_amap. cbn [bind]. rewrite amap2_amap. cbn [bind].
    match goal with |- exists r, coverage_loop_u _ _ _ _ _ _ ?a _ = _ /\ _ => destruct (IH a) as [r [E [K1 [K2 [N1 N2]]]]] end.
    exists r. split; auto. cbn [fst snd] in *. split; [|split; [|split]].
    + intros k. rewrite K1, skeys_dset. split.
      * intros [[H| ->]|[x [H ->]]]; auto; right; eexists; split; try reflexivity; simpl; auto.
      * intros [H|[x [[<-|H] ->]]]; auto. right; eauto.
    + intros k. rewrite K2, skeys_dset. split.
      * intros [[H| ->]|[x [H ->]]]; auto; right; eexists; split; try reflexivity; simpl; auto.
      * intros [H|[x [[<-|H] ->]]]; auto. right; eauto.
    + intros H. apply N1. apply dset_NoDup; auto. apply String.eqb_eq.
    + intros H. apply N2. apply dset_NoDup; auto. apply String.eqb_eq.
Qed.
Lemma C108_labels_lemma : forall text_map text_star s us lat0 lon0 orbit planet phase incl T D A M C pf g,
  writes (map_unit us (length (sc_spots (st_spots s)))) text_map -> writes (us_star us) text_star ->
  sizes_positive us -> units_ok us (sc_spots (st_spots s)) ->
  disk_view s lat0 lon0 orbit planet phase incl T D A M C pf ->
  let labels := labelled s M T D text_map text_star in
  (labels (text_star T) /\ labels (text_star (T - D)) ->
     exists tot cov, calc_coverage_u s us lat0 lon0 g orbit planet phase incl = Ok (tot, cov, pf)
       /\ NoDup (map fst tot) /\ NoDup (map fst cov) /\ (forall k, In k (map fst tot) <-> labels k) /\ (forall k, In k (map fst cov) <-> labels k))
  /\ (~ (labels (text_star T) /\ labels (text_star (T - D))) -> calc_coverage_u s us lat0 lon0 g orbit planet phase incl = Raise KeyError).
Proof.
  intros text_map text_star s us lat0 lon0 orbit planet phase incl T D A M C pf g WM WS SP UO V labels.
  set (um := map_unit us (length (sc_spots (st_spots s)))) in *. assert (UM : 0 < tu_size um) by (apply map_unit_pos; auto).
  pose proof (writes_eq _ _ UM WM) as EMt. pose proof (writes_eq _ _ (proj1 SP) WS) as ESt.
  pose proof (appears_cells _ _ _ _ _ _ _ _ _ _ _ _ _ V) as AC.
  destruct (view_form _ _ _ _ _ _ _ _ _ _ _ _ _ V) as [tm [cm [EA [EM [EC [_ [_ [_ [_ [Ap _]]]]]]]]]].
  destruct V as [Vu Vg Vr Vl Vt Vd Va Vm Vf Vk]. set (gp := grid_points (st_grid s)) in *.
  unfold calc_coverage_u. rewrite (add_faculae_u_eq s us lat0 lon0 SP (units_ok_spot _ _ UO)), Vm. fold um.
  unfold star_jacobian. rewrite Va, Vk. rewrite star_mu_eq. fold gp. cbn [bind rmap]. rewrite EA, EC. rewrite !amap_amap.
  rewrite amap2_amap. cbn [bind]. rewrite amap2_amap. cbn [bind].
  set (ul := runiq (map tm (cells gp))) in *.
  assert (EN : nunique (cells (amap (in_unit um) M)) = map (in_unit um) (map Fin ul)).
  { rewrite cells_amap, nunique_in by auto. f_equal. rewrite EM, cells_amap, <- (map_map tm Fin), nunique_fin. auto. }
  rewrite EN. replace (amap (in_unit um) M) with (amap (fun x => in_unit um (Fin (tm x))) gp) by (rewrite EM, amap_amap; auto).
  match goal with |- context [coverage_loop_u um (amap ?F gp) (amap ?ld gp) (amap ?pr gp) (amap ?c gp) ?W ([], []) ?l] =>
    destruct (loop_u_keys _ gp um F ld pr c W l ([], [])) as [[tot cov] [EL [K1 [K2 [N1 N2]]]]] end.
  rewrite EL. cbn [bind]. clear EL. cbn [fst snd] in *. specialize (N1 (NoDup_nil _)). specialize (N2 (NoDup_nil _)).
  rewrite Vt, Vd, nsub_in, nsub_fin, convert_in, existsb_in by (auto; apply SP). rewrite <- !ESt.
  assert (NEW : negb (existsb (fun t => neq (Fin (T - D)) t) (map Fin ul)) = true <-> ~ appears (st_grid s) M (T - D)).
  { rewrite Ap, negb_true_iff, <- not_true_iff_false. apply not_iff_compat. rewrite existsb_exists. split.
    - intros [x [I E]]. apply in_map_iff in I. destruct I as [t [<- I]]. apply neq_fin in E. subst; auto.
    - intros I. exists (Fin (T - D)). split. apply in_map; auto. apply neq_fin; auto. }
  set (new := negb _) in *.
  assert (KM : forall k, (exists t, In t (map (in_unit um) (map Fin ul)) /\ k = label_u um t) <-> exists t, appears (st_grid s) M t /\ k = text_map t).
  { intros k. split.
    - intros [x [I ->]]. apply in_map_iff in I. destruct I as [y [<- I]]. apply in_map_iff in I. destruct I as [t [<- I]]. exists t. rewrite Ap, EMt. auto.
    - intros [t [I ->]]. apply Ap in I. exists (in_unit um (Fin t)). split. apply in_map, in_map; auto. apply EMt. }
  assert (KK : forall d, (forall k, In k (skeys d) <-> In k (skeys []) \/ exists t, In t (map (in_unit um) (map Fin ul)) /\ k = label_u um t) -> NoDup (skeys d) ->
    let d' := if new then dset String.eqb d (text_star (T - D)) (Fin 0) else d in (forall k, In k (skeys d') <-> labels k) /\ NoDup (skeys d')).
  { intros d H ND d'. split.
    - intros k. unfold labels, labelled, d'. rewrite <- NEW. destruct new eqn:EN'.
      + rewrite skeys_dset, H, KM. cbn [skeys map In]. tauto.
      + rewrite H, KM. cbn [skeys map In]. split; [tauto|]. intros [Q|[Q _]]; [tauto|discriminate].
    - unfold d'. destruct new; auto. apply dset_NoDup; auto. apply String.eqb_eq. }
  destruct (KK tot K1 N1) as [L1 M1]. destruct (KK cov K2 N2) as [L2 M2].
  set (tot1 := if new then _ else tot) in *. set (cov1 := if new then _ else cov) in *.
  destruct (granulate_u_keys tot1 (text_star T) (text_star (T - D)) g) as [G1 G2].
  destruct (granulate_u_keys cov1 (text_star T) (text_star (T - D)) g) as [H1 H2].
  rewrite !L1 in *. rewrite !L2 in *. split.
  - intros Q. destruct (G1 Q) as [t [-> [A1 A2]]]. cbn [bind]. destruct (H1 Q) as [c [-> [B1 B2]]]. cbn [bind]. exists t, c. split; auto. split; [apply A2; auto|]. split; [apply B2; auto|].
    split; intros k; [rewrite <- L1|rewrite <- L2]; auto.
  - intros Q. rewrite (G2 Q). auto.
Qed.
Lemma writes_name : forall u u' text text', writes u text -> writes u' text' -> forall t t', text t = text' t' -> tu_name u = tu_name u'.
Proof.
  intros u u' text text' W W' t t' E. destruct (W t) as [x [k [Q [H _]]]], (W' t') as [x' [k' [Q' [H' _]]]]. rewrite Q, Q' in E.
  assert (L : forall d y n k, decimal_text d y n k -> lacks " " y).
  { intros d y n m (w & f & a & b & -> & _ & _ & V & V' & _). repeat apply lacks_app.
    - destruct n; cbn; auto. split; auto. congruence.
    - apply (digits_no " " _ _ _ eq_refl V).
    - destruct (Nat.eqb d 0); cbn; auto. split. congruence. apply (digits_no " " _ _ _ eq_refl V'). }
  apply split_at in E; eauto. tauto.
Qed.
Lemma C108_mixed_lemma : forall text s us lat0 lon0 orbit planet phase incl T D A M C pf g,
  writes (us_star us) text -> sizes_positive us -> units_ok us (sc_spots (st_spots s)) ->
  disk_view s lat0 lon0 orbit planet phase incl T D A M C pf ->
  tu_name (map_unit us (length (sc_spots (st_spots s)))) <> tu_name (us_star us) ->
  appears (st_grid s) M (T - D) \/ text T <> text (T - D) ->
  calc_coverage_u s us lat0 lon0 g orbit planet phase incl = Raise KeyError.
Proof.
  intros text s us lat0 lon0 orbit planet phase incl T D A M C pf g W SP UO V N H.
  set (um := map_unit us (length (sc_spots (st_spots s)))) in *. assert (UM : 0 < tu_size um) by (apply map_unit_pos; auto).
  destruct (C108_labels_lemma _ text s us lat0 lon0 orbit planet phase incl T D A M C pf g (label_writes um UM) W SP UO V) as [_ K]. apply K. clear K.
  assert (Q : forall t, labelled s M T D (fun t => label_u um (in_unit um (Fin t))) text (text t) -> ~ appears (st_grid s) M (T - D) /\ text t = text (T - D)).
  { intros t [[t' [_ E]]|]; auto. exfalso. apply N. symmetry. exact (writes_name _ _ _ _ W (label_writes um UM) _ _ E). }
  intros [A1 A2]. apply Q in A1, A2. tauto.
Qed.
