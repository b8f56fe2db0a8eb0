(** Proofs about random streams: defaults, draws that are not made, temperatures *)
From Coq Require Import Reals ZArith Bool String Lra Lia List FunctionalExtensionality.
From Verif Require Import Num Py MConfig MGrid MHelpers MSpots MFaculae MFlares MGranules MStar MHeap MRng
  Spec SpecStar SpecFlare SpecRng LBase LRng LRngRun LSpotGen LFac.
Import ListNotations.
Open Scope R_scope.

(** ** default generators *)
Lemma C116_defaults_lemma :
  forall teff radius period spots facs gp flg spg fcg gran u1 u2 rng x,
  rstar_init teff radius period spots facs gp flg spg fcg gran u1 u2 rng = Ok x ->
  rs_rng x = match rng with Some l => l | None => DEFAULT_STAR end
  /\ (forall g r, spg = Some (new_spotgen g r) ->
        rs_spot x = match r with Some l => l | None => DEFAULT_SPOT end)
  /\ (forall g r, fcg = Some (new_facgen g r) ->
        rs_fac x = match r with Some l => l | None => DEFAULT_FAC end)
  /\ (forall g r, flg = Some (new_flaregen g r) ->
        rs_flare x = match r with Some l => l | None => DEFAULT_FLARE end)
  /\ (spg = None -> rs_spot x = rs_rng x)
  /\ (fcg = None -> rs_fac x = rs_rng x)
  /\ (flg = None -> rs_flare x = rs_rng x)
  /\ List.NoDup [DEFAULT_SPOT; DEFAULT_SPOT_OFF; DEFAULT_FAC; DEFAULT_FAC_OFF; DEFAULT_FLARE; DEFAULT_FLARE_OFF; DEFAULT_STAR].
Proof.
  intros until x. intros H. unfold rstar_init in H.
  destruct (star_init teff radius period spots facs gp (option_map fst flg) (option_map fst spg) (option_map fst fcg) gran u1 u2) as [s|] eqn:E;
    simpl in H; inversion H; subst; clear H. simpl.
  clear E.
  split. { destruct rng; reflexivity. }
  split. { intros g r ->. simpl. destruct r; reflexivity. }
  split. { intros g r ->. simpl. destruct r; reflexivity. }
  split. { intros g r ->. simpl. destruct r; reflexivity. }
  split. { intros ->. reflexivity. }
  split. { intros ->. reflexivity. }
  split. { intros ->. reflexivity. }
  repeat constructor; simpl; unfold DEFAULT_SPOT, DEFAULT_SPOT_OFF, DEFAULT_FAC, DEFAULT_FAC_OFF, DEFAULT_FLARE, DEFAULT_FLARE_OFF, DEFAULT_STAR; intuition congruence.
Qed.

(** ** one stream for two stars: whoever asks first gets the first draws *)
Lemma C116_swap_lemma :
  forall (St : Type) (np : numpy St) fuel h st i j c k l,
  i <> j -> kind_of c = Some k -> rcall_rng (st i) c = Some l -> rcall_rng (st j) c = Some l ->
  same_source k (rs_star (st i)) (rs_star (st j)) ->
  exists (a b : res product) h' st1 st2,
    let gets n r := do p <- r ;; receive (rs_star (st n)) p in
    (forall p, a = Ok p \/ b = Ok p -> product_kind p = k)
    /\ rrun np fuel h st [(i, c); (j, c)] = (h', st1, [(i, outcome (gets i a)); (j, outcome (gets j b))])
    /\ rrun np fuel h st [(j, c); (i, c)] = (h', st2, [(j, outcome (gets j a)); (i, outcome (gets i b))])
    /\ st1 i = with_star (st i) (gets i a) /\ st1 j = with_star (st j) (gets j b)
    /\ st2 j = with_star (st j) (gets j a) /\ st2 i = with_star (st i) (gets i b)
    /\ forall m, m <> i -> m <> j -> st1 m = st m /\ st2 m = st m.
Proof.
  intros St np fuel h st i j c k l N K Ri Rj S.
  destruct (call_prod _ np fuel (rs_star (st i)) c (h l) k K) as [a [s1 [Pa Qa]]].
  destruct (call_prod _ np fuel (rs_star (st i)) c s1 k K) as [b [s2 [Pb Qb]]].
  assert (Si : same_source k (rs_star (st i)) (rs_star (st i))) by (split; [auto | destruct k; auto]).
  assert (NI : Nat.eqb i j = false) by (apply Nat.eqb_neq; auto).
  assert (NJ : Nat.eqb j i = false) by (apply Nat.eqb_neq; auto).
  exists a, b. do 3 eexists. cbv zeta.
  split. { intros p [E|E]; auto. }
  split. { cbn [rrun]. rewrite (rexec_draw _ _ _ _ _ _ l Ri), (Qa _ Si), NJ.
           rewrite (rexec_draw _ _ _ _ _ _ l Rj). cbn [snd fst]. rewrite Nat.eqb_refl, (Qb _ S). reflexivity. }
  split. { cbn [rrun]. rewrite (rexec_draw _ _ _ _ _ _ l Rj), (Qa _ S), NI.
           rewrite (rexec_draw _ _ _ _ _ _ l Ri). cbn [snd fst]. rewrite Nat.eqb_refl, (Qb _ Si). reflexivity. }
  cbn [fst]. rewrite !Nat.eqb_refl, NI, NJ. repeat (split; [reflexivity|]).
  intros m Hi Hj. apply Nat.eqb_neq in Hi. apply Nat.eqb_neq in Hj. rewrite Hi, Hj. auto.
Qed.

(** ** draws that are not made *)
Lemma poisson_0 : forall St (np : numpy St) s, s_poisson np (Fin 0) s = (Ok O, s).
Proof.
  intros. unfold s_poisson, poisson. destruct (Rlt_dec 0 0); [lra|]. destruct (Req_EM_T 0 0); [reflexivity|lra].
Qed.
Lemma gen_0 : forall St (np : numpy St) g fuel s,
  s_generate_spots np g 0 fuel s =
    ((if Rltb (sg_logsigma g) 0 then Raise ValueError else match sg_dist g with UnknownDist => Raise ValueError | _ => Ok [] end), s).
Proof.
  intros. unfold s_generate_spots, s_areas, sbind. destruct (Rltb (sg_logsigma g) 0) eqn:E; [reflexivity|].
  rewrite sample_eq. simpl. destruct fuel; simpl;
    unfold s_spot_coords, sbind; destruct (sg_dist g) eqn:D; simpl; try reflexivity;
    unfold slift, sret, sg_generate; rewrite E; simpl; unfold sg_coords; rewrite D; reflexivity.
Qed.
Lemma fac_0 : forall St (np : numpy St) g s, s_generate_faculae np g 0 s = (Ok [], s).
Proof. reflexivity. Qed.
Lemma add_no_spots : forall x, mkRStar (star_add_spot (rs_star x) []) (rs_rng x) (rs_spot x) (rs_fac x) (rs_flare x) = x.
Proof.
  intros [s a b c d]. simpl. f_equal. destruct s. unfold star_add_spot, sc_add_spot, star_with_spots. simpl.
  f_equal. destruct st_spots. simpl. rewrite app_nil_r. reflexivity.
Qed.
Lemma add_no_facs : forall x, star_add_fac (rs_star x) [] = Ok (rs_star x).
Proof.
  intros [s a b c d]. simpl. unfold star_add_fac, fcc_add. simpl. f_equal. destruct s; unfold star_with_facs; simpl.
  f_equal. destruct st_facs. simpl. rewrite app_nil_r. reflexivity.
Qed.
Lemma C117_nothing_lemma :
  forall (St : Type) (np : numpy St) fuel h x t,
  (sg_n_expected (st_spotgen (rs_star x)) (Fin t) (st_radius (rs_star x)) = Ok (Fin 0) ->
     exists e, rexec np fuel h x (RBirthSpots (Fin t)) = (h, x, e)
       /\ e = (if Rltb (sg_logsigma (st_spotgen (rs_star x))) 0 then Some ValueError
               else match sg_dist (st_spotgen (rs_star x)) with UnknownDist => Some ValueError | _ => None end))
  /\ (fg_n_expected (st_facgen (rs_star x)) (Fin t) (st_radius (rs_star x) * RSUN_KM) = Fin 0 ->
        rexec np fuel h x (RBirthFaculae (Fin t)) = (h, x, None))
  /\ (ntotal (st_flaregen (rs_star x)) (Fin t) = Fin 0 ->
        exists x', rexec np fuel h x (RFlares t) = (h, x', None)
          /\ st_flares (rs_star x') = Some (flc_init [])
          /\ with_star x' (Ok (rs_star x)) = x).
Proof.
  intros St np fuel h x t. split; [|split].
  - intros E. rewrite (rexec_draw _ _ _ _ x _ (rs_spot x)) by reflexivity. simpl. unfold s_birth_spots, sbind, slift.
    rewrite E, poisson_0, gen_0.
    destruct (Rltb (sg_logsigma (st_spotgen (rs_star x))) 0).
    { eexists. simpl. rewrite upd_same. split; reflexivity. }
    destruct (sg_dist (st_spotgen (rs_star x))); eexists; simpl; rewrite upd_same, ?add_no_spots; split; reflexivity.
  - intros E. rewrite (rexec_draw _ _ _ _ x _ (rs_fac x)) by reflexivity. simpl. unfold s_birth_faculae, sbind, slift.
    rewrite E, poisson_0, fac_0, add_no_facs. simpl.
    rewrite upd_same. destruct x; reflexivity.
  - intros E. rewrite (rexec_draw _ _ _ _ x _ (rs_flare x)) by reflexivity. simpl. unfold s_generate_flares, sbind, slift.
    rewrite E, poisson_0. simpl. rewrite upd_same. eexists. split; [reflexivity|]. simpl. destruct x; auto.
Qed.
(** generators that are left out *)
Lemma ntotal_off : forall t, ntotal lg_off (Fin t) = Fin 0.
Proof.
  intros. unfold ntotal, nexp_gt, frequency_gt. cbn [lg_off lg_min_energy lg_alpha lg_beta npow].
  destruct (Rlt_dec (- (829 / 1000)) 0); [|lra]. rewrite !nmul_fin. f_equal. ring.
Qed.
Lemma C117_off_lemma :
  forall (St : Type) (np : numpy St) fuel h teff radius period spots facs gp gran u1 u2 rng x t,
  rstar_init teff radius period spots facs gp None None None gran u1 u2 rng = Ok x -> 0 < radius ->
  rexec np fuel h x (RBirthSpots (Fin t)) = (h, x, None)
  /\ rexec np fuel h x (RBirthFaculae (Fin t)) = (h, x, None)
  /\ exists x', rexec np fuel h x (RFlares t) = (h, x', None) /\ st_flares (rs_star x') = Some (flc_init []).
Proof.
  intros until t. intros H HR. unfold rstar_init in H. simpl in H.
  destruct (star_init teff radius period spots facs gp None None None gran u1 u2) as [s|] eqn:E; simpl in H; inversion H; subst x; clear H.
  unfold star_init in E. destruct (grid_new gp) as [g0|]; simpl in E; inversion E; subst s; clear E.
  match goal with |- context [rexec np fuel h ?x _] => set (X := x) end.
  destruct (C117_nothing_lemma _ np fuel h X t) as [A [B C]].
  destruct A as [e [A Ae]].
  { destruct C26_lemma as [_ [_ [Q _]]]. apply (Q g0 t radius O (mkSDraws (fun _ => 0) (fun _ _ => 0) (fun _ => 0) (fun _ => 0) (fun _ => true) (fun _ => 0)) O). }
  simpl in Ae. rewrite (proj2 (Rltb_false 1 0)) in Ae by lra. subst e.
  split; [exact A|]. split.
  { apply B. destruct C34_lemma as [_ [Q _]]. apply (Q g0 t (radius * RSUN_KM) O (mkFDraws (fun _ => 0) (fun _ => 0) (fun _ => 0))).
    apply Rmult_lt_0_compat; auto. unfold RSUN_KM; lra. }
  destruct (C (ntotal_off t)) as [x' [C1 [C2 _]]]. eauto.
Qed.

(** ** temperatures play no part *)
Definition rrel {A B} (P : A -> B -> Prop) (r : res A) (r' : res B) : Prop :=
  match r, r' with Ok a, Ok b => P a b | Raise e, Raise e' => e = e' | _, _ => False end.
Definition srel {St A B} (P : A -> B -> Prop) (m : stream St A) (m' : stream St B) : Prop :=
  forall s, rrel P (fst (m s)) (fst (m' s)) /\ snd (m s) = snd (m' s).
Lemma srel_bind : forall St A B C D (P : A -> B -> Prop) (Q : C -> D -> Prop) (m : stream St A) (m' : stream St B) k k',
  srel P m m' -> (forall a b, P a b -> srel Q (k a) (k' b)) -> srel Q (sbind m k) (sbind m' k').
Proof.
  intros St A B C D P Q m m' k k' H K s. unfold sbind. specialize (H s).
  destruct (m s) as [[a|e] s1], (m' s) as [[b|e'] s2]; simpl in H; destruct H as [H ->]; try contradiction.
  - apply K. exact H.
  - simpl. auto.
Qed.
Lemma srel_lift : forall St A B (P : A -> B -> Prop) r r', rrel P r r' -> srel P (@slift St A r) (slift r').
Proof. intros; intros s. simpl. auto. Qed.
Lemma srel_ret : forall St A B (P : A -> B -> Prop) a b, P a b -> srel P (@sret St A a) (sret b).
Proof. intros; intros s. simpl. auto. Qed.
Lemma srel_refl : forall St A (m : stream St A), srel eq m m.
Proof. intros St A m s. split; auto. destruct (fst (m s)); simpl; auto. Qed.
Lemma rrel_bind : forall A B C D (P : A -> B -> Prop) (Q : C -> D -> Prop) m m' k k',
  rrel P m m' -> (forall a b, P a b -> rrel Q (k a) (k' b)) -> rrel Q (bind m k) (bind m' k').
Proof. intros. destruct m, m'; simpl in *; subst; try contradiction; auto. Qed.
Lemma rrel_mapM : forall A A' B B' (P : A -> A' -> Prop) (Q : B -> B' -> Prop) f f' l l', Forall2 P l l' ->
  (forall a b, P a b -> rrel Q (f a) (f' b)) -> rrel (Forall2 Q) (mapM f l) (mapM f' l').
Proof.
  intros A A' B B' P Q f f' l l' H K. induction H; simpl. constructor.
  eapply rrel_bind. apply K; eauto. intros a b Hab. eapply rrel_bind. exact IHForall2. intros; simpl. constructor; auto.
Qed.
Lemma Forall2_map2 : forall A A' B B' (P : A -> A' -> Prop) (Q : B -> B' -> Prop) f f' l l', Forall2 P l l' ->
  (forall a b, P a b -> Q (f a) (f' b)) -> Forall2 Q (map f l) (map f' l').
Proof. intros. induction H; simpl; constructor; auto. Qed.
Lemma Forall2_filter2 : forall A A' (P : A -> A' -> Prop) f f' l l', Forall2 P l l' ->
  (forall a b, P a b -> f a = f' b) -> Forall2 P (filter f l) (filter f' l').
Proof. intros. induction H; simpl. constructor. rewrite (H0 _ _ H). destruct (f' y); auto. Qed.
Lemma Forall2_eq : forall A (l : list A), Forall2 eq l l.
Proof. induction l; constructor; auto. Qed.

Lemma age_alike : forall s s' t, alike_spot s s' -> rrel alike_spot (spot_age s t) (spot_age s' t).
Proof.
  intros s s' t H. destruct s, s'. unfold alike_spot in H. simpl in H.
  destruct H as [? [? [? [? [? [? [? [? [? [? ?]]]]]]]]]]. subst.
  unfold spot_age; simpl.
  repeat match goal with |- context [if ?b then _ else _] => destruct b end; simpl; unfold alike_spot; simpl; intuition auto.
Qed.
Lemma gen_alike : forall g g' n d fuel, alike_spotgen g g' -> rrel (Forall2 alike_spot) (sg_generate g n d fuel) (sg_generate g' n d fuel).
Proof.
  intros g g' n d fuel H. destruct g, g'. unfold alike_spotgen in H. simpl in H.
  destruct H as [? [? [? [? [? [? [? [? ?]]]]]]]]. subst. unfold sg_generate; simpl.
  destruct (Rltb sg_logsigma 0); [simpl; auto|].
  eapply rrel_bind with (P := eq). { destruct (redraw_ratio fuel 0 d n); simpl; auto. }
  intros k k' <-. unfold sg_coords; simpl.
  eapply rrel_bind with (P := eq). { destruct sg_dist; simpl; auto. }
  intros _ _ _. apply rrel_mapM with (P := eq). apply Forall2_eq.
  intros i i' <-. destruct sg_dist; simpl; unfold alike_spot; simpl; intuition auto.
Qed.
Lemma s_gen_alike : forall St (np : numpy St) g g' n fuel, alike_spotgen g g' ->
  srel (Forall2 alike_spot) (s_generate_spots np g n fuel) (s_generate_spots np g' n fuel).
Proof.
  intros St np g g' n fuel H. pose proof H as [H1 [H2 [H3 [H4 [H5 [H6 [H7 H8]]]]]]].
  unfold s_generate_spots. unfold s_areas. rewrite H2. 
  eapply srel_bind. apply srel_refl. intros z z' <-.
  eapply srel_bind. apply srel_refl. intros r r' <-.
  unfold s_spot_coords. rewrite H7.
  eapply srel_bind. apply srel_refl. intros [[[a b] c] e] y' <-.
  apply srel_lift. now apply gen_alike.
Qed.
Lemma expected_alike : forall g g' t Rs, alike_spotgen g g' -> sg_n_expected g' t Rs = sg_n_expected g t Rs
  /\ sg_mean_lifetime g' = sg_mean_lifetime g /\ sg_is_static g' = sg_is_static g /\ sg_init g' = sg_init g.
Proof.
  intros g g' t Rs H. destruct g, g'. unfold alike_spotgen in H. simpl in H.
  destruct H as [? [? [? [? [? [? [? [? ?]]]]]]]]. subst. repeat split; reflexivity.
Qed.
Lemma s_birth_alike : forall St (np : numpy St) g g' t Rs fuel, alike_spotgen g g' ->
  srel (Forall2 alike_spot) (s_birth_spots np g t Rs fuel) (s_birth_spots np g' t Rs fuel).
Proof.
  intros. unfold s_birth_spots. rewrite (proj1 (expected_alike g g' t Rs H)).
  eapply srel_bind. apply srel_refl. intros a a' <-. eapply srel_bind. apply srel_refl. intros n n' <-. now apply s_gen_alike.
Qed.
Lemma s_one_alike : forall St (np : numpy St) g g' fuel, alike_spotgen g g' ->
  srel alike_spot (s_mature_one np g fuel) (s_mature_one np g' fuel).
Proof.
  intros. destruct (expected_alike g g' NaN 0 H) as [_ [L [S I]]]. unfold s_mature_one. rewrite L, S, I.
  eapply srel_bind. apply s_gen_alike; eassumption. intros l l' F.
  eapply srel_bind. apply srel_refl. intros u u' <-.
  inversion F as [|s s' t t' A B]; subst. { apply srel_lift. reflexivity. }
  inversion B; subst.
  2:{ apply srel_lift. reflexivity. }
  destruct (sg_is_static g).
  - apply srel_ret. destruct s, s'. unfold alike_spot in *. simpl in *.
    destruct A as [? [? [? [? [? [? [? [? [? [? ?]]]]]]]]]]. subst. intuition auto.
  - eapply srel_bind. apply srel_refl. intros v v' <-. apply srel_lift. now apply age_alike.
Qed.
Lemma s_loop_alike : forall St (np : numpy St) g g' Rs target rf fuel om, alike_spotgen g g' ->
  srel (Forall2 alike_spot) (s_mature_loop np g Rs target rf fuel om) (s_mature_loop np g' Rs target rf fuel om).
Proof.
  intros St np g g' Rs target rf. induction fuel; intros om H; simpl; destruct (nlt om target).
  - apply srel_lift. reflexivity.
  - apply srel_ret. constructor.
  - eapply srel_bind. apply s_one_alike; eassumption. intros s s' A.
    assert (E : spot_solid_angle s' Rs = spot_solid_angle s Rs).
    { destruct s, s'. unfold alike_spot in A. simpl in A. destruct A as [? [? [? [? [? [? [? [? [? [? ?]]]]]]]]]]. subst. reflexivity. }
    rewrite E. eapply srel_bind. apply IHfuel; auto. intros l l' F. apply srel_ret. constructor; auto.
  - apply srel_ret. constructor.
Qed.
Lemma s_mature_alike : forall St (np : numpy St) g g' c Rs rf fuel, alike_spotgen g g' ->
  srel (Forall2 alike_spot) (s_generate_mature np g c Rs rf fuel) (s_generate_mature np g' c Rs rf fuel).
Proof.
  intros. unfold s_generate_mature. destruct (ngt c (Fin 1) || nlt c (Fin 0)). apply srel_lift; reflexivity. now apply s_loop_alike.
Qed.
Lemma s_fac_alike : forall St (np : numpy St) g g' t Rkm, alike_facgen g g' ->
  srel (Forall2 alike_fac) (s_birth_faculae np g t Rkm) (s_birth_faculae np g' t Rkm).
Proof.
  intros St np g g' t Rkm H. destruct g, g'. unfold alike_facgen in H. simpl in H.
  destruct H as [? [? [? [? [? ?]]]]]. subst. unfold s_birth_faculae.
  eapply srel_bind. apply srel_refl. intros n n' <-. unfold s_generate_faculae.
  do 3 (eapply srel_bind; [apply srel_refl|intros ? ? <-]).
  apply srel_ret. unfold fg_generate. apply Forall2_map2 with (P := eq). apply Forall2_eq.
  intros i i' <-. unfold alike_fac; simpl. intuition auto.
Qed.
Lemma alike_with_spots : forall s s' c c', alike_star s s' -> Forall2 alike_spot (sc_spots c) (sc_spots c') -> sc_grid c' = sc_grid c ->
  alike_star (star_with_spots s c) (star_with_spots s' c').
Proof. intros s s' c c' H F G. unfold alike_star in *. simpl. intuition auto. Qed.
Lemma alike_with_facs : forall s s' c c', alike_star s s' -> Forall2 alike_fac (fcc_facs c) (fcc_facs c') -> fcc_grid c' = fcc_grid c ->
  alike_star (star_with_facs s c) (star_with_facs s' c').
Proof. intros s s' c c' H F G. unfold alike_star in *. simpl. intuition auto. Qed.
Lemma add_spot_alike : forall s s' l l', alike_star s s' -> Forall2 alike_spot l l' ->
  alike_star (star_add_spot s l) (star_add_spot s' l').
Proof.
  intros s s' l l' H F. apply alike_with_spots; auto.
  - simpl. destruct H as [_ [_ [F0 [G0 _]]]]. apply Forall2_app; auto. rewrite G0.
    eapply Forall2_map2. exact F. intros a b A. unfold alike_spot in *. simpl. intuition auto.
  - destruct H as [_ [_ [F0 [G0 _]]]]. simpl. exact G0.
Qed.
Lemma add_fac_alike : forall s s' l l', alike_star s s' -> Forall2 alike_fac l l' ->
  rrel alike_star (star_add_fac s l) (star_add_fac s' l').
Proof.
  intros s s' l l' H F. unfold star_add_fac. pose proof H as [_ [_ [_ [_ [F0 [G0 _]]]]]].
  eapply rrel_bind with (P := fun c c' => Forall2 alike_fac (fcc_facs c) (fcc_facs c') /\ fcc_grid c' = fcc_grid c).
  - unfold fcc_add. eapply rrel_bind with (P := Forall2 alike_fac).
    + eapply rrel_mapM. exact F. intros a b A. rewrite G0. pose proof A as [_ [_ [_ [_ [_ [_ AG]]]]]]. rewrite AG.
      destruct (grid_eq (fc_grid a) (Some (fcc_grid (st_facs s)))) as [[|]|]; simpl; auto.
      unfold alike_fac in *; simpl; intuition auto.
    + intros a b A. simpl. split; auto. apply Forall2_app; auto.
  - intros c c' [A B]. simpl. now apply alike_with_facs.
Qed.
Lemma fac_age_alike : forall a b t, alike_fac a b -> alike_fac (fac_age a t) (fac_age b t).
Proof.
  intros a b t H. destruct a, b. unfold alike_fac in H. simpl in H. destruct H as [? [? [? [? [? [? ?]]]]]]. subst.
  unfold fac_age; simpl. destruct fc_growing; [|unfold alike_fac; simpl; intuition auto].
  match goal with |- context [nle ?x ?y] => destruct (nle x y) end; unfold alike_fac; simpl; intuition auto.
Qed.
Lemma age_star_alike : forall s s' t, alike_star s s' -> rrel alike_star (star_age s t) (star_age s' t).
Proof.
  intros s s' t H. unfold star_age. pose proof H as [_ [_ [FS [GS [FF [GF _]]]]]].
  eapply rrel_bind with (P := fun c c' => Forall2 alike_spot (sc_spots c) (sc_spots c') /\ sc_grid c' = sc_grid c).
  - unfold sc_age. eapply rrel_bind. eapply rrel_mapM. exact FS. intros a b A. apply age_alike. exact A.
    intros l l' F. simpl. split; auto. eapply Forall2_filter2. exact F.
    intros a b A. unfold spot_dead. destruct A as [_ [_ [_ [A1 [_ [A2 _]]]]]]. rewrite A1, A2. reflexivity.
  - intros c c' [A B]. simpl. apply alike_with_facs; auto.
    + apply alike_with_spots; auto.
    + simpl. eapply Forall2_filter2. eapply Forall2_map2. exact FF. intros a b C. apply fac_age_alike. exact C.
      intros a b C. unfold fac_dead. destruct C as [_ [_ [C1 [C2 [_ [C3 _]]]]]]. rewrite C1, C2, C3. reflexivity.
Qed.
Lemma call_alike : forall St (np : numpy St) fuel s s' c c', alike_star s s' -> alike_call c c' ->
  srel alike_star (rcall_star np fuel s c) (rcall_star np fuel s' c').
Proof.
  intros St np fuel s s' c c' H C. pose proof H as [HR [_ [_ [_ [_ [_ [HL [_ [HS HF]]]]]]]]].
  destruct c; destruct c'; simpl in C; try discriminate C; try (inversion C; subst; clear C); simpl; rewrite ?HR, ?HL.
  all: try (apply srel_lift; first [now apply age_star_alike | apply add_fac_alike; auto; constructor; auto]).
  all: try (apply srel_ret; apply add_spot_alike; auto; constructor; auto).
  - eapply srel_bind. apply s_birth_alike; eassumption. intros. apply srel_ret. now apply add_spot_alike.
  - eapply srel_bind. apply s_fac_alike; eassumption. intros. apply srel_lift. now apply add_fac_alike.
  - eapply srel_bind. apply s_mature_alike; eassumption. intros. apply srel_ret. now apply add_spot_alike.
  - eapply srel_bind. apply srel_refl. intros l l' <-. apply srel_ret. unfold alike_star in *. simpl. intuition auto.
Qed.
Lemma exec_alike : forall St (np : numpy St) fuel h x x' c c', alike x x' -> alike_call c c' ->
  exists h1 x1 x1' e, rexec np fuel h x c = (h1, x1, e) /\ rexec np fuel h x' c' = (h1, x1', e) /\ alike x1 x1'.
Proof.
  intros St np fuel h x x' c c' [A [A1 [A2 [A3 A4]]]] C.
  assert (ER : rcall_rng x' c' = rcall_rng x c). { destruct c, c'; simpl in C; try discriminate C; simpl; congruence. }
  unfold rexec. rewrite ER, A1.
  set (l := match rcall_rng x c with Some l => l | None => rs_rng x end).
  destruct (call_alike _ np fuel _ _ _ _ A C (h l)) as [B1 B2].
  destruct (rcall_star np fuel (rs_star x) c (h l)) as [r s1].
  destruct (rcall_star np fuel (rs_star x') c' (h l)) as [r' s2]. simpl in B1, B2. subst s2.
  destruct r as [y|e], r' as [y'|e']; simpl in B1; try contradiction.
  - do 4 eexists. split; [reflexivity|]. split; [reflexivity|]. split; [exact B1|]. simpl. auto.
  - subst. do 4 eexists. split; [reflexivity|]. split; [reflexivity|]. split; [exact A|]. auto.
Qed.
Lemma C117_temperatures_lemma :
  forall (St : Type) (np : numpy St) fuel prog prog' h st st' h1 st1 log,
  (forall i, alike (st i) (st' i)) ->
  Forall2 (fun p q => fst q = fst p /\ alike_call (snd p) (snd q)) prog prog' ->
  rrun np fuel h st prog = (h1, st1, log) ->
  exists st1', rrun np fuel h st' prog' = (h1, st1', log) /\ forall i, alike (st1 i) (st1' i).
Proof.
  intros St np fuel prog prog' h st st' h1 st1 log A P. revert h st st' h1 st1 log A.
  induction P as [|[i c] [i' c'] prog prog' [E C] P IH]; intros h st st' h1 st1 log A R.
  - simpl in *. inversion R; subst. exists st'. auto.
  - simpl in E, C. subst i'. simpl in R |- *.
    destruct (exec_alike _ np fuel h _ _ _ _ (A i) C) as [h2 [x1 [x1' [e [X1 [X2 X3]]]]]].
    rewrite X1 in R. rewrite X2.
    destruct (rrun np fuel h2 (fun k => if Nat.eqb k i then x1 else st k) prog) as [[h3 st3] log3] eqn:Y.
    inversion R; subst. clear R.
    assert (A' : forall k, alike ((fun k => if Nat.eqb k i then x1 else st k) k) ((fun k => if Nat.eqb k i then x1' else st' k) k)).
    { intros k. cbv beta. destruct (Nat.eqb k i); [exact X3 | apply A]. }
    destruct (IH h2 _ (fun k => if Nat.eqb k i then x1' else st' k) _ _ _ A' Y) as [st4 [Y4 A4]].
    rewrite Y4. eauto.
Qed.
