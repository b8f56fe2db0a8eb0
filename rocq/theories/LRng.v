(** Proofs about random streams *)
From Coq Require Import Reals ZArith Bool String Lra Lia List FunctionalExtensionality.
From Verif Require Import Num Py MConfig MGrid MHelpers MSpots MFaculae MFlares MGranules MStar MHeap MRng
  Spec SpecStar SpecFlare SpecRng LBase.
Import ListNotations.
Open Scope R_scope.

(** ** single draws *)
Lemma takes_length : forall St A (f : St -> A * St) n s, length (fst (takes f n s)) = n.
Proof.
  induction n; intros; simpl; auto. destruct (f s) as [a s1]. specialize (IHn s1).
  destruct (takes f n s1) as [l s2]. simpl in *. now rewrite IHn.
Qed.
Lemma takes_all : forall St A (f : St -> A * St) (P : A -> Prop) n s,
  (forall s, P (fst (f s))) -> List.Forall P (fst (takes f n s)).
Proof.
  intros St A f P n s HP. revert s. induction n; intros; simpl; auto.
  destruct (f s) as [a s1] eqn:E. specialize (IHn s1). destruct (takes f n s1) as [l s2]. simpl in *.
  constructor; auto. specialize (HP s). now rewrite E in HP.
Qed.
Lemma at_index_all : forall A (P : A -> Prop) d l, P d -> List.Forall P l -> forall i, P (at_index d l i).
Proof.
  unfold at_index. intros A P d l Hd H i. destruct (Nat.lt_ge_cases i (length l)).
  - rewrite Forall_forall in H. apply H. now apply nth_In.
  - now rewrite nth_overflow.
Qed.
Lemma map_at_index : forall A (d : A) l, map (at_index d l) (seq 0 (length l)) = l.
Proof.
  intros A d l. apply nth_ext with d d.
  - now rewrite map_length, seq_length.
  - rewrite map_length, seq_length. intros n Hn. rewrite nth_indep with (d' := at_index d l O) by (now rewrite map_length, seq_length).
    rewrite map_nth, seq_nth by auto. reflexivity.
Qed.
Lemma unit_0 : unit_draw 0.
Proof. unfold unit_draw. lra. Qed.
Lemma sample_eq : forall St A (f : St -> A * St) n s, sample f n s = (Ok (fst (takes f n s)), snd (takes f n s)).
Proof. intros. unfold sample. now destruct (takes f n s). Qed.
Lemma sample_unit : forall St (np : numpy St) n s, numpy_ok np -> forall i, unit_draw (at_index 0 (fst (takes (np_random np) n s)) i).
Proof. intros St np n s [H _] i. apply at_index_all. apply unit_0. apply takes_all. exact H. Qed.
Lemma s_poisson_link : forall St (np : numpy St) lam s, exists p, fst (s_poisson np lam s) = poisson lam p.
Proof.
  intros. unfold s_poisson, poisson. destruct lam; try (exists O; reflexivity).
  destruct (Rlt_dec r 0). exists O; reflexivity. destruct (Req_EM_T r 0). exists O; reflexivity.
  simpl. destruct (np_poisson np r s) as [k s']. exists k. reflexivity.
Qed.

(** ** spots *)
Lemma s_ratios_ok : forall St (np : numpy St) n fuel s l s', s_ratios np n fuel s = (Ok l, s') ->
  length l = n /\ existsb (fun r => Rleb r 0) l = false.
Proof.
  induction fuel; simpl; intros; destruct (takes (np_normal np) n s) as [z s1] eqn:E;
    destruct (existsb _ (map _ z)) eqn:X; try discriminate; eauto; inversion H; subst;
    (split; [rewrite map_length; generalize (takes_length _ _ (np_normal np) n s); now rewrite E | auto]).
Qed.
Lemma s_ratios_raise : forall St (np : numpy St) n fuel s e s', s_ratios np n fuel s = (Raise e, s') ->
  e = OutOfDraws /\ n <> O.
Proof.
  intros St np n fuel. induction fuel; simpl; intros; destruct (takes (np_normal np) n s) as [z s1] eqn:E;
    destruct (existsb _ (map _ z)) eqn:X; try discriminate; eauto; inversion H; subst.
  split; auto. intros ->. simpl in E. inversion E; subst. discriminate.
Qed.
Lemma redraw_const : forall n l fuel d, length l = n -> existsb (fun r => Rleb r 0) l = false ->
  (forall k i, d_ratio d k i = nth i l 0) -> redraw_ratio fuel 0 d n = Ok O.
Proof.
  intros n l fuel d L H D.
  assert (E : existsb (fun i => Rleb (d_ratio d O i) 0) (seq 0 n) = false).
  { rewrite <- H, <- L. clear H.
    rewrite <- (map_at_index _ 0 l) at 2. generalize (seq 0 (length l)) as is. induction is; simpl; auto.
    rewrite IHis. f_equal. rewrite D. reflexivity. }
  destruct fuel; simpl; rewrite E; reflexivity.
Qed.
Lemma redraw_never : forall fuel k n d, n <> O -> (forall k i, d_ratio d k i = 0) -> redraw_ratio fuel k d n = Raise OutOfDraws.
Proof.
  intros fuel. induction fuel; intros k n d Hn D; simpl; destruct n; try lia; simpl; rewrite D; unfold Rleb;
    destruct (Rle_dec 0 0); try lra; simpl; auto.
Qed.
Lemma s_gen_link : forall St (np : numpy St) g n fuel s, numpy_ok np ->
  exists d, sdraws_ok d /\ forall rf, sg_generate g n d rf = fst (s_generate_spots np g n fuel s).
Proof.
  intros St np g n fuel s OK. unfold s_generate_spots, sbind, s_areas.
  assert (U0 : forall z r h n2, sdraws_ok (mkSDraws z r (fun _ => 0) (fun _ => 0) h n2)).
  { intros; intro; simpl. split; apply unit_0. }
  destruct (Rltb (sg_logsigma g) 0) eqn:SG.
  { exists (mkSDraws (fun _ => 0) (fun _ _ => 0) (fun _ => 0) (fun _ => 0) (fun _ => true) (fun _ => 0)). split; auto.
    intros. unfold sg_generate. rewrite SG. reflexivity. }
  rewrite sample_eq. set (z := fst (takes (np_normal np) n s)). generalize (snd (takes (np_normal np) n s)). intros s1.
  destruct (s_ratios np n fuel s1) as [[ra|e] s2] eqn:ER.
  2:{ apply s_ratios_raise in ER. destruct ER as [-> Hn].
      exists (mkSDraws (fun _ => 0) (fun _ _ => 0) (fun _ => 0) (fun _ => 0) (fun _ => true) (fun _ => 0)). split; auto.
      intros. unfold sg_generate. rewrite SG, redraw_never; auto. }
  apply s_ratios_ok in ER. destruct ER as [LR XR].
  assert (F : forall d rf, (forall k i, d_ratio d k i = nth i ra 0) -> sg_generate g n d rf = sg_generate g n d 0).
  { intros. unfold sg_generate. rewrite SG, !(redraw_const n ra) by auto. reflexivity. }
  unfold s_spot_coords, sbind. destruct (sg_dist g) eqn:DI; rewrite ?sample_eq; cbn [fst snd slift sret].
  - eexists. split. 2:{ intros. apply F. reflexivity. }
    intro i; cbn [d_ulon d_x]. split; [now apply sample_unit |].
    apply at_index_all. apply unit_0. apply Forall_forall. intros x Hx. apply repeat_spec in Hx. subst. apply unit_0.
  - eexists. split. 2:{ intros. apply F. reflexivity. }
    intro i; cbn [d_ulon d_x]. split; now apply sample_unit.
  - exists (mkSDraws (fun _ => 0) (fun _ => at_index 0 ra) (fun _ => 0) (fun _ => 0) (fun _ => true) (fun _ => 0)). split; auto.
    intros. unfold sg_generate. rewrite SG, (redraw_const n ra) by auto. unfold sg_coords. rewrite DI. reflexivity.
Qed.
Lemma s_birth_link : forall St (np : numpy St) g t Rs fuel s, numpy_ok np ->
  exists p d, sdraws_ok d /\ sg_birth g t Rs p d fuel = fst (s_birth_spots np g t Rs fuel s).
Proof.
  intros St np g t Rs fuel s OK. unfold s_birth_spots, sg_birth, sbind, slift.
  destruct (sg_n_expected g t Rs) as [ne|e]; cbn [bind].
  2:{ exists O, (mkSDraws (fun _ => 0) (fun _ _ => 0) (fun _ => 0) (fun _ => 0) (fun _ => true) (fun _ => 0)).
      split; auto. intro; split; apply unit_0. }
  destruct (s_poisson_link _ np ne s) as [p Hp].
  destruct (s_poisson np ne s) as [[n|e] s1]; cbn [fst] in Hp.
  - destruct (s_gen_link _ np g n fuel s1 OK) as [d [D1 D2]]. exists p, d. split; auto. rewrite <- Hp. cbn [bind]. apply D2.
  - exists p, (mkSDraws (fun _ => 0) (fun _ _ => 0) (fun _ => 0) (fun _ => 0) (fun _ => true) (fun _ => 0)).
    split. intro; split; apply unit_0. rewrite <- Hp. reflexivity.
Qed.
Lemma s_mature_one_link : forall St (np : numpy St) g fuel s, numpy_ok np ->
  exists d u, sdraws_ok d /\ unit_draw u /\ forall rf, sg_mature_one g d u rf = fst (s_mature_one np g fuel s).
Proof.
  intros St np g fuel s OK. destruct (s_gen_link _ np g 1 fuel s OK) as [d [D1 D2]].
  unfold s_mature_one, sbind. destruct (s_generate_spots np g 1 fuel s) as [[l|e] s1]; cbn [fst] in D2.
  - exists d, (at_index 0 (fst (takes (np_random np) 1 s1)) 0).
    split; auto. split. now apply sample_unit. intros rf. unfold sg_mature_one. rewrite D2, sample_eq. cbn [bind].
    destruct l as [|x [|]]; try reflexivity. destruct (sg_is_static g); [reflexivity |].
    unfold slift. destruct (sg_mean_lifetime g); reflexivity.
  - exists d, 0. split; auto. split. apply unit_0. intros. unfold sg_mature_one. rewrite D2. reflexivity.
Qed.
Lemma s_mature_loop_link : forall St (np : numpy St) g Rs target rf fuel om s, numpy_ok np ->
  exists dl : nat -> sdraws * R, (forall i, sdraws_ok (fst (dl i)) /\ unit_draw (snd (dl i)))
    /\ forall dr i, (forall k, dr (i + k)%nat = dl k) ->
         mature_loop g Rs target dr rf fuel i om = fst (s_mature_loop np g Rs target rf fuel om s).
Proof.
  intros St np g Rs target rf fuel. 
  assert (Z0 : exists dl : nat -> sdraws * R, forall i, sdraws_ok (fst (dl i)) /\ unit_draw (snd (dl i))).
  { exists (fun _ => (mkSDraws (fun _ => 0) (fun _ _ => 0) (fun _ => 0) (fun _ => 0) (fun _ => true) (fun _ => 0), 0)).
    intros; split; [intro; split; apply unit_0 | apply unit_0]. }
  induction fuel; intros om s OK; simpl; destruct (nlt om target) eqn:E.
  1,2,4: destruct Z0 as [dl H]; exists dl; split; auto; intros; destruct (nlt om target); try discriminate; reflexivity.
  destruct (s_mature_one_link _ np g rf s OK) as [d [u [D1 [D2 D3]]]]. unfold sbind.
  destruct (s_mature_one np g rf s) as [[x|e] s1]; cbn [fst] in D3.
  - destruct (IHfuel (nadd om (spot_solid_angle x Rs)) s1 OK) as [dl [L1 L2]].
    exists (fun k => match k with O => (d, u) | S k => dl k end). split.
    + intros [|i]; auto.
    + intros dr i H. pose proof (H O) as H0. rewrite Nat.add_0_r in H0. rewrite H0, D3. cbn [bind].
      rewrite (L2 dr (S i)).
      * destruct (s_mature_loop np g Rs target rf fuel _ s1) as [[r|e] s2]; reflexivity.
      * intros k. rewrite <- (H (S k)). f_equal. lia.
  - destruct Z0 as [dl H]. exists (fun k => match k with O => (d, u) | S k => dl k end). split.
    + intros [|i]; auto.
    + intros dr i H'. pose proof (H' O) as H0. rewrite Nat.add_0_r in H0. rewrite H0, D3. reflexivity.
Qed.
Lemma s_mature_link : forall St (np : numpy St) g c Rs rf fuel s, numpy_ok np ->
  exists dr, (forall i, sdraws_ok (fst (dr i)) /\ unit_draw (snd (dr i)))
    /\ sg_generate_mature g c Rs dr rf fuel = fst (s_generate_mature np g c Rs rf fuel s).
Proof.
  intros St np g c Rs rf fuel s OK. unfold sg_generate_mature, s_generate_mature.
  destruct (s_mature_loop_link _ np g Rs (nmul (nmul (Fin (4 * PI)) c) (Fin ((180/PI)^2))) rf fuel (Fin 0) s OK) as [dl [L1 L2]].
  exists dl. split; auto. destruct (ngt c (Fin 1) || nlt c (Fin 0)); auto.
Qed.

(** ** faculae *)
Lemma s_fac_link : forall St (np : numpy St) g t Rkm s, numpy_ok np ->
  exists p d, fdraws_ok d /\ fg_birth g t Rkm p d = fst (s_birth_faculae np g t Rkm s).
Proof.
  intros St np g t Rkm s OK. unfold s_birth_faculae, fg_birth, sbind.
  destruct (s_poisson_link _ np (fg_n_expected g t Rkm) s) as [p Hp].
  destruct (s_poisson np _ s) as [[n|e] s1]; cbn [fst] in Hp.
  - unfold s_generate_faculae, sbind. rewrite !sample_eq. cbn [fst snd sret].
    eexists p, _. split. 2:{ rewrite <- Hp. cbn [bind]. reflexivity. }
    intro i. cbn [fd_ulon fd_x]. split; now apply sample_unit.
  - exists p, (mkFDraws (fun _ => 0) (fun _ => 0) (fun _ => 0)). split. intro; split; apply unit_0. rewrite <- Hp. reflexivity.
Qed.

(** ** flares *)
Lemma get_peaks_exn : forall g n cl e e', (forall x, get_peaks g n cl e = Raise x -> get_peaks g n cl e' = Raise x)
  /\ (forall l, get_peaks g n cl e = Ok l -> exists l', get_peaks g n cl e' = Ok l').
Proof.
  intros. unfold get_peaks. destruct (poisson (lg_cluster g) 0); cbn [bind]; split; intros; auto; try discriminate.
  - destruct (negb _); auto. destruct (cluster_sizes n cl); auto. discriminate.
  - destruct (negb _); try discriminate. destruct (cluster_sizes n cl); try discriminate. eauto.
Qed.
Lemma poissons_raise : forall St (np : numpy St) g n s x s', s_poissons np (lg_cluster g) n s = (Raise x, s') ->
  forall cl e, get_peaks g n cl e = Raise x.
Proof.
  intros St np g n s x s' H cl e. unfold s_poissons, poisson in H. unfold get_peaks, poisson.
  destruct (lg_cluster g); try (inversion H; subst; reflexivity).
  destruct (Rlt_dec r 0). inversion H; subst; reflexivity.
  destruct (Req_EM_T r 0). discriminate. rewrite sample_eq in H. discriminate.
Qed.
Lemma s_peaks_link : forall St (np : numpy St) g n s, numpy_ok np ->
  exists cl e, (forall i, 0 <= e i) /\ get_peaks g n cl e = fst (s_peaks np g n s).
Proof.
  intros St np g n s [_ OK]. unfold s_peaks, sbind.
  destruct (s_poissons np (lg_cluster g) n s) as [[cl|x] s1] eqn:EP.
  - exists (at_index O cl). unfold slift. destruct (get_peaks g n (at_index O cl) (fun _ => 0)) as [l0|x] eqn:E0.
    + rewrite sample_eq. eexists. split. 2: reflexivity. apply at_index_all. lra. apply takes_all. exact OK.
    + exists (fun _ => 0). split; [intros; lra | exact E0].
  - exists (fun _ => O), (fun _ => 0). split; [intros; lra |]. eapply poissons_raise. exact EP.
Qed.
Lemma s_fwhm_link : forall St (np : numpy St) g n s, exists z, gen_fwhm g n z = fst (s_fwhm np g n s).
Proof.
  intros. unfold s_fwhm, sbind, slift. destruct (gen_fwhm g n (fun _ => 0)) as [l0|x] eqn:E0.
  - rewrite sample_eq. eexists. reflexivity.
  - exists (fun _ => 0). exact E0.
Qed.
Lemma s_teffs_link : forall St (np : numpy St) g n s, exists z, gen_teffs g n z = fst (s_teffs np g n s).
Proof.
  intros. unfold s_teffs, sbind, slift. destruct (gen_teffs g n (fun _ => 0)) as [l0|x] eqn:E0.
  - rewrite sample_eq. eexists. reflexivity.
  - exists (fun _ => 0). exact E0.
Qed.
Lemma s_flares_link : forall St (np : numpy St) g t s, numpy_ok np ->
  exists p d, draws_ok d /\ generate_flare_series g t p d = fst (s_generate_flares np g t s).
Proof.
  intros St np g t s OK. unfold s_generate_flares, generate_flare_series, sbind.
  destruct (s_poisson_link _ np (ntotal g (Fin t)) s) as [p Hp].
  set (d0 := mkLDraws (fun _ => 0) (fun _ => O) (fun _ => 0) (fun _ => 0) (fun _ => 0) (fun _ => 0) (fun _ => 0)).
  assert (D0 : draws_ok d0). { unfold draws_ok; simpl. repeat split; intros; lra. }
  destruct (s_poisson np _ s) as [[n|e] s1]; cbn [fst] in Hp; exists p.
  2:{ exists d0. split; auto. rewrite <- Hp. reflexivity. }
  rewrite <- Hp. cbn [bind]. destruct n as [|m]. { exists d0. split; auto. }
  remember (S m) as n. clear Heqn m Hp p. rewrite sample_eq.
  set (us := fst (takes (np_random np) n s1)). generalize (snd (takes (np_random np) n s1)). intros s2.
  assert (LU : length us = n) by apply takes_length.
  assert (MU : map (at_index 0 us) (seq 0 n) = us). { rewrite <- LU. apply map_at_index. }
  assert (UU : forall i, 0 <= at_index 0 us i < 1). { intros i. apply (sample_unit _ np n s1 OK i). }
  assert (DK : forall cl e zf zt ul x, (forall i, 0 <= e i) -> (forall i, 0 <= ul i < 1) -> (forall i, 0 <= x i < 1) ->
               draws_ok (mkLDraws (at_index 0 us) cl e zf zt ul x)).
  { intros. unfold draws_ok; simpl. auto. }
  assert (Z : forall i : nat, 0 <= (fun _ : nat => 0) i < 1) by (intros; lra).
  unfold slift. destruct (quantile_func g us) as [en|e] eqn:EQ.
  2:{ exists (mkLDraws (at_index 0 us) (fun _ => O) (fun _ => 0) (fun _ => 0) (fun _ => 0) (fun _ => 0) (fun _ => 0)).
      split. apply DK; intros; lra. cbn [ld_u]. rewrite MU, EQ. reflexivity. }
  destruct (s_peaks_link _ np g n s2 OK) as [cl [e [E1 E2]]].
  destruct (s_peaks np g n s2) as [[pk|x] s3]; cbn [fst] in E2.
  2:{ exists (mkLDraws (at_index 0 us) cl e (fun _ => 0) (fun _ => 0) (fun _ => 0) (fun _ => 0)).
      split. apply DK; auto. cbn [ld_u ld_cl ld_e]. rewrite MU, EQ. cbn [bind]. rewrite E2. reflexivity. }
  destruct (s_fwhm_link _ np g n s3) as [zf Ef].
  destruct (s_fwhm np g n s3) as [[fw|x] s4]; cbn [fst] in Ef.
  2:{ exists (mkLDraws (at_index 0 us) cl e zf (fun _ => 0) (fun _ => 0) (fun _ => 0)).
      split. apply DK; auto. cbn [ld_u ld_cl ld_e ld_zf]. rewrite MU, EQ. cbn [bind]. rewrite E2. cbn [bind]. rewrite Ef. reflexivity. }
  destruct (s_teffs_link _ np g n s4) as [zt Et].
  destruct (s_teffs np g n s4) as [[te|x] s5]; cbn [fst] in Et.
  2:{ exists (mkLDraws (at_index 0 us) cl e zf zt (fun _ => 0) (fun _ => 0)).
      split. apply DK; auto. cbn [ld_u ld_cl ld_e ld_zf ld_zt]. rewrite MU, EQ. cbn [bind]. rewrite E2. cbn [bind]. rewrite Ef. cbn [bind].
      rewrite Et. reflexivity. }
  rewrite !sample_eq.
  exists (mkLDraws (at_index 0 us) cl e zf zt (at_index 0 (fst (takes (np_random np) n s5)))
            (at_index 0 (fst (takes (np_random np) n (snd (takes (np_random np) n s5)))))).
  split. { apply DK; auto; intros i; apply sample_unit; auto. }
  cbn [ld_u ld_cl ld_e ld_zf ld_zt ld_ulon ld_x]. rewrite MU, EQ. cbn [bind]. rewrite E2. cbn [bind]. rewrite Ef. cbn [bind].
  rewrite Et. cbn [bind]. unfold gen_coords. reflexivity.
Qed.

(** ** calls *)
Lemma C115_draws_lemma :
  forall (St : Type) (np : numpy St) fuel s c st, numpy_ok np ->
  exists k, spells_out c k /\ vexec s k = fst (rcall_star np fuel s c st).
Proof.
  intros St np fuel s c st OK. destruct c; simpl.
  - exists (CAge time). simpl. split; reflexivity.
  - exists (CAddSpot l). simpl. split; reflexivity.
  - exists (CAddFac l). simpl. split; reflexivity.
  - destruct (s_birth_link _ np (st_spotgen s) time (st_radius s) fuel st OK) as [p [d [D1 D2]]].
    exists (CBirthSpots time p d fuel). simpl. split. auto. unfold star_birth_spots, sbind. rewrite D2.
    destruct (s_birth_spots _ _ _ _ _ st) as [[l|e] s1]; reflexivity.
  - destruct (s_fac_link _ np (st_facgen s) time (st_radius s * RSUN_KM) st OK) as [p [d [D1 D2]]].
    exists (CBirthFaculae time p d). simpl. split. auto. unfold star_birth_faculae, sbind. rewrite D2.
    destruct (s_birth_faculae _ _ _ _ st) as [[l|e] s1]; reflexivity.
  - destruct (s_mature_link _ np (st_spotgen s) coverage (st_radius s) fuel fuel st OK) as [d [D1 D2]].
    exists (CMature coverage d fuel fuel). simpl. split. auto. unfold star_mature_spots, sbind. rewrite D2.
    destruct (s_generate_mature _ _ _ _ _ _ st) as [[l|e] s1]; reflexivity.
  - destruct (s_flares_link _ np (st_flaregen s) time st OK) as [p [d [D1 D2]]].
    exists (CFlares time p d). simpl. split. auto. unfold star_get_flares, sbind. rewrite D2.
    destruct (s_generate_flares _ _ _ st) as [[l|e] s1]; reflexivity.
Qed.
