(** Spot generators (C24-C28) *)
From Coq Require Import Reals ZArith Bool List Lra Lia.
From Coquelicot Require Import Coquelicot.
From Verif Require Import Num Py MConfig MHelpers MGrid MSpots MFaculae MXoflares MFlares Spec SpecStar LBase LGrid LHelpers LCirc LSpotAge LSpotMap LSpotCov.
Import ListNotations.
Open Scope R_scope.

(** ** C24 *)
Lemma iso_lat_eq : forall x, 0 <= x <= 1 -> iso_lat x = Fin (asin (2 * x - 1) / PI * 180).
Proof.
  intros. unfold iso_lat. pose proof PI_RGT_0. rewrite nasin_fin by lra. rewrite ndiv_fin by lra. rewrite nmul_fin. auto.
Qed.
Lemma asin_le_iff : forall y phi, -1 <= y <= 1 -> - PI/2 <= phi <= PI/2 -> (asin y <= phi <-> y <= sin phi).
Proof.
  intros. pose proof (asin_bound y). pose proof PI_RGT_0. split; intros.
  - rewrite <- (sin_asin y) by auto. apply sin_incr_1; lra.
  - destruct (Rle_dec (asin y) phi); auto. exfalso.
    assert (sin phi < sin (asin y)) by (apply sin_increasing_1; lra). rewrite sin_asin in H4 by auto. lra.
Qed.
Lemma iso_uniform : forall x u, unit_draw x -> unit_draw u ->
  area_uniform x u (deg2rad (num_or_0 (iso_lat x))) (deg2rad (rand_lon u)).
Proof.
  intros x u Hx Hu. unfold unit_draw in *. rewrite iso_lat_eq by lra. simpl num_or_0.
  pose proof PI_RGT_0 as P.
  assert (E : deg2rad (asin (2 * x - 1) / PI * 180) = asin (2 * x - 1)) by (unfold deg2rad; field; lra).
  assert (E2 : deg2rad (rand_lon u) = 2 * PI * u) by (unfold deg2rad, rand_lon; field).
  rewrite E, E2. pose proof (asin_bound (2 * x - 1)).
  split; [|split; [|split]]; auto.
  - split; [lra|]. destruct H as [_ [H|H]]; [lra|]. exfalso.
    assert (sin (asin (2 * x - 1)) = 1) by (rewrite H; apply sin_PI2). rewrite sin_asin in H0 by lra. lra.
  - nra.
  - intros phi Hp. rewrite asin_le_iff by lra. lra.
Qed.
Lemma C24_lemma :
  (forall g d i, sg_dist g = Iso -> unit_draw (d_x d i) -> unit_draw (d_ulon d i) ->
     exists lat lon, sg_coords g d i = Ok (lat, lon) /\ area_uniform (d_x d i) (d_ulon d i) lat lon)
  /\ (forall g n d i dflt, (i < n)%nat -> unit_draw (fd_x d i) -> unit_draw (fd_ulon d i) ->
        area_uniform (fd_x d i) (fd_ulon d i) (fc_lat (nth i (fg_generate g n d) dflt)) (fc_lon (nth i (fg_generate g n d) dflt)))
  /\ (forall n x ul i, (i < n)%nat -> unit_draw (x i) -> unit_draw (ul i) ->
        length (fst (gen_coords n x ul)) = n /\ length (snd (gen_coords n x ul)) = n
        /\ area_uniform (x i) (ul i) (nth i (fst (gen_coords n x ul)) 0) (nth i (snd (gen_coords n x ul)) 0))
  /\ (forall g d i, sg_dist g = UnknownDist -> sg_coords g d i = Raise ValueError)
  /\ (forall g d i, sg_dist g = Solar -> unit_draw (d_ulon d i) ->
        exists lat lon, sg_coords g d i = Ok (lat, lon) /\ 0 <= lon < 2 * PI
          /\ lat = (if d_hemi d i then 1 else -1) * (15 + 5 * d_nlat d i) * PI / 180)
  /\ (forall g B, sg_dist g = Solar -> exists d lat lon, sg_coords g d 0 = Ok (lat, lon) /\ B < lat).
Proof.
  split; [|split; [|split; [|split; [|split]]]].
  - intros. unfold sg_coords. rewrite H. do 2 eexists. split; eauto. apply iso_uniform; auto.
  - intros. unfold fg_generate. rewrite nth_map_seq by auto. cbn [fc_lat fc_lon]. apply iso_uniform; auto.
  - intros. unfold gen_coords. simpl fst; simpl snd. rewrite !map_length, !seq_length. split; auto. split; auto.
    rewrite !nth_map_seq by auto. apply iso_uniform; auto.
  - intros. unfold sg_coords. rewrite H. auto.
  - intros. unfold sg_coords. rewrite H. do 2 eexists. split; eauto. unfold unit_draw in H0. pose proof PI_RGT_0.
    unfold deg2rad, rand_lon, solar_lat. split. split; nra. destruct (d_hemi d i); field.
  - intros. pose proof PI_RGT_0.
    exists (mkSDraws (fun _ => 0) (fun _ _ => 1) (fun _ => 0) (fun _ => 0) (fun _ => true) (fun _ => Rabs B * 180 / PI)).
    unfold sg_coords. rewrite H. do 2 eexists. split; eauto. simpl. unfold deg2rad, solar_lat.
    assert (B <= Rabs B) by apply Rle_abs. assert (0 <= Rabs B) by apply Rabs_pos.
    replace ((15 + 5 * (Rabs B * 180 / PI)) * 1 * PI / 180) with (PI / 12 + 5 * Rabs B) by (field; lra). lra.
Qed.

(** ** C25 *)
Lemma redraw_ok : forall fuel k0 d n k, redraw_ratio fuel k0 d n = Ok k ->
  (k0 <= k <= k0 + fuel)%nat
  /\ (forall i, (i < n)%nat -> 0 < d_ratio d k i)
  /\ (forall k', (k0 <= k' < k)%nat -> exists i, (i < n)%nat /\ d_ratio d k' i <= 0).
Proof.
  induction fuel; intros; simpl in H.
  - destruct (existsb _ _) eqn:E; try discriminate. inversion H; subst. split; [lia|]. split; [|intros; lia].
    intros. destruct (Rlt_dec 0 (d_ratio d k i)); auto. exfalso.
    assert (existsb (fun i => Rleb (d_ratio d k i) 0) (seq 0 n) = true).
    { apply existsb_exists. exists i. split. apply in_seq; lia. apply Rleb_true; lra. } congruence.
  - destruct (existsb _ _) eqn:E.
    + apply IHfuel in H. destruct H as [A [B C]]. split; [lia|]. split; auto. intros k' Hk.
      destruct (Nat.eq_dec k' k0) as [->|]; [|apply C; lia].
      apply existsb_exists in E. destruct E as [i [I L]]. apply in_seq in I. apply Rleb_true in L. exists i. split; auto; lia.
    + inversion H; subst. split; [lia|]. split; [|intros; lia].
      intros. destruct (Rlt_dec 0 (d_ratio d k i)); auto. exfalso.
      assert (existsb (fun i => Rleb (d_ratio d k i) 0) (seq 0 n) = true).
      { apply existsb_exists. exists i. split. apply in_seq; lia. apply Rleb_true; lra. } congruence.
Qed.
Lemma redraw_succeeds : forall fuel k0 d n k, (k0 <= k <= k0 + fuel)%nat -> (forall i, (i < n)%nat -> 0 < d_ratio d k i) ->
  exists k1, redraw_ratio fuel k0 d n = Ok k1.
Proof.
  induction fuel; intros; simpl; destruct (existsb _ _) eqn:E; eauto.
  - exfalso. replace k0 with k in E by lia. apply existsb_exists in E. destruct E as [i [I L]]. apply in_seq in I.
    apply Rleb_true in L. specialize (H0 i ltac:(lia)). lra.
  - apply (IHfuel (S k0) d n k); auto. destruct (Nat.eq_dec k k0); [|lia]. subst. exfalso.
    apply existsb_exists in E. destruct E as [i [I L]]. apply in_seq in I.
    apply Rleb_true in L. specialize (H0 i ltac:(lia)). lra.
Qed.
Lemma nth_mapM_seq : forall A (f : nat -> res A) n l, mapM f (seq 0 n) = Ok l ->
  forall i d, (i < n)%nat -> f i = Ok (nth i l d).
Proof.
  intros A f n l H. assert (G : forall n k l, mapM f (seq k n) = Ok l -> forall i d, (i < n)%nat -> f (k + i)%nat = Ok (nth i l d)).
  { clear. induction n; intros; [lia|]. simpl in H. apply bind_ok in H. destruct H as [y [Hy H]].
    apply bind_ok in H. destruct H as [ys [Hys H]]. inversion H; subst. destruct i.
    rewrite Nat.add_0_r. auto. simpl. replace (k + S i)%nat with (S k + i)%nat by lia. apply IHn; auto. lia. }
  intros. apply (G n 0%nat l H i d H0).
Qed.
Lemma sg_generate_inv : forall g n d fuel l, sg_generate g n d fuel = Ok l ->
  0 <= sg_logsigma g /\ exists k, redraw_ratio fuel 0 d n = Ok k /\ length l = n
  /\ forall i dflt, (i < n)%nat -> exists ll, sg_coords g d i = Ok ll
     /\ nth i l dflt = spot_init (fst ll) (snd ll) (nexp (nadd (nln (sg_mean g)) (Fin (sg_logsigma g * d_z d i)))) (sg_init g)
          (sg_teff_umbra g) (sg_teff_pen g) (Fin (d_ratio d k i)) true
          (sg_growth g) (sg_growth_dim g) (sg_decay g) (sg_grid g).
Proof.
  intros. unfold sg_generate in H. destruct (Rltb (sg_logsigma g) 0) eqn:E; try discriminate. rb. split; auto.
  apply bind_ok in H. destruct H as [k [Hk H]]. exists k. split; auto.
  apply bind_ok in H. destruct H as [x [Hx H]].
  split. apply mapM_length in H. rewrite seq_length in H. auto.
  intros. pose proof (nth_mapM_seq _ _ _ _ H i dflt H0) as N. cbv beta in N. apply bind_ok in N.
  destruct N as [ll [Hll N]]. inversion N. exists ll. auto.
Qed.
Lemma C25_lemma :
  (forall g n d fuel l, sg_generate g n d fuel = Ok l ->
     length l = n
     /\ exists k, (k <= fuel)%nat
        /\ (forall k', (k' < k)%nat -> exists i, (i < n)%nat /\ d_ratio d k' i <= 0)
        /\ forall i dflt, (i < n)%nat -> let s := nth i l dflt in
             newborn g s /\ sp_ratio s = Fin (d_ratio d k i) /\ 0 < d_ratio d k i
             /\ sg_coords g d i = Ok (sp_lat s, sp_lon s)
             /\ (forall M, sg_mean g = Fin M -> 0 < M ->
                   exists a, sp_area_max s = Fin a /\ 0 < a /\ ln a = ln M + sg_logsigma g * d_z d i))
  /\ (forall g n d fuel k, 0 <= sg_logsigma g -> sg_dist g <> UnknownDist -> (k <= fuel)%nat ->
        (forall i, (i < n)%nat -> 0 < d_ratio d k i) -> exists l, sg_generate g n d fuel = Ok l)
  /\ (forall g n d fuel, (exists l, sg_generate g n d fuel = Ok l) ->
        0 <= sg_logsigma g /\ sg_dist g <> UnknownDist)
  /\ (forall g n d fuel e, sg_generate g n d fuel = Raise e -> e = ValueError \/ e = OutOfDraws).
Proof.
  split; [|split; [|split]].
  - intros. apply sg_generate_inv in H. destruct H as [Hs [k [Hk [Hl Hi]]]]. apply redraw_ok in Hk.
    destruct Hk as [K1 [K2 K3]]. split; auto. exists k. split; [lia|]. split. intros; apply K3; lia.
    intros. destruct (Hi i dflt H) as [[la lo] [Hc E]]. unfold s. rewrite E. split.
    { do 7 (split; [reflexivity|]). split; [apply set_gridmaker_on | reflexivity]. } split; auto. split; auto. split; auto.
    intros. cbn [spot_init sp_area_max spot_set_gridmaker]. rewrite H0, nln_fin by auto. rewrite nadd_fin, nexp_fin.
    eexists. split; eauto. split. apply exp_pos. apply ln_exp.
  - intros. unfold sg_generate. rewrite (proj2 (Rltb_false _ _) H).
    destruct (redraw_succeeds fuel 0 d n k) as [k1 ->]; auto; [lia|]. cbn [bind].
    assert (C : forall i, exists ll, sg_coords g d i = Ok ll).
    { intros. unfold sg_coords. destruct (sg_dist g); eauto. congruence. }
    destruct (C 0%nat) as [ll ->]. cbn [bind].
    assert (M : forall l, exists r, mapM (fun i => do ll <- sg_coords g d i ;;
       Ok (spot_init (fst ll) (snd ll) (nexp (nadd (nln (sg_mean g)) (Fin (sg_logsigma g * d_z d i)))) (sg_init g)
          (sg_teff_umbra g) (sg_teff_pen g) (Fin (d_ratio d k1 i)) true
          (sg_growth g) (sg_growth_dim g) (sg_decay g) (sg_grid g))) l = Ok r).
    { induction l; simpl; eauto. destruct (C a) as [x ->]. simpl. destruct IHl as [r ->]. simpl. eauto. }
    apply M.
  - intros g n d fuel [l H]. pose proof H as H'. apply sg_generate_inv in H. destruct H as [Hs _]. split; auto.
    intros E. unfold sg_generate in H'. destruct (Rltb _ 0); try discriminate. apply bind_ok in H'.
    destruct H' as [k [_ H']]. unfold sg_coords in H' at 1. rewrite E in H'. discriminate.
  - intros. unfold sg_generate in H. destruct (Rltb _ 0). inversion H; auto.
    destruct (redraw_ratio fuel 0 d n) eqn:E; simpl in H.
    2:{ inversion H; subst. right. clear - E. revert E. generalize 0%nat. induction fuel; simpl; intros.
        destruct (existsb _ _). inversion E; auto. discriminate. destruct (existsb _ _). eauto. discriminate. }
    assert (C : (exists ll, forall i, sg_coords g d i = Ok (ll i)) \/ forall i, sg_coords g d i = Raise ValueError).
    { unfold sg_coords. destruct (sg_dist g). left; eexists (fun i => _); intros; reflexivity.
      left; eexists (fun i => _); intros; reflexivity. right; auto. }
    destruct C as [[ll C]|C].
    + rewrite C in H. simpl in H. apply mapM_raise in H. destruct H as [x [_ H]]. rewrite C in H. discriminate.
    + rewrite C in H. simpl in H. inversion H. auto.
Qed.

(** ** C26, C27 *)
Lemma ln_pos1 : forall x, 1 < x -> 0 < ln x.
Proof. intros. rewrite <- ln_1. apply ln_increasing; lra. Qed.
Lemma ln_nonneg1 : forall x, 1 <= x -> 0 <= ln x.
Proof. intros. destruct H as [H| <-]. left; apply ln_pos1; auto. rewrite ln_1; lra. Qed.
Lemma ln_div_neg : forall A M, 0 < A -> 0 < M -> ln (A / M) = - ln (M / A).
Proof. intros. replace (A / M) with (/ (M / A)) by (field; lra). apply ln_Rinv. apply Rdiv_lt_0_compat; auto. Qed.
Lemma one_le_div : forall A M, 0 < A <= M -> 1 <= M / A.
Proof. intros. apply le_div; lra. Qed.
Definition life (M A g W : R) : R := M / W + ln (M / A) / g.
Lemma life_pos : forall M A g W, 0 < A <= M -> 0 < g -> 0 < W -> 0 < life M A g W.
Proof.
  intros. unfold life. assert (0 < M / W) by (apply Rdiv_lt_0_compat; lra).
  assert (0 <= ln (M / A) / g). { apply le_div; auto. rewrite Rmult_0_l. apply ln_nonneg1. apply one_le_div; auto. } lra.
Qed.
Lemma static_false : forall s M A g W, sg_params s M A g W -> 0 < W -> sg_is_static s = false.
Proof. intros s M A g W [_ [_ [_ [_ H]]]] HW. unfold sg_is_static. rewrite H. apply Reqb_false. lra. Qed.
Lemma mean_lifetime_eq : forall s M A g W, sg_params s M A g W -> 0 < A <= M -> 0 < g -> 0 < W ->
  sg_mean_lifetime s = Ok (Fin (life M A g W)).
Proof.
  intros s M A g W P HA Hg HW. unfold sg_mean_lifetime. rewrite (static_false s M A g W P HW).
  destruct P as [P1 [P2 [P3 [P4 P5]]]]. rewrite P1, P2, P3, P4, P5. simpl negb.
  rewrite !ndiv_fin by lra. rewrite nln_fin by (apply Rdiv_lt_0_compat; lra). rewrite !ndiv_fin by lra. rewrite nsub_fin.
  unfold life. rewrite ln_div_neg by lra. do 2 f_equal. field. lra.
Qed.
Lemma mean_area_eq : forall s M A g W, sg_params s M A g W -> 0 < A <= M -> 0 < g -> 0 < W ->
  sg_mean_area s = Ok (Fin ((M / g + A / g + M^2 / (2 * W)) / life M A g W)).
Proof.
  intros s M A g W P HA Hg HW. unfold sg_mean_area. rewrite (static_false s M A g W P HW).
  rewrite (mean_lifetime_eq s M A g W P HA Hg HW). pose proof (life_pos M A g W HA Hg HW).
  destruct P as [P1 [P2 [P3 [P4 P5]]]]. rewrite P1, P2, P3, P4, P5. simpl negb. cbn [bind].
  rewrite nsq_fin. rewrite !ndiv_fin by lra. rewrite !nadd_fin. rewrite ndiv_fin by lra.
  do 3 f_equal. field. lra.
Qed.
Lemma C26_lemma :
  (* a dynamic generator: the expectation is proportional to coverage and time *)
  (forall s M A g W Rs, sg_params s M A g W -> 0 < A <= M -> 0 < g -> 0 < W -> 0 < Rs ->
     exists k, 0 < k
       /\ (forall c t, sg_n_expected (sg_with_coverage s (Fin c)) (Fin t) Rs = Ok (Fin (k * c * t)))
       /\ (forall t1 t2 c, exists n1 n2 n12,
             sg_n_expected (sg_with_coverage s (Fin c)) (Fin t1) Rs = Ok (Fin n1)
             /\ sg_n_expected (sg_with_coverage s (Fin c)) (Fin t2) Rs = Ok (Fin n2)
             /\ sg_n_expected (sg_with_coverage s (Fin c)) (Fin (t1 + t2)) Rs = Ok (Fin n12)
             /\ n12 = n1 + n2)
       (* births per unit time x lifetime x mean area = coverage x area of the star; an MSH is
          the millionth part of half a sphere of unit radius *)
       /\ (forall L ma, sg_mean_lifetime s = Ok (Fin L) -> sg_mean_area s = Ok (Fin ma) ->
             forall c, k * c * L * (ma * (2 * PI / 10^6)) = c * (4 * PI * Rs^2)))
  (* static spots (decay rate 0) live forever: none are born *)
  /\ (forall s M c t Rs pdraw d fuel, sg_mean s = Fin M -> 0 < M -> sg_decay s = Fin 0 -> sg_coverage s = Fin c ->
        0 <= sg_logsigma s -> sg_dist s <> UnknownDist ->
        sg_n_expected s (Fin t) Rs = Ok (Fin 0) /\ sg_birth s (Fin t) Rs pdraw d fuel = Ok [])
  (* off(): zero, and nothing is ever born *)
  /\ (forall gr t Rs pdraw d fuel, sg_n_expected (sg_off gr) (Fin t) Rs = Ok (Fin 0)
        /\ sg_birth (sg_off gr) (Fin t) Rs pdraw d fuel = Ok [])
  (* growth rate 0 with decay: NaN, and birth_spots raises even for coverage 0 *)
  /\ (forall s M A W Rs t pdraw d fuel, sg_params s M A 0 W -> 0 < A <= M -> 0 < W ->
        sg_n_expected s (Fin t) Rs = Ok NaN /\ sg_birth s (Fin t) Rs pdraw d fuel = Raise ValueError).
Proof.
  split; [|split; [|split]].
  - intros s M A g W Rs P HA Hg HW HR. pose proof (life_pos M A g W HA Hg HW) as LP.
    pose proof PI_RGT_0. pose proof msh_pos. set (I := M / g + A / g + M^2 / (2 * W)).
    assert (I0 : 0 < I).
    { unfold I. assert (0 < M / g) by (apply Rdiv_lt_0_compat; lra). assert (0 < A / g) by (apply Rdiv_lt_0_compat; lra).
      assert (0 < M^2 / (2 * W)) by (apply Rdiv_lt_0_compat; [apply pow_lt|]; lra). lra. }
    assert (R2 : 0 < Rs^2) by (apply pow_lt; auto).
    assert (LI : 0 < I / life M A g W) by (apply Rdiv_lt_0_compat; auto).
    assert (Q : 0 < I / life M A g W * MSH_RSUN2) by (apply Rmult_lt_0_compat; auto).
    exists (4 * PI * Rs^2 / (I / life M A g W * MSH_RSUN2) / life M A g W).
    assert (F : forall c t, sg_n_expected (sg_with_coverage s (Fin c)) (Fin t) Rs
      = Ok (Fin (4 * PI * Rs^2 / (I / life M A g W * MSH_RSUN2) / life M A g W * c * t))).
    { intros. unfold sg_n_expected.
      assert (P' : sg_params (sg_with_coverage s (Fin c)) M A g W) by exact P.
      rewrite (mean_area_eq _ M A g W P'), (mean_lifetime_eq _ M A g W P') by auto. cbn [bind]. fold I.
      simpl sg_coverage. rewrite !nmul_fin. rewrite ndiv_fin by lra. rewrite nmul_fin. rewrite ndiv_fin by lra.
      do 2 f_equal. field. repeat split; lra. }
    split; [|split; [|split]]; auto.
    + apply Rdiv_lt_0_compat; auto. apply Rdiv_lt_0_compat; auto. nra.
    + intros. do 3 eexists. rewrite !F. repeat split; auto. ring.
    + intros L ma EL Em c. rewrite (mean_area_eq _ M A g W P), (mean_lifetime_eq _ M A g W P) in * by auto. fold I in Em.
      injection EL as <-. injection Em as <-. replace (2 * PI / 10^6) with MSH_RSUN2 by (unfold MSH_RSUN2; field).
      field. repeat split; lra.
  - intros s M c t Rs pdraw d fuel HM HM0 HW Hc Hs Hd.
    assert (E : sg_n_expected s (Fin t) Rs = Ok (Fin 0)).
    { unfold sg_n_expected, sg_mean_area, sg_mean_lifetime.
      replace (sg_is_static s) with true by (unfold sg_is_static; rewrite HW; symmetry; apply Reqb_true; auto). cbn [bind].
      pose proof msh_pos. rewrite Hc, HM. rewrite !nmul_fin. rewrite ndiv_fin by nra. rewrite nmul_fin. reflexivity. }
    split; auto. unfold sg_birth. rewrite E. cbn [bind]. unfold poisson.
    destruct (Rlt_dec 0 0); [lra|]. destruct (Req_EM_T 0 0); [|lra]. cbn [bind].
    unfold sg_generate. rewrite (proj2 (Rltb_false _ _) Hs). destruct fuel; simpl; unfold sg_coords; destruct (sg_dist s); try contradiction; reflexivity.
  - intros gr t Rs pdraw d fuel.
    assert (E : sg_n_expected (sg_off gr) (Fin t) Rs = Ok (Fin 0)).
    { unfold sg_n_expected, sg_mean_area, sg_mean_lifetime.
      replace (sg_is_static (sg_off gr)) with true by (symmetry; apply Reqb_true; auto). cbn [bind].
      pose proof msh_pos. simpl sg_coverage. simpl sg_mean. rewrite !nmul_fin. rewrite ndiv_fin by lra. rewrite nmul_fin.
      simpl. auto. }
    split; auto. unfold sg_birth. rewrite E. cbn [bind]. unfold poisson.
    destruct (Rlt_dec 0 0); [lra|]. destruct (Req_EM_T 0 0); [|lra]. cbn [bind].
    unfold sg_generate. simpl sg_logsigma. rewrite (proj2 (Rltb_false 1 0)) by lra.
    assert (redraw_ratio fuel 0 d 0 = Ok 0%nat) by (destruct fuel; auto). rewrite H. cbn [bind].
    reflexivity.
  - intros s M A W Rs t pdraw d fuel P HA HW.
    assert (E : sg_n_expected s (Fin t) Rs = Ok NaN).
    { pose proof (static_false s M A 0 W P HW) as St.
      destruct P as [P1 [P2 [P3 [P4 P5]]]].
      assert (X : exists L, sg_mean_lifetime s = Ok L /\ (L = PInf \/ L = NaN)).
      { unfold sg_mean_lifetime. rewrite St, P1, P2, P3, P4, P5. simpl negb. eexists. split. reflexivity.
        rewrite !ndiv_fin by lra. rewrite nln_fin by (apply Rdiv_lt_0_compat; lra).
        rewrite ln_div_neg by lra. pose proof (ln_nonneg1 (M/A) (one_le_div A M HA)).
        unfold ndiv. destruct (Req_EM_T 0 0); [|lra]. unfold inf_signed.
        destruct (Rlt_dec 0 (- ln (M / A))); [lra|]. destruct (Rlt_dec (- ln (M / A)) 0); auto. }
      destruct X as [L [EL HL]].
      assert (Y : sg_mean_area s = Ok NaN).
      { unfold sg_mean_area. rewrite St, EL. rewrite P1, P2, P3, P4, P5. simpl negb. cbn [bind].
        rewrite nsq_fin. rewrite (ndiv_fin (M*M) 2), (ndiv_fin _ W) by lra.
        assert (Z : forall x, 0 < x -> ndiv (Fin x) (Fin 0) = PInf).
        { intros. unfold ndiv. destruct (Req_EM_T 0 0); [|lra]. unfold inf_signed. destruct (Rlt_dec 0 x); auto. lra. }
        rewrite !Z by lra. simpl. destruct HL as [->| ->]; auto. }
      unfold sg_n_expected. rewrite Y, EL. cbn [bind].
      replace (nmul NaN (Fin MSH_RSUN2)) with NaN by auto.
      assert (D : forall x, ndiv x NaN = NaN) by (destruct x; auto). rewrite D. auto. }
    split; auto. unfold sg_birth. rewrite E. auto.
Qed.

Lemma ln_1p_lt : forall g, 0 < g -> 0 < ln (1 + g) < g.
Proof.
  intros. split. apply ln_pos1; lra. pose proof (exp_ineq1 g). apply exp_lt_inv. rewrite exp_ln by lra. lra.
Qed.
Lemma is_RInt_exp_growth : forall A M g, 0 < A <= M -> 0 < g ->
  is_RInt (fun t => A * exp (g * t)) 0 (ln (M / A) / g) ((M - A) / g).
Proof.
  intros.
  assert (E : (M - A) / g = minus (A / g * exp (g * (ln (M / A) / g))) (A / g * exp (g * 0))).
  { replace (g * (ln (M/A) / g)) with (ln (M/A)) by (field; lra). rewrite exp_ln by (apply Rdiv_lt_0_compat; lra).
    rewrite Rmult_0_r, exp_0. unfold minus, plus, opp; simpl. field. lra. }
  rewrite E. apply (is_RInt_derive (fun t => A / g * exp (g * t)) (fun t => A * exp (g * t))).
  - intros. auto_derive; auto. field. lra.
  - intros. apply (ex_derive_continuous (fun t => A * exp (g * t))). auto_derive. auto.
Qed.
Lemma is_RInt_lin_decay : forall M W, 0 < W -> is_RInt (fun t => M - W * t) 0 (M / W) (M^2 / (2 * W)).
Proof.
  intros.
  assert (E : M^2 / (2 * W) = minus (M * (M / W) - W * (M/W)^2 / 2) (M * 0 - W * 0^2/2)).
  { unfold minus, plus, opp; simpl. field. lra. }
  rewrite E. apply (is_RInt_derive (fun t => M * t - W * t^2 / 2) (fun t => M - W * t)).
  - intros. auto_derive; auto. field.
  - intros. apply (ex_derive_continuous (fun t => M - W * t)). auto_derive. auto.
Qed.
Lemma C27_lemma : forall s M A g W, sg_params s M A g W -> 0 < A <= M -> 0 < g -> 0 < W ->
  exists L ma, sg_mean_lifetime s = Ok (Fin L) /\ sg_mean_area s = Ok (Fin ma)
  /\ 0 < L /\ L = M / W + ln (M / A) / g
  /\ ma * L = M / g + A / g + M^2 / (2 * W)
  (* the lifetime of a spot with maximal area M (C16) is longer *)
  /\ (A < M -> L < time_to_max A M g + M / W)
  /\ (A = M -> L = time_to_max A M g + M / W)
  (* so a spot of exactly mean size still exists at age L *)
  /\ (A < M -> forall sp, spot_params sp A M g W -> sp_growing sp = true ->
        exists sp' a b, spot_age sp (Fin L) = Ok sp' /\ aged_to sp sp' a b /\ 0 < a)
  (* time integrals of the areas: e-folding growth at rate g, then linear decay *)
  /\ (exists I1 I2, is_RInt (fun t => A * exp (g * t)) 0 (ln (M / A) / g) I1
        /\ is_RInt (fun t => M - W * t) 0 (M / W) I2
        /\ ma * L = I1 + I2 + 2 * A / g)
  (* and of the growth law that age() really applies *)
  /\ (exists I1', is_RInt (fun t => A * Rpower (1 + g) t) 0 (time_to_max A M g) I1'
        /\ I1' = (M - A) / ln (1 + g)).
Proof.
  intros s M A g W P HA Hg HW. pose proof (life_pos M A g W HA Hg HW) as LP.
  exists (life M A g W). eexists. rewrite (mean_area_eq s M A g W P HA Hg HW).
  split. apply mean_lifetime_eq; auto. split. reflexivity. split; auto. split. reflexivity.
  split. field; lra.
  pose proof (ln_1p_lt g Hg) as LG. pose proof (one_le_div A M HA) as MA.
  assert (LL : A < M -> ln (M / A) / g < time_to_max A M g).
  { intros. unfold time_to_max. assert (0 < ln (M / A)) by (apply ln_pos1; apply lt_div; lra).
    apply Rmult_lt_compat_l; auto. apply Rinv_lt_contravar; nra. }
  split. { intros. specialize (LL H). unfold life. lra. }
  split. { intros <-. unfold life, time_to_max. replace (A / A) with 1 by (field; lra). rewrite ln_1. unfold Rdiv. ring. }
  split.
  { intros HAM sp SP G. specialize (LL HAM).
    destruct (C13_lemma sp A M g W (life M A g W) SP HA ltac:(lra) ltac:(lra)) as [s' [E [C1 [C2 _]]]].
    destruct (Rlt_dec (life M A g W) (time_to_max A M g)).
    - exists s'. do 2 eexists. split; eauto. split. apply C1; auto.
      unfold Rpower. pose proof (exp_pos (life M A g W * ln (1 + g))). nra.
    - exists s'. do 2 eexists. split; eauto. split. apply C2; auto; lra.
      apply Rlt_le_trans with (M - W * (life M A g W - time_to_max A M g)); [|apply Rmax_r].
      assert (life M A g W - time_to_max A M g < M / W) by (unfold life; lra).
      assert (W * (life M A g W - time_to_max A M g) < W * (M / W)) by (apply Rmult_lt_compat_l; auto).
      replace (W * (M / W)) with M in H0 by (field; lra). lra. }
  split.
  { exists ((M - A) / g), (M^2 / (2 * W)). split. apply is_RInt_exp_growth; auto. split. apply is_RInt_lin_decay; auto.
    field. lra. }
  exists ((M - A) / ln (1 + g)). split; auto. unfold time_to_max.
  apply (is_RInt_ext (fun t => A * exp (ln (1 + g) * t))). intros. unfold Rpower. rewrite (Rmult_comm x). auto.
  apply is_RInt_exp_growth; lra.
Qed.

(** ** C28 *)
Lemma ang_rad_cases : forall s Rs, (exists th, spot_angular_radius s Rs = Fin th) \/ spot_angular_radius s Rs = NaN.
Proof.
  intros. unfold spot_angular_radius, nacos. destruct (nsub _ _); auto.
  destruct (Rle_dec (-1) r); auto. destruct (Rle_dec r 1); auto. eauto.
Qed.
Lemma solid_fin : forall s Rs th, spot_angular_radius s Rs = Fin th -> spot_solid_angle s Rs = Fin (PI * th^2 * (180/PI)^2).
Proof. intros. unfold spot_solid_angle. rewrite H. rewrite nmul_fin, nsq_fin, nmul_fin. f_equal. ring. Qed.
Lemma solid_nan : forall s Rs, spot_angular_radius s Rs = NaN -> spot_solid_angle s Rs = NaN.
Proof. intros. unfold spot_solid_angle. rewrite H. reflexivity. Qed.
Lemma k180 : 0 < (180/PI)^2.
Proof. apply pow_lt. apply Rdiv_lt_0_compat; [lra|apply PI_RGT_0]. Qed.
Lemma mature_loop_spec : forall g Rs T draws rf fuel i om l,
  mature_loop g Rs (Fin (T * (180/PI)^2)) draws rf fuel i (Fin (om * (180/PI)^2)) = Ok l ->
  reaches_minimally Rs (T - om) l
  /\ (forall k, (k < length l)%nat -> forall dflt,
       sg_mature_one g (fst (draws (i + k)%nat)) (snd (draws (i + k)%nat)) rf = Ok (nth k l dflt))
  /\ (length l <= fuel)%nat.
Proof.
  intros g Rs T draws rf. pose proof k180 as K.
  induction fuel; intros i om l H; cbn [mature_loop nlt] in H.
  - destruct (Rltb (om * _) (T * _)) eqn:E; try discriminate. rb. inversion H; subst. split; [|split].
    + left. exists []. split; auto. split. unfold disc_sum; simpl. apply Rmult_le_reg_r in E; auto. lra. simpl; intros; lia.
    + simpl; intros; lia.
    + simpl; lia.
  - destruct (Rltb (om * _) (T * _)) eqn:E; rb.
    2:{ inversion H; subst. split; [|split].
    + left. exists []. split; auto. split. unfold disc_sum; simpl. apply Rmult_le_reg_r in E; auto. lra. simpl; intros; lia.
    + simpl; intros; lia.
    + simpl; lia. }
    assert (OT : om < T) by (apply Rmult_lt_reg_r in E; auto). 
    destruct (draws i) as [d u] eqn:Ed. apply bind_ok in H. destruct H as [s [Hs H]].
    apply bind_ok in H. destruct H as [rest [Hr H]]. inversion H; subst l. clear H.
    destruct (ang_rad_cases s Rs) as [[th Eth]|En].
    + rewrite (solid_fin s Rs th Eth), nadd_fin in Hr.
      replace (om * (180/PI)^2 + PI * th^2 * (180/PI)^2) with ((om + PI * th^2) * (180/PI)^2) in Hr by ring.
      apply IHfuel in Hr. destruct Hr as [Hm [Hn Hl]]. split; [|split].
      * destruct Hm as [[ths [E1 [E2 E3]]]|[l0 [s0 [ths [E1 [E2 [E3 E4]]]]]]].
        -- left. exists (th :: ths). split. unfold spot_radii in *. cbn [map]. rewrite Eth, E1. auto.
           split. unfold disc_sum in *; simpl in *. lra.
           intros [|k] Hk; simpl firstn. unfold disc_sum; simpl; lra.
           simpl in Hk. specialize (E3 k ltac:(lia)). unfold disc_sum in *; simpl in *. lra.
        -- right. exists (s :: l0), s0, (th :: ths). subst rest. split; auto. split. unfold spot_radii in *. cbn [map]. rewrite Eth, E2. auto.
           split; auto. unfold disc_sum in *; simpl in *. lra.
      * intros [|k] Hk dflt. rewrite Nat.add_0_r, Ed. auto.
        replace (i + S k)%nat with (S i + k)%nat by lia. simpl nth. apply Hn. simpl in Hk; lia.
      * simpl; lia.
    + rewrite (solid_nan s Rs En) in Hr. replace (nadd _ NaN) with NaN in Hr by auto.
      assert (rest = []) by (destruct fuel; simpl in Hr; inversion Hr; auto). subst rest. split; [|split].
      * right. exists [], s, []. repeat split; auto. unfold disc_sum; simpl; lra.
      * intros [|k] Hk dflt. rewrite Nat.add_0_r, Ed. auto. simpl in Hk; lia.
      * simpl; lia.
Qed.
Lemma mature_loop_done : forall g Rs T draws rf th0, 0 < th0 ->
  (forall i, exists s th, sg_mature_one g (fst (draws i)) (snd (draws i)) rf = Ok s /\ spot_angular_radius s Rs = Fin th /\ th0 <= th) ->
  forall fuel i om, T - om <= INR fuel * (PI * th0^2) ->
  exists l, mature_loop g Rs (Fin (T * (180/PI)^2)) draws rf fuel i (Fin (om * (180/PI)^2)) = Ok l.
Proof.
  intros g Rs T draws rf th0 P0 H. pose proof k180 as K. pose proof PI_RGT_0.
  induction fuel; intros i om Hf.
  - simpl in Hf. cbn [mature_loop nlt]. rewrite (proj2 (Rltb_false _ _)) by (apply Rmult_le_compat_r; lra). eauto.
  - cbn [mature_loop nlt]. destruct (Rltb _ _) eqn:E; eauto. destruct (draws i) as [d u] eqn:Ed.
    destruct (H i) as [s [th [Hs [Eth L]]]]. rewrite Ed in Hs. simpl in Hs. rewrite Hs. cbn [bind].
    rewrite (solid_fin s Rs th Eth), nadd_fin.
    replace (om * (180/PI)^2 + PI * th^2 * (180/PI)^2) with ((om + PI * th^2) * (180/PI)^2) by ring.
    destruct (IHfuel (S i) (om + PI * th^2)) as [l El].
    { rewrite S_INR in Hf. assert (th0^2 <= th^2) by (apply pow_incr; lra). nra. }
    rewrite El. cbn [bind]. eauto.
Qed.
Lemma mature_loop_stuck : forall g Rs T draws rf,
  (forall i, exists s, sg_mature_one g (fst (draws i)) (snd (draws i)) rf = Ok s /\ spot_angular_radius s Rs = Fin 0) ->
  0 < T -> forall fuel i,
  mature_loop g Rs (Fin (T * (180/PI)^2)) draws rf fuel i (Fin (0 * (180/PI)^2)) = Raise OutOfDraws.
Proof.
  intros g Rs T draws rf H HT. pose proof k180 as K.
  induction fuel; intros i; cbn [mature_loop nlt]; rewrite (proj2 (Rltb_true _ _)) by nra; auto.
  destruct (draws i) as [d u] eqn:Ed. destruct (H i) as [s [Hs Eth]]. rewrite Ed in Hs. simpl in Hs. rewrite Hs. cbn [bind].
  rewrite (solid_fin s Rs 0 Eth), nadd_fin.
  replace (0 * (180/PI)^2 + PI * 0^2 * (180/PI)^2) with (0 * (180/PI)^2) by ring. rewrite IHfuel. auto.
Qed.
Lemma mature_start : forall c, nmul (nmul (Fin (4 * PI)) (Fin c)) (Fin ((180/PI)^2)) = Fin ((4 * PI * c) * (180/PI)^2).
Proof. intros. rewrite !nmul_fin. auto. Qed.
Lemma zero_start : Fin 0 = Fin (0 * (180/PI)^2).
Proof. f_equal. ring. Qed.
Lemma sg_mature_inv : forall g d u rf s, sg_mature_one g d u rf = Ok s ->
  exists s0, sg_generate g 1 d rf = Ok [s0] /\ newborn g s0
  /\ (sg_is_static g = true ->
        s = spot_with_area s0 (nadd (nmul (Fin u) (nsub (sp_area_max s0) (sg_init g))) (sg_init g)) true)
  /\ (sg_is_static g = false -> exists L, sg_mean_lifetime g = Ok L /\ spot_age s0 (nmul (Fin u) L) = Ok s).
Proof.
  intros. unfold sg_mature_one in H. apply bind_ok in H. destruct H as [l [Hl H]].
  destruct C25_lemma as [C _]. destruct (C g _ d rf l Hl) as [Len [k [_ [_ Hi]]]].
  destruct l as [|s0 [|]]; try discriminate. exists s0. split; auto.
  destruct (Hi 0%nat s0 ltac:(lia)) as [NB _]. simpl in NB. split; auto.
  destruct (sg_is_static g).
  - split; intros; try discriminate. inversion H. destruct NB as [G _]. rewrite G. auto.
  - split; intros; try discriminate. apply bind_ok in H. destruct H as [L [H1 H2]]. eauto.
Qed.
Lemma spot_on_with_area : forall g s a b, spot_on g s -> spot_on g (spot_with_area s a b).
Proof.
  intros. apply spot_on_iff. apply spot_on_iff in H. transitivity (spot_with_area (spot_set_gridmaker s g) a b). reflexivity. rewrite H. auto.
Qed.
Lemma spot_age_on : forall g s t s', spot_age s t = Ok s' -> spot_on g s -> spot_on g s'.
Proof.
  intros g s t s' H Hon. unfold spot_age in H.
  assert (F : forall a b, spot_on g (spot_with_area s a b)) by (intros; apply spot_on_with_area; auto).
  repeat match type of H with
  | (if ?b then _ else _) = _ => destruct b; try discriminate
  | _ => progress cbv zeta in H
  end; inversion H; apply F.
Qed.
Lemma redraw_raise : forall fuel k0 d n e, redraw_ratio fuel k0 d n = Raise e -> e = OutOfDraws.
Proof.
  induction fuel; simpl; intros; destruct (existsb _ _); try discriminate. inversion H; auto. eauto.
Qed.
Lemma sg_generate_valid : forall g n d fuel, 0 <= sg_logsigma g -> sg_dist g <> UnknownDist ->
  (exists l, sg_generate g n d fuel = Ok l) \/ sg_generate g n d fuel = Raise OutOfDraws.
Proof.
  intros. destruct (redraw_ratio fuel 0 d n) eqn:E.
  - left. apply redraw_ok in E. destruct E as [E1 [E2 _]]. destruct C25_lemma as [_ [C _]]. apply (C g n d fuel a); auto. lia.
  - right. pose proof (redraw_raise _ _ _ _ _ E). subst. unfold sg_generate. rewrite (proj2 (Rltb_false _ _) H), E. auto.
Qed.
Lemma spot_age_dim : forall s t, sp_growth_dim s = (-1)%Z -> exists s', spot_age s t = Ok s'.
Proof.
  intros. unfold spot_age. rewrite H. simpl negb. cbv zeta.
  repeat match goal with |- exists _, (if ?b then _ else _) = _ => destruct b end; eauto.
Qed.
Lemma sg_mature_valid : forall g d u rf, 0 <= sg_logsigma g -> sg_dist g <> UnknownDist -> sg_growth_dim g = (-1)%Z ->
  (exists s, sg_mature_one g d u rf = Ok s) \/ sg_mature_one g d u rf = Raise OutOfDraws.
Proof.
  intros. unfold sg_mature_one. destruct (sg_generate_valid g 1 d rf H H0) as [[l E]|E]; rewrite E; cbn [bind]; auto.
  left. destruct C25_lemma as [C _]. destruct (C g _ d rf l E) as [Len [k [_ [_ Hi]]]].
  destruct l as [|s0 [|]]; try discriminate. destruct (Hi 0%nat s0 ltac:(lia)) as [NB _]. simpl in NB.
  destruct (sg_is_static g) eqn:St; eauto. unfold sg_mean_lifetime. rewrite St, H1. simpl negb. cbn [bind].
  apply spot_age_dim. destruct NB as [_ [_ [_ [_ [_ [-> _]]]]]]. auto.
Qed.
Lemma mature_loop_valid : forall g Rs T draws rf, 0 <= sg_logsigma g -> sg_dist g <> UnknownDist -> sg_growth_dim g = (-1)%Z ->
  forall fuel i om,
  (exists l, mature_loop g Rs T draws rf fuel i om = Ok l) \/ mature_loop g Rs T draws rf fuel i om = Raise OutOfDraws.
Proof.
  intros g Rs T draws rf H1 H2 H3. induction fuel; intros; cbn [mature_loop]; destruct (nlt om T); eauto.
  destruct (draws i) as [d u]. destruct (sg_mature_valid g d u rf H1 H2 H3) as [[s ->]| ->]; cbn [bind]; auto.
  destruct (IHfuel (S i) (nadd om (spot_solid_angle s Rs))) as [[l ->]| ->]; cbn [bind]; eauto.
Qed.
Lemma C28_lemma :
  (forall g c Rs draws rf fuel, (c < 0 \/ 1 < c) -> sg_generate_mature g (Fin c) Rs draws rf fuel = Raise ValueError)
  (* inside [0,1] a valid generator never raises (running out of draws = still looping) *)
  /\ (forall g c Rs draws rf fuel, 0 <= c <= 1 ->
        0 <= sg_logsigma g -> sg_dist g <> UnknownDist -> sg_growth_dim g = (-1)%Z ->
        (exists l, sg_generate_mature g (Fin c) Rs draws rf fuel = Ok l)
        \/ sg_generate_mature g (Fin c) Rs draws rf fuel = Raise OutOfDraws)
  /\ (forall g Rs draws rf fuel, sg_generate_mature g (Fin 0) Rs draws rf fuel = Ok [])
  /\ (forall g c Rs draws rf fuel l, sg_generate_mature g (Fin c) Rs draws rf fuel = Ok l ->
        0 <= c <= 1 /\ reaches_minimally Rs (4 * PI * c) l
        /\ forall k dflt, (k < length l)%nat -> let s := nth k l dflt in let u := snd (draws k) in
             spot_on (sg_grid g) s
             /\ exists s0, sg_generate g 1 (fst (draws k)) rf = Ok [s0] /\ newborn g s0
                /\ (forall M A, sg_decay g = Fin 0 -> sg_init g = Fin A -> sp_area_max s0 = Fin M ->
                      aged_to s0 s (A + u * (M - A)) true)
                /\ (forall M A gr W, sg_params g M A gr W -> 0 < A <= M -> 0 < gr -> 0 < W ->
                      spot_age s0 (Fin (u * (M / W + ln (M / A) / gr))) = Ok s))
  (* it ends as soon as the spots have a minimal size ... *)
  /\ (forall g c Rs draws rf th0, 0 <= c <= 1 -> 0 < th0 ->
        (forall i, exists s th, sg_mature_one g (fst (draws i)) (snd (draws i)) rf = Ok s
                     /\ spot_angular_radius s Rs = Fin th /\ th0 <= th) ->
        forall fuel, 4 * c <= INR fuel * th0^2 -> exists l, sg_generate_mature g (Fin c) Rs draws rf fuel = Ok l)
  (* ... and never when they have no area at all *)
  /\ (forall g c Rs draws rf, 0 < c <= 1 ->
        (forall i, exists s, sg_mature_one g (fst (draws i)) (snd (draws i)) rf = Ok s /\ spot_angular_radius s Rs = Fin 0) ->
        forall fuel, sg_generate_mature g (Fin c) Rs draws rf fuel = Raise OutOfDraws).
Proof.
  assert (ST : forall g c Rs draws rf fuel, 0 <= c <= 1 ->
    sg_generate_mature g (Fin c) Rs draws rf fuel
    = mature_loop g Rs (Fin ((4 * PI * c) * (180/PI)^2)) draws rf fuel 0 (Fin (0 * (180/PI)^2))).
  { intros. unfold sg_generate_mature. rewrite mature_start. rewrite <- zero_start. simpl ngt. simpl nlt.
    unfold ngt, nlt. rewrite !(proj2 (Rltb_false _ _)) by lra. auto. }
  split; [|split; [|split; [|split; [|split]]]].
  2:{ intros. rewrite ST by auto. apply mature_loop_valid; auto. }
  - intros. unfold sg_generate_mature, ngt, nlt. destruct H.
    rewrite (proj2 (Rltb_true c 0)) by lra. rewrite orb_true_r. auto.
    rewrite (proj2 (Rltb_true 1 c)) by lra. auto.
  - intros. rewrite ST by lra. destruct fuel; simpl; rewrite (proj2 (Rltb_false _ _)) by lra; auto.
  - intros g c Rs draws rf fuel l H.
    assert (C : 0 <= c <= 1).
    { unfold sg_generate_mature, ngt, nlt in H. destruct (Rltb 1 c) eqn:E1; simpl in H; try discriminate.
      destruct (Rltb c 0) eqn:E2; try discriminate. rb. lra. }
    split; auto. rewrite ST in H by auto. apply mature_loop_spec in H. destruct H as [H1 [H2 _]].
    rewrite Rminus_0_r in H1. split; auto.
    intros k dflt Hk s u. specialize (H2 k Hk dflt). rewrite Nat.add_0_l in H2. fold s u in H2.
    destruct (sg_mature_inv _ _ _ _ _ H2) as [s0 [G [NB [S1 S2]]]].
    assert (ON : spot_on (sg_grid g) s0) by (destruct NB as [_ [_ [_ [_ [_ [_ [_ [? _]]]]]]]]; auto).
    split.
    + destruct (sg_is_static g).
      * rewrite (S1 eq_refl). apply spot_on_with_area; auto.
      * destruct (S2 eq_refl) as [L [_ Ag]]. eapply spot_age_on; eauto.
    + exists s0. split; auto. split; auto. split.
      * intros M A Hd Hi Hm. assert (St : sg_is_static g = true) by (unfold sg_is_static; rewrite Hd; apply Reqb_true; auto).
        rewrite (S1 St), Hi, Hm, nsub_fin, nmul_fin, nadd_fin. unfold aged_to. simpl. repeat split.
        f_equal. ring.
      * intros M A gr W P HA Hg HW. destruct (S2 (static_false _ _ _ _ _ P HW)) as [L [E Ag]].
        rewrite (mean_lifetime_eq _ _ _ _ _ P HA Hg HW) in E. inversion E; subst L. rewrite nmul_fin in Ag. exact Ag.
  - intros. rewrite ST by auto. apply (mature_loop_done g Rs _ draws rf th0); auto. pose proof PI_RGT_0. nra.
  - intros. rewrite ST by lra. apply mature_loop_stuck; auto. pose proof PI_RGT_0. nra.
Qed.
