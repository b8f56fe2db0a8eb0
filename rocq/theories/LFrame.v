(** Lemmas for C66-C68: spot radius, facula index map, frame conditions *)
From Coq Require Import Reals ZArith Bool List Lra Lia.
From Verif Require Import Num Py MConfig MHelpers MGrid MSpots MFaculae MXoflares MFlares MGranules MStar
  Spec SpecStar SpecDisk SpecFrame LBase LGrid LHelpers LSpotMap LSpotCov LFac LFlareGen LStar LDisk LStarFac.
Import ListNotations.
Open Scope R_scope.

(** ** C66 *)
Lemma C66_lemma : forall s a, sp_area s = Fin a ->
  (0 <= a -> exists r, spot_radius s = Fin r /\ 0 <= r
     /\ PI * r^2 = a * (2 * PI * SUN_KM^2 / 1000000))
  /\ (a < 0 -> spot_radius s = NaN)
  /\ (forall th, 0 <= a -> spot_angular_radius s 1 = Fin th ->
        exists r, spot_radius s = Fin r /\ r^2 = 2 * SUN_KM^2 * (1 - cos th)).
Proof.
  intros s a Ha. pose proof PI_RGT_0 as Pp.
  assert (K : 0 < MSH_RSUN2 * RSUN_KM^2 / PI).
  { unfold MSH_RSUN2, RSUN_KM. apply Rdiv_lt_0_compat; auto. apply Rmult_lt_0_compat; lra. }
  assert (E : forall x, x * (MSH_RSUN2 * RSUN_KM^2) / PI = x * (MSH_RSUN2 * RSUN_KM^2 / PI)) by (intros; field; lra).
  assert (P : 0 <= a -> exists r, spot_radius s = Fin r /\ 0 <= r /\ PI * r^2 = a * (2 * PI * SUN_KM^2 / 1000000)).
  { intros. unfold spot_radius. rewrite Ha, nmul_fin, ndiv_fin by lra.
    assert (0 <= a * (MSH_RSUN2 * RSUN_KM^2) / PI) by (rewrite E; apply Rmult_le_pos; lra).
    rewrite nsqrt_fin by auto. eexists. split; [reflexivity|]. split. apply sqrt_pos.
    rewrite <- Rsqr_pow2, Rsqr_sqrt by auto. unfold MSH_RSUN2, RSUN_KM, SUN_KM. field. lra. }
  split; [auto|split].
  - intros. unfold spot_radius. rewrite Ha, nmul_fin, ndiv_fin by lra. unfold nsqrt.
    assert (a * (MSH_RSUN2 * RSUN_KM^2) / PI < 0) by (rewrite E; nra).
    rdec; auto; lra.
  - intros th A0 Hth. destruct (P A0) as [r [H1 [H2 H3]]]. exists r. split; auto.
    unfold spot_angular_radius in Hth. rewrite Ha, nmul_fin, ndiv_fin, nsub_fin in Hth by lra.
    unfold nacos in Hth. revert Hth. set (x := 1 - _). intros Hth.
    assert (B : -1 <= x <= 1 /\ th = acos x).
    { repeat match type of Hth with context [Rle_dec ?u ?v] => destruct (Rle_dec u v) | context [Rlt_dec ?u ?v] => destruct (Rlt_dec u v) end; try discriminate;
      injection Hth as <-; split; auto; lra. }
    destruct B as [B ->]. rewrite cos_acos by lra. unfold x, MSH_RSUN2.
    assert (r^2 = a * (2 * SUN_KM^2 / 1000000)). { apply (Rmult_eq_reg_l PI); [|lra]. rewrite H3. field. }
    rewrite H. field. lra.
Qed.

(** ** arrays shaped like the grid, as functions of the index pair *)
Definition ia (g : grid) : arr (nat * nat) :=
  mkArr (g_2d g) (map (fun j => map (pair j) (seq 0 (g_cols g))) (seq 0 (g_rows g))).
Lemma ia_shape : forall g, has_shape (ia g) (g_2d g) (g_rows g) (g_cols g).
Proof.
  intros. unfold ia, has_shape. cbn [a2d arows]. split; auto. split. rewrite map_length, seq_length; auto.
  intros r I. apply in_map_iff in I. destruct I as [j [<- _]]. rewrite map_length, seq_length; auto.
Qed.
Lemma acell_ia : forall g A (f : nat * nat -> A) j i d, (j < g_rows g)%nat -> (i < g_cols g)%nat ->
  acell (amap f (ia g)) j i d = f (j, i).
Proof.
  intros. rewrite (acell_amap_shape _ _ f (ia g) _ _ _ j i d (0, 0)%nat (ia_shape g)) by auto. f_equal.
  unfold acell, ia. cbn [arows]. rewrite (nth_indep _ [] (map (pair 0%nat) (seq 0 (g_cols g)))) by (rewrite map_length, seq_length; auto).
  rewrite (map_nth (fun j => map (pair j) (seq 0 (g_cols g))) (seq 0 (g_rows g)) 0%nat j).
  rewrite seq_nth by auto. cbn [plus]. rewrite (nth_indep _ (0,0)%nat (j, 0)%nat) by (rewrite map_length, seq_length; auto).
  rewrite map_nth, seq_nth by auto. auto.
Qed.
Lemma shaped_ia : forall g A (a : arr A) d, grid_shaped g a -> a = amap (fun ji => acell a (fst ji) (snd ji) d) (ia g).
Proof.
  intros g A a d [b [r [c [H1 H2]]]]. destruct (grid_points_shape g) as [S1 [S2 S3]].
  assert (has_shape a (g_2d g) (g_rows g) (g_cols g) \/ g_rows g = 0%nat).
  { destruct (g_rows g) eqn:Eg; auto. left. destruct H1 as [B1 [B2 B3]]. destruct H2 as [C1 [C2 C3]].
    assert (r = S n) by lia. assert (c = g_cols g).
    { destruct (arows (grid_points g)) as [|x t] eqn:Ex. simpl in S2. lia. rewrite <- (B3 x) by (left; auto). apply S3. left; auto. }
    split; [congruence|]. split; [congruence|]. intros x I. rewrite (C3 x I). auto. }
  destruct H as [H|H].
  - apply (arr_ext _ _ _ d _ _ _ H). apply has_shape_amap. apply ia_shape. intros. rewrite acell_ia by auto. auto.
  - destruct H1 as [B1 [B2 B3]]. destruct H2 as [C1 [C2 C3]]. destruct a as [ta la]. cbn [a2d arows] in *.
    unfold amap, ia. cbn [a2d arows]. rewrite H. cbn [seq map]. rewrite H in S2. f_equal. congruence.
    destruct la; auto. simpl in C2. lia.
Qed.
Lemma points_ia : forall g, grid_points g = amap (pt g) (ia g).
Proof.
  intros. apply (arr_ext _ _ _ (0,0) _ _ _ (grid_points_shape g)). apply has_shape_amap. apply ia_shape.
  intros. rewrite acell_ia by auto. auto.
Qed.

(** ** C67 *)
Definition nearb (f : facula) (Rkm : R) (p : R * R) : bool :=
  nle (Fin (acos (law_cos (fc_lat f) (fc_lon f) (fst p) (snd p)))) (nmul (fac_angular_radius f Rkm) (Fin (PI/180))).
Lemma nearb_spec : forall g f Rkm j i, 0 < Rkm -> is_fin (fc_radius f) ->
  (nearb f Rkm (pt g (j, i)) = true <-> fac_near g f Rkm j i).
Proof.
  intros g f Rkm j i H [r Hr]. unfold nearb, fac_angular_radius. rewrite Hr. pose proof PI_RGT_0.
  rewrite !ndiv_fin, !nmul_fin, !ndiv_fin, !nmul_fin by lra. rewrite nle_fin.
  replace (r / Rkm * 180 / PI * (PI / 180)) with (r / Rkm) by (field; lra).
  set (p := pt g (j, i)).
  assert (A : is_angle (fc_lat f) (fc_lon f) (pix_lat g j i) (pix_lon g j i)
                (acos (law_cos (fc_lat f) (fc_lon f) (fst p) (snd p)))).
  { split. apply acos_bound. rewrite cos_acos by apply law_cos_bound. rewrite law_cos_dot. reflexivity. }
  unfold fac_near. split.
  - intros L. eexists. exists r. split; [apply A|]. split; auto.
  - intros [a [r' [B [C D]]]]. assert (r' = r) by congruence. subst r'. rewrite (is_angle_unique _ _ _ _ _ _ A B). auto.
Qed.
Fixpoint lastidx (k : Z) (l : list facula) (h : facula -> bool) (z : Z) : Z :=
  match l with [] => z | f :: t => lastidx (k + 1) t h (if h f then (k + 1)%Z else z) end.
Fixpoint lastidx16 (k : Z) (l : list facula) (h : facula -> bool) (z : Z) : Z :=
  match l with [] => z | f :: t => lastidx16 (k + 1) t h (if h f then int16 (k + 1) else z) end.
Lemma lastidx16_eq : forall h l k z, lastidx16 k l h (int16 z) = int16 (lastidx k l h z).
Proof. induction l as [|f l IH]; intros; cbn [lastidx16 lastidx]; auto. destruct (h f); apply IH. Qed.
Lemma int16_small : forall z, (-32768 <= z < 32768)%Z -> int16 z = z.
Proof. intros. unfold int16. rewrite Z.mod_small; lia. Qed.
Lemma int16_spec : forall z, exists q, (int16 z = z + 65536 * q)%Z /\ (-32768 <= int16 z < 32768)%Z.
Proof.
  intros. unfold int16. pose proof (Z.mod_pos_bound (z + 32768) 65536 ltac:(lia)). pose proof (Z.div_mod (z + 32768) 65536 ltac:(lia)).
  exists (- ((z + 32768) / 65536))%Z. lia.
Qed.
Lemma int_map_eq : forall g Rkm T P l k F, (forall f, In f l -> fc_grid f = g) ->
  fcc_int_map k l (amap P (ia g)) Rkm T (amap F (ia g))
  = Ok (amap (fun ji => lastidx16 k l (fun f => nearb f Rkm (pt g ji) && neq (P ji) T)%bool (F ji)) (ia g)).
Proof.
  induction l as [|f l IH]; intros k F H; cbn [fcc_int_map lastidx16]. reflexivity.
  assert (E : fac_map_pixels f Rkm = amap (fun ji => nearb f Rkm (pt g ji)) (ia g)).
  { unfold fac_map_pixels, fac_r. rewrite amap_amap, (H f) by (left; auto). rewrite points_ia, amap_amap.
    apply amap_ext. intros p. rewrite haversine_eq. auto. }
  rewrite E, amap_amap, amap2_amap. cbn [bind]. rewrite zip_same_amap. cbn [bind]. rewrite amap_amap, IH.
  - f_equal.
  - intros; apply H; right; auto.
Qed.
Lemma lastidx_spec : forall h l k z, let v := lastidx k l h z in
  ((forall f, In f l -> h f = false) -> v = z)
  /\ (forall n f, nth_error l n = Some f -> h f = true ->
        (forall n' f', (n < n')%nat -> nth_error l n' = Some f' -> h f' = false) -> v = (k + Z.of_nat n + 1)%Z).
Proof.
  induction l as [|f l IH]; intros k z; cbn [lastidx]; cbv zeta.
  - split; auto. intros [|n] f H; discriminate.
  - destruct (IH (k + 1)%Z (if h f then (k + 1)%Z else z)) as [IH1 IH2]. split.
    + intros Hf. rewrite IH1. rewrite (Hf f) by (left; auto). auto. intros; apply Hf; right; auto.
    + intros [|n] f' H Hh Hl.
      * cbn in H. injection H as <-. rewrite Hh in *. rewrite IH1. lia.
        intros f'' I. apply In_nth_error in I. destruct I as [n I]. apply (Hl (S n) f''). lia. auto.
      * cbn in H. rewrite (IH2 n f'); auto. lia. intros n' f'' L E. apply (Hl (S n')). lia. auto.
Qed.
Lemma last_exists : forall (h : facula -> bool) l, (forall f, In f l -> h f = false) \/
  exists n f, nth_error l n = Some f /\ h f = true /\ forall n' f', (n < n')%nat -> nth_error l n' = Some f' -> h f' = false.
Proof.
  induction l as [|f l [IH|[n [f' [A [B C]]]]]].
  - left. intros f [].
  - destruct (h f) eqn:E.
    + right. exists 0%nat, f. split; auto. split; auto. intros [|n'] f' L H; [lia|]. cbn in H. apply IH. apply nth_error_In in H. auto.
    + left. intros x [<-|I]; auto.
  - right. exists (S n), f'. split; auto. split; auto. intros [|n'] f'' L H; [lia|]. apply (C n'); auto. lia.
Qed.
Lemma C67_any_lemma : forall c P Rkm T, 0 < Rkm ->
  (forall f, In f (fcc_facs c) -> fc_grid f = fcc_grid c /\ is_fin (fc_radius f)) -> grid_shaped (fcc_grid c) P ->
  let marks f j i := fac_near (fcc_grid c) f Rkm j i /\ acell P j i NaN = Fin T in
  exists m d, fcc_map_pixels c P Rkm (Fin T) = Ok (m, d) /\ grid_shaped (fcc_grid c) m
    (* the dictionary sends index k to the number k+1 *)
    /\ map fst d = seq 0 (length (fcc_facs c)) /\ (forall k v, In (k, v) d -> v = S k)
    (* the map holds the 16 lowest bits of the number *)
    /\ forall j i, pixel (fcc_grid c) j i ->
        ((forall f, In f (fcc_facs c) -> ~ marks f j i) -> acell m j i (-1)%Z = 0%Z)
        /\ forall k f, nth_error (fcc_facs c) k = Some f -> marks f j i ->
             (forall k' f', (k < k')%nat -> nth_error (fcc_facs c) k' = Some f' -> ~ marks f' j i) ->
             (-32768 <= acell m j i (-1) < 32768)%Z /\ exists q, (acell m j i (-1) = Z.of_nat (S k) + 65536 * q)%Z.
Proof.
  intros c P Rkm T HR HF HP marks. set (g := fcc_grid c) in *.
  set (h := fun ji f => (nearb f Rkm (pt g ji) && neq (acell P (fst ji) (snd ji) NaN) (Fin T))%bool).
  exists (amap (fun ji => lastidx16 0 (fcc_facs c) (h ji) 0%Z) (ia g)), (map (fun i => (i, S i)) (seq 0 (length (fcc_facs c)))).
  split; [|split; [|split; [|split]]].
  - unfold fcc_map_pixels. fold g. rewrite grid_zeros_eq, amap_amap, points_ia, amap_amap.
    rewrite (shaped_ia g _ P NaN HP) at 1. rewrite (int_map_eq g). reflexivity. intros f I. apply HF; auto.
  - exists (g_2d g), (g_rows g), (g_cols g). split. apply grid_points_shape. apply has_shape_amap. apply ia_shape.
  - rewrite map_map. cbn [fst]. apply map_id.
  - intros k v I. apply in_map_iff in I. destruct I as [x [E _]]. congruence.
  - intros j i Hp. apply pixel_iff in Hp. destruct Hp as [Hj Hi]. rewrite acell_ia by auto.
    change (lastidx16 0 (fcc_facs c) (h (j, i)) 0) with (lastidx16 0 (fcc_facs c) (h (j, i)) (int16 0)). rewrite lastidx16_eq.
    assert (HM : forall f, In f (fcc_facs c) -> (h (j, i) f = true <-> marks f j i)).
    { intros f I. unfold h, marks. rewrite andb_true_iff, nearb_spec by (auto; apply HF; auto). cbn [fst snd].
      assert (Q : neq (acell P j i NaN) (Fin T) = true <-> acell P j i NaN = Fin T).
      { destruct (acell P j i NaN) as [x| | |]; try (split; intros; discriminate). rewrite neq_fin. split; congruence. }
      rewrite Q. tauto. }
    destruct (lastidx_spec (h (j, i)) (fcc_facs c) 0%Z 0%Z) as [L1 L2].
    set (v := lastidx 0 (fcc_facs c) (h (j, i)) 0%Z) in *. cbv zeta in L1, L2.
    assert (HF' : forall f, In f (fcc_facs c) -> ~ marks f j i -> h (j, i) f = false).
    { intros f I N. apply not_true_is_false. rewrite HM; auto. }
    split.
    + intros N. rewrite L1. reflexivity. intros; apply HF'; auto.
    + intros k f E M N. rewrite (L2 k f E). 2:{ apply HM; auto. eapply nth_error_In; eauto. }
      2:{ intros k' f' L E'. apply HF'. eapply nth_error_In; eauto. eapply N; eauto. }
      destruct (int16_spec (0 + Z.of_nat k + 1)) as [q [E1 E2]]. split; auto. exists q. lia.
Qed.
Lemma C67_lemma : forall c P Rkm T, 0 < Rkm ->
  (forall f, In f (fcc_facs c) -> fc_grid f = fcc_grid c /\ is_fin (fc_radius f)) -> grid_shaped (fcc_grid c) P ->
  (Z.of_nat (length (fcc_facs c)) <= 32767)%Z ->
  let marks f j i := fac_near (fcc_grid c) f Rkm j i /\ acell P j i NaN = Fin T in
  exists m d, fcc_map_pixels c P Rkm (Fin T) = Ok (m, d) /\ grid_shaped (fcc_grid c) m
    (* the dictionary sends index k to the number k+1 *)
    /\ map fst d = seq 0 (length (fcc_facs c)) /\ (forall k v, In (k, v) d -> v = S k)
    /\ forall j i, pixel (fcc_grid c) j i ->
        (acell m j i (-1)%Z = 0%Z <-> forall f, In f (fcc_facs c) -> ~ marks f j i)
        /\ forall k, acell m j i (-1)%Z = Z.of_nat (S k) <->
             exists f, nth_error (fcc_facs c) k = Some f /\ marks f j i
               /\ forall k' f', (k < k')%nat -> nth_error (fcc_facs c) k' = Some f' -> ~ marks f' j i.
Proof.
  intros c P Rkm T HR HF HP HL marks. destruct (C67_any_lemma c P Rkm T HR HF HP) as [m [d [E [Sh [D1 [D2 C]]]]]].
  exists m, d. repeat (split; [assumption|]). intros j i Hp. destruct (C j i Hp) as [C1 C2]. fold (marks) in C1, C2. cbv zeta in *.
  assert (dec : forall f, In f (fcc_facs c) -> marks f j i \/ ~ marks f j i).
  { intros f I. assert (Q : acell P j i NaN = Fin T \/ acell P j i NaN <> Fin T).
    { destruct (acell P j i NaN) as [x| | |]; try (right; discriminate). destruct (Req_dec x T) as [->|]; [left; auto|right; congruence]. }
    pose proof (nearb_spec (fcc_grid c) f Rkm j i HR (proj2 (HF f I))) as X. unfold marks. destruct (nearb f Rkm (pt (fcc_grid c) (j, i))).
    - destruct Q as [Q|Q]; [left; split; auto; apply X; auto|right; tauto].
    - right. intros [Y _]. apply X in Y. discriminate. }
  assert (LE : (forall f, In f (fcc_facs c) -> ~ marks f j i) \/ exists k f, nth_error (fcc_facs c) k = Some f /\ marks f j i
    /\ forall k' f', (k < k')%nat -> nth_error (fcc_facs c) k' = Some f' -> ~ marks f' j i).
  { revert dec. generalize (fcc_facs c). intros l dec. assert (IHd : forall f, In f l -> marks f j i \/ ~ marks f j i) by auto. clear dec. induction l as [|f l IHl]; [left; intros f []|]. destruct IHl as [IH|[n [f' [A [B C']]]]]; [intros; apply IHd; right; auto| |].
    - destruct (IHd f (or_introl eq_refl)) as [M|M].
      + right. exists 0%nat, f. split; auto. split; auto. intros [|n'] f' L H; [lia|]. cbn in H. apply IH. apply nth_error_In in H. auto.
      + left. intros x [<-|I]; auto.
    - right. exists (S n), f'. split; auto. split; auto. intros [|n'] f'' L H; [lia|]. apply (C' n'); auto. lia. }
  assert (V : forall k f, nth_error (fcc_facs c) k = Some f -> marks f j i ->
     (forall k' f', (k < k')%nat -> nth_error (fcc_facs c) k' = Some f' -> ~ marks f' j i) -> acell m j i (-1)%Z = Z.of_nat (S k)).
  { intros k f A B N. destruct (C2 k f A B N) as [R [q Q]]. assert ((k < length (fcc_facs c))%nat) by (apply nth_error_Some; congruence). lia. }
  destruct LE as [N|[n [f [A [B N]]]]].
  - rewrite (C1 N). split. tauto. intros k. split; [lia|]. intros [f [X [Y _]]]. exfalso. apply (N f); auto. eapply nth_error_In; eauto.
  - rewrite (V n f A B N). split.
    + split; [lia|]. intros K. exfalso. apply (K f); auto. eapply nth_error_In; eauto.
    + intros k. split.
      * intros E'. assert (k = n) by lia. subst k. eauto.
      * intros [f' [A' [B' N']]]. destruct (Nat.lt_trichotomy k n) as [L|[->|L]]; auto; exfalso. apply (N' n f L A B). apply (N k f' L A' B').
Qed.

(** ** C68 *)
Lemma same_spot_refl : forall s, same_spot s s.
Proof. intros. unfold same_spot. repeat split. Qed.
Lemma same_fac_refl : forall s, same_fac s s.
Proof. intros. unfold same_fac. repeat split. Qed.
Lemma Forall2_map_r : forall A B (P : A -> B -> Prop) (f : A -> B) l, (forall x, P x (f x)) -> Forall2 P l (map f l).
Proof. induction l; simpl; constructor; auto. Qed.
Lemma C68_init_lemma : forall teff radius period spots facs gp flg spg fcg gran u1 u2,
  (forall e, grid_new gp = Raise e -> star_init teff radius period spots facs gp flg spg fcg gran u1 u2 = Raise e)
  /\ forall g, grid_new gp = Ok g -> exists s,
  star_init teff radius period spots facs gp flg spg fcg gran u1 u2 = Ok s
  /\ st_teff s = teff /\ st_radius s = radius /\ st_period s = period /\ st_u1 s = u1 /\ st_u2 s = u2
  /\ st_grid s = g /\ st_flares s = None
  /\ Forall2 same_spot (sc_spots spots) (sc_spots (st_spots s))
  /\ Forall2 same_fac (fcc_facs facs) (fcc_facs (st_facs s))
  /\ (forall x, flg = Some x -> st_flaregen s = x) /\ (forall x, gran = Some x -> st_gran s = x)
  /\ (forall x, spg = Some x -> same_spotgen x (st_spotgen s))
  /\ (forall x, fcg = Some x -> same_facgen x (st_facgen s))
  (* left out: nothing is generated *)
  /\ (flg = None -> forall time n d, generate_flare_series (st_flaregen s) time n d = Ok [])
  /\ (spg = None -> sg_coverage (st_spotgen s) = Fin 0) /\ (fcg = None -> fg_coverage (st_facgen s) = Fin 0)
  /\ (gran = None -> gr_dteff (st_gran s) = Fin 0).
Proof.
  intros. unfold star_init. split. intros e ->. reflexivity. intros g ->. cbn [bind]. eexists. split; [reflexivity|].
  cbn [st_teff st_radius st_period st_u1 st_u2 st_grid st_flares st_spots st_facs st_flaregen st_gran st_spotgen st_facgen].
  split; [auto|]. split; [auto|]. split; [auto|]. split; [auto|]. split; [auto|]. split; [auto|]. split; [auto|].
  split. { unfold set_spot_grid, sc_set_gridmaker. cbn [sc_spots]. rewrite map_map. apply Forall2_map_r. intros. unfold same_spot. repeat split. }
  split. { unfold set_fac_grid, fcc_set_gridmaker. cbn [fcc_facs]. rewrite map_map. apply Forall2_map_r. intros. unfold same_fac. repeat split. }
  split. intros x ->; auto. split. intros x ->; auto.
  split. { intros x ->. unfold adopt_grid. destruct (grid_ne _ _) as [[|]|[]]; unfold same_spotgen; repeat split. }
  split. { intros x ->. unfold adopt_grid. destruct (grid_ne _ _) as [[|]|[]]; unfold same_facgen; repeat split. }
  split. { intros -> time n d. apply C44_off_lemma. }
  split. intros ->; auto. split; intros ->; auto.
Qed.
Lemma C68_lemma : forall s, star_unified s ->
  (* age: spots and faculae, by the same time *)
  (forall t, match sc_age (st_spots s) t with
             | Ok c => exists s', star_age s t = Ok s' /\ same_body s s' /\ st_flares s' = st_flares s
                         /\ st_spots s' = c /\ st_facs s' = fcc_age (st_facs s) t
             | Raise e => star_age s t = Raise e end)
  (* adding by hand *)
  /\ (forall l, (forall x, In x l -> spot_on (st_grid s) x) -> let s' := star_add_spot s l in
        same_body s s' /\ st_flares s' = st_flares s /\ st_facs s' = st_facs s
        /\ sc_spots (st_spots s') = sc_spots (st_spots s) ++ l)
  /\ (forall l s', star_add_fac s l = Ok s' ->
        same_body s s' /\ st_flares s' = st_flares s /\ st_spots s' = st_spots s
        /\ exists l', fcc_facs (st_facs s') = fcc_facs (st_facs s) ++ l' /\ Forall2 same_fac l l')
  (* the generators' products, made for this star's radius, are appended *)
  /\ (forall t n d fuel, match sg_birth (st_spotgen s) t (st_radius s) n d fuel with
        | Ok l => exists s', star_birth_spots s t n d fuel = Ok s' /\ same_body s s' /\ st_flares s' = st_flares s
                    /\ st_facs s' = st_facs s /\ sc_spots (st_spots s') = sc_spots (st_spots s) ++ l
        | Raise e => star_birth_spots s t n d fuel = Raise e end)
  /\ (forall c d rf fuel, match sg_generate_mature (st_spotgen s) c (st_radius s) d rf fuel with
        | Ok l => exists s', star_mature_spots s c d rf fuel = Ok s' /\ same_body s s' /\ st_flares s' = st_flares s
                    /\ st_facs s' = st_facs s /\ sc_spots (st_spots s') = sc_spots (st_spots s) ++ l
        | Raise e => star_mature_spots s c d rf fuel = Raise e end)
  /\ (forall t n d, match fg_birth (st_facgen s) t (st_radius s * SUN_KM) n d with
        | Ok l => exists s', star_birth_faculae s t n d = Ok s' /\ same_body s s' /\ st_flares s' = st_flares s
                    /\ st_spots s' = st_spots s /\ fcc_facs (st_facs s') = fcc_facs (st_facs s) ++ l
        | Raise e => star_birth_faculae s t n d = Raise e end)
  (* flares replace those of the previous call *)
  /\ (forall t n d, match generate_flare_series (st_flaregen s) t n d with
        | Ok l => exists s', star_get_flares s t n d = Ok s' /\ same_body s s'
                    /\ st_spots s' = st_spots s /\ st_facs s' = st_facs s /\ st_flares s' = Some (flc_init l)
        | Raise e => star_get_flares s t n d = Raise e end).
Proof.
  intros s U. pose proof U as [A [B [C [D [E F]]]]].
  assert (Add : forall l, (forall x, In x l -> spot_on (st_grid s) x) ->
     sc_spots (st_spots (star_add_spot s l)) = sc_spots (st_spots s) ++ l).
  { intros l Hl. unfold star_add_spot, star_with_spots, sc_add_spot. cbn [st_spots sc_spots]. f_equal.
    rewrite <- (map_id l) at 2. apply map_ext_in. intros x I. rewrite A. apply assign_on; auto. }
  assert (Body : forall l, same_body s (star_add_spot s l)) by (intros; unfold same_body; repeat split).
  split; [|split; [|split; [|split; [|split; [|split]]]]].
  - intros t. unfold star_age. destruct (sc_age (st_spots s) t) as [c|e]; cbn [bind]; auto.
    eexists. split; [reflexivity|]. split. unfold same_body; repeat split. split; auto.
  - intros l Hl s'. split; [apply Body|]. split; [reflexivity|]. split; [reflexivity|]. apply Add; auto.
  - intros l s' H. unfold star_add_fac in H. apply bind_ok in H. destruct H as [c [Hc H]]. injection H as <-.
    split. unfold same_body; repeat split. split; auto. split; auto. cbn [st_facs star_with_facs].
    unfold fcc_add in Hc. apply bind_ok in Hc. destruct Hc as [l' [Hl Hc]]. injection Hc as <-. cbn [fcc_facs].
    exists l'. split; auto. apply mapM_inv in Hl. clear - Hl. induction Hl; constructor; auto.
    apply bind_ok in H. destruct H as [b [_ H]]. injection H as <-. destruct b; unfold same_fac; repeat split.
  - intros t n d fuel. unfold star_birth_spots. destruct (sg_birth _ _ _ _ _ _) as [l|e] eqn:H; cbn [bind]; auto.
    eexists. split; [reflexivity|]. split; [apply Body|]. split; auto. split; auto. apply Add.
    rewrite <- E. eapply sg_birth_on; eauto.
  - intros c d rf fuel. unfold star_mature_spots. destruct (sg_generate_mature _ _ _ _ _ _) as [l|e] eqn:H; cbn [bind]; auto.
    eexists. split; [reflexivity|]. split; [apply Body|]. split; auto. split; auto. apply Add.
    rewrite <- E. unfold sg_generate_mature in H. destruct (_ || _); [discriminate|]. eapply mature_loop_on; eauto.
  - intros t n d. unfold star_birth_faculae. change RSUN_KM with SUN_KM.
    destruct (fg_birth _ _ _ _ _) as [l|e] eqn:H; cbn [bind]; auto.
    assert (Gl : forall f, In f l -> fc_grid f = fcc_grid (st_facs s)).
    { unfold fg_birth in H. apply bind_ok in H. destruct H as [k [_ H]]. injection H as <-. intros f I.
      rewrite B, <- F. unfold fg_generate in I. apply in_map_iff in I. destruct I as [i [<- _]]. reflexivity. }
    unfold star_add_fac, fcc_add.
    assert (M : mapM (fun f => do same <- grid_eq (fc_grid f) (Some (fcc_grid (st_facs s))) ;;
                 Ok (if same then f else fac_assign_grid f (fcc_grid (st_facs s)))) l = Ok l).
    { clear - Gl. induction l as [|f l IH]; auto. cbn [mapM]. rewrite (Gl f) by (left; auto).
      rewrite IH by (intros; apply Gl; right; auto). destruct (fcc_grid (st_facs s)); cbn; rewrite ?Nat.eqb_refl; reflexivity. }
    rewrite M. cbn [bind]. eexists. split; [reflexivity|]. split. unfold same_body; repeat split. split; auto.
  - intros t n d. unfold star_get_flares. destruct (generate_flare_series _ _ _ _) as [l|e]; cbn [bind]; auto.
    eexists. split; [reflexivity|]. split. unfold same_body; repeat split. split; auto.
Qed.
