(** Lemmas for C110-C111: the report in double precision *)
From Coq Require Import Reals ZArith Bool List Lra Lia Sorted Permutation Classical FunctionalExtensionality.
From Verif Require Import Num Py MConfig MHelpers MGrid MSpots MFaculae MXoflares MFlares MGranules MStar MSingle MDouble
  Spec SpecStar SpecDisk SpecSingle SpecDouble LBase LGrid LSpotMap LSpotCov LStar LDisk LStarFac LStarCov LSym LTransit LSingle LSingleRep LReport
  LDouble LDoubleSum.
Import ListNotations.
Open Scope R_scope.

(** ** the weights *)
Definition wa (l p : nat -> R) (i : nat) : R := f64_round (l i * p i).
Definition wb (l p c : nat -> R) (i : nat) : R := f64_round (wa l p i * c i).
Lemma v1024 : f64_value 1024.
Proof. apply (f64_whole 1024). simpl. lia. Qed.
Lemma wa_range : forall n l p c i, weights64 n l p c -> (i < n)%nat -> f64_value (wa l p i) /\ 0 <= wa l p i <= 1024.
Proof.
  intros n l p c i W I. destruct (W i I) as [[_ L] [[_ P] _]]. split. apply f64_round_value. split. apply rnd_pos; nra.
  rewrite <- (f64_round_id 1024) by apply v1024. apply f64_round_mono. nra.
Qed.
Lemma wb_range : forall n l p c i, weights64 n l p c -> (i < n)%nat -> f64_value (wb l p c i) /\ 0 <= wb l p c i <= wa l p i.
Proof.
  intros n l p c i W I. destruct (wa_range _ _ _ _ _ W I) as [V A]. destruct (W i I) as [_ [_ [_ C]]]. split. apply f64_round_value. split. apply rnd_pos; nra.
  rewrite <- (f64_round_id (wa l p i)) by auto. apply f64_round_mono. nra.
Qed.
Definition pick (t w : nat -> R) (x : R) (i : nat) : R := if Req_EM_T (t i) x then w i else 0.
Lemma leaves_lt : forall o n h i, adds o n h -> In i (leaves o) -> (i < n)%nat.
Proof. intros o n h i [P _] I. apply (Permutation_in _ P) in I. apply in_seq in I. lia. Qed.
Lemma leaves_sum : forall o n h (f : nat -> R), adds o n h -> rsum (map f (leaves o)) = rsum (map f (seq 0 n)).
Proof. intros o n h f [P _]. apply rsum_perm, Permutation_map; auto. Qed.
Lemma pow2_le : forall h, INR h <= 2 ^ 48 -> (1 + u64) ^ h <= 2.
Proof.
  intros h H. pose proof u64_pos. assert (INR h <= 2 ^ 49). { simpl in *. lra. } destruct (growth h H1) as [_ G]. 
  assert ((1 + u64) ^ h <= hi64 ^ h) by (apply pow_incr; unfold hi64; lra). assert (4 * INR h * u64 <= 1). { unfold u64. simpl in H. lra. } lra.
Qed.
Lemma sum_bound : forall o n h f, adds o n h -> INR n <= 2 ^ 1000 -> INR h <= 2 ^ 48 -> (forall i, (i < n)%nat -> 0 <= f i <= 1024) ->
  0 <= rsum (map f (leaves o)) /\ (1 + u64) ^ h * rsum (map f (leaves o)) <= powerRZ 2 1023.
Proof.
  intros o n h f A N H F. rewrite (leaves_sum _ _ _ _ A).
  assert (S0 : 0 <= rsum (map f (seq 0 n))). { apply rsum_map_nonneg. intros i I. apply in_seq in I. apply F. lia. }
  assert (S1 : rsum (map f (seq 0 n)) <= INR n * 1024). { rewrite <- (seq_length n 0) at 2. rewrite <- (rsum_map_const _ 1024 (seq 0 n)). apply rsum_map_le. intros i I. apply in_seq in I. apply F. lia. }
  split; auto. pose proof (pow2_le h H) as P. pose proof (pow_R1_Rle (1 + u64) h ltac:(pose proof u64_pos; lra)).
  assert (E : 2 ^ 1000 * 2048 <= powerRZ 2 1023). { replace 2048 with (powerRZ 2 11) by (rewrite p2_Z by lia; reflexivity). rewrite pow_powerRZ. rewrite <- p2_add. apply p2_le. lia. }
  set (z := 2 ^ 1000) in *. nra.
Qed.
Lemma sum64_fin : forall ord n h f (P : arr nat) (F : nat -> num), cells P = seq 0 n -> adds (ord n) n h -> INR n <= 2 ^ 1000 -> INR h <= 2 ^ 48 ->
  (forall i, (i < n)%nat -> F i = Fin (f i)) -> (forall i, (i < n)%nat -> f64_value (f i) /\ 0 <= f i <= 1024) ->
  sum64 ord (cells (amap F P)) = Fin (rtree (ord n) f).
Proof.
  intros ord n h f P F EP A N H EF HF. rewrite cells_amap, EP. assert (NN : (0 < n)%nat).
  { destruct n; [|lia]. destruct A as [PE _]. exfalso. destruct (ord 0%nat) as [i|a b]; cbn [leaves seq] in PE.
    - apply Permutation_sym, Permutation_nil in PE. discriminate.
    - apply Permutation_sym, Permutation_nil in PE. clear - PE. revert b PE. induction a as [i|a1 IH a2 _]; intros b PE; cbn [leaves] in PE. discriminate. rewrite <- app_assoc in PE. apply (IH (SNode a2 b)). auto. }
  destruct (map F (seq 0 n)) as [|y r] eqn:E. { destruct n; [lia|discriminate]. }
  unfold sum64. rewrite <- E, map_length, seq_length.
  apply (sum_tree_fin _ f h).
  - intros i I. apply (leaves_lt _ _ _ _ A) in I. destruct (HF i I) as [? [? ?]]. auto.
  - intros i I. apply (leaves_lt _ _ _ _ A) in I. rewrite <- EF by auto. rewrite (nth_indep _ NaN (F 0%nat)) by (rewrite map_length, seq_length; auto). rewrite map_nth, seq_nth by auto. auto.
  - apply A.
  - apply (sum_bound _ n); auto. intros i I. apply HF; auto.
Qed.
Lemma big1023 : 2 ^ 20 <= powerRZ 2 1023.
Proof. rewrite pow_powerRZ. apply p2_le. lia. Qed.
Lemma mul_fin : forall x y, 0 <= x * y <= 2 ^ 20 -> mul64 (Fin x) (Fin y) = Fin (f64_round (x * y)).
Proof. intros x y H. unfold mul64. rewrite nmul_fin. apply f64_fin_pos. pose proof big1023. lra. Qed.
Lemma rnd0 : f64_round 0 = 0.
Proof. apply f64_round_id, f64_zero. Qed.

(** ** the loop *)
Definition kf (t : R) : tkey := fmt2 (Fin t).
Definition val64 (o : sumtree) (t w w0 : nat -> R) (x : R) : R := f64_round (rtree o (pick t w x) / rtree o w0).
Lemma pick_range : forall n t w x, (forall i, (i < n)%nat -> f64_value (w i) /\ 0 <= w i <= 1024) -> forall i, (i < n)%nat -> f64_value (pick t w x i) /\ 0 <= pick t w x i <= 1024.
Proof. intros n t w x H i I. unfold pick. destruct (Req_EM_T _ _); auto. split. apply f64_zero. lra. Qed.
Lemma tree_pos : forall o n h f, adds o n h -> (forall i, (i < n)%nat -> f64_value (f i) /\ 0 <= f i) -> 0 <= rtree o f.
Proof. intros o n h f A F. apply (rtree_bounds o f (depth o)); auto. intros i I. apply F. eapply leaves_lt; eauto. Qed.
Lemma tree_strict : forall o n h f, adds o n h -> (forall i, (i < n)%nat -> f64_value (f i) /\ 0 <= f i) -> (exists i, (i < n)%nat /\ 0 < f i) -> 0 < rtree o f.
Proof.
  intros o n h f A F [i [I P]]. destruct (rtree_bounds o f (depth o)) as [_ [_ [L _]]]; auto. { intros j J. apply F. eapply leaves_lt; eauto. }
  eapply Rlt_le_trans; [|exact L]. apply Rmult_lt_0_compat. apply pow_lt. pose proof u64_small. pose proof u64_pos. lra.
  rewrite (leaves_sum _ _ _ _ A). apply (rsum_map_pos _ _ _ i); auto. intros j J. apply in_seq in J. apply F. lia. apply in_seq. lia.
Qed.
Lemma div_fin : forall x y, 0 <= x <= y -> 0 < y -> div64 (Fin x) (Fin y) = Fin (f64_round (x / y)) /\ 0 <= f64_round (x / y) <= 1.
Proof.
  intros x y X Y. assert (Q : 0 <= x / y <= 1). { split. apply Rmult_le_pos. lra. left. apply Rinv_0_lt_compat; auto. apply (Rmult_le_reg_r y); auto. unfold Rdiv. rewrite Rmult_assoc, Rinv_l; lra. }
  split. unfold div64. rewrite ndiv_fin by lra. apply f64_fin_pos. pose proof big1023. assert (1 <= 2 ^ 20) by (apply pow_R1_Rle; lra). lra.
  split. apply rnd_pos. lra. apply rnd_le1. lra.
Qed.
Lemma loop64_eq : forall ord n h (P : arr nat) l p c t, cells P = seq 0 n -> adds (ord n) n h -> INR n <= 2 ^ 1000 -> INR h <= 2 ^ 48 ->
  weights64 n l p c -> (exists i, (i < n)%nat /\ 0 < wa l p i) -> forall ul d1 d2,
  coverage_loop64 ord (amap (fun i => Fin (t i)) P) (amap (fun i => Fin (l i)) P) (amap (fun i => Fin (p i)) P) (amap (fun i => Fin (c i)) P)
    (Fin (rtree (ord n) (wa l p))) (d1, d2) (map Fin ul)
  = Ok (foldn tkey_eqb kf (val64 (ord n) t (wa l p) (wa l p)) ul d1, foldn tkey_eqb kf (val64 (ord n) t (wb l p c) (wa l p)) ul d2).
Proof.
  intros ord n h P l p c t EP A N H W EX. induction ul as [|x ul IH]; intros d1 d2; auto.
  cbn [map coverage_loop64]. unfold coverage_step64. rewrite amap_amap, amap2_amap. cbn [bind]. rewrite amap2_amap. cbn [bind]. rewrite amap2_amap. cbn [bind fst snd].
  assert (FA : forall i, (i < n)%nat -> mul64 (mul64 (Fin (if neq (Fin (t i)) (Fin x) then 1 else 0)) (Fin (l i))) (Fin (p i)) = Fin (pick t (wa l p) x i)).
  { intros i I. destruct (W i I) as [[VL L] [[VP Pp] _]]. simpl neq. unfold pick, Reqb. destruct (Req_EM_T (t i) x).
    - rewrite mul_fin by (simpl; lra). rewrite Rmult_1_l, f64_round_id by auto. apply mul_fin. simpl. nra.
    - rewrite mul_fin by (simpl; lra). rewrite Rmult_0_l, rnd0. rewrite mul_fin by (simpl; lra). rewrite Rmult_0_l, rnd0. auto. }
  assert (FB : forall i, (i < n)%nat -> mul64 (mul64 (mul64 (Fin (if neq (Fin (t i)) (Fin x) then 1 else 0)) (Fin (l i))) (Fin (p i))) (Fin (c i)) = Fin (pick t (wb l p c) x i)).
  { intros i I. rewrite FA by auto. destruct (W i I) as [_ [_ [_ C]]]. destruct (wa_range _ _ _ _ _ W I) as [_ B]. unfold pick. destruct (Req_EM_T (t i) x).
    apply mul_fin. simpl. nra. rewrite mul_fin by (simpl; lra). rewrite Rmult_0_l, rnd0. auto. }
  rewrite (sum64_fin ord n h (pick t (wa l p) x)); auto. 2:{ apply pick_range. intros i I. eapply wa_range; eauto. }
  assert (RB : forall i, (i < n)%nat -> f64_value (wb l p c i) /\ 0 <= wb l p c i <= 1024).
  { intros i I. destruct (wb_range _ _ _ _ _ W I), (wa_range _ _ _ _ _ W I). split; auto. lra. }
  rewrite (sum64_fin ord n h (pick t (wb l p c) x)); auto. 2:{ apply pick_range. auto. }
  assert (SP : 0 < rtree (ord n) (wa l p)). { eapply tree_strict; eauto. intros i I. destruct (wa_range _ _ _ _ _ W I). split; auto. lra. }
  assert (G : forall w, (forall i, (i < n)%nat -> f64_value (w i) /\ 0 <= w i <= wa l p i) -> 0 <= rtree (ord n) (pick t w x) <= rtree (ord n) (wa l p)).
  { intros w Hw. split. eapply tree_pos; eauto. intros i I. unfold pick. destruct (Req_EM_T _ _). destruct (Hw i I). split; auto. lra. split. apply f64_zero. lra.
    apply rtree_mono. intros i I. apply (leaves_lt _ _ _ _ A) in I. destruct (Hw i I) as [_ Q]. unfold pick. destruct (Req_EM_T _ _); lra. }
  rewrite (proj1 (div_fin _ _ (G (wa l p) ltac:(intros i I; destruct (wa_range _ _ _ _ _ W I); split; auto; lra)) SP)).
  rewrite (proj1 (div_fin _ _ (G (wb l p c) (fun i I => wb_range _ _ _ _ _ W I)) SP)).
  rewrite IH. auto.
Qed.
Definition tot64 o n l p c t T D g : res (dict tkey num) := 
  let gt := f64_round (T - D) in
  let ul := runiq (map t (seq 0 n)) in
  let new := if in_dec Req_EM_T (f32_round gt) ul then false else true in
  granulate64 (basen tkey_eqb kf (val64 o t c (wa l p)) ul new (kf gt)) (kf T) (kf gt) (Fin g).
Lemma gt_fin : forall T D, Rabs (T - D) <= powerRZ 2 127 -> sub64 (Fin T) (Fin D) = Fin (f64_round (T - D)) /\ Rabs (f64_round (T - D)) <= powerRZ 2 127.
Proof.
  intros T D H. assert (L : powerRZ 2 127 <= powerRZ 2 1023) by (apply p2_le; lia). split.
  - unfold sub64. rewrite nsub_fin. apply f64_fin. lra.
  - assert (B : - powerRZ 2 127 <= T - D <= powerRZ 2 127) by (unfold Rabs in H; destruct (Rcase_abs (T - D)); lra).
    pose proof (f64_p2 127 ltac:(lia)) as V. assert (V' : f64_value (- powerRZ 2 127)). { exists (-1)%Z, 127%Z. split. simpl; lia. split. lia. ring. }
    apply Rabs_le. rewrite <- (f64_round_id _ V) at 2. rewrite <- (f64_round_id _ V'). split; apply f64_round_mono; lra.
Qed.
Lemma report64_eq : forall ord n h (P : arr nat) l p c t T D g, cells P = seq 0 n -> adds (ord n) n h -> INR n <= 2 ^ 1000 -> INR h <= 2 ^ 48 ->
  weights64 n l p c -> (exists i, (i < n)%nat /\ 0 < wa l p i) -> Rabs (T - D) <= powerRZ 2 127 ->
  report64 ord (amap (fun i => Fin (t i)) P) (amap (fun i => Fin (l i)) P) (amap (fun i => Fin (p i)) P) (amap (fun i => Fin (c i)) P) (Fin T) (Fin D) (Fin g)
  = do tot <- tot64 (ord n) n l p (wa l p) t T D g ;; do cov <- tot64 (ord n) n l p (wb l p c) t T D g ;; Ok (tot, cov).
Proof.
  intros ord n h P l p c t T D g EP A N H W EX B. unfold report64. rewrite amap2_amap. cbn [bind]. cbv zeta.
  rewrite (sum64_fin ord n h (wa l p)); auto.
  2:{ intros i I. destruct (W i I) as [[_ L] [[_ Pp] _]]. apply mul_fin. simpl. nra. } 2:{ intros i I. eapply wa_range; eauto. }
  rewrite cells_amap, EP, <- (map_map t Fin), nunique_fin. set (ul := runiq (map t (seq 0 n))).
  rewrite (loop64_eq ord n h); auto. cbn [bind]. destruct (gt_fin T D B) as [-> B2]. destruct (f32_fin _ B2) as [-> _].
  set (gt := f64_round (T - D)).
  assert (NEW : negb (existsb (fun y => neq (Fin (f32_round gt)) y) (map Fin ul)) = if in_dec Req_EM_T (f32_round gt) ul then false else true).
  { destruct (in_dec Req_EM_T (f32_round gt) ul) as [I|I].
    - apply negb_false_iff. apply existsb_exists. exists (Fin (f32_round gt)). split. apply in_map; auto. apply neq_fin; auto.
    - apply negb_true_iff. apply existsb_false. intros x J. apply in_map_iff in J. destruct J as [y [<- J]]. apply neq_fin_false. congruence. }
  rewrite NEW. unfold tot64. fold gt ul. cbv zeta. unfold basen, kf. destruct (in_dec Req_EM_T (f32_round gt) ul); auto.
Qed.

(** ** granulation *)
Lemma dset_keys_in : forall K eqb, (forall a b : K, eqb a b = true <-> a = b) -> forall (d : dict K num) k w, In k (map fst d) -> map fst (dset eqb d k w) = map fst d.
Proof.
  intros K eqb SP d k w. induction d as [|[k' v] d IH]; cbn [map fst dset]; intros I. destruct I.
  destruct (eqb k k') eqn:E; cbn [map fst]. apply SP in E. congruence. f_equal. apply IH. destruct I as [<-|I]; auto. rewrite (proj2 (SP k' k') eq_refl) in E. discriminate.
Qed.
Definition gr_phot (p g : R) : R := f64_round (p * f64_round (1 - g)).
Definition gr_gran (q p g : R) : R := f64_round (q + f64_round (p * g)).
Lemma sub_fin1 : forall g, 0 <= g <= 1 -> sub64 (Fin 1) (Fin g) = Fin (f64_round (1 - g)) /\ 0 <= f64_round (1 - g) <= 1.
Proof. intros g G. split. unfold sub64. rewrite nsub_fin. apply f64_fin_pos. pose proof big1023. assert (1 <= 2 ^ 20) by (apply pow_R1_Rle; lra). lra. split. apply rnd_pos; lra. apply rnd_le1; lra. Qed.
Lemma gran64_ok : forall (d : dict tkey num) kT kG g p q, NoDup (map fst d) -> 0 <= g <= 1 -> 0 <= p <= 1 -> 0 <= q <= 1 ->
  dget tkey_eqb d kT = Some (Fin p) -> dget tkey_eqb d kG = Some (Fin q) ->
  exists d', granulate64 d kT kG (Fin g) = Ok d' /\ map fst d' = map fst d
  /\ forall k v, dget tkey_eqb d' k = Some v ->
       (k <> kT -> k <> kG -> dget tkey_eqb d k = Some v) /\ (k = kT -> k <> kG -> v = Fin (gr_phot p g))
       /\ (k <> kT -> k = kG -> v = Fin (gr_gran q p g)) /\ (k = kT -> k = kG -> v = Fin (gr_gran (gr_phot p g) p g)).
Proof.
  intros d kT kG g p q ND G P Q EP EQ. unfold granulate64, dindex. rewrite EP. cbn [bind]. pose proof tkey_eqb_spec as SP. assert (B20 : 2 <= 2 ^ 20) by (simpl; lra). pose proof big1023 as B.
  destruct (sub_fin1 g G) as [-> G1]. rewrite mul_fin by nra. rewrite mul_fin by nra. fold (gr_phot p g).
  assert (F1 : 0 <= gr_phot p g <= 1). { unfold gr_phot. split. apply rnd_pos; nra. apply rnd_le1; nra. }
  assert (F2 : 0 <= f64_round (p * g) <= 1). { split. apply rnd_pos; nra. apply rnd_le1; nra. }
  assert (AD : forall x, 0 <= x <= 1 -> add64 (Fin x) (Fin (f64_round (p * g))) = Fin (gr_gran x p g)). { intros x X. unfold add64. rewrite nadd_fin. apply f64_fin_pos. lra. }
  assert (IT : In kT (map fst d)) by (apply (in_keys_iff _ _ SP); eauto). assert (IG : In kG (map fst d)) by (apply (in_keys_iff _ _ SP); eauto).
  destruct (classic (kT = kG)) as [<-|N].
  - rewrite (dget_dset_same _ SP). cbn [bind]. rewrite AD by auto. eexists. split. reflexivity. split. { rewrite !(dset_keys_in _ _ SP); auto. rewrite (dset_keys_in _ _ SP); auto. }
    intros k v H. destruct (classic (kT = k)) as [<-|N].
    + rewrite (dget_dset_same _ SP) in H. injection H as <-. repeat split; congruence.
    + rewrite !(dget_dset_other _ SP) in H by auto. repeat split; auto; congruence.
  - rewrite (dget_dset_other _ SP), EQ by auto. cbn [bind]. rewrite AD by auto. eexists. split. reflexivity. split. { rewrite !(dset_keys_in _ _ SP); auto. rewrite (dset_keys_in _ _ SP); auto. }
    intros k v H. destruct (classic (kG = k)) as [<-|NG].
    + rewrite (dget_dset_same _ SP) in H. injection H as <-. repeat split; congruence.
    + rewrite (dget_dset_other _ SP) in H by auto. destruct (classic (kT = k)) as [<-|NT].
      * rewrite (dget_dset_same _ SP) in H. injection H as <-. repeat split; congruence.
      * rewrite (dget_dset_other _ SP) in H by auto. repeat split; auto; congruence.
Qed.

(** ** the dictionary *)
Definition exists_weight n l p := exists i : nat, (i < n)%nat /\ 0 < wa l p i.
Definition part64 n l p (v : nat -> R) := forall i : nat, (i < n)%nat -> f64_value (v i) /\ 0 <= v i <= wa l p i.
Lemma part_a : forall n l p c, weights64 n l p c -> part64 n l p (wa l p).
Proof. intros n l p c W i I. destruct (wa_range _ _ _ _ _ W I). split; auto. lra. Qed.
Lemma part_b : forall n l p c, weights64 n l p c -> part64 n l p (wb l p c).
Proof. intros n l p c W i I. eapply wb_range; eauto. Qed.
Lemma val_range : forall o n h l p c t v x, weights64 n l p c -> adds o n h -> exists_weight n l p -> part64 n l p v -> 0 <= val64 o t v (wa l p) x <= 1.
Proof.
  intros o n h l p c t v x W A EX Q. assert (SP : 0 < rtree o (wa l p)). { eapply tree_strict; eauto. intros i I. destruct (wa_range _ _ _ _ _ W I). split; auto. lra. }
  unfold val64. apply div_fin; auto. split.
  - eapply tree_pos; eauto. intros i I. unfold pick. destruct (Req_EM_T _ _). destruct (Q i I). split; auto. lra. split. apply f64_zero. lra.
  - apply rtree_mono. intros i I. apply (leaves_lt _ _ _ _ A) in I. destruct (Q i I) as [_ B]. unfold pick. destruct (Req_EM_T _ _); lra.
Qed.
Lemma ul_on : forall n t x, In x (runiq (map t (seq 0 n))) <-> on_map n t x.
Proof.
  intros n t x. rewrite runiq_In, in_map_iff. split.
  - intros [i [E I]]. apply in_seq in I. exists i. split. lia. auto.
  - intros [i [I E]]. exists i. split; auto. apply in_seq. lia.
Qed.
Definition newb n (t : nat -> R) gs : bool := if in_dec Req_EM_T gs (runiq (map t (seq 0 n))) then false else true.
Lemma newb_true : forall n t gs, newb n t gs = true <-> ~ on_map n t gs.
Proof. intros n t gs. rewrite <- ul_on. unfold newb. destruct (in_dec _ _ _); split; auto; try tauto; discriminate. Qed.
Lemma counts_counted : forall n t gt gs x, counts kf (kf gt) (newb n t gs) (runiq (map t (seq 0 n))) x <-> counted64 kf n t gt gs x.
Proof.
  intros n t gt gs x. unfold counts, counted64. rewrite ul_on.
  assert (Q : newb n t gs = false <-> on_map n t gs). { destruct (newb n t gs) eqn:E. apply newb_true in E. split; [discriminate|tauto]. split; auto. intros _. apply NNPP. intros X. apply newb_true in X. congruence. }
  rewrite Q. split; (intros [A [B C]]; split; [|split]; auto; intros y I; apply B; apply ul_on; auto).
Qed.
Definition dict64 o n l p v t gt gs := basen tkey_eqb kf (val64 o t v (wa l p)) (runiq (map t (seq 0 n))) (newb n t gs) (kf gt).
Definition dictx n (w v : nat -> R) t gt gs := basen tkey_eqb kf (fun x => weight_at n v t x / weight_all n w) (runiq (map t (seq 0 n))) (newb n t gs) (kf gt).
Lemma dict_keys : forall V n t gt gs k, In k (map fst (basen tkey_eqb kf V (runiq (map t (seq 0 n))) (newb n t gs) (kf gt))) <-> occurs64 kf n t gt gs k.
Proof.
  intros V n t gt gs k. rewrite (basen_keys _ _ tkey_eqb_spec) by apply runiq_sorted. unfold occurs64. rewrite newb_true.
  split; (intros [[x [I E]]|H]; [left; exists x; split; auto; apply ul_on; auto|auto]).
Qed.
Lemma dict_fin : forall V n t gt gs k, occurs64 kf n t gt gs k -> exists r, dget tkey_eqb (basen tkey_eqb kf V (runiq (map t (seq 0 n))) (newb n t gs) (kf gt)) k = Some (Fin r) /\ (r = 0 \/ exists x, r = V x).
Proof.
  intros V n t gt gs k O. apply (dict_keys V) in O. apply (in_keys_iff _ _ tkey_eqb_spec) in O. destruct O as [v E]. pose proof E as E0. rewrite (basen_get _ _ tkey_eqb_spec) in E by apply runiq_sorted.
  destruct E as [[x [_ [_ ->]]]|[_ [_ ->]]]; eauto.
Qed.
(** two dictionaries side by side *)
Lemma dict_rel : forall (Q : R -> R -> Prop) V V' n t gt gs k r r', Q 0 0 -> (forall x, on_map n t x -> Q (V x) (V' x)) ->
  dget tkey_eqb (basen tkey_eqb kf V (runiq (map t (seq 0 n))) (newb n t gs) (kf gt)) k = Some (Fin r) ->
  dget tkey_eqb (basen tkey_eqb kf V' (runiq (map t (seq 0 n))) (newb n t gs) (kf gt)) k = Some (Fin r') -> Q r r'.
Proof.
  intros Q V V' n t gt gs k r r' Q0 QV. rewrite !(basen_get _ _ tkey_eqb_spec) by apply runiq_sorted.
  intros [[x [C [E H]]]|[H1 [H2 H]]] [[x' [C' [E' H']]]|[H1' [H2' H']]].
  - assert (x = x') by (eapply counts_inj; [exact C|exact C'|congruence]). subst x'. injection H as ->. injection H' as ->. apply QV, ul_on, C.
  - exfalso. destruct C as [_ [_ [C|C]]]; congruence.
  - exfalso. destruct C' as [_ [_ [C|C]]]; congruence.
  - injection H as ->. injection H' as ->. auto.
Qed.
Lemma tot64_ok : forall o n h l p c t v T D g, weights64 n l p c -> adds o n h -> exists_weight n l p -> part64 n l p v -> 0 <= g <= 1 ->
  let gt := f64_round (T - D) in let gs := f32_round gt in
  occurs64 kf n t gt gs (kf T) -> occurs64 kf n t gt gs (kf gt) ->
  exists d P Q, tot64 o n l p v t T D g = Ok d /\ map fst d = map fst (dict64 o n l p v t gt gs) /\ NoDup (map fst d)
  /\ dget tkey_eqb (dict64 o n l p v t gt gs) (kf T) = Some (Fin P) /\ dget tkey_eqb (dict64 o n l p v t gt gs) (kf gt) = Some (Fin Q) /\ 0 <= P <= 1 /\ 0 <= Q <= 1
  /\ forall k v', dget tkey_eqb d k = Some v' ->
       (k <> kf T -> k <> kf gt -> dget tkey_eqb (dict64 o n l p v t gt gs) k = Some v') /\ (k = kf T -> k <> kf gt -> v' = Fin (gr_phot P g))
       /\ (k <> kf T -> k = kf gt -> v' = Fin (gr_gran Q P g)) /\ (k = kf T -> k = kf gt -> v' = Fin (gr_gran (gr_phot P g) P g)).
Proof.
  intros o n h l p c t v T D g W A EX PV G gt gs OT OG.
  assert (RG : forall k, occurs64 kf n t gt gs k -> exists r, dget tkey_eqb (dict64 o n l p v t gt gs) k = Some (Fin r) /\ 0 <= r <= 1).
  { intros k O. destruct (dict_fin (val64 o t v (wa l p)) _ _ _ _ _ O) as [r [E H]]. exists r. split; auto. destruct H as [->|[x ->]]. lra. eapply val_range; eauto. }
  destruct (RG _ OT) as [P [EP RP]], (RG _ OG) as [Q [EQ RQ]].
  assert (ND : NoDup (map fst (dict64 o n l p v t gt gs))) by (apply basen_NoDup, tkey_eqb_spec).
  destruct (gran64_ok _ _ _ g P Q ND G RP RQ EP EQ) as [d [E [K H]]]. exists d, P, Q. split. exact E. split; auto. split. rewrite K; auto. auto.
Qed.
Lemma tot64_fail : forall o n l p t v T D g, let gt := f64_round (T - D) in let gs := f32_round gt in
  ~ (occurs64 kf n t gt gs (kf T) /\ occurs64 kf n t gt gs (kf gt)) -> tot64 o n l p v t T D g = Raise KeyError.
Proof.
  intros o n l p t v T D g gt gs N. unfold tot64. fold gt gs. fold (newb n t gs). fold (dict64 o n l p v t gt gs). unfold granulate64, dindex.
  destruct (dget tkey_eqb (dict64 o n l p v t gt gs) (kf T)) as [y|] eqn:E; auto. cbn [bind].
  assert (IT : occurs64 kf n t gt gs (kf T)). { apply (dict_keys (val64 o t v (wa l p))). apply (in_keys_iff _ _ tkey_eqb_spec). eauto. }
  destruct (classic (kf T = kf gt)) as [EK|EK]. { exfalso. apply N. rewrite <- EK. auto. }
  rewrite (dget_dset_other _ tkey_eqb_spec) by auto. destruct (dget tkey_eqb (dict64 o n l p v t gt gs) (kf gt)) as [y'|] eqn:E'; auto. exfalso. apply N. split; auto.
  apply (dict_keys (val64 o t v (wa l p))). apply (in_keys_iff _ _ tkey_eqb_spec). eauto.
Qed.

(** ** accuracy *)
Definition within (j n : nat) (v v' : nat -> R) : Prop := forall i, (i < n)%nat -> (1 - u64) ^ j * v' i <= v i <= (1 + u64) ^ j * v' i /\ 0 <= v' i.
Lemma pick_rsum : forall n t w x, rsum (map (pick t w x) (seq 0 n)) = weight_at n w t x.
Proof. reflexivity. Qed.
Lemma within_tree : forall o n h j f f', adds o n h -> (forall i, (i < n)%nat -> f64_value (f i) /\ 0 <= f i) -> within j n f f' ->
  (1 - u64) ^ (h + j) * rsum (map f' (seq 0 n)) <= rtree o f <= (1 + u64) ^ (h + j) * rsum (map f' (seq 0 n)).
Proof.
  intros o n h j f f' A F H. pose proof u64_pos. pose proof u64_small. destruct (rtree_bounds o f h) as [_ [_ [L U]]]. { intros i I. apply F. eapply leaves_lt; eauto. } apply A.
  rewrite (leaves_sum _ _ _ _ A) in L, U. rewrite !pow_add, !Rmult_assoc.
  rewrite <- (rsum_map_scal _ f' ((1 - u64) ^ j)), <- (rsum_map_scal _ f' ((1 + u64) ^ j)). split.
  - eapply Rle_trans; [|exact L]. apply Rmult_le_compat_l. apply pow_le; lra. apply rsum_map_le. intros i I. apply in_seq in I. apply H. lia.
  - eapply Rle_trans; [exact U|]. apply Rmult_le_compat_l. apply pow_le; lra. apply rsum_map_le. intros i I. apply in_seq in I. apply H. lia.
Qed.
Lemma within_pick : forall j n v v' t x, within j n v v' -> within j n (pick t v x) (pick t v' x).
Proof. intros j n v v' t x H i I. unfold pick. destruct (Req_EM_T _ _). apply H; auto. lra. Qed.
Lemma val_approx : forall o n h j l p c t v v' w x, weights64 n l p c -> adds o n h -> part64 n l p v -> within j n v v' -> within j n (wa l p) w -> 0 < weight_all n w ->
  approx (h + j + 1) 2 (val64 o t v (wa l p) x) (weight_at n v' t x / weight_all n w).
Proof.
  intros o n h j l p c t v v' w x W A PV Hv Hw PW. replace (h + j + 1)%nat with (S (h + j)) by lia. replace 2 with (0 + 2) by lra. apply ap_rnd. lra.
  apply ap_quot; auto.
  - apply rsum_map_nonneg. intros i I. apply in_seq in I. destruct (Req_EM_T _ _). apply Hv. lia. lra.
  - apply (within_tree o n h j (pick t v x) (pick t v' x)); auto. 2:{ apply within_pick; auto. }
    intros i I. unfold pick. destruct (Req_EM_T _ _). destruct (PV i I). split; auto. lra. split. apply f64_zero. lra.
  - apply (within_tree o n h j (wa l p) w); auto. intros i I. destruct (wa_range _ _ _ _ _ W I). split; auto. lra.
Qed.
Lemma gr_phot_ap : forall N P E g, 0 <= g <= 1 -> f64_value g -> approx N 2 P E -> approx (N + 3) 10 (gr_phot P g) (E * (1 - g)).
Proof.
  intros N P E g G VG H. unfold gr_phot. eapply (ap_weaken (S (S N)) (2 + 2)); [|lia|lra]. apply ap_rnd. lra. apply ap_mul; auto; try lra.
  apply sub_fin1; auto. pose proof (add_err 1 (- g) f64_one) as A. assert (V : f64_value (- g)). { destruct VG as [m [e [M [B ->]]]]. exists (- m)%Z, e. split. rewrite Z.abs_opp; auto. split; auto. rewrite opp_IZR. ring. }
  specialize (A V). fold (1 - g) in A. rewrite (Rabs_right (1 - g)) in A by lra. revert A. unfold Rabs. destruct (Rcase_abs _); lra.
Qed.
Lemma gr_gran_ap : forall N P E Q F g, 0 <= g <= 1 -> approx N 2 P E -> approx N 2 Q F -> approx (N + 3) 10 (gr_gran Q P g) (F + E * g).
Proof.
  intros N P E Q F g G HP HQ. unfold gr_gran. eapply (ap_weaken (S (S N)) (2 + 4 + 2)); [|lia|lra]. apply ap_rnd. lra. apply ap_add. eapply ap_weaken; eauto; try lia; try lra.
  replace 4 with (2 + 2) by lra. apply ap_rnd. lra. apply ap_scale; auto. lra.
Qed.
Lemma gr_both_ap : forall N P E g, 0 <= g <= 1 -> f64_value g -> approx N 2 P E -> approx (N + 3) 10 (gr_gran (gr_phot P g) P g) E.
Proof.
  intros N P E g G VG H. unfold gr_gran. replace (N + 3)%nat with (S (S (S N))) by lia. replace 10 with (4 + 4 + 2) by lra. apply ap_rnd. lra.
  replace E with (E * (1 - g) + E * g) by ring. apply ap_add.
  - unfold gr_phot. replace 4 with (2 + 2) by lra. apply ap_rnd. lra. apply ap_mul; auto; try lra. apply sub_fin1; auto.
    pose proof (add_err 1 (- g) f64_one) as A. assert (V : f64_value (- g)). { destruct VG as [m [e [M [B ->]]]]. exists (- m)%Z, e. split. rewrite Z.abs_opp; auto. split; auto. rewrite opp_IZR. ring. }
    specialize (A V). fold (1 - g) in A. rewrite (Rabs_right (1 - g)) in A by lra. revert A. unfold Rabs. destruct (Rcase_abs _); lra.
  - eapply (ap_weaken (S N) (2 + 2)); [|lia|lra]. apply ap_rnd. lra. apply ap_scale; auto. lra.
Qed.
(** entries of the result against those of the exact dictionary *)
Definition pre (n : nat) (w v t : nat -> R) (gt gs : R) (k : tkey) : R := match dget tkey_eqb (dictx n w v t gt gs) k with Some (Fin r) => r | _ => 0 end.
Lemma entry64 : forall o n h j l p c t v v' w T D g d, weights64 n l p c -> adds o n h -> exists_weight n l p -> part64 n l p v ->
  within j n v v' -> within j n (wa l p) w -> 0 < weight_all n w -> 0 <= g <= 1 -> f64_value g ->
  let gt := f64_round (T - D) in let gs := f32_round gt in let e := pre n w v' t gt gs in
  tot64 o n l p v t T D g = Ok d ->
  NoDup (map fst d) /\ (forall k, In k (map fst d) <-> occurs64 kf n t gt gs k)
  /\ forall k y, In (k, y) d -> exists r, y = Fin r
       /\ (k <> kf T -> k <> kf gt -> approx (h + j + 4) 10 r (e k)) /\ (k = kf T -> k <> kf gt -> approx (h + j + 4) 10 r (e k * (1 - g)))
       /\ (k <> kf T -> k = kf gt -> approx (h + j + 4) 10 r (e k + e (kf T) * g)) /\ (k = kf T -> k = kf gt -> approx (h + j + 4) 10 r (e k)).
Proof.
  intros o n h j l p c t v v' w T D g d W A EX PV Hv Hw PW G VG gt gs e E.
  assert (O : occurs64 kf n t gt gs (kf T) /\ occurs64 kf n t gt gs (kf gt)). { apply NNPP. intros N. rewrite tot64_fail in E by exact N. discriminate. }
  destruct O as [OT OG]. destruct (tot64_ok o n h l p c t v T D g W A EX PV G OT OG) as [d' [P [Q [E' [K [ND [EP [EQ [RP [RQ H]]]]]]]]]].
  rewrite E in E'. injection E' as <-. fold gt gs in K, EP, EQ, H. split; auto. split. { intros k. rewrite K. apply dict_keys. }
  assert (AP : forall k r, dget tkey_eqb (dict64 o n l p v t gt gs) k = Some (Fin r) -> approx (h + j + 1) 2 r (e k)).
  { intros k r Er. assert (Ok : occurs64 kf n t gt gs k). { apply (dict_keys (val64 o t v (wa l p))). apply (in_keys_iff _ _ tkey_eqb_spec). exists (Fin r). exact Er. }
    destruct (dict_fin (fun x => weight_at n v' t x / weight_all n w) _ _ _ _ _ Ok) as [r' [Er' _]]. unfold e, pre, dictx. rewrite Er'.
    revert Er Er'. apply (dict_rel (fun r r' => approx (h + j + 1) 2 r r')). apply ap_refl; lra. intros x _. eapply val_approx; eauto. }
  intros k y I. apply (dget_iff _ _ tkey_eqb_spec) in I; auto. destruct (H k y I) as [A1 [A2 [A3 A4]]].
  replace (h + j + 4)%nat with (h + j + 1 + 3)%nat by lia.
  destruct (classic (k = kf T)) as [KT|KT]; destruct (classic (k = kf gt)) as [KG|KG].
  - rewrite (A4 KT KG). eexists. split. reflexivity. split; [tauto|]. split; [tauto|]. split; [tauto|]. intros _ _. apply gr_both_ap; auto. apply AP. rewrite KT. auto.
  - rewrite (A2 KT KG). eexists. split. reflexivity. split; [tauto|]. split; [|split; tauto]. intros _ _. apply gr_phot_ap; auto. apply AP. rewrite KT. auto.
  - rewrite (A3 KT KG). eexists. split. reflexivity. split; [tauto|]. split; [tauto|]. split; [|tauto]. intros _ _. apply gr_gran_ap; auto. rewrite KG. auto.
  - pose proof (A1 KT KG) as X. assert (Ok : occurs64 kf n t gt gs k). { apply (dict_keys (val64 o t v (wa l p))). apply (in_keys_iff _ _ tkey_eqb_spec). exists y. exact X. }
    destruct (dict_fin (val64 o t v (wa l p)) _ _ _ _ _ Ok) as [r [Er _]]. change (dget tkey_eqb (dict64 o n l p v t gt gs) k = Some (Fin r)) in Er. rewrite X in Er. injection Er as ->.
    exists r. split; auto. split; [|tauto]. intros _ _. eapply ap_weaken; [apply AP; exact X|lia|lra].
Qed.
Lemma pre_counted : forall n w v t gt gs x, counted64 kf n t gt gs x -> pre n w v t gt gs (kf x) = weight_at n v t x / weight_all n w.
Proof.
  intros n w v t gt gs x C. unfold pre, dictx. assert (X : dget tkey_eqb (dictx n w v t gt gs) (kf x) = Some (Fin (weight_at n v t x / weight_all n w))).
  { unfold dictx. rewrite (basen_get _ _ tkey_eqb_spec) by apply runiq_sorted. left. exists x. split; auto. apply counts_counted; auto. }
  unfold dictx in X. rewrite X. auto.
Qed.
Lemma pre_none : forall n w v t gt gs k, (forall x, counted64 kf n t gt gs x -> kf x <> k) -> pre n w v t gt gs k = 0.
Proof.
  intros n w v t gt gs k N. unfold pre. destruct (dget tkey_eqb (dictx n w v t gt gs) k) as [y|] eqn:E; auto. unfold dictx in E. rewrite (basen_get _ _ tkey_eqb_spec) in E by apply runiq_sorted.
  destruct E as [[x [C [K ->]]]|[_ [_ ->]]]; auto. exfalso. apply (N x); auto. apply counts_counted; auto.
Qed.
Lemma within_refl : forall n v, (forall i, (i < n)%nat -> 0 <= v i) -> within 0 n v v.
Proof. intros n v H i I. specialize (H i I). simpl. lra. Qed.
Lemma two_kf : forall label, two_decimals label -> label = kf.
Proof. intros label H. rewrite (two_decimals_eq label H). auto. Qed.

(** ** limb darkening and projection *)
Definition ldr (u1 u2 mu : R) : R :=
  if Rlt_dec mu 0 then 0 else let d := f64_round (1 - mu) in f64_round (f64_round (1 - f64_round (u1 * d)) - f64_round (u2 * f64_round (d * d))).
Definition prr (jac mu : R) : R := if Rlt_dec 0 mu then f64_round (jac * mu) else 0.
Lemma rnd_range : forall a b x, f64_value a -> f64_value b -> a <= x <= b -> a <= f64_round x <= b.
Proof. intros a b x A B H. rewrite <- (f64_round_id a A), <- (f64_round_id b B). split; apply f64_round_mono; lra. Qed.
Lemma f64_int : forall z, (-1000 <= z <= 1000)%Z -> f64_value (IZR z).
Proof. intros z H. apply f64_whole. simpl. lia. Qed.
Lemma small_fin : forall x, -1000 <= x <= 1000 -> f64 (Fin x) = Fin (f64_round x).
Proof. intros x H. apply f64_fin. pose proof big1023. assert (1000 <= 2 ^ 20) by (simpl; lra). apply Rabs_le. lra. Qed.
Lemma ld64_fin : forall u1 u2 mu, f64_value u1 -> f64_value u2 -> 0 <= u1 -> 0 <= u2 -> u1 + u2 <= 1 -> -2 <= mu <= 2 ->
  ld64 (Fin u1) (Fin u2) (Fin mu) = Fin (ldr u1 u2 mu) /\ f64_value (ldr u1 u2 mu) /\ 0 <= ldr u1 u2 mu <= 2.
Proof.
  intros u1 u2 mu V1 V2 P1 P2 S M. unfold ld64, ldr. cbn [nlt]. unfold Rltb. destruct (Rlt_dec mu 0) as [L|L]. { split; auto. split. apply f64_zero. lra. }
  assert (I : forall z, (-1000 <= z <= 1000)%Z -> f64_value (IZR z)) by apply f64_int.
  assert (D : -1 <= f64_round (1 - mu) <= 1) by (apply rnd_range; [apply (I (-1)%Z); lia|apply (I 1%Z); lia|lra]).
  cbv zeta. unfold sub64 at 3 4 5, mul64. rewrite !nsub_fin. rewrite (small_fin (1 - mu)) by lra. set (d := f64_round (1 - mu)) in *. rewrite !nmul_fin.
  assert (Q : 0 <= f64_round (d * d) <= 1) by (apply rnd_range; [apply (I 0%Z); lia|apply (I 1%Z); lia|nra]). rewrite (small_fin (d * d)) by nra. set (q := f64_round (d * d)) in *.
  assert (A : -1 <= f64_round (u1 * d) <= u1) by (apply rnd_range; [apply (I (-1)%Z); lia|auto|nra]). rewrite (small_fin (u1 * d)) by nra. set (a := f64_round (u1 * d)) in *.
  rewrite nmul_fin. assert (B : 0 <= f64_round (u2 * q) <= u2) by (apply rnd_range; [apply (I 0%Z); lia|auto|nra]). rewrite (small_fin (u2 * q)) by nra. set (b := f64_round (u2 * q)) in *.
  unfold sub64. rewrite nsub_fin. assert (E : u2 <= f64_round (1 - a) <= 2) by (apply rnd_range; [auto|apply (I 2%Z); lia|lra]). rewrite (small_fin (1 - a)) by lra. set (e := f64_round (1 - a)) in *.
  rewrite nsub_fin, small_fin by lra. split; auto. split. apply f64_round_value. apply rnd_range; [apply (I 0%Z); lia|apply (I 2%Z); lia|lra].
Qed.
Lemma proj64_fin : forall jac mu, f64_value jac -> 0 <= jac <= 1/2 -> mu <= 2 ->
  mul64 (Fin jac) (proj64 (Fin mu)) = Fin (prr jac mu) /\ f64_value (prr jac mu) /\ 0 <= prr jac mu <= 1.
Proof.
  intros jac mu V J M. unfold proj64, prr, ngt. cbn [nlt]. unfold Rltb. destruct (Rlt_dec 0 mu) as [L|L]; unfold mul64; rewrite nmul_fin, small_fin by nra.
  - split; auto. split. apply f64_round_value. apply rnd_range; [apply (f64_int 0); lia|apply (f64_int 1); lia|nra].
  - rewrite Rmult_0_r, rnd0. split; auto. split. apply f64_zero. lra.
Qed.
