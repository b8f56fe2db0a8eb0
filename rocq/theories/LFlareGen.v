(** Lemmas for C41-C45: flare generator and collections *)
From Coq Require Import Reals ZArith Bool List Lra Lia.
From Coquelicot Require Import Coquelicot.
From Verif Require Import Num Py MConfig MHelpers MGrid MSpots MFaculae MXoflares MFlares MGranules MStar Spec SpecStar SpecFlare SpecReach LBase LGrid LHelpers LCirc LSpotAge LSpotMap LSpotCov LSpotGen LFac LFlare.
Import ListNotations.
Open Scope R_scope.

(** ** C41 *)
Definition kept_sizes (acc n : nat) (c : list nat) : list nat :=
  map fst (filter (fun p => Nat.ltb (snd p) n) (combine c (cumsum_nat acc c))).
Lemma cumsum_ge : forall c acc x, In x (cumsum_nat acc c) -> (acc <= x)%nat.
Proof.
  induction c; intros acc x H. destruct H. cbn [cumsum_nat] in H. destruct H as [<-|H]. lia. apply IHc in H. lia.
Qed.
Lemma kept_none : forall c acc n, (n <= acc)%nat -> kept_sizes acc n c = [].
Proof.
  intros. unfold kept_sizes. assert (K : forall q, In q (combine c (cumsum_nat acc c)) -> (n <= snd q)%nat).
  { intros [a b] I. apply in_combine_r in I. apply cumsum_ge in I. cbn. lia. }
  induction (combine c (cumsum_nat acc c)) as [|q l IH]; auto. cbn [filter].
  assert (E : Nat.ltb (snd q) n = false) by (apply Nat.ltb_ge, K; left; auto). rewrite E. apply IH.
  intros; apply K; right; auto.
Qed.
Lemma kept_sum : forall c acc n, (acc < n)%nat -> (acc + nat_sum (kept_sizes acc n c) < n)%nat.
Proof.
  induction c; intros. cbn. lia. unfold kept_sizes. cbn [cumsum_nat combine filter snd].
  destruct (Nat.ltb (acc + a) n) eqn:E.
  - apply Nat.ltb_lt in E. cbn [map fst]. apply IHc in E. unfold kept_sizes in E. cbn [nat_sum fold_right].
    unfold nat_sum in E. lia.
  - apply Nat.ltb_ge in E. fold (kept_sizes (acc + a) n c). rewrite kept_none by auto. cbn. lia.
Qed.
Lemma nat_sum_app : forall a b, nat_sum (a ++ b) = (nat_sum a + nat_sum b)%nat.
Proof. induction a; intros; auto. cbn [app nat_sum fold_right]. fold (nat_sum (a0 ++ b)). rewrite IHa. cbn [nat_sum fold_right]. fold (nat_sum a0). lia. Qed.
Lemma nat_sum_repeat : forall k, nat_sum (repeat 1%nat k) = k.
Proof. induction k; auto. cbn [repeat nat_sum fold_right]. fold (nat_sum (repeat 1%nat k)). lia. Qed.
Lemma cluster_sizes_spec : forall n dr, (1 <= n)%nat ->
  exists c k, cluster_sizes n dr = c ++ repeat 1%nat (S k) /\ nat_sum (cluster_sizes n dr) = n /\
    (forall s, In s (cluster_sizes n dr) -> (1 <= s)%nat).
Proof.
  intros. unfold cluster_sizes. set (c0 := filter _ (map dr (seq 0 n))).
  fold (kept_sizes 0 n c0). set (c := kept_sizes 0 n c0).
  assert (S0 : (nat_sum c < n)%nat). { pose proof (kept_sum c0 0 n ltac:(lia)). fold c in H0. lia. }
  exists c, (n - nat_sum c - 1)%nat. replace (S (n - nat_sum c - 1)) with (n - nat_sum c)%nat by lia.
  split; auto. split. rewrite nat_sum_app, nat_sum_repeat. lia.
  intros s I. apply in_app_or in I. destruct I as [I|I].
  - unfold c, kept_sizes in I. apply in_map_iff in I. destruct I as [[a b] [E I]]. cbn in E. subst a.
    apply filter_In in I. destruct I as [I _]. apply in_combine_l in I. unfold c0 in I. apply filter_In in I.
    destruct I as [_ I]. apply Nat.ltb_lt in I. lia.
  - apply repeat_spec in I. lia.
Qed.
Lemma dtimes_length : forall ct s e i, (forall x, In x s -> (1 <= x)%nat) -> length (flare_dtimes ct s e i) = nat_sum s.
Proof.
  induction s; intros; auto. cbn [flare_dtimes length]. rewrite app_length, map_length, seq_length, IHs.
  cbn [nat_sum fold_right]. fold (nat_sum s). assert (1 <= a)%nat by (apply H; left; auto). lia.
  intros; apply H; right; auto.
Qed.
Lemma dtimes_nonneg : forall ct s e i x, 0 <= ct -> (forall i, 0 <= e i) -> (forall x, In x s -> (1 <= x)%nat) ->
  In x (flare_dtimes ct s e i) -> 0 <= x.
Proof.
  induction s; intros e i x C E P I. destruct I. cbn [flare_dtimes] in I. destruct I as [<-|I].
  - apply Rmult_le_pos; auto.
  - apply in_app_or in I. destruct I as [I|I].
    + apply in_map_iff in I. destruct I as [j [<- _]]. apply Rmult_le_pos; auto.
      assert (1 <= a)%nat by (apply P; left; auto). assert (0 < INR a) by (apply lt_0_INR; lia).
      apply le_div; [lra|]. rewrite Rmult_0_l. apply le_div; lra.
    + refine (IHs e _ x C E _ I). intros; apply P; right; auto.
Qed.
Lemma cumsum_length : forall l acc, length (cumsum_R acc l) = length l.
Proof. induction l; intros; auto. cbn [cumsum_R length]. rewrite IHl. auto. Qed.
Lemma cumsum_mono : forall l acc i, (forall x, In x l -> 0 <= x) -> (i < length l)%nat ->
  acc <= nth i (cumsum_R acc l) 0 /\ ((S i < length l)%nat -> nth i (cumsum_R acc l) 0 <= nth (S i) (cumsum_R acc l) 0).
Proof.
  induction l; intros acc i P L. simpl in L; lia. cbn [cumsum_R].
  assert (0 <= a) by (apply P; left; auto).
  assert (P' : forall x, In x l -> 0 <= x) by (intros; apply P; right; auto).
  destruct i.
  - cbn [nth]. split. lra. intros. cbn [length] in H0. destruct (IHl (acc + a) 0%nat P' ltac:(lia)). lra.
  - cbn [length] in L. destruct (IHl (acc + a) i P' ltac:(lia)) as [A B]. cbn [nth]. split. lra. cbn [length]. intros. apply B. lia.
Qed.
Lemma poisson_ok : forall c d, 0 <= c -> exists k, poisson (Fin c) d = Ok k.
Proof. intros. unfold poisson. rdec; try lra; eauto. Qed.
Lemma get_peaks_eq : forall g n cl e c, (1 <= n)%nat -> lg_cluster g = Fin c -> 0 <= c ->
  get_peaks g n cl e = Ok (cumsum_R 0 (flare_dtimes (1 / INR (length (cluster_sizes n cl))) (cluster_sizes n cl) e 0)).
Proof.
  intros. unfold get_peaks. rewrite H0. destruct (poisson_ok c 0 H1) as [k ->]. cbn [bind].
  destruct (cluster_sizes_spec n cl H) as [a [b [E [S P]]]]. rewrite S, Nat.eqb_refl. cbn [negb].
  destruct (cluster_sizes n cl) eqn:Ec; auto. destruct a; discriminate.
Qed.
Lemma kept_prefix : forall c acc n, (acc < n)%nat ->
  exists k, (k <= length c)%nat /\ kept_sizes acc n c = firstn k c /\ (acc + list_sum (firstn k c) < n)%nat
    /\ ((k < length c)%nat -> (n <= acc + list_sum (firstn (S k) c))%nat).
Proof.
  induction c; intros. exists 0%nat. repeat split; simpl; lia.
  unfold kept_sizes. cbn [cumsum_nat combine filter snd]. destruct (Nat.ltb (acc + a) n) eqn:E.
  - apply Nat.ltb_lt in E. destruct (IHc (acc + a)%nat n E) as [k [K1 [K2 [K3 K4]]]].
    exists (S k). cbn [map fst length]. rewrite !firstn_cons. unfold kept_sizes in K2. rewrite K2. split. lia. split; auto.
    change (list_sum (a :: firstn k c)) with (a + list_sum (firstn k c))%nat. split. lia.
    intros Hk. change (list_sum (a :: firstn (S k) c)) with (a + list_sum (firstn (S k) c))%nat.
    assert (Hk' : (k < length c)%nat) by lia. apply K4 in Hk'. lia.
  - apply Nat.ltb_ge in E. fold (kept_sizes (acc + a) n c). rewrite kept_none by auto.
    exists 0%nat. cbn [firstn list_sum fold_right length]. repeat split; simpl; lia.
Qed.
Lemma clusters_of_sizes : forall n dr, (1 <= n)%nat -> clusters_of n dr (cluster_sizes n dr).
Proof.
  intros. unfold clusters_of. cbv zeta.
  assert (F : filter (fun k => negb (Nat.eqb k 0)) (map dr (seq 0 n)) = filter (fun k => Nat.ltb 0 k) (map dr (seq 0 n))).
  { apply filter_ext. intros []; auto. }
  rewrite F. unfold cluster_sizes. set (c0 := filter (fun k => Nat.ltb 0 k) (map dr (seq 0 n))).
  fold (kept_sizes 0 n c0). destruct (kept_prefix c0 0 n ltac:(lia)) as [k [K1 [K2 [K3 K4]]]].
  exists k. rewrite K2. repeat split; auto.
Qed.
Lemma dtimes_nth : forall ct e s i0 k j, (forall x, In x s -> (1 <= x)%nat) -> (k < length s)%nat -> (j < nth k s 0)%nat ->
  nth (list_sum (firstn k s) + j) (flare_dtimes ct s e i0) 0
  = (if Nat.eqb j 0 then ct else ct / INR (nth k s 0%nat) / 2) * e (i0 + list_sum (firstn k s) + j)%nat.
Proof.
  induction s; intros i0 k j P Hk Hj. simpl in Hk; lia.
  assert (A : (1 <= a)%nat) by (apply P; left; auto).
  cbn [flare_dtimes]. destruct k.
  - cbn [firstn list_sum fold_right nth] in *. rewrite Nat.add_0_l, Nat.add_0_r. destruct j.
    + cbn [nth Nat.eqb]. rewrite Nat.add_0_r. auto.
    + cbn [nth Nat.eqb]. rewrite app_nth1 by (rewrite map_length, seq_length; lia).
      rewrite nth_map_seq by lia. do 2 f_equal. lia.
  - cbn [firstn nth length] in *. change (list_sum (a :: firstn k s)) with (a + list_sum (firstn k s))%nat.
    replace (a + list_sum (firstn k s) + j)%nat with (S (a - 1 + (list_sum (firstn k s) + j)))%nat by lia.
    cbn [nth]. rewrite app_nth2 by (rewrite map_length, seq_length; lia). rewrite map_length, seq_length.
    replace (a - 1 + (list_sum (firstn k s) + j) - (a - 1))%nat with (list_sum (firstn k s) + j)%nat by lia.
    rewrite IHs by (auto; try lia; intros; apply P; right; auto). do 2 f_equal. lia.
Qed.
Lemma cumsum_nth : forall l acc i, (i < length l)%nat ->
  nth i (cumsum_R acc l) 0 = match i with O => acc | S i' => nth i' (cumsum_R acc l) 0 end + nth i l 0.
Proof.
  induction l; intros acc i H. simpl in H; lia. cbn [cumsum_R]. destruct i; auto. cbn [nth length] in *.
  rewrite IHl by lia. destruct i; auto.
Qed.
Lemma in_cluster : forall s k j, (k < length s)%nat -> (j < nth k s 0)%nat -> (list_sum (firstn k s) + j < list_sum s)%nat.
Proof.
  induction s; intros. simpl in H; lia. destruct k; cbn [firstn nth length] in *.
  - simpl. lia.
  - change (list_sum (a :: firstn k s)) with (a + list_sum (firstn k s))%nat. change (list_sum (a :: s)) with (a + list_sum s)%nat.
    specialize (IHs k j ltac:(lia) H0). lia.
Qed.
Lemma peaks_of_cumsum : forall s e, (forall x, In x s -> (1 <= x)%nat) -> s <> [] ->
  peaks_of s e (cumsum_R 0 (flare_dtimes (1 / INR (length s)) s e 0)).
Proof.
  intros s e P Ne. assert (L : length (flare_dtimes (1 / INR (length s)) s e 0) = list_sum s) by (rewrite dtimes_length; auto).
  split. rewrite cumsum_length; auto.
  intros k j Hk Hj. cbv zeta. rewrite cumsum_nth at 1 by (rewrite L; apply in_cluster; auto).
  rewrite dtimes_nth by auto. rewrite Nat.add_0_l. f_equal.
  assert (0 < INR (length s)) by (apply lt_0_INR; destruct s; [congruence|simpl; lia]).
  assert (0 < INR (nth k s 0%nat)) by (apply lt_0_INR; lia).
  destruct (Nat.eqb j 0); field; lra.
Qed.
Lemma C41_lemma : forall g n cl e c, (1 <= n)%nat -> lg_cluster g = Fin c -> 0 <= c -> (forall i, 0 <= e i) ->
  exists sizes l, get_peaks g n cl e = Ok l /\ length l = n /\
    clusters_of n cl sizes /\ list_sum sizes = n /\ (forall s, In s sizes -> (1 <= s)%nat) /\ peaks_of sizes e l /\
    (forall i, (i < n)%nat -> 0 <= nth i l 0) /\
    (forall i, (S i < n)%nat -> nth i l 0 <= nth (S i) l 0).
Proof.
  intros. rewrite (get_peaks_eq g n cl e c) by auto. exists (cluster_sizes n cl). eexists. split; [reflexivity|].
  destruct (cluster_sizes_spec n cl H) as [a [b [E [S P]]]].
  assert (L : length (flare_dtimes (1 / INR (length (cluster_sizes n cl))) (cluster_sizes n cl) e 0) = n)
    by (rewrite dtimes_length; auto).
  assert (N : forall x, In x (flare_dtimes (1 / INR (length (cluster_sizes n cl))) (cluster_sizes n cl) e 0) -> 0 <= x).
  { intros x I. refine (dtimes_nonneg _ _ e 0 x _ H2 P I). assert (0 < INR (length (cluster_sizes n cl))) by (apply lt_0_INR; rewrite E, app_length; simpl; lia).
    apply le_div; lra. }
  rewrite cumsum_length, L. split; auto. split. apply clusters_of_sizes; auto. split. exact S. split. exact P.
  split. apply peaks_of_cumsum; auto. rewrite E. destruct a; discriminate.
  split; intros.
  - apply cumsum_mono; auto. rewrite L; auto.
  - apply cumsum_mono; auto; rewrite L; lia.
Qed.
Lemma C41_unbounded_lemma : forall g n B c, (1 <= n)%nat -> lg_cluster g = Fin c -> 0 <= c ->
  exists cl e l, (forall i, 0 <= e i) /\ get_peaks g n cl e = Ok l /\ forall t, In t l -> B < t.
Proof.
  intros. exists (fun _ => 0%nat), (fun _ => INR n * (Rabs B + 1)).
  assert (Ec : cluster_sizes n (fun _ => 0%nat) = repeat 1%nat n).
  { unfold cluster_sizes. assert (filter (fun k => Nat.ltb 0 k) (map (fun _ => 0%nat) (seq 0 n)) = []) as ->.
    { generalize (seq 0 n). induction l; auto. }
    cbn. rewrite Nat.sub_0_r. auto. }
  eexists. assert (P : 0 < INR n) by (apply lt_0_INR; lia). pose proof (Rabs_pos B). split; [|split].
  - intros. apply Rmult_le_pos; lra.
  - apply (get_peaks_eq g n _ _ c); auto.
  - rewrite Ec, repeat_length.
    assert (K : forall k i acc t, B < acc + (Rabs B + 1) -> In t (cumsum_R acc (flare_dtimes (1 / INR n) (repeat 1%nat k) (fun _ => INR n * (Rabs B + 1)) i)) -> B < t).
    { induction k; intros i acc t Hacc I. destruct I. cbn [repeat flare_dtimes Nat.sub seq map app cumsum_R] in I.
      replace (1 / INR n * (INR n * (Rabs B + 1))) with (Rabs B + 1) in I by (field; lra).
      destruct I as [<-|I]; auto. eapply IHk; [|exact I]. lra. }
    intros t I. eapply K; [|exact I]. pose proof (Rle_abs B). lra.
Qed.

(** ** C42 *)
Lemma Rpower_dec : forall a x y, a < 0 -> 0 < x < y -> Rpower y a < Rpower x a.
Proof.
  intros. unfold Rpower. apply exp_increasing. assert (ln x < ln y) by (apply ln_increasing; lra). nra.
Qed.
Lemma Rpower_base1 : forall a, Rpower 1 a = 1.
Proof. intros. unfold Rpower. rewrite ln_1, Rmult_0_r. apply exp_0. Qed.
Lemma npow_pos_fin : forall x a, 0 < x -> npow (Fin x) a = Fin (Rpower x a).
Proof. intros. unfold npow. rdec; try lra; auto. Qed.
Definition fq (em al x : R) : R := em * Rpower (1 - x) (1 / al).
Definition fcdf (em al E : R) : R := 1 - Rpower (E / em) al.
Lemma flare_cdf_eq : forall g em E, lg_min_energy g = Fin em -> 0 < em -> 0 < E ->
  flare_cdf g (Fin E) = Fin (fcdf em (lg_alpha g) E).
Proof.
  intros. unfold flare_cdf. rewrite H, ndiv_fin by lra. rewrite npow_pos_fin by (apply Rdiv_lt_0_compat; auto).
  rewrite nsub_fin. auto.
Qed.
Lemma quantile_eq : forall g em xs, lg_min_energy g = Fin em -> 0 < em -> lg_alpha g < 0 ->
  (forall x, In x xs -> 0 <= x < 1) -> quantile_func g xs = Ok (map (fun x => Fin (fq em (lg_alpha g) x)) xs).
Proof.
  intros. unfold quantile_func.
  assert (forallb (fun x => Rleb 0 x) xs = true) as ->. { apply forallb_forall. intros. apply Rleb_true. apply H2; auto. }
  assert (forallb (fun x => Rltb x 1) xs = true) as ->. { apply forallb_forall. intros. apply Rltb_true. apply H2; auto. }
  cbn [andb negb]. destruct (Reqb (lg_alpha g) 0) eqn:E; rb; [lra|]. f_equal. apply map_ext_in. intros x I.
  rewrite npow_pos_fin by (apply H2 in I; lra). rewrite H, nmul_fin. auto.
Qed.
Lemma fq_ge : forall em al x, 0 < em -> al < 0 -> 0 <= x < 1 -> em <= fq em al x.
Proof.
  intros. unfold fq. assert (1 / al < 0). { unfold Rdiv. rewrite Rmult_1_l. apply Rinv_lt_0_compat; auto. }
  assert (1 <= Rpower (1 - x) (1 / al)).
  { destruct (Req_dec x 0) as [->|]. rewrite Rminus_0_r, Rpower_base1; lra.
    pose proof (Rpower_dec (1 / al) (1 - x) 1 H2 ltac:(lra)) as K. rewrite Rpower_base1 in K. lra. }
  nra.
Qed.
Lemma fq_inc : forall em al x y, 0 < em -> al < 0 -> 0 <= x -> x < y -> y < 1 -> fq em al x < fq em al y.
Proof.
  intros. unfold fq. assert (1 / al < 0). { unfold Rdiv. rewrite Rmult_1_l. apply Rinv_lt_0_compat; auto. }
  apply Rmult_lt_compat_l; auto. apply Rpower_dec; lra.
Qed.
Lemma fcdf_fq : forall em al x, 0 < em -> al < 0 -> 0 <= x < 1 -> fcdf em al (fq em al x) = x.
Proof.
  intros. unfold fcdf, fq. replace (em * Rpower (1 - x) (1 / al) / em) with (Rpower (1 - x) (1 / al)) by (field; lra).
  rewrite Rpower_mult. replace (1 / al * al) with 1 by (field; lra). rewrite Rpower_1; lra.
Qed.
Lemma fcdf_range : forall em al E, 0 < em -> al < 0 -> em <= E -> 0 <= fcdf em al E < 1.
Proof.
  intros. unfold fcdf. pose proof (Rpower_pos (E / em) al).
  assert (Rpower (E / em) al <= 1).
  { assert (1 <= E / em) by (apply le_div; lra).
    destruct (Req_dec (E / em) 1) as [->|]. rewrite Rpower_base1; lra.
    pose proof (Rpower_dec al 1 (E / em) H0 ltac:(lra)) as K. rewrite Rpower_base1 in K. lra. }
  lra.
Qed.
Lemma fq_fcdf : forall em al E, 0 < em -> al < 0 -> em <= E -> fq em al (fcdf em al E) = E.
Proof.
  intros. unfold fcdf, fq. replace (1 - (1 - Rpower (E / em) al)) with (Rpower (E / em) al) by ring.
  rewrite Rpower_mult. replace (al * (1 / al)) with 1 by (field; lra).
  rewrite Rpower_1 by (apply Rdiv_lt_0_compat; lra). field; lra.
Qed.
Lemma C42_quantile_lemma : forall g em, lg_min_energy g = Fin em -> 0 < em -> lg_alpha g < 0 ->
  exists q,
    (forall xs, (forall x, In x xs -> 0 <= x < 1) -> quantile_func g xs = Ok (map (fun x => Fin (q x)) xs)) /\
    (forall x, 0 <= x < 1 -> em <= q x) /\
    (forall x y, 0 <= x -> x < y -> y < 1 -> q x < q y) /\
    (forall x, 0 <= x < 1 -> flare_cdf g (Fin (q x)) = Fin x) /\
    (forall E, em <= E -> exists x, 0 <= x < 1 /\ flare_cdf g (Fin E) = Fin x /\ q x = E) /\
    (forall xs x, In x xs -> x < 0 \/ 1 <= x -> quantile_func g xs = Raise ValueError).
Proof.
  intros. exists (fq em (lg_alpha g)). repeat split; intros.
  - apply quantile_eq; auto.
  - apply fq_ge; auto.
  - apply fq_inc; auto.
  - assert (em <= fq em (lg_alpha g) x) by (apply fq_ge; auto).
    rewrite (flare_cdf_eq g em) by (auto; lra). rewrite fcdf_fq; auto.
  - exists (fcdf em (lg_alpha g) E). split. apply fcdf_range; auto. split. apply flare_cdf_eq; auto; lra.
    apply fq_fcdf; auto.
  - unfold quantile_func. assert (K : forallb (fun x => Rleb 0 x) xs && forallb (fun x => Rltb x 1) xs = false).
    { apply andb_false_iff. destruct H3; [left|right]; apply not_true_is_false; intros F;
        rewrite forallb_forall in F; apply F in H2; rb; lra. }
    rewrite K. auto.
Qed.
Lemma C42_frequency_lemma : forall g em, lg_min_energy g = Fin em -> 0 < em -> lg_alpha g < 0 ->
  exists fr, (forall E, 0 < E -> frequency_gt g (Fin E) = Fin (fr E)) /\
    (forall E, 0 < E -> 0 < fr E) /\
    (forall E E', 0 < E -> E < E' -> fr E' < fr E) /\
    (forall E, 0 < E -> exists c, flare_cdf g (Fin E) = Fin c /\ fr E / fr em = 1 - c).
Proof.
  intros. exists (fun E => Rpower 10 (lg_beta g) * Rpower E (lg_alpha g)).
  pose proof (Rpower_pos 10 (lg_beta g)). repeat split; intros.
  - unfold frequency_gt. rewrite npow_pos_fin, nmul_fin by auto. auto.
  - apply Rmult_lt_0_compat; auto. apply Rpower_pos.
  - apply Rmult_lt_compat_l; auto. apply Rpower_dec; auto.
  - exists (fcdf em (lg_alpha g) E). split. apply flare_cdf_eq; auto. unfold fcdf.
    assert (Rpower (E / em) (lg_alpha g) = Rpower E (lg_alpha g) / Rpower em (lg_alpha g)) as ->.
    { unfold Rpower. rewrite ln_div by auto. unfold Rdiv. rewrite <- exp_Ropp, <- exp_plus. f_equal. ring. }
    pose proof (Rpower_pos em (lg_alpha g)). field. split; lra.
Qed.

(** ** C64: expected numbers *)
Lemma C64_lemma : forall g em, lg_min_energy g = Fin em -> 0 < em ->
  exists fr, (forall E, 0 < E -> frequency_gt g (Fin E) = Fin (fr E) /\ 0 < fr E
                /\ ln (fr E) / ln 10 = lg_beta g + lg_alpha g * (ln E / ln 10))
  /\ (forall E t, 0 < E -> nexp_gt g (Fin E) (Fin t) = Fin (fr E * t))
  /\ (forall t, ntotal g (Fin t) = Fin (fr em * t))
  (* what is expected above an energy is the total times the probability of exceeding it *)
  /\ (forall E t, 0 < E -> exists c, flare_cdf g (Fin E) = Fin c
        /\ nexp_gt g (Fin E) (Fin t) = Fin (fr em * t * (1 - c)))
  (* and no flares are ever drawn in no time *)
  /\ (forall pdraw d, generate_flare_series g 0 pdraw d = Ok []).
Proof.
  intros g em H H0. exists (fun E => Rpower 10 (lg_beta g) * Rpower E (lg_alpha g)).
  assert (N : forall E t, 0 < E -> nexp_gt g (Fin E) (Fin t) = Fin (Rpower 10 (lg_beta g) * Rpower E (lg_alpha g) * t)).
  { intros. unfold nexp_gt, frequency_gt. rewrite npow_pos_fin, !nmul_fin by auto. auto. }
  assert (L10 : 0 < ln 10) by (rewrite <- ln_1; apply ln_increasing; lra).
  split; [|split; [|split; [|split]]]; intros.
  - split. unfold frequency_gt. rewrite npow_pos_fin, nmul_fin by auto. auto.
    split. apply Rmult_lt_0_compat; apply Rpower_pos.
    rewrite ln_mult by apply Rpower_pos. unfold Rpower. rewrite !ln_exp. field. lra.
  - apply N; auto.
  - unfold ntotal. rewrite H. apply N; auto.
  - exists (fcdf em (lg_alpha g) E). split. apply flare_cdf_eq; auto. rewrite N by auto. f_equal. unfold fcdf.
    assert (Rpower (E / em) (lg_alpha g) = Rpower E (lg_alpha g) / Rpower em (lg_alpha g)) as ->.
    { unfold Rpower. rewrite ln_div by auto. unfold Rdiv. rewrite <- exp_Ropp, <- exp_plus. f_equal. ring. }
    pose proof (Rpower_pos em (lg_alpha g)). field. lra.
  - unfold generate_flare_series, ntotal. rewrite H, N by auto. rewrite Rmult_0_r. unfold poisson. rdec; try lra. reflexivity.
Qed.

(** ** C43 *)
Lemma C43_lemma : forall g em E, lg_min_energy g = Fin em -> 0 < em -> 0 < E ->
  exists c p, (forall x, 0 < x -> flare_cdf g (Fin x) = Fin (c x)) /\ is_derive c E p /\
    fst (pdf_quantity g (Fin E)) = Fin p.
Proof.
  intros. exists (fcdf em (lg_alpha g)), (- lg_alpha g * Rpower E (lg_alpha g - 1) / Rpower em (lg_alpha g)).
  split. intros; apply flare_cdf_eq; auto. pose proof (Rpower_pos em (lg_alpha g)). split.
  - unfold fcdf, Rpower. auto_derive. apply Rdiv_lt_0_compat; auto.
    assert (P : exp (lg_alpha g * ln (E / em)) = exp ((lg_alpha g - 1) * ln E) * E / exp (lg_alpha g * ln em)).
    { rewrite ln_div by auto. unfold Rdiv. rewrite <- exp_Ropp. rewrite <- (exp_ln E) at 3 by auto.
      rewrite <- !exp_plus. f_equal. ring. }
    fold (E / em). rewrite P. pose proof (exp_pos (lg_alpha g * ln em)). req. field. repeat split; lra.
  - cbn [pdf_quantity fst]. rewrite H, !npow_pos_fin by auto. rewrite nmul_fin, ndiv_fin by lra. auto.
Qed.
Lemma C43_raises_lemma : forall g E, flare_pdf g E = Raise UnitConversionError.
Proof. intros. unfold flare_pdf, pdf_quantity. rdec; auto. lra. Qed.

(** ** C44 *)
Lemma ln10_pos : 0 < ln 10.
Proof. rewrite <- ln_1. apply ln_increasing; lra. Qed.
Lemma zip_flares_spec : forall n fw en la lo te tp, length fw = n -> length en = n -> length la = n -> length lo = n ->
  length te = n -> length tp = n ->
  length (zip_flares fw en la lo te tp) = n /\
  forall i d, (i < n)%nat -> nth i (zip_flares fw en la lo te tp) d
    = mkFlare (nth i fw NaN) (nth i en NaN) (nth i la 0) (nth i lo 0) (nth i te NaN) (nth i tp 0).
Proof.
  induction n; intros; destruct fw, en, la, lo, te, tp; try discriminate.
  - split; auto. intros; lia.
  - cbn [length] in *. destruct (IHn fw en la lo te tp) as [A B]; try lia. cbn [zip_flares length]. split. lia.
    intros. destruct i; cbn [nth]; auto. apply B. lia.
Qed.
Lemma ntotal_eq : forall g em time, lg_min_energy g = Fin em -> 0 < em ->
  ntotal g (Fin time) = Fin (Rpower 10 (lg_beta g) * Rpower em (lg_alpha g) * time).
Proof.
  intros. unfold ntotal, nexp_gt, frequency_gt. rewrite H, npow_pos_fin, !nmul_fin by auto. auto.
Qed.
Lemma C44_lemma : forall g em time pdraw d, flaregen_ok g em -> draws_ok d -> 0 < time ->
  exists l, generate_flare_series g time pdraw d = Ok l /\ length l = pdraw /\
    (forall f, In f l -> exists E w T, flare_is f w E T /\ em <= E /\ 0 < w /\ 0 <= fl_tpeak f) /\
    (* the i-th flare is made from the i-th draws *)
    (pdraw <> 0%nat -> exists peaks, get_peaks g pdraw (ld_cl d) (ld_e d) = Ok peaks /\
       forall i x, (i < pdraw)%nat -> let f := nth i l x in
         fl_tpeak f = nth i peaks 0 * time
         /\ area_uniform (ld_x d i) (ld_ulon d i) (fl_lat f) (fl_lon f)
         /\ exists E w T wm Tm, flare_is f w E T /\ lg_fwhm_mean g = Fin wm /\ lg_teff_mean g = Fin Tm
            /\ flare_cdf g (Fin E) = Fin (ld_u d i)
            /\ ln w / ln 10 = ln wm / ln 10 + lg_fwhm_logsigma g * ld_zf d i
            /\ T = Tm + lg_teff_sigma g * ld_zt d i) /\
    (forall i x, (S i < length l)%nat -> fl_tpeak (nth i l x) <= fl_tpeak (nth (S i) l x)).
Proof.
  intros g em time n d [He [em0 [al [[c [Hc c0]] [[w [Hw w0]] [Ht [ls [ts [T HT]]]]]]]]] [Hu [Hx [Hxx Hlo]]] time0.
  unfold generate_flare_series. rewrite (ntotal_eq g em time He em0).
  set (lam := _ * time). assert (L : 0 < lam).
  { unfold lam. apply Rmult_lt_0_compat; auto. apply Rmult_lt_0_compat; apply Rpower_pos. }
  assert (poisson (Fin lam) n = Ok n) as ->. { unfold poisson. rdec; try lra; auto. }
  cbn [bind]. destruct n as [|n'].
  { exists []. split; auto. split; auto. split. intros f []. split. congruence. intros i x I. simpl in I; lia. }
  set (n := S n') in *. assert (N1 : (1 <= n)%nat) by (unfold n; lia). clearbody n. clear n'.
  rewrite (quantile_eq g em) by (auto; intros x I; apply in_map_iff in I; destruct I as [i [<- _]]; auto).
  cbn [bind]. destruct (C41_lemma g n (ld_cl d) (ld_e d) c N1 Hc c0 Hx) as [sz [pk [-> [Lp [_ [_ [_ [_ [Pp Mp]]]]]]]]]. cbn [bind].
  unfold gen_fwhm. rewrite Ht. cbn [negb]. destruct (Rltb (lg_fwhm_logsigma g) 0) eqn:E1; rb; [lra|].
  cbn [bind]. unfold gen_teffs. destruct (Rltb (lg_teff_sigma g) 0) eqn:E2; rb; [lra|]. cbn [bind gen_coords].
  eexists. split; [reflexivity|].
  match goal with |- context [zip_flares ?fw ?en ?la ?lo ?te ?tp] =>
    destruct (zip_flares_spec n fw en la lo te tp) as [Lz Nz]; try (rewrite !map_length, ?seq_length; auto) end.
  assert (LG : nlog10 (Fin w) = Fin (ln w / ln 10)).
  { pose proof ln10_pos. unfold nlog10, nln. rdec; try lra. apply ndiv_fin. lra. }
  split; [exact Lz|]. split; [|split].
  - intros f I. apply (In_nth _ _ (mkFlare NaN NaN 0 0 NaN 0)) in I. destruct I as [i [Li <-]]. rewrite Lz in Li. rewrite Nz by auto.
    exists (fq em (lg_alpha g) (ld_u d i)), (Rpower 10 (ln w / ln 10 + lg_fwhm_logsigma g * ld_zf d i)), (T + lg_teff_sigma g * ld_zt d i).
    unfold flare_is. cbn [fl_fwhm fl_energy fl_teff fl_tpeak]. rewrite map_map. rewrite !nth_map_seq by auto.
    rewrite HT, Hw, LG.
    rewrite !nadd_fin. repeat split; auto.
    + apply fq_ge; auto. + apply Rpower_pos.
    + rewrite (nth_map_in R _ _ _ _ 0) by lia. apply Rmult_le_pos; [apply Pp; auto|lra].
  - intros _. exists pk. split. reflexivity. intros i x Hi. rewrite Nz by auto.
    cbv zeta. cbn [fl_fwhm fl_energy fl_teff fl_tpeak fl_lat fl_lon]. rewrite map_map. rewrite !nth_map_seq by auto.
    split. rewrite (nth_map_in R _ _ _ _ 0) by lia. auto. split. apply iso_uniform; [apply Hxx | apply Hlo].
    exists (fq em (lg_alpha g) (ld_u d i)), (Rpower 10 (ln w / ln 10 + lg_fwhm_logsigma g * ld_zf d i)), (T + lg_teff_sigma g * ld_zt d i), w, T.
    rewrite HT, Hw, LG, !nadd_fin. pose proof ln10_pos. split. repeat split. split; auto. split; auto. split.
    + rewrite (flare_cdf_eq g em) by (auto; pose proof (fq_ge em (lg_alpha g) (ld_u d i) em0 al (Hu i)); lra). rewrite fcdf_fq; auto.
    + split; auto. unfold Rpower. rewrite ln_exp. field. lra.
  - intros i x I. rewrite Lz in I. rewrite !Nz by lia. cbn [fl_tpeak]. rewrite !(nth_map_in R _ _ _ _ 0) by lia.
    apply Rmult_le_compat_r; [lra|]. apply Mp; auto.
Qed.
Lemma C44_off_lemma : forall time pdraw d, generate_flare_series lg_off time pdraw d = Ok [].
Proof.
  intros. unfold generate_flare_series, ntotal, nexp_gt, frequency_gt. cbn [lg_off lg_min_energy lg_alpha lg_beta npow].
  rdec; try lra. rewrite !nmul_fin. replace (Rpower 10 (2687 / 100) * 0 * time) with 0 by ring.
  unfold poisson. rdec; try lra. reflexivity.
Qed.

(** ** C45 *)
Lemma rtrapz_trapezoid : forall c xs, rtrapz xs (map c xs) = trapezoid c xs.
Proof.
  induction xs; auto. destruct xs; auto. cbn [map rtrapz trapezoid] in *. rewrite IHxs. lra.
Qed.
Lemma get_timearea_eq : forall f c ts, area_of f c -> get_timearea f ts = Ok (Fin (24 * trapezoid c ts)).
Proof.
  intros. unfold get_timearea. rewrite H. cbn [bind].
  assert (map (fun t => Fin (c t)) ts = map Fin (map c ts)) as -> by (rewrite map_map; auto).
  rewrite ntrapz_fin, nmul_fin, rtrapz_trapezoid. f_equal. f_equal. ring.
Qed.
Lemma trapezoid_nonneg : forall c a b n, a <= b -> (forall x, 0 <= c x) -> 0 <= trapezoid c (linspace a b n).
Proof.
  intros. rewrite <- rtrapz_trapezoid. rewrite <- (rtrapz_0 (linspace a b n)) at 1.
  apply rtrapz_le. intros i I. rewrite linspace_length in I. apply linspace_mono; auto. intros. apply H0.
Qed.
Lemma Int_part_le : forall x z, IZR z <= x -> (z <= Int_part x)%Z.
Proof. intros. pose proof (base_Int_part x). apply Zlt_succ_le. apply lt_IZR. unfold Z.succ. rewrite plus_IZR. lra. Qed.
Lemma Int_part_lt : forall x z, x < IZR z -> (Int_part x < z)%Z.
Proof. intros. pose proof (base_Int_part x). apply lt_IZR. lra. Qed.
Lemma ten_min_pos : 0 < TEN_MIN.
Proof. unfold TEN_MIN. lra. Qed.
Lemma C45_lemma : forall l t0 t1 so, t0 <= t1 ->
  (forall f, In f l -> exists w E T, flare_is f w E T /\ 0 < w /\ 0 < T /\ 0 <= E) ->
  exists r N, flc_integral (flc_init l) t0 t1 so = Ok r /\
    INR N <= (t1 - t0) / (10 / 1440) < INR N + 1 /\
    Forall2 (fun f p => fst p = fl_teff f /\
       exists c xs v, area_of f c /\ length xs = N /\
         (forall i, (i < N)%nat -> nth i xs 0 = t0 + INR i * ((t1 - t0) / INR (N - 1))) /\
         snd p = Fin v /\ v = 24 * trapezoid c xs /\ 0 <= v /\
         (t1 - t0 < 20 / 1440 -> v = 0))
      (flc_visible (flc_init l) t0 t1 so) r.
Proof.
  intros l t0 t1 so Le Hl. unfold flc_integral.
  assert (Ev : flc_visible (flc_init l) t0 t1 (Some (sub_obs so)) = flc_visible (flc_init l) t0 t1 so)
    by (destruct so; reflexivity).
  rewrite Ev. change (10 / 1440) with TEN_MIN. pose proof ten_min_pos as TP.
  set (x := (t1 - t0) / TEN_MIN). assert (X0 : 0 <= x) by (apply le_div; lra).
  unfold rtrunc. destruct (Rle_dec 0 x) as [_|]; [|lra].
  assert (Z0 : (0 <= Int_part x)%Z) by (apply Int_part_le; auto).
  destruct (Z.ltb_spec (Int_part x) 0); [lia|]. set (N := Z.to_nat (Int_part x)).
  assert (EN : INR N = IZR (Int_part x)). { unfold N. rewrite INR_IZR_INZ, Z2Nat.id; auto. }
  assert (Hv : forall f, In f (flc_visible (flc_init l) t0 t1 so) -> In f l).
  { intros f I. unfold flc_visible in I. destruct (sub_obs so). apply filter_In in I. destruct I as [I _].
    rewrite in_period_eq in I. apply filter_In in I. tauto. }
  assert (BN : INR N <= x < INR N + 1). { rewrite EN. pose proof (base_Int_part x). lra. }
  assert (K : forall vis, (forall f, In f vis -> In f l) ->
    exists r, mapM (fun f => do ta <- get_timearea f (linspace t0 t1 N) ;; Ok (fl_teff f, ta)) vis = Ok r /\
      Forall2 (fun f p => fst p = fl_teff f /\
       exists c xs v, area_of f c /\ length xs = N /\
         (forall i, (i < N)%nat -> nth i xs 0 = t0 + INR i * ((t1 - t0) / INR (N - 1))) /\
         snd p = Fin v /\ v = 24 * trapezoid c xs /\ 0 <= v /\
         (t1 - t0 < 20 / 1440 -> v = 0)) vis r).
  { induction vis as [|f vis IH]; intros Hin. exists []. split; auto.
    destruct IH as [r [E F]]. intros; apply Hin; right; auto.
    destruct (Hl f) as [w [En [T [Fi [w0 [T0 E0]]]]]]. apply Hin; left; auto.
    pose proof (areacurve_eq f w En T Fi w0 T0) as Ac. set (c := fun t => _) in Ac.
    cbn [mapM]. rewrite (get_timearea_eq f c) by auto. cbn [bind]. rewrite E. cbn [bind].
    eexists. split; [reflexivity|]. constructor; auto. cbn [fst snd]. split; auto.
    exists c, (linspace t0 t1 N), (24 * trapezoid c (linspace t0 t1 N)).
    repeat split; auto.
    - apply linspace_length.
    - intros. apply linspace_nth; auto.
    - assert (0 <= trapezoid c (linspace t0 t1 N)); [|lra]. apply trapezoid_nonneg; auto.
      intros. unfold c. apply Rmult_le_pos. apply shape_range. apply rpeak_nonneg; auto.
    - intros S. assert (L2 : (N < 2)%nat).
      { apply INR_lt. assert (x < 2) by (unfold x; apply div_lt; [lra|unfold TEN_MIN; lra]). simpl. lra. }
      destruct N as [|[|]]; [| |lia]; cbn [linspace seq map trapezoid]; ring. }
  destruct (K _ Hv) as [r [E F]]. exists r, N. auto.
Qed.
Lemma C45_neg_lemma : forall l t0 t1 so, t1 <= t0 - 10 / 1440 ->
  flc_integral (flc_init l) t0 t1 so = Raise ValueError.
Proof.
  intros. unfold flc_integral. pose proof ten_min_pos.
  assert (X : (t1 - t0) / TEN_MIN <= -1) by (apply div_le; unfold TEN_MIN in *; lra).
  unfold rtrunc. destruct (Rle_dec 0 ((t1 - t0) / TEN_MIN)); [lra|].
  assert (1 <= Int_part (- ((t1 - t0) / TEN_MIN)))%Z by (apply Int_part_le; lra).
  destruct (Z.ltb_spec (- Int_part (- ((t1 - t0) / TEN_MIN))) 0); auto. lia.
Qed.

(** ** C44, star *)
Lemma star_op_flares : forall s s', star_op s s' -> st_flares s' = st_flares s.
Proof.
  intros s s' H. destruct H.
  - unfold star_age in H. destruct (sc_age (st_spots s) t); [|discriminate]. cbn [bind] in H. injection H as <-. auto.
  - auto.
  - unfold star_add_fac in H. destruct (fcc_add (st_facs s) l); [|discriminate]. injection H as <-. auto.
  - unfold star_birth_spots in H. destruct (sg_birth _ _ _ _ _ _); [|discriminate]. injection H as <-. auto.
  - unfold star_birth_faculae, star_add_fac in H. destruct (fg_birth _ _ _ _ _); [|discriminate]. cbn [bind] in H.
    destruct (fcc_add _ _); [|discriminate]. injection H as <-. auto.
  - unfold star_mature_spots in H. destruct (sg_generate_mature _ _ _ _ _ _); [|discriminate]. injection H as <-. auto.
Qed.
Lemma star_ops_flares : forall s s', star_ops s s' -> st_flares s' = st_flares s.
Proof. induction 1; auto. rewrite IHstar_ops. apply star_op_flares; auto. Qed.
Lemma C44_star_lemma : forall teff radius period spots facs gp flg spg fcg gran u1 u2 s s',
  star_init teff radius period spots facs gp flg spg fcg gran u1 u2 = Ok s -> star_ops s s' ->
  (forall t0 t1 so, star_flare_int s' t0 t1 so = Raise AttributeError) /\
  (forall time pdraw d s'' t0 t1 so, star_get_flares s' time pdraw d = Ok s'' ->
     exists l, generate_flare_series (st_flaregen s') time pdraw d = Ok l /\
       star_flare_int s'' t0 t1 so = flc_integral (flc_init l) t0 t1 so).
Proof.
  intros. assert (E : st_flares s' = None).
  { rewrite (star_ops_flares s s' H0). unfold star_init in H. destruct (grid_new gp); [|discriminate]. injection H as <-. auto. }
  split; intros.
  - unfold star_flare_int. rewrite E. auto.
  - unfold star_get_flares in H1. destruct (generate_flare_series _ _ _ _) as [l|]; [|discriminate]. cbn [bind] in H1.
    injection H1 as <-. exists l. auto.
Qed.
