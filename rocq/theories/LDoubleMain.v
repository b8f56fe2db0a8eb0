(** Lemmas for C110-C111: the theorems about the report in double precision *)
From Coq Require Import Reals ZArith Bool List Lra Lia Sorted Permutation Classical FunctionalExtensionality.
From Verif Require Import Num Py MConfig MHelpers MGrid MSpots MFaculae MXoflares MFlares MGranules MStar MSingle MDouble
  Spec SpecStar SpecDisk SpecSingle SpecDouble LBase LGrid LSpotMap LSpotCov LStar LDisk LStarFac LStarCov LSym LTransit LSingle LSingleRep LReport
  LDouble LDoubleSum LDoubleRep.
Import ListNotations.
Open Scope R_scope.

Lemma within_a : forall n l p c, weights64 n l p c -> (forall i, (i < n)%nat -> no_underflow (l i * p i)) -> within 2 n (wa l p) (fun i => l i * p i).
Proof.
  intros n l p c W NU i I. destruct (W i I) as [[_ L] [[_ P] _]]. pose proof u64_pos. pose proof u64_small. assert (0 <= l i * p i) by nra. split; auto. unfold wa. destruct (NU i I) as [-> |B].
  - rewrite rnd0. lra.
  - assert (E : powerRZ 2 (-1022) <= Rabs (l i * p i)). { rewrite Rabs_right by lra. pose proof (p2_le (-1022) (-1021) ltac:(lia)). lra. }
    apply f64_round_err in E. rewrite (Rabs_right (l i * p i)) in E by lra. set (x := l i * p i) in *. fold u64 in E. unfold Rdiv in E. change (/ 9007199254740992) with u64 in E.
    assert (Q : x * (1 - u64) <= f64_round x <= x * (1 + u64)). { revert E. unfold Rabs. destruct (Rcase_abs _); lra. }
    simpl pow. assert (0 <= x * u64) by nra. assert (0 <= x * u64 * u64) by nra. assert (x * u64 * u64 <= x * u64) by nra. split; nra.
Qed.
Lemma within_b : forall n l p c, weights64 n l p c -> (forall i, (i < n)%nat -> no_underflow (l i * p i) /\ no_underflow (l i * p i * c i)) ->
  within 2 n (wb l p c) (fun i => l i * p i * c i).
Proof.
  intros n l p c W NU i I. destruct (W i I) as [[_ L] [[_ P] [_ C]]]. pose proof u64_pos. pose proof u64_small. assert (X0 : 0 <= l i * p i) by nra. split; [|nra].
  destruct (NU i I) as [NA NB]. assert (Q : l i * p i * (1 - u64) <= wa l p i <= l i * p i * (1 + u64)).
  { unfold wa. destruct NA as [-> |B]. rewrite rnd0. lra.
    assert (E : powerRZ 2 (-1022) <= Rabs (l i * p i)). { rewrite Rabs_right by lra. pose proof (p2_le (-1022) (-1021) ltac:(lia)). lra. }
    apply f64_round_err in E. rewrite (Rabs_right (l i * p i)) in E by lra. set (x := l i * p i) in *. unfold Rdiv in E. change (/ 9007199254740992) with u64 in E.
    revert E. unfold Rabs. destruct (Rcase_abs _); lra. }
  unfold wb. set (x := l i * p i) in *. set (a := wa l p i) in *.
  assert (Q2 : x * c i * (1 - u64) <= a * c i <= x * c i * (1 + u64)) by (split; nra). assert (Y0 : 0 <= x * c i) by nra.
  destruct NB as [Z|B].
  - rewrite Z in *. replace (a * c i) with 0 by lra. rewrite rnd0. lra.
  - set (y := x * c i) in *. assert (D : powerRZ 2 (-1022) <= Rabs (a * c i)).
    { rewrite Rabs_right by nra. replace (-1021)%Z with (-1022 + 1)%Z in B by lia. rewrite p2_add in B. simpl (powerRZ 2 1) in B. pose proof (p2_pos (-1022)). nra. }
    apply f64_round_err in D. rewrite (Rabs_right (a * c i)) in D by nra. set (z := a * c i) in *. unfold Rdiv in D. change (/ 9007199254740992) with u64 in D.
    assert (Q3 : z * (1 - u64) <= f64_round z <= z * (1 + u64)). { revert D. unfold Rabs. destruct (Rcase_abs _); lra. }
    simpl pow. split; nra.
Qed.
Lemma within_weaken : forall n v w, within 2 n v w -> (exists i, (i < n)%nat /\ 0 < v i) -> 0 < weight_all n w.
Proof.
  intros n v w H [i [I P]]. destruct (H i I) as [[_ U] _]. pose proof u64_pos. unfold weight_all. apply (rsum_map_pos _ _ _ i).
  - intros j J. apply in_seq in J. apply H. lia.
  - apply in_seq. lia.
  - simpl in U. nra.
Qed.
Lemma C110_lemma : forall label rnd single ord P n h l p c t T D g,
  two_decimals label -> double_rounding rnd -> single_rounding single -> inputs64 rnd ord P n h l p c T D g ->
  (forall i, (i < n)%nat -> no_underflow (l i * p i) /\ no_underflow (l i * p i * c i)) ->
  let gt := rnd (T - D) in let gs := single gt in let w := fun i => l i * p i in
  let r := report64 ord (pixels P t) (pixels P l) (pixels P p) (pixels P c) (Fin T) (Fin D) (Fin g) in
  (occurs64 label n t gt gs (label T) -> occurs64 label n t gt gs (label gt) ->
     exists tot cov, r = Ok (tot, cov) /\ reports64 label n w w t T gt gs g (h + 6) tot /\ reports64 label n w (fun i => w i * c i) t T gt gs g (h + 6) cov)
  /\ (~ (occurs64 label n t gt gs (label T) /\ occurs64 label n t gt gs (label gt)) -> r = Raise KeyError).
Proof.
  intros label rnd single ord P n h l p c t T D g TD DR SR [EP [A [N [H [W [EX [B [G VG]]]]]]]] NU gt gs w r.
  pose proof (two_kf label TD) as ->. pose proof (double_rounding_eq rnd DR) as ->. pose proof (single_rounding_eq single SR) as ->.
  assert (ER : r = do tot <- tot64 (ord n) n l p (wa l p) t T D g ;; do cov <- tot64 (ord n) n l p (wb l p c) t T D g ;; Ok (tot, cov)).
  { unfold r, pixels. apply (report64_eq ord n h); auto. }
  assert (WA : within 2 n (wa l p) w) by (eapply within_a; eauto; intros i I; apply NU; auto).
  assert (PW : 0 < weight_all n w) by (eapply within_weaken; eauto).
  assert (HN : INR (h + 6) <= 2 ^ 49). { rewrite plus_INR. simpl in *. lra. }
  assert (REP : forall v v' d, part64 n l p v -> within 2 n v v' -> tot64 (ord n) n l p v t T D g = Ok d -> reports64 kf n w v' t T gt gs g (h + 6) d).
  { intros v v' d PV WV E. destruct (entry64 (ord n) n h 2 l p c t v v' w T D g d W A EX PV WV WA PW G VG E) as [E1 [E2 E3]]. fold gt gs in E2, E3.
    split; auto. split; auto. exists (pre n w v' t gt gs). split. { intros x C. apply pre_counted; auto. } split. { intros k C. apply pre_none; auto. }
    intros k y I. destruct (E3 k y I) as [q [-> [Q1 [Q2 [Q3 Q4]]]]]. exists q. split; auto. replace (h + 2 + 4)%nat with (h + 6)%nat in * by lia.
    split; [|split; [|split]]; intros K1 K2; eapply ap_near; eauto; lra. }
  rewrite ER. split.
  - intros OT OG. destruct (tot64_ok (ord n) n h l p c t (wa l p) T D g W A EX (part_a _ _ _ _ W) G OT OG) as [d [_ [_ [E _]]]].
    destruct (tot64_ok (ord n) n h l p c t (wb l p c) T D g W A EX (part_b _ _ _ _ W) G OT OG) as [d' [_ [_ [E' _]]]].
    rewrite E, E'. cbn [bind]. exists d, d'. split; auto. split. eapply REP; eauto. eapply part_a; eauto. eapply REP; eauto. eapply part_b; eauto. eapply within_b; eauto.
  - intros O. rewrite tot64_fail by exact O. auto.
Qed.
(** ** the sum of the entries *)
Definition at_key (d : dict tkey num) (k : tkey) : R := match dget tkey_eqb d k with Some (Fin x) => x | _ => 0 end.
Lemma dict_sum_keys : forall d, NoDup (map fst d) -> dict_sum d = rsum (map (at_key d) (map fst d)).
Proof.
  intros d ND. unfold dict_sum. rewrite map_map. apply rsum_map_ext. intros [k y] I. cbn [fst snd]. unfold at_key. apply (dget_iff _ _ tkey_eqb_spec) in I; auto. rewrite I. auto.
Qed.
Lemma rsum_close : forall (f e : tkey -> R) eps q ks, (forall k, In k ks -> Rabs (f k - e k) <= eps * e k + q) ->
  Rabs (rsum (map f ks) - rsum (map e ks)) <= eps * rsum (map e ks) + INR (length ks) * q.
Proof.
  intros f e eps q. induction ks as [|k ks IH]; intros H; cbn [map length]; unfold rsum in *; cbn [fold_right].
  - rewrite Rminus_0_r, Rabs_R0. simpl. lra.
  - rewrite S_INR. assert (A : Rabs (f k - e k) <= eps * e k + q) by (apply H; left; auto). assert (B := IH (fun k I => H k (or_intror I))).
    set (x := fold_right Rplus 0 (map f ks)) in *. set (y := fold_right Rplus 0 (map e ks)) in *. replace (f k + x - (e k + y)) with ((f k - e k) + (x - y)) by ring. eapply Rle_trans. apply Rabs_triang. lra.
Qed.
Lemma weight_parts : forall (w t : nat -> R) ul, NoDup ul -> forall is, (forall i, In i is -> In (t i) ul) ->
  rsum (map (fun x => rsum (map (fun i => if Req_EM_T (t i) x then w i else 0) is)) ul) = rsum (map w is).
Proof.
  intros w t ul ND. induction is as [|i is IH]; intros H.
  - cbn [map]. apply rsum_zero. auto.
  - cbn [map]. change (rsum (w i :: map w is)) with (w i + rsum (map w is)). rewrite <- IH by (intros; apply H; right; auto).
    rewrite (rsum_map_ext _ _ (fun x => (if Req_EM_T (t i) x then w i else 0) + rsum (map (fun j => if Req_EM_T (t j) x then w j else 0) is))) by reflexivity.
    rewrite rsum_map_plus. f_equal. assert (I : In (t i) ul) by (apply H; left; auto). clear - ND I. induction ul as [|a ul IH]; [destruct I|].
    inversion ND; subst. cbn [map]. change (rsum (?a :: ?b)) with (a + rsum b). unfold rsum. cbn [fold_right]. fold (rsum (map (fun x => if Req_EM_T (t i) x then w i else 0) ul)).
    destruct (Req_EM_T (t i) a) as [E|E].
    + rewrite rsum_zero. lra. intros x J. destruct (Req_EM_T (t i) x); auto. congruence.
    + rewrite IH; auto. lra. destruct I as [I|I]; auto. congruence.
Qed.
Lemma runiq_length : forall l, (length (runiq l) <= length l)%nat.
Proof. intros l. apply NoDup_incl_length. apply sorted_NoDup, runiq_sorted. intros x I. apply runiq_In; auto. Qed.
Lemma C110_normalised_lemma : forall label rnd single ord P n h l p c t T D g tot cov,
  two_decimals label -> double_rounding rnd -> single_rounding single -> inputs64 rnd ord P n h l p c T D g ->
  distinct64 label n t (rnd (T - D)) (single (rnd (T - D))) ->
  report64 ord (pixels P t) (pixels P l) (pixels P p) (pixels P c) (Fin T) (Fin D) (Fin g) = Ok (tot, cov) ->
  (forall k y, In (k, y) tot -> exists r, y = Fin r /\ 0 <= r) /\ Rabs (dict_sum tot - 1) <= (INR h + 5) / 2^51.
Proof.
  intros label rnd single ord P n h l p c t T D g tot cov TD DR SR [EP [A [N [H [W [EX [B [G VG]]]]]]]] DI E.
  pose proof (two_kf label TD) as ->. pose proof (double_rounding_eq rnd DR) as ->. pose proof (single_rounding_eq single SR) as ->.
  unfold pixels in E. rewrite (report64_eq ord n h) in E by auto.
  apply bind_ok in E. destruct E as [tot' [E E2]]. apply bind_ok in E2. destruct E2 as [cov' [_ E2]]. injection E2 as -> _.
  set (gt := f64_round (T - D)) in *. set (gs := f32_round gt) in *. set (w := wa l p).
  assert (WA : within 0 n w w). { apply within_refl. intros i I. destruct (wa_range _ _ _ _ _ W I). unfold w. lra. }
  assert (PW : 0 < weight_all n w). { destruct EX as [i [I Pi]]. unfold weight_all. apply (rsum_map_pos _ _ _ i); auto. intros j J. apply in_seq in J. destruct (wa_range n l p c j W). lia. unfold w. lra. apply in_seq. lia. }
  destruct (entry64 (ord n) n h 0 l p c t w w w T D g tot W A EX (part_a _ _ _ _ W) WA WA PW G VG E) as [E1 [E2 E3]]. fold gt gs in E2, E3.
  (* the exact dictionary *)
  assert (O : occurs64 kf n t gt gs (kf T) /\ occurs64 kf n t gt gs (kf gt)). { apply NNPP. intros X. rewrite tot64_fail in E by exact X. discriminate. }
  destruct O as [OT OG]. set (V := fun x => weight_at n w t x / weight_all n w).
  destruct (dict_fin V _ _ _ _ _ OT) as [p0 [Ep _]], (dict_fin V _ _ _ _ _ OG) as [q0 [Eq _]].
  assert (NX : NoDup (map fst (dictx n w w t gt gs))) by (apply basen_NoDup, tkey_eqb_spec).
  destruct (grang_ok _ _ tkey_eqb_spec (dictx n w w t gt gs) (kf T) (kf gt) g p0 q0 NX Ep Eq) as [dx [_ [N1 [N2 [N3 N4]]]]].
  set (ul := runiq (map t (seq 0 n))) in *. assert (NU : NoDup ul) by apply sorted_NoDup, runiq_sorted.
  assert (S1 : dict_sum dx = 1).
  { rewrite N3. unfold dictx. fold V ul. rewrite (basen_sum _ _ tkey_eqb_spec kf V ul _ _ ul); auto; [|apply runiq_sorted|].
    - unfold V. rewrite rsum_map_div. unfold weight_at. rewrite weight_parts; auto. fold (weight_all n w). field. lra.
      intros i I. apply in_seq in I. apply ul_on. exists i. split; auto. lia.
    - intros x. unfold ul at 2. rewrite counts_counted. unfold ul. rewrite ul_on. split; [|intros C; apply C]. intros OX. destruct DI as [D1 D2]. split; auto. split.
      + intros y OY K. apply Req_le. apply D1; auto.
      + destruct D2 as [D2|D2]; auto. }
  assert (KE : forall k, In k (map fst dx) <-> In k (map fst tot)). { intros k. rewrite N2, E2. unfold dictx. apply dict_keys. }
  assert (PE : pre n w w t gt gs (kf T) = p0) by (unfold pre, dictx; fold V ul; rewrite Ep; auto).
  assert (HN : INR (h + 0 + 4) <= 2 ^ 49). { rewrite !plus_INR. simpl in *. lra. }
  assert (CL : forall k, In k (map fst tot) -> near64 (h + 0 + 4) (at_key tot k) (at_key dx k)).
  { intros k I. apply in_map_iff in I. destruct I as [[k' y] [EK I]]. cbn [fst] in EK. subst k'. destruct (E3 k y I) as [q [-> [Q1 [Q2 [Q3 Q4]]]]].
    assert (Ik : In k (map fst dx)). { apply KE. apply (in_map fst) in I. exact I. }
    apply (in_keys_iff _ _ tkey_eqb_spec) in Ik. destruct Ik as [yx Ix]. destruct (N4 k yx Ix) as [X1 [X2 [X3 X4]]].
    unfold at_key. apply (dget_iff _ _ tkey_eqb_spec) in I; auto. rewrite I, Ix.
    assert (KT : k = kf T -> pre n w w t gt gs k = p0) by (intros ->; auto).
    assert (KG : k = kf gt -> pre n w w t gt gs k = q0). { intros ->. unfold pre, dictx. fold V ul. rewrite Eq. auto. }
    destruct (classic (k = kf T)) as [C1|C1]; destruct (classic (k = kf gt)) as [C2|C2].
    - rewrite (X4 C1 C2). rewrite <- (KT C1). eapply ap_near; eauto. lra.
    - rewrite (X2 C1 C2). rewrite <- (KT C1). eapply ap_near; eauto. lra.
    - rewrite (X3 C1 C2). rewrite <- (KG C2), <- PE. eapply ap_near; eauto. lra.
    - pose proof (X1 C1 C2) as X. assert (Y : exists r, yx = Fin r). { unfold dictx in X. rewrite (basen_get _ _ tkey_eqb_spec) in X by apply runiq_sorted. destruct X as [[x [_ [_ ->]]]|[_ [_ ->]]]; eauto. }
      destruct Y as [r ->]. replace r with (pre n w w t gt gs k) by (unfold pre; rewrite X; auto). eapply ap_near; eauto. lra. }
  split.
  - intros k y I. destruct (E3 k y I) as [q [-> _]]. exists q. split; auto. pose proof (in_map fst _ _ I) as Ik. cbn [fst] in Ik. destruct (CL k Ik) as [C _]. unfold at_key in C. apply (dget_iff _ _ tkey_eqb_spec) in I; auto. rewrite I in C. auto.
  - rewrite (dict_sum_keys tot E1). rewrite (dict_sum_keys dx N1) in S1.
    assert (PM : Permutation (map fst dx) (map fst tot)) by (apply NoDup_Permutation; auto).
    rewrite (rsum_perm _ _ (Permutation_map (at_key dx) PM)) in S1.
    pose proof (rsum_close (at_key tot) (at_key dx) (INR (h + 0 + 4) / 2 ^ 51) (powerRZ 2 (-1070)) (map fst tot) (fun k I => proj2 (CL k I))) as F. rewrite S1 in F.
    assert (LEN : (length (map fst tot) <= n + 1)%nat).
    { eapply Nat.le_trans. apply (NoDup_incl_length E1 (l' := map kf ul ++ [kf gt])).
      - intros k I. apply E2 in I. apply in_or_app. destruct I as [[x [OX ->]]|[_ ->]]. left. apply in_map, ul_on; auto. right. left; auto.
      - rewrite app_length, map_length. cbn [length]. unfold ul. pose proof (runiq_length (map t (seq 0 n))) as L. rewrite map_length, seq_length in L. lia. }
    apply le_INR in LEN. rewrite plus_INR in LEN. change (INR 1) with 1 in LEN.
    assert (SM : (2 ^ 1000 + 1) * powerRZ 2 (-1070) <= / 2 ^ 51).
    { assert (Q : 2 ^ 1000 + 1 <= powerRZ 2 1001). { rewrite pow_powerRZ. replace 1001%Z with (Z.of_nat 1000 + 1)%Z by lia. rewrite p2_add. simpl (powerRZ 2 1). assert (1 <= powerRZ 2 (Z.of_nat 1000)). { change 1 with (powerRZ 2 0). apply p2_le. lia. } lra. }
      pose proof (p2_pos (-1070)). eapply Rle_trans. apply Rmult_le_compat_r. lra. exact Q. rewrite <- p2_add. replace (/ 2 ^ 51) with (powerRZ 2 (-51)). apply p2_le. lia. simpl. lra. }
    pose proof (p2_pos (-1070)) as P70. set (z := 2 ^ 1000) in *. assert (INR (length (map fst tot)) * powerRZ 2 (-1070) <= / 2 ^ 51) by nra.
    rewrite !plus_INR in F. simpl (INR 0) in F. simpl (INR 4) in F. replace ((INR h + 5) / 2 ^ 51) with ((INR h + 0 + 4) / 2 ^ 51 * 1 + / 2 ^ 51) by (field; apply pow_nonzero; lra).
    replace (1 + 1 + 1 + 1) with 4 in F by lra. lra.
Qed.
Lemma C110_weights_lemma : forall rnd ord P n u1 u2 mu jac c t T D g, double_rounding rnd -> cells P = seq 0 n -> view64 n u1 u2 mu jac c ->
  exists l p, weights64 n l p c
  /\ coverage64 ord (Fin u1) (Fin u2) (pixels P mu) (pixels P jac) (pixels P t) (pixels P c) (Fin T) (Fin D) (Fin g)
     = report64 ord (pixels P t) (pixels P l) (pixels P p) (pixels P c) (Fin T) (Fin D) (Fin g)
  /\ forall i, (i < n)%nat -> (mu i < 0 -> l i = 0) /\ (mu i <= 0 -> p i = 0) /\ (0 < mu i -> p i = rnd (jac i * mu i))
       /\ (0 <= mu i -> u1 = 0 -> u2 = 0 -> l i = 1)
       /\ (0 <= mu i -> l i = rnd (rnd (1 - rnd (u1 * rnd (1 - mu i))) - rnd (u2 * rnd (rnd (1 - mu i) * rnd (1 - mu i))))).
Proof.
  intros rnd ord P n u1 u2 mu jac c t T D g DR EP [V1 [V2 [P1 [P2 [S W]]]]]. pose proof (double_rounding_eq rnd DR) as ->.
  exists (fun i => ldr u1 u2 (mu i)), (fun i => prr (jac i) (mu i)). split; [|split].
  - intros i I. destruct (W i I) as [[Vm M] [[Vj J] C]]. destruct (ld64_fin u1 u2 (mu i)) as [_ [A B]]; auto. destruct (proj64_fin (jac i) (mu i)) as [_ [A' B']]; auto. lra. split; [split; auto; lra|]. split; auto.
  - unfold coverage64, pixels. rewrite amap_amap, amap2_amap. cbn [bind]. rewrite amap_amap.
    assert (X : forall (F F' : nat -> num), (forall i, (i < n)%nat -> F i = F' i) -> amap F P = amap F' P).
    { intros F F' H. apply amap_ext_in. rewrite EP. intros i I. apply in_seq in I. apply H. lia. }
    rewrite (X (fun x => mul64 (Fin (jac x)) (proj64 (Fin (mu x)))) (fun x => Fin (prr (jac x) (mu x)))).
    2:{ intros i I. destruct (W i I) as [[Vm M] [[Vj J] C]]. apply proj64_fin; auto. lra. }
    rewrite (X (fun x => ld64 (Fin u1) (Fin u2) (Fin (mu x))) (fun x => Fin (ldr u1 u2 (mu x)))). auto.
    intros i I. destruct (W i I) as [[Vm M] _]. apply ld64_fin; auto.
  - intros i I. unfold ldr, prr. destruct (Rlt_dec (mu i) 0); destruct (Rlt_dec 0 (mu i)); repeat split; intros; try lra; auto.
    + subst. rewrite !Rmult_0_l, rnd0, !Rminus_0_r. rewrite (f64_round_id 1) by apply f64_one. apply f64_round_id, f64_one.
    + subst. rewrite !Rmult_0_l, rnd0, !Rminus_0_r. rewrite (f64_round_id 1) by apply f64_one. apply f64_round_id, f64_one.
Qed.
