(** Proofs for C133 *)
From Coq Require Import Reals ZArith Bool List Lra Lia.
From Coquelicot Require Import Rcomplements.
From Verif Require Import Num Py MConfig MHelpers MGrid MSpots MFaculae MXoflares MFlares MGranules MStar MSingle MDouble MAge64 MClean64
  Spec SpecStar SpecDisk SpecSingle SpecDouble SpecAge64 SpecClean64 LBase LSingle LDouble LDoubleSum LAge64.
Import ListNotations.
Open Scope R_scope.

(** the faculae that are not removed while they age by the times [ts] *)
Fixpoint kept (ex lg : R -> R) (e2 : R) (ts : list R) (f : facula) : bool :=
  match ts with
  | [] => true
  | t :: ts => negb (fac_dead64 e2 (fac_age64 ex lg f (Fin t))) && kept ex lg e2 ts (fac_age64 ex lg f (Fin t))
  end.
Lemma filter_map_comm : forall A B (f : A -> B) (p : B -> bool) l, filter p (map f l) = map f (filter (fun x => p (f x)) l).
Proof. intros A B f p. induction l as [|x l IH]. reflexivity. cbn. destruct (p (f x)); cbn; rewrite IH; reflexivity. Qed.
Lemma filter_filter' : forall A (p q : A -> bool) l, filter q (filter p l) = filter (fun x => p x && q x) l.
Proof. intros A p q. induction l as [|x l IH]. reflexivity. cbn. destruct (p x); cbn; rewrite ?IH; reflexivity. Qed.
Lemma coll_kept : forall ex lg e2 ts c, fcc_facs (collection64 ex lg e2 c ts) = map (fun f => aged64 ex lg f ts) (filter (kept ex lg e2 ts) (fcc_facs c))
  /\ fcc_grid (collection64 ex lg e2 c ts) = fcc_grid c.
Proof.
  intros ex lg e2. induction ts as [|t ts IH]; intros c.
  - split; [|reflexivity]. change (collection64 ex lg e2 c []) with c. induction (fcc_facs c) as [|x l IL]; cbn in *; congruence.
  - unfold collection64. cbn [fold_left]. fold (collection64 ex lg e2 (fcc_age64 ex lg e2 c (Fin t)) ts). destruct (IH (fcc_age64 ex lg e2 c (Fin t))) as [E1 E2]. rewrite E1, E2. split; [|reflexivity].
    unfold fcc_age64. cbn [fcc_facs]. rewrite filter_map_comm, filter_map_comm, map_map, filter_filter'. cbn [kept]. reflexivity.
Qed.
Lemma kept_prefixes : forall ex lg e2 ts f, (forall k, (1 <= k <= length ts)%nat -> fac_dead64 e2 (aged64 ex lg f (firstn k ts)) = false) -> kept ex lg e2 ts f = true.
Proof.
  intros ex lg e2. induction ts as [|t ts IH]; intros f H. reflexivity. cbn [kept]. specialize (H 1%nat) as H1. cbn in H1. unfold aged64 in H1. cbn in H1. rewrite H1 by lia. cbn [negb andb].
  apply IH. intros k K. specialize (H (Datatypes.S k)). cbn [firstn length] in H. apply H. lia.
Qed.
Lemma kept_end : forall ex lg e2 ts f, ts <> [] -> fac_dead64 e2 (aged64 ex lg f ts) = true -> kept ex lg e2 ts f = false.
Proof.
  intros ex lg e2. induction ts as [|t ts IH]; intros f N H. congruence. cbn [kept]. unfold aged64 in H. cbn [fold_left] in H.
  destruct ts as [|t' ts]. cbn [fold_left] in H. rewrite H. reflexivity. rewrite IH. apply andb_false_r. discriminate. exact H.
Qed.
Lemma exp2_num : 4 <= exp 2 <= 16.
Proof.
  replace 2 with (1 + 1) by lra. rewrite exp_plus. pose proof (exp_ineq1_le 1). pose proof exp_le_3. split; nra.
Qed.
Lemma ln_pow2 : forall z, ln (powerRZ 2 z) = IZR z * ln 2.
Proof.
  intros [|p|p]; cbn [powerRZ]. rewrite ln_1; lra. rewrite ln_pow, INR_IPR by lra. reflexivity.
  rewrite ln_Rinv, ln_pow, INR_IPR by (try apply pow_lt; lra). change (IZR (Z.neg p)) with (- IPR p). ring.
Qed.
(** the threshold *)
Lemma threshold : forall e2 rm, accurate_e2 e2 -> sane64 rm -> exists th, div64 (Fin rm) (Fin e2) = Fin th /\ 0 < th /\ Rabs (ln th - (ln rm - 2)) <= / 100000000000000.
Proof.
  intros e2 rm A [_ [S1 S2]]. unfold accurate_e2 in A. pose proof exp2_num as E. pose proof (p2_pos (-300)) as P3.
  destruct (ln_close (exp 2) e2 (/ 1125899906842624)) as [PE LE]; [lra|lra|lra|]. rewrite ln_exp in LE.
  assert (B : 3 <= e2 <= 17) by (apply Rabs_le_between in A; lra).
  rewrite div_fin by lra. assert (Q : 0 < rm / e2) by (apply Rdiv_lt_0_compat; lra).
  assert (Q1 : powerRZ 2 (-1022) <= rm / e2).
  { apply Rle_trans with (powerRZ 2 (-305)). apply p2_le. lia.
    assert (K : powerRZ 2 (-300) = powerRZ 2 (-305) * 32). { change (-300)%Z with (-305 + 5)%Z. rewrite powerRZ_add by lra. f_equal. unfold powerRZ. simpl. lra. }
    pose proof (p2_pos (-305)) as P5. apply Rle_div_r. lra. apply Rle_trans with (powerRZ 2 (-305) * 32); [|lra]. apply Rmult_le_compat_l; lra. }
  rewrite (fin_abs 300) ; [|lia|].
  2: { rewrite Rabs_right by lra. apply Rle_trans with rm; [|auto]. apply Rle_div_l. lra. nra. }
  destruct (ln_rnd (rm / e2) Q1) as [T1 T2]. exists (f64_round (rm / e2)). split. reflexivity. split. auto.
  assert (LD : ln (rm / e2) = ln rm - ln e2) by (apply ln_div; lra). rewrite LD in T2. apply Rabs_le_between in T2. apply Rabs_le_between in LE.
  assert (V : vv <= / 1000000000000000) by (unfold vv, u64; lra). apply Rabs_le_between. lra.
Qed.
Lemma rsum_firstn : forall ts k, (forall t, In t ts -> 0 <= t) -> 0 <= rsum (firstn k ts) <= rsum ts.
Proof.
  induction ts as [|t ts IH]; intros [|k] H; cbn [firstn].
  - cbn; lra.
  - cbn; lra.
  - split. cbn; lra. assert (0 <= rsum (t :: ts)); [|cbn in *; lra]. change (rsum (t :: ts)) with (t + rsum ts). pose proof (H t (or_introl eq_refl)). destruct (IH 0%nat (fun x I => H x (or_intror I))). cbn in *. lra.
  - change (rsum (t :: firstn k ts)) with (t + rsum (firstn k ts)). change (rsum (t :: ts)) with (t + rsum ts). pose proof (H t (or_introl eq_refl)). destruct (IH k (fun x I => H x (or_intror I))). lra.
Qed.
Lemma in_firstn : forall A (l : list A) k x, In x (firstn k l) -> In x l.
Proof. induction l as [|a l IH]; intros [|k] x I; cbn in *; try contradiction. destruct I; eauto. Qed.
Lemma dead_when : forall ex lg e2 f r rm L ts, accurate_exp ex -> accurate_log lg -> accurate_e2 e2 -> sane_facula f r rm L -> (forall t, In t ts -> time64 t) ->
  INR (length ts) <= 1000000000 -> 2 * rsum ts / L <= 250 ->
  let e := drift64 (length ts) (2 * rsum ts / L) (ln (rm / r)) in
  (rsum ts <= lifespan f r rm L - e * L -> fac_dead64 e2 (aged64 ex lg f ts) = false)
  /\ (lifespan f r rm L + e * L <= rsum ts -> fac_dead64 e2 (aged64 ex lg f ts) = true).
Proof.
  intros ex lg e2 f r rm L ts AE AL A2 (FS & SR & SM & SL & LE) HT HN HX e. destruct (threshold e2 rm A2 SM) as (th & TH & PT & LT).
  destruct (C130_law_lemma ex lg f r rm L ts AE AL FS SR SM SL LE HT ltac:(lra) HX) as (r' & b & re & FA & _ & PR & G1 & G2).
  destruct FS as (_ & FR & _). pose proof (p2_pos (-300)) as P3. assert (Pr : 0 < r) by (destruct SR as [_ [? _]]; lra). assert (PL : 0 < L) by (destruct SL as [_ [? _]]; lra). assert (Pm : 0 < rm) by lra.
  destruct FA as (_ & _ & FM & FRAD & _ & _ & _ & _ & _ & _ & _ & FG & _).
  assert (TP : forall t, In t ts -> 0 <= t) by (intros t I; destruct (HT t I) as [_ [? _]]; auto). destruct (rsum_firstn ts 0 TP) as [_ ST]. cbn in ST.
  assert (Y : 0 <= ln (rm / r) <= 450).
  { rewrite ln_div by lra. split. assert (ln r <= ln rm) by (destruct (Req_dec r rm) as [->|]; [lra|]; left; apply ln_increasing; lra). lra.
    destruct SR as [_ [SR _]], SM as [_ [_ SM]]. assert (LB : forall x y, 0 < x -> x <= y -> ln x <= ln y) by (intros x y X [XY| ->]; [left; apply ln_increasing; auto|lra]).
    pose proof (LB _ _ Pm SM) as B1. pose proof (LB _ _ P3 SR) as B2. rewrite ln_pow2 in B1, B2. pose proof ln2_hi. lra. }
  assert (X : 0 <= 2 * rsum ts / L) by (apply Rmult_le_pos; [lra|left; apply Rinv_0_lt_compat; lra]).
  assert (NN : 0 <= INR (length ts)) by apply pos_INR.
  assert (E0 : 2 / 100000000000000 <= e <= / 10000) by (unfold e, drift64; split; lra).
  unfold fac_dead64. rewrite FRAD, FM, FR, TH, FG.
  assert (NLE : forall x y, nle (Fin x) (Fin y) = Rleb x y) by reflexivity. rewrite NLE.
  (* the logarithm of the radius *)
  assert (KEY : forall d, re = rm * exp (- (2 * d)) -> Rabs (r' - re) <= e * re -> 0 < r' /\ Rabs (ln r' - (ln rm - 2 * d)) <= e * 1.001).
  { intros d -> HR. destruct (ln_close (rm * exp (- (2 * d))) r' e) as [K1 K2]; auto. lra. split; auto. rewrite ln_mult, ln_exp in K2 by (auto; apply exp_pos). replace (ln rm - 2 * d) with (ln rm + - (2 * d)) by ring. exact K2. }
  assert (BIG : forall d, re = rm * exp (- (2 * d)) -> Rabs (r' - re) <= e * re -> d <= 1 - e -> Rleb r' th = false).
  { intros d D HR DE. destruct (KEY d D HR) as [K1 K2]. apply Rabs_le_between in K2. apply Rabs_le_between in LT. destruct (Rleb r' th) eqn:RL; auto. apply Rleb_true in RL.
    assert (ln r' <= ln th) by (destruct RL as [RL| ->]; [left; apply ln_increasing; auto|lra]). lra. }
  assert (SMALL : forall d, re = rm * exp (- (2 * d)) -> Rabs (r' - re) <= e * re -> 1 + e <= d -> Rleb r' th = true).
  { intros d D HR DE. destruct (KEY d D HR) as [K1 K2]. apply Rabs_le_between in K2. apply Rabs_le_between in LT. apply Rleb_true. apply Rnot_lt_le. intros RL.
    assert (ln th < ln r') by (apply ln_increasing; auto). lra. }
  unfold lifespan. destruct (fc_growing f) eqn:GR.
  - destruct (G1 eq_refl) as (RE & HR & B1 & B2). fold e in HR, B1, B2. set (peak := time_to_peak r rm L) in *.
    assert (RE' : re = rm * exp (- (2 * (Rabs (rsum ts - peak) / L)))) by (rewrite RE; do 2 f_equal; field; lra).
    split; intros H.
    + destruct b. apply andb_false_r. rewrite (BIG _ RE' HR). reflexivity. specialize (B2 eq_refl). apply Rle_div_l. lra. apply Rabs_le_between.
      assert (0 <= e * L) by (apply Rmult_le_pos; lra). assert (e * L <= / 10000 * L) by (apply Rmult_le_compat_r; lra). lra.
    + destruct b. { specialize (B1 eq_refl). lra. } rewrite (SMALL _ RE' HR). reflexivity. apply Rle_div_r. lra. pose proof (Rle_abs (rsum ts - peak)). lra.
  - destruct (G2 eq_refl) as (RE & HR & ->).
    assert (HR' : Rabs (r' - re) <= e * re). { eapply Rle_trans. exact HR. apply Rmult_le_compat_r. lra. unfold e, drift64. lra. }
    assert (RE' : re = rm * exp (- (2 * (rsum ts / L + ln (rm / r) / 2)))).
    { rewrite RE. replace (- (2 * (rsum ts / L + ln (rm / r) / 2))) with (- 2 * rsum ts / L + - ln (rm / r)) by (field; lra). rewrite exp_plus, exp_Ropp, exp_ln by (apply Rdiv_lt_0_compat; lra). field. lra. }
    split; intros H.
    + rewrite (BIG _ RE' HR'). reflexivity. assert (rsum ts / L <= 1 - e - ln (rm / r) / 2); [|lra]. apply Rle_div_l. lra. lra.
    + rewrite (SMALL _ RE' HR'). reflexivity. assert (1 + e - ln (rm / r) / 2 <= rsum ts / L); [|lra]. apply Rle_div_r. lra. lra.
Qed.

Lemma C133_lemma : forall ex lg e2 c ts, accurate_exp ex -> accurate_log lg -> accurate_e2 e2 -> (forall t, In t ts -> time64 t) ->
  INR (length ts) <= 1000000000 ->
  (forall f, In f (fcc_facs c) -> exists r rm L, sane_facula f r rm L /\ 2 * rsum ts / L <= 250) ->
  exists keep : facula -> bool,
    fcc_facs (collection64 ex lg e2 c ts) = map (fun f => aged64 ex lg f ts) (filter keep (fcc_facs c))
    /\ fcc_grid (collection64 ex lg e2 c ts) = fcc_grid c
    /\ forall f r rm L, In f (fcc_facs c) -> sane_facula f r rm L ->
         let e := drift64 (length ts) (2 * rsum ts / L) (ln (rm / r)) in
         (rsum ts <= lifespan f r rm L - e * L -> keep f = true)
         /\ (ts <> [] -> lifespan f r rm L + e * L <= rsum ts -> keep f = false).
Proof.
  intros ex lg e2 c ts AE AL A2 HT HN HF. exists (kept ex lg e2 ts). destruct (coll_kept ex lg e2 ts c) as [E1 E2]. split. auto. split. auto.
  intros f r rm L I SF e. assert (HX : 2 * rsum ts / L <= 250).
  { destruct (HF f I) as (r1 & rm1 & L1 & S1 & X1). destruct SF as ((_ & _ & F1) & _), S1 as ((_ & _ & F2) & _). rewrite F1 in F2. injection F2 as ->. exact X1. }
  assert (PL : 0 < L) by (destruct SF as (_ & _ & _ & [_ [? _]] & _); pose proof (p2_pos (-300)); lra).
  assert (TP : forall t, In t ts -> 0 <= t) by (intros t J; destruct (HT t J) as [_ [? _]]; auto). split.
  - intros H. apply kept_prefixes. intros k K. destruct (rsum_firstn ts k TP) as [S0 S1].
    assert (LK : INR (length (firstn k ts)) <= INR (length ts)) by (apply le_INR; rewrite firstn_length; lia).
    assert (XK : 2 * rsum (firstn k ts) / L <= 2 * rsum ts / L) by (apply Rmult_le_compat_r; [left; apply Rinv_0_lt_compat; auto|lra]).
    destruct (dead_when ex lg e2 f r rm L (firstn k ts) AE AL A2 SF) as [D _].
    { intros t J. apply HT. eapply in_firstn; eauto. } lra. lra. apply D.
    apply Rle_trans with (rsum ts); [lra|]. apply Rle_trans with (lifespan f r rm L - e * L); [exact H|]. apply Rplus_le_compat_l. apply Ropp_le_contravar. apply Rmult_le_compat_r. lra. unfold e, drift64. lra.
  - intros N H. apply kept_end. exact N. destruct (dead_when ex lg e2 f r rm L ts AE AL A2 SF HT HN HX) as [_ D]. apply D. exact H.
Qed.

(** without rounding, a facula is removed from that age on *)
Lemma C133_exact_lemma : forall f r rm L t, fac_state f r rm L -> 0 < r -> r <= rm -> 0 < L -> 0 <= t ->
  (fac_dead (fac_age f (Fin t)) = true <-> lifespan f r rm L <= t).
Proof.
  intros f r rm L t (FR & FM & FL) Pr Hr PL Ht. assert (Pm : 0 < rm) by lra.
  assert (E2 : exp 1 ^ 2 = exp 2) by (replace 2 with (1 + 1) by lra; rewrite exp_plus; ring).
  assert (Nz : exp 2 <> 0) by (pose proof (exp_pos 2); lra).
  assert (DIV : forall x y, y <> 0 -> ndiv (Fin x) (Fin y) = Fin (x / y)) by (intros; rewrite ndiv_fin; auto).
  assert (KEY : forall d, Rleb (rm * exp (- (2 * d))) (rm / exp 2) = true <-> 1 <= d).
  { intros d. rewrite Rleb_true. unfold Rdiv. rewrite <- exp_Ropp. split; intros K.
    - apply Rmult_le_reg_l in K; [|auto]. apply Rnot_lt_le. intros D. assert (exp (- (2)) < exp (- (2 * d))) by (apply exp_increasing; lra). lra.
    - apply Rmult_le_compat_l. lra. destruct K as [K|K]; [left; apply exp_increasing; lra|right; f_equal; lra]. }
  unfold lifespan, fac_dead, fac_age. destruct (fc_growing f) eqn:G.
  - rewrite FR, FM, FL, (DIV r rm) by lra. cbv zeta. assert (Q : 0 < r / rm) by (apply Rdiv_lt_0_compat; lra). rewrite nln_fin by auto. rewrite !nmul_fin.
    assert (TP : -1 * ln (r / rm) * L * (1 / 2) = time_to_peak r rm L) by (unfold time_to_peak; rewrite !ln_div by lra; field). rewrite TP.
    set (peak := time_to_peak r rm L) in *. change (nle (Fin peak) (Fin t)) with (Rleb peak t). destruct (Rleb peak t) eqn:B.
    + apply Rleb_true in B. rewrite nsub_fin, nmul_fin, (DIV _ L) by lra. cbn [nexp]. rewrite nmul_fin. cbn [fac_with fc_radius fc_rmax fc_growing].
      rewrite FM, DIV, E2 by (rewrite E2; auto). change (nle (Fin ?a) (Fin ?b)) with (Rleb a b). rewrite andb_true_r.
      replace (-2 * (t - peak) / L) with (- (2 * ((t - peak) / L))) by (field; lra). rewrite KEY.
      split; intros K. { apply Rle_div_r in K; lra. } { apply Rle_div_r; lra. }
    + rewrite andb_false_r. split; intros K. discriminate. exfalso. assert (~ peak <= t) by (rewrite <- Rleb_true; congruence). lra.
  - rewrite FR, FL, nmul_fin, (DIV _ L) by lra. cbn [nexp]. rewrite nmul_fin. cbn [fac_with fc_radius fc_rmax fc_growing].
    rewrite FM, DIV, E2 by (rewrite E2; auto). change (nle (Fin ?a) (Fin ?b)) with (Rleb a b). rewrite andb_true_r.
    replace (r * exp (-2 * t / L)) with (rm * exp (- (2 * (t / L + ln (rm / r) / 2)))).
    2: { replace (- (2 * (t / L + ln (rm / r) / 2))) with (-2 * t / L + - ln (rm / r)) by (field; lra). rewrite exp_plus, exp_Ropp, exp_ln by (apply Rdiv_lt_0_compat; lra). field. lra. }
    rewrite KEY. split; intros K.
    + assert (K' : 1 - ln (rm / r) / 2 <= t / L) by lra. apply Rle_div_r in K'; lra.
    + assert (1 - ln (rm / r) / 2 <= t / L); [apply Rle_div_r; lra|lra].
Qed.
