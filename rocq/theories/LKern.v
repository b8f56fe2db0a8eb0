(** Lemmas for C63: the granulation kernel is positive definite *)
From Coq Require Import Reals ZArith Bool List Lra Lia Permutation Sorted.
From Coquelicot Require Import Coquelicot.
From Verif Require Import Num Py MGranules Spec LBase LCirc LGran.
Import ListNotations.
Open Scope R_scope.

(** ** the oscillator: state (p,q), decaying and turning; energy never grows *)
Definition dP (p q x : R) : R := exp (- x) * (p * cos x - q * sin x).
Definition dQ (p q x : R) : R := exp (- x) * (p * sin x + q * cos x).
Definition energy (p q : R) : R := (p + q)^2 + 2 * q^2.
Definition en_at (p q x : R) : R := energy (dP p q x) (dQ p q x).
Lemma energy_nonneg : forall p q, 0 <= energy p q.
Proof. intros. unfold energy. pose proof (pow2_ge_0 (p + q)). pose proof (pow2_ge_0 q). lra. Qed.
Lemma en_at_0 : forall p q, en_at p q 0 = energy p q.
Proof. intros. unfold en_at, dP, dQ. rewrite Ropp_0, exp_0, cos_0, sin_0. f_equal; ring. Qed.
Lemma en_at_deriv : forall p q x, is_derive (en_at p q) x (- 8 * (dQ p q x)^2).
Proof.
  intros. unfold en_at, energy, dP, dQ. auto_derive; auto. req. ring.
Qed.
Lemma en_at_mvt : forall p q x y, x < y ->
  exists z, x < z < y /\ en_at p q y - en_at p q x = - 8 * (dQ p q z)^2 * (y - x).
Proof.
  intros. destruct (MVT_cor2 (en_at p q) (fun x => - 8 * (dQ p q x)^2) x y H) as [z [E B]].
  - intros. apply is_derive_Reals. apply en_at_deriv.
  - exists z. split; auto.
Qed.
Lemma en_at_mono : forall p q x y, x <= y -> en_at p q y <= en_at p q x.
Proof.
  intros p q x y [H| ->]; [|lra]. destruct (en_at_mvt p q x y H) as [z [_ E]].
  pose proof (pow2_ge_0 (dQ p q z)). nra.
Qed.
Lemma dQ_two : forall p q x y, x < y < x + 1 -> dQ p q x = 0 -> dQ p q y = 0 -> p = 0 /\ q = 0.
Proof.
  intros p q x y B E1 E2. unfold dQ in *. pose proof (exp_pos (- x)). pose proof (exp_pos (- y)).
  apply Rmult_integral in E1. apply Rmult_integral in E2.
  destruct E1 as [E1|E1]; [lra|]. destruct E2 as [E2|E2]; [lra|].
  assert (S : 0 < sin (y - x)). { apply sin_gt_0. lra. pose proof PI2_1. lra. }
  rewrite sin_minus in S.
  assert (Ep : p * (sin y * cos x - cos y * sin x) = 0).
  { replace (p * (sin y * cos x - cos y * sin x)) with ((p * sin y + q * cos y) * cos x - (p * sin x + q * cos x) * cos y) by ring.
    rewrite E1, E2. ring. }
  assert (Eq : q * (sin y * cos x - cos y * sin x) = 0).
  { replace (q * (sin y * cos x - cos y * sin x)) with ((p * sin x + q * cos x) * sin y - (p * sin y + q * cos y) * sin x) by ring.
    rewrite E1, E2. ring. }
  apply Rmult_integral in Ep. apply Rmult_integral in Eq. split; lra.
Qed.
Lemma en_at_strict : forall p q x, 0 < x -> p <> 0 \/ q <> 0 -> en_at p q x < energy p q.
Proof.
  intros p q x H0 Hn. rewrite <- en_at_0. pose proof (en_at_mono p q 0 x ltac:(lra)) as M.
  destruct (Req_dec (en_at p q x) (en_at p q 0)) as [E|]; [exfalso|lra].
  set (m := Rmin x 1). assert (M0 : 0 < m) by (apply Rmin_glb_lt; lra).
  assert (M1 : m <= x) by apply Rmin_l. assert (M2 : m <= 1) by apply Rmin_r.
  destruct (en_at_mvt p q 0 (m/2)) as [z1 [B1 E1]]; [lra|].
  destruct (en_at_mvt p q (m/2) m) as [z2 [B2 E2]]; [lra|].
  pose proof (en_at_mono p q 0 (m/2) ltac:(lra)). pose proof (en_at_mono p q (m/2) m ltac:(lra)).
  pose proof (en_at_mono p q m x ltac:(lra)).
  assert (D : forall z h, 0 < h -> -8 * dQ p q z ^ 2 * h = 0 -> dQ p q z = 0).
  { intros z h Hh Hz. apply Rmult_integral in Hz. destruct Hz as [Hz|]; [|lra].
    destruct (Req_dec (dQ p q z) 0); auto. exfalso. assert (0 < dQ p q z ^ 2) by (apply pow2_gt_0; auto). lra. }
  destruct (dQ_two p q z1 z2).
  - lra.
  - apply (D z1 (m/2 - 0)). lra. lra.
  - apply (D z2 (m - m/2)). lra. lra.
  - destruct Hn; auto.
Qed.

(** ** one kernel component *)
Definition kap (a tau : R) : R := exp (- (a * tau)) * (cos (a * tau) + sin (a * tau)).
Definition wsum {X} (f : X -> R) (l : list X) : R := rsum (map f l).
Lemma wsum_cons : forall X (f : X -> R) x l, wsum f (x :: l) = f x + wsum f l.
Proof. reflexivity. Qed.
Lemma wsum_ext : forall X (f g : X -> R) l, (forall x, In x l -> f x = g x) -> wsum f l = wsum g l.
Proof. intros. unfold wsum. f_equal. apply map_ext_in. auto. Qed.
Lemma wsum_add : forall X (f g : X -> R) l, wsum (fun x => f x + g x) l = wsum f l + wsum g l.
Proof. induction l. unfold wsum; cbn. ring. rewrite !wsum_cons, IHl. ring. Qed.
Lemma wsum_mul : forall X k (f : X -> R) l, wsum (fun x => k * f x) l = k * wsum f l.
Proof. induction l. unfold wsum; cbn. ring. rewrite !wsum_cons, IHl. ring. Qed.
Lemma wsum_perm : forall X (f : X -> R) l l', Permutation l l' -> wsum f l = wsum f l'.
Proof. induction 1; rewrite ?wsum_cons in *; auto; lra. Qed.
Lemma wsum_0 : forall X (f : X -> R) l, (forall x, In x l -> f x = 0) -> wsum f l = 0.
Proof.
  induction l; intros. reflexivity. rewrite wsum_cons, (H a) by (left; auto). rewrite IHl. ring. intros; apply H; right; auto.
Qed.

Definition quad (k : R -> R -> R) (pts : list (R * R)) : R :=
  wsum (fun x => wsum (fun y => fst x * fst y * k (snd x) (snd y)) pts) pts.
Lemma quad_perm : forall k l l', Permutation l l' -> quad k l = quad k l'.
Proof.
  intros. unfold quad. rewrite (wsum_perm _ _ l l' H). apply wsum_ext. intros. apply wsum_perm; auto.
Qed.
Lemma quad_cons : forall k c t l, (forall a b, k a b = k b a) ->
  quad k ((c, t) :: l) = c * c * k t t + 2 * c * wsum (fun y => fst y * k t (snd y)) l + quad k l.
Proof.
  intros k c t l Sy. unfold quad. rewrite !wsum_cons. cbn [fst snd].
  assert (A : wsum (fun y => c * fst y * k t (snd y)) l = c * wsum (fun y => fst y * k t (snd y)) l).
  { rewrite <- wsum_mul. apply wsum_ext. intros; ring. }
  assert (B : wsum (fun x => wsum (fun y => fst x * fst y * k (snd x) (snd y)) ((c, t) :: l)) l
     = c * wsum (fun y => fst y * k t (snd y)) l + wsum (fun x => wsum (fun y => fst x * fst y * k (snd x) (snd y)) l) l).
  { rewrite <- wsum_mul, <- wsum_add. apply wsum_ext. intros. rewrite wsum_cons. cbn [fst snd]. rewrite (Sy (snd x) t). ring. }
  rewrite A, B. ring.
Qed.

Definition stP (a : R) (l : list (R * R)) (T : R) : R := wsum (fun y => fst y * (exp (- (a * (T - snd y))) * cos (a * (T - snd y)))) l.
Definition stQ (a : R) (l : list (R * R)) (T : R) : R := wsum (fun y => fst y * (exp (- (a * (T - snd y))) * sin (a * (T - snd y)))) l.
Lemma st_decay : forall a l T T', stP a l T' = dP (stP a l T) (stQ a l T) (a * (T' - T))
  /\ stQ a l T' = dQ (stP a l T) (stQ a l T) (a * (T' - T)).
Proof.
  intros. unfold stP, stQ, dP, dQ. induction l as [|y l [IH1 IH2]].
  - unfold wsum; cbn. split; ring.
  - rewrite !wsum_cons. rewrite IH1, IH2.
    replace (a * (T' - snd y)) with (a * (T' - T) + a * (T - snd y)) by ring.
    rewrite Ropp_plus_distr, exp_plus, cos_plus, sin_plus. split; ring.
Qed.
Definition desc (x y : R * R) : Prop := snd y <= snd x.
Definition sdesc (x y : R * R) : Prop := snd y < snd x.
Definition kapR (a x y : R) : R := kap a (Rabs (x - y)).
Lemma kapR_sym : forall a x y, kapR a x y = kapR a y x.
Proof. intros. unfold kapR. rewrite Rabs_minus_sym. auto. Qed.
Lemma kapR_diag : forall a x, kapR a x x = 1.
Proof. intros. unfold kapR, kap. rewrite Rminus_diag_eq, Rabs_R0, Rmult_0_r, Ropp_0, exp_0, cos_0, sin_0 by auto. ring. Qed.
Lemma kapR_cross : forall a t l, List.Forall (fun y => snd y <= t) l ->
  wsum (fun y => fst y * kapR a t (snd y)) l = stP a l t + stQ a l t.
Proof.
  intros. unfold stP, stQ. rewrite <- wsum_add. apply wsum_ext. intros y I. rewrite Forall_forall in H.
  specialize (H y I). cbv beta in H. unfold kapR, kap. rewrite Rabs_right by lra. ring.
Qed.
Lemma st_head : forall a c t l, stP a ((c, t) :: l) t = c + stP a l t /\ stQ a ((c, t) :: l) t = stQ a l t.
Proof.
  intros. unfold stP, stQ. rewrite !wsum_cons. cbn [fst snd].
  rewrite Rminus_diag_eq, Rmult_0_r, Ropp_0, exp_0, cos_0, sin_0 by auto. split; ring.
Qed.
Definition past (a : R) (l : list (R * R)) (T : R) : Prop := energy (stP a l T) (stQ a l T) <= quad (kapR a) l.
Lemma past_head : forall a c t l, List.Forall (fun y => snd y <= t) l -> past a l t -> past a ((c, t) :: l) t.
Proof.
  intros a c t l F Hp. unfold past in *. destruct (st_head a c t l) as [-> ->].
  rewrite quad_cons by apply kapR_sym. rewrite kapR_diag, kapR_cross by auto.
  unfold energy in *. lra.
Qed.
Lemma past_later : forall a l T T', 0 < a -> T <= T' -> past a l T -> past a l T'.
Proof.
  intros a l T T' a0 H Hp. unfold past in *. destruct (st_decay a l T T') as [-> ->].
  eapply Rle_trans; [|apply Hp]. rewrite <- (en_at_0 (stP a l T)). apply (en_at_mono _ _ 0 (a * (T' - T))).
  apply Rmult_le_pos; lra.
Qed.
Lemma past_sorted : forall a l T, 0 < a -> StronglySorted desc l -> List.Forall (fun y => snd y <= T) l -> past a l T.
Proof.
  intros a l T a0 S. revert T. induction S as [|[c t] l S IH F]; intros T FT.
  - unfold past, energy, quad, stP, stQ, wsum. cbn. lra.
  - inversion FT; subst. apply past_later with t; auto. apply past_head; auto.
Qed.
Lemma quad_strict : forall a l, 0 < a -> StronglySorted sdesc l -> (exists y, In y l /\ fst y <> 0) ->
  0 < quad (kapR a) l.
Proof.
  intros a l a0 S. induction S as [|[c t] l S IH F]; intros [y [I N]]. destruct I.
  assert (FD : List.Forall (fun y => snd y <= t) l).
  { eapply Forall_impl; [|exact F]. intros z Hz. unfold sdesc in Hz. cbn in Hz. lra. }
  assert (SD : StronglySorted desc l).
  { clear - S. induction S; constructor; auto. eapply Forall_impl; [|exact H]. unfold sdesc, desc. intros. lra. }
  rewrite quad_cons by apply kapR_sym. rewrite kapR_diag, kapR_cross by auto.
  destruct l as [|[c' t'] l'] eqn:El.
  - destruct I as [I|[]]. subst y. cbn in N. unfold quad, stP, stQ, wsum. cbn.
    assert (0 < c * c) by (replace (c * c) with (c^2) by ring; apply pow2_gt_0; auto). lra.
  - rewrite <- El in *. assert (P' : past a l t').
    { apply past_sorted; auto. rewrite El in SD |- *. inversion SD; subst. constructor. cbn; lra.
      eapply Forall_impl; [|exact H2]. unfold desc. cbn. auto. }
    assert (Lt : t' < t). { rewrite El in F. inversion F; subst. exact H1. }
    unfold past in P'. set (p := stP a l t') in *. set (q := stQ a l t') in *.
    destruct (st_decay a l t' t) as [Ep Eq]. fold p q in Ep, Eq.
    destruct (Req_dec p 0) as [p0|p0]; [destruct (Req_dec q 0) as [q0|q0]|].
    + rewrite p0, q0 in Ep, Eq. unfold dP, dQ in Ep, Eq.
      assert (stP a l t = 0) by (rewrite Ep; ring). assert (stQ a l t = 0) by (rewrite Eq; ring).
      rewrite H, H0. rewrite p0, q0 in P'. unfold energy in P'.
      assert (Ql : 0 <= quad (kapR a) l) by lra.
      destruct I as [I|I].
      * subst y. cbn in N. assert (0 < c * c) by (replace (c * c) with (c^2) by ring; apply pow2_gt_0; auto). lra.
      * assert (0 < quad (kapR a) l) by (apply IH; exists y; auto). assert (0 <= c * c) by nra. lra.
    + assert (St : en_at p q (a * (t - t')) < energy p q) by (apply en_at_strict; auto; apply Rmult_lt_0_compat; lra).
      unfold en_at in St. rewrite <- Ep, <- Eq in St. pose proof (energy_nonneg (c + stP a l t) (stQ a l t)).
      unfold energy in *. lra.
    + assert (St : en_at p q (a * (t - t')) < energy p q) by (apply en_at_strict; auto; apply Rmult_lt_0_compat; lra).
      unfold en_at in St. rewrite <- Ep, <- Eq in St. pose proof (energy_nonneg (c + stP a l t) (stQ a l t)).
      unfold energy in *. lra.
Qed.

(** ** sorting by time *)
Lemma ins_sort : forall x l, StronglySorted desc l -> exists l', Permutation (x :: l) l' /\ StronglySorted desc l'.
Proof.
  induction 1 as [|y l S IH F].
  - exists [x]. split; auto. repeat constructor.
  - destruct (Rle_dec (snd y) (snd x)) as [L|L].
    + exists (x :: y :: l). split; auto. constructor. constructor; auto. constructor. exact L.
      eapply Forall_impl; [|exact F]. unfold desc. intros. lra.
    + destruct IH as [l' [P S']]. exists (y :: l'). split. eapply perm_trans; [apply perm_swap|]. auto.
      constructor; auto. rewrite Forall_forall in *. intros z Iz. apply Permutation_sym in P.
      apply (Permutation_in _ P) in Iz. destruct Iz as [<-|Iz]; auto. unfold desc. lra.
Qed.
Lemma sort_ex : forall l, exists l', Permutation l l' /\ StronglySorted desc l'.
Proof.
  induction l as [|x l [m [P S]]]. exists []. split; constructor.
  destruct (ins_sort x m S) as [l' [P' S']]. exists l'. split; auto. eapply perm_trans; [|exact P']. auto.
Qed.
Lemma sort_strict : forall l, StronglySorted desc l -> NoDup (map snd l) -> StronglySorted sdesc l.
Proof.
  induction 1 as [|x l S IH F]; intros N. constructor. inversion N; subst. constructor; auto.
  rewrite Forall_forall in *. intros y I. specialize (F y I). unfold desc, sdesc in *.
  destruct F as [|E]; auto. exfalso. apply H1. rewrite <- E. apply in_map; auto.
Qed.
Lemma quad_psd : forall a l, 0 < a -> 0 <= quad (kapR a) l.
Proof.
  intros a l a0. destruct (sort_ex l) as [m [P S]]. rewrite (quad_perm _ _ _ P).
  assert (Q : forall T, List.Forall (fun y => snd y <= T) m -> 0 <= quad (kapR a) m).
  { intros T F. pose proof (past_sorted a m T a0 S F) as K. unfold past in K.
    pose proof (energy_nonneg (stP a m T) (stQ a m T)). lra. }
  destruct m as [|[c t] m]. apply (Q 0). constructor. apply (Q t). inversion S; subst.
  constructor; auto. cbn; lra.
Qed.
Lemma quad_pd : forall a l, 0 < a -> NoDup (map snd l) -> (exists y, In y l /\ fst y <> 0) -> 0 < quad (kapR a) l.
Proof.
  intros a l a0 N [y [I Hy]]. destruct (sort_ex l) as [m [P S]]. rewrite (quad_perm _ _ _ P).
  apply quad_strict; auto.
  - apply sort_strict; auto. eapply Permutation_NoDup; [|exact N]. apply Permutation_map. auto.
  - exists y. split; auto. eapply Permutation_in; eauto.
Qed.

(** ** the sum of components *)
Lemma quad_ext : forall k k' l, (forall a b, k a b = k' a b) -> quad k l = quad k' l.
Proof. intros. unfold quad. apply wsum_ext. intros. apply wsum_ext. intros. rewrite H. auto. Qed.
Lemma quad_mul : forall m k l, quad (fun a b => m * k a b) l = m * quad k l.
Proof.
  intros. unfold quad. rewrite <- wsum_mul. apply wsum_ext. intros. rewrite <- wsum_mul. apply wsum_ext. intros. ring.
Qed.
Lemma quad_add : forall k k' l, quad (fun a b => k a b + k' a b) l = quad k l + quad k' l.
Proof.
  intros. unfold quad. rewrite <- wsum_add. apply wsum_ext. intros. rewrite <- wsum_add. apply wsum_ext. intros. ring.
Qed.
Lemma quad_comps : forall comps l, quad (kernel_eval comps) l
  = wsum (fun p => fst p * (1 / snd p) / sqrt 2 * quad (kapR (1 / snd p / sqrt 2)) l) comps.
Proof.
  induction comps as [|p comps IH]; intros l.
  - unfold quad, kernel_eval. cbn [map rsum fold_right]. apply wsum_0. intros. apply wsum_0. intros. ring.
  - rewrite wsum_cons, <- IH, <- quad_mul, <- quad_add. apply quad_ext. intros a b. unfold kernel_eval.
    cbn [map rsum fold_right]. f_equal. rewrite kterm_eq. unfold kapR, kap.
    replace (1 / snd p / sqrt 2 * Rabs (a - b)) with (1 / snd p * Rabs (a - b) / sqrt 2) by (unfold Rdiv; ring). auto.
Qed.

Lemma C63_lemma : forall comps, (forall p, In p comps -> 0 <= fst p /\ 0 < snd p) ->
  forall pts : list (R * R),
  let form := rsum (map (fun x => rsum (map (fun y => fst x * fst y * kernel_eval comps (snd x) (snd y)) pts)) pts) in
  0 <= form /\
  (NoDup (map snd pts) -> (exists x, In x pts /\ fst x <> 0) -> (exists p, In p comps /\ 0 < fst p) -> 0 < form).
Proof.
  intros comps Hc pts form. change form with (quad (kernel_eval comps) pts). clear form. rewrite quad_comps.
  pose proof sqrt2_pos as S2.
  assert (A0 : forall p, In p comps -> 0 < 1 / snd p / sqrt 2).
  { intros p I. destruct (Hc p I). repeat apply Rdiv_lt_0_compat; lra. }
  assert (C0 : forall p, In p comps -> 0 <= fst p * (1 / snd p) / sqrt 2).
  { intros p I. specialize (A0 p I). destruct (Hc p I). unfold Rdiv in *. rewrite Rmult_assoc. apply Rmult_le_pos; lra. }
  assert (T0 : forall p, In p comps -> 0 <= fst p * (1 / snd p) / sqrt 2 * quad (kapR (1 / snd p / sqrt 2)) pts).
  { intros. apply Rmult_le_pos; auto. apply quad_psd; auto. }
  split.
  - clear - T0. induction comps as [|p comps IH]. unfold wsum; cbn; lra. rewrite wsum_cons.
    pose proof (T0 p (or_introl eq_refl)). assert (0 <= wsum (fun p => fst p * (1 / snd p) / sqrt 2 * quad (kapR (1 / snd p / sqrt 2)) pts) comps).
    { apply IH. intros. apply T0. right; auto. } lra.
  - intros N Hx [p [I Hp]].
    assert (T1 : 0 < fst p * (1 / snd p) / sqrt 2 * quad (kapR (1 / snd p / sqrt 2)) pts).
    { apply Rmult_lt_0_compat; [|apply quad_pd; auto]. specialize (A0 p I). unfold Rdiv in *. rewrite Rmult_assoc.
      apply Rmult_lt_0_compat; lra. }
    apply in_split in I. destruct I as [l1 [l2 ->]].
    rewrite (wsum_perm _ _ (l1 ++ p :: l2) (p :: l1 ++ l2)) by (symmetry; apply Permutation_middle).
    rewrite wsum_cons.
    assert (G : forall l, (forall p, In p l -> 0 <= fst p * (1 / snd p) / sqrt 2 * quad (kapR (1 / snd p / sqrt 2)) pts) ->
      0 <= wsum (fun p => fst p * (1 / snd p) / sqrt 2 * quad (kapR (1 / snd p / sqrt 2)) pts) l).
    { clear. induction l; intros. unfold wsum; cbn; lra. rewrite wsum_cons.
      pose proof (H a (or_introl eq_refl)). specialize (IHl (fun p Hp => H p (or_intror Hp))). lra. }
    specialize (G (l1 ++ l2)). assert (0 <= wsum (fun p => fst p * (1 / snd p) / sqrt 2 * quad (kapR (1 / snd p / sqrt 2)) pts) (l1 ++ l2)); [|lra].
    apply G. intros q Iq. apply T0. rewrite in_app_iff in *. simpl. tauto.
Qed.

(** ** The gaussian process of a [Granulation] *)
Lemma kernel_num_fin : forall a p x y, 0 < p ->
  kernel_num (Fin a) (Fin p) x y = Fin (kernel_eval [(a, p)] x y).
Proof.
  intros. pose proof sqrt2_pos as Q. unfold kernel_num, kernel_eval, kernel_term. cbn [ndiv].
  destruct (Req_EM_T p 0); [lra|]. cbn [nmul nneg ndiv]. destruct (Req_EM_T (sqrt 2) 0); [lra|].
  cbn [nexp nmul nsub nadd nneg ncos map rsum fold_right fst snd]. f_equal.
  unfold rsum; cbn [fold_right]. rewrite Rplus_0_r. reflexivity.
Qed.

Lemma C72_lemma : forall m a p dt ts, 0 <= a -> 0 < p ->
  exists gp, gran_build_gp (gran_init (Fin m) (Fin a) (Fin p) dt) ts = Ok gp /\
  gp_mean gp = Fin m /\ gp_x gp = ts /\
  exists K : R -> R,
    (forall i j, (i < length ts)%nat -> (j < length ts)%nat ->
       gp_cov gp i j = Some (Fin (K (Rabs (nth i ts 0 - nth j ts 0))))) /\
    K 0 = a / (sqrt 2 * p) /\
    (forall t, 0 <= t -> Rabs (K t) <= K 0) /\
    is_lim K p_infty 0 /\
    (forall w : nat -> R, let form := rsum (map (fun i => rsum (map (fun j =>
         w i * w j * K (Rabs (nth i ts 0 - nth j ts 0))) (seq 0 (length ts)))) (seq 0 (length ts))) in
       0 <= form /\
       (0 < a -> NoDup ts -> (exists i, (i < length ts)%nat /\ w i <> 0) -> 0 < form)).
Proof.
  intros m a p dt ts A P. eexists. split. reflexivity. split. reflexivity. split. reflexivity.
  assert (Hc : forall q, In q [(a, p)] -> 0 <= fst q /\ 0 < snd q) by (intros q [<-|[]]; simpl; lra).
  destruct (C48_lemma _ Hc) as [Sy [Tr [Va [Bd Li]]]].
  assert (KE : forall x y, kernel_eval [(a, p)] x y = kernel_eval [(a, p)] (Rabs (x - y)) 0).
  { intros. unfold kernel_eval. rewrite Rminus_0_r, Rabs_Rabsolu. auto. }
  exists (fun t => kernel_eval [(a, p)] t 0). split; [|split; [|split; [|split]]].
  - intros i j Hi Hj. unfold gp_cov. cbn [gp_x gp_scale gp_period gp_diag].
    rewrite (nth_error_nth' ts 0 Hi), (nth_error_nth' ts 0 Hj). rewrite kernel_num_fin by auto.
    rewrite KE. f_equal. cbn [nadd]. f_equal. destruct (Nat.eqb i j); lra.
  - rewrite Va. pose proof sqrt2_pos. unfold rsum; cbn. field. lra.
  - intros. apply (Rle_trans _ (kernel_eval [(a, p)] t t)). 2: { rewrite Va, Va; lra. } rewrite Sy.
    rewrite !Va. rewrite <- (Va 0). apply Bd.
  - specialize (Li 0). apply is_lim_ext with (2 := Li). intros. rewrite Rplus_0_l. auto.
  - intros w form.
    destruct (C63_lemma _ Hc (map (fun i => (w i, nth i ts 0)) (seq 0 (length ts)))) as [N0 N1].
    match type of N0 with _ <= ?X => assert (E : form = X) end.
    { unfold form. rewrite map_map. f_equal. apply map_ext. intros i. rewrite map_map. f_equal. apply map_ext. intros j. cbn [fst snd].
      rewrite (KE (nth i ts 0)). auto. }
    rewrite E. split; auto. intros A1 N [i [I W]]. apply N1.
    + rewrite map_map. cbn [snd]. replace (map (fun x => nth x ts 0) (seq 0 (length ts))) with ts; auto.
      clear. apply nth_ext with (d := 0) (d' := 0). rewrite map_length, seq_length; auto.
      intros n H. rewrite (nth_indep (map _ _) 0 (nth 0 ts 0)) by (rewrite map_length, seq_length; auto).
      rewrite (map_nth (fun x => nth x ts 0)), seq_nth by auto. auto.
    + exists (w i, nth i ts 0). split; auto. apply in_map_iff. exists i. split; auto. apply in_seq. lia.
    + exists (a, p). simpl. auto.
Qed.

(** a granulation that is off has an infinite frequency: every covariance is NaN *)
Lemma C72_off_lemma : forall ts, exists gp, gran_build_gp gran_off ts = Ok gp /\
  forall i j, (i < length ts)%nat -> (j < length ts)%nat -> gp_cov gp i j = Some NaN.
Proof.
  intros. eexists. split. reflexivity. intros i j Hi Hj. unfold gp_cov. cbn [gp_x gp_scale gp_period gp_diag].
  rewrite (nth_error_nth' ts 0 Hi), (nth_error_nth' ts 0 Hj). f_equal. unfold kernel_num. cbn [ndiv].
  destruct (Req_EM_T 0 0); [|lra]. replace (inf_signed 1 false) with PInf.
  - replace (nmul (Fin 0) PInf) with NaN. reflexivity. cbn. unfold inf_signed. destruct (Rlt_dec 0 0); [lra|auto].
  - unfold inf_signed. destruct (Rlt_dec 0 1); [auto|lra].
Qed.
