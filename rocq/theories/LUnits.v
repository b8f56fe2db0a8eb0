(** Quantities: every operation respects sameness, and what the operations give in the units
    of the plain model *)
From Coq Require Import Reals ZArith Bool List Lra.
From Verif Require Import Num Py MConfig MHelpers MGrid MSpots MFaculae MXoflares MFlares MUnits SpecUnits LBase.
Import ListNotations.
Open Scope R_scope.

(** ** Scaling numbers by a positive factor *)
Definition sc (a : num) (s : R) : num := nmul a (Fin s).
Arguments sc : simpl never.

Lemma inf_signed_pos : forall s b, 0 < s -> inf_signed s b = if b then NInf else PInf.
Proof. intros s b H. unfold inf_signed. destruct (Rlt_dec 0 s); [reflexivity|contradiction]. Qed.
Lemma inf_signed_scale : forall x s b, 0 < s -> inf_signed (x * s) b = inf_signed x b.
Proof.
  intros x s b H. unfold inf_signed.
  destruct (Rlt_dec 0 x) as [A|A], (Rlt_dec 0 (x*s)) as [B|B]; try reflexivity.
  - exfalso. apply B. apply Rmult_lt_0_compat; assumption.
  - exfalso. apply A. apply Rmult_lt_reg_r with s; [assumption|lra].
  - destruct (Rlt_dec x 0) as [C|C], (Rlt_dec (x*s) 0) as [D|D]; try reflexivity.
    + exfalso. apply D. replace 0 with (0 * s) by ring. apply Rmult_lt_compat_r; assumption.
    + exfalso. apply C. apply Rmult_lt_reg_r with s; [assumption|lra].
Qed.

Lemma sc_eq : forall a s, 0 < s ->
  sc a s = match a with Fin x => Fin (x * s) | PInf => PInf | NInf => NInf | NaN => NaN end.
Proof.
  intros a s H. unfold sc. destruct a; simpl; try reflexivity; now rewrite inf_signed_pos.
Qed.
Lemma sc_sc : forall a s t, 0 < s -> 0 < t -> sc (sc a s) t = sc a (s * t).
Proof.
  intros a s t Hs Ht. assert (0 < s * t) by (apply Rmult_lt_0_compat; assumption).
  rewrite !sc_eq by assumption. destruct a; try reflexivity. f_equal. ring.
Qed.
Lemma sc_1 : forall a, sc a 1 = a.
Proof. intro a. rewrite sc_eq by lra. destruct a; try reflexivity. f_equal. ring. Qed.
Lemma sc_inj : forall a b s, 0 < s -> sc a s = sc b s -> a = b.
Proof.
  intros a b s H E.
  assert (K : forall x, sc (sc x s) (/ s) = x).
  { intro x. rewrite sc_sc; [|assumption|now apply Rinv_0_lt_compat].
    replace (s * / s) with 1 by (field; lra). apply sc_1. }
  rewrite <- (K a), <- (K b), E. reflexivity.
Qed.
Lemma nmul_sc : forall a b s t, 0 < s -> 0 < t -> nmul (sc a s) (sc b t) = sc (nmul a b) (s * t).
Proof.
  intros a b s t Hs Ht. assert (0 < s * t) by (apply Rmult_lt_0_compat; assumption).
  rewrite !sc_eq by assumption.
  destruct a as [x| | |], b as [y| | |]; simpl; try reflexivity;
    rewrite ?inf_signed_scale by assumption;
    try (unfold inf_signed; repeat destruct Rlt_dec; reflexivity).
  f_equal. ring.
Qed.
Lemma ndiv_sc : forall a b s t, 0 < s -> 0 < t -> ndiv (sc a s) (sc b t) = sc (ndiv a b) (s / t).
Proof.
  intros a b s t Hs Ht.
  assert (0 < s / t) by (apply Rdiv_lt_0_compat; assumption).
  rewrite !sc_eq by assumption.
  assert (Z : forall y, y * t = 0 <-> y = 0).
  { intro y. split; intro E; [|rewrite E; ring].
    destruct (Rmult_integral _ _ E); [assumption|lra]. }
  assert (N : forall y, y * t < 0 <-> y < 0).
  { intro y. split; intro E.
    - apply Rmult_lt_reg_r with t; lra.
    - replace 0 with (0 * t) by ring. now apply Rmult_lt_compat_r. }
  destruct a as [x| | |], b as [y| | |]; simpl; try reflexivity.
  - destruct (Req_EM_T (y * t) 0) as [E|E], (Req_EM_T y 0) as [E'|E'];
      try (exfalso; apply E; apply Z; assumption); try (exfalso; apply E'; apply Z; assumption).
    + rewrite inf_signed_scale by assumption. unfold inf_signed. repeat destruct Rlt_dec; reflexivity.
    + f_equal. field. split; [lra|assumption].
  - f_equal. ring.
  - f_equal. ring.
  - destruct (Rlt_dec (y*t) 0) as [E|E], (Rlt_dec y 0) as [E'|E']; try reflexivity;
      exfalso; first [apply E, N; assumption | apply E', N; assumption].
  - destruct (Rlt_dec (y*t) 0) as [E|E], (Rlt_dec y 0) as [E'|E']; try reflexivity;
      exfalso; first [apply E, N; assumption | apply E', N; assumption].
Qed.
Lemma nadd_sc : forall a b s, 0 < s -> nadd (sc a s) (sc b s) = sc (nadd a b) s.
Proof.
  intros a b s Hs. rewrite !sc_eq by assumption.
  destruct a, b; simpl; try reflexivity. f_equal. ring.
Qed.
Lemma nneg_sc : forall a s, 0 < s -> nneg (sc a s) = sc (nneg a) s.
Proof. intros a s Hs. rewrite !sc_eq by assumption. destruct a; simpl; try reflexivity. f_equal. ring. Qed.
Lemma nsub_sc : forall a b s, 0 < s -> nsub (sc a s) (sc b s) = sc (nsub a b) s.
Proof. intros a b s Hs. unfold nsub. rewrite nneg_sc, nadd_sc by assumption. reflexivity. Qed.
Lemma nlt_sc : forall a b s, 0 < s -> nlt (sc a s) (sc b s) = nlt a b.
Proof.
  intros a b s Hs. rewrite !sc_eq by assumption.
  destruct a as [x| | |], b as [y| | |]; simpl; try reflexivity. unfold Rltb.
  destruct (Rlt_dec (x*s) (y*s)) as [A|A], (Rlt_dec x y) as [B|B]; try reflexivity; exfalso.
  - apply B. now apply Rmult_lt_reg_r with s.
  - apply A. now apply Rmult_lt_compat_r.
Qed.
Lemma nle_sc : forall a b s, 0 < s -> nle (sc a s) (sc b s) = nle a b.
Proof.
  intros a b s Hs. rewrite !sc_eq by assumption.
  destruct a as [x| | |], b as [y| | |]; simpl; try reflexivity. unfold Rleb.
  destruct (Rle_dec (x*s) (y*s)) as [A|A], (Rle_dec x y) as [B|B]; try reflexivity; exfalso.
  - apply B. now apply Rmult_le_reg_r with s.
  - apply A. apply Rmult_le_compat_r; lra.
Qed.
Lemma neq_sc : forall a b s, 0 < s -> neq (sc a s) (sc b s) = neq a b.
Proof.
  intros a b s Hs. rewrite !sc_eq by assumption.
  destruct a as [x| | |], b as [y| | |]; simpl; try reflexivity. unfold Reqb.
  destruct (Req_EM_T (x*s) (y*s)) as [A|A], (Req_EM_T x y) as [B|B]; try reflexivity; exfalso.
  - apply B. apply Rmult_eq_reg_r with s; [assumption|lra].
  - apply A. now rewrite B.
Qed.
Lemma nsqrt_sc : forall a s, 0 < s -> nsqrt (sc a s) = sc (nsqrt a) (sqrt s).
Proof.
  intros a s Hs. assert (0 < sqrt s) by (now apply sqrt_lt_R0).
  rewrite !sc_eq by assumption.
  destruct a as [x| | |]; simpl; try reflexivity.
  destruct (Rlt_dec (x*s) 0) as [A|A], (Rlt_dec x 0) as [B|B]; try reflexivity.
  - exfalso. apply B. apply Rmult_lt_reg_r with s; lra.
  - exfalso. apply A. replace 0 with (0 * s) by ring. now apply Rmult_lt_compat_r.
  - f_equal. apply sqrt_mult; lra.
Qed.
Lemma nsq_sc : forall a s, 0 < s -> nsq (sc a s) = sc (nsq a) (s * s).
Proof. intros. unfold nsq. now apply nmul_sc. Qed.
Lemma nipow_sc : forall k a s, 0 < s -> nipow (sc a s) k = sc (nipow a k) (s ^ k).
Proof.
  induction k as [|k IH]; intros a s Hs; [unfold sc|]; simpl.
  - f_equal. ring.
  - rewrite IH by assumption. apply nmul_sc; [assumption|]. now apply pow_lt.
Qed.
Lemma npow_sc : forall a s p, 0 < s -> npow (sc a s) p = sc (npow a p) (Rpower s p).
Proof.
  intros a s p Hs. assert (P : 0 < Rpower s p) by (unfold Rpower; apply exp_pos).
  assert (P0 : p = 0 -> Rpower s p = 1) by (intros ->; now apply Rpower_O).
  rewrite sc_eq by assumption.
  destruct a as [x| | |]; simpl.
  - destruct (Rlt_dec (x*s) 0) as [A|A], (Rlt_dec x 0) as [B|B].
    + now rewrite sc_eq.
    + exfalso. apply B. apply Rmult_lt_reg_r with s; lra.
    + exfalso. apply A. replace 0 with (0 * s) by ring. now apply Rmult_lt_compat_r.
    + destruct (Req_EM_T (x*s) 0) as [C|C], (Req_EM_T x 0) as [D|D].
      * destruct (Rlt_dec p 0); [now rewrite sc_eq|].
        destruct (Req_EM_T p 0) as [E|E]; rewrite sc_eq by assumption; f_equal.
        -- rewrite P0 by assumption. ring.
        -- ring.
      * exfalso. destruct (Rmult_integral _ _ C); lra.
      * exfalso. apply C. rewrite D. ring.
      * rewrite sc_eq by assumption. f_equal. symmetry. apply Rpower_mult_distr; [|assumption].
        destruct (Rle_lt_or_eq_dec 0 x); lra.
  - destruct (Rlt_dec p 0); [rewrite sc_eq by assumption; f_equal; ring|].
    destruct (Req_EM_T p 0) as [E|E]; rewrite sc_eq by assumption; [|reflexivity].
    rewrite P0 by assumption. f_equal. ring.
  - now rewrite sc_eq.
  - destruct (Req_EM_T p 0) as [E|E]; rewrite sc_eq by assumption; [|reflexivity].
    rewrite P0 by assumption. f_equal. ring.
Qed.

(** ** Dimensions *)
Lemma deqb_eq : forall a b, deqb a b = true <-> a = b.
Proof.
  intros [a1 a2 a3 a4 a5] [b1 b2 b3 b4 b5]. unfold deqb; simpl.
  rewrite !andb_true_iff. unfold Reqb.
  split.
  - intros [[[[H1 H2] H3] H4] H5].
    repeat match goal with H : (if Req_EM_T ?x ?y then true else false) = true |- _ =>
      destruct (Req_EM_T x y) as [?|?]; [|discriminate H]; clear H end.
    congruence.
  - intro E. injection E as -> -> -> -> ->.
    repeat match goal with |- context [Req_EM_T ?x ?x] => destruct (Req_EM_T x x); [|contradiction] end.
    repeat split; reflexivity.
Qed.
Lemma deqb_neq : forall a b, a <> b -> deqb a b = false.
Proof. intros a b H. destruct (deqb a b) eqn:E; [|reflexivity]. apply deqb_eq in E. contradiction. Qed.

(** ** Sameness is respected *)
Lemma same_refl : forall q, 0 < qs q -> same q q.
Proof. intros q H. repeat split; assumption. Qed.
Lemma same_sym : forall q q', same q q' -> same q' q.
Proof. intros q q' (A & B & C & D). repeat split; auto. Qed.
Lemma same_trans : forall a b c, same a b -> same b c -> same a c.
Proof. intros a b c (A & B & C & D) (E & F & G & H). repeat split; try assumption; congruence. Qed.
Lemma same_num : forall x, same (qnum x) (qnum x).
Proof. intro x. apply same_refl. simpl. lra. Qed.
Lemma same_mk : forall x u, 0 < usize u -> same (qmk x u) (qmk x u).
Proof. intros x u H. now apply same_refl. Qed.
Lemma same_mul : forall a a' b b', same a a' -> same b b' -> same (qmul a b) (qmul a' b').
Proof.
  intros a a' b b' (A & B & C & D) (E & F & G & H). fold (sc (qv a) (qs a)) in *.
  repeat split; simpl; try (apply Rmult_lt_0_compat; assumption); [congruence|].
  change (sc (nmul (qv a) (qv b)) (qs a * qs b) = sc (nmul (qv a') (qv b')) (qs a' * qs b')).
  rewrite <- !nmul_sc by assumption. unfold sc in *. congruence.
Qed.
Lemma same_div : forall a a' b b', same a a' -> same b b' -> same (qdiv a b) (qdiv a' b').
Proof.
  intros a a' b b' (A & B & C & D) (E & F & G & H).
  repeat split; simpl; try (apply Rdiv_lt_0_compat; assumption); [congruence|].
  change (sc (ndiv (qv a) (qv b)) (qs a / qs b) = sc (ndiv (qv a') (qv b')) (qs a' / qs b')).
  rewrite <- !ndiv_sc by assumption. unfold sc. congruence.
Qed.
Lemma same_sq : forall a a', same a a' -> same (qsq a) (qsq a').
Proof.
  intros a a' (A & B & C & D).
  repeat split; simpl; try (apply Rmult_lt_0_compat; assumption); [congruence|].
  change (sc (nsq (qv a)) (qs a * qs a) = sc (nsq (qv a')) (qs a' * qs a')).
  rewrite <- !nsq_sc by assumption. unfold sc. congruence.
Qed.
Lemma same_sqrt : forall a a', same a a' -> same (qsqrt a) (qsqrt a').
Proof.
  intros a a' (A & B & C & D).
  repeat split; simpl; try (apply sqrt_lt_R0; assumption); [congruence|].
  change (sc (nsqrt (qv a)) (sqrt (qs a)) = sc (nsqrt (qv a')) (sqrt (qs a'))).
  rewrite <- !nsqrt_sc by assumption. unfold sc. congruence.
Qed.
Lemma same_ipow : forall k a a', same a a' -> same (qipow a k) (qipow a' k).
Proof.
  intros k a a' (A & B & C & D).
  repeat split; unfold qipow; cbn [qs qd qv]; try (apply pow_lt; assumption); [congruence|].
  change (sc (nipow (qv a) k) (qs a ^ k) = sc (nipow (qv a') k) (qs a' ^ k)).
  rewrite <- !nipow_sc by assumption. unfold sc. congruence.
Qed.
Lemma same_pow : forall p a a', same a a' -> same (qpow a p) (qpow a' p).
Proof.
  intros p a a' (A & B & C & D).
  repeat split; simpl; try (unfold Rpower; apply exp_pos); [congruence|].
  change (sc (npow (qv a) p) (Rpower (qs a) p) = sc (npow (qv a') p) (Rpower (qs a') p)).
  rewrite <- !npow_sc by assumption. unfold sc. congruence.
Qed.

Lemma alike_bind : forall A B A' B' (P : A -> A' -> Prop) (Q : B -> B' -> Prop) m m' f f',
  alike P m m' -> (forall a b, P a b -> alike Q (f a) (f' b)) -> alike Q (bind m f) (bind m' f').
Proof. intros A B A' B' P Q m m' f f' H K. destruct m, m'; simpl in *; try contradiction; auto. Qed.
Lemma alike_eq_refl : forall A (m : res A), alike eq m m.
Proof. intros A m. destruct m; reflexivity. Qed.

(** the value in a unit, of two samenesses: the quantity and the unit *)
Lemma same_in_gen : forall a a' u u', same a a' -> udim u = udim u' -> 0 < usize u -> 0 < usize u' ->
  alike (fun x x' => sc x (usize u) = sc x' (usize u')) (qin a u) (qin a' u').
Proof.
  intros a a' u u' (A & B & C & D) E F G. unfold qin. rewrite <- A, <- E.
  destruct (deqb (qd a) (udim u)); simpl; [|reflexivity].
  change (sc (sc (qv a) (qs a / usize u)) (usize u) = sc (sc (qv a') (qs a' / usize u')) (usize u')).
  rewrite !sc_sc; try assumption; try (apply Rdiv_lt_0_compat; assumption).
  replace (qs a / usize u * usize u) with (qs a) by (field; lra).
  replace (qs a' / usize u' * usize u') with (qs a') by (field; lra).
  exact D.
Qed.
Lemma same_in : forall a a' u, same a a' -> 0 < usize u -> alike eq (qin a u) (qin a' u).
Proof.
  intros a a' u H F.
  pose proof (same_in_gen a a' u u H eq_refl F F) as K.
  destruct (qin a u), (qin a' u); simpl in *; try contradiction; try assumption.
  now apply sc_inj in K.
Qed.
Lemma same_to : forall a a' u, same a a' -> 0 < usize u -> alike same (qto a u) (qto a' u).
Proof.
  intros a a' u H F. unfold qto. eapply alike_bind; [apply same_in; eassumption|].
  intros x y ->. simpl. now apply same_mk.
Qed.
Lemma same_like : forall a a' b b', same a a' -> same b b' ->
  alike (fun y y' => sc y (qs a) = sc y' (qs a')) (qlike a b) (qlike a' b').
Proof. intros a a' b b' (A & B & C & D) H. unfold qlike. apply (same_in_gen b b'); assumption. Qed.

Lemma same_bin : forall (f : num -> num -> num),
  (forall a b s, 0 < s -> f (sc a s) (sc b s) = sc (f a b) s) ->
  forall a a' b b', same a a' -> same b b' ->
  alike same (bind (qlike a b) (fun y => Ok (mkQ (f (qv a) y) (qs a) (qd a))))
             (bind (qlike a' b') (fun y => Ok (mkQ (f (qv a') y) (qs a') (qd a')))).
Proof.
  intros f F a a' b b' H K. eapply alike_bind; [apply same_like; eassumption|].
  destruct H as (A & B & C & D). intros y y' E. simpl. repeat split; simpl; try assumption.
  change (sc (f (qv a) y) (qs a) = sc (f (qv a') y') (qs a')).
  rewrite <- !F by assumption. unfold sc in *. congruence.
Qed.
Lemma same_add : forall a a' b b', same a a' -> same b b' -> alike same (qadd a b) (qadd a' b').
Proof. apply same_bin. apply nadd_sc. Qed.
Lemma same_sub : forall a a' b b', same a a' -> same b b' -> alike same (qsub a b) (qsub a' b').
Proof. apply same_bin. apply nsub_sc. Qed.
Lemma same_cmp : forall (f : num -> num -> bool),
  (forall a b s, 0 < s -> f (sc a s) (sc b s) = f a b) ->
  forall a a' b b', same a a' -> same b b' ->
  alike eq (bind (qlike a b) (fun y => Ok (f (qv a) y))) (bind (qlike a' b') (fun y => Ok (f (qv a') y))).
Proof.
  intros f F a a' b b' H K. eapply alike_bind; [apply same_like; eassumption|].
  destruct H as (A & B & C & D). intros y y' E. simpl.
  rewrite <- (F (qv a) y (qs a)), <- (F (qv a') y' (qs a')) by assumption. unfold sc in *. congruence.
Qed.
Lemma same_lt : forall a a' b b', same a a' -> same b b' -> alike eq (qlt a b) (qlt a' b').
Proof. apply same_cmp. apply nlt_sc. Qed.
Lemma same_le : forall a a' b b', same a a' -> same b b' -> alike eq (qle a b) (qle a' b').
Proof. apply same_cmp. apply nle_sc. Qed.
Lemma same_gt : forall a a' b b', same a a' -> same b b' -> alike eq (qgt a b) (qgt a' b').
Proof. apply same_cmp. intros. unfold ngt. now apply nlt_sc. Qed.
Lemma same_eq : forall a a' b b', same a a' -> same b b' -> qeq a b = qeq a' b'.
Proof.
  intros a a' b b' H K. unfold qeq. pose proof (same_like a a' b b' H K) as L.
  destruct H as (A & B & C & D).
  destruct (qlike a b) as [y|e], (qlike a' b') as [y'|e']; simpl in L; try contradiction; [|reflexivity].
  rewrite <- (neq_sc (qv a) y (qs a)), <- (neq_sc (qv a') y' (qs a')) by assumption. unfold sc in *. congruence.
Qed.
Lemma same_fun : forall u f v a a', 0 < usize u -> 0 < usize v -> same a a' ->
  alike same (qfun u f v a) (qfun u f v a').
Proof.
  intros u f v a a' Hu Hv H. unfold qfun. pose proof (same_in a a' u H Hu) as K.
  destruct (qin a u), (qin a' u); simpl in *; try contradiction; [|reflexivity].
  rewrite K. now apply same_mk.
Qed.
