(** Proofs about random streams: programs of calls *)
From Coq Require Import Reals ZArith Bool String Lra Lia List FunctionalExtensionality.
From Verif Require Import Num Py MConfig MGrid MHelpers MSpots MFaculae MFlares MGranules MStar MHeap MRng
  Spec SpecStar SpecFlare SpecRng LBase LRng.
Import ListNotations.
Open Scope R_scope.

Lemma upd_same : forall St (h : nat -> St) l, (fun k => if Nat.eqb k l then h l else h k) = h.
Proof.
  intros. apply functional_extensionality. intros k. destruct (Nat.eqb_spec k l); subst; auto.
Qed.
(** a call without draws leaves the stream alone *)
Lemma rcall_star_pure : forall St (np : numpy St) fuel s c st, (forall x, rcall_rng x c = None) ->
  snd (rcall_star np fuel s c st) = st /\ forall st', fst (rcall_star np fuel s c st') = fst (rcall_star np fuel s c st).
Proof. 
  intros St np fuel s c st H. destruct c; try (split; [reflexivity | intros; reflexivity]);
    specialize (H (mkRStar s O O O O)); discriminate.
Qed.
Lemma rng_none : forall x c, rcall_rng x c = None -> forall y, rcall_rng y c = None.
Proof. intros x c H y. destruct c; simpl in *; congruence. Qed.
Lemma rexec_draw : forall St (np : numpy St) fuel h x c l, rcall_rng x c = Some l ->
  rexec np fuel h x c = (fun k => if Nat.eqb k l then snd (rcall_star np fuel (rs_star x) c (h l)) else h k,
    with_star x (fst (rcall_star np fuel (rs_star x) c (h l))), outcome (fst (rcall_star np fuel (rs_star x) c (h l)))).
Proof.
  intros. unfold rexec. rewrite H. destruct (rcall_star np fuel (rs_star x) c (h l)) as [r s']. reflexivity.
Qed.
Lemma rexec_pure : forall St (np : numpy St) fuel h x c st, rcall_rng x c = None ->
  rexec np fuel h x c = (h, with_star x (fst (rcall_star np fuel (rs_star x) c st)), outcome (fst (rcall_star np fuel (rs_star x) c st))).
Proof.
  intros. unfold rexec. rewrite H.
  destruct (rcall_star_pure _ np fuel (rs_star x) c (h (rs_rng x)) (rng_none x c H)) as [P1 P2].
  rewrite (P2 st). clear P2.
  destruct (rcall_star np fuel (rs_star x) c (h (rs_rng x))) as [r s'] eqn:E. simpl in P1. subst s'.
  rewrite ?upd_same. reflexivity.
Qed.
Lemma with_star_streams : forall x r, rs_spot (with_star x r) = rs_spot x /\ rs_fac (with_star x r) = rs_fac x
  /\ rs_flare (with_star x r) = rs_flare x /\ rs_rng (with_star x r) = rs_rng x.
Proof. intros x [y|e]; simpl; auto. Qed.
Lemma rng_uses : forall x c l, rcall_rng x c = Some l -> uses x l.
Proof. intros x c l H. unfold uses. destruct c; simpl in H; inversion H; auto. Qed.

(** ** what a call reads and changes *)
Lemma C115_frame_lemma :
  forall (St : Type) (np : numpy St) fuel h x c h' x' e, rexec np fuel h x c = (h', x', e) ->
  (* only the stream of the generator that is used advances *)
  (forall l, rcall_rng x c <> Some l -> h' l = h l)
  (* and nothing else is read *)
  /\ (forall h2, (forall l, rcall_rng x c = Some l -> h2 l = h l) ->
        exists h2', rexec np fuel h2 x c = (h2', x', e) /\ (forall l, rcall_rng x c = Some l -> h2' l = h' l))
  (* the star goes on using the same streams *)
  /\ rs_spot x' = rs_spot x /\ rs_fac x' = rs_fac x /\ rs_flare x' = rs_flare x /\ rs_rng x' = rs_rng x.
Proof.
  intros St np fuel h x c h' x' e H. destruct (rcall_rng x c) as [l|] eqn:E.
  - rewrite (rexec_draw _ _ _ _ _ _ l E) in H. inversion H; subst. clear H.
    split. { intros k Hk. destruct (Nat.eqb_spec k l); subst; congruence. }
    split. 2: apply with_star_streams.
    intros h2 Hh. rewrite (rexec_draw _ _ _ _ _ _ l E), (Hh l eq_refl). eexists. split. reflexivity.
    intros k Hk. inversion Hk; subst. rewrite Nat.eqb_refl. reflexivity.
  - rewrite (rexec_pure _ np fuel h x c (h O) E) in H. inversion H; subst. clear H.
    split; [auto|]. split. 2: apply with_star_streams.
    intros h2 _. rewrite (rexec_pure _ np fuel h2 x c (h' O) E). eexists. split. reflexivity. intros; discriminate.
Qed.

(** ** stars with streams of their own *)
Lemma isolated_gen : forall St (np : numpy St) fuel i prog h st h2 st2,
  (forall j l, j <> i -> uses (st i) l -> ~ uses (st j) l) ->
  st2 i = st i -> (forall l, uses (st i) l -> h2 l = h l) ->
  forall h' st' log h2' st2' log2,
  rrun np fuel h st prog = (h', st', log) -> rrun np fuel h2 st2 (calls_on i prog) = (h2', st2', log2) ->
  st2' i = st' i /\ (forall l, uses (st i) l -> h2' l = h' l) /\ calls_on i log = log2 /\ (forall j, j <> i -> st2' j = st2 j).
Proof.
  intros St np fuel i. induction prog as [|[j c] prog IH]; intros h st h2 st2 D S H h' st' log h2' st2' log2 R1 R2.
  - simpl in *. inversion R1; inversion R2; subst. auto.
  - simpl in R1, R2. destruct (rexec np fuel h (st j) c) as [[h1 x1] e1] eqn:X1.
    destruct (rrun np fuel h1 (fun k => if Nat.eqb k j then x1 else st k) prog) as [[ha sta] la] eqn:Y1.
    inversion R1; subst; clear R1.
    destruct (C115_frame_lemma _ _ _ _ _ _ _ _ _ X1) as [F1 [F2 [F3 [F4 [F5 F6]]]]].
    destruct (Nat.eqb_spec j i) as [->|N].
    + simpl in R2. rewrite S in R2.
      destruct (F2 h2) as [h2b [X2 K2]]. { intros l Hl. apply H. eapply rng_uses; eauto. }
      rewrite X2 in R2.
      destruct (rrun np fuel h2b (fun k => if Nat.eqb k i then x1 else st2 k) (calls_on i prog)) as [[hb stb] lb] eqn:Y2.
      inversion R2; subst; clear R2.
      assert (UX : forall l, uses x1 l <-> uses (st i) l). { intros l. unfold uses. rewrite F3, F4, F5. tauto. }
      edestruct (fun D' S' H' => IH h1 _ h2b (fun k => if Nat.eqb k i then x1 else st2 k) D' S' H' _ _ _ _ _ _ Y1 Y2) as [I1 [I2 [I3 I4]]].
      { intros j l Hj. rewrite Nat.eqb_refl. destruct (Nat.eqb_spec j i); try congruence. rewrite UX. apply D; auto. }
      { rewrite Nat.eqb_refl. reflexivity. }
      { intros l. rewrite Nat.eqb_refl, UX. intros U. destruct (rcall_rng (st i) c) as [lc|] eqn:EC.
        - destruct (Nat.eq_dec lc l). subst. apply K2; auto.
          destruct (C115_frame_lemma _ _ _ _ _ _ _ _ _ X2) as [G1 _]. rewrite G1, F1 by congruence. auto.
        - destruct (C115_frame_lemma _ _ _ _ _ _ _ _ _ X2) as [G1 _]. rewrite G1, F1 by congruence. auto. }
      rewrite Nat.eqb_refl in I2. split; [auto|]. split. { intros l U. apply I2. now apply UX. }
      split. { simpl. rewrite Nat.eqb_refl. now f_equal. }
      intros j Hj. rewrite I4 by auto. destruct (Nat.eqb_spec j i); congruence.
    + simpl in R2.
      assert (NI : Nat.eqb i j = false) by (apply Nat.eqb_neq; auto).
      edestruct (fun D' S' H' => IH h1 _ h2 st2 D' S' H' _ _ _ _ _ _ Y1 R2) as [I1 [I2 [I3 I4]]].
      { intros k l Hk. rewrite NI. destruct (Nat.eqb_spec k j). 2: apply D; auto.
        subst k. intros U U'. apply (D j l N U). unfold uses in *. rewrite F3, F4, F5 in U'. auto. }
      { rewrite NI. auto. }
      { intros l. rewrite NI. intros U. rewrite F1. auto. intros E. apply rng_uses in E. revert E. apply D; auto. }
      rewrite NI in I2. split; [auto|]. split; [auto|]. split; auto.
      simpl. destruct (Nat.eqb_spec j i); try congruence.
Qed.
Lemma C115_isolated_lemma :
  forall (St : Type) (np : numpy St) fuel h st prog h' st' log i h2 st2 log2,
  (forall j l, j <> i -> uses (st i) l -> ~ uses (st j) l) ->
  rrun np fuel h st prog = (h', st', log) -> rrun np fuel h st (calls_on i prog) = (h2, st2, log2) ->
  st' i = st2 i /\ calls_on i log = log2 /\ (forall l, uses (st i) l -> h' l = h2 l)
  /\ (forall j, j <> i -> st2 j = st j).
Proof.
  intros. edestruct (isolated_gen St np fuel i prog h st h st) as [A [B [C D]]]; eauto.
  split; auto. split; auto. split; auto. intros. symmetry. auto.
Qed.

(** ** calls about different things *)
Lemma bind_res : forall A B (m : res A) (k : A -> res B), bind m k = match m with Ok a => k a | Raise e => Raise e end.
Proof. reflexivity. Qed.
(** the effect of a call of a kind on the star, given the product *)
Lemma call_prod : forall St (np : numpy St) fuel s c st k, kind_of c = Some k ->
  exists r st', (forall p, r = Ok p -> product_kind p = k)
    /\ forall s', same_source k s s' -> rcall_star np fuel s' c st = (do p <- r ;; receive s' p, st').
Proof.
  intros St np fuel s c st k K. destruct c; simpl in K; inversion K; subst; clear K.
  - exists (Ok (PSpots l)), st. split. intros p E; inversion E; reflexivity. intros; reflexivity.
  - exists (Ok (PFacs l)), st. split. intros p E; inversion E; reflexivity. intros; reflexivity.
  - destruct (s_birth_spots np (st_spotgen s) time (st_radius s) fuel st) as [[l|e] st'] eqn:E.
    + exists (Ok (PSpots l)), st'. split. intros p E'; inversion E'; reflexivity.
      intros s' [ER ES]; simpl in ER, ES. simpl. unfold sbind. rewrite ER, ES, E. reflexivity.
    + exists (Raise e), st'. split. intros p E'; inversion E'.
      intros s' [ER ES]; simpl in ER, ES. simpl. unfold sbind. rewrite ER, ES, E. reflexivity.
  - destruct (s_birth_faculae np (st_facgen s) time (st_radius s * RSUN_KM) st) as [[l|e] st'] eqn:E.
    + exists (Ok (PFacs l)), st'. split. intros p E'; inversion E'; reflexivity.
      intros s' [ER ES]; simpl in ER, ES. simpl. unfold sbind. rewrite ER, ES, E. reflexivity.
    + exists (Raise e), st'. split. intros p E'; inversion E'.
      intros s' [ER ES]; simpl in ER, ES. simpl. unfold sbind. rewrite ER, ES, E. reflexivity.
  - destruct (s_generate_mature np (st_spotgen s) coverage (st_radius s) fuel fuel st) as [[l|e] st'] eqn:E.
    + exists (Ok (PSpots l)), st'. split. intros p E'; inversion E'; reflexivity.
      intros s' [ER ES]; simpl in ER, ES. simpl. unfold sbind. rewrite ER, ES, E. reflexivity.
    + exists (Raise e), st'. split. intros p E'; inversion E'.
      intros s' [ER ES]; simpl in ER, ES. simpl. unfold sbind. rewrite ER, ES, E. reflexivity.
  - destruct (s_generate_flares np (st_flaregen s) time st) as [[l|e] st'] eqn:E.
    + exists (Ok (PFlares l)), st'. split. intros p E'; inversion E'; reflexivity.
      intros s' [ER ES]; simpl in ER, ES. simpl. unfold sbind. rewrite ES, E. reflexivity.
    + exists (Raise e), st'. split. intros p E'; inversion E'.
      intros s' [ER ES]; simpl in ER, ES. simpl. unfold sbind. rewrite ES, E. reflexivity.
Qed.
Lemma receive_frame : forall s p s', receive s p = Ok s' -> st_radius s' = st_radius s /\ st_spotgen s' = st_spotgen s
  /\ st_facgen s' = st_facgen s /\ st_flaregen s' = st_flaregen s.
Proof.
  intros s p s' H. destruct p; simpl in H.
  - inversion H; subst; auto.
  - unfold star_add_fac in H. destruct (fcc_add (st_facs s) l); inversion H; subst; auto.
  - inversion H; subst; auto.
Qed.
(** building with exceptions *)
Definition built (s : star) (r : res product) : res star := do p <- r ;; receive s p.
Definition kept (s : star) (r : res star) : star := match r with Ok y => y | Raise _ => s end.
Lemma built_commute : forall s r1 r2 k1 k2, k1 <> k2 ->
  (forall p, r1 = Ok p -> product_kind p = k1) -> (forall p, r2 = Ok p -> product_kind p = k2) ->
  let s1 := kept s (built s r1) in let s2 := kept s (built s r2) in
  kept s1 (built s1 r2) = kept s2 (built s2 r1)
  /\ outcome (built s1 r2) = outcome (built s r2) /\ outcome (built s2 r1) = outcome (built s r1).
Proof.
  intros s r1 r2 k1 k2 N K1 K2.
  destruct r1 as [p1|e1]; [|simpl; destruct r2 as [p2|e2]; simpl; auto].
  destruct r2 as [p2|e2]; [|simpl; auto].
  specialize (K1 p1 eq_refl). specialize (K2 p2 eq_refl). unfold built; cbn [bind].
  destruct p1, p2; simpl in K1, K2; subst; try congruence; simpl; unfold star_add_fac; simpl;
    repeat match goal with |- context [fcc_add ?a ?b] => destruct (fcc_add a b) eqn:?; simpl end; auto;
    try (split; [reflexivity | split; reflexivity]).
Qed.
Lemma C115_commute_lemma :
  forall (St : Type) (np : numpy St) fuel h x c1 c2 k1 k2,
  kind_of c1 = Some k1 -> kind_of c2 = Some k2 -> k1 <> k2 ->
  (forall l, rcall_rng x c1 = Some l -> rcall_rng x c2 <> Some l) ->
  exists h1 x1 e1 h2 x2 e2 h3 x3, 
    rexec np fuel h x c1 = (h1, x1, e1) /\ rexec np fuel h1 x1 c2 = (h3, x3, e2)
    /\ rexec np fuel h x c2 = (h2, x2, e2) /\ rexec np fuel h2 x2 c1 = (h3, x3, e1).
Proof.
  intros St np fuel h x c1 c2 k1 k2 K1 K2 N D.
  set (a1 := match rcall_rng x c1 with Some l => h l | None => h O end).
  set (a2 := match rcall_rng x c2 with Some l => h l | None => h O end).
  destruct (call_prod _ np fuel (rs_star x) c1 a1 k1 K1) as [r1 [st1 [P1 Q1]]].
  destruct (call_prod _ np fuel (rs_star x) c2 a2 k2 K2) as [r2 [st2 [P2 Q2]]].
  destruct (built_commute (rs_star x) r1 r2 k1 k2 N P1 P2) as [B1 [B2 B3]].
  (* one call, from any heap that agrees on the stream and a star with the same generators *)
  assert (X : forall c k a r st', (forall s', same_source k (rs_star x) s' -> rcall_star np fuel s' c a = (do p <- r ;; receive s' p, st')) ->
     forall hh y, (forall l, rcall_rng x c = Some l -> hh l = a) ->
       rs_spot y = rs_spot x -> rs_fac y = rs_fac x -> rs_flare y = rs_flare x -> rs_rng y = rs_rng x ->
       st_radius (rs_star y) = st_radius (rs_star x) -> st_spotgen (rs_star y) = st_spotgen (rs_star x) ->
       st_facgen (rs_star y) = st_facgen (rs_star x) -> st_flaregen (rs_star y) = st_flaregen (rs_star x) ->
       rexec np fuel hh y c = ((fun k => match rcall_rng x c with Some l => if Nat.eqb k l then st' else hh k | None => hh k end),
         mkRStar (kept (rs_star y) (built (rs_star y) r)) (rs_rng x) (rs_spot x) (rs_fac x) (rs_flare x),
         outcome (built (rs_star y) r))).
  { intros c k a r st' Q hh y Ha e1 e2 e3 e4 e5 e6 e7 e8.
    assert (ER : rcall_rng y c = rcall_rng x c). { destruct c; simpl; congruence. }
    assert (W : with_star y (built (rs_star y) r)
                = mkRStar (kept (rs_star y) (built (rs_star y) r)) (rs_rng x) (rs_spot x) (rs_fac x) (rs_flare x)).
    { destruct (built (rs_star y) r); simpl; rewrite <- ?e1, <- ?e2, <- ?e3, <- ?e4; destruct y; reflexivity. }
    assert (SS : same_source k (rs_star x) (rs_star y)) by (split; [auto | destruct k; auto]). specialize (Q (rs_star y) SS).
    destruct (rcall_rng x c) as [l|].
    - rewrite (rexec_draw _ np fuel hh y c l) by auto. rewrite (Ha l) by auto. rewrite Q. simpl. 
      change (do p <- r;; receive (rs_star y) p) with (built (rs_star y) r). rewrite W. reflexivity.
    - rewrite (rexec_pure _ np fuel hh y c a) by auto. rewrite Q. simpl.
      change (do p <- r;; receive (rs_star y) p) with (built (rs_star y) r). rewrite W. reflexivity. }
  assert (FR : forall r, st_radius (kept (rs_star x) (built (rs_star x) r)) = st_radius (rs_star x)
     /\ st_spotgen (kept (rs_star x) (built (rs_star x) r)) = st_spotgen (rs_star x)
     /\ st_facgen (kept (rs_star x) (built (rs_star x) r)) = st_facgen (rs_star x)
     /\ st_flaregen (kept (rs_star x) (built (rs_star x) r)) = st_flaregen (rs_star x)).
  { intros r. unfold kept. destruct (built (rs_star x) r) as [y|] eqn:E; auto.
    unfold built in E. destruct r as [p|]; simpl in E; [|discriminate]. eapply receive_frame. exact E. }
  destruct (FR r1) as [f1 [f2 [f3 f4]]]. destruct (FR r2) as [g1 [g2 [g3 g4]]].
  do 8 eexists.
  split. { apply (X c1 k1 a1 r1 st1 Q1 h x); auto. intros l E. unfold a1. now rewrite E. }
  split. { apply (X c2 k2 a2 r2 st2 Q2); simpl; auto. intros l E. unfold a2. rewrite E.
           destruct (rcall_rng x c1) as [l1|] eqn:E1; auto. destruct (Nat.eqb_spec l l1); auto. subst. exfalso. eapply D; eauto. }
  split. { rewrite (X c2 k2 a2 r2 st2 Q2 h x); auto. 2:{ intros l E. unfold a2. now rewrite E. }
           simpl. rewrite B2. reflexivity. }
  rewrite (X c1 k1 a1 r1 st1 Q1); simpl; auto.
  - rewrite B1, B3. f_equal. f_equal. apply functional_extensionality. intros k.
    destruct (rcall_rng x c1) as [l1|] eqn:E1; destruct (rcall_rng x c2) as [l2|] eqn:E2; auto.
    destruct (Nat.eqb_spec k l1); destruct (Nat.eqb_spec k l2); subst; auto. exfalso. eapply D; eauto.
  - intros l E. unfold a1. rewrite E.
    destruct (rcall_rng x c2) as [l2|] eqn:E2; auto. destruct (Nat.eqb_spec l l2); auto. subst. exfalso. eapply D; eauto.
Qed.
