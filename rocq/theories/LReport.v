(** Lemmas for C109: the report, whatever the labels *)
From Coq Require Import Reals ZArith NArith Bool String Ascii List Lra Lia Sorted Permutation Classical.
From Verif Require Import Num Py MConfig MHelpers MGrid MSpots MFaculae MXoflares MFlares MGranules MStar MFormat MLabel
  Spec SpecStar SpecDisk SpecText SpecLabel SpecReport LBase LGrid LHelpers LSpotMap LFac LDisk LStar LStarFac LStarCov LText LLabel.
Import ListNotations.
Open Scope R_scope.

(** ** dictionaries over any keys *)
Definition foldn {K} (eqb : K -> K -> bool) (key : R -> K) (V : R -> R) (l : list R) (d : dict K num) : dict K num :=
  fold_left (fun d t => dset eqb d (key t) (Fin (V t))) l d.
Definition grang {K} (eqb : K -> K -> bool) (d : dict K num) (kp kg : K) (g : num) : res (dict K num) :=
  do phot <- dindex eqb d kp ;;
  let d := dset eqb d kp (nmul phot (nsub (Fin 1) g)) in
  do old <- dindex eqb d kg ;; Ok (dset eqb d kg (nadd old (nmul phot g))).
Lemma dget_iff : forall K eqb, (forall a b : K, eqb a b = true <-> a = b) -> forall (d : dict K num), NoDup (map fst d) ->
  forall k v, dget eqb d k = Some v <-> In (k, v) d.
Proof.
  intros K eqb SP d ND k v. split. apply dget_In; auto. intros I. induction d as [|[k' v'] d IH]; [destruct I|].
  cbn [dget]. cbn [map fst] in ND. inversion ND; subst. destruct I as [I|I].
  - injection I as -> ->. rewrite (proj2 (SP k k) eq_refl). auto.
  - destruct (eqb k k') eqn:E; auto. apply SP in E. subst. exfalso. apply H1. apply (in_map fst) in I. auto.
Qed.
Lemma foldn_NoDup : forall K eqb, (forall a b : K, eqb a b = true <-> a = b) -> forall key V l d, NoDup (map fst d) -> NoDup (map fst (foldn eqb key V l d)).
Proof. intros K eqb SP key V l. induction l; intros d H; auto. apply IHl. apply dset_NoDup; auto. Qed.
(** the last value wins *)
Lemma foldn_get : forall K eqb, (forall a b : K, eqb a b = true <-> a = b) -> forall key V l d k v, StronglySorted Rlt l ->
  (dget eqb (foldn eqb key V l d) k = Some v <->
   (exists t, In t l /\ key t = k /\ (forall t', In t' l -> key t' = k -> t' <= t) /\ v = Fin (V t))
   \/ ((forall t, In t l -> key t <> k) /\ dget eqb d k = Some v)).
Proof.
  intros K eqb SP key V. induction l as [|a l IH]; intros d k v SS.
  - cbn. split; auto. intros [[t [[] _]]|[_ H]]; auto.
  - inversion SS as [|? ? S1 S2]; subst. change (foldn eqb key V (a :: l) d) with (foldn eqb key V l (dset eqb d (key a) (Fin (V a)))).
    rewrite IH by auto. rewrite Forall_forall in S2. split.
    + intros [[t [I [E [M ->]]]]|[N H]].
      * left. exists t. split. right; auto. split; auto. split; auto. intros t' [<-|I'] E'; auto. left. apply S2; auto.
      * destruct (classic (key a = k)) as [E|E].
        -- subst k. rewrite (dget_dset_same _ SP) in H. injection H as <-. left. exists a. split. left; auto. split; auto. split; auto.
           intros t' [<-|I'] E'. lra. destruct (N t' I' E').
        -- rewrite (dget_dset_other _ SP) in H by auto. right. split; auto. intros t [<-|I]; auto.
    + intros [[t [[<-|I] [E [M ->]]]]|[N H]].
      * right. split. intros t I E'. pose proof (M t (or_intror I) E'). specialize (S2 t I). lra. subst k. apply (dget_dset_same _ SP).
      * left. exists t. split; auto. split; auto. split; auto. intros t' I' E'. apply M; auto. right; auto.
      * right. split. intros t I. apply N. right; auto. rewrite (dget_dset_other _ SP); auto. apply N. left; auto.
Qed.
Lemma NoDup_snoc : forall A (l : list A) a, NoDup l -> ~ In a l -> NoDup (l ++ [a]).
Proof. intros A l a N I. apply (Permutation_NoDup (l := a :: l)). apply Permutation_cons_append. constructor; auto. Qed.
Lemma dict_sum_perm : forall K (d d' : dict K num), Permutation d d' -> dict_sum d = dict_sum d'.
Proof.
  intros K d d' P. unfold dict_sum. induction P; cbn [map rsum fold_right] in *; auto.
  - unfold rsum in *. cbn [fold_right]. f_equal. auto.
  - unfold rsum. cbn [fold_right]. ring.
  - congruence.
Qed.
Lemma dict_sum_dset : forall K eqb, (forall a b : K, eqb a b = true <-> a = b) -> forall (d : dict K num) k v, NoDup (map fst d) ->
  dict_sum (dset eqb d k (Fin v)) = dict_sum d + v - match dget eqb d k with Some (Fin w) => w | _ => 0 end.
Proof.
  intros K eqb SP d k v ND. unfold dict_sum. induction d as [|[k' w] d IH]; cbn [dset dget map].
  - unfold rsum. cbn. ring.
  - inversion ND; subst. destruct (eqb k k'); cbn [map snd]; unfold rsum in *; cbn [fold_right]. destruct w; lra. rewrite IH by auto. ring.
Qed.
(** the dictionary before granulation *)
Definition counts {K} (key : R -> K) (kG : K) (new : bool) (ul : list R) (t : R) : Prop :=
  In t ul /\ (forall t', In t' ul -> key t' = key t -> t' <= t) /\ (new = false \/ key t <> kG).
Definition basen {K} eqb (key : R -> K) V ul (new : bool) kG : dict K num :=
  let d := foldn eqb key V ul [] in if new then dset eqb d kG (Fin 0) else d.
Lemma basen_get : forall K eqb, (forall a b : K, eqb a b = true <-> a = b) -> forall key V ul new kG k v, StronglySorted Rlt ul ->
  (dget eqb (basen eqb key V ul new kG) k = Some v <->
   (exists t, counts key kG new ul t /\ key t = k /\ v = Fin (V t)) \/ (new = true /\ k = kG /\ v = Fin 0)).
Proof.
  intros K eqb SP key V ul new kG k v SS. unfold basen. destruct new.
  - destruct (classic (kG = k)) as [E|E].
    + subst k. rewrite (dget_dset_same _ SP). split.
      * intros H. injection H as <-. auto.
      * intros [[t [[_ [_ [Q|Q]]] [E _]]]|[_ [_ ->]]]; auto; congruence.
    + rewrite (dget_dset_other _ SP) by auto. rewrite (foldn_get _ _ SP) by auto. split.
      * intros [[t [I [E' [M ->]]]]|[_ H]]; [|discriminate]. left. exists t. subst k. repeat split; auto.
      * intros [[t [[I [M _]] [E' ->]]]|[_ [E' _]]]; [|congruence]. left. exists t. subst k. auto.
  - rewrite (foldn_get _ _ SP) by auto. split.
    + intros [[t [I [E' [M ->]]]]|[_ H]]; [|discriminate]. left. exists t. subst k. repeat split; auto.
    + intros [[t [[I [M _]] [E' ->]]]|[E' _]]; [|congruence]. left. exists t. subst k. auto.
Qed.
Lemma basen_NoDup : forall K eqb, (forall a b : K, eqb a b = true <-> a = b) -> forall key V ul new kG, NoDup (map fst (basen eqb key V ul new kG)).
Proof.
  intros K eqb SP key V ul new kG. unfold basen. assert (N : NoDup (map fst (foldn eqb key V ul []))) by (apply foldn_NoDup; auto; constructor).
  destruct new; auto. apply dset_NoDup; auto.
Qed.
(** the hottest temperature with a given label *)
Lemma hottest : forall K (key : R -> K) ul t, In t ul -> exists t', In t' ul /\ key t' = key t /\ forall x, In x ul -> key x = key t -> x <= t'.
Proof.
  intros K key ul t. induction ul as [|a ul IH]; intros I; [destruct I|].
  destruct (classic (exists b, In b ul /\ key b = key t)) as [[b [Ib Eb]]|N].
  - assert (Q : exists t', In t' ul /\ key t' = key t /\ forall x, In x ul -> key x = key t -> x <= t').
    { destruct I as [<-|I]; auto. clear IH. revert b Ib Eb. induction ul as [|c ul IH]; intros b Ib Eb; [destruct Ib|].
      destruct (classic (exists b, In b ul /\ key b = key a)) as [[b' [Ib' Eb']]|N].
      - destruct (IH b' Ib' Eb') as [t' [H1 [H2 H3]]]. destruct (classic (key c = key a)) as [Ec|Ec].
        + destruct (Rle_lt_dec c t'). exists t'. split. right; auto. split; auto. intros x [<-|Ix] Ex; auto.
          exists c. split. left; auto. split; auto. intros x [<-|Ix] Ex. lra. pose proof (H3 x Ix Ex). lra.
        + exists t'. split. right; auto. split; auto. intros x [<-|Ix] Ex; auto. congruence.
      - destruct Ib as [<-|Ib]; [|exfalso; eauto]. exists c. split. left; auto. split; auto. intros x [<-|Ix] Ex. lra. exfalso; eauto. }
    destruct Q as [t' [H1 [H2 H3]]]. destruct (classic (key a = key t)) as [Ea|Ea].
    + destruct (Rle_lt_dec a t'). exists t'. split. right; auto. split; auto. intros x [<-|Ix] Ex; auto.
      exists a. split. left; auto. split; auto. intros x [<-|Ix] Ex. lra. pose proof (H3 x Ix Ex). lra.
    + exists t'. split. right; auto. split; auto. intros x [<-|Ix] Ex; auto. congruence.
  - destruct I as [<-|I]; [|exfalso; eauto]. exists a. split. left; auto. split; auto. intros x [<-|Ix] Ex. lra. exfalso; eauto.
Qed.
Lemma basen_keys : forall K eqb, (forall a b : K, eqb a b = true <-> a = b) -> forall key V ul new kG k, StronglySorted Rlt ul ->
  (In k (map fst (basen eqb key V ul new kG)) <-> (exists t, In t ul /\ k = key t) \/ (new = true /\ k = kG)).
Proof.
  intros K eqb SP key V ul new kG k SS. rewrite in_map_iff. split.
  - intros [[k' v] [E I]]. cbn in E. subst k'. apply (dget_iff _ _ SP) in I; [|apply basen_NoDup; auto]. rewrite basen_get in I by auto.
    destruct I as [[t [[I _] [E _]]]|[E [E' _]]]; eauto.
  - assert (Q : forall k, new = true /\ k = kG -> exists x, fst x = k /\ In x (basen eqb key V ul new kG)).
    { intros k' H. exists (k', Fin 0). split; auto. apply (dget_iff _ _ SP); [apply basen_NoDup; auto|]. rewrite basen_get by auto. right. tauto. }
    intros [[t [I ->]]|H]; auto. destruct (classic (new = true /\ key t = kG)) as [H|H]; auto.
    destruct (hottest _ key ul t I) as [t' [H1 [H2 H3]]]. exists (key t, Fin (V t')). split; auto.
    apply (dget_iff _ _ SP); [apply basen_NoDup; auto|]. rewrite basen_get by auto. left. exists t'. split; auto. split; auto. split.
    + intros x Ix Ex. apply H3; congruence.
    + destruct new; auto. right. rewrite H2. tauto.
Qed.
Lemma counts_inj : forall K (key : R -> K) kG new ul t t', counts key kG new ul t -> counts key kG new ul t' -> key t = key t' -> t = t'.
Proof. intros K key kG new ul t t' [I [M _]] [I' [M' _]] E. pose proof (M t' I' (eq_sym E)). pose proof (M' t I E). lra. Qed.
Lemma basen_sum : forall K eqb, (forall a b : K, eqb a b = true <-> a = b) -> forall key V ul new kG ts, StronglySorted Rlt ul ->
  NoDup ts -> (forall t, In t ts <-> counts key kG new ul t) -> dict_sum (basen eqb key V ul new kG) = rsum (map V ts).
Proof.
  intros K eqb SP key V ul new kG ts SS ND HT.
  set (l := map (fun t => (key t, Fin (V t))) ts).
  assert (NL : NoDup (map fst l)).
  { unfold l. rewrite map_map. cbn [fst]. assert (Q : forall t, In t ts -> counts key kG new ul t) by (intros; apply HT; auto). clear HT l.
    induction ts as [|a ts IH]; cbn [map]; constructor.
    - inversion ND; subst. intros I. apply in_map_iff in I. destruct I as [t [E I]]. apply H1.
      assert (t = a). { eapply counts_inj; [apply Q; right; exact I|apply Q; left; auto|auto]. } congruence.
    - inversion ND; subst. apply IH; auto. intros; apply Q; right; auto. }
  assert (P : Permutation (basen eqb key V ul new kG) (l ++ if new then [(kG, Fin 0)] else [])).
  { apply NoDup_Permutation.
    - eapply NoDup_map_inv. apply (basen_NoDup _ _ SP).
    - apply (NoDup_map_inv fst). rewrite map_app. destruct new; cbn [map]; [|rewrite app_nil_r; auto].
      apply NoDup_snoc; auto. cbn [fst]. unfold l. rewrite map_map. intros I. apply in_map_iff in I. destruct I as [t [E I]]. apply HT in I. destruct I as [_ [_ [Q|Q]]]; cbn [fst] in E; congruence.
    - intros [k v]. rewrite <- (dget_iff _ _ SP) by (apply (basen_NoDup _ _ SP)). rewrite (basen_get _ _ SP) by auto. rewrite in_app_iff. unfold l. rewrite in_map_iff. split.
      + intros [[t [C [E ->]]]|[-> [-> ->]]]. left. exists t. split. congruence. apply HT; auto. right. left; auto.
      + intros [[t [E I]]|I]. left. exists t. injection E as <- <-. split; auto. apply HT; auto. right. destruct new; [|destruct I]. destruct I as [I|[]]. injection I as <- <-. auto. }
  rewrite (dict_sum_perm _ _ _ P). unfold dict_sum. rewrite map_app, rsum_app. unfold l. rewrite map_map. cbn [snd].
  match goal with |- ?a + _ = ?b => change a with b end. destruct new; cbn [map snd rsum fold_right]; lra.
Qed.
(** granulation *)
Lemma in_keys_iff : forall K eqb, (forall a b : K, eqb a b = true <-> a = b) -> forall (d : dict K num) k, In k (map fst d) <-> exists v, dget eqb d k = Some v.
Proof.
  intros K eqb SP d k. destruct (dget eqb d k) as [v|] eqn:E.
  - split; eauto. intros _. apply (in_map fst) with (x := (k, v)). eapply dget_In; eauto.
  - split; [intros I; exfalso; eapply dget_None; eauto|intros [v H]; discriminate].
Qed.
Lemma grang_ok : forall K eqb, (forall a b : K, eqb a b = true <-> a = b) -> forall (d : dict K num) kT kG f p q, NoDup (map fst d) ->
  dget eqb d kT = Some (Fin p) -> dget eqb d kG = Some (Fin q) ->
  exists d', grang eqb d kT kG (Fin f) = Ok d' /\ NoDup (map fst d') /\ (forall k, In k (map fst d') <-> In k (map fst d)) /\ dict_sum d' = dict_sum d
  /\ forall k v, dget eqb d' k = Some v ->
       (k <> kT -> k <> kG -> dget eqb d k = Some v) /\ (k = kT -> k <> kG -> v = Fin (p * (1 - f)))
       /\ (k <> kT -> k = kG -> v = Fin (q + p * f)) /\ (k = kT -> k = kG -> v = Fin p).
Proof.
  intros K eqb SP d kT kG f p q ND EP EQ. unfold grang, dindex. rewrite EP. cbn [bind]. rewrite nsub_fin, !nmul_fin.
  assert (ND1 : NoDup (map fst (dset eqb d kT (Fin (p * (1 - f)))))) by (apply dset_NoDup; auto).
  assert (KK : forall (d : dict K num) k w, In k (map fst d) -> forall k', In k' (map fst (dset eqb d k w)) <-> In k' (map fst d)).
  { intros d1 k w I k'. rewrite !(in_keys_iff _ _ SP). destruct (classic (k = k')) as [<-|N].
    - rewrite (dget_dset_same _ SP). split; eauto. intros _. apply (in_keys_iff _ _ SP); auto.
    - rewrite (dget_dset_other _ SP) by auto. tauto. }
  assert (IT : In kT (map fst d)) by (apply (in_keys_iff _ _ SP); eauto). assert (IG : In kG (map fst d)) by (apply (in_keys_iff _ _ SP); eauto).
  destruct (classic (kT = kG)) as [<-|N].
  - rewrite (dget_dset_same _ SP). cbn [bind]. rewrite nadd_fin. eexists. split. reflexivity.
    split. apply dset_NoDup; auto. split. { intros k. rewrite KK, KK; auto. tauto. apply KK; auto. }
    split. { rewrite !(dict_sum_dset _ _ SP) by auto. rewrite (dget_dset_same _ SP), EP. lra. }
    intros k v H. destruct (classic (kT = k)) as [<-|N].
    + rewrite (dget_dset_same _ SP) in H. injection H as <-. repeat split; try congruence. intros; f_equal; ring.
    + rewrite !(dget_dset_other _ SP) in H by auto. repeat split; auto; congruence.
  - rewrite (dget_dset_other _ SP), EQ by auto. cbn [bind]. rewrite nadd_fin. eexists. split. reflexivity.
    split. apply dset_NoDup; auto. split. { intros k. rewrite KK, KK; auto. tauto. apply KK; auto. }
    split. { rewrite !(dict_sum_dset _ _ SP) by auto. rewrite (dget_dset_other _ SP), EP, EQ by auto. lra. }
    intros k v H. destruct (classic (kG = k)) as [<-|NG].
    + rewrite (dget_dset_same _ SP) in H. injection H as <-. repeat split; congruence.
    + rewrite (dget_dset_other _ SP) in H by auto. destruct (classic (kT = k)) as [<-|NT].
      * rewrite (dget_dset_same _ SP) in H. injection H as <-. repeat split; congruence.
      * rewrite (dget_dset_other _ SP) in H by auto. repeat split; auto; congruence.
Qed.
(** ** both together *)
Lemma report_generic : forall K eqb, (forall a b : K, eqb a b = true <-> a = b) -> forall (lm ls : R -> K) s lat0 lon0 A M T D c f ul (new : bool) V,
  StronglySorted Rlt ul -> (forall t, appears (st_grid s) M t <-> In t ul) -> (new = true <-> ~ appears (st_grid s) M (T - D)) ->
  (forall t, In t ul -> V t = share s lat0 lon0 A M c t) ->
  (occurs lm ls s M T D (ls T) /\ occurs lm ls s M T D (ls (T - D)) ->
    exists d, grang eqb (basen eqb lm V ul new (ls (T - D))) (ls T) (ls (T - D)) (Fin f) = Ok d /\ reports lm ls s lat0 lon0 A M T D c f d)
  /\ (~ (occurs lm ls s M T D (ls T) /\ occurs lm ls s M T D (ls (T - D))) ->
       grang eqb (basen eqb lm V ul new (ls (T - D))) (ls T) (ls (T - D)) (Fin f) = Raise KeyError).
Proof.
  intros K eqb SP lm ls s lat0 lon0 A M T D c f ul new V SS Ap NW HV. set (kT := ls T). set (kG := ls (T - D)). set (d0 := basen eqb lm V ul new kG).
  assert (ND : NoDup (map fst d0)) by (apply basen_NoDup; auto).
  assert (OC : forall k, In k (map fst d0) <-> occurs lm ls s M T D k).
  { intros k. unfold d0. rewrite (basen_keys _ _ SP) by auto. unfold occurs. rewrite NW. fold kG. split; (intros [[t [I E]]|H]; [left; exists t; split; auto; apply Ap; auto|auto]). }
  assert (CC : forall t, counted lm ls s M T D t <-> counts lm kG new ul t).
  { intros t. unfold counted, counts. rewrite Ap. fold kG.
    assert (Q : (forall t', appears (st_grid s) M t' -> lm t' = lm t -> t' <= t) <-> (forall t', In t' ul -> lm t' = lm t -> t' <= t)).
    { split; intros H t' I; apply H; apply Ap; auto. }
    assert (Q' : appears (st_grid s) M (T - D) <-> new = false). { destruct new. split; [tauto|discriminate]. split; auto. intros _. apply NNPP. intros X. apply NW in X. discriminate. }
    tauto. }
  assert (G : forall k, In k (map fst d0) -> exists p, dget eqb d0 k = Some (Fin p)).
  { intros k I. apply (in_keys_iff _ _ SP) in I. destruct I as [v I]. pose proof I as I0. unfold d0 in I. rewrite (basen_get _ _ SP) in I by auto.
    destruct I as [[t [_ [_ ->]]]|[_ [_ ->]]]; eauto. }
  split.
  - intros [OT OG]. apply OC in OT, OG. destruct (G _ OT) as [p EP], (G _ OG) as [q EQ].
    destruct (grang_ok _ _ SP d0 kT kG f p q ND EP EQ) as [d [E [N1 [N2 [N3 N4]]]]]. exists d. split; auto. split; auto. split. { intros k. rewrite N2. auto. } split.
    + exists (fun k => match dget eqb d0 k with Some (Fin v) => v | _ => 0 end). split; [|split].
      * intros t C. apply CC in C. assert (X : dget eqb d0 (lm t) = Some (Fin (V t))). { unfold d0. rewrite (basen_get _ _ SP) by auto. left. eauto. }
        rewrite X. apply HV. apply C.
      * intros k Hk. destruct (dget eqb d0 k) as [v|] eqn:X; auto. unfold d0 in X. rewrite (basen_get _ _ SP) in X by auto.
        destruct X as [[t [C [Et _]]]|[_ [_ ->]]]; auto. exfalso. apply (Hk t); auto. apply CC; auto.
      * intros k v I. apply (dget_iff _ _ SP) in I; auto. destruct (N4 k v I) as [A1 [A2 [A3 A4]]].
        assert (Ik : In k (map fst d0)) by (apply N2, (in_keys_iff _ _ SP); eauto). destruct (G k Ik) as [r Er].
        split; [|split; [|split]].
        -- intros H1 H2. pose proof (A1 H1 H2) as X. rewrite X. rewrite X in Er. injection Er as ->. auto.
        -- intros H1 H2. rewrite H1 at 1. fold kT. rewrite EP. auto.
        -- intros H1 H2. rewrite H2 at 1. fold kG kT. rewrite EQ, EP. auto.
        -- intros H1 H2. rewrite H1 at 1. fold kT. rewrite EP. auto.
    + intros ts NT HT. rewrite N3. unfold d0. rewrite (basen_sum _ _ SP lm V ul new kG ts); auto.
      * apply rsum_map_ext. intros t I. apply HV. apply HT in I. apply CC in I. apply I.
      * intros t. rewrite HT. apply CC.
  - intros N. unfold grang, dindex. destruct (dget eqb d0 kT) as [v|] eqn:E; auto. cbn [bind].
    assert (IT : In kT (map fst d0)) by (apply (in_keys_iff _ _ SP); eauto).
    destruct (classic (kT = kG)) as [EK|EK]. { exfalso. apply N. rewrite <- !OC. fold kT kG. rewrite <- EK. auto. }
    rewrite (dget_dset_other _ SP) by auto. destruct (dget eqb d0 kG) as [w|] eqn:E'; auto. exfalso. apply N. rewrite <- !OC. split; auto. apply (in_keys_iff _ _ SP). eauto.
Qed.

(** ** the report in kelvins *)
Lemma lift_foldd : forall V ul d, lift (foldd V ul d) = foldn tkey_eqb (fun t => fmt2 (Fin t)) V ul (lift d).
Proof. intros V. induction ul; intros d; auto. change (lift (foldd V ul (rset d (key a) (V a))) = foldn tkey_eqb (fun t => fmt2 (Fin t)) V ul (dset tkey_eqb (lift d) (key a) (Fin (V a)))). rewrite IHul, lift_dset. auto. Qed.
Lemma lift_base : forall V ul gt, lift (base V ul gt) = basen tkey_eqb (fun t => fmt2 (Fin t)) V ul (if in_dec Req_EM_T gt ul then false else true) (fmt2 (Fin gt)).
Proof.
  intros V ul gt. unfold base, basen. destruct (in_dec _ _ _). rewrite lift_foldd. auto. rewrite <- lift_dset, lift_foldd. auto.
Qed.
Lemma occurs_gran : forall K (l : R -> K) s M T D, occurs l l s M T D (l (T - D)).
Proof. intros K l s M T D. destruct (classic (appears (st_grid s) M (T - D))); [left|right]; eauto. Qed.
Lemma C109_lemma : forall label s lat0 lon0 orbit planet phase incl T D A M C pf f,
  two_decimals label -> disk_view s lat0 lon0 orbit planet phase incl T D A M C pf -> disk s lat0 lon0 A <> 0 ->
  (occurs label label s M T D (label T) ->
     exists tot cov, calc_coverage s lat0 lon0 (Fin f) orbit planet phase incl = Ok (tot, cov, pf)
       /\ reports label label s lat0 lon0 A M T D (fun _ _ => 1) f tot /\ reports label label s lat0 lon0 A M T D (cell_val C) f cov)
  /\ (~ occurs label label s M T D (label T) -> calc_coverage s lat0 lon0 (Fin f) orbit planet phase incl = Raise KeyError).
Proof.
  intros label s lat0 lon0 orbit planet phase incl T D A M C pf f TD V NW. rewrite (two_decimals_eq label TD). clear label TD.
  destruct (calc_coverage_eq _ _ _ _ _ _ _ _ _ _ _ _ _ f V NW) as [ul [SS [Ap [_ EE]]]].
  set (kf := fun t => fmt2 (Fin t)). set (new := if in_dec Req_EM_T (T - D) ul then false else true).
  assert (HN : new = true <-> ~ appears (st_grid s) M (T - D)). { rewrite Ap. unfold new. destruct (in_dec _ _ _); split; auto; congruence. }
  assert (E : calc_coverage s lat0 lon0 (Fin f) orbit planet phase incl
    = do tot <- grang tkey_eqb (basen tkey_eqb kf (share s lat0 lon0 A M (fun _ _ => 1)) ul new (kf (T - D))) (kf T) (kf (T - D)) (Fin f) ;;
      do cov <- grang tkey_eqb (basen tkey_eqb kf (share s lat0 lon0 A M (cell_val C)) ul new (kf (T - D))) (kf T) (kf (T - D)) (Fin f) ;; Ok (tot, cov, pf)).
  { rewrite EE. unfold new, kf. rewrite <- !lift_base.
    change (grang tkey_eqb) with granulate. rewrite !granulate_lift. fold (key T) (key (T - D)).
    destruct (rgran (base (share s lat0 lon0 A M (fun _ _ => 1)) ul (T - D)) (key T) (key (T - D)) f); cbn [bind rmap]; auto.
    destruct (rgran (base (share s lat0 lon0 A M (cell_val C)) ul (T - D)) (key T) (key (T - D)) f); cbn [bind rmap]; auto. }
  pose proof (occurs_gran _ kf s M T D) as OG.
  destruct (report_generic _ _ tkey_eqb_spec kf kf s lat0 lon0 A M T D (fun _ _ => 1) f ul new _ SS Ap HN (fun t _ => eq_refl)) as [G1 G2].
  destruct (report_generic _ _ tkey_eqb_spec kf kf s lat0 lon0 A M T D (cell_val C) f ul new _ SS Ap HN (fun t _ => eq_refl)) as [H1 H2].
  rewrite E. split.
  - intros O. destruct (G1 (conj O OG)) as [d [-> R]], (H1 (conj O OG)) as [d' [-> R']]. cbn [bind]. eauto.
  - intros O. rewrite G2 by tauto. auto.
Qed.
Lemma C109_lost_lemma : forall K (lm ls : R -> K) s lat0 lon0 orbit planet phase incl T D A M C pf f d,
  disk_view s lat0 lon0 orbit planet phase incl T D A M C pf -> disk s lat0 lon0 A <> 0 ->
  reports lm ls s lat0 lon0 A M T D (fun _ _ => 1) f d ->
  (forall ts, NoDup ts -> (forall t, In t ts <-> lost lm ls s M T D t) -> dict_sum d = 1 - rsum (map (share s lat0 lon0 A M (fun _ _ => 1)) ts))
  /\ (ld_nonneg s -> dict_sum d <= 1 /\ (dict_sum d = 1 <-> forall t, lost lm ls s M T D t -> share s lat0 lon0 A M (fun _ _ => 1) t = 0)).
Proof.
  intros K lm ls s lat0 lon0 orbit planet phase incl T D A M C pf f d V NW [_ [_ [_ RS]]].
  destruct (calc_coverage_eq _ _ _ _ _ _ _ _ _ _ _ _ _ f V NW) as [ul [SS [Ap [SU _]]]]. pose proof (sorted_NoDup _ SS) as ND.
  set (sh := share s lat0 lon0 A M (fun _ _ => 1)) in *.
  assert (SPLIT : exists cs ts, NoDup cs /\ NoDup ts /\ (forall t, In t cs <-> counted lm ls s M T D t) /\ (forall t, In t ts <-> lost lm ls s M T D t)
     /\ rsum (map sh ul) = rsum (map sh cs) + rsum (map sh ts)).
  { assert (Q : forall (P : R -> Prop) l, NoDup l -> exists cs ts, NoDup cs /\ NoDup ts /\ (forall t, In t cs <-> In t l /\ P t) /\ (forall t, In t ts <-> In t l /\ ~ P t)
        /\ rsum (map sh l) = rsum (map sh cs) + rsum (map sh ts)).
    { intros P. induction l as [|a l IH]; intros N.
      - exists [], []. split. constructor. split. constructor. split. simpl; tauto. split. simpl; tauto. cbn. lra.
      - inversion N; subst. destruct IH as [cs [ts [N1 [N2 [I1 [I2 E]]]]]]; auto. destruct (classic (P a)) as [Pa|Pa].
        + exists (a :: cs), ts. split. constructor; auto. rewrite I1. tauto. split; auto. split. { intros t. cbn [In]. rewrite I1. split; [intros [<-|[]]; auto|intros [[<-|]]; auto]. }
          split. { intros t. cbn [In]. rewrite I2. split; [tauto|]. intros [[<-|]]; tauto. } cbn [map]. unfold rsum in *. cbn [fold_right]. lra.
        + exists cs, (a :: ts). split; auto. split. constructor; auto. rewrite I2. tauto. split. { intros t. cbn [In]. rewrite I1. split; [tauto|]. intros [[<-|]]; tauto. }
          split. { intros t. cbn [In]. rewrite I2. split; [intros [<-|[]]; auto|intros [[<-|]]; auto]. } cbn [map]. unfold rsum in *. cbn [fold_right]. lra. }
    destruct (Q (counted lm ls s M T D) ul ND) as [cs [ts [N1 [N2 [I1 [I2 E]]]]]]. exists cs, ts. split; auto. split; auto. split.
    { intros t. rewrite I1, <- Ap. unfold counted. tauto. } split; auto. intros t. rewrite I2, <- Ap. unfold lost. tauto. }
  destruct SPLIT as [cs [ts [N1 [N2 [I1 [I2 E]]]]]].
  assert (ES : dict_sum d = 1 - rsum (map sh ts)) by (rewrite (RS cs N1 I1); fold sh; lra).
  split.
  - intros ts' N' I'. rewrite ES. f_equal. apply rsum_perm. apply Permutation_map. apply NoDup_Permutation; auto. intros t. rewrite I2, I'. tauto.
  - intros LD. assert (P : forall t, 0 <= sh t) by (intros; eapply share_nonneg; eauto).
    assert (Z : forall l, 0 <= rsum (map sh l) /\ (rsum (map sh l) = 0 <-> forall t, In t l -> sh t = 0)).
    { induction l as [|a l [IH1 IH2]]; cbn [map]; unfold rsum in *; cbn [fold_right In]. split. lra. split; auto. tauto. split. specialize (P a). lra. split.
      - intros H t [<-|I]. pose proof (P a). lra. apply IH2; auto. pose proof (P a). lra.
      - intros H. rewrite (H a) by auto. rewrite (proj2 IH2). lra. intros; apply H; auto. }
    destruct (Z ts) as [Z1 Z2]. split. lra. split.
    + intros H t L. apply Z2. lra. apply I2; auto.
    + intros H. rewrite ES, (proj2 Z2). lra. intros t I. apply H, I2; auto.
Qed.

(** ** the report with texts *)
Lemma loop_u_eq : forall um, 0 < tu_size um -> forall X (gp : arr X) (tm ldp pr cm : X -> R) W, W <> 0 -> forall ul d1 d2,
  coverage_loop_u um (amap (fun x => in_unit um (Fin (tm x))) gp) (amap ldp gp) (amap (fun p => Fin (pr p)) gp) (amap (fun p => Fin (cm p)) gp) (Fin W) (d1, d2)
    (map (in_unit um) (map Fin ul))
  = Ok (foldn String.eqb (fun t => label_u um (in_unit um (Fin t))) (fun t => rsum (map (fun p => if Req_EM_T (tm p) t then ldp p * pr p else 0) (cells gp)) / W) ul d1,
        foldn String.eqb (fun t => label_u um (in_unit um (Fin t))) (fun t => rsum (map (fun p => if Req_EM_T (tm p) t then ldp p * pr p * cm p else 0) (cells gp)) / W) ul d2).
Proof.
  intros um UM X gp tm ldp pr cm W HW. induction ul as [|t ul IH]; intros d1 d2; auto.
  cbn [map coverage_loop_u]. unfold coverage_step_u. rewrite !amap_amap. rewrite amap2_amap. cbn [bind]. rewrite amap2_amap. cbn [bind].
  rewrite amap2_amap. cbn [bind fst snd]. rewrite !cells_amap.
  assert (NE : forall x, neq (in_unit um (Fin x)) (in_unit um (Fin t)) = Reqb x t).
  { intros x. unfold in_unit. rewrite !ndiv_fin by lra. cbn [neq]. unfold Reqb. destruct (Req_EM_T x t) as [->|N]; destruct (Req_EM_T _ _) as [E|E]; auto; try tauto.
    exfalso. apply N. apply Rmult_eq_reg_r in E; auto. apply Rinv_neq_0_compat. lra. }
  rewrite (nsum_map_fin _ _ (fun p => if Req_EM_T (tm p) t then ldp p * pr p else 0)).
  2:{ intros p _. rewrite NE, !nmul_fin. f_equal. unfold Reqb. destruct (Req_EM_T (tm p) t); ring. }
  rewrite (nsum_map_fin _ _ (fun p => if Req_EM_T (tm p) t then ldp p * pr p * cm p else 0)).
  2:{ intros p _. rewrite NE, !nmul_fin. f_equal. unfold Reqb. destruct (Req_EM_T (tm p) t); ring. }
  rewrite !ndiv_fin by auto. rewrite IH. auto.
Qed.
Lemma C109_text_lemma : forall text_map text_star s us lat0 lon0 orbit planet phase incl T D A M C pf f,
  writes (map_unit us (length (sc_spots (st_spots s)))) text_map -> writes (us_star us) text_star ->
  sizes_positive us -> units_ok us (sc_spots (st_spots s)) ->
  disk_view s lat0 lon0 orbit planet phase incl T D A M C pf -> disk s lat0 lon0 A <> 0 ->
  occurs text_map text_star s M T D (text_star T) -> occurs text_map text_star s M T D (text_star (T - D)) ->
  exists tot cov, calc_coverage_u s us lat0 lon0 (Fin f) orbit planet phase incl = Ok (tot, cov, pf)
    /\ reports text_map text_star s lat0 lon0 A M T D (fun _ _ => 1) f tot /\ reports text_map text_star s lat0 lon0 A M T D (cell_val C) f cov.
Proof.
  intros text_map text_star s us lat0 lon0 orbit planet phase incl T D A M C pf f WM WS SP UO V NW OT OG.
  set (um := map_unit us (length (sc_spots (st_spots s)))) in *. assert (UM : 0 < tu_size um) by (apply map_unit_pos; auto).
  pose proof (writes_eq _ _ UM WM) as EMt. pose proof (writes_eq _ _ (proj1 SP) WS) as ESt.
  destruct (view_form _ _ _ _ _ _ _ _ _ _ _ _ _ V) as [tm [cm [EA [EM [EC [_ [EW [E1 [E2 [Ap _]]]]]]]]]].
  destruct V as [Vu Vg Vr Vl Vt Vd Va Vm Vf Vk]. set (W := disk s lat0 lon0 A) in *. set (gp := grid_points (st_grid s)) in *.
  unfold calc_coverage_u. rewrite (add_faculae_u_eq s us lat0 lon0 SP (units_ok_spot _ _ UO)), Vm. fold um.
  unfold star_jacobian. rewrite Va, Vk. rewrite star_mu_eq. fold gp. cbn [bind rmap]. rewrite EA, EC. rewrite !amap_amap.
  rewrite amap2_amap. cbn [bind]. rewrite amap2_amap. cbn [bind].
  set (ul := runiq (map tm (cells gp))) in *.
  assert (EN : nunique (cells (amap (in_unit um) M)) = map (in_unit um) (map Fin ul)).
  { rewrite cells_amap, nunique_in by auto. f_equal. rewrite EM, cells_amap, <- (map_map tm Fin), nunique_fin. auto. }
  rewrite EN. replace (amap (in_unit um) M) with (amap (fun x => in_unit um (Fin (tm x))) gp) by (rewrite EM, amap_amap; auto).
  rewrite cells_amap. rewrite (nsum_map_fin _ _ (wgt s lat0 lon0)).
  2:{ intros p _. rewrite !nmul_fin. auto. }
  rewrite <- EW. fold W.
  rewrite (amap_ext _ _ (fun x => nmul (Fin (rarea_at (st_grid s) x)) (Fin (area_projection (law_cos lat0 lon0 (fst x) (snd x)))))
             (fun x => Fin (rarea_at (st_grid s) x * area_projection (law_cos lat0 lon0 (fst x) (snd x))))) by (intros; apply nmul_fin).
  rewrite loop_u_eq by auto. cbn [bind].
  rewrite Vt, Vd, nsub_in, nsub_fin, convert_in, existsb_in by (auto; apply SP). rewrite <- !ESt.
  assert (NEW : negb (existsb (fun t => neq (Fin (T - D)) t) (map Fin ul)) = true <-> ~ appears (st_grid s) M (T - D)).
  { rewrite Ap, negb_true_iff, <- not_true_iff_false. apply not_iff_compat. rewrite existsb_exists. split.
    - intros [x [I E]]. apply in_map_iff in I. destruct I as [t [<- I]]. apply neq_fin in E. subst; auto.
    - intros I. exists (Fin (T - D)). split. apply in_map; auto. apply neq_fin; auto. }
  set (new := negb _) in *.
  change granulate_u with (grang String.eqb).
  replace (fun t => label_u um (in_unit um (Fin t))) with text_map by (apply FunctionalExtensionality.functional_extensionality; intros; apply EMt).
  match goal with |- context [if new then dset _ (foldn _ _ ?V1 ul []) _ _ else _] =>
    destruct (report_generic _ _ String.eqb_eq text_map text_star s lat0 lon0 A M T D (fun _ _ => 1) f ul new V1 (runiq_sorted _) Ap NEW (fun t _ => eq_sym (E1 t))) as [G1 _] end.
  destruct (G1 (conj OT OG)) as [d [Ed Rd]]. unfold basen in Ed. rewrite Ed. cbn [bind].
  match goal with |- context [if new then dset _ (foldn _ _ ?V1 ul []) _ _ else _] =>
    destruct (report_generic _ _ String.eqb_eq text_map text_star s lat0 lon0 A M T D (cell_val C) f ul new V1 (runiq_sorted _) Ap NEW (fun t _ => eq_sym (E2 t))) as [G2 _] end.
  destruct (G2 (conj OT OG)) as [d' [Ed' Rd']]. unfold basen in Ed'. rewrite Ed'. cbn [bind]. exists d, d'. rewrite <- EA, <- EC. auto.
Qed.
(** granulation that is too weak to have a label of its own *)
Lemma C109_vanish_lemma : forall label s lat0 lon0 orbit planet phase incl T D A M C pf f,
  two_decimals label -> disk_view s lat0 lon0 orbit planet phase incl T D A M C pf -> disk s lat0 lon0 A <> 0 ->
  label (T - D) = label T -> ~ appears (st_grid s) M (T - D) ->
  exists tot cov, calc_coverage s lat0 lon0 (Fin f) orbit planet phase incl = Ok (tot, cov, pf)
    /\ dget tkey_eqb tot (label T) = Some (Fin 0) /\ dget tkey_eqb cov (label T) = Some (Fin 0)
    /\ ((forall t, appears (st_grid s) M t -> t = T) -> tot = [(label T, Fin 0)] /\ cov = [(label T, Fin 0)]).
Proof.
  intros label s lat0 lon0 orbit planet phase incl T D A M C pf f TD V NW EL NA.
  destruct (C109_lemma label s lat0 lon0 orbit planet phase incl T D A M C pf f TD V NW) as [H _].
  destruct H as [tot [cov [E [R1 R2]]]]. { rewrite <- EL. apply occurs_gran. }
  exists tot, cov. split; auto.
  assert (Q : forall c d, reports label label s lat0 lon0 A M T D c f d -> dget tkey_eqb d (label T) = Some (Fin 0)
     /\ ((forall t, appears (st_grid s) M t -> t = T) -> d = [(label T, Fin 0)])).
  { intros c d [N [K [[e [E1 [E2 E3]]] _]]]. assert (I : In (label T) (map fst d)) by (rewrite K, <- EL; apply occurs_gran).
    assert (Z : e (label T) = 0). { apply E2. intros t [_ [_ [Q|Q]]] X. tauto. apply Q. congruence. }
    assert (G : forall v, In (label T, v) d -> v = Fin 0). { intros v J. destruct (E3 _ _ J) as [_ [_ [_ X]]]. rewrite X; auto. f_equal; auto. }
    split.
    - apply (dget_iff _ _ tkey_eqb_spec); auto. apply in_map_iff in I. destruct I as [[k v] [EK J]]. cbn [fst] in EK. subst k. rewrite <- (G v); auto.
    - intros O. assert (KK : forall k, In k (map fst d) -> k = label T). { intros k J. apply K in J. destruct J as [[t [X ->]]|[_ ->]]; auto. rewrite (O t X). auto. }
      destruct d as [|[k v] d]; [destruct I|]. assert (k = label T) by (apply KK; left; auto). subst k. rewrite (G v) by (left; auto). f_equal.
      destruct d as [|[k w] d]; auto. exfalso. cbn [map fst] in N. inversion N as [|? ? N1 N2]; subst. apply N1. left. apply KK. right; left; auto. }
  destruct (Q _ _ R1), (Q _ _ R2). auto.
Qed.
