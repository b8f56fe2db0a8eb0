(** C107: texts of numbers *)
From Coq Require Import Reals ZArith NArith Bool String Ascii List Lra Lia.
From Verif Require Import Num Py MConfig MHelpers MGrid MSpots MFaculae MXoflares MFlares MGranules MStar MFormat
  Spec SpecStar SpecDisk SpecText LHelpers.
Import ListNotations.
Open Scope R_scope.

Lemma digit_of_char : forall k, (k < 10)%N -> digit_of (digit_char k) = Some k.
Proof.
  intros k H. assert (E : (k = 0 \/ k = 1 \/ k = 2 \/ k = 3 \/ k = 4 \/ k = 5 \/ k = 6 \/ k = 7 \/ k = 8 \/ k = 9)%N) by lia.
  repeat (destruct E as [->|E]; [reflexivity|]). subst. reflexivity.
Qed.
Lemma digits_app : forall s acc t, digits_value acc (s ++ t)%string = match digits_value acc s with Some v => digits_value v t | None => None end.
Proof.
  induction s as [|c s IH]; intros acc t; simpl; auto. destruct (digit_of c); auto.
Qed.
Lemma app_length : forall s t, String.length (s ++ t)%string = (String.length s + String.length t)%nat.
Proof. induction s; intros; simpl; auto. Qed.
Lemma padded_length : forall d k, String.length (show_padded d k) = d.
Proof. induction d; intros; simpl; auto. rewrite app_length, IHd. simpl. lia. Qed.
Lemma padded_value : forall d k acc, digits_value acc (show_padded d k) = Some (acc * 10 ^ N.of_nat d + k mod 10 ^ N.of_nat d)%N.
Proof.
  induction d; intros k acc.
  - cbn [show_padded digits_value]. f_equal. change (10 ^ N.of_nat 0)%N with 1%N. rewrite N.mod_1_r. lia.
  - cbn [show_padded]. rewrite digits_app, IHd. cbn [digits_value].
    rewrite digit_of_char by (apply N.mod_lt; lia). f_equal.
    rewrite Nat2N.inj_succ, N.pow_succ_r by lia.
    rewrite (N.mod_mul_r k 10 (10 ^ N.of_nat d)) by (try lia; apply N.pow_nonzero; lia). ring.
Qed.
Lemma digits_fuel : forall f k acc, (k < 2 ^ N.of_nat f)%N -> exists m, digits_value acc (show_digits (S f) k) = Some (acc * m + k)%N.
Proof.
  induction f; intros k acc H.
  - change (2 ^ N.of_nat 0)%N with 1%N in H. assert (k = 0)%N by lia. subst. exists 10%N. change (show_digits 1 0) with "0"%string. cbn [digits_value digit_of]. f_equal. lia.
  - remember (S f) as f' eqn:Ef. cbn [show_digits]. destruct (k <? 10)%N eqn:L.
    + apply N.ltb_lt in L. exists 10%N. cbn [digits_value]. rewrite digit_of_char by auto. f_equal. lia.
    + apply N.ltb_ge in L. rewrite digits_app. subst f'. destruct (IHf (k / 10)%N acc) as [m E].
      { rewrite Nat2N.inj_succ, N.pow_succ_r in H by lia. apply N.div_lt_upper_bound; lia. }
      rewrite E. cbn [digits_value]. rewrite digit_of_char by (apply N.mod_lt; lia). exists (10 * m)%N. f_equal.
      pose proof (N.div_mod k 10). lia.
Qed.
Lemma size_bound : forall k, (k < 2 ^ N.of_nat (N.to_nat (N.size k)))%N.
Proof. intros k. rewrite N2Nat.id. apply N.size_gt. Qed.
Lemma show_N_value : forall k, digits_value 0 (show_N k) = Some k.
Proof.
  intros k. unfold show_N. destruct (digits_fuel _ k 0%N (size_bound k)) as [m ->]. reflexivity.
Qed.
Lemma digits_normal : forall f k, (k < 2 ^ N.of_nat f)%N -> normal_whole (show_digits (S f) k)
  /\ (0 < k -> forall c t, show_digits (S f) k = String c t -> c <> "0"%char)%N.
Proof.
  induction f; intros k H.
  - change (2 ^ N.of_nat 0)%N with 1%N in H. assert (k = 0)%N by lia. subst. split; [exact I|lia].
  - remember (S f) as f' eqn:Ef. cbn [show_digits]. destruct (k <? 10)%N eqn:L.
    + apply N.ltb_lt in L. split; [exact I|]. intros P c t E. injection E as <- _. intros Q.
      pose proof (digit_of_char k L) as D. rewrite Q in D. cbn in D. injection D as <-. lia.
    + apply N.ltb_ge in L. subst f'. destruct (IHf (k / 10)%N) as [N1 N2].
      { rewrite Nat2N.inj_succ, N.pow_succ_r in H by lia. apply N.div_lt_upper_bound; lia. }
      assert (P : (0 < k / 10)%N) by (apply N.div_str_pos; lia). specialize (N2 P).
      destruct (show_digits (S f) (k / 10)) as [|c t]; [destruct N1|]. pose proof (N2 c t eq_refl) as C.
      split. cbn. destruct (t ++ _)%string eqn:Q; auto. intros _ c' t' E. cbn in E. injection E as <- _. auto.
Qed.
Lemma show_N_normal : forall k, normal_whole (show_N k).
Proof. intros. apply digits_normal, size_bound. Qed.

(** uniqueness of decimal texts *)
Lemma digits_no : forall c s acc v, digit_of c = None -> digits_value acc s = Some v -> lacks c s.
Proof.
  induction s as [|a s IH]; intros acc v D H; cbn in *; auto. destruct (digit_of a) eqn:E; try discriminate. split; eauto. intros ->. congruence.
Qed.
Lemma split_at : forall c a b s t, lacks c a -> lacks c b -> (a ++ String c s = b ++ String c t)%string -> a = b /\ s = t.
Proof.
  induction a as [|x a IH]; intros [|y b] s t A B E; cbn in *.
  - injection E; auto.
  - injection E as -> _. destruct B. congruence.
  - injection E as -> _. destruct A. congruence.
  - injection E as -> E. destruct (IH b s t) as [-> ->]; tauto.
Qed.
Lemma digits_bound : forall s acc v, digits_value acc s = Some v ->
  (acc * 10 ^ N.of_nat (String.length s) <= v < (acc + 1) * 10 ^ N.of_nat (String.length s))%N.
Proof.
  induction s as [|a s IH]; intros acc v H.
  - cbn [digits_value String.length] in *. injection H as <-. change (10 ^ N.of_nat 0)%N with 1%N. lia.
  - cbn [digits_value] in H. destruct (digit_of a) as [x|] eqn:E; try discriminate. apply IH in H.
    assert (X : (x < 10)%N) by (destruct a as [[] [] [] [] [] [] [] []]; cbn in E; try discriminate; injection E as <-; lia).
    cbn [String.length]. rewrite Nat2N.inj_succ, N.pow_succ_r by lia. nia.
Qed.
Lemma digit_of_inj : forall a b x, digit_of a = Some x -> digit_of b = Some x -> a = b.
Proof.
  assert (Q : forall a x, digit_of a = Some x -> a = digit_char x).
  { intros a x H. destruct a as [[] [] [] [] [] [] [] []]; cbn in H; try discriminate; injection H as <-; reflexivity. }
  intros a b x H H'. rewrite (Q _ _ H), (Q _ _ H'). auto.
Qed.
Lemma digits_inj : forall s t acc acc' v, String.length s = String.length t -> digits_value acc s = Some v -> digits_value acc' t = Some v -> s = t /\ acc = acc'.
Proof.
  induction s as [|a s IH]; intros [|b t] acc acc' v L H H'; try discriminate.
  - cbn in *. split; congruence.
  - cbn in L. injection L as L. cbn [digits_value] in *. destruct (digit_of a) as [x|] eqn:E, (digit_of b) as [y|] eqn:E'; try discriminate.
    destruct (IH t _ _ v L H H') as [-> Q].
    assert (x < 10 /\ y < 10)%N as [X Y].
    { split; [apply digits_bound with (s := String a "") (acc := 0%N) (v := x) | apply digits_bound with (s := String b "") (acc := 0%N) (v := y)]; cbn; rewrite ?E, ?E'; auto. }
    assert (x = y) by lia. subst y. rewrite (digit_of_inj _ _ _ E E'). split; auto. lia.
Qed.
Lemma normal_bound : forall s v, normal_whole s -> digits_value 0 s = Some v -> (1 < String.length s)%nat -> (10 ^ N.of_nat (String.length s - 1) <= v)%N.
Proof.
  intros [|c t] v H E L; [destruct H|]. cbn [String.length] in *. destruct t as [|c' t']; [cbn in L; lia|]. cbn [normal_whole] in H.
  remember (String c' t') as t. cbn [digits_value] in E. destruct (digit_of c) as [x|] eqn:D; try discriminate. apply digits_bound in E.
  assert (x <> 0)%N. { intros ->. apply H. apply (digit_of_inj _ _ 0%N); auto. }
  replace (S (String.length t) - 1)%nat with (String.length t) by lia. nia.
Qed.
Lemma normal_length : forall s t v, normal_whole s -> normal_whole t -> digits_value 0 s = Some v -> digits_value 0 t = Some v -> (String.length s <= String.length t)%nat.
Proof.
  intros s t v S T E F. destruct (le_lt_dec (String.length s) (String.length t)) as [|L]; auto. exfalso.
  assert (0 < String.length t)%nat by (destruct t; [destruct T|cbn; lia]).
  pose proof (normal_bound s v S E ltac:(lia)) as B. pose proof (digits_bound _ _ _ F) as C.
  assert (10 ^ N.of_nat (String.length t) <= 10 ^ N.of_nat (String.length s - 1))%N by (apply N.pow_le_mono_r; lia). lia.
Qed.
Lemma normal_inj : forall s t v, normal_whole s -> normal_whole t -> digits_value 0 s = Some v -> digits_value 0 t = Some v -> s = t.
Proof.
  intros s t v S T E F. apply (digits_inj s t 0 0 v); auto. pose proof (normal_length s t v S T E F). pose proof (normal_length t s v T S F E). lia.
Qed.
Lemma str_app_assoc : forall a b c, ((a ++ b) ++ c = a ++ b ++ c)%string.
Proof. induction a; intros; simpl; auto. rewrite IHa. auto. Qed.
Lemma str_app_nil : forall a, (a ++ "" = a)%string.
Proof. induction a; simpl; auto. rewrite IHa. auto. Qed.
Lemma no_minus : forall s v t u, normal_whole s -> digits_value 0 s = Some v -> (s ++ t)%string <> String "-" u.
Proof.
  intros [|c s] v t u H E Q; [destruct H|]. cbn in Q. injection Q as -> _. cbn in E. discriminate.
Qed.
Lemma C107_unique_lemma : forall d s s' neg neg' k k',
  decimal_text d s neg k -> decimal_text d s' neg' k' -> (s = s' <-> neg = neg' /\ k = k').
Proof.
  intros d s s' neg neg' k k' (w & f & a & b & -> & Lf & Nw & Va & Vb & ->) (w' & f' & a' & b' & -> & Lf' & Nw' & Va' & Vb' & ->).
  pose proof (digits_bound _ _ _ Vb) as B. pose proof (digits_bound _ _ _ Vb') as B'. rewrite Lf in B. rewrite Lf' in B'.
  split.
  - intros E.
    assert (neg = neg' /\ (w ++ (if Nat.eqb d 0 then "" else "." ++ f) = w' ++ (if Nat.eqb d 0 then "" else "." ++ f'))%string) as [-> Q].
    { destruct neg, neg'; cbn in E; auto; try (injection E; auto; fail); exfalso.
      - symmetry in E. exact (no_minus _ _ _ _ Nw' Va' E).
      - exact (no_minus _ _ _ _ Nw Va E). }
    split; auto. destruct (Nat.eqb d 0) eqn:Ed.
    + rewrite !str_app_nil in Q. subst w'. apply Nat.eqb_eq in Ed. destruct f, f'; cbn in *; try lia. assert (a = a') by congruence. assert (b = b') by congruence. subst. auto.
    + cbn in Q. apply split_at in Q. 2,3: eapply digits_no; eauto. destruct Q as [-> ->]. assert (a = a') by congruence. assert (b = b') by congruence. subst. auto.
  - intros [-> Q]. assert (a = a' /\ b = b') as [-> ->].
    { set (p := (10 ^ N.of_nat d)%N) in *. assert (0 < p)%N by (apply N.neq_0_lt_0, N.pow_nonzero; lia).
      destruct (N.div_mod_unique p a a' b b'); try lia; auto. }
    rewrite (normal_inj _ _ _ Nw Nw' Va Va'). destruct (digits_inj f f' 0 0 _ ltac:(congruence) Vb Vb') as [-> _]. auto.
Qed.
Lemma rhe_nonneg : forall x, 0 <= x -> (0 <= rhe x)%Z.
Proof. intros x H. rewrite <- (rhe_IZR 0). apply rhe_mono. auto. Qed.
Lemma fmt_fixed_text : forall d x, decimal_text d (fmt_fixed d (Fin x)) (Rltb x 0) (Z.to_N (rhe (Rabs x * 10 ^ d))).
Proof.
  intros d x. unfold fmt_fixed. set (k := Z.to_N _). set (p := (10 ^ N.of_nat d)%N). assert (P : (p <> 0)%N) by (apply N.pow_nonzero; lia).
  exists (show_N (k / p)), (show_padded d (k mod p)), (k / p)%N, (k mod p)%N. repeat split.
  - destruct d; auto.
  - apply padded_length.
  - apply show_N_normal.
  - apply show_N_value.
  - rewrite padded_value. f_equal. fold p. rewrite N.mod_mod by auto. lia.
  - pose proof (N.div_mod k p P). lia.
Qed.
Lemma C107_text_lemma : forall d x, exists k,
  decimal_text d (fmt_fixed d (Fin x)) (if Rlt_dec x 0 then true else false) k /\ rounds_to d (Rabs x) k.
Proof.
  intros d x. exists (Z.to_N (rhe (Rabs x * 10 ^ d))). split. apply fmt_fixed_text.
  assert (P : 0 <= Rabs x * 10 ^ d) by (apply Rmult_le_pos; [apply Rabs_pos|apply pow_le; lra]).
  pose proof (rhe_nonneg _ P) as Q. destruct (rhe_spec (Rabs x * 10 ^ d)) as [B E].
  assert (I : INR (N.to_nat (Z.to_N (rhe (Rabs x * 10 ^ d)))) = IZR (rhe (Rabs x * 10 ^ d))).
  { rewrite INR_IZR_INZ, N_nat_Z, Z2N.id by auto. auto. }
  unfold rounds_to. rewrite I. split; auto. intros T. specialize (E T).
  destruct (rhe (Rabs x * 10 ^ d)) as [|q|q]; auto; lia.
Qed.

Lemma rounds_unique : forall d x k k', rounds_to d x k -> rounds_to d x k' -> k = k'.
Proof.
  intros d x k k' [A B] [A' B']. set (z := x * 10 ^ d) in *.
  assert (Q : forall n : N, INR (N.to_nat n) = IZR (Z.of_N n)) by (intros; rewrite INR_IZR_INZ, N_nat_Z; auto).
  rewrite Q in *. assert (E : (Z.of_N k = Z.of_N k' \/ Z.of_N k = Z.of_N k' + 1 \/ Z.of_N k' = Z.of_N k + 1)%Z).
  { assert (L : (-2 < Z.of_N k - Z.of_N k' < 2)%Z).
    { split; apply lt_IZR; rewrite ?minus_IZR; unfold Rabs in *; destruct (Rcase_abs _), (Rcase_abs _); simpl IZR; lra. }
    lia. }
  assert (EV : forall n : N, N.even n = true -> exists m, (n = 2 * m)%N) by (intros n H; apply N.even_spec in H; exact H).
  destruct E as [E|[E|E]]; [lia| |]; exfalso; apply (f_equal IZR) in E; rewrite plus_IZR in E; simpl (IZR 1) in E;
  assert (H : Rabs (IZR (Z.of_N k) - z) = 1/2) by (unfold Rabs in *; destruct (Rcase_abs _), (Rcase_abs _); lra);
  assert (H' : Rabs (IZR (Z.of_N k') - z) = 1/2) by (unfold Rabs in *; destruct (Rcase_abs _), (Rcase_abs _); lra);
  destruct (EV _ (B H)) as [m ->], (EV _ (B' H')) as [m' ->]; rewrite <- plus_IZR in E; apply eq_IZR in E; lia.
Qed.
Definition textual (s : string) : Prop := s = "inf"%string \/ s = "-inf"%string \/ s = "nan"%string.
Lemma text_not_special : forall d s neg k, decimal_text d s neg k -> ~ textual s.
Proof.
  intros d s neg k (w & f & a & b & -> & _ & N & V & _) H.
  destruct w as [|c w]; [destruct N|]. unfold textual in H.
  destruct neg; cbn [append] in H; destruct H as [H|[H|H]]; try discriminate; injection H as -> _; cbn in V; discriminate.
Qed.
Lemma C107_same_lemma : forall d x y, fmt_fixed d x = fmt_fixed d y <-> same_print d x y.
Proof.
  intros d x y. destruct x as [a| | |], y as [b| | |]; cbn [same_print];
    try (split; [discriminate|tauto]); try tauto;
    try (split; [intros E|tauto]; exfalso; apply (text_not_special _ _ _ _ (fmt_fixed_text d a)); rewrite E; unfold textual; cbn; auto; fail);
    try (split; [intros E|tauto]; exfalso; apply (text_not_special _ _ _ _ (fmt_fixed_text d b)); rewrite <- E; unfold textual; cbn; auto; fail).
  destruct (C107_text_lemma d a) as [k [H Q]], (C107_text_lemma d b) as [k' [H' Q']].
  rewrite (C107_unique_lemma _ _ _ _ _ _ _ H H'). split.
  - intros [E ->]. split. destruct (Rlt_dec a 0), (Rlt_dec b 0); try discriminate; tauto. eauto.
  - intros [E [m [M M']]]. split. destruct (Rlt_dec a 0), (Rlt_dec b 0); tauto. rewrite (rounds_unique _ _ _ _ Q M). apply (rounds_unique _ _ _ _ M' Q').
Qed.
Lemma lacks_app : forall c s t, lacks c s -> lacks c t -> lacks c (s ++ t)%string.
Proof. induction s; intros t A B; simpl in *; auto. split; try tauto. apply IHs; tauto. Qed.
Lemma fmt_lacks : forall c d x, In c [" "; ","]%char -> lacks c (fmt_fixed d x).
Proof.
  intros c d x I. assert (C : digit_of c = None /\ c <> "-"%char /\ c <> "."%char).
  { destruct I as [<-|[<-|[]]]; cbn; repeat split; congruence. }
  destruct x as [r| | |]; try (destruct I as [<-|[<-|[]]]; cbn; repeat split; congruence).
  destruct (fmt_fixed_text d r) as (w & f & a & b & -> & _ & _ & V & V' & _).
  repeat apply lacks_app.
  - destruct (Rltb r 0); cbn; auto. split; auto. intros Q; symmetry in Q; tauto.
  - apply (digits_no _ _ _ _ (proj1 C) V).
  - destruct (Nat.eqb d 0); cbn; auto. split. intros Q; symmetry in Q; tauto. apply (digits_no _ _ _ _ (proj1 C) V').
Qed.
Lemma fmt_quantity_inj : forall d x y n m, fmt_quantity d x n = fmt_quantity d y m <-> same_print d x y /\ n = m.
Proof.
  intros. unfold fmt_quantity. rewrite <- C107_same_lemma. split.
  - intros E. apply split_at in E; auto; apply fmt_lacks; simpl; auto.
  - intros [-> ->]; auto.
Qed.
Lemma fmtq_lacks : forall d x n, lacks "," n -> lacks "," (fmt_quantity d x n).
Proof. intros. unfold fmt_quantity. apply lacks_app. apply fmt_lacks; simpl; auto. apply lacks_app; auto. cbn. split; auto. congruence. Qed.
Lemma app_last : forall a b c, (a ++ String c "" = b ++ String c "")%string -> a = b.
Proof.
  induction a as [|x a IH]; intros [|y b] c E; cbn in E; auto.
  - injection E as _ E. destruct b; discriminate.
  - injection E as _ E. destruct a; discriminate.
  - injection E as -> E. f_equal. eauto.
Qed.
Lemma C107_spot_lemma : forall tu tp a lat lon tu' tp' a' lat' lon',
  List.Forall (fun q : num * string => lacks "," (snd q)) [tu; tp; lat; tu'; tp'; lat'] ->
  (spot_str tu tp a lat lon = spot_str tu' tp' a' lat' lon'
   <-> same_print 0 (fst tu) (fst tu') /\ same_print 0 (fst tp) (fst tp') /\ same_print 0 a a'
       /\ same_print 1 (fst lat) (fst lat') /\ same_print 1 (fst lon) (fst lon')
       /\ snd tu = snd tu' /\ snd tp = snd tp' /\ snd lat = snd lat' /\ snd lon = snd lon').
Proof.
  intros tu tp a lat lon tu' tp' a' lat' lon' H. rewrite Forall_forall in H.
  assert (L : forall d q, In q [tu; tp; lat; tu'; tp'; lat'] -> lacks "," (fmt_quantity d (fst q) (snd q))) by (intros; apply fmtq_lacks, H; auto).
  assert (LA : forall x, lacks "," (fmt_quantity 0 x "msh")) by (intros; apply fmtq_lacks; cbn; repeat split; congruence).
  clear H. split.
  - intros E. unfold spot_str in E. cbn [append] in E. repeat (injection E as E; cbn [append] in E).
    apply split_at in E. 2,3: apply L; simpl; tauto. destruct E as [E1 E].
    change (String ")" (String "," ?x)) with (")" ++ String "," x)%string in E. rewrite <- !str_app_assoc in E. apply split_at in E.
    2,3: apply lacks_app; [apply L; simpl; tauto|cbn; split; auto; congruence]. destruct E as [E2 E]. apply app_last in E2.
    repeat (injection E as E; cbn [append] in E).
    apply split_at in E; auto. destruct E as [E3 E]. repeat (injection E as E; cbn [append] in E).
    apply split_at in E. 2,3: apply L; simpl; tauto. destruct E as [E4 E]. repeat (injection E as E; cbn [append] in E).
    apply fmt_quantity_inj in E1, E2, E3, E4, E. tauto.
  - intros (A & B & C & D & F & N1 & N2 & N3 & N4). unfold spot_str, fmt_quantity. rewrite N1, N2, N3, N4.
    rewrite (proj2 (C107_same_lemma _ _ _) A), (proj2 (C107_same_lemma _ _ _) B), (proj2 (C107_same_lemma _ _ _) C), (proj2 (C107_same_lemma _ _ _) D), (proj2 (C107_same_lemma _ _ _) F). auto.
Qed.
