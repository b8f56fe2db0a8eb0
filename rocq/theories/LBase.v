(** Basic lemmas: numbers, lists, arrays, dictionaries. *)
From Coq Require Import Reals ZArith Bool List Lra Lia Permutation.
From Verif Require Import Num Py.
Import ListNotations.
Open Scope R_scope.

(** ** Booleans over reals *)
Lemma Rltb_true : forall x y, Rltb x y = true <-> x < y.
Proof. intros; unfold Rltb; destruct (Rlt_dec x y); split; intros; auto; try discriminate; lra. Qed.
Lemma Rltb_false : forall x y, Rltb x y = false <-> y <= x.
Proof. intros; unfold Rltb; destruct (Rlt_dec x y); split; intros; auto; try discriminate; lra. Qed.
Lemma Rleb_true : forall x y, Rleb x y = true <-> x <= y.
Proof. intros; unfold Rleb; destruct (Rle_dec x y); split; intros; auto; try discriminate; lra. Qed.
Lemma Rleb_false : forall x y, Rleb x y = false <-> y < x.
Proof. intros; unfold Rleb; destruct (Rle_dec x y); split; intros; auto; try discriminate; lra. Qed.
Lemma Reqb_true : forall x y, Reqb x y = true <-> x = y.
Proof. intros; unfold Reqb; destruct (Req_EM_T x y); split; intros; auto; try discriminate; lra. Qed.
Lemma Reqb_false : forall x y, Reqb x y = false <-> x <> y.
Proof. intros; unfold Reqb; destruct (Req_EM_T x y); split; intros; auto; try discriminate; congruence. Qed.

(** case analysis on every real decision in the goal *)
Ltac rdec :=
  repeat match goal with
  | |- context [Rlt_dec ?a ?b] => destruct (Rlt_dec a b)
  | |- context [Rle_dec ?a ?b] => destruct (Rle_dec a b)
  | |- context [Req_EM_T ?a ?b] => destruct (Req_EM_T a b)
  | |- context [Rltb ?a ?b] => unfold Rltb at 1; destruct (Rlt_dec a b)
  | |- context [Rleb ?a ?b] => unfold Rleb at 1; destruct (Rle_dec a b)
  | |- context [Reqb ?a ?b] => unfold Reqb at 1; destruct (Req_EM_T a b)
  end.

(** turn boolean comparisons in the hypotheses into propositions *)
Ltac rb :=
  repeat match goal with
  | H : Rltb _ _ = true |- _ => apply Rltb_true in H
  | H : Rltb _ _ = false |- _ => apply Rltb_false in H
  | H : Rleb _ _ = true |- _ => apply Rleb_true in H
  | H : Rleb _ _ = false |- _ => apply Rleb_false in H
  | H : Reqb _ _ = true |- _ => apply Reqb_true in H
  | H : Reqb _ _ = false |- _ => apply Reqb_false in H
  end.
(** case analysis on the boolean comparisons of the goal, with cleaned-up hypotheses *)
Ltac rcase :=
  repeat match goal with
  | |- context [Rltb ?a ?b] => let E := fresh "E" in destruct (Rltb a b) eqn:E
  | |- context [Rleb ?a ?b] => let E := fresh "E" in destruct (Rleb a b) eqn:E
  | |- context [Reqb ?a ?b] => let E := fresh "E" in destruct (Reqb a b) eqn:E
  end; rb.

(** ** num on finite values *)
Lemma nlt_fin : forall x y, nlt (Fin x) (Fin y) = true <-> x < y.
Proof. intros; apply Rltb_true. Qed.
Lemma nlt_fin_false : forall x y, nlt (Fin x) (Fin y) = false <-> y <= x.
Proof. intros; apply Rltb_false. Qed.
Lemma nle_fin : forall x y, nle (Fin x) (Fin y) = true <-> x <= y.
Proof. intros; apply Rleb_true. Qed.
Lemma nle_fin_false : forall x y, nle (Fin x) (Fin y) = false <-> y < x.
Proof. intros; apply Rleb_false. Qed.
Lemma neq_fin : forall x y, neq (Fin x) (Fin y) = true <-> x = y.
Proof. intros; apply Reqb_true. Qed.
Lemma neq_fin_false : forall x y, neq (Fin x) (Fin y) = false <-> x <> y.
Proof. intros; apply Reqb_false. Qed.
Lemma nadd_fin : forall x y, nadd (Fin x) (Fin y) = Fin (x + y).
Proof. reflexivity. Qed.
Lemma nsub_fin : forall x y, nsub (Fin x) (Fin y) = Fin (x - y).
Proof. reflexivity. Qed.
Lemma nmul_fin : forall x y, nmul (Fin x) (Fin y) = Fin (x * y).
Proof. reflexivity. Qed.
Lemma ndiv_fin : forall x y, y <> 0 -> ndiv (Fin x) (Fin y) = Fin (x / y).
Proof. intros; simpl; destruct (Req_EM_T y 0); congruence. Qed.
Lemma nsqrt_fin : forall x, 0 <= x -> nsqrt (Fin x) = Fin (sqrt x).
Proof. intros; simpl; destruct (Rlt_dec x 0); auto; lra. Qed.
Lemma nln_fin : forall x, 0 < x -> nln (Fin x) = Fin (ln x).
Proof. intros; simpl; destruct (Rlt_dec x 0); try lra; destruct (Req_EM_T x 0); auto; lra. Qed.
Lemma nacos_fin : forall x, -1 <= x <= 1 -> nacos (Fin x) = Fin (acos x).
Proof. intros; simpl; destruct (Rle_dec (-1) x); try lra; destruct (Rle_dec x 1); auto; lra. Qed.
Lemma nasin_fin : forall x, -1 <= x <= 1 -> nasin (Fin x) = Fin (asin x).
Proof. intros; simpl; destruct (Rle_dec (-1) x); try lra; destruct (Rle_dec x 1); auto; lra. Qed.
Lemma nsq_fin : forall x, nsq (Fin x) = Fin (x * x).
Proof. reflexivity. Qed.
Lemma nexp_fin : forall x, nexp (Fin x) = Fin (exp x).
Proof. reflexivity. Qed.
Lemma Fin_inj : forall x y, Fin x = Fin y -> x = y.
Proof. congruence. Qed.
Lemma neq_eq : forall a b, neq a b = true -> a = b.
Proof.
  destruct a, b; simpl; intros; try discriminate; auto.
  apply Reqb_true in H; subst; auto.
Qed.
Lemma neq_refl : forall a, a <> NaN -> neq a a = true.
Proof. destruct a; simpl; intros; auto. apply Reqb_true; auto. Qed.
Lemma neq_sym : forall a b, neq a b = neq b a.
Proof.
  destruct a, b; simpl; auto. unfold Reqb; destruct (Req_EM_T r r0), (Req_EM_T r0 r); congruence.
Qed.

(** ** sums *)
Lemma nsum_fin : forall l, nsum (map Fin l) = Fin (rsum l).
Proof. induction l; simpl; auto. rewrite IHl; auto. Qed.
Lemma nsum_map_fin : forall A (f : A -> num) g l,
  (forall x, In x l -> f x = Fin (g x)) -> nsum (map f l) = Fin (rsum (map g l)).
Proof.
  induction l; simpl; intros; auto.
  rewrite H by auto. rewrite IHl by auto. reflexivity.
Qed.
Lemma rsum_app : forall l l', rsum (l ++ l') = rsum l + rsum l'.
Proof. induction l; simpl; intros. lra. rewrite IHl; lra. Qed.
Lemma rsum_map_plus : forall A (f g : A -> R) l,
  rsum (map (fun x => f x + g x) l) = rsum (map f l) + rsum (map g l).
Proof. induction l; simpl. lra. rewrite IHl; lra. Qed.
Lemma rsum_map_scal : forall A (f : A -> R) c l,
  rsum (map (fun x => c * f x) l) = c * rsum (map f l).
Proof. induction l; simpl. lra. rewrite IHl; lra. Qed.
Lemma rsum_map_div : forall A (f : A -> R) c l,
  rsum (map (fun x => f x / c) l) = rsum (map f l) / c.
Proof. induction l; simpl. unfold Rdiv; lra. rewrite IHl. unfold Rdiv; lra. Qed.
Lemma rsum_map_le : forall A (f g : A -> R) l,
  (forall x, In x l -> f x <= g x) -> rsum (map f l) <= rsum (map g l).
Proof.
  induction l; simpl; intros. lra.
  pose proof (H a (or_introl eq_refl)). pose proof (IHl (fun x h => H x (or_intror h))). lra.
Qed.
Lemma rsum_map_ext : forall A (f g : A -> R) l,
  (forall x, In x l -> f x = g x) -> rsum (map f l) = rsum (map g l).
Proof. intros. f_equal. apply map_ext_in; auto. Qed.
Lemma rsum_nonneg : forall l, (forall x, In x l -> 0 <= x) -> 0 <= rsum l.
Proof.
  induction l; simpl; intros. lra.
  pose proof (H a (or_introl eq_refl)). pose proof (IHl (fun x h => H x (or_intror h))). lra.
Qed.
Lemma rsum_map_nonneg : forall A (f : A -> R) l,
  (forall x, In x l -> 0 <= f x) -> 0 <= rsum (map f l).
Proof.
  intros; apply rsum_nonneg; intros. apply in_map_iff in H0. destruct H0 as [y [? ?]]; subst; auto.
Qed.
Lemma rsum_map_pos : forall A (f : A -> R) l x,
  (forall y, In y l -> 0 <= f y) -> In x l -> 0 < f x -> 0 < rsum (map f l).
Proof.
  induction l; simpl; intros. contradiction.
  assert (0 <= rsum (map f l)) by (apply rsum_map_nonneg; auto).
  destruct H0.
  - subst; lra.
  - pose proof (H a (or_introl eq_refl)).
    pose proof (IHl x (fun y h => H y (or_intror h)) H0 H1). lra.
Qed.
Lemma rsum_perm : forall l l', Permutation l l' -> rsum l = rsum l'.
Proof. induction 1; simpl; lra. Qed.
Lemma rsum_map_const : forall A (c : R) (l : list A), rsum (map (fun _ => c) l) = INR (length l) * c.
Proof.
  induction l. simpl; lra. cbn [map rsum fold_right length]. fold (rsum (map (fun _ : A => c) l)).
  rewrite IHl, S_INR. lra.
Qed.
Lemma rsum_zero : forall A (f : A -> R) l, (forall x, In x l -> f x = 0) -> rsum (map f l) = 0.
Proof.
  induction l; simpl; intros; auto. rewrite H, IHl; auto; lra.
Qed.

(** ** lists *)
Lemma concat_map_map : forall A B (f : A -> B) l, concat (map (map f) l) = map f (concat l).
Proof. intros; symmetry; apply concat_map. Qed.
Lemma combine_map_same : forall A B C (f : A -> B) (g : A -> C) l,
  combine (map f l) (map g l) = map (fun x => (f x, g x)) l.
Proof. induction l; simpl; congruence. Qed.
Lemma map_nth_seq : forall A (l : list A) d, map (fun i => nth i l d) (seq 0 (length l)) = l.
Proof.
  induction l; simpl; intros; auto. f_equal. rewrite <- seq_shift, map_map. apply IHl.
Qed.

(** ** arrays *)
Lemma cells_amap : forall A B (f : A -> B) a, cells (amap f a) = map f (cells a).
Proof. intros; unfold cells, amap; simpl. apply concat_map_map. Qed.
Lemma amap_amap : forall A B C (f : A -> B) (g : B -> C) a,
  amap g (amap f a) = amap (fun x => g (f x)) a.
Proof.
  intros; unfold amap; simpl. f_equal. rewrite map_map. apply map_ext; intros; apply map_map.
Qed.
Lemma amap_ext : forall A B (f g : A -> B) a, (forall x, f x = g x) -> amap f a = amap g a.
Proof. intros; unfold amap. f_equal. apply map_ext; intros; apply map_ext; auto. Qed.
Lemma amap_ext_in : forall A B (f g : A -> B) a,
  (forall x, In x (cells a) -> f x = g x) -> amap f a = amap g a.
Proof.
  intros; unfold amap. f_equal. apply map_ext_in; intros. apply map_ext_in; intros.
  apply H. unfold cells. apply in_concat; eauto.
Qed.
Lemma amap_id : forall A (a : arr A), amap (fun x => x) a = a.
Proof.
  intros A [b r]; unfold amap; simpl. f_equal. rewrite <- (map_id r) at 2.
  apply map_ext; intros; apply map_id.
Qed.
Lemma bcast_map : forall A B C (f : A -> B) (g : A -> C) l,
  bcast (map f l) (map g l) = Some (map (fun x => (f x, g x)) l).
Proof.
  intros; unfold bcast. rewrite !map_length, Nat.eqb_refl, combine_map_same; auto.
Qed.
Lemma all_some_map : forall A B (f : A -> B) l, all_some (map (fun x => Some (f x)) l) = Some (map f l).
Proof. induction l; simpl; auto. rewrite IHl; auto. Qed.
Lemma azip_amap : forall A B C (f : A -> B) (g : A -> C) a,
  azip (amap f a) (amap g a) = Ok (amap (fun x => (f x, g x)) a).
Proof.
  intros; unfold azip, amap; simpl. rewrite bcast_map, map_map; simpl.
  rewrite (map_ext (fun x => bcast (map f x) (map g x))
                   (fun x => Some (map (fun y => (f y, g y)) x))) by (intros; apply bcast_map).
  rewrite all_some_map, orb_diag; auto.
Qed.
Lemma amap2_amap : forall A B C D (h : B -> C -> D) (f : A -> B) (g : A -> C) a,
  amap2 h (amap f a) (amap g a) = Ok (amap (fun x => h (f x) (g x)) a).
Proof. intros; unfold amap2. rewrite azip_amap; simpl. rewrite amap_amap; auto. Qed.
Lemma amap2_amap_r : forall A C D (h : A -> C -> D) (g : A -> C) a,
  amap2 h a (amap g a) = Ok (amap (fun x => h x (g x)) a).
Proof. intros. rewrite <- (amap_id _ a) at 1. apply amap2_amap. Qed.
Lemma rows_same_map : forall A B C (f : A -> B) (g : A -> C) l,
  rows_same (map (map f) l) (map (map g) l) = true.
Proof. induction l; simpl; auto. rewrite !map_length, Nat.eqb_refl; auto. Qed.
Lemma zip_same_amap : forall A B C (f : A -> B) (g : A -> C) a,
  zip_same (amap f a) (amap g a) = Ok (amap (fun x => (f x, g x)) a).
Proof.
  intros; unfold zip_same, same_shape, amap; simpl. rewrite rows_same_map, eqb_reflx; simpl.
  f_equal. f_equal. rewrite combine_map_same, map_map. apply map_ext; intros; simpl.
  apply combine_map_same.
Qed.
Lemma awhere_amap : forall A B (f : A -> bool) (g : A -> B) v a,
  awhere (amap f a) v (amap g a) = Ok (amap (fun x => if f x then v else g x) a).
Proof. intros; unfold awhere; rewrite amap2_amap; auto. Qed.

(** ** mapM *)
Lemma mapM_ok : forall A B (f : A -> res B) g l,
  (forall x, In x l -> f x = Ok (g x)) -> mapM f l = Ok (map g l).
Proof.
  induction l; simpl; intros; auto. rewrite H by auto. simpl. rewrite IHl by auto. auto.
Qed.
Lemma mapM_inv : forall A B (f : A -> res B) l l',
  mapM f l = Ok l' -> Forall2 (fun x y => f x = Ok y) l l'.
Proof.
  induction l; simpl; intros. inversion H; constructor.
  destruct (f a) eqn:E; simpl in H; try discriminate.
  destruct (mapM f l) eqn:E2; simpl in H; try discriminate. inversion H; subst.
  constructor; auto.
Qed.
Lemma mapM_length : forall A B (f : A -> res B) l l', mapM f l = Ok l' -> length l' = length l.
Proof. intros. apply mapM_inv in H. induction H; simpl; auto. Qed.
Lemma mapM_raise : forall A B (f : A -> res B) l e,
  mapM f l = Raise e -> exists x, In x l /\ f x = Raise e.
Proof.
  induction l; simpl; intros. discriminate.
  destruct (f a) eqn:E; simpl in H.
  - destruct (mapM f l) eqn:E2; simpl in H; try discriminate. inversion H; subst.
    destruct (IHl e eq_refl) as [x [? ?]]; eauto.
  - inversion H; subst; eauto.
Qed.
Lemma bind_ok : forall A B (m : res A) (f : A -> res B) b,
  bind m f = Ok b -> exists a, m = Ok a /\ f a = Ok b.
Proof. intros. destruct m; simpl in H; try discriminate. eauto. Qed.

(** ** dictionaries *)
Section DictLemmas.
  Context {K V : Type} (eqb : K -> K -> bool).
  Hypothesis eqb_spec : forall a b, eqb a b = true <-> a = b.
  Lemma dkey_refl : forall a, eqb a a = true.
  Proof. intros; apply eqb_spec; auto. Qed.
  Lemma dget_dset_same : forall (d : dict K V) k v, dget eqb (dset eqb d k v) k = Some v.
  Proof.
    induction d as [|[k' v'] d]; simpl; intros. rewrite dkey_refl; auto.
    destruct (eqb k k') eqn:E; simpl; rewrite E; auto.
  Qed.
  Lemma dget_dset_other : forall (d : dict K V) k k' v, k <> k' -> dget eqb (dset eqb d k v) k' = dget eqb d k'.
  Proof.
    induction d as [|[k0 v0] d]; simpl; intros.
    - destruct (eqb k' k) eqn:E; auto. apply eqb_spec in E; congruence.
    - destruct (eqb k k0) eqn:E; simpl.
      + destruct (eqb k' k0) eqn:E2; auto. apply eqb_spec in E, E2. congruence.
      + destruct (eqb k' k0) eqn:E2; auto.
  Qed.
  Lemma dset_keys_in : forall (d : dict K V) k v, dget eqb d k <> None ->
    map fst (dset eqb d k v) = map fst d.
  Proof.
    induction d as [|[k0 v0] d]; simpl; intros. congruence.
    destruct (eqb k k0) eqn:E; simpl; auto. f_equal; auto.
  Qed.
  Lemma dset_new : forall (d : dict K V) k v, dget eqb d k = None -> dset eqb d k v = d ++ [(k, v)].
  Proof.
    induction d as [|[k0 v0] d]; simpl; intros; auto.
    destruct (eqb k k0) eqn:E; try discriminate. f_equal; auto.
  Qed.
  Lemma dget_In : forall (d : dict K V) k v, dget eqb d k = Some v -> In (k, v) d.
  Proof.
    induction d as [|[k0 v0] d]; simpl; intros. discriminate.
    destruct (eqb k k0) eqn:E; auto. apply eqb_spec in E. inversion H; subst; auto.
  Qed.
  Lemma dget_None : forall (d : dict K V) k, dget eqb d k = None <-> ~ In k (map fst d).
  Proof.
    induction d as [|[k0 v0] d]; simpl; intros. split; auto.
    destruct (eqb k k0) eqn:E.
    - apply eqb_spec in E; subst. split; intros. discriminate. exfalso; auto.
    - rewrite IHd. split; intros; intuition. subst. rewrite dkey_refl in E; discriminate.
  Qed.
  Lemma In_dget : forall (d : dict K V) k v, NoDup (map fst d) -> In (k, v) d -> dget eqb d k = Some v.
  Proof.
    induction d as [|[k0 v0] d]; simpl; intros. contradiction. inversion H; subst.
    destruct H0.
    - inversion H0; subst. rewrite dkey_refl; auto.
    - destruct (eqb k k0) eqn:E; auto. apply eqb_spec in E; subst.
      exfalso; apply H3. apply in_map_iff. exists (k0, v); auto.
  Qed.
  Lemma dset_NoDup : forall (d : dict K V) k v, NoDup (map fst d) -> NoDup (map fst (dset eqb d k v)).
  Proof.
    intros. destruct (dget eqb d k) eqn:E.
    - rewrite dset_keys_in; auto. congruence.
    - rewrite dset_new; auto. rewrite map_app; simpl.
      apply dget_None in E.
      apply (Permutation_NoDup (l := k :: map fst d)).
      + apply Permutation_cons_append.
      + constructor; auto.
  Qed.
End DictLemmas.

(** ** division *)
Lemma div_le : forall a b c, 0 < c -> (a / c <= b <-> a <= b * c).
Proof.
  intros. split; intros.
  - replace a with (a / c * c) by (field; lra). apply Rmult_le_compat_r; lra.
  - apply Rmult_le_reg_r with c; auto. unfold Rdiv. rewrite Rmult_assoc, Rinv_l; lra.
Qed.
Lemma div_lt : forall a b c, 0 < c -> (a / c < b <-> a < b * c).
Proof.
  intros. split; intros.
  - replace a with (a / c * c) by (field; lra). apply Rmult_lt_compat_r; lra.
  - apply Rmult_lt_reg_r with c; auto. unfold Rdiv. rewrite Rmult_assoc, Rinv_l; lra.
Qed.
Lemma le_div : forall a b c, 0 < c -> (b <= a / c <-> b * c <= a).
Proof.
  intros. split; intros.
  - replace a with (a / c * c) by (field; lra). apply Rmult_le_compat_r; lra.
  - apply Rmult_le_reg_r with c; auto. unfold Rdiv. rewrite Rmult_assoc, Rinv_l; lra.
Qed.
Lemma lt_div : forall a b c, 0 < c -> (b < a / c <-> b * c < a).
Proof.
  intros. split; intros.
  - replace a with (a / c * c) by (field; lra). apply Rmult_lt_compat_r; lra.
  - apply Rmult_lt_reg_r with c; auto. unfold Rdiv. rewrite Rmult_assoc, Rinv_l; lra.
Qed.
