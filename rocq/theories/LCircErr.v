(** When the overlap of two circles raises *)
From Coq Require Import Reals ZArith Bool List Lra Lia.
From Verif Require Import Num Py MConfig MHelpers LBase.
Open Scope R_scope.

Lemma C10_raises_lemma : forall x y r,
  (forall e, circ_fraction x y r = Raise e -> e = ValueError) /\
  (circ_fraction x y r = Raise ValueError <-> r = PInf \/ exists v, r = Fin v /\ 1 < v).
Proof.
  intros x y r. unfold circ_fraction. cbv zeta. destruct (ngt r (Fin 1)) eqn:E.
  - split. { intros e K. now inversion K. } split; auto. intros _. unfold ngt in E.
    destruct r as [v| | |]; simpl in E; try discriminate; auto. right. exists v. rb. auto.
  - assert (N : ~ (r = PInf \/ exists v, r = Fin v /\ 1 < v)).
    { intros [->|[v [-> K]]]; unfold ngt in E; simpl in E; try discriminate. rb. lra. }
    split.
    + intros e K. repeat match type of K with context [if ?b then _ else _] => destruct b end; discriminate.
    + split; [|tauto]. intros K. repeat match type of K with context [if ?b then _ else _] => destruct b end; discriminate.
Qed.
