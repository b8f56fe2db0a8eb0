(** Properties C47-C48, C63, C72: granulation *)
From Coq Require Import Reals ZArith Bool String List Lra Lia.
From Coquelicot Require Import Coquelicot.
From Verif Require Import Num Py MConfig MHelpers MGrid MSpots MFaculae MXoflares MFlares MGranules MStar Spec LBase LCirc LFac LGran LKern.
Import ListNotations.
Open Scope R_scope.

(** C47 *)
@THM C47_cast C47_cast_lemma
@THM C47_star C47_star_lemma
Example C47_nonvacuous : exists s, star_init (Fin 3300) 1 30 (mkSpotColl [] (Spiral 100)) (mkFacColl [] (Spiral 100))
    (PyInt 1000) None None None (Some (gran_init (Fin (1/5)) (Fin (1/100)) (Fin 5) (Fin 300))) 0 0 = Ok s
  /\ st_gran s = gran_init (Fin (1/5)) (Fin (1/100)) (Fin 5) (Fin 300)
  /\ neq (Fin 300) (Fin 0) = false /\ neq (Fin (1/5)) (Fin 0) = false.
Proof.
  eexists. split. reflexivity. split. reflexivity. split; apply neq_fin_false; lra.
Qed.
(** a mean of 0 with a non-zero temperature difference: KeyError *)
Example C47_nonvacuous_zero_mean : neq (Fin 300) (Fin 0) = false /\ neq (Fin 0) (Fin 0) = true.
Proof. split. apply neq_fin_false; lra. apply neq_fin; auto. Qed.

(** C48 *)
@THM C48_kernel C48_lemma
Example C48_nonvacuous : (forall p, In p [(1/100, 5); (1/50, 3)] -> 0 <= fst p /\ 0 < snd p)
  /\ 0 < kernel_eval [(1/100, 5); (1/50, 3)] 1 1.
Proof.
  assert (H : forall p, In p [(1/100, 5); (1/50, 3)] -> 0 <= fst p /\ 0 < snd p)
    by (intros p [<-|[<-|[]]]; simpl; lra).
  split; auto. destruct (C48_lemma _ H) as [_ [_ [E _]]]. rewrite E. apply Rdiv_lt_0_compat.
  simpl; lra. apply sqrt_lt_R0; lra.
Qed.

(** C63 *)
@THM C63_positive_definite C63_lemma
(** two components and three distinct times, one weight non-zero *)
Example C63_nonvacuous : (forall p, In p [(1/100, 5); (0, 3)] -> 0 <= fst p /\ 0 < snd p)
  /\ NoDup (map snd [(1, 0); (-2, 1/2); (0, 7)]) /\ (exists x, In x [(1, 0); (-2, 1/2); (0, 7)] /\ fst x <> 0)
  /\ (exists p, In p [(1/100, 5); (0, 3)] /\ 0 < fst p).
Proof.
  split; [|split; [|split]].
  - intros p [<-|[<-|[]]]; simpl; lra.
  - simpl. repeat constructor; simpl; intros K; repeat destruct K as [K|K]; try lra; auto.
  - exists (1, 0). simpl. split; auto.
  - exists (1/100, 5). simpl. split; auto. lra.
Qed.

(** C72 *)
@THM C72_process C72_lemma
@THM C72_off C72_off_lemma
(** three distinct times, the default-like parameters *)
Example C72_nonvacuous : 0 <= 1/100 /\ 0 < 5 /\ 0 < 1/100 /\ NoDup [0; 1; 5/2]
  /\ exists i, (i < length [0; 1; 5/2])%nat /\ (fun i => INR i) i <> 0.
Proof.
  repeat (split; [lra|]). split. repeat constructor; simpl; intros K; repeat destruct K as [K|K]; try lra; auto.
  exists 1%nat. simpl. split; [lia|lra].
Qed.
