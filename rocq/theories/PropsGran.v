(** Properties C47-C48, C63, C72: granulation *)
From Coq Require Import Reals ZArith Bool String List Lra Lia.
From Coquelicot Require Import Coquelicot.
From Verif Require Import Num Py MConfig MHelpers MGrid MSpots MFaculae MXoflares MFlares MGranules MStar Spec LBase LCirc LFac LGran LKern.
Import ListNotations.
Open Scope R_scope.

(** C47 *)
Theorem C47_cast :
  forall l,
  length (save_cast_coverage l) = length l /\
  (forall i, (i < length l)%nat -> clamped (nth i l NaN) (nth i (save_cast_coverage l) NaN)) /\
  (forall i, (i < length l)%nat -> nth i l NaN <> NaN -> num_in 0 1 (nth i (save_cast_coverage l) NaN)) /\
  save_cast_coverage (save_cast_coverage l) = save_cast_coverage l.
Proof. exact C47_cast_lemma. Qed.
Print Assumptions C47_cast.
Theorem C47_star :
  forall s mean amp per dt n sample, st_gran s = gran_init mean amp per dt ->
  (neq dt (Fin 0) = true -> star_granulation s n sample = Ok (repeat (Fin 0) n)) /\
  (neq dt (Fin 0) = false -> neq mean (Fin 0) = true -> star_granulation s n sample = Raise KeyError) /\
  (neq dt (Fin 0) = false -> neq mean (Fin 0) = false ->
     exists l, star_granulation s n sample = Ok l /\ length l = n /\
       (forall c, In c l -> num_in 0 1 c) /\
       (forall i, (i < n)%nat -> sample i = NaN -> nth i l NaN = Fin 0) /\
       (forall i, (i < n)%nat -> sample i <> NaN -> clamped (sample i) (nth i l NaN))).
Proof. exact C47_star_lemma. Qed.
Print Assumptions C47_star.
Example C47_nonvacuous : exists s, star_init (Fin 3300) 1 30 (mkSpotColl [] (Spiral 100)) (mkFacColl [] (Spiral 100))
    (PyInt 1000) None None None (Some (gran_init (Fin (1/5)) (Fin (1/100)) (Fin 5) (Fin 300))) 0 0 = Ok s
  /\ st_gran s = gran_init (Fin (1/5)) (Fin (1/100)) (Fin 5) (Fin 300)
  /\ neq (Fin 300) (Fin 0) = false /\ neq (Fin (1/5)) (Fin 0) = false.
Proof.
  eexists. split. reflexivity. split. reflexivity. split; apply neq_fin_false; lra.
Qed.
(** a mean of 0 with a non-zero temperature difference: KeyError *)
Example C47_nonvacuous_zero_mean : neq (Fin 300) (Fin 0) = false /\ neq (Fin 0) (Fin 0) = true.
Proof. split. apply neq_fin_false; lra. apply neq_fin; auto. Qed.

(** C48 *)
Theorem C48_kernel :
  forall comps, (forall p, In p comps -> 0 <= fst p /\ 0 < snd p) ->
  (forall a b, kernel_eval comps a b = kernel_eval comps b a) /\
  (forall a b h, kernel_eval comps (a + h) (b + h) = kernel_eval comps a b) /\
  (forall a, kernel_eval comps a a = rsum (map (fun p => fst p / snd p) comps) / sqrt 2) /\
  (forall a b, Rabs (kernel_eval comps a b) <= kernel_eval comps a a) /\
  (forall a, is_lim (fun h => kernel_eval comps (a + h) a) p_infty 0).
Proof. exact C48_lemma. Qed.
Print Assumptions C48_kernel.
Example C48_nonvacuous : (forall p, In p [(1/100, 5); (1/50, 3)] -> 0 <= fst p /\ 0 < snd p)
  /\ 0 < kernel_eval [(1/100, 5); (1/50, 3)] 1 1.
Proof.
  assert (H : forall p, In p [(1/100, 5); (1/50, 3)] -> 0 <= fst p /\ 0 < snd p)
    by (intros p [<-|[<-|[]]]; simpl; lra).
  split; auto. destruct (C48_lemma _ H) as [_ [_ [E _]]]. rewrite E. apply Rdiv_lt_0_compat.
  simpl; lra. apply sqrt_lt_R0; lra.
Qed.

(** C63 *)
Theorem C63_positive_definite :
  forall comps, (forall p, In p comps -> 0 <= fst p /\ 0 < snd p) ->
  forall pts : list (R * R),
  let form := rsum (map (fun x => rsum (map (fun y => fst x * fst y * kernel_eval comps (snd x) (snd y)) pts)) pts) in
  0 <= form /\
  (NoDup (map snd pts) -> (exists x, In x pts /\ fst x <> 0) -> (exists p, In p comps /\ 0 < fst p) -> 0 < form).
Proof. exact C63_lemma. Qed.
Print Assumptions C63_positive_definite.
(** two components and three distinct times, one weight non-zero *)
Example C63_nonvacuous : (forall p, In p [(1/100, 5); (0, 3)] -> 0 <= fst p /\ 0 < snd p)
  /\ NoDup (map snd [(1, 0); (-2, 1/2); (0, 7)]) /\ (exists x, In x [(1, 0); (-2, 1/2); (0, 7)] /\ fst x <> 0)
  /\ (exists p, In p [(1/100, 5); (0, 3)] /\ 0 < fst p).
Proof.
  split; [|split; [|split]].
  - intros p [<-|[<-|[]]]; simpl; lra.
  - simpl. repeat constructor; simpl; intros K; repeat destruct K as [K|K]; try lra; auto.
  - exists (1, 0). simpl. split; auto.
  - exists (1/100, 5). simpl. split; auto. lra.
Qed.

(** C72 *)
Theorem C72_process :
  forall m a p dt ts, 0 <= a -> 0 < p ->
  exists gp, gran_build_gp (gran_init (Fin m) (Fin a) (Fin p) dt) ts = Ok gp /\
  gp_mean gp = Fin m /\ gp_x gp = ts /\
  exists K : R -> R,
    (forall i j, (i < length ts)%nat -> (j < length ts)%nat ->
       gp_cov gp i j = Some (Fin (K (Rabs (nth i ts 0 - nth j ts 0))))) /\
    K 0 = a / (sqrt 2 * p) /\
    (forall t, 0 <= t -> Rabs (K t) <= K 0) /\
    is_lim K p_infty 0 /\
    (forall w : nat -> R, let form := rsum (map (fun i => rsum (map (fun j =>
         w i * w j * K (Rabs (nth i ts 0 - nth j ts 0))) (seq 0 (length ts)))) (seq 0 (length ts))) in
       0 <= form /\
       (0 < a -> NoDup ts -> (exists i, (i < length ts)%nat /\ w i <> 0) -> 0 < form)).
Proof. exact C72_lemma. Qed.
Print Assumptions C72_process.
Theorem C72_off :
  forall ts, exists gp, gran_build_gp gran_off ts = Ok gp /\
  forall i j, (i < length ts)%nat -> (j < length ts)%nat -> gp_cov gp i j = Some NaN.
Proof. exact C72_off_lemma. Qed.
Print Assumptions C72_off.
(** three distinct times, the default-like parameters *)
Example C72_nonvacuous : 0 <= 1/100 /\ 0 < 5 /\ 0 < 1/100 /\ NoDup [0; 1; 5/2]
  /\ exists i, (i < length [0; 1; 5/2])%nat /\ (fun i => INR i) i <> 0.
Proof.
  repeat (split; [lra|]). split. repeat constructor; simpl; intros K; repeat destruct K as [K|K]; try lra; auto.
  exists 1%nat. simpl. split; [lia|lra].
Qed.
