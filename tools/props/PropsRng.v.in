(** Properties C115-C118: random streams, default generators and seeds *)
From Coq Require Import Reals ZArith Bool String List Lra Lia.
From Coquelicot Require Import Coquelicot.
From Verif Require Import Num Py MConfig MHelpers MGrid MSpots MFaculae MXoflares MFlares MGranules MStar MHeap MRng
  Spec SpecStar SpecRng LBase LRng LRngRun LRngMore LRngGran.
Import ListNotations.
Open Scope R_scope.

(** C115 *)
@THM C115_draws C115_draws_lemma
@THM C115_frame C115_frame_lemma
@THM C115_isolated C115_isolated_lemma
@THM C115_commute C115_commute_lemma
(** a star with its own stream number [n] for faculae, the default one for spots *)
Definition ex_rstar (teff : num) (n : nat) : res rstar :=
  rstar_init teff 1 30 (mkSpotColl [] (Spiral 100)) (mkFacColl [] (Spiral 100)) (PyInt 100) None
    (Some (new_spotgen (sg_off (Spiral 100)) (Some (100 + n)%nat)))
    (Some (new_facgen (fg_with_coverage (fg_off (Spiral 100)) (Fin (1/10))) (Some n))) None 0 0 (Some (200 + n)%nat).
Example C115_nonvacuous : numpy_ok ex_np /\ exists x y, ex_rstar (Fin 3000) 10 = Ok x /\ ex_rstar (Fin 3000) 11 = Ok y
  /\ (forall l, uses x l -> ~ uses y l)
  /\ kind_of (RBirthSpots (Fin 1)) = Some Spots /\ kind_of (RBirthFaculae (Fin 1)) = Some Faculae
  /\ (forall l, rcall_rng x (RBirthSpots (Fin 1)) = Some l -> rcall_rng x (RBirthFaculae (Fin 1)) <> Some l)
  /\ exists h x', rexec ex_np 0 (fun _ => O) x (RBirthFaculae (Fin 1)) = (h, x', None) /\ h 10%nat = 4%nat /\ h 11%nat = 0%nat
       /\ List.length (fcc_facs (st_facs (rs_star x'))) = 1%nat.
Proof.
  split. apply ex_np_ok. do 2 eexists. split. reflexivity. split. reflexivity.
  split. { unfold uses. simpl. intros l H1 H2. lia. }
  split. reflexivity. split. reflexivity. split. { simpl. intros l E. inversion E; subst. discriminate. }
  match goal with |- context [rexec _ _ _ ?x _] => set (X := x) end.
  assert (E : exists v, 0 < v /\ fg_n_expected (st_facgen (rs_star X)) (Fin 1) (st_radius (rs_star X) * RSUN_KM) = Fin v).
  { destruct LFac.C34_lemma as [Q _]. destruct (Q (fg_off (Spiral 100)) 100 6 (1 * RSUN_KM)) as [k [K [EK _]]]; try reflexivity; try lra.
    unfold RSUN_KM; lra. exists (k * (1/10) * 1). split. nra. apply EK. }
  destruct E as [v [V E]].
  rewrite (rexec_draw _ ex_np 0 _ X _ 10%nat) by reflexivity. cbn [rcall_star]. unfold s_birth_faculae, sbind. rewrite E.
  replace (s_poisson ex_np (Fin v) 0%nat) with (Ok 1%nat, 1%nat).
  2:{ unfold s_poisson, poisson. destruct (Rlt_dec v 0); [lra|]. destruct (Req_EM_T v 0); [lra|]. reflexivity. }
  do 2 eexists. split. reflexivity. split. reflexivity. split. reflexivity. reflexivity.
Qed.

(** C116 *)
@THM C116_defaults C116_defaults_lemma
@THM C116_swap C116_swap_lemma
@THM C116_influence C116_influence_lemma
Example C116_nonvacuous : exists x y, ex_rstar (Fin 3000) 10 = Ok x /\ ex_rstar (Fin 3500) 10 = Ok y /\ x <> y
  /\ kind_of (RBirthFaculae (Fin 1)) = Some Faculae
  /\ rcall_rng x (RBirthFaculae (Fin 1)) = Some 10%nat /\ rcall_rng y (RBirthFaculae (Fin 1)) = Some 10%nat
  /\ same_source Faculae (rs_star x) (rs_star y).
Proof.
  do 2 eexists. split. reflexivity. split. reflexivity. split. { intros E. injection E. lra. }
  split. reflexivity. split. reflexivity. split. reflexivity. split; reflexivity.
Qed.

(** C117 *)
@THM C117_nothing C117_nothing_lemma
@THM C117_off C117_off_lemma
@THM C117_temperatures C117_temperatures_lemma
Example C117_nonvacuous : exists x y, ex_rstar (Fin 3000) 10 = Ok x /\ ex_rstar (Fin 3500) 10 = Ok y /\ x <> y /\ alike x y
  /\ sg_n_expected (st_spotgen (rs_star x)) (Fin 1) (st_radius (rs_star x)) = Ok (Fin 0)
  /\ exists z, rstar_init (Fin 3000) 1 30 (mkSpotColl [] (Spiral 100)) (mkFacColl [] (Spiral 100)) (PyInt 100) None None None None 0 0 None = Ok z.
Proof.
  do 2 eexists. split. reflexivity. split. reflexivity. split. { intros E. injection E. lra. }
  split. { unfold alike, alike_star, alike_spotgen, alike_facgen. simpl. intuition auto. }
  split. { destruct LSpotGen.C26_lemma as [_ [_ [Q _]]]. apply (Q (Spiral 100) 1 1 O (mkSDraws (fun _ => 0) (fun _ _ => 0) (fun _ => 0) (fun _ => 0) (fun _ => true) (fun _ => 0)) O). }
  eexists. reflexivity.
Qed.

(** C118 *)
@THM C118_distances C118_distances_lemma
@THM C118_repeats C118_repeats_lemma
@THM C118_seed C118_seed_lemma
@THM C118_range C118_range_lemma
(** the first hours of two different days; a sampler that returns the mean; a granulation that is not off *)
Example C118_nonvacuous : [24; 25; 27] <> [0; 1; 3]
  /\ (forall i j, (i < 3)%nat -> (j < 3)%nat -> Rabs (nth i [24; 25; 27] 0 - nth j [24; 25; 27] 0) = Rabs (nth i [0; 1; 3] 0 - nth j [0; 1; 3] 0))
  /\ (forall (k : Z) (m : list num) (c : list (list num)), List.length ((fun _ m _ => m) k m c : list num) = List.length m)
  /\ neq (Fin 300) (Fin 0) = false /\ neq (Fin (1/5)) (Fin 0) = false.
Proof.
  split. { intros E. inversion E. lra. }
  split. { intros [|[|[|i]]] [|[|[|j]]] Hi Hj; try lia; simpl; f_equal; ring. }
  split. reflexivity. split; apply neq_fin_false; lra.
Qed.
