(** Proofs about the seeds of the granulation, and an example of shared streams *)
From Coq Require Import Reals ZArith Bool String Lra Lia List FunctionalExtensionality.
From Verif Require Import Num Py MConfig MGrid MHelpers MSpots MFaculae MFlares MGranules MStar MHeap MRng
  Spec SpecStar SpecFlare SpecRng LBase LRng LRngRun LSpotGen LFac LGran.
Import ListNotations.
Open Scope R_scope.

Lemma nth_map_in : forall (A B : Type) (f : A -> B) l i d d', (i < length l)%nat -> nth i (map f l) d' = f (nth i l d).
Proof. intros. rewrite (nth_indep _ d' (f d)) by (rewrite map_length; auto). apply map_nth. Qed.
Lemma same_process : forall g ts ts', length ts = length ts' ->
  (forall i j, (i < length ts)%nat -> (j < length ts)%nat -> Rabs (nth i ts' 0 - nth j ts' 0) = Rabs (nth i ts 0 - nth j ts 0)) ->
  match gran_build_gp g ts, gran_build_gp g ts' with
  | Ok p, Ok p' => gp_mean_vector p = gp_mean_vector p' /\ gp_cov_matrix p = gp_cov_matrix p'
  | Raise e, Raise e' => e = e'
  | _, _ => False
  end.
Proof.
  intros g ts ts' L D. unfold gran_build_gp, build_gp.
  destruct (dindex String.eqb (gr_params g) "scale"%string) as [a|]; simpl; auto.
  destruct (dindex String.eqb (gr_params g) "period"%string) as [p|]; simpl; auto.
  destruct (dindex String.eqb (gr_params g) "mean"%string) as [m|]; simpl; auto.
  split.
  - unfold gp_mean_vector; simpl. clear D. revert ts' L. induction ts; intros [|b ts'] L; simpl in *; try lia; auto.
    f_equal. apply IHts. lia.
  - unfold gp_cov_matrix; simpl. rewrite <- L. apply map_ext_in. intros i Hi. apply map_ext_in. intros j Hj.
    apply in_seq in Hi. apply in_seq in Hj. unfold gp_cov; simpl.
    rewrite (nth_error_nth' ts 0), (nth_error_nth' ts 0), (nth_error_nth' ts' 0), (nth_error_nth' ts' 0) by lia.
    unfold kernel_num. rewrite <- D by lia. reflexivity.
Qed.
Lemma C118_distances_lemma :
  forall sampler g ts ts', length ts' = length ts ->
  (forall i j, (i < length ts)%nat -> (j < length ts)%nat -> Rabs (nth i ts' 0 - nth j ts' 0) = Rabs (nth i ts 0 - nth j ts 0)) ->
  star_seeded_coverage sampler g ts' = star_seeded_coverage sampler g ts.
Proof.
  intros sampler g ts ts' L D. unfold star_seeded_coverage, seeded_coverage.
  pose proof (same_process (fst g) ts ts' (eq_sym L) D) as H.
  rewrite L.
  destruct (gran_build_gp (fst g) ts), (gran_build_gp (fst g) ts'); try contradiction; simpl.
  - destruct H as [-> ->]. reflexivity.
  - rewrite H. reflexivity.
Qed.
Lemma C118_repeats_lemma :
  forall sampler g,
  (forall ts dt, star_seeded_coverage sampler g (map (fun t => t + dt) ts) = star_seeded_coverage sampler g ts)
  /\ (forall ts t0, star_seeded_coverage sampler g (map (fun t => t0 - t) ts) = star_seeded_coverage sampler g ts)
  /\ (forall t t', star_seeded_coverage sampler g [t'] = star_seeded_coverage sampler g [t]).
Proof.
  intros. split; [|split].
  - intros. apply C118_distances_lemma. apply map_length. intros i j Hi Hj.
    rewrite !(nth_map_in _ _ (fun t => t + dt) ts _ 0) by auto. f_equal. ring.
  - intros. apply C118_distances_lemma. apply map_length. intros i j Hi Hj.
    rewrite !(nth_map_in _ _ (fun t => t0 - t) ts _ 0) by auto.
    replace (t0 - nth i ts 0 - (t0 - nth j ts 0)) with (- (nth i ts 0 - nth j ts 0)) by ring. apply Rabs_Ropp.
  - intros. apply C118_distances_lemma. reflexivity. intros i j Hi Hj. simpl in *.
    assert (i = O) by lia. assert (j = O) by lia. subst. simpl. f_equal. ring.
Qed.
Lemma C118_seed_lemma :
  forall sampler mean amp period,
  (* the seed that is left out is 0, whatever was drawn when the module was imported *)
  (forall dteff u, new_granulation mean amp period dteff None u = new_granulation mean amp period dteff (Some 0%Z) 0%Z)
  (* two granulations with equal seeds agree, whatever their temperatures *)
  /\ (forall seed d d' u u' ts, neq d (Fin 0) = neq d' (Fin 0) ->
        star_seeded_coverage sampler (new_granulation mean amp period d seed u) ts
        = star_seeded_coverage sampler (new_granulation mean amp period d' seed u') ts).
Proof.
  intros. assert (Z : forall u, default_seed u = 0%Z) by (intros; unfold default_seed, randint; apply Z.mod_1_r).
  split.
  - intros. unfold new_granulation. rewrite Z. reflexivity.
  - intros seed d d' u u' ts E. unfold star_seeded_coverage, seeded_coverage, new_granulation. simpl.
    rewrite E, !Z. reflexivity.
Qed.
Lemma C118_range_lemma :
  forall sampler mean amp period dteff seed u ts,
  (forall k m c, length (sampler k m c) = length m) ->
  let g := new_granulation mean amp period dteff seed u in
  (neq dteff (Fin 0) = true -> star_seeded_coverage sampler g ts = Ok (repeat (Fin 0) (length ts)))
  /\ (neq dteff (Fin 0) = false -> neq mean (Fin 0) = true -> star_seeded_coverage sampler g ts = Raise KeyError)
  /\ (neq dteff (Fin 0) = false -> neq mean (Fin 0) = false ->
        exists l, star_seeded_coverage sampler g ts = Ok l /\ length l = length ts /\ forall c, In c l -> num_in 0 1 c).
Proof.
  intros sampler mean amp period dteff seed u ts SL g.
  set (s := {| st_teff := Fin 0; st_radius := 1; st_period := 1; st_spots := mkSpotColl [] (Spiral 1); st_facs := mkFacColl [] (Spiral 1);
     st_grid := Spiral 1; st_flaregen := lg_off; st_flares := None; st_spotgen := sg_off (Spiral 1); st_facgen := fg_off (Spiral 1);
     st_gran := gran_init mean amp period dteff; st_u1 := 0; st_u2 := 0 |}).
  set (raw := sampler (snd g) (gp_mean_vector (mkGP amp period ts 0 mean)) (gp_cov_matrix (mkGP amp period ts 0 mean))).
  assert (LR : length raw = length ts). { unfold raw. rewrite SL. unfold gp_mean_vector. simpl. apply map_length. }
  assert (K : star_seeded_coverage sampler g ts = star_granulation s (length ts) (fun i => nth i raw NaN)).
  { unfold star_seeded_coverage, star_granulation. subst g s. cbn [new_granulation fst snd st_gran gran_init gr_dteff gr_params].
    destruct (neq dteff (Fin 0)); [reflexivity|]. simpl. destruct (neq mean (Fin 0)); [reflexivity|]. simpl.
    f_equal. f_equal. unfold gran_get_coverage. f_equal. fold raw. rewrite <- LR.
    symmetry. change (map (at_index NaN raw) (seq 0 (length raw)) = raw). apply map_at_index. }
  destruct (C47_star_lemma s mean amp period dteff (length ts) (fun i => nth i raw NaN) eq_refl) as [A [B C]].
  rewrite K. split; [exact A|]. split; [exact B|]. intros H1 H2. destruct (C H1 H2) as [l [L1 [L2 [L3 _]]]]. eauto.
Qed.

(** ** an example of two stars that share the stream of the default facula generator *)
Definition ex_np : numpy nat :=
  mkNumpy nat (fun s => (if Nat.ltb s 4 then 0 else 1/2, S s)) (fun s => (0, S s)) (fun s => (0, S s))
    (fun _ s => (1%nat, S s)) (fun s => (true, S s)).
Definition ex_facgen : facgen := fg_with_coverage (fg_off (Spiral 100)) (Fin (1/10)).
Definition ex_star_lons (x : rstar) : list R := map fc_lon (fcc_facs (st_facs (rs_star x))).
Lemma ex_np_ok : numpy_ok ex_np.
Proof. split; intros s; simpl. unfold unit_draw. destruct (Nat.ltb s 4); lra. lra. Qed.
Lemma C116_influence_lemma :
  exists (np : numpy nat) x fuel h, numpy_ok np
  /\ rstar_init (Fin 3000) 1 30 (mkSpotColl [] (Spiral 100)) (mkFacColl [] (Spiral 100)) (PyInt 100) None None
       (Some (new_facgen (fg_with_coverage (fg_off (Spiral 100)) (Fin (1/10))) None)) None 0 0 None = Ok x
  /\ (exists h1 st1, rrun np fuel h (fun _ => x) [(0%nat, RBirthFaculae (Fin 1))] = (h1, st1, [(0%nat, None)])
        /\ map fc_lon (fcc_facs (st_facs (rs_star (st1 0%nat)))) = [0])
  /\ (exists h1 st1, rrun np fuel h (fun _ => x) [(1%nat, RBirthFaculae (Fin 1)); (0%nat, RBirthFaculae (Fin 1))]
                     = (h1, st1, [(1%nat, None); (0%nat, None)])
        /\ map fc_lon (fcc_facs (st_facs (rs_star (st1 0%nat)))) = [PI]).
Proof.
  exists ex_np. eexists. exists O, (fun _ => O). split; [apply ex_np_ok|]. split; [reflexivity|].
  match goal with |- context [rrun _ _ _ (fun _ => ?x) _] => set (X := x) end.
  assert (E : exists v, 0 < v /\ fg_n_expected (st_facgen (rs_star X)) (Fin 1) (st_radius (rs_star X) * RSUN_KM) = Fin v).
  { destruct C34_lemma as [Q _]. destruct (Q (fg_off (Spiral 100)) 100 6 (1 * RSUN_KM)) as [k [K [EK _]]]; try reflexivity; try lra.
    unfold RSUN_KM; lra. exists (k * (1/10) * 1). split. nra. apply EK. }
  destruct E as [v [V E]].
  assert (P : forall s, s_poisson ex_np (Fin v) s = (Ok 1%nat, S s)).
  { intros. unfold s_poisson, poisson. destruct (Rlt_dec v 0); [lra|]. destruct (Req_EM_T v 0); [lra|]. reflexivity. }
  assert (B : forall s, s_birth_faculae ex_np (st_facgen (rs_star X)) (Fin 1) (st_radius (rs_star X) * RSUN_KM) s
    = (Ok (fg_generate (st_facgen (rs_star X)) 1 (mkFDraws (at_index 0 [0]) (at_index 0 [if Nat.ltb (S (S s)) 4 then 0 else 1/2])
         (at_index 0 [if Nat.ltb (S (S (S s))) 4 then 0 else 1/2]))), S (S (S (S s))))).
  { intros. unfold s_birth_faculae, sbind. rewrite E, P. reflexivity. }
  assert (XX : forall hh, hh DEFAULT_FAC = O \/ hh DEFAULT_FAC = 4%nat ->
     exists y, rexec ex_np O hh X (RBirthFaculae (Fin 1)) = (fun k => if Nat.eqb k DEFAULT_FAC then (4 + hh DEFAULT_FAC)%nat else hh k, y, None)
       /\ map fc_lon (fcc_facs (st_facs (rs_star y))) = [if Nat.eqb (hh DEFAULT_FAC) 0 then 0 else PI]).
  { intros hh H. rewrite (rexec_draw _ _ _ _ X _ DEFAULT_FAC) by reflexivity.
    cbn [rcall_star]. unfold sbind. rewrite B. unfold slift, star_add_fac, fcc_add. simpl.
    eexists. split; [reflexivity|]. simpl. f_equal. unfold deg2rad, rand_lon. 
    destruct H as [-> | ->]; simpl; field. }
  split.
  - destruct (XX (fun _ => O)) as [y [Y1 Y2]]; auto. simpl. rewrite Y1. do 2 eexists. split; [reflexivity|]. exact Y2.
  - destruct (XX (fun _ => O)) as [y [Y1 _]]; auto. cbn [rrun]. rewrite Y1. cbv beta iota. cbn [Nat.eqb].
    match goal with |- context [rexec ex_np O ?hh X _] => destruct (XX hh) as [z [Z1 Z2]]; [auto|] end.
    rewrite Z1. do 2 eexists. split; [reflexivity|]. exact Z2.
Qed.
