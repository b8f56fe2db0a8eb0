(** Properties C115-C118: random streams, default generators and seeds *)
From Coq Require Import Reals ZArith Bool String List Lra Lia.
From Coquelicot Require Import Coquelicot.
From Verif Require Import Num Py MConfig MHelpers MGrid MSpots MFaculae MXoflares MFlares MGranules MStar MHeap MRng
  Spec SpecStar SpecRng LBase LRng LRngRun LRngMore LRngGran.
Import ListNotations.
Open Scope R_scope.

(** C115 *)
Theorem C115_draws :
  forall (St : Type) (np : numpy St) fuel s c st, numpy_ok np ->
  exists k, spells_out c k /\ vexec s k = fst (rcall_star np fuel s c st).
Proof. exact C115_draws_lemma. Qed.
Print Assumptions C115_draws.
Theorem C115_frame :
  forall (St : Type) (np : numpy St) fuel h x c h' x' e, rexec np fuel h x c = (h', x', e) ->
  (* only the stream of the generator that is used advances *)
  (forall l, rcall_rng x c <> Some l -> h' l = h l)
  (* and nothing else is read *)
  /\ (forall h2, (forall l, rcall_rng x c = Some l -> h2 l = h l) ->
        exists h2', rexec np fuel h2 x c = (h2', x', e) /\ (forall l, rcall_rng x c = Some l -> h2' l = h' l))
  (* the star goes on using the same streams *)
  /\ rs_spot x' = rs_spot x /\ rs_fac x' = rs_fac x /\ rs_flare x' = rs_flare x /\ rs_rng x' = rs_rng x.
Proof. exact C115_frame_lemma. Qed.
Print Assumptions C115_frame.
Theorem C115_isolated :
  forall (St : Type) (np : numpy St) fuel h st prog h' st' log i h2 st2 log2,
  (forall j l, j <> i -> uses (st i) l -> ~ uses (st j) l) ->
  rrun np fuel h st prog = (h', st', log) -> rrun np fuel h st (calls_on i prog) = (h2, st2, log2) ->
  st' i = st2 i /\ calls_on i log = log2 /\ (forall l, uses (st i) l -> h' l = h2 l)
  /\ (forall j, j <> i -> st2 j = st j).
Proof. exact C115_isolated_lemma. Qed.
Print Assumptions C115_isolated.
Theorem C115_commute :
  forall (St : Type) (np : numpy St) fuel h x c1 c2 k1 k2,
  kind_of c1 = Some k1 -> kind_of c2 = Some k2 -> k1 <> k2 ->
  (forall l, rcall_rng x c1 = Some l -> rcall_rng x c2 <> Some l) ->
  exists h1 x1 e1 h2 x2 e2 h3 x3, 
    rexec np fuel h x c1 = (h1, x1, e1) /\ rexec np fuel h1 x1 c2 = (h3, x3, e2)
    /\ rexec np fuel h x c2 = (h2, x2, e2) /\ rexec np fuel h2 x2 c1 = (h3, x3, e1).
Proof. exact C115_commute_lemma. Qed.
Print Assumptions C115_commute.
(** a star with its own stream number [n] for faculae, the default one for spots *)
Definition ex_rstar (teff : num) (n : nat) : res rstar :=
  rstar_init teff 1 30 (mkSpotColl [] (Spiral 100)) (mkFacColl [] (Spiral 100)) (PyInt 100) None
    (Some (new_spotgen (sg_off (Spiral 100)) (Some (100 + n)%nat)))
    (Some (new_facgen (fg_with_coverage (fg_off (Spiral 100)) (Fin (1/10))) (Some n))) None 0 0 (Some (200 + n)%nat).
Example C115_nonvacuous : numpy_ok ex_np /\ exists x y, ex_rstar (Fin 3000) 10 = Ok x /\ ex_rstar (Fin 3000) 11 = Ok y
  /\ (forall l, uses x l -> ~ uses y l)
  /\ kind_of (RBirthSpots (Fin 1)) = Some Spots /\ kind_of (RBirthFaculae (Fin 1)) = Some Faculae
  /\ (forall l, rcall_rng x (RBirthSpots (Fin 1)) = Some l -> rcall_rng x (RBirthFaculae (Fin 1)) <> Some l)
  /\ exists h x', rexec ex_np 0 (fun _ => O) x (RBirthFaculae (Fin 1)) = (h, x', None) /\ h 10%nat = 4%nat /\ h 11%nat = 0%nat
       /\ List.length (fcc_facs (st_facs (rs_star x'))) = 1%nat.
Proof.
  split. apply ex_np_ok. do 2 eexists. split. reflexivity. split. reflexivity.
  split. { unfold uses. simpl. intros l H1 H2. lia. }
  split. reflexivity. split. reflexivity. split. { simpl. intros l E. inversion E; subst. discriminate. }
  match goal with |- context [rexec _ _ _ ?x _] => set (X := x) end.
  assert (E : exists v, 0 < v /\ fg_n_expected (st_facgen (rs_star X)) (Fin 1) (st_radius (rs_star X) * RSUN_KM) = Fin v).
  { destruct LFac.C34_lemma as [Q _]. destruct (Q (fg_off (Spiral 100)) 100 6 (1 * RSUN_KM)) as [k [K [EK _]]]; try reflexivity; try lra.
    unfold RSUN_KM; lra. exists (k * (1/10) * 1). split. nra. apply EK. }
  destruct E as [v [V E]].
  rewrite (rexec_draw _ ex_np 0 _ X _ 10%nat) by reflexivity. cbn [rcall_star]. unfold s_birth_faculae, sbind. rewrite E.
  replace (s_poisson ex_np (Fin v) 0%nat) with (Ok 1%nat, 1%nat).
  2:{ unfold s_poisson, poisson. destruct (Rlt_dec v 0); [lra|]. destruct (Req_EM_T v 0); [lra|]. reflexivity. }
  do 2 eexists. split. reflexivity. split. reflexivity. split. reflexivity. reflexivity.
Qed.

(** C116 *)
Theorem C116_defaults :
  forall teff radius period spots facs gp flg spg fcg gran u1 u2 rng x,
  rstar_init teff radius period spots facs gp flg spg fcg gran u1 u2 rng = Ok x ->
  rs_rng x = match rng with Some l => l | None => DEFAULT_STAR end
  /\ (forall g r, spg = Some (new_spotgen g r) ->
        rs_spot x = match r with Some l => l | None => DEFAULT_SPOT end)
  /\ (forall g r, fcg = Some (new_facgen g r) ->
        rs_fac x = match r with Some l => l | None => DEFAULT_FAC end)
  /\ (forall g r, flg = Some (new_flaregen g r) ->
        rs_flare x = match r with Some l => l | None => DEFAULT_FLARE end)
  /\ (spg = None -> rs_spot x = rs_rng x)
  /\ (fcg = None -> rs_fac x = rs_rng x)
  /\ (flg = None -> rs_flare x = rs_rng x)
  /\ List.NoDup [DEFAULT_SPOT; DEFAULT_SPOT_OFF; DEFAULT_FAC; DEFAULT_FAC_OFF; DEFAULT_FLARE; DEFAULT_FLARE_OFF; DEFAULT_STAR].
Proof. exact C116_defaults_lemma. Qed.
Print Assumptions C116_defaults.
Theorem C116_swap :
  forall (St : Type) (np : numpy St) fuel h st i j c k l,
  i <> j -> kind_of c = Some k -> rcall_rng (st i) c = Some l -> rcall_rng (st j) c = Some l ->
  same_source k (rs_star (st i)) (rs_star (st j)) ->
  exists (a b : res product) h' st1 st2,
    let gets n r := do p <- r ;; receive (rs_star (st n)) p in
    (forall p, a = Ok p \/ b = Ok p -> product_kind p = k)
    /\ rrun np fuel h st [(i, c); (j, c)] = (h', st1, [(i, outcome (gets i a)); (j, outcome (gets j b))])
    /\ rrun np fuel h st [(j, c); (i, c)] = (h', st2, [(j, outcome (gets j a)); (i, outcome (gets i b))])
    /\ st1 i = with_star (st i) (gets i a) /\ st1 j = with_star (st j) (gets j b)
    /\ st2 j = with_star (st j) (gets j a) /\ st2 i = with_star (st i) (gets i b)
    /\ forall m, m <> i -> m <> j -> st1 m = st m /\ st2 m = st m.
Proof. exact C116_swap_lemma. Qed.
Print Assumptions C116_swap.
Theorem C116_influence :
  exists (np : numpy nat) x fuel h, numpy_ok np
  /\ rstar_init (Fin 3000) 1 30 (mkSpotColl [] (Spiral 100)) (mkFacColl [] (Spiral 100)) (PyInt 100) None None
       (Some (new_facgen (fg_with_coverage (fg_off (Spiral 100)) (Fin (1/10))) None)) None 0 0 None = Ok x
  /\ (exists h1 st1, rrun np fuel h (fun _ => x) [(0%nat, RBirthFaculae (Fin 1))] = (h1, st1, [(0%nat, None)])
        /\ map fc_lon (fcc_facs (st_facs (rs_star (st1 0%nat)))) = [0])
  /\ (exists h1 st1, rrun np fuel h (fun _ => x) [(1%nat, RBirthFaculae (Fin 1)); (0%nat, RBirthFaculae (Fin 1))]
                     = (h1, st1, [(1%nat, None); (0%nat, None)])
        /\ map fc_lon (fcc_facs (st_facs (rs_star (st1 0%nat)))) = [PI]).
Proof. exact C116_influence_lemma. Qed.
Print Assumptions C116_influence.
Example C116_nonvacuous : exists x y, ex_rstar (Fin 3000) 10 = Ok x /\ ex_rstar (Fin 3500) 10 = Ok y /\ x <> y
  /\ kind_of (RBirthFaculae (Fin 1)) = Some Faculae
  /\ rcall_rng x (RBirthFaculae (Fin 1)) = Some 10%nat /\ rcall_rng y (RBirthFaculae (Fin 1)) = Some 10%nat
  /\ same_source Faculae (rs_star x) (rs_star y).
Proof.
  do 2 eexists. split. reflexivity. split. reflexivity. split. { intros E. injection E. lra. }
  split. reflexivity. split. reflexivity. split. reflexivity. split; reflexivity.
Qed.

(** C117 *)
Theorem C117_nothing :
  forall (St : Type) (np : numpy St) fuel h x t,
  (sg_n_expected (st_spotgen (rs_star x)) (Fin t) (st_radius (rs_star x)) = Ok (Fin 0) ->
     exists e, rexec np fuel h x (RBirthSpots (Fin t)) = (h, x, e)
       /\ e = (if Rltb (sg_logsigma (st_spotgen (rs_star x))) 0 then Some ValueError
               else match sg_dist (st_spotgen (rs_star x)) with UnknownDist => Some ValueError | _ => None end))
  /\ (fg_n_expected (st_facgen (rs_star x)) (Fin t) (st_radius (rs_star x) * RSUN_KM) = Fin 0 ->
        rexec np fuel h x (RBirthFaculae (Fin t)) = (h, x, None))
  /\ (ntotal (st_flaregen (rs_star x)) (Fin t) = Fin 0 ->
        exists x', rexec np fuel h x (RFlares t) = (h, x', None)
          /\ st_flares (rs_star x') = Some (flc_init [])
          /\ with_star x' (Ok (rs_star x)) = x).
Proof. exact C117_nothing_lemma. Qed.
Print Assumptions C117_nothing.
Theorem C117_off :
  forall (St : Type) (np : numpy St) fuel h teff radius period spots facs gp gran u1 u2 rng x t,
  rstar_init teff radius period spots facs gp None None None gran u1 u2 rng = Ok x -> 0 < radius ->
  rexec np fuel h x (RBirthSpots (Fin t)) = (h, x, None)
  /\ rexec np fuel h x (RBirthFaculae (Fin t)) = (h, x, None)
  /\ exists x', rexec np fuel h x (RFlares t) = (h, x', None) /\ st_flares (rs_star x') = Some (flc_init []).
Proof. exact C117_off_lemma. Qed.
Print Assumptions C117_off.
Theorem C117_temperatures :
  forall (St : Type) (np : numpy St) fuel prog prog' h st st' h1 st1 log,
  (forall i, alike (st i) (st' i)) ->
  Forall2 (fun p q => fst q = fst p /\ alike_call (snd p) (snd q)) prog prog' ->
  rrun np fuel h st prog = (h1, st1, log) ->
  exists st1', rrun np fuel h st' prog' = (h1, st1', log) /\ forall i, alike (st1 i) (st1' i).
Proof. exact C117_temperatures_lemma. Qed.
Print Assumptions C117_temperatures.
Example C117_nonvacuous : exists x y, ex_rstar (Fin 3000) 10 = Ok x /\ ex_rstar (Fin 3500) 10 = Ok y /\ x <> y /\ alike x y
  /\ sg_n_expected (st_spotgen (rs_star x)) (Fin 1) (st_radius (rs_star x)) = Ok (Fin 0)
  /\ exists z, rstar_init (Fin 3000) 1 30 (mkSpotColl [] (Spiral 100)) (mkFacColl [] (Spiral 100)) (PyInt 100) None None None None 0 0 None = Ok z.
Proof.
  do 2 eexists. split. reflexivity. split. reflexivity. split. { intros E. injection E. lra. }
  split. { unfold alike, alike_star, alike_spotgen, alike_facgen. simpl. intuition auto. }
  split. { destruct LSpotGen.C26_lemma as [_ [_ [Q _]]]. apply (Q (Spiral 100) 1 1 O (mkSDraws (fun _ => 0) (fun _ _ => 0) (fun _ => 0) (fun _ => 0) (fun _ => true) (fun _ => 0)) O). }
  eexists. reflexivity.
Qed.

(** C118 *)
Theorem C118_distances :
  forall sampler g ts ts', length ts' = length ts ->
  (forall i j, (i < length ts)%nat -> (j < length ts)%nat -> Rabs (nth i ts' 0 - nth j ts' 0) = Rabs (nth i ts 0 - nth j ts 0)) ->
  star_seeded_coverage sampler g ts' = star_seeded_coverage sampler g ts.
Proof. exact C118_distances_lemma. Qed.
Print Assumptions C118_distances.
Theorem C118_repeats :
  forall sampler g,
  (forall ts dt, star_seeded_coverage sampler g (map (fun t => t + dt) ts) = star_seeded_coverage sampler g ts)
  /\ (forall ts t0, star_seeded_coverage sampler g (map (fun t => t0 - t) ts) = star_seeded_coverage sampler g ts)
  /\ (forall t t', star_seeded_coverage sampler g [t'] = star_seeded_coverage sampler g [t]).
Proof. exact C118_repeats_lemma. Qed.
Print Assumptions C118_repeats.
Theorem C118_seed :
  forall sampler mean amp period,
  (* the seed that is left out is 0, whatever was drawn when the module was imported *)
  (forall dteff u, new_granulation mean amp period dteff None u = new_granulation mean amp period dteff (Some 0%Z) 0%Z)
  (* two granulations with equal seeds agree, whatever their temperatures *)
  /\ (forall seed d d' u u' ts, neq d (Fin 0) = neq d' (Fin 0) ->
        star_seeded_coverage sampler (new_granulation mean amp period d seed u) ts
        = star_seeded_coverage sampler (new_granulation mean amp period d' seed u') ts).
Proof. exact C118_seed_lemma. Qed.
Print Assumptions C118_seed.
Theorem C118_range :
  forall sampler mean amp period dteff seed u ts,
  (forall k m c, length (sampler k m c) = length m) ->
  let g := new_granulation mean amp period dteff seed u in
  (neq dteff (Fin 0) = true -> star_seeded_coverage sampler g ts = Ok (repeat (Fin 0) (length ts)))
  /\ (neq dteff (Fin 0) = false -> neq mean (Fin 0) = true -> star_seeded_coverage sampler g ts = Raise KeyError)
  /\ (neq dteff (Fin 0) = false -> neq mean (Fin 0) = false ->
        exists l, star_seeded_coverage sampler g ts = Ok l /\ length l = length ts /\ forall c, In c l -> num_in 0 1 c).
Proof. exact C118_range_lemma. Qed.
Print Assumptions C118_range.
(** the first hours of two different days; a sampler that returns the mean; a granulation that is not off *)
Example C118_nonvacuous : [24; 25; 27] <> [0; 1; 3]
  /\ (forall i j, (i < 3)%nat -> (j < 3)%nat -> Rabs (nth i [24; 25; 27] 0 - nth j [24; 25; 27] 0) = Rabs (nth i [0; 1; 3] 0 - nth j [0; 1; 3] 0))
  /\ (forall (k : Z) (m : list num) (c : list (list num)), List.length ((fun _ m _ => m) k m c : list num) = List.length m)
  /\ neq (Fin 300) (Fin 0) = false /\ neq (Fin (1/5)) (Fin 0) = false.
Proof.
  split. { intros E. inversion E. lra. }
  split. { intros [|[|[|i]]] [|[|[|j]]] Hi Hj; try lia; simpl; f_equal; ring. }
  split. reflexivity. split; apply neq_fin_false; lra.
Qed.
