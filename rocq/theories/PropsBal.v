(** Properties C92 and C93: the area that spots and faculae cover in the long run *)
From Coq Require Import Reals ZArith Bool String List Lra Lia.
From Coquelicot Require Import Coquelicot.
From Verif Require Import Num Py MConfig MHelpers MGrid MSpots MFaculae MXoflares MFlares MGranules MStar
  Spec SpecStar SpecBal LBase LGrid LSpotAge LSpotGen LFac LBal.
Import ListNotations.
Open Scope R_scope.

(** a star without spots and faculae, with generators whose sizes do not scatter *)
Definition ex_bal : star :=
  {| st_teff := Fin 3300; st_radius := 1/5; st_period := 30; st_spots := mkSpotColl [] (Spiral 100);
     st_facs := mkFacColl [] (Spiral 100); st_grid := Spiral 100; st_flaregen := lg_off; st_flares := None;
     st_spotgen := {| sg_mean := Fin 500; sg_logsigma := 0; sg_teff_umbra := Fin 2500; sg_teff_pen := Fin 2700;
       sg_growth := Fin (1/2); sg_growth_dim := (-1)%Z; sg_decay := Fin 10; sg_init := Fin 100;
       sg_dist := Iso; sg_coverage := Fin (1/5); sg_grid := Spiral 100 |};
     st_facgen := {| fg_rpeak := Fin 4000; fg_rlogsigma := 0; fg_depth := Fin 100; fg_lifepeak := Fin 6; fg_lifelogsigma := 0;
       fg_fslope := Fin 0; fg_fminrad := Fin 20; fg_fbase := Fin (-100); fg_wslope := Fin 0; fg_wint := Fin 100;
       fg_coverage := Fin (1/10); fg_grid := Spiral 100 |};
     st_gran := gran_off; st_u1 := 0; st_u2 := 0 |}.
(** [k] spots in each of [N] cycles, [N] and [k] arbitrary *)
Lemma ex_spot_cycles : forall k N s, st_spotgen s = st_spotgen ex_bal -> 0 < st_radius s ->
  (forall x, In x (sc_spots (st_spots s)) -> spot_wf x) ->
  exists births stars, spot_cycles 1 s births stars /\ length births = N /\ (forall l, In l births -> length l = k).
Proof.
  intros k. induction N; intros s G HR W. { exists [], []. split. constructor. split; auto. intros l []. }
  assert (P : sg_params (st_spotgen s) 500 100 (1/2) 10) by (rewrite G; repeat split).
  set (d := mkSDraws (fun _ => 0) (fun _ _ => 1) (fun _ => 0) (fun _ => 1/2) (fun _ => true) (fun _ => 0)).
  destruct C25_lemma as [C1 [C2 _]]. destruct (C2 (st_spotgen s) k d 0%nat 0%nat) as [l0 E].
  { rewrite G. cbn. lra. } { rewrite G. discriminate. } { lia. } { intros; cbn; lra. }
  destruct (C1 _ _ _ _ _ E) as [LEN _].
  destruct C26_lemma as [C26 _]. destruct (C26 (st_spotgen s) 500 100 (1/2) 10 (st_radius s) P ltac:(lra) ltac:(lra) ltac:(lra) HR) as [q [Q0 [QE _]]].
  specialize (QE (1/5) 1). replace (sg_with_coverage (st_spotgen s) (Fin (1/5))) with (st_spotgen s) in QE by (rewrite G; reflexivity).
  assert (BI : star_birth_spots s (Fin 1) k d 0 = Ok (star_add_spot s l0)).
  { unfold star_birth_spots, sg_birth. rewrite QE. cbn [bind]. unfold poisson. destruct (Rlt_dec _ _); [lra|]. destruct (Req_EM_T _ _); [lra|].
    cbn [bind]. rewrite E. auto. }
  destruct (birth_born _ _ _ _ _ _ _ _ _ _ _ BI eq_refl P ltac:(lra)) as [G1 [R1 NB]].
  set (s1 := star_add_spot s l0) in *.
  assert (W1 : forall x, In x (sc_spots (st_spots s1)) -> spot_wf x).
  { intros x I. unfold s1 in I. cbn [star_add_spot star_with_spots st_spots sc_spots sc_add_spot] in I. apply in_app_or in I. destruct I as [I|I]; auto.
    destruct (NB x I) as [_ [m [Px [_ Q]]]]. rewrite Q in Px by (rewrite G; auto). exists 100, 500, (1/2), 10. repeat (split; auto); lra. }
  assert (AG : exists s2, star_age s1 (Fin 1) = Ok s2).
  { unfold star_age. destruct (st_spots s1) as [l g] eqn:ES. rewrite sc_age_eq by auto. cbn [bind]. eauto. }
  destruct AG as [s2 AG]. destruct (cycle_step _ _ _ AG W1) as [E2 [G2 R2]].
  destruct (IHN s2) as [bs [ss [CY [L1 L2]]]].
  { rewrite G2, G1. auto. } { rewrite R2, R1. auto. } { rewrite E2. intros x. apply aged_list_wf; auto. lra. }
  exists (map (fun x => spot_assign_gridmaker x (sc_grid (st_spots s))) l0 :: bs), (s2 :: ss). split; [|split].
  - eapply spot_cycles_next; eauto.
  - cbn. rewrite L1. auto.
  - intros l [<-|I]; auto. rewrite map_length. auto.
Qed.
Lemma ex_fac_cycles : forall k N s, st_facgen s = st_facgen ex_bal -> fcc_grid (st_facs s) = Spiral 100 -> sc_spots (st_spots s) = [] -> 0 < st_radius s ->
  exists births stars, fac_cycles 1 s births stars /\ length births = N /\ (forall l, In l births -> length l = k).
Proof.
  intros k. induction N; intros s G HG HS HR. { exists [], []. split. constructor. split; auto. intros l []. }
  set (d := mkFDraws (fun _ => 0) (fun _ => 1/2) (fun _ => 0)).
  destruct C34_lemma as [C34 _]. assert (RK : 0 < RSUN_KM) by (unfold RSUN_KM; lra).
  destruct (C34 (st_facgen s) 4000 6 (st_radius s * RSUN_KM)) as [q [Q0 [QE _]]]; try (rewrite G; reflexivity); try lra.
  { apply Rmult_lt_0_compat; auto. }
  specialize (QE (1/10) 1). replace (fg_with_coverage (st_facgen s) (Fin (1/10))) with (st_facgen s) in QE by (rewrite G; reflexivity).
  set (l0 := fg_generate (st_facgen s) k d).
  assert (AD : fcc_add (st_facs s) l0 = Ok (mkFacColl (fcc_facs (st_facs s) ++ l0) (Spiral 100))).
  { unfold fcc_add. rewrite (mapM_ok _ _ _ (fun f => f)). rewrite map_id, HG. auto.
    intros f I. unfold l0, fg_generate in I. apply in_map_iff in I. destruct I as [i [<- _]]. cbn [fc_grid]. rewrite HG, G. auto. }
  set (s1 := star_with_facs s (mkFacColl (fcc_facs (st_facs s) ++ l0) (Spiral 100))).
  assert (BI : star_birth_faculae s (Fin 1) k d = Ok s1).
  { unfold star_birth_faculae, fg_birth. rewrite QE. unfold poisson. destruct (Rlt_dec _ _); [lra|]. destruct (Req_EM_T _ _); [lra|].
    cbn [bind]. unfold star_add_fac. fold l0. rewrite AD. auto. }
  assert (AG : exists s2, star_age s1 (Fin 1) = Ok s2 /\ fcc_grid (st_facs s2) = Spiral 100 /\ sc_spots (st_spots s2) = []).
  { unfold star_age. change (st_spots s1) with (st_spots s). destruct (st_spots s) as [l g]. cbn in HS. subst l. cbn. eexists. split. reflexivity. auto. }
  destruct AG as [s2 [AG [A2 A3]]]. destruct (fcycle_step _ _ _ AG) as [E2 [G2 R2]].
  destruct (IHN s2) as [bs [ss [CY [L1 L2]]]]; auto. { rewrite G2. auto. } { rewrite R2. auto. }
  exists (l0 :: bs), (s2 :: ss). split; [|split].
  - eapply fac_cycles_next; eauto.
  - cbn. rewrite L1. auto.
  - intros l [<-|I]; auto. unfold l0, fg_generate. rewrite map_length, seq_length. auto.
Qed.

(** C92 *)
Theorem C92_spot_budget :
  forall dt s births stars M A g W,
  spot_cycles dt s births stars -> 0 < dt -> sc_spots (st_spots s) = [] ->
  sg_params (st_spotgen s) M A g W -> 0 < M -> 0 < A -> 0 < g -> 0 < W ->
  (forall l x, In l births -> In x l -> val (sp_area x) <= val (sp_area_max x)) ->
  (* every spot contributes the time integral of its area, up to its largest area times dt *)
  tally (fun x n => if Rle_dec (spot_life x) (INR n * dt) then spot_area_time x - val (sp_area_max x) * dt else 0) births
    <= dt * rsum (map spot_total stars)
    <= tally (fun x _ => spot_area_time x + val (sp_area_max x) * dt) births
  (* which is what the spot really has, when it is aged *)
  /\ (forall l x, In l births -> In x l ->
        exists area : R -> R,
          (forall t, 0 <= t -> exists x' b, spot_age x (Fin t) = Ok x' /\ aged_to x x' (area t) b)
          /\ (forall t, spot_life x <= t -> area t = 0)
          /\ is_RInt area 0 (spot_life x) (spot_area_time x)).
Proof. exact C92_lemma. Qed.
Print Assumptions C92_spot_budget.
Theorem C92_spot_cover :
  forall dt s births stars M A g W c ne,
  spot_cycles dt s births stars -> births <> [] -> 0 < dt -> sc_spots (st_spots s) = [] -> 0 < st_radius s ->
  sg_params (st_spotgen s) M A g W -> 0 < A <= M -> 0 < g -> 0 < W -> sg_coverage (st_spotgen s) = Fin c -> 0 < c ->
  sg_logsigma (st_spotgen s) = 0 -> sg_n_expected (st_spotgen s) (Fin dt) (st_radius s) = Ok (Fin ne) ->
  let q := real_area_time M A g W / assumed_area_time M A g W in
  let slack := M * dt / real_area_time M A g W in
  let life := time_to_max A M g + M / W in
  let N := INR (length births) in
  (* on average over the cycles: births over expected births, times q, times the coverage asked for *)
  born_early life dt births / (N * ne) * (c * q) * (1 - slack) <= mean_spot_cover stars (st_radius s)
    <= born births / (N * ne) * (c * q) * (1 + slack)
  (* and at the end of the last cycle, when the same number of spots was born in each *)
  /\ (forall k, (forall l, In l births -> length l = k) -> life <= N * dt ->
        INR k / ne * (c * q) * (1 - slack) <= mean_spot_cover [last stars s] (st_radius s)
          <= INR k / ne * (c * q) * (1 + slack)).
Proof. exact C92_cover_lemma. Qed.
Print Assumptions C92_spot_cover.
Example C92_nonvacuous : forall k N, exists births stars, spot_cycles 1 ex_bal births stars /\ length births = N
  /\ (forall l, In l births -> length l = k) /\ sc_spots (st_spots ex_bal) = []
  /\ sg_params (st_spotgen ex_bal) 500 100 (1/2) 10 /\ sg_logsigma (st_spotgen ex_bal) = 0
  /\ (exists ne, sg_n_expected (st_spotgen ex_bal) (Fin 1) (st_radius ex_bal) = Ok (Fin ne))
  /\ (forall l x, In l births -> In x l -> val (sp_area x) <= val (sp_area_max x)).
Proof.
  intros k N. destruct (ex_spot_cycles k N ex_bal eq_refl) as [bs [ss [H [L1 L2]]]]. { cbn. lra. } { intros x []. }
  assert (P : sg_params (st_spotgen ex_bal) 500 100 (1/2) 10) by (repeat split).
  exists bs, ss. do 4 (split; auto). split; auto. split; auto. split.
  - destruct C26_lemma as [C26 _]. destruct (C26 (st_spotgen ex_bal) 500 100 (1/2) 10 (st_radius ex_bal) P ltac:(lra) ltac:(lra) ltac:(lra)) as [q [Q0 [QE _]]].
    cbn; lra. exists (q * (1/5) * 1). apply (QE (1/5) 1).
  - assert (X : forall s ls st, spot_cycles 1 s ls st -> st_spotgen s = st_spotgen ex_bal -> (forall x, In x (sc_spots (st_spots s)) -> spot_wf x) ->
      forall l x, In l ls -> In x l -> val (sp_area x) <= val (sp_area_max x)).
    { intros s ls st C. induction C as [s|s n d fuel s1 l s2 ls st H1 H2 H3 H4 IH]; intros G W. { intros ? ? []. }
      assert (P' : sg_params (st_spotgen s) 500 100 (1/2) 10) by (rewrite G; auto).
      destruct (birth_born _ _ _ _ _ _ _ _ _ _ _ H1 H2 P' ltac:(lra)) as [G1 [_ NB]].
      assert (NB' : forall x, In x l -> spot_params x 100 500 (1/2) 10).
      { intros x I. destruct (NB x I) as [_ [m [Px [_ Q]]]]. rewrite Q in Px by (rewrite G; auto). auto. }
      assert (W1 : forall x, In x (sc_spots (st_spots s1)) -> spot_wf x).
      { rewrite H2. intros x I. apply in_app_or in I. destruct I as [I|I]; auto. exists 100, 500, (1/2), 10. split; auto. lra. }
      destruct (cycle_step _ _ _ H3 W1) as [E2 [G2 _]].
      intros l0 x [<-|I] J. destruct (NB' x J) as [-> [-> _]]. cbn. lra.
      apply (IH) with (l := l0); auto. rewrite G2, G1. auto. rewrite E2. intros y. apply aged_list_wf; auto. lra. }
    apply (X ex_bal bs ss H eq_refl). intros x [].
Qed.

(** C93 *)
Theorem C93_facula_budget :
  forall dt s births stars r0 L,
  fac_cycles dt s births stars -> 0 < dt -> fcc_facs (st_facs s) = [] ->
  fg_rpeak (st_facgen s) = Fin r0 -> fg_lifepeak (st_facgen s) = Fin L -> 0 < r0 -> 0 < L ->
  0 <= fg_rlogsigma (st_facgen s) -> 0 <= fg_lifelogsigma (st_facgen s) ->
  (* every facula contributes the time integral of its area, up to its largest area times dt *)
  tally (fun x n => if Rle_dec (2 * val (fc_life x)) (INR n * dt) then fac_area_time x - PI * val (fc_rmax x)^2 * dt else 0) births
    <= dt * rsum (map fac_total stars)
    <= tally (fun x _ => fac_area_time x + PI * val (fc_rmax x)^2 * dt) births
  (* which is what the facula really has, when it is aged *)
  /\ (forall l x, In l births -> In x l ->
        exists rad : R -> R, (forall t, 0 <= t -> fc_radius (fac_age x (Fin t)) = Fin (rad t))
          /\ is_RInt (fun t => PI * rad t ^ 2) 0 (2 * val (fc_life x)) (fac_area_time x)).
Proof. exact C93_lemma. Qed.
Print Assumptions C93_facula_budget.
Theorem C93_facula_cover :
  forall dt s births stars r0 L c ne,
  fac_cycles dt s births stars -> births <> [] -> 0 < dt -> fcc_facs (st_facs s) = [] -> 0 < st_radius s ->
  fg_rpeak (st_facgen s) = Fin r0 -> fg_lifepeak (st_facgen s) = Fin L -> 0 < r0 -> 0 < L ->
  fg_rlogsigma (st_facgen s) = 0 -> fg_lifelogsigma (st_facgen s) = 0 ->
  fg_coverage (st_facgen s) = Fin c -> 0 < c -> fg_n_expected (st_facgen s) (Fin dt) (st_radius s * RSUN_KM) = Fin ne ->
  let q := (1 + exp (-2)) / 2 in
  let slack := 2 * dt / (L * (1 - exp (-4))) in
  let N := INR (length births) in
  (* on average over the cycles: births over expected births, times q (about 0.57), times the coverage asked for *)
  born_early (2 * L) dt births / (N * ne) * (c * q) * (1 - slack) <= mean_fac_cover stars (st_radius s * RSUN_KM)
    <= born births / (N * ne) * (c * q) * (1 + slack)
  (* and at the end of the last cycle, when the same number of faculae was born in each *)
  /\ (forall k, (forall l, In l births -> length l = k) -> 2 * L <= N * dt ->
        INR k / ne * (c * q) * (1 - slack) <= mean_fac_cover [last stars s] (st_radius s * RSUN_KM)
          <= INR k / ne * (c * q) * (1 + slack))
  /\ q < 58 / 100.
Proof. exact C93_cover_lemma. Qed.
Print Assumptions C93_facula_cover.
Example C93_nonvacuous : forall k N, exists births stars, fac_cycles 1 ex_bal births stars /\ length births = N
  /\ (forall l, In l births -> length l = k) /\ fcc_facs (st_facs ex_bal) = []
  /\ fg_rpeak (st_facgen ex_bal) = Fin 4000 /\ fg_lifepeak (st_facgen ex_bal) = Fin 6
  /\ exists ne, fg_n_expected (st_facgen ex_bal) (Fin 1) (st_radius ex_bal * RSUN_KM) = Fin ne.
Proof.
  intros k N. destruct (ex_fac_cycles k N ex_bal eq_refl eq_refl eq_refl) as [bs [ss [H [L1 L2]]]]. { cbn. lra. }
  exists bs, ss. do 6 (split; auto). destruct C34_lemma as [C34 _].
  destruct (C34 (st_facgen ex_bal) 4000 6 (st_radius ex_bal * RSUN_KM) eq_refl eq_refl) as [q [Q0 [QE _]]]; try lra.
  { apply Rmult_lt_0_compat; [cbn; lra|unfold RSUN_KM; lra]. }
  exists (q * (1/10) * 1). apply (QE (1/10) 1).
Qed.
