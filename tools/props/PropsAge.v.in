(** Properties C94-C95: spotted stars while their spots age, and mature spots *)
From Coq Require Import Reals ZArith Bool String List Lra Lia.
From Coquelicot Require Import Coquelicot.
From Verif Require Import Num Py MConfig MHelpers MGrid MSpots MFaculae MXoflares MFlares MGranules MStar
  Spec SpecStar SpecDisk SpecConv SpecFlux SpecAge LBase LGrid LSpotAge LSpotMap LSpotCov LSpotGen LFac LDisk LStar LStarCov LObserve LFlux LAge LMature
  PropsSpotGen PropsStar PropsConv PropsDepth.
Import ListNotations.
Open Scope R_scope.

(** C94: a spot of half its maximal area, growing or decaying *)
@THM C94_ageing_spots C94_lemma
Definition ex_sp6 (b : bool) : spot :=
  spot_init (spiral_lat 6 0) 0 (Fin 1000) (Fin 500) (Fin 2500) (Fin 2700) (Fin 5) b (Fin (1/2)) (-1) (Fin 10) (Spiral 6).
Example C94_nonvacuous : forall b : bool, exists s t s' A M M' C C' pf pf',
  disk_view s (ex_lat 6) 0 100 (1/10) PI (PI/2) 3300 300 A M C pf
  /\ star_age s (Fin t) = Ok s' /\ 0 < t
  /\ disk_view s' (ex_lat 6) 0 100 (1/10) PI (PI/2) 3300 300 A M' C' pf'
  /\ fcc_facs (st_facs s) = []
  /\ (forall x, In x (sc_spots (st_spots s)) -> spot_wf x /\ cool_core x /\ fits_star (st_radius s) x)
  /\ (if b then (forall x, In x (sc_spots (st_spots s)) -> still_growing t x) /\ sc_spots (st_spots s') <> []
      else (forall x, In x (sc_spots (st_spots s)) -> sp_growing x = false) /\ sc_spots (st_spots s') = [])
  /\ ld_nonneg s /\ 0 < disk s (ex_lat 6) 0 A
  /\ (forall x t, In x (sc_spots (st_spots s)) -> sp_teff_umbra x = Fin t \/ sp_teff_pen x = Fin t -> t <= 3300 - 300).
Proof.
  intros b. set (s := ex_star 6 [ex_sp6 b] [] 3300 300). pose proof PI_RGT_0 as PP.
  assert (SP : sc_spots (st_spots s) = [ex_sp6 b]) by reflexivity.
  assert (U : star_unified s) by apply ex_unified.
  assert (PRM : spot_params (ex_sp6 b) 500 1000 (1/2) 10) by (repeat split).
  assert (WF : spot_wf (ex_sp6 b)) by (exists 500, 1000, (1/2), 10; split; auto; lra).
  assert (W : forall x, In x (sc_spots (st_spots s)) -> spot_wf x) by (rewrite SP; intros x [<-|[]]; auto).
  set (t := if b then 1 else 100). assert (Ht : 0 < t) by (unfold t; destruct b; lra).
  assert (AG : exists s', star_age s (Fin t) = Ok s' /\ sc_spots (st_spots s') = aged_list [ex_sp6 b] t /\ fcc_facs (st_facs s') = []
     /\ st_grid s' = Spiral 6 /\ st_radius s' = 1 /\ st_teff s' = Fin 3300 /\ gr_dteff (st_gran s') = Fin 300 /\ st_u1 s' = 0 /\ st_u2 s' = 0).
  { unfold star_age. change (st_spots s) with (mkSpotColl [ex_sp6 b] (Spiral 6)). rewrite sc_age_eq. 2:{ intros x [<-|[]]; auto. }
    cbn [bind]. eexists. split. reflexivity. repeat split. }
  destruct AG as [s' [AG [SP' [NF' [G' [R' [T' [D' [U1' U2']]]]]]]]].
  assert (U' : star_unified s').
  { eapply C59_lemma. apply (ex_init 6 [ex_sp6 b] [] 3300 300). eapply steps_more. 2: apply steps_none. eapply step_age. exact AG. }
  assert (TM : 1 <= time_to_max 500 1000 (1/2)).
  { unfold time_to_max. replace (1000/500) with 2 by field. apply le_div. rewrite <- ln_1. apply ln_increasing; lra. rewrite Rmult_1_l. left. apply ln_increasing; lra. }
  assert (AL : if b then aged_list [ex_sp6 b] t <> [] else aged_list [ex_sp6 b] t = []).
  { unfold aged_list. cbn [map]. unfold agef, t. destruct b.
    - rewrite (spot_age_growing (ex_sp6 true) 500 1000 (1/2) 10) by (auto; lra). cbn [filter]. unfold alivef.
      destruct (Rlt_dec 1 (time_to_max 500 1000 (1/2))). rewrite with_area_growing. discriminate.
      replace (1 - time_to_max 500 1000 (1/2)) with 0 by lra. rewrite Rmult_0_l. destruct (Rlt_dec 1000 0); [lra|].
      rewrite (proj2 (with_area_alive_false _ _)) by lra. discriminate.
    - rewrite (spot_age_decay (ex_sp6 false) 500 1000 (1/2) 10) by auto. cbn [filter]. unfold alivef. destruct (Rlt_dec 1000 (100 * 10)). lra.
      rewrite (proj2 (with_area_dead _ _)) by lra. reflexivity. }
  assert (CC : cool_core (ex_sp6 b)) by (exists 2500, 2700, 5; repeat split; lra).
  assert (FT : forall x, cool_core x -> fin_temps x).
  { intros x [u [q [r [Eu [Eq _]]]]]. split; [rewrite Eu|rewrite Eq]; eexists; reflexivity. }
  destruct (C71_lemma s (ex_lat 6) 0 100 (1/10) PI (PI/2) 3300 300) as [A [M [C [pf [V [_ [DP _]]]]]]]; auto; try lra; try (simpl; lia).
  { change (st_radius s) with 1; lra. } { intros mu H; change (st_u1 s) with 0; change (st_u2 s) with 0; lra. }
  { rewrite SP. intros x [<-|[]]; auto. } { apply ex_lat_range; lia. } { rewrite cos_PI; lra. }
  destruct (C71_lemma s' (ex_lat 6) 0 100 (1/10) PI (PI/2) 3300 300) as [A' [M' [C' [pf' [V' _]]]]]; auto; try lra.
  { rewrite G'. simpl. lia. } { intros mu H. rewrite U1', U2'. lra. }
  { rewrite SP'. intros x I. unfold aged_list in I. apply filter_In in I. destruct I as [[<-|[]] _]. apply FT, cool_core_age; auto. }
  { apply ex_lat_range; lia. } { rewrite NF'. intros f []. } all: try (rewrite cos_PI; lra).
  assert (A' = A). { pose proof (dv_area _ _ _ _ _ _ _ _ _ _ _ _ _ V) as K. pose proof (dv_area _ _ _ _ _ _ _ _ _ _ _ _ _ V') as K'. rewrite G' in K'. change (st_grid s) with (Spiral 6) in K. congruence. } subst A'.
  exists s, t, s', A, M, M', C, C', (Fin pf), (Fin pf'). split; auto. split; auto. split; auto. split; auto. split; auto. split.
  { rewrite SP. intros x [<-|[]]. split; auto. split; auto. exists 1000. split. reflexivity. change (st_radius s) with 1. lra. }
  split.
  { rewrite SP, SP'. destruct b; split; auto; intros x [<-|[]].
    - split. reflexivity. intros A0 M0 g0 E1 E2 E3 _. change (Fin 500 = Fin A0) in E1. change (Fin 1000 = Fin M0) in E2. change (Fin (1/2) = Fin g0) in E3.
      injection E1 as <-. injection E2 as <-. injection E3 as <-. exact TM.
    - reflexivity. }
  split. apply PropsStar.ex_ld. split; auto.
  rewrite SP. intros x t0 [<-|[]] [E|E]; [change (Fin 2500 = Fin t0) in E|change (Fin 2700 = Fin t0) in E]; injection E as <-; lra.
Qed.

(** C95: the static generator of C28 *)
@THM C95_mature_coverage C95_lemma
Example C95_nonvacuous : exists fuel vs,
  sg_generate_mature ex_sg_static (Fin (1/10)) 1 (fun _ => (ex_draws, 1/2)) 5 fuel = Ok (map v_spot vs) /\ vs <> []
  /\ (forall v, In v vs -> view_ok 1 v /\ fin_temps (v_spot v) /\ v_radius v <= 1/10) /\ resolution (sg_grid ex_sg_static) (1/10).
Proof.
  destruct C28_nonvacuous as [fuel [l [E NE]]]. destruct C28_lemma as [_ [_ [_ [M _]]]]. destruct (M _ _ _ _ _ _ _ E) as [_ [_ ON]]. clear M.
  pose proof PI_RGT_0 as PP. pose proof PI_4 as P4.
  set (th := acos (1 - 3/10000)). assert (CT : cos th = 1 - 3/10000) by (apply cos_acos; lra). pose proof (acos_bound (1 - 3/10000)) as BT. fold th in BT.
  set (view := fun s => mkView s 300 th (th / sqrt 5) 0).
  exists fuel, (map view l). rewrite map_map. cbn [v_spot view]. rewrite map_id. split; auto. split. { intros K. apply map_eq_nil in K. auto. }
  split. 2:{ split. lra. cbn [sg_grid ex_sg_static]. replace (INR 50) with 50 by (rewrite INR_IZR_INZ; reflexivity). replace (INR 100) with 100 by (rewrite INR_IZR_INZ; reflexivity). lra. }
  intros v I. apply in_map_iff in I. destruct I as [s [<- I]]. unfold view. cbn [v_spot v_radius].
  destruct (In_nth l s s I) as [k [Hk Ek]]. destruct (ON k s Hk) as [_ [s0 [G0 [NB [ST _]]]]]. cbv zeta in ST. rewrite Ek in ST. cbn [fst snd] in *.
  destruct C25_lemma as [C1 _]. destruct (C1 _ _ _ _ _ G0) as [_ [k0 [_ [_ Hi]]]]. destruct (Hi 0%nat s0 ltac:(lia)) as [_ [RT [RP [_ AM]]]]. cbn [nth] in RT, AM.
  assert (RT5 : sp_ratio s0 = Fin 5). { rewrite RT. cbn [d_ratio ex_draws] in *. destruct (Nat.eqb k0 0); auto. lra. }
  destruct (AM 500 eq_refl ltac:(lra)) as [a [Ea [Pa La]]]. assert (Ha : a = 500). { apply ln_inv; try lra. rewrite La. cbn [sg_logsigma ex_sg_static]. lra. } subst a.
  destruct (ST 500 100 eq_refl eq_refl Ea) as [_ [_ [_ [S1 [S2 [S3 [S4 _]]]]]]]. destruct NB as [_ [_ [N1 [N2 _]]]].
  split; [|split].
  - split. cbn [v_spot v_area]. rewrite S1. f_equal. lra. split. split; cbn [v_radius v_area]; auto. rewrite CT. field. exists 5. cbn [v_spot v_umbra v_radius]. split. congruence. split; [lra|auto].
  - split; [rewrite S2, N1|rewrite S3, N2]; eexists; reflexivity.
  - destruct (Rle_dec th (1/10)) as [L|L]; auto. exfalso. apply Rnot_le_lt in L. pose proof PI2_1. destruct (cap_disc (1/10)) as [CD _]. lra.
    assert (K : cos th < cos (1/10)) by (apply cos_decreasing_1; lra). rewrite CT in K.
    assert (PI * ((1/10)^2 * (1 - (1/10)^2/12)) <= PI * (2 * (1 - cos (1/10)))) as K2 by lra. apply Rmult_le_reg_l in K2; auto. lra.
Qed.
