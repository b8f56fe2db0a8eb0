(** Flares on another clock, at other places, of other energies and temperatures *)
From Coq Require Import Reals ZArith Bool List Lra Lia.
From Verif Require Import Num Py MHelpers MGrid MSpots MFaculae MXoflares MFlares MGranules MStar Spec SpecScale SpecClock
  LBase LHelpers LGrid LFlare LScale.
Import ListNotations.
Open Scope R_scope.

Lemma nipow_scale : forall c x n, 0 < c -> nipow (nscale c x) n = nscale (c^n) (nipow x n).
Proof.
  intros c x n H. induction n. { simpl. f_equal. ring. }
  cbn [nipow]. rewrite IHn, nmul_scale2; auto. apply pow_lt; auto.
Qed.
Lemma linspace_later : forall dt t0 t1 n, linspace (t0 + dt) (t1 + dt) n = map (fun t => t + dt) (linspace t0 t1 n).
Proof.
  intros. unfold linspace. rewrite map_map. apply map_ext. intros i. replace (t1 + dt - (t0 + dt)) with (t1 - t0) by ring. ring.
Qed.
Lemma trapz_later : forall dt xs ys, ntrapz (map Fin (map (fun t => t + dt) xs)) ys = ntrapz (map Fin xs) ys.
Proof.
  intros dt xs. induction xs as [|x xt IH]; intros ys; auto.
  destruct xt as [|x1 xt], ys as [|y [|y1 yt]]; auto. specialize (IH (y1 :: yt)). cbn [ntrapz map] in *. rewrite IH.
  replace (nsub (Fin (x1 + dt)) (Fin (x + dt))) with (nsub (Fin x1) (Fin x)); auto. cbn. f_equal. ring.
Qed.
Lemma model_later : forall dt t tp w a, flaremodel (t + dt) (tp + dt) w a = flaremodel t tp w a.
Proof.
  intros. unfold flaremodel. replace (t + dt - (tp + dt)) with (t - tp) by ring.
  replace (Rleb (t + dt) (tp + dt)) with (Rleb t tp) by (unfold Rleb; destruct (Rle_dec t tp), (Rle_dec (t + dt) (tp + dt)); auto; lra).
  replace (Rltb (tp + dt) (t + dt)) with (Rltb tp t) by (unfold Rltb; destruct (Rlt_dec tp t), (Rlt_dec (tp + dt) (t + dt)); auto; lra).
  reflexivity.
Qed.
Lemma peak_image : forall a c dt o o' f f', 0 < a -> 0 < c -> flare_image a c dt o o' f f' -> peak_area f' = nscale (a / c^4) (peak_area f).
Proof.
  intros a c dt o o' f f' A C (E1 & E2 & E3 & _). pose proof (pow_lt c 4 C) as C4. assert (0 < a / c^4) by (apply Rdiv_lt_0_compat; auto).
  unfold peak_area. cbv zeta. rewrite E1, E2, E3, nipow_scale, ndiv_scale_l, ndiv_scale2, ndiv_scale_l, nmul_scale_l by auto. reflexivity.
Qed.
Lemma mapM_map : forall A B C (f : B -> res C) (h : A -> B) l, mapM f (map h l) = mapM (fun x => f (h x)) l.
Proof. induction l; simpl; auto. rewrite IHl. reflexivity. Qed.
Lemma timearea_image : forall a c dt o o' f f' ts, 0 < a -> 0 < c -> flare_image a c dt o o' f f' ->
  get_timearea f' (map (fun t => t + dt) ts) = rmap (nscale (a / c^4)) (get_timearea f ts).
Proof.
  intros a c dt o o' f f' ts A C I. pose proof (pow_lt c 4 C) as C4. assert (K : 0 < a / c^4) by (apply Rdiv_lt_0_compat; auto).
  unfold get_timearea. assert (E : areacurve f' (map (fun t => t + dt) ts) = rmap (map (nscale (a / c^4))) (areacurve f ts)).
  { unfold areacurve, get_light_curve, multiflaremodel. cbn [length Nat.ltb Nat.leb orb]. rewrite (peak_image a c dt o o' f f') by auto.
    destruct I as (E1 & _ & _ & E4 & _). rewrite E1, E4, mapM_map. apply mapM_same. intros t. cbn [multiflare rmap]. f_equal.
    rewrite model_later, model_scale by auto. rewrite (scale_0 (a / c^4)) at 1. apply nadd_scale. }
  rewrite E, bind_rmap, rmap_bind. apply bind_eq. intros l. cbn [rmap].
  rewrite trapz_later, trapz_scale, nmul_scale_l by auto. reflexivity.
Qed.
Lemma win_image : forall a c dt o o' f f' t0 t1, flare_image a c dt o o' f f' -> win_b (t0 + dt) (t1 + dt) f' = win_b t0 t1 f.
Proof.
  intros a c dt o o' f f' t0 t1 (E1 & _ & _ & E4 & _). unfold win_b. rewrite E1, E4.
  assert (L : forall x y z, nlt (nadd (Fin (x + z)) y) (Fin (t1 + z)) = nlt (nadd (Fin x) y) (Fin t1)).
  { intros. destruct y; auto. cbn. unfold Rltb. destruct (Rlt_dec (x + z + r) (t1 + z)), (Rlt_dec (x + r) t1); auto; lra. }
  unfold nsub. rewrite L. f_equal. destruct (nmul (Fin 20) (fl_fwhm f)); auto. unfold ngt. cbn. unfold Rltb.
  destruct (Rlt_dec (t0 + dt) (fl_tpeak f + dt + r)), (Rlt_dec t0 (fl_tpeak f + r)); auto; lra.
Qed.
Lemma visible_image : forall a c dt o o' l l' t0 t1, Forall2 (flare_image a c dt o o') l l' ->
  Forall2 (flare_image a c dt o o') (flc_visible (flc_init l) t0 t1 (Some o)) (flc_visible (flc_init l') (t0 + dt) (t1 + dt) (Some o')).
Proof.
  intros a c dt [lat0 lon0] [lat1 lon1] l l' t0 t1 F. unfold flc_visible. cbn [sub_obs]. rewrite !in_period_eq. induction F as [|f f' l l' H F IH]; [constructor|].
  cbn [filter]. rewrite (win_image _ _ _ _ _ _ _ t0 t1 H). destruct (win_b t0 t1 f); auto. cbn [filter].
  pose proof H as (_ & _ & _ & _ & V). cbn [fst snd] in V. rewrite <- !law_cos_dot in V.
  replace (Rltb 0 (law_cos lat1 lon1 (fl_lat f') (fl_lon f'))) with (Rltb 0 (law_cos lat0 lon0 (fl_lat f) (fl_lon f)))
    by (unfold Rltb; destruct (Rlt_dec 0 (law_cos lat0 lon0 (fl_lat f) (fl_lon f))), (Rlt_dec 0 (law_cos lat1 lon1 (fl_lat f') (fl_lon f'))); tauto).
  destruct (Rltb _ _); auto.
Qed.
Lemma C127_lemma :
  forall a c dt o o' s s' l l' t0 t1, 0 < a -> 0 < c ->
  st_flares s = Some (flc_init l) -> st_flares s' = Some (flc_init l') -> Forall2 (flare_image a c dt o o') l l' ->
  star_flare_int s' (t0 + dt) (t1 + dt) (Some o')
  = rmap (map (fun e => (nscale c (fst e), nscale (a / c^4) (snd e)))) (star_flare_int s t0 t1 (Some o)).
Proof.
  intros a c dt o o' s s' l l' t0 t1 A C E E' F. unfold star_flare_int. rewrite E, E'. unfold flc_integral. cbv zeta.
  replace (t1 + dt - (t0 + dt)) with (t1 - t0) by ring. destruct (_ <? 0)%Z; auto. rewrite linspace_later.
  pose proof (visible_image a c dt o o' l l' t0 t1 F) as V.
  change (Some (sub_obs (Some o'))) with (Some o'). change (Some (sub_obs (Some o))) with (Some o).
  set (ts := linspace t0 t1 _). clearbody ts. induction V as [|f f' m m' H V IH]; auto.
  cbn [mapM]. rewrite (timearea_image a c dt o o' f f'), IH by auto. pose proof H as (_ & _ & E3 & _). rewrite E3.
  destruct (get_timearea f ts); cbn [bind rmap]; auto.
  destruct (mapM _ m); auto.
Qed.
