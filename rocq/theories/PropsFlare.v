(** Properties C37-C46: flares *)
From Coq Require Import Reals ZArith Bool List Lra Lia Permutation.
From Coquelicot Require Import Coquelicot.
From Verif Require Import Num Py MConfig MHelpers MGrid MSpots MFaculae MXoflares MFlares MGranules MStar Spec SpecStar SpecFlare SpecReach LBase LGrid LHelpers LCirc LSpotAge LSpotMap LSpotCov LSpotGen LFac LFlare LFlareGen LFlareAcc.
Import ListNotations.
Open Scope R_scope.

(** an 1e34 erg flare of a quarter of a day at 9000 K, peaking at t = 1 d *)
Definition ex_flare : flare :=
  {| fl_fwhm := Fin (1/4); fl_energy := Fin (10^34); fl_lat := 1/3; fl_lon := 1/2; fl_teff := Fin 9000; fl_tpeak := 1 |}.
Definition ex_flare2 : flare :=
  {| fl_fwhm := Fin (1/4); fl_energy := Fin (10^34); fl_lat := 1/3; fl_lon := 1/2; fl_teff := Fin 9000; fl_tpeak := 11 |}.
Example ex_flare_is : flare_is ex_flare (1/4) (10^34) 9000.
Proof. repeat split. Qed.
Example ex_flare_pos : 0 < 1/4 /\ 0 < 9000 /\ 0 < 10^34.
Proof. repeat split; try lra. Qed.

(** C37 *)
Theorem C37_energy :
  forall f w E T, flare_is f w E T -> 0 < w -> 0 < T ->
  exists c, area_of f c /\
    forall a b, a <= fl_tpeak f - w -> fl_tpeak f + 20 * w <= b ->
      exists I, is_RInt c a b I /\ STEFAN * T^4 * I = E.
Proof. exact C37_lemma. Qed.
Print Assumptions C37_energy.
Theorem C37_integral :
  forall tp w a, 0 < w ->
  exists c, (forall t, flaremodel t tp (Fin w) (Fin a) = Fin (c t)) /\
    forall lo hi, lo <= tp - w -> tp + 20 * w <= hi ->
      exists I, is_RInt c lo hi I /\ flareintegral (Fin w) (Fin a) = Fin I.
Proof. exact C37_int_lemma. Qed.
Print Assumptions C37_integral.
Example C37_nonvacuous : flare_is ex_flare (1/4) (10^34) 9000 /\ 0 < 1/4 /\ 0 < 9000 /\ -10 <= fl_tpeak ex_flare - 1/4 /\ fl_tpeak ex_flare + 20 * (1/4) <= 10.
Proof. split. apply ex_flare_is. cbn; lra. Qed.

(** C38 *)
Theorem C38_light_curve_shape :
  forall f w E T, flare_is f w E T -> 0 < w -> 0 < T -> 0 < E ->
  exists c A, area_of f c /\ peak_area f = Fin A /\ 0 < A /\
    (forall t, t <= fl_tpeak f - w \/ fl_tpeak f + 20 * w <= t -> c t = 0) /\
    (forall t, fl_tpeak f - w < t < fl_tpeak f + 20 * w -> 0 < c t) /\
    c (fl_tpeak f) = A /\ (forall t, t <> fl_tpeak f -> c t < A) /\
    (forall t, fl_tpeak f < t -> c t <= 991971/1000000 * A).
Proof. exact C38_lemma. Qed.
Print Assumptions C38_light_curve_shape.
Example C38_nonvacuous : flare_is ex_flare (1/4) (10^34) 9000 /\ 0 < 1/4 /\ 0 < 9000 /\ 0 < 10^34.
Proof. split. apply ex_flare_is. apply ex_flare_pos. Qed.

(** C39: of two flares, the window [0, 2] keeps the first and drops the second *)
Theorem C39_window :
  forall l t0 t1,
  (forall f, In f l -> exists w E T, flare_is f w E T /\ 0 < w /\ 0 < T) ->
  keeps (in_window t0 t1) l (flc_in_period (flc_init l) t0 t1) /\
  (forall f ts, In f l -> ~ In f (flc_in_period (flc_init l) t0 t1) ->
     (forall t, In t ts -> t0 <= t <= t1) ->
     areacurve f ts = Ok (map (fun _ => Fin 0) ts)).
Proof. exact C39_lemma. Qed.
Print Assumptions C39_window.
Example C39_nonvacuous : (forall f, In f [ex_flare; ex_flare2] -> exists w E T, flare_is f w E T /\ 0 < w /\ 0 < T)
  /\ in_window 0 2 ex_flare /\ ~ in_window 0 2 ex_flare2.
Proof.
  split. intros f [<-|[<-|[]]]; exists (1/4), (10^34), 9000; repeat split; lra.
  split. exists (1/4). cbn; repeat split; lra. intros [w [E [A B]]]. cbn in E, A, B. assert (w = 1/4) by congruence. lra.
Qed.

(** C40 *)
Theorem C40_visible :
  forall l t0 t1 lat0 lon0,
  keeps (faces lat0 lon0) (flc_in_period (flc_init l) t0 t1)
        (flc_visible (flc_init l) t0 t1 (Some (lat0, lon0))) /\
  flc_visible (flc_init l) t0 t1 None = flc_visible (flc_init l) t0 t1 (Some (0, 0)) /\
  (forall f, In f (flc_visible (flc_init l) t0 t1 (Some (lat0, lon0))) ->
     ~ In f (flc_visible (flc_init l) t0 t1 (Some (- lat0, lon0 + PI)))).
Proof. exact C40_lemma. Qed.
Print Assumptions C40_visible.
Example C40_nonvacuous : exists c, is_angle (1/3) (1/2) (fl_lat ex_flare) (fl_lon ex_flare) c /\ c < PI / 2.
Proof.
  exists 0. pose proof PI_RGT_0. split; [|lra]. split; [lra|]. cbn [ex_flare fl_lat fl_lon]. unfold cos_sep. rewrite cos_0, vec_norm. auto.
Qed.

Definition ex_lg : flaregen :=
  {| lg_teff_mean := Fin 9000; lg_teff_sigma := 500; lg_fwhm_mean := Fin (1/8); lg_fwhm_is_time := true;
     lg_fwhm_logsigma := 3/10; lg_alpha := - (829/1000); lg_beta := 2687/100; lg_min_energy := Fin (10^33);
     lg_cluster := Fin 2 |}.
Definition ex_ld : ldraws :=
  {| ld_u := fun i => 1/2; ld_cl := fun i => (i mod 4)%nat; ld_e := fun i => 1/3; ld_zf := fun i => -1; ld_zt := fun i => 1;
     ld_ulon := fun i => 1/3; ld_x := fun i => 1/4 |}.
Example ex_lg_ok : flaregen_ok ex_lg (10^33).
Proof.
  repeat split; cbn; try lra. exists 2; split; auto; lra. exists (1/8); split; auto; lra. exists 9000; auto.
Qed.
Example ex_ld_ok : draws_ok ex_ld.
Proof. unfold draws_ok. split; [|split; [|split]]; intros; cbn; lra. Qed.

(** C41 *)
Theorem C41_peaks :
  forall g n cl e c, (1 <= n)%nat -> lg_cluster g = Fin c -> 0 <= c -> (forall i, 0 <= e i) ->
  exists sizes l, get_peaks g n cl e = Ok l /\ length l = n /\
    clusters_of n cl sizes /\ list_sum sizes = n /\ (forall s, In s sizes -> (1 <= s)%nat) /\ peaks_of sizes e l /\
    (forall i, (i < n)%nat -> 0 <= nth i l 0) /\
    (forall i, (S i < n)%nat -> nth i l 0 <= nth (S i) l 0).
Proof. exact C41_lemma. Qed.
Print Assumptions C41_peaks.
Theorem C41_unbounded :
  forall g n B c, (1 <= n)%nat -> lg_cluster g = Fin c -> 0 <= c ->
  exists cl e l, (forall i, 0 <= e i) /\ get_peaks g n cl e = Ok l /\ forall t, In t l -> B < t.
Proof. exact C41_unbounded_lemma. Qed.
Print Assumptions C41_unbounded.
Example C41_nonvacuous : lg_cluster ex_lg = Fin 2 /\ (forall i, 0 <= ld_e ex_ld i) /\ clusters_of 6 (ld_cl ex_ld) [1; 2; 1; 1; 1]%nat.
Proof.
  split; auto. split. intros; cbn; lra. exists 2%nat. cbn. repeat split; lia.
Qed.

(** C42 *)
Theorem C42_quantile :
  forall g em, lg_min_energy g = Fin em -> 0 < em -> lg_alpha g < 0 ->
  exists q,
    (forall xs, (forall x, In x xs -> 0 <= x < 1) -> quantile_func g xs = Ok (map (fun x => Fin (q x)) xs)) /\
    (forall x, 0 <= x < 1 -> em <= q x) /\
    (forall x y, 0 <= x -> x < y -> y < 1 -> q x < q y) /\
    (forall x, 0 <= x < 1 -> flare_cdf g (Fin (q x)) = Fin x) /\
    (forall E, em <= E -> exists x, 0 <= x < 1 /\ flare_cdf g (Fin E) = Fin x /\ q x = E) /\
    (forall xs x, In x xs -> x < 0 \/ 1 <= x -> quantile_func g xs = Raise ValueError).
Proof. exact C42_quantile_lemma. Qed.
Print Assumptions C42_quantile.
Theorem C42_frequency :
  forall g em, lg_min_energy g = Fin em -> 0 < em -> lg_alpha g < 0 ->
  exists fr, (forall E, 0 < E -> frequency_gt g (Fin E) = Fin (fr E)) /\
    (forall E, 0 < E -> 0 < fr E) /\
    (forall E E', 0 < E -> E < E' -> fr E' < fr E) /\
    (forall E, 0 < E -> exists c, flare_cdf g (Fin E) = Fin c /\ fr E / fr em = 1 - c).
Proof. exact C42_frequency_lemma. Qed.
Print Assumptions C42_frequency.
Example C42_nonvacuous : lg_min_energy ex_lg = Fin (10^33) /\ 0 < 10^33 /\ lg_alpha ex_lg < 0.
Proof. split; auto. split. apply pow_lt; lra. cbn; lra. Qed.

(** C43 *)
Theorem C43_pdf_value :
  forall g em E, lg_min_energy g = Fin em -> 0 < em -> 0 < E ->
  exists c p, (forall x, 0 < x -> flare_cdf g (Fin x) = Fin (c x)) /\ is_derive c E p /\
    fst (pdf_quantity g (Fin E)) = Fin p.
Proof. exact C43_lemma. Qed.
Print Assumptions C43_pdf_value.
Theorem C43_pdf_raises :
  forall g E, flare_pdf g E = Raise UnitConversionError.
Proof. exact C43_raises_lemma. Qed.
Print Assumptions C43_pdf_raises.
Example C43_nonvacuous : lg_min_energy ex_lg = Fin (10^33) /\ 0 < 10^33 /\ 0 < 10^34.
Proof. split; auto. split; apply pow_lt; lra. Qed.

(** C44 *)
Theorem C44_series :
  forall g em time pdraw d, flaregen_ok g em -> draws_ok d -> 0 < time ->
  exists l, generate_flare_series g time pdraw d = Ok l /\ length l = pdraw /\
    (forall f, In f l -> exists E w T, flare_is f w E T /\ em <= E /\ 0 < w /\ 0 <= fl_tpeak f) /\
    (* the i-th flare is made from the i-th draws *)
    (pdraw <> 0%nat -> exists peaks, get_peaks g pdraw (ld_cl d) (ld_e d) = Ok peaks /\
       forall i x, (i < pdraw)%nat -> let f := nth i l x in
         fl_tpeak f = nth i peaks 0 * time
         /\ area_uniform (ld_x d i) (ld_ulon d i) (fl_lat f) (fl_lon f)
         /\ exists E w T wm Tm, flare_is f w E T /\ lg_fwhm_mean g = Fin wm /\ lg_teff_mean g = Fin Tm
            /\ flare_cdf g (Fin E) = Fin (ld_u d i)
            /\ ln w / ln 10 = ln wm / ln 10 + lg_fwhm_logsigma g * ld_zf d i
            /\ T = Tm + lg_teff_sigma g * ld_zt d i) /\
    (forall i x, (S i < length l)%nat -> fl_tpeak (nth i l x) <= fl_tpeak (nth (S i) l x)).
Proof. exact C44_lemma. Qed.
Print Assumptions C44_series.
Theorem C44_off :
  forall time pdraw d, generate_flare_series lg_off time pdraw d = Ok [].
Proof. exact C44_off_lemma. Qed.
Print Assumptions C44_off.
Theorem C44_star :
  forall teff radius period spots facs gp flg spg fcg gran u1 u2 s s',
  star_init teff radius period spots facs gp flg spg fcg gran u1 u2 = Ok s -> star_ops s s' ->
  (forall t0 t1 so, star_flare_int s' t0 t1 so = Raise AttributeError) /\
  (forall time pdraw d s'' t0 t1 so, star_get_flares s' time pdraw d = Ok s'' ->
     exists l, generate_flare_series (st_flaregen s') time pdraw d = Ok l /\
       star_flare_int s'' t0 t1 so = flc_integral (flc_init l) t0 t1 so).
Proof. exact C44_star_lemma. Qed.
Print Assumptions C44_star.
Example C44_nonvacuous : flaregen_ok ex_lg (10^33) /\ draws_ok ex_ld.
Proof. split. apply ex_lg_ok. apply ex_ld_ok. Qed.
Example C44_star_nonvacuous : exists s s', star_init (Fin 3300) (1/10) 10 (mkSpotColl [] (Spiral 50)) (mkFacColl [] (Spiral 50))
   (PyInt 100) (Some ex_lg) None None None 0 0 = Ok s /\ star_ops s s' /\
   exists s'', star_get_flares s' 10 3 ex_ld = Ok s''.
Proof.
  eexists; eexists. split; [reflexivity|]. split. eapply ops_more; [eapply op_add_spot|]. apply ops_none.
  destruct (C44_lemma ex_lg (10^33) 10 3 ex_ld ex_lg_ok ex_ld_ok ltac:(lra)) as [l [E _]].
  exists (star_with_flares (star_add_spot
   {| st_teff := Fin 3300; st_radius := 1/10; st_period := 10; st_spots := set_spot_grid (sc_set_gridmaker (mkSpotColl [] (Spiral 50)) (Spiral 100)) (Spiral 100);
      st_facs := set_fac_grid (fcc_set_gridmaker (mkFacColl [] (Spiral 50)) (Spiral 100)) (Spiral 100); st_grid := Spiral 100;
      st_flaregen := ex_lg; st_flares := None; st_spotgen := sg_off (Spiral 100); st_facgen := fg_off (Spiral 100);
      st_gran := gran_off; st_u1 := 0; st_u2 := 0 |} []) (flc_init l)).
  unfold star_get_flares. cbn [st_flaregen star_add_spot star_with_spots]. rewrite E. reflexivity.
Qed.

(** C45 *)
Theorem C45_time_area :
  forall l t0 t1 so, t0 <= t1 ->
  (forall f, In f l -> exists w E T, flare_is f w E T /\ 0 < w /\ 0 < T /\ 0 <= E) ->
  exists r N, flc_integral (flc_init l) t0 t1 so = Ok r /\
    INR N <= (t1 - t0) / (10 / 1440) < INR N + 1 /\
    Forall2 (fun f p => fst p = fl_teff f /\
       exists c xs v, area_of f c /\ length xs = N /\
         (forall i, (i < N)%nat -> nth i xs 0 = t0 + INR i * ((t1 - t0) / INR (N - 1))) /\
         snd p = Fin v /\ v = 24 * trapezoid c xs /\ 0 <= v /\
         (t1 - t0 < 20 / 1440 -> v = 0))
      (flc_visible (flc_init l) t0 t1 so) r.
Proof. exact C45_lemma. Qed.
Print Assumptions C45_time_area.
Theorem C45_reversed :
  forall l t0 t1 so, t1 <= t0 - 10 / 1440 ->
  flc_integral (flc_init l) t0 t1 so = Raise ValueError.
Proof. exact C45_neg_lemma. Qed.
Print Assumptions C45_reversed.
Example C45_nonvacuous : (forall f, In f [ex_flare; ex_flare2] -> exists w E T, flare_is f w E T /\ 0 < w /\ 0 < T /\ 0 <= E)
  /\ flc_visible (flc_init [ex_flare; ex_flare2]) 0 2 (Some (1/3, 1/2)) = [ex_flare].
Proof.
  split. intros f [<-|[<-|[]]]; exists (1/4), (10^34), 9000; repeat split; lra.
  unfold flc_visible, sub_obs. rewrite in_period_eq. cbn [filter].
  assert (win_b 0 2 ex_flare = true) as ->. { apply (win_b_spec 0 2 ex_flare (1/4)); auto. exists (1/4). cbn; repeat split; lra. }
  assert (win_b 0 2 ex_flare2 = false) as ->. { apply not_true_is_false. intros K. apply (win_b_spec 0 2 ex_flare2 (1/4)) in K; auto.
    destruct K as [w [E [A B]]]. cbn in E, A, B. assert (w = 1/4) by congruence. lra. }
  cbn [filter]. rewrite law_cos_dot. unfold cos_sep. cbn [ex_flare fl_lat fl_lon]. rewrite vec_norm.
  unfold Rltb. destruct (Rlt_dec 0 1); auto; lra.
Qed.

(** C46 *)
Theorem C46_sum :
  forall k, exists curve : R * num * num -> R -> num,
  (forall tp fw am ts, get_light_curve ts [tp] [fw] [am] None k = Ok (map (curve (tp, fw, am)) ts)) /\
  (forall l ts, get_light_curve ts (map (fun x => fst (fst x)) l) (map (fun x => snd (fst x)) l) (map snd l) None k
     = Ok (map (fun t => nsum (map (fun x => curve x t) l)) ts)).
Proof. exact C46_sum_lemma. Qed.
Print Assumptions C46_sum.
Theorem C46_concat :
  forall l1 l2 ts k,
  let lc l := get_light_curve ts (map (fun x : R * num * num => fst (fst x)) l)
                (map (fun x => snd (fst x)) l) (map snd l) None k in
  exists v1 v2, lc l1 = Ok v1 /\ lc l2 = Ok v2 /\ length v1 = length ts /\ length v2 = length ts /\
    lc (l1 ++ l2) = Ok (map (fun p => nadd (fst p) (snd p)) (combine v1 v2)) /\
    lc (l2 ++ l1) = lc (l1 ++ l2).
Proof. exact C46_concat_lemma. Qed.
Print Assumptions C46_concat.
Theorem C46_order :
  forall l l' ts texp k, Permutation l l' ->
  get_light_curve ts (map (fun x : R * num * num => fst (fst x)) l) (map (fun x => snd (fst x)) l) (map snd l) texp k
  = get_light_curve ts (map (fun x => fst (fst x)) l') (map (fun x => snd (fst x)) l') (map snd l') texp k.
Proof. exact C46_perm_lemma. Qed.
Print Assumptions C46_order.
Theorem C46_texp :
  forall l ts te k,
  let tps := map (fun x : R * num * num => fst (fst x)) l in
  let fws := map (fun x => snd (fst x)) l in
  let ams := map snd l in
  exists r os, get_light_curve ts tps fws ams (Some te) k = Ok r /\ length r = length ts /\
    Nat.odd os = true /\ (k <= os <= k + 1)%nat /\
    forall i, (i < length ts)%nat ->
      exists samples vs, length samples = os /\
        (forall j, (j < os)%nat -> nth j samples 0 = nth i ts 0 - te / 2 + INR j * (te / INR (os - 1))) /\
        get_light_curve samples tps fws ams None k = Ok vs /\
        nth i r NaN = ndiv (nsum vs) (Fin (INR os)).
Proof. exact C46_texp_lemma. Qed.
Print Assumptions C46_texp.
Theorem C46_index :
  forall ts tps fws ams texp k,
  (length fws < length tps)%nat \/ (length ams < length tps)%nat ->
  get_light_curve ts tps fws ams texp k = Raise IndexError.
Proof. exact C46_index_lemma. Qed.
Print Assumptions C46_index.
Example C46_nonvacuous : Permutation [(1, Fin 1, Fin 2); (2, Fin 1, NaN)] [(2, Fin 1, NaN); (1, Fin 1, Fin 2)]
  /\ (length [Fin 1] < length [1; 2])%nat.
Proof. split. constructor. simpl; lia. Qed.

(** C64 *)
Theorem C64_expected :
  forall g em, lg_min_energy g = Fin em -> 0 < em ->
  exists fr, (forall E, 0 < E -> frequency_gt g (Fin E) = Fin (fr E) /\ 0 < fr E
                /\ ln (fr E) / ln 10 = lg_beta g + lg_alpha g * (ln E / ln 10))
  /\ (forall E t, 0 < E -> nexp_gt g (Fin E) (Fin t) = Fin (fr E * t))
  /\ (forall t, ntotal g (Fin t) = Fin (fr em * t))
  (* what is expected above an energy is the total times the probability of exceeding it *)
  /\ (forall E t, 0 < E -> exists c, flare_cdf g (Fin E) = Fin c
        /\ nexp_gt g (Fin E) (Fin t) = Fin (fr em * t * (1 - c)))
  (* and no flares are ever drawn in no time *)
  /\ (forall pdraw d, generate_flare_series g 0 pdraw d = Ok []).
Proof. exact C64_lemma. Qed.
Print Assumptions C64_expected.
Example C64_nonvacuous : lg_min_energy ex_lg = Fin (10^33) /\ 0 < 10^33.
Proof. split; auto. apply pow_lt; lra. Qed.

(** C65 *)
Theorem C65_accuracy :
  forall l t0 t1 so, t0 + 20 / 1440 <= t1 ->
  (forall f, In f l -> exists w E T, flare_is f w E T /\ 0 < w /\ 0 < T /\ 0 <= E) ->
  exists r h, flc_integral (flc_init l) t0 t1 so = Ok r /\ 0 < h <= 30 / 1440 /\
    (exists n, (1 <= n)%nat /\ h = (t1 - t0) / INR n /\ (INR n + 1) * (10 / 1440) <= t1 - t0 < (INR n + 2) * (10 / 1440)) /\
    Forall2 (fun f p => exists c A v I, area_of f c /\ peak_area f = Fin A /\ snd p = Fin v /\
       is_RInt c t0 t1 I /\ Rabs (v - 24 * I) <= 24 * h * A /\
       (forall w E T, flare_is f w E T -> t0 <= fl_tpeak f - w -> fl_tpeak f + 20 * w <= t1 ->
          Rabs (v - 24 * (E / (STEFAN * T^4))) <= 24 * h * A))
      (flc_visible (flc_init l) t0 t1 so) r.
Proof. exact C65_lemma. Qed.
Print Assumptions C65_accuracy.
(** [ex_flare] over two days: visible, and the window covers it up to its tail *)
Example C65_nonvacuous : 0 + 20 / 1440 <= 8
  /\ (forall f, In f [ex_flare; ex_flare2] -> exists w E T, flare_is f w E T /\ 0 < w /\ 0 < T /\ 0 <= E)
  /\ 0 <= fl_tpeak ex_flare - 1/4 /\ fl_tpeak ex_flare + 20 * (1/4) <= 8.
Proof.
  split; [lra|split]. intros f [<-|[<-|[]]]; exists (1/4), (10^34), 9000; repeat split; lra. cbn. lra.
Qed.
