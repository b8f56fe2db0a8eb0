(** Model of /repo/vspec_vsm/flares.py.  Energies erg, times days, areas km^2, angles rad. *)
From Coq Require Import Reals ZArith Bool List.
From Verif Require Import Num Py MHelpers MGrid MSpots MXoflares.
Import ListNotations.
Open Scope R_scope.

(** flares.py:66-72 *)
Record flare : Type := mkFlare {
  fl_fwhm : num; fl_energy : num; fl_lat : R; fl_lon : R; fl_teff : num; fl_tpeak : R }.

(** flares.py:84: [const.sigma_sb] = 5.670374419e-8 W m^-2 K^-4 (astropy), in erg day^-1
    km^-2 K^-4 *)
Definition SIGMA_SB : R := 5670374419 / 10^17 * 10^7 * 86400 * 10^6.

(** flares.py:74-88 [calc_peak_area] *)
Definition peak_area (f : flare) : num :=
  let time_area := ndiv (ndiv (fl_energy f) (Fin SIGMA_SB)) (nipow (fl_teff f) 4) in
  let area_std := Fin 1 in
  let time_area_std := flareintegral (fl_fwhm f) area_std in
  nmul (ndiv time_area time_area_std) area_std.

(** flares.py:90-114 [areacurve] *)
Definition areacurve (f : flare) (time : list R) : res (list num) :=
  get_light_curve time [fl_tpeak f] [fl_fwhm f] [peak_area f] None 7.

(** flares.py:116-132 [get_timearea], in hr km^2 *)
Definition get_timearea (f : flare) (time : list R) : res num :=
  do areas <- areacurve f time ;;
  Ok (nmul (ntrapz (map Fin time) areas) (Fin 24)).

(** flares.py:135-237 [FlareGenerator] *)
Record flaregen : Type := mkFlareGen {
  lg_teff_mean : num; lg_teff_sigma : R;
  lg_fwhm_mean : num; lg_fwhm_is_time : bool;  (* False for the [0*u.erg] of [off] *)
  lg_fwhm_logsigma : R;
  lg_alpha : R; lg_beta : R; lg_min_energy : num;
  lg_cluster : num }.
(** flares.py:239-261 [off] *)
Definition lg_off : flaregen :=
  {| lg_teff_mean := Fin 0; lg_teff_sigma := 0; lg_fwhm_mean := Fin 0;
     lg_fwhm_is_time := false; lg_fwhm_logsigma := 0;
     lg_alpha := - (829/1000); lg_beta := 2687/100; lg_min_energy := PInf;
     lg_cluster := Fin 2 |}.

(** flares.py:263-277 [frequency_greater_than], 1/day *)
Definition frequency_gt (g : flaregen) (energy : num) : num :=
  nmul (Fin (Rpower 10 (lg_beta g))) (npow energy (lg_alpha g)).
(** flares.py:279-296 [get_nexp_greater_than] *)
Definition nexp_gt (g : flaregen) (energy time : num) : num := nmul (frequency_gt g energy) time.
(** flares.py:298-312 [get_ntotal] *)
Definition ntotal (g : flaregen) (time : num) : num := nexp_gt g (lg_min_energy g) time.

(** flares.py:314-328 [pdf]: the computed quantity, a value in erg^[snd] ... *)
Definition pdf_quantity (g : flaregen) (energy : num) : num * R :=
  (ndiv (nmul (Fin (- lg_alpha g)) (npow energy (lg_alpha g - 1)))
        (npow (lg_min_energy g) (lg_alpha g)),
   (lg_alpha g - 1) - lg_alpha g).
(** ... and flares.py:327-328: [to_value(dimensionless)] accepts it only if that exponent
    of erg is 0 *)
Definition flare_pdf (g : flaregen) (energy : num) : res num :=
  let (v, p) := pdf_quantity g energy in
  if Req_EM_T p 0 then Ok v else Raise UnitConversionError.
(** flares.py:330-344 [cdf] *)
Definition flare_cdf (g : flaregen) (energy : num) : num :=
  nsub (Fin 1) (npow (ndiv energy (lg_min_energy g)) (lg_alpha g)).
(** flares.py:346-366 [quantile_func]; [1/alpha] is a Python float division *)
Definition quantile_func (g : flaregen) (X : list R) : res (list num) :=
  if negb (forallb (fun x => Rleb 0 x) X && forallb (fun x => Rltb x 1) X)
  then Raise ValueError
  else if Reqb (lg_alpha g) 0 then Raise ZeroDivisionError
  else Ok (map (fun x => nmul (lg_min_energy g) (npow (Fin (1 - x)) (1 / lg_alpha g))) X).

(** flares.py:384: [np.cumsum] of integers *)
Fixpoint cumsum_nat (acc : nat) (l : list nat) : list nat :=
  match l with [] => [] | x :: t => (acc + x)%nat :: cumsum_nat (acc + x) t end.
(** flares.py:402: [np.cumsum] of reals *)
Fixpoint cumsum_R (acc : R) (l : list R) : list R :=
  match l with [] => [] | x :: t => (acc + x) :: cumsum_R (acc + x) t end.
(** flares.py:385: [np.sum] of integers *)
Definition nat_sum (l : list nat) : nat := fold_right Nat.add 0%nat l.

(** flares.py:382-386: the cluster sizes; [draws] are the poisson draws *)
Definition cluster_sizes (n : nat) (draws : nat -> nat) : list nat :=
  let c := filter (fun k => Nat.ltb 0 k) (map draws (seq 0 n)) in
  let c := map fst (filter (fun p => Nat.ltb (snd p) n) (combine c (cumsum_nat 0 c))) in
  let leftover := (n - nat_sum c)%nat in
  c ++ repeat 1%nat leftover.
(** flares.py:395-400; [e] are standard exponential draws, consumed in order from [i] *)
Fixpoint flare_dtimes (ct : R) (sizes : list nat) (e : nat -> R) (i : nat) : list R :=
  match sizes with
  | [] => []
  | s :: t =>
      (ct * e i) :: map (fun j => ct / INR s / 2 * e (i + 1 + j)%nat) (seq 0 (s - 1))
      ++ flare_dtimes ct t e (i + 1 + (s - 1))
  end.
(** flares.py:368-403 [get_peaks], in units of the observation time *)
Definition get_peaks (g : flaregen) (n : nat) (cdraws : nat -> nat) (e : nat -> R) : res (list R) :=
  do _ <- poisson (lg_cluster g) 0 ;;
  let sizes := cluster_sizes n cdraws in
  if negb (Nat.eqb (nat_sum sizes) n) then Raise ValueError
  else match sizes with
       | [] => Raise ZeroDivisionError                      (* 1/n_clusters *)
       | _ => Ok (cumsum_R 0 (flare_dtimes (1 / INR (length sizes)) sizes e 0))
       end.

(** flares.py:500-505: the random draws of [generate_flare_series], indexed by flare *)
Record ldraws : Type := mkLDraws {
  ld_u : nat -> R; ld_cl : nat -> nat; ld_e : nat -> R; ld_zf : nat -> R; ld_zt : nat -> R;
  ld_ulon : nat -> R; ld_x : nat -> R }.
(** flares.py:405-427 [gen_fwhm]; a negative scale is rejected by [normal] *)
Definition gen_fwhm (g : flaregen) (n : nat) (z : nat -> R) : res (list num) :=
  if negb (lg_fwhm_is_time g) then Raise UnitConversionError
  else if Rltb (lg_fwhm_logsigma g) 0 then Raise ValueError
  else Ok (map (fun i => npow10 (nadd (nlog10 (lg_fwhm_mean g)) (Fin (lg_fwhm_logsigma g * z i)))) (seq 0 n)).
(** flares.py:429-449 [gen_teffs] *)
Definition gen_teffs (g : flaregen) (n : nat) (z : nat -> R) : res (list num) :=
  if Rltb (lg_teff_sigma g) 0 then Raise ValueError
  else Ok (map (fun i => nadd (lg_teff_mean g) (Fin (lg_teff_sigma g * z i))) (seq 0 n)).

(** flares.py:451-479 [gen_coords], radians *)
Definition gen_coords (n : nat) (x ul : nat -> R) : list R * list R :=
  (map (fun i => deg2rad (num_or_0 (iso_lat (x i)))) (seq 0 n),
   map (fun i => deg2rad (rand_lon (ul i))) (seq 0 n)).

(** flares.py:507-516: [zip] of the six lists *)
Fixpoint zip_flares (fw en : list num) (la lo : list R) (te : list num) (tp : list R) : list flare :=
  match fw, en, la, lo, te, tp with
  | f :: fw', e :: en', a :: la', o :: lo', t :: te', p :: tp' =>
      mkFlare f e a o t p :: zip_flares fw' en' la' lo' te' tp'
  | _, _, _, _, _, _ => []
  end.
(** flares.py:481-517 [generate_flare_series]; [time] in days *)
Definition generate_flare_series (g : flaregen) (time : R) (pdraw : nat) (d : ldraws)
  : res (list flare) :=
  do n <- poisson (ntotal g (Fin time)) pdraw ;;
  match n with
  | O => Ok []
  | _ =>
      do energies <- quantile_func g (map (ld_u d) (seq 0 n)) ;;
      do peaks <- get_peaks g n (ld_cl d) (ld_e d) ;;
      let tpeaks := map (fun p => p * time) peaks in
      do fwhms <- gen_fwhm g n (ld_zf d) ;;
      do teffs <- gen_teffs g n (ld_zt d) ;;
      let (lats, lons) := gen_coords n (ld_x d) (ld_ulon d) in
      Ok (zip_flares fwhms energies lats lons teffs tpeaks)
  end.

(** flares.py:520-565 [FlareCollection]: the flares with their cached peaks and fwhms
    (the code caches them in hours; the comparison below is unit independent) *)
Record flarecoll : Type := mkFlareColl {
  flc_flares : list flare; flc_peaks : list R; flc_fwhms : list num }.
(** flares.py:538-565 [__init__] and [index].  A single flare is passed as a one-element
    list (flares.py:539-540) *)
Definition flc_init (l : list flare) : flarecoll :=
  mkFlareColl l (map fl_tpeak l) (map fl_fwhm l).

(** flares.py:567-589 [mask] *)
Definition flc_mask (c : flarecoll) (tstart tfinish : R) : list bool :=
  map (fun pf : R * num =>
    let (p, f) := pf in
    ngt (nadd (Fin p) (nmul (Fin 20) f)) (Fin tstart)
    && nlt (nsub (Fin p) (nmul (Fin 10) f)) (Fin tfinish))
    (combine (flc_peaks c) (flc_fwhms c)).
(** flares.py:591-613 [get_flares_in_timeperiod] *)
Definition flc_in_period (c : flarecoll) (tstart tfinish : R) : list flare :=
  map fst (filter snd (combine (flc_flares c) (flc_mask c tstart tfinish))).
(** flares.py:637-638, 675-676: [None] coordinates mean (0, 0) *)
Definition sub_obs (o : option (R * R)) : R * R := match o with Some p => p | None => (0, 0) end.
(** flares.py:615-649 [get_visible_flares_in_timeperiod] *)
Definition flc_visible (c : flarecoll) (tstart tfinish : R) (so : option (R * R)) : list flare :=
  let (lat0, lon0) := sub_obs so in
  filter (fun f => Rltb 0 (law_cos lat0 lon0 (fl_lat f) (fl_lon f)))
    (flc_in_period c tstart tfinish).
(** flares.py:681: ten minutes in days *)
Definition TEN_MIN : R := 10 / 1440.
(** flares.py:651-687 [get_flare_integral_in_timeperiod] *)
Definition flc_integral (c : flarecoll) (tstart tfinish : R) (so : option (R * R))
  : res (list (num * num)) :=
  let vis := flc_visible c tstart tfinish (Some (sub_obs so)) in
  let n := rtrunc ((tfinish - tstart) / TEN_MIN) in
  if (n <? 0)%Z then Raise ValueError
  else
    let time := linspace tstart tfinish (Z.to_nat n) in
    mapM (fun f => do ta <- get_timearea f time ;; Ok (fl_teff f, ta)) vis.
