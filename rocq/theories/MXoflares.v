(** Model of /repo/vspec_vsm/xoflares.py.  Times in days (R); fwhm and amplitude may be
    non-finite. *)
From Coq Require Import Reals ZArith Bool List.
From Verif Require Import Num Py MGrid.
Import ListNotations.
Open Scope R_scope.

(** xoflares.py:29, 54: [_fr[0]] *)
Definition fr0 : R := 1.
(** xoflares.py:29, 54: [_fr[1]] *)
Definition fr1 : R := 194053/100000.
(** xoflares.py:29, 54: [_fr[2]] *)
Definition fr2 : R := - (175084/1000000).
(** xoflares.py:29, 54: [_fr[3]] *)
Definition fr3 : R := - (224588/100000).
(** xoflares.py:29, 54: [_fr[4]] *)
Definition fr4 : R := - (112498/100000).
(** xoflares.py:30, 55: [_fd[0]] *)
Definition fd0 : R := 689008/1000000.
(** xoflares.py:30, 55: [_fd[1]] *)
Definition fd1 : R := - (160053/100000).
(** xoflares.py:30, 55: [_fd[2]] *)
Definition fd2 : R := 302963/1000000.
(** xoflares.py:30, 55: [_fd[3]] *)
Definition fd3 : R := - (278318/1000000).

(** xoflares.py:32-40 [get_int_before] *)
Definition int_before (x : R) : R :=
  fr0 * x + fr1 * x^2 / 2 + fr2 * x^3 / 3 + fr3 * x^4 / 4 + fr4 * x^5 / 5.
(** xoflares.py:42-46 [get_int_after] *)
Definition int_after (x : R) : R :=
  fd0 / fd1 * exp (fd1 * x) + fd2 / fd3 * exp (fd3 * x).
(** xoflares.py:11-50 [_flareintegralnp] *)
Definition flareintegral (fwhm ampl : num) : num :=
  let before := int_before 0 - int_before (-1) in
  let after := int_after 20 - int_after 0 in
  nmul (nmul (Fin (before + after)) ampl) fwhm.

(** xoflares.py:62-64, flares.py:84: [x ** k] for an integral exponent *)
Fixpoint nipow (x : num) (k : nat) : num :=
  match k with O => Fin 1 | S k' => nmul x (nipow x k') end.

(** xoflares.py:52-78 [_flaremodelnp], at one time *)
Definition flaremodel (time tpeak : R) (fwhm ampl : num) : num :=
  let u := ndiv (Fin (time - tpeak)) fwhm in
  let lc := Fin 0 in
  let lc :=
    if Rleb time tpeak && ngt u (Fin (-1)) then
      nmul (nadd (nadd (nadd (nadd (Fin fr0) (nmul (Fin fr1) u))
                             (nmul (Fin fr2) (nipow u 2)))
                       (nmul (Fin fr3) (nipow u 3)))
                 (nmul (Fin fr4) (nipow u 4))) ampl
    else lc in
  if Rltb tpeak time && nlt u (Fin 20) then
    nmul (nadd (nmul (Fin fd0) (nexp (nmul u (Fin fd1))))
               (nmul (Fin fd2) (nexp (nmul u (Fin fd3))))) ampl
  else lc.

(** xoflares.py:81-91 [multiflaremodelnp] at one time; [range(npeaks)] indexes all three
    lists by the number of peaks: a shorter [fwhms] or [ampls] raises IndexError *)
Fixpoint multiflare (time : R) (tpeaks : list R) (fwhms ampls : list num) (acc : num) : res num :=
  match tpeaks with
  | [] => Ok acc
  | tp :: tps =>
      match fwhms, ampls with
      | f :: fs, a :: as_ => multiflare time tps fs as_ (nadd acc (flaremodel time tp f a))
      | _, _ => Raise IndexError
      end
  end.
(** xoflares.py:81-91, the whole array: the lists are indexed once per peak before the
    times are looked at, so a too short list raises even for an empty [time] array *)
Definition multiflaremodel (time : list R) (tpeaks : list R) (fwhms ampls : list num)
  : res (list num) :=
  if Nat.ltb (length fwhms) (length tpeaks) || Nat.ltb (length ampls) (length tpeaks)
  then Raise IndexError
  else mapM (fun t => multiflare t tpeaks fwhms ampls (Fin 0)) time.

(** xoflares.py:143: [a.reshape(-1, k)] then [np.mean(axis=1)] *)
Fixpoint chunk_means (fuel k : nat) (l : list num) : list num :=
  match fuel, l with
  | S f, _ :: _ => ndiv (nsum (firstn k l)) (Fin (INR k)) :: chunk_means f k (skipn k l)
  | _, _ => []
  end.
(** xoflares.py:94-145 [get_light_curvenp]; [oversample] a natural number *)
Definition get_light_curve (time : list R) (tpeaks : list R) (fwhms ampls : list num)
  (texp : option R) (oversample : nat) : res (list num) :=
  match texp with
  | None => multiflaremodel time tpeaks fwhms ampls
  | Some te =>
      let os := (oversample + 1 - oversample mod 2)%nat in
      let dt := linspace (- te / 2) (te / 2) os in
      let tgrid := flat_map (fun t => map (fun d => d + t) dt) time in
      do lc <- multiflaremodel tgrid tpeaks fwhms ampls ;;
      Ok (chunk_means (length lc) os lc)
  end.
