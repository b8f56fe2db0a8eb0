(** Random number generators as objects with a state (numpy.random.Generator): which
    generator object each part of the code uses, in which order it draws, and what an
    exception leaves behind.  Also the seeds of granules.py.
    The other model files take the values drawn as arguments; here they come from streams.
    SIMPLIFICATION: what numpy computes from its state is an argument ([numpy]); drawing an
    array of size [n] is drawing [n] times.  Stars, collections and spots are values here
    (sharing of these is the subject of MHeap.v), only the generators' streams are shared. *)
From Coq Require Import Reals ZArith Bool String List.
From Verif Require Import Num Py MConfig MGrid MHelpers MSpots MFaculae MFlares MGranules MStar.
Import ListNotations.
Open Scope R_scope.

(** numpy.random.Generator as used in spots.py:702-708, 734-738, 801, 834-837,
    faculae.py:676-701, 748 and flares.py:382-400, 421-449, 476-501: each method returns a
    value and the next state *)
Record numpy (St : Type) : Type := mkNumpy {
  np_random : St -> R * St;            (* random() *)
  np_normal : St -> R * St;            (* normal(0, 1) *)
  np_exponential : St -> R * St;       (* exponential(1) *)
  np_poisson : R -> St -> nat * St;    (* poisson(lam), lam > 0 *)
  np_sign : St -> bool * St            (* choice([-1, 1]), [true] for 1 *)
}.
Arguments np_random {St}. Arguments np_normal {St}. Arguments np_exponential {St}.
Arguments np_poisson {St}. Arguments np_sign {St}.

(** a computation that draws from a stream, in the sense of spots.py:597
    [self.rng = rng]; an exception keeps the state reached *)
Definition stream (St A : Type) : Type := St -> res A * St.
(** spots.py:597: no draw *)
Definition sret {St A} (a : A) : stream St A := fun s => (Ok a, s).
(** spots.py:597: [raise], or a result of a computation without draws *)
Definition slift {St A} (r : res A) : stream St A := fun s => (r, s).
(** spots.py:597: one after the other; an exception ends the computation *)
Definition sbind {St A B} (m : stream St A) (k : A -> stream St B) : stream St B :=
  fun s => match m s with
           | (Ok a, s') => k a s'
           | (Raise e, s') => (Raise e, s')
           end.
Notation "'draw' x <- m ;; k" := (sbind m (fun x => k)) (at level 200, x pattern, m at level 100, k at level 200).

(** spots.py:704 [size=n]: [n] draws one after the other *)
Fixpoint takes {St A} (f : St -> A * St) (n : nat) (s : St) : list A * St :=
  match n with
  | O => ([], s)
  | S m => let (a, s) := f s in let (l, s) := takes f m s in (a :: l, s)
  end.
(** spots.py:704, as a computation *)
Definition sample {St A} (f : St -> A * St) (n : nat) : stream St (list A) :=
  fun s => let (l, s) := takes f n s in (Ok l, s).
(** spots.py:801, faculae.py:748, flares.py:497: the rate is checked first, and at rate 0
    nothing is drawn *)
Definition s_poisson {St} (np : numpy St) (lam : num) : stream St nat :=
  fun s => match poisson lam 1 with
           | Ok (S _) => let (k, s) := np_poisson np (num_or_0 lam) s in (Ok k, s)
           | Ok O => (Ok O, s)
           | Raise e => (Raise e, s)
           end.
(** flares.py:382: [size=n] draws at one rate *)
Definition s_poissons {St} (np : numpy St) (lam : num) (n : nat) : stream St (list nat) :=
  fun s => match poisson lam 1 with
           | Ok (S _) => sample (np_poisson np (num_or_0 lam)) n s
           | Ok O => (Ok (repeat O n), s)
           | Raise e => (Raise e, s)
           end.
(** draws as a function of the index, for the definitions of MSpots.v, MFaculae.v and
    MFlares.v (spots.py:746 [lat[i]]) *)
Definition at_index {A} (dflt : A) (l : list A) : nat -> A := fun i => nth i l dflt.

(** *** Spots *)

(** spots.py:736-738; [fuel] bounds the rounds *)
Fixpoint s_ratios {St} (np : numpy St) (n fuel : nat) (s : St) : res (list R) * St :=
  let (z, s) := takes (np_normal np) n s in
  let ratios := map (fun x => 5 + x) z in
  if existsb (fun r => Rleb r 0) ratios
  then match fuel with
       | O => (Raise OutOfDraws, s)
       | S f => s_ratios np n f s
       end
  else (Ok ratios, s).
(** spots.py:700-713 [get_coordinates]: the draws, in the order of the code *)
Definition s_spot_coords {St} (np : numpy St) (g : spotgen) (n : nat)
  : stream St (list R * list R * list bool * list R) :=
  match sg_dist g with
  | Solar =>
      draw hemi <- sample (np_sign np) n ;;
      draw z <- sample (np_normal np) n ;;
      draw ulon <- sample (np_random np) n ;;
      sret (ulon, repeat 0 n, hemi, z)
  | Iso =>
      draw ulon <- sample (np_random np) n ;;
      draw x <- sample (np_random np) n ;;
      sret (ulon, x, repeat true n, repeat 0 n)
  | UnknownDist => slift (Raise ValueError)
  end.
(** spots.py:734: [lognormal] checks its sigma before it draws *)
Definition s_areas {St} (np : numpy St) (g : spotgen) (n : nat) : stream St (list R) :=
  if Rltb (sg_logsigma g) 0 then slift (Raise ValueError) else sample (np_normal np) n.
(** spots.py:715-757 [generate_spots] *)
Definition s_generate_spots {St} (np : numpy St) (g : spotgen) (n fuel : nat) : stream St (list spot) :=
  draw z <- s_areas np g n ;;
  draw ratios <- s_ratios np n fuel ;;
  draw (ulon, x, hemi, zlat) <- s_spot_coords np g n ;;
  slift (sg_generate g n
    (mkSDraws (at_index 0 z) (fun _ => at_index 0 ratios) (at_index 0 ulon) (at_index 0 x)
              (at_index true hemi) (at_index 0 zlat)) 0).
(** spots.py:781-803 [birth_spots] *)
Definition s_birth_spots {St} (np : numpy St) (g : spotgen) (time : num) (rad_star : R) (fuel : nat)
  : stream St (list spot) :=
  draw ne <- slift (sg_n_expected g time rad_star) ;;
  draw n <- s_poisson np ne ;;
  s_generate_spots np g n fuel.
(** spots.py:830-839: one iteration of the loop of [generate_mature_spots] *)
Definition s_mature_one {St} (np : numpy St) (g : spotgen) (fuel : nat) : stream St spot :=
  draw l <- s_generate_spots np g 1 fuel ;;
  draw u <- sample (np_random np) 1 ;;
  match l with
  | [s] =>
      if sg_is_static g then
        sret (spot_with_area s (nadd (nmul (Fin (nth 0 u 0)) (nsub (sp_area_max s) (sg_init g))) (sg_init g))
                (sp_growing s))
      else
        draw life <- slift (sg_mean_lifetime g) ;;
        slift (spot_age s (nmul (Fin (nth 0 u 0)) life))
  | _ => slift (Raise IndexError)
  end.
(** spots.py:829-841, the while loop *)
Fixpoint s_mature_loop {St} (np : numpy St) (g : spotgen) (r_star : R) (target : num)
  (rfuel fuel : nat) (omega : num) : stream St (list spot) :=
  if nlt omega target then
    match fuel with
    | O => slift (Raise OutOfDraws)
    | S f =>
        draw s <- s_mature_one np g rfuel ;;
        draw rest <- s_mature_loop np g r_star target rfuel f (nadd omega (spot_solid_angle s r_star)) ;;
        sret (s :: rest)
    end
  else sret [].
(** spots.py:805-842 [generate_mature_spots] *)
Definition s_generate_mature {St} (np : numpy St) (g : spotgen) (coverage : num) (r_star : R)
  (rfuel fuel : nat) : stream St (list spot) :=
  if ngt coverage (Fin 1) || nlt coverage (Fin 0) then slift (Raise ValueError)
  else s_mature_loop np g r_star (nmul (nmul (Fin (4 * PI)) coverage) (Fin ((180/PI)^2)))
         rfuel fuel (Fin 0).

(** *** Faculae *)

(** faculae.py:687-726 [generate_faculae] with 676-678 [get_coords] *)
Definition s_generate_faculae {St} (np : numpy St) (g : facgen) (n : nat) : stream St (list facula) :=
  draw z <- sample (np_normal np) n ;;
  draw x <- sample (np_random np) n ;;
  draw ulon <- sample (np_random np) n ;;
  sret (fg_generate g n (mkFDraws (at_index 0 z) (at_index 0 x) (at_index 0 ulon))).
(** faculae.py:728-749 [birth_faculae] *)
Definition s_birth_faculae {St} (np : numpy St) (g : facgen) (time : num) (rad_star_km : R)
  : stream St (list facula) :=
  draw n <- s_poisson np (fg_n_expected g time rad_star_km) ;;
  s_generate_faculae np g n.

(** *** Flares *)

(** flares.py:382-403 [get_peaks]: sizes of the clusters, then one exponential per flare.
    The checks before the loop do not depend on the exponentials *)
Definition s_peaks {St} (np : numpy St) (g : flaregen) (n : nat) : stream St (list R) :=
  draw cl <- s_poissons np (lg_cluster g) n ;;
  draw _ <- slift (get_peaks g n (at_index O cl) (fun _ => 0)) ;;
  draw e <- sample (np_exponential np) n ;;
  slift (get_peaks g n (at_index O cl) (at_index 0 e)).
(** flares.py:405-427 [gen_fwhm]: unit and scale are checked before drawing *)
Definition s_fwhm {St} (np : numpy St) (g : flaregen) (n : nat) : stream St (list num) :=
  draw _ <- slift (gen_fwhm g n (fun _ => 0)) ;;
  draw z <- sample (np_normal np) n ;;
  slift (gen_fwhm g n (at_index 0 z)).
(** flares.py:429-449 [gen_teffs] *)
Definition s_teffs {St} (np : numpy St) (g : flaregen) (n : nat) : stream St (list num) :=
  draw _ <- slift (gen_teffs g n (fun _ => 0)) ;;
  draw z <- sample (np_normal np) n ;;
  slift (gen_teffs g n (at_index 0 z)).
(** flares.py:481-517 [generate_flare_series] *)
Definition s_generate_flares {St} (np : numpy St) (g : flaregen) (time : R) : stream St (list flare) :=
  draw n <- s_poisson np (ntotal g (Fin time)) ;;
  match n with
  | O => sret []
  | _ =>
      draw us <- sample (np_random np) n ;;
      draw energies <- slift (quantile_func g us) ;;
      draw peaks <- s_peaks np g n ;;
      draw fwhms <- s_fwhm np g n ;;
      draw teffs <- s_teffs np g n ;;
      draw ulon <- sample (np_random np) n ;;
      draw x <- sample (np_random np) n ;;
      let (lats, lons) := gen_coords n (at_index 0 x) (at_index 0 ulon) in
      sret (zip_flares fwhms energies lats lons teffs (map (fun p => p * time) peaks))
  end.

(** *** Which stream: default arguments *)

(** Default arguments are evaluated once, when the module is imported: every function with
    [rng=np.random.default_rng()] has one generator object of its own for all its calls.
    spots.py:581 *)
Definition DEFAULT_SPOT : nat := 0.
(** spots.py:603, of [SpotGenerator.off] *)
Definition DEFAULT_SPOT_OFF : nat := 1.
(** faculae.py:546 *)
Definition DEFAULT_FAC : nat := 2.
(** faculae.py:579, of [FaculaGenerator.off] *)
Definition DEFAULT_FAC_OFF : nat := 3.
(** flares.py:227 *)
Definition DEFAULT_FLARE : nat := 4.
(** flares.py:241, of [FlareGenerator.off] *)
Definition DEFAULT_FLARE_OFF : nat := 5.
(** star.py:116 *)
Definition DEFAULT_STAR : nat := 6.
(** an optional argument (star.py:116, spots.py:581, 603, faculae.py:546, 579,
    flares.py:227, 241) *)
Definition given (rng : option nat) (dflt : nat) : nat := match rng with Some l => l | None => dflt end.

(** spots.py:569-597 [SpotGenerator.__init__]: the attributes and the generator object *)
Definition new_spotgen (g : spotgen) (rng : option nat) : spotgen * nat := (g, given rng DEFAULT_SPOT).
(** spots.py:599-630 [SpotGenerator.off] *)
Definition new_spotgen_off (g : grid) (rng : option nat) : spotgen * nat :=
  new_spotgen (sg_off g) (Some (given rng DEFAULT_SPOT_OFF)).
(** faculae.py:532-573 [FaculaGenerator.__init__] *)
Definition new_facgen (g : facgen) (rng : option nat) : facgen * nat := (g, given rng DEFAULT_FAC).
(** faculae.py:574-609 [FaculaGenerator.off] *)
Definition new_facgen_off (g : grid) (rng : option nat) : facgen * nat :=
  new_facgen (fg_off g) (Some (given rng DEFAULT_FAC_OFF)).
(** flares.py:217-237 [FlareGenerator.__init__] *)
Definition new_flaregen (g : flaregen) (rng : option nat) : flaregen * nat := (g, given rng DEFAULT_FLARE).
(** flares.py:238-261 [FlareGenerator.off] *)
Definition new_flaregen_off (rng : option nat) : flaregen * nat :=
  new_flaregen lg_off (Some (given rng DEFAULT_FLARE_OFF)).

(** star.py:104-172: a star and the generator objects of its parts *)
Record rstar : Type := mkRStar {
  rs_star : star;
  rs_rng : nat;       (* star.rng *)
  rs_spot : nat;      (* star.spot_generator.rng *)
  rs_fac : nat;       (* star.fac_generator.rng *)
  rs_flare : nat      (* star.flare_generator.rng *)
}.
(** star.py:104-172 [Star.__init__]: generators left out are made with the star's [rng] *)
Definition rstar_init (teff : num) (radius period : R) (spots : spotcoll) (facs : faccoll)
  (grid_params : pyval) (flg : option (flaregen * nat)) (spg : option (spotgen * nat))
  (fcg : option (facgen * nat)) (gran : option granulation) (u1 u2 : R) (rng : option nat)
  : res rstar :=
  do s <- star_init teff radius period spots facs grid_params (option_map fst flg) (option_map fst spg)
            (option_map fst fcg) gran u1 u2 ;;
  let r := given rng DEFAULT_STAR in
  Ok (mkRStar s r
        (snd (match spg with Some g => g | None => new_spotgen_off (st_grid s) (Some r) end))
        (snd (match fcg with Some g => g | None => new_facgen_off (st_grid s) (Some r) end))
        (snd (match flg with Some g => g | None => new_flaregen_off (Some r) end))).

(** *** Calls on stars *)

(** the calls that change a star (star.py:201-237, 575-599, 691-708, 743-760) *)
Inductive rcall : Type :=
| RAge (time : num)
| RAddSpot (l : list spot)
| RAddFac (l : list facula)
| RBirthSpots (time : num)
| RBirthFaculae (time : num)
| RMature (coverage : num)
| RFlares (time : R).

(** star.py:201-237, 575-599, 691-708, 743-760: the call as a computation on one stream;
    [fuel] bounds the loops *)
Definition rcall_star {St} (np : numpy St) (fuel : nat) (s : star) (c : rcall) : stream St star :=
  match c with
  | RAge t => slift (star_age s t)
  | RAddSpot l => sret (star_add_spot s l)
  | RAddFac l => slift (star_add_fac s l)
  | RBirthSpots t =>
      draw l <- s_birth_spots np (st_spotgen s) t (st_radius s) fuel ;;
      sret (star_add_spot s l)
  | RBirthFaculae t =>
      draw l <- s_birth_faculae np (st_facgen s) t (st_radius s * RSUN_KM) ;;
      slift (star_add_fac s l)
  | RMature cov =>
      draw l <- s_generate_mature np (st_spotgen s) cov (st_radius s) fuel fuel ;;
      sret (star_add_spot s l)
  | RFlares t =>
      draw l <- s_generate_flares np (st_flaregen s) t ;;
      sret (star_with_flares s (flc_init l))
  end.
(** star.py:585, 598, 706, 757: the generator object the call draws from (none: age and add) *)
Definition rcall_rng (x : rstar) (c : rcall) : option nat :=
  match c with
  | RBirthSpots _ | RMature _ => Some (rs_spot x)
  | RBirthFaculae _ => Some (rs_fac x)
  | RFlares _ => Some (rs_flare x)
  | _ => None
  end.
(** star.py:201-237, 575-599, 691-708, 743-760: one call, with the states of all generator
    objects.  An exception leaves the star as it was, but not the stream.
    SIMPLIFICATION: an [age] that raises half-way leaves the star alone here; the spots it has
    aged before are the subject of MHeap.v. *)
Definition rexec {St} (np : numpy St) (fuel : nat) (h : nat -> St) (x : rstar) (c : rcall)
  : (nat -> St) * rstar * option exn :=
  let l := match rcall_rng x c with Some l => l | None => rs_rng x end in
  match rcall_star np fuel (rs_star x) c (h l) with
  | (r, s') =>
      (fun k => if Nat.eqb k l then s' else h k,
       match r with
       | Ok y => mkRStar y (rs_rng x) (rs_spot x) (rs_fac x) (rs_flare x)
       | Raise _ => x
       end,
       match r with Ok _ => None | Raise e => Some e end)
  end.
(** a program that calls several stars in any order and goes on after exceptions; the
    outcomes are recorded (star.py:201-237, 575-599, 691-708, 743-760) *)
Fixpoint rrun {St} (np : numpy St) (fuel : nat) (h : nat -> St) (st : nat -> rstar) (prog : list (nat * rcall))
  : (nat -> St) * (nat -> rstar) * list (nat * option exn) :=
  match prog with
  | [] => (h, st, [])
  | (i, c) :: t =>
      match rexec np fuel h (st i) c with
      | (h', x', e) =>
          match rrun np fuel h' (fun k => if Nat.eqb k i then x' else st k) t with
          | (h'', st'', log) => (h'', st'', (i, e) :: log)
          end
      end
  end.

(** *** Granulation and its seed *)

(** numpy.random.randint(low, high): an integer of [low, high), or of [0, low) if [high] is
    None; [u] stands for the bits drawn (granules.py:114) *)
Definition randint (low : Z) (high : option Z) (u : Z) : Z :=
  match high with
  | Some h => (low + u mod (h - low))%Z
  | None => (u mod low)%Z
  end.
(** granules.py:114: the default seed, drawn when the module is imported *)
Definition default_seed (u : Z) : Z := randint 1 None u.
(** granules.py:108-122 [Granulation.__init__] with its seed; [u] as above *)
Definition new_granulation (mean amplitude period dteff : num) (seed : option Z) (u : Z)
  : granulation * Z :=
  (gran_init mean amplitude period dteff, match seed with Some k => k | None => default_seed u end).
(** granules.py:124-142 [off] *)
Definition new_granulation_off (seed : option Z) : granulation * Z :=
  new_granulation (Fin 0) (Fin 0) (Fin 0) (Fin 0) (Some (match seed with Some k => k | None => 0%Z end)) 0.
(** granules.py:163: the mean vector and the covariance matrix of the process *)
Definition gp_mean_vector (p : gproc) : list num := map (fun _ => gp_mean p) (gp_x p).
(** granules.py:163, with [gp_cov] as in MGranules.v *)
Definition gp_cov_matrix (p : gproc) : list (list num) :=
  map (fun i => map (fun j => match gp_cov p i j with Some v => v | None => NaN end)
                    (seq 0 (length (gp_x p)))) (seq 0 (length (gp_x p))).
(** granules.py:147-164 [get_coverage].  [sampler key mean cov] is the external sampler:
    [jax.random.PRNGKey(seed)] is a function of the seed, and what tinygp draws with a key
    is a function of the key and of the mean and covariance of the process.
    SIMPLIFICATION: exact arithmetic (in float32 the differences of the times are rounded). *)
Definition seeded_coverage (sampler : Z -> list num -> list (list num) -> list num)
  (g : granulation * Z) (times : list R) : res (list num) :=
  do gp <- gran_build_gp (fst g) times ;;
  Ok (save_cast_coverage (sampler (snd g) (gp_mean_vector gp) (gp_cov_matrix gp))).
(** star.py:762-785 [get_granulation_coverage] with the seeded process *)
Definition star_seeded_coverage (sampler : Z -> list num -> list (list num) -> list num)
  (g : granulation * Z) (times : list R) : res (list num) :=
  do off <- (if neq (gr_dteff (fst g)) (Fin 0) then Ok true
             else
               do mean <- dindex String.eqb (gr_params (fst g)) "mean"%string ;;
               if neq mean (Fin 0) then
                 do amp <- dindex String.eqb (gr_params (fst g)) "amp"%string ;;
                 Ok (neq amp (Fin 0))
               else Ok false) ;;
  if off then Ok (repeat (Fin 0) (length times))
  else
    do cov <- seeded_coverage sampler g times ;;
    Ok (map (fun c => if nisnan c then Fin 0 else c) cov).
