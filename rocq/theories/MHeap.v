(** Model of the objects of /repo/vspec_vsm/star.py, spots.py and faculae.py with identity:
    spots, faculae, collections and generators live in a store and are referred to by
    address, so that one object can be reached in several ways and is changed in place.
    The other model files treat objects as values; LHeap.v relates the two.
    SIMPLIFICATIONS: the [Star] object itself is a record of addresses and plain attributes
    (nothing in the code shares a [Star]); flare generators, flares, granulations and grids
    are immutable after construction and stay values. *)
From Coq Require Import Reals ZArith Bool String List.
From Verif Require Import Num Py MConfig MHelpers MGrid MSpots MFaculae MXoflares MFlares MGranules MStar.
Import ListNotations.
Open Scope R_scope.

(** attribute assignment on the object at address [l] (spots.py:144, 303-317, 393,
    faculae.py:220-226, 368, 384) *)
Definition hset {A} (h : nat -> A) (l : nat) (a : A) : nat -> A :=
  fun k => if Nat.eqb k l then a else h k.
(** [for x in objects: x.method()] (spots.py:369-370, 392-393, 464-465, faculae.py:366-368,
    381-384, 411-412): the objects are changed one after the other; an exception stops the
    loop and leaves the earlier objects changed *)
Fixpoint heach {A} (f : A -> res A) (h : nat -> A) (ls : list nat) : (nat -> A) * option exn :=
  match ls with
  | [] => (h, None)
  | l :: t => match f (h l) with
              | Ok a => heach f (hset h l a) t
              | Raise e => (h, Some e)
              end
  end.
(** object construction (spots.py:746, faculae.py:709): new objects get new addresses *)
Fixpoint halloc {A} (h : nat -> A) (next : nat) (l : list A) : (nat -> A) * list nat :=
  match l with
  | [] => (h, [])
  | a :: t => let (h', ls) := halloc (hset h next a) (S next) t in (h', next :: ls)
  end.

(** the store: objects by address, the next free addresses, and the collections
    (spots.py:355, 368; faculae.py:351, 365) as a list of addresses and a grid *)
Record world : Type := mkWorld {
  w_spot : nat -> spot; w_nspot : nat;
  w_fac : nat -> facula; w_nfac : nat;
  w_sc : nat -> list nat * grid;
  w_fc : nat -> list nat * grid;
  w_sg : nat -> spotgen;
  w_fg : nat -> facgen }.

(** star.py:104-173: a star refers to its collections and generators; the plain attributes
    are those of [hs_attrs] (whose collections and spot/facula generators are not used) *)
Record hstar : Type := mkHStar {
  hs_attrs : star; hs_sc : nat; hs_fc : nat; hs_sg : nat; hs_fg : nat }.

(** spots.py:320-358, faculae.py:325-355: the collections as seen through the store *)
Definition view_sc (w : world) (c : nat) : spotcoll :=
  mkSpotColl (map (w_spot w) (fst (w_sc w c))) (snd (w_sc w c)).
(** faculae.py:325-355 *)
Definition view_fc (w : world) (c : nat) : faccoll :=
  mkFacColl (map (w_fac w) (fst (w_fc w c))) (snd (w_fc w c)).
(** star.py:104-173: the star as seen through the store *)
Definition view (w : world) (s : hstar) : star :=
  let a := hs_attrs s in
  {| st_teff := st_teff a; st_radius := st_radius a; st_period := st_period a;
     st_spots := view_sc w (hs_sc s); st_facs := view_fc w (hs_fc s); st_grid := st_grid a;
     st_flaregen := st_flaregen a; st_flares := st_flares a;
     st_spotgen := w_sg w (hs_sg s); st_facgen := w_fg w (hs_fg s); st_gran := st_gran a;
     st_u1 := st_u1 a; st_u2 := st_u2 a |}.

(** spots.py:355, 368, 394, 415: a change of the spots and of one collection *)
Definition w_spots (w : world) (h : nat -> spot) (c : nat) (v : list nat * grid) : world :=
  mkWorld h (w_nspot w) (w_fac w) (w_nfac w) (hset (w_sc w) c v) (w_fc w) (w_sg w) (w_fg w).
(** faculae.py:351, 365, 385, 398: a change of the faculae and of one collection *)
Definition w_facs (w : world) (h : nat -> facula) (c : nat) (v : list nat * grid) : world :=
  mkWorld (w_spot w) (w_nspot w) h (w_nfac w) (w_sc w) (hset (w_fc w) c v) (w_sg w) (w_fg w).

(** spots.py:359-370 [SpotCollection.set_gridmaker] *)
Definition w_sc_set_gridmaker (w : world) (c : nat) (g : grid) : world :=
  let ls := fst (w_sc w c) in
  w_spots w (fst (heach (fun s => Ok (spot_set_gridmaker s g)) (w_spot w) ls)) c (ls, g).
(** star.py:175-180 [set_spot_grid] *)
Definition w_sc_assign_grid (w : world) (c : nat) (g : grid) : world :=
  w_spots w (fst (heach (fun s => Ok (spot_assign_gridmaker s g)) (w_spot w) (fst (w_sc w c))))
    c (w_sc w c).
(** spots.py:372-394 [add_spot], given the addresses of the spots *)
Definition w_sc_add (w : world) (c : nat) (new : list nat) : world :=
  let '(ls, g) := w_sc w c in
  w_spots w (fst (heach (fun s => Ok (spot_assign_gridmaker s g)) (w_spot w) new)) c (ls ++ new, g).
(** spots.py:452-466 [SpotCollection.age]; [clean_spotlist] is not reached after an exception *)
Definition w_sc_age (w : world) (c : nat) (time : num) : world * option exn :=
  let '(ls, g) := w_sc w c in
  match heach (fun s => spot_age s time) (w_spot w) ls with
  | (h, None) => (w_spots w h c (filter (fun l => negb (spot_dead (h l))) ls, g), None)
  | (h, Some e) => (w_spots w h c (ls, g), Some e)
  end.

(** faculae.py:356-368 [FaculaCollection.set_gridmaker], star.py:182-187 [set_fac_grid] *)
Definition w_fc_set_gridmaker (w : world) (c : nat) (g : grid) : world :=
  let ls := fst (w_fc w c) in
  w_facs w (fst (heach (fun f => Ok (fac_assign_grid f g)) (w_fac w) ls)) c (ls, g).
(** star.py:182-187 [set_fac_grid] *)
Definition w_fc_assign_grid (w : world) (c : nat) (g : grid) : world :=
  w_facs w (fst (heach (fun f => Ok (fac_assign_grid f g)) (w_fac w) (fst (w_fc w c))))
    c (w_fc w c).
(** faculae.py:370-385 [add_faculae]: when a comparison raises, the faculae visited before
    keep their new grid and nothing is appended *)
Definition w_fc_add (w : world) (c : nat) (new : list nat) : world * option exn :=
  let '(ls, g) := w_fc w c in
  match heach (fun f =>
          do same <- grid_eq (fc_grid f) (Some g) ;;
          Ok (if same then f else fac_assign_grid f g)) (w_fac w) new with
  | (h, None) => (w_facs w h c (ls ++ new, g), None)
  | (h, Some e) => (w_facs w h c (ls, g), Some e)
  end.
(** faculae.py:400-413 [FaculaCollection.age] *)
Definition w_fc_age (w : world) (c : nat) (time : num) : world :=
  let '(ls, g) := w_fc w c in
  let h := fst (heach (fun f => Ok (fac_age f time)) (w_fac w) ls) in
  w_facs w h c (filter (fun l => negb (fac_dead (h l))) ls, g).

(** star.py:147-150, 162-165: adoption of the star's grid by the caller's generators *)
Definition w_adopt (w : world) (sg fg : nat) (g : grid) : world :=
  mkWorld (w_spot w) (w_nspot w) (w_fac w) (w_nfac w) (w_sc w) (w_fc w)
    (hset (w_sg w) sg (adopt_grid sg_grid sg_assign_grid (w_sg w sg) g))
    (hset (w_fg w) fg (adopt_grid fg_grid fg_assign_grid (w_fg w fg) g)).
(** star.py:104-173 [Star.__init__] with both generators given, the collections and
    generators by address *)
Definition h_init (w : world) (teff : num) (radius period : R) (c f : nat) (grid_params : pyval)
  (flg : option flaregen) (sg fg : nat) (gran : option granulation) (u1 u2 : R)
  : world * res hstar :=
  match star_init teff radius period (view_sc w c) (view_fc w f) grid_params flg
          (Some (w_sg w sg)) (Some (w_fg w fg)) gran u1 u2 with
  | Raise e => (w, Raise e)
  | Ok a =>
      let g := st_grid a in
      let w := w_fc_set_gridmaker w f g in
      let w := w_sc_set_gridmaker w c g in
      let w := w_adopt w sg fg g in
      let w := w_sc_assign_grid w c g in
      let w := w_fc_assign_grid w f g in
      (w, Ok (mkHStar a c f sg fg))
  end.

(** star.py:201-214 [age] *)
Definition h_age (w : world) (s : hstar) (time : num) : world * option exn :=
  match w_sc_age w (hs_sc s) time with
  | (w', None) => (w_fc_age w' (hs_fc s) time, None)
  | r => r
  end.
(** spots.py:746 then spots.py:372-394: spots built by the caller or a generator, added *)
Definition h_new_spots (w : world) (s : hstar) (l : list spot) : world * option exn :=
  let (h, ls) := halloc (w_spot w) (w_nspot w) l in
  let w' := mkWorld h (w_nspot w + length l) (w_fac w) (w_nfac w) (w_sc w) (w_fc w) (w_sg w) (w_fg w) in
  (w_sc_add w' (hs_sc s) ls, None).
(** faculae.py:709 then faculae.py:370-385 *)
Definition h_new_facs (w : world) (s : hstar) (l : list facula) : world * option exn :=
  let (h, ls) := halloc (w_fac w) (w_nfac w) l in
  let w' := mkWorld (w_spot w) (w_nspot w) h (w_nfac w + length l) (w_sc w) (w_fc w) (w_sg w) (w_fg w) in
  w_fc_add w' (hs_fc s) ls.

(** the public calls that change a star (star.py:201-237, 575-599, 691-708, 743-760); the
    objects handed to [add_spot] and [add_fac] are newly built *)
Inductive cmd : Type :=
| CAge (time : num)
| CAddSpot (l : list spot)
| CAddFac (l : list facula)
| CBirthSpots (time : num) (pdraw : nat) (d : sdraws) (fuel : nat)
| CBirthFaculae (time : num) (pdraw : nat) (d : fdraws)
| CMature (coverage : num) (draws : nat -> sdraws * R) (rfuel fuel : nat)
| CFlares (time : R) (pdraw : nat) (d : ldraws).

(** star.py:201-237, 575-599, 691-708, 743-760 through the store.  An exception leaves the
    star's own attributes unchanged. *)
Definition hexec (w : world) (s : hstar) (c : cmd) : world * hstar * option exn :=
  let keep (r : world * option exn) := (fst r, s, snd r) in
  match c with
  | CAge t => keep (h_age w s t)
  | CAddSpot l => keep (h_new_spots w s l)
  | CAddFac l => keep (h_new_facs w s l)
  | CBirthSpots t n d fuel =>
      match sg_birth (w_sg w (hs_sg s)) t (st_radius (hs_attrs s)) n d fuel with
      | Raise e => keep (w, Some e)
      | Ok l => keep (h_new_spots w s l)
      end
  | CBirthFaculae t n d =>
      match fg_birth (w_fg w (hs_fg s)) t (st_radius (hs_attrs s) * RSUN_KM) n d with
      | Raise e => keep (w, Some e)
      | Ok l => keep (h_new_facs w s l)
      end
  | CMature cov draws rf fuel =>
      match sg_generate_mature (w_sg w (hs_sg s)) cov (st_radius (hs_attrs s)) draws rf fuel with
      | Raise e => keep (w, Some e)
      | Ok l => keep (h_new_spots w s l)
      end
  | CFlares t n d =>
      match generate_flare_series (st_flaregen (hs_attrs s)) t n d with
      | Raise e => keep (w, Some e)
      | Ok l => (w, mkHStar (star_with_flares (hs_attrs s) (flc_init l)) (hs_sc s) (hs_fc s)
                      (hs_sg s) (hs_fg s), None)
      end
  end.
(** the same calls in the model without identity (MStar.v) *)
Definition vexec (s : star) (c : cmd) : res star :=
  match c with
  | CAge t => star_age s t
  | CAddSpot l => Ok (star_add_spot s l)
  | CAddFac l => star_add_fac s l
  | CBirthSpots t n d fuel => star_birth_spots s t n d fuel
  | CBirthFaculae t n d => star_birth_faculae s t n d
  | CMature cov draws rf fuel => star_mature_spots s cov draws rf fuel
  | CFlares t n d => star_get_flares s t n d
  end.
(** a program: calls on several stars, in any order, up to the first exception
    (star.py:201-237, 575-599, 691-708, 743-760) *)
Fixpoint hrun (w : world) (st : nat -> hstar) (prog : list (nat * cmd))
  : world * (nat -> hstar) * option exn :=
  match prog with
  | [] => (w, st, None)
  | (i, c) :: t =>
      match hexec w (st i) c with
      | (w', s', None) => hrun w' (hset st i s') t
      | (w', s', Some e) => (w', hset st i s', Some e)
      end
  end.
(** the calls on one star, one after the other, without identity (MStar.v) *)
Fixpoint vrun (s : star) (cs : list cmd) : res star :=
  match cs with
  | [] => Ok s
  | c :: t => do s' <- vexec s c ;; vrun s' t
  end.
