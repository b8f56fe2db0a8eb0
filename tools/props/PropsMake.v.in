(** Property C132: construction of stars from the arguments that are written; C112, continued *)
From Coq Require Import Reals ZArith Bool List Lra Lia.
From Verif Require Import Num Py MConfig MHelpers MGrid MSpots MFaculae MXoflares MFlares MGranules MStar MArgs SpecArgs SpecStar MMake SpecMake LMake.
Import ListNotations.
Open Scope R_scope.

(** C112 *)
@THM C112_methods C112_methods_lemma
Example C112_methods_nonvacuous : grid_new (PyTuple [PyInt 3; PyInt 5]) = Ok (Rect 3 5).
Proof. reflexivity. Qed.

(** C132 *)
@THM C132_same C132_same_lemma
@THM C132_star C132_star_lemma
@THM C132_errors C132_errors_lemma
@THM C132_left_out C132_left_out_lemma
(** a spot on a grid of 4 latitudes and 8 longitudes, or on a spiral, in collections on other grids *)
Definition make_spot (p : option gval) (m : option pgrid) : spot_args :=
  mkSpotArgs 0 1 (Fin 100) (Fin 10) (Fin 2500) (Fin 2700) None None None None p m.
Definition make_fac (p : option gval) (m : option pgrid) : fac_args :=
  mkFacArgs 0 1 (Fin 100) (Fin 10) (Fin 5) (Fin 6) (Fin 0) (Fin 20) (Fin (-100)) (Fin 0) (Fin 100) None p m.
Definition make_example (p q : option gval) (m : option pgrid) : star_args :=
  mkStarArgs (Fin 3000) 1 10 [make_spot p None; make_spot None m] q None [make_fac p m] None m None None (mkStarOpts None None None None None).
Example C132_nonvacuous : exists a b p q, make_parts a = Ok p /\ make_parts b = Ok q /\ same_but_grids a b /\ a <> b /\ bare_star a /\ 0 < ta_radius a
  /\ nth_error (ta_spots a) 1 = Some (make_spot None (Some (PRect 3 5))) /\ bare_spot (make_spot None (Some (PRect 3 5)))
  /\ or_else (so_params (ta_opts a)) (GInt 1000) = liftv (PyInt 1000) /\ grid_new (PyInt 1000) = Ok (Spiral 1000)
  /\ sa_area (make_spot None (Some (PRect 3 5))) = Fin 10 /\ sa_amax (make_spot None (Some (PRect 3 5))) = Fin 100.
Proof.
  exists (make_example (Some (GTuple [GInt 4; GInt 8])) (Some (GInt 7)) (Some (PRect 3 5))), (make_example (Some (GInt (-2))) None None).
  eexists. eexists. split. reflexivity. split. reflexivity. split. reflexivity. split. { intros E. apply (f_equal ta_sc_params) in E. discriminate. }
  split. { split; [reflexivity|]. split; reflexivity. } split. { cbn. lra. } split. reflexivity. split. { split; [reflexivity|]. split; [reflexivity|]. split; reflexivity. }
  split. reflexivity. split. reflexivity. split; reflexivity.
Qed.
(** every kind of error happens *)
Example C132_errors_nonvacuous :
  gets_none (Some GOther) None /\ gets_none (Some (GTuple [GInt 1; GInt 2; GInt 3])) None
  /\ gets None (Some PBase) PBase /\ gets (Some GOther) (Some (PSpiral 5)) (PSpiral 5) /\ has_points (PSpiral 5)
  /\ gets (Some (GTuple [GInt (-1)])) None (PRect (-1) 1000) /\ is_rect (PRect (-1) 1000) /\ ~ sizes_ok (PRect (-1) 1000)
  /\ gets None None (PRect 500 1000) /\ has_points (PRect 500 1000).
Proof.
  split. { split; auto. exists GOther. split; auto. intros g H. inversion H. }
  split. { split; auto. eexists. split. reflexivity. intros g H. inversion H. }
  split. { left. reflexivity. } split. { left. reflexivity. } split. { left. exists 5%Z. reflexivity. }
  split. { right. split; auto. right. eexists. split. reflexivity. constructor. } split. { exists (-1)%Z, 1000%Z. reflexivity. }
  split. { cbn. lia. } split. { right. split; auto. } right. split. { exists 500%Z, 1000%Z. reflexivity. } cbn. lia.
Qed.
