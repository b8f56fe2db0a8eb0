(** Properties C112-C114: arguments of other kinds *)
From Coq Require Import Reals ZArith Bool List Lra Lia.
From Coquelicot Require Import Coquelicot.
From Verif Require Import Num Py MConfig MHelpers MGrid MSpots MFaculae MXoflares MFlares MGranules MStar MWarn MHeap MUnits MArgs
  SpecArgs LBase LHeap LUnits LArgs PropsHeap PropsFlare.
Import ListNotations.
Open Scope R_scope.

(** C112 *)
@THM C112_sizes C112_sizes_lemma
@THM C112_negative C112_negative_lemma
@THM C112_compare C112_compare_lemma
@THM C112_star C112_star_lemma
Example C112_nonvacuous : exists g1 g2, p_new (GInt (-5)) = Ok g1 /\ g1 <> PBase /\ ~ sizes_ok g1 /\ is_spiral g1
  /\ p_new (GTuple [GInt 10; GInt (-1)]) = Ok g2 /\ g2 <> PBase /\ ~ sizes_ok g2 /\ is_rect g2
  /\ sizes_ok (PRect 10 0) /\ p_eq g1 (Some g2) = Ok false /\ p_eq g2 (Some g1) = Raise TypeError /\ p_eq g2 (Some g2) = Ok true.
Proof.
  exists (PSpiral (-5)), (PRect 10 (-1)). split. reflexivity. split. discriminate. split. cbn; lia. split. exists (-5)%Z; auto. split. reflexivity.
  split. discriminate. split. cbn; lia. split. exists 10%Z, (-1)%Z; auto. split. cbn; lia. auto.
Qed.

(** C113 *)
@THM C113_spots C113_spots_lemma
@THM C113_faculae C113_faculae_lemma
@THM C113_flares C113_flares_lemma
(** a collection of two spots on a spiral grid; a third one comes from an iterator, or before a number in a list *)
Example C113_nonvacuous : exists w g, w_sc w 0 = ([0; 1]%nat, g) /\ gives (AOne 2%nat) [2%nat] /\ gives (ASeq [Good 2; Good 3]%nat) [2; 3]%nat
  /\ gives_then (ASeq [Good 2%nat; Alien; Good 3%nat]) [2%nat] Alien /\ sp_grid (w_spot w 2) = g.
Proof.
  exists (ex_world (fun _ => [0; 1]%nat)), (Spiral 2). split. reflexivity. split. left. exists 2%nat. auto. split. right. reflexivity.
  split. exists [Good 3%nat]. left. reflexivity. reflexivity.
Qed.
(** the first flare was seen and is removed from the list: its neighbour is reported in its place *)
Example C113_flares_nonvacuous : exists f1 f2, in_window 0 1 f1 /\ ~ in_window 0 1 f2 /\ f1 <> f2
  /\ In f2 (flc_in_period (flc_list_changed (flc_init [f1; f2]) [f2]) 0 1) /\ ~ In f2 (flc_in_period (flc_init [f2]) 0 1).
Proof.
  assert (W1 : in_window 0 1 ex_flare). { split; cbn [ex_flare fl_tpeak fl_fwhm nmul nadd nsub]. apply nlt_fin. lra. apply nlt_fin. lra. }
  assert (W2 : ~ in_window 0 1 ex_flare2). { intros [_ H]. cbn [ex_flare2 fl_tpeak fl_fwhm nmul nsub] in H. apply nlt_fin in H. lra. }
  exists ex_flare, ex_flare2. split. auto. split. auto. split. intros E. injection E. intros. lra.
  destruct (C113_flares_lemma [ex_flare; ex_flare2] [ex_flare2] ANot 0 1 None) as [_ [_ [_ [_ [_ [H _]]]]]]. split.
  - apply H. exists 0%nat, ex_flare. auto.
  - destruct (C113_flares_lemma [ex_flare2] [ex_flare2] ANot 0 1 None) as [_ [_ [_ [_ [_ [K _]]]]]]. change (flc_init [ex_flare2]) with (flc_list_changed (flc_init [ex_flare2]) [ex_flare2]).
    rewrite K. intros [i [f0 [A [B C]]]]. destruct i as [|i]; [|destruct i; discriminate]. cbn in B. injection B as <-. contradiction.
Qed.

(** C114 *)
@THM C114_projection C114_lemma
Example C114_nonvacuous : angle_arg (Some (90, u_deg)) (PI/2) /\ angle_arg (Some (1, u_rad)) 1 /\ udim u_km <> DAng.
Proof.
  split. exists 90, u_deg. split. reflexivity. split. reflexivity. cbn. field.
  split. exists 1, u_rad. split. reflexivity. split. reflexivity. cbn. ring. unfold u_km, DLen, DAng. cbn [udim]. intros E. injection E. intros. lra.
Qed.
