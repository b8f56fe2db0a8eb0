(** The mean of the reports over one rotation *)
From Coq Require Import Reals ZArith Bool List Lra Lia Permutation.
From Verif Require Import Num Py MConfig MHelpers MGrid MSpots MFaculae MXoflares MFlares MGranules MStar
  Spec SpecStar SpecDisk SpecFlux SpecSym SpecConv SpecRotate LBase LGrid LSpotMap LSpotCov LDisk LStarFac LStarCov LFlux LSpotDisk LObserve LFar.
Import ListNotations.
Open Scope R_scope.

(** ** Sums of periodic functions *)
Definition zsum (G : Z -> R) (a : Z) (n : nat) : R := rsum (map (fun j => G (Z.of_nat j + a)%Z) (seq 0 n)).
Lemma rsum_seq_S : forall (h : nat -> R) n, rsum (map h (seq 0 (S n))) = rsum (map h (seq 0 n)) + h n.
Proof. intros. rewrite seq_S, map_app, rsum_app. simpl. lra. Qed.
Lemma zsum_succ : forall G a n, zsum G (a + 1) n = zsum G a n + G (Z.of_nat n + a)%Z - G a.
Proof.
  intros G a n. unfold zsum. induction n as [|n IH]. { simpl. ring. }
  rewrite !rsum_seq_S, IH. replace (Z.of_nat n + (a + 1))%Z with (Z.of_nat (S n) + a)%Z by lia. ring.
Qed.
Lemma zsum_shift : forall G n, (forall m, G (m + Z.of_nat n)%Z = G m) -> forall a, zsum G a n = zsum G 0 n.
Proof.
  intros G n H a.
  assert (E : forall b, zsum G (b + 1) n = zsum G b n).
  { intros b. rewrite zsum_succ. rewrite Z.add_comm, H. ring. }
  assert (P : forall k : nat, zsum G (Z.of_nat k) n = zsum G 0 n /\ zsum G (- Z.of_nat k) n = zsum G 0 n).
  { induction k as [|k [I1 I2]]. { split; reflexivity. } split.
    - replace (Z.of_nat (S k)) with (Z.of_nat k + 1)%Z by lia. now rewrite E.
    - rewrite <- (E (- Z.of_nat (S k))%Z). replace (- Z.of_nat (S k) + 1)%Z with (- Z.of_nat k)%Z by lia. auto. }
  destruct (Z_le_gt_dec 0 a).
  - destruct (P (Z.to_nat a)) as [Q _]. now rewrite Z2Nat.id in Q by auto.
  - destruct (P (Z.to_nat (- a))) as [_ Q]. rewrite Z2Nat.id in Q by lia. now rewrite Z.opp_involutive in Q.
Qed.
Lemma rsum_rev : forall (h : nat -> R) n, rsum (map h (seq 0 n)) = rsum (map (fun k => h (n - 1 - k)%nat) (seq 0 n)).
Proof.
  intros h n. rewrite <- (map_map (fun k => (n - 1 - k)%nat) h). apply rsum_perm. apply Permutation_map.
  apply NoDup_Permutation. apply seq_NoDup.
  - assert (N : forall l, NoDup l -> (forall x, In x l -> (x < n)%nat) -> NoDup (map (fun k => (n - 1 - k)%nat) l)).
    { induction l as [|x t IH]; intros N B; simpl; constructor.
      - intros I. apply in_map_iff in I. destruct I as [y [E I]]. inversion N; subst. pose proof (B x (or_introl eq_refl)). pose proof (B y (or_intror I)).
        assert (x = y) by lia. subst; contradiction.
      - apply IH. now inversion N. intros; apply B; now right. }
    apply N. apply seq_NoDup. intros x I. apply in_seq in I. lia.
  - intros x. rewrite in_map_iff. split.
    + intros I. apply in_seq in I. exists (n - 1 - x)%nat. split. lia. apply in_seq. lia.
    + intros [y [<- I]]. apply in_seq in I. apply in_seq. lia.
Qed.
Lemma zsum_mirror : forall G n, (forall m, G (m + Z.of_nat n)%Z = G m) -> forall a,
  rsum (map (fun k => G (a - Z.of_nat k)%Z) (seq 0 n)) = zsum G 0 n.
Proof.
  intros G n H a. rewrite rsum_rev. rewrite <- (zsum_shift G n H (a - Z.of_nat n + 1)%Z). unfold zsum. apply rsum_map_ext.
  intros k I. apply in_seq in I. f_equal. lia.
Qed.
Lemma rsum_swap : forall A B (h : A -> B -> R) l m,
  rsum (map (fun x => rsum (map (h x) m)) l) = rsum (map (fun y => rsum (map (fun x => h x y) l)) m).
Proof.
  intros A B h l m. induction l as [|x t IH].
  - cbn [map]. symmetry. apply rsum_zero. reflexivity.
  - cbn [map]. change (rsum (?a :: ?b)) with (a + rsum b). rewrite IH, <- rsum_map_plus. apply rsum_map_ext. intros y _. reflexivity.
Qed.

(** ** What is seen of a rectangular grid *)
Definition zlon (n : nat) (m : Z) : R := 2 * PI * IZR m / INR n.
Definition zw (s : star) (lat0 lon0 : R) (nlat nlon i : nat) (m : Z) : R := wgt s lat0 lon0 (lat_i nlat i, zlon nlon m).
Lemma zw_periodic : forall s lat0 lon0 a b i m, (0 < b)%nat -> zw s lat0 lon0 a b i (m + Z.of_nat b) = zw s lat0 lon0 a b i m.
Proof.
  intros s lat0 lon0 a b i m B. unfold zw.
  assert (NZ : INR b <> 0) by (apply not_0_INR; lia).
  assert (E : zlon b (m + Z.of_nat b) = zlon b m + 2 * PI * IZR 1).
  { unfold zlon. rewrite plus_IZR, <- INR_IZR_INZ. field. auto. }
  unfold wgt. assert (EM : mup lat0 lon0 (lat_i a i, zlon b (m + Z.of_nat b)) = mup lat0 lon0 (lat_i a i, zlon b m)).
  { rewrite E. unfold mup, law_cos. cbn [fst snd]. do 2 f_equal.
    rewrite <- (cos_period (lon0 - (zlon b m + 2 * PI * IZR 1)) 1). f_equal. simpl. ring. }
  rewrite EM. reflexivity.
Qed.
Lemma seen_turn : forall s lat0 lon0 a b A j i k, st_grid s = Rect a b -> good_grid (st_grid s) -> grid_area (st_grid s) = Ok A ->
  (j < b)%nat -> (i < a)%nat -> seen s lat0 (look lon0 b k) A j i = zw s lat0 lon0 a b i (Z.of_nat j - Z.of_nat k).
Proof.
  intros s lat0 lon0 a b A j i k Hg G HA Hj Hi.
  assert (NZ : INR b <> 0) by (apply not_0_INR; lia).
  assert (EA : A = amap (fun p => Fin (rarea_at (st_grid s) p)) (grid_points (st_grid s))).
  { pose proof (grid_area_good (st_grid s) G) as K. rewrite HA in K. now injection K. }
  rewrite EA, seen_pt by (auto; rewrite Hg; apply pixel_iff; auto).
  assert (EP : pt (st_grid s) (j, i) = (lat_i a i, lon_j b j)). { rewrite Hg. unfold pt. cbn [fst snd]. now apply rect_point_cell. }
  rewrite EP. unfold zw, wgt.
  assert (EM : mup lat0 (look lon0 b k) (lat_i a i, lon_j b j) = mup lat0 lon0 (lat_i a i, zlon b (Z.of_nat j - Z.of_nat k))).
  { unfold mup, law_cos. cbn [fst snd]. do 2 f_equal. f_equal. unfold look, lon_j, zlon.
    rewrite minus_IZR, <- !INR_IZR_INZ. field. auto. }
  rewrite EM. rewrite Hg. reflexivity.
Qed.
Lemma look_0 : forall lon0 n, look lon0 n 0 = lon0.
Proof. intros. unfold look, Rdiv. simpl. ring. Qed.
Lemma grid_sum_rect : forall a b w, grid_sum (Rect a b) w = rsum (map (fun i => rsum (map (fun j => w j i) (seq 0 b))) (seq 0 a)).
Proof.
  intros. rewrite <- (rsum_swap _ _ (fun j i => w j i)). unfold grid_sum. rewrite rows_length. cbn [g_rows].
  apply rsum_map_ext. intros j I. apply in_seq in I. rewrite row_length by (cbn; lia). reflexivity.
Qed.

Lemma rot_disk : forall s lat0 lon0 a b A k, st_grid s = Rect a b -> good_grid (st_grid s) -> grid_area (st_grid s) = Ok A ->
  disk s lat0 (look lon0 b k) A = rsum (map (fun i => zsum (zw s lat0 lon0 a b i) 0 b) (seq 0 a)).
Proof.
  intros s lat0 lon0 a b A k Hg G HA. assert (B : (0 < b)%nat) by (rewrite Hg in G; cbn in G; lia).
  unfold disk. rewrite Hg, grid_sum_rect. apply rsum_map_ext. intros i I. apply in_seq in I.
  rewrite <- (zsum_shift _ b (fun m => zw_periodic s lat0 lon0 a b i m B) (- Z.of_nat k)%Z). unfold zsum. apply rsum_map_ext. intros j J. apply in_seq in J.
  rewrite (seen_turn s lat0 lon0 a b A j i k) by (auto; lia). reflexivity.
Qed.
Lemma rot_zone : forall s lat0 lon0 a b A i, st_grid s = Rect a b -> good_grid (st_grid s) -> grid_area (st_grid s) = Ok A -> (i < a)%nat ->
  rsum (map (fun j => seen s lat0 lon0 A j i) (seq 0 b)) = zsum (zw s lat0 lon0 a b i) 0 b.
Proof.
  intros s lat0 lon0 a b A i Hg G HA Hi. unfold zsum. apply rsum_map_ext. intros j J. apply in_seq in J.
  rewrite <- (look_0 lon0 b). rewrite (seen_turn s lat0 lon0 a b A j i 0), look_0 by (auto; lia). reflexivity.
Qed.
Lemma rot_flux : forall s lat0 lon0 a b A (w : nat -> nat -> R), st_grid s = Rect a b -> good_grid (st_grid s) -> grid_area (st_grid s) = Ok A ->
  rsum (map (fun k => grid_sum (st_grid s) (fun j i => seen s lat0 (look lon0 b k) A j i * 1 * w j i) / disk s lat0 (look lon0 b k) A) (seq 0 b)) / INR b
  = rsum (map (fun i => zone s lat0 lon0 A b i * zone_mean w b i) (seq 0 a)).
Proof.
  intros s lat0 lon0 a b A w Hg G HA. assert (B : (0 < b)%nat) by (rewrite Hg in G; cbn in G; lia).
  set (W := disk s lat0 lon0 A).
  assert (EW : forall k, disk s lat0 (look lon0 b k) A = W).
  { intros k. unfold W. rewrite <- (look_0 lon0 b) at 2. rewrite !(rot_disk s lat0 lon0 a b A) by auto. reflexivity. }
  transitivity (rsum (map (fun k => rsum (map (fun i => rsum (map (fun j => zw s lat0 lon0 a b i (Z.of_nat j - Z.of_nat k) * w j i / W / INR b) (seq 0 b))) (seq 0 a))) (seq 0 b))).
  { unfold Rdiv at 1. rewrite Rmult_comm, <- rsum_map_scal. apply rsum_map_ext. intros k _. rewrite EW, Hg, grid_sum_rect.
    unfold Rdiv at 1. rewrite Rmult_comm, Rmult_assoc. rewrite Rmult_comm, <- rsum_map_scal. apply rsum_map_ext. intros i I. apply in_seq in I.
    rewrite <- rsum_map_scal. apply rsum_map_ext. intros j J. apply in_seq in J. rewrite (seen_turn s lat0 lon0 a b A j i k) by (auto; lia). unfold Rdiv. ring. }
  rewrite rsum_swap. apply rsum_map_ext. intros i I. apply in_seq in I. rewrite rsum_swap.
  unfold zone, zone_mean. fold W. rewrite (rot_zone s lat0 lon0 a b A i) by (auto; lia).
  transitivity (rsum (map (fun j => zsum (zw s lat0 lon0 a b i) 0 b / W / INR b * w j i) (seq 0 b))).
  2:{ rewrite rsum_map_scal. unfold Rdiv. ring. }
  apply rsum_map_ext. intros j _. rewrite <- (zsum_mirror _ b (fun m => zw_periodic s lat0 lon0 a b i m B) (Z.of_nat j)).
  unfold Rdiv. rewrite Rmult_assoc, Rmult_assoc, Rmult_comm, <- rsum_map_scal. apply rsum_map_ext. intros. ring.
Qed.
Definition rot_reports s lat0 lon0 (b : nat) f (orbit planet phase incl : nat -> R) (k : nat) : dict tkey num :=
  match calc_coverage s lat0 (look lon0 b k) (Fin f) (orbit k) (planet k) (phase k) (incl k) with Ok (t, _, _) => t | Raise _ => [] end.
Lemma C125_mean_lemma :
  forall label s nlat nlon lat0 lon0 orbit planet phase incl T D A M C pf f F ts,
  rotation_view label s nlat nlon lat0 lon0 orbit planet phase incl T D A M C pf ts ->
  (exists tot, rotation_reports s nlon lat0 lon0 f orbit planet phase incl tot)
  /\ (forall tot, rotation_reports s nlon lat0 lon0 f orbit planet phase incl tot ->
       rotation_mean (fun k => report_flux label F ts (tot k)) nlon
       = rsum (map (fun i => zone s lat0 lon0 A nlon i * zone_mean (pix_flux F T D f M) nlon i) (seq 0 nlat)))
  /\ rsum (map (zone s lat0 lon0 A nlon) (seq 0 nlat)) = 1
  /\ (ld_nonneg s -> 0 < disk s lat0 lon0 A -> forall i, (i < nlat)%nat -> 0 <= zone s lat0 lon0 A nlon i).
Proof.
  intros label s a b lat0 lon0 orbit planet phase incl T D A M C pf f F ts [TD Hg V NW DL AP LT].
  assert (B : (0 < b)%nat).
  { destruct b; [|lia]. exfalso. apply NW. unfold disk. rewrite Hg, grid_sum_rect. apply rsum_zero. reflexivity. }
  pose proof (V 0%nat B) as V0.
  assert (G : good_grid (st_grid s)) by apply V0. assert (HA : grid_area (st_grid s) = Ok A) by apply V0.
  assert (EW : forall k, disk s lat0 (look lon0 b k) A = disk s lat0 lon0 A).
  { intros k. rewrite <- (look_0 lon0 b) at 2. rewrite !(rot_disk s lat0 lon0 a b A) by auto. reflexivity. }
  assert (K : forall k, (k < b)%nat -> exists cov,
     calc_coverage s lat0 (look lon0 b k) (Fin f) (orbit k) (planet k) (phase k) (incl k) = Ok (rot_reports s lat0 lon0 b f orbit planet phase incl k, cov, pf k)
     /\ report_flux label F ts (rot_reports s lat0 lon0 b f orbit planet phase incl k) = disk_flux s lat0 (look lon0 b k) A M F T D f (fun _ _ => 1)).
  { intros k Hk. destruct (C87_lemma label s lat0 (look lon0 b k) _ _ _ _ T D A M _ _ f F ts TD (V k Hk)) as [tot [cov [E [E1 _]]]]; auto.
    rewrite EW; auto. exists cov. unfold rot_reports. rewrite E. auto. }
  split. { exists (rot_reports s lat0 lon0 b f orbit planet phase incl). intros k Hk. destruct (K k Hk) as [cov [E _]]. eauto. }
  split; [|split].
  - intros tot HR. rewrite <- (rot_flux s lat0 lon0 a b A) by auto. unfold rotation_mean. f_equal. apply rsum_map_ext. intros k I. apply in_seq in I.
    destruct (K k) as [cov [E1 E]]. lia. destruct (HR k) as [cov' [pf' E2]]. lia. rewrite E1 in E2. injection E2 as <- _ _. rewrite E. reflexivity.
  - unfold zone. transitivity (/ disk s lat0 lon0 A * disk s lat0 lon0 A). 2:{ field. auto. }
    unfold disk at 3. rewrite Hg, grid_sum_rect, <- rsum_map_scal. apply rsum_map_ext. intros i _. unfold Rdiv. ring.
  - intros LD PW i Hi. unfold zone. apply Rmult_le_pos. 2:{ apply Rlt_le, Rinv_0_lt_compat; auto. }
    apply rsum_map_nonneg. intros j J. apply in_seq in J. 
    assert (PX : pixel (st_grid s) j i) by (rewrite Hg; apply pixel_iff; cbn; lia).
    rewrite grid_area_good in HA by auto. injection HA as <-. rewrite seen_pt by auto. apply wgt_nonneg; auto. apply pt_In; auto.
Qed.

(** ** Rearranging spots along their latitudes *)
Definition valR (n : num) : R := match n with Fin x => x | _ => 0 end.
Definition bright (F : R -> R) (T D f : R) (n : num) : R := if Req_EM_T (valR n) T then (1 - f) * F T + f * F (T - D) else F (valR n).
Definition marks (Rs : R) (p : R * R) (x : spot) : Prop := umb_b x Rs (Fin (sep x p)) = true \/ pen_b x Rs (Fin (sep x p)) = true.
Lemma pv_clear : forall Rs p x m, ~ marks Rs p x -> pv Rs p m x = m.
Proof.
  intros Rs p x m N. unfold marks in N. unfold pv. cbv zeta. destruct (umb_b x Rs _); [tauto|]. destruct (pen_b x Rs _); [tauto|]. reflexivity.
Qed.
Lemma pv_clear_all : forall Rs p l m, (forall x, In x l -> ~ marks Rs p x) -> fold_left (pv Rs p) l m = m.
Proof. intros Rs p l. induction l as [|x t IH]; intros m H; cbn [fold_left]; auto. rewrite pv_clear by (apply H; left; auto). apply IH. intros; apply H; right; auto. Qed.
Lemma pv_additive : forall Rs p (G : num -> R) T l, ForallOrdPairs (fun x y => ~ (marks Rs p x /\ marks Rs p y)) l ->
  G (fold_left (pv Rs p) l T) = G T + rsum (map (fun x => G (pv Rs p T x) - G T) l).
Proof.
  intros Rs p G T l H. induction H as [|x l H HF IH]. { cbn. lra. }
  cbn [fold_left map]. change (rsum (?a :: ?b)) with (a + rsum b).
  destruct (bool_dec (umb_b x Rs (Fin (sep x p)) || pen_b x Rs (Fin (sep x p)))%bool true) as [E|E].
  - assert (MX : marks Rs p x) by (unfold marks; apply orb_true_iff in E; auto).
    assert (N : forall y, In y l -> ~ marks Rs p y). { intros y I K. rewrite Forall_forall in H. apply (H y I). auto. }
    rewrite pv_clear_all by auto. rewrite rsum_zero. lra. intros y I. rewrite pv_clear by auto. lra.
  - rewrite pv_clear. rewrite IH. lra. intros K. apply E. apply orb_true_iff. exact K.
Qed.
Lemma separate_marks : forall Rs vs p, 0 < Rs -> (forall v, In v vs -> view_ok Rs v) -> ForallOrdPairs apart vs ->
  ForallOrdPairs (fun x y => ~ (marks Rs p x /\ marks Rs p y)) (map v_spot vs).
Proof.
  intros Rs vs p HR V Ap. induction Ap as [|v vs H Ap IH]; cbn [map]; constructor.
  - apply Forall_forall. intros y I. apply in_map_iff in I. destruct I as [w [<- I]]. rewrite Forall_forall in H.
    assert (Vv : view_ok Rs v) by (apply V; left; auto). assert (Vw : view_ok Rs w) by (apply V; right; auto).
    assert (PEN : forall u, view_ok Rs u -> marks Rs p (v_spot u) -> cos (v_radius u) < vmu u (fst p) (snd p)).
    { intros u Vu K. apply (pen_above Rs u p HR Vu). destruct K as [K|K]; auto. apply umb_pen; auto. }
    intros [K1 K2]. apply (apart_points Rs v w (fst p) (snd p)); auto.
  - apply IH. intros; apply V; right; auto.
Qed.
Lemma pv_turned : forall Rs T nlon x y (k m : Z) lat, (0 < nlon)%nat -> moved_spot (turned (2 * PI * IZR k / INR nlon)) x y ->
  pv Rs (lat, zlon nlon m) T y = pv Rs (lat, zlon nlon (m - k)) T x.
Proof.
  intros Rs T nlon x y k m lat HN [[E0 [z E1]] [E2 [E3 [E4 E5]]]]. cbn [fst snd] in *.
  assert (NZ : INR nlon <> 0) by (apply not_0_INR; lia).
  assert (ES : sep y (lat, zlon nlon m) = sep x (lat, zlon nlon (m - k))).
  { unfold sep. cbn [fst snd]. f_equal. unfold law_cos. rewrite E0, E1. f_equal. f_equal.
    rewrite <- (cos_2kPI (sp_lon x + 2 * PI * IZR k / INR nlon + 2 * PI * IZR z - zlon nlon m) (- z)). f_equal.
    unfold zlon. rewrite minus_IZR, opp_IZR. field. auto. }
  unfold pv, umb_b, pen_b, spot_angular_radius. rewrite ES, E2, E3, E4, E5. reflexivity.
Qed.
Lemma pv_periodic : forall Rs T nlon x m lat, (0 < nlon)%nat ->
  pv Rs (lat, zlon nlon (m + Z.of_nat nlon)) T x = pv Rs (lat, zlon nlon m) T x.
Proof.
  intros Rs T nlon x m lat HN. assert (NZ : INR nlon <> 0) by (apply not_0_INR; lia).
  replace m with (m + Z.of_nat nlon - Z.of_nat nlon)%Z at 2 by lia. apply pv_turned; auto.
  split; [|auto]. split; auto. exists (-1)%Z. cbn [snd]. rewrite <- INR_IZR_INZ. field. auto.
Qed.

Lemma zone_sum : forall a b Rs T (G : num -> R) l i, (0 < b)%nat -> (forall p, ForallOrdPairs (fun x y => ~ (marks Rs p x /\ marks Rs p y)) l) ->
  rsum (map (fun j => G (fold_left (pv Rs (lat_i a i, lon_j b j)) l T)) (seq 0 b))
  = INR b * G T + rsum (map (fun x => zsum (fun m => G (pv Rs (lat_i a i, zlon b m) T x) - G T) 0 b) l).
Proof.
  intros a b Rs T G l i B H. unfold zsum. rewrite <- rsum_swap.
  transitivity (rsum (map (fun j => G T + rsum (map (fun x => G (pv Rs (lat_i a i, zlon b (Z.of_nat j + 0)) T x) - G T) l)) (seq 0 b))).
  - apply rsum_map_ext. intros j _. rewrite pv_additive by auto. f_equal. apply rsum_map_ext. intros x _.
    replace (zlon b (Z.of_nat j + 0)) with (lon_j b j); auto. unfold zlon, lon_j. rewrite Z.add_0_r, <- INR_IZR_INZ. unfold Rdiv. ring.
  - rewrite rsum_map_plus. f_equal. rewrite rsum_map_const, seq_length. ring.
Qed.
Lemma C125_longitudes_lemma :
  forall label s s' nlat nlon lat0 lon0 orbit planet phase incl orbit' planet' phase' incl' T D A A' M M' C C' pf pf' f F ts ts' vs vs' tot tot',
  rotation_view label s nlat nlon lat0 lon0 orbit planet phase incl T D A M C pf ts ->
  rotation_view label s' nlat nlon lat0 lon0 orbit' planet' phase' incl' T D A' M' C' pf' ts' ->
  separate_spots s vs -> separate_spots s' vs' -> rearranged nlon s s' ->
  rotation_reports s nlon lat0 lon0 f orbit planet phase incl tot -> rotation_reports s' nlon lat0 lon0 f orbit' planet' phase' incl' tot' ->
  rotation_mean (fun k => report_flux label F ts (tot k)) nlon = rotation_mean (fun k => report_flux label F ts' (tot' k)) nlon.
Proof.
  intros label s s' a b lat0 lon0 orbit planet phase incl orbit' planet' phase' incl' T D A A' M M' C C' pf pf' f F ts ts' vs vs' tot tot' V V' S1 S2 RA H1 H2.
  destruct (C125_mean_lemma _ _ _ _ _ _ _ _ _ _ _ _ _ _ _ _ f F _ V) as [_ [K _]]. rewrite (K tot H1). clear K.
  destruct (C125_mean_lemma _ _ _ _ _ _ _ _ _ _ _ _ _ _ _ _ f F _ V') as [_ [K _]]. rewrite (K tot' H2). clear K.
  destruct V as [TD Hg V NW _ _ _]. destruct V' as [_ Hg' V' NW' _ _ _].
  assert (B : (0 < b)%nat).
  { destruct b; [|lia]. exfalso. apply NW. unfold disk. rewrite Hg, grid_sum_rect. apply rsum_zero. reflexivity. }
  specialize (V 0%nat B). specialize (V' 0%nat B). destruct RA as [ER [EU1 [EU2 FA]]].
  assert (EA : A' = A). { pose proof (dv_area _ _ _ _ _ _ _ _ _ _ _ _ _ V) as E1. pose proof (dv_area _ _ _ _ _ _ _ _ _ _ _ _ _ V') as E2. rewrite Hg in E1. rewrite Hg' in E2. congruence. }
  subst A'.
  assert (ES : forall j i, seen s' lat0 lon0 A j i = seen s lat0 lon0 A j i). { intros. unfold seen, pix_mu. rewrite Hg, Hg', EU1, EU2. reflexivity. }
  assert (EZ : forall i, zone s' lat0 lon0 A b i = zone s lat0 lon0 A b i).
  { intros i. unfold zone, disk. rewrite Hg, Hg', !grid_sum_rect. f_equal. apply rsum_map_ext; auto.
    apply rsum_map_ext. intros. apply rsum_map_ext; auto. }
  assert (ZM : forall i st vv MM oo pp ph ii cc ff, st_grid st = Rect a b -> disk_view st lat0 (look lon0 b 0) oo pp ph ii T D A MM cc ff -> separate_spots st vv -> (i < a)%nat ->
    rsum (map (fun j => pix_flux F T D f MM j i) (seq 0 b))
    = INR b * bright F T D f (Fin T) + rsum (map (fun x => zsum (fun m => bright F T D f (pv (st_radius st) (lat_i a i, zlon b m) (Fin T) x) - bright F T D f (Fin T)) 0 b) (sc_spots (st_spots st)))).
  { intros i st vv MM oo pp ph ii cc ff Gs W [NF [EV [VO AP]]] Hi.
    rewrite <- (zone_sum a b (st_radius st) (Fin T) (bright F T D f)); auto.
    - apply rsum_map_ext. intros j J. apply in_seq in J.
      pose proof (no_facs_map st lat0 _ MM (dv_unified _ _ _ _ _ _ _ _ _ _ _ _ _ W) NF (dv_map _ _ _ _ _ _ _ _ _ _ _ _ _ W)) as EM.
      unfold pix_flux, bright, cell_val. cbv zeta. rewrite EM, (dv_teff _ _ _ _ _ _ _ _ _ _ _ _ _ W), acell_grid, Gs, rect_point_cell by (try lia; rewrite Gs; apply pixel_iff; cbn; lia).
      reflexivity.
    - intros p. rewrite EV. apply separate_marks; auto. apply W. }
  apply rsum_map_ext. intros i I. apply in_seq in I. rewrite EZ. f_equal. unfold zone_mean. f_equal.
  rewrite (ZM i s vs M _ _ _ _ _ _ Hg V S1), (ZM i s' vs' M' _ _ _ _ _ _ Hg' V' S2) by lia. f_equal. rewrite ER.
  clear - FA B. induction FA as [|x y l l' [k HM] FA IH]; cbn [map]; auto. change (rsum (?a :: ?b)) with (a + rsum b). rewrite IH. f_equal.
  set (G := fun m => bright F T D f (pv (st_radius s) (lat_i a i, zlon b m) (Fin T) x) - bright F T D f (Fin T)).
  transitivity (zsum G (- k) b). { symmetry. apply zsum_shift. intros m. unfold G. now rewrite pv_periodic. }
  unfold zsum. apply rsum_map_ext. intros j _. unfold G. rewrite (pv_turned (st_radius s) (Fin T) b x y k) by auto. replace (Z.of_nat j + 0 - k)%Z with (Z.of_nat j + - k)%Z by lia. reflexivity.
Qed.

Lemma C125_observable_lemma :
  forall label s nlat nlon lat0 lon0 orbit planet phase incl T D,
  two_decimals label -> st_grid s = Rect nlat nlon -> star_unified s -> fine_grid (st_grid s) -> 0 < st_radius s -> ld_positive s ->
  st_teff s = Fin T -> gr_dteff (st_gran s) = Fin D -> (forall x, In x (sc_spots (st_spots s)) -> fin_temps x) -> fcc_facs (st_facs s) = [] ->
  - PI/2 <= lat0 <= PI/2 ->
  (forall k, (k < nlon)%nat -> 0 <= orbit k /\ 0 <= planet k /\ (planet k <= st_radius s \/ cos (phase k) <= 0)) ->
  (forall t t', own_temp s T D t -> own_temp s T D t' -> label t = label t' -> t = t') ->
  (D = 0 \/ forall M, star_map s = Ok M -> appears (st_grid s) M T) ->
  exists A M C pf ts, rotation_view label s nlat nlon lat0 lon0 orbit planet phase incl T D A M C pf ts.
Proof.
  intros label s a b lat0 lon0 orbit planet phase incl T D TD Hg U FG HR LP HT HD FT NF HL HP LB PH.
  assert (B : (0 < b)%nat) by (rewrite Hg in FG; cbn in FG; lia).
  assert (O : forall k, (k < b)%nat -> exists A M C pf, disk_view s lat0 (look lon0 b k) (orbit k) (planet k) (phase k) (incl k) T D A M C pf
    /\ 0 < disk s lat0 (look lon0 b k) A).
  { intros k Hk. destruct (HP k Hk) as [P1 [P2 P3]].
    destruct (C71_lemma s lat0 (look lon0 b k) (orbit k) (planet k) (phase k) (incl k) T D U FG HR LP HT HD FT HL) as [A [M [C [pf [V [_ [DP _]]]]]]]; auto.
    { intros x I. rewrite NF in I. destruct I. } exists A, M, C, (Fin pf). auto. }
  destruct (O 0%nat B) as [A [M [C0 [pf0 [V0 D0]]]]]. rewrite look_0 in D0.
  set (mk := fun k => get_transit_mask s lat0 (look lon0 b k) (orbit k) (planet k) (phase k) (incl k)).
  destruct (temps_exist _ _ _ _ _ _ _ _ _ _ _ _ _ V0) as [ts LT]. { rewrite look_0. lra. }
  exists A, M, (fun k => match mk k with Ok (c, _) => c | Raise _ => C0 end), (fun k => match mk k with Ok (_, p) => p | Raise _ => pf0 end), ts.
  assert (EM : star_map s = Ok M).
  { pose proof (dv_map _ _ _ _ _ _ _ _ _ _ _ _ _ V0) as K. unfold add_faculae_to_map in K. rewrite NF in K.
    destruct (star_map s); cbn [bind paint_faculae] in K; congruence. }
  assert (OT : forall t, appears (st_grid s) M t -> own_temp s T D t).
  { intros t [j [i [P E]]]. rewrite star_map_eq in EM by auto. injection EM as <-. rewrite acell_grid in E by auto. rewrite HT in E.
    destruct (fold_pv_fin_le (st_radius s) (acell (grid_points (st_grid s)) j i (0, 0)) (sc_spots (st_spots s)) T FT) as [v [Ev [_ Q]]].
    rewrite Ev in E. injection E as ->. destruct Q as [->|[x [I Q]]]. left; auto. right; right. exists x. auto. }
  constructor; auto.
  - intros k Hk. destruct (O k Hk) as [A' [M' [C [pf [V _]]]]].
    assert (A' = A). { pose proof (dv_area _ _ _ _ _ _ _ _ _ _ _ _ _ V) as E1. pose proof (dv_area _ _ _ _ _ _ _ _ _ _ _ _ _ V0) as E2. congruence. }
    assert (M' = M). { pose proof (no_facs_map s lat0 _ M' U NF (dv_map _ _ _ _ _ _ _ _ _ _ _ _ _ V)) as E1.
      pose proof (no_facs_map s lat0 _ M U NF (dv_map _ _ _ _ _ _ _ _ _ _ _ _ _ V0)) as E2. congruence. }
    subst A' M'. unfold mk. rewrite (dv_mask _ _ _ _ _ _ _ _ _ _ _ _ _ V). exact V.
  - lra.
  - intros t t' L1 L2. apply LB. destruct L1 as [L1| ->]; [auto|right; left; auto]. destruct L2 as [L2| ->]; [auto|right; left; auto].
  - destruct PH as [PH|PH]; auto.
Qed.
