(** Property C107: numbers and spots as text *)
From Coq Require Import Reals ZArith NArith Bool String Ascii List Lra Lia.
From Coquelicot Require Import Coquelicot.
From Verif Require Import Num Py MConfig MHelpers MGrid MSpots MFaculae MXoflares MFlares MGranules MStar MFormat
  Spec SpecStar SpecDisk SpecText LBase LGrid LHelpers LText.
Import ListNotations.
Open Scope R_scope.

@THM C107_text C107_text_lemma
Lemma ex_fixed : forall d x k, 0 <= x -> x * 10 ^ d = IZR k -> fmt_fixed d (Fin x) = fmt_fixed d (Fin (IZR k / 10 ^ d)).
Proof. intros d x k _ <-. f_equal. f_equal. field. apply pow_nonzero. lra. Qed.
Lemma ex_rounded : forall d x k, Rabs (IZR k - Rabs x * 10 ^ d) < 1/2 -> rhe (Rabs x * 10 ^ d) = k.
Proof.
  intros d x k H. destruct (rhe_spec (Rabs x * 10 ^ d)) as [B _]. apply Rabs_lt_between in H. apply Rabs_le_between in B.
  assert (-1 < rhe (Rabs x * 10 ^ d) - k < 1)%Z by (split; apply lt_IZR; rewrite minus_IZR; simpl IZR; lra). lia.
Qed.
(** a temperature, a half rounded to the even neighbour, and a small negative number, which keeps its sign *)
Example C107_text_nonvacuous :
  fmt_fixed 2 (Fin 3300) = "3300.00"%string /\ fmt_fixed 0 (Fin (5/2)) = "2"%string /\ fmt_fixed 1 (Fin (- (1/100))) = "-0.0"%string
  /\ fmt_fixed 2 (Fin (1234567/1000)) = "1234.57"%string.
Proof.
  unfold fmt_fixed. split; [|split; [|split]].
  - rewrite (ex_rounded 2 3300 330000) by (rewrite (Rabs_right 3300) by lra; rewrite Rabs_right; lra). unfold Rltb. destruct (Rlt_dec _ _); [lra|]. reflexivity.
  - replace (rhe (Rabs (5/2) * 10 ^ 0)) with 2%Z. unfold Rltb. destruct (Rlt_dec _ _); [lra|]. reflexivity.
    rewrite (Rabs_right (5/2)) by lra. destruct (rhe_spec (5/2 * 10 ^ 0)) as [B E]. apply Rabs_le_between in B.
    assert (2 <= rhe (5/2 * 10 ^ 0) <= 3)%Z by (split; apply le_IZR; simpl (IZR 2); simpl (IZR 3); lra).
    destruct (Z.eq_dec (rhe (5/2 * 10 ^ 0)) 3) as [K|K]; [|lia]. rewrite K in E. exfalso. assert (F : Z.even 3 = true) by (apply E; rewrite Rabs_right; lra). discriminate F.
  - rewrite (ex_rounded 1 (- (1/100)) 0) by (rewrite (Rabs_left (- (1/100))) by lra; rewrite Rabs_left; lra). unfold Rltb. destruct (Rlt_dec _ _); [|lra]. reflexivity.
  - rewrite (ex_rounded 2 (1234567/1000) 123457) by (rewrite (Rabs_right (1234567/1000)) by lra; rewrite Rabs_right; lra). unfold Rltb. destruct (Rlt_dec _ _); [lra|]. reflexivity.
Qed.

@THM C107_unique C107_unique_lemma
Example C107_unique_nonvacuous : decimal_text 2 "3300.05" false 330005 /\ decimal_text 2 "-0.00" true 0 /\ ~ exists neg k, decimal_text 2 "03.00" neg k.
Proof.
  split; [|split].
  - exists "3300"%string, "05"%string, 3300%N, 5%N. repeat split; cbn; discriminate.
  - exists "0"%string, "00"%string, 0%N, 0%N. repeat split; cbn; auto.
  - intros [neg [k [w [f [a [b [E [L [N [V [V' _]]]]]]]]]]]. cbn in E. destruct neg; cbn in E. discriminate.
    destruct w as [|c w]; [destruct N|]. cbn in E. injection E as <- E. destruct w as [|c' w]; cbn in E. discriminate. cbn in N. congruence.
Qed.

@THM C107_same C107_same_lemma
(** 3300.001 and 3300.004 look the same; 0 and -0.001 do not *)
Example C107_same_nonvacuous : same_print 2 (Fin (3300 + 1/1000)) (Fin (3300 + 4/1000)) /\ ~ same_print 2 (Fin 0) (Fin (- (1/1000))) /\ ~ same_print 2 (Fin 3300) NaN.
Proof.
  split; [|split]; auto.
  - split. split; lra. assert (Q : INR (N.to_nat 330000) = 330000) by (rewrite INR_IZR_INZ, N_nat_Z; reflexivity).
    exists 330000%N. split; unfold rounds_to; rewrite Q; rewrite (Rabs_right (3300 + _)) by lra; (split; [apply Rabs_le; lra|reflexivity]).
  - intros [[_ H] _]. lra.
Qed.

@THM C107_spot C107_spot_lemma
Example C107_spot_nonvacuous :
  spot_str (Fin 2500, "K"%string) (Fin 2700, "K"%string) (Fin 300) (Fin (91/2), "deg"%string) (Fin 0, "deg"%string)
    = "StarSpot with Teff = (2500 K,2700 K), area = 300 msh, lat = 45.5 deg, lon = 0.0 deg"%string
  /\ List.Forall (fun q : num * string => lacks "," (snd q)) [(Fin 2500, "K"); (Fin 2700, "K"); (Fin (91/2), "deg"); (Fin 2500, "K"); (Fin 2700, "K"); (Fin (91/2), "deg")]%string.
Proof.
  split. 2: repeat constructor; cbn; repeat split; congruence.
  unfold spot_str, fmt_quantity, fmt_fixed. cbn [fst snd].
  rewrite (ex_rounded 0 2500 2500), (ex_rounded 0 2700 2700), (ex_rounded 0 300 300), (ex_rounded 1 (91/2) 455), (ex_rounded 1 0 0).
  2-6: rewrite (Rabs_right) by (rewrite Rabs_right; lra); rewrite Rabs_right; lra.
  unfold Rltb. repeat (destruct (Rlt_dec _ _); [lra|]). reflexivity.
Qed.
