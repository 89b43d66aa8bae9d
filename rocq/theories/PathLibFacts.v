(** Mathematical libraries that keep the contract. *)
From Coq Require Import Reals ZArith Lra Lia Psatz.
From Flocq Require Import Core.
From Verif Require Import Num Vec NumFacts FloatWrap PointFloat SpecRound RoundFacts PointFloatFacts SpecPath PathTrig PathFloatFacts.
Open Scope R_scope.

(** an atan2 that is rounded correctly, except that its value at one point is given *)
Definition at2_with (y0 x0 v : R) (y x : R) : R :=
  if Req_EM_T y y0 then if Req_EM_T x x0 then v else rnd (atan2 y x) else rnd (atan2 y x).

Lemma angle_of_atan2 y x : angle_of y x (atan2 y x).
Proof. split; [assert (W := atan2_range y x); lra|]. split; [apply atan2_cos|apply atan2_sin]. Qed.

Lemma rnd_off a : Rabs (rnd a - a) <= 2 * uround * Rabs a + least.
Proof.
  eapply Rle_trans; [apply rnd_err|]. assert (U := u_small).
  assert (0 <= uround * Rabs a) by (apply Rmult_le_pos; [lra|apply Rabs_pos]). lra.
Qed.

(** the correctly rounded sine *)
Lemma sin_sharp x : is_double x -> Rabs x <= 3 / 2 -> Rabs (rnd (sin x) - sin x) <= 2 * uround * Rabs (sin x).
Proof.
  intros D B. assert (U := u_small). assert (P := PI_num).
  assert (SR := sinc_range x ltac:(lra)).
  assert (EX : x = sinc x * sin x).
  { unfold sinc. destruct Req_EM_T as [Z|N]; [rewrite Z, sin_0; ring|]. field. intros Q. revert SR. unfold sinc.
    destruct Req_EM_T; [contradiction|]. rewrite Q. unfold Rdiv. rewrite Rinv_0. lra. }
  assert (PS := Rabs_pos (sin x)).
  destruct (Rle_dec (Rabs x) (bpow radix2 (-60))) as [Sm|Bg].
  - assert (G := round_N_pt radix2 (FLT_exp (-1074) 53) (fun x => negb (Z.even x)) (sin x)). destruct G as [_ G].
    specialize (G x D). change (round radix2 (FLT_exp (-1074) 53) (Znearest (fun x0 => negb (Z.even x0))) (sin x)) with (rnd (sin x)) in G.
    eapply Rle_trans; [exact G|].
    assert (Q : x - sin x = (sinc x - sinc 0) * sin x) by (rewrite sinc_0; rewrite EX at 1; ring).
    rewrite Q, Rabs_mult. apply Rmult_le_compat_r; auto.
    eapply Rle_trans; [apply sinc_lip; [lra|rewrite Rabs_R0; lra]|]. rewrite Rminus_0_r. eapply Rle_trans; [exact Sm|].
    change (bpow radix2 (-60)) with (/ 1152921504606846976). unfold uround. lra.
  - assert (Sz : bpow radix2 (-61) <= Rabs (sin x)).
    { assert (W : Rabs x = sinc x * Rabs (sin x)) by (rewrite EX at 1; rewrite Rabs_mult, (Rabs_pos_eq (sinc x)) by lra; reflexivity).
      assert (bpow radix2 (-60) = 2 * bpow radix2 (-61)) by (change (-60)%Z with (-61 + 1)%Z; apply bpow_S).
      assert (sinc x * Rabs (sin x) <= 2 * Rabs (sin x)) by (apply Rmult_le_compat_r; lra). lra. }
    assert (E := rnd_err (sin x)). assert (least <= uround * Rabs (sin x)); [|lra].
    apply Rle_trans with (uround * bpow radix2 (-61)); [|apply Rmult_le_compat_l; lra].
    apply Rle_trans with (bpow radix2 (-53) * bpow radix2 (-61)); [rewrite <- bpow_plus; apply bpow_le; lia|].
    apply Rmult_le_compat_r; [apply bpow_ge_0|]. change (bpow radix2 (-53)) with (/ 9007199254740992). unfold uround. lra.
Qed.
Lemma sin_sharp2 x : is_double x -> Rabs x <= 2 -> Rabs (rnd (sin x) - sin x) <= 2 * uround * Rabs (sin x).
Proof.
  intros D B. destruct (Rle_dec (Rabs x) (3 / 2)) as [Sm|Bg]; [apply sin_sharp; auto|].
  assert (U := u_small). assert (P := PI_num).
  assert (S : / 2 <= Rabs (sin x)).
  { replace (Rabs (sin x)) with (Rabs (sin (Rabs x))) by (unfold Rabs at 2; destruct Rcase_abs; [rewrite sin_neg, Rabs_Ropp|]; reflexivity).
    assert (0 <= sin (Rabs x)) by (apply sin_ge_0; lra). rewrite Rabs_pos_eq by auto.
    replace (sin (Rabs x)) with (cos (PI / 2 - Rabs x)) by (rewrite <- sin_shift; f_equal; ring).
    assert (W := cos_lip (PI / 2 - Rabs x) 0). rewrite cos_0, Rminus_0_r in W.
    assert (Rabs (PI / 2 - Rabs x) <= / 2) by (apply Rabs_le; lra). apply Rabs_le_inv in W. lra. }
  assert (E := rnd_err (sin x)). assert (least <= uround / 2); [|assert (uround * / 2 <= uround * Rabs (sin x)) by (apply Rmult_le_compat_l; lra); lra].
  unfold least. apply Rle_trans with (bpow radix2 (-54)); [apply bpow_le; lia|].
  change (bpow radix2 (-54)) with (/ 18014398509481984). unfold uround. lra.
Qed.

Lemma good_with y0 x0 v : is_double v -> Rabs (v - atan2 y0 x0) <= 2 * uround * Rabs (atan2 y0 x0) + least -> y0 <> 0 ->
  good_library best (at2_with y0 x0 v).
Proof.
  intros D E N. constructor.
  - apply best_accurate.
  - intros x Dx B. apply sin_sharp2; auto.
  - intros y x Dy Dx _. split.
    + unfold at2_with. destruct Req_EM_T; [destruct Req_EM_T|]; auto using rnd_double.
    + exists (atan2 y x). split; [apply angle_of_atan2|]. unfold at2_with.
      destruct Req_EM_T as [->|]; [destruct Req_EM_T as [->|]|]; auto using rnd_off.
  - intros x Dx P. unfold at2_with. destruct Req_EM_T as [Q|Q]; [elim N; auto|].
    assert (W : atan2 0 x = 0).
    { assert (W := atan2_unique x 0 P). rewrite sin_0, cos_0, Rmult_0_r, Rmult_1_r in W. apply W. generalize PI_pos. lra. }
    rewrite W. apply rnd_0.
Qed.

(** the point on the unit circle at azimuth 3/2, as computed *)
Definition ys : R := rnd (sin (3 / 2)).
Definition xs : R := rnd (cos (3 / 2)).
Lemma ys_nz : ys <> 0.
Proof.
  intros Q. assert (E := rnd_err (sin (3 / 2))). fold ys in E. rewrite Q, Rminus_0_l, Rabs_Ropp in E.
  assert (P := PI_num). assert (0 < sin (3 / 2)) by (apply sin_gt_0; lra).
  assert (S : / 2 <= sin (3 / 2)).
  { assert (sin (PI / 6) <= sin (3 / 2)) by (apply sin_incr_1; lra). rewrite sin_PI6 in *. lra. }
  assert (U := u_small). rewrite Rabs_pos_eq in E by lra. assert (SB := SIN_bound (3 / 2)).
  assert (uround * sin (3 / 2) <= uround * 1) by (apply Rmult_le_compat_l; lra).
  assert (least <= / 4) by (apply (bpow_le radix2 (-1074) (-2)); lia). lra.
Qed.
Lemma a_close : Rabs (atan2 ys xs - 3 / 2) <= 211 / 100 * uround.
Proof.
  assert (U := u_small). assert (P := PI_num).
  assert (LE : least <= uround / 1000000).
  { unfold least, uround. apply Rle_trans with (bpow radix2 (-80)); [apply bpow_le; lia|]. change (bpow radix2 (-80)) with (/ 1208925819614629174706176). lra. }
  assert (A : Rabs (ys - sin (3 / 2)) <= 1001 / 1000 * uround).
  { eapply Rle_trans; [apply rnd_err|]. assert (uround * Rabs (sin (3 / 2)) <= uround * 1) by (apply Rmult_le_compat_l; [lra|apply sin_1]). lra. }
  assert (B : Rabs (xs - cos (3 / 2)) <= 1001 / 1000 * uround).
  { eapply Rle_trans; [apply rnd_err|]. assert (uround * Rabs (cos (3 / 2)) <= uround * 1) by (apply Rmult_le_compat_l; [lra|apply cos_1]). lra. }
  destruct (angle_err (3 / 2) ys xs (atan2 ys xs) _ A B ltac:(lra) (angle_of_atan2 _ _)) as [k Hk].
  assert (Rg := atan2_range ys xs).
  assert (k = 0%Z).
  { apply Rabs_le_inv in Hk. assert (-1 < IZR k < 1) by (split; nra).
    assert (IZR (-1) < IZR k < IZR 1) as [Q1 Q2] by lra. apply lt_IZR in Q1. apply lt_IZR in Q2. lia. }
  subst k. replace (atan2 ys xs - 3 / 2) with (atan2 ys xs - 3 / 2 - 2 * 0 * PI) by ring. lra.
Qed.

Lemma dyadic (m e : Z) : (Z.abs m < 2 ^ 53)%Z -> (-1074 <= e)%Z -> is_double (IZR m * bpow radix2 e).
Proof. intros M E. apply generic_format_FLT. exists (Float radix2 m e); auto. Qed.

(** one library gives the azimuth back, another one its neighbour *)
Lemma lib_same : good_library best (at2_with ys xs (3 / 2)).
Proof.
  apply good_with; [|assert (A := a_close); assert (B := least_pos)|apply ys_nz].
  - replace (3 / 2) with (IZR 3 * bpow radix2 (-1)) by (change (bpow radix2 (-1)) with (/ 2); lra). apply dyadic; lia.
  - rewrite Rabs_minus_sym. assert (W := near_size _ _ _ ltac:(rewrite Rabs_minus_sym; exact A)). rewrite (Rabs_pos_eq (3 / 2)) in W by lra.
    assert (U := u_small). assert (V : 3 / 2 - 211 / 100 * uround <= Rabs (atan2 ys xs)) by lra.
    assert (2 * uround * (14 / 10) <= 2 * uround * Rabs (atan2 ys xs)) by (apply Rmult_le_compat_l; lra). lra.
Qed.
Lemma lib_next : exists v, v <> 3 / 2 /\ good_library best (at2_with ys xs v).
Proof.
  assert (A := a_close). assert (B := least_pos). assert (U := u_small).
  assert (UB : 2 * uround = bpow radix2 (-52)) by (change (bpow radix2 (-52)) with (/ 4503599627370496); unfold uround; lra).
  assert (T : 3 / 2 = IZR 6755399441055744 * bpow radix2 (-52)) by (rewrite <- UB; unfold uround; lra).
  assert (V : 14 / 10 <= Rabs (atan2 ys xs)).
  { apply Rabs_le_inv in A. eapply Rle_trans; [|apply Rle_abs]. lra. }
  assert (X : 2 * uround * (14 / 10) <= 2 * uround * Rabs (atan2 ys xs)) by (apply Rmult_le_compat_l; lra).
  apply Rabs_le_inv in A. destruct (Rle_dec (atan2 ys xs) (3 / 2)) as [Q|Q].
  - exists (3 / 2 - 2 * uround). split; [lra|]. apply good_with; [|apply Rabs_le; lra|apply ys_nz].
    replace (3 / 2 - 2 * uround) with (IZR 6755399441055743 * bpow radix2 (-52)) by (rewrite T, UB; unfold uround; ring_simplify; lra). apply dyadic; lia.
  - exists (3 / 2 + 2 * uround). split; [lra|]. apply good_with; [|apply Rabs_le; lra|apply ys_nz].
    replace (3 / 2 + 2 * uround) with (IZR 6755399441055745 * bpow radix2 (-52)) by (rewrite T, UB; unfold uround; ring_simplify; lra). apply dyadic; lia.
Qed.
