(** Inequalities about angles. *)
From Coq Require Import Reals ZArith Lra Lia Psatz Machin.
From Coquelicot Require Import Coquelicot.
From Verif Require Import Num NumFacts FloatWrap FloatWrapFacts SpecRound RoundFacts SpecPath.
Open Scope R_scope.

(** M_PI is as close to pi as a double can be *)
Lemma dPi_close : Rabs (dPi - PI) <= 2 * uround.
Proof.
  unfold dPi, uround. destruct (PI_2_3_7_ineq 8) as [A B]. unfold tg_alt, PI_2_3_7_tg, Ratan_seq in A, B.
  cbn [sum_f_R0 Nat.mul Nat.add INR pow] in A, B. apply Rabs_le. split; lra.
Qed.

(** sin between a and b <= a in the first quadrant *)
Lemma sin_slope a b : 0 <= b <= a -> a <= PI / 2 -> (a - b) * cos a <= sin a - sin b <= (a - b) * cos b.
Proof.
  intros [B A] P. destruct (MVT_gen sin b a cos) as (c & C & Q).
  - intros x _. auto_derive; auto. ring.
  - intros x _. apply continuity_sin.
  - rewrite Rmin_left, Rmax_right in C by lra. rewrite Q.
    assert (cos a <= cos c) by (apply cos_decr_1; lra). assert (cos c <= cos b) by (apply cos_decr_1; lra).
    split; nra.
Qed.

(** x / sin x *)
Definition sinc (x : R) : R := if Req_EM_T x 0 then 1 else x / sin x.
Lemma sinc_0 : sinc 0 = 1.
Proof. unfold sinc. destruct Req_EM_T; [reflexivity|lra]. Qed.
Lemma sinc_pos x : 0 < x -> sinc x = x / sin x.
Proof. unfold sinc. intros. destruct Req_EM_T; [lra|reflexivity]. Qed.
Lemma sinc_opp x : sinc (- x) = sinc x.
Proof.
  unfold sinc. destruct (Req_EM_T x 0) as [->|N]; [rewrite Ropp_0; destruct Req_EM_T; [reflexivity|lra]|].
  destruct (Req_EM_T (- x) 0); [lra|]. rewrite sin_neg. destruct (Req_dec (sin x) 0) as [E|E].
  - rewrite E, Ropp_0. unfold Rdiv. rewrite Rinv_0. ring.
  - field. auto.
Qed.
Lemma sinc_abs x : sinc (Rabs x) = sinc x.
Proof. unfold Rabs. destruct Rcase_abs; [apply sinc_opp|reflexivity]. Qed.

Lemma sin_xcos x : 0 <= x <= PI / 2 -> x * cos x <= sin x.
Proof. intros H. destruct (sin_slope x 0) as [A _]; [lra|lra|]. rewrite sin_0 in A. lra. Qed.

Lemma quarter a : 0 <= a <= PI / 2 -> 0 <= sin a <= 1 /\ 0 <= cos a <= 1 /\ 1 <= sin a + cos a.
Proof.
  intros H. assert (0 <= sin a) by (apply sin_ge_0; lra). assert (0 <= cos a) by (apply cos_ge_0; lra).
  generalize (SIN_bound a) (COS_bound a) (sc1 a). intros. repeat split; try lra. nra.
Qed.

Lemma sinc_step a b : 0 <= b <= a -> a <= PI / 2 -> 0 <= sinc a - sinc b <= a - b.
Proof.
  intros [B A] P. destruct (Req_dec a b) as [->|Nab]; [lra|].
  destruct (quarter a ltac:(lra)) as (S1 & S2 & S3).
  assert (Sa : 0 < sin a) by (apply sin_gt_0; lra). assert (Xa := sin_xcos a ltac:(lra)).
  assert (La : sin a <= a) by (left; apply sin_lt_x; lra).
  rewrite (sinc_pos a) by lra. destruct (Req_dec b 0) as [->|Nb].
  - rewrite sinc_0. replace (a / sin a - 1) with ((a - sin a) / sin a) by (field; lra).
    split; [apply Rdiv_le_0_compat; lra|].
    apply Rmult_le_reg_r with (sin a); auto. unfold Rdiv. rewrite Rmult_assoc, Rinv_l by lra. nra.
  - assert (Sb : 0 < sin b) by (apply sin_gt_0; lra). assert (Xb := sin_xcos b ltac:(lra)).
    assert (Lb : sin b <= b) by (left; apply sin_lt_x; lra).
    destruct (sin_slope a b) as [D1 D2]; [lra|lra|].
    rewrite (sinc_pos b) by lra. replace (a / sin a - b / sin b) with ((a * sin b - b * sin a) / (sin a * sin b)) by (field; split; lra).
    assert (Pp : 0 < sin a * sin b) by (apply Rmult_lt_0_compat; auto).
    assert (E : a * sin b - b * sin a = (a - b) * sin b - b * (sin a - sin b)) by ring.
    split.
    + apply Rdiv_le_0_compat; [|exact Pp]. rewrite E.
      assert (b * (sin a - sin b) <= b * ((a - b) * cos b)) by (apply Rmult_le_compat_l; lra).
      assert ((a - b) * (b * cos b) <= (a - b) * sin b) by (apply Rmult_le_compat_l; lra). lra.
    + apply Rmult_le_reg_r with (sin a * sin b); auto. unfold Rdiv. rewrite Rmult_assoc, Rinv_l by lra.
      rewrite Rmult_1_r, E.
      assert (b * ((a - b) * cos a) <= b * (sin a - sin b)) by (apply Rmult_le_compat_l; lra).
      assert (sin b * (1 - sin a) <= b * cos a) by (apply Rmult_le_compat; lra).
      assert ((a - b) * (sin b * (1 - sin a)) <= (a - b) * (b * cos a)) by (apply Rmult_le_compat_l; lra). lra.
Qed.

Lemma sinc_lip a b : Rabs a <= PI / 2 -> Rabs b <= PI / 2 -> Rabs (sinc a - sinc b) <= Rabs (a - b).
Proof.
  intros A B. rewrite <- (sinc_abs a), <- (sinc_abs b).
  eapply Rle_trans; [|apply Rabs_triang_inv2].
  generalize (Rabs_pos a) (Rabs_pos b). revert A B. generalize (Rabs a) (Rabs b). clear a b.
  intros a b A B PA PB. destruct (Rle_dec a b) as [Q|Q].
  - assert (W := sinc_step b a ltac:(lra) B).
    rewrite (Rabs_minus_sym (sinc _)), (Rabs_minus_sym a), !Rabs_pos_eq; lra.
  - assert (W := sinc_step a b ltac:(lra) A). rewrite !Rabs_pos_eq; lra.
Qed.

Lemma sinc_range a : Rabs a <= PI / 2 -> 1 <= sinc a <= PI / 2.
Proof.
  intros A. rewrite <- sinc_abs. generalize (Rabs_pos a) PI_pos. intros PA PP. revert A PA. generalize (Rabs a). intros b A PA.
  assert (W := sinc_step b 0 ltac:(lra) A). assert (V := sinc_step (PI / 2) b ltac:(lra) ltac:(lra)).
  rewrite sinc_0 in W. rewrite (sinc_pos (PI / 2)), sin_PI2 in V by lra. lra.
Qed.

(** what is close to the unit circle has almost the angle it should have *)
Lemma angle_err th A B a e : Rabs (A - sin th) <= e -> Rabs (B - cos th) <= e -> e <= / 100 -> angle_of A B a ->
  exists k : Z, Rabs (a - th - 2 * IZR k * PI) <= 21 / 10 * e.
Proof.
  intros HA HB He (_ & Ec & Es). set (rho := sqrt (B * B + A * A)) in *.
  assert (R0 : 0 <= rho) by apply sqrt_pos.
  apply Rabs_le_between in HA. apply Rabs_le_between in HB.
  generalize (SIN_bound th) (COS_bound th) (sc1 th). intros Sb Cb S1.
  assert (C1 : rho * cos (a - th) = 1 + ((A - sin th) * sin th + (B - cos th) * cos th)).
  { rewrite cos_minus, Rmult_plus_distr_l, <- !Rmult_assoc, Ec, Es. lra. }
  assert (D1 : rho * sin (a - th) = (A - sin th) * cos th - (B - cos th) * sin th).
  { rewrite sin_minus, Rmult_minus_distr_l, <- !Rmult_assoc, Ec, Es. lra. }
  assert (C2 : 1 - 2 * e <= rho * cos (a - th)) by (rewrite C1; nra).
  assert (D2 : Rabs (rho * sin (a - th)) <= 2 * e).
  { rewrite D1. apply Rabs_le. split; nra. }
  destruct (atan2_mod 1 (a - th) Rlt_0_1) as [k Hk]. rewrite !Rmult_1_l in Hk.
  assert (Rg := atan2_range (sin (a - th)) (cos (a - th))). rewrite Hk in Rg. set (d := a - th + 2 * IZR k * PI) in *.
  assert (Cd : cos d = cos (a - th)) by apply cos_2kpi.
  assert (Sd : sin d = sin (a - th)) by (unfold d; apply sin_2kpi).
  rewrite <- Cd in C2. rewrite <- Sd in D2.
  exists (- k)%Z. replace (a - th - 2 * IZR (- k) * PI) with d by (unfold d; rewrite opp_IZR; ring).
  generalize PI_pos. intros PP.
  assert (Pc : 0 < cos d). { destruct (Rle_dec (cos d) 0); [nra|lra]. }
  assert (H2 : Rabs d <= PI / 2).
  { apply Rabs_le. split.
    - destruct (Rle_dec (- (PI / 2)) d); auto. assert (cos (- d) <= 0) by (apply cos_le_0; lra). rewrite cos_neg in *. lra.
    - destruct (Rle_dec d (PI / 2)); auto. assert (cos d <= 0) by (apply cos_le_0; lra). lra. }
  assert (X := sin_xcos (Rabs d) (conj (Rabs_pos d) H2)).
  assert (Ca : cos (Rabs d) = cos d) by (unfold Rabs; destruct Rcase_abs; [apply cos_neg|reflexivity]).
  assert (Sa : rho * sin (Rabs d) <= 2 * e).
  { unfold Rabs. destruct Rcase_abs; [rewrite sin_neg|]; apply Rabs_le_between in D2; lra. }
  rewrite Ca in X. assert (P := Rabs_pos d).
  assert (rho * (Rabs d * cos d) <= rho * sin (Rabs d)) by (apply Rmult_le_compat_l; auto).
  assert (Rabs d * (1 - 2 * e) <= Rabs d * (rho * cos d)) by (apply Rmult_le_compat_l; auto).
  nra.
Qed.
