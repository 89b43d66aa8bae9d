(** Proofs about the energy loss in double precision. *)
From Coq Require Import Reals ZArith Lra Lia Psatz.
From Flocq Require Import Core.
Require Flocq.Prop.Plus_error.
From Verif Require Import Num Vec Isect Material FloatWrap PointFloat SpecRound RoundFacts PointFloatFacts NearFacts CylFloatFacts StartFloat StartFloatFacts
  SpecMaterial MaterialFacts QmsFloat SpecQmsFloat RelFacts QmsFloatFacts BetheFloat SpecBetheFloat.
Open Scope R_scope.

(** ** absolute errors in rounding units *)
Definition ab (e x' x : R) : Prop := Rabs (x' - x) <= uround * e.
Lemma u_fine : 0 < uround <= / 1000000000000000.
Proof. unfold uround. lra. Qed.
Lemma least_fine : least <= uround * / 1000000.
Proof.
  replace uround with (bpow radix2 (-53)) by (change (bpow radix2 (-53)) with (/ 9007199254740992); reflexivity).
  apply Rle_trans with (bpow radix2 (-53) * bpow radix2 (-20)); [rewrite <- bpow_plus; apply bpow_le; lia|].
  apply Rmult_le_compat_l; [apply bpow_ge_0|]. change (bpow radix2 (-20)) with (/ 1048576). lra.
Qed.
Lemma ab_weak e f x' x : ab e x' x -> e <= f -> ab f x' x.
Proof. unfold ab. intros H L. eapply Rle_trans; [exact H|]. apply Rmult_le_compat_l; [generalize u_fine; lra|exact L]. Qed.
Lemma ab_add e f x' x y' y : ab e x' x -> ab f y' y -> ab (e + f) (x' + y') (x + y).
Proof. unfold ab. intros A B. eapply Rle_trans; [apply (add_err _ _ _ _ _ _ A B)|]. lra. Qed.
Lemma ab_sub e f x' x y' y : ab e x' x -> ab f y' y -> ab (e + f) (x' - y') (x - y).
Proof. unfold ab. intros A B. eapply Rle_trans; [apply (sub_err _ _ _ _ _ _ A B)|]. lra. Qed.
Lemma ab_size e x' x : ab e x' x -> e <= 1000000000 -> Rabs x' <= Rabs x + / 1000000.
Proof.
  unfold ab. intros H E. apply near_size in H. assert (U := u_fine).
  assert (uround * e <= / 1000000).
  { apply Rle_trans with (uround * 1000000000); [apply Rmult_le_compat_l; lra|]. apply Rle_trans with (/ 1000000000000000 * 1000000000); [apply Rmult_le_compat_r; lra|lra]. }
  lra.
Qed.
Lemma ab_rnd e x' x b : ab e x' x -> Rabs x <= b -> ab (1001 / 1000 * e + b + / 1000) (rnd x') x.
Proof.
  unfold ab. intros H B. eapply Rle_trans; [apply (rnd_step _ _ _ H)|]. assert (L := least_fine). assert (U := u_fine).
  assert (uround * Rabs x <= uround * b) by (apply Rmult_le_compat_l; lra). lra.
Qed.
Lemma big_rd x : Rabs x <= 1000000 -> rd x = Ok (rnd x).
Proof. intros H. apply (mag_rd x 20); [lia|]. unfold mag. change (bpow radix2 20) with 1048576. lra. Qed.
Lemma ab_op e x' x b : ab e x' x -> Rabs x <= b -> e <= 1000000000 -> b <= 900000 ->
  rd x' = Ok (rnd x') /\ ab (1001 / 1000 * e + b + / 1000) (rnd x') x.
Proof. intros H B E S. split; [|apply ab_rnd; assumption]. apply big_rd. assert (Q := ab_size _ _ _ H E). lra. Qed.
Lemma ab_same x : ab 0 x x.
Proof. unfold ab. rewrite Rminus_diag_eq, Rabs_R0 by reflexivity. lra. Qed.
Lemma ab_of_rel k x' x b : rel k x' x -> few k -> x <= b -> ab (k * b) x' x.
Proof.
  intros [P D] K B. unfold ab, few in *. eapply Rle_trans; [exact D|]. rewrite Rmult_assoc. apply Rmult_le_compat_l; [generalize u_fine; lra|]. apply Rmult_le_compat_l; lra.
Qed.
Lemma ab_mul e f x' x y' y a b : ab e x' x -> ab f y' y -> Rabs x <= a -> Rabs y <= b -> 0 <= e <= 1000000000 -> 0 <= f <= 1000000000 -> 0 <= a -> 0 <= b ->
  ab (e * (b + / 1000000) + a * f) (x' * y') (x * y).
Proof.
  intros H1 H2 A B E F A0 B0. assert (S := ab_size _ _ _ H2 ltac:(lra)). unfold ab in *. eapply Rle_trans; [apply (mul_err _ _ _ _ _ _ a (b + / 1000000) H1 H2 A); lra|]. right. ring.
Qed.

(** ** logarithm and power *)
Lemma ln_btw n x : btw (- n) n x -> (0 <= n)%Z -> Rabs (ln x) <= IZR n.
Proof.
  intros H N. assert (TP := btw_pos _ _ _ H). destruct H as [A B]. assert (L2 := ln_below 2 ltac:(lra)). assert (L0 : 0 < ln 2) by (rewrite <- ln_1; apply ln_increasing; lra).
  assert (LE : forall x y, 0 < x -> x <= y -> ln x <= ln y). { intros y z Y [Q| ->]; [left; apply ln_increasing; assumption|lra]. }
  apply LE in A; [|apply bpow_gt_0]. apply LE in B; [|exact TP]. rewrite bpow_exp, ln_exp in A. rewrite bpow_exp, ln_exp in B. change (IZR radix2) with 2 in A, B.
  apply IZR_le in N. rewrite opp_IZR in A. apply Rabs_le. assert (IZR n * ln 2 <= IZR n * 1) by (apply Rmult_le_compat_l; lra). lra.
Qed.
Lemma log_any mlog k X' X n : log_accurate mlog -> is_double X' -> rel k X' X -> 0 <= k <= 1000 -> btw (- n) n X -> (0 <= n <= 2000)%Z ->
  exists lg, log_d mlog X' = Ok lg /\ ab (201 / 100 * Rabs (ln X) + 1002 / 1000 * k + / 100) lg (ln X) /\ Rabs (ln X) <= IZR n.
Proof.
  intros HL D R K H N. assert (P := btw_pos _ _ _ H). assert (LB := ln_btw _ _ H ltac:(lia)). assert (FK : few k) by (unfold few; lra).
  assert (LR := ln_rel _ _ _ R FK P). assert (RR := r_range _ _ _ R FK). assert (XP : 0 < X') by lra. destruct (HL X' D XP) as [DL E].
  assert (U := u_fine). assert (LE := least_fine). assert (NB : IZR n <= 2000) by (apply (IZR_le n 2000); lia).
  set (a := Rabs (ln X)) in *. assert (A0 : 0 <= a) by apply Rabs_pos. assert (UA : 0 <= uround * a) by (apply Rmult_le_pos; lra).
  assert (UK : 0 <= uround * k <= / 1000000000). { split; [apply Rmult_le_pos; lra|]. apply Rle_trans with (/ 1000000000000000 * 1000); [apply Rmult_le_compat; lra|lra]. }
  assert (S1 : Rabs (ln X') <= a + / 100000000) by (apply near_size in LR; fold a in LR; lra).
  assert (Q : ab (201 / 100 * a + 1002 / 1000 * k + / 100) (mlog X') (ln X)).
  { unfold ab. replace (mlog X' - ln X) with ((mlog X' - ln X') + (ln X' - ln X)) by ring. eapply Rle_trans; [apply Rabs_triang|].
    assert (2 * uround * Rabs (ln X') <= 2 * uround * (a + / 100000000)) by (apply Rmult_le_compat_l; lra). lra. }
  exists (mlog X'). split; [|split; [exact Q|exact LB]]. unfold log_d. destruct Rlt_dec as [_|C]; [|contradiction].
  rewrite big_rd; [f_equal; apply rnd_id; exact DL|]. apply ab_size in Q; [|lra]. fold a in Q. lra.
Qed.
Lemma ln10_2 : 2 <= ln 10.
Proof.
  rewrite <- (ln_exp 2). assert (E := exp_le_3). assert (exp 2 < 10). { replace 2 with (1 + 1) by ring. rewrite exp_plus. assert (0 < exp 1) by apply exp_pos. nra. }
  left. apply ln_increasing; [apply exp_pos|assumption].
Qed.
Lemma log10_any m10 k X' X n : log10_accurate m10 -> is_double X' -> rel k X' X -> 0 <= k <= 1000 -> btw (- n) n X -> (0 <= n <= 2000)%Z ->
  exists lg, log_d m10 X' = Ok lg /\ ab (201 / 100 * Rabs (ln X / ln 10) + 501 / 1000 * k + / 100) lg (ln X / ln 10) /\ Rabs (ln X / ln 10) <= IZR n.
Proof.
  intros HL D R K H N. assert (P := btw_pos _ _ _ H). assert (LB := ln_btw _ _ H ltac:(lia)). assert (FK : few k) by (unfold few; lra).
  assert (LR := ln_rel _ _ _ R FK P). assert (RR := r_range _ _ _ R FK). assert (XP : 0 < X') by lra. destruct (HL X' D XP) as [DL E].
  assert (U := u_fine). assert (LE := least_fine). assert (NB : IZR n <= 2000) by (apply (IZR_le n 2000); lia). assert (T := ln10_2).
  assert (I1 : 0 < / ln 10 <= / 2) by (split; [apply Rinv_0_lt_compat; lra|apply Rinv_le_contravar; lra]). unfold Rdiv in *. set (i := / ln 10) in *.
  assert (LR2 : Rabs (ln X' * i - ln X * i) <= uround * (501 / 1000 * k)).
  { replace (ln X' * i - ln X * i) with ((ln X' - ln X) * i) by ring. rewrite Rabs_mult, (Rabs_pos_eq i) by lra.
    apply Rle_trans with (uround * (1001 * / 1000 * k) * / 2); [apply Rmult_le_compat; try lra; apply Rabs_pos|]. assert (0 <= uround * k) by (apply Rmult_le_pos; lra). lra. }
  assert (LB2 : Rabs (ln X * i) <= IZR n).
  { rewrite Rabs_mult, (Rabs_pos_eq i) by lra. assert (Q := Rabs_pos (ln X)). apply Rle_trans with (Rabs (ln X) * 1); [apply Rmult_le_compat_l; lra|lra]. }
  set (a := Rabs (ln X * i)) in *. assert (A0 : 0 <= a) by apply Rabs_pos. assert (UA : 0 <= uround * a) by (apply Rmult_le_pos; lra).
  assert (UK : 0 <= uround * k <= / 1000000000). { split; [apply Rmult_le_pos; lra|]. apply Rle_trans with (/ 1000000000000000 * 1000); [apply Rmult_le_compat; lra|lra]. }
  assert (S1 : Rabs (ln X' * i) <= a + / 100000000) by (apply near_size in LR2; fold a in LR2; lra).
  assert (Q : ab (201 * / 100 * a + 501 * / 1000 * k + / 100) (m10 X') (ln X * i)).
  { unfold ab. replace (m10 X' - ln X * i) with ((m10 X' - ln X' * i) + (ln X' * i - ln X * i)) by ring. eapply Rle_trans; [apply Rabs_triang|].
    assert (2 * uround * Rabs (ln X' * i) <= 2 * uround * (a + / 100000000)) by (apply Rmult_le_compat_l; lra). lra. }
  exists (m10 X'). split; [|split; [exact Q|exact LB2]]. unfold log_d. destruct Rlt_dec as [_|C]; [|contradiction].
  rewrite big_rd; [f_equal; apply rnd_id; exact DL|]. apply ab_size in Q; [|lra]. fold a in Q. lra.
Qed.
Lemma exp_near e : Rabs e <= / 1000000 -> Rabs (exp e - 1) <= 1001 / 1000 * Rabs e.
Proof.
  intros H. assert (L : 1 + e <= exp e) by (destruct (Req_dec e 0) as [->|N]; [rewrite exp_0; lra|left; apply exp_ineq1; exact N]).
  assert (M : 1 - e <= exp (- e)) by (destruct (Req_dec e 0) as [->|N]; [rewrite Ropp_0, exp_0; lra|left; apply exp_ineq1; lra]).
  assert (P : exp e * exp (- e) = 1) by (rewrite <- exp_plus, Rplus_opp_r; apply exp_0). assert (E := exp_pos e).
  assert (Hi : exp e <= 1 + 1001 / 1000 * Rabs e).
  { apply Rabs_le_inv in H as H'. assert (exp e * (1 - e) <= 1) by (rewrite <- P; apply Rmult_le_compat_l; lra). revert H. unfold Rabs. destruct Rcase_abs; intros; nra. }
  apply Rabs_le. split; [|lra]. assert (Q := Rabs_pos e). assert (- Rabs e <= e) by (generalize (Rabs_le_inv e (Rabs e) (Rle_refl _)); lra). lra.
Qed.
Lemma pow_Z mpow Z : pow_accurate mpow -> is_double Z -> btw (-10) 10 Z ->
  exists pz, pow_d mpow Z m019_d = Ok pz /\ rel 5 pz (Rpower Z (- (19 / 100))) /\ btw (-4) 4 (Rpower Z (- (19 / 100))).
Proof.
  intros HP D H. assert (P := btw_pos _ _ _ H). assert (LB := ln_btw 10 _ H ltac:(lia)). assert (U := u_fine). assert (LE := least_fine).
  assert (E3 := exp_le_3). assert (E0 := exp_pos 1). assert (E2 : exp 2 <= 9) by (replace 2 with (1 + 1) by ring; rewrite exp_plus; nra).
  assert (RB : / 9 <= Rpower Z (- (19 / 100)) <= 9).
  { unfold Rpower. apply Rabs_le_inv in LB. change (IZR 10) with 10 in LB. split.
    - apply Rle_trans with (exp (- (2))); [rewrite exp_Ropp; apply Rinv_le_contravar; [apply exp_pos|exact E2]|]. left. apply exp_increasing. lra.
    - apply Rle_trans with (exp 2); [|exact E2]. left. apply exp_increasing. lra. }
  set (r := Rpower Z (- (19 / 100))) in *.
  assert (Q : Rabs (m019_d - - (19 / 100)) <= uround * / 5).
  { eapply Rle_trans; [apply rnd_err|]. rewrite Rabs_Ropp, Rabs_pos_eq by lra. lra. }
  set (e := (m019_d - - (19 / 100)) * ln Z). assert (EB : Rabs e <= uround * 2).
  { unfold e. rewrite Rabs_mult. apply Rle_trans with (uround * / 5 * 10); [apply Rmult_le_compat; auto using Rabs_pos|lra]. }
  assert (RE : Rpower Z m019_d = r * exp e).
  { unfold r, Rpower. rewrite <- exp_plus. f_equal. unfold e. ring. }
  assert (XE := exp_near e ltac:(lra)).
  assert (D1 : Rabs (Rpower Z m019_d - r) <= uround * (201 / 100) * r).
  { rewrite RE. replace (r * exp e - r) with (r * (exp e - 1)) by ring. rewrite Rabs_mult, (Rabs_pos_eq r) by lra. rewrite Rmult_comm. apply Rmult_le_compat_r; lra. }
  assert (UR : 0 <= uround * r <= / 1000000) by (split; [apply Rmult_le_pos; lra|]; apply Rle_trans with (/ 1000000000000000 * 9); [apply Rmult_le_compat; lra|lra]).
  set (r' := Rpower Z m019_d) in *. assert (R' : / 10 <= r' <= 10) by (apply Rabs_le_inv in D1; lra).
  destruct (HP Z m019_d D (rnd_double _) P) as [DD E]. { fold r'. apply Rle_trans with (bpow radix2 4); [change (bpow radix2 4) with 16; lra|apply bpow_le; lia]. }
  fold r' in E. exists (mpow Z m019_d).
  assert (D2 : Rabs (mpow Z m019_d - r) <= uround * 5 * r).
  { replace (mpow Z m019_d - r) with ((mpow Z m019_d - r') + (r' - r)) by ring. eapply Rle_trans; [apply Rabs_triang|].
    assert (2 * uround * r' <= 2 * uround * (r + / 1000)) by (apply Rmult_le_compat_l; [lra|]; apply Rabs_le_inv in D1; lra).
    assert (uround * / 9 <= uround * r) by (apply Rmult_le_compat_l; lra). lra. }
  split; [|split; [split; [lra|exact D2]|split; [change (bpow radix2 (-4)) with (/ 16)|change (bpow radix2 4) with 16]; lra]].
  unfold pow_d. destruct Rlt_dec as [_|C]; [|contradiction]. rewrite big_rd; [f_equal; apply rnd_id; exact DD|].
  apply near_size in D2. rewrite (Rabs_pos_eq r) in D2 by lra. lra.
Qed.

(** ** the density correction *)
Definition cl (x : R) : R := Rmax 0 (Rmin 3 (3 - x)).
Lemma cl_range x : 0 <= cl x <= 3.
Proof. unfold cl, Rmax, Rmin. repeat destruct Rle_dec; lra. Qed.
Lemma dens_form x C : density_effect x C = 4606 / 1000 * Rmax x 0 - C * (1 - cl x * cl x * cl x / 27).
Proof.
  unfold density_effect, cl, Rmax, Rmin. destruct (Rlt_dec x 0); [|destruct (Rlt_dec x 3)]; repeat destruct Rle_dec; try (exfalso; lra); try field; (replace x with 0 by lra; field) || (replace x with 3 by lra; field).
Qed.
Lemma cube_lip a b : 0 <= a <= 3 -> 0 <= b <= 3 -> Rabs (a * a * a - b * b * b) <= 27 * Rabs (a - b).
Proof.
  intros A B. replace (a * a * a - b * b * b) with ((a * a + a * b + b * b) * (a - b)) by ring. rewrite Rabs_mult. apply Rmult_le_compat_r; [apply Rabs_pos|].
  rewrite Rabs_pos_eq by nra. nra.
Qed.
Lemma dens_size x C : Rabs (density_effect x C) <= 4606 / 1000 * Rabs x + Rabs C.
Proof.
  rewrite dens_form. assert (R := cl_range x). set (g := cl x) in *. unfold Rminus at 1. eapply Rle_trans; [apply Rabs_triang|]. rewrite Rabs_Ropp, !Rabs_mult, (Rabs_pos_eq (4606 / 1000)) by lra.
  apply Rplus_le_compat.
  - apply Rmult_le_compat_l; [lra|]. unfold Rmax. destruct Rle_dec; [rewrite Rabs_R0; apply Rabs_pos|lra].
  - rewrite <- (Rmult_1_r (Rabs C)) at 2. apply Rmult_le_compat_l; [apply Rabs_pos|]. assert (0 <= g * g * g <= 27).
    { split; [apply Rmult_le_pos; [apply Rmult_le_pos|]; lra|]. replace 27 with (3 * 3 * 3) by ring. apply Rmult_le_compat; try lra; [apply Rmult_le_pos; lra|apply Rmult_le_compat; lra]. }
    rewrite Rabs_pos_eq; lra.
Qed.
Lemma dens_move x' x C : ab (201 / 100 * Rabs x + 35 / 10) x' x -> Rabs x <= 100 ->
  ab (93 / 10 * Rabs x + 162 / 10 + 12 * Rabs C) (density_effect x' C) (density_effect x C).
Proof.
  intros H B. assert (U := u_fine). assert (X0 := Rabs_pos x). assert (C0 := Rabs_pos C).
  assert (D1 : Rabs (Rmax x' 0 - Rmax x 0) <= Rabs (x' - x)) by (unfold Rmax, Rabs; repeat destruct Rle_dec; repeat destruct Rcase_abs; lra).
  assert (D2 : Rabs (cl x' - cl x) <= uround * 12).
  { destruct (Rle_lt_dec (Rabs x) 4) as [L|L].
    - apply Rle_trans with (Rabs (x' - x)); [unfold cl, Rmax, Rmin, Rabs; repeat destruct Rle_dec; repeat destruct Rcase_abs; lra|].
      eapply Rle_trans; [exact H|]. apply Rmult_le_compat_l; lra.
    - assert (S : Rabs (x' - x) <= / 10).
      { eapply Rle_trans; [exact H|]. apply Rle_trans with (/ 1000000000000000 * 300); [apply Rmult_le_compat; lra|lra]. }
      apply Rabs_le_inv in S. assert (cl x' = cl x).
      { revert L. unfold Rabs. destruct Rcase_abs; intros L; unfold cl, Rmax, Rmin; repeat destruct Rle_dec; lra. }
      rewrite H0, Rminus_diag_eq, Rabs_R0 by reflexivity. lra. }
  rewrite !dens_form. assert (D3 := cube_lip _ _ (cl_range x') (cl_range x)). unfold ab in *. set (q' := cl x' * cl x' * cl x') in *. set (q := cl x * cl x * cl x) in *.
  replace (4606 / 1000 * Rmax x' 0 - C * (1 - q' / 27) - (4606 / 1000 * Rmax x 0 - C * (1 - q / 27))) with (4606 / 1000 * (Rmax x' 0 - Rmax x 0) + C * ((q' - q) / 27)) by field.
  eapply Rle_trans; [apply Rabs_triang|]. rewrite !Rabs_mult, (Rabs_pos_eq (4606 / 1000)) by lra.
  assert (D4 : Rabs ((q' - q) / 27) <= uround * 12). { unfold Rdiv. rewrite Rabs_mult, (Rabs_pos_eq (/ 27)) by lra. lra. }
  assert (Rabs C * Rabs ((q' - q) / 27) <= Rabs C * (uround * 12)) by (apply Rmult_le_compat_l; assumption).
  assert (0 <= uround * Rabs x) by (apply Rmult_le_pos; lra). lra.
Qed.
Lemma d_small n : (Z.abs n < 2 ^ 53)%Z -> is_double (IZR n).
Proof.
  intros H. replace (IZR n) with (IZR n * bpow radix2 0) by (change (bpow radix2 0) with 1; ring). apply PathLibFacts.dyadic; lia.
Qed.
Lemma corr_ok mpow x' C c a : pow_accurate mpow -> is_double x' -> ab (42 / 10 * Rabs C + 46) c C -> ab (2 / 10 * Rabs C + 18 / 10) a (C / 27) -> Rabs C <= 200 -> Rabs x' <= 100 ->
  exists dl, density_corr_d mpow x' (- c) a = Ok dl /\ ab (19 * Rabs x' + 19 * Rabs C + 96) dl (density_effect x' C).
Proof.
  intros HP DX HC HA CB XB. assert (X0 := Rabs_pos x'). assert (C0 := Rabs_pos C). assert (U := u_fine). assert (LE := least_fine).
  assert (K1 : ab (461 / 100) c4606_d (4606 / 1000)). { unfold ab. eapply Rle_trans; [apply rnd_err|]. rewrite Rabs_pos_eq; lra. }
  assert (M1 : ab (47 / 10 * Rabs x') (c4606_d * x') (4606 / 1000 * x')).
  { unfold ab in *. replace (c4606_d * x' - 4606 / 1000 * x') with ((c4606_d - 4606 / 1000) * x') by ring. rewrite Rabs_mult.
    apply Rle_trans with (uround * (461 / 100) * Rabs x'); [apply Rmult_le_compat_r; lra|]. assert (0 <= uround * Rabs x') by (apply Rmult_le_pos; lra). lra. }
  assert (S1 : Rabs (4606 / 1000 * x') <= 4606 / 1000 * Rabs x') by (rewrite Rabs_mult, (Rabs_pos_eq (4606 / 1000)); lra).
  destruct (ab_op _ _ _ _ M1 S1 ltac:(lra) ltac:(lra)) as [E2 R2]. set (p := rnd (c4606_d * x')) in *.
  assert (R3 := ab_sub _ _ _ _ _ _ R2 HC). replace (p - c) with (p + - c) in R3 by ring.
  assert (S3 : Rabs (4606 / 1000 * x' - C) <= 4606 / 1000 * Rabs x' + Rabs C). { unfold Rminus. eapply Rle_trans; [apply Rabs_triang|]. rewrite Rabs_Ropp. lra. }
  destruct (ab_op _ _ _ _ R3 S3 ltac:(lra) ltac:(lra)) as [E4 R4]. set (q := rnd (p + - c)) in *.
  unfold density_corr_d, density_effect. destruct (Rle_dec 3 x') as [L3|L3]; [|destruct (Rle_dec 0 x') as [L0|L0]].
  - destruct (Rlt_dec x' 0); [lra|]. destruct (Rlt_dec x' 3); [lra|]. exists q. split; [rewrite E2; cbn [bind]; exact E4|]. apply (ab_weak _ _ _ _ R4). lra.
  - destruct (Rlt_dec x' 0); [lra|]. destruct (Rlt_dec x' 3) as [_|N]; [|lra].
    assert (Y1 := ab_same (3 - x')). destruct (ab_op _ _ _ 3 Y1 ltac:(rewrite Rabs_pos_eq; lra) ltac:(lra) ltac:(lra)) as [E5 R5].
    assert (YP : 0 < rnd (3 - x')).
    { assert (D3 : is_double 3) by (apply (d_small 3); reflexivity). assert (YN : rnd (3 - x') <> 0).
      { intros Z0. unfold rnd in Z0. apply (Flocq.Prop.Plus_error.round_plus_neq_0 radix2 (FLT_exp (-1074) 53) ZnearestE 3 (- x')); auto.
        - apply generic_format_opp; exact DX.
        - lra. }
      assert (0 <= rnd (3 - x')) by (rewrite <- rnd_0; apply round_le; auto with typeclass_instances; lra). lra. }
    set (y := rnd (3 - x')) in *.
    assert (Y3 : y <= rnd 3) by (apply round_le; auto with typeclass_instances; lra). rewrite (rnd_id 3) in Y3 by (apply (d_small 3); reflexivity).
    assert (PW : Rpower y 3 = y * y * y). { replace 3 with (INR 3) by (cbn; ring). rewrite Rpower_pow by exact YP. ring. }
    assert (CU : 0 <= y * y * y <= 27). { split; [apply Rmult_le_pos; [apply Rmult_le_pos|]; lra|]. replace 27 with (3 * 3 * 3) by ring. apply Rmult_le_compat; try lra; [apply Rmult_le_pos; lra|apply Rmult_le_compat; lra]. }
    destruct (HP y 3 (rnd_double _) ltac:(apply (d_small 3); reflexivity) YP) as [DW EW].
    { rewrite PW. apply Rle_trans with (bpow radix2 5); [change (bpow radix2 5) with 32; lra|apply bpow_le; lia]. }
    rewrite PW in EW. assert (CL := cube_lip y (3 - x') ltac:(lra) ltac:(lra)).
    set (Q := (3 - x') * (3 - x') * (3 - x')) in *. assert (QB : 0 <= Q <= 27).
    { unfold Q. split; [apply Rmult_le_pos; [apply Rmult_le_pos|]; lra|]. replace 27 with (3 * 3 * 3) by ring. apply Rmult_le_compat; try lra; [apply Rmult_le_pos; lra|apply Rmult_le_compat; lra]. }
    assert (RW : ab 136 (mpow y 3) Q).
    { unfold ab in *. replace (mpow y 3 - Q) with ((mpow y 3 - y * y * y) + (y * y * y - Q)) by ring. eapply Rle_trans; [apply Rabs_triang|].
      assert (2 * uround * (y * y * y) <= 2 * uround * 27) by (apply Rmult_le_compat_l; lra). lra. }
    assert (EP : pow_d mpow y 3 = Ok (mpow y 3)).
    { unfold pow_d. destruct Rlt_dec as [_|N]; [|contradiction]. rewrite big_rd; [f_equal; apply rnd_id; exact DW|]. apply ab_size in RW; [|lra]. rewrite (Rabs_pos_eq Q) in RW by lra. lra. }
    assert (SC : Rabs (C / 27) <= Rabs C / 27) by (unfold Rdiv; rewrite Rabs_mult, (Rabs_pos_eq (/ 27)); lra).
    assert (RV := ab_mul _ _ _ _ _ _ (Rabs C / 27) 27 HA RW SC ltac:(rewrite Rabs_pos_eq; lra) ltac:(lra) ltac:(lra) ltac:(lra) ltac:(lra)).
    assert (SV : Rabs (C / 27 * Q) <= Rabs C). { rewrite Rabs_mult, (Rabs_pos_eq Q) by lra. apply Rle_trans with (Rabs C / 27 * 27); [apply Rmult_le_compat; try lra; apply Rabs_pos|lra]. }
    destruct (ab_op _ _ _ _ RV SV ltac:(lra) ltac:(lra)) as [E6 R6]. set (v := rnd (a * mpow y 3)) in *.
    assert (R7 := ab_add _ _ _ _ _ _ R4 R6).
    assert (S7 : Rabs (4606 / 1000 * x' - C + C / 27 * Q) <= 4606 / 1000 * Rabs x' + Rabs C).
    { assert (T := dens_size x' C). unfold density_effect in T. destruct (Rlt_dec x' 0); [lra|]. destruct (Rlt_dec x' 3) as [_|N]; [|lra]. exact T. }
    destruct (ab_op _ _ _ _ R7 S7 ltac:(lra) ltac:(lra)) as [E8 R8].
    exists (rnd (q + v)). split; [|apply (ab_weak _ _ _ _ R8); lra].
    rewrite E2. cbn [bind]. fold p. rewrite E4. cbn [bind]. fold q. rewrite E5. cbn [bind]. fold y. rewrite EP. cbn [bind]. rewrite E6. cbn [bind]. exact E8.
  - destruct (Rlt_dec x' 0) as [_|N]; [|lra]. exists 0. split; [reflexivity|]. apply (ab_weak 0); [apply ab_same|]. lra.
Qed.

(** ** Bethe-Bloch *)
Ltac fw := unfold few; lra.
Section Bethe.
Variables (mlog m10 : R -> R) (mpow : R -> R -> R) (mat : material) (p' p m : R).
Hypothesis HL : log_accurate mlog.
Hypothesis H10 : log10_accurate m10.
Hypothesis HPW : pow_accurate mpow.
Hypothesis HM : ordinary_material mat.
Hypothesis HP : moderate p.
Hypothesis HP' : rel 4 p' p.
Hypothesis Hm : moderate m.
Let Z := mat_Z mat. Let A := mat_A mat. Let rho := mat_density mat.
Let I := excitation Z. Let W := plasma rho Z A.
Let y := p * p / (m * m).
Let me := electron_mass.

Lemma Z_r : btw (-10) 10 Z.
Proof. exact (om_Z _ HM). Qed.
Lemma A_r : btw (-30) 30 A.
Proof. exact (om_A _ HM). Qed.
Lemma rho_r : btw (-30) 30 rho.
Proof. exact (om_density _ HM). Qed.
Lemma p_r : btw (-30) 30 p.
Proof. exact HP. Qed.
Lemma m_r : btw (-30) 30 m.
Proof. exact Hm. Qed.
Lemma y_r : btw (-120) 120 y.
Proof. apply (btw_weak _ _ _ _ _ (btw_div _ _ _ _ _ _ (btw_mul _ _ _ _ _ _ p_r p_r) (btw_mul _ _ _ _ _ _ m_r m_r))); lia. Qed.
Lemma gam_r : btw 0 121 (1 + y).
Proof.
  assert (Q := y_r). assert (P := btw_pos _ _ _ Q). destruct Q as [_ Q]. split; [change (bpow radix2 0) with 1; lra|].
  replace 121%Z with (120 + 1)%Z by reflexivity. rewrite bpow_plus. change (bpow radix2 1) with 2.
  assert (1 <= bpow radix2 120) by (change 1 with (bpow radix2 0); apply bpow_le; lia). lra.
Qed.
Lemma lit x a b : btw a b x -> (-700 <= a)%Z -> (-1000 <= b <= 900)%Z -> rel (101 / 100) (rnd x) x.
Proof.
  intros H L K. assert (P := btw_pos _ _ _ H). assert (P0 : 0 <= x) by lra. destruct (r_op 0 x x _ _ (r_same _ P0) ltac:(fw) H L K) as [_ R]. apply (r_weak _ _ _ _ R). lra.
Qed.
Lemma exc_ok : exists i1 pz i2 i3 i, rd (c976_d * Z) = Ok i1 /\ pow_d mpow Z m019_d = Ok pz /\ rd (c588_d * pz) = Ok i2 /\ rd (i1 + i2) = Ok i3 /\ rd (i3 * nano_d) = Ok i
  /\ rel 11 i I /\ btw (-37) (-14) I.
Proof.
  assert (ZR := Z_r). assert (ZP := btw_pos _ _ _ ZR).
  assert (C1 : btw 3 4 (976 / 100)) by (split; [change (bpow radix2 3) with 8|change (bpow radix2 4) with 16]; lra).
  assert (C2 : btw 5 6 (588 / 10)) by (split; [change (bpow radix2 5) with 32|change (bpow radix2 6) with 64]; lra).
  assert (C3 : btw (-30) (-29) (/ 1000000000)) by (split; [change (bpow radix2 (-30)) with (/ 1073741824)|change (bpow radix2 (-29)) with (/ 536870912)]; lra).
  assert (L1 := lit _ _ _ C1 ltac:(lia) ltac:(lia)). fold c976_d in L1. assert (L2 := lit _ _ _ C2 ltac:(lia) ltac:(lia)). fold c588_d in L2. assert (L3 := lit _ _ _ C3 ltac:(lia) ltac:(lia)). fold nano_d in L3.
  assert (Z0 : 0 <= Z) by lra. assert (R1 := r_mul _ _ _ _ _ _ L1 (r_same _ Z0) ltac:(fw) ltac:(fw)). assert (B1 := btw_mul _ _ _ _ _ _ C1 ZR).
  destruct (r_op _ _ _ _ _ R1 ltac:(fw) B1 ltac:(lia) ltac:(lia)) as [E1 Q1].
  destruct (pow_Z mpow Z HPW (om_double _ HM) ZR) as (pz & EP & RP & BP).
  assert (R2 := r_mul _ _ _ _ _ _ L2 RP ltac:(fw) ltac:(fw)). assert (B2 := btw_mul _ _ _ _ _ _ C2 BP).
  destruct (r_op _ _ _ _ _ R2 ltac:(fw) B2 ltac:(lia) ltac:(lia)) as [E2 Q2].
  apply (r_weak _ (71 / 10)) in Q1; [|lra]. apply (r_weak _ (71 / 10)) in Q2; [|lra]. assert (R3 := r_add _ _ _ _ _ Q1 Q2).
  assert (B3 : btw (-7) 15 (976 / 100 * Z + 588 / 10 * Rpower Z (- (19 / 100)))).
  { apply (btw_add (-7) 14); [right; apply (btw_weak _ _ _ _ _ B1); lia|right; apply (btw_weak _ _ _ _ _ B2); lia|]. assert (U1 := btw_pos _ _ _ B1). assert (U2 := btw_pos _ _ _ B2). lra. }
  destruct (r_op _ _ _ _ _ R3 ltac:(fw) B3 ltac:(lia) ltac:(lia)) as [E3 Q3].
  assert (R4 := r_mul _ _ _ _ _ _ Q3 L3 ltac:(fw) ltac:(fw)). assert (B4 := btw_mul _ _ _ _ _ _ B3 C3).
  destruct (r_op _ _ _ _ _ R4 ltac:(fw) B4 ltac:(lia) ltac:(lia)) as [E4 Q4].
  do 5 eexists. split; [exact E1|]. split; [exact EP|]. split; [exact E2|]. split; [exact E3|]. split; [exact E4|].
  split; [apply (r_weak _ _ _ _ Q4); lra|]. apply (btw_weak _ _ _ _ _ B4); lia.
Qed.
Lemma pla_ok : exists d1 d2 sq h1 h, rd (rho * Z) = Ok d1 /\ rd_div d1 A = Ok d2 /\ sqrt_d d2 = Ok sq /\ rd (c28816_d * sq) = Ok h1 /\ rd (h1 * nano_d) = Ok h
  /\ rel 7 h W /\ btw (-61) 11 W.
Proof.
  assert (ZR := Z_r). assert (AR := A_r). assert (RR := rho_r). assert (B1 := btw_mul _ _ _ _ _ _ RR ZR).
  assert (C2 : btw 4 5 (28816 / 1000)) by (split; [change (bpow radix2 4) with 16|change (bpow radix2 5) with 32]; lra).
  assert (C3 : btw (-30) (-29) (/ 1000000000)) by (split; [change (bpow radix2 (-30)) with (/ 1073741824)|change (bpow radix2 (-29)) with (/ 536870912)]; lra).
  assert (L2 := lit _ _ _ C2 ltac:(lia) ltac:(lia)). fold c28816_d in L2. assert (L3 := lit _ _ _ C3 ltac:(lia) ltac:(lia)). fold nano_d in L3.
  assert (P1 := btw_pos _ _ _ B1). assert (P0 : 0 <= rho * Z) by lra.
  destruct (r_op _ _ _ _ _ (r_same _ P0) ltac:(fw) B1 ltac:(lia) ltac:(lia)) as [E1 Q1].
  assert (A0 := btw_pos _ _ _ AR). assert (A1 : 0 <= A) by lra.
  destruct (r_div _ _ _ _ _ _ Q1 (r_same _ A1) ltac:(fw) ltac:(fw) A0) as [R2 _]. assert (B2 := btw_div _ _ _ _ _ _ B1 AR).
  destruct (r_op _ _ _ _ _ R2 ltac:(fw) B2 ltac:(lia) ltac:(lia)) as [E2 Q2].
  assert (E3 := sqrt_ok _ _ _ Q2 ltac:(fw)). apply r_sqrt in Q2; [|fw].
  assert (B3 : btw (-35) 35 (sqrt (rho * Z / A))) by (apply btw_sqrt; apply (btw_weak _ _ _ _ _ B2); lia).
  apply r_rnd in Q2; [|fw|apply (btw_usable _ _ _ B3); lia].
  assert (R4 := r_mul _ _ _ _ _ _ L2 Q2 ltac:(fw) ltac:(fw)). assert (B4 := btw_mul _ _ _ _ _ _ C2 B3).
  destruct (r_op _ _ _ _ _ R4 ltac:(fw) B4 ltac:(lia) ltac:(lia)) as [E4 Q4].
  assert (R5 := r_mul _ _ _ _ _ _ Q4 L3 ltac:(fw) ltac:(fw)). assert (B5 := btw_mul _ _ _ _ _ _ B4 C3).
  destruct (r_op _ _ _ _ _ R5 ltac:(fw) B5 ltac:(lia) ltac:(lia)) as [E5 Q5].
  do 5 eexists. split; [exact E1|]. split; [rewrite div_ok by exact A0; exact E2|]. split; [exact E3|]. split; [exact E4|]. split; [exact E5|].
  split; [apply (r_weak _ _ _ _ Q5); lra|]. apply (btw_weak _ _ _ _ _ B5); lia.
Qed.
Lemma kin_ok : exists mm ww bg gm, rd (p' * p') = Ok mm /\ rd (m * m) = Ok ww /\ rd_div mm ww = Ok bg /\ rd (1 + bg) = Ok gm /\ rel (112 / 10) bg y /\ rel (123 / 10) gm (1 + y).
Proof.
  assert (PR := p_r). assert (MR := m_r). assert (PP := btw_mul _ _ _ _ _ _ PR PR). assert (MM := btw_mul _ _ _ _ _ _ MR MR).
  assert (R1 := r_mul _ _ _ _ _ _ HP' HP' ltac:(fw) ltac:(fw)). destruct (r_op _ _ _ _ _ R1 ltac:(fw) PP ltac:(lia) ltac:(lia)) as [E1 Q1].
  assert (M0 := btw_pos _ _ _ MM). assert (M1 : 0 <= m * m) by lra. destruct (r_op _ _ _ _ _ (r_same _ M1) ltac:(fw) MM ltac:(lia) ltac:(lia)) as [E2 Q2].
  destruct (r_div _ _ _ _ _ _ Q1 Q2 ltac:(fw) ltac:(fw) M0) as [R3 P3]. destruct (r_op _ _ _ _ _ R3 ltac:(fw) y_r ltac:(lia) ltac:(lia)) as [E3 Q3]. fold y in Q3.
  apply (r_weak _ (112 / 10)) in Q3; [|lra]. assert (R4 := r_add _ _ _ _ _ (r_weak _ (112 / 10) _ _ (r_same 1 Rle_0_1) ltac:(lra)) Q3).
  destruct (r_op _ _ _ _ _ R4 ltac:(fw) gam_r ltac:(lia) ltac:(lia)) as [E4 Q4].
  do 4 eexists. split; [exact E1|]. split; [exact E2|]. split; [rewrite div_ok by exact P3; exact E3|]. split; [exact E4|]. split; [exact Q3|]. apply (r_weak _ _ _ _ Q4). lra.
Qed.
Let Dx := ln (sqrt y) / ln 10.
Let Cc := 2 * ln (I / W) + 1.
Lemma x_ok bg : rel (112 / 10) bg y -> exists sb x, sqrt_d bg = Ok sb /\ log_d m10 sb = Ok x /\ ab (201 / 100 * Rabs Dx + 35 / 10) x Dx /\ Rabs Dx <= 60 /\ is_double x.
Proof.
  intros R. assert (E1 := sqrt_ok _ _ _ R ltac:(fw)). apply r_sqrt in R; [|fw].
  assert (B : btw (-60) 60 (sqrt y)) by (apply btw_sqrt; apply (btw_weak _ _ _ _ _ y_r); lia). apply r_rnd in R; [|fw|apply (btw_usable _ _ _ B); lia].
  destruct (log10_any m10 _ _ _ 60 H10 (rnd_double _) R ltac:(lra) B ltac:(lia)) as (x & E2 & Q & S). fold Dx in Q, S.
  exists (rnd (sqrt bg)), x. split; [exact E1|]. split; [exact E2|]. split; [apply (ab_weak _ _ _ _ Q); lra|]. split; [exact S|].
  unfold log_d, rd in E2. destruct Rlt_dec; [|discriminate]. destruct Rlt_dec; [|discriminate]. injection E2 as <-. apply rnd_double.
Qed.
Lemma c_ok i h : rel 11 i I -> rel 7 h W -> btw (-37) (-14) I -> btw (-61) 11 W -> exists ih l l2 c a, rd_div i h = Ok ih /\ log_d mlog ih = Ok l /\ rd (2 * l) = Ok l2 /\ rd (l2 + 1) = Ok c /\
  rd_div (- - c) 27 = Ok a /\ ab (42 / 10 * Rabs Cc + 46) c Cc /\ ab (2 / 10 * Rabs Cc + 18 / 10) a (Cc / 27) /\ Rabs Cc <= 100.
Proof.
  intros R1 R2 B1 B2. destruct (r_div _ _ _ _ _ _ R1 R2 ltac:(fw) ltac:(fw) (btw_pos _ _ _ B2)) as [R3 P3]. assert (B3 := btw_div _ _ _ _ _ _ B1 B2).
  destruct (r_op _ _ _ _ _ R3 ltac:(fw) B3 ltac:(lia) ltac:(lia)) as [E3 Q3].
  destruct (log_any mlog _ _ _ 48 HL (rnd_double _) Q3 ltac:(lra) ltac:(apply (btw_weak _ _ _ _ _ B3); lia) ltac:(lia)) as (l & E4 & Q4 & S4).
  unfold Cc. set (L := ln (I / W)) in *. assert (L0 := Rabs_pos L). assert (U := u_fine).
  assert (Q5 : ab (402 / 100 * Rabs L + 385 / 10) (2 * l) (2 * L)).
  { unfold ab in *. replace (2 * l - 2 * L) with (2 * (l - L)) by ring. rewrite Rabs_mult, (Rabs_pos_eq 2) by lra. assert (0 <= uround * Rabs L) by (apply Rmult_le_pos; lra). lra. }
  assert (S5 : Rabs (2 * L) <= 2 * Rabs L) by (rewrite Rabs_mult, (Rabs_pos_eq 2); lra).
  destruct (ab_op _ _ _ _ Q5 S5 ltac:(lra) ltac:(lra)) as [E5 Q6].
  assert (Q7 := ab_add _ _ _ _ _ _ Q6 (ab_same 1)). assert (S7 : Rabs (2 * L + 1) <= 97). { eapply Rle_trans; [apply Rabs_triang|]. rewrite Rabs_R1. lra. }
  destruct (ab_op _ _ _ _ Q7 (Rle_refl _) ltac:(lra) ltac:(lra)) as [E8 Q8].
  assert (LC : 2 * Rabs L <= Rabs (2 * L + 1) + 1).
  { assert (T := Rabs_triang (2 * L + 1) (- (1))). rewrite Rabs_Ropp, Rabs_R1 in T. replace (2 * L + 1 + - (1)) with (2 * L) in T by ring. rewrite Rabs_mult, (Rabs_pos_eq 2) in T by lra. exact T. }
  set (C := 2 * L + 1) in *. set (c := rnd (rnd (2 * l) + 1)) in *. apply (ab_weak _ (42 / 10 * Rabs C + 46)) in Q8; [|lra].
  assert (C0 := Rabs_pos C).
  assert (Q9 : ab (156 / 1000 * Rabs C + 171 / 100) (- - c / 27) (C / 27)).
  { unfold ab in *. replace (- - c / 27 - C / 27) with ((c - C) * / 27) by field. rewrite Rabs_mult, (Rabs_pos_eq (/ 27)) by lra. assert (0 <= uround * Rabs C) by (apply Rmult_le_pos; lra). lra. }
  assert (S9 : Rabs (C / 27) <= Rabs C / 27) by (unfold Rdiv; rewrite Rabs_mult, (Rabs_pos_eq (/ 27)); lra).
  destruct (ab_op _ _ _ _ Q9 S9 ltac:(lra) ltac:(lra)) as [E10 Q10].
  do 5 eexists. split; [rewrite div_ok by exact P3; exact E3|]. split; [exact E4|]. split; [exact E5|]. split; [exact E8|]. split; [rewrite div_ok by lra; exact E10|].
  split; [exact Q8|]. split; [apply (ab_weak _ _ _ _ Q10); lra|lra].
Qed.
Let D0 := 1 + me / m * (2 * sqrt (1 + y) + me / m).
Let tm := 2 * me * y / D0.
Let Ll := ln (2 * me * y * tm / (I * I)).
Lemma log_part bg gm i : rel (112 / 10) bg y -> rel (123 / 10) gm (1 + y) -> rel 11 i I -> btw (-37) (-14) I ->
  exists mM t1 t2 sg g1 g2 g3 g4 tx s1 i4 s2 lg h, rd_div kMe_d m = Ok mM /\ rd (2 * kMe_d) = Ok t1 /\ rd (t1 * bg) = Ok t2 /\ sqrt_d gm = Ok sg /\ rd (2 * sg) = Ok g1 /\ rd (g1 + mM) = Ok g2 /\
  rd (mM * g2) = Ok g3 /\ rd (1 + g3) = Ok g4 /\ rd_div t2 g4 = Ok tx /\ rd (t2 * tx) = Ok s1 /\ rd (i * i) = Ok i4 /\ rd_div s1 i4 = Ok s2 /\ log_d mlog s2 = Ok lg /\ rd (/ 2 * lg) = Ok h /\
  ab (152 / 100 * Rabs Ll + 35) h (/ 2 * Ll) /\ Rabs Ll <= 400.
Proof.
  intros RB RG RI BI. assert (YR := y_r). assert (GR := gam_r). assert (MR := m_r). assert (U := u_fine).
  assert (C1 : btw (-11) (-10) me) by (unfold me, electron_mass; split; [change (bpow radix2 (-11)) with (/ 2048)|change (bpow radix2 (-10)) with (/ 1024)]; lra).
  assert (C2 : btw 1 1 2) by (split; change (bpow radix2 1) with 2; lra).
  assert (L1 : rel (101 / 100) kMe_d me).
  { assert (Q := lit _ _ _ C1 ltac:(lia) ltac:(lia)). replace (rnd me) with kMe_d in Q; [exact Q|]. unfold kMe_d, me, electron_mass. f_equal. field. }
  assert (T0 : 0 <= 2) by lra. assert (M0 := btw_pos _ _ _ MR). assert (M1 : 0 <= m) by lra.
  destruct (r_div _ _ _ _ _ _ L1 (r_same _ M1) ltac:(fw) ltac:(fw) M0) as [R1 _]. assert (B1 := btw_div _ _ _ _ _ _ C1 MR). destruct (r_op _ _ _ _ _ R1 ltac:(fw) B1 ltac:(lia) ltac:(lia)) as [E1 Q1].
  assert (R2 := r_mul _ _ _ _ _ _ (r_same _ T0) L1 ltac:(fw) ltac:(fw)). assert (B2 := btw_mul _ _ _ _ _ _ C2 C1). destruct (r_op _ _ _ _ _ R2 ltac:(fw) B2 ltac:(lia) ltac:(lia)) as [E2 Q2].
  assert (R3 := r_mul _ _ _ _ _ _ Q2 RB ltac:(fw) ltac:(fw)). assert (B3 := btw_mul _ _ _ _ _ _ B2 YR). destruct (r_op _ _ _ _ _ R3 ltac:(fw) B3 ltac:(lia) ltac:(lia)) as [E3 Q3].
  assert (E4 := sqrt_ok _ _ _ RG ltac:(fw)). apply r_sqrt in RG; [|fw]. assert (B4 : btw 0 61 (sqrt (1 + y))) by (apply btw_sqrt; apply (btw_weak _ _ _ _ _ GR); lia). apply r_rnd in RG; [|fw|apply (btw_usable _ _ _ B4); lia].
  assert (R5 := r_mul _ _ _ _ _ _ (r_same _ T0) RG ltac:(fw) ltac:(fw)). assert (B5 := btw_mul _ _ _ _ _ _ C2 B4). destruct (r_op _ _ _ _ _ R5 ltac:(fw) B5 ltac:(lia) ltac:(lia)) as [E5 Q5].
  apply (r_weak _ (92 / 10)) in Q5; [|lra]. assert (R6 := r_add _ _ _ _ _ Q5 (r_weak _ (92 / 10) _ _ Q1 ltac:(lra))).
  assert (B6 : btw (-41) 63 (2 * sqrt (1 + y) + me / m)).
  { apply (btw_add (-41) 62); [right; apply (btw_weak _ _ _ _ _ B5); lia|right; apply (btw_weak _ _ _ _ _ B1); lia|]. assert (V1 := btw_pos _ _ _ B5). assert (V2 := btw_pos _ _ _ B1). lra. }
  destruct (r_op _ _ _ _ _ R6 ltac:(fw) B6 ltac:(lia) ltac:(lia)) as [E6 Q6].
  assert (R7 := r_mul _ _ _ _ _ _ Q1 Q6 ltac:(fw) ltac:(fw)). assert (B7 := btw_mul _ _ _ _ _ _ B1 B6). destruct (r_op _ _ _ _ _ R7 ltac:(fw) B7 ltac:(lia) ltac:(lia)) as [E7 Q7].
  apply (r_weak _ (134 / 10)) in Q7; [|lra]. assert (R8 := r_add _ _ _ _ _ (r_weak _ (134 / 10) _ _ (r_same 1 Rle_0_1) ltac:(lra)) Q7). fold D0 in R8.
  assert (B8 : btw (-82) 84 D0).
  { apply (btw_add (-82) 83); [right; split; [change 1 with (bpow radix2 0); apply bpow_le; lia|change 1 with (bpow radix2 0); apply bpow_le; lia]|right; apply (btw_weak _ _ _ _ _ B7); lia|]. assert (V1 := btw_pos _ _ _ B7). lra. }
  destruct (r_op _ _ _ _ _ R8 ltac:(fw) B8 ltac:(lia) ltac:(lia)) as [E8 Q8].
  destruct (r_div _ _ _ _ _ _ Q3 Q8 ltac:(fw) ltac:(fw) (btw_pos _ _ _ B8)) as [R9 P9]. assert (B9 := btw_div _ _ _ _ _ _ B3 B8). destruct (r_op _ _ _ _ _ R9 ltac:(fw) B9 ltac:(lia) ltac:(lia)) as [E9 Q9]. fold tm in Q9, B9.
  assert (R10 := r_mul _ _ _ _ _ _ Q3 Q9 ltac:(fw) ltac:(fw)). assert (B10 := btw_mul _ _ _ _ _ _ B3 B9). destruct (r_op _ _ _ _ _ R10 ltac:(fw) B10 ltac:(lia) ltac:(lia)) as [E10 Q10].
  assert (R11 := r_mul _ _ _ _ _ _ RI RI ltac:(fw) ltac:(fw)). assert (B11 := btw_mul _ _ _ _ _ _ BI BI). destruct (r_op _ _ _ _ _ R11 ltac:(fw) B11 ltac:(lia) ltac:(lia)) as [E11 Q11].
  destruct (r_div _ _ _ _ _ _ Q10 Q11 ltac:(fw) ltac:(fw) (btw_pos _ _ _ B11)) as [R12 P12]. assert (B12 := btw_div _ _ _ _ _ _ B10 B11). destruct (r_op _ _ _ _ _ R12 ltac:(fw) B12 ltac:(lia) ltac:(lia)) as [E12 Q12].
  destruct (log_any mlog _ _ _ 400 HL (rnd_double _) Q12 ltac:(lra) ltac:(apply (btw_weak _ _ _ _ _ B12); lia) ltac:(lia)) as (lg & E13 & Q13 & S13). fold Ll in Q13, S13.
  assert (L0 := Rabs_pos Ll).
  assert (Q14 : ab (1006 / 1000 * Rabs Ll + 348 / 10) (/ 2 * lg) (/ 2 * Ll)).
  { unfold ab in *. replace (/ 2 * lg - / 2 * Ll) with ((lg - Ll) * / 2) by ring. rewrite Rabs_mult, (Rabs_pos_eq (/ 2)) by lra. assert (0 <= uround * Rabs Ll) by (apply Rmult_le_pos; lra). lra. }
  assert (S14 : Rabs (/ 2 * Ll) <= / 2 * Rabs Ll) by (rewrite Rabs_mult, (Rabs_pos_eq (/ 2)); lra).
  destruct (ab_op _ _ _ _ Q14 S14 ltac:(lra) ltac:(lra)) as [E15 Q15].
  do 14 eexists. split; [rewrite div_ok by exact M0; exact E1|]. split; [exact E2|]. split; [exact E3|]. split; [exact E4|]. split; [exact E5|]. split; [exact E6|]. split; [exact E7|]. split; [exact E8|].
  split; [rewrite div_ok by exact P9; exact E9|]. split; [exact E10|]. split; [exact E11|]. split; [rewrite div_ok by exact P12; exact E12|]. split; [exact E13|]. split; [exact E15|].
  split; [apply (ab_weak _ _ _ _ Q15); lra|exact S13].
Qed.
Let G := loss_constant * Z / A * (1 + y) / y.
Lemma fac_ok bg gm : rel (112 / 10) bg y -> rel (123 / 10) gm (1 + y) -> exists k1 k2 k3 k4 b, rd (kK_d * Z) = Ok k1 /\ rd_div k1 A = Ok k2 /\ rd (k2 * gm) = Ok k3 /\ rd_div k3 bg = Ok k4 /\ rd_div bg gm = Ok b /\
  rel 29 k4 G /\ btw (-172) 270 G /\ ab 25 b (y / (1 + y)) /\ 0 <= y / (1 + y) <= 1.
Proof.
  intros RB RG. assert (YR := y_r). assert (GR := gam_r). assert (ZR := Z_r). assert (AR := A_r).
  assert (C1 : btw (-12) (-11) loss_constant) by (unfold loss_constant; split; [change (bpow radix2 (-12)) with (/ 4096)|change (bpow radix2 (-11)) with (/ 2048)]; lra).
  assert (L1 : rel (101 / 100) kK_d loss_constant).
  { assert (Q := lit _ _ _ C1 ltac:(lia) ltac:(lia)). replace (rnd loss_constant) with kK_d in Q; [exact Q|]. unfold kK_d, loss_constant. f_equal. field. }
  assert (Z0 := btw_pos _ _ _ ZR). assert (A0 := btw_pos _ _ _ AR). assert (Z1 : 0 <= Z) by lra. assert (A1 : 0 <= A) by lra.
  assert (R1 := r_mul _ _ _ _ _ _ L1 (r_same _ Z1) ltac:(fw) ltac:(fw)). assert (B1 := btw_mul _ _ _ _ _ _ C1 ZR). destruct (r_op _ _ _ _ _ R1 ltac:(fw) B1 ltac:(lia) ltac:(lia)) as [E1 Q1].
  destruct (r_div _ _ _ _ _ _ Q1 (r_same _ A1) ltac:(fw) ltac:(fw) A0) as [R2 _]. assert (B2 := btw_div _ _ _ _ _ _ B1 AR). destruct (r_op _ _ _ _ _ R2 ltac:(fw) B2 ltac:(lia) ltac:(lia)) as [E2 Q2].
  assert (R3 := r_mul _ _ _ _ _ _ Q2 RG ltac:(fw) ltac:(fw)). assert (B3 := btw_mul _ _ _ _ _ _ B2 GR). destruct (r_op _ _ _ _ _ R3 ltac:(fw) B3 ltac:(lia) ltac:(lia)) as [E3 Q3].
  destruct (r_div _ _ _ _ _ _ Q3 RB ltac:(fw) ltac:(fw) (btw_pos _ _ _ YR)) as [R4 P4]. assert (B4 := btw_div _ _ _ _ _ _ B3 YR). destruct (r_op _ _ _ _ _ R4 ltac:(fw) B4 ltac:(lia) ltac:(lia)) as [E4 Q4]. fold G in Q4, B4.
  destruct (r_div _ _ _ _ _ _ RB RG ltac:(fw) ltac:(fw) (btw_pos _ _ _ GR)) as [R5 P5]. assert (B5 := btw_div _ _ _ _ _ _ YR GR). destruct (r_op _ _ _ _ _ R5 ltac:(fw) B5 ltac:(lia) ltac:(lia)) as [E5 Q5].
  assert (Y0 := btw_pos _ _ _ YR). assert (V : 0 <= y / (1 + y) <= 1).
  { split; [left; apply (btw_pos _ _ _ B5)|]. apply Rmult_le_reg_r with (1 + y); [lra|]. unfold Rdiv. rewrite Rmult_assoc, Rinv_l, Rmult_1_r by lra. lra. }
  do 5 eexists. split; [exact E1|]. split; [rewrite div_ok by exact A0; exact E2|]. split; [exact E3|]. split; [rewrite div_ok by exact P4; exact E4|]. split; [rewrite div_ok by exact P5; exact E5|].
  split; [apply (r_weak _ _ _ _ Q4); lra|]. split; [apply (btw_weak _ _ _ _ _ B4); lia|]. split; [|exact V]. apply (ab_weak (246 / 10 * 1)); [|lra]. apply (ab_of_rel (246 / 10)); [apply (r_weak _ _ _ _ Q5); lra|fw|lra].
Qed.

Lemma bethe_raw : exists d, computeBetheBloch_d mlog m10 mpow mat p' m = Ok d /\
  Rabs (d - G * (/ 2 * Ll - y / (1 + y) - density_effect Dx Cc)) <= uround * 210 * (G * (1 + Rabs Ll + Rabs Dx + Rabs Cc))
  /\ Rabs d <= 2 * (G * (1 + Rabs Ll + 5 * Rabs Dx + Rabs Cc)) /\ Rabs (G * (/ 2 * Ll - y / (1 + y) - density_effect Dx Cc)) <= 5 * (G * (1 + Rabs Ll + Rabs Dx + Rabs Cc)) /\ btw (-172) 280 (G * (1 + Rabs Ll + Rabs Dx + Rabs Cc)).
Proof.
  destruct exc_ok as (i1 & pz & i2 & i3 & i & E1 & E2 & E3 & E4 & E5 & RI & BI). destruct pla_ok as (d1 & d2 & sq & h1 & hw & E6 & E7 & E8 & E9 & E10 & RW & BW).
  destruct kin_ok as (mm & ww & bg & gm & E11 & E12 & E13 & E14 & RB & RG). destruct (x_ok bg RB) as (sb & x & E15 & E16 & QX & SX & DX).
  destruct (c_ok i hw RI RW BI BW) as (ih & l & l2 & c & a & E17 & E18 & E19 & E20 & E21 & QC & QA & SC).
  destruct (log_part bg gm i RB RG RI BI) as (mM & t1 & t2 & sg & g1 & g2 & g3 & g4 & tx & s1 & i4 & s2 & lg & h & F1 & F2 & F3 & F4 & F5 & F6 & F7 & F8 & F9 & F10 & F11 & F12 & F13 & F14 & QH & SL).
  destruct (fac_ok bg gm RB RG) as (k1 & k2 & k3 & k4 & b & G1 & G2 & G3 & G4 & G5 & RK & BK & QB & SB).
  assert (U := u_fine). assert (X0 := Rabs_pos Dx). assert (C0 := Rabs_pos Cc). assert (L0 := Rabs_pos Ll).
  assert (SX' := ab_size _ _ _ QX ltac:(lra)).
  destruct (corr_ok mpow x Cc c a HPW DX QC QA ltac:(lra) ltac:(lra)) as (dl & E22 & QD).
  assert (QD2 : ab (29 * Rabs Dx + 32 * Rabs Cc + 113) dl (density_effect Dx Cc)).
  { assert (T := dens_move x Dx Cc QX ltac:(lra)). unfold ab in *. replace (dl - density_effect Dx Cc) with ((dl - density_effect x Cc) + (density_effect x Cc - density_effect Dx Cc)) by ring.
    eapply Rle_trans; [apply Rabs_triang|]. assert (uround * Rabs x <= uround * (Rabs Dx + / 1000000)) by (apply Rmult_le_compat_l; lra).
    assert (0 <= uround * Rabs Dx) by (apply Rmult_le_pos; lra). assert (0 <= uround * Rabs Cc) by (apply Rmult_le_pos; lra). lra. }
  assert (SD := dens_size Dx Cc). set (D := density_effect Dx Cc) in *. set (V := y / (1 + y)) in *.
  assert (T1 := ab_sub _ _ _ _ _ _ QH QB).
  assert (S1 : Rabs (/ 2 * Ll - V) <= / 2 * Rabs Ll + 1).
  { unfold Rminus. eapply Rle_trans; [apply Rabs_triang|]. rewrite Rabs_Ropp, Rabs_mult, (Rabs_pos_eq (/ 2)), (Rabs_pos_eq V) by lra. lra. }
  destruct (ab_op _ _ _ _ T1 S1 ltac:(lra) ltac:(lra)) as [H1 T2].
  assert (T3 := ab_sub _ _ _ _ _ _ T2 QD2).
  assert (S2 : Rabs (/ 2 * Ll - V - D) <= / 2 * Rabs Ll + 1 + (4606 / 1000 * Rabs Dx + Rabs Cc)).
  { unfold Rminus at 1. eapply Rle_trans; [apply Rabs_triang|]. rewrite Rabs_Ropp. lra. }
  destruct (ab_op _ _ _ _ T3 S2 ltac:(lra) ltac:(lra)) as [H2 T4].
  set (b2 := rnd (rnd (h - b) - dl)) in *. set (B := / 2 * Ll - V - D) in *. set (M := 1 + Rabs Ll + Rabs Dx + Rabs Cc).
  apply (ab_weak _ (26 / 10 * Rabs Ll + 34 * Rabs Dx + 34 * Rabs Cc + 178)) in T4; [|lra].
  assert (MB : 1 <= M <= 600) by (unfold M; lra).
  assert (S3 := ab_size _ _ _ T4 ltac:(lra)). assert (GP := btw_pos _ _ _ BK).
  destruct RK as [_ RK]. unfold ab in T4.
  assert (MM := mul_err _ _ _ _ _ _ G _ RK T4 ltac:(rewrite Rabs_pos_eq; lra) S3).
  assert (UG : 0 <= uround * G) by (apply Rmult_le_pos; lra). assert (UGL : 0 <= uround * G * Rabs Ll) by (apply Rmult_le_pos; lra). assert (UGX : 0 <= uround * G * Rabs Dx) by (apply Rmult_le_pos; lra). assert (UGC : 0 <= uround * G * Rabs Cc) by (apply Rmult_le_pos; lra).
  assert (GM : G <= G * M) by (rewrite <- (Rmult_1_r G) at 1; apply Rmult_le_compat_l; lra).
  assert (D1 : Rabs (k4 * b2 - G * B) <= uround * (2085 / 10 * G + 18 * (G * Rabs Ll) + 168 * (G * Rabs Dx) + 64 * (G * Rabs Cc))).
  { eapply Rle_trans; [exact MM|].
    assert (uround * 29 * G * (Rabs B + / 1000000) <= uround * 29 * G * (/ 2 * Rabs Ll + 1 + (4606 / 1000 * Rabs Dx + Rabs Cc) + / 1000000)) by (apply Rmult_le_compat_l; lra). lra. }
  assert (S4 : Rabs (G * B) <= G * (/ 2 * Rabs Ll + 1 + (4606 / 1000 * Rabs Dx + Rabs Cc))) by (rewrite Rabs_mult, (Rabs_pos_eq G) by lra; apply Rmult_le_compat_l; lra).
  assert (GL : 0 <= G * Rabs Ll) by (apply Rmult_le_pos; lra). assert (GX : 0 <= G * Rabs Dx) by (apply Rmult_le_pos; lra). assert (GC : 0 <= G * Rabs Cc) by (apply Rmult_le_pos; lra).
  assert (EM : G * M = G + G * Rabs Ll + G * Rabs Dx + G * Rabs Cc) by (unfold M; ring).
  assert (LE : least <= uround * (/ 1000 * G)).
  { apply usable_least. destruct BK as [BK _]. eapply Rle_trans; [|exact BK]. apply bpow_le. lia. }
  assert (D2 := rnd_step _ _ _ D1).
  assert (SS : uround * Rabs (G * B) <= uround * (G * (/ 2 * Rabs Ll + 1 + (4606 / 1000 * Rabs Dx + Rabs Cc)))) by (apply Rmult_le_compat_l; lra).
  assert (FIN : Rabs (rnd (k4 * b2) - G * B) <= uround * 210 * (G * M)). { eapply Rle_trans; [exact D2|]. rewrite EM. lra. }
  assert (UG2 : forall z, 0 <= z -> uround * z <= / 1000000000000000 * z) by (intros z Hz; apply Rmult_le_compat_r; lra).
  assert (US : uround * (2085 / 10 * G + 18 * (G * Rabs Ll) + 168 * (G * Rabs Dx) + 64 * (G * Rabs Cc)) <= / 1000000000000000 * (2085 / 10 * G + 18 * (G * Rabs Ll) + 168 * (G * Rabs Dx) + 64 * (G * Rabs Cc))) by (apply UG2; lra).
  assert (UT : uround * 210 * (G * M) <= / 1000000000000 * (G * M)) by (apply Rmult_le_compat_r; lra).
  assert (GM600 : G * M <= G * 600) by (apply Rmult_le_compat_l; lra).
  exists (rnd (k4 * b2)). split; [|split; [exact FIN|split; [|split]]].
  - unfold computeBetheBloch_d. cbv zeta. fold Z A rho. rewrite E1. cbn [bind]. rewrite E2. cbn [bind]. rewrite E3. cbn [bind]. rewrite E4. cbn [bind]. rewrite E5. cbn [bind]. rewrite E6. cbn [bind]. rewrite E7. cbn [bind]. rewrite E8. cbn [bind]. rewrite E9. cbn [bind]. rewrite E10. cbn [bind].
    rewrite E11. cbn [bind]. rewrite E12. cbn [bind]. rewrite E13. cbn [bind]. rewrite E14. cbn [bind]. rewrite F1. cbn [bind]. rewrite E15. cbn [bind]. rewrite E16. cbn [bind]. rewrite E17. cbn [bind]. rewrite E18. cbn [bind]. rewrite E19. cbn [bind]. rewrite E20. cbn [bind]. rewrite E21. cbn [bind]. rewrite E22. cbn [bind].
    rewrite F2. cbn [bind]. rewrite F3. cbn [bind]. rewrite F4. cbn [bind]. rewrite F5. cbn [bind]. rewrite F6. cbn [bind]. rewrite F7. cbn [bind]. rewrite F8. cbn [bind]. rewrite F9. cbn [bind].
    rewrite G1. cbn [bind]. rewrite G2. cbn [bind]. rewrite G3. cbn [bind]. rewrite G4. cbn [bind]. rewrite F10. cbn [bind]. rewrite F11. cbn [bind]. rewrite F12. cbn [bind]. rewrite F13. cbn [bind]. rewrite F14. cbn [bind]. rewrite G5. cbn [bind]. rewrite H1. cbn [bind]. rewrite H2. cbn [bind].
    fold b2. apply (mag_rd _ 290); [lia|]. unfold mag. apply near_size in D1.
    apply Rle_trans with (10 * (G * M)); [rewrite EM; lra|]. destruct BK as [_ BK]. apply Rle_trans with (bpow radix2 270 * 8192); [lra|]. change 8192 with (bpow radix2 13). rewrite <- bpow_plus. apply bpow_le. lia.
  - apply near_size in FIN. rewrite EM in *. lra.
  - eapply Rle_trans; [exact S4|]. rewrite EM. lra.
  - destruct BK as [K1 K2]. split; [lra|]. apply Rle_trans with (bpow radix2 270 * 1024); [|change 1024 with (bpow radix2 10); rewrite <- bpow_plus; apply bpow_le; lia]. assert (0 < bpow radix2 270) by apply bpow_gt_0. lra.
Qed.

Lemma forms : stopping_power mat p m = G * (/ 2 * Ll - y / (1 + y) - density_effect Dx Cc) /\ stopping_scale mat p m = G * (1 + Rabs Ll + Rabs Dx + Rabs Cc).
Proof.
  assert (P := btw_pos _ _ _ p_r). assert (M := btw_pos _ _ _ m_r). destruct (beta_gamma p m P M) as (BG & L2 & V2). assert (Y0 := btw_pos _ _ _ y_r).
  assert (Es : sqrt y = p / m). { unfold y. rewrite <- (sqrt_square (p / m)); [f_equal; field; lra|apply Rlt_le, Rdiv_lt_0_compat; assumption]. }
  assert (EX : decades p m = Dx) by (unfold decades, Dx; rewrite Es; reflexivity).
  assert (A0 := btw_pos _ _ _ A_r).
  assert (ET : transfer_log mat p m = Ll).
  { unfold transfer_log, Ll. fold Z I me. rewrite BG. fold y. unfold max_transfer. rewrite BG. fold y. f_equal. unfold tm, D0. do 2 f_equal. f_equal. unfold lorentz. fold y. field. lra. }
  assert (EG : loss_constant * mat_Z mat / mat_A mat * / (velocity p m * velocity p m) = G). { fold Z A. rewrite V2. fold y. unfold G. field. lra. }
  split.
  - unfold stopping_power, bethe_bloch. fold (transfer_log mat p m). fold me. rewrite EX. fold (sternheimer rho Z A).
    change (1 / 2 * ln (2 * me * (velocity p m * velocity p m * (lorentz p m * lorentz p m)) * max_transfer me m (velocity p m) (lorentz p m) / (excitation (mat_Z mat) * excitation (mat_Z mat)))) with (1 / 2 * transfer_log mat p m).
    rewrite ET, EG, V2. fold y. unfold sternheimer. fold I W. fold Cc. f_equal. fold Z A rho I W. change (excitation Z) with I. change (plasma rho Z A) with W. fold Cc. lra.
  - unfold stopping_scale. rewrite EX, ET, EG. reflexivity.
Qed.

Lemma bethe_ok : exists d, computeBetheBloch_d mlog m10 mpow mat p' m = Ok d /\
  Rabs (d - stopping_power mat p m) <= uround * 210 * stopping_scale mat p m /\ Rabs (stopping_power mat p m) <= 5 * stopping_scale mat p m /\ btw (-172) 280 (stopping_scale mat p m).
Proof. destruct forms as [-> ->]. destruct bethe_raw as (d & E & D & _ & S & B). exists d. auto. Qed.
End Bethe.
