(** Proofs about Jacobian matrices in double precision. *)
From Coq Require Import Reals ZArith Lra Lia Psatz.
From Flocq Require Import Core.
From Verif Require Import Num Vec FloatWrap PointFloat SpecRound RoundFacts PointFloatFacts RelFacts QmsFloatFacts BetheFloatFacts
  SpecMomFloat MomFloatFacts JacFloat SpecJacFloat.
From Verif Require FloatWrapFacts.
Open Scope R_scope.

Lemma sq1 x' x : mag x' 201 -> Rabs x <= bpow radix2 201 -> Rabs (x' - x) <= uround * Rabs x + least ->
  exists q a, rd (x' * x') = Ok q /\ rd (1 + q) = Ok a /\ sr (43 / 10) a (1 + x * x) /\ btw 0 403 (1 + x * x) /\ is_double a.
Proof.
  intros M X E. assert (U := u_fine). assert (LU : least <= uround * / 1000) by exact least_u || (generalize least_u; lra). assert (L0 := least_pos).
  exists (rnd (x' * x')), (rnd (1 + rnd (x' * x'))).
  assert (MQ : mag (x' * x') 402) by (apply (mag_mul _ _ 201 201); exact M).
  assert (Mq : mag (rnd (x' * x')) 402) by (apply mag_rnd; [lia|exact MQ]).
  split; [apply (mag_rd _ 402); [lia|exact MQ]|].
  assert (B : btw 0 403 (1 + x * x)).
  { assert (QX : 0 <= x * x) by apply Rle_0_sqr. split; [change (bpow radix2 0) with 1; lra|].
    change 403%Z with (402 + 1)%Z. rewrite bpow_plus. change (bpow radix2 1) with 2. change 402%Z with (201 + 201)%Z. rewrite bpow_plus.
    assert (G : 1 <= bpow radix2 201) by (change 1 with (bpow radix2 0); apply bpow_le; lia).
    assert (AA : Rabs x * Rabs x = x * x) by (rewrite <- Rabs_mult; apply Rabs_pos_eq; exact QX).
    assert (Rabs x * Rabs x <= bpow radix2 201 * bpow radix2 201) by (apply Rmult_le_compat; try apply Rabs_pos; exact X). nra. }
  assert (S : sr (32 / 10) (1 + rnd (x' * x')) (1 + x * x)).
  { unfold sr. assert (QX : 0 <= x * x) by apply Rle_0_sqr. rewrite (Rabs_pos_eq (1 + x * x)) by lra. assert (P := Rabs_pos x).
    assert (AA : Rabs x * Rabs x = x * x) by (rewrite <- Rabs_mult; apply Rabs_pos_eq; exact QX). set (A := 1 + x * x).
    assert (XA : Rabs x <= A) by (unfold A; nra). assert (X2 : Rabs x * Rabs x <= A) by (unfold A; lra). assert (A1 : 1 <= A) by (unfold A; lra).
    assert (QA : A = 1 + x * x) by reflexivity. clearbody A.
    assert (UA : 0 <= uround * A) by (apply Rmult_le_pos; lra).
    assert (D : Rabs (x' * x' - x * x) <= 21 / 10 * (uround * A)).
    { replace (x' * x' - x * x) with ((x' - x) * ((x' - x) + 2 * x)) by ring. rewrite Rabs_mult.
      assert (T : Rabs ((x' - x) + 2 * x) <= 2001 / 1000 * Rabs x + least).
      { eapply Rle_trans; [apply Rabs_triang|]. rewrite Rabs_mult, (Rabs_pos_eq 2) by lra. assert (uround * Rabs x <= / 1000 * Rabs x) by (apply Rmult_le_compat_r; lra). lra. }
      eapply Rle_trans; [apply Rmult_le_compat; try apply Rabs_pos; [exact E|exact T]|].
      replace ((uround * Rabs x + least) * (2001 / 1000 * Rabs x + least)) with (2001 / 1000 * uround * (Rabs x * Rabs x) + least * (uround * Rabs x + 2001 / 1000 * Rabs x + least)) by ring.
      assert (H1 : uround * (Rabs x * Rabs x) <= uround * A) by (apply Rmult_le_compat_l; lra).
      assert (H2 : least * (uround * Rabs x + 2001 / 1000 * Rabs x + least) <= uround * / 1000 * (3 * A)).
      { assert (uround * Rabs x <= / 1000 * Rabs x) by (apply Rmult_le_compat_r; lra). apply Rmult_le_compat; try lra.
        assert (0 <= uround * Rabs x) by (apply Rmult_le_pos; lra). lra. }
      lra. }
    assert (R := rnd_err (x' * x')).
    assert (N : Rabs (x' * x') <= 1001 / 1000 * A).
    { replace (x' * x') with (x * x + (x' * x' - x * x)) by ring. eapply Rle_trans; [apply Rabs_triang|]. rewrite (Rabs_pos_eq (x * x)) by lra.
      assert (uround * A <= / 10000 * A) by (apply Rmult_le_compat_r; lra). lra. }
    assert (UN : uround * Rabs (x' * x') <= uround * (1001 / 1000 * A)) by (apply Rmult_le_compat_l; lra).
    assert (LA : least <= / 1000 * (uround * A)) by (assert (uround * 1 <= uround * A) by (apply Rmult_le_compat_l; lra); lra).
    replace (1 + rnd (x' * x') - A) with ((rnd (x' * x') - x' * x') + (x' * x' - x * x)) by (rewrite QA; ring).
    eapply Rle_trans; [apply Rabs_triang|]. lra. }
  assert (B' : btw 0 403 (Rabs (1 + x * x))) by (rewrite Rabs_pos_eq by (assert (QX : 0 <= x * x) by apply Rle_0_sqr; lra); exact B).
  destruct (sr_op _ _ _ _ _ S ltac:(fw) B' ltac:(lia) ltac:(lia)) as (R1 & S1).
  split; [exact R1|]. split; [apply (sr_weak _ _ _ _ S1); lra|]. split; [exact B|apply rnd_double].
Qed.

Lemma exact_close x : Rabs (x - x) <= uround * Rabs x + least.
Proof. rewrite Rminus_diag_eq, Rabs_R0 by reflexivity. assert (U := u_fine). assert (L0 := least_pos). assert (P := Rabs_pos x). assert (0 <= uround * Rabs x) by (apply Rmult_le_pos; lra). lra. Qed.

Lemma sq1_slope t : moderate t -> exists q a, rd (t * t) = Ok q /\ rd (1 + q) = Ok a /\ sr (43 / 10) a (1 + t * t) /\ btw 0 403 (1 + t * t) /\ is_double a.
Proof.
  intros [D M]. assert (G : bpow radix2 200 <= bpow radix2 201) by (apply bpow_le; lia). apply sq1; [unfold mag; lra|lra|apply exact_close].
Qed.

Lemma sr_opp k x' x : sr k x' x -> sr k (- x') (- x).
Proof. unfold sr. intros H. rewrite Rabs_Ropp. replace (- x' - - x) with (- (x' - x)) by ring. rewrite Rabs_Ropp. exact H. Qed.

Lemma up_ok t q a : rd (t * t) = Ok q -> rd (1 + q) = Ok a -> sr (43 / 10) a (1 + t * t) -> btw 0 403 (1 + t * t) -> is_double a -> rd (-1 * a) = Ok (- a).
Proof.
  intros _ R1 S B D. replace (-1 * a) with (- a) by ring. assert (Q : rnd (- a) = - a) by (apply rnd_id; apply FloatWrapFacts.double_opp; exact D).
  unfold rd in *. rewrite Q, Rabs_Ropp. destruct (Rlt_dec (Rabs (rnd (1 + q))) _) as [H|H]; [|discriminate]. injection R1 as R1. rewrite R1 in H.
  destruct (Rlt_dec (Rabs a) _); [reflexivity|contradiction].
Qed.

Lemma down_ok t a : sr (43 / 10) a (1 + t * t) -> btw 0 403 (1 + t * t) -> exists e, rd_div (-1) a = Ok e /\ sr (54 / 10) e (- / (1 + t * t)).
Proof.
  intros S B. assert (P := btw_pos _ _ _ B).
  destruct (sr_div _ _ _ _ _ _ (sr_same (-1)) S ltac:(fw) ltac:(fw) ltac:(lra)) as (S1 & N).
  assert (B1 : btw (-403) 0 (Rabs (-1 / (1 + t * t)))).
  { unfold Rdiv. rewrite Rabs_mult, Rabs_left, (Rabs_pos_eq (/ _)) by (try lra; left; apply Rinv_0_lt_compat; exact P). replace (- -1 * / (1 + t * t)) with (/ (1 + t * t)) by ring. exact (btw_inv _ _ _ B). }
  destruct (sr_op _ _ _ _ _ S1 ltac:(fw) B1 ltac:(lia) ltac:(lia)) as (R & S2).
  exists (rnd (-1 / a)). split; [unfold rd_div; destruct (Req_EM_T a 0); [contradiction|exact R]|].
  replace (- / (1 + t * t)) with (-1 / (1 + t * t)) by (field; lra). apply (sr_weak _ _ _ _ S2). lra.
Qed.

(** ** the simplified propagation *)
Section Simple.
Variables (ts te b : vec3) (dw : R).
Hypothesis HS : moderate (vz ts).
Hypothesis HE : moderate (vz te).
Hypothesis HB : usual (vz b).
Hypothesis HW : usual dw.
Let dz := vz ts - vz te.
Let C := cos_of_change ts te.

Lemma cos_ok : exists d q a r c, rd dz = Ok d /\ rd (d * d) = Ok q /\ rd (1 + q) = Ok a /\ rd (sqrt a) = Ok r /\ rd_div 1 r = Ok c
  /\ sr (42 / 10) c C /\ btw (-202) 0 C.
Proof.
  assert (M0 : mag dz 201).
  { change 201%Z with (200 + 1)%Z. apply mag_sub; [apply HS|apply HE]. }
  destruct (sq1 (rnd dz) dz) as (q & a & R1 & R2 & S & B & D); [apply mag_rnd; [lia|exact M0]|exact M0|apply rnd_err|].
  assert (P := btw_pos _ _ _ B).
  assert (RL : rel (43 / 10) a (1 + dz * dz)) by (split; [lra|]; unfold sr in S; rewrite (Rabs_pos_eq (1 + dz * dz)) in S by lra; exact S).
  assert (RS := r_sqrt _ _ _ RL ltac:(fw)).
  assert (BS : btw 0 202 (sqrt (1 + dz * dz))) by (apply (btw_sqrt 0 202); apply (btw_weak 0 403); [exact B|lia|lia]).
  assert (PS := btw_pos _ _ _ BS).
  assert (SS : sr (501 / 1000 * (43 / 10)) (sqrt a) (sqrt (1 + dz * dz))) by (unfold sr; rewrite (Rabs_pos_eq (sqrt _)) by lra; exact (proj2 RS)).
  assert (BS' : btw 0 202 (Rabs (sqrt (1 + dz * dz)))) by (rewrite Rabs_pos_eq by lra; exact BS).
  destruct (sr_op _ _ _ _ _ SS ltac:(fw) BS' ltac:(lia) ltac:(lia)) as (R3 & S3).
  destruct (sr_div _ _ _ _ _ _ (sr_same 1) S3 ltac:(fw) ltac:(fw) ltac:(lra)) as (S4 & N).
  assert (BC : btw (-202) 0 (/ sqrt (1 + dz * dz))) by exact (btw_inv _ _ _ BS).
  replace (1 / sqrt (1 + dz * dz)) with (/ sqrt (1 + dz * dz)) in S4 by (field; lra).
  assert (BC' : btw (-202) 0 (Rabs (/ sqrt (1 + dz * dz)))) by (rewrite Rabs_pos_eq by (left; exact (btw_pos _ _ _ BC)); exact BC).
  destruct (sr_op _ _ _ _ _ S4 ltac:(fw) BC' ltac:(lia) ltac:(lia)) as (R5 & S5).
  exists (rnd dz), q, a, (rnd (sqrt a)), (rnd (1 / rnd (sqrt a))).
  split; [apply (mag_rd _ 201); [lia|exact M0]|]. split; [exact R1|]. split; [exact R2|]. split; [exact R3|].
  split; [unfold rd_div; destruct (Req_EM_T _ 0); [contradiction|exact R5]|]. split; [apply (sr_weak _ _ _ _ S5); lra|exact BC].
Qed.

Lemma simple_ok jac : exists m, simplifiedJacobian_d jac dw ts te b = Ok m
  /\ sr 2 (m I2 I0) (- vz b * dw) /\ sr 9 (m I3 I0) (- (1 / 2) * vz b * dw * dw * C) /\ sr 6 (m I3 I2) (dw * C) /\ m I4 I1 = dw
  /\ (forall i j, (i, j) <> (I2, I0) -> (i, j) <> (I3, I0) -> (i, j) <> (I3, I2) -> (i, j) <> (I4, I1) -> m i j = jac i j).
Proof.
  destruct cos_ok as (d & q & a & r & c & R0 & R1 & R2 & R3 & R4 & SC & BC).
  assert (BC' : btw (-202) 0 (Rabs C)) by (rewrite Rabs_pos_eq by (left; exact (btw_pos _ _ _ BC)); exact BC).
  assert (BB : btw (-100) 100 (Rabs (vz b))) by apply HB. assert (BW : btw (-100) 100 (Rabs dw)) by apply HW.
  assert (B20 : btw (-200) 200 (Rabs (- vz b * dw))) by (rewrite Rabs_mult, Rabs_Ropp; exact (btw_mul _ _ _ _ _ _ BB BW)).
  destruct (sr_op _ _ _ _ _ (sr_same (- vz b * dw)) ltac:(fw) B20 ltac:(lia) ltac:(lia)) as (R5 & S5).
  assert (BH : btw (-101) 99 (Rabs (- (1 / 2) * vz b))).
  { rewrite Rabs_mult. replace (Rabs (- (1 / 2))) with (bpow radix2 (-1)) by (rewrite Rabs_left by lra; cbn; lra). apply (btw_mul (-1) (-1) (-100) 100); [split; lra|exact BB]. }
  destruct (sr_op _ _ _ _ _ (sr_same (- (1 / 2) * vz b)) ltac:(fw) BH ltac:(lia) ltac:(lia)) as (R6 & S6).
  assert (S7 := sr_mul _ _ _ _ _ _ S6 (sr_same dw) ltac:(fw) ltac:(fw)).
  assert (B7 : btw (-201) 199 (Rabs (- (1 / 2) * vz b * dw))) by (rewrite Rabs_mult; exact (btw_mul _ _ _ _ _ _ BH BW)).
  destruct (sr_op _ _ _ _ _ S7 ltac:(fw) B7 ltac:(lia) ltac:(lia)) as (R8 & S8).
  assert (S9 := sr_mul _ _ _ _ _ _ S8 (sr_same dw) ltac:(fw) ltac:(fw)).
  assert (B9 : btw (-301) 299 (Rabs (- (1 / 2) * vz b * dw * dw))) by (rewrite Rabs_mult; exact (btw_mul _ _ _ _ _ _ B7 BW)).
  destruct (sr_op _ _ _ _ _ S9 ltac:(fw) B9 ltac:(lia) ltac:(lia)) as (R10 & S10).
  assert (S11 := sr_mul _ _ _ _ _ _ S10 SC ltac:(fw) ltac:(fw)).
  assert (B11 : btw (-503) 299 (Rabs (- (1 / 2) * vz b * dw * dw * C))) by (rewrite Rabs_mult; exact (btw_mul _ _ _ _ _ _ B9 BC')).
  destruct (sr_op _ _ _ _ _ S11 ltac:(fw) B11 ltac:(lia) ltac:(lia)) as (R12 & S12).
  assert (S13 := sr_mul _ _ _ _ _ _ (sr_same dw) SC ltac:(fw) ltac:(fw)).
  assert (B13 : btw (-302) 100 (Rabs (dw * C))) by (rewrite Rabs_mult; exact (btw_mul _ _ _ _ _ _ BW BC')).
  destruct (sr_op _ _ _ _ _ S13 ltac:(fw) B13 ltac:(lia) ltac:(lia)) as (R14 & S14).
  eexists. split.
  - unfold simplifiedJacobian_d. fold dz. rewrite R0; cbn [bind]. rewrite R1; cbn [bind]. rewrite R2; cbn [bind]. rewrite R3; cbn [bind]. rewrite R4; cbn [bind].
    rewrite R5; cbn [bind]. rewrite R6; cbn [bind]. rewrite R8; cbn [bind]. rewrite R10; cbn [bind]. rewrite R12; cbn [bind]. rewrite R14; cbn [bind]. reflexivity.
  - unfold m5set, m5Unit. cbn [idx_eq_dec]. split; [|split; [|split; [|split]]].
    + apply (sr_weak _ _ _ _ S5). lra.
    + apply (sr_weak _ _ _ _ S12). lra.
    + apply (sr_weak _ _ _ _ S14). lra.
    + reflexivity.
    + intros i j N1 N2 N3 N4. destruct i, j; cbn; congruence.
Qed.
End Simple.
