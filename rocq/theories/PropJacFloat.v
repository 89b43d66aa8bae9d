(** C101: Jacobian matrices in double precision. *)
From Coq Require Import Reals ZArith Lra Lia Psatz.
From Flocq Require Import Core.
From Verif Require Import Num Vec FloatWrap PointFloat SpecRound RoundFacts PointFloatFacts BetheFloatFacts SpecMomFloat MomFloatFacts JacFloat SpecJacFloat JacFloatFacts PropRound.
Open Scope R_scope.

(** Perigee to L3: one entry is rounded, all others are exact. *)
Theorem C101_to_l3 hp : moderate (hp TANL) ->
  exists m, perigeeToL3Jacobian_d hp = Ok m
  /\ (forall i j, (i, j) <> (I1, I1) -> m i j = by_perigee (hp TANL) i j)
  /\ Rabs (m I1 I1 + (1 + hp TANL * hp TANL)) <= 5 * uround * (1 + hp TANL * hp TANL).
Proof.
  intros M. destruct (sq1_slope _ M) as (q & a & R1 & R2 & S & B & D). assert (R3 := up_ok _ _ _ R1 R2 S B D).
  eexists. split; [unfold perigeeToL3Jacobian_d; rewrite R1; cbn [bind]; rewrite R2; cbn [bind]; rewrite R3; cbn [bind]; reflexivity|]. split.
  - intros i j N. destruct i, j; try reflexivity. congruence.
  - cbn. set (A := 1 + hp TANL * hp TANL) in *. assert (P := QmsFloatFacts.btw_pos _ _ _ B). unfold sr in S. rewrite (Rabs_pos_eq A) in S by lra.
    replace (- a + A) with (- (a - A)) by ring. rewrite Rabs_Ropp. eapply Rle_trans; [exact S|].
    assert (U := u_fine). assert (0 <= uround * A) by (apply Rmult_le_pos; lra). lra.
Qed.

(** L3 to perigee: likewise. *)
Theorem C101_to_perigee hp : moderate (hp TANL) ->
  exists m, L3ToPerigeeJacobian_d hp = Ok m
  /\ (forall i j, (i, j) <> (I4, I1) -> m i j = by_l3 (hp TANL) i j)
  /\ Rabs (m I4 I1 + / (1 + hp TANL * hp TANL)) <= 6 * uround * / (1 + hp TANL * hp TANL).
Proof.
  intros M. destruct (sq1_slope _ M) as (q & a & R1 & R2 & S & B & D). destruct (down_ok _ _ S B) as (e & R3 & S3).
  eexists. split; [unfold L3ToPerigeeJacobian_d; rewrite R1; cbn [bind]; rewrite R2; cbn [bind]; rewrite R3; cbn [bind]; reflexivity|]. split.
  - intros i j N. destruct i, j; try reflexivity. congruence.
  - cbn. set (A := 1 + hp TANL * hp TANL) in *. assert (P := QmsFloatFacts.btw_pos _ _ _ B). assert (PI0 := Rinv_0_lt_compat _ P). unfold sr in S3. rewrite Rabs_Ropp, (Rabs_pos_eq (/ A)) in S3 by lra.
    replace (e + / A) with (e - - / A) by ring. eapply Rle_trans; [exact S3|].
    assert (U := u_fine). assert (0 <= uround * / A) by (apply Rmult_le_pos; lra). lra.
Qed.

(** The two slopes are inverse to each other up to rounding. *)
Theorem C101_slopes hp m n : moderate (hp TANL) -> perigeeToL3Jacobian_d hp = Ok m -> L3ToPerigeeJacobian_d hp = Ok n ->
  Rabs (m I1 I1 * n I4 I1 - 1) <= 12 * uround.
Proof.
  intros M EM EN. destruct (C101_to_l3 hp M) as (m' & E1 & _ & A). rewrite EM in E1. injection E1 as <-.
  destruct (C101_to_perigee hp M) as (n' & E2 & _ & B). rewrite EN in E2. injection E2 as <-.
  set (t := hp TANL) in *. assert (Q : 0 <= t * t) by apply Rle_0_sqr. set (P := 1 + t * t) in *. assert (P0 : 0 < P) by (unfold P; lra). clearbody P.
  assert (U := u_fine).
  assert (PI1 : 0 < / P) by (apply Rinv_0_lt_compat; exact P0).
  replace (m I1 I1 * n I4 I1 - 1) with (- ((- n I4 I1) * m I1 I1 - -1)) by ring. rewrite Rabs_Ropp.
  replace (- n I4 I1 * m I1 I1) with (n I4 I1 * - m I1 I1) by ring.
  eapply Rle_trans; [apply (product_err uround P _ _ _ 6 5)|]; try lra.
  - rewrite Rabs_left; lra.
  - replace (n I4 I1 - -1 / P) with (n I4 I1 + / P) by (field; lra). lra.
  - replace (- m I1 I1 - P) with (- (m I1 I1 + P)) by ring. rewrite Rabs_Ropp. lra.
Qed.

(** The simplified propagation: four entries are written, three of them rounded. *)
Theorem C101_simplified jac dw ts te b : moderate (vz ts) -> moderate (vz te) -> usual (vz b) -> usual dw ->
  let C := cos_of_change ts te in
  exists m, simplifiedJacobian_d jac dw ts te b = Ok m
  /\ Rabs (m I2 I0 + vz b * dw) <= 2 * uround * Rabs (vz b * dw)
  /\ Rabs (m I3 I0 + vz b * (dw * dw) * C / 2) <= 9 * uround * Rabs (vz b * (dw * dw) * C / 2)
  /\ Rabs (m I3 I2 - dw * C) <= 6 * uround * Rabs (dw * C)
  /\ m I4 I1 = dw
  /\ (forall i j, (i, j) <> (I2, I0) -> (i, j) <> (I3, I0) -> (i, j) <> (I3, I2) -> (i, j) <> (I4, I1) -> m i j = jac i j).
Proof.
  intros HS HE HB HW C. destruct (simple_ok ts te b dw HS HE HB HW jac) as (m & E & S1 & S2 & S3 & S4 & F). fold C in S2, S3. unfold sr in *.
  exists m. split; [exact E|]. split; [|split; [|split; [|split; [exact S4|exact F]]]].
  - replace (- vz b * dw) with (- (vz b * dw)) in S1 by ring. rewrite Rabs_Ropp in S1. replace (m I2 I0 - - (vz b * dw)) with (m I2 I0 + vz b * dw) in S1 by ring. lra.
  - replace (- (1 / 2) * vz b * dw * dw * C) with (- (vz b * (dw * dw) * C / 2)) in S2 by field. rewrite Rabs_Ropp in S2. set (Z := vz b * (dw * dw) * C / 2) in *. clearbody Z. replace (m I3 I0 - - Z) with (m I3 I0 + Z) in S2 by ring. lra.
  - lra.
Qed.
Print Assumptions C101_to_l3.
Print Assumptions C101_to_perigee.
Print Assumptions C101_slopes.
Print Assumptions C101_simplified.

(** ** a slope of one; a step of 1024 in a field of 4 *)
Example C101_step : exists m n k, perigeeToL3Jacobian_d curved_hp = Ok m /\ L3ToPerigeeJacobian_d curved_hp = Ok n
  /\ simplifiedJacobian_d m5zero 1024 (V3 1 0 1) (V3 0 1 1) (V3 0 0 4) = Ok k
  /\ Rabs (m I1 I1 + 2) <= 10 * uround /\ Rabs (k I3 I2 - 1024) <= 6144 * uround.
Proof.
  assert (M1 : moderate (curved_hp TANL)) by exact moderate_1.
  destruct (C101_to_l3 curved_hp M1) as (m & E1 & _ & A). destruct (C101_to_perigee curved_hp M1) as (n & E2 & _).
  assert (U4 : usual 4).
  { change 4 with (bpow radix2 2). split; [apply (moderate_bpow 2); lia|]. rewrite Rabs_pos_eq by apply bpow_ge_0. split; apply bpow_le; lia. }
  assert (UW : usual 1024).
  { change 1024 with (bpow radix2 10). split; [apply (moderate_bpow 10); lia|]. rewrite Rabs_pos_eq by apply bpow_ge_0. split; apply bpow_le; lia. }
  destruct (C101_simplified m5zero 1024 (V3 1 0 1) (V3 0 1 1) (V3 0 0 4) moderate_1 moderate_1 U4 UW) as (k & E3 & _ & _ & K & _).
  exists m, n, k. split; [exact E1|]. split; [exact E2|]. split; [exact E3|]. split.
  - change (curved_hp TANL) with 1 in A. replace (1 + 1 * 1) with 2 in A by ring. lra.
  - unfold cos_of_change in K. cbn [vz] in K. replace (1 + (1 - 1) * (1 - 1)) with 1 in K by ring. rewrite sqrt_1, Rinv_1, Rmult_1_r, (Rabs_pos_eq 1024) in K by lra. lra.
Qed.
Print Assumptions C101_step.
