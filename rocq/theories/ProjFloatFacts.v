(** Proofs about the projection to the measurement system in double precision. *)
From Coq Require Import Reals ZArith Lra Lia Psatz List.
From Flocq Require Import Core.
From Verif Require Import Num Vec FloatWrap PointFloat SpecRound RoundFacts PointFloatFacts NearFacts StartFloat StartFloatFacts
  SpecQmsFloat RelFacts QmsFloatFacts BetheFloatFacts PlaneFloat ProjFloat SpecProjFloat.
Import ListNotations.
Open Scope R_scope.

Lemma schwarz v w : square v * square w <= 2142 / 1000 ->
  Rabs (vx v * vx w) + Rabs (vy v * vy w) + Rabs (vz v * vz w) <= 1465 / 1000.
Proof.
  intros H. unfold square in H. rewrite !Rabs_mult.
  assert (E : forall t, t * t = Rabs t * Rabs t) by (intros t; rewrite <- Rabs_mult, Rabs_pos_eq; [reflexivity|apply Rle_0_sqr]).
  rewrite (E (vx v)), (E (vy v)), (E (vz v)), (E (vx w)), (E (vy w)), (E (vz w)) in H.
  generalize (Rabs_pos (vx v)) (Rabs_pos (vy v)) (Rabs_pos (vz v)) (Rabs_pos (vx w)) (Rabs_pos (vy w)) (Rabs_pos (vz w)).
  revert H. generalize (Rabs (vx v)) (Rabs (vy v)) (Rabs (vz v)) (Rabs (vx w)) (Rabs (vy w)) (Rabs (vz w)). intros a b c x y z H A B C X Y Z.
  assert (Q : (a * x + b * y + c * z) * (a * x + b * y + c * z) <= 2142 / 1000).
  { apply Rle_trans with ((a * a + b * b + c * c) * (x * x + y * y + z * z)); [|exact H].
    assert (0 <= (a * y - b * x) * (a * y - b * x)) by apply Rle_0_sqr. assert (0 <= (a * z - c * x) * (a * z - c * x)) by apply Rle_0_sqr.
    assert (0 <= (b * z - c * y) * (b * z - c * y)) by apply Rle_0_sqr. lra. }
  assert (0 <= a * x + b * y + c * z) by (assert (0 <= a * x) by nra; assert (0 <= b * y) by nra; assert (0 <= c * z) by nra; lra). nra.
Qed.

Lemma dot_size v w : square v * square w <= 2142 / 1000 -> Rabs (vdot v w) <= 1465 / 1000.
Proof.
  intros H. assert (S := schwarz v w H). unfold vdot. eapply Rle_trans; [apply Rabs_triang|]. eapply Rle_trans; [apply Rplus_le_compat_r, Rabs_triang|]. exact S.
Qed.

Lemma dot_ok v w : square v * square w <= 2142 / 1000 -> exists a, vdot_d v w = Ok a /\ ab 5 a (vdot v w).
Proof.
  intros H. assert (S := schwarz v w H). generalize (Rabs_pos (vx v * vx w)) (Rabs_pos (vy v * vy w)) (Rabs_pos (vz v * vz w)). intros P1 P2 P3.
  unfold vdot_d, vdot. revert S P1 P2 P3. generalize (vx v * vx w) (vy v * vy w) (vz v * vz w). intros p q t S P1 P2 P3.
  destruct (ab_op _ _ _ (Rabs p) (ab_same p) ltac:(lra) ltac:(lra) ltac:(lra)) as (E1 & A1). rewrite E1. cbn [bind].
  destruct (ab_op _ _ _ (Rabs q) (ab_same q) ltac:(lra) ltac:(lra) ltac:(lra)) as (E2 & A2). rewrite E2. cbn [bind].
  assert (A3 := ab_add _ _ _ _ _ _ A1 A2). assert (T1 := Rabs_triang p q).
  destruct (ab_op _ _ _ (Rabs p + Rabs q) A3 ltac:(lra) ltac:(lra) ltac:(lra)) as (E3 & A4). rewrite E3. cbn [bind].
  destruct (ab_op _ _ _ (Rabs t) (ab_same t) ltac:(lra) ltac:(lra) ltac:(lra)) as (E5 & A5). rewrite E5. cbn [bind].
  assert (A6 := ab_add _ _ _ _ _ _ A4 A5). assert (T2 := Rabs_triang (p + q) t).
  destruct (ab_op _ _ _ (Rabs p + Rabs q + Rabs t) A6 ltac:(lra) ltac:(lra) ltac:(lra)) as (E6 & A7). rewrite E6.
  eexists. split; [reflexivity|]. apply (ab_weak _ _ _ _ A7). lra.
Qed.

(** ** the inverse of a 2x2 matrix *)
Section Inverse.
Variables a b c d a' b' c' d' : R.
Hypotheses (HA : ab 5 a' a) (HB : ab 5 b' b) (HC : ab 5 c' c) (HD : ab 5 d' d).
Hypotheses (SA : Rabs a <= 1465 / 1000) (SB : Rabs b <= 1465 / 1000) (SC : Rabs c <= 1465 / 1000) (SD : Rabs d <= 1465 / 1000).
Let det := a * d - b * c.

Lemma det_ok : exists p q t, rd (a' * d') = Ok p /\ rd (b' * c') = Ok q /\ rd (p - q) = Ok t /\ ab 42 t det /\ Rabs det <= 43 / 10.
Proof.
  assert (A1 := ab_mul _ _ _ _ _ _ _ _ HA HD SA SD ltac:(lra) ltac:(lra) ltac:(lra) ltac:(lra)).
  assert (A2 := ab_mul _ _ _ _ _ _ _ _ HB HC SB SC ltac:(lra) ltac:(lra) ltac:(lra) ltac:(lra)).
  assert (S : forall x y, Rabs x <= 1465 / 1000 -> Rabs y <= 1465 / 1000 -> Rabs (x * y) <= 21463 / 10000).
  { intros x y X Y. rewrite Rabs_mult. apply Rle_trans with (1465 / 1000 * (1465 / 1000)); [apply Rmult_le_compat; auto using Rabs_pos|lra]. }
  assert (S1 := S _ _ SA SD). assert (S2 := S _ _ SB SC). clear S.
  destruct (ab_op _ _ _ _ A1 S1 ltac:(lra) ltac:(lra)) as (E1 & B1). destruct (ab_op _ _ _ _ A2 S2 ltac:(lra) ltac:(lra)) as (E2 & B2).
  assert (B3 := ab_sub _ _ _ _ _ _ B1 B2). assert (SD2 : Rabs det <= 42926 / 10000).
  { unfold det. eapply Rle_trans; [apply Rabs_triang|]. rewrite Rabs_Ropp. lra. }
  destruct (ab_op _ _ _ (42926 / 10000) B3 SD2 ltac:(lra) ltac:(lra)) as (E3 & B4).
  eexists _, _, _. split; [exact E1|]. split; [exact E2|]. split; [exact E3|]. split; [apply (ab_weak _ _ _ _ B4); lra|lra].
Qed.
End Inverse.

(** a quotient by the determinant *)
Lemma quot_ok x' x t det : ab 5 x' x -> Rabs x <= 1465 / 1000 -> ab 42 t det -> 1000 * uround <= Rabs det <= 3 / 2 ->
  exists r, rd_div x' t = Ok r /\ Rabs (r - x / det) <= 80 * uround / (det * det).
Proof.
  intros HX SX HT (L & HI). assert (U := u_fine). unfold ab in HX, HT.
  assert (NZ : det <> 0) by (intros Q; rewrite Q, Rabs_R0 in L; lra).
  assert (LT : 958 / 1000 * Rabs det <= Rabs t).
  { assert (Q := Rabs_triang_inv det (det - t)). replace (det - (det - t)) with t in Q by ring. rewrite (Rabs_minus_sym det t) in Q. lra. }
  assert (TP : 0 < Rabs t) by lra. assert (NT : t <> 0) by (intros Q; rewrite Q, Rabs_R0 in TP; lra).
  assert (DP : 0 < Rabs det) by lra. assert (DD : 0 < det * det) by nra. assert (DA : Rabs det * Rabs det = det * det) by (rewrite <- Rabs_mult; apply Rabs_pos_eq; lra).
  set (k := uround / (det * det)). assert (KP : 0 < k) by (unfold k; apply Rmult_lt_0_compat; [lra|apply Rinv_0_lt_compat; lra]).
  assert (KU : uround / Rabs det <= 3 / 2 * k).
  { unfold k. rewrite <- DA. apply Rmult_le_reg_r with (Rabs det * Rabs det); [nra|].
    replace (uround / Rabs det * (Rabs det * Rabs det)) with (uround * Rabs det) by (field; lra).
    replace (3 / 2 * (uround / (Rabs det * Rabs det)) * (Rabs det * Rabs det)) with (uround * (3 / 2)) by (field; lra).
    apply Rmult_le_compat_l; lra. }
  assert (KO : uround <= 3 / 2 * (3 / 2) * k).
  { apply Rle_trans with (3 / 2 * (uround / Rabs det)); [|rewrite Rmult_assoc; apply Rmult_le_compat_l; lra].
    apply Rmult_le_reg_r with (Rabs det); [lra|]. replace (3 / 2 * (uround / Rabs det) * Rabs det) with (uround * (3 / 2)) by (field; lra). apply Rmult_le_compat_l; lra. }
  (* the exact quotients *)
  assert (IT : / Rabs t <= 1044 / 1000 * / Rabs det).
  { apply Rmult_le_reg_r with (Rabs t * Rabs det); [apply Rmult_lt_0_compat; lra|]. replace (/ Rabs t * (Rabs t * Rabs det)) with (Rabs det) by (field; lra).
    replace (1044 / 1000 * / Rabs det * (Rabs t * Rabs det)) with (1044 / 1000 * Rabs t) by (field; lra). lra. }
  assert (D1 : Rabs (x' / t - x / det) <= 73 * k).
  { replace (x' / t - x / det) with ((x' - x) / t - x * (t - det) / (t * det)) by (field; auto). eapply Rle_trans; [apply Rabs_triang|]. rewrite Rabs_Ropp.
    unfold Rdiv. rewrite !Rabs_mult, !Rabs_inv, Rabs_mult, Rinv_mult.
    assert (Q1 : Rabs (x' - x) * / Rabs t <= uround * 5 * (1044 / 1000 * / Rabs det)) by (apply Rmult_le_compat; auto using Rabs_pos; left; apply Rinv_0_lt_compat; lra).
    assert (Q2 : Rabs x * Rabs (t - det) * (/ Rabs t * / Rabs det) <= 1465 / 1000 * (uround * 42) * (1044 / 1000 * / Rabs det * / Rabs det)).
    { assert (0 < / Rabs t) by (apply Rinv_0_lt_compat; lra). assert (0 < / Rabs det) by (apply Rinv_0_lt_compat; lra).
      apply Rmult_le_compat; [apply Rmult_le_pos; apply Rabs_pos|apply Rmult_le_pos; lra|apply Rmult_le_compat; auto using Rabs_pos|apply Rmult_le_compat_r; lra]. }
    assert (E : / Rabs det * / Rabs det = / (det * det)) by (rewrite <- DA; field; lra).
    replace (1465 / 1000 * (uround * 42) * (1044 / 1000 * / Rabs det * / Rabs det)) with (1465 / 1000 * 42 * (1044 / 1000) * (uround * (/ Rabs det * / Rabs det))) in Q2 by ring.
    rewrite E in Q2. change (uround * / (det * det)) with k in Q2.
    replace (uround * 5 * (1044 / 1000 * / Rabs det)) with (5 * (1044 / 1000) * (uround / Rabs det)) in Q1 by (unfold Rdiv; ring). lra. }
  assert (SQ : Rabs (x / det) <= 1465 / 1000 / Rabs det).
  { unfold Rdiv. rewrite Rabs_mult, Rabs_inv. apply Rmult_le_compat_r; [left; apply Rinv_0_lt_compat; lra|exact SX]. }
  assert (K1 : k <= / uround / 1000000).
  { unfold k. apply Rmult_le_reg_r with (det * det); [lra|]. replace (uround / (det * det) * (det * det)) with uround by (field; lra). rewrite <- DA.
    apply Rle_trans with (/ uround / 1000000 * (1000 * uround * (1000 * uround))); [right; field; lra|].
    apply Rmult_le_compat_l; [apply Rmult_le_pos; [left; apply Rinv_0_lt_compat; lra|lra]|]. apply Rmult_le_compat; lra. }
  assert (DI : / Rabs det <= / uround / 1000).
  { apply Rmult_le_reg_r with (Rabs det); [lra|]. rewrite Rinv_l by lra. apply Rle_trans with (/ uround / 1000 * (1000 * uround)); [right; field; lra|].
    apply Rmult_le_compat_l; [apply Rmult_le_pos; [left; apply Rinv_0_lt_compat; lra|lra]|lra]. }
  assert (IU : / uround = bpow radix2 53) by (unfold uround; change (bpow radix2 53) with 9007199254740992; lra).
  assert (SR : Rabs (x' / t) <= bpow radix2 53).
  { replace (x' / t) with (x / det + (x' / t - x / det)) by ring. eapply Rle_trans; [apply Rabs_triang|]. rewrite IU in *.
    unfold Rdiv in SQ at 2. assert (0 < bpow radix2 53) by apply bpow_gt_0.
    assert (1465 / 1000 * / Rabs det <= 1465 / 1000 * (bpow radix2 53 / 1000)) by (apply Rmult_le_compat_l; lra). unfold Rdiv in *. lra. }
  unfold rd_div. destruct (Req_EM_T t 0) as [Q|_]; [contradiction|]. exists (rnd (x' / t)).
  split; [apply (mag_rd _ 53); [lia|exact SR]|].
  assert (RE := rnd_err (x' / t)). assert (L2 := least_fine).
  replace (80 * uround / (det * det)) with (80 * k) by (unfold k, Rdiv; ring).
  replace (rnd (x' / t) - x / det) with (rnd (x' / t) - x' / t + (x' / t - x / det)) by ring. eapply Rle_trans; [apply Rabs_triang|].
  assert (S2 : uround * Rabs (x' / t) <= 22 / 10 * k).
  { assert (uround * Rabs (x / det) <= 1465 / 1000 * (uround / Rabs det)).
    { replace (1465 / 1000 * (uround / Rabs det)) with (uround * (1465 / 1000 / Rabs det)) by (unfold Rdiv; ring). apply Rmult_le_compat_l; lra. }
    assert (uround * Rabs (x' / t) <= uround * (Rabs (x / det) + 73 * k)).
    { apply Rmult_le_compat_l; [lra|]. replace (x' / t) with (x / det + (x' / t - x / det)) by ring. eapply Rle_trans; [apply Rabs_triang|]. lra. }
    assert (uround * (73 * k) <= / 1000 * k) by (rewrite <- Rmult_assoc; apply Rmult_le_compat_r; lra). lra. }
  lra.
Qed.

(** ** the determinant is the cosine between the track and the normal *)
Lemma slant_det m n U V : slant m n U V = vdot m U * vdot n V - vdot m V * vdot n U.
Proof. unfold slant, vcross, vdot. cbn [vx vy vz]. ring. Qed.

Lemma cross_square u v : square (vcross u v) <= square u * square v.
Proof.
  assert (E : square u * square v = square (vcross u v) + vdot u v * vdot u v) by (unfold square, vcross, vdot; cbn [vx vy vz]; ring).
  assert (0 <= vdot u v * vdot u v) by apply Rle_0_sqr. lra.
Qed.
Lemma dot_square u v : vdot u v * vdot u v <= square u * square v.
Proof.
  assert (E : square u * square v = square (vcross u v) + vdot u v * vdot u v) by (unfold square, vcross, vdot; cbn [vx vy vz]; ring).
  assert (0 <= square (vcross u v)) by (unfold square; assert (Q := fun t => Rle_0_sqr t); unfold Rsqr in Q; repeat apply Rplus_le_le_0_compat; apply Q). lra.
Qed.
Lemma square_pos v : 0 <= square v.
Proof. unfold square. assert (Q := fun t => Rle_0_sqr t). unfold Rsqr in Q. repeat apply Rplus_le_le_0_compat; apply Q. Qed.

Section Two.
Variables m n U V : vec3.
Hypotheses (HM : square m <= 102 / 100) (HN : square n <= 21 / 10) (HU : square U <= 102 / 100) (HV : square V <= 102 / 100).

Lemma pair_size u v : square u <= 21 / 10 -> square v <= 102 / 100 -> square u * square v <= 2142 / 1000.
Proof.
  intros A B. apply Rle_trans with (21 / 10 * (102 / 100)); [apply Rmult_le_compat; auto using square_pos|lra].
Qed.

Lemma slant_size : Rabs (slant m n U V) <= 3 / 2.
Proof.
  assert (A := cross_square m n). assert (B := cross_square U V). assert (C := dot_square (vcross m n) (vcross U V)).
  assert (P1 := square_pos m). assert (P2 := square_pos n). assert (P3 := square_pos U). assert (P4 := square_pos V).
  assert (A2 : square (vcross m n) <= 102 / 100 * (21 / 10)) by (eapply Rle_trans; [exact A|]; apply Rmult_le_compat; lra).
  assert (B2 : square (vcross U V) <= 102 / 100 * (102 / 100)) by (eapply Rle_trans; [exact B|]; apply Rmult_le_compat; lra).
  assert (D : square (vcross m n) * square (vcross U V) <= 102 / 100 * (21 / 10) * (102 / 100 * (102 / 100))) by (apply Rmult_le_compat; auto using square_pos).
  fold (slant m n U V) in C. apply Rabs_le. split; nra.
Qed.

Lemma dots : exists a b c d, vdot_d m U = Ok a /\ vdot_d m V = Ok b /\ vdot_d n U = Ok c /\ vdot_d n V = Ok d
  /\ ab 5 a (vdot m U) /\ ab 5 b (vdot m V) /\ ab 5 c (vdot n U) /\ ab 5 d (vdot n V).
Proof.
  destruct (dot_ok m U (pair_size m U ltac:(lra) HU)) as (a & E1 & A). destruct (dot_ok m V (pair_size m V ltac:(lra) HV)) as (b & E2 & B).
  destruct (dot_ok n U (pair_size n U HN HU)) as (c & E3 & C). destruct (dot_ok n V (pair_size n V HN HV)) as (d & E4 & D).
  exists a, b, c, d. auto 10.
Qed.

Lemma sizes : Rabs (vdot m U) <= 1465 / 1000 /\ Rabs (vdot m V) <= 1465 / 1000 /\ Rabs (vdot n U) <= 1465 / 1000 /\ Rabs (vdot n V) <= 1465 / 1000.
Proof. split; [|split; [|split]]; apply dot_size, pair_size; lra. Qed.

Lemma two_ok : 1000 * uround <= Rabs (slant m n U V) ->
  exists p q, calculateLocalToMeasurementProjectionMatrix_d U V [m; n] = Ok p /\ inverts q m n U V
  /\ within (80 * uround / (slant m n U V * slant m n U V)) p q.
Proof.
  intros L. destruct dots as (a & b & c & d & E1 & E2 & E3 & E4 & A & B & C & D). destruct sizes as (S1 & S2 & S3 & S4).
  destruct (det_ok _ _ _ _ _ _ _ _ A B C D S1 S2 S3 S4) as (p & q & t & Ep & Eq & Et & T & _).
  rewrite <- slant_det in T. assert (SS := conj L slant_size). set (s := slant m n U V) in *.
  assert (OP : forall x' x, ab 5 x' x -> ab 5 (- x') (- x)) by (unfold ab; intros x' x H; replace (- x' - - x) with (- (x' - x)) by ring; rewrite Rabs_Ropp; exact H).
  destruct (quot_ok _ _ _ _ D S4 T SS) as (r0 & F0 & G0). destruct (quot_ok _ _ _ _ (OP _ _ B) ltac:(rewrite Rabs_Ropp; exact S2) T SS) as (r1 & F1 & G1).
  destruct (quot_ok _ _ _ _ (OP _ _ C) ltac:(rewrite Rabs_Ropp; exact S3) T SS) as (r2 & F2 & G2). destruct (quot_ok _ _ _ _ A S1 T SS) as (r3 & F3 & G3).
  assert (NT : t <> 0). { intros Q. subst t. unfold rd_div in F0. destruct (Req_EM_T 0 0); [discriminate|contradiction]. }
  assert (NS : s <> 0) by (intros Q; rewrite Q, Rabs_R0 in L; generalize u_fine; lra).
  exists (r0, r1, r2, r3), (vdot n V / s, - vdot m V / s, - vdot n U / s, vdot m U / s). split; [|split].
  - unfold calculateLocalToMeasurementProjectionMatrix_d, invert_d. rewrite E1. cbn [bind]. rewrite E2. cbn [bind]. rewrite E3. cbn [bind]. rewrite E4. cbn [bind].
    rewrite Ep. cbn [bind]. rewrite Eq. cbn [bind]. rewrite Et. cbn [bind]. destruct (Req_EM_T t 0) as [Q|_]; [contradiction|].
    rewrite F0. cbn [bind]. rewrite F1. cbn [bind]. rewrite F2. cbn [bind]. rewrite F3. reflexivity.
  - unfold inverts. assert (ES : s = vdot m U * vdot n V - vdot m V * vdot n U) by (unfold s; apply slant_det).
    clear - NS ES. revert ES. generalize (vdot m U) (vdot m V) (vdot n U) (vdot n V). intros x y z w ES.
    split; [|split; [|split]].
    + replace (w / s * x + - y / s * z) with ((x * w - y * z) / s) by (field; exact NS). rewrite <- ES. field. exact NS.
    + field. exact NS.
    + field. exact NS.
    + replace (- z / s * y + x / s * w) with ((x * w - y * z) / s) by (field; exact NS). rewrite <- ES. field. exact NS.
  - unfold within. auto.
Qed.

Lemma two_throw : calculateLocalToMeasurementProjectionMatrix_d U V [m; n] = Throw -> Rabs (slant m n U V) <= 42 * uround.
Proof.
  destruct dots as (a & b & c & d & E1 & E2 & E3 & E4 & A & B & C & D). destruct sizes as (S1 & S2 & S3 & S4).
  destruct (det_ok _ _ _ _ _ _ _ _ A B C D S1 S2 S3 S4) as (p & q & t & Ep & Eq & Et & T & _). rewrite <- slant_det in T.
  unfold calculateLocalToMeasurementProjectionMatrix_d, invert_d. rewrite E1. cbn [bind]. rewrite E2. cbn [bind]. rewrite E3. cbn [bind]. rewrite E4. cbn [bind].
  rewrite Ep. cbn [bind]. rewrite Eq. cbn [bind]. rewrite Et. cbn [bind]. destruct (Req_EM_T t 0) as [Q|_].
  - intros _. subst t. unfold ab in T. rewrite Rabs_minus_sym in T. replace (slant m n U V - 0) with (slant m n U V) in T by ring. lra.
  - unfold rd_div, rd. destruct (Req_EM_T t 0); cbn [bind]; [discriminate|]. repeat (destruct (Rlt_dec _ _); cbn [bind]; [|discriminate]). discriminate.
Qed.
End Two.

(** ** one direction *)
Lemma Rabs_def2b x a : Rabs x <= a -> - a <= x <= a.
Proof. intros H. split; [|apply Rle_trans with (Rabs x); [apply Rle_abs|exact H]]. assert (A := Rle_abs (- x)). rewrite Rabs_Ropp in A. lra. Qed.

Section One.
Variable m : vec3.
Hypothesis HM : direction m.

Lemma m_len : 98 / 100 <= vr m <= 102 / 100 /\ vr m * vr m = square m.
Proof.
  destruct (di_unit _ HM) as (A & B). change (vr m) with (sqrt (square m)). assert (Q : sqrt (square m) * sqrt (square m) = square m) by (apply sqrt_sqrt; lra).
  assert (P := sqrt_pos (square m)). split; [|exact Q]. split; nra.
Qed.
Lemma m_common : common (vr m).
Proof.
  destruct m_len as (A & _). split.
  - apply Rle_trans with (bpow radix2 (-1)); [apply bpow_le; lia|]. change (bpow radix2 (-1)) with (/ 2). lra.
  - apply Rle_trans with (bpow radix2 1); [change (bpow radix2 1) with 2; lra|apply bpow_le; lia].
Qed.

Lemma unit_ok : exists e x y z, vunit_d m = Ok e /\ is_double (vx e) /\ is_double (vy e) /\ is_double (vz e) /\ ab 5 (vx e) x /\ ab 5 (vy e) y /\ ab 5 (vz e) z
  /\ x * x + y * y + z * z = 1 /\ vx m = vr m * x /\ vy m = vr m * y /\ vz m = vr m * z.
Proof.
  destruct (dir m m_common) as (e & E & X & Y & Z). destruct m_len as (A & S). exists e, (vx m / vr m), (vy m / vr m), (vz m / vr m).
  assert (W : forall v w, near 1 (48 / 10) v w -> ab 5 v w) by (intros v w [_ H]; unfold ab; generalize u_fine; lra).
  split; [exact E|]. assert (DD : is_double (vx e) /\ is_double (vy e) /\ is_double (vz e)).
  { revert E. unfold vunit_d. destruct (vr_d m) as [r| | | |]; cbn [bind]; try discriminate. unfold rd_div. destruct (Req_EM_T r 0); cbn [bind]; try discriminate.
    unfold rd. repeat (destruct (Rlt_dec _ _); cbn [bind]; try discriminate). intros Q. injection Q as <-. cbn [vx vy vz]. auto using rnd_double. }
  destruct DD as (D1 & D2 & D3). split; [exact D1|]. split; [exact D2|]. split; [exact D3|]. split; [auto|]. split; [auto|]. split; [auto|].
  split; [|split; [|split]; field; lra].
  replace (vx m / vr m * (vx m / vr m) + vy m / vr m * (vy m / vr m) + vz m / vr m * (vz m / vr m)) with (square m / (vr m * vr m)) by (unfold square; field; lra).
  rewrite S. field. destruct (di_unit _ HM). lra.
Qed.

Lemma len_ab v : Rabs (vx v) <= 3 / 2 -> Rabs (vy v) <= 3 / 2 -> Rabs (vz v) <= 3 / 2 ->
  exists w, vr_d v = Ok (rnd (sqrt w)) /\ ab 40 w (square v).
Proof.
  intros X Y Z. assert (Q : forall t, Rabs t <= 3 / 2 -> Rabs (t * t) <= 9 / 4) by (intros t T; rewrite Rabs_mult; assert (A := Rabs_pos t); nra).
  apply Q in X. apply Q in Y. apply Q in Z. unfold vr_d, square. revert X Y Z. generalize (vx v * vx v) (vy v * vy v) (vz v * vz v). intros p q t X Y Z.
  destruct (ab_op _ _ _ _ (ab_same p) X ltac:(lra) ltac:(lra)) as (E1 & A1). rewrite E1. cbn [bind].
  destruct (ab_op _ _ _ _ (ab_same q) Y ltac:(lra) ltac:(lra)) as (E2 & A2). rewrite E2. cbn [bind].
  assert (A3 := ab_add _ _ _ _ _ _ A1 A2). assert (T1 := Rabs_triang p q).
  destruct (ab_op _ _ _ (9 / 2) A3 ltac:(lra) ltac:(lra) ltac:(lra)) as (E3 & A4). rewrite E3. cbn [bind].
  destruct (ab_op _ _ _ _ (ab_same t) Z ltac:(lra) ltac:(lra)) as (E5 & A5). rewrite E5. cbn [bind].
  assert (A6 := ab_add _ _ _ _ _ _ A4 A5). assert (T2 := Rabs_triang (p + q) t).
  destruct (ab_op _ _ _ (27 / 4) A6 ltac:(lra) ltac:(lra) ltac:(lra)) as (E6 & A7). rewrite E6. cbn [bind].
  eexists. split; [reflexivity|]. apply (ab_weak _ _ _ _ A7). lra.
Qed.

(** the computed length against the threshold *)
Lemma short_len w s : 0 <= s <= 3 -> ab 40 w s -> rnd (sqrt w) < rnd (/ 1000000) -> s <= / 100000000000.
Proof.
  intros S A L. assert (U := u_fine). unfold ab in A. destruct (Rle_lt_dec s (/ 100000000000)) as [H|H]; [exact H|exfalso].
  assert (B := Rabs_def2b _ _ A). apply (Rlt_not_le _ _ L). apply FloatWrapFacts.rnd_le.
  apply Rsqr_incr_0_var; [|apply sqrt_pos]. unfold Rsqr. rewrite sqrt_sqrt by lra. lra.
Qed.
Lemma long_len w s : 0 <= s <= 3 -> ab 40 w s -> rnd (/ 1000000) <= rnd (sqrt w) -> 9 / 10000000 <= sqrt s.
Proof.
  intros S A L. assert (U := u_fine). unfold ab in A. assert (B := Rabs_def2b _ _ A).
  assert (W : ~ sqrt w <= 95 / 100000000).
  { intros H. assert (R1 := FloatWrapFacts.rnd_le _ _ H). assert (E1 := rnd_err (95 / 100000000)). assert (E2 := rnd_err (/ 1000000)).
    assert (LF := least_fine). rewrite (Rabs_pos_eq (95 / 100000000)) in E1 by lra. rewrite (Rabs_pos_eq (/ 1000000)) in E2 by lra.
    apply Rabs_def2b in E1. apply Rabs_def2b in E2. lra. }
  apply Rnot_le_lt in W. assert (WP : 0 < w). { destruct (Rle_lt_dec w 0) as [H|H]; [|exact H]. rewrite sqrt_neg in W by exact H. lra. }
  assert (Q := sqrt_sqrt w (Rlt_le _ _ WP)). assert (W2 : 9025 / 10000 * / 1000000000000 <= w) by nra.
  apply Rsqr_incr_0_var; [|apply sqrt_pos]. unfold Rsqr. rewrite sqrt_sqrt by lra. lra.
Qed.

Lemma fake_ok : exists w, fakeDirection_d m = Ok w /\ stand_in m w.
Proof.
  destruct unit_ok as (e & x & y & z & E & DX & DY & DZ & AX & AY & AZ & N & MX & MY & MZ). destruct m_len as (ML & _).
  assert (P : forall t, 0 <= t * t) by (intros t; apply Rle_0_sqr).
  assert (P1 := P x). assert (P2 := P y). assert (P3 := P z). assert (P4 := P (x - y)). assert (P5 := P (y - z)). assert (P6 := P (x + y)). assert (P7 := P (y + z)).
  assert (SX : Rabs x <= 1) by (apply Rabs_le; split; nra). assert (SY : Rabs y <= 1) by (apply Rabs_le; split; nra). assert (SZ : Rabs z <= 1) by (apply Rabs_le; split; nra).
  assert (OP : forall k x' x, ab k x' x -> ab k (- x') (- x)) by (unfold ab; intros k x' x0 H; replace (- x' - - x0) with (- (x' - x0)) by ring; rewrite Rabs_Ropp; exact H).
  assert (SR : forall a, a * a <= 2 -> Rabs a <= 1415 / 1000) by (intros a A2; apply Rabs_le; split; nra).
  assert (SXY : Rabs (- x - y) <= 1415 / 1000) by (apply SR; lra). assert (SYZ : Rabs (- y - z) <= 1415 / 1000) by (apply SR; lra).
  destruct (ab_op _ _ _ _ (ab_sub _ _ _ _ _ _ (OP _ _ _ AX) AY) SXY ltac:(lra) ltac:(lra)) as (ET & AT).
  destruct (ab_op _ _ _ _ (ab_sub _ _ _ _ _ _ (OP _ _ _ AY) AZ) SYZ ltac:(lra) ltac:(lra)) as (EU & AU).
  apply ab_weak with (f := 115 / 10) in AT; [|lra]. apply ab_weak with (f := 115 / 10) in AU; [|lra].
  assert (BX := ab_size _ _ _ AX ltac:(lra)). assert (BY := ab_size _ _ _ AY ltac:(lra)). assert (BZ := ab_size _ _ _ AZ ltac:(lra)).
  assert (BT := ab_size _ _ _ AT ltac:(lra)). assert (BU := ab_size _ _ _ AU ltac:(lra)).
  unfold fakeDirection_d. rewrite E. cbn [bind]. rewrite ET. cbn [bind].
  destruct (len_ab (V3 (vz e) (vz e) (rnd (- vx e - vy e))) ltac:(cbn [vx vy vz]; lra) ltac:(cbn [vx vy vz]; lra) ltac:(cbn [vx vy vz]; lra)) as (l & EL & AL).
  rewrite EL. cbn [bind]. set (t := rnd (- vx e - vy e)) in *. assert (U := u_fine). unfold ab in AX, AY, AZ, AT, AU.
  (* the orthogonality of a vector of the form computed *)
  assert (ORTH : forall p q a b a' b', p * a + q * b = 0 -> Rabs (a' - a) <= uround * 5 -> Rabs (b' - b) <= uround * (115 / 10) -> Rabs p <= 1415 / 1000 -> Rabs q <= 1 ->
    Rabs (vr m * (p * a' + q * b')) <= 25 * uround).
  { intros p q a b a' b' Z0 A B SP SQ. replace (p * a' + q * b') with (p * (a' - a) + q * (b' - b)) by (rewrite <- (Rminus_0_r (p * a' + q * b')), <- Z0; ring).
    rewrite Rabs_mult, (Rabs_pos_eq (vr m)) by lra.
    assert (H1 : Rabs (p * (a' - a)) <= 1415 / 1000 * (uround * 5)) by (rewrite Rabs_mult; apply Rmult_le_compat; auto using Rabs_pos).
    assert (H2 : Rabs (q * (b' - b)) <= 1 * (uround * (115 / 10))) by (rewrite Rabs_mult; apply Rmult_le_compat; auto using Rabs_pos).
    assert (H3 := Rabs_triang (p * (a' - a)) (q * (b' - b))).
    apply Rle_trans with (102 / 100 * (1415 / 1000 * (uround * 5) + 1 * (uround * (115 / 10)))); [|lra].
    apply Rmult_le_compat; [lra|apply Rabs_pos|lra|lra]. }
  assert (LONG : forall a b, Rabs a <= 1 -> Rabs b <= 1415 / 1000 -> forall a' b', Rabs (a' - a) <= uround * 5 -> Rabs (b' - b) <= uround * (115 / 10) ->
    Rabs (a' * a' + a' * a' + b' * b' - (a * a + a * a + b * b)) <= uround * 60).
  { intros a b SA SB a' b' A B.
    assert (Q := fun c c' k h => ab_mul k k c' c c' c h h). unfold ab in Q.
    assert (Q1 := Q a a' 5 1 A A SA SA ltac:(lra) ltac:(lra) ltac:(lra) ltac:(lra)).
    assert (Q2 := Q b b' (115 / 10) (1415 / 1000) B B SB SB ltac:(lra) ltac:(lra) ltac:(lra) ltac:(lra)).
    replace (a' * a' + a' * a' + b' * b' - (a * a + a * a + b * b)) with ((a' * a' - a * a) + (a' * a' - a * a) + (b' * b' - b * b)) by ring.
    eapply Rle_trans; [apply Rabs_triang|]. eapply Rle_trans; [apply Rplus_le_compat_r, Rabs_triang|]. lra. }
  assert (W1 := LONG z (- x - y) SZ SXY (vz e) t AZ AT). assert (W2 := LONG x (- y - z) SX SYZ (vx e) (rnd (- vy e - vz e)) AX AU).
  apply Rabs_def2b in W1. apply Rabs_def2b in W2. clear LONG.
  assert (SQ1 : square (V3 (vz e) (vz e) t) = vz e * vz e + vz e * vz e + t * t) by (unfold square; reflexivity).
  assert (S0 := square_pos (V3 (vz e) (vz e) t)).
  destruct (Rlt_dec (rnd (sqrt l)) (rnd (/ 1000000))) as [L|L].
  - rewrite EU. cbn [bind]. eexists. split; [reflexivity|]. set (u := rnd (- vy e - vz e)) in *.
    apply (short_len l (square (V3 (vz e) (vz e) t))) in L; [|rewrite SQ1; split; [rewrite <- SQ1; exact S0|lra]|exact AL]. rewrite SQ1 in L.
    assert (P8 := P (2 * x + y)).
    assert (SQ2 : square (V3 u (vx e) (vx e)) = vx e * vx e + vx e * vx e + u * u) by (unfold square; cbn [vx vy vz]; ring).
    constructor; cbn [vx vy vz]; auto.
    + unfold u. apply rnd_double.
    + unfold vdot. cbn [vx vy vz]. rewrite MX, MY, MZ. replace (vr m * x * u + vr m * y * vx e + vr m * z * vx e) with (vr m * ((y + z) * vx e + x * u)) by ring.
      apply (ORTH (y + z) x x (- y - z)); auto; [ring|]. replace (y + z) with (- (- y - z)) by ring. rewrite Rabs_Ropp. exact SYZ.
    + rewrite SQ2. lra.
    + rewrite SQ2. apply Rsqr_incr_0_var; [|apply sqrt_pos]. unfold Rsqr. rewrite sqrt_sqrt by (rewrite <- SQ2; apply square_pos). lra.
  - eexists. split; [reflexivity|]. apply Rnot_lt_le in L.
    constructor; cbn [vx vy vz]; auto.
    + unfold t. apply rnd_double.
    + unfold vdot. cbn [vx vy vz]. rewrite MX, MY, MZ. replace (vr m * x * vz e + vr m * y * vz e + vr m * z * t) with (vr m * ((x + y) * vz e + z * t)) by ring.
      apply (ORTH (x + y) z z (- x - y)); auto; [ring|]. replace (x + y) with (- (- x - y)) by ring. rewrite Rabs_Ropp. exact SXY.
    + rewrite SQ1. lra.
    + apply (long_len l); [|exact AL|exact L]. rewrite SQ1. split; [rewrite <- SQ1; exact S0|lra].
Qed.
End One.
