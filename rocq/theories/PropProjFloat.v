(** C98: the projection to the measurement system, computed in double precision. *)
From Coq Require Import Reals ZArith Lra Lia Psatz List.
From Flocq Require Import Core.
From Verif Require Import Num Vec FloatWrap PointFloat SpecRound RoundFacts PointFloatFacts PlaneFloat StartFloat BetheFloatFacts
  PathLibFacts ProjFloat SpecProjFloat ProjFloatFacts PropCylFloat.
Import ListNotations.
Open Scope R_scope.

(** Two directions whose plane the track crosses: the inverse up to rounding. *)
Theorem C98_two m n U V : direction m -> direction n \/ stand_in m n -> direction U -> direction V ->
  1000 * uround <= Rabs (slant m n U V) ->
  exists p q, calculateLocalToMeasurementProjectionMatrix_d U V [m; n] = Ok p /\ inverts q m n U V
  /\ within (80 * uround / (slant m n U V * slant m n U V)) p q.
Proof.
  intros M N HU HV S. apply two_ok; auto; [apply M| |apply HU|apply HV].
  destruct N as [N|N]; [generalize (proj2 (di_unit _ N)); lra|apply N].
Qed.

(** There is only one such inverse. *)
Theorem C98_unique m n U V p q : inverts p m n U V -> inverts q m n U V -> p = q.
Proof.
  destruct p as (((p0 & p1) & p2) & p3), q as (((q0 & q1) & q2) & q3). unfold inverts.
  generalize (vdot m U) (vdot m V) (vdot n U) (vdot n V). intros a b c d (A1 & A2 & A3 & A4) (B1 & B2 & B3 & B4).
  (* both are inverses from the left of the same matrix, so its determinant is not zero *)
  assert (D : (p0 * p3 - p1 * p2) * (a * d - b * c) = 1).
  { replace ((p0 * p3 - p1 * p2) * (a * d - b * c)) with ((p0 * a + p1 * c) * (p2 * b + p3 * d) - (p0 * b + p1 * d) * (p2 * a + p3 * c)) by ring.
    rewrite A1, A2, A3, A4. ring. }
  assert (ND : a * d - b * c <> 0) by (intros Q; rewrite Q in D; lra).
  assert (Z : forall x y, x * a + y * c = 0 -> x * b + y * d = 0 -> x = 0 /\ y = 0).
  { intros x y H1 H2. split.
    - apply Rmult_eq_reg_r with (a * d - b * c); [|exact ND]. replace (x * (a * d - b * c)) with ((x * a + y * c) * d - (x * b + y * d) * c) by ring. rewrite H1, H2. ring.
    - apply Rmult_eq_reg_r with (a * d - b * c); [|exact ND]. replace (y * (a * d - b * c)) with ((x * b + y * d) * a - (x * a + y * c) * b) by ring. rewrite H1, H2. ring. }
  destruct (Z (p0 - q0) (p1 - q1)) as (E0 & E1); [lra|lra|]. destruct (Z (p2 - q2) (p3 - q3)) as (E2 & E3); [lra|lra|].
  replace p0 with q0 by lra. replace p1 with q1 by lra. replace p2 with q2 by lra. replace p3 with q3 by lra. reflexivity.
Qed.

(** The exception: only for a track along the plane of the directions, to rounding. *)
Theorem C98_throw m n U V : direction m -> direction n \/ stand_in m n -> direction U -> direction V ->
  calculateLocalToMeasurementProjectionMatrix_d U V [m; n] = Throw -> Rabs (slant m n U V) <= 42 * uround.
Proof.
  intros M N HU HV. apply two_throw; auto; [apply M| |apply HU|apply HV].
  destruct N as [N|N]; [generalize (proj2 (di_unit _ N)); lra|apply N].
Qed.

(** The same direction twice, or a direction and its opposite, is always reported. *)
Theorem C98_parallel m U V n : direction m -> direction U -> direction V -> n = m \/ n = V3 (- vx m) (- vy m) (- vz m) ->
  calculateLocalToMeasurementProjectionMatrix_d U V [m; n] = Throw.
Proof.
  intros M HU HV N. assert (M2 := di_unit _ M). assert (U2 := di_unit _ HU). assert (V2 := di_unit _ HV).
  destruct (dots m m U V ltac:(lra) ltac:(lra) ltac:(lra) ltac:(lra)) as (a & b & c & d & E1 & E2 & E3 & E4 & A & B & C & D).
  destruct (sizes m m U V ltac:(lra) ltac:(lra) ltac:(lra) ltac:(lra)) as (S1 & S2 & S3 & S4).
  rewrite E1 in E3. injection E3 as <-. rewrite E2 in E4. injection E4 as <-.
  destruct (det_ok _ _ _ _ _ _ _ _ A B A B S1 S2 S1 S2) as (p & q & t & Ep & Eq & Et & _).
  rewrite Rmult_comm in Eq. rewrite Ep in Eq. injection Eq as <-. rewrite Rminus_diag_eq in Et by reflexivity. rewrite (rd_0) in Et. injection Et as <-.
  assert (RO : forall x y, rd x = Ok y -> rd (- x) = Ok (- y)).
  { intros x y. unfold rd. rewrite FloatWrapFacts.rnd_opp, Rabs_Ropp. destruct (Rlt_dec _ _); [|discriminate]. intros Q. injection Q as <-. reflexivity. }
  assert (VO : forall v w x, vdot_d v w = Ok x -> vdot_d (V3 (- vx v) (- vy v) (- vz v)) w = Ok (- x)).
  { intros v w x. unfold vdot_d. cbn [vx vy vz]. destruct (rd (vx v * vx w)) as [p1| | | |] eqn:F1; cbn [bind]; try discriminate.
    destruct (rd (vy v * vy w)) as [p2| | | |] eqn:F2; cbn [bind]; try discriminate. destruct (rd (p1 + p2)) as [p3| | | |] eqn:F3; cbn [bind]; try discriminate.
    destruct (rd (vz v * vz w)) as [p4| | | |] eqn:F4; cbn [bind]; try discriminate. intros F5.
    replace (- vx v * vx w) with (- (vx v * vx w)) by ring. rewrite (RO _ _ F1). cbn [bind]. replace (- vy v * vy w) with (- (vy v * vy w)) by ring. rewrite (RO _ _ F2). cbn [bind].
    replace (- p1 + - p2) with (- (p1 + p2)) by ring. rewrite (RO _ _ F3). cbn [bind]. replace (- vz v * vz w) with (- (vz v * vz w)) by ring. rewrite (RO _ _ F4). cbn [bind].
    replace (- p3 + - p4) with (- (p3 + p4)) by ring. apply RO. exact F5. }
  unfold calculateLocalToMeasurementProjectionMatrix_d, invert_d. rewrite E1. cbn [bind]. rewrite E2. cbn [bind].
  destruct N as [->| ->].
  - rewrite E1. cbn [bind]. rewrite E2. cbn [bind]. rewrite Ep. cbn [bind]. rewrite (Rmult_comm b a), Ep. cbn [bind]. rewrite Rminus_diag_eq, rd_0 by reflexivity. cbn [bind].
    destruct (Req_EM_T 0 0); [reflexivity|contradiction].
  - rewrite (VO _ _ _ E1). cbn [bind]. rewrite (VO _ _ _ E2). cbn [bind]. replace (a * - b) with (- (a * b)) by ring. replace (b * - a) with (- (a * b)) by ring.
    rewrite (RO _ _ Ep). cbn [bind]. rewrite Rminus_diag_eq, rd_0 by reflexivity. cbn [bind]. destruct (Req_EM_T 0 0); [reflexivity|contradiction].
Qed.

(** A measurement in one direction is treated as one in two, the second a stand-in
    that depends on the first alone. *)
Theorem C98_one m : direction m -> exists w, stand_in m w /\
  forall U V, calculateLocalToMeasurementProjectionMatrix_d U V [m] = calculateLocalToMeasurementProjectionMatrix_d U V [m; w].
Proof.
  intros M. destruct (fake_ok m M) as (w & E & S). exists w. split; [exact S|]. intros U V. unfold calculateLocalToMeasurementProjectionMatrix_d. rewrite E. reflexivity.
Qed.

(** Any other number of directions is rejected. *)
Theorem C98_number U V ms : (length ms <> 1)%nat -> (length ms <> 2)%nat -> calculateLocalToMeasurementProjectionMatrix_d U V ms = Throw.
Proof.
  destruct ms as [|a [|b [|c ms]]]; cbn [length]; intros A B; try reflexivity; [elim A|elim B]; reflexivity.
Qed.
Print Assumptions C98_two.
Print Assumptions C98_unique.
Print Assumptions C98_throw.
Print Assumptions C98_parallel.
Print Assumptions C98_one.
Print Assumptions C98_number.

(** ** a track exactly along the plane of the directions need not be reported *)
Lemma rdx x y : is_double y -> x = y -> Rabs y <= bpow radix2 60 -> rd x = Ok y.
Proof.
  intros D -> L. rewrite (mag_rd y 60); [rewrite rnd_id by exact D; reflexivity|lia|exact L].
Qed.
Lemma dbl k e x : (Z.abs k < 2 ^ 53)%Z -> (-1074 <= e)%Z -> x = IZR k * bpow radix2 e -> is_double x.
Proof. intros K E ->. apply dyadic; assumption. Qed.
Lemma p60 x : Rabs x <= 10 -> Rabs x <= bpow radix2 60.
Proof. intros H. apply Rle_trans with (bpow radix2 4); [change (bpow radix2 4) with 16; lra|apply bpow_le; lia]. Qed.
Ltac dy k e p := apply (dbl k e); [reflexivity|lia|change (bpow radix2 e) with p; lra].
Ltac sz := apply p60; apply Rabs_le; lra.

Definition wee : R := 5 * / 72057594037927936. (* 2^-56 *)
Definition flat_U : vec3 := V3 (13 / 16) wee (19 / 32).
Definition flat_V : vec3 := V3 (39 / 64) (3 * wee / 4) (- (51 / 64)).
Definition flat_m : vec3 := V3 1 0 0.
Definition flat_n : vec3 := V3 (3 / 4) (21 / 32) 0.
Definition up : R := 8233143068786689 * / 18014398509481984. (* 117/256 + 2^-54 *)

Lemma d_0' : is_double 0. Proof. dy 0%Z 0%Z 1. Qed.
Lemma flat_dirs : direction flat_m /\ direction flat_n /\ direction flat_U /\ direction flat_V.
Proof.
  assert (Z := d_0'). unfold flat_m, flat_n, flat_U, flat_V, wee. split; [|split; [|split]]; constructor; cbn [vx vy vz]; unfold square; cbn [vx vy vz]; try exact Z; try (split; lra).
  - dy 1%Z 0%Z 1.
  - dy 3%Z (-2)%Z (/ 4).
  - dy 21%Z (-5)%Z (/ 32).
  - dy 13%Z (-4)%Z (/ 16).
  - dy 5%Z (-56)%Z (/ 72057594037927936).
  - dy 19%Z (-5)%Z (/ 32).
  - dy 39%Z (-6)%Z (/ 64).
  - dy 15%Z (-58)%Z (/ 288230376151711744).
  - dy (-51)%Z (-6)%Z (/ 64).
Qed.

Theorem C98_along_refuted : exists m n U V p, direction m /\ direction n /\ direction U /\ direction V /\ slant m n U V = 0
  /\ calculateLocalToMeasurementProjectionMatrix_d U V [m; n] = Ok p /\ 1000000000000000 <= fst (fst (fst p)).
Proof.
  assert (Z := d_0'). destruct flat_dirs as (D1 & D2 & D3 & D4).
  assert (DA : is_double (13 / 16)) by (dy 13%Z (-4)%Z (/ 16)). assert (DB : is_double (39 / 64)) by (dy 39%Z (-6)%Z (/ 64)).
  assert (DD : is_double (117 / 256)) by (dy 117%Z (-8)%Z (/ 256)). assert (DU : is_double up) by (unfold up; dy 8233143068786689%Z (-54)%Z (/ 18014398509481984)).
  assert (E1 : vdot_d flat_m flat_U = Ok (13 / 16)).
  { unfold vdot_d, flat_m, flat_U. cbn [vx vy vz]. rewrite (rdx _ (13 / 16) DA) by (lra || sz). cbn [bind]. rewrite (rdx _ 0 Z) by (lra || sz). cbn [bind].
    rewrite (rdx _ (13 / 16) DA) by (lra || sz). cbn [bind]. rewrite (rdx _ 0 Z) by (lra || sz). cbn [bind]. apply (rdx _ (13 / 16) DA); [lra|sz]. }
  assert (E2 : vdot_d flat_m flat_V = Ok (39 / 64)).
  { unfold vdot_d, flat_m, flat_V. cbn [vx vy vz]. rewrite (rdx _ (39 / 64) DB) by (lra || sz). cbn [bind]. rewrite (rdx _ 0 Z) by (lra || sz). cbn [bind].
    rewrite (rdx _ (39 / 64) DB) by (lra || sz). cbn [bind]. rewrite (rdx _ 0 Z) by (lra || sz). cbn [bind]. apply (rdx _ (39 / 64) DB); [lra|sz]. }
  set (e3 := 105 * / 2305843009213693952). assert (DE3 : is_double e3) by (unfold e3; dy 105%Z (-61)%Z (/ 2305843009213693952)).
  assert (R3 : rd (39 / 64 + e3) = Ok (39 / 64)).
  { rewrite big_rd by (apply Rabs_le; unfold e3; lra). f_equal. replace (39 / 64) with (IZR 5488762045857792 * bpow radix2 (-1 - 52)) at 2 by (change (bpow radix2 (-1 - 52)) with (/ 9007199254740992); lra).
    apply rounds; [lia| |].
    - change (bpow radix2 (-1)) with (/ 2). change (bpow radix2 (-1 + 1)) with 1. unfold e3. rewrite Rabs_pos_eq by lra. lra.
    - change (bpow radix2 (52 - -1)) with 9007199254740992. unfold e3. apply Rabs_def1; lra. }
  assert (E3 : vdot_d flat_n flat_U = Ok (39 / 64)).
  { unfold vdot_d, flat_n, flat_U. cbn [vx vy vz]. rewrite (rdx _ (39 / 64) DB) by (lra || sz). cbn [bind]. rewrite (rdx _ e3 DE3) by (unfold e3, wee; lra || sz). cbn [bind].
    rewrite R3. cbn [bind]. rewrite (rdx _ 0 Z) by (lra || sz). cbn [bind]. apply (rdx _ (39 / 64) DB); [lra|sz]. }
  set (e4 := 315 * / 9223372036854775808). assert (DE4 : is_double e4) by (unfold e4; dy 315%Z (-63)%Z (/ 9223372036854775808)).
  assert (R4 : rd (117 / 256 + e4) = Ok up).
  { rewrite big_rd by (apply Rabs_le; unfold e4; lra). f_equal. unfold up. change (/ 18014398509481984) with (bpow radix2 (-2 - 52)).
    apply rounds; [lia| |].
    - change (bpow radix2 (-2)) with (/ 4). change (bpow radix2 (-2 + 1)) with (/ 2). unfold e4. rewrite Rabs_pos_eq by lra. lra.
    - change (bpow radix2 (52 - -2)) with 18014398509481984. unfold e4. apply Rabs_def1; lra. }
  assert (E4 : vdot_d flat_n flat_V = Ok up).
  { unfold vdot_d, flat_n, flat_V. cbn [vx vy vz]. rewrite (rdx _ (117 / 256) DD) by (lra || sz). cbn [bind]. rewrite (rdx _ e4 DE4) by (unfold e4, wee; lra || sz). cbn [bind].
    rewrite R4. cbn [bind]. rewrite (rdx _ 0 Z) by (lra || sz). cbn [bind]. apply (rdx _ up DU); [lra|unfold up; sz]. }
  set (p := 6689428743389185 * / 18014398509481984). assert (DP : is_double (1521 / 4096)) by (dy 1521%Z (-12)%Z (/ 4096)).
  assert (R5 : rd (13 / 16 * up) = Ok p).
  { rewrite big_rd by (apply Rabs_le; unfold up; lra). f_equal. unfold p, up. change (/ 18014398509481984) with (bpow radix2 (-2 - 52)) at 2.
    apply rounds; [lia| |].
    - change (bpow radix2 (-2)) with (/ 4). change (bpow radix2 (-2 + 1)) with (/ 2). rewrite Rabs_pos_eq by lra. lra.
    - change (bpow radix2 (52 - -2)) with 18014398509481984. apply Rabs_def1; lra. }
  set (t := / 18014398509481984). assert (DT : is_double t) by (unfold t; dy 1%Z (-54)%Z (/ 18014398509481984)).
  exists flat_m, flat_n, flat_U, flat_V, (8233143068786689, - 10977524091715584, - 10977524091715584, 14636698788954112).
  split; [exact D1|]. split; [exact D2|]. split; [exact D3|]. split; [exact D4|]. split; [|split].
  - unfold slant, vcross, vdot, flat_m, flat_n, flat_U, flat_V. cbn [vx vy vz]. field.
  - unfold calculateLocalToMeasurementProjectionMatrix_d, invert_d. rewrite E1. cbn [bind]. rewrite E2. cbn [bind]. rewrite E3. cbn [bind]. rewrite E4. cbn [bind].
    rewrite R5. cbn [bind]. rewrite (rdx _ (1521 / 4096) DP) by (lra || sz). cbn [bind]. rewrite (rdx _ t DT) by (unfold p, t; lra || sz). cbn [bind].
    assert (NT : t <> 0) by (unfold t; lra). unfold rd_div. destruct (Req_EM_T t 0) as [Q|_]; [contradiction|].
    assert (BG : forall x, Rabs x <= 20000000000000000 -> Rabs x <= bpow radix2 60) by (intros x H; change (bpow radix2 60) with 1152921504606846976; lra).
    rewrite (rdx _ 8233143068786689); [|dy 8233143068786689%Z 0%Z 1|unfold up, t; field|apply BG, Rabs_le; lra]. cbn [bind].
    rewrite (rdx (- (39 / 64) / t) (- 10977524091715584)); [|dy (-5488762045857792)%Z 1%Z 2|unfold t; field|apply BG, Rabs_le; lra]. cbn [bind].
    rewrite (rdx (13 / 16 / t) 14636698788954112); [|dy 7318349394477056%Z 1%Z 2|unfold t; field|apply BG, Rabs_le; lra]. reflexivity.
  - cbn [fst]. lra.
Qed.
Print Assumptions C98_along_refuted.

(** ** a track that crosses the plane of two directions at an angle *)
Definition across_U : vec3 := V3 0 1 0.
Definition across_V : vec3 := V3 (- (39 / 64)) 0 (51 / 64).
Example C98_across : direction flat_m /\ direction flat_n /\ direction across_U /\ direction across_V
  /\ 1000 * uround <= Rabs (slant flat_m flat_n across_U across_V).
Proof.
  destruct flat_dirs as (D1 & D2 & _). assert (Z := d_0'). split; [exact D1|]. split; [exact D2|].
  split; [|split].
  - constructor; unfold across_U, square; cbn [vx vy vz]; try exact Z; [dy 1%Z 0%Z 1|split; lra].
  - constructor; unfold across_V, square; cbn [vx vy vz]; try exact Z; [dy (-39)%Z (-6)%Z (/ 64)|dy 51%Z (-6)%Z (/ 64)|split; lra].
  - unfold slant, vcross, vdot, flat_m, flat_n, across_U, across_V. cbn [vx vy vz]. assert (U := u_fine).
    match goal with |- _ <= Rabs ?x => replace x with (819 / 2048) by field end. rewrite Rabs_pos_eq; lra.
Qed.
