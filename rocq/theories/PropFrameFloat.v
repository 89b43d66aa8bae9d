(** C99: the local frame of a track in double precision, and the projection with it. *)
From Coq Require Import Reals ZArith Lra Lia Psatz List.
From Flocq Require Import Core.
From Verif Require Import Num Vec FloatWrap PointFloat SpecRound RoundFacts PointFloatFacts BetheFloatFacts
  ProjFloat SpecProjFloat ProjFloatFacts PropProjFloat FrameFloat SpecFrameFloat FrameFloatFacts PropRound.
Import ListNotations.
Open Scope R_scope.

(** The exact frame: right-handed and orthonormal. *)
Theorem C99_triad phi lam : vcross (sideways phi) (upwards phi lam) = along phi lam
  /\ square (sideways phi) = 1 /\ square (upwards phi lam) = 1 /\ square (along phi lam) = 1 /\ vdot (sideways phi) (upwards phi lam) = 0.
Proof.
  assert (Q1 := sin2_cos2 phi). assert (Q2 := sin2_cos2 lam). unfold Rsqr in Q1, Q2. split; [apply triad|]. unfold square, sideways, upwards, along, vdot. cbn [vx vy vz].
  split; [rewrite <- Q1; ring|]. split; [|split; [|ring]].
  - replace (- cos phi * sin lam * (- cos phi * sin lam) + - sin phi * sin lam * (- sin phi * sin lam) + cos lam * cos lam)
      with ((sin phi * sin phi + cos phi * cos phi) * (sin lam * sin lam) + cos lam * cos lam) by ring. rewrite Q1, Rmult_1_l. exact Q2.
  - replace (cos phi * cos lam * (cos phi * cos lam) + sin phi * cos lam * (sin phi * cos lam) + sin lam * sin lam)
      with ((sin phi * sin phi + cos phi * cos phi) * (cos lam * cos lam) + sin lam * sin lam) by ring. rewrite Q1, Rmult_1_l. lra.
Qed.

(** The computed frame is the exact one up to rounding ... *)
Theorem C99_frame L s hp : accurate L -> moderate s -> (forall i, moderate (hp i)) ->
  exists U V, calculateLocalCurvilinearSystem_d L s hp = Ok (U, V)
  /\ close (wobble s hp) U (sideways (azimuth s hp)) /\ close (wobble s hp) V (upwards (azimuth s hp) (atan (hp TANL))).
Proof. apply frame_err. Qed.

(** ... and orthonormal for all doubles, however large the error of the azimuth. *)
Theorem C99_orthonormal L s hp U V : accurate L -> (forall i, is_double (hp i)) -> calculateLocalCurvilinearSystem_d L s hp = Ok (U, V) ->
  direction U /\ direction V /\ Rabs (square U - 1) <= 10 * uround /\ Rabs (square V - 1) <= 32 * uround /\ Rabs (vdot U V) <= 3 * uround.
Proof. apply frame_norm. Qed.

(** The projection with the computed frame: the inverse for the exact frame up to rounding, if the
    track is not too close to the plane of the measurement. *)
Theorem C99_project L s hp m n : accurate L -> moderate s -> (forall i, moderate (hp i)) -> direction m -> direction n \/ stand_in m n ->
  let t := vdot (vcross m n) (along (azimuth s hp) (atan (hp TANL))) in
  200 * wobble s hp <= Rabs t ->
  exists U V p q, calculateLocalCurvilinearSystem_d L s hp = Ok (U, V)
  /\ calculateLocalToMeasurementProjectionMatrix_d U V [m; n] = Ok p
  /\ inverts q m n (sideways (azimuth s hp)) (upwards (azimuth s hp) (atan (hp TANL)))
  /\ within (40 * wobble s hp / (t * t)) p q.
Proof.
  intros HL Hs Hh M N t LT. destruct (frame_err L s hp HL Hs Hh) as (U & V & E & CU & CV).
  destruct (frame_norm L s hp U V HL (fun i => proj1 (Hh i)) E) as (DU & DV & _).
  destruct (C99_triad (azimuth s hp) (atan (hp TANL))) as (T & T1 & T2 & _).
  assert (ES : slant m n (sideways (azimuth s hp)) (upwards (azimuth s hp) (atan (hp TANL))) = t) by (unfold slant; rewrite T; reflexivity).
  assert (NN : square n <= 21 / 10) by (destruct N as [N|N]; [generalize (proj2 (di_unit _ N)); lra|apply N]).
  assert (U1 := u_fine). assert (P1 := Rabs_pos (hp PHI0)). assert (P2 := Rabs_pos (hp OMEGA * s)).
  assert (W12 : 12 * uround <= wobble s hp) by (unfold wobble; assert (0 <= uround * (2 * Rabs (hp PHI0) + 3 * Rabs (hp OMEGA * s))) by (apply Rmult_le_pos; lra); lra).
  destruct (moved m n U V (sideways (azimuth s hp)) (upwards (azimuth s hp) (atan (hp TANL))) (wobble s hp)) as (p & q & Ep & Iq & W);
    try assumption; try (apply M); try (apply DU); try (apply DV); try (rewrite ES; assumption); try lra.
  rewrite ES in W. exists U, V, p, q. auto.
Qed.

(** The same for a measurement in one direction. *)
Theorem C99_project_one L s hp m : accurate L -> moderate s -> (forall i, moderate (hp i)) -> direction m ->
  exists w, stand_in m w /\
  let t := vdot (vcross m w) (along (azimuth s hp) (atan (hp TANL))) in
  (200 * wobble s hp <= Rabs t ->
  exists U V p q, calculateLocalCurvilinearSystem_d L s hp = Ok (U, V)
  /\ calculateLocalToMeasurementProjectionMatrix_d U V [m] = Ok p
  /\ inverts q m w (sideways (azimuth s hp)) (upwards (azimuth s hp) (atan (hp TANL)))
  /\ within (40 * wobble s hp / (t * t)) p q).
Proof.
  intros HL Hs Hh M. destruct (C98_one m M) as (w & S & E). exists w. split; [exact S|]. intros t LT.
  destruct (C99_project L s hp m w HL Hs Hh M (or_intror S) LT) as (U & V & p & q & E1 & E2 & E3 & E4). exists U, V, p, q. rewrite E. auto.
Qed.
Print Assumptions C99_triad.
Print Assumptions C99_frame.
Print Assumptions C99_orthonormal.
Print Assumptions C99_project.
Print Assumptions C99_project_one.

(** ** a track at 45 degrees through a plane of silicon: right to 10^-11 *)
Definition strip : vec3 := V3 0 0 1.
Definition pixel : vec3 := V3 0 1 0.
Lemma d_one : is_double 1. Proof. apply (moderate_1). Qed.
Lemma strips : direction strip /\ direction pixel.
Proof.
  assert (Z := d_0'). assert (O := d_one). split; constructor; unfold strip, pixel, square; cbn [vx vy vz]; auto; split; lra.
Qed.
Example C99_silicon : exists U V p q, calculateLocalCurvilinearSystem_d best 512 curved_hp = Ok (U, V)
  /\ calculateLocalToMeasurementProjectionMatrix_d U V [strip; pixel] = Ok p
  /\ inverts q strip pixel (sideways (1 / 2)) (upwards (1 / 2) (PI / 4)) /\ within (/ 100000000000) p q.
Proof.
  destruct curved_instance as [HL HF]. destruct strips as (D1 & D2).
  assert (AZ : azimuth 512 curved_hp = 1 / 2).
  { unfold azimuth. change (curved_hp PHI0) with 1. change (curved_hp OMEGA) with (/ 1024). lra. }
  assert (LA : atan (curved_hp TANL) = PI / 4) by (change (curved_hp TANL) with 1; apply atan_1).
  assert (WO : wobble 512 curved_hp = uround * (155 / 10)).
  { unfold wobble. change (curved_hp PHI0) with 1. change (curved_hp OMEGA) with (/ 1024). rewrite Rabs_R1, Rabs_pos_eq by lra. lra. }
  assert (U1 := u_fine). assert (PI3 := PI_RGT_0). assert (P3 := PI2_3_2).
  assert (C1 : 1 / 2 <= cos (1 / 2)).
  { apply Rle_trans with (cos (PI / 3)); [right; symmetry; apply cos_PI3|]. apply Rlt_le, cos_decreasing_1; lra. }
  assert (C2 : 1 / 2 <= cos (PI / 4)).
  { apply Rle_trans with (cos (PI / 3)); [right; symmetry; apply cos_PI3|]. apply Rlt_le, cos_decreasing_1; lra. }
  assert (T : vdot (vcross strip pixel) (along (1 / 2) (PI / 4)) = - (cos (1 / 2) * cos (PI / 4))) by (unfold vdot, vcross, strip, pixel, along; cbn [vx vy vz]; ring).
  assert (CC : / 4 <= cos (1 / 2) * cos (PI / 4)) by (apply Rle_trans with (1 / 2 * (1 / 2)); [lra|apply Rmult_le_compat; lra]).
  assert (M512 : moderate 512) by exact (moderate_bpow 9 ltac:(lia)).
  destruct (C99_project best 512 curved_hp strip pixel HL M512 (fd_hp _ _ _ HF) D1 (or_introl D2)) as (U & V & p & q & E1 & E2 & E3 & E4).
  { rewrite AZ, LA, T, WO, Rabs_Ropp, Rabs_pos_eq by lra. lra. }
  rewrite AZ, LA in E3, E4. rewrite T, WO in E4. exists U, V, p, q. split; [exact E1|]. split; [exact E2|]. split; [exact E3|].
  set (c := cos (1 / 2) * cos (PI / 4)) in *.
  assert (K : 40 * (uround * (155 / 10)) / (- c * - c) <= / 100000000000).
  { assert (CP : 0 < c) by lra. apply Rmult_le_reg_r with (c * c); [apply Rmult_lt_0_compat; assumption|]. replace (40 * (uround * (155 / 10)) / (- c * - c) * (c * c)) with (40 * (uround * (155 / 10))) by (field; lra).
    apply Rle_trans with (/ 100000000000 * (/ 4 * / 4)); [lra|]. apply Rmult_le_compat_l; [lra|]. apply Rmult_le_compat; lra. }
  destruct p as (((p0 & p1) & p2) & p3), q as (((q0 & q1) & q2) & q3). unfold within in *. destruct E4 as (W0 & W1 & W2 & W3).
  split; [lra|]. split; [lra|]. split; lra.
Qed.
Print Assumptions C99_silicon.
