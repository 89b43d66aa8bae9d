(** C62: the measurement seen by the fit. *)
From Coq Require Import Reals List Bool ZArith Lra.
From Verif Require Import Num Vec Helix Isect Trans Material Traj.
From Verif Require Import NumFacts SpecTrans TransFacts SpecTraj TrajFacts TrajFacts5 TrajEx PropTrajEx SpecFit SpecMeas MeasFacts.
Import ListNotations.
Open Scope R_scope.

(** The track displaced by x along u and y along v meets the plane of the
    measurement directions at one point; its coordinates are given by the transpose
    of the projection matrix.  The matrix itself gives them only if m.v = n.u. *)
Theorem C62_prediction : forall u v t m n, is_frame u v t -> vdot (vcross m n) t <> 0 ->
  exists p11 p12 p21 p22,
    calculateLocalToMeasurementProjectionMatrix u v [m; n] = Ok (p11, p12, p21, p22)
    /\ (forall x y a b, meets u v t m n x y a b <-> a = p11 * x + p21 * y /\ b = p12 * x + p22 * y)
    /\ ((forall x y, meets u v t m n x y (p11 * x + p12 * y) (p21 * x + p22 * y)) <-> vdot m v = vdot n u).
Proof. exact projection_meets. Qed.
Print Assumptions C62_prediction.

(** A vertical plane, second direction along z: right for horizontal tracks and
    for tracks whose transverse direction is orthogonal to the plane. *)
Theorem C62_vertical_plane : forall hp m u v, calculateLocalCurvilinearSystem 0 hp = (u, v) -> vz m = 0 ->
  (vdot m v = vdot (V3 0 0 1) u <-> hp TANL = 0 \/ vdot m (calculateTangent 0 hp) = 0).
Proof.
  intros hp m u v Q Hm. unfold calculateLocalCurvilinearSystem in Q. injection Q as <- <-.
  unfold calculateTangent, vdot. cbn [vx vy vz]. unfold calculateLambda, calculatePhi0, calculateCurvature.
  rewrite Hm, Rmult_0_r, Rminus_0_r, sin_atan_cos. generalize (cos_atan_pos (hp TANL)). set (c := cos (atan (hp TANL))). intros Cp.
  set (k := vx m * cos (hp PHI0) + vy m * sin (hp PHI0)).
  assert (Ek : vx m * (- cos (hp PHI0) * (hp TANL * c)) + vy m * (- sin (hp PHI0) * (hp TANL * c)) + 0 * c = - (k * hp TANL) * c)
    by (unfold k; ring).
  rewrite Ek. replace (0 * - sin (hp PHI0) + 0 * cos (hp PHI0) + 1 * 0) with 0 by ring.
  assert (Et : vx m * (cos (hp PHI0) * c) + vy m * (sin (hp PHI0) * c) + 0 * (hp TANL * c) = k * c) by (unfold k; ring).
  rewrite Et. split.
  - intros Z. apply Rmult_integral in Z. destruct Z as [Z|Z]; [|lra].
    assert (Z' : k * hp TANL = 0) by lra. apply Rmult_integral in Z'. destruct Z' as [->|Z']; [right; ring|auto].
  - intros [->|Z]; [ring|]. apply Rmult_integral in Z. destruct Z as [->|Z]; [ring|lra].
Qed.
Print Assumptions C62_vertical_plane.

(** A disk measuring x and y: right only for tracks in the y-z plane. *)
Theorem C62_disk : forall hp u v, calculateLocalCurvilinearSystem 0 hp = (u, v) ->
  (vdot (V3 1 0 0) v = vdot (V3 0 1 0) u <-> cos (hp PHI0) = 0).
Proof.
  intros hp u v Q. unfold calculateLocalCurvilinearSystem in Q. injection Q as <- <-.
  unfold vdot. cbn [vx vy vz]. unfold calculatePhi0, calculateCurvature, calculateLambda. rewrite Rmult_0_r, Rminus_0_r, sin_atan_cos.
  assert (L : -1 < hp TANL * cos (atan (hp TANL))).
  { assert (C := cos_atan_pos (hp TANL)). assert (S := sin2_cos2 (atan (hp TANL))). unfold Rsqr in S. rewrite sin_atan_cos in S.
    set (a := hp TANL * cos (atan (hp TANL))) in *. assert (0 < cos (atan (hp TANL)) * cos (atan (hp TANL))) by (apply Rmult_lt_0_compat; auto). nra. }
  set (a := hp TANL * cos (atan (hp TANL))) in *. split.
  - intros Z. assert (Z' : cos (hp PHI0) * (1 + a) = 0) by lra. apply Rmult_integral in Z'. destruct Z'; lra.
  - intros ->. ring.
Qed.
Print Assumptions C62_disk.

(** What is stored for a measurement on a flat surface: for every displacement
    (x, y) of the track in the element's curvilinear frame, measured minus crossed
    position is the residual minus the transposed projection applied to (x, y). *)
Theorem C62_measurement : forall E t position precision surf id sc t' o m n,
  addMeasurement E t position precision surf id sc = (t', Ok true) -> flat surf o m n ->
  exists t1 e u v p11 p12 p21 p22 r0 r1,
    extended t1 t' e /\ te_cls e = Some (u, v) /\ te_proj e = Some (p11, p12, p21, p22) /\ te_res e = [r0; r1]
    /\ is_frame u v (calculateTangent 0 (tp_par (te_tp e)))
    /\ vdot (vcross m n) (calculateTangent 0 (tp_par (te_tp e))) <> 0
    /\ (forall x y a b, meets u v (calculateTangent 0 (tp_par (te_tp e))) m n x y a b ->
          let q := vadd (tp_ref (te_tp e)) (vadd (vscale a m) (vscale b n)) in
          fst (sf_globalToLocal surf position) - fst (sf_globalToLocal surf q) = r0 - (p11 * x + p21 * y)
          /\ snd (sf_globalToLocal surf position) - snd (sf_globalToLocal surf q) = r1 - (p12 * x + p22 * y)).
Proof. exact measurement_model. Qed.
Print Assumptions C62_measurement.

(** The fitter, which predicts the measurement by the matrix as it is, is told a
    wrong dependence on the track: a barrel layer normal to x, crossed at 45 degrees
    in azimuth and dip. *)
Theorem C62_projection_refuted : exists hp m n u v p11 p12 p21 p22,
  vdot m m = 1 /\ vdot n n = 1 /\ vdot m n = 0
  /\ calculateLocalCurvilinearSystem 0 hp = (u, v) /\ vdot (vcross m n) (calculateTangent 0 hp) <> 0
  /\ calculateLocalToMeasurementProjectionMatrix u v [m; n] = Ok (p11, p12, p21, p22)
  /\ ~ forall x y, meets u v (calculateTangent 0 hp) m n x y (p11 * x + p12 * y) (p21 * x + p22 * y).
Proof.
  set (hp := mk5 (1 / 100) 1 (PI / 4) 0 0). exists hp, (V3 0 1 0), (V3 0 0 1).
  assert (F := local_frame 0 hp).
  destruct (calculateLocalCurvilinearSystem 0 hp) as [u v] eqn:Q. destruct F as [F _].
  assert (T : vdot (vcross (V3 0 1 0) (V3 0 0 1)) (calculateTangent 0 hp) <> 0).
  { unfold calculateTangent, vdot, vcross. cbn [vx vy vz]. unfold calculatePhi0, calculateCurvature, calculateLambda, hp, mk5. cbn.
    replace (PI / 4 - 1 / 100 * 0) with (PI / 4) by field. rewrite atan_1, cos_PI4.
    assert (0 < 1 / sqrt 2) by (apply Rdiv_lt_0_compat; [lra|apply sqrt_lt_R0; lra]).
    assert (0 < 1 / sqrt 2 * (1 / sqrt 2)) by (apply Rmult_lt_0_compat; auto). intros Z. lra. }
  destruct (C62_prediction u v _ _ _ F T) as (p11 & p12 & p21 & p22 & E & _ & W).
  exists u, v, p11, p12, p21, p22. unfold vdot at 1 2 3. cbn [vx vy vz].
  split; [lra|]. split; [lra|]. split; [lra|]. split; auto. split; auto. split; auto.
  intros H. apply W in H. apply (C62_vertical_plane hp (V3 0 1 0) u v Q eq_refl) in H.
  destruct H as [H|H].
  - unfold hp in H. cbn in H. lra.
  - unfold calculateTangent, vdot in H. cbn [vx vy vz] in H. unfold calculatePhi0, calculateCurvature, calculateLambda, hp, mk5 in H. cbn in H.
    replace (PI / 4 - 1 / 100 * 0) with (PI / 4) in H by field. rewrite atan_1, cos_PI4, sin_PI4 in H.
    assert (0 < 1 / sqrt 2) by (apply Rdiv_lt_0_compat; [lra|apply sqrt_lt_R0; lra]).
    assert (0 < 1 / sqrt 2 * (1 / sqrt 2)) by (apply Rmult_lt_0_compat; auto). lra.
Qed.
Print Assumptions C62_projection_refuted.

(** a hit in a station, which is flat *)
Example C62_instance : exists t' surf o m n, addMeasurement ex_env (mkTraj ex_ref None) v3zero [1; 1] surf 7 false = (t', Ok true)
  /\ flat surf o m n.
Proof.
  destruct (station_new ex_initial pionMass 1 (fun _ => true) pion_pos) as [K HK]; [cbn; lra|cbn; lra|cbn; lra|].
  destruct (HK 0) as [HM _]; [lra|lra|]. destruct (HM v3zero [1; 1] 7%Z false) as [e He].
  exists (set_elems (ex_traj None) [ex_initial; e]), (ex_station 1 0 (fun _ => true)), v3zero, (V3 1 0 0), (V3 0 1 0). split.
  - unfold addMeasurement, pushElement. fold (ex_traj None). rewrite ex_ensure.
    cbn [set_elems tr_elems ex_traj mkTraj tr_mass last]. rewrite He. reflexivity.
  - unfold flat, vdot, vsub, v3zero. cbn [vx vy vz]. split; [lra|]. split; [lra|]. split; [lra|].
    intros p. split; auto. split; auto. cbn [ex_station sf_globalToLocal]. f_equal; ring.
Qed.
