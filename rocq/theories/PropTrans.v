(** Properties C23-C27, C30, C52. *)
From Coq Require Import Reals Lra List.
From Coquelicot Require Import Coquelicot.
From Verif Require Import SpecConst Num NumFacts Vec Helix Trans SpecHelix SpecMat SpecTrans SpecJac
  HelixFacts TransFacts JacFacts.
Import ListNotations.
Open Scope R_scope.

(** C23 *)
Theorem C23_local_frame : forall s hp,
  let '(u, v) := calculateLocalCurvilinearSystem s hp in
  is_frame u v (calculateTangent s hp) /\ vz u = 0 /\ 0 < vz v.
Proof.
  intros s hp. generalize (local_frame s hp).
  destruct (calculateLocalCurvilinearSystem s hp) as [u v] eqn:E. intros [F Z]. repeat split; auto; try apply F.
  unfold calculateLocalCurvilinearSystem in E. inversion E. cbn. apply cos_atan_pos.
Qed.
Print Assumptions C23_local_frame.

(** C24.  [inverts p u v m n]: the matrix [p] recovers the components of any
    displacement in the plane of [u], [v] from its scalar products with [m], [n]. *)
Theorem C24_projection : forall u v,
  (* two directions: the inverse, or an exception if there is none *)
  (forall m n p, calculateLocalToMeasurementProjectionMatrix u v [m; n] = Ok p <-> inverts p u v m n)
  /\ (forall m n, calculateLocalToMeasurementProjectionMatrix u v [m; n] = Throw
                  <-> forall p, ~ inverts p u v m n)
  (* one direction: the same with an orthogonal second one *)
  /\ (forall m, m <> v3zero -> exists w, substitute m w /\ w <> v3zero /\ vdot m w = 0
       /\ (forall p, calculateLocalToMeasurementProjectionMatrix u v [m] = Ok p <-> inverts p u v m w)
       /\ (calculateLocalToMeasurementProjectionMatrix u v [m] = Throw <-> forall p, ~ inverts p u v m w))
  /\ calculateLocalToMeasurementProjectionMatrix u v [v3zero] = NonFin
  /\ (forall l, length l <> 1%nat -> length l <> 2%nat ->
        calculateLocalToMeasurementProjectionMatrix u v l = Throw)
  (* when there is an inverse *)
  /\ (forall t m n, is_frame u v t -> ((exists p, inverts p u v m n) <-> vdot (vcross m n) t <> 0)).
Proof.
  intros u v.
  assert (T : forall m n, calculateLocalToMeasurementProjectionMatrix u v [m; n] = Throw
                  <-> forall p, ~ inverts p u v m n).
  { intros m n. split.
    - intros E p I. apply projection_iff in I. congruence.
    - intros N. destruct (calculateLocalToMeasurementProjectionMatrix u v [m; n]) as [p| | | |] eqn:E; auto;
        [exfalso; apply (N p), projection_iff; auto|..];
        cbn [calculateLocalToMeasurementProjectionMatrix] in E; destruct Req_EM_T; discriminate. }
  split; [intros; apply projection_iff|]. split; [exact T|]. split; [|split; [|split]].
  - intros m Hm. destruct (fake_ok m Hm) as (w & E & N & O). exists w.
    split; [apply substitute_iff; auto|]. split; auto. split; auto.
    split; [intros p; apply projection_one_iff; auto|].
    rewrite <- T. cbn [calculateLocalToMeasurementProjectionMatrix]. rewrite E. reflexivity.
  - cbn [calculateLocalToMeasurementProjectionMatrix]. rewrite fake_zero. reflexivity.
  - apply projection_other.
  - intros t m n F. destruct (projection_two u v t m n F) as [A B]. split.
    + intros [p I] Z. apply A in Z. apply projection_iff in I. congruence.
    + intros Z. destruct (B Z) as (p & _ & I). eauto.
Qed.
Print Assumptions C24_projection.

(** A one-dimensional measurement along a direction orthogonal to the track can
    always be compared with the track, but some are rejected: a strip measuring z
    crossed by a horizontal track at an azimuth of 45 degrees. *)
Theorem C24_one_dimension_refuted : exists s hp m u v,
  calculateLocalCurvilinearSystem s hp = (u, v)
  /\ vdot m m = 1 /\ vdot m (calculateTangent s hp) = 0
  /\ calculateLocalToMeasurementProjectionMatrix u v [m] = Throw.
Proof.
  exists 0, (mk5 0 0 (PI / 4) 0 0), (V3 0 0 1).
  exists (V3 (- sin (PI / 4)) (cos (PI / 4)) 0), (V3 0 0 1).
  assert (Sn : sin (PI / 4) = cos (PI / 4)) by (rewrite sin_PI4, cos_PI4; reflexivity).
  split; [|split; [|split]].
  - unfold calculateLocalCurvilinearSystem, calculateCurvature, calculatePhi0, calculateLambda. cbn.
    rewrite atan_0, sin_0, cos_0, Rmult_0_l, Rminus_0_r. f_equal. f_equal; ring.
  - unfold vdot; cbn; ring.
  - unfold vdot, calculateTangent, calculateLambda; cbn. rewrite atan_0, sin_0. ring.
  - unfold calculateLocalToMeasurementProjectionMatrix, fakeDirection, vunit, vr. cbn [vx vy vz].
    replace (0 * 0 + 0 * 0 + 1 * 1) with 1 by ring. rewrite sqrt_1, !rdiv_ok by lra. cbn [bind vx vy vz].
    replace (1 / 1 * (1 / 1) + 1 / 1 * (1 / 1) + (- (0 / 1) - 0 / 1) * (- (0 / 1) - 0 / 1)) with 2 by field.
    destruct (Rlt_dec (sqrt 2) eps6) as [L|L].
    { exfalso. assert (1 < sqrt 2) by (rewrite <- sqrt_1 at 1; apply sqrt_lt_1; lra). unfold eps6 in L. lra. }
    cbn [bind]. destruct Req_EM_T as [_|N]; auto. exfalso. apply N.
    unfold vdot; cbn [vx vy vz]. rewrite Sn. field.
Qed.
Print Assumptions C24_one_dimension_refuted.

(** C25.  Entries of what the operations return. *)
Theorem C25_entries : forall (a b : mat5) (v w : vec5) i j,
  m5zero i j = 0
  /\ m5mul a b i j = a i I0 * b I0 j + a i I1 * b I1 j + a i I2 * b I2 j + a i I3 * b I3 j + a i I4 * b I4 j
  /\ m5mulv a v i = a i I0 * v I0 + a i I1 * v I1 + a i I2 * v I2 + a i I3 * v I3 + a i I4 * v I4
  /\ m5transpose a i j = a j i
  /\ v5add v w i = v i + w i
  /\ (forall x, m5set a i j x i j = x /\ v5set v i x i = x
        /\ (forall k l, (k <> i \/ l <> j) -> m5set a i j x k l = a k l)
        /\ (forall k, k <> i -> v5set v i x k = v k)).
Proof.
  intros a b v w i j. split; [reflexivity|]. split; [reflexivity|]. split; [reflexivity|]. split; [reflexivity|].
  split; [reflexivity|]. intros x. unfold m5set, v5set.
  split; [destruct (idx_eq_dec i i), (idx_eq_dec j j); congruence|].
  split; [destruct (idx_eq_dec i i); congruence|]. split.
  - intros k l N. destruct (idx_eq_dec k i), (idx_eq_dec l j); auto. exfalso. destruct N; auto.
  - intros k N. destruct (idx_eq_dec k i); congruence.
Qed.
Print Assumptions C25_entries.

(** Laws of the algebra. *)
Theorem C25_matrix_algebra : forall a b c v w,
  m5eq (m5mul (m5mul a b) c) (m5mul a (m5mul b c))
  /\ m5eq (m5mul mident a) a /\ m5eq (m5mul a mident) a
  /\ m5eq (m5transpose (m5transpose a)) a
  /\ m5eq (m5transpose (m5mul a b)) (m5mul (m5transpose b) (m5transpose a))
  /\ v5eq (m5mulv (m5mul a b) v) (m5mulv a (m5mulv b v))
  /\ v5eq (m5mulv a (v5add v w)) (v5add (m5mulv a v) (m5mulv a w))
  /\ v5eq (m5mulv mident v) v.
Proof.
  intros. split; [apply mul_assoc|]. split; [apply mul_ident_l|]. split; [apply mul_ident_r|].
  split; [intros i j; reflexivity|]. split; [apply transpose_mul|]. split; [apply mulv_mul|].
  split; [apply mulv_add|]. intros i. unfold m5mulv, sum5, mident. destruct i; simpl; ring.
Qed.
Print Assumptions C25_matrix_algebra.

(** Row-wise construction; too short a vector is read out of bounds. *)
Theorem C25_rowwise : forall (l : list R),
  ((length l < 25)%nat -> m5of_list l = UB)
  /\ (forall r0 r1 r2 r3 r4 rest, length r0 = 5%nat -> length r1 = 5%nat -> length r2 = 5%nat ->
        length r3 = 5%nat -> length r4 = 5%nat -> l = r0 ++ r1 ++ r2 ++ r3 ++ r4 ++ rest ->
      exists m, m5of_list l = Ok m
      /\ forall j, m I0 j = nth (idx_nat j) r0 0 /\ m I1 j = nth (idx_nat j) r1 0
         /\ m I2 j = nth (idx_nat j) r2 0 /\ m I3 j = nth (idx_nat j) r3 0 /\ m I4 j = nth (idx_nat j) r4 0).
Proof.
  intros l. unfold m5of_list. split; intros H.
  - destruct (Nat.ltb_spec (length l) 25); auto. exfalso. apply (PeanoNat.Nat.lt_irrefl (length l)).
    eapply PeanoNat.Nat.lt_le_trans; eauto.
  - intros r1 r2 r3 r4 rest L0 L1 L2 L3 L4 ->.
    repeat (match goal with Hl : length ?r = 5%nat |- _ =>
      destruct r as [|? [|? [|? [|? [|? [|? ?]]]]]]; simpl in Hl; try discriminate; clear Hl end).
    simpl. eexists. split; [reflexivity|]. intros j. destruct j; simpl; auto.
Qed.
Print Assumptions C25_rowwise.

(** [Unit()] is advertised to make a unit matrix out of the given matrix. *)
Theorem C25_unit_refuted : forall m, ~ m5eq m mident -> ~ m5eq (m5Unit m) mident.
Proof. intros m H. exact H. Qed.
Print Assumptions C25_unit_refuted.

(** C26 *)
Theorem C26_perigee_to_l3_is_the_derivative : forall hp w i,
  v5eq (l3_of_perigee (perigee_of_l3 hp)) hp
  /\ is_derive (fun t => l3_of_perigee (displaced (perigee_of_l3 hp) w t) i) 0
               (m5mulv (perigeeToL3Jacobian hp) w i).
Proof. intros. split; [apply perigee_roundtrip | apply perigee_derivative]. Qed.
Print Assumptions C26_perigee_to_l3_is_the_derivative.

Theorem C26_l3_to_perigee_inverse_refuted : forall hp,
  ~ m5eq (m5mul (perigeeToL3Jacobian hp) (L3ToPerigeeJacobian hp)) mident
  /\ ~ m5eq (m5mul (L3ToPerigeeJacobian hp) (perigeeToL3Jacobian hp)) mident.
Proof. exact l32p_not_inverse. Qed.
Print Assumptions C26_l3_to_perigee_inverse_refuted.

(** What it is instead: the transpose of the derivative of the documented change
    (omega, phi0, d0, z0, tan lambda) -> (kappa, theta, phi, epsilon, z_p), with the
    input in that order, which is not the order of [trackParameters]. *)
Theorem C26_l3_to_perigee_transposed : forall hp w j,
  is_derive (fun t => perigee_of_l3 (displaced hp w t) j) 0
    (m5mulv (m5transpose (L3ToPerigeeJacobian hp)) (fun i => w (documented_order i)) j).
Proof. exact l32p_derivative. Qed.
Print Assumptions C26_l3_to_perigee_transposed.

(** C27 *)
Theorem C27_azimuth_ignored : forall hp b,
  (b = v3zero -> curvilinearToL3Jacobian hp b = NonFin)
  /\ (b <> v3zero -> exists J, curvilinearToL3Jacobian hp b = Ok J
      /\ (forall v x, v5eq (m5mulv J (v5set v I2 x)) (m5mulv J v))
      /\ singular J).
Proof.
  intros hp b. destruct (cl2l3_column hp b) as [A B]. split; auto. intros H.
  destruct (B H) as [J [E C]]. exists J. split; auto. split.
  - intros v x i. unfold m5mulv, sum5, v5set. simpl. rewrite C. ring.
  - exists (mk5 0 0 1 0 0). split.
    + intros Q. specialize (Q I2). simpl in Q. lra.
    + intros i. unfold m5mulv, sum5. simpl. rewrite C. ring.
Qed.
Print Assumptions C27_azimuth_ignored.

(** C30 *)
Theorem C30_momentum : forall (bf : vec3 -> vec3) s hp rp, hp OMEGA <> 0 ->
  let bz := vz (bf rp) in
  let pt := field_unit * bz / Rabs (hp OMEGA) in
  let ph := hp PHI0 - hp OMEGA * s in
  momentumAt bf s hp rp = Ok (V3 (pt * cos ph) (pt * sin ph) (pt * hp TANL))
  /\ calculateQoverP hp bz = (if Req_EM_T bz 0 then 0 else cos (atan (hp TANL)) * hp OMEGA / (bz * field_unit))
  /\ (bz > 0 -> momentumAt bf s hp rp
             = Ok (vscale (Rabs (1 / calculateQoverP hp bz)) (calculateTangent s hp)))
  /\ (bz < 0 -> momentumAt bf s hp rp
             = Ok (vscale (- Rabs (1 / calculateQoverP hp bz)) (calculateTangent s hp)))
  /\ (bz = 0 -> momentumAt bf s hp rp = Ok v3zero /\ calculateQoverP hp bz = 0)
  /\ (bz <> 0 -> calculateQoverP hp bz <> 0 /\ (0 < calculateQoverP hp bz <-> 0 < hp OMEGA * bz)).
Proof.
  intros bf s hp rp H bz pt ph. destruct (momentum_scaled bf s hp rp H) as (A & B & C). fold bz in A, B, C.
  assert (Ho : Rabs (hp OMEGA) <> 0) by (apply Rabs_no_R0; auto).
  split; [|split; [reflexivity|split; [|split; [|split]]]]; try intros Hb.
  - unfold momentumAt, calculateOmega. rewrite rdiv_ok by auto. cbn [bind]. fold bz.
    replace (Rabs (1 / hp OMEGA) * bz * convertBr2P_cm) with pt.
    + replace (calculatePhi0 hp - s * hp OMEGA) with ph by (unfold ph, calculatePhi0; ring). reflexivity.
    + unfold pt, Rdiv. change field_unit with convertBr2P_cm. rewrite Rmult_1_l, Rabs_inv. ring.
  - destruct (A Hb) as [k [-> E]]. exact E.
  - destruct (B Hb) as [k [-> E]]. exact E.
  - destruct (C Hb). auto.
  - apply qop_sign; auto.
Qed.
Print Assumptions C30_momentum.

Theorem C30_momentum_at_pca : forall (bf : vec3 -> vec3) hp rp,
  momentumAtPCA bf hp rp = momentumAt bf 0 hp rp
  /\ (hp OMEGA = 0 -> momentumAtPCA bf hp rp = NonFin).
Proof.
  intros. split; [apply momentum_PCA|]. intros H. unfold momentumAtPCA, calculateOmega. rewrite H, rdiv_zero.
  reflexivity.
Qed.
Print Assumptions C30_momentum_at_pca.

(** "The momentum points along the direction of motion" fails for a negative
    field component. *)
Theorem C30_direction_refuted : exists bf s hp rp p,
  momentumAt bf s hp rp = Ok p /\ vdot p (calculateTangent s hp) < 0.
Proof.
  exists (fun _ => V3 0 0 (-1)), 0, (mk5 1 0 0 0 0), v3zero.
  destruct (momentum_scaled (fun _ => V3 0 0 (-1)) 0 (mk5 1 0 0 0 0) v3zero) as (_ & B & _); [simpl; lra|].
  cbn [vz] in B. destruct B as [k [E K]]; [lra|]. eexists. split; [exact K|].
  destruct (qop_sign (mk5 1 0 0 0 0) (-1)) as [N _]; [lra|simpl; lra|].
  assert (0 < k). { rewrite E. apply Rabs_pos_lt. unfold Rdiv. rewrite Rmult_1_l. apply Rinv_neq_0_compat. auto. }
  generalize (local_frame 0 (mk5 1 0 0 0 0)).
  destruct (calculateLocalCurvilinearSystem 0 (mk5 1 0 0 0 0)) as [u v].
  intros [(_ & _ & T & _) _]. set (t := calculateTangent 0 (mk5 1 0 0 0 0)) in *.
  replace (vdot (vscale (- k) t) t) with (- k * vdot t t) by (unfold vdot, vscale; cbn [vx vy vz]; ring).
  rewrite T. lra.
Qed.
Print Assumptions C30_direction_refuted.

(** C52.  Every curvilinear correction of a curved track belongs to a family of
    tracks, and all such families have the derivative [l3_derivative]. *)
Theorem C52_true_derivative : forall hp rp bz w,
  bz <> 0 -> hp OMEGA <> 0 -> 1 - hp OMEGA * hp D0 <> 0 ->
  (exists P sg, curvilinear_family hp rp bz w P sg)
  /\ forall P sg, curvilinear_family hp rp bz w P sg ->
     forall i, is_derive (fun e => P e i) 0 (m5mulv (l3_derivative hp bz) w i).
Proof.
  intros hp rp bz w Hb Ho Hk. split.
  - exists (ge_P hp bz w), (ge_sg hp bz w). apply family_exists; auto.
  - intros P sg F i. apply (family_derivative hp rp bz w P sg); auto.
Qed.
Print Assumptions C52_true_derivative.

(** The matrix computed for a field along z agrees with it except for three
    entries: the effect of the dip angle on the curvature has the wrong sign, the
    effect of the azimuth on itself is lost, and the effect of a displacement
    along the second axis on the azimuth has the wrong sign when [bz > 0]. *)
Theorem C52_computed_matrix : forall hp bz, bz <> 0 -> hp D0 = 0 ->
  exists J, curvilinearToL3Jacobian hp (V3 0 0 bz) = Ok J
  /\ forall i j, J i j =
       match i, j with
       | I0, I1 => - l3_derivative hp bz i j
       | I2, I2 => 0
       | I2, I4 => if Rlt_dec 0 bz then - l3_derivative hp bz i j else l3_derivative hp bz i j
       | _, _ => l3_derivative hp bz i j
       end.
Proof. exact cl2l3_value. Qed.
Print Assumptions C52_computed_matrix.

(** For any impact parameter: the matrix is the one of a track with [d0 = 0], so
    the effects of the azimuth and of the second axis on [z0] are missing their
    terms in [d0], and the effect of the second axis on the azimuth its factor. *)
Theorem C52_computed_matrix_d0 : forall hp bz, bz <> 0 -> 1 - hp OMEGA * hp D0 <> 0 ->
  exists J, curvilinearToL3Jacobian hp (V3 0 0 bz) = Ok J
  /\ forall i j, J i j =
       match i, j with
       | I0, I1 => - l3_derivative hp bz i j
       | I2, I2 => 0
       | I2, I4 => (if Rlt_dec 0 bz then - 1 else 1) * (1 - hp OMEGA * hp D0) * l3_derivative hp bz i j
       | I4, I2 => 0
       | I4, I4 => / cos (atan (hp TANL))
       | _, _ => l3_derivative hp bz i j
       end.
Proof. exact cl2l3_value_d0. Qed.
Print Assumptions C52_computed_matrix_d0.

(** Hence for every curved track that is not horizontal a change of the dip
    angle moves the curvature the wrong way. *)
Theorem C52_curvature_correction_refuted : forall hp rp bz,
  bz <> 0 -> hp OMEGA <> 0 -> 1 - hp OMEGA * hp D0 <> 0 -> hp TANL <> 0 ->
  exists P sg J d,
    curvilinear_family hp rp bz (mk5 0 1 0 0 0) P sg
    /\ is_derive (fun e => P e OMEGA) 0 d
    /\ curvilinearToL3Jacobian hp (V3 0 0 bz) = Ok J
    /\ d <> 0 /\ m5mulv J (mk5 0 1 0 0 0) OMEGA = - d.
Proof.
  intros hp rp bz Hb Ho Hk Ht.
  destruct (C52_true_derivative hp rp bz (mk5 0 1 0 0 0) Hb Ho Hk) as [(P & sg & F) D].
  destruct (cl2l3_value_d0 hp bz Hb Hk) as [J [EJ V]].
  exists P, sg, J, (m5mulv (l3_derivative hp bz) (mk5 0 1 0 0 0) OMEGA).
  split; auto. split; [apply D with sg; auto|]. split; auto.
  unfold m5mulv, sum5, OMEGA at 1 2 3 4 5 6 7 8 9 10. rewrite !V. simpl. rewrite tan_atan.
  split.
  - replace (_ + _) with (hp OMEGA * hp TANL) by ring. apply Rmult_integral_contrapositive_currified; auto.
  - ring.
Qed.
Print Assumptions C52_curvature_correction_refuted.

(** And for every such track that does not pass through the reference axis a
    change of the azimuth moves [z0], but not in the computed matrix. *)
Theorem C52_impact_refuted : forall hp rp bz,
  bz <> 0 -> hp OMEGA <> 0 -> 1 - hp OMEGA * hp D0 <> 0 -> hp TANL <> 0 -> hp D0 <> 0 ->
  exists P sg J d,
    curvilinear_family hp rp bz (mk5 0 0 1 0 0) P sg
    /\ is_derive (fun e => P e Z0) 0 d
    /\ curvilinearToL3Jacobian hp (V3 0 0 bz) = Ok J
    /\ d <> 0 /\ m5mulv J (mk5 0 0 1 0 0) Z0 = 0.
Proof.
  intros hp rp bz Hb Ho Hk Ht Hd.
  destruct (C52_true_derivative hp rp bz (mk5 0 0 1 0 0) Hb Ho Hk) as [(P & sg & F) D].
  destruct (cl2l3_value_d0 hp bz Hb Hk) as [J [EJ V]].
  exists P, sg, J, (m5mulv (l3_derivative hp bz) (mk5 0 0 1 0 0) Z0).
  split; auto. split; [apply D with sg; auto|]. split; auto.
  unfold m5mulv, sum5, Z0. rewrite !V. simpl. rewrite tan_atan.
  split; [|ring].
  match goal with |- ?x <> 0 => replace x with (- (hp TANL * hp D0 * / (1 - hp OMEGA * hp D0))) by ring end.
  apply Ropp_neq_0_compat. repeat apply Rmult_integral_contrapositive_currified; auto.
  apply Rinv_neq_0_compat; auto.
Qed.
Print Assumptions C52_impact_refuted.

(** Cases meeting the hypotheses. *)
Example C24_case : is_frame (V3 0 1 0) (V3 0 0 1) (V3 1 0 0)
  /\ vdot (vcross (V3 0 1 1) (V3 0 0 1)) (V3 1 0 0) <> 0.
Proof. unfold is_frame, vdot, vcross; cbn. repeat split; try lra. f_equal; ring. Qed.
Example C52_case : let hp := mk5 (1/100) 1 1 0 5 in
  hp OMEGA <> 0 /\ hp D0 = 0 /\ hp TANL <> 0 /\ 1 - hp OMEGA * hp D0 <> 0.
Proof. cbn. repeat split; lra. Qed.
Example C52_case_d0 : let hp := mk5 (1/100) 1 1 2 5 in
  hp OMEGA <> 0 /\ hp D0 <> 0 /\ hp TANL <> 0 /\ 1 - hp OMEGA * hp D0 <> 0.
Proof. cbn. repeat split; lra. Qed.
