(** Proofs about frames, projections and parameter transformations. *)
From Coq Require Import Reals Lra List Psatz.
From Coquelicot Require Import Coquelicot.
From Verif Require Import SpecConst Num NumFacts Vec Helix Trans SpecHelix SpecMat SpecTrans HelixFacts.
Import ListNotations.
Open Scope R_scope.

(** C23 *)
Lemma local_frame s hp :
  let '(u, v) := calculateLocalCurvilinearSystem s hp in
  is_frame u v (calculateTangent s hp) /\ vz u = 0.
Proof.
  unfold calculateLocalCurvilinearSystem, calculateTangent, is_frame, vdot, vcross. cbn [vx vy vz].
  set (a := calculatePhi0 hp - calculateCurvature hp * s). set (l := calculateLambda hp).
  assert (A := sc1 a). assert (L := sc1 l).
  set (sa := sin a) in *. set (ca := cos a) in *. set (sl := sin l) in *. set (cl := cos l) in *.
  clearbody sa ca sl cl.
  assert (ca * ca = 1 - sa * sa) by lra. assert (cl * cl = 1 - sl * sl) by lra.
  split; [|reflexivity]. split; [lra|].
  split; [transitivity ((sa * sa + ca * ca) * (sl * sl) + cl * cl); [ring|]; rewrite H, H0; ring|].
  split; [transitivity ((sa * sa + ca * ca) * (cl * cl) + sl * sl); [ring|]; rewrite H, H0; ring|].
  split; [ring|]. split; [ring|].
  split; [transitivity (- (sa * sa + ca * ca) * (sl * cl) + cl * sl); [ring|]; rewrite H; ring|].
  f_equal; try ring. transitivity ((sa * sa + ca * ca) * sl); [ring|]. rewrite H. ring.
Qed.

(** C24 *)
Lemma frame_det u v t m n : is_frame u v t ->
  vdot m u * vdot n v - vdot m v * vdot n u = vdot (vcross m n) t.
Proof.
  intros (_ & _ & _ & _ & _ & _ & E). rewrite <- E. unfold vdot, vcross. cbn [vx vy vz]. ring.
Qed.

Lemma invert_inverts u v m n :
  let det := vdot m u * vdot n v - vdot m v * vdot n u in
  det <> 0 ->
  inverts (vdot n v / det, - vdot m v / det, - vdot n u / det, vdot m u / det) u v m n.
Proof.
  intros det H x y. cbv zeta.
  assert (Q : forall w, vdot w (vadd (vscale x u) (vscale y v)) = x * vdot w u + y * vdot w v).
  { intros w. unfold vdot, vadd, vscale. cbn [vx vy vz]. ring. }
  rewrite !Q. split; field_simplify_eq; auto; unfold det; ring.
Qed.

Lemma projection_iff u v m n p :
  calculateLocalToMeasurementProjectionMatrix u v [m; n] = Ok p <-> inverts p u v m n.
Proof.
  cbn [calculateLocalToMeasurementProjectionMatrix]. split.
  - destruct Req_EM_T as [|N]; [discriminate|]. intros Q. injection Q as <-. apply invert_inverts. auto.
  - destruct p as [[[p11 p12] p21] p22]. cbn [inverts]. intros H.
    assert (A := H 1 0). assert (B := H 0 1). cbv zeta in A, B.
    set (a := vdot m u) in *. set (b := vdot m v) in *. set (c := vdot n u) in *. set (d := vdot n v) in *.
    assert (E1 : vdot m (vadd (vscale 1 u) (vscale 0 v)) = a) by (unfold a, vdot, vadd, vscale; cbn; ring).
    assert (E2 : vdot n (vadd (vscale 1 u) (vscale 0 v)) = c) by (unfold c, vdot, vadd, vscale; cbn; ring).
    assert (E3 : vdot m (vadd (vscale 0 u) (vscale 1 v)) = b) by (unfold b, vdot, vadd, vscale; cbn; ring).
    assert (E4 : vdot n (vadd (vscale 0 u) (vscale 1 v)) = d) by (unfold d, vdot, vadd, vscale; cbn; ring).
    rewrite E1, E2 in A. rewrite E3, E4 in B. destruct A as [A1 A2], B as [B1 B2].
    clearbody a b c d. clear H E1 E2 E3 E4.
    assert (D : (p11 * p22 - p12 * p21) * (a * d - b * c) = 1).
    { replace ((p11 * p22 - p12 * p21) * (a * d - b * c)) with
        ((p11 * a + p12 * c) * (p21 * b + p22 * d) - (p21 * a + p22 * c) * (p11 * b + p12 * d)) by ring.
      rewrite A1, A2, B1, B2. ring. }
    destruct Req_EM_T as [Z|N]; [rewrite Z in D; lra|].
    assert (K11 : p11 * (a * d - b * c) = d).
    { replace (p11 * (a * d - b * c)) with ((p11 * a + p12 * c) * d - (p11 * b + p12 * d) * c) by ring.
      rewrite A1, B1. ring. }
    assert (K12 : p12 * (a * d - b * c) = - b).
    { replace (p12 * (a * d - b * c)) with ((p11 * b + p12 * d) * a - (p11 * a + p12 * c) * b) by ring.
      rewrite A1, B1. ring. }
    assert (K21 : p21 * (a * d - b * c) = - c).
    { replace (p21 * (a * d - b * c)) with ((p21 * a + p22 * c) * d - (p21 * b + p22 * d) * c) by ring.
      rewrite A2, B2. ring. }
    assert (K22 : p22 * (a * d - b * c) = a).
    { replace (p22 * (a * d - b * c)) with ((p21 * b + p22 * d) * a - (p21 * a + p22 * c) * b) by ring.
      rewrite A2, B2. ring. }
    f_equal. f_equal; [f_equal; [f_equal|]|]; symmetry; apply Rmult_eq_reg_r with (a * d - b * c); auto;
      unfold Rdiv; rewrite ?Rmult_assoc, ?Rinv_l, ?Rmult_1_r; auto.
Qed.

Lemma fake_ok m : m <> v3zero -> exists w, fakeDirection m = Ok w /\ w <> v3zero /\ vdot m w = 0.
Proof.
  intros Hm. unfold fakeDirection.
  assert (P : 0 < vr m).
  { unfold vr. apply sqrt_lt_R0. destruct m as [a b c]. cbn [vx vy vz].
    assert (a <> 0 \/ b <> 0 \/ c <> 0).
    { destruct (Req_dec a 0), (Req_dec b 0), (Req_dec c 0); auto. exfalso. apply Hm. subst. reflexivity. }
    destruct H as [|[|]]; nra. }
  unfold vunit. rewrite !rdiv_ok by lra. cbn [bind].
  assert (N2 : vx m * vx m + vy m * vy m + vz m * vz m = vr m * vr m).
  { unfold vr. rewrite sqrt_sqrt; auto. nra. }
  set (r := vr m) in *.
  cbn [vx vy vz].
  destruct (Rlt_dec _ eps6) as [L|L].
  - eexists. split; [reflexivity|].
    split; [|unfold vdot; cbn [vx vy vz]; field; lra].
    intros E. injection E as E1 E2 E3.
    assert (X : vx m = 0). { apply Rmult_eq_reg_r with (/ r); [|apply Rinv_neq_0_compat; lra]. unfold Rdiv in E2. lra. }
    rewrite X in *. clear E2 E3.
    assert (Y : vy m = - vz m). { apply Rmult_eq_reg_r with (/ r); [|apply Rinv_neq_0_compat; lra]. unfold Rdiv in E1. lra. }
    rewrite Y in *.
    unfold vr in L. cbn [vx vy vz] in L.
    assert (Z : 2 * (vz m * vz m) = r * r) by lra.
    set (q := vz m / r) in *.
    assert (Zq : 2 * (q * q) = 1). { unfold q. apply Rmult_eq_reg_r with (r * r); [|nra]. transitivity (2 * (vz m * vz m)); [field; lra | lra]. }
    replace (q * q + q * q + (- (0 / r) - - vz m / r) * (- (0 / r) - - vz m / r)) with (3 * (q * q)) in L
      by (unfold q; field; lra).
    assert (1 <= sqrt (3 * (q * q))). { rewrite <- sqrt_1 at 1. apply sqrt_le_1; lra. }
    unfold eps6 in L. lra.
  - eexists. split; [reflexivity|].
    split; [|unfold vdot; cbn [vx vy vz]; field; lra].
    intros E. rewrite E in L. apply L. unfold vr, v3zero; cbn [vx vy vz].
    rewrite !Rmult_0_l, !Rplus_0_l, sqrt_0. unfold eps6. lra.
Qed.

Lemma fake_zero : fakeDirection v3zero = NonFin.
Proof.
  unfold fakeDirection, vunit, vr, v3zero. cbn [vx vy vz].
  rewrite !Rmult_0_l, !Rplus_0_l, sqrt_0, rdiv_zero. reflexivity.
Qed.

Lemma projection_two u v t m n : is_frame u v t ->
  (vdot (vcross m n) t = 0 -> calculateLocalToMeasurementProjectionMatrix u v [m; n] = Throw)
  /\ (vdot (vcross m n) t <> 0 -> exists p,
       calculateLocalToMeasurementProjectionMatrix u v [m; n] = Ok p /\ inverts p u v m n).
Proof.
  intros F. rewrite <- (frame_det u v t m n F).
  unfold calculateLocalToMeasurementProjectionMatrix. split; intros H.
  - destruct Req_EM_T; [reflexivity|contradiction].
  - destruct Req_EM_T; [contradiction|]. eexists. split; [reflexivity|]. apply invert_inverts. auto.
Qed.

Lemma projection_one u v t m : is_frame u v t -> m <> v3zero ->
  exists w, w <> v3zero /\ vdot m w = 0
  /\ (vdot (vcross m w) t = 0 -> calculateLocalToMeasurementProjectionMatrix u v [m] = Throw)
  /\ (vdot (vcross m w) t <> 0 -> exists p,
       calculateLocalToMeasurementProjectionMatrix u v [m] = Ok p /\ inverts p u v m w).
Proof.
  intros F Hm. destruct (fake_ok m Hm) as [w (E & Hw & O)]. exists w. split; auto. split; auto.
  rewrite <- (frame_det u v t m w F).
  unfold calculateLocalToMeasurementProjectionMatrix. rewrite E. cbn [bind]. split; intros H.
  - destruct Req_EM_T; [reflexivity|contradiction].
  - destruct Req_EM_T; [contradiction|]. eexists. split; [reflexivity|]. apply invert_inverts. auto.
Qed.

Lemma projection_one_iff u v m w p : m <> v3zero -> fakeDirection m = Ok w ->
  (calculateLocalToMeasurementProjectionMatrix u v [m] = Ok p <-> inverts p u v m w).
Proof.
  intros Hm E. rewrite <- projection_iff. cbn [calculateLocalToMeasurementProjectionMatrix]. rewrite E. reflexivity.
Qed.

Lemma substitute_iff m w : m <> v3zero -> (substitute m w <-> fakeDirection m = Ok w).
Proof.
  intros Hm. assert (P : vr m <> 0).
  { intros Z. apply Hm. unfold vr in Z. apply sqrt_eq_0 in Z; [|nra]. destruct m as [a b c]. cbn in Z.
    unfold v3zero. f_equal; nra. }
  unfold fakeDirection, vunit. rewrite !rdiv_ok by auto. cbn [bind vx vy vz].
  set (x := vx m / vr m). set (y := vy m / vr m). set (z := vz m / vr m).
  assert (Ev : vscale (/ vr m) m = V3 x y z) by (unfold vscale, x, y, z; f_equal; unfold Rdiv; ring).
  assert (Er : vr (V3 z z (- x - y)) = sqrt (2 * (z * z) + (x + y) * (x + y))).
  { unfold vr. cbn [vx vy vz]. f_equal. ring. }
  rewrite Er. change eps6 with tol6. set (L := sqrt _). unfold substitute. split.
  - intros (x' & y' & z' & Q & A & B). rewrite Ev in Q. injection Q as -> -> ->. fold L in A, B.
    destruct (Rlt_dec L tol6) as [G|G].
    + rewrite B by auto. do 2 f_equal; ring.
    + rewrite A by lra. do 2 f_equal; ring.
  - intros E. exists x, y, z. split; auto. fold L.
    destruct (Rlt_dec L tol6) as [G|G]; injection E as <-; split; intros; try lra; f_equal; ring.
Qed.

Lemma projection_other u v l : length l <> 1%nat -> length l <> 2%nat ->
  calculateLocalToMeasurementProjectionMatrix u v l = Throw.
Proof.
  intros A B. destruct l as [|a [|b [|c l]]]; try reflexivity; simpl in *; congruence.
Qed.

(** C25 *)
Lemma mul_assoc a b c : m5eq (m5mul (m5mul a b) c) (m5mul a (m5mul b c)).
Proof. intros i j. unfold m5mul, sum5. ring. Qed.
Lemma mul_ident_l a : m5eq (m5mul mident a) a.
Proof. intros i j. unfold m5mul, sum5, mident. destruct i; simpl; ring. Qed.
Lemma mul_ident_r a : m5eq (m5mul a mident) a.
Proof. intros i j. unfold m5mul, sum5, mident. destruct j; simpl; ring. Qed.
Lemma transpose_mul a b : m5eq (m5transpose (m5mul a b)) (m5mul (m5transpose b) (m5transpose a)).
Proof. intros i j. unfold m5transpose, m5mul, sum5. ring. Qed.
Lemma mulv_mul a b v : v5eq (m5mulv (m5mul a b) v) (m5mulv a (m5mulv b v)).
Proof. intros i. unfold m5mulv, m5mul, sum5. ring. Qed.
Lemma mulv_add a v w : v5eq (m5mulv a (v5add v w)) (v5add (m5mulv a v) (m5mulv a w)).
Proof. intros i. unfold m5mulv, v5add, sum5. ring. Qed.

(** C26 *)
Lemma perigee_roundtrip hp : v5eq (l3_of_perigee (perigee_of_l3 hp)) hp.
Proof.
  intros i. unfold l3_of_perigee, perigee_of_l3. destruct i; cbn; try ring.
  replace (PI / 2 - (PI / 2 - atan (hp I1))) with (atan (hp I1)) by ring. apply tan_atan.
Qed.

Lemma tan_derive x : cos x <> 0 -> is_derive tan x (1 + tan x * tan x).
Proof.
  intros H. apply is_derive_ext with (fun t => sin t / cos t); [intros; reflexivity|].
  auto_derive; auto. unfold tan.
  assert (S := sc1 x). field_simplify_eq; auto. 
Qed.

Lemma perigee_derivative hp w i :
  is_derive (fun t => l3_of_perigee (displaced (perigee_of_l3 hp) w t) i) 0
            (m5mulv (perigeeToL3Jacobian hp) w i).
Proof.
  unfold perigeeToL3Jacobian, m5mulv, sum5, l3_of_perigee, displaced, m5set, m5zero, calculateTanLambda.
  destruct i; cbn.
  - auto_derive; auto. ring.
  - assert (E : PI / 2 - (PI / 2 - atan (hp I1) + 0 * w I1) = atan (hp I1)) by ring.
    assert (D := tan_derive (atan (hp I1))). rewrite tan_atan in D.
    replace (0 * w I0 + -1 * (1 + hp TANL * hp TANL) * w I1 + 0 * w I2 + 0 * w I3 + 0 * w I4)
      with (scal (- w I1) (1 + hp I1 * hp I1)) by (unfold scal; simpl; unfold mult, TANL; simpl; ring).
    apply (is_derive_comp tan (fun t => PI / 2 - (PI / 2 - atan (hp I1) + t * w I1))).
    + rewrite E. apply D. generalize (cos_atan_pos (hp I1)). lra.
    + auto_derive; auto. ring.
  - auto_derive; auto. ring.
  - auto_derive; auto. ring.
  - auto_derive; auto. ring.
Qed.

Lemma l32p_derivative hp w j :
  is_derive (fun t => perigee_of_l3 (displaced hp w t) j) 0
    (m5mulv (m5transpose (L3ToPerigeeJacobian hp)) (fun i => w (documented_order i)) j).
Proof.
  unfold L3ToPerigeeJacobian, m5transpose, m5mulv, sum5, perigee_of_l3, displaced, m5set, m5zero, calculateTanLambda, documented_order,
    OMEGA, PHI0, D0, Z0, TANL.
  destruct j; cbn; (auto_derive; [auto|]).
  - ring.
  - replace (hp I1 + 0 * w I1) with (hp I1) by ring. field. generalize (pow2_ge_0 (hp I1)). cbn. nra.
  - ring.
  - ring.
  - ring.
Qed.

Lemma l32p_not_inverse hp :
  ~ m5eq (m5mul (perigeeToL3Jacobian hp) (L3ToPerigeeJacobian hp)) mident
  /\ ~ m5eq (m5mul (L3ToPerigeeJacobian hp) (perigeeToL3Jacobian hp)) mident.
Proof.
  split; intros E; specialize (E I1 I1); revert E;
    unfold m5mul, sum5, perigeeToL3Jacobian, L3ToPerigeeJacobian, m5set, m5zero, mident; cbn; lra.
Qed.

(** C27 *)
Lemma vunit_ok b : b <> v3zero -> exists h, vunit b = Ok h.
Proof.
  intros Hm. unfold vunit.
  assert (P : 0 < vr b).
  { unfold vr. apply sqrt_lt_R0. destruct b as [x y z]. cbn [vx vy vz].
    assert (x <> 0 \/ y <> 0 \/ z <> 0).
    { destruct (Req_dec x 0), (Req_dec y 0), (Req_dec z 0); auto. exfalso. apply Hm. subst. reflexivity. }
    destruct H as [|[|]]; nra. }
  rewrite !rdiv_ok by lra. eexists. reflexivity.
Qed.

Lemma vunit_zero : vunit v3zero = NonFin.
Proof. unfold vunit, vr, v3zero. cbn [vx vy vz]. rewrite !Rmult_0_l, !Rplus_0_l, sqrt_0, rdiv_zero. reflexivity. Qed.

Lemma cosl_eq x : 1 / sqrt (1 + tan (atan x) * tan (atan x)) = cos (atan x).
Proof. rewrite tan_atan, cos_atan_eq. unfold Rdiv. ring. Qed.

Lemma cl2l3_column hp b :
  (b = v3zero -> curvilinearToL3Jacobian hp b = NonFin)
  /\ (b <> v3zero -> exists J, curvilinearToL3Jacobian hp b = Ok J /\ forall i, J i I2 = 0).
Proof.
  unfold curvilinearToL3Jacobian, curvilinearToPerigeeJacobian. cbv zeta. split; intros H.
  - rewrite H, vunit_zero. reflexivity.
  - destruct (vunit_ok b H) as [h Eh]. rewrite Eh. cbn [bind].
    unfold calculateLambda, calculatePhi0, calculateCurvature.
    rewrite cosl_eq. set (p := hp PHI0). set (l := atan (hp TANL)).
    assert (Cl : 0 < cos l) by apply cos_atan_pos.
    match goal with |- context [rdiv _ ?ti] => assert (T : ti = - cos l) end.
    { unfold vdot, vcross. cbn [vx vy vz]. transitivity (- (sin p * sin p + cos p * cos p) * cos l); [ring|].
      rewrite sc1. ring. }
    rewrite T. rewrite !rdiv_ok by lra. cbn [bind]. eexists. split; [reflexivity|].
    intros i. unfold m5mul, sum5, perigeeToL3Jacobian, m5set, m5Unit, m5zero.
    destruct i; cbn; ring.
Qed.

(** C30 *)
Lemma momentum_scaled bf s hp rp : hp OMEGA <> 0 ->
  let bz := vz (bf rp) in
  (bz > 0 -> exists k, k = Rabs (1 / calculateQoverP hp bz) /\ momentumAt bf s hp rp = Ok (vscale k (calculateTangent s hp)))
  /\ (bz < 0 -> exists k, k = Rabs (1 / calculateQoverP hp bz) /\ momentumAt bf s hp rp = Ok (vscale (- k) (calculateTangent s hp)))
  /\ (bz = 0 -> calculateQoverP hp bz = 0 /\ momentumAt bf s hp rp = Ok v3zero).
Proof.
  intros H bz. unfold momentumAt, calculateOmega. rewrite rdiv_ok by auto. cbn [bind]. fold bz.
  assert (C := cos_atan_pos (hp TANL)). assert (S := sin_atan_cos (hp TANL)).
  assert (K : 0 < convertBr2P_cm) by (unfold convertBr2P_cm; lra).
  unfold calculateQoverP, calculateTangent, calculateLambda, calculateCurvature, calculatePhi0, calculateTanLambda, vscale.
  cbn [vx vy vz]. rewrite S. replace (hp PHI0 - s * hp OMEGA) with (hp PHI0 - hp OMEGA * s) by ring.
  set (c := cos (atan (hp TANL))) in *. set (o := hp OMEGA) in *.
  set (k := convertBr2P_cm) in *. clearbody c o k bz.
  assert (Rabs (1 / o) <> 0) by (apply Rabs_no_R0; unfold Rdiv; rewrite Rmult_1_l; apply Rinv_neq_0_compat; auto).
  assert (Q : bz <> 0 -> Rabs (1 / (c * o / (bz * k))) = Rabs bz * Rabs (1 / o) * k / c).
  { intros Hb. replace (1 / (c * o / (bz * k))) with (bz * (1 / o) * (k / c)) by (field; repeat split; lra).
    rewrite !Rabs_mult. rewrite (Rabs_right (k / c)); [field; lra|].
    apply Rle_ge, Rlt_le. apply Rdiv_lt_0_compat; auto. }
  destruct (Req_EM_T bz 0) as [Z|Z].
  - split; [lra|]. split; [lra|]. intros _. split; auto. rewrite Z. unfold v3zero. f_equal. f_equal; ring.
  - split; [|split]; intros Hb; [| |contradiction].
    + eexists. split; [reflexivity|]. rewrite (Q Z). rewrite (Rabs_right bz) by lra.
      f_equal. f_equal; field; lra.
    + eexists. split; [reflexivity|]. rewrite (Q Z). rewrite (Rabs_left bz) by lra.
      f_equal. f_equal; field; lra.
Qed.

Lemma momentum_PCA bf hp rp : momentumAtPCA bf hp rp = momentumAt bf 0 hp rp.
Proof.
  unfold momentumAtPCA, momentumAt. destruct (rdiv _ _); cbn [bind]; auto.
  replace (calculatePhi0 hp - 0 * calculateOmega hp) with (calculatePhi0 hp) by ring. reflexivity.
Qed.

Lemma qop_sign hp b : b <> 0 -> hp OMEGA <> 0 ->
  calculateQoverP hp b <> 0 /\ (0 < calculateQoverP hp b <-> 0 < hp OMEGA * b).
Proof.
  intros Hb Ho. unfold calculateQoverP, calculateLambda, calculateCurvature.
  destruct Req_EM_T; [contradiction|].
  assert (C := cos_atan_pos (hp TANL)). set (c := cos (atan (hp TANL))) in *.
  assert (K : 0 < convertBr2P_cm) by (unfold convertBr2P_cm; lra).
  set (k := convertBr2P_cm) in *. set (o := hp OMEGA) in *. clearbody c k o.
  assert (E : c * o / (b * k) = o * b * (c / (b * b * k))) by (field; lra).
  assert (P : 0 < c / (b * b * k)). { apply Rdiv_lt_0_compat; auto. assert (0 < b * b) by nra. nra. }
  rewrite E. set (q := c / (b * b * k)) in *. clearbody q.
  split; [|split; intros; nra].
  apply Rmult_integral_contrapositive_currified; [|lra]. apply Rmult_integral_contrapositive_currified; auto.
Qed.
