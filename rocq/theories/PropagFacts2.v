(** Proofs about the propagation Jacobian: identity, composition, lines (C28),
    and the helix as solution of the equations of motion (C53). *)
From Coq Require Import Reals Lra List Psatz.
From Coquelicot Require Import Coquelicot.
From Verif Require Import SpecConst Num NumFacts Vec Helix Trans Propag SpecHelix SpecMat SpecTrans SpecPropag
  HelixFacts TransFacts JacFacts PropagFacts.
Import ListNotations.
Open Scope R_scope.

(** directions *)
Lemma dirvec_exists t : vdot t t = 1 -> 0 < vtrans t ->
  exists l f, 0 < cos l /\ cos l = vtrans t /\ t = dirvec l f.
Proof.
  intros N P. unfold vdot in N.
  assert (T2 : vtrans t * vtrans t = vx t * vx t + vy t * vy t) by (unfold vtrans; apply sqrt_sqrt; nra).
  assert (C := atan2_cos (vz t) (vtrans t)). assert (S := atan2_sin (vz t) (vtrans t)).
  replace (vtrans t * vtrans t + vz t * vz t) with 1 in C, S by lra. rewrite sqrt_1 in C, S.
  assert (C' := atan2_cos (vy t) (vx t)). assert (S' := atan2_sin (vy t) (vx t)).
  fold (vtrans t) in C', S'.
  exists (atan2 (vz t) (vtrans t)), (atan2 (vy t) (vx t)).
  assert (Ec : cos (atan2 (vz t) (vtrans t)) = vtrans t) by lra.
  split; [lra|]. split; [exact Ec|].
  unfold dirvec. rewrite Ec. apply v3eq; cbn [vx vy vz]; lra.
Qed.

Lemma complete_dirvec l f a :
  a = vadd (vscale (vdot a (axis_v l f)) (axis_v l f))
       (vadd (vscale (vdot a (axis_u l f)) (axis_u l f)) (vscale (vdot a (dirvec l f)) (dirvec l f))).
Proof.
  assert (L := sc1 l). assert (F := sc1 f). unfold axis_u, axis_v, dirvec. vx3.
  set (sl := sin l) in *. set (cl := cos l) in *. set (sf := sin f) in *. set (cf := cos f) in *. clearbody sl cl sf cf.
  assert (cl * cl = 1 - sl * sl) by lra. assert (cf * cf = 1 - sf * sf) by lra.
  apply v3eq; cbn [vx vy vz].
  - transitivity (vx a * ((sl * sl + cl * cl) * (cf * cf) + sf * sf) + vy a * ((sl * sl + cl * cl - 1) * (sf * cf)));
      [rewrite H, H0; ring | ring].
  - transitivity (vy a * ((sl * sl + cl * cl) * (sf * sf) + cf * cf) + vx a * ((sl * sl + cl * cl - 1) * (sf * cf)));
      [rewrite H, H0; ring | ring].
  - transitivity (vz a * (cl * cl + sl * sl)); [rewrite H; ring|]. ring.
Qed.

(** more on rotations *)
Lemma rot_add p q h a : vdot h h = 1 -> rot q h (rot p h a) = rot (p + q) h a.
Proof.
  intros H. unfold rot at 1. rewrite rot_dot_h, cross_rot by auto. unfold rot. rewrite sin_plus, cos_plus.
  set (g := vdot h a). set (k := vcross h a). clearbody g k.
  unfold vadd, vscale. cbn [vx vy vz]. apply v3eq; cbn [vx vy vz]; ring.
Qed.

Lemma irot_add p q h a : vdot h h = 1 -> irot (p + q) h a = vadd (irot p h a) (irot q h (rot p h a)).
Proof.
  intros H. unfold irot at 3. rewrite rot_dot_h, cross_rot by auto. unfold irot, rot. rewrite sin_plus, cos_plus.
  set (g := vdot h a). set (k := vcross h a). clearbody g k.
  unfold vadd, vscale. cbn [vx vy vz]. apply v3eq; cbn [vx vy vz]; ring.
Qed.

Lemma irot_cross q h a : vdot h h = 1 -> irot q h (vcross h a) = vsub (rot q h a) a.
Proof.
  intros H.
  transitivity (vadd (vscale (sin q) (vcross h a)) (vscale (1 - cos q) (vsub (vscale (vdot h a) h) (vscale (vdot h h) a)))).
  - vx3. apply v3eq; cbn [vx vy vz]; ring.
  - rewrite H. unfold rot. set (g := vdot h a). set (k := vcross h a). clearbody g k.
    unfold vadd, vsub, vscale. apply v3eq; cbn [vx vy vz]; ring.
Qed.

Lemma rot_cross q h a : vdot h h = 1 -> rot q h (vcross h a) = vcross h (rot q h a).
Proof.
  intros H. rewrite cross_rot by auto.
  transitivity (vadd (vscale (cos q) (vcross h a)) (vscale (sin q) (vsub (vscale (vdot h a) h) (vscale (vdot h h) a)))).
  - vx3. apply v3eq; cbn [vx vy vz]; ring.
  - rewrite H. set (g := vdot h a). set (k := vcross h a). clearbody g k.
    unfold vadd, vsub, vscale. apply v3eq; cbn [vx vy vz]; ring.
Qed.

Lemma rot_dot q h a b : vdot h h = 1 -> vdot (rot q h a) (rot q h b) = vdot a b.
Proof.
  intros H. assert (S := sc1 q).
  assert (E1 : vdot (vcross h a) (vcross h b) = vdot h h * vdot a b - vdot h a * vdot h b) by (vx3; ring).
  assert (E2 : vdot (vcross h a) h = 0) by (vx3; ring). assert (E3 : vdot (vcross h b) h = 0) by (vx3; ring).
  assert (E4 : vdot a (vcross h b) = - vdot (vcross h a) b) by (vx3; ring).
  assert (L : forall x1 x2 x3 y1 y2 y3 a1 a2 a3 b1 b2 b3,
    vdot (vadd (vscale x1 a1) (vadd (vscale x2 a2) (vscale x3 a3))) (vadd (vscale y1 b1) (vadd (vscale y2 b2) (vscale y3 b3)))
    = x1 * y1 * vdot a1 b1 + x1 * y2 * vdot a1 b2 + x1 * y3 * vdot a1 b3
    + x2 * y1 * vdot a2 b1 + x2 * y2 * vdot a2 b2 + x2 * y3 * vdot a2 b3
    + x3 * y1 * vdot a3 b1 + x3 * y2 * vdot a3 b2 + x3 * y3 * vdot a3 b3) by (intros; vx3; ring).
  unfold rot. rewrite L, E1, E2, E4, (dot_comm h (vcross h b)), E3, H, (dot_comm a h).
  set (g := vdot h a). set (k := vdot h b). set (m := vdot a b). set (n := vdot (vcross h a) b). clearbody g k m n.
  assert (C : cos q * cos q = 1 - sin q * sin q) by lra.
  transitivity (cos q * cos q * m + sin q * sin q * m + (1 - cos q * cos q - sin q * sin q) * (g * k)); [ring|].
  rewrite C. ring.
Qed.

Lemma rot_lin q h a k c : rot q h (vadd a (vscale k c)) = vadd (rot q h a) (vscale k (rot q h c)).
Proof. unfold rot. vx3. apply v3eq; cbn [vx vy vz]; ring. Qed.
Lemma irot_lin q h a k c : irot q h (vadd a (vscale k c)) = vadd (irot q h a) (vscale k (irot q h c)).
Proof. unfold irot. vx3. apply v3eq; cbn [vx vy vz]; ring. Qed.

(** action of the Jacobian in terms of displacements in space *)
Section Action.
Variables (b h : vec3) (qop : R).
Hypothesis Eb : b = vscale (vr b) h.
Hypothesis Eu : vunit b = Ok h.
Hypothesis Hh : vdot h h = 1.
Hypothesis Pb : 0 < vr b.
Hypothesis Hq : qop <> 0.
Let qp := - vr b * convertBr2P_cm.
Let Q := qp * qop.

Definition dt_of (l f : R) (w : vec5) : vec3 := vadd (vscale (w I1) (axis_v l f)) (vscale (w I2 * cos l) (axis_u l f)).
Definition dx_of (l f : R) (w : vec5) : vec3 := vadd (vscale (w I3) (axis_u l f)) (vscale (w I4) (axis_v l f)).
Definition raw (dw : R) (t1 dt dx : vec3) (dq : R) : vec3 :=
  vadd dx (vadd (vscale (- (qp * dq) / Q) (vscale (1 / Q) (irot (Q * dw) h t1))) (vscale (1 / Q) (irot (Q * dw) h dt))).

Lemma action dw l f l2 f2 w : 0 < cos l -> 0 < cos l2 -> dirvec l2 f2 = rot (Q * dw) h (dirvec l f) ->
  exists J, analyticalJacobian m5zero dw qop (dirvec l f) (dirvec l2 f2) b 0 = Ok J
  /\ let w2 := m5mulv J w in
     let r := raw dw (dirvec l f) (dt_of l f w) (dx_of l f w) (w I0) in
     w2 I0 = w I0
     /\ dt_of l2 f2 w2 = vadd (rot (Q * dw) h (dt_of l f w)) (vscale (- Q * vdot r (dirvec l2 f2)) (vcross h (dirvec l2 f2)))
     /\ dx_of l2 f2 w2 = vsub r (vscale (vdot r (dirvec l2 f2)) (dirvec l2 f2)).
Proof.
  intros C1 C2 ER.
  assert (Nqp := qp_nz b Pb). assert (NQ := Q_nz b qop Pb Hq). cbv zeta in NQ, Nqp. fold qp in Nqp, NQ. fold Q in NQ.
  unfold analyticalJacobian. cbv zeta. fold qp. fold Q.
  destruct Req_EM_T as [Z|_]; [contradiction|].
  unfold vtrans. rewrite !trans_dirvec by auto.
  rewrite (rdiv_ok 1 (cos l2)) by lra. cbn [bind]. rewrite Eu. cbn [bind].
  rewrite (rdiv_ok 1 qop) by auto. cbn [bind]. rewrite (rdiv_ok 1 (cos l)) by lra. cbn [bind].
  eexists. split; [reflexivity|]. cbv zeta.
  destruct (frame_dirvec l2 f2) as (Fu & Fv & Ft & Fuv & Fut & Fvt & E).
  assert (Eg : vdot h (dirvec l2 f2) = vdot h (dirvec l f)) by (rewrite ER; apply rot_dot_h; auto).
  assert (EN : vdot (vcross h (dirvec l2 f2)) (axis_v l2 f2) = - vdot h (axis_u l2 f2)).
  { rewrite <- E. set (u := axis_u l2 f2) in *. set (v := axis_v l2 f2) in *. clearbody u v.
    transitivity (- (vdot h u * vdot v v - vdot h v * vdot u v)); [vx3; ring|]. rewrite Fv, Fuv. ring. }
  assert (EM : vdot (vcross h (dirvec l2 f2)) (axis_u l2 f2) = vdot h (axis_v l2 f2)).
  { rewrite <- E. set (u := axis_u l2 f2) in *. set (v := axis_v l2 f2) in *. clearbody u v.
    transitivity (vdot h v * vdot u u - vdot h u * vdot u v); [vx3; ring|]. rewrite Fu, Fuv. ring. }
  assert (C2n : cos l2 <> 0) by lra.
  destruct (code_rows dw qop qp (cos l) (cos l2) (dirvec l f) (dirvec l2 f2) h
     (axis_u l f) (axis_v l f) (axis_u l2 f2) (axis_v l2 f2) (1 / cos l) (1 / cos l2) w m5zero 0
     Hq Nqp C2n (code_u l f C1) (code_v l f) (code_u l2 f2 C2) (code_v l2 f2) Eg EN EM)
    as (R1 & R2 & R3 & R4).
  fold Q in R1, R2, R3, R4. fold (dt_of l f w) in R1, R2, R3, R4. fold (dx_of l f w) in R1, R2, R3, R4.
  set (J := helixJacobian m5zero dw qop qp Q (cos l) (cos l2) (1 / cos l) (1 / cos l2) (dirvec l f) (dirvec l2 f2) h 0) in *.
  fold (m5mulv J w I1) in R1. fold (m5mulv J w I2) in R2. fold (m5mulv J w I3) in R3. fold (m5mulv J w I4) in R4.
  assert (R0 : m5mulv J w I0 = w I0) by (unfold m5mulv, sum5, J, helixJacobian, m5zero; ring).
  set (dt := dt_of l f w) in *. set (dx := dx_of l f w) in *. set (t2 := dirvec l2 f2) in *.
  set (r := raw dw (dirvec l f) dt dx (w I0)).
  assert (Er : forall c, vdot r c = vdot dx c - qp * w I0 / Q * vdot (vscale (1 / Q) (irot (Q * dw) h (dirvec l f))) c
                 + 1 / Q * vdot (irot (Q * dw) h dt) c).
  { intros c. unfold r, raw. set (i1 := irot (Q * dw) h (dirvec l f)). set (i2 := irot (Q * dw) h dt). clearbody i1 i2 dx.
    vx3. field. exact NQ. }
  assert (Eth : - Q * vdot dx t2 + qp * w I0 * vdot (vscale (1 / Q) (irot (Q * dw) h (dirvec l f))) t2
      - vdot (irot (Q * dw) h dt) t2 = - Q * vdot r t2).
  { rewrite Er. field. exact NQ. }
  rewrite Eth in R1, R2. rewrite <- Er in R3, R4.
  split; [exact R0|].
  assert (Tt : vdot (rot (Q * dw) h dt) t2 = 0).
  { rewrite ER, rot_dot by auto. unfold dt, dt_of.
    destruct (frame_dirvec l f) as (_ & _ & _ & _ & Gut & Gvt & _).
    rewrite dot_comm, dot_add_r, !dot_scale_r, (dot_comm _ (axis_v l f)), (dot_comm _ (axis_u l f)), Gut, Gvt. ring. }
  assert (Th : vdot (vcross h t2) t2 = 0) by (vx3; ring).
  split.
  - set (a := vadd (rot (Q * dw) h dt) (vscale (- Q * vdot r t2) (vcross h t2))).
    rewrite (complete_dirvec l2 f2 a). fold t2.
    assert (Aa : vdot a t2 = 0). { unfold a. rewrite dot_comm, dot_add_r, dot_scale_r, !(dot_comm t2), Tt, Th. ring. }
    rewrite Aa.
    assert (Av : vdot a (axis_v l2 f2) = m5mulv J w I1).
    { rewrite R1. unfold a. rewrite dot_comm, dot_add_r, dot_scale_r, !(dot_comm (axis_v l2 f2)). ring. }
    assert (Au : vdot a (axis_u l2 f2) = m5mulv J w I2 * cos l2).
    { rewrite (Rmult_comm _ (cos l2)), R2. unfold a. rewrite dot_comm, dot_add_r, dot_scale_r, !(dot_comm (axis_u l2 f2)). ring. }
    rewrite Av, Au. unfold dt_of. set (u := axis_u l2 f2). set (v := axis_v l2 f2). clearbody u v t2.
    vx3. apply v3eq; cbn [vx vy vz]; ring.
  - set (a := vsub r (vscale (vdot r t2) t2)).
    rewrite (complete_dirvec l2 f2 a). fold t2.
    assert (Ft' : vdot t2 t2 = 1) by exact Ft.
    assert (Aa : vdot a t2 = 0). { unfold a. rewrite dot_comm, dot_sub_r, dot_scale_r, Ft', (dot_comm t2). ring. }
    assert (Av : vdot a (axis_v l2 f2) = m5mulv J w I4).
    { rewrite R4. unfold a. rewrite dot_comm, dot_sub_r, dot_scale_r, !(dot_comm (axis_v l2 f2)), (dot_comm t2). fold t2 in Fvt. rewrite Fvt. ring. }
    assert (Au : vdot a (axis_u l2 f2) = m5mulv J w I3).
    { rewrite R3. unfold a. rewrite dot_comm, dot_sub_r, dot_scale_r, !(dot_comm (axis_u l2 f2)), (dot_comm t2). fold t2 in Fut. rewrite Fut. ring. }
    rewrite Aa, Av, Au. unfold dx_of. set (u := axis_u l2 f2). set (v := axis_v l2 f2). clearbody u v t2.
    vx3. apply v3eq; cbn [vx vy vz]; ring.
Qed.
End Action.

Lemma raw_compose (b h : vec3) (qop : R) (l f l1 f1 l2 f2 d1 d2 : R) (w w1 w2 w12 : vec5) :
  let qp := - vr b * convertBr2P_cm in
  let Q := qp * qop in
  vdot h h = 1 -> Q <> 0 ->
  dirvec l1 f1 = rot (Q * d1) h (dirvec l f) -> dirvec l2 f2 = rot (Q * d2) h (dirvec l1 f1) ->
  let r1 := raw b h qop d1 (dirvec l f) (dt_of l f w) (dx_of l f w) (w I0) in
  let r2 := raw b h qop d2 (dirvec l1 f1) (dt_of l1 f1 w1) (dx_of l1 f1 w1) (w1 I0) in
  let r := raw b h qop (d1 + d2) (dirvec l f) (dt_of l f w) (dx_of l f w) (w I0) in
  (w1 I0 = w I0
   /\ dt_of l1 f1 w1 = vadd (rot (Q * d1) h (dt_of l f w)) (vscale (- Q * vdot r1 (dirvec l1 f1)) (vcross h (dirvec l1 f1)))
   /\ dx_of l1 f1 w1 = vsub r1 (vscale (vdot r1 (dirvec l1 f1)) (dirvec l1 f1))) ->
  (w2 I0 = w1 I0
   /\ dt_of l2 f2 w2 = vadd (rot (Q * d2) h (dt_of l1 f1 w1)) (vscale (- Q * vdot r2 (dirvec l2 f2)) (vcross h (dirvec l2 f2)))
   /\ dx_of l2 f2 w2 = vsub r2 (vscale (vdot r2 (dirvec l2 f2)) (dirvec l2 f2))) ->
  (w12 I0 = w I0
   /\ dt_of l2 f2 w12 = vadd (rot (Q * (d1 + d2)) h (dt_of l f w)) (vscale (- Q * vdot r (dirvec l2 f2)) (vcross h (dirvec l2 f2)))
   /\ dx_of l2 f2 w12 = vsub r (vscale (vdot r (dirvec l2 f2)) (dirvec l2 f2))) ->
  dt_of l2 f2 w12 = dt_of l2 f2 w2 /\ dx_of l2 f2 w12 = dx_of l2 f2 w2.
Proof.
  intros qp Q Hh NQ E1 E2 r1 r2 r (A0 & A1 & A2) (B0 & B1 & B2) (D0 & D1 & D2).
  destruct (frame_dirvec l2 f2) as (_ & _ & Ft & _).
  assert (Er : r2 = vsub r (vscale (vdot r1 (dirvec l1 f1)) (dirvec l2 f2))).
  { unfold r2. unfold raw at 1. fold qp. fold Q. rewrite A0, A1, A2, E2.
    rewrite (irot_lin (Q * d2) h (rot (Q * d1) h (dt_of l f w))), irot_cross by auto.
    unfold r, raw. fold qp. fold Q.
    rewrite (Rmult_plus_distr_l Q d1 d2), !(irot_add (Q * d1) (Q * d2)) by auto. rewrite <- E1.
    set (k := vdot r1 (dirvec l1 f1)). unfold r1, raw. fold qp. fold Q.
    set (a1 := irot (Q * d1) h (dirvec l f)). set (a2 := irot (Q * d1) h (dt_of l f w)).
    set (a3 := irot (Q * d2) h (dirvec l1 f1)). set (a4 := irot (Q * d2) h (rot (Q * d1) h (dt_of l f w))).
    set (a5 := rot (Q * d2) h (dirvec l1 f1)). set (a6 := dirvec l1 f1). set (a7 := dx_of l f w).
    clearbody k a1 a2 a3 a4 a5 a6 a7. unfold vsub, vadd, vscale.
    apply v3eq; cbn [vx vy vz]; field; auto. }
  set (k := vdot r1 (dirvec l1 f1)) in *.
  assert (Ek : vdot r2 (dirvec l2 f2) = vdot r (dirvec l2 f2) - k).
  { rewrite Er, dot_comm, dot_sub_r, dot_scale_r, Ft, dot_comm. ring. }
  split.
  - rewrite B1, D1, A1, Ek, rot_lin, rot_cross by auto. rewrite <- E2, rot_add by auto.
    rewrite (Rmult_plus_distr_l Q d1 d2). set (c := vcross h (dirvec l2 f2)). set (a := rot (Q * d1 + Q * d2) h (dt_of l f w)).
    clearbody k a c. unfold vadd, vscale. apply v3eq; cbn [vx vy vz]; ring.
  - rewrite B2, D2, Ek, Er. set (t := dirvec l2 f2). clearbody t r k. unfold vsub, vscale. apply v3eq; cbn [vx vy vz]; ring.
Qed.

(** the displacement determines the coordinates *)
Lemma coords_of l f w w' : 0 < cos l -> w I0 = w' I0 -> dt_of l f w = dt_of l f w' -> dx_of l f w = dx_of l f w' -> v5eq w w'.
Proof.
  intros C E0 Et Ex. destruct (frame_dirvec l f) as (Fu & Fv & _ & Fuv & _).
  assert (A : forall k m, vdot (axis_v l f) (vadd (vscale k (axis_v l f)) (vscale m (axis_u l f))) = k).
  { intros. rewrite dot_add_r, !dot_scale_r, Fv, dot_comm, Fuv. ring. }
  assert (B : forall k m, vdot (axis_u l f) (vadd (vscale k (axis_v l f)) (vscale m (axis_u l f))) = m).
  { intros. rewrite dot_add_r, !dot_scale_r, Fu, Fuv. ring. }
  assert (A' : forall k m, vdot (axis_v l f) (vadd (vscale k (axis_u l f)) (vscale m (axis_v l f))) = m).
  { intros. rewrite dot_add_r, !dot_scale_r, Fv, dot_comm, Fuv. ring. }
  assert (B' : forall k m, vdot (axis_u l f) (vadd (vscale k (axis_u l f)) (vscale m (axis_v l f))) = k).
  { intros. rewrite dot_add_r, !dot_scale_r, Fu, Fuv. ring. }
  assert (X1 := f_equal (vdot (axis_v l f)) Et). assert (X2 := f_equal (vdot (axis_u l f)) Et).
  assert (X3 := f_equal (vdot (axis_u l f)) Ex). assert (X4 := f_equal (vdot (axis_v l f)) Ex).
  unfold dt_of in X1, X2. unfold dx_of in X3, X4. rewrite !A in X1. rewrite !B in X2. rewrite !B' in X3. rewrite !A' in X4.
  intros []; auto. apply Rmult_eq_reg_r with (cos l); lra.
Qed.

Lemma m5mulv_mul a b w i : m5mulv (m5mul a b) w i = m5mulv a (m5mulv b w) i.
Proof. unfold m5mulv, m5mul, sum5. ring. Qed.

Lemma m5eq_action a b : (forall w, v5eq (m5mulv a w) (m5mulv b w)) -> m5eq a b.
Proof.
  intros H i j. assert (X := H (fun k => if idx_eq_dec k j then 1 else 0) i).
  unfold m5mulv, sum5 in X. destruct j; cbn in X; lra.
Qed.

Lemma motion_shift b qop x0 t0 X T s0 : motion b qop x0 t0 X T ->
  motion b qop (X s0) (T s0) (fun s => X (s0 + s)) (fun s => T (s0 + s)).
Proof.
  intros [M1 M2 M3 M4].
  assert (K : forall (g : R -> vec3) s d, vderive g (s0 + s) d -> vderive (fun r => g (s0 + r)) s d).
  { intros g s d (A & B & C).
    assert (Q : forall (k : R -> R) k', is_derive k (s0 + s) k' -> is_derive (fun r => k (s0 + r)) s k').
    { intros k k' D. eapply derive_val; [|apply Rmult_1_l].
      apply (is_derive_comp k (fun r => s0 + r) s k' 1); [exact D|]. auto_derive; auto; ring. }
    split; [|split]; apply (Q (fun r => _ (g r))); assumption. }
  split.
  - f_equal. ring.
  - f_equal. ring.
  - intros s. apply K, M3.
  - intros s. apply (K T), M4.
Qed.

Lemma motion_unit b qop x0 t0 X T : b <> v3zero -> qop <> 0 -> motion b qop x0 t0 X T -> vdot t0 t0 = 1 -> forall s, vdot (T s) (T s) = 1.
Proof.
  intros Hb Hq M U s. destruct (unit_field b Hb) as [h (Eu & Hh & Pb & Eb)].
  destruct (motion_unique b qop x0 t0 X T h Eb Hh (Q_nz b qop Pb Hq) M s) as [E _].
  rewrite E, rot_dot by auto. exact U.
Qed.

Lemma jac_composition b qop x0 t0 X T d1 d2 : b <> v3zero -> qop <> 0 ->
  motion b qop x0 t0 X T -> vdot t0 t0 = 1 ->
  0 < vtrans t0 -> 0 < vtrans (T d1) -> 0 < vtrans (T (d1 + d2)) ->
  exists J1 J2 J,
    analyticalJacobian m5zero d1 qop t0 (T d1) b 0 = Ok J1
    /\ analyticalJacobian m5zero d2 qop (T d1) (T (d1 + d2)) b 0 = Ok J2
    /\ analyticalJacobian m5zero (d1 + d2) qop t0 (T (d1 + d2)) b 0 = Ok J
    /\ m5eq J (m5mul J2 J1).
Proof.
  intros Hb Hq M U P0 P1 P2.
  destruct (unit_field b Hb) as [h (Eu & Hh & Pb & Eb)].
  assert (NQ := Q_nz b qop Pb Hq). cbv zeta in NQ. set (Q := - vr b * convertBr2P_cm * qop) in *.
  assert (Sol : forall s, T s = rot (Q * s) h t0) by (intros s; apply (motion_unique b qop x0 t0 X T h Eb Hh NQ M s)).
  assert (E1 : T d1 = rot (Q * d1) h t0) by apply Sol.
  assert (E12 : T (d1 + d2) = rot (Q * (d1 + d2)) h t0) by apply Sol.
  assert (E2 : T (d1 + d2) = rot (Q * d2) h (T d1)).
  { rewrite E12, E1, rot_add by auto. f_equal. ring. }
  destruct (dirvec_exists t0 U P0) as (l & f & C0 & _ & D0).
  destruct (dirvec_exists (T d1) (motion_unit _ _ _ _ _ _ Hb Hq M U _) P1) as (l1 & f1 & C1 & _ & D1).
  destruct (dirvec_exists (T (d1 + d2)) (motion_unit _ _ _ _ _ _ Hb Hq M U _) P2) as (l2 & f2 & C2 & _ & D2).
  rewrite D2, D1 in E2. rewrite D2, D0 in E12. rewrite D1, D0 in E1. rewrite D0, D1, D2.
  destruct (action b h qop Eu Hh Pb Hq d1 l f l1 f1 (fun _ => 0) C0 C1 E1) as (J1 & HJ1 & _).
  destruct (action b h qop Eu Hh Pb Hq d2 l1 f1 l2 f2 (fun _ => 0) C1 C2 E2) as (J2 & HJ2 & _).
  destruct (action b h qop Eu Hh Pb Hq (d1 + d2) l f l2 f2 (fun _ => 0) C0 C2 E12) as (J & HJ & _).
  exists J1, J2, J. repeat split; auto.
  apply m5eq_action. intros w.
  destruct (action b h qop Eu Hh Pb Hq d1 l f l1 f1 w C0 C1 E1) as (J1' & HJ1' & A1).
  destruct (action b h qop Eu Hh Pb Hq d2 l1 f1 l2 f2 (m5mulv J1 w) C1 C2 E2) as (J2' & HJ2' & A2).
  destruct (action b h qop Eu Hh Pb Hq (d1 + d2) l f l2 f2 w C0 C2 E12) as (J' & HJ' & A).
  rewrite HJ1 in HJ1'. rewrite HJ2 in HJ2'. rewrite HJ in HJ'. injection HJ1' as <-. injection HJ2' as <-. injection HJ' as <-.
  cbv zeta in A1, A2, A.
  destruct (raw_compose b h qop l f l1 f1 l2 f2 d1 d2 w (m5mulv J1 w) (m5mulv J2 (m5mulv J1 w)) (m5mulv J w) Hh NQ E1 E2 A1 A2 A) as [K1 K2].
  assert (R := coords_of l2 f2 (m5mulv J w) (m5mulv J2 (m5mulv J1 w)) C2
     (eq_trans (proj1 A) (eq_sym (eq_trans (proj1 A2) (proj1 A1)))) K1 K2).
  intros i. rewrite m5mulv_mul. apply R.
Qed.

(** a step of length zero *)
Lemma jac_identity b qop t : b <> v3zero -> qop <> 0 -> vdot t t = 1 -> 0 < vtrans t ->
  exists J, analyticalJacobian m5zero 0 qop t t b 0 = Ok J /\ m5eq J mident.
Proof.
  intros Hb Hq U P. destruct (unit_field b Hb) as [h (Eu & Hh & Pb & Eb)].
  destruct (dirvec_exists t U P) as (l & f & C & _ & D). rewrite D.
  assert (NQ := Q_nz b qop Pb Hq). cbv zeta in NQ.
  assert (E : dirvec l f = rot (- vr b * convertBr2P_cm * qop * 0) h (dirvec l f)) by (rewrite Rmult_0_r, rot_0; auto).
  destruct (action b h qop Eu Hh Pb Hq 0 l f l f (fun _ => 0) C C E) as (J & HJ & _).
  exists J. split; auto. apply m5eq_action. intros w.
  destruct (action b h qop Eu Hh Pb Hq 0 l f l f w C C E) as (J' & HJ' & A0 & A1 & A2).
  rewrite HJ in HJ'. injection HJ' as <-. unfold raw in A1, A2. rewrite Rmult_0_r, !irot_0, ?rot_0 in A1, A2.
  destruct (frame_dirvec l f) as (_ & _ & _ & _ & Fut & Fvt & _).
  assert (Z : vdot (dx_of l f w) (dirvec l f) = 0).
  { unfold dx_of. rewrite dot_comm, dot_add_r, !dot_scale_r, !(dot_comm (dirvec l f)), Fut, Fvt. ring. }
  match type of A2 with context [vadd (dx_of l f w) ?z] =>
    assert (Ez : vadd (dx_of l f w) z = dx_of l f w) by
      (unfold v3zero; set (q := dx_of l f w); clearbody q; unfold vadd, vscale; apply v3eq; cbn [vx vy vz]; ring) end.
  rewrite Ez, Z in A1, A2.
  assert (R : v5eq (m5mulv J w) w).
  { apply (coords_of l f); auto.
    - rewrite A1, rot_0. set (q := dt_of l f w). clearbody q. unfold vadd, vscale. apply v3eq; cbn [vx vy vz]; ring.
    - rewrite A2. set (q := dx_of l f w). clearbody q. unfold vsub, vscale. apply v3eq; cbn [vx vy vz]; ring. }
  intros i. rewrite (R i). unfold m5mulv, sum5, mident. destruct i; cbn; ring.
Qed.

(** energy loss changes one entry only *)
Lemma jac_energy jac dw qop ts te b e : 
  - vr b * convertBr2P_cm * qop <> 0 -> forall J0, analyticalJacobian jac dw qop ts te b 0 = Ok J0 ->
  exists J, analyticalJacobian jac dw qop ts te b e = Ok J
  /\ J I0 I0 = 1 + e
  /\ (forall j, j <> I0 -> J I0 j = jac I0 j)
  /\ (forall i j, ~ (i = I0 /\ j = I0) -> J i j = J0 i j).
Proof.
  intros NQ J0. unfold analyticalJacobian. cbv zeta. destruct Req_EM_T as [|_]; [contradiction|].
  destruct (rdiv 1 (sqrt _)); cbn [bind]; try discriminate.
  destruct (vunit b); cbn [bind]; try discriminate.
  destruct (rdiv 1 qop); cbn [bind]; try discriminate.
  destruct (rdiv 1 (vtrans ts)); cbn [bind]; try discriminate.
  destruct (rdiv 1 (vtrans te)); cbn [bind]; try discriminate.
  injection 1 as <-. eexists. split; [reflexivity|]. split; [reflexivity|]. split.
  - intros [] N; try reflexivity. exfalso; auto.
  - intros [] [] N; try reflexivity. exfalso; auto.
Qed.

Lemma jac_line dw qop ts te b e : vr b * qop = 0 ->
  exists J, analyticalJacobian m5zero dw qop ts te b e = Ok J /\ singular J
   /\ (dw = 0 -> m5eq J m5zero).
Proof.
  intros Z. unfold analyticalJacobian. cbv zeta. destruct Req_EM_T as [_|N].
  2:{ exfalso. apply N. transitivity (- convertBr2P_cm * (vr b * qop)); [ring|]. rewrite Z. ring. }
  eexists. split; [reflexivity|]. split.
  - exists (fun i => if idx_eq_dec i I0 then 1 else 0). split.
    + intros X. assert (Y := X I0). cbn in Y. lra.
    + intros []; unfold m5mulv, sum5, lineJacobian, m5set, m5zero; cbn; ring.
  - intros ->. intros [] []; unfold lineJacobian, m5set, m5zero; cbn; ring.
Qed.

Lemma jac_simplified dw ts te b : singular (simplifiedJacobian m5zero dw ts te b).
Proof.
  exists (fun i => if idx_eq_dec i I3 then 1 else 0). split.
  - intros X. assert (Y := X I3). cbn in Y. lra.
  - intros []; unfold m5mulv, sum5, simplifiedJacobian, m5Unit, m5set, m5zero; cbn; ring.
Qed.

(** the helix of aidaTT is the motion for the q/p of calculateQoverP *)
Lemma helix_motion hp rp f bz : bz <> 0 -> is_helix hp rp f ->
  motion (V3 0 0 bz) (calculateQoverP hp bz) (f 0) (calculateTangent 0 hp)
    (fun w => f (w * cos (atan (hp TANL)))) (fun w => calculateTangent (w * cos (atan (hp TANL))) hp).
Proof.
  intros Hb [S Dx Dy Dz]. assert (C := cos_atan_pos (hp TANL)).
  split.
  - f_equal. ring.
  - f_equal. ring.
  - intros w. assert (K : forall (g : R -> R) d, is_derive g (w * cos (atan (hp TANL))) d ->
       is_derive (fun r => g (r * cos (atan (hp TANL)))) w (cos (atan (hp TANL)) * d)).
    { intros g d D. apply (is_derive_comp g (fun r => r * cos (atan (hp TANL)))); [exact D|]. auto_derive; auto; ring. }
    split; [|split]; unfold calculateTangent; cbn [vx vy vz].
    + eapply derive_val; [apply (K (fun t => vx (f t))), Dx|]. unfold calculateCurvature, calculatePhi0, calculateLambda. ring.
    + eapply derive_val; [apply (K (fun t => vy (f t))), Dy|]. unfold calculateCurvature, calculatePhi0, calculateLambda. ring.
    + eapply derive_val; [apply (K (fun t => vz (f t))), Dz|]. unfold calculateLambda. rewrite sin_atan_cos. ring.
  - intros w. change field_unit with convertBr2P_cm. set (c := cos (atan (hp TANL))) in *.
    assert (EQ : convertBr2P_cm * calculateQoverP hp bz * bz = c * hp OMEGA).
    { unfold calculateQoverP. destruct Req_EM_T as [|_]; [contradiction|].
      unfold calculateLambda, calculateCurvature. fold c. unfold convertBr2P_cm. field. exact Hb. }
    unfold calculateTangent, calculateLambda, calculateCurvature, calculatePhi0. fold c.
    split; [|split]; cbn [vx vy vz vscale vcross].
    + clear S Dx Dy Dz. clearbody c. eapply derive_val; [auto_derive; [trivial|reflexivity]|].
      transitivity (sin (hp PHI0 - hp OMEGA * (w * c)) * c * (c * hp OMEGA)).
      { match goal with |- context [sin ?a] => replace a with (hp PHI0 - hp OMEGA * (w * c)) by ring end. ring. }
      rewrite <- EQ. ring.
    + clear S Dx Dy Dz. clearbody c. eapply derive_val; [auto_derive; [trivial|reflexivity]|].
      transitivity (- cos (hp PHI0 - hp OMEGA * (w * c)) * c * (c * hp OMEGA)).
      { match goal with |- context [cos ?a] => replace a with (hp PHI0 - hp OMEGA * (w * c)) by ring end. ring. }
      rewrite <- EQ. ring.
    + eapply derive_val; [apply (is_derive_const (V := R_NormedModule))|]. change (@zero R_NormedModule) with 0. ring.
Qed.
