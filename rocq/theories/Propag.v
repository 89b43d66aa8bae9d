(** propagations/src/analyticalPropagation.cc, simplifiedPropagation.cc *)
From Coq Require Import Reals List Bool.
From Verif Require Import Num Vec Helix.
Open Scope R_scope.

(** analyticalPropagation.cc 26-32, straight-line branch: only two entries are
    written, the others keep the value of the matrix passed in. *)
Definition lineJacobian (jac : mat5) (dw : R) (tStart : vec3) : mat5 :=
  m5set (m5set jac I3 I2 (dw * sqrt (vx tStart * vx tStart + vy tStart * vy tStart)))
        I4 I1 dw.

(** analyticalPropagation.cc 33-141, helix branch; the quotients have been
    checked by the caller below.  Row 0 columns 1-4 are not written. *)
Definition helixJacobian (jac : mat5) (dw qop qp q coslambdaStart coslambdaEnd : R)
  (au1 au2 : R) (tStart tEnd hn : vec3) (NrjLoss : R) : mat5 :=
  let coslambdaEndInv := 1 / coslambdaEnd in
  let pav := 1 / qop in
  let theta := q * dw in
  let sint := sin theta in
  let cost := cos theta in
  let gamma := vdot hn tEnd in
  let an1 := vcross hn tStart in
  let an2 := vcross hn tEnd in
  let u1 := V3 (- au1 * vy tStart) (au1 * vx tStart) 0 in
  let v1 := V3 (- vz tStart * vy u1) (vz tStart * vx u1)
               (vx tStart * vy u1 - vy tStart * vx u1) in
  let u2 := V3 (- au2 * vy tEnd) (au2 * vx tEnd) 0 in
  let v2 := V3 (- vz tEnd * vy u2) (vz tEnd * vx u2)
               (vx tEnd * vy u2 - vy tEnd * vx u2) in
  let anv := - vdot hn u2 in
  let anu := vdot hn v2 in
  let omcost := 1 - cost in
  let tmsint := theta - sint in
  let dx := V3 (- (gamma * tmsint * vx hn + sint * vx tStart + omcost * vx an1) / q)
               (- (gamma * tmsint * vy hn + sint * vy tStart + omcost * vy an1) / q)
               (- (gamma * tmsint * vz hn + sint * vz tStart + omcost * vz an1) / q) in
  let hu1 := vcross hn u1 in
  let hv1 := vcross hn v1 in
  let u1u2 := vdot u1 u2 in
  let u1v2 := vdot u1 v2 in
  let v1u2 := vdot v1 u2 in
  let v1v2 := vdot v1 v2 in
  let hu1u2 := vdot hu1 u2 in
  let hu1v2 := vdot hu1 v2 in
  let hv1u2 := vdot hv1 u2 in
  let hv1v2 := vdot hv1 v2 in
  let hnu1 := vdot hn u1 in
  let hnv1 := vdot hn v1 in
  let hnu2 := vdot hn u2 in
  let hnv2 := vdot hn v2 in
  let tEndu1 := vdot tEnd u1 in
  let tEndv1 := vdot tEnd v1 in
  let tEnddx := vdot tEnd dx in
  let u2dx := vdot u2 dx in
  let v2dx := vdot v2 dx in
  let an2u1 := vdot an2 u1 in
  let an2v1 := vdot an2 v1 in
  fun i j =>
    match i, j with
    | I0, I0 => 1 + NrjLoss
    | I0, _ => jac i j
    | I1, I0 => - qp * anv * tEnddx
    | I1, I1 => cost * v1v2 + sint * hv1v2 + omcost * hnv1 * hnv2
                + anv * (- sint * tEndv1 + omcost * an2v1 - gamma * tmsint * hnv1)
    | I1, I2 => coslambdaStart
                * (cost * u1v2 + sint * hu1v2 + omcost * hnu1 * hnv2
                   + anv * (- sint * tEndu1 + omcost * an2u1 - gamma * tmsint * hnu1))
    | I1, I3 => - q * anv * tEndu1
    | I1, I4 => - q * anv * tEndv1
    | I2, I0 => - qp * anu * tEnddx * coslambdaEndInv
    | I2, I1 => coslambdaEndInv
                * (cost * v1u2 + sint * hv1u2 + omcost * hnv1 * hnu2
                   + anu * (- sint * tEndv1 + omcost * an2v1 - gamma * tmsint * hnv1))
    | I2, I2 => coslambdaEndInv * coslambdaStart
                * (cost * u1u2 + sint * hu1u2 + omcost * hnu1 * hnu2
                   + anu * (- sint * tEndu1 + omcost * an2u1 - gamma * tmsint * hnu1))
    | I2, I3 => - q * anu * tEndu1 * coslambdaEndInv
    | I2, I4 => - q * anu * tEndv1 * coslambdaEndInv
    | I3, I0 => pav * u2dx
    | I3, I1 => (sint * v1u2 + omcost * hv1u2 + tmsint * hnu2 * hnv1) / q
    | I3, I2 => (sint * u1u2 + omcost * hu1u2 + tmsint * hnu2 * hnu1) * coslambdaStart / q
    | I3, I3 => u1u2
    | I3, I4 => v1u2
    | I4, I0 => pav * v2dx
    | I4, I1 => (sint * v1v2 + omcost * hv1v2 + tmsint * hnv2 * hnv1) / q
    | I4, I2 => (sint * u1v2 + omcost * hu1v2 + tmsint * hnv2 * hnu1) * coslambdaStart / q
    | I4, I3 => u1v2
    | I4, I4 => v1v2
    end.

(** analyticalPropagation::getJacobian, analyticalPropagation.cc 8-143.
    [jac] is the matrix passed by reference; the result is its new value. *)
Definition analyticalJacobian (jac : mat5) (dw qop : R) (tStart tEnd bfield : vec3)
  (NrjLoss : R) : res mat5 :=
  let qp := - vr bfield * convertBr2P_cm in
  let q := qp * qop in
  if Req_EM_T q 0 then Ok (lineJacobian jac dw tStart)
  else
    let coslambdaStart := sqrt (vx tStart * vx tStart + vy tStart * vy tStart) in
    let coslambdaEnd := sqrt (vx tEnd * vx tEnd + vy tEnd * vy tEnd) in
    _ <- rdiv 1 coslambdaEnd ;;
    hn <- vunit bfield ;;
    _ <- rdiv 1 qop ;;
    au1 <- rdiv 1 (vtrans tStart) ;;
    au2 <- rdiv 1 (vtrans tEnd) ;;
    Ok (helixJacobian jac dw qop qp q coslambdaStart coslambdaEnd au1 au2
          tStart tEnd hn NrjLoss).

(** simplifiedPropagation::getJacobian, simplifiedPropagation.cc 6-20 *)
Definition simplifiedJacobian (jac : mat5) (dw : R) (tStart tEnd bfield : vec3) : mat5 :=
  let jac := m5Unit jac in
  let dz := vz tStart - vz tEnd in
  let cosLambda := 1 / sqrt (1 + dz * dz) in
  let jac := m5set jac I2 I0 (- vz bfield * dw) in
  let jac := m5set jac I3 I0 (- (1 / 2) * vz bfield * dw * dw * cosLambda) in
  let jac := m5set jac I3 I2 (dw * cosLambda) in
  m5set jac I4 I1 dw.
