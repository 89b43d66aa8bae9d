(** Three of the Jacobian matrices in double precision (util/src/utilities.cc 168-215,
    propagations/src/simplifiedPropagation.cc 6-20).  Same conventions as in PointFloat.v. *)
From Coq Require Import Reals.
From Verif Require Import Num Vec FloatWrap PointFloat.
Open Scope R_scope.

(** utilities.cc 168-192 *)
Definition perigeeToL3Jacobian_d (hp : vec5) : res mat5 :=
  q <- rd (hp TANL * hp TANL) ;; a <- rd (1 + q) ;; e <- rd (-1 * a) ;;
  let p2l3 := m5set m5zero OMEGA perigeeKAPPA (-1) in
  let p2l3 := m5set p2l3 TANL perigeeTHETA e in
  let p2l3 := m5set p2l3 PHI0 perigeePHI 1 in
  let p2l3 := m5set p2l3 D0 perigeeEPSILON (-1) in
  Ok (m5set p2l3 Z0 perigeeZP 1).

(** utilities.cc 201-215 *)
Definition L3ToPerigeeJacobian_d (hp : vec5) : res mat5 :=
  q <- rd (hp TANL * hp TANL) ;; a <- rd (1 + q) ;; e <- rd_div (-1) a ;;
  let l32p := m5set m5zero I0 I0 (-1) in
  let l32p := m5set l32p I4 I1 e in
  let l32p := m5set l32p I1 I2 1 in
  let l32p := m5set l32p I2 I3 (-1) in
  Ok (m5set l32p I3 I4 1).

(** simplifiedPropagation.cc 6-20.  [Unit()] leaves the matrix as it is, see Vec.v.  The square
    root is rounded correctly, as IEEE 754 asks for. *)
Definition simplifiedJacobian_d (jac : mat5) (dw : R) (tStart tEnd bfield : vec3) : res mat5 :=
  let jac := m5Unit jac in
  dz <- rd (vz tStart - vz tEnd) ;;
  q <- rd (dz * dz) ;; a <- rd (1 + q) ;; r <- rd (sqrt a) ;; cosLambda <- rd_div 1 r ;;
  j20 <- rd (- vz bfield * dw) ;;
  h <- rd (- (1 / 2) * vz bfield) ;; h1 <- rd (h * dw) ;; h2 <- rd (h1 * dw) ;; j30 <- rd (h2 * cosLambda) ;;
  j32 <- rd (dw * cosLambda) ;;
  let jac := m5set jac I2 I0 j20 in
  let jac := m5set jac I3 I0 j30 in
  let jac := m5set jac I3 I2 j32 in
  Ok (m5set jac I4 I1 dw).
