(** The path length to a point in double precision: calculateSfromXY
    (util/src/helixUtils.cc 69-94).  Same conventions as in PointFloat.v: every
    operation rounds, results beyond the range of double are [NonFin], no fused
    multiply-add, signed zeros are not distinguished.  atan2 of the mathematical
    library is one more parameter. *)
From Coq Require Import Reals ZArith.
From Flocq Require Import Core.
From Verif Require Import Num Vec FloatWrap PointFloat.
Open Scope R_scope.

(** helixUtils.cc 86-91: [dphi = phi - phi0] brought back by one turn if it is beyond
    M_PI *)
Definition turning_d (phi phi0 : R) : res R :=
  dphi <- rd (phi - phi0) ;;
  if Rlt_dec dphi (- dPi) then rd (dphi + dTwoPi)
  else if Rlt_dec dPi dphi then rd (dphi - dTwoPi) else Ok dphi.

(** helixUtils.cc 69-94 *)
Definition calculateSfromXY_d (L : libm) (at2 : R -> R -> R) (x y : R) (hp : vec5) (rp : vec3) : res R :=
  let sinPhi0 := m_sin L (hp PHI0) in
  let cosPhi0 := m_cos L (hp PHI0) in
  a <- rd (sinPhi0 * hp D0) ;; x0 <- rd (vx rp - a) ;;
  b <- rd (cosPhi0 * hp D0) ;; y0 <- rd (vy rp + b) ;;
  dx <- rd (x - x0) ;; dy <- rd (y - y0) ;;
  c <- rd (hp OMEGA * dx) ;; ay <- rd (sinPhi0 - c) ;;
  d <- rd (hp OMEGA * dy) ;; ax <- rd (cosPhi0 + d) ;;
  dphi <- turning_d (at2 ay ax) (hp PHI0) ;;
  if Req_EM_T dphi 0 then Ok 0
  else
    p <- rd (dx * cosPhi0) ;; q <- rd (dy * sinPhi0) ;; n <- rd (p + q) ;;
    w <- rd (n * dphi) ;; rd_div w (m_sin L dphi).
