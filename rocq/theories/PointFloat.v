(** Points and directions along a track in double precision (util/src/helixUtils.cc
    98-167, util/include/helixUtils.hh 55-61).  Numbers are the reals of Flocq's
    binary64 format; every operation rounds to nearest even and gives [NonFin] if
    the result is beyond the range of double.  The compiler evaluates in the order
    written and does not contract products and sums (no fused multiply-add).
    Signed zeros are not distinguished.  The functions of the mathematical library
    are parameters. *)
From Coq Require Import Reals ZArith.
From Flocq Require Import Core.
From Verif Require Import Num Vec FloatWrap.
Open Scope R_scope.

(** sin, cos and atan of the mathematical library *)
Record libm := Libm { m_sin : R -> R; m_cos : R -> R; m_atan : R -> R }.

(** the result of an operation *)
Definition rd (x : R) : res R :=
  if Rlt_dec (Rabs (rnd x)) (bpow radix2 1024) then Ok (rnd x) else NonFin.
Definition rd_div (a b : R) : res R := if Req_EM_T b 0 then NonFin else rd (a / b).

(** calculateX0, calculateY0: helixUtils.hh 52-61 *)
Definition calculateX0_d (L : libm) (hp : vec5) (rp : vec3) : res R :=
  a <- rd (m_sin L (- hp PHI0) * hp D0) ;; rd (a + vx rp).
Definition calculateY0_d (L : libm) (hp : vec5) (rp : vec3) : res R :=
  a <- rd (m_cos L (hp PHI0) * hp D0) ;; rd (a + vy rp).

(** helixUtils.cc 98-107 *)
Definition calculateXfromS_d (L : libm) (s : R) (hp : vec5) (rp : vec3) : res R :=
  x0 <- calculateX0_d L hp rp ;;
  if Req_EM_T (hp OMEGA) 0 then
    a <- rd (s * m_cos L (hp PHI0)) ;; rd (x0 + a)
  else
    q <- rd_div 2 (hp OMEGA) ;;
    c <- rd (hp OMEGA * s) ;; h <- rd (c / 2) ;;
    a <- rd (q * m_sin L h) ;;
    th <- rd (hp PHI0 - h) ;;
    b <- rd (a * m_cos L th) ;;
    rd (x0 + b).

(** helixUtils.cc 111-120; the straight branch takes the cosine, as written *)
Definition calculateYfromS_d (L : libm) (s : R) (hp : vec5) (rp : vec3) : res R :=
  y0 <- calculateY0_d L hp rp ;;
  if Req_EM_T (hp OMEGA) 0 then
    a <- rd (s * m_cos L (hp PHI0)) ;; rd (y0 + a)
  else
    q <- rd_div 2 (hp OMEGA) ;;
    c <- rd (hp OMEGA * s) ;; h <- rd (c / 2) ;;
    a <- rd (q * m_sin L h) ;;
    th <- rd (hp PHI0 - h) ;;
    b <- rd (a * m_sin L th) ;;
    rd (y0 + b).

(** helixUtils.cc 124-129 *)
Definition calculateZfromS_d (s : R) (hp : vec5) (rp : vec3) : res R :=
  a <- rd (hp Z0 + vz rp) ;; b <- rd (s * hp TANL) ;; rd (a + b).

(** helixUtils.cc 133-144 *)
Definition calculateTangent_d (L : libm) (s : R) (hp : vec5) : res vec3 :=
  let lambda := m_atan L (hp TANL) in
  c <- rd (hp OMEGA * s) ;; th <- rd (hp PHI0 - c) ;;
  t0 <- rd (m_cos L th * m_cos L lambda) ;;
  t1 <- rd (m_sin L th * m_cos L lambda) ;;
  Ok (V3 t0 t1 (m_sin L lambda)).

(** helixUtils.cc 147-167 *)
Definition pointAt_d (L : libm) (s : R) (hp : vec5) (rp : vec3) : res vec3 :=
  let sinphi := m_sin L (hp PHI0) in
  let cosphi := m_cos L (hp PHI0) in
  q <- rd_div 1 (hp OMEGA) ;;
  c <- rd (s * hp OMEGA) ;; th <- rd (hp PHI0 - c) ;;
  a <- rd (hp D0 * sinphi) ;; a <- rd (vx rp - a) ;;
  d <- rd (sinphi - m_sin L th) ;; d <- rd (q * d) ;;
  x <- rd (a + d) ;;
  a <- rd (hp D0 * cosphi) ;; a <- rd (vy rp + a) ;;
  d <- rd (cosphi - m_cos L th) ;; d <- rd (q * d) ;;
  y <- rd (a - d) ;;
  a <- rd (vz rp + hp Z0) ;; b <- rd (s * hp TANL) ;; z <- rd (a + b) ;;
  Ok (V3 x y z).
