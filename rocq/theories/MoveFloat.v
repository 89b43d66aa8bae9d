(** moveHelixTo in double precision (util/src/helixUtils.cc 255-344 and 408, without
    the covariance matrix: [CovMat] false).  Same conventions as in PointFloat.v and
    PathFloat.v: every operation rounds, results beyond the range of double are
    [NonFin], no fused multiply-add, signed zeros are not distinguished; the square
    root is the correctly rounded one of IEEE 754. *)
From Coq Require Import Reals ZArith.
From Flocq Require Import Core.
From Verif Require Import Num Vec FloatWrap PointFloat.
Open Scope R_scope.

(** helixUtils.cc 275-276, 312-313, 326-327, 335-336: the two loops that bring an angle
    into a range, with a bound on the number of iterations of each *)
Definition wrap_d (fuel : nat) (lo hi x : R) : res R :=
  y <- dloop_up fuel lo x ;; dloop_down fuel hi y.

(** helixUtils.cc 299-300, 316-317: the sine of [fi] from its cosine *)
Definition sine_d (fi csf : R) : res R :=
  a <- rd (1 - csf) ;; b <- rd (1 + csf) ;; c <- rd (a * b) ;;
  let snf := rnd (sqrt (Rmax 0 c)) in
  Ok (if Rlt_dec dPi fi then - snf else snf).

(** helixUtils.cc 307-313: [fi0p] *)
Definition fi0p_d (fuel : nat) (at2 : R -> R -> R) (cpa xc yc xv yv : R) : res R :=
  a <- (if Rlt_dec 0 cpa then dy <- rd (yc - yv) ;; dx <- rd (xc - xv) ;; Ok (at2 dy dx) else Ok 0) ;;
  a <- (if Rlt_dec cpa 0 then dy <- rd (yv - yc) ;; dx <- rd (xv - xc) ;; Ok (at2 dy dx) else Ok a) ;;
  wrap_d fuel 0 dTwoPi a.

(** helixUtils.cc 325-328: [fid] *)
Definition fid_d (fuel : nat) (fi0p fi0 : R) : res R :=
  d <- rd (fi0p - fi0) ;; d <- wrap_d fuel 0 dTwoPi d ;;
  if Rlt_dec dPi d then rd (d - dTwoPi) else Ok d.

(** helixUtils.cc 315-321 and 330: [csf] and [snf], normalised, and [drp] *)
Definition drp_d (L : libm) (fi0p xc yc xv yv r : R) : res R :=
  let csf := m_cos L fi0p in
  snf <- sine_d fi0p csf ;;
  c2 <- rd (csf * csf) ;; s2 <- rd (snf * snf) ;; n2 <- rd (c2 + s2) ;;
  anrm <- rd_div 1 (rnd (sqrt n2)) ;;
  csf <- rd (csf * anrm) ;; snf <- rd (snf * anrm) ;;
  dx <- rd (xc - xv) ;; p <- rd (dx * csf) ;;
  dy <- rd (yc - yv) ;; q <- rd (dy * snf) ;;
  w <- rd (p + q) ;; rd (w - r).

(** helixUtils.cc 331: [dzp] *)
Definition dzp_d (z0 zv dz r tnl fid : R) : res R :=
  a <- rd (z0 - zv) ;; a <- rd (a + dz) ;; b <- rd (r * tnl) ;; b <- rd (b * fid) ;; rd (a - b).

(** helixUtils.cc 255-344 and 408: the new parameters, with respect to [refNew], and
    the returned angle; [csfd] and [snfd] (322-323) serve the covariance matrix only
    and are left out *)
Definition moveHelixTo_d (fuel : nat) (L : libm) (at2 : R -> R -> R) (hp : vec5) (rp refNew : vec3)
  : res (vec5 * R) :=
  let dr := - hp D0 in
  fi0 <- wrap_d fuel 0 dTwoPi (rnd (hp PHI0 - dHalfPi)) ;;
  let cpa := hp OMEGA in
  r <- rd_div 1 cpa ;;
  rdr <- rd (r + dr) ;;
  let csf0 := m_cos L fi0 in
  snf0 <- sine_d fi0 csf0 ;;
  a <- rd (rdr * csf0) ;; xc <- rd (vx rp + a) ;;
  b <- rd (rdr * snf0) ;; yc <- rd (vy rp + b) ;;
  fi0p <- fi0p_d fuel at2 cpa xc yc (vx refNew) (vy refNew) ;;
  fid <- fid_d fuel fi0p fi0 ;;
  drp <- drp_d L fi0p xc yc (vx refNew) (vy refNew) r ;;
  dzp <- dzp_d (vz rp) (vz refNew) (hp Z0) r (hp TANL) fid ;;
  ph <- wrap_d fuel (- dPi) dPi (rnd (fi0p + dHalfPi)) ;;
  Ok (mk5 cpa (hp TANL) ph (- drp) dzp, fid).
