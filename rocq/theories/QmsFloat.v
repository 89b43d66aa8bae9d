(** The multiple-scattering angle of a surface in double precision
    (util/src/materialUtils.cc 39-107).  Same conventions as in PointFloat.v: every
    operation rounds, results beyond the range of double are [NonFin], no fused
    multiply-add, signed zeros are not distinguished.  [mlog] is the logarithm of the
    mathematical library.  The numbers that the surface answers are taken as they are. *)
From Coq Require Import Reals ZArith.
From Flocq Require Import Core.
From Verif Require Import Num Vec Isect FloatWrap PointFloat StartFloat.
Open Scope R_scope.

(** Vector3D.hh 205-208, used by the product of two vectors, 308-311 *)
Definition vdot_d (a b : vec3) : res R :=
  p <- rd (vx a * vx b) ;; q <- rd (vy a * vy b) ;; s <- rd (p + q) ;;
  t <- rd (vz a * vz b) ;; rd (s + t).

(** sqrt and log: not a number or not finite outside their domain *)
Definition sqrt_d (x : R) : res R := if Rlt_dec x 0 then NonFin else Ok (rnd (sqrt x)).
Definition log_d (mlog : R -> R) (x : R) : res R := if Rlt_dec 0 x then rd (mlog x) else NonFin.

(** the literals of materialUtils.cc 75 as doubles *)
Definition c0136_d : R := rnd (136 / 10000).
Definition c038_d : R := rnd (38 / 1000).

(** materialUtils.cc 39-107 *)
Definition computeQMS_d (mlog : R -> R) (surf : surface) (crossingPoint : R * R) (momentum : vec3) (mass : R) : res R :=
  let r_i := sf_innerThickness surf in
  let r_o := sf_outerThickness surf in
  let X0_o := mat_radiationLength (sf_outerMaterial surf) in
  let X0_i := mat_radiationLength (sf_innerMaterial surf) in
  r_tot <- rd (r_i + r_o) ;;
  a <- rd_div r_i X0_i ;; b <- rd_div r_o X0_o ;; ab <- rd (a + b) ;;
  X0_eff <- rd_div ab r_tot ;;
  up <- vunit_d momentum ;;
  let position := sf_localToGlobal surf crossingPoint in
  let n := sf_normal surf position in
  d <- vdot_d up n ;;
  let cosTrk := Rabs d in
  path <- rd (r_i + r_o) ;;
  path <- rd_div path cosTrk ;;
  X_X0 <- rd (path * X0_eff) ;;
  mom <- vr_d momentum ;;
  m2 <- rd (mom * mom) ;; w2 <- rd (mass * mass) ;; e2 <- rd (m2 + w2) ;;
  en <- sqrt_d e2 ;; beta <- rd_div mom en ;;
  mb <- rd (mom * beta) ;; c <- rd_div c0136_d mb ;; c <- rd (c * 1) ;;
  sq <- sqrt_d X_X0 ;; c <- rd (c * sq) ;;
  lg <- log_d mlog X_X0 ;; l <- rd (c038_d * lg) ;; f <- rd (1 + l) ;;
  rd (c * f).

(** [qms*qms], core/src/trajectory.cc 226 and 303 *)
Definition scatter_weight_d (mlog : R -> R) (surf : surface) (uv : R * R) (momentum : vec3) (mass : R) : res R :=
  q <- computeQMS_d mlog surf uv momentum mass ;; rd (q * q).
