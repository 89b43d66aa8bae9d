(** The start helix through three hits in double precision (util/src/helixUtils.cc
    208-251).  Same conventions as in PointFloat.v and PathFloat.v: every operation
    rounds, results beyond the range of double are [NonFin], no fused multiply-add,
    signed zeros are not distinguished.  Not modelled, because nothing uses them: the
    heights of [x12], [x13], [x23] before they are set to zero, the height of the centre,
    and the x and y of the first cross product.  The cross product with [ez] is exact. *)
From Coq Require Import Reals ZArith.
From Flocq Require Import Core.
From Verif Require Import Num Vec FloatWrap PointFloat PathFloat.
Open Scope R_scope.

(** Vector3D.hh 186-189 *)
Definition vr_d (v : vec3) : res R :=
  p <- rd (vx v * vx v) ;; q <- rd (vy v * vy v) ;; r <- rd (p + q) ;;
  t <- rd (vz v * vz v) ;; w <- rd (r + t) ;; Ok (rnd (sqrt w)).
(** Vector3D.hh 218-222 *)
Definition vunit_d (v : vec3) : res vec3 :=
  n <- vr_d v ;; x <- rd_div (vx v) n ;; y <- rd_div (vy v) n ;; z <- rd_div (vz v) n ;; Ok (V3 x y z).
(** the difference of two vectors with its z set to zero, helixUtils.cc 217-223 *)
Definition across_d (a b : vec3) : res vec3 :=
  x <- rd (vx b - vx a) ;; y <- rd (vy b - vy a) ;; Ok (V3 x y 0).
(** the z of a cross product, Vector3D.hh 212-215 *)
Definition cross_z_d (a b : vec3) : res R :=
  p <- rd (vx a * vy b) ;; q <- rd (vy a * vx b) ;; rd (p - q).

(** helixUtils.cc 208-251.  The covariance of the track parameters is left as it is, and
    the reference point becomes [x1]. *)
Definition calculateStartHelix_d (at2 : R -> R -> R) (x1 x2 x3 : vec3) (backward : bool) : res vec5 :=
  x12 <- across_d x1 x2 ;; x13 <- across_d x1 x3 ;; x23 <- across_d x2 x3 ;;
  x12mag <- vr_d x12 ;; x12 <- vunit_d x12 ;;
  x13mag <- vr_d x13 ;; x13 <- vunit_d x13 ;;
  x23mag <- vr_d x23 ;; x23 <- vunit_d x23 ;;
  sinHalfPhi23 <- cross_z_d x12 x13 ;;
  q1 <- rd_div x13mag x12mag ;; q2 <- rd_div x23mag x12mag ;; a <- rd (1 - q2) ;;
  b <- rd (x12mag + x23mag) ;; c <- rd (a * b) ;; q3 <- rd_div c x13mag ;; e <- rd (q1 + q3) ;;
  cosHalfPhi23 <- rd (/ 2 * e) ;;
  let halfPhi23 := at2 sinHalfPhi23 cosHalfPhi23 in
  t <- rd (- / 2 * x23mag) ;; r0 <- rd_div t sinHalfPhi23 ;;
  rc <- rd (r0 * cosHalfPhi23) ;;
  sx <- rd (vx x2 + vx x3) ;; hx <- rd (/ 2 * sx) ;; kx <- rd (rc * vy x23) ;; cx <- rd (hx + kx) ;;
  sy <- rd (vy x2 + vy x3) ;; hy <- rd (/ 2 * sy) ;; ky <- rd (rc * - vx x23) ;; cy <- rd (hy + ky) ;;
  let r := if backward then - r0 else r0 in
  om <- rd_div 1 r ;;
  dz <- rd (vz x2 - vz x3) ;; r2 <- rd (r * 2) ;; arc <- rd (r2 * halfPhi23) ;; tl <- rd_div dz arc ;;
  ey <- rd (cy - vy x1) ;; py <- rd (r * ey) ;; ex <- rd (cx - vx x1) ;; px <- rd (r * ex) ;;
  ph <- rd (at2 py px + dHalfPi) ;;
  Ok (mk5 om tl ph 0 0).
