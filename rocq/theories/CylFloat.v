(** The crossing of a track with a cylinder along z in double precision
    (util/src/helixUtils.cc 414-526).  Same conventions as in PointFloat.v and
    PathFloat.v; the arc sine of the mathematical library is one more parameter. *)
From Coq Require Import Reals ZArith Bool.
From Flocq Require Import Core.
From Verif Require Import Num Vec Isect FloatWrap PointFloat PathFloat.
Open Scope R_scope.

(** helixUtils.cc 486-523: choice between the two solutions.  As [select] in Isect.v,
    but the constant 1e-4 and the sum with it are rounded; the sum of a finite number
    and 1e-4 does not overflow. *)
Definition select_d (mode : Z) (s0 : R) (sol0 : vec3) (s1 : R) (sol1 : vec3) : option (R * vec3) :=
  let e := rnd (/ 10000) in
  if Rlt_dec s0 0 then
    if Rlt_dec s1 0 then
      if Z.ltb mode 1 then
        (if Rlt_dec s1 s0 then Some (s0, sol0) else Some (s1, sol1))
      else None
    else
      if Z.ltb mode 0 then Some (s0, sol0)
      else if Z.ltb 0 mode then Some (s1, sol1)
      else if Rlt_dec (rnd (Rabs s0 + e)) (Rabs s1) then Some (s0, sol0) else Some (s1, sol1)
  else
    if Rlt_dec s1 0 then
      if Z.ltb 0 mode then Some (s0, sol0)
      else if Z.ltb mode 0 then Some (s1, sol1)
      else if Rlt_dec (Rabs s0) (rnd (Rabs s1 + e)) then Some (s0, sol0) else Some (s1, sol1)
    else
      if Z.ltb (-1) mode then
        (if Rlt_dec s0 s1 then Some (s0, sol0) else Some (s1, sol1))
      else None.

(** helixUtils.cc 453-454: numerator and denominator of gamma *)
Definition gamma_num (om rho dx dy sinph cosph : R) : res R :=
  a0 <- rd (2 * dx) ;; a <- rd (a0 * sinph) ;;
  b0 <- rd (2 * dy) ;; b <- rd (b0 * cosph) ;;
  c <- rd (a - b) ;;
  o1 <- rd (om * rho) ;; o2 <- rd (o1 * rho) ;;
  d <- rd (c - o2) ;;
  x2 <- rd (dx * dx) ;; y2 <- rd (dy * dy) ;; r2 <- rd (x2 + y2) ;;
  e <- rd (om * r2) ;;
  rd (d - e).
Definition gamma_den (rho sox coy : R) : res R :=
  r <- rd (2 * rho) ;;
  p <- rd (sox * sox) ;; q <- rd (coy * coy) ;; w <- rd (p + q) ;;
  rd (r * rnd (sqrt w)).

(** helixUtils.cc 468-472: the point of the cylinder at azimuth [phic]; with the path
    length to it and its height, 474-481 *)
Definition cyl_point (L : libm) (at2 : R -> R -> R) (rho : R) (cylc : vec3) (phic : R) (hp : vec5) (rp : vec3)
  : res (R * vec3) :=
  a <- rd (rho * m_cos L phic) ;; X <- rd (vx cylc + a) ;;
  b <- rd (rho * m_sin L phic) ;; Y <- rd (vy cylc + b) ;;
  s <- calculateSfromXY_d L at2 X Y hp rp ;;
  Z <- calculateZfromS_d s hp rp ;;
  Ok (s, V3 X Y Z).

(** helixUtils.cc 414-526.  [None]: the output parameters keep their values.  The code
    computes both points before both path lengths; the order does not matter, as
    nothing is written in between.  0/0 is [NonFin] for every mode.  A quotient beyond
    the range of double is infinite and greater than one. *)
Definition intersectWithZCylinder_d (L : libm) (at2 : R -> R -> R) (as_ : R -> R) (surf : surface) (hp : vec5) (rp : vec3)
  (mode : Z) (checkBounds : bool) : res (bool * option (R * vec3)) :=
  match st_parallelToZ (sf_type surf), sf_cyl surf with
  | true, Some (rho, cylc) =>
    let omega := hp OMEGA in
    let sinph := m_sin L (hp PHI0) in
    let cosph := m_cos L (hp PHI0) in
    a <- rd (hp D0 * sinph) ;; x0 <- rd (vx rp - a) ;;
    b <- rd (hp D0 * cosph) ;; y0 <- rd (vy rp + b) ;;
    dx <- rd (vx cylc - x0) ;; dy <- rd (vy cylc - y0) ;;
    c <- rd (omega * dx) ;; sox <- rd (sinph - c) ;;
    d <- rd (omega * dy) ;; coy <- rd (cosph + d) ;;
    num <- gamma_num omega rho dx dy sinph cosph ;;
    den <- gamma_den rho sox coy ;;
    if Req_EM_T den 0 then (if Req_EM_T num 0 then NonFin else Ok (false, None))
    else
      let gamma := rnd (num / den) in
      if Rlt_dec 1 (Rabs gamma) then Ok (false, None)
      else
        let phirho := at2 sox coy in
        let asing := as_ gamma in
        phic0 <- rd (asing + phirho) ;;
        w <- (if Rlt_dec 0 asing then rd (dPi - asing) else rd (- dPi - asing)) ;;
        phic1 <- rd (w + phirho) ;;
        p0 <- cyl_point L at2 rho cylc phic0 hp rp ;;
        p1 <- cyl_point L at2 rho cylc phic1 hp rp ;;
        match select_d mode (fst p0) (snd p0) (fst p1) (snd p1) with
        | None => Ok (false, None)
        | Some (s, xx) => Ok (bounds surf checkBounds xx, Some (s, xx))
        end
  | _, _ => Throw
  end.
