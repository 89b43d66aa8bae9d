(** The crossing of a track with a plane parallel to z in double precision
    (util/src/helixUtils.cc 14-52, 529-630; util/src/intersections.cc 16-27, 50-80).  Same
    conventions as in PointFloat.v and PathFloat.v: every operation rounds, results
    beyond the range of double are [NonFin], no fused multiply-add, signed zeros are not
    distinguished. *)
From Coq Require Import Reals ZArith Bool List.
From Flocq Require Import Core.
From Verif Require Import Num Vec Isect FloatWrap PointFloat PathFloat.
Import ListNotations.
Open Scope R_scope.

(** helixUtils.cc 14-21 *)
Definition calculateRadius_d (hp : vec5) : res R :=
  if Req_EM_T (hp OMEGA) 0 then Ok 0 else r <- rd_div 1 (hp OMEGA) ;; Ok (Rabs r).
(** helixUtils.cc 25-37 *)
Definition calculateXCenter_d (L : libm) (hp : vec5) (rp : vec3) : res R :=
  if Req_EM_T (hp OMEGA) 0 then Ok 0
  else radius <- rd_div 1 (hp OMEGA) ;; a <- rd (radius - hp D0) ;;
       b <- rd (a * m_sin L (hp PHI0)) ;; rd (vx rp + b).
(** helixUtils.cc 41-52 *)
Definition calculateYCenter_d (L : libm) (hp : vec5) (rp : vec3) : res R :=
  if Req_EM_T (hp OMEGA) 0 then Ok 0
  else radius <- rd_div 1 (hp OMEGA) ;; a <- rd (radius - hp D0) ;;
       b <- rd (a * m_cos L (hp PHI0)) ;; rd (vy rp - b).

(** Vector3D.hh 205-208 *)
Definition vdot_d (a b : vec3) : res R :=
  p <- rd (vx a * vx b) ;; q <- rd (vy a * vy b) ;; r <- rd (p + q) ;;
  t <- rd (vz a * vz b) ;; rd (r + t).

(** intersections.cc 50-80.  The list of stored points.  A point that is not finite
    because of the square root of a negative number is [None], as in Isect.v. *)
Definition intersectCircleStraightLine_d (x0 y0 r nx ny dist : R) : res (list ipoint) :=
  a <- rd (nx * x0) ;; b <- rd (ny * y0) ;; ab <- rd (a + b) ;; d <- rd (dist - ab) ;;
  nx2 <- rd (nx * nx) ;; ny2 <- rd (ny * ny) ;; ns <- rd (nx2 + ny2) ;;
  r2 <- rd (r * r) ;; r2n <- rd (r2 * ns) ;; d2 <- rd (d * d) ;;
  discriminant <- rd (r2n - d2) ;;
  if Rlt_dec discriminant (- rnd (/ 1000000000)) then Ok []
    (* code: discriminant < 0 && fabs(discriminant) > 1e-9 *)
  else
    normSquareInv <- rd_div 1 ns ;;
    if Rlt_dec discriminant 0 then Ok [None]
    else
      let DISC := rnd (sqrt discriminant) in
      nxd <- rd (nx * d) ;; nyD <- rd (ny * DISC) ;; nyd <- rd (ny * d) ;; nxD <- rd (nx * DISC) ;;
      p <- rd (nxd + nyD) ;; p' <- rd (p * normSquareInv) ;; x1 <- rd (x0 + p') ;;
      q <- rd (nyd - nxD) ;; q' <- rd (q * normSquareInv) ;; y1 <- rd (y0 + q') ;;
      if Rle_dec discriminant (rnd (/ 1000000000)) then Ok [Some (x1, y1)]
      else
        v <- rd (nxd - nyD) ;; v' <- rd (v * normSquareInv) ;; x2 <- rd (x0 + v') ;;
        w <- rd (nyd + nxD) ;; w' <- rd (w * normSquareInv) ;; y2 <- rd (y0 + w') ;;
        Ok [Some (x1, y1); Some (x2, y2)].

(** the point with the path length to it and its height, helixUtils.cc 554-556, 569-577 *)
Definition track_point (L : libm) (at2 : R -> R -> R) (X Y : R) (hp : vec5) (rp : vec3) : res (R * vec3) :=
  s <- calculateSfromXY_d L at2 X Y hp rp ;; Z <- calculateZfromS_d s hp rp ;; Ok (s, V3 X Y Z).

(** helixUtils.cc 529-630.  The test [mode * s > 0] is made on the exact product, as in
    DiskFloat.v; comparisons of path lengths do not round, so that [select] is that of
    Isect.v without tolerance. *)
Definition intersectWithZPlane_d (L : libm) (at2 : R -> R -> R) (surf : surface) (hp : vec5) (rp : vec3)
  (o : outp) (mode : Z) (checkBounds : bool) : res (bool * outp) :=
  let n := sf_normal surf v3zero in
  let nx := vx n in
  let ny := vy n in
  dot <- vdot_d (sf_origin surf) n ;;
  let dist := Rabs dot in
  if andb (if Rlt_dec (Rabs nx) (rnd (/ 1000000000000)) then true else false)
          (if Rlt_dec (Rabs ny) (rnd (/ 1000000000000)) then true else false) then Throw
    (* constructor of straightLine, intersections.cc 16-27 *)
  else
    radius <- calculateRadius_d hp ;;
    xcenter <- calculateXCenter_d L hp rp ;;
    ycenter <- calculateYCenter_d L hp rp ;;
    candidates <- intersectCircleStraightLine_d xcenter ycenter radius nx ny dist ;;
    match candidates with
    | [] => Ok (false, o)
    | [None] =>
        (* s and xx become NaN; [mode*s > 0] is false for a NaN *)
        if Z.eqb mode 0 then (if checkBounds then NonFin else Ok (true, OBad))
        else Ok (false, OBad)
    | [Some (X, Y)] =>
        p <- track_point L at2 X Y hp rp ;;
        Ok (mode_ok mode (fst p) && bounds surf checkBounds (snd p), OVal (fst p) (snd p))
    | Some (X0, Y0) :: Some (X1, Y1) :: _ =>
        p0 <- track_point L at2 X0 Y0 hp rp ;;
        p1 <- track_point L at2 X1 Y1 hp rp ;;
        match select 0 mode (fst p0) (snd p0) (fst p1) (snd p1) with
        | None => Ok (false, o)
        | Some (s, xx) => Ok (bounds surf checkBounds xx, OVal s xx)
        end
    | _ => NonFin   (* two candidates of which one is not finite: does not occur *)
    end.
