(** Helix functions: util/src/helixUtils.cc, util/include/helixUtils.hh *)
From Coq Require Import Reals List Bool.
From Verif Require Import Num Vec.
Open Scope R_scope.

(** helixUtils.cc 14-21 *)
Definition calculateRadius (hp : vec5) : R :=
  let curvature := calculateCurvature hp in
  if Req_EM_T curvature 0 then 0 else Rabs (1 / curvature).

(** helixUtils.cc 25-37 *)
Definition calculateXCenter (hp : vec5) (rp : vec3) : R :=
  let omega := calculateOmega hp in
  if Req_EM_T omega 0 then 0
  else let radius := 1 / omega in
       vx rp + (radius - calculateD0 hp) * sin (calculatePhi0 hp).

(** helixUtils.cc 41-52 *)
Definition calculateYCenter (hp : vec5) (rp : vec3) : R :=
  let omega := calculateOmega hp in
  if Req_EM_T omega 0 then 0
  else let radius := 1 / omega in
       vy rp - (radius - calculateD0 hp) * cos (calculatePhi0 hp).

(** helixUtils.hh 48-51 *)
Definition calculateX0 (hp : vec5) (rp : vec3) : R :=
  sin (- calculatePhi0 hp) * calculateD0 hp + vx rp.

(** helixUtils.hh 59-61 *)
Definition calculateY0 (hp : vec5) (rp : vec3) : R :=
  cos (calculatePhi0 hp) * calculateD0 hp + vy rp.

(** helixUtils.cc 56-65 *)
Definition calculatePhifromXY (x y : R) (hp : vec5) (rp : vec3) : R :=
  let x0 := calculateX0 hp rp in
  let y0 := calculateY0 hp rp in
  let phi0 := calculatePhi0 hp in
  let curvature := calculateCurvature hp in
  atan2 (sin phi0 - curvature * (x - x0)) (cos phi0 + curvature * (y - y0)).

(** helixUtils.cc 84-91: the azimuth difference with a single 2pi correction *)
Definition dphi_of (phi phi0 : R) : R :=
  let dphi := phi - phi0 in
  if Rlt_dec dphi (- PI) then dphi + 2 * PI
  else if Rlt_dec PI dphi then dphi - 2 * PI else dphi.

(** helixUtils.cc 69-94 (the quotient is guarded only by [dphi != 0]; on the
    reals [sin dphi = 0] also at [dphi = +-pi]) *)
Definition calculateSfromXY (x y : R) (hp : vec5) (rp : vec3) : res R :=
  let phi0 := calculatePhi0 hp in
  let d0 := calculateD0 hp in
  let curvature := calculateCurvature hp in
  let sinPhi0 := sin phi0 in
  let cosPhi0 := cos phi0 in
  let x0 := vx rp - sinPhi0 * d0 in
  let y0 := vy rp + cosPhi0 * d0 in
  let dx := x - x0 in
  let dy := y - y0 in
  let phi := atan2 (sinPhi0 - curvature * dx) (cosPhi0 + curvature * dy) in
  let dphi := dphi_of phi phi0 in
  if Req_EM_T dphi 0 then Ok 0
  else rdiv ((dx * cosPhi0 + dy * sinPhi0) * dphi) (sin dphi).

(** helixUtils.cc 98-107 *)
Definition calculateXfromS (s : R) (hp : vec5) (rp : vec3) : R :=
  let x0 := calculateX0 hp rp in
  let phi0 := calculatePhi0 hp in
  let curvature := calculateCurvature hp in
  if Req_EM_T curvature 0 then x0 + s * cos phi0
  else x0 + 2 / curvature * sin (curvature * s / 2) * cos (phi0 - curvature * s / 2).

(** helixUtils.cc 111-120 *)
Definition calculateYfromS (s : R) (hp : vec5) (rp : vec3) : R :=
  let y0 := calculateY0 hp rp in
  let phi0 := calculatePhi0 hp in
  let curvature := calculateCurvature hp in
  if Req_EM_T curvature 0 then y0 + s * cos phi0
  else y0 + 2 / curvature * sin (curvature * s / 2) * sin (phi0 - curvature * s / 2).

(** helixUtils.cc 124-129 *)
Definition calculateZfromS (s : R) (hp : vec5) (rp : vec3) : R :=
  calculateZ0 hp + vz rp + s * calculateTanLambda hp.

(** helixUtils.cc 133-144 *)
Definition calculateTangent (s : R) (hp : vec5) : vec3 :=
  let omega := calculateCurvature hp in
  let phi0 := calculatePhi0 hp in
  let lambda := calculateLambda hp in
  V3 (cos (phi0 - omega * s) * cos lambda)
     (sin (phi0 - omega * s) * cos lambda)
     (sin lambda).

(** helixUtils.cc 147-167 *)
Definition pointAt (s : R) (hp : vec5) (rp : vec3) : res vec3 :=
  let omega := calculateOmega hp in
  let phi0 := calculatePhi0 hp in
  let tanl := calculateTanLambda hp in
  let d0 := calculateD0 hp in
  let z0 := calculateZ0 hp in
  let sinphi := sin phi0 in
  let cosphi := cos phi0 in
  r <- rdiv 1 omega ;;
  Ok (V3 (vx rp - d0 * sinphi + r * (sinphi - sin (phi0 - s * omega)))
         (vy rp + d0 * cosphi - r * (cosphi - cos (phi0 - s * omega)))
         (vz rp + z0 + s * tanl)).

(** core/include/aidaTT-Units.hh 51 with DD4hep's cm = 1, m = 100 *)
Definition convertBr2P_cm : R := 299792458 / 1000000000 * (1 / 100).

(** helixUtils.cc 169-182.  [bfield] is the map of the global geometry. *)
Definition momentumAt (bfield : vec3 -> vec3) (s : R) (hp : vec5) (rp : vec3) : res vec3 :=
  let omega := calculateOmega hp in
  let phi0 := calculatePhi0 hp in
  let tanl := calculateTanLambda hp in
  let bfieldZ := vz (bfield rp) in
  r <- rdiv 1 omega ;;
  let pt := Rabs r * bfieldZ * convertBr2P_cm in
  Ok (V3 (pt * cos (phi0 - s * omega)) (pt * sin (phi0 - s * omega)) (pt * tanl)).

(** helixUtils.cc 185-204 (the warning for small pt only logs) *)
Definition momentumAtPCA (bfield : vec3 -> vec3) (hp : vec5) (rp : vec3) : res vec3 :=
  let phi := calculatePhi0 hp in
  let omega := calculateOmega hp in
  let tanl := calculateTanLambda hp in
  let bfieldZ := vz (bfield rp) in
  r <- rdiv 1 omega ;;
  let pt := Rabs r * bfieldZ * convertBr2P_cm in
  Ok (V3 (pt * cos phi) (pt * sin phi) (pt * tanl)).

(** helixUtils.cc 208-251.  The covariance of [tp] is left as it is. *)
Definition calculateStartHelix (x1 x2 x3 : vec3) (tp : trackParameters) (backward : bool)
  : res trackParameters :=
  let ez := V3 0 0 1 in
  let x12 := vsub x2 x1 in
  let x13 := vsub x3 x1 in
  let x23 := vsub x3 x2 in
  let x12 := V3 (vx x12) (vy x12) 0 in
  let x13 := V3 (vx x13) (vy x13) 0 in
  let x23 := V3 (vx x23) (vy x23) 0 in
  let x12mag := vr x12 in
  x12 <- vunit x12 ;;
  let x13mag := vr x13 in
  x13 <- vunit x13 ;;
  let x23mag := vr x23 in
  x23 <- vunit x23 ;;
  let sinHalfPhi23 := vz (vcross x12 x13) in
  q1 <- rdiv x13mag x12mag ;;
  q2 <- rdiv x23mag x12mag ;;
  q3 <- rdiv ((1 - q2) * (x12mag + x23mag)) x13mag ;;
  let cosHalfPhi23 := 1 / 2 * (q1 + q3) in
  let halfPhi23 := atan2 sinHalfPhi23 cosHalfPhi23 in
  r0 <- rdiv (- (1 / 2) * x23mag) sinHalfPhi23 ;;
  let xc := vadd (vscale (1 / 2) (vadd x2 x3)) (vscale (r0 * cosHalfPhi23) (vcross x23 ez)) in
  let r := if backward then - r0 else r0 in
  om <- rdiv 1 r ;;
  tl <- rdiv (vz x2 - vz x3) (r * 2 * halfPhi23) ;;
  let ph := atan2 (r * (vy xc - vy x1)) (r * (vx xc - vx x1)) + PI / 2 in
  Ok (TP (tp_cov tp) (mk5 om tl ph 0 0) x1).

(** helixUtils.cc 347-406: the covariance update of [moveHelixTo]. *)
Definition moveF (cpa r rdr drp tnl fid csfd snfd rdrpr : R) : mat5 :=
  let rcpar := r / cpa in
  fun i j =>
    match i, j with
    (* @drho'/@a *)
    | I3, I3 => csfd
    | I3, I2 => rdr * snfd
    | I3, I0 => rcpar * (1 - csfd)
    | I3, I4 => 0
    | I3, I1 => 0
    (* @phi0'/@a *)
    | I2, I3 => - rdrpr * snfd
    | I2, I2 => rdr * rdrpr * csfd
    | I2, I0 => rcpar * rdrpr * snfd
    | I2, I4 => 0
    | I2, I1 => 0
    (* @kappa'/@a *)
    | I0, I3 => 0
    | I0, I2 => 0
    | I0, I0 => 1
    | I0, I4 => 0
    | I0, I1 => 0
    (* @dz'/@a *)
    | I4, I3 => r * rdrpr * tnl * snfd
    | I4, I2 => r * tnl * (1 - rdr * rdrpr * csfd)
    | I4, I0 => rcpar * tnl * (fid - r * rdrpr * snfd)
    | I4, I4 => 1
    | I4, I1 => - r * fid
    (* @tanl'/@a *)
    | I1, I3 => 0
    | I1, I2 => 0
    | I1, I0 => 0
    | I1, I4 => 0
    | I1, I1 => 1
    end.

(** helixUtils.cc 255-410.  Returns the modified track parameters and the
    returned angle [fid]. *)
Definition moveHelixTo (tp : trackParameters) (refNew : vec3) (CovMat : bool)
  : res (trackParameters * R) :=
  let par := tp_par tp in
  let dr := - par D0 in
  fi0 <- while_less 0 (par PHI0 - PI / 2) ;;
  fi0 <- while_greater (2 * PI) fi0 ;;
  let cpa := par OMEGA in
  let dz := par Z0 in
  let tnl := par TANL in
  let x0 := vx (tp_ref tp) in
  let y0 := vy (tp_ref tp) in
  let z0 := vz (tp_ref tp) in
  let xv := vx refNew in
  let yv := vy refNew in
  let zv := vz refNew in
  r <- rdiv 1 cpa ;;
  let rdr := r + dr in
  let csf0 := cos fi0 in
  let snf0a := sqrt (Rmax 0 ((1 - csf0) * (1 + csf0))) in
  let snf0 := if Rlt_dec PI fi0 then - snf0a else snf0a in
  let xc := x0 + rdr * csf0 in
  let yc := y0 + rdr * snf0 in
  let fi0p := if Rlt_dec 0 cpa then atan2 (yc - yv) (xc - xv) else 0 in
  let fi0p := if Rlt_dec cpa 0 then atan2 (yv - yc) (xv - xc) else fi0p in
  fi0p <- while_less 0 fi0p ;;
  fi0p <- while_greater (2 * PI) fi0p ;;
  let csf := cos fi0p in
  let snfa := sqrt (Rmax 0 ((1 - csf) * (1 + csf))) in
  let snf := if Rlt_dec PI fi0p then - snfa else snfa in
  anrm <- rdiv 1 (sqrt (csf * csf + snf * snf)) ;;
  let csf := csf * anrm in
  let snf := snf * anrm in
  let csfd := csf * csf0 + snf * snf0 in
  let snfd := snf * csf0 - csf * snf0 in
  fid <- while_less 0 (fi0p - fi0) ;;
  fid <- while_greater (2 * PI) fid ;;
  let fid := if Rlt_dec PI fid then fid - 2 * PI else fid in
  let drp := (xc - xv) * csf + (yc - yv) * snf - r in
  let dzp := z0 - zv + dz - r * tnl * fid in
  fi0p <- while_less (- PI) (fi0p + PI / 2) ;;
  fi0p <- while_greater PI fi0p ;;
  let par' := mk5 cpa tnl fi0p (- drp) dzp in
  if CovMat then
    rdrpr <- rdiv 1 (r + drp) ;;
    let F := moveF cpa r rdr drp tnl fid csfd snfd rdrpr in
    let C := tp_cov tp in
    let FT := m5transpose F in
    Ok (TP (m5mul (m5mul F C) FT) par' refNew, fid)
  else Ok (TP (tp_cov tp) par' refNew, fid).
