(** The energy loss in a surface in double precision (util/src/materialUtils.cc 111-197).
    Same conventions as in QmsFloat.v: every operation rounds, results beyond the range of
    double are [NonFin], no fused multiply-add, signed zeros are not distinguished.  [mlog],
    [m10] and [mpow] are the functions log, log10 and pow of the mathematical library.
    Simplification: as soon as one number is not finite the result is [NonFin]; in the code
    a density of zero makes only the density correction not finite, and that correction is
    not used for particles with a momentum below their mass. *)
From Coq Require Import Reals ZArith.
From Flocq Require Import Core.
From Verif Require Import Num Vec Isect Material FloatWrap PointFloat StartFloat QmsFloat.
Open Scope R_scope.

(** pow with a base that is not positive is not modelled: the code calls it with the charge
    number and with [3.-x] for [x<3.] only *)
Definition pow_d (mpow : R -> R -> R) (x y : R) : res R := if Rlt_dec 0 x then rd (mpow x y) else NonFin.

(** the literals of materialUtils.cc 116, 117, 124, 125, 134, 135 as doubles *)
Definition kK_d : R := rnd (307075 / 1000000000).
Definition kMe_d : R := rnd (510998902 / 1000000000000).
Definition c976_d : R := rnd (976 / 100).
Definition c588_d : R := rnd (588 / 10).
Definition m019_d : R := rnd (- (19 / 100)).
Definition nano_d : R := rnd (/ 1000000000).
Definition c28816_d : R := rnd (28816 / 1000).
Definition c4606_d : R := rnd (4606 / 1000).

(** materialUtils.cc 132-135, the density correction *)
Definition density_corr_d (mpow : R -> R -> R) (x C0 a : R) : res R :=
  if Rle_dec 3 x then p <- rd (c4606_d * x) ;; rd (p + C0)
  else if Rle_dec 0 x then
    p <- rd (c4606_d * x) ;; q <- rd (p + C0) ;;
    y <- rd (3 - x) ;; w <- pow_d mpow y 3 ;; v <- rd (a * w) ;; rd (q + v)
  else Ok 0.

(** materialUtils.cc 111-142 *)
Definition computeBetheBloch_d (mlog m10 : R -> R) (mpow : R -> R -> R) (mat : material) (mom mass : R) : res R :=
  let dnsty := mat_density mat in
  let A := mat_A mat in
  let Z := mat_Z mat in
  i1 <- rd (c976_d * Z) ;; pz <- pow_d mpow Z m019_d ;; i2 <- rd (c588_d * pz) ;; i3 <- rd (i1 + i2) ;;
  I <- rd (i3 * nano_d) ;;
  d1 <- rd (dnsty * Z) ;; d2 <- rd_div d1 A ;; sq <- sqrt_d d2 ;; h1 <- rd (c28816_d * sq) ;;
  hwp <- rd (h1 * nano_d) ;;
  mm <- rd (mom * mom) ;; ww <- rd (mass * mass) ;; bg2 <- rd_div mm ww ;;
  gm2 <- rd (1 + bg2) ;;
  meM <- rd_div kMe_d mass ;;
  sb <- sqrt_d bg2 ;; x <- log_d m10 sb ;;
  ih <- rd_div I hwp ;; l <- log_d mlog ih ;; l2 <- rd (2 * l) ;; c <- rd (l2 + 1) ;;
  let C0 := - c in
  a <- rd_div (- C0) 27 ;;
  del <- density_corr_d mpow x C0 a ;;
  t1 <- rd (2 * kMe_d) ;; t2 <- rd (t1 * bg2) ;;
  sg <- sqrt_d gm2 ;; g1 <- rd (2 * sg) ;; g2 <- rd (g1 + meM) ;; g3 <- rd (meM * g2) ;; g4 <- rd (1 + g3) ;;
  tmax <- rd_div t2 g4 ;;
  k1 <- rd (kK_d * Z) ;; k2 <- rd_div k1 A ;; k3 <- rd (k2 * gm2) ;; k4 <- rd_div k3 bg2 ;;
  s1 <- rd (t2 * tmax) ;; i4 <- rd (I * I) ;; s2 <- rd_div s1 i4 ;; lg <- log_d mlog s2 ;; h <- rd (/ 2 * lg) ;;
  b <- rd_div bg2 gm2 ;; b1 <- rd (h - b) ;; b2 <- rd (b1 - del) ;;
  rd (k4 * b2).

(** materialUtils.cc 145-197 *)
Definition computeEnergyLoss_d (mlog m10 : R -> R) (mpow : R -> R -> R) (surf : surface) (crossingPoint : R * R)
  (momentum : vec3) (mass : R) : res eloss :=
  let material_i := sf_innerMaterial surf in
  let material_o := sf_outerMaterial surf in
  let position := sf_localToGlobal surf crossingPoint in
  up <- vunit_d momentum ;;
  let n := sf_normal surf position in
  d <- vdot_d up n ;;
  let cosTrk := Rabs d in
  path_i <- rd_div (sf_innerThickness surf) cosTrk ;;
  path_o <- rd_div (sf_outerThickness surf) cosTrk ;;
  mom <- vr_d momentum ;;
  mom2 <- rd (mom * mom) ;; w2 <- rd (mass * mass) ;; e2 <- rd (mom2 + w2) ;;
  energy <- sqrt_d e2 ;;
  beta <- rd_div mom energy ;;
  dedx_i <- computeBetheBloch_d mlog m10 mpow material_i mom mass ;;
  dedx_o <- computeBetheBloch_d mlog m10 mpow material_o mom mass ;;
  a1 <- rd (dedx_i * mat_density material_i) ;; deltaE <- rd (a1 * path_i) ;;
  b1 <- rd (dedx_o * mat_density material_o) ;; b2 <- rd (b1 * path_o) ;;
  deltaE <- rd (deltaE + b2) ;;
  Ok (EL deltaE energy beta).
