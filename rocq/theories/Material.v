(** util/src/materialUtils.cc *)
From Coq Require Import Reals List Bool ZArith.
From Verif Require Import Num Vec Helix Isect.
Open Scope R_scope.

(** materialUtils.hh 15 *)
Definition pionMass : R := 13957018 / 100000000.

(** materialUtils.cc 39-107 *)
Definition computeQMS_uv (surf : surface) (crossingPoint : R * R) (momentum : vec3)
  (mass : R) : res R :=
  let r_i := sf_innerThickness surf in
  let r_o := sf_outerThickness surf in
  let X0_o := mat_radiationLength (sf_outerMaterial surf) in
  let X0_i := mat_radiationLength (sf_innerMaterial surf) in
  let r_tot := r_i + r_o in
  a <- rdiv r_i X0_i ;;
  b <- rdiv r_o X0_o ;;
  X0_eff <- rdiv (a + b) r_tot ;;
  up <- vunit momentum ;;
  let position := sf_localToGlobal surf crossingPoint in
  let n := sf_normal surf position in
  let cosTrk := Rabs (vdot up n) in
  path <- rdiv (r_i + r_o) cosTrk ;;
  let X_X0 := path * X0_eff in
  let mom := vr momentum in
  beta <- rdiv mom (sqrt (mom * mom + mass * mass)) ;;
  c <- rdiv (136 / 10000) (mom * beta) ;;
  sq <- rsqrt X_X0 ;;
  lg <- rln X_X0 ;;
  Ok (c * 1 * sq * (1 + 38 / 1000 * lg)).

(** materialUtils.cc 13-36; [bfield] is the map of the global geometry *)
Definition computeQMS_hp (bfield : vec3 -> vec3) (surf : surface) (hp : vec5) (rp : vec3)
  (mass : R) : res R :=
  r <- intersectWithSurface surf hp rp (OVal 0 v3zero) 0 true ;;
  match r with
  | (false, _) => Ok 0
  | (true, OBad) => NonFin
  | (true, OVal s xx) =>
      let uv := sf_globalToLocal surf xx in
      let phi := calculatePhifromXY (vx xx) (vy xx) hp rp in
      let omega := calculateOmega hp in
      let tanl := calculateTanLambda hp in
      let bfieldZ := vz (bfield xx) in
      rr <- rdiv 1 omega ;;
      let pt := Rabs rr * bfieldZ * convertBr2P_cm in
      computeQMS_uv surf uv (V3 (pt * cos phi) (pt * sin phi) (pt * tanl)) mass
  end.

(** materialUtils.cc 111-141.  Simplification: as soon as one number is not finite the
    result is [NonFin]; in the code a density of zero makes only the density correction not
    finite, which is not used for a momentum below the mass. *)
Definition kK : R := 307075 / 1000000 * / 1000.
Definition kMe : R := 510998902 / 1000000000 * / 1000.

Definition computeBetheBloch (mat : material) (mom mass : R) : res R :=
  let dnsty := mat_density mat in
  let A := mat_A mat in
  let Z := mat_Z mat in
  pz <- rpow Z (- (19 / 100)) ;;
  let I := (976 / 100 * Z + 588 / 10 * pz) * / 1000000000 in
  za <- rdiv (dnsty * Z) A ;;
  sq <- rsqrt za ;;
  let hwp := 28816 / 1000 * sq * / 1000000000 in
  bg2 <- rdiv (mom * mom) (mass * mass) ;;
  let gm2 := 1 + bg2 in
  meM <- rdiv kMe mass ;;
  lx <- rln (sqrt bg2) ;;
  let x := lx / ln 10 in
  ih <- rdiv I hwp ;;
  lih <- rln ih ;;
  let C0 := - (2 * lih + 1) in
  let a := - C0 / 27 in
  let del :=
    if Rle_dec 3 x then 4606 / 1000 * x + C0
    else if Rle_dec 0 x then 4606 / 1000 * x + C0 + a * ((3 - x) * (3 - x) * (3 - x))
    else 0 in
  tmax <- rdiv (2 * kMe * bg2) (1 + meM * (2 * sqrt gm2 + meM)) ;;
  larg <- rdiv (2 * kMe * bg2 * tmax) (I * I) ;;
  lg <- rln larg ;;
  za2 <- rdiv (kK * Z) A ;;
  g <- rdiv (za2 * gm2) bg2 ;;
  bb <- rdiv bg2 gm2 ;;
  Ok (g * (1 / 2 * lg - bb - del)).

(** Result of computeEnergyLoss: the returned deltaE and the reference
    parameters [energy], [beta]. *)
Record eloss := EL { el_deltaE : R; el_energy : R; el_beta : R }.

(** materialUtils.cc 144-197 *)
Definition computeEnergyLoss_uv (surf : surface) (crossingPoint : R * R)
  (momentum : vec3) (mass : R) : res eloss :=
  let material_i := sf_innerMaterial surf in
  let material_o := sf_outerMaterial surf in
  let position := sf_localToGlobal surf crossingPoint in
  up <- vunit momentum ;;
  let n := sf_normal surf position in
  let cosTrk := Rabs (vdot up n) in
  path_i <- rdiv (sf_innerThickness surf) cosTrk ;;
  path_o <- rdiv (sf_outerThickness surf) cosTrk ;;
  let mom := vr momentum in
  let mom2 := mom * mom in
  let energy := sqrt (mom2 + mass * mass) in
  beta <- rdiv mom energy ;;
  dedx_i <- computeBetheBloch material_i mom mass ;;
  dedx_o <- computeBetheBloch material_o mom mass ;;
  let deltaE := dedx_i * mat_density material_i * path_i in
  let deltaE := deltaE + dedx_o * mat_density material_o * path_o in
  Ok (EL deltaE energy beta).

(** materialUtils.cc 200-230.  [inr] is the value with [energy] and [beta] set;
    [inl] is the early [return 0.] that leaves both output parameters as they
    were. *)
Definition computeEnergyLoss_tp (bfield : vec3 -> vec3) (surf : surface)
  (tp : trackParameters) (mass : R) : res (R + eloss) :=
  let hp := tp_par tp in
  let rp := tp_ref tp in
  r <- intersectWithSurface surf hp rp (OVal 0 v3zero) 0 true ;;
  match r with
  | (false, _) => Ok (inl 0)
  | (true, OBad) => NonFin
  | (true, OVal s xx) =>
      let uv := sf_globalToLocal surf xx in
      let phi := calculatePhifromXY (vx xx) (vy xx) hp rp in
      let omega := calculateOmega hp in
      let tanl := calculateTanLambda hp in
      let bfieldZ := vz (bfield xx) in
      rr <- rdiv 1 omega ;;
      let pt := Rabs rr * bfieldZ * convertBr2P_cm in
      e <- computeEnergyLoss_uv surf uv (V3 (pt * cos phi) (pt * sin phi) (pt * tanl)) mass ;;
      Ok (inr e)
  end.
