(** persistency/src/LCIOPersistency.cc: conversion between LCIO track states and
    track parameters.  [mm] is the constant dd4hep::mm (0.1 in the units of
    DD4hep); the model takes it as an argument. *)
From Coq Require Import Reals List Bool ZArith.
From Verif Require Import Num Vec.
Import ListNotations.
Open Scope R_scope.

(** the interface EVENT::TrackState as used here; the covariance is a
    std::vector<float>, the reference point a float[3].  In this file floats and
    doubles are real numbers, see LCIOFloat.v for rounding. *)
Record trackState := TS {
  ts_location : Z;
  ts_D0 : R;
  ts_Phi : R;
  ts_Omega : R;
  ts_Z0 : R;
  ts_TanLambda : R;
  ts_cov : list R;
  ts_ref : R * R * R
}.

(** std::vector::at *)
Definition at_ (l : list R) (n : nat) : res R :=
  match nth_error l n with Some x => Ok x | None => Throw end.

(** two assignments to mirrored entries *)
Definition m5set2 (m : mat5) (i j : idx) (x : R) : mat5 := m5set (m5set m i j x) j i x.

(** LCIOPersistency.cc 21-93.  The quotients by [mm] and [mm*mm] are those of
    the code; [rdiv] covers [mm = 0]. *)
Definition readLCIO (mm : R) (ts : trackState) : res trackParameters :=
  om <- rdiv (ts_Omega ts) mm ;;
  let param := mk5 om (ts_TanLambda ts) (ts_Phi ts) (ts_D0 ts * mm) (ts_Z0 ts * mm) in
  let '(r0, r1, r2) := ts_ref ts in
  let refPoint := V3 (r0 * mm) (r1 * mm) (r2 * mm) in
  let c := m5zero in
  a5 <- at_ (ts_cov ts) 5 ;; x <- rdiv a5 (mm * mm) ;;
  let c := m5set c I0 I0 x in
  a14 <- at_ (ts_cov ts) 14 ;;
  let c := m5set c I1 I1 a14 in
  a2 <- at_ (ts_cov ts) 2 ;;
  let c := m5set c I2 I2 a2 in
  a0 <- at_ (ts_cov ts) 0 ;;
  let c := m5set c I3 I3 (a0 * mm * mm) in
  a9 <- at_ (ts_cov ts) 9 ;;
  let c := m5set c I4 I4 (a9 * mm * mm) in
  a12 <- at_ (ts_cov ts) 12 ;; x <- rdiv a12 mm ;;
  let c := m5set2 c I1 I0 x in
  a4 <- at_ (ts_cov ts) 4 ;; x <- rdiv a4 mm ;;
  let c := m5set2 c I2 I0 x in
  a3 <- at_ (ts_cov ts) 3 ;;
  let c := m5set2 c I3 I0 a3 in
  a8 <- at_ (ts_cov ts) 8 ;;
  let c := m5set2 c I4 I0 a8 in
  a11 <- at_ (ts_cov ts) 11 ;;
  let c := m5set2 c I1 I2 a11 in
  a10 <- at_ (ts_cov ts) 10 ;;
  let c := m5set2 c I1 I3 (a10 * mm) in
  a13 <- at_ (ts_cov ts) 13 ;;
  let c := m5set2 c I1 I4 (a13 * mm) in
  a1 <- at_ (ts_cov ts) 1 ;;
  let c := m5set2 c I3 I2 (a1 * mm) in
  a7 <- at_ (ts_cov ts) 7 ;;
  let c := m5set2 c I2 I4 (a7 * mm) in
  a6 <- at_ (ts_cov ts) 6 ;;
  let c := m5set2 c I3 I4 (a6 * mm * mm) in
  Ok (tp_setAll tp_default param c refPoint).

(** LCIOPersistency.cc 97-154 *)
Definition createLCIO (mm : R) (tp : trackParameters) : res trackState :=
  let hp := tp_par tp in
  let cov := tp_cov tp in
  d0 <- rdiv (calculateD0 hp) mm ;;
  z0 <- rdiv (calculateZ0 hp) mm ;;
  c0 <- rdiv (cov I3 I3) (mm * mm) ;;
  c1 <- rdiv (cov I3 I2) mm ;;
  c6 <- rdiv (cov I3 I4) (mm * mm) ;;
  c7 <- rdiv (cov I2 I4) mm ;;
  c9 <- rdiv (cov I4 I4) (mm * mm) ;;
  c10 <- rdiv (cov I1 I3) mm ;;
  c13 <- rdiv (cov I1 I4) mm ;;
  rx <- rdiv (vx (tp_ref tp)) mm ;;
  ry <- rdiv (vy (tp_ref tp)) mm ;;
  rz <- rdiv (vz (tp_ref tp)) mm ;;
  let covm := [c0; c1; cov I2 I2; cov I3 I0; cov I0 I2 * mm; cov I0 I0 * (mm * mm);
               c6; c7; cov I4 I0; c9; c10; cov I1 I2; cov I0 I1 * mm; c13; cov I1 I1] in
  Ok (TS 0 d0 (calculatePhi0 hp) (calculateOmega hp * mm) z0 (calculateTanLambda hp)
        covm (rx, ry, rz)).
