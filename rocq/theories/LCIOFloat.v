(** persistency/src/LCIOPersistency.cc in floating point: LCIO stores float
    (binary32), the conversions compute in double (binary64).  Numbers are the
    reals of Flocq's formats; every operation rounds to nearest even.  The
    formats have no upper bound here; that no value leaves the range of the
    types is part of the theorems.  Signed zeros are not distinguished, [mm] is
    the double constant dd4hep::mm. *)
From Coq Require Import Reals List Bool ZArith.
From Flocq Require Import Core.
From Verif Require Import Num Vec LCIO FloatWrap.
Import ListNotations.
Open Scope R_scope.

(** binary32 number *)
Definition is_float (x : R) : Prop := generic_format radix2 (FLT_exp (-149) 24) x.
(** conversion of a double to float *)
Definition rndf (x : R) : R := round radix2 (FLT_exp (-149) 24) ZnearestE x.

(** double operations; no divisor is zero for [mm <> 0] *)
Definition dmul (a b : R) : R := rnd (a * b).
Definition ddiv (a b : R) : R := rnd (a / b).

(** LCIOPersistency.cc 21-93 *)
Definition readLCIO_d (mm : R) (ts : trackState) : res trackParameters :=
  let param := mk5 (ddiv (ts_Omega ts) mm) (ts_TanLambda ts) (ts_Phi ts)
                   (dmul (ts_D0 ts) mm) (dmul (ts_Z0 ts) mm) in
  let '(r0, r1, r2) := ts_ref ts in
  let refPoint := V3 (dmul r0 mm) (dmul r1 mm) (dmul r2 mm) in
  let c := m5zero in
  a5 <- at_ (ts_cov ts) 5 ;;
  let c := m5set c I0 I0 (ddiv a5 (dmul mm mm)) in
  a14 <- at_ (ts_cov ts) 14 ;;
  let c := m5set c I1 I1 a14 in
  a2 <- at_ (ts_cov ts) 2 ;;
  let c := m5set c I2 I2 a2 in
  a0 <- at_ (ts_cov ts) 0 ;;
  let c := m5set c I3 I3 (dmul (dmul a0 mm) mm) in
  a9 <- at_ (ts_cov ts) 9 ;;
  let c := m5set c I4 I4 (dmul (dmul a9 mm) mm) in
  a12 <- at_ (ts_cov ts) 12 ;;
  let c := m5set2 c I1 I0 (ddiv a12 mm) in
  a4 <- at_ (ts_cov ts) 4 ;;
  let c := m5set2 c I2 I0 (ddiv a4 mm) in
  a3 <- at_ (ts_cov ts) 3 ;;
  let c := m5set2 c I3 I0 a3 in
  a8 <- at_ (ts_cov ts) 8 ;;
  let c := m5set2 c I4 I0 a8 in
  a11 <- at_ (ts_cov ts) 11 ;;
  let c := m5set2 c I1 I2 a11 in
  a10 <- at_ (ts_cov ts) 10 ;;
  let c := m5set2 c I1 I3 (dmul a10 mm) in
  a13 <- at_ (ts_cov ts) 13 ;;
  let c := m5set2 c I1 I4 (dmul a13 mm) in
  a1 <- at_ (ts_cov ts) 1 ;;
  let c := m5set2 c I3 I2 (dmul a1 mm) in
  a7 <- at_ (ts_cov ts) 7 ;;
  let c := m5set2 c I2 I4 (dmul a7 mm) in
  a6 <- at_ (ts_cov ts) 6 ;;
  let c := m5set2 c I3 I4 (dmul (dmul a6 mm) mm) in
  Ok (tp_setAll tp_default param c refPoint).

(** LCIOPersistency.cc 97-154; the setters and std::vector<float> convert to
    float *)
Definition createLCIO_d (mm : R) (tp : trackParameters) : trackState :=
  let hp := tp_par tp in
  let cov := tp_cov tp in
  let mm2 := dmul mm mm in
  let covm := [ddiv (cov I3 I3) mm2; ddiv (cov I3 I2) mm; cov I2 I2; cov I3 I0;
               dmul (cov I0 I2) mm; dmul (cov I0 I0) mm2; ddiv (cov I3 I4) mm2;
               ddiv (cov I2 I4) mm; cov I4 I0; ddiv (cov I4 I4) mm2; ddiv (cov I1 I3) mm;
               cov I1 I2; dmul (cov I0 I1) mm; ddiv (cov I1 I4) mm; cov I1 I1] in
  TS 0 (rndf (ddiv (calculateD0 hp) mm)) (rndf (calculatePhi0 hp))
     (rndf (dmul (calculateOmega hp) mm)) (rndf (ddiv (calculateZ0 hp) mm))
     (rndf (calculateTanLambda hp)) (map rndf covm)
     (rndf (ddiv (vx (tp_ref tp)) mm), rndf (ddiv (vy (tp_ref tp)) mm),
      rndf (ddiv (vz (tp_ref tp)) mm)).
