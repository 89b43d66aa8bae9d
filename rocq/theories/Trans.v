(** util/src/utilities.cc: q/p, parameter transformations, local frame and
    projection. *)
From Coq Require Import Reals List Bool.
From Verif Require Import Num Vec Helix.
Import ListNotations.
Open Scope R_scope.

(** utilities.cc 9-16 *)
Definition calculateQoverP (hp : vec5) (bfield : R) : R :=
  if Req_EM_T bfield 0 then 0
  else cos (calculateLambda hp) * calculateCurvature hp / (bfield * convertBr2P_cm).

(** utilities.cc 25-90 *)
Definition curvilinearToPerigeeJacobian (hp : vec5) (bfield : vec3) : res mat5 :=
  let lambda := calculateLambda hp in
  let phi0 := calculatePhi0 hp in
  let omega_test := calculateCurvature hp in
  let cosPhi := cos phi0 in
  let sinPhi := sin phi0 in
  let tanLambda := tan lambda in
  let cosLambda := 1 / sqrt (1 + tanLambda * tanLambda) in
  let sinLambda := sin lambda in
  let T := V3 (cosPhi * cosLambda) (sinPhi * cosLambda) sinLambda in
  let U := V3 (- sinPhi) cosPhi 0 in
  let V := V3 (- cosPhi * sinLambda) (- sinPhi * sinLambda) cosLambda in
  let J := V3 sinPhi (- cosPhi) 0 in
  let K := V3 0 0 1 in
  let I := vcross J K in
  H <- vunit bfield ;;
  let aN := vcross H T in
  let ui := vdot U I in
  let anv := vdot aN V in
  let ti := vdot T I in
  let vi := vdot V I in
  let anu := vdot aN U in
  let vk := vdot V K in
  let jacobian := m5Unit m5zero in
  let Q := cosLambda * omega_test in
  let qbar := -1 * Q in
  j03 <- rdiv (qbar * Q * tanLambda * ui * anv / cosLambda) ti ;;
  j04 <- rdiv (qbar * Q * tanLambda * vi * anv / cosLambda) ti ;;
  j13 <- rdiv (Q * ui * anv) ti ;;
  j14 <- rdiv (Q * vi * anv) ti ;;
  j23 <- rdiv (- Q * ui * anu / cosLambda) ti ;;
  j24 <- rdiv (- Q * vi * anu / cosLambda) ti ;;
  j33 <- rdiv vk ti ;;
  j44 <- rdiv (- 1) ti ;;
  let jacobian := m5set jacobian I0 I0 (- vz bfield * convertBr2P_cm / cosLambda) in
  let jacobian := m5set jacobian I0 I1 (- qbar * tanLambda / cosLambda) in
  let jacobian := m5set jacobian I0 I3 j03 in
  let jacobian := m5set jacobian I0 I4 j04 in
  let jacobian := m5set jacobian I1 I1 (-1) in
  let jacobian := m5set jacobian I1 I3 j13 in
  let jacobian := m5set jacobian I1 I4 j14 in
  let jacobian := m5set jacobian I2 I3 j23 in
  let jacobian := m5set jacobian I2 I4 j24 in
  let jacobian := m5set jacobian I3 I3 j33 in
  let jacobian := m5set jacobian I4 I4 j44 in
  Ok jacobian.
(* divisions by [cosLambda = 1/sqrt(1+tan^2)] never have a zero divisor *)

(** utilities.cc 168-192 *)
Definition perigeeToL3Jacobian (hp : vec5) : mat5 :=
  let tanLambda := calculateTanLambda hp in
  let p2l3 := m5zero in
  let p2l3 := m5set p2l3 OMEGA perigeeKAPPA (-1) in
  let p2l3 := m5set p2l3 TANL perigeeTHETA (-1 * (1 + tanLambda * tanLambda)) in
  let p2l3 := m5set p2l3 PHI0 perigeePHI 1 in
  let p2l3 := m5set p2l3 D0 perigeeEPSILON (-1) in
  m5set p2l3 Z0 perigeeZP 1.

(** utilities.cc 201-215 *)
Definition L3ToPerigeeJacobian (hp : vec5) : mat5 :=
  let tanLambda := calculateTanLambda hp in
  let l32p := m5zero in
  let l32p := m5set l32p I0 I0 (-1) in
  let l32p := m5set l32p I4 I1 (- (1 / (1 + tanLambda * tanLambda))) in
  let l32p := m5set l32p I1 I2 1 in
  let l32p := m5set l32p I2 I3 (-1) in
  m5set l32p I3 I4 1.

(** utilities.cc 225-236 *)
Definition curvilinearToL3Jacobian (hp : vec5) (bfield : vec3) : res mat5 :=
  cl2p <- curvilinearToPerigeeJacobian hp bfield ;;
  Ok (m5mul (perigeeToL3Jacobian hp) cl2p).

(** utilities.cc 259-274 *)
Definition calculateLocalCurvilinearSystem (s : R) (hp : vec5) : vec3 * vec3 :=
  let omega := calculateCurvature hp in
  let phi0 := calculatePhi0 hp in
  let lambda := calculateLambda hp in
  (V3 (- sin (phi0 - omega * s)) (cos (phi0 - omega * s)) 0,
   V3 (- cos (phi0 - omega * s) * sin lambda)
      (- sin (phi0 - omega * s) * sin lambda)
      (cos lambda)).

Definition eps6 : R := / 1000000. (* 1e-6 *)

(** utilities.cc 296-304: the substitute second direction of a 1D measurement *)
Definition fakeDirection (m : vec3) : res vec3 :=
  mdir <- vunit m ;;
  let ortho := V3 (vz mdir) (vz mdir) (- vx mdir - vy mdir) in
  if Rlt_dec (vr ortho) eps6 then Ok (V3 (- vy mdir - vz mdir) (vx mdir) (vx mdir))
  else Ok ortho.

(** utilities.cc 278-337: the four entries of the 2x2 result, row by row.
    The heap side of the function is modelled in Heap.v. *)
Definition calculateLocalToMeasurementProjectionMatrix (clU clV : vec3)
  (measDirs : list vec3) : res (R * R * R * R) :=
  let invert (a b c d : R) :=
    let determinant := a * d - b * c in
    if Req_EM_T determinant 0 then Throw
    else Ok (d / determinant, - b / determinant, - c / determinant, a / determinant) in
  match measDirs with
  | [m0] =>
      ortho <- fakeDirection m0 ;;
      invert (vdot m0 clU) (vdot m0 clV) (vdot ortho clU) (vdot ortho clV)
  | [m0; m1] => invert (vdot m0 clU) (vdot m0 clV) (vdot m1 clU) (vdot m1 clV)
  | _ => Throw
  end.
