(** Small vectors, 5x5 matrices and track parameters. *)
From Coq Require Import Reals List Bool.
From Verif Require Import Num.
Import ListNotations.
Open Scope R_scope.

(** ** Vector3D : core/include/Vector3D.hh 22-272 (and the identical class of
    DD4hep it stands for) *)
Record vec3 := V3 { vx : R; vy : R; vz : R }.

(** default constructor, Vector3D.hh 27 *)
Definition v3zero : vec3 := V3 0 0 0.
(** operator+, Vector3D.hh 275-278 *)
Definition vadd (a b : vec3) : vec3 := V3 (vx a + vx b) (vy a + vy b) (vz a + vz b).
(** operator-, Vector3D.hh 281-284 *)
Definition vsub (a b : vec3) : vec3 := V3 (vx a - vx b) (vy a - vy b) (vz a - vz b).
(** scalar multiplication, Vector3D.hh 296-299 *)
Definition vscale (s : R) (v : vec3) : vec3 := V3 (s * vx v) (s * vy v) (s * vz v).
(** dot, Vector3D.hh 205-208 and operator* 308-311 *)
Definition vdot (a b : vec3) : R := vx a * vx b + vy a * vy b + vz a * vz b.
(** cross, Vector3D.hh 212-215 *)
Definition vcross (a b : vec3) : vec3 :=
  V3 (vy a * vz b - vz a * vy b) (vz a * vx b - vx a * vz b) (vx a * vy b - vy a * vx b).
(** r(), Vector3D.hh 186-189 *)
Definition vr (v : vec3) : R := sqrt (vx v * vx v + vy v * vy v + vz v * vz v).
(** trans() / rho(), Vector3D.hh 168-177 *)
Definition vtrans (v : vec3) : R := sqrt (vx v * vx v + vy v * vy v).
(** unit(), Vector3D.hh 218-222; the zero vector has no finite unit vector *)
Definition vunit (v : vec3) : res vec3 :=
  let n := vr v in
  x <- rdiv (vx v) n ;; y <- rdiv (vy v) n ;; z <- rdiv (vz v) n ;; Ok (V3 x y z).
(** phi(), Vector3D.hh 162-165 *)
Definition vphi (v : vec3) : R :=
  if Req_EM_T (vx v) 0 then (if Req_EM_T (vy v) 0 then 0 else atan2 (vy v) (vx v))
  else atan2 (vy v) (vx v).
(** theta(), Vector3D.hh 199-202 (the all-zero test yields 0, as does atan2) *)
Definition vtheta (v : vec3) : R :=
  if Req_EM_T (vx v) 0 then
    (if Req_EM_T (vy v) 0 then
       (if Req_EM_T (vz v) 0 then 0 else atan2 (vtrans v) (vz v))
     else atan2 (vtrans v) (vz v))
  else atan2 (vtrans v) (vz v).
(** cylindrical constructor, Vector3D.hh 327-331 *)
Definition v3cyl (rho phi z : R) : vec3 := V3 (rho * cos phi) (rho * sin phi) z.
(** spherical constructor, Vector3D.hh 338-344 *)
Definition v3sph (r phi theta : R) : vec3 :=
  let rst := r * sin theta in V3 (rst * cos phi) (rst * sin phi) (r * cos theta).

(** ** Index type of the five track parameters / 5x5 matrices
    (Eigen's unchecked index; only the five valid indices are modelled). *)
Inductive idx := I0 | I1 | I2 | I3 | I4.

Definition idx_eq_dec (i j : idx) : {i = j} + {i <> j}.
Proof. decide equality. Defined.

(** enum of core/include/trackParameterizationLCIO.hh 17-23 *)
Definition OMEGA := I0.
Definition TANL := I1.
Definition PHI0 := I2.
Definition D0 := I3.
Definition Z0 := I4.

(** enum of util/include/utilities.hh 19-26 *)
Definition perigeeKAPPA := I0.
Definition perigeeTHETA := I1.
Definition perigeePHI := I2.
Definition perigeeEPSILON := I3.
Definition perigeeZP := I4.

(** ** Vector5 : core/include/Vector5.hh *)
Definition vec5 := idx -> R.

(** Vector5(double x5), Vector5.hh 40-42 *)
Definition mk5 (a b c d e : R) : vec5 :=
  fun i => match i with I0 => a | I1 => b | I2 => c | I3 => d | I4 => e end.
(** operator+, Vector5.hh 62-64 *)
Definition v5add (a b : vec5) : vec5 := fun i => a i + b i.
(** write access operator()(i), Vector5.hh 73-75 *)
Definition v5set (v : vec5) (i : idx) (x : R) : vec5 :=
  fun k => if idx_eq_dec k i then x else v k.

(** ** fiveByFiveMatrix : core/include/fiveByFiveMatrix.hh *)
Definition mat5 := idx -> idx -> R.

(** default constructor: all zero, fiveByFiveMatrix.hh 27 *)
Definition m5zero : mat5 := fun _ _ => 0.

Definition idx_nat (i : idx) : nat :=
  match i with I0 => 0 | I1 => 1 | I2 => 2 | I3 => 3 | I4 => 4 end%nat.

(** construction from a std::vector, fiveByFiveMatrix.hh 35: Eigen reads 25
    values starting at [&o[0]], row major; a shorter vector is read out of
    bounds. *)
Definition m5of_list (l : list R) : res mat5 :=
  if Nat.ltb (length l) 25 then UB
  else Ok (fun i j => nth (5 * idx_nat i + idx_nat j)%nat l 0).

(** write access operator()(r,c), fiveByFiveMatrix.hh 52-54 *)
Definition m5set (m : mat5) (i j : idx) (x : R) : mat5 :=
  fun k l => if idx_eq_dec k i then (if idx_eq_dec l j then x else m k l) else m k l.

Definition sum5 (f : idx -> R) : R := f I0 + f I1 + f I2 + f I3 + f I4.

(** operator* (matrix), fiveByFiveMatrix.hh 57-59 *)
Definition m5mul (a b : mat5) : mat5 := fun i j => sum5 (fun k => a i k * b k j).
(** operator* (vector), fiveByFiveMatrix.hh 62-64 *)
Definition m5mulv (a : mat5) (v : vec5) : vec5 := fun i => sum5 (fun k => a i k * v k).
(** Transpose(), fiveByFiveMatrix.hh 72-74 *)
Definition m5transpose (a : mat5) : mat5 := fun i j => a j i.
(** Unit(), fiveByFiveMatrix.hh 67-69: the body is [_m.Identity();].
    [Identity()] is a *static* Eigen function returning a new expression,
    which is discarded, so the matrix is left as it is. *)
Definition m5Unit (a : mat5) : mat5 := a.

(** ** trackParameters : core/include/trackParameters.hh 28-104,
    core/src/trackParameters.cc *)
Record trackParameters := TP {
  tp_cov : mat5;      (* _covmatrix *)
  tp_par : vec5;      (* _helixparams *)
  tp_ref : vec3       (* _refpoint *)
}.

(** default constructor, trackParameters.cc 7-9 *)
Definition tp_default : trackParameters := TP m5zero (fun _ => 0) v3zero.
(** trackParameters(hp, rp), trackParameters.hh 35-37 *)
Definition tp_of (hp : vec5) (rp : vec3) : trackParameters := TP m5zero hp rp.
(** setTrackParameters(Vector5), trackParameters.cc 42-45 *)
Definition tp_setPar (tp : trackParameters) (p : vec5) := TP (tp_cov tp) p (tp_ref tp).
(** setReferencePoint, trackParameters.cc 49-52 *)
Definition tp_setRef (tp : trackParameters) (r : vec3) := TP (tp_cov tp) (tp_par tp) r.
(** setCovarianceMatrix, trackParameters.cc 56-59 *)
Definition tp_setCov (tp : trackParameters) (c : mat5) := TP c (tp_par tp) (tp_ref tp).
(** setTrackParameters(p,c,r), trackParameters.cc 33-38 *)
Definition tp_setAll (tp : trackParameters) (p : vec5) (c : mat5) (r : vec3) :=
  tp_setCov (tp_setRef (tp_setPar tp p) r) c.

(** accessors of trackParameterizationLCIO.hh 63-95 *)
Definition calculateOmega (hp : vec5) : R := hp OMEGA.
Definition calculateTanLambda (hp : vec5) : R := hp TANL.
Definition calculatePhi0 (hp : vec5) : R := hp PHI0.
Definition calculateD0 (hp : vec5) : R := hp D0.
Definition calculateZ0 (hp : vec5) : R := hp Z0.
Definition calculateCurvature (hp : vec5) : R := hp OMEGA.
Definition calculateLambda (hp : vec5) : R := atan (hp TANL).
