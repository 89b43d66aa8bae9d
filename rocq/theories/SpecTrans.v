(** Notions used to state the properties of frames, projections and parameter
    transformations. *)
From Coq Require Import Reals.
From Verif Require Import SpecConst Vec.
Open Scope R_scope.

(** right-handed orthonormal basis *)
Definition is_frame (u v t : vec3) : Prop :=
  vdot u u = 1 /\ vdot v v = 1 /\ vdot t t = 1
  /\ vdot u v = 0 /\ vdot u t = 0 /\ vdot v t = 0 /\ vcross u v = t.

(** The coordinate change documented at utilities.cc 160-166:
    (kappa, theta, phi, epsilon, z_p) -> (omega, tan lambda, phi0, d0, z0). *)
Definition l3_of_perigee (p : vec5) : vec5 :=
  mk5 (- p I0) (tan (PI / 2 - p I1)) (p I2) (- p I3) (p I4).

Definition perigee_of_l3 (p : vec5) : vec5 :=
  mk5 (- p I0) (PI / 2 - atan (p I1)) (p I2) (- p I3) (p I4).

Definition m5eq (a b : mat5) : Prop := forall i j, a i j = b i j.
Definition v5eq (a b : vec5) : Prop := forall i, a i = b i.

(** some non-zero vector is mapped to zero *)
Definition singular (m : mat5) : Prop := exists v, ~ v5eq v (fun _ => 0) /\ v5eq (m5mulv m v) (fun _ => 0).

(** The 2x2 matrix [p] turns the coordinates measured along [m] and [n] of any
    displacement in the plane of [u] and [v] back into its components. *)
Definition inverts (p : R * R * R * R) (u v m n : vec3) : Prop :=
  let '(p11, p12, p21, p22) := p in
  forall x y, let d := vadd (vscale x u) (vscale y v) in
    p11 * vdot m d + p12 * vdot n d = x /\ p21 * vdot m d + p22 * vdot n d = y.

(** the second direction used for a measurement along [m] only: with the unit
    vector (x,y,z) along [m], (z, z, -x-y), or (-y-z, x, x) if that is too short *)
Definition substitute (m w : vec3) : Prop :=
  exists x y z, V3 x y z = vscale (/ vr m) m
    /\ ((tol6 <= sqrt (2 * (z * z) + (x + y) * (x + y)) -> w = V3 z z (- (x + y)))
        /\ (sqrt (2 * (z * z) + (x + y) * (x + y)) < tol6 -> w = V3 (- (y + z)) x x)).

(** the order of the L3 parameters documented at utilities.cc 197:
    (Omega, phi0, d0, z0, tanLambda) *)
Definition documented_order (i : idx) : idx :=
  match i with I0 => OMEGA | I1 => PHI0 | I2 => D0 | I3 => Z0 | I4 => TANL end.
