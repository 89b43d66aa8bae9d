(** The exact Jacobian matrices, entry by entry. *)
From Coq Require Import Reals.
From Verif Require Import Num Vec.
Open Scope R_scope.

(** Derivatives of (omega, tan lambda, phi0, d0, z0) by (kappa, theta, phi, epsilon, z_p):
    omega = - kappa, lambda = pi/2 - theta, phi0 = phi, d0 = - epsilon, z0 = z_p. *)
Definition by_perigee (t : R) (i j : idx) : R :=
  match i, j with
  | I0, I0 => -1 | I1, I1 => - (1 + t * t) | I2, I2 => 1 | I3, I3 => -1 | I4, I4 => 1 | _, _ => 0
  end.

(** The other way round, as the code arranges it.  Row: omega, phi0, d0, z0, tan lambda (the
    order of its comment).  Column: the derivative of kappa, theta, phi, epsilon, z_p by it. *)
Definition by_l3 (t : R) (i j : idx) : R :=
  match i, j with
  | I0, I0 => -1 | I1, I2 => 1 | I2, I3 => -1 | I3, I4 => 1 | I4, I1 => - / (1 + t * t) | _, _ => 0
  end.

(** the cosine of the angle whose tangent is the change in z *)
Definition cos_of_change (ts te : vec3) : R := / sqrt (1 + (vz ts - vz te) * (vz ts - vz te)).
