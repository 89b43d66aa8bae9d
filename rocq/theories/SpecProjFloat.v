(** Notions for the projection to the measurement system in double precision. *)
From Coq Require Import Reals.
From Flocq Require Import Core.
From Verif Require Import Num Vec FloatWrap PointFloat SpecRound.
Open Scope R_scope.

Definition square (v : vec3) : R := vx v * vx v + vy v * vy v + vz v * vz v.

(** a direction: doubles, of unit length to a per cent *)
Record direction (v : vec3) : Prop := {
  di_x : is_double (vx v);
  di_y : is_double (vy v);
  di_z : is_double (vz v);
  di_unit : 98 / 100 <= square v <= 102 / 100
}.

(** The cosine between the normal of the plane of the directions [m] and [n] and that of the frame
    [U], [V], which is the direction of the track. *)
Definition slant (m n U V : vec3) : R := vdot (vcross m n) (vcross U V).

(** The matrix [p], row by row, is the inverse of the scalar products of [m], [n] with [U], [V]. *)
Definition inverts (p : R * R * R * R) (m n U V : vec3) : Prop :=
  let '(p00, p01, p10, p11) := p in
  p00 * vdot m U + p01 * vdot n U = 1 /\ p00 * vdot m V + p01 * vdot n V = 0
  /\ p10 * vdot m U + p11 * vdot n U = 0 /\ p10 * vdot m V + p11 * vdot n V = 1.

(** entry by entry *)
Definition within (e : R) (p q : R * R * R * R) : Prop :=
  let '(p0, p1, p2, p3) := p in let '(q0, q1, q2, q3) := q in
  Rabs (p0 - q0) <= e /\ Rabs (p1 - q1) <= e /\ Rabs (p2 - q2) <= e /\ Rabs (p3 - q3) <= e.

(** a second direction for a measurement in one: orthogonal up to rounding and of useful length *)
Record stand_in (m w : vec3) : Prop := {
  si_x : is_double (vx w);
  si_y : is_double (vy w);
  si_z : is_double (vz w);
  si_orth : Rabs (vdot m w) <= 25 * uround;
  si_long : square w <= 21 / 10;
  si_short : 9 / 10000000 <= sqrt (square w)
}.
