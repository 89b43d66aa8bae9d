(** Notions for the local frame in double precision. *)
From Coq Require Import Reals.
From Verif Require Import Num Vec SpecRound.
Open Scope R_scope.

(** The direction of a track with azimuth [phi] and dip angle [lam], and the two directions
    orthogonal to it: one in the transverse plane, one that completes the triad. *)
Definition along (phi lam : R) : vec3 := V3 (cos phi * cos lam) (sin phi * cos lam) (sin lam).
Definition sideways (phi : R) : vec3 := V3 (- sin phi) (cos phi) 0.
Definition upwards (phi lam : R) : vec3 := V3 (- cos phi * sin lam) (- sin phi * sin lam) (cos lam).

(** component by component *)
Definition close (e : R) (v w : vec3) : Prop := Rabs (vx v - vx w) <= e /\ Rabs (vy v - vy w) <= e /\ Rabs (vz v - vz w) <= e.

(** The azimuth at the arc length [s], and the error of the frame there: the azimuth is only
    known up to the rounding of the angles it is computed from. *)
Definition azimuth (s : R) (hp : vec5) : R := hp PHI0 - hp OMEGA * s.
Definition wobble (s : R) (hp : vec5) : R := uround * (2 * Rabs (hp PHI0) + 3 * Rabs (hp OMEGA * s) + 12).
