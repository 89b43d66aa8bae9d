(** Notions used in the statements about rounding of path lengths. *)
From Coq Require Import Reals ZArith.
From Flocq Require Import Core.
From Verif Require Import Num Vec FloatWrap PointFloat SpecRound.
Open Scope R_scope.

(** an error no one will notice *)
Definition speck : R := bpow radix2 (-300).

(** [a] is the angle of the vector (x,y), on either side of the cut *)
Definition angle_of (y x a : R) : Prop :=
  - PI <= a <= PI /\ sqrt (x * x + y * y) * cos a = x /\ sqrt (x * x + y * y) * sin a = y.

(** What is asked of the mathematical library beyond [accurate]: a sine without
    underflow, and an atan2 that is off by less than a unit in the last place. *)
Record good_library (L : libm) (at2 : R -> R -> R) : Prop := {
  gl_accurate : accurate L;
  gl_sin : forall x, is_double x -> Rabs x <= 2 -> Rabs (m_sin L x - sin x) <= 2 * uround * Rabs (sin x);
  gl_atan2 : forall y x, is_double y -> is_double x -> x <> 0 \/ y <> 0 ->
    is_double (at2 y x) /\ exists a, angle_of y x a /\ Rabs (at2 y x - a) <= 2 * uround * Rabs a + least;
  gl_zero : forall x, is_double x -> 0 < x -> at2 0 x = 0
}.

(** a double of everyday size *)
Definition ordinary (x : R) : Prop := is_double x /\ Rabs x <= bpow radix2 100.

(** a track and a point: neither the curvature nor the azimuth is tiny without being
    zero, and the azimuth is within one turn *)
Record ordinary_track (hp : vec5) (rp : vec3) : Prop := {
  ot_om : ordinary (hp OMEGA);
  ot_d0 : ordinary (hp D0);
  ot_ph : is_double (hp PHI0);
  ot_x : ordinary (vx rp);
  ot_y : ordinary (vy rp);
  ot_turn : Rabs (hp PHI0) <= 2 * PI;
  ot_om0 : hp OMEGA = 0 \/ bpow radix2 (-200) <= Rabs (hp OMEGA);
  ot_ph0 : hp PHI0 = 0 \/ bpow radix2 (-300) <= Rabs (hp PHI0)
}.

(** the size of the numbers that are added *)
Definition extent (x y : R) (hp : vec5) (rp : vec3) : R :=
  Rabs x + Rabs y + Rabs (vx rp) + Rabs (vy rp) + Rabs (hp D0).
