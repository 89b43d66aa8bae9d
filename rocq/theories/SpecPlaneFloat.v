(** Notions used in the statements about rounding at planes parallel to z. *)
From Coq Require Import Reals ZArith.
From Flocq Require Import Core.
From Verif Require Import Num Vec FloatWrap PointFloat SpecHelix SpecRound SpecPath.
Open Scope R_scope.

(** a plane through [o] with normal [n], parallel to z; the normal is a unit vector to a
    per cent and points away from the z axis *)
Record ordinary_plane (o n : vec3) : Prop := {
  op_x : is_double (vx o);
  op_y : is_double (vy o);
  op_nx : is_double (vx n);
  op_ny : is_double (vy n);
  op_nz : vz n = 0;
  op_unit : 99 / 100 <= vx n * vx n + vy n * vy n <= 101 / 100;
  op_away : 0 <= vx o * vx n + vy o * vy n
}.

(** the distance of [x] from that plane, with a sign *)
Definition beyond (o n x : vec3) : R := (vx x - vx o) * vx n + (vy x - vy o) * vy n.

(** the size of the numbers that are added; the radius of the track is one of them *)
Definition spread (o : vec3) (hp : vec5) (rp : vec3) : R :=
  Rabs (vx o) + Rabs (vy o) + Rabs (vx rp) + Rabs (vy rp) + Rabs (hp D0) + / Rabs (hp OMEGA).
(** the same, in units of the radius of the track *)
Definition stretch (o : vec3) (hp : vec5) (rp : vec3) : R := Rabs (hp OMEGA) * spread o hp rp.
(** the error of a position *)
Definition haze (o : vec3) (hp : vec5) (rp : vec3) : R := uround * (spread o hp rp * stretch o hp rp).

(** the track stays on one side, or crosses by less than [eps] *)
Definition one_side (f : R -> vec3) (o n : vec3) (eps : R) : Prop :=
  (forall t, - eps <= beyond o n (f t)) \/ (forall t, beyond o n (f t) <= eps).

(** the track comes as close as [eps] to the plane *)
Definition comes_close (f : R -> vec3) (o n : vec3) (eps : R) : Prop := exists t, Rabs (beyond o n (f t)) <= eps.

(** [s] and [x] are a crossing of the track with the plane, up to rounding: the point is
    on the plane; its height is that of the track at [s]; the track comes close to it, at
    some path length [t]; and [s] is [t], unless the change of direction in between is
    lost and [s] is zero.  The path length is good for tracks that turn by at most one
    radian. *)
Record crossing (f : R -> vec3) (o n : vec3) (hp : vec5) (rp : vec3) (s : R) (x : vec3) : Prop := {
  cr_plane : Rabs (beyond o n x) <= 76 * (uround * spread o hp rp);
  cr_height : Rabs (vz x - vz (f s)) <= 3 * uround * (Rabs (hp Z0) + Rabs (vz rp) + Rabs (s * hp TANL)) + tiny;
  cr_track : exists t, Rabs (hp OMEGA * t) <= PI /\ dist_xy (f t) x <= 600 * haze o hp rp
    /\ (Rabs (hp OMEGA * t) <= 1 -> stretch o hp rp <= 100000 ->
        Rabs (s - t) <= 4000 * haze o hp rp + 50 * uround * Rabs t + speck
        \/ s = 0 /\ Rabs (hp OMEGA * t) <= uround * (27 + 2000 * (stretch o hp rp * stretch o hp rp)) + speck)
}.

(** Every point where the track meets the plane is close to [x0] or [x1].  Close means:
    the product of the two distances is small. *)
Definition both (f : R -> vec3) (o n : vec3) (hp : vec5) (rp : vec3) (x0 x1 : vec3) : Prop :=
  forall t, beyond o n (f t) = 0 -> dist_xy (f t) x0 * dist_xy (f t) x1 <= 430 * (uround * (spread o hp rp * spread o hp rp)).
(** Every point where the track meets the plane is close to [x]. *)
Definition only (f : R -> vec3) (o n : vec3) (hp : vec5) (rp : vec3) (x : vec3) : Prop :=
  forall t, beyond o n (f t) = 0 ->
  dist_xy (f t) x * dist_xy (f t) x <= / 100000000 + 1000 * (uround * (spread o hp rp * spread o hp rp)).

(** What is asked of the mathematical library for results to be finite: the sine of a
    double is zero at zero only, and atan2(0,0) is some angle. *)
Record sound_library (L : libm) (at2 : R -> R -> R) : Prop := {
  sl_good : good_library L at2;
  sl_sin : forall x, is_double x -> Rabs x <= 4 -> bpow radix2 (-60) * Rabs x <= Rabs (m_sin L x);
  sl_origin : Rabs (at2 0 0) <= 7 / 2
}.
