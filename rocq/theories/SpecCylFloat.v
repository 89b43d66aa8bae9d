(** Notions used in the statements about rounding at cylinders. *)
From Coq Require Import Reals ZArith.
From Flocq Require Import Core.
From Verif Require Import Num Vec FloatWrap PointFloat SpecHelix SpecRound SpecPath.
Open Scope R_scope.

(** an arc sine that is off by less than a unit in the last place *)
Definition good_asin (as_ : R -> R) : Prop := forall x, is_double x -> Rabs x <= 1 ->
  is_double (as_ x) /\ Rabs (as_ x - asin x) <= 2 * uround * Rabs (asin x) + least.

(** a cylinder of everyday size *)
Record ordinary_cylinder (rho : R) (c : vec3) : Prop := {
  oc_rho : is_double rho;
  oc_small : bpow radix2 (-200) <= rho;
  oc_large : rho <= bpow radix2 98;
  oc_x : is_double (vx c) /\ Rabs (vx c) <= bpow radix2 98;
  oc_y : is_double (vy c) /\ Rabs (vy c) <= bpow radix2 98
}.

(** the size of the numbers that are added *)
Definition reach (rho : R) (c : vec3) (hp : vec5) (rp : vec3) : R :=
  Rabs (vx c) + Rabs (vy c) + Rabs (vx rp) + Rabs (vy rp) + Rabs (hp D0) + rho.
(** the same, in units of the radius of the track *)
Definition bend (rho : R) (c : vec3) (hp : vec5) (rp : vec3) : R := Rabs (hp OMEGA) * reach rho c hp rp.
(** the error of a position *)
Definition blur (rho : R) (c : vec3) (hp : vec5) (rp : vec3) : R :=
  uround * (reach rho c hp rp * (1 + bend rho c hp rp)).

(** the track does not cross the cylinder, or by less than [eps] *)
Definition passes_by (f : R -> vec3) (rho : R) (c : vec3) (eps : R) : Prop :=
  (forall t, rho - eps <= dist_xy (f t) c) \/ (forall t, dist_xy (f t) c <= rho + eps).

(** [s] and [x] are a crossing of the track with the cylinder, up to rounding: the point
    is on the cylinder; its height is that of the track at [s]; the track comes close
    to it, at some path length [t]; and [s] is [t], unless the change of direction in
    between is lost and [s] is zero.  The path length is good for tracks that turn by at
    most one radian, which is all of them if the radius is large. *)
Record located (f : R -> vec3) (rho : R) (c : vec3) (hp : vec5) (rp : vec3) (s : R) (x : vec3) : Prop := {
  lc_cylinder : Rabs (dist_xy x c - rho) <= 9 * (uround * reach rho c hp rp);
  lc_height : Rabs (vz x - vz (f s)) <= 3 * uround * (Rabs (hp Z0) + Rabs (vz rp) + Rabs (s * hp TANL)) + tiny;
  lc_track : exists t, Rabs (hp OMEGA * t) <= PI /\ dist_xy (f t) x <= 220 * blur rho c hp rp
    /\ (bend rho c hp rp <= 4 / 10 -> Rabs (hp OMEGA * t) <= 1 /\ Rabs t <= 3 * reach rho c hp rp)
    /\ (Rabs (hp OMEGA * t) <= 1 -> bend rho c hp rp <= 100000 ->
        Rabs (s - t) <= 1450 * blur rho c hp rp + 50 * uround * Rabs t + speck
        \/ s = 0 /\ Rabs (hp OMEGA * t) <= uround * (27 + 700 * (bend rho c hp rp * (1 + bend rho c hp rp))) + speck)
}.

(** Every point where the track meets the cylinder is close to [x0] or [x1].  Close
    means: the product of the two distances is small.  At a tangent crossing both are
    about the square root of a rounding error.  [e / r] is the distance of the axes in
    units of the radius of the track: if the axes coincide, every point is as good as
    any other. *)
Definition exhaust (f : R -> vec3) (rho : R) (c : vec3) (hp : vec5) (rp : vec3) (x0 x1 : vec3) : Prop :=
  forall t, dist_xy (f t) c = rho ->
  (hp OMEGA = 0 -> dist_xy (f t) x0 * dist_xy (f t) x1 <= 350 * (blur rho c hp rp * (rho + 4 * (uround * reach rho c hp rp))))
  /\ (forall m r, hp OMEGA <> 0 -> circles f m r ->
      dist_xy m c / r * (dist_xy (f t) x0 * dist_xy (f t) x1) <= 350 * (blur rho c hp rp * (rho + 4 * (uround * reach rho c hp rp)))).
