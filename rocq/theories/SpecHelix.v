(** Specification of a helix, independent of the code: a space curve given by
    its starting point and its velocity. *)
From Coq Require Import Reals.
From Coquelicot Require Import Coquelicot.
From Verif Require Import Vec.
Open Scope R_scope.

(** [f] is the helix with parameters [hp] (curvature, dip, azimuth, signed
    transverse distance, height) with respect to the reference point [rp],
    parametrised by the transverse path length [s]. *)
Record is_helix (hp : vec5) (rp : vec3) (f : R -> vec3) : Prop := {
  helix_start :
    f 0 = V3 (vx rp + hp D0 * (- sin (hp PHI0)))
             (vy rp + hp D0 * cos (hp PHI0))
             (vz rp + hp Z0);
  helix_dx : forall s, is_derive (fun t => vx (f t)) s (cos (hp PHI0 - hp OMEGA * s));
  helix_dy : forall s, is_derive (fun t => vy (f t)) s (sin (hp PHI0 - hp OMEGA * s));
  helix_dz : forall s, is_derive (fun t => vz (f t)) s (hp TANL)
}.

(** Transverse distance of two points. *)
Definition dist_xy (a b : vec3) : R :=
  sqrt ((vx a - vx b) * (vx a - vx b) + (vy a - vy b) * (vy a - vy b)).

(** the track [f] runs on the circle (cylinder parallel to z) around [c] with radius [r] *)
Definition circles (f : R -> vec3) (c : vec3) (r : R) : Prop := forall s, dist_xy (f s) c = r.

(** Twice the signed area of the projected triangle: positive if 1, 2, 3 are
    passed counterclockwise *)
Definition turn (x1 x2 x3 : vec3) : R :=
  (vx x2 - vx x1) * (vy x3 - vy x1) - (vy x2 - vy x1) * (vx x3 - vx x1).
