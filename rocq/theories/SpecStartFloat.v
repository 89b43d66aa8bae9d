(** Notions used in the statements about rounding in the start helix. *)
From Coq Require Import Reals ZArith.
From Flocq Require Import Core.
From Verif Require Import Num Vec FloatWrap PointFloat SpecHelix SpecRound SpecPath.
Open Scope R_scope.

(** two hits are apart in the transverse plane *)
Definition apart (a b : vec3) : Prop := bpow radix2 (-100) <= dist_xy a b.
(** three hits of everyday coordinates, apart from each other *)
Record ordinary_hits (x1 x2 x3 : vec3) : Prop := {
  oh_1 : ordinary (vx x1) /\ ordinary (vy x1) /\ ordinary (vz x1);
  oh_2 : ordinary (vx x2) /\ ordinary (vy x2) /\ ordinary (vz x2);
  oh_3 : ordinary (vx x3) /\ ordinary (vy x3) /\ ordinary (vz x3);
  oh_12 : apart x1 x2;
  oh_13 : apart x1 x3;
  oh_23 : apart x2 x3
}.

(** the curvature of the circle through three points: four times the area of the triangle
    over the product of the sides; positive if 1, 2, 3 are passed counterclockwise *)
Definition curvature (x1 x2 x3 : vec3) : R :=
  2 * turn x1 x2 x3 / (dist_xy x1 x2 * dist_xy x1 x3 * dist_xy x2 x3).

(** how uneven the three hits are spaced: five for equal distances on a line *)
Definition uneven (x1 x2 x3 : vec3) : R :=
  (dist_xy x1 x2 + dist_xy x2 x3) * (dist_xy x1 x2 + dist_xy x2 x3) / (dist_xy x1 x2 * dist_xy x1 x3)
  + (dist_xy x1 x2 + dist_xy x1 x3) / dist_xy x2 x3.
(** the size of the transverse coordinates *)
Definition spans (x1 x2 x3 : vec3) : R :=
  Rabs (vx x1) + Rabs (vy x1) + Rabs (vx x2) + Rabs (vy x2) + Rabs (vx x3) + Rabs (vy x3).
(** seen from the first hit, the other two are in the same half plane and not at a right
    angle *)
Definition ahead (x1 x2 x3 : vec3) : Prop :=
  / 10 * (dist_xy x1 x2 * dist_xy x1 x3)
  <= (vx x2 - vx x1) * (vx x3 - vx x1) + (vy x2 - vy x1) * (vy x3 - vy x1).

(** the helix starts at the first hit and passes, seen along z, first the second and then
    the third hit within a turn, forwards or backwards; between them it climbs as much
    as the hits do *)
Definition threads (hp : vec5) (x1 x2 x3 : vec3) (backward : bool) : Prop :=
  hp D0 = 0 /\ hp Z0 = 0 /\ hp OMEGA <> 0 /\
  forall f, is_helix hp x1 f -> f 0 = x1 /\ exists s2 s3,
    (if backward then - (2 * PI / Rabs (hp OMEGA)) < s3 /\ s3 < s2 < 0 else 0 < s2 < s3 /\ s3 < 2 * PI / Rabs (hp OMEGA))
    /\ vx (f s2) = vx x2 /\ vy (f s2) = vy x2 /\ vx (f s3) = vx x3 /\ vy (f s3) = vy x3
    /\ vz (f s3) - vz (f s2) = vz x3 - vz x2.
