(** Plane geometry notions used in the statements about intersections. *)
From Coq Require Import Reals ZArith.
From Verif Require Import SpecConst Num Vec Isect.
Open Scope R_scope.

Definition on_circle (c : circle) (p : R * R) : Prop :=
  (fst p - c_x c) * (fst p - c_x c) + (snd p - c_y c) * (snd p - c_y c) = c_r c * c_r c.

Definition on_line (l : straightLine) (p : R * R) : Prop :=
  l_n0 l * fst p + l_n1 l * snd p = l_d l.

(** (radius^2 - distance(centre, line)^2) * |n|^2 *)
Definition overlap (c : circle) (l : straightLine) : R :=
  c_r c * c_r c * (l_n0 l * l_n0 l + l_n1 l * l_n1 l)
  - (l_d l - (l_n0 l * c_x c + l_n1 l * c_y c)) * (l_d l - (l_n0 l * c_x c + l_n1 l * c_y c)).

Definition proper_line (l : straightLine) : Prop := l_n0 l <> 0 \/ l_n1 l <> 0.

(** offset of the radical axis of two circles: r1^2 - r2^2 - |c1|^2 + |c2|^2 *)
Definition radical (c1 c2 : circle) : R :=
  c_r c1 * c_r c1 - c_r c2 * c_r c2
  - (c_x c1 * c_x c1 + c_y c1 * c_y c1) + (c_x c2 * c_x c2 + c_y c2 * c_y c2).

(** a vertical plane through [o] with normal [n] *)
Definition on_plane (o n x : vec3) : Prop := vdot (vsub x o) n = 0.

(** lateral surface of a cylinder with axis along z *)
Definition on_cylinder (rho : R) (c x : vec3) : Prop :=
  (vx x - vx c) * (vx x - vx c) + (vy x - vy c) * (vy x - vy c) = rho * rho.

(** radical axis of two circles: for points of the first circle, the same as
    lying on the second one *)
Definition axis (c1 c2 : circle) : straightLine :=
  Line (2 * (c_x c2 - c_x c1)) (2 * (c_y c2 - c_y c1)) (radical c1 c2).

(** centres distinguishable for the code *)
Definition far_apart (c1 c2 : circle) : Prop :=
  tol12 <= 2 * Rabs (c_x c2 - c_x c1) \/ tol12 <= 2 * Rabs (c_y c2 - c_y c1).

(** determinant of the normals of two lines *)
Definition det (l1 l2 : straightLine) : R := l_n0 l1 * l_n1 l2 - l_n0 l2 * l_n1 l1.


(** projection of the track (with curvature) to the transverse plane: centre
    one radius away from the point of closest approach, on its right for
    positive curvature *)
Definition hcircle (hp : vec5) (rp : vec3) : circle :=
  Circ (vx rp + (1 / hp OMEGA - hp D0) * sin (hp PHI0))
       (vy rp - (1 / hp OMEGA - hp D0) * cos (hp PHI0)) (Rabs (1 / hp OMEGA)).

(** what the type flags of a surface declare *)
Definition z_cylinder (t : surfType) : Prop := st_cylinder t = true /\ st_parallelToZ t = true.
Definition z_plane (t : surfType) : Prop := st_plane t = true /\ st_parallelToZ t = true.
Definition z_disk (t : surfType) : Prop := st_plane t = true /\ st_orthogonalToZ t = true.

(** plane parallel to the z axis, accepted by the code *)
Definition zplane_ok (surf : surface) : Prop :=
  let n := sf_normal surf v3zero in
  vz n = 0 /\ (tol12 <= Rabs (vx n) \/ tol12 <= Rabs (vy n)).

(** cylinders have a positive radius, vertical planes a usable normal *)
Definition wf_surface (surf : surface) : Prop :=
  (forall rho c, sf_cyl surf = Some (rho, c) -> 0 < rho)
  /\ (st_plane (sf_type surf) = true -> st_parallelToZ (sf_type surf) = true -> zplane_ok surf).

(** the line the code uses for a plane: the distance is made positive without
    turning the normal round *)
Definition pline (surf : surface) : straightLine :=
  let n := sf_normal surf v3zero in
  Line (vx n) (vy n) (Rabs (vdot (sf_origin surf) n)).

(** tangency margin (radius^2 - distance^2 of the helix axis from the plane),
    times the squared length of the normal *)
Definition plane_margin (surf : surface) (hp : vec5) (rp : vec3) : R :=
  overlap (hcircle hp rp) (pline surf).

(** path lengths within half a turn at which the curve [f] lies in [P] *)
Definition crossing (f : R -> vec3) (om : R) (P : vec3 -> Prop) (s : R) : Prop :=
  Rabs (om * s) < PI /\ P (f s).

(** [s] is what the mode asks for among the path lengths satisfying [S] *)
Record picked (tol : R) (mode : Z) (S : R -> Prop) (s : R) : Prop := {
  pk_in : S s;
  pk_pos : (0 < mode)%Z -> 0 <= s /\ forall s', S s' -> 0 <= s' -> s <= s';
  pk_neg : (mode < 0)%Z -> s < 0 /\ forall s', S s' -> s' < 0 -> s' <= s;
  pk_zero : mode = 0%Z -> forall s', S s' -> Rabs s <= Rabs s' + tol
}.

(** nothing on the side asked for *)
Definition none_for (mode : Z) (S : R -> Prop) : Prop :=
  forall s, S s -> ((0 < mode)%Z /\ s < 0) \/ ((mode < 0)%Z /\ 0 <= s).


(** sign condition of a mode *)
Definition sign_ok (mode : Z) (s : R) : Prop :=
  ((0 < mode)%Z -> 0 < s) /\ ((mode < 0)%Z -> s < 0).
