(** Notions used in the statements about the small example programs. *)
From Coq Require Import Reals List Bool ZArith.
From Verif Require Import SpecConst Num Vec Helix Isect Traj Geom Small.
From Verif Require Import SpecHelix SpecIsect SpecTraj SpecListed.
Import ListNotations.
Open Scope R_scope.

(** the first crossing of a surface ahead of the start, within half a turn; for
    disks the start itself does not count *)
Definition first_ahead (f : R -> vec3) (om : R) (surf : surface) (s : R) : Prop :=
  on_surface surf (f s) /\ 0 <= s /\ Rabs (om * s) < PI /\ (disk surf -> 0 < s)
  /\ forall u, 0 <= u -> Rabs (om * u) < PI -> on_surface surf (f u) -> s <= u.

(** the track of intersection_calculator: from the origin, curvature 0.23, at
    angle 1.57, with slope 0.01 *)
Definition calc_track (s : R) : vec3 :=
  V3 ((sin (157 / 100) - sin (157 / 100 - 23 / 100 * s)) / (23 / 100))
     ((cos (157 / 100 - 23 / 100 * s) - cos (157 / 100)) / (23 / 100))
     (s / 100).

Definition calc_helix : vec5 := mk5 (23 / 100) (1 / 100) (157 / 100) 0 0.

(** the last surface of a list with id [k] *)
Definition last_with {A : Type} (id : A -> Z) (l : list A) (k : Z) (x : A) : Prop :=
  exists l1 l2, l = l1 ++ x :: l2 /\ id x = k /\ forall y, In y l2 -> id y <> k.

(** the low 32 bits of a number, read as a signed number *)
Definition signed_word (c k : Z) : Prop :=
  (- 2 ^ 31 <= k < 2 ^ 31)%Z /\ (k mod 2 ^ 32 = c mod 2 ^ 32)%Z.

(** a line of lcio_read_example for the hit with cell id [c] *)
Definition hit_line (id : dsurface -> Z) (geom : list dsurface) (c : Z) (x : rline) : Prop :=
  exists surf k, x = RFound surf k /\ signed_word c k /\ last_with id geom k surf.

(** no surface for the hit with cell id [c] *)
Definition no_surface (id : dsurface -> Z) (geom : list dsurface) (c : Z) : Prop :=
  forall surf, In surf geom -> ~ signed_word c (id surf).
