(** Notions used in the statements about the material scans. *)
From Coq Require Import Reals List.
From Verif Require Import Num Vec Helix Isect Material Traj MatScan.
Import ListNotations.
Open Scope R_scope.

(** material of a surface, in radiation lengths, on a straight path with
    direction [u] through the point [xx] *)
Definition budget (surf : surface) (u xx : vec3) : R :=
  (sf_innerThickness surf / mat_radiationLength (sf_innerMaterial surf)
   + sf_outerThickness surf / mat_radiationLength (sf_outerMaterial surf))
  / Rabs (vdot u (sf_normal surf xx)).

(** no division by zero on the way to it; the total thickness counts *)
Definition measurable (surf : surface) (u xx : vec3) : Prop :=
  mat_radiationLength (sf_innerMaterial surf) <> 0 /\ mat_radiationLength (sf_outerMaterial surf) <> 0
  /\ sf_innerThickness surf + sf_outerThickness surf <> 0 /\ vdot u (sf_normal surf xx) <> 0.

Fixpoint sum (l : list R) : R := match l with [] => 0 | x :: l' => x + sum l' end.

(** direction with polar angle [theta] and azimuth [phi] *)
Definition direction_of (theta phi : R) : vec3 :=
  V3 (sin theta * cos phi) (sin theta * sin phi) (cos theta).

(** the sum of the values [g] up to a row is [v], if it exists *)
Definition running {A : Type} (g : A -> res R) (tot : A -> res R) (l : list A) : Prop :=
  forall before row after, l = before ++ row :: after ->
    (forall v, tot row = Ok v <->
       exists xs, Forall2 (fun r x => g r = Ok x) (before ++ [row]) xs /\ v = sum xs)
    /\ ((exists v, tot row = Ok v) \/ tot row = NonFin).

(** material steps: lengths covered up to and including each of them *)
Definition covered (l : list (R * R * R)) : R := sum (map (fun m => fst (fst m)) l).
