(** Notions used in the statements about adding the surfaces that
    getIntersectionsWithSurfaces lists. *)
From Coq Require Import Reals List Bool ZArith.
From Verif Require Import SpecConst Num Vec Helix Isect Trans Material Traj SpecIsect SpecHelix SpecTraj SpecSmooth.
Import ListNotations.
Open Scope R_scope.

(** a surface type searched in closed form (cylinder along z, vertical plane,
    disk); vertical planes away from tangency to the track *)
Definition regular (surf : surface) (hp : vec5) (rp : vec3) : Prop :=
  let t := sf_type surf in
  ((st_cylinder t = true /\ st_parallelToZ t = true)
   \/ (st_plane t = true /\ (st_parallelToZ t = true \/ st_orthogonalToZ t = true)))
  /\ (st_plane t = true -> st_parallelToZ t = true -> tol9 < plane_margin surf hp rp).

(** the point of the track half a turn away from [a] is not on the surface *)
Definition not_opposite (f : R -> vec3) (om a : R) (surf : surface) : Prop :=
  forall u, Rabs (om * (u - a)) = PI -> ~ on_surface surf (f u).

(** orthogonal to z: the search for these leaves out the starting point *)
Definition disk (surf : surface) : Prop :=
  st_plane (sf_type surf) = true /\ st_orthogonalToZ (sf_type surf) = true
  /\ st_parallelToZ (sf_type surf) = false.

(** no entry before a disk has its path length *)
Definition disks_apart (l : list (R * surface)) : Prop :=
  forall l1 l2 s surf, l = l1 ++ (s, surf) :: l2 -> disk surf -> ~ In s (map fst l1).

(** a call that adds something on a surface, and what it answers *)
Inductive adds (E : env) (t : traj) (surf : surface) : call -> traj -> res bool -> Prop :=
| adds_meas position precision id sc t' r :
    addMeasurement E t position precision surf id sc = (t', r) ->
    adds E t surf (CMeas position precision surf id sc) t' r
| adds_scat t' r : addScatterer E t surf = (t', r) -> adds E t surf (CScat surf) t' r.

(** one call for each entry of a list, in order; what is thrown is caught *)
Inductive fed (E : env) (t0 : traj) : list (R * surface) -> traj -> Prop :=
| fed_nil : fed E t0 [] t0
| fed_snoc l t s surf c t' r : fed E t0 l t -> adds E t surf c t' r ->
    (exists b, r = Ok b) \/ r = Throw -> fed E t0 (l ++ [(s, surf)]) t'.

(** path length of the last element, counted from the start of the reference
    helix; 0 if there is no element *)
Definition reached (t : traj) (s0 : R) : R :=
  match rev (tr_elems t) with [] => 0 | e :: _ => te_s e - s0 end.

(** an element without surface where the trajectory starts, or one for an entry
    of the list, where the entry says *)
Definition located (f : R -> vec3) (s0 : R) (l : list (R * surface)) (e : telem) : Prop :=
  (te_surf e = None /\ te_s e = s0)
  \/ exists s surf, In (s, surf) l /\ te_surf e = Some surf /\ te_s e = s + s0 /\ tp_ref (te_tp e) = f s.
