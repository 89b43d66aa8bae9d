(** Notions used in the statements about exceptions. *)
From Coq Require Import Reals List Bool ZArith.
From Verif Require Import Num Vec Helix Isect Trans Material Traj SpecIsect.
Import ListNotations.
Open Scope R_scope.

(** A surface no helix can be intersected with: what is called a z-cylinder or a
    cone without being a cylinder parallel to z, and a vertical plane whose normal
    is vertical or zero. *)
Definition unusable (surf : surface) : Prop :=
  let t := sf_type surf in
  let n := sf_normal surf v3zero in
  (z_cylinder t /\ sf_cyl surf = None)
  \/ (~ z_cylinder t /\ z_plane t
      /\ Rabs (vx n) < / 1000000000000 /\ Rabs (vy n) < / 1000000000000)
  \/ (~ z_cylinder t /\ ~ z_plane t /\ ~ z_disk t /\ st_cone t = true
      /\ (st_parallelToZ t = false \/ sf_cyl surf = None)).

(** An addition starting from [tp] crosses the surface at [xx] and arrives there,
    after the energy loss at the local point [lossAt xx], with the state [tp']. *)
Definition arrives (E : env) (mass : R) (tp : trackParameters) (surf : surface) (cb : bool)
  (lossAt : vec3 -> R * R) (xx : vec3) (tp' : trackParameters) : Prop :=
  exists s moved fid mom el,
    intersectWithSurface surf (tp_par tp) (tp_ref tp) (OVal 0 v3zero) 1 cb = Ok (true, OVal s xx)
    /\ moveHelixTo tp xx false = Ok (moved, fid)
    /\ momentumAtPCA (en_gfield E) (tp_par moved) (tp_ref moved) = Ok mom
    /\ computeEnergyLoss_uv surf (lossAt xx) mom mass = Ok el
    /\ applyLoss moved el = Ok tp'.

(** the plane of the measurement directions contains the track direction *)
Definition edge_on (u v : vec3) (tp : trackParameters) : Prop :=
  vdot (vcross u v) (calculateTangent 0 (tp_par tp)) = 0.
