(** Notions used in the statements about lcio_debug_tracks. *)
From Coq Require Import Reals List Bool ZArith.
From Verif Require Import SpecConst Num Vec Helix Isect Traj LCIO DebugTracks.
From Verif Require Import SpecHelix SpecIsect SpecTraj SpecLCIO SpecRefit.
Import ListNotations.
Open Scope R_scope.

(** [w] bits of a cell number from bit [lo] on, as a number *)
Definition zfield (lo w v : Z) : Z := ((v / 2 ^ lo) mod 2 ^ w)%Z.

(** The id of the surface that is looked for.  Hits of the vertex detector
    (subdetector 1): same module and sensor, side +1 or -1 (3 in two bits) by the
    sign of z, next layer, as 32-bit unsigned number.  Others: the cell number. *)
Definition debug_key (h : dhit) (k : Z) : Prop :=
  let c := dh_cell h in
  (zfield 0 5 c = 1%Z
   /\ (0 <= k < 2 ^ 32)%Z /\ zfield 0 5 k = 1%Z
   /\ (0 < vz (dh_pos h) -> zfield 5 2 k = 1%Z) /\ (vz (dh_pos h) <= 0 -> zfield 5 2 k = 3%Z)
   /\ zfield 7 9 k = (zfield 7 9 c + 1)%Z
   /\ zfield 16 8 k = zfield 16 8 c /\ zfield 24 8 k = zfield 24 8 c)
  \/ (zfield 0 5 c <> 1%Z /\ k = c).

(** the last surface of the list with id [k] *)
Definition surface_for (D : denv) (k : Z) (surf : surface) : Prop :=
  exists l1 l2, de_surfaces D = l1 ++ surf :: l2 /\ de_id D surf = k
    /\ forall s', In s' l2 -> de_id D s' <> k.

(** the state of the track in internal units *)
Definition debug_seed (mm : R) (ts : trackState) (itp : trackParameters) : Prop :=
  (forall i, tp_par itp i = unit_factor mm i * lcio_par ts i)
  /\ tp_ref itp = vscale mm (V3 (fst (fst (ts_ref ts))) (snd (fst (ts_ref ts))) (snd (ts_ref ts)))
  /\ (forall i j, tp_cov itp i j = 0).

(** the new hit made for a hit, in mm *)
Definition debug_point (D : denv) (itp : trackParameters) (h : dhit) (o : option vec3) : Prop :=
  exists k, debug_key h k
  /\ ((o = None /\ forall surf, In surf (de_surfaces D) -> de_id D surf <> k)
      \/ exists surf, surface_for D k surf
           /\ ((o = None /\ exists out,
                  intersectWithSurface surf (tp_par itp) (tp_ref itp) (OVal 0 v3zero) 0 true = Ok (false, out))
               \/ exists s p, o = Some p
                  /\ intersectWithSurface surf (tp_par itp) (tp_ref itp) (OVal 0 v3zero) 0 true
                     = Ok (true, OVal s (vscale (de_mm D) p)))).

(** surfaces of one type that is searched in closed form; vertical planes not
    nearly touched by the track *)
Definition simple (surf : surface) (hp : vec5) (rp : vec3) : Prop :=
  let t := sf_type surf in
  st_cone t = false
  /\ ((st_cylinder t = true /\ st_plane t = false /\ st_parallelToZ t = true
       /\ exists rho c, sf_cyl surf = Some (rho, c) /\ 0 < rho)
      \/ (st_cylinder t = false /\ st_plane t = true /\ st_parallelToZ t = true /\ st_orthogonalToZ t = false
          /\ zplane_ok surf
          /\ (plane_margin surf hp rp < - tol9 \/ tol9 < plane_margin surf hp rp))
      \/ (st_cylinder t = false /\ st_plane t = true /\ st_parallelToZ t = false /\ st_orthogonalToZ t = true)).

(** the path length [s] of a crossing, no other within half a turn being nearer
    to the start *)
Definition nearest (f : R -> vec3) (om : R) (surf : surface) (s : R) : Prop :=
  on_surface surf (f s)
  /\ forall u, Rabs (om * u) < PI -> on_surface surf (f u) -> Rabs s <= Rabs u + tol4.

(** the tracks that are alone in their event, in order *)
Fixpoint lone (l : list (option (list dtrack))) : list dtrack :=
  match l with
  | [] => []
  | Some [trk] :: l' => trk :: lone l'
  | _ :: l' => lone l'
  end.
