(** Notions for the crossing of a track with a surface of any kind in double precision. *)
From Coq Require Import Reals ZArith List.
From Flocq Require Import Core.
From Verif Require Import Num Vec Isect FloatWrap PointFloat NewtonFloat SpecHelix SpecIsect SpecRound SpecPath SpecDiskFloat.
From Verif Require SpecCylFloat SpecPlaneFloat SpecNewtonFloat.
Open Scope R_scope.

(** ** The kinds of surfaces, in the order in which they are tried *)
Definition as_cylinder (t : surfType) : Prop := st_cylinder t = true /\ st_parallelToZ t = true.
Definition as_plane (t : surfType) : Prop := st_cylinder t = false /\ st_plane t = true /\ st_parallelToZ t = true.
Definition as_disk (t : surfType) : Prop := st_plane t = true /\ st_parallelToZ t = false /\ st_orthogonalToZ t = true.
Definition as_cone (t : surfType) : Prop := st_cone t = true /\ ~ as_cylinder t /\ ~ as_plane t /\ ~ as_disk t.

(** a curved track of everyday size *)
Record fine_track (hp : vec5) (rp : vec3) : Prop := {
  ft_track : ordinary_track hp rp;
  ft_curved : hp OMEGA <> 0;
  ft_z0 : ordinary (hp Z0);
  ft_tanl : ordinary (hp TANL);
  ft_z : ordinary (vz rp);
  ft_hp : forall i, moderate (hp i);
  ft_x : moderate (vx rp);
  ft_y : moderate (vy rp)
}.

(** A surface of everyday size, as its kind demands.  A disk is not parallel to the
    track. *)
Record fine_surface (surf : surface) (hp : vec5) (rp : vec3) : Prop := {
  fs_cylinder : as_cylinder (sf_type surf) \/ as_cone (sf_type surf) ->
    st_parallelToZ (sf_type surf) = true /\ exists rho c, sf_cyl surf = Some (rho, c) /\ SpecCylFloat.ordinary_cylinder rho c;
  fs_plane : as_plane (sf_type surf) ->
    SpecPlaneFloat.ordinary_plane (sf_origin surf) (sf_normal surf v3zero)
    /\ SpecPlaneFloat.spread (sf_origin surf) hp rp <= bpow radix2 98;
  fs_disk : as_disk (sf_type surf) -> ordinary (vz (sf_origin surf)) /\ bpow radix2 (-90) <= Rabs (hp TANL)
}.

(** [s] and [x] are where the track meets a disk at height [h], up to rounding: the point is
    at that height, the track gets there at a path length [t] close to [s], and its point
    there is close to [x]. *)
Record reached (f : R -> vec3) (h : R) (hp : vec5) (rp : vec3) (s : R) (x : vec3) : Prop := {
  re_height : vz x = h;
  re_track : exists t, vz (f t) = h /\ Rabs (s - t) <= 2 * doubt hp rp + 3 * uround * Rabs t + tiny
    /\ Rabs (vx x - vx (f t)) <= 16 * uround * (Rabs (vx rp) + Rabs (hp D0) + Rabs s * (1 + Rabs (hp PHI0) + Rabs (hp OMEGA * s)))
         + 2 * doubt hp rp + 3 * uround * Rabs t + 2 * tiny
    /\ Rabs (vy x - vy (f t)) <= 16 * uround * (Rabs (vy rp) + Rabs (hp D0) + Rabs s * (1 + Rabs (hp PHI0) + Rabs (hp OMEGA * s)))
         + 2 * doubt hp rp + 3 * uround * Rabs t + 2 * tiny
}.

(** [s] and [x] are where the track [f] meets the surface, up to rounding.  For a cone: the
    point computed at [s] has a computed distance of less than 10^-3 mm. *)
Inductive meets (L : libm) (S : surface_d) (surf : surface) (hp : vec5) (rp : vec3) (f : R -> vec3) (s : R) (x : vec3) : Prop :=
| meets_cylinder rho c : as_cylinder (sf_type surf) -> sf_cyl surf = Some (rho, c) ->
    SpecCylFloat.located f rho c hp rp s x -> meets L S surf hp rp f s x
| meets_plane : as_plane (sf_type surf) ->
    SpecPlaneFloat.crossing f (sf_origin surf) (sf_normal surf v3zero) hp rp s x -> meets L S surf hp rp f s x
| meets_disk : as_disk (sf_type surf) -> reached f (vz (sf_origin surf)) hp rp s x -> meets L S surf hp rp f s x
| meets_cone d : as_cone (sf_type surf) -> SpecNewtonFloat.measured L S hp rp s x d -> Rabs d < SpecNewtonFloat.tol_d ->
    meets L S surf hp rp f s x.

(** on the side the mode asks for; the start counts as ahead *)
Definition on_side (mode : Z) (s : R) : Prop := ((0 < mode)%Z -> 0 <= s) /\ ((mode < 0)%Z -> s < 0).

(** The track touches a plane, up to rounding: it comes close but does not cross. *)
Definition touches (surf : surface) (hp : vec5) (rp : vec3) (f : R -> vec3) : Prop :=
  let o := sf_origin surf in let n := sf_normal surf v3zero in
  SpecPlaneFloat.one_side f o n (225 * SpecPlaneFloat.haze o hp rp)
  /\ SpecPlaneFloat.comes_close f o n (/ 900000000 * Rabs (hp OMEGA) + 230 * SpecPlaneFloat.haze o hp rp).

(** The track does not meet the surface, up to rounding.  For a cone: it misses the cylinder
    in its middle, or 101 path lengths were tried in vain, the first where it crosses that
    cylinder. *)
Inductive avoids (L : libm) (S : surface_d) (surf : surface) (hp : vec5) (rp : vec3) (f : R -> vec3) : Prop :=
| avoids_cylinder rho c : as_cylinder (sf_type surf) -> sf_cyl surf = Some (rho, c) ->
    SpecCylFloat.passes_by f rho c (113 * SpecCylFloat.blur rho c hp rp) -> avoids L S surf hp rp f
| avoids_plane : as_plane (sf_type surf) ->
    SpecPlaneFloat.one_side f (sf_origin surf) (sf_normal surf v3zero) (225 * SpecPlaneFloat.haze (sf_origin surf) hp rp) -> avoids L S surf hp rp f
| avoids_middle rho c : as_cone (sf_type surf) -> sf_cyl surf = Some (rho, c) ->
    SpecCylFloat.passes_by f rho c (113 * SpecCylFloat.blur rho c hp rp) -> avoids L S surf hp rp f
| avoids_cone rho c s x l : as_cone (sf_type surf) -> sf_cyl surf = Some (rho, c) -> SpecCylFloat.located f rho c hp rp s x ->
    length l = 101%nat -> SpecNewtonFloat.journey L S hp rp s l -> (forall t, In t l -> SpecNewtonFloat.misses L S hp rp t) ->
    avoids L S surf hp rp f
| avoids_other : ~ as_cylinder (sf_type surf) -> ~ as_plane (sf_type surf) -> ~ as_disk (sf_type surf) -> ~ as_cone (sf_type surf) ->
    avoids L S surf hp rp f.

(** What was found is not on the side the mode asks for, and no other point of the track is on
    the surface, up to rounding.  For a cone: the crossings with the cylinder in its middle
    are not on that side, or the point the search arrives at is not. *)
Inductive elsewhere (L : libm) (S : surface_d) (surf : surface) (hp : vec5) (rp : vec3) (f : R -> vec3) (mode : Z) : Prop :=
| elsewhere_cylinder rho c s0 x0 s1 x1 : as_cylinder (sf_type surf) \/ as_cone (sf_type surf) -> sf_cyl surf = Some (rho, c) ->
    SpecCylFloat.located f rho c hp rp s0 x0 -> SpecCylFloat.located f rho c hp rp s1 x1 -> SpecCylFloat.exhaust f rho c hp rp x0 x1 ->
    none_for mode (fun s => s = s0 \/ s = s1) -> elsewhere L S surf hp rp f mode
| elsewhere_single s x : as_plane (sf_type surf) ->
    SpecPlaneFloat.crossing f (sf_origin surf) (sf_normal surf v3zero) hp rp s x ->
    SpecPlaneFloat.only f (sf_origin surf) (sf_normal surf v3zero) hp rp x -> ~ sign_ok mode s -> elsewhere L S surf hp rp f mode
| elsewhere_plane s0 x0 s1 x1 : as_plane (sf_type surf) ->
    SpecPlaneFloat.crossing f (sf_origin surf) (sf_normal surf v3zero) hp rp s0 x0 ->
    SpecPlaneFloat.crossing f (sf_origin surf) (sf_normal surf v3zero) hp rp s1 x1 ->
    SpecPlaneFloat.both f (sf_origin surf) (sf_normal surf v3zero) hp rp x0 x1 ->
    none_for mode (fun s => s = s0 \/ s = s1) -> elsewhere L S surf hp rp f mode
| elsewhere_disk s x : as_disk (sf_type surf) -> reached f (vz (sf_origin surf)) hp rp s x -> ~ sign_ok mode s -> elsewhere L S surf hp rp f mode
| elsewhere_cone s x : as_cone (sf_type surf) -> meets L S surf hp rp f s x -> ~ sign_ok mode s -> elsewhere L S surf hp rp f mode.
