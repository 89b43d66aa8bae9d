(** Multiple scattering in double precision: what is expected. *)
From Coq Require Import Reals ZArith.
From Flocq Require Import Core.
From Verif Require Import Num Vec Isect FloatWrap SpecMaterial SpecRound.
Open Scope R_scope.

(** the contract of the logarithm of the mathematical library *)
Definition log_accurate (mlog : R -> R) : Prop := forall x, is_double x -> 0 < x ->
  is_double (mlog x) /\ Rabs (mlog x - ln x) <= 2 * uround * Rabs (ln x) + least.

(** neither tiny nor huge *)
Definition common (x : R) : Prop := bpow radix2 (-100) <= x <= bpow radix2 100.

(** the normal of the surface at a point given by its local coordinates *)
Definition normal_at (surf : surface) (uv : R * R) : vec3 := sf_normal surf (sf_localToGlobal surf uv).

(** the matter crossed, in radiation lengths *)
Definition radiation_lengths (surf : surface) (uv : R * R) (p : vec3) : R :=
  (sf_innerThickness surf / mat_radiationLength (sf_innerMaterial surf)
   + sf_outerThickness surf / mat_radiationLength (sf_outerMaterial surf)) / Rabs (cos_angle p (normal_at surf uv)).

(** A layer and a particle with common numbers; the track is inclined to the surface by
    more than a millionth. *)
Record ordinary_layer (surf : surface) (uv : R * R) (p : vec3) (m : R) : Prop := {
  ol_in : sf_innerThickness surf = 0 \/ common (sf_innerThickness surf);
  ol_out : sf_outerThickness surf = 0 \/ common (sf_outerThickness surf);
  ol_some : 0 < sf_innerThickness surf + sf_outerThickness surf;
  ol_xin : common (mat_radiationLength (sf_innerMaterial surf));
  ol_xout : common (mat_radiationLength (sf_outerMaterial surf));
  ol_p : common (vr p);
  ol_m : m = 0 \/ common m;
  ol_nx : Rabs (vx (normal_at surf uv)) <= 1;
  ol_ny : Rabs (vy (normal_at surf uv)) <= 1;
  ol_nz : Rabs (vz (normal_at surf uv)) <= 1;
  ol_cos : bpow radix2 (-20) <= Rabs (cos_angle p (normal_at surf uv)) }.

(** Highland's width with both terms of its last factor taken as positive *)
Definition highland_scale (p m t : R) : R :=
  136 / 10000 / (p * velocity p m) * sqrt t * (1 + 38 / 1000 * Rabs (ln t)).
