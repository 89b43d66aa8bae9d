(** Energy loss in double precision: what is expected. *)
From Coq Require Import Reals ZArith.
From Flocq Require Import Core.
From Verif Require Import Num Vec Isect FloatWrap SpecMaterial SpecRound.
Open Scope R_scope.

(** the contracts of log10 and pow of the mathematical library *)
Definition log10_accurate (m10 : R -> R) : Prop := forall x, is_double x -> 0 < x ->
  is_double (m10 x) /\ Rabs (m10 x - ln x / ln 10) <= 2 * uround * Rabs (ln x / ln 10) + least.
Definition pow_accurate (mpow : R -> R -> R) : Prop := forall x y, is_double x -> is_double y -> 0 < x ->
  Rpower x y <= bpow radix2 1000 ->
  is_double (mpow x y) /\ Rabs (mpow x y - Rpower x y) <= 2 * uround * Rpower x y + least.

(** between a thousand millionth and a thousand millions *)
Definition moderate (x : R) : Prop := bpow radix2 (-30) <= x <= bpow radix2 30.

(** a material with common numbers *)
Record ordinary_material (mat : material) : Prop := {
  om_Z : bpow radix2 (-10) <= mat_Z mat <= bpow radix2 10;
  om_double : is_double (mat_Z mat);
  om_A : moderate (mat_A mat);
  om_density : moderate (mat_density mat) }.

(** the decimal logarithm of momentum over mass *)
Definition decades (p m : R) : R := ln (p / m) / ln 10.
(** the logarithm in the formula of Bethe and Bloch *)
Definition transfer_log (mat : material) (p m : R) : R :=
  ln (2 * electron_mass * (velocity p m * velocity p m * (lorentz p m * lorentz p m))
      * max_transfer electron_mass m (velocity p m) (lorentz p m) / (excitation (mat_Z mat) * excitation (mat_Z mat))).
(** energy loss per mass thickness *)
Definition stopping_power (mat : material) (p m : R) : R :=
  bethe_bloch loss_constant electron_mass (mat_Z mat) (mat_A mat) (excitation (mat_Z mat)) m (velocity p m) (lorentz p m)
    (density_effect (decades p m) (sternheimer (mat_density mat) (mat_Z mat) (mat_A mat))).
(** the same with all terms of its last factor taken as positive *)
Definition stopping_scale (mat : material) (p m : R) : R :=
  loss_constant * mat_Z mat / mat_A mat * / (velocity p m * velocity p m)
  * (1 + Rabs (transfer_log mat p m) + Rabs (decades p m) + Rabs (sternheimer (mat_density mat) (mat_Z mat) (mat_A mat))).

(** the normal of the surface at a point given by its local coordinates *)
Definition normal_there (surf : surface) (uv : R * R) : vec3 := sf_normal surf (sf_localToGlobal surf uv).

(** A surface and a particle with common numbers; the track is inclined to the surface by
    more than a millionth.  Either layer may be missing. *)
Record ordinary_crossing (surf : surface) (uv : R * R) (p : vec3) (m : R) : Prop := {
  oc_in : sf_innerThickness surf = 0 \/ moderate (sf_innerThickness surf);
  oc_out : sf_outerThickness surf = 0 \/ moderate (sf_outerThickness surf);
  oc_min : ordinary_material (sf_innerMaterial surf);
  oc_mout : ordinary_material (sf_outerMaterial surf);
  oc_p : moderate (vr p);
  oc_m : moderate m;
  oc_nx : Rabs (vx (normal_there surf uv)) <= 1;
  oc_ny : Rabs (vy (normal_there surf uv)) <= 1;
  oc_nz : Rabs (vz (normal_there surf uv)) <= 1;
  oc_cos : bpow radix2 (-20) <= Rabs (cos_angle p (normal_there surf uv)) }.

(** the sum over both layers of a loss per mass thickness times the mass thickness *)
Definition both_layers (f : material -> R) (surf : surface) (uv : R * R) (p : vec3) : R :=
  (f (sf_innerMaterial surf) * mat_density (sf_innerMaterial surf) * sf_innerThickness surf
   + f (sf_outerMaterial surf) * mat_density (sf_outerMaterial surf) * sf_outerThickness surf)
  / Rabs (cos_angle p (normal_there surf uv)).
Definition energy_loss (surf : surface) (uv : R * R) (p : vec3) (m : R) : R :=
  both_layers (fun mat => stopping_power mat (vr p) m) surf uv p.
Definition loss_scale (surf : surface) (uv : R * R) (p : vec3) (m : R) : R :=
  both_layers (fun mat => stopping_scale mat (vr p) m) surf uv p.
