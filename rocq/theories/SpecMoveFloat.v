(** Notions used in the statements about rounding in moveHelixTo. *)
From Coq Require Import Reals ZArith.
From Flocq Require Import Core.
From Verif Require Import Num Vec FloatWrap PointFloat SpecRound SpecPath.
Open Scope R_scope.

(** a curved track and the point it is moved to *)
Record ordinary_move (hp : vec5) (rp new : vec3) : Prop := {
  om_track : ordinary_track hp rp;
  om_curved : hp OMEGA <> 0;
  om_z0 : ordinary (hp Z0);
  om_tanl : ordinary (hp TANL);
  om_z : ordinary (vz rp);
  om_nx : ordinary (vx new);
  om_ny : ordinary (vy new);
  om_nz : ordinary (vz new)
}.

(** what the C standard says of atan2(0,0): zero or pi, up to the sign *)
Definition origin_ok (at2 : R -> R -> R) : Prop := is_double (at2 0 0) /\ Rabs (at2 0 0) <= PI.

(** the size of the numbers that are added, in the transverse plane and along z *)
Definition move_extent (hp : vec5) (rp new : vec3) : R :=
  Rabs (/ hp OMEGA) + Rabs (hp D0) + Rabs (vx rp) + Rabs (vy rp) + Rabs (vx new) + Rabs (vy new).
Definition move_height (hp : vec5) (rp new : vec3) : R :=
  Rabs (vz rp) + Rabs (vz new) + Rabs (hp Z0) + 4 * Rabs (hp TANL / hp OMEGA).

(** the relative error of |cos phi| if it is computed from sin phi: an error of one
    half unit, magnified; half of the digits are lost if cos phi is close to zero *)
Definition lost (phi : R) : R := uround / Rmax (bpow radix2 (-26)) (Rabs (cos phi)).
