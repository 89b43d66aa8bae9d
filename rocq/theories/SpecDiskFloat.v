(** Notions used in the statements about rounding at disks. *)
From Coq Require Import Reals ZArith.
From Flocq Require Import Core.
From Verif Require Import Num Vec FloatWrap PointFloat SpecRound SpecPath.
Open Scope R_scope.

(** a track that is not level, and the height of a disk *)
Record climbing (h : R) (hp : vec5) (rp : vec3) : Prop := {
  cl_h : ordinary h;
  cl_z : ordinary (vz rp);
  cl_z0 : ordinary (hp Z0);
  cl_hp : forall i, moderate (hp i);
  cl_x : moderate (vx rp);
  cl_y : moderate (vy rp);
  cl_tanl : bpow radix2 (-90) <= Rabs (hp TANL)
}.

(** the path over which the track climbs by the rounding error of the height of its
    reference point *)
Definition doubt (hp : vec5) (rp : vec3) : R := uround * Rabs (vz rp + hp Z0) / Rabs (hp TANL).
