(** Notions used in the statements about rounding. *)
From Coq Require Import Reals ZArith.
From Flocq Require Import Core.
From Verif Require Import Num Vec FloatWrap PointFloat.
Open Scope R_scope.

(** half a unit in the last place of a number near one: 2^-53 *)
Definition uround : R := / 9007199254740992.
(** the smallest positive double *)
Definition least : R := bpow radix2 (-1074).
(** an error no one will notice *)
Definition tiny : R := bpow radix2 (-600).

(** a double of the size of a physical quantity *)
Definition moderate (x : R) : Prop := is_double x /\ Rabs x <= bpow radix2 200.

(** The contract of the mathematical library: doubles that are off by less than a
    unit in the last place. *)
Definition off_by_one (f g : R -> R) : Prop := forall x, is_double x ->
  is_double (f x) /\ Rabs (f x - g x) <= 2 * uround * Rabs (g x) + least.
Definition accurate (L : libm) : Prop :=
  off_by_one (m_sin L) sin /\ off_by_one (m_cos L) cos /\ off_by_one (m_atan L) atan.

(** a track with moderate parameters that is curved *)
Record fit_for_double (s : R) (hp : vec5) (rp : vec3) : Prop := {
  fd_s : moderate s;
  fd_hp : forall i, moderate (hp i);
  fd_x : moderate (vx rp);
  fd_y : moderate (vy rp);
  fd_z : moderate (vz rp);
  fd_om : bpow radix2 (-200) <= Rabs (hp OMEGA)
}.
