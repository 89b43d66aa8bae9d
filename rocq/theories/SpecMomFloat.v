(** Notions for the momentum in double precision. *)
From Coq Require Import Reals.
From Flocq Require Import Core.
From Verif Require Import Num Vec FloatWrap PointFloat SpecConst SpecRound.
Open Scope R_scope.

(** a double of everyday size, not zero *)
Definition usual (x : R) : Prop := is_double x /\ bpow radix2 (-100) <= Rabs x <= bpow radix2 100.

(** The transverse momentum of a particle of charge one on a circle of curvature [om] in the
    field [bz]. *)
Definition transverse (bz om : R) : R := field_unit * bz / Rabs om.

(** Its momentum: the length of the vector with that transverse part and the slope [tl]. *)
Definition total (bz om tl : R) : R := Rabs (transverse bz om) * sqrt (1 + tl * tl).

(** the sign of the charge: that of curvature times field *)
Definition sgn (x : R) : R := if Rlt_dec x 0 then -1 else 1.
