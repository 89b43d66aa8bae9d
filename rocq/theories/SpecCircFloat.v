(** Notions for the crossing of two circles in double precision. *)
From Coq Require Import Reals.
From Flocq Require Import Core.
From Verif Require Import Num Vec Isect FloatWrap SpecRound.
Open Scope R_scope.

(** a circle with numbers of at most 2^100 *)
Definition plain_circle (c : circle) : Prop :=
  Rabs (c_x c) <= bpow radix2 100 /\ Rabs (c_y c) <= bpow radix2 100 /\ Rabs (c_r c) <= bpow radix2 100.

(** the offset of the line of equal power: what the second circle's power of the origin exceeds
    the first one's by *)
Definition power_difference (c1 c2 : circle) : R :=
  (c_r c1 ^ 2 - c_x c1 ^ 2 - c_y c1 ^ 2) - (c_r c2 ^ 2 - c_x c2 ^ 2 - c_y c2 ^ 2).

(** the scale of rounding errors (never quite zero) *)
Definition scale (c1 c2 : circle) : R :=
  c_r c1 ^ 2 + c_x c1 ^ 2 + c_y c1 ^ 2 + c_r c2 ^ 2 + c_x c2 ^ 2 + c_y c2 ^ 2 + bpow radix2 (-900).
