(** Notions for the crossing of two lines in double precision. *)
From Coq Require Import Reals.
From Flocq Require Import Core.
From Verif Require Import Num Vec Isect FloatWrap SpecRound.
Open Scope R_scope.

(** a line given by a normal with components of at most one, not further than 2^200 away *)
Definition plain_line (l : straightLine) : Prop :=
  Rabs (l_n0 l) <= 1 /\ Rabs (l_n1 l) <= 1 /\ Rabs (l_d l) <= bpow radix2 200.

(** a point of the line *)
Definition on_the_line (l : straightLine) (X Y : R) : Prop := l_n0 l * X + l_n1 l * Y = l_d l.

(** the sine of the angle from the first normal to the second, for normals of unit length *)
Definition turn (l1 l2 : straightLine) : R := l_n0 l1 * l_n1 l2 - l_n0 l2 * l_n1 l1.

(** how far the lines are from the origin (never quite zero) *)
Definition reach (l1 l2 : straightLine) : R := Rabs (l_d l1) + Rabs (l_d l2) + bpow radix2 (-900).
