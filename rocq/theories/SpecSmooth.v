(** Notions used in the statements about the trajectory as a curve. *)
From Coq Require Import Reals List.
From Verif Require Import Num Vec Helix Isect Traj SpecTraj.
Open Scope R_scope.

(** a surface without material *)
Definition thin (surf : surface) : Prop := sf_innerThickness surf = 0 /\ sf_outerThickness surf = 0.

(** crossings within half a turn, and preparations that leave the order of the
    elements alone (elements at different path lengths, or a stable sort) *)
Definition orderly (E : env) (t : traj) (c : call) : Prop :=
  surfaces_ok t c /\ within_half_turn t c /\ (c = CPrep -> en_sortE E (tr_elems t) = tr_elems t).

(** the same, with surfaces without material and any sorting *)
Definition bare (t : traj) (c : call) : Prop :=
  surfaces_ok t c /\ within_half_turn t c
  /\ match c with CMeas _ _ surf _ _ | CScat surf => thin surf | _ => True end.
