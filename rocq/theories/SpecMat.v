(** Matrix notions used in statements. *)
From Coq Require Import Reals.
From Verif Require Import Vec.
Open Scope R_scope.

Definition msym (m : mat5) : Prop := forall i j, m i j = m j i.

(** quadratic form v^T M v *)
Definition quad (m : mat5) (v : vec5) : R := sum5 (fun i => sum5 (fun j => v i * m i j * v j)).

Definition mpsd (m : mat5) : Prop := forall v, 0 <= quad m v.

Definition mident : mat5 := fun i j => if idx_eq_dec i j then 1 else 0.

(** parameters displaced along a direction *)
Definition displaced (hp w : vec5) (t : R) : vec5 := fun i => hp i + t * w i.
