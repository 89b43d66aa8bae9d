(** What a measurement on a flat surface sees of a displaced track. *)
From Coq Require Import Reals.
From Verif Require Import Num Vec Helix Isect.
Open Scope R_scope.

(** Displacements are taken from the crossing point of the track with the plane
    spanned by [m] and [n].  The track of direction [t], displaced by [x] along
    [u] and [y] along [v], meets the plane at [a m + b n]. *)
Definition meets (u v t m n : vec3) (x y a b : R) : Prop :=
  exists s, vadd (vadd (vscale x u) (vscale y v)) (vscale s t) = vadd (vscale a m) (vscale b n).

(** a flat surface through [o] with orthonormal directions [m] and [n] *)
Definition flat (surf : surface) (o m n : vec3) : Prop :=
  vdot m m = 1 /\ vdot n n = 1 /\ vdot m n = 0
  /\ (forall p, sf_u surf p = m /\ sf_v surf p = n
        /\ sf_globalToLocal surf p = (vdot (vsub p o) m, vdot (vsub p o) n)).
