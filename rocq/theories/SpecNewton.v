(** Notions for the convergence of the Newton search. *)
From Coq Require Import Reals ZArith.
From Verif Require Import SpecConst Num Vec Isect SpecIsect.
Open Scope R_scope.

(** derivative of the track with respect to the transverse path length *)
Definition velocity (hp : vec5) (s : R) : vec3 :=
  V3 (cos (hp PHI0 - hp OMEGA * s)) (sin (hp PHI0 - hp OMEGA * s)) (hp TANL).

(** length in space per transverse length, 1/cos(lambda) *)
Definition stretch (hp : vec5) : R := sqrt (1 + hp TANL * hp TANL).

(** change of the distance along the track, if the normal is its gradient *)
Definition rate (surf : surface) (hp : vec5) (f : R -> vec3) (s : R) : R :=
  vdot (sf_normal surf (f s)) (velocity hp s).

(** On a set [I] of path lengths that a step of the search from within the distance
    [d0] does not leave, the track [f] approaches the surface at least with the
    rate [g], and the distance is linear up to [M] times the square of the path. *)
Record tame (surf : surface) (hp : vec5) (f : R -> vec3) (I : R -> Prop) (d0 g M : R) : Prop := {
  tame_g : 0 < g;
  tame_M : 0 <= M;
  tame_step : forall s s', I s -> Rabs (sf_distance surf (f s)) <= d0 ->
    Rabs (s' - s) <= stretch hp * d0 / g -> I s';
  tame_rate : forall s, I s -> g <= Rabs (rate surf hp f s);
  tame_linear : forall s s', I s -> I s' ->
    Rabs (sf_distance surf (f s') - sf_distance surf (f s) - rate surf hp f s * (s' - s)) <= M * ((s' - s) * (s' - s))
}.

(** relative size of what is not linear, at the start *)
Definition bend (hp : vec5) (d0 g M : R) : R := M * d0 * (stretch hp * stretch hp) / (g * g).

(** damping after [j] steps that were not better, starting from the first step *)
Definition damping (j : nat) : R := / 100000000000 * 10 ^ j.

(** number of improving steps among the 100 steps if the damping has to reach
    [damping j] before a step is better, and falls back after each better step *)
Definition useful (j : nat) : nat := (1 + Nat.div (99 - j) 2)%nat.

(** the search from [s0] ends at a point of the track close to the surface *)
Definition finds (surf : surface) (hp : vec5) (rp : vec3) (f : R -> vec3) (I : R -> Prop) (g M s0 : R)
  (mode : Z) (cb : bool) : Prop :=
  exists s b, intersectWithSurfaceNewton surf hp rp s0 mode cb = Ok (b, OVal s (f s)) /\ I s
    /\ Rabs (sf_distance surf (f s)) < newton_tol
    /\ (b = true <-> sign_ok mode s /\ (cb = true -> sf_insideBounds surf (f s) = true))
    /\ forall s', I s' -> sf_distance surf (f s') = 0 -> 2 * M * Rabs (s' - s) <= g ->
         Rabs (s' - s) < 2 * newton_tol / g.

(** the search from [s0] gives up at least [d] away from the surface *)
Definition gives_up (surf : surface) (hp : vec5) (rp : vec3) (f : R -> vec3) (I : R -> Prop) (d s0 : R)
  (mode : Z) (cb : bool) : Prop :=
  exists s, intersectWithSurfaceNewton surf hp rp s0 mode cb = Ok (false, OVal s (f s)) /\ I s
    /\ newton_tol <= d <= Rabs (sf_distance surf (f s)).
