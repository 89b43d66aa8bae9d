(** Notions for the search for a general surface in double precision. *)
From Coq Require Import Reals ZArith List.
From Flocq Require Import Core.
From Verif Require Import SpecConst Num Vec Isect SpecIsect FloatWrap PointFloat PlaneFloat NewtonFloat SpecRound SpecNewton.
Import ListNotations.
Open Scope R_scope.

Section Search.
Variables (L : libm) (S : surface_d) (hp : vec5) (rp : vec3).

(** the computed point of the track at [s] and its computed distance are finite *)
Definition measured (s : R) (x : vec3) (d : R) : Prop := pointAt_d L s hp rp = Ok x /\ sd_distance S x = Some d.

(** [d] is the distance at a visited path length *)
Definition at_distance (t : option R) (d : R) : Prop := exists s x, t = Some s /\ measured s x d.

(** 10^-3 mm as computed *)
Definition tol_d : R := rnd (rnd (/ 1000) * rnd (/ 10)).

(** not close to the surface, or not finite *)
Definition misses (t : option R) : Prop := forall d, at_distance t d -> tol_d <= Rabs d.

(** Among the visited [l], [s] is the one with the least distance [d]; the start [s0]
    with 10^10 if there is none below 10^10. *)
Definition is_best (s0 : R) (l : list (option R)) (s d : R) : Prop :=
  (forall t e, In t l -> at_distance t e -> Rabs d <= Rabs e)
  /\ ((In (Some s) l /\ at_distance (Some s) d /\ Rabs d < 10000000000)
      \/ (s = s0 /\ d = 10000000000)).

(** [g] times the distance came out less than all before and 10^10 *)
Inductive records : list (option R) -> nat -> Prop :=
| rec_nil : records [] 0
| rec_more l t g d : records l g -> at_distance t d -> Rabs d < 10000000000 ->
    (forall u e, In u l -> at_distance u e -> Rabs d < Rabs e) -> records (l ++ [t]) (1 + g)
| rec_same l t g : records l g -> (forall d, at_distance t d ->
    10000000000 <= Rabs d \/ exists u e, In u l /\ at_distance u e /\ Rabs e <= Rabs d) -> records (l ++ [t]) g.

(** the damping after [l]: 10^-10, divided by ten for each record and multiplied by ten
    for each other visit, up to rounding *)
Definition damping_d (l : list (option R)) (alpha : R) : Prop :=
  exists g, records l g /\ (g <= length l)%nat
  /\ Rabs (alpha - / 10 ^ 10 * 10 ^ (length l - g) / 10 ^ g) <= 1000 * uround * (/ 10 ^ 10 * 10 ^ (length l - g) / 10 ^ g).

(** the damped step from [s], where the distance is [d] *)
Definition step_d (s d alpha s' : R) : Prop :=
  exists x n T g a den q, pointAt_d L s hp rp = Ok x /\ sd_normal S x = Some n
  /\ calculateTangent_d L s hp = Ok T /\ vdot_d n T = Ok g
  /\ rd (1 + alpha) = Ok a /\ rd (a * g) = Ok den /\ rd_div d den = Ok q /\ rd (s - q) = Ok s'.

(** Each path length visited after the first is the damped step from the best before;
    not finite if that is not finite. *)
Definition journey (s0 : R) (l : list (option R)) : Prop :=
  (exists l', l = Some s0 :: l')
  /\ forall l1 t l2, l = l1 ++ t :: l2 -> l1 <> [] ->
     exists s d alpha, is_best s0 l1 s d /\ damping_d l1 alpha /\ forall s', t = Some s' <-> step_d s d alpha s'.

End Search.

(** On the set [I] of path lengths, of size at most [B], the surface computes what it
    should along the track [f]: the distance up to [e] and its change along the unit
    tangent up to [h] times the least one, [g] divided by [stretch]; the normal is no
    longer than one. *)
Record faithful (L : libm) (S : surface_d) (surf : surface) (hp : vec5) (rp : vec3) (f : R -> vec3) (I : R -> Prop)
  (B e h g : R) : Prop := {
  fa_size : forall s, I s -> Rabs s <= B;
  fa_unit : forall s, I s -> Rabs (rate surf hp f s) <= stretch hp;
  fa_here : forall s, is_double s -> I s -> exists x d n T c, measured L S hp rp s x d
    /\ Rabs (d - sf_distance surf (f s)) <= e
    /\ sd_normal S x = Some n /\ calculateTangent_d L s hp = Ok T /\ vdot_d n T = Ok c
    /\ Rabs (c - rate surf hp f s / stretch hp) <= h * (g / stretch hp)
}.

(** rounding error of a point of the track in the plane and in height *)
Definition wide (s : R) (hp : vec5) (c : R) : R :=
  16 * uround * (Rabs c + Rabs (hp D0) + (1 + Rabs (hp PHI0) + Rabs (hp OMEGA * s)) / Rabs (hp OMEGA)) + tiny.
Definition tall (s : R) (hp : vec5) (c : R) : R := 4 * uround * (Rabs c + Rabs (hp Z0) + Rabs (s * hp TANL)) + tiny.
