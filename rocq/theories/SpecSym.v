(** The same track seen from another frame, or in a mirror. *)
From Coq Require Import Reals ZArith.
From Verif Require Import SpecConst Num Vec Helix Isect SpecIsect.
Open Scope R_scope.

(** A motion of space that keeps the field direction: an optional mirror at
    the x-z plane, then a turn about the z axis, then a shift. *)
Record motion := Mot { m_flip : bool; m_turn : R; m_shift : vec3 }.

(** handedness *)
Definition hand (g : motion) : R := if m_flip g then -1 else 1.

(** directions *)
Definition map_dir (g : motion) (v : vec3) : vec3 :=
  V3 (cos (m_turn g) * vx v - sin (m_turn g) * (hand g * vy v))
     (sin (m_turn g) * vx v + cos (m_turn g) * (hand g * vy v))
     (vz v).

(** points *)
Definition map_point (g : motion) (p : vec3) : vec3 := vadd (map_dir g p) (m_shift g).

(** helix parameters: a mirror inverts curvature, azimuth and transverse
    offset *)
Definition map_par (g : motion) (hp : vec5) : vec5 :=
  mk5 (hand g * hp OMEGA) (hp TANL) (hand g * hp PHI0 + m_turn g) (hand g * hp D0) (hp Z0).

(** sign of each parameter under a mirror, and what it does to a covariance *)
Definition par_hand (g : motion) (i : idx) : R :=
  match i with I0 => hand g | I1 => 1 | I2 => hand g | I3 => hand g | I4 => 1 end.
Definition map_cov (g : motion) (c : mat5) : mat5 :=
  fun i j => par_hand g i * c i j * par_hand g j.

(** track parameters with covariance and reference point *)
Definition map_tp (g : motion) (tp : trackParameters) : trackParameters :=
  TP (map_cov g (tp_cov tp)) (map_par g (tp_par tp)) (map_point g (tp_ref tp)).

(** applied to an outcome *)
Definition rmap {A B : Type} (f : A -> B) (x : res A) : res B :=
  match x with
  | Ok a => Ok (f a)
  | Throw => Throw
  | UB => UB
  | NonFin => NonFin
  | Diverge => Diverge
  end.

Definition map_out (g : motion) (o : outp) : outp :=
  match o with OVal s x => OVal s (map_point g x) | OBad => OBad end.

(** the answer of an intersection function, seen from the other frame: same
    verdict, same path length, moved point *)
Definition map_answer (g : motion) (r : bool * outp) : bool * outp :=
  (fst r, map_out g (snd r)).

(** [S'] is the surface [S] carried along *)
Record moved_surface (g : motion) (S S' : surface) : Prop := {
  mv_type : sf_type S' = sf_type S;
  mv_cyl : sf_cyl S' = match sf_cyl S with
                       | Some (r, c) => Some (r, map_point g c)
                       | None => None
                       end;
  mv_bounds : forall p, sf_insideBounds S' (map_point g p) = sf_insideBounds S p;
  mv_normal : forall p, sf_normal S' (map_point g p) = map_dir g (sf_normal S p);
  mv_normal0 : z_plane (sf_type S) ->
               sf_normal S' v3zero = map_dir g (sf_normal S v3zero);
  mv_origin : sf_origin S' = map_point g (sf_origin S);
  mv_distance : forall p, sf_distance S' (map_point g p) = sf_distance S p
}.

(** the azimuth is kept within one turn on either side of zero *)
Definition phi_kept (g : motion) (hp : vec5) : Prop :=
  Rabs (hp PHI0) <= 2 * PI /\ Rabs (hand g * hp PHI0 + m_turn g) <= 2 * PI.

(** (x,y) is not the axis of the helix *)
Definition off_axis (hp : vec5) (rp : vec3) (x y : R) : Prop :=
  hp OMEGA <> 0 ->
  x <> vx rp + (1 / hp OMEGA - hp D0) * sin (hp PHI0)
  \/ y <> vy rp - (1 / hp OMEGA - hp D0) * cos (hp PHI0).

(** equal up to whole turns of the azimuth *)
Definition same_par (p q : vec5) : Prop :=
  p OMEGA = q OMEGA /\ p TANL = q TANL /\ p D0 = q D0 /\ p Z0 = q Z0
  /\ exists k : Z, p PHI0 = q PHI0 + 2 * IZR k * PI.

(** the frame does not move the coordinate origin to the other side of the
    plane *)
Definition plane_side (g : motion) (S : surface) : Prop :=
  let n := sf_normal S v3zero in
  let t := vdot (m_shift g) (map_dir g n) in
  t = 0 \/ (0 <= vdot (sf_origin S) n /\ 0 <= vdot (sf_origin S) n + t).
