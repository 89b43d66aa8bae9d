(** The same track followed in the opposite sense. *)
From Coq Require Import Reals ZArith.
From Verif Require Import SpecConst Num Vec Helix Isect SpecIsect.
Open Scope R_scope.

(** [q] is [p] followed backwards: the curvature, the slope and the signed
    offset change sign and the azimuth is opposite (up to whole turns); the
    height of the point of closest approach stays. *)
Definition reversed (p q : vec5) : Prop :=
  q OMEGA = - p OMEGA /\ q TANL = - p TANL /\ q D0 = - p D0 /\ q Z0 = p Z0
  /\ exists k : Z, q PHI0 = p PHI0 + PI + 2 * IZR k * PI.

(** what that does to a covariance *)
Definition rev_sign (i : idx) : R :=
  match i with I0 => -1 | I1 => -1 | I2 => 1 | I3 => -1 | I4 => 1 end.
Definition rev_cov (c : mat5) : mat5 := fun i j => rev_sign i * c i j * rev_sign j.

Definition opposite (v : vec3) : vec3 := V3 (- vx v) (- vy v) (- vz v).

(** answers of the intersection functions: same verdict, same point, path
    length counted the other way *)
Definition rev_out (o : outp) : outp :=
  match o with OVal s x => OVal (- s) x | OBad => OBad end.
Definition rev_answer (r : bool * outp) : bool * outp := (fst r, rev_out (snd r)).

(** applied to an outcome *)
Definition res_map {A B : Type} (f : A -> B) (x : res A) : res B :=
  match x with
  | Ok a => Ok (f a)
  | Throw => Throw
  | UB => UB
  | NonFin => NonFin
  | Diverge => Diverge
  end.

(** azimuth within one turn on either side of zero *)
Definition azimuth_ok (hp : vec5) : Prop := Rabs (hp PHI0) <= 2 * PI.

(** where path lengths are counted from *)
Definition track_start (hp : vec5) (rp : vec3) : vec3 :=
  V3 (vx rp - hp D0 * sin (hp PHI0)) (vy rp + hp D0 * cos (hp PHI0)) (vz rp + hp Z0).

Definition starts_on_cylinder (S : surface) (hp : vec5) (rp : vec3) : Prop :=
  exists rho c, sf_cyl S = Some (rho, c) /\ on_cylinder rho c (track_start hp rp).

(** the line taken for a plane by the code, see [pline] *)
Definition starts_on_plane (S : surface) (hp : vec5) (rp : vec3) : Prop :=
  on_line (pline S) (vx (track_start hp rp), vy (track_start hp rp)).

(** [find mode] reports a crossing ahead and one behind that are equally far,
    up to [tol] *)
Definition equally_far (tol : R) (find : Z -> res (bool * outp)) : Prop :=
  exists a xa b xb, find 1%Z = Ok (true, OVal a xa) /\ find (-1)%Z = Ok (true, OVal b xb)
    /\ Rabs (a + b) <= tol.

(** nothing that prefers one direction: the search does not start on the
    surface, and the nearest crossing is not a matter of taste *)
Definition no_preference_cyl (S : surface) (hp : vec5) (rp : vec3) (o : outp) (mode : Z) : Prop :=
  (mode <> 0%Z -> ~ starts_on_cylinder S hp rp)
  /\ (mode = 0%Z -> ~ equally_far tol4 (fun m => intersectWithZCylinder S hp rp o m false)).
Definition no_preference_plane (S : surface) (hp : vec5) (rp : vec3) (o : outp) (mode : Z) : Prop :=
  (mode <> 0%Z -> ~ starts_on_plane S hp rp)
  /\ (mode = 0%Z -> ~ equally_far 0 (fun m => intersectWithZPlane S hp rp o m false)).
Definition no_preference (S : surface) (hp : vec5) (rp : vec3) (o : outp) (mode : Z) : Prop :=
  let t := sf_type S in
  (z_cylinder t -> no_preference_cyl S hp rp o mode)
  /\ (~ z_cylinder t -> z_plane t -> no_preference_plane S hp rp o mode)
  /\ (~ z_cylinder t -> ~ z_plane t -> ~ z_disk t -> st_cone t = true ->
      no_preference_cyl S hp rp o mode).
