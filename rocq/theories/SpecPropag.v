(** Transport of a charged particle in a constant magnetic field. *)
From Coq Require Import Reals.
From Coquelicot Require Import Coquelicot.
From Verif Require Import SpecConst Vec Helix.
Open Scope R_scope.

(** direction with dip angle [l] and azimuth [f], and the axes orthogonal to it *)
Definition dirvec (l f : R) : vec3 := V3 (cos l * cos f) (cos l * sin f) (sin l).
Definition axis_u (l f : R) : vec3 := V3 (- sin f) (cos f) 0.
Definition axis_v (l f : R) : vec3 := V3 (- sin l * cos f) (- sin l * sin f) (cos l).

(** derivative of a curve in space *)
Definition vderive (f : R -> vec3) (x : R) (d : vec3) : Prop :=
  is_derive (fun t => vx (f t)) x (vx d)
  /\ is_derive (fun t => vy (f t)) x (vy d)
  /\ is_derive (fun t => vz (f t)) x (vz d).

(** The Lorentz force: a particle with charge over momentum [qop] (e/GeV) in
    the field [b] (Tesla) starts at [x0] in direction [t0]; [s] is the path length
    in space (cm). *)
Record motion (b : vec3) (qop : R) (x0 t0 : vec3) (X T : R -> vec3) : Prop := {
  mo_x0 : X 0 = x0;
  mo_t0 : T 0 = t0;
  mo_dx : forall s, vderive X s (T s);
  mo_dt : forall s, vderive T s (vscale (field_unit * qop) (vcross (T s) b))
}.

(** [X e], [T e] is the motion started with the curvilinear correction [e * w];
    it crosses the plane orthogonal to the end direction of the undisturbed motion
    at path length [sg e] with dip angle [la e] and azimuth [ph e]. *)
Record transport_family (b : vec3) (qop dw : R) (x0 : vec3) (l f : R) (w : vec5)
  (X T : R -> R -> vec3) (sg la ph : R -> R) : Prop := {
  tf_motion : forall e, motion b (qop + e * w I0)
     (vadd x0 (vscale e (vadd (vscale (w I3) (axis_u l f)) (vscale (w I4) (axis_v l f)))))
     (dirvec (l + e * w I1) (f + e * w I2)) (X e) (T e);
  tf_sg0 : sg 0 = dw;
  tf_plane : locally 0 (fun e => vdot (vsub (X e (sg e)) (X 0 dw)) (T 0 dw) = 0);
  tf_dir : locally 0 (fun e => T e (sg e) = dirvec (la e) (ph e));
  tf_cos : 0 < cos (la 0);
  tf_dsg : ex_derive sg 0;
  tf_dla : ex_derive la 0;
  tf_dph : ex_derive ph 0
}.

(** curvilinear coordinates at the end plane *)
Definition end_coords (qop dw : R) (w : vec5) (X : R -> R -> vec3) (sg la ph : R -> R) (e : R)
  : vec5 :=
  mk5 (qop + e * w I0) (la e) (ph e)
      (vdot (vsub (X e (sg e)) (X 0 dw)) (axis_u (la 0) (ph 0)))
      (vdot (vsub (X e (sg e)) (X 0 dw)) (axis_v (la 0) (ph 0))).
