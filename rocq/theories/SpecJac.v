(** What the derivative from curvilinear corrections to track parameters is,
    stated on families of tracks. *)
From Coq Require Import Reals.
From Coquelicot Require Import Coquelicot.
From Verif Require Import SpecConst Vec SpecHelix SpecPropag.
Open Scope R_scope.

(** [P e] are the parameters, with respect to the fixed reference point [rp], of
    the track [hp] after the curvilinear correction [e * w]: q/p, dip angle and
    azimuth at the displaced point change by [e w0], [e w1], [e w2], and the point
    itself is displaced by [e w3] and [e w4] along the axes of the frame orthogonal
    to the track.  The displaced track passes this point at path length [sg e]. *)
Record curvilinear_family (hp : vec5) (rp : vec3) (bz : R) (w : vec5)
  (P : R -> vec5) (sg : R -> R) : Prop := {
  cf_start : forall i, P 0 i = hp i;
  cf_s0 : sg 0 = 0;
  cf_diff : forall i, ex_derive (fun e => P e i) 0;
  cf_sdiff : ex_derive sg 0;
  cf_qop : locally 0 (fun e => cos (atan (P e TANL)) * P e OMEGA / (bz * field_unit)
      = cos (atan (hp TANL)) * hp OMEGA / (bz * field_unit) + e * w I0);
  cf_lam : locally 0 (fun e => atan (P e TANL) = atan (hp TANL) + e * w I1);
  cf_phi : locally 0 (fun e => P e PHI0 - P e OMEGA * sg e = hp PHI0 + e * w I2);
  cf_pos : locally 0 (fun e => forall f0 f, is_helix hp rp f0 -> is_helix (P e) rp f ->
      vsub (f (sg e)) (f0 0) = vscale e (vadd (vscale (w I3) (axis_u (atan (hp TANL)) (hp PHI0)))
                                             (vscale (w I4) (axis_v (atan (hp TANL)) (hp PHI0)))))
}.

(** The derivative of the parameters for a track in a field along z. *)
Definition l3_derivative (hp : vec5) (bz : R) : mat5 :=
  let l := atan (hp TANL) in
  let om := hp OMEGA in
  let k := / (1 - om * hp D0) in
  fun i j =>
    match i, j with
    | I0, I0 => bz * field_unit / cos l
    | I0, I1 => om * tan l
    | I1, I1 => 1 + tan l * tan l
    | I2, I2 => k
    | I2, I4 => - k * om * sin l
    | I3, I3 => 1
    | I4, I2 => - tan l * hp D0 * k
    | I4, I4 => / cos l + tan l * hp D0 * k * om * sin l
    | _, _ => 0
    end.
