(** Properties C01-C06. *)
From Coq Require Import Reals Lra ZArith.
From Coquelicot Require Import Coquelicot.
From Verif Require Import Num NumFacts Vec Helix SpecHelix HelixFacts PathFacts.
Open Scope R_scope.

(** C01.  With curvature, [pointAt] is the one curve with the given start and
    velocity; without curvature it is never finite although the curve exists. *)
Theorem C01_pointAt_is_the_helix : forall (hp : vec5) (rp : vec3),
  (hp OMEGA <> 0 ->
     exists f, is_helix hp rp f
       /\ (forall g, is_helix hp rp g -> forall s, g s = f s)
       /\ forall s, pointAt s hp rp = Ok (f s))
  /\ (hp OMEGA = 0 ->
     (exists f, is_helix hp rp f) /\ forall s, pointAt s hp rp = NonFin).
Proof. exact pointAt_is_helix. Qed.
Print Assumptions C01_pointAt_is_the_helix.

(** The claim "pointAt yields a finite point for every track" is false. *)
Theorem C01_straight_track_refuted : exists (hp : vec5) (rp : vec3) f,
  is_helix hp rp f /\ pointAt 1 hp rp = NonFin.
Proof.
  exists (mk5 0 1 0 0 0), v3zero, (hline (mk5 0 1 0 0 0) v3zero).
  split; [apply hline_helix; reflexivity | apply pointAt_zero; reflexivity].
Qed.
Print Assumptions C01_straight_track_refuted.

(** C02 *)
Theorem C02_coordinates_from_path_length : forall hp rp f, is_helix hp rp f -> forall s,
  calculateXfromS s hp rp = vx (f s)
  /\ calculateZfromS s hp rp = vz (f s)
  /\ (hp OMEGA <> 0 -> calculateYfromS s hp rp = vy (f s))
  /\ (hp OMEGA <> 0 ->
      pointAt s hp rp
      = Ok (V3 (calculateXfromS s hp rp) (calculateYfromS s hp rp) (calculateZfromS s hp rp)))
  /\ (hp OMEGA = 0 ->
      calculateYfromS s hp rp = vy (f s) + s * (cos (hp PHI0) - sin (hp PHI0))
      /\ (calculateYfromS s hp rp = vy (f s) <-> s = 0 \/ cos (hp PHI0) = sin (hp PHI0))).
Proof.
  intros hp rp f Hf s. destruct (XYZfromS_helix hp rp f Hf s) as (A & B & C & D & E).
  split; [exact A|]. split; [exact B|]. split; [exact C|]. split; [exact D|]. intros O. split; [|exact (E O)].
  destruct (XYZ_line s hp rp O) as (_ & _ & Y). rewrite Y, (helix_is_hline hp rp f O Hf). unfold hline. cbn [vy]. ring.
Qed.
Print Assumptions C02_coordinates_from_path_length.

(** A straight track along x for which the y coordinate is wrong. *)
Theorem C02_straight_y_refuted : exists hp rp f,
  is_helix hp rp f /\ calculateYfromS 1 hp rp <> vy (f 1).
Proof.
  exists (mk5 0 0 0 0 0), v3zero, (hline (mk5 0 0 0 0 0) v3zero).
  assert (Hf : is_helix (mk5 0 0 0 0 0) v3zero (hline (mk5 0 0 0 0 0) v3zero))
    by (apply hline_helix; reflexivity).
  split; [exact Hf|]. intros E.
  destruct (XYZfromS_helix _ _ _ Hf 1) as (_ & _ & _ & _ & A).
  apply (A eq_refl) in E. simpl in E. rewrite cos_0, sin_0 in E. lra.
Qed.
Print Assumptions C02_straight_y_refuted.

(** C03: a curved track stays on its circle; the functions return zeros for a
    straight track.  The start of the track is the point (x0, y0) at the distance
    |d0| from the reference point; it is the closest one exactly if omega d0 <= 1. *)
Theorem C03_circle_and_pca : forall hp rp f, is_helix hp rp f ->
  (hp OMEGA <> 0 -> forall s,
     dist_xy (f s) (V3 (calculateXCenter hp rp) (calculateYCenter hp rp) 0) = calculateRadius hp
     /\ calculateRadius hp = 1 / Rabs (hp OMEGA))
  /\ (hp OMEGA = 0 -> calculateRadius hp = 0 /\ calculateXCenter hp rp = 0 /\ calculateYCenter hp rp = 0)
  /\ (vx (f 0) = calculateX0 hp rp /\ vy (f 0) = calculateY0 hp rp
      /\ dist_xy (f 0) rp = Rabs (hp D0))
  /\ ((forall s, dist_xy (f 0) rp <= dist_xy (f s) rp) <-> hp OMEGA * hp D0 <= 1).
Proof.
  intros hp rp f Hf. destruct (Req_dec (hp OMEGA) 0) as [Z|H].
  - split; [contradiction|]. split.
    { intros _. unfold calculateRadius, calculateXCenter, calculateYCenter, calculateCurvature, calculateOmega.
      destruct (Req_EM_T (hp OMEGA) 0); [auto|contradiction]. }
    assert (E := helix_is_hline hp rp f Z Hf).
    assert (Sq : forall s, (vx (f s) - vx rp) * (vx (f s) - vx rp) + (vy (f s) - vy rp) * (vy (f s) - vy rp)
      = hp D0 * hp D0 + s * s).
    { intros s. rewrite E. unfold hline. cbn [vx vy].
      transitivity ((hp D0 * hp D0 + s * s) * (sin (hp PHI0) * sin (hp PHI0) + cos (hp PHI0) * cos (hp PHI0))); [ring|].
      rewrite sc1. ring. }
    split; [split; [|split]|].
    + rewrite E. unfold hline, calculateX0, calculatePhi0, calculateD0. cbn [vx]. rewrite sin_neg. ring.
    + rewrite E. unfold hline, calculateY0, calculatePhi0, calculateD0. cbn [vy]. ring.
    + unfold dist_xy. rewrite Sq. replace (hp D0 * hp D0 + 0 * 0) with (Rsqr (hp D0)) by (unfold Rsqr; ring).
      apply sqrt_Rsqr_abs.
    + rewrite Z, Rmult_0_l. split; [lra|]. intros _ s. unfold dist_xy. rewrite !Sq. apply sqrt_le_1_alt.
      assert (0 <= s * s) by apply Rle_0_sqr. lra.
  - destruct (pca_closest_iff hp rp f H Hf) as (A & B & C). split; [|split; [contradiction|auto]].
    intros _ s. split; auto. unfold calculateRadius, calculateCurvature.
    destruct (Req_EM_T (hp OMEGA) 0); [contradiction|]. unfold Rdiv. rewrite !Rmult_1_l. apply Rabs_inv.
Qed.
Print Assumptions C03_circle_and_pca.

(** C04 *)
Theorem C04_tangent_is_unit_derivative : forall hp rp f, is_helix hp rp f -> forall s,
  vr (calculateTangent s hp) = 1
  /\ is_derive (fun l => vx (f (s + l * cos (atan (hp TANL))))) 0 (vx (calculateTangent s hp))
  /\ is_derive (fun l => vy (f (s + l * cos (atan (hp TANL))))) 0 (vy (calculateTangent s hp))
  /\ is_derive (fun l => vz (f (s + l * cos (atan (hp TANL))))) 0 (vz (calculateTangent s hp)).
Proof. exact tangent_unit_derivative. Qed.
Print Assumptions C04_tangent_is_unit_derivative.

(** C05 *)
Theorem C05_path_length_inverts_pointAt : forall hp rp f,
  hp OMEGA <> 0 -> Rabs (hp PHI0) <= 2 * PI -> is_helix hp rp f -> forall s,
  (Rabs (hp OMEGA * s) < PI -> calculateSfromXY (vx (f s)) (vy (f s)) hp rp = Ok s)
  /\ (Rabs (hp OMEGA * s) = PI -> calculateSfromXY (vx (f s)) (vy (f s)) hp rp = NonFin).
Proof.
  intros hp rp f H Hp Hf s. rewrite (helix_is_hcurve hp rp f H Hf).
  split; [apply SfromXY_inverse | apply SfromXY_half_turn]; auto.
Qed.
Print Assumptions C05_path_length_inverts_pointAt.

(** C06: for all azimuths.  Within half a turn the path length is found exactly if
    the direction of the track at the point, phi0 - omega s, lies above -3pi and up
    to 3pi; otherwise it is wrong by full turns, or not finite at s = 0.  After half a
    turn it is never finite; for straight tracks it is 0. *)
Theorem C06_path_length_validity : forall hp rp f, is_helix hp rp f ->
  (hp OMEGA <> 0 -> forall s,
     let S := calculateSfromXY (vx (f s)) (vy (f s)) hp rp in
     let th := hp PHI0 - hp OMEGA * s in
     (Rabs (hp OMEGA * s) < PI ->
        (- (3 * PI) < th <= 3 * PI -> S = Ok s)
        /\ (~ (- (3 * PI) < th <= 3 * PI) ->
              (s = 0 -> S = NonFin)
              /\ (s <> 0 -> exists k : Z, k <> 0%Z /\ S = Ok (s - 2 * IZR k * PI / hp OMEGA))))
     /\ (Rabs (hp OMEGA * s) = PI -> S = NonFin))
  /\ (hp OMEGA = 0 -> forall x y,
       (- (3 * PI) < hp PHI0 <= 3 * PI -> calculateSfromXY x y hp rp = Ok 0)
       /\ (~ (- (3 * PI) < hp PHI0 <= 3 * PI) -> calculateSfromXY x y hp rp = NonFin)).
Proof.
  intros hp rp f Hf. split.
  - intros H s. rewrite (helix_is_hcurve hp rp f H Hf). cbv zeta. split.
    + intros Hs. apply SfromXY_exact; auto.
    + apply SfromXY_half_turn_any. auto.
  - intros H x y. apply SfromXY_line_any. auto.
Qed.
Print Assumptions C06_path_length_validity.

(** ** Non-trivial instances of the hypotheses *)
Definition ex_hp : vec5 := mk5 (/ 100) 1 (PI / 4) 2 3.
Definition ex_rp : vec3 := V3 1 2 3.

Example C01_instance : ex_hp OMEGA <> 0 /\ is_helix ex_hp ex_rp (hcurve ex_hp ex_rp).
Proof. split; [simpl; lra | apply hcurve_helix; simpl; lra]. Qed.

Example C03_instance_both_sides :
  ex_hp OMEGA * ex_hp D0 <= 1 /\ ~ (mk5 1 0 0 2 0 OMEGA * mk5 1 0 0 2 0 D0 <= 1).
Proof. simpl. lra. Qed.

Example C05_instance :
  Rabs (ex_hp PHI0) <= 2 * PI /\ Rabs (ex_hp OMEGA * 30) < PI
  /\ Rabs (ex_hp OMEGA * (100 * PI)) = PI.
Proof.
  generalize PI_pos PI2_3_2; intros H1 H2. simpl.
  repeat split; try rewrite Rabs_pos_eq; lra.
Qed.

Example C06_instance :
  let hp := mk5 (/ 100) 1 (7 / 2 * PI) 2 3 in
  ~ (- (3 * PI) < hp PHI0 - hp OMEGA * 30 <= 3 * PI) /\ 0 < Rabs (hp OMEGA * 30) < PI.
Proof.
  generalize PI_pos PI2_3_2; intros H1 H2. simpl.
  split; [lra|]. rewrite Rabs_pos_eq; lra.
Qed.
