(** Proofs about the point/path-length functions (C01-C06). *)
From Coq Require Import Reals Lra Lia ZArith Psatz.
From Coquelicot Require Import Coquelicot.
From Verif Require Import Num NumFacts Vec Helix SpecHelix.
Open Scope R_scope.

Lemma eq_of_derive (f g df : R -> R) :
  (forall s, is_derive f s (df s)) -> (forall s, is_derive g s (df s)) ->
  f 0 = g 0 -> forall s, f s = g s.
Proof.
  intros Hf Hg H0 s.
  set (h := fun t => f t - g t).
  assert (Hh : forall t, is_derive h t zero).
  { intros t. unfold h. replace (@zero R_NormedModule) with (minus (df t) (df t)).
    - exact (is_derive_minus f g t (df t) (df t) (Hf t) (Hg t)).
    - unfold minus, plus, opp, zero; simpl. ring. }
  assert (E : h 0 = h s).
  { destruct (total_order_T 0 s) as [[L|L]|L].
    - apply (eq_is_derive h 0 s); auto.
    - subst s; reflexivity.
    - symmetry. apply (eq_is_derive h s 0); auto. }
  unfold h in E. lra.
Qed.

(** explicit curve *)
Definition hcurve (hp : vec5) (rp : vec3) (s : R) : vec3 :=
  V3 (vx rp - hp D0 * sin (hp PHI0)
      + 1 / hp OMEGA * (sin (hp PHI0) - sin (hp PHI0 - s * hp OMEGA)))
     (vy rp + hp D0 * cos (hp PHI0)
      - 1 / hp OMEGA * (cos (hp PHI0) - cos (hp PHI0 - s * hp OMEGA)))
     (vz rp + hp Z0 + s * hp TANL).

Definition hline (hp : vec5) (rp : vec3) (s : R) : vec3 :=
  V3 (vx rp - hp D0 * sin (hp PHI0) + s * cos (hp PHI0))
     (vy rp + hp D0 * cos (hp PHI0) + s * sin (hp PHI0))
     (vz rp + hp Z0 + s * hp TANL).

Lemma hcurve_helix hp rp : hp OMEGA <> 0 -> is_helix hp rp (hcurve hp rp).
Proof.
  intros H. constructor.
  - unfold hcurve. rewrite Rmult_0_l, Rminus_0_r. f_equal; field; auto.
  - intros s. unfold hcurve; simpl. auto_derive; auto.
    replace (s * hp OMEGA) with (hp OMEGA * s) by ring.
    unfold Rminus. field; auto.
  - intros s. unfold hcurve; simpl. auto_derive; auto.
    replace (s * hp OMEGA) with (hp OMEGA * s) by ring.
    unfold Rminus. field; auto.
  - intros s. unfold hcurve; simpl. auto_derive; auto. ring.
Qed.

Lemma hline_helix hp rp : hp OMEGA = 0 -> is_helix hp rp (hline hp rp).
Proof.
  intros H. constructor.
  - unfold hline. f_equal; ring.
  - intros s. unfold hline; simpl. rewrite H, Rmult_0_l, Rminus_0_r.
    auto_derive; auto. ring.
  - intros s. unfold hline; simpl. rewrite H, Rmult_0_l, Rminus_0_r.
    auto_derive; auto. ring.
  - intros s. unfold hline; simpl. auto_derive; auto. ring.
Qed.

Lemma helix_unique hp rp f g : is_helix hp rp f -> is_helix hp rp g -> forall s, f s = g s.
Proof.
  intros [f0 fx fy fz] [g0 gx gy gz] s.
  assert (H0 : f 0 = g 0) by congruence.
  assert (Ex := eq_of_derive (fun t => vx (f t)) (fun t => vx (g t)) _ fx gx (f_equal vx H0) s).
  assert (Ey := eq_of_derive (fun t => vy (f t)) (fun t => vy (g t)) _ fy gy (f_equal vy H0) s).
  assert (Ez := eq_of_derive (fun t => vz (f t)) (fun t => vz (g t)) (fun _ => hp TANL)
                  fz gz (f_equal vz H0) s).
  simpl in Ex, Ey, Ez.
  destruct (f s), (g s); simpl in *; congruence.
Qed.

Lemma helix_exists hp rp : exists f, is_helix hp rp f.
Proof.
  destruct (Req_dec (hp OMEGA) 0) as [H|H].
  - exists (hline hp rp). apply hline_helix; auto.
  - exists (hcurve hp rp). apply hcurve_helix; auto.
Qed.

Lemma pointAt_hcurve s hp rp : hp OMEGA <> 0 -> pointAt s hp rp = Ok (hcurve hp rp s).
Proof.
  intros H. unfold pointAt, calculateOmega. rewrite rdiv_ok by auto. reflexivity.
Qed.

Lemma pointAt_zero s hp rp : hp OMEGA = 0 -> pointAt s hp rp = NonFin.
Proof. intros H. unfold pointAt, calculateOmega. rewrite H, rdiv_zero. reflexivity. Qed.

Lemma helix_is_hcurve hp rp f : hp OMEGA <> 0 -> is_helix hp rp f -> forall s, f s = hcurve hp rp s.
Proof. intros H Hf. apply (helix_unique hp rp); auto. apply hcurve_helix; auto. Qed.

Lemma helix_is_hline hp rp f : hp OMEGA = 0 -> is_helix hp rp f -> forall s, f s = hline hp rp s.
Proof. intros H Hf. apply (helix_unique hp rp); auto. apply hline_helix; auto. Qed.

(** C01 *)
Lemma pointAt_is_helix hp rp :
  (hp OMEGA <> 0 ->
     exists f, is_helix hp rp f
       /\ (forall g, is_helix hp rp g -> forall s, g s = f s)
       /\ forall s, pointAt s hp rp = Ok (f s))
  /\ (hp OMEGA = 0 ->
     (exists f, is_helix hp rp f) /\ forall s, pointAt s hp rp = NonFin).
Proof.
  split; intros H.
  - exists (hcurve hp rp). split; [apply hcurve_helix; auto|]. split.
    + intros g Hg s. apply helix_is_hcurve; auto.
    + intros s. apply pointAt_hcurve; auto.
  - split; [exists (hline hp rp); apply hline_helix; auto|].
    intros s. apply pointAt_zero; auto.
Qed.

(** C02 *)
Lemma sin_diff_half a b : sin a - sin (a - b) = 2 * sin (b / 2) * cos (a - b / 2).
Proof.
  replace a with ((a - b / 2) + b / 2) at 1 by field.
  replace (a - b) with ((a - b / 2) - b / 2) by field.
  set (m := a - b / 2). rewrite sin_plus, sin_minus. ring.
Qed.

Lemma cos_diff_half a b : cos (a - b) - cos a = 2 * sin (b / 2) * sin (a - b / 2).
Proof.
  replace a with ((a - b / 2) + b / 2) at 2 by field.
  replace (a - b) with ((a - b / 2) - b / 2) by field.
  set (m := a - b / 2). rewrite cos_plus, cos_minus. ring.
Qed.

Lemma XYZ_hcurve s hp rp : hp OMEGA <> 0 ->
  V3 (calculateXfromS s hp rp) (calculateYfromS s hp rp) (calculateZfromS s hp rp)
  = hcurve hp rp s.
Proof.
  intros H.
  unfold calculateXfromS, calculateYfromS, calculateZfromS, hcurve, calculateX0, calculateY0,
    calculateCurvature, calculatePhi0, calculateD0, calculateZ0, calculateTanLambda.
  destruct (Req_EM_T (hp OMEGA) 0) as [E|E]; [contradiction|].
  f_equal.
  - rewrite (sin_diff_half (hp PHI0) (s * hp OMEGA)), sin_neg.
    replace (hp OMEGA * s / 2) with (s * hp OMEGA / 2) by (field). field. auto.
  - replace (cos (hp PHI0) - cos (hp PHI0 - s * hp OMEGA))
      with (- (cos (hp PHI0 - s * hp OMEGA) - cos (hp PHI0))) by ring.
    rewrite (cos_diff_half (hp PHI0) (s * hp OMEGA)).
    replace (hp OMEGA * s / 2) with (s * hp OMEGA / 2) by (field). field. auto.
  - ring.
Qed.

Lemma XYZ_line s hp rp : hp OMEGA = 0 ->
  calculateXfromS s hp rp = vx (hline hp rp s)
  /\ calculateZfromS s hp rp = vz (hline hp rp s)
  /\ calculateYfromS s hp rp = vy (hline hp rp s) + s * (cos (hp PHI0) - sin (hp PHI0)).
Proof.
  intros H.
  unfold calculateXfromS, calculateYfromS, calculateZfromS, hline, calculateX0, calculateY0,
    calculateCurvature, calculatePhi0, calculateD0, calculateZ0, calculateTanLambda; simpl.
  destruct (Req_EM_T (hp OMEGA) 0) as [E|E]; [|contradiction].
  repeat split; try rewrite sin_neg; ring.
Qed.

Lemma XYZfromS_helix hp rp f : is_helix hp rp f -> forall s,
  calculateXfromS s hp rp = vx (f s)
  /\ calculateZfromS s hp rp = vz (f s)
  /\ (hp OMEGA <> 0 -> calculateYfromS s hp rp = vy (f s))
  /\ (hp OMEGA <> 0 ->
      pointAt s hp rp
      = Ok (V3 (calculateXfromS s hp rp) (calculateYfromS s hp rp) (calculateZfromS s hp rp)))
  /\ (hp OMEGA = 0 ->
      (calculateYfromS s hp rp = vy (f s) <-> s = 0 \/ cos (hp PHI0) = sin (hp PHI0))).
Proof.
  intros Hf s. destruct (Req_dec (hp OMEGA) 0) as [H|H].
  - destruct (XYZ_line s hp rp H) as (A & B & C).
    rewrite (helix_is_hline hp rp f H Hf).
    repeat split; try contradiction; auto.
    + rewrite C. intros E.
      assert (E2 : s * (cos (hp PHI0) - sin (hp PHI0)) = 0) by lra.
      apply Rmult_integral in E2. destruct E2; [left|right]; lra.
    + rewrite C. intros [E|E]; rewrite E; ring.
  - generalize (XYZ_hcurve s hp rp H). intros E.
    rewrite (helix_is_hcurve hp rp f H Hf). rewrite <- E. simpl.
    repeat split; auto; try contradiction.
    rewrite pointAt_hcurve by auto. rewrite E. reflexivity.
Qed.

(** C03 *)
Lemma sqrt_eq_sq a b : 0 <= b -> a = b * b -> sqrt a = b.
Proof. intros Hb E. rewrite E. apply sqrt_square; auto. Qed.

Lemma ss_nonneg a b : 0 <= a * a + b * b.
Proof. nra. Qed.

Definition centre (hp : vec5) (rp : vec3) : vec3 :=
  V3 (vx rp + (1 / hp OMEGA - hp D0) * sin (hp PHI0))
     (vy rp - (1 / hp OMEGA - hp D0) * cos (hp PHI0)) 0.

Lemma hcurve_centre hp rp s : hp OMEGA <> 0 ->
  vx (hcurve hp rp s) - vx (centre hp rp) = - (1 / hp OMEGA) * sin (hp PHI0 - s * hp OMEGA)
  /\ vy (hcurve hp rp s) - vy (centre hp rp) = 1 / hp OMEGA * cos (hp PHI0 - s * hp OMEGA).
Proof. intros H. unfold hcurve, centre; simpl. split; ring. Qed.

Lemma center_eq hp rp : hp OMEGA <> 0 ->
  calculateXCenter hp rp = vx (centre hp rp) /\ calculateYCenter hp rp = vy (centre hp rp).
Proof.
  intros H. unfold calculateXCenter, calculateYCenter, calculateOmega, calculateD0, calculatePhi0.
  destruct (Req_EM_T (hp OMEGA) 0); [contradiction|]. simpl. auto.
Qed.

Lemma radius_eq hp : hp OMEGA <> 0 -> calculateRadius hp = Rabs (1 / hp OMEGA).
Proof.
  intros H. unfold calculateRadius, calculateCurvature.
  destruct (Req_EM_T (hp OMEGA) 0); [contradiction|reflexivity].
Qed.

Lemma Rabs_sq x : Rabs x * Rabs x = x * x.
Proof. rewrite <- Rabs_mult. apply Rabs_pos_eq. nra. Qed.

(** squared transverse distance from the reference point *)
Lemma dist_ref_sq hp rp s : hp OMEGA <> 0 ->
  let a := 1 / hp OMEGA - hp D0 in
  let r := 1 / hp OMEGA in
  (vx (hcurve hp rp s) - vx rp) * (vx (hcurve hp rp s) - vx rp)
  + (vy (hcurve hp rp s) - vy rp) * (vy (hcurve hp rp s) - vy rp)
  = a * a + r * r - 2 * a * r * cos (s * hp OMEGA).
Proof.
  intros H a r. unfold hcurve; simpl.
  fold r. set (p := hp PHI0). set (t := s * hp OMEGA).
  rewrite sin_minus, cos_minus.
  replace (hp D0) with (r - a) by (unfold a, r; ring).
  generalize (sc1 p) (sc1 t). intros Hp Ht.
  transitivity (a * a * (sin p * sin p + cos p * cos p)
    + r * r * (sin p * sin p + cos p * cos p) * (sin t * sin t + cos t * cos t)
    - 2 * a * r * cos t * (sin p * sin p + cos p * cos p)); [ring|].
  rewrite Hp, Ht. ring.
Qed.

Lemma ar_sign om d : om <> 0 -> (0 <= (1 / om - d) * (1 / om) <-> om * d <= 1).
Proof.
  intros H.
  assert (Hi : 0 < / om * / om).
  { assert (/ om <> 0) by (apply Rinv_neq_0_compat; auto). nra. }
  assert (E : (1 / om - d) * (1 / om) = (/ om * / om) * (1 - om * d)) by (field; auto).
  rewrite E. split; intros; nra.
Qed.

Lemma pca_closest_iff hp rp f : hp OMEGA <> 0 -> is_helix hp rp f ->
  (forall s, dist_xy (f s) (V3 (calculateXCenter hp rp) (calculateYCenter hp rp) 0)
             = calculateRadius hp)
  /\ (vx (f 0) = calculateX0 hp rp /\ vy (f 0) = calculateY0 hp rp
      /\ dist_xy (f 0) rp = Rabs (hp D0))
  /\ ((forall s, dist_xy (f 0) rp <= dist_xy (f s) rp) <-> hp OMEGA * hp D0 <= 1).
Proof.
  intros H Hf.
  assert (E := helix_is_hcurve hp rp f H Hf).
  assert (D0eq : dist_xy (f 0) rp = Rabs (hp D0)).
  { unfold dist_xy. rewrite E. apply sqrt_eq_sq; [apply Rabs_pos|].
    rewrite Rabs_sq, dist_ref_sq by auto.
    rewrite Rmult_0_l, cos_0. field. auto. }
  split; [|split; [|split]].
  - intros s. rewrite E. unfold dist_xy.
    destruct (center_eq hp rp H) as [-> ->]. 
    change (vx (V3 (vx (centre hp rp)) (vy (centre hp rp)) 0)) with (vx (centre hp rp)).
    change (vy (V3 (vx (centre hp rp)) (vy (centre hp rp)) 0)) with (vy (centre hp rp)).
    destruct (hcurve_centre hp rp s H) as [-> ->].
    rewrite radius_eq by auto. apply sqrt_eq_sq; [apply Rabs_pos|].
    rewrite Rabs_sq. generalize (sc1 (hp PHI0 - s * hp OMEGA)); intros HH.
    transitivity (1 / hp OMEGA * (1 / hp OMEGA)
       * (sin (hp PHI0 - s * hp OMEGA) * sin (hp PHI0 - s * hp OMEGA)
          + cos (hp PHI0 - s * hp OMEGA) * cos (hp PHI0 - s * hp OMEGA))); [ring|].
    rewrite HH. ring.
  - split; [|split; [|exact D0eq]]; rewrite E;
    unfold hcurve, calculateX0, calculateY0, calculatePhi0, calculateD0; simpl;
    rewrite Rmult_0_l, Rminus_0_r, ?sin_neg; ring.
  - intros A. apply ar_sign; auto.
    specialize (A (PI / hp OMEGA)).
    rewrite !E in A. unfold dist_xy in A.
    apply sqrt_le_0 in A; [|apply ss_nonneg|apply ss_nonneg].
    rewrite !dist_ref_sq in A by auto.
    rewrite Rmult_0_l, cos_0 in A.
    replace (PI / hp OMEGA * hp OMEGA) with PI in A by (field; auto).
    rewrite cos_PI in A. lra.
  - intros A s. apply ar_sign in A; auto.
    rewrite !E. unfold dist_xy. apply sqrt_le_1_alt.
    rewrite !dist_ref_sq by auto. rewrite Rmult_0_l, cos_0.
    generalize (COS_bound (s * hp OMEGA)); intros [_ B]. nra.
Qed.

(** C04 *)
Lemma tangent_unit_derivative hp rp f : is_helix hp rp f -> forall s,
  vr (calculateTangent s hp) = 1
  /\ is_derive (fun l => vx (f (s + l * cos (atan (hp TANL))))) 0 (vx (calculateTangent s hp))
  /\ is_derive (fun l => vy (f (s + l * cos (atan (hp TANL))))) 0 (vy (calculateTangent s hp))
  /\ is_derive (fun l => vz (f (s + l * cos (atan (hp TANL))))) 0 (vz (calculateTangent s hp)).
Proof.
  intros [H0 Hx Hy Hz] s.
  set (c := cos (atan (hp TANL))).
  assert (Hin : is_derive (fun l : R => s + l * c) 0 c).
  { auto_derive; auto. ring. }
  unfold calculateTangent, calculateCurvature, calculatePhi0, calculateLambda; simpl.
  fold c.
  split; [|split; [|split]].
  - unfold vr; simpl. apply sqrt_eq_sq; [lra|].
    generalize (sc1 (hp PHI0 - hp OMEGA * s)) (sc1 (atan (hp TANL))); fold c; intros A B.
    set (u := hp PHI0 - hp OMEGA * s) in *.
    transitivity (c * c * (sin u * sin u + cos u * cos u)
                  + sin (atan (hp TANL)) * sin (atan (hp TANL))); [ring|].
    rewrite A. lra.
  - replace (cos (hp PHI0 - hp OMEGA * s) * c) with (scal c (cos (hp PHI0 - hp OMEGA * s)))
      by (unfold scal; simpl; unfold mult; simpl; ring).
    apply (is_derive_comp (fun t => vx (f t)) (fun l => s + l * c)); [|exact Hin].
    rewrite Rmult_0_l, Rplus_0_r. apply Hx.
  - replace (sin (hp PHI0 - hp OMEGA * s) * c) with (scal c (sin (hp PHI0 - hp OMEGA * s)))
      by (unfold scal; simpl; unfold mult; simpl; ring).
    apply (is_derive_comp (fun t => vy (f t)) (fun l => s + l * c)); [|exact Hin].
    rewrite Rmult_0_l, Rplus_0_r. apply Hy.
  - rewrite sin_atan_cos. fold c.
    replace (hp TANL * c) with (scal c (hp TANL))
      by (unfold scal; simpl; unfold mult; simpl; ring).
    apply (is_derive_comp (fun t => vz (f t)) (fun l => s + l * c)); [|exact Hin].
    rewrite Rmult_0_l, Rplus_0_r. apply Hz.
Qed.
