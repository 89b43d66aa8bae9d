(** Proofs about motions of the whole setup (C69). *)
From Coq Require Import Reals Lra Lia ZArith Psatz List Bool FunctionalExtensionality.
From Verif Require Import SpecConst Num NumFacts Vec Helix Isect SpecHelix SpecIsect SpecSym
  HelixFacts PathFacts.
Import ListNotations.
Open Scope R_scope.

Lemma hand_cases g : hand g = 1 \/ hand g = -1.
Proof. unfold hand. destruct (m_flip g); auto. Qed.
Lemma hand_sq g : hand g * hand g = 1.
Proof. destruct (hand_cases g) as [-> | ->]; ring. Qed.
Lemma hand_nz g : hand g <> 0.
Proof. destruct (hand_cases g) as [-> | ->]; lra. Qed.
Lemma hand_inv g x : 1 / (hand g * x) = hand g * (1 / x).
Proof.
  destruct (Req_dec x 0) as [->|N].
  - rewrite Rmult_0_r. unfold Rdiv. rewrite Rinv_0. ring.
  - destruct (hand_cases g) as [-> | ->]; field; auto.
Qed.
Lemma hand_mul_0 g x : hand g * x = 0 <-> x = 0.
Proof. destruct (hand_cases g) as [-> | ->]; lra. Qed.
Lemma sin_hand g x : sin (hand g * x) = hand g * sin x.
Proof.
  destruct (hand_cases g) as [-> | ->]; [rewrite !Rmult_1_l; reflexivity|].
  replace (-1 * x) with (- x) by ring. rewrite sin_neg. ring.
Qed.
Lemma cos_hand g x : cos (hand g * x) = cos x.
Proof.
  destruct (hand_cases g) as [-> | ->]; [rewrite !Rmult_1_l; reflexivity|].
  replace (-1 * x) with (- x) by ring. apply cos_neg.
Qed.
Lemma hand_abs g x : Rabs (hand g * x) = Rabs x.
Proof.
  destruct (hand_cases g) as [-> | ->]; [f_equal; ring|].
  replace (-1 * x) with (- x) by ring. apply Rabs_Ropp.
Qed.

(** the direction at azimuth t *)
Lemma cos_map g t : cos (hand g * t + m_turn g)
  = cos (m_turn g) * cos t - sin (m_turn g) * (hand g * sin t).
Proof. rewrite cos_plus, sin_hand, cos_hand. ring. Qed.
Lemma sin_map g t : sin (hand g * t + m_turn g)
  = sin (m_turn g) * cos t + cos (m_turn g) * (hand g * sin t).
Proof. rewrite sin_plus, sin_hand, cos_hand. ring. Qed.

Lemma sc1' a : sin a * sin a = 1 - cos a * cos a.
Proof. generalize (sc1 a). lra. Qed.

Lemma vec3_eq a b : vx a = vx b -> vy a = vy b -> vz a = vz b -> a = b.
Proof. destruct a, b; simpl; congruence. Qed.

Lemma map_dir_dot g u v : vdot (map_dir g u) (map_dir g v) = vdot u v.
Proof.
  unfold vdot, map_dir; simpl.
  assert (Hh := hand_sq g). assert (Hsc := sc1 (m_turn g)).
  set (h := hand g) in *. set (c := cos (m_turn g)) in *. set (s := sin (m_turn g)) in *.
  transitivity ((s * s + c * c) * (vx u * vx v) + (s * s + c * c) * (h * h) * (vy u * vy v)
                + vz u * vz v); [ring|]. rewrite Hh, Hsc. ring.
Qed.

Lemma map_point_diff g p q : vsub (map_point g p) (map_point g q) = map_dir g (vsub p q).
Proof. apply vec3_eq; unfold map_point, map_dir, vsub, vadd; simpl; ring. Qed.

Lemma map_dir_inj g u v : map_dir g u = map_dir g v -> u = v.
Proof.
  intros E.
  assert (D : vdot (vsub u v) (vsub u v) = 0).
  { rewrite <- (map_dir_dot g).
    replace (map_dir g (vsub u v)) with (vsub (map_dir g u) (map_dir g v))
      by (apply vec3_eq; unfold map_dir, vsub; simpl; ring).
    rewrite E. unfold vdot, vsub; simpl; ring. }
  unfold vdot, vsub in D; simpl in D.
  assert (Z : forall x y, (x - y) * (x - y) <= 0 -> x = y).
  { intros x y F. assert (G := Rle_0_sqr (x - y)). unfold Rsqr in G.
    assert (Q : (x - y) * (x - y) = 0) by lra. apply Rmult_integral in Q. lra. }
  assert (D1 := Rle_0_sqr (vx u - vx v)). assert (D2 := Rle_0_sqr (vy u - vy v)).
  assert (D3 := Rle_0_sqr (vz u - vz v)). unfold Rsqr in *.
  apply vec3_eq; apply Z; lra.
Qed.

(** ** Points of the helix *)
Lemma hcurve_map g hp rp s : hp OMEGA <> 0 ->
  hcurve (map_par g hp) (map_point g rp) s = map_point g (hcurve hp rp s).
Proof.
  intros H. unfold hcurve, map_par, OMEGA, PHI0, D0, Z0, TANL; cbn [mk5].
  replace (hand g * hp I2 + m_turn g - s * (hand g * hp I0))
    with (hand g * (hp I2 - s * hp I0) + m_turn g) by ring.
  rewrite !sin_map, !cos_map, hand_inv.
  assert (Hh := hand_sq g).
  apply vec3_eq; unfold map_point, map_dir, vadd; cbn [vx vy vz]; try ring.
  - destruct (hand_cases g) as [-> | ->]; ring.
  - destruct (hand_cases g) as [-> | ->]; ring.
Qed.

Lemma pointAt_map g s hp rp :
  pointAt s (map_par g hp) (map_point g rp) = rmap (map_point g) (pointAt s hp rp).
Proof.
  destruct (Req_dec (hp OMEGA) 0) as [E|E].
  - rewrite !pointAt_zero; [reflexivity|exact E|].
    unfold map_par, OMEGA in *; cbn [mk5]. apply hand_mul_0. exact E.
  - rewrite !pointAt_hcurve, hcurve_map; auto.
    unfold map_par, OMEGA in *; cbn [mk5]. rewrite hand_mul_0. exact E.
Qed.

Lemma om_map g hp : map_par g hp OMEGA <> 0 <-> hp OMEGA <> 0.
Proof. unfold map_par, OMEGA; cbn [mk5]. rewrite hand_mul_0. tauto. Qed.

Lemma XYZ_map g s hp rp : hp OMEGA <> 0 ->
  V3 (calculateXfromS s (map_par g hp) (map_point g rp))
     (calculateYfromS s (map_par g hp) (map_point g rp))
     (calculateZfromS s (map_par g hp) (map_point g rp))
  = map_point g (V3 (calculateXfromS s hp rp) (calculateYfromS s hp rp) (calculateZfromS s hp rp)).
Proof.
  intros H.
  rewrite !XYZ_hcurve, hcurve_map by (rewrite ?om_map; auto). reflexivity.
Qed.

Lemma tangent_map g s hp : calculateTangent s (map_par g hp) = map_dir g (calculateTangent s hp).
Proof.
  unfold calculateTangent, calculateCurvature, calculateOmega, calculatePhi0, calculateLambda,
    calculateTanLambda, map_par, OMEGA, PHI0, TANL; cbn [mk5].
  replace (hand g * hp I2 + m_turn g - hand g * hp I0 * s)
    with (hand g * (hp I2 - hp I0 * s) + m_turn g) by ring.
  rewrite sin_map, cos_map.
  apply vec3_eq; unfold map_dir; cbn [vx vy vz]; ring.
Qed.

(** ** Angles *)
Lemma norm_map g a b :
  (cos (m_turn g) * b - sin (m_turn g) * (hand g * a)) * (cos (m_turn g) * b - sin (m_turn g) * (hand g * a))
  + (sin (m_turn g) * b + cos (m_turn g) * (hand g * a)) * (sin (m_turn g) * b + cos (m_turn g) * (hand g * a))
  = b * b + a * a.
Proof.
  assert (Hh := hand_sq g). assert (Hsc := sc1 (m_turn g)).
  set (h := hand g) in *. set (c := cos (m_turn g)) in *. set (s := sin (m_turn g)) in *.
  transitivity ((s * s + c * c) * (b * b) + (s * s + c * c) * (h * h) * (a * a)); [ring|].
  rewrite Hh, Hsc. ring.
Qed.

Lemma atan2_map g a b : b <> 0 \/ a <> 0 -> exists k : Z,
  atan2 (sin (m_turn g) * b + cos (m_turn g) * (hand g * a))
        (cos (m_turn g) * b - sin (m_turn g) * (hand g * a))
  = hand g * atan2 a b + m_turn g + 2 * IZR k * PI.
Proof.
  intros H. assert (P := sqrt_x2y2_pos b a H).
  assert (C := atan2_cos (sin (m_turn g) * b + cos (m_turn g) * (hand g * a))
                 (cos (m_turn g) * b - sin (m_turn g) * (hand g * a))).
  assert (S := atan2_sin (sin (m_turn g) * b + cos (m_turn g) * (hand g * a))
                 (cos (m_turn g) * b - sin (m_turn g) * (hand g * a))).
  rewrite norm_map in C, S.
  assert (C0 := atan2_cos a b). assert (S0 := atan2_sin a b).
  set (rho := sqrt (b * b + a * a)) in *. set (t := atan2 a b) in *.
  set (t' := atan2 _ _) in *.
  apply angle_eq_2pi.
  - rewrite cos_map. apply (Rmult_eq_reg_l rho); [|lra].
    rewrite C, <- C0, <- S0. ring.
  - rewrite sin_map. apply (Rmult_eq_reg_l rho); [|lra].
    rewrite S, <- C0, <- S0. ring.
Qed.

(** the quotient d / sin d is even and equal for both representations of half
    a turn *)
Lemma path_div N N' d d' h (k : Z) : h = 1 \/ h = -1 ->
  - PI <= d <= PI -> - PI <= d' <= PI -> d' = h * d + 2 * IZR k * PI -> N' = N ->
  (if Req_EM_T d' 0 then Ok 0 else rdiv (N' * d') (sin d'))
  = (if Req_EM_T d 0 then Ok 0 else rdiv (N * d) (sin d)).
Proof.
  intros Hh R R' E ->. generalize PI_pos; intros HP.
  assert (K : d' = h * d \/ (d = PI \/ d = - PI) /\ (d' = PI \/ d' = - PI)).
  { assert (Hd : - PI <= h * d <= PI) by (destruct Hh as [-> | ->]; lra).
    assert (B1 : -2 < IZR k).
    { apply (Rmult_lt_reg_r PI); lra. }
    assert (B2 : IZR k < 2).
    { apply (Rmult_lt_reg_r PI); lra. }
    apply lt_IZR in B1, B2.
    assert (k = -1 \/ k = 0 \/ k = 1)%Z as [-> | [-> | ->]] by lia.
    - right. simpl in E. destruct Hh as [-> | ->]; split; lra.
    - left. rewrite E. simpl. ring.
    - right. simpl in E. destruct Hh as [-> | ->]; split; lra. }
  destruct K as [K|[K1 K2]].
  - destruct (Req_EM_T d' 0) as [Z'|Z']; destruct (Req_EM_T d 0) as [Z|Z]; auto.
    + exfalso. apply Z. destruct Hh as [-> | ->]; lra.
    + exfalso. apply Z'. rewrite K, Z. ring.
    + rewrite K. destruct Hh as [-> | ->].
      * rewrite !Rmult_1_l. reflexivity.
      * replace (-1 * d) with (- d) by ring. rewrite sin_neg. unfold rdiv.
        destruct (Req_EM_T (- sin d) 0); destruct (Req_EM_T (sin d) 0); try lra; auto.
        f_equal. field. auto.
  - assert (S : forall x, x = PI \/ x = - PI -> x <> 0 /\ sin x = 0).
    { intros x [-> | ->]; [rewrite sin_PI | rewrite sin_neg, sin_PI]; split; lra. }
    destruct (S d K1) as [Z1 ->]. destruct (S d' K2) as [Z2 ->].
    destruct (Req_EM_T d' 0); [contradiction|]. destruct (Req_EM_T d 0); [contradiction|].
    rewrite !rdiv_zero. reflexivity.
Qed.

Lemma SfromXY_map g hp rp x y : phi_kept g hp -> off_axis hp rp x y ->
  calculateSfromXY (vx (map_point g (V3 x y 0))) (vy (map_point g (V3 x y 0)))
    (map_par g hp) (map_point g rp)
  = calculateSfromXY x y hp rp.
Proof.
  intros [K1 K2] OA. unfold calculateSfromXY. cbv zeta.
  unfold calculatePhi0, calculateD0, calculateCurvature.
  change (map_par g hp PHI0) with (hand g * hp PHI0 + m_turn g).
  change (map_par g hp OMEGA) with (hand g * hp OMEGA).
  change (map_par g hp D0) with (hand g * hp D0).
  rewrite !sin_map, !cos_map.
  set (dx := x - (vx rp - sin (hp PHI0) * hp D0)).
  set (dy := y - (vy rp + cos (hp PHI0) * hp D0)).
  set (A := sin (hp PHI0) - hp OMEGA * dx). set (B := cos (hp PHI0) + hp OMEGA * dy).
  assert (Hh := hand_sq g). assert (Hsc := sc1 (m_turn g)).
  assert (EA : sin (m_turn g) * cos (hp PHI0) + cos (m_turn g) * (hand g * sin (hp PHI0)) -
      hand g * hp OMEGA *
      (vx (map_point g (V3 x y 0)) -
       (vx (map_point g rp) -
        (sin (m_turn g) * cos (hp PHI0) + cos (m_turn g) * (hand g * sin (hp PHI0))) *
        (hand g * hp D0))) = sin (m_turn g) * B + cos (m_turn g) * (hand g * A)).
  { unfold map_point, map_dir, vadd; cbn [vx vy vz]. unfold A, B, dx, dy.
    destruct (hand_cases g) as [-> | ->]; ring. }
  assert (EB : cos (m_turn g) * cos (hp PHI0) - sin (m_turn g) * (hand g * sin (hp PHI0)) +
      hand g * hp OMEGA *
      (vy (map_point g (V3 x y 0)) -
       (vy (map_point g rp) +
        (cos (m_turn g) * cos (hp PHI0) - sin (m_turn g) * (hand g * sin (hp PHI0))) *
        (hand g * hp D0))) = cos (m_turn g) * B - sin (m_turn g) * (hand g * A)).
  { unfold map_point, map_dir, vadd; cbn [vx vy vz]. unfold A, B, dx, dy.
    destruct (hand_cases g) as [-> | ->]; ring. }
  rewrite EA, EB. clear EA EB.
  assert (AB : B <> 0 \/ A <> 0).
  { destruct (Req_dec (hp OMEGA) 0) as [Z|N].
    - unfold A, B. rewrite Z. generalize (sc1 (hp PHI0)); intros E.
      destruct (Req_dec (cos (hp PHI0)) 0) as [Q|Q]; [right|left]; [|lra].
      rewrite Q in E. intros F. replace (sin (hp PHI0)) with 0 in E by lra. lra.
    - destruct (OA N) as [F|F].
      + right. intros Z. apply F. unfold A, dx in Z.
        apply (Rmult_eq_reg_l (hp OMEGA)); [|auto].
        transitivity (hp OMEGA * (vx rp - hp D0 * sin (hp PHI0)) + sin (hp PHI0)); [lra|].
        field. auto.
      + left. intros Z. apply F. unfold B, dy in Z.
        apply (Rmult_eq_reg_l (hp OMEGA)); [|auto].
        transitivity (hp OMEGA * (vy rp + hp D0 * cos (hp PHI0)) - cos (hp PHI0)); [lra|].
        field. auto. }
  destruct (atan2_map g A B AB) as [k Hk].
  set (phi' := atan2 (sin (m_turn g) * B + _) _) in *.
  destruct (dphi_of_spec (atan2 A B) (hp PHI0)) as ([k1 E1] & R1 & _).
  destruct (dphi_of_spec phi' (hand g * hp PHI0 + m_turn g)) as ([k2 E2] & R2 & _).
  specialize (R1 K1 (atan2_range A B)).
  specialize (R2 K2 (atan2_range _ _)).
  destruct (hand_cases g) as [Eh|Eh].
  - apply (path_div _ _ _ _ 1 (k + k2 - k1)); auto.
    + rewrite E1, E2, Hk, Eh, minus_IZR, plus_IZR. ring.
    + unfold map_point, map_dir, vadd, dx, dy; cbn [vx vy vz]. rewrite Eh.
      match goal with |- ?l = _ => replace l with
        ((sin (m_turn g) * sin (m_turn g) + cos (m_turn g) * cos (m_turn g))
         * ((x - (vx rp - sin (hp PHI0) * hp D0)) * cos (hp PHI0)
            + (y - (vy rp + cos (hp PHI0) * hp D0)) * sin (hp PHI0))
         + (1 - (sin (m_turn g) * sin (m_turn g) + cos (m_turn g) * cos (m_turn g))) * 0) end.
      * rewrite Hsc. ring.
      * ring.
  - apply (path_div _ _ _ _ (-1) (k + k2 + k1)); auto.
    + rewrite E1, E2, Hk, Eh, !plus_IZR. ring.
    + unfold map_point, map_dir, vadd, dx, dy; cbn [vx vy vz]. rewrite Eh.
      match goal with |- ?l = _ => replace l with
        ((sin (m_turn g) * sin (m_turn g) + cos (m_turn g) * cos (m_turn g))
         * ((x - (vx rp - sin (hp PHI0) * hp D0)) * cos (hp PHI0)
            + (y - (vy rp + cos (hp PHI0) * hp D0)) * sin (hp PHI0))
         + (1 - (sin (m_turn g) * sin (m_turn g) + cos (m_turn g) * cos (m_turn g))) * 0) end.
      * rewrite Hsc. ring.
      * ring.
Qed.
