(** Path length computed for a point that is not on the track. *)
From Coq Require Import Reals List Bool ZArith Lra Lia.
From Coquelicot Require Import Coquelicot.
From Verif Require Import Num Vec Helix NumFacts SpecHelix HelixFacts PathFacts.
Open Scope R_scope.

(** the point on the ray from the centre through the track point at [s], at
    [lam] times the radius *)
Definition ray (hp : vec5) (rp : vec3) (s lam : R) : R * R :=
  (vx (centre hp rp) + lam * (vx (hcurve hp rp s) - vx (centre hp rp)),
   vy (centre hp rp) + lam * (vy (hcurve hp rp s) - vy (centre hp rp))).

Lemma SfromXY_ray hp rp s lam : hp OMEGA <> 0 -> Rabs (hp PHI0) <= 2 * PI ->
  Rabs (hp OMEGA * s) < PI -> 0 < lam ->
  calculateSfromXY (fst (ray hp rp s lam)) (snd (ray hp rp s lam)) hp rp = Ok (lam * s).
Proof.
  intros H Hp Hs Hl. apply Rabs_def2 in Hs.
  remember (hp OMEGA) as om eqn:Eo. remember (hp PHI0) as p eqn:Ep.
  remember (p - s * om) as th eqn:Et.
  destruct (atan2_mod lam th Hl) as [m Hm].
  destruct (dphi_of_spec (atan2 (lam * sin th) (lam * cos th)) p) as ((k & Hk) & R1 & _).
  specialize (R1 Hp (atan2_range _ _)).
  assert (Ed : dphi_of (atan2 (lam * sin th) (lam * cos th)) p = - (s * om) + 2 * IZR (k + m) * PI).
  { rewrite Hk, Hm, plus_IZR, Et. ring. }
  rewrite Ed in R1.
  assert (K0 : (k + m)%Z = 0%Z) by (apply (wrap_zero_k (s * om)); lra).
  rewrite K0 in Ed.
  replace (- (s * om) + 2 * 0 * PI) with (- (s * om)) in Ed by ring.
  unfold calculateSfromXY, calculatePhi0, calculateD0, calculateCurvature, ray. cbn [fst snd]. cbv zeta.
  rewrite <- Eo, <- Ep.
  assert (E1 : sin p - om * (vx (centre hp rp) + lam * (vx (hcurve hp rp s) - vx (centre hp rp))
              - (vx rp - sin p * hp D0)) = lam * sin th).
  { unfold hcurve, centre; cbn [vx]. rewrite <- Eo, <- Ep, <- Et. field. exact H. }
  assert (E2 : cos p + om * (vy (centre hp rp) + lam * (vy (hcurve hp rp s) - vy (centre hp rp))
              - (vy rp + cos p * hp D0)) = lam * cos th).
  { unfold hcurve, centre; cbn [vy]. rewrite <- Eo, <- Ep, <- Et. field. exact H. }
  assert (E3 : (vx (centre hp rp) + lam * (vx (hcurve hp rp s) - vx (centre hp rp)) - (vx rp - sin p * hp D0)) * cos p
               + (vy (centre hp rp) + lam * (vy (hcurve hp rp s) - vy (centre hp rp)) - (vy rp + cos p * hp D0)) * sin p
               = lam * (sin (s * om) / om)).
  { unfold hcurve, centre; cbn [vx vy]. rewrite <- Eo, <- Ep, <- Et. rewrite Et, sin_minus, cos_minus.
    generalize (sc1 p); intros Hsc.
    transitivity (lam * (1 / om) * sin (s * om) * (sin p * sin p + cos p * cos p)); [ring|].
    rewrite Hsc. field. exact H. }
  rewrite E1, E2, E3, Ed.
  destruct (Req_EM_T (- (s * om)) 0) as [Z|Z].
  - f_equal. assert (Z' : s * om = 0) by lra.
    apply Rmult_integral in Z'. destruct Z' as [->|Z']; [ring|contradiction].
  - assert (Sn : sin (s * om) <> 0).
    { intros S. apply Z. assert (S' : sin (s * om) = 0) by lra. apply sin_zero_small in S'; lra. }
    rewrite sin_neg. unfold rdiv. destruct (Req_EM_T (- sin (s * om)) 0) as [Q|Q]; [exfalso; lra|].
    f_equal. field. auto.
Qed.

(** the track point at [s] is the point of the track nearest to the ray's points *)
Lemma ray_nearest hp rp s lam : hp OMEGA <> 0 -> 0 < lam -> forall u,
  dist_xy (hcurve hp rp s) (V3 (fst (ray hp rp s lam)) (snd (ray hp rp s lam)) 0)
  <= dist_xy (hcurve hp rp u) (V3 (fst (ray hp rp s lam)) (snd (ray hp rp s lam)) 0).
Proof.
  intros H Hl u. unfold dist_xy, ray. cbn [fst snd vx vy].
  destruct (hcurve_centre hp rp s H) as [A1 A2]. destruct (hcurve_centre hp rp u H) as [B1 B2].
  replace (vx (hcurve hp rp s) - (vx (centre hp rp) + lam * (vx (hcurve hp rp s) - vx (centre hp rp))))
    with ((1 - lam) * (vx (hcurve hp rp s) - vx (centre hp rp))) by ring.
  replace (vy (hcurve hp rp s) - (vy (centre hp rp) + lam * (vy (hcurve hp rp s) - vy (centre hp rp))))
    with ((1 - lam) * (vy (hcurve hp rp s) - vy (centre hp rp))) by ring.
  replace (vx (hcurve hp rp u) - (vx (centre hp rp) + lam * (vx (hcurve hp rp s) - vx (centre hp rp))))
    with ((vx (hcurve hp rp u) - vx (centre hp rp)) - lam * (vx (hcurve hp rp s) - vx (centre hp rp))) by ring.
  replace (vy (hcurve hp rp u) - (vy (centre hp rp) + lam * (vy (hcurve hp rp s) - vy (centre hp rp))))
    with ((vy (hcurve hp rp u) - vy (centre hp rp)) - lam * (vy (hcurve hp rp s) - vy (centre hp rp))) by ring.
  rewrite A1, A2, B1, B2.
  set (r := 1 / hp OMEGA). set (a := hp PHI0 - s * hp OMEGA). set (b := hp PHI0 - u * hp OMEGA).
  apply sqrt_le_1_alt.
  generalize (sc1 a) (sc1 b); intros Ha Hb.
  assert (Cs : cos (a - b) <= 1) by (apply COS_bound).
  rewrite cos_minus in Cs.
  assert (R2 : 0 <= r * r) by apply Rle_0_sqr.
  apply Rminus_le.
  replace ((1 - lam) * (- r * sin a) * ((1 - lam) * (- r * sin a)) + (1 - lam) * (r * cos a) * ((1 - lam) * (r * cos a))
    - ((- r * sin b - lam * (- r * sin a)) * (- r * sin b - lam * (- r * sin a))
       + (r * cos b - lam * (r * cos a)) * (r * cos b - lam * (r * cos a))))
    with (r * r * ((1 - 2 * lam) * (sin a * sin a + cos a * cos a) - (sin b * sin b + cos b * cos b)
           + 2 * lam * (cos a * cos b + sin a * sin b))) by ring.
  rewrite Ha, Hb. assert (0 <= lam * (1 - (cos a * cos b + sin a * sin b))) by (apply Rmult_le_pos; lra). nra.
Qed.

(** every point but the centre is on such a ray *)
Lemma ray_exists hp rp x y : hp OMEGA <> 0 ->
  (x <> vx (centre hp rp) \/ y <> vy (centre hp rp)) ->
  exists s lam, 0 < lam /\ Rabs (hp OMEGA * s) <= PI /\ (x, y) = ray hp rp s lam
    /\ lam = Rabs (hp OMEGA) * dist_xy (V3 x y 0) (centre hp rp).
Proof.
  intros H N.
  set (a := hp OMEGA * (vx (centre hp rp) - x)). set (b := hp OMEGA * (y - vy (centre hp rp))).
  assert (Lp : 0 < b * b + a * a).
  { assert (0 <= a * a) by apply Rle_0_sqr. assert (0 <= b * b) by apply Rle_0_sqr.
    destruct N as [N|N].
    - assert (a <> 0) by (unfold a; apply Rmult_integral_contrapositive; split; auto; lra).
      assert (0 < a * a) by (apply Rsqr_pos_lt; auto). lra.
    - assert (b <> 0) by (unfold b; apply Rmult_integral_contrapositive; split; auto; lra).
      assert (0 < b * b) by (apply Rsqr_pos_lt; auto). lra. }
  set (lam := sqrt (b * b + a * a)).
  assert (Lam : 0 < lam) by (apply sqrt_lt_R0; auto).
  assert (Cs := atan2_cos a b). assert (Sn := atan2_sin a b).
  fold lam in Cs, Sn.
  set (th := atan2 a b) in *.
  (* reduce phi0 - th to (-pi, pi] *)
  destruct (atan2_mod 1 (hp PHI0 - th) Rlt_0_1) as [k Hk]. rewrite !Rmult_1_l in Hk.
  assert (Rg := atan2_range (sin (hp PHI0 - th)) (cos (hp PHI0 - th))).
  rewrite Hk in Rg.
  exists ((hp PHI0 - th + 2 * IZR k * PI) / hp OMEGA), lam. split; auto. split.
  { replace (hp OMEGA * ((hp PHI0 - th + 2 * IZR k * PI) / hp OMEGA)) with (hp PHI0 - th + 2 * IZR k * PI) by (field; auto).
    apply Rabs_le. lra. }
  assert (Ea : hp PHI0 - (hp PHI0 - th + 2 * IZR k * PI) / hp OMEGA * hp OMEGA = th + 2 * IZR (- k) * PI)
    by (rewrite opp_IZR; field; auto).
  split.
  - unfold ray. destruct (hcurve_centre hp rp ((hp PHI0 - th + 2 * IZR k * PI) / hp OMEGA) H) as [A1 A2].
    rewrite A1, A2, Ea, sin_2kpi, cos_2kpi. f_equal.
    + transitivity (vx (centre hp rp) - (lam * sin th) / hp OMEGA); [|field; auto].
      rewrite Sn. unfold a. field. auto.
    + transitivity (vy (centre hp rp) + (lam * cos th) / hp OMEGA); [|field; auto].
      rewrite Cs. unfold b. field. auto.
  - unfold lam, dist_xy. cbn [vx vy].
    rewrite <- sqrt_Rsqr_abs, <- sqrt_mult_alt by apply Rle_0_sqr. f_equal. unfold Rsqr, a, b. ring.
Qed.

(** the centre itself: the azimuth is taken to be 0 *)
Lemma SfromXY_centre hp rp : hp OMEGA <> 0 -> - PI < hp PHI0 <= PI ->
  calculateSfromXY (vx (centre hp rp)) (vy (centre hp rp)) hp rp
  = (if Req_EM_T (hp PHI0) PI then NonFin else Ok 0).
Proof.
  intros H Hp. unfold calculateSfromXY, calculatePhi0, calculateD0, calculateCurvature. cbv zeta.
  assert (E1 : sin (hp PHI0) - hp OMEGA * (vx (centre hp rp) - (vx rp - sin (hp PHI0) * hp D0)) = 0)
    by (unfold centre; cbn [vx]; field; auto).
  assert (E2 : cos (hp PHI0) + hp OMEGA * (vy (centre hp rp) - (vy rp + cos (hp PHI0) * hp D0)) = 0)
    by (unfold centre; cbn [vy]; field; auto).
  assert (E3 : (vx (centre hp rp) - (vx rp - sin (hp PHI0) * hp D0)) * cos (hp PHI0)
               + (vy (centre hp rp) - (vy rp + cos (hp PHI0) * hp D0)) * sin (hp PHI0) = 0)
    by (unfold centre; cbn [vx vy]; field; auto).
  rewrite E1, E2, E3. unfold atan2. destruct (Rlt_dec 0 0); [lra|].
  unfold dphi_of. replace (0 - hp PHI0) with (- hp PHI0) by ring.
  destruct (Rlt_dec (- hp PHI0) (- PI)); [lra|]. destruct (Rlt_dec PI (- hp PHI0)); [lra|].
  destruct (Req_EM_T (hp PHI0) PI) as [Q|Q].
  - rewrite Q. destruct (Req_EM_T (- PI) 0) as [Z|Z]; [generalize PI_pos; intros; lra|].
    rewrite sin_neg, sin_PI, Ropp_0. apply rdiv_zero.
  - destruct (Req_EM_T (- hp PHI0) 0) as [Z|Z]; auto.
    rewrite Rmult_0_l. unfold rdiv. destruct (Req_EM_T (sin (- hp PHI0)) 0) as [S|S].
    + apply sin_zero_small in S; lra.
    + f_equal. unfold Rdiv. ring.
Qed.
