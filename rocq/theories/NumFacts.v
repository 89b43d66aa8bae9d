(** Facts about [atan2], [rdiv] and the wrapping loops. *)
From Coq Require Import Reals Lra Lia ZArith Psatz.
From Verif Require Import Num.
Open Scope R_scope.

Lemma rdiv_ok a b : b <> 0 -> rdiv a b = Ok (a / b).
Proof. intros H. unfold rdiv. destruct (Req_EM_T b 0); [contradiction | reflexivity]. Qed.

Lemma rdiv_zero a : rdiv a 0 = NonFin.
Proof. unfold rdiv. destruct (Req_EM_T 0 0); [reflexivity | contradiction]. Qed.

Lemma rdiv_inv a b c : rdiv a b = Ok c -> b <> 0 /\ c = a / b.
Proof.
  unfold rdiv. destruct (Req_EM_T b 0); intros H; [discriminate|].
  inversion H. auto.
Qed.

Lemma bind_ok {A B} (x : res A) (k : A -> res B) b :
  bind x k = Ok b -> exists a, x = Ok a /\ k a = Ok b.
Proof. destruct x; simpl; intros; try discriminate. eauto. Qed.

Lemma PI_pos : 0 < PI.
Proof. exact PI_RGT_0. Qed.

Lemma sqrt_sq_eq a : 0 <= a -> sqrt a * sqrt a = a.
Proof. apply sqrt_sqrt. Qed.

Lemma sc1 x : sin x * sin x + cos x * cos x = 1.
Proof. generalize (sin2_cos2 x). unfold Rsqr. auto. Qed.

(** ** atan *)
Lemma cos_atan_pos x : 0 < cos (atan x).
Proof. apply cos_gt_0; destruct (atan_bound x); lra. Qed.

Lemma sin_atan_cos x : sin (atan x) = x * cos (atan x).
Proof.
  generalize (tan_atan x) (cos_atan_pos x). unfold tan. intros H Hc.
  rewrite <- H at 2. field. lra.
Qed.

Lemma cos_atan_sq x : cos (atan x) * cos (atan x) * (1 + x * x) = 1.
Proof.
  generalize (sc1 (atan x)). rewrite sin_atan_cos. intros H.
  replace (cos (atan x) * cos (atan x) * (1 + x * x))
    with (x * cos (atan x) * (x * cos (atan x)) + cos (atan x) * cos (atan x)) by ring.
  exact H.
Qed.

Lemma cos_atan_eq x : cos (atan x) = / sqrt (1 + x * x).
Proof.
  assert (H1 : 0 < 1 + x * x) by nra.
  assert (Hs : 0 < sqrt (1 + x * x)) by (apply sqrt_lt_R0; auto).
  generalize (cos_atan_sq x) (cos_atan_pos x); intros E Hc.
  apply Rmult_eq_reg_r with (sqrt (1 + x * x)); [|lra].
  rewrite Rinv_l by lra.
  assert (Hq : (cos (atan x) * sqrt (1 + x * x)) * (cos (atan x) * sqrt (1 + x * x)) = 1).
  { replace ((cos (atan x) * sqrt (1 + x * x)) * (cos (atan x) * sqrt (1 + x * x)))
      with (cos (atan x) * cos (atan x) * (sqrt (1 + x * x) * sqrt (1 + x * x))) by ring.
    rewrite sqrt_sqrt by lra. exact E. }
  assert (0 < cos (atan x) * sqrt (1 + x * x)) by (apply Rmult_lt_0_compat; auto).
  nra.
Qed.

(** ** atan2 *)
Lemma atan2_range y x : - PI < atan2 y x <= PI.
Proof.
  generalize PI_pos; intro HP. unfold atan2.
  destruct (atan_bound (y / x)) as [B1 B2].
  destruct (Rlt_dec 0 x) as [H|H]; [lra|].
  destruct (Rlt_dec x 0) as [H'|H'].
  - destruct (Rle_dec 0 y) as [H2|H2].
    + assert (y / x <= 0).
      { unfold Rdiv. generalize (Rinv_lt_0_compat x H'); intro. nra. }
      assert (atan (y / x) <= 0).
      { destruct (Req_dec (y / x) 0) as [E|E]; [rewrite E, atan_0; lra|].
        rewrite <- atan_0. left. apply atan_increasing. lra. }
      lra.
    + assert (0 < y / x).
      { unfold Rdiv. generalize (Rinv_lt_0_compat x H'); intro. nra. }
      assert (0 < atan (y / x)).
      { rewrite <- atan_0. apply atan_increasing. lra. }
      lra.
  - destruct (Rlt_dec 0 y); [lra|]. destruct (Rlt_dec y 0); lra.
Qed.

Lemma sqrt_x2y2_pos x y : (x <> 0 \/ y <> 0) -> 0 < sqrt (x * x + y * y).
Proof.
  intros H. apply sqrt_lt_R0.
  destruct H as [H|H].
  - assert (0 < x * x) by nra. nra.
  - assert (0 < y * y) by nra. nra.
Qed.

Lemma cos_minus_PI x : cos (x - PI) = - cos x.
Proof. rewrite cos_minus, cos_PI, sin_PI. ring. Qed.
Lemma sin_minus_PI x : sin (x - PI) = - sin x.
Proof. rewrite sin_minus, cos_PI, sin_PI. ring. Qed.
Lemma cos_plus_PI x : cos (x + PI) = - cos x.
Proof. rewrite cos_plus, cos_PI, sin_PI. ring. Qed.
Lemma sin_plus_PI x : sin (x + PI) = - sin x.
Proof. rewrite sin_plus, cos_PI, sin_PI. ring. Qed.

Lemma sqrt_scale x y : x <> 0 -> sqrt (x * x + y * y) * cos (atan (y / x)) = Rabs x.
Proof.
  intros Hx.
  rewrite cos_atan_eq.
  assert (Hp : 0 < 1 + y / x * (y / x)).
  { assert (0 <= y / x * (y / x)) by (generalize (Rle_0_sqr (y/x)); unfold Rsqr; auto). lra. }
  assert (E : x * x + y * y = (x * x) * (1 + y / x * (y / x))) by (field; auto).
  rewrite E. rewrite sqrt_mult; [|nra|lra].
  assert (0 < sqrt (1 + y / x * (y / x))) by (apply sqrt_lt_R0; lra).
  replace (sqrt (x * x)) with (Rabs x).
  - field. lra.
  - symmetry. apply sqrt_Rsqr_abs.
Qed.

Lemma atan2_cos y x : sqrt (x * x + y * y) * cos (atan2 y x) = x.
Proof.
  unfold atan2.
  destruct (Rlt_dec 0 x) as [H|H].
  - rewrite sqrt_scale by lra. apply Rabs_pos_eq; lra.
  - destruct (Rlt_dec x 0) as [H'|H'].
    + destruct (Rle_dec 0 y).
      * rewrite cos_plus_PI.
        replace (sqrt (x * x + y * y) * - cos (atan (y / x)))
          with (- (sqrt (x * x + y * y) * cos (atan (y / x)))) by ring.
        rewrite sqrt_scale by lra. rewrite Rabs_left; lra.
      * rewrite cos_minus_PI.
        replace (sqrt (x * x + y * y) * - cos (atan (y / x)))
          with (- (sqrt (x * x + y * y) * cos (atan (y / x)))) by ring.
        rewrite sqrt_scale by lra. rewrite Rabs_left; lra.
    + assert (x = 0) by lra. subst x.
      destruct (Rlt_dec 0 y).
      * rewrite cos_PI2. ring.
      * destruct (Rlt_dec y 0).
        -- rewrite cos_neg, cos_PI2. ring.
        -- assert (y = 0) by lra. subst y. replace (0*0+0*0) with 0 by ring.
           rewrite sqrt_0. ring.
Qed.

Lemma atan2_sin y x : sqrt (x * x + y * y) * sin (atan2 y x) = y.
Proof.
  unfold atan2.
  destruct (Rlt_dec 0 x) as [H|H].
  - rewrite sin_atan_cos.
    replace (sqrt (x * x + y * y) * (y / x * cos (atan (y / x))))
      with (y / x * (sqrt (x * x + y * y) * cos (atan (y / x)))) by ring.
    rewrite sqrt_scale by lra. rewrite Rabs_pos_eq by lra. field. lra.
  - destruct (Rlt_dec x 0) as [H'|H'].
    + assert (E : sqrt (x * x + y * y) * - sin (atan (y / x)) = y).
      { rewrite sin_atan_cos.
        replace (sqrt (x * x + y * y) * - (y / x * cos (atan (y / x))))
          with (- (y / x * (sqrt (x * x + y * y) * cos (atan (y / x))))) by ring.
        rewrite sqrt_scale by lra. rewrite Rabs_left by lra. field. lra. }
      destruct (Rle_dec 0 y).
      * rewrite sin_plus_PI. exact E.
      * rewrite sin_minus_PI. exact E.
    + assert (x = 0) by lra. subst x.
      destruct (Rlt_dec 0 y).
      * rewrite sin_PI2. replace (0*0+y*y) with (y*y) by ring.
        rewrite sqrt_square by lra. ring.
      * destruct (Rlt_dec y 0).
        -- rewrite sin_neg, sin_PI2. replace (0*0+y*y) with (-y*-y) by ring.
           rewrite sqrt_square by lra. ring.
        -- assert (y = 0) by lra. subst y. rewrite sin_0. ring.
Qed.

(** An angle is determined by its cosine and sine up to full turns. *)
Lemma angle_eq_2pi a b : cos a = cos b -> sin a = sin b ->
  exists k : Z, a = b + 2 * IZR k * PI.
Proof.
  intros Hc Hs.
  assert (H0 : cos (a - b) = 1).
  { rewrite cos_minus, Hc, Hs. generalize (sc1 b). lra. }
  assert (H1 : sin ((a - b) / 2) = 0).
  { assert (E : cos (a - b) = 1 - 2 * (sin ((a - b) / 2) * sin ((a - b) / 2))).
    { replace (a - b) with (2 * ((a - b) / 2)) at 1 by field.
      rewrite cos_2a_sin. ring. }
    nra. }
  destruct (sin_eq_0_0 _ H1) as [k Hk].
  exists k. lra.
Qed.

Lemma IZR_between a b k : IZR a < IZR k < IZR b -> (a < k < b)%Z.
Proof. intros [H1 H2]. split; apply lt_IZR; auto. Qed.

Lemma angle_unique a b : cos a = cos b -> sin a = sin b ->
  - PI < a <= PI -> - PI < b <= PI -> a = b.
Proof.
  intros Hc Hs Ha Hb.
  destruct (angle_eq_2pi a b Hc Hs) as [k Hk].
  generalize PI_pos; intros HP.
  assert (HK : IZR (-1) < IZR k < IZR 1).
  { split.
    - apply Rmult_lt_reg_l with (2 * PI); [lra|]. simpl. nra.
    - apply Rmult_lt_reg_l with (2 * PI); [lra|]. simpl. nra. }
  apply IZR_between in HK. assert (k = 0%Z) by lia. subst k. simpl in Hk. lra.
Qed.

Lemma atan2_unique r t : 0 < r -> - PI < t <= PI ->
  atan2 (r * sin t) (r * cos t) = t.
Proof.
  intros Hr Ht.
  assert (Hn : sqrt (r * cos t * (r * cos t) + r * sin t * (r * sin t)) = r).
  { replace (r * cos t * (r * cos t) + r * sin t * (r * sin t))
      with (r * r * (sin t * sin t + cos t * cos t)) by ring.
    rewrite sc1, Rmult_1_r. apply sqrt_square. lra. }
  generalize (atan2_cos (r * sin t) (r * cos t)) (atan2_sin (r * sin t) (r * cos t)).
  rewrite Hn. intros Hc Hs.
  apply angle_unique; auto.
  - apply Rmult_eq_reg_l with r; lra.
  - apply Rmult_eq_reg_l with r; lra.
  - apply atan2_range.
Qed.

Lemma atan2_sincos t : - PI < t <= PI -> atan2 (sin t) (cos t) = t.
Proof.
  intros H. rewrite <- (atan2_unique 1 t) at 3; try lra. f_equal; ring.
Qed.

(** [atan2] of a vector that is a positive multiple of (cos t, sin t) gives [t]
    up to full turns *)
Lemma atan2_mod r t : 0 < r ->
  exists k : Z, atan2 (r * sin t) (r * cos t) = t + 2 * IZR k * PI.
Proof.
  intros Hr.
  assert (Hn : sqrt (r * cos t * (r * cos t) + r * sin t * (r * sin t)) = r).
  { replace (r * cos t * (r * cos t) + r * sin t * (r * sin t))
      with (r * r * (sin t * sin t + cos t * cos t)) by ring.
    rewrite sc1, Rmult_1_r. apply sqrt_square. lra. }
  generalize (atan2_cos (r * sin t) (r * cos t)) (atan2_sin (r * sin t) (r * cos t)).
  rewrite Hn. intros Hc Hs.
  apply angle_eq_2pi; apply Rmult_eq_reg_l with r; lra.
Qed.

Lemma cos_2kpi x k : cos (x + 2 * IZR k * PI) = cos x.
Proof.
  destruct k as [|p|p].
  - f_equal. simpl. ring.
  - replace (IZR (Z.pos p)) with (INR (Pos.to_nat p))
      by (rewrite INR_IZR_INZ, positive_nat_Z; reflexivity).
    apply cos_period.
  - rewrite <- (cos_period (x + 2 * IZR (Z.neg p) * PI) (Pos.to_nat p)).
    f_equal. rewrite INR_IZR_INZ, positive_nat_Z.
    change (Z.neg p) with (- Z.pos p)%Z. rewrite opp_IZR. ring.
Qed.

Lemma sin_2kpi x k : sin (x + 2 * IZR k * PI) = sin x.
Proof.
  destruct k as [|p|p].
  - f_equal. simpl. ring.
  - replace (IZR (Z.pos p)) with (INR (Pos.to_nat p))
      by (rewrite INR_IZR_INZ, positive_nat_Z; reflexivity).
    apply sin_period.
  - rewrite <- (sin_period (x + 2 * IZR (Z.neg p) * PI) (Pos.to_nat p)).
    f_equal. rewrite INR_IZR_INZ, positive_nat_Z.
    change (Z.neg p) with (- Z.pos p)%Z. rewrite opp_IZR. ring.
Qed.

(** ** wrapping loops *)
Lemma loop_up_spec fuel lo x :
  lo - x < 2 * PI * INR fuel ->
  exists n : nat, loop_up (S fuel) lo x = Ok (x + 2 * INR n * PI)
    /\ lo <= x + 2 * INR n * PI
    /\ (n = O \/ x + 2 * INR n * PI < lo + 2 * PI)
    /\ (lo <= x -> n = O).
Proof.
  revert x. induction fuel as [|fuel IH]; intros x H.
  - simpl in H. exists O. simpl. destruct (Rlt_dec x lo); [lra|].
    repeat split; try (f_equal; ring); try lra; auto.
  - change (loop_up (S (S fuel)) lo x)
      with (if Rlt_dec x lo then loop_up (S fuel) lo (x + 2 * PI) else Ok x).
    destruct (Rlt_dec x lo) as [L|L].
    + destruct (IH (x + 2 * PI)) as (n & E & A & B & Cc).
      { rewrite S_INR in H. lra. }
      exists (S n). rewrite E, S_INR.
      split; [f_equal; ring|]. split; [lra|].
      split; [|lra]. right.
      destruct B as [B|B]; [|lra]. subst n. simpl. lra.
    + exists O. simpl. repeat split; try (f_equal; ring); try lra; auto.
Qed.

Lemma wrap_fuel_enough d : d < 2 * PI * INR (Z.to_nat (up (Rabs d / (2 * PI)))).
Proof.
  generalize PI_pos; intros HP.
  destruct (archimed (Rabs d / (2 * PI))) as [H _].
  assert (H0 : 0 <= Rabs d / (2 * PI)).
  { apply Rmult_le_pos; [apply Rabs_pos|]. left. apply Rinv_0_lt_compat. lra. }
  assert (Hz : (0 <= up (Rabs d / (2 * PI)))%Z) by (apply le_IZR; lra).
  rewrite INR_IZR_INZ, Z2Nat.id by auto.
  assert (d <= Rabs d) by apply RRle_abs.
  assert (Rabs d < 2 * PI * IZR (up (Rabs d / (2 * PI)))).
  { replace (Rabs d) with (2 * PI * (Rabs d / (2 * PI))) at 1 by (field; lra).
    apply Rmult_lt_compat_l; lra. }
  lra.
Qed.

Lemma while_less_spec lo x :
  exists n : nat, while_less lo x = Ok (x + 2 * INR n * PI)
    /\ lo <= x + 2 * INR n * PI
    /\ (n = O \/ x + 2 * INR n * PI < lo + 2 * PI)
    /\ (lo <= x -> n = O).
Proof. unfold while_less, wrap_fuel. apply loop_up_spec, wrap_fuel_enough. Qed.

Lemma loop_down_spec fuel hi x :
  x - hi < 2 * PI * INR fuel ->
  exists n : nat, loop_down (S fuel) hi x = Ok (x - 2 * INR n * PI)
    /\ x - 2 * INR n * PI <= hi
    /\ (n = O \/ hi - 2 * PI < x - 2 * INR n * PI)
    /\ (x <= hi -> n = O).
Proof.
  revert x. induction fuel as [|fuel IH]; intros x H.
  - simpl in H. exists O. simpl. destruct (Rlt_dec hi x); [lra|].
    repeat split; try (f_equal; ring); try lra; auto.
  - change (loop_down (S (S fuel)) hi x)
      with (if Rlt_dec hi x then loop_down (S fuel) hi (x - 2 * PI) else Ok x).
    destruct (Rlt_dec hi x) as [L|L].
    + destruct (IH (x - 2 * PI)) as (n & E & A & B & Cc).
      { rewrite S_INR in H. lra. }
      exists (S n). rewrite E, S_INR.
      split; [f_equal; ring|]. split; [lra|].
      split; [|lra]. right.
      destruct B as [B|B]; [|lra]. subst n. simpl. lra.
    + exists O. simpl. repeat split; try (f_equal; ring); try lra; auto.
Qed.

Lemma while_greater_spec hi x :
  exists n : nat, while_greater hi x = Ok (x - 2 * INR n * PI)
    /\ x - 2 * INR n * PI <= hi
    /\ (n = O \/ hi - 2 * PI < x - 2 * INR n * PI)
    /\ (x <= hi -> n = O).
Proof. unfold while_greater, wrap_fuel. apply loop_down_spec, wrap_fuel_enough. Qed.

(** The pair of loops [while(x<lo) x+=2pi; while(x>lo+2pi) x-=2pi]. *)
Lemma wrap_spec lo x :
  exists y z (k : Z), while_less lo x = Ok y /\ while_greater (lo + 2 * PI) y = Ok z
    /\ z = x + 2 * IZR k * PI /\ lo <= z <= lo + 2 * PI
    /\ (lo <= x <= lo + 2 * PI -> z = x).
Proof.
  generalize PI_pos; intros HP.
  destruct (while_less_spec lo x) as (n & E1 & A1 & B1 & C1).
  destruct (while_greater_spec (lo + 2 * PI) (x + 2 * INR n * PI)) as (m & E2 & A2 & B2 & C2).
  exists (x + 2 * INR n * PI), (x + 2 * INR n * PI - 2 * INR m * PI), (Z.of_nat n - Z.of_nat m)%Z.
  split; [exact E1|]. split; [exact E2|].
  split; [rewrite minus_IZR, <- !INR_IZR_INZ; ring|].
  split.
  - split; [|lra]. destruct B2 as [B2|B2]; [subst m; simpl; lra| lra].
  - intros [H1 H2]. rewrite (C1 H1) in *. simpl in C2.
    rewrite C2 by lra. simpl. ring.
Qed.
