(** Proofs about tracks followed backwards (C72). *)
From Coq Require Import Reals Lra Lia ZArith Psatz List Bool FunctionalExtensionality.
From Verif Require Import SpecConst Num NumFacts Vec Helix Isect SpecHelix SpecIsect SpecSym SpecRev
  HelixFacts PathFacts IsectFacts SurfFacts SymFacts SymFacts2.
Import ListNotations.
Open Scope R_scope.

Lemma rev_trig p q : reversed p q -> sin (q PHI0) = - sin (p PHI0) /\ cos (q PHI0) = - cos (p PHI0).
Proof.
  intros (_ & _ & _ & _ & k & ->). rewrite sin_2kpi, cos_2kpi, neg_sin, neg_cos. auto.
Qed.

Lemma rev_trig_at p q s : reversed p q ->
  sin (q PHI0 - - s * q OMEGA) = - sin (p PHI0 - s * p OMEGA)
  /\ cos (q PHI0 - - s * q OMEGA) = - cos (p PHI0 - s * p OMEGA).
Proof.
  intros (O & _ & _ & _ & k & ->). rewrite O.
  replace (p PHI0 + PI + 2 * IZR k * PI - - s * - p OMEGA)
    with (p PHI0 - s * p OMEGA + PI + 2 * IZR k * PI) by ring.
  rewrite sin_2kpi, cos_2kpi, neg_sin, neg_cos. auto.
Qed.

Lemma reversed_sym p q : reversed p q -> reversed q p.
Proof.
  intros (O & T & D & Z & k & P). unfold reversed. rewrite O, T, D, Z.
  repeat split; try ring. exists (- k - 1)%Z. rewrite P, minus_IZR, opp_IZR. ring.
Qed.

Lemma rev_om p q : reversed p q -> p OMEGA <> 0 -> q OMEGA <> 0.
Proof. intros (O & _) N. rewrite O. lra. Qed.

Lemma rev_start p q rp : reversed p q -> track_start q rp = track_start p rp.
Proof.
  intros H. destruct (rev_trig p q H) as [S C]. destruct H as (O & T & D & Z & _).
  unfold track_start. rewrite S, C, D, Z. f_equal; ring.
Qed.

Lemma rev_hcurve p q rp s : reversed p q -> p OMEGA <> 0 -> hcurve q rp (- s) = hcurve p rp s.
Proof.
  intros H N. destruct (rev_trig p q H) as [S C]. destruct (rev_trig_at p q s H) as [S' C'].
  destruct H as (O & T & D & Z & _).
  unfold hcurve. rewrite S', C', S, C, O, T, D, Z. f_equal; field; auto.
Qed.

Lemma rev_pointAt p q rp s : reversed p q -> pointAt (- s) q rp = pointAt s p rp.
Proof.
  intros H. destruct (Req_dec (p OMEGA) 0) as [E|N].
  - rewrite !pointAt_zero; auto. destruct H as (O & _). lra.
  - rewrite !pointAt_hcurve; auto. + f_equal. apply rev_hcurve; auto. + apply (rev_om p q); auto.
Qed.

Lemma rev_zfroms p q rp s : reversed p q -> calculateZfromS (- s) q rp = calculateZfromS s p rp.
Proof.
  intros (O & T & D & Z & _). unfold calculateZfromS, calculateZ0, calculateTanLambda.
  rewrite T, Z. ring.
Qed.

Lemma rev_xfroms p q rp s : reversed p q -> calculateXfromS (- s) q rp = calculateXfromS s p rp.
Proof.
  intros H. destruct (rev_trig p q H) as [S C].
  assert (C2 : cos (q PHI0 - q OMEGA * - s / 2) = - cos (p PHI0 - p OMEGA * s / 2)).
  { destruct (rev_trig_at p q (s / 2) H) as [_ Q].
    replace (q PHI0 - q OMEGA * - s / 2) with (q PHI0 - - (s / 2) * q OMEGA) by (unfold Rdiv; ring).
    rewrite Q. f_equal. f_equal. unfold Rdiv. ring. }
  destruct H as (O & T & D & Z & _).
  unfold calculateXfromS, calculateX0, calculateCurvature, calculatePhi0, calculateD0.
  rewrite C2, !sin_neg, S, C, D, O.
  destruct (Req_EM_T (- p OMEGA) 0); destruct (Req_EM_T (p OMEGA) 0); try lra.
  replace (- p OMEGA * - s / 2) with (p OMEGA * s / 2) by (unfold Rdiv; ring). field. auto.
Qed.

Lemma rev_yfroms p q rp s : reversed p q -> calculateYfromS (- s) q rp = calculateYfromS s p rp.
Proof.
  intros H. destruct (rev_trig p q H) as [S C].
  assert (C2 : sin (q PHI0 - q OMEGA * - s / 2) = - sin (p PHI0 - p OMEGA * s / 2)).
  { destruct (rev_trig_at p q (s / 2) H) as [Q _].
    replace (q PHI0 - q OMEGA * - s / 2) with (q PHI0 - - (s / 2) * q OMEGA) by (unfold Rdiv; ring).
    rewrite Q. f_equal. f_equal. unfold Rdiv. ring. }
  destruct H as (O & T & D & Z & _).
  unfold calculateYfromS, calculateY0, calculateCurvature, calculatePhi0, calculateD0.
  rewrite C2, C, D, O.
  destruct (Req_EM_T (- p OMEGA) 0); destruct (Req_EM_T (p OMEGA) 0); try lra.
  replace (- p OMEGA * - s / 2) with (p OMEGA * s / 2) by (unfold Rdiv; ring). field. auto.
Qed.

Lemma rev_tangent p q s : reversed p q -> calculateTangent (- s) q = opposite (calculateTangent s p).
Proof.
  intros H. destruct (rev_trig_at p q s H) as [S C]. destruct H as (O & T & _).
  unfold calculateTangent, calculateCurvature, calculatePhi0, calculateLambda, calculateTanLambda, opposite.
  cbn [vx vy vz].
  replace (q OMEGA * - s) with (- s * q OMEGA) by ring. rewrite S, C, T, atan_opp, sin_neg, cos_neg.
  replace (p OMEGA * s) with (s * p OMEGA) by ring. f_equal; ring.
Qed.

(** ** Path length to a point *)
Lemma rev_div N N' d d' (k : Z) :
  - PI <= d <= PI -> - PI <= d' <= PI -> d' = d + 2 * IZR k * PI -> N' = - N ->
  (if Req_EM_T d' 0 then Ok 0 else rdiv (N' * d') (sin d'))
  = res_map Ropp (if Req_EM_T d 0 then Ok 0 else rdiv (N * d) (sin d)).
Proof.
  intros R R' E ->.
  rewrite (path_div (- N) (- N) d d' 1 k) by (auto; rewrite E; ring).
  destruct (Req_EM_T d 0) as [Z|Z]; [cbn; f_equal; ring|].
  unfold rdiv. destruct (Req_EM_T (sin d) 0); [reflexivity|]. cbn. f_equal. field. auto.
Qed.

Lemma rev_path p q rp x y : reversed p q -> azimuth_ok p -> azimuth_ok q -> off_axis p rp x y ->
  calculateSfromXY x y q rp = res_map Ropp (calculateSfromXY x y p rp).
Proof.
  intros H K1 K2 OA. assert (RV := H). destruct (rev_trig p q H) as [S C].
  destruct H as (O & T & D & Ez & kp & P).
  unfold calculateSfromXY. cbv zeta.
  unfold calculatePhi0, calculateD0, calculateCurvature. rewrite S, C, O, D.
  set (dx := x - (vx rp - sin (p PHI0) * p D0)).
  set (dy := y - (vy rp + cos (p PHI0) * p D0)).
  replace (x - (vx rp - - sin (p PHI0) * - p D0)) with dx by (unfold dx; ring).
  replace (y - (vy rp + - cos (p PHI0) * - p D0)) with dy by (unfold dy; ring).
  set (A := sin (p PHI0) - p OMEGA * dx). set (B := cos (p PHI0) + p OMEGA * dy).
  replace (- sin (p PHI0) - - p OMEGA * dx) with (- A) by (unfold A; ring).
  replace (- cos (p PHI0) + - p OMEGA * dy) with (- B) by (unfold B; ring).
  assert (AB : B <> 0 \/ A <> 0).
  { destruct (Req_dec (p OMEGA) 0) as [Zo|N].
    - unfold A, B. rewrite Zo. generalize (sc1 (p PHI0)); intros E.
      destruct (Req_dec (cos (p PHI0)) 0) as [Q|Q]; [right|left]; [|lra].
      rewrite Q in E. intros F. replace (sin (p PHI0)) with 0 in E by lra. lra.
    - destruct (OA N) as [F|F].
      + right. intros Zz. apply F. unfold A, dx in Zz.
        apply (Rmult_eq_reg_l (p OMEGA)); [|auto].
        transitivity (p OMEGA * (vx rp - p D0 * sin (p PHI0)) + sin (p PHI0)); [lra|].
        field. auto.
      + left. intros Zz. apply F. unfold B, dy in Zz.
        apply (Rmult_eq_reg_l (p OMEGA)); [|auto].
        transitivity (p OMEGA * (vy rp + p D0 * cos (p PHI0)) - cos (p PHI0)); [lra|].
        field. auto. }
  assert (AT : exists k : Z, atan2 (- A) (- B) = atan2 A B + PI + 2 * IZR k * PI).
  { assert (PP := sqrt_x2y2_pos B A AB).
    assert (C1 := atan2_cos (- A) (- B)). assert (S1 := atan2_sin (- A) (- B)).
    replace (- B * - B + - A * - A) with (B * B + A * A) in C1, S1 by ring.
    assert (C0 := atan2_cos A B). assert (S0 := atan2_sin A B).
    apply angle_eq_2pi; apply (Rmult_eq_reg_l (sqrt (B * B + A * A))); try lra;
      rewrite ?neg_cos, ?neg_sin; lra. }
  destruct AT as [k Hk].
  destruct (dphi_of_spec (atan2 A B) (p PHI0)) as ([k1 E1] & R1 & _).
  destruct (dphi_of_spec (atan2 (- A) (- B)) (q PHI0)) as ([k2 E2] & R2 & _).
  specialize (R1 K1 (atan2_range A B)).
  specialize (R2 K2 (atan2_range _ _)).
  apply (rev_div _ _ _ _ (k + k2 - k1 - kp)); auto.
  - rewrite E1, E2, Hk, P, !minus_IZR, plus_IZR. ring.
  - ring.
Qed.

(** ** Choice between two candidates *)
Definition neg_pick (r : option (R * vec3)) : option (R * vec3) :=
  match r with Some (s, x) => Some (- s, x) | None => None end.

Lemma select_neg tol mode s0 x0 s1 x1 :
  0 <= tol ->
  (mode <> 0%Z -> s0 <> 0 /\ s1 <> 0) ->
  (mode = 0%Z -> (s0 < 0 -> 0 <= s1 -> tol < Rabs (s1 + s0)) /\ (s1 < 0 -> 0 <= s0 -> tol < Rabs (s0 + s1))) ->
  (s0 = s1 -> x0 = x1) ->
  select tol (- mode) (- s0) x0 (- s1) x1 = neg_pick (select tol mode s0 x0 s1 x1)
  /\ select tol (- mode) (- s1) x1 (- s0) x0 = neg_pick (select tol mode s0 x0 s1 x1).
Proof.
  intros HT H1 H2 H3. unfold select.
  assert (M : (mode < 0 \/ mode = 0 \/ 0 < mode)%Z) by lia.
  destruct M as [M|[M|M]].
  - destruct H1 as [N0 N1]; [lia|].
    replace (Z.ltb mode 1) with true by (symmetry; apply Z.ltb_lt; lia).
    replace (Z.ltb mode 0) with true by (symmetry; apply Z.ltb_lt; lia).
    replace (Z.ltb 0 mode) with false by (symmetry; apply Z.ltb_ge; lia).
    replace (Z.ltb (-1) mode) with false by (symmetry; apply Z.ltb_ge; lia).
    replace (Z.ltb (- mode) 1) with false by (symmetry; apply Z.ltb_ge; lia).
    replace (Z.ltb (- mode) 0) with false by (symmetry; apply Z.ltb_ge; lia).
    replace (Z.ltb 0 (- mode)) with true by (symmetry; apply Z.ltb_lt; lia).
    replace (Z.ltb (-1) (- mode)) with true by (symmetry; apply Z.ltb_lt; lia).
    split; repeat match goal with |- context [Rlt_dec ?a ?b] => destruct (Rlt_dec a b) end;
      cbn [neg_pick]; try lra; auto;
      (assert (E : s0 = s1) by lra; rewrite ?E, (H3 E); reflexivity).
  - subst mode. cbn [Z.opp]. change (Z.ltb 0 1) with true. change (Z.ltb 0 0) with false.
    change (Z.ltb (-1) 0) with true. destruct H2 as [T1 T2]; [reflexivity|].
    destruct (Rlt_dec s0 0) as [a|a]; destruct (Rlt_dec s1 0) as [b|b].
    + split; repeat match goal with |- context [Rlt_dec ?a ?b] => destruct (Rlt_dec a b) end;
        cbn [neg_pick]; try lra; auto;
        (assert (E : s0 = s1) by lra; rewrite ?E, (H3 E); reflexivity).
    + specialize (T1 a ltac:(lra)). clear T2.
      rewrite !Rabs_Ropp. rewrite (Rabs_left s0), (Rabs_pos_eq s1) by lra.
      unfold Rabs in T1; destruct (Rcase_abs (s1 + s0)) as [c|c];
      split; repeat match goal with |- context [Rlt_dec ?a ?b] => destruct (Rlt_dec a b) end;
        cbn [neg_pick]; try lra; auto;
        (assert (E : s1 = 0) by lra; rewrite ?E in *; try reflexivity; try lra).
    + specialize (T2 b ltac:(lra)). clear T1.
      rewrite !Rabs_Ropp. rewrite (Rabs_left s1), (Rabs_pos_eq s0) by lra.
      unfold Rabs in T2; destruct (Rcase_abs (s0 + s1)) as [c|c];
      split; repeat match goal with |- context [Rlt_dec ?a ?b] => destruct (Rlt_dec a b) end;
        cbn [neg_pick]; try lra; auto;
        (assert (E : s0 = 0) by lra; rewrite ?E in *; try reflexivity; try lra).
    + clear T1 T2. rewrite !Rabs_Ropp, (Rabs_pos_eq s1), (Rabs_pos_eq s0) by lra.
      split; repeat match goal with |- context [Rlt_dec ?a ?b] => destruct (Rlt_dec a b) end;
        cbn [neg_pick]; try lra; auto;
        (assert (E : s0 = s1) by lra; rewrite ?E, (H3 E); reflexivity).
  - destruct H1 as [N0 N1]; [lia|].
    replace (Z.ltb mode 1) with false by (symmetry; apply Z.ltb_ge; lia).
    replace (Z.ltb mode 0) with false by (symmetry; apply Z.ltb_ge; lia).
    replace (Z.ltb 0 mode) with true by (symmetry; apply Z.ltb_lt; lia).
    replace (Z.ltb (-1) mode) with true by (symmetry; apply Z.ltb_lt; lia).
    replace (Z.ltb (- mode) 1) with true by (symmetry; apply Z.ltb_lt; lia).
    replace (Z.ltb (- mode) 0) with true by (symmetry; apply Z.ltb_lt; lia).
    replace (Z.ltb 0 (- mode)) with false by (symmetry; apply Z.ltb_ge; lia).
    replace (Z.ltb (-1) (- mode)) with false by (symmetry; apply Z.ltb_ge; lia).
    split; repeat match goal with |- context [Rlt_dec ?a ?b] => destruct (Rlt_dec a b) end;
      cbn [neg_pick]; try lra; auto;
      (assert (E : s0 = s1) by lra; rewrite ?E, (H3 E); reflexivity).
Qed.
