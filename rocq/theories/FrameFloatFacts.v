(** Proofs about the local frame in double precision. *)
From Coq Require Import Reals ZArith Lra Lia Psatz List.
From Flocq Require Import Core.
From Verif Require Import Num Vec FloatWrap PointFloat SpecRound RoundFacts PointFloatFacts BetheFloatFacts PlaneFloat
  ProjFloat SpecProjFloat ProjFloatFacts PropProjFloat FrameFloat SpecFrameFloat.
Import ListNotations.
Open Scope R_scope.

Lemma triad phi lam : vcross (sideways phi) (upwards phi lam) = along phi lam.
Proof.
  unfold vcross, sideways, upwards, along. cbn [vx vy vz]. assert (Q := sin2_cos2 phi). unfold Rsqr in Q.
  f_equal; [ring|ring|]. replace (- sin phi * (- sin phi * sin lam) - cos phi * (- cos phi * sin lam)) with ((sin phi * sin phi + cos phi * cos phi) * sin lam) by ring. rewrite Q. ring.
Qed.

Lemma frame_err L s hp : accurate L -> moderate s -> (forall i, moderate (hp i)) ->
  exists U V, calculateLocalCurvilinearSystem_d L s hp = Ok (U, V)
  /\ close (wobble s hp) U (sideways (azimuth s hp)) /\ close (wobble s hp) V (upwards (azimuth s hp) (atan (hp TANL))).
Proof.
  intros HL [Ds Ms] Hh. assert (U := u_small). assert (LU := least_u). assert (L0 := least_pos).
  unfold azimuth, wobble, calculateLocalCurvilinearSystem_d. set (C := hp OMEGA * s). set (ph := hp PHI0). set (cd := rnd C). set (th := rnd (ph - cd)).
  assert (MC : mag C 400) by (apply (mag_mul _ _ 200 200); [apply (Hh OMEGA)|exact Ms]).
  assert (Mc : mag cd 400) by (apply mag_rnd; [lia|auto]).
  assert (M2 : mag (ph - cd) (400 + 1)) by (apply mag_sub; auto; apply (mag_le _ 200); [apply (Hh PHI0)|lia]).
  assert (Ec : Rabs (cd - C) <= uround * Rabs C + least) by apply rnd_err.
  assert (W := rnd_step _ _ _ (sub_err _ _ _ _ _ _ (same_err ph) Ec)). fold th in W.
  assert (T : Rabs (ph - C) <= Rabs ph + Rabs C).
  { unfold Rminus. eapply Rle_trans; [apply Rabs_triang|]. rewrite Rabs_Ropp. lra. }
  assert (uround * Rabs (ph - C) <= uround * (Rabs ph + Rabs C)) by (apply Rmult_le_compat_l; lra).
  assert (P := Rabs_pos C). assert (UC : 0 <= uround * Rabs C) by (apply Rmult_le_pos; lra).
  assert (Pp := Rabs_pos ph). assert (UP : 0 <= uround * Rabs ph) by (apply Rmult_le_pos; lra).
  assert (Et : Rabs (th - (ph - C)) <= uround * Rabs ph + 21 / 10 * (uround * Rabs C) + 3 * least) by lra.
  assert (Dt : is_double th) by apply rnd_double.
  assert (E1 := cos_err L _ _ _ HL Dt Et). assert (E2 := sin_err L _ _ _ HL Dt Et).
  destruct (lambda_err L (hp TANL) HL (proj1 (Hh TANL))) as (Dl & El & Em & Sl).
  assert (S1 := cos_size L th HL Dt). assert (S2 := sin_size L th HL Dt). assert (S3 := sin_size L _ HL Dl).
  assert (OP : forall a b e, Rabs (a - b) <= e -> Rabs (- a - - b) <= e) by (intros a b e H0; replace (- a - - b) with (- (a - b)) by ring; rewrite Rabs_Ropp; exact H0).
  assert (PR : forall f g e, Rabs (f - g) <= e -> Rabs g <= 1 -> Rabs f <= 1001 / 1000 ->
    rd (- f * m_sin L (m_atan L (hp TANL))) = Ok (rnd (- f * m_sin L (m_atan L (hp TANL))))
    /\ Rabs (rnd (- f * m_sin L (m_atan L (hp TANL))) - - g * sin (atan (hp TANL))) <= 101 / 100 * e + 9 * uround).
  { intros f g e H1 H2 H3. split.
    - apply (mag_rd _ 2); [lia|]. apply (mag_mul _ _ 1 1); [apply mag_opp|]; apply mag_1; auto.
    - assert (Q := mul_err _ _ _ _ _ _ 1 (1001 / 1000) (OP _ _ _ H1) Em ltac:(rewrite Rabs_Ropp; exact H2) S3).
      assert (R1 := rnd_step _ _ _ Q). assert (Rabs (- g * sin (atan (hp TANL))) <= 1).
      { rewrite Rabs_mult, Rabs_Ropp. rewrite <- (Rmult_1_r 1). apply Rmult_le_compat; auto using Rabs_pos, sin_1. }
      assert (uround * Rabs (- g * sin (atan (hp TANL))) <= uround * 1) by (apply Rmult_le_compat_l; lra).
      assert (0 <= e) by (eapply Rle_trans; [apply Rabs_pos|exact H1]). lra. }
  destruct (PR _ _ _ E1 (cos_1 _) S1) as (R1 & F1). destruct (PR _ _ _ E2 (sin_1 _) S2) as (R2 & F2).
  eexists _, _. split; [|split].
  - rewrite (mag_rd _ 400 ltac:(lia) MC). cbn [bind]. fold cd.
    rewrite (mag_rd _ 401 ltac:(lia) M2). cbn [bind]. fold th. rewrite R1. cbn [bind]. rewrite R2. reflexivity.
  - unfold close, sideways. cbn [vx vy vz]. split; [apply OP; lra|]. split; [lra|]. rewrite Rminus_0_r, Rabs_R0. lra.
  - unfold close, upwards. cbn [vx vy vz]. split; [lra|]. split; [lra|]. lra.
Qed.

(** the three vectors of the frame are orthonormal whatever the angle *)
Lemma frame_norm L s hp U V : accurate L -> (forall i, is_double (hp i)) -> calculateLocalCurvilinearSystem_d L s hp = Ok (U, V) ->
  direction U /\ direction V /\ Rabs (square U - 1) <= 10 * uround /\ Rabs (square V - 1) <= 32 * uround /\ Rabs (vdot U V) <= 3 * uround.
Proof.
  intros HL Hd. unfold calculateLocalCurvilinearSystem_d.
  destruct (rd (hp OMEGA * s)) as [c| | | |] eqn:Ec; cbn [bind]; try discriminate.
  destruct (rd (hp PHI0 - c)) as [th| | | |] eqn:Et; cbn [bind]; try discriminate.
  set (l := m_atan L (hp TANL)).
  destruct (rd (- m_cos L th * m_sin L l)) as [t0| | | |] eqn:E0; cbn [bind]; try discriminate.
  destruct (rd (- m_sin L th * m_sin L l)) as [t1| | | |] eqn:E1; cbn [bind]; try discriminate.
  intros Hv. injection Hv as <- <-.
  apply rd_spec in Et, E0, E1. assert (U := u_small). assert (LU := least_u). assert (L0 := least_pos).
  assert (Dt : is_double th) by (rewrite Et; apply rnd_double).
  assert (Dl : is_double l) by (destruct HL as (_ & _ & A); apply A; auto).
  assert (Dc : is_double (m_cos L th) /\ is_double (m_sin L th) /\ is_double (m_cos L l) /\ is_double (m_sin L l))
    by (destruct HL as (A1 & A2 & _); split; [apply A2|split; [apply A1|split; [apply A2|apply A1]]]; auto).
  destruct Dc as (Dc & Ds & Dcl & Dsl).
  assert (C1 := cos_err L th th 0 HL Dt (same_err th)). assert (S1 := sin_err L th th 0 HL Dt (same_err th)).
  assert (C2 := cos_err L l l 0 HL Dl (same_err l)). assert (S2 := sin_err L l l 0 HL Dl (same_err l)).
  assert (OP : forall a b e, Rabs (a - b) <= e -> Rabs (- a - - b) <= e) by (intros a b e H0; replace (- a - - b) with (- (a - b)) by ring; rewrite Rabs_Ropp; exact H0).
  assert (F0 := entry_err _ _ _ _ _ _ (OP _ _ _ C1) S2 (sin_size L l HL Dl) ltac:(rewrite Rabs_Ropp; apply cos_1) (sin_1 _)).
  assert (F1 := entry_err _ _ _ _ _ _ (OP _ _ _ S1) S2 (sin_size L l HL Dl) ltac:(rewrite Rabs_Ropp; apply sin_1) (sin_1 _)).
  assert (R0 := rnd_err (- m_cos L th * m_sin L l)). assert (R1 := rnd_err (- m_sin L th * m_sin L l)).
  rewrite <- E0 in F0, R0. rewrite <- E1 in F1, R1.
  assert (Q1 := sin2_cos2 th). assert (Q2 := sin2_cos2 l). unfold Rsqr in Q1, Q2.
  assert (Z1 := cos_size L th HL Dt). assert (Z2 := sin_size L th HL Dt). assert (Z3 := sin_size L l HL Dl).
  assert (B : forall a b e, Rabs (a - b) <= e -> Rabs b <= 1 -> 0 <= e <= / 1000 -> Rabs (a * a - b * b) <= 201 / 100 * e).
  { intros a b e Hab Hb He. replace (a * a - b * b) with ((a - b) * (a + b)) by ring. rewrite Rabs_mult.
    assert (Rabs (a + b) <= 2001 / 1000).
    { replace (a + b) with ((a - b) + 2 * b) by ring. eapply Rle_trans; [apply Rabs_triang|]. rewrite Rabs_mult, (Rabs_pos_eq 2) by lra. lra. }
    apply Rle_trans with (e * (2001 / 1000)); [apply Rmult_le_compat; auto using Rabs_pos|lra]. }
  assert (NU : Rabs (square (V3 (- m_sin L th) (m_cos L th) 0) - 1) <= 10 * uround).
  { unfold square. cbn [vx vy vz]. assert (B1 := B (m_sin L th) (sin th) (21 / 10 * uround) ltac:(lra) (sin_1 _) ltac:(lra)).
    assert (B2 := B (m_cos L th) (cos th) (21 / 10 * uround) ltac:(lra) (cos_1 _) ltac:(lra)). rewrite <- Q1.
    replace (- m_sin L th * - m_sin L th + m_cos L th * m_cos L th + 0 * 0 - (sin th * sin th + cos th * cos th))
      with ((m_sin L th * m_sin L th - sin th * sin th) + (m_cos L th * m_cos L th - cos th * cos th)) by ring.
    eapply Rle_trans; [apply Rabs_triang|]. lra. }
  assert (NV : Rabs (square (V3 t0 t1 (m_cos L l)) - 1) <= 32 * uround).
  { unfold square. cbn [vx vy vz]. set (x := - cos th * sin l) in *. set (y := - sin th * sin l) in *. set (z := cos l) in *.
    assert (N : x * x + y * y + z * z = 1).
    { replace (x * x + y * y) with ((sin th * sin th + cos th * cos th) * (sin l * sin l)) by (unfold x, y; ring). rewrite Q1, Rmult_1_l. exact Q2. }
    assert (sx : Rabs x <= 1) by (unfold x; rewrite Rabs_mult, Rabs_Ropp; rewrite <- (Rmult_1_r 1); apply Rmult_le_compat; auto using Rabs_pos, cos_1, sin_1).
    assert (sy : Rabs y <= 1) by (unfold y; rewrite Rabs_mult, Rabs_Ropp; rewrite <- (Rmult_1_r 1); apply Rmult_le_compat; auto using Rabs_pos, cos_1, sin_1).
    assert (sz : Rabs z <= 1) by apply cos_1. clearbody x y z.
    assert (B0 := B t0 x (52 / 10 * uround) ltac:(lra) sx ltac:(lra)).
    assert (B1 := B t1 y (52 / 10 * uround) ltac:(lra) sy ltac:(lra)).
    assert (B2 := B (m_cos L l) z (21 / 10 * uround) ltac:(lra) sz ltac:(lra)).
    rewrite <- N. replace (t0 * t0 + t1 * t1 + m_cos L l * m_cos L l - (x * x + y * y + z * z)) with ((t0 * t0 - x * x) + (t1 * t1 - y * y) + (m_cos L l * m_cos L l - z * z)) by ring.
    eapply Rle_trans; [apply Rabs_triang|]. assert (W := Rabs_triang (t0 * t0 - x * x) (t1 * t1 - y * y)). lra. }
  assert (NO : forall x, is_double x -> is_double (- x)) by (intros x; apply FloatWrapFacts.double_opp).
  split; [|split; [|split; [exact NU|split; [exact NV|]]]].
  - constructor; cbn [vx vy vz]; auto; [apply generic_format_0|]. apply Rabs_def2b in NU. lra.
  - constructor; cbn [vx vy vz]; auto; [rewrite E0; apply rnd_double|rewrite E1; apply rnd_double|]. apply Rabs_def2b in NV. lra.
  - unfold vdot. cbn [vx vy vz]. set (a := m_sin L th) in *. set (b := m_cos L th) in *. set (d := m_sin L l) in *.
    replace (- a * t0 + b * t1 + 0 * m_cos L l) with (- a * (t0 - - b * d) + b * (t1 - - a * d)) by ring.
    assert (H0 : Rabs (- b * d) <= 1003 / 1000). { rewrite Rabs_mult, Rabs_Ropp. apply Rle_trans with (1001 / 1000 * (1001 / 1000)); [apply Rmult_le_compat; auto using Rabs_pos|lra]. }
    assert (H1 : Rabs (- a * d) <= 1003 / 1000). { rewrite Rabs_mult, Rabs_Ropp. apply Rle_trans with (1001 / 1000 * (1001 / 1000)); [apply Rmult_le_compat; auto using Rabs_pos|lra]. }
    assert (G0 : uround * Rabs (- b * d) <= uround * (1003 / 1000)) by (apply Rmult_le_compat_l; lra). assert (G1 : uround * Rabs (- a * d) <= uround * (1003 / 1000)) by (apply Rmult_le_compat_l; lra).
    eapply Rle_trans; [apply Rabs_triang|]. rewrite !Rabs_mult, Rabs_Ropp.
    apply Rle_trans with (1001 / 1000 * (101 / 100 * uround) + 1001 / 1000 * (101 / 100 * uround)); [|lra].
    apply Rplus_le_compat; apply Rmult_le_compat; auto using Rabs_pos; lra.
Qed.

(** ** the frame under the projection *)
Lemma one_norm v a b : square v <= a -> 3 * a <= b * b -> 0 <= b -> Rabs (vx v) + Rabs (vy v) + Rabs (vz v) <= b.
Proof.
  unfold square. intros S B P. assert (E : forall t, t * t = Rabs t * Rabs t) by (intros t; rewrite <- Rabs_mult, Rabs_pos_eq; [reflexivity|apply Rle_0_sqr]).
  rewrite (E (vx v)), (E (vy v)), (E (vz v)) in S. generalize (Rabs_pos (vx v)) (Rabs_pos (vy v)) (Rabs_pos (vz v)).
  revert S. generalize (Rabs (vx v)) (Rabs (vy v)) (Rabs (vz v)). intros x y z S X Y Z.
  assert (0 <= (x - y) * (x - y)) by apply Rle_0_sqr. assert (0 <= (x - z) * (x - z)) by apply Rle_0_sqr. assert (0 <= (y - z) * (y - z)) by apply Rle_0_sqr.
  apply Rsqr_incr_0_var; [|exact P]. unfold Rsqr. lra.
Qed.
Lemma dot_close v w w' e b : close e w' w -> Rabs (vx v) + Rabs (vy v) + Rabs (vz v) <= b -> 0 <= e -> Rabs (vdot v w' - vdot v w) <= b * e.
Proof.
  intros (X & Y & Z) B E. unfold vdot. replace (vx v * vx w' + vy v * vy w' + vz v * vz w' - (vx v * vx w + vy v * vy w + vz v * vz w))
    with (vx v * (vx w' - vx w) + vy v * (vy w' - vy w) + vz v * (vz w' - vz w)) by ring.
  eapply Rle_trans; [apply Rabs_triang|]. eapply Rle_trans; [apply Rplus_le_compat_r, Rabs_triang|]. rewrite !Rabs_mult.
  apply Rle_trans with ((Rabs (vx v) + Rabs (vy v) + Rabs (vz v)) * e); [|apply Rmult_le_compat_r; assumption].
  rewrite !Rmult_plus_distr_r. apply Rplus_le_compat; [apply Rplus_le_compat|]; apply Rmult_le_compat_l; auto using Rabs_pos.
Qed.

Lemma quot_move x' x s' s e : Rabs (x' - x) <= 251 / 100 * e -> Rabs x <= 1465 / 1000 -> Rabs (s' - s) <= 13 * e -> 200 * e <= Rabs s <= 3 / 2 -> 0 < e ->
  Rabs (x' / s' - x / s) <= 25 * e / (s * s) /\ 935 / 1000 * Rabs s <= Rabs s'.
Proof.
  intros X SX S (L & M) P.
  assert (LS : 935 / 1000 * Rabs s <= Rabs s').
  { assert (Q := Rabs_triang_inv s (s - s')). replace (s - (s - s')) with s' in Q by ring. rewrite (Rabs_minus_sym s s') in Q. lra. }
  split; [|exact LS]. assert (P1 : 0 < Rabs s) by lra. assert (P2 : 0 < Rabs s') by lra.
  assert (N1 : s <> 0) by (intros Q; rewrite Q, Rabs_R0 in P1; lra). assert (N2 : s' <> 0) by (intros Q; rewrite Q, Rabs_R0 in P2; lra).
  assert (DA : Rabs s * Rabs s = s * s) by (rewrite <- Rabs_mult; apply Rabs_pos_eq, Rle_0_sqr).
  replace (x' / s' - x / s) with (((x' - x) * s - x * (s' - s)) / (s' * s)) by (field; auto). unfold Rdiv. rewrite Rabs_mult, Rabs_inv, Rabs_mult, <- DA.
  assert (T : Rabs ((x' - x) * s - x * (s' - s)) <= 2282 / 100 * e).
  { eapply Rle_trans; [apply Rabs_triang|]. rewrite Rabs_Ropp, !Rabs_mult.
    apply Rle_trans with (251 / 100 * e * (3 / 2) + 1465 / 1000 * (13 * e)); [|lra]. apply Rplus_le_compat; apply Rmult_le_compat; auto using Rabs_pos. }
  apply Rmult_le_reg_r with (Rabs s' * Rabs s * (Rabs s)); [apply Rmult_lt_0_compat; [apply Rmult_lt_0_compat; assumption|assumption]|].
  replace (Rabs ((x' - x) * s - x * (s' - s)) * / (Rabs s' * Rabs s) * (Rabs s' * Rabs s * Rabs s)) with (Rabs ((x' - x) * s - x * (s' - s)) * Rabs s) by (field; lra).
  replace (25 * e * / (Rabs s * Rabs s) * (Rabs s' * Rabs s * Rabs s)) with (25 * e * Rabs s') by (field; lra).
  apply Rle_trans with (2282 / 100 * e * Rabs s); [apply Rmult_le_compat_r; lra|].
  apply Rle_trans with (25 * e * (935 / 1000 * Rabs s)); [|apply Rmult_le_compat_l; lra]. assert (0 < e * Rabs s) by (apply Rmult_lt_0_compat; assumption). lra.
Qed.

Lemma adjugate m n U V : slant m n U V <> 0 ->
  inverts (vdot n V / slant m n U V, - vdot m V / slant m n U V, - vdot n U / slant m n U V, vdot m U / slant m n U V) m n U V.
Proof.
  intros NS. assert (ES := slant_det m n U V). set (s := slant m n U V) in *. unfold inverts.
  clearbody s. revert ES. generalize (vdot m U) (vdot m V) (vdot n U) (vdot n V). intros x y z w ES.
  split; [|split; [|split]].
  - replace (w / s * x + - y / s * z) with ((x * w - y * z) / s) by (field; exact NS). rewrite <- ES. field. exact NS.
  - field. exact NS.
  - field. exact NS.
  - replace (- z / s * y + x / s * w) with ((x * w - y * z) / s) by (field; exact NS). rewrite <- ES. field. exact NS.
Qed.

Section Moved.
Variables (m n U V U0 V0 : vec3) (e : R).
Hypotheses (HM : square m <= 102 / 100) (HN : square n <= 21 / 10) (HU : square U <= 102 / 100) (HV : square V <= 102 / 100)
  (HU0 : square U0 <= 102 / 100) (HV0 : square V0 <= 102 / 100) (CU : close e U U0) (CV : close e V V0) (E0 : 12 * uround <= e).
Let t := slant m n U0 V0.
Hypothesis LT : 200 * e <= Rabs t.

Lemma moved : exists p q, calculateLocalToMeasurementProjectionMatrix_d U V [m; n] = Ok p /\ inverts q m n U0 V0 /\ within (40 * e / (t * t)) p q.
Proof.
  assert (U1 := u_fine). assert (EP : 0 < e) by lra.
  assert (OM := one_norm m _ (175 / 100) HM ltac:(lra) ltac:(lra)). assert (ON := one_norm n _ (251 / 100) HN ltac:(lra) ltac:(lra)).
  assert (A := dot_close m _ _ _ _ CU OM ltac:(lra)). assert (B := dot_close m _ _ _ _ CV OM ltac:(lra)).
  assert (C := dot_close n _ _ _ _ CU ON ltac:(lra)). assert (D := dot_close n _ _ _ _ CV ON ltac:(lra)).
  destruct (sizes m n U V HM HN HU HV) as (A1 & B1 & C1 & D1). destruct (sizes m n U0 V0 HM HN HU0 HV0) as (A2 & B2 & C2 & D2).
  assert (ST : Rabs t <= 3 / 2) by (apply slant_size; assumption).
  assert (S : Rabs (slant m n U V - t) <= 13 * e).
  { unfold t. rewrite !slant_det. assert (X := mul_err _ _ _ _ _ _ _ _ A D A2 D1). assert (Y := mul_err _ _ _ _ _ _ _ _ B C B2 C1).
    eapply Rle_trans; [apply (sub_err _ _ _ _ _ _ X Y)|]. lra. }
  assert (NT : t <> 0) by (intros Q; rewrite Q, Rabs_R0 in LT; lra).
  assert (A' : Rabs (vdot m U - vdot m U0) <= 251 / 100 * e) by lra. assert (B' : Rabs (vdot m V - vdot m V0) <= 251 / 100 * e) by lra.
  assert (OP : forall a b k, Rabs (a - b) <= k -> Rabs (- a - - b) <= k) by (intros a b k H0; replace (- a - - b) with (- (a - b)) by ring; rewrite Rabs_Ropp; exact H0).
  destruct (quot_move _ _ _ _ e D D2 S (conj LT ST) EP) as (Q0 & LS).
  destruct (quot_move _ _ _ _ e (OP _ _ _ B') ltac:(rewrite Rabs_Ropp; exact B2) S (conj LT ST) EP) as (Q1 & _).
  destruct (quot_move _ _ _ _ e (OP _ _ _ C) ltac:(rewrite Rabs_Ropp; exact C2) S (conj LT ST) EP) as (Q2 & _).
  destruct (quot_move _ _ _ _ e A' A2 S (conj LT ST) EP) as (Q3 & _).
  destruct (two_ok m n U V HM HN HU HV) as (p & q & Ep & Iq & W); [lra|].
  assert (NS : slant m n U V <> 0) by (intros Q; rewrite Q, Rabs_R0 in LS; lra).
  assert (EQ := C98_unique _ _ _ _ _ _ Iq (adjugate m n U V NS)). subst q.
  exists p. eexists. split; [exact Ep|]. split; [exact (adjugate m n U0 V0 NT)|]. fold t.
  assert (DA : Rabs t * Rabs t = t * t) by (rewrite <- Rabs_mult; apply Rabs_pos_eq, Rle_0_sqr).
  assert (DS : Rabs (slant m n U V) * Rabs (slant m n U V) = slant m n U V * slant m n U V) by (rewrite <- Rabs_mult; apply Rabs_pos_eq, Rle_0_sqr).
  assert (TP : 0 < Rabs t) by lra.
  assert (K : 80 * uround / (slant m n U V * slant m n U V) <= 15 * e / (t * t)).
  { rewrite <- DA, <- DS. set (r := Rabs t) in *. set (r' := Rabs (slant m n U V)) in *. assert (RP : 0 < r') by lra.
    apply Rmult_le_reg_r with (r' * r' * (r * r)); [repeat apply Rmult_lt_0_compat; assumption|].
    replace (80 * uround / (r' * r') * (r' * r' * (r * r))) with (80 * uround * (r * r)) by (field; lra).
    replace (15 * e / (r * r) * (r' * r' * (r * r))) with (15 * e * (r' * r')) by (field; lra).
    assert (RR : 874 / 1000 * (r * r) <= r' * r') by (apply Rle_trans with (935 / 1000 * r * (935 / 1000 * r)); [assert (0 < r * r) by (apply Rmult_lt_0_compat; assumption); lra|apply Rmult_le_compat; lra]).
    apply Rle_trans with (15 * e * (874 / 1000 * (r * r))); [|apply Rmult_le_compat_l; lra].
    apply Rle_trans with (80 / 12 * e * (r * r)); [apply Rmult_le_compat_r; [apply Rle_0_sqr|lra]|]. assert (0 <= e * (r * r)) by (apply Rmult_le_pos; [lra|apply Rle_0_sqr]). lra. }
  destruct p as (((p0 & p1) & p2) & p3). unfold within in *. destruct W as (W0 & W1 & W2 & W3).
  assert (TR : forall x y z k1 k2, Rabs (x - y) <= k1 -> Rabs (y - z) <= k2 -> k1 <= 15 * e / (t * t) -> k2 <= 25 * e / (t * t) -> Rabs (x - z) <= 40 * e / (t * t)).
  { intros x y z k1 k2 H1 H2 H3 H4. replace (x - z) with ((x - y) + (y - z)) by ring. eapply Rle_trans; [apply Rabs_triang|].
    replace (40 * e / (t * t)) with (15 * e / (t * t) + 25 * e / (t * t)) by (field; exact NT). lra. }
  split; [|split; [|split]]; eapply TR; eauto; lra.
Qed.
End Moved.
