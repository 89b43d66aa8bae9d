(** C78: points and directions along a track in double precision. *)
From Coq Require Import Reals ZArith Lra Lia.
From Flocq Require Import Core.
From Coquelicot Require Import Coquelicot.
From Verif Require Import Num Vec FloatWrap Helix SpecHelix HelixFacts PointFloat SpecRound RoundFacts PointFloatFacts.
Open Scope R_scope.

(** calculateXfromS, calculateYfromS and calculateZfromS: a few units in the last
    place, however large the radius. *)
Theorem C78_fromS : forall L s hp rp f, accurate L -> fit_for_double s hp rp -> is_helix hp rp f ->
  exists x y z, calculateXfromS_d L s hp rp = Ok x /\ calculateYfromS_d L s hp rp = Ok y /\ calculateZfromS_d s hp rp = Ok z
  /\ Rabs (x - vx (f s)) <= 16 * uround * (Rabs (vx rp) + Rabs (hp D0) + Rabs s * (1 + Rabs (hp PHI0) + Rabs (hp OMEGA * s))) + tiny
  /\ Rabs (y - vy (f s)) <= 16 * uround * (Rabs (vy rp) + Rabs (hp D0) + Rabs s * (1 + Rabs (hp PHI0) + Rabs (hp OMEGA * s))) + tiny
  /\ Rabs (z - vz (f s)) <= 4 * uround * (Rabs (vz rp) + Rabs (hp Z0) + Rabs (s * hp TANL)) + tiny.
Proof.
  intros L s hp rp f HL HF Hf. assert (O := om_nz s hp rp HF).
  destruct (XYZfromS_helix hp rp f Hf s) as (X & Z & Y & _). specialize (Y O). rewrite <- X, <- Y, <- Z.
  destruct (X_err L s hp rp HL HF) as (x & Rx & Ex). destruct (Y_err L s hp rp HL HF) as (y & Ry & Ey).
  destruct (z_err s hp rp HF) as (a & b & z & Z1 & Z2 & Z3 & Ez).
  exists x, y, z. split; [exact Rx|]. split; [exact Ry|]. split.
  - unfold calculateZfromS_d. rewrite Z1. cbn [bind]. rewrite Z2. cbn [bind]. exact Z3.
  - split; [exact Ex|]. split; [exact Ey|exact Ez].
Qed.
Print Assumptions C78_fromS.

(** pointAt: the same number of units in the last place of the radius. *)
Theorem C78_pointAt : forall L s hp rp f, accurate L -> fit_for_double s hp rp -> is_helix hp rp f ->
  exists v, pointAt_d L s hp rp = Ok v
  /\ Rabs (vx v - vx (f s)) <= 16 * uround * (Rabs (vx rp) + Rabs (hp D0) + (1 + Rabs (hp PHI0) + Rabs (hp OMEGA * s)) / Rabs (hp OMEGA)) + tiny
  /\ Rabs (vy v - vy (f s)) <= 16 * uround * (Rabs (vy rp) + Rabs (hp D0) + (1 + Rabs (hp PHI0) + Rabs (hp OMEGA * s)) / Rabs (hp OMEGA)) + tiny
  /\ Rabs (vz v - vz (f s)) <= 4 * uround * (Rabs (vz rp) + Rabs (hp Z0) + Rabs (s * hp TANL)) + tiny.
Proof.
  intros L s hp rp f HL HF Hf. assert (O := om_nz s hp rp HF).
  destruct (point_err L s hp rp HL HF) as (v & Rv & Ev). exists v. split; [exact Rv|].
  rewrite (helix_is_hcurve hp rp f O Hf s). specialize (Ev _ (pointAt_hcurve s hp rp O)).
  replace (Rabs (1 / hp OMEGA)) with (/ Rabs (hp OMEGA)) in Ev by (unfold Rdiv; rewrite Rmult_1_l, Rabs_inv; reflexivity).
  rewrite (Rmult_comm s (hp OMEGA)) in Ev. exact Ev.
Qed.
Print Assumptions C78_pointAt.

(** As long as the turning angle is below 2^-57 of the azimuth, pointAt returns the
    transverse position of the point of closest approach. *)
Theorem C78_stuck : forall L s hp rp v w, is_double (hp PHI0) ->
  Rabs (s * hp OMEGA) <= bpow radix2 (-57) * Rabs (hp PHI0) ->
  pointAt_d L s hp rp = Ok v -> pointAt_d L 0 hp rp = Ok w -> vx v = vx w /\ vy v = vy w.
Proof.
  intros L s hp rp v w D H Hv Hw.
  destruct (stuck_point L s hp rp v D H Hv) as [A B].
  assert (H0 : Rabs (0 * hp OMEGA) <= bpow radix2 (-57) * Rabs (hp PHI0)).
  { rewrite Rmult_0_l, Rabs_R0. apply Rmult_le_pos; [apply bpow_ge_0|apply Rabs_pos]. }
  destruct (stuck_point L 0 hp rp w D H0 Hw) as [A' B']. rewrite A, B, A', B'. auto.
Qed.
Print Assumptions C78_stuck.

(** a track of radius 2^70 that leaves the origin with azimuth 1 *)
Definition flat_hp : vec5 := mk5 (bpow radix2 (-70)) 0 1 0 0.

Lemma double_bpow e : (-1074 <= e)%Z -> is_double (bpow radix2 e).
Proof. intros H. apply generic_format_bpow. unfold FLT_exp. lia. Qed.
Lemma double_0 : is_double 0.
Proof. apply generic_format_0. Qed.
Lemma moderate_bpow e : (-1074 <= e <= 200)%Z -> moderate (bpow radix2 e).
Proof. intros H. split; [apply double_bpow; lia|]. rewrite Rabs_pos_eq by apply bpow_ge_0. apply bpow_le. lia. Qed.
Lemma moderate_0 : moderate 0.
Proof. split; [apply double_0|]. rewrite Rabs_R0. apply bpow_ge_0. Qed.
Lemma moderate_1 : moderate 1.
Proof. exact (moderate_bpow 0 ltac:(lia)). Qed.
Lemma moderate_1024 : moderate 1024.
Proof. exact (moderate_bpow 10 ltac:(lia)). Qed.

Lemma flat_fit : fit_for_double 1024 flat_hp v3zero.
Proof.
  constructor; try apply moderate_0; [apply moderate_1024| |].
  - intros []; cbn; try apply moderate_0; [apply (moderate_bpow (-70)); lia|apply moderate_1].
  - cbn. rewrite Rabs_pos_eq by apply (bpow_ge_0 radix2 (-70)). apply (bpow_le radix2 (-200) (-70)). lia.
Qed.

(** It does not move: the x coordinate returned for the point at path length 1024 is
    zero, while calculateXfromS gives the right one. *)
Theorem C78_pointAt_refuted : exists s hp rp f, fit_for_double s hp rp /\ is_helix hp rp f /\ forall L, accurate L ->
  exists v x, pointAt_d L s hp rp = Ok v /\ calculateXfromS_d L s hp rp = Ok x
  /\ vx v = 0 /\ 512 < vx (f s) /\ Rabs (x - vx (f s)) <= / 100000000000.
Proof.
  destruct (helix_exists flat_hp v3zero) as (f & Hf).
  exists 1024, flat_hp, v3zero, f. split; [apply flat_fit|]. split; [exact Hf|]. intros L HL.
  destruct (C78_pointAt L 1024 flat_hp v3zero f HL flat_fit Hf) as (v & Rv & _).
  destruct (C78_fromS L 1024 flat_hp v3zero f HL flat_fit Hf) as (x & y & z & Rx & _ & _ & Ex & _).
  exists v, x. split; [exact Rv|]. split; [exact Rx|].
  assert (B70 : bpow radix2 (-70) * 1024 = bpow radix2 (-60)).
  { change 1024 with (bpow radix2 10). rewrite <- bpow_plus. reflexivity. }
  assert (B60 : 0 < bpow radix2 (-60) <= / 2).
  { split; [apply bpow_gt_0|]. apply (bpow_le radix2 (-60) (-1)). lia. }
  split; [|split].
  - destruct (stuck_point L 1024 flat_hp v3zero v (proj1 moderate_1)) as [A _]; [|exact Rv|].
    + change (flat_hp PHI0) with 1. change (flat_hp OMEGA) with (bpow radix2 (-70)). rewrite Rmult_comm, B70, Rabs_R1, Rmult_1_r, Rabs_pos_eq by lra. apply bpow_le. lia.
    + rewrite A. change (flat_hp D0) with 0. change (vx v3zero) with 0. rewrite Rmult_0_l, rnd_0, Rminus_0_r, !rnd_0. reflexivity.
  - destruct (MVT_gen (fun t => vx (f t)) 0 1024 (fun t => cos (flat_hp PHI0 - flat_hp OMEGA * t))) as (c & Hc & Q).
    + intros a _. apply (helix_dx _ _ _ Hf).
    + intros a _. apply continuity_pt_filterlim. apply (ex_derive_continuous (fun t => vx (f t))). eexists. apply (helix_dx _ _ _ Hf).
    + rewrite Rmin_left, Rmax_right in Hc by lra. rewrite (helix_start _ _ _ Hf) in Q. cbn [vx] in Q.
      change (flat_hp PHI0) with 1 in Q. change (flat_hp OMEGA) with (bpow radix2 (-70)) in Q. change (flat_hp D0) with 0 in Q. change (vx v3zero) with 0 in Q.
      assert (C : 1 / 2 < cos (1 - bpow radix2 (-70) * c)).
      { rewrite <- cos_PI3. generalize PI2_3_2, PI_4. intros P1 P2.
        assert (0 <= bpow radix2 (-70) * c). { apply Rmult_le_pos; [apply bpow_ge_0|lra]. }
        assert (bpow radix2 (-70) * c <= bpow radix2 (-70) * 1024) by (apply Rmult_le_compat_l; [apply bpow_ge_0|lra]).
        apply cos_decreasing_1; lra. }
      lra.
  - eapply Rle_trans; [exact Ex|].
    change (flat_hp PHI0) with 1. change (flat_hp OMEGA) with (bpow radix2 (-70)). change (flat_hp D0) with 0. change (vx v3zero) with 0. rewrite B70, !Rabs_R0, Rabs_R1, (Rabs_pos_eq 1024), (Rabs_pos_eq (bpow radix2 (-60))) by lra.
    assert (tiny <= / 1000000000000).
    { unfold tiny. apply Rle_trans with (bpow radix2 (-50)); [apply bpow_le; lia|]. change (bpow radix2 (-50)) with (/ 1125899906842624). lra. }
    unfold uround. lra.
Qed.
Print Assumptions C78_pointAt_refuted.

(** The direction: of length one up to rounding, for all doubles ... *)
Theorem C78_tangent_norm : forall L s hp v, accurate L -> (forall i, is_double (hp i)) ->
  calculateTangent_d L s hp = Ok v -> Rabs (vx v * vx v + vy v * vy v + vz v * vz v - 1) <= 32 * uround.
Proof. exact tangent_norm. Qed.
Print Assumptions C78_tangent_norm.

(** ... and close to the derivative of the curve with respect to its length. *)
Theorem C78_tangent : forall L s hp rp f dx dy dz, accurate L -> moderate s -> (forall i, moderate (hp i)) -> is_helix hp rp f ->
  is_derive (fun l => vx (f (s + l * cos (atan (hp TANL))))) 0 dx ->
  is_derive (fun l => vy (f (s + l * cos (atan (hp TANL))))) 0 dy ->
  is_derive (fun l => vz (f (s + l * cos (atan (hp TANL))))) 0 dz ->
  exists v, calculateTangent_d L s hp = Ok v
  /\ Rabs (vx v - dx) <= 16 * uround * (1 + Rabs (hp PHI0) + Rabs (hp OMEGA * s))
  /\ Rabs (vy v - dy) <= 16 * uround * (1 + Rabs (hp PHI0) + Rabs (hp OMEGA * s))
  /\ Rabs (vz v - dz) <= 7 * uround.
Proof.
  intros L s hp rp f dx dy dz HL Hs Hh Hf Dx Dy Dz.
  destruct (tangent_err L s hp HL Hs Hh) as (v & Rv & Ex & Ey & Ez). exists v. split; [exact Rv|].
  destruct (tangent_unit_derivative hp rp f Hf s) as (_ & Tx & Ty & Tz).
  rewrite <- (is_derive_unique _ _ _ Dx), (is_derive_unique _ _ _ Tx).
  rewrite <- (is_derive_unique _ _ _ Dy), (is_derive_unique _ _ _ Ty).
  rewrite <- (is_derive_unique _ _ _ Dz), (is_derive_unique _ _ _ Tz). auto.
Qed.
Print Assumptions C78_tangent.

(** Straight tracks: x is right to a few units in the last place; y is off by
    s (cos phi0 - sin phi0), up to as much. *)
Theorem C78_straight : forall L s hp rp f, accurate L -> moderate s -> (forall i, moderate (hp i)) -> moderate (vx rp) -> moderate (vy rp) ->
  hp OMEGA = 0 -> is_helix hp rp f ->
  exists x y, calculateXfromS_d L s hp rp = Ok x /\ calculateYfromS_d L s hp rp = Ok y
  /\ Rabs (x - vx (f s)) <= 8 * uround * (Rabs (vx rp) + Rabs (hp D0) + Rabs s) + tiny
  /\ Rabs (y - (vy (f s) + s * (cos (hp PHI0) - sin (hp PHI0)))) <= 8 * uround * (Rabs (vy rp) + Rabs (hp D0) + Rabs s) + tiny.
Proof.
  intros L s hp rp f HL Ms Mh Mx My O Hf. rewrite (helix_is_hline _ _ _ O Hf). unfold hline. cbn [vx vy].
  destruct t_tiny as [T0 T1]. assert (U := u_small).
  assert (G : forall f' g' r, Rabs (f' - g') <= 2 * uround + least -> Rabs f' <= 1001 / 1000 -> Rabs g' <= 1 -> moderate r ->
    exists v, bind (bind (rd (f' * hp D0)) (fun a => rd (a + r))) (fun x0 => bind (rd (s * m_cos L (hp PHI0))) (fun a => rd (x0 + a))) = Ok v
    /\ Rabs (v - (g' * hp D0 + r + s * cos (hp PHI0))) <= 8 * uround * (Rabs r + Rabs (hp D0) + Rabs s) + tiny).
  { intros f' g' r E F B [_ Mr]. destruct (cos_at L HL (hp PHI0) (proj1 (Mh PHI0))) as [C1 C2].
    destruct (leg_err f' g' (hp D0) E F B (proj2 (Mh D0))) as (R1 & M1 & E1). rewrite R1. cbn [bind].
    destruct (plus_err _ _ r r _ 0 (Rabs (hp D0)) (Rabs r) 201 E1 (same_err r) M1 (mag_le _ 200 201 Mr ltac:(lia)) ltac:(lia) (leg_size g' (hp D0) B) (Rle_refl _)) as (R2 & M2 & E2).
    rewrite R2. cbn [bind].
    destruct (leg_err (m_cos L (hp PHI0)) (cos (hp PHI0)) s C1 C2 (cos_1 _) (proj2 Ms)) as (R3 & M3 & E3).
    rewrite (Rmult_comm s (m_cos _ _)), R3. cbn [bind].
    assert (S2 : Rabs (g' * hp D0 + r) <= Rabs (hp D0) + Rabs r) by (eapply Rle_trans; [apply Rabs_triang|]; assert (W := leg_size g' (hp D0) B); lra).
    destruct (plus_err _ _ _ _ _ _ _ _ 202 E2 E3 M2 (mag_le _ 201 202 M3 ltac:(lia)) ltac:(lia) S2 (leg_size (cos (hp PHI0)) s (cos_1 _))) as (R4 & _ & E4).
    rewrite R4. eexists. split; [reflexivity|]. rewrite (Rmult_comm s (cos _)).
    generalize (Rabs_pos r) (Rabs_pos (hp D0)) (Rabs_pos s). intros P1 P2 P3.
    assert (0 <= uround * Rabs r) by (apply Rmult_le_pos; lra). assert (0 <= uround * Rabs (hp D0)) by (apply Rmult_le_pos; lra).
    assert (0 <= uround * Rabs s) by (apply Rmult_le_pos; lra). lra. }
  destruct (sin_at L HL (- hp PHI0) (opp_double _ (proj1 (Mh PHI0)))) as [A1 A2]. destruct (cos_at L HL (hp PHI0) (proj1 (Mh PHI0))) as [B1 B2].
  destruct (G _ _ (vx rp) A1 A2 (sin_1 _) Mx) as (x & X1 & X2). destruct (G _ _ (vy rp) B1 B2 (cos_1 _) My) as (y & Y1 & Y2).
  exists x, y. unfold calculateXfromS_d, calculateYfromS_d. destruct (Req_EM_T (hp OMEGA) 0) as [_|N]; [|contradiction].
  split; [exact X1|]. split; [exact Y1|]. rewrite sin_neg in X2. split.
  - eapply Rle_trans; [|exact X2]. right. f_equal. ring.
  - eapply Rle_trans; [|exact Y2]. right. f_equal. ring.
Qed.
Print Assumptions C78_straight.

(** a line through (1,1,1): the y coordinate 1024 along it is off by more than 10 *)
Example straight_points : exists f y, is_helix (mk5 0 1 1 1 1) (V3 1 1 1) f
  /\ calculateYfromS_d best 1024 (mk5 0 1 1 1 1) (V3 1 1 1) = Ok y /\ 10 < Rabs (y - vy (f 1024)).
Proof.
  destruct (helix_exists (mk5 0 1 1 1 1) (V3 1 1 1)) as (f & Hf).
  destruct (C78_straight best 1024 (mk5 0 1 1 1 1) (V3 1 1 1) f best_accurate moderate_1024) as (x & y & _ & Y & _ & E); auto using moderate_1.
  { intros []; cbn; auto using moderate_0, moderate_1. }
  exists f, y. split; [exact Hf|]. split; [exact Y|]. change (mk5 0 1 1 1 1 PHI0) with 1 in E. change (mk5 0 1 1 1 1 D0) with 1 in E. cbn [vx vy] in E.
  rewrite !Rabs_R1, (Rabs_pos_eq 1024) in E by lra.
  assert (tiny <= 1) by (apply (bpow_le radix2 (-600) 0); lia). assert (8 * uround * (1 + 1 + 1024) <= 1) by (unfold uround; lra).
  assert (D : / 10 <= sin 1 - cos 1).
  { assert (Q := sin2_cos2 1). unfold Rsqr in Q. assert (C0 : 0 <= cos 1) by (apply cos_ge_0; generalize PI2_3_2; lra).
    assert (S0 : 0 <= sin 1) by (apply sin_ge_0; generalize PI2_3_2; lra).
    destruct (pre_cos_bound 1 0) as [_ W]; try lra. unfold cos_approx, cos_term in W. cbn [sum_f_R0 Nat.mul Nat.add pow fact INR] in W.
    assert (cos 1 <= 6 / 10) by lra. nra. }
  apply Rabs_le_inv in E. rewrite Rabs_minus_sym. eapply Rlt_le_trans; [|apply Rle_abs]. lra.
Qed.

(** A library that rounds correctly meets the contract; a track in a field. *)
Definition curved_hp : vec5 := mk5 (bpow radix2 (-10)) 1 1 1 1.
Example curved_instance : accurate best /\ fit_for_double 1024 curved_hp (V3 1 1 1).
Proof.
  split; [apply best_accurate|]. constructor; try apply moderate_1; [apply moderate_1024| |].
  - intros []; cbn; try apply moderate_1. apply (moderate_bpow (-10)). lia.
  - cbn. rewrite Rabs_pos_eq by apply (bpow_ge_0 radix2 (-10)). apply (bpow_le radix2 (-200) (-10)). lia.
Qed.
Example curved_points : exists f x v, is_helix curved_hp (V3 1 1 1) f
  /\ calculateXfromS_d best 1024 curved_hp (V3 1 1 1) = Ok x /\ Rabs (x - vx (f 1024)) <= / 100000000000
  /\ pointAt_d best 1024 curved_hp (V3 1 1 1) = Ok v /\ Rabs (vy v - vy (f 1024)) <= / 100000000000.
Proof.
  destruct curved_instance as [HL HF]. destruct (helix_exists curved_hp (V3 1 1 1)) as (f & Hf).
  destruct (C78_fromS _ _ _ _ f HL HF Hf) as (x & _ & _ & Rx & _ & _ & Ex & _).
  destruct (C78_pointAt _ _ _ _ f HL HF Hf) as (v & Rv & _ & Ev & _).
  exists f, x, v. split; [exact Hf|].
  assert (tiny <= / 1000000000000).
  { unfold tiny. apply Rle_trans with (bpow radix2 (-50)); [apply bpow_le; lia|]. change (bpow radix2 (-50)) with (/ 1125899906842624). lra. }
  assert (B : bpow radix2 (-10) = / 1024) by reflexivity.
  assert (C : bpow radix2 (-10) * 1024 = 1) by (rewrite B; lra).
  split; [exact Rx|]. split; [|split; [exact Rv|]].
  - eapply Rle_trans; [exact Ex|].
    change (curved_hp PHI0) with 1. change (curved_hp OMEGA) with (bpow radix2 (-10)). change (curved_hp D0) with 1. cbn [vx vy]. rewrite C, !Rabs_R1, (Rabs_pos_eq 1024) by lra. unfold uround. lra.
  - eapply Rle_trans; [exact Ev|].
    change (curved_hp PHI0) with 1. change (curved_hp OMEGA) with (bpow radix2 (-10)). change (curved_hp D0) with 1. cbn [vx vy]. rewrite C, !Rabs_R1, B, (Rabs_pos_eq (/ 1024)) by lra. unfold uround. lra.
Qed.
