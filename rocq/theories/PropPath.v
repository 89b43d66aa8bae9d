(** C88: the path length to a point in double precision. *)
From Coq Require Import Reals ZArith Lra Lia Psatz.
From Flocq Require Import Core.
From Verif Require Import Num Vec NumFacts FloatWrap PointFloat SpecRound RoundFacts PointFloatFacts SpecHelix HelixFacts
  PathFloat SpecPath PathTrig PathFloatFacts PathLibFacts PropRound.
Open Scope R_scope.

(** calculateSfromXY of a point within [eps] of a point of the track: right to a few
    units in the last place of the numbers added, or zero; zero only if the angle
    turned is below what can be resolved. *)
Theorem C88_accuracy : forall L at2 x y hp rp f s eps, good_library L at2 -> ordinary_track hp rp -> ordinary x -> ordinary y ->
  Rabs (hp OMEGA) * extent x y hp rp <= 1000000000 -> is_helix hp rp f -> Rabs (hp OMEGA * s) <= 1 ->
  Rabs (x - vx (f s)) <= eps -> Rabs (y - vy (f s)) <= eps -> Rabs (hp OMEGA) * eps <= / 1000 ->
  exists r, calculateSfromXY_d L at2 x y hp rp = Ok r
  /\ (Rabs (r - s) <= 6 * eps + uround * (50 * (extent x y hp rp + Rabs s)) + speck
      \/ r = 0 /\ Rabs (hp OMEGA * s) <= 3 * (Rabs (hp OMEGA) * eps) + uround * (27 + 16 * (Rabs (hp OMEGA) * extent x y hp rp)) + speck).
Proof.
  intros L at2 x y hp rp f s eps HL HT Hx Hy HK HH Hs HX HY HE.
  destruct (path_main L at2 x y hp rp f s eps HL HT Hx Hy HK HH Hs HX HY HE) as (dphi & _ & E & _ & Z & N).
  destruct (Req_dec dphi 0) as [Q|Q].
  - exists 0. split; [auto|]. right. split; [reflexivity|]. rewrite Q, Rplus_0_l in E.
    destruct (tt_facts x y hp rp HT Hx Hy) as (T1 & T2 & T3 & T4 & T5 & T6 & T7).
    destruct (K_facts x y hp rp HK) as [K0 _]. assert (U := u_small). assert (SP := bpow_gt_0 radix2 (-300)). fold speck in SP.
    assert (0 <= Rabs (hp OMEGA) * eps) by (apply Rmult_le_pos; [apply Rabs_pos|apply (eps_pos _ _ _ _ HX)]).
    assert (0 <= uround * (Rabs (hp OMEGA) * extent x y hp rp)) by (apply Rmult_le_pos; lra). lra.
  - destruct (N Q) as (r & R1 & R2). exists r. split; [exact R1|]. left. exact R2.
Qed.
Print Assumptions C88_accuracy.

(** A straight track: the answer hangs on whether atan2 happens to give the azimuth
    back to the last bit.  If so it is zero, whatever the point; if not it is right. *)
Theorem C88_straight : forall L at2 x y hp rp f s eps, good_library L at2 -> ordinary_track hp rp -> ordinary x -> ordinary y ->
  hp OMEGA = 0 -> Rabs (hp PHI0) <= 3 -> is_helix hp rp f -> Rabs (x - vx (f s)) <= eps -> Rabs (y - vy (f s)) <= eps ->
  let back := at2 (m_sin L (hp PHI0)) (m_cos L (hp PHI0)) in
  (back = hp PHI0 -> calculateSfromXY_d L at2 x y hp rp = Ok 0)
  /\ (back <> hp PHI0 -> exists r, calculateSfromXY_d L at2 x y hp rp = Ok r
      /\ Rabs (r - s) <= 6 * eps + uround * (50 * (extent x y hp rp + Rabs s)) + speck).
Proof.
  intros L at2 x y hp rp f s eps HL HT Hx Hy O P3 HH HX HY back.
  destruct (path_main L at2 x y hp rp f s eps HL HT Hx Hy) as (dphi & _ & _ & D & Z & N); auto.
  { rewrite O, Rabs_R0, Rmult_0_l. lra. }
  { rewrite O, Rmult_0_l, Rabs_R0. lra. }
  { rewrite O, Rabs_R0, Rmult_0_l. lra. }
  specialize (D O P3).
  destruct (gl_accurate _ _ HL) as (As & Ac & _). destruct (As _ (ot_ph _ _ HT)) as [Ds _]. destruct (Ac _ (ot_ph _ _ HT)) as [Dc _].
  rewrite O, !Rmult_0_l, !rnd_0, Rminus_0_r, Rplus_0_r, (rnd_id _ Ds), (rnd_id _ Dc) in D. fold back in D.
  split; intros Q.
  - apply Z. rewrite D, Q, Rminus_diag_eq, rnd_0 by reflexivity. reflexivity.
  - apply N. rewrite D. intros W.
    destruct (ot_ph0 _ _ HT) as [P0|P0].
    + rewrite P0, Rminus_0_r in W.
      assert (Db : is_double back).
      { apply (gl_atan2 _ _ HL); auto. left. rewrite P0. destruct (cos_at L (gl_accurate _ _ HL) 0 (generic_format_0 _ _)) as [C _].
        rewrite cos_0 in C. intros Q0. rewrite Q0 in C. apply Rabs_le_inv in C. assert (U := u_small).
        assert (least <= / 4) by (apply (bpow_le radix2 (-1074) (-2)); lia). lra. }
      rewrite (rnd_id _ Db) in W. apply Q. rewrite P0. exact W.
    + assert (Db : is_double back).
      { apply (gl_atan2 _ _ HL); auto.
        assert (M0 := not_origin L at2 x y hp rp f s eps HL HT Hx Hy).
        rewrite O, !Rmult_0_l, !Rabs_R0, !Rmult_0_l, !rnd_0, Rminus_0_r, Rplus_0_r, (rnd_id _ Ds), (rnd_id _ Dc) in M0. apply M0; auto; lra. }
      assert (G := gap _ _ (ot_ph _ _ HT) Db (fun e => Q (eq_sym e))).
      assert (B : bpow radix2 (-400) <= Rabs (back - hp PHI0)).
      { eapply Rle_trans; [|exact G]. apply Rle_trans with (bpow radix2 (-54) * bpow radix2 (-300)); [rewrite <- bpow_plus; apply bpow_le; lia|].
        apply Rmult_le_compat_l; [apply bpow_ge_0|exact P0]. }
      assert (B' := rnd_ge _ (-400) ltac:(lia) B). rewrite W, Rabs_R0 in B'. assert (V := bpow_gt_0 radix2 (-400)). lra.
Qed.
Print Assumptions C88_straight.

(** There and back again: calculateXfromS and calculateYfromS, then calculateSfromXY. *)
Theorem C88_roundtrip : forall L at2 hp rp s x y, good_library L at2 -> ordinary_track hp rp -> fit_for_double s hp rp ->
  Rabs (hp OMEGA * s) <= 1 ->
  let reach := Rabs (vx rp) + Rabs (vy rp) + Rabs (hp D0) + Rabs s in
  Rabs (hp OMEGA) * reach <= 100000000 -> reach <= bpow radix2 98 ->
  calculateXfromS_d L s hp rp = Ok x -> calculateYfromS_d L s hp rp = Ok y ->
  exists r, calculateSfromXY_d L at2 x y hp rp = Ok r
  /\ (Rabs (r - s) <= uround * (1100 * reach) + 2 * speck
      \/ r = 0 /\ Rabs (hp OMEGA * s) <= uround * (27 + 500 * (Rabs (hp OMEGA) * reach)) + 2 * speck).
Proof.
  intros L at2 hp rp s x y HL HT HF Hs reach HR HB Ex Ey.
  assert (Er : reach = Rabs (vx rp) + Rabs (vy rp) + Rabs (hp D0) + Rabs s) by reflexivity. clearbody reach.
  destruct (helix_exists hp rp) as [f Hf].
  destruct (C78_fromS L s hp rp f (gl_accurate _ _ HL) HF Hf) as (x' & y' & _ & Rx & Ry & _ & Bx & By & _).
  rewrite Ex in Rx. injection Rx as <-. rewrite Ey in Ry. injection Ry as <-.
  assert (P := PI_num). assert (U := u_small). assert (Tu := ot_turn _ _ HT).
  generalize (Rabs_pos (vx rp)) (Rabs_pos (vy rp)) (Rabs_pos (hp D0)) (Rabs_pos s) (Rabs_pos (hp OMEGA)). intros P1 P2 P3 P4 P5.
  assert (SZ : Rabs s * (1 + Rabs (hp PHI0) + Rabs (hp OMEGA * s)) <= Rabs s * (83 / 10)) by (apply Rmult_le_compat_l; lra).
  remember (uround * (133 * reach) + tiny) as eps eqn:Ee.
  assert (R0 : 0 <= reach) by lra.
  assert (T0 : 0 < tiny) by apply bpow_gt_0.
  assert (UR : 0 <= uround * reach) by (apply Rmult_le_pos; lra).
  assert (X : Rabs (x - vx (f s)) <= eps).
  { eapply Rle_trans; [exact Bx|].
    assert (uround * (Rabs (vx rp) + Rabs (hp D0) + Rabs s * (1 + Rabs (hp PHI0) + Rabs (hp OMEGA * s))) <= uround * (83 / 10 * reach)); [|lra].
    apply Rmult_le_compat_l; lra. }
  assert (Y : Rabs (y - vy (f s)) <= eps).
  { eapply Rle_trans; [exact By|].
    assert (uround * (Rabs (vy rp) + Rabs (hp D0) + Rabs s * (1 + Rabs (hp PHI0) + Rabs (hp OMEGA * s))) <= uround * (83 / 10 * reach)); [|lra].
    apply Rmult_le_compat_l; lra. }
  assert (TS : tiny <= speck / 1000 /\ Rabs (hp OMEGA) * tiny <= speck / 1000).
  { assert (bpow radix2 (-320) * 1000 <= speck).
    { unfold speck. change (-300)%Z with (-320 + 20)%Z. rewrite bpow_plus. change (bpow radix2 20) with 1048576. assert (Q := bpow_gt_0 radix2 (-320)). lra. }
    assert (tiny <= bpow radix2 (-320)) by (apply bpow_le; lia).
    assert (Rabs (hp OMEGA) * tiny <= bpow radix2 (-320)); [|lra].
    apply Rle_trans with (bpow radix2 100 * tiny); [apply Rmult_le_compat_r; [lra|apply (ot_om _ _ HT)]|].
    unfold tiny. rewrite <- bpow_plus. apply bpow_le. lia. }
  destruct TS as [TS1 TS2].
  assert (S1 : speck <= / 1000000) by (unfold speck; apply Rle_trans with (bpow radix2 (-20)); [apply bpow_le; lia|change (bpow radix2 (-20)) with (/ 1048576); lra]).
  assert (SP : 0 < speck) by apply bpow_gt_0.
  (* the size of the point *)
  assert (FX : Rabs (vx (f s)) <= Rabs (vx rp) + Rabs (hp D0) + Rabs s /\ Rabs (vy (f s)) <= Rabs (vy rp) + Rabs (hp D0) + Rabs s).
  { assert (N : hp OMEGA <> 0) by (apply (om_nz s hp rp HF)). rewrite (helix_is_hcurve _ _ _ N Hf). unfold hcurve. cbn [vx vy].
    assert (O : 0 < Rabs (hp OMEGA)) by (apply Rabs_pos_lt; auto).
    assert (A1 : Rabs (1 / hp OMEGA * (sin (hp PHI0) - sin (hp PHI0 - s * hp OMEGA))) <= Rabs s).
    { rewrite Rabs_mult. assert (Q := sin_lip (hp PHI0) (hp PHI0 - s * hp OMEGA)).
      replace (hp PHI0 - (hp PHI0 - s * hp OMEGA)) with (s * hp OMEGA) in Q by ring. rewrite Rabs_mult in Q.
      unfold Rdiv. rewrite Rmult_1_l, Rabs_inv. apply Rmult_le_reg_l with (Rabs (hp OMEGA)); auto. rewrite <- Rmult_assoc, Rinv_r by lra. lra. }
    assert (A2 : Rabs (1 / hp OMEGA * (cos (hp PHI0) - cos (hp PHI0 - s * hp OMEGA))) <= Rabs s).
    { rewrite Rabs_mult. assert (Q := cos_lip (hp PHI0) (hp PHI0 - s * hp OMEGA)).
      replace (hp PHI0 - (hp PHI0 - s * hp OMEGA)) with (s * hp OMEGA) in Q by ring. rewrite Rabs_mult in Q.
      unfold Rdiv. rewrite Rmult_1_l, Rabs_inv. apply Rmult_le_reg_l with (Rabs (hp OMEGA)); auto. rewrite <- Rmult_assoc, Rinv_r by lra. lra. }
    assert (B1 := leg_size (sin (hp PHI0)) (hp D0) (sin_1 _)). assert (B2 := leg_size (cos (hp PHI0)) (hp D0) (cos_1 _)).
    split.
    - eapply Rle_trans; [apply Rabs_triang|]. apply Rplus_le_compat; [|exact A1]. unfold Rminus. eapply Rle_trans; [apply Rabs_triang|].
      rewrite Rabs_Ropp, (Rmult_comm (hp D0)). lra.
    - unfold Rminus at 1. eapply Rle_trans; [apply Rabs_triang|]. rewrite Rabs_Ropp. apply Rplus_le_compat; [|exact A2]. eapply Rle_trans; [apply Rabs_triang|].
      rewrite (Rmult_comm (hp D0)). lra. }
  destruct FX as [FX FY]. assert (SX := near_size _ _ _ X). assert (SY := near_size _ _ _ Y).
  assert (E1 : eps <= / 1000 * reach + tiny) by (assert (uround * reach <= / 1000000 * reach) by (apply Rmult_le_compat_r; lra); lra).
  assert (EX : extent x y hp rp <= 301 / 100 * reach + 2 * tiny) by (unfold extent; lra).
  assert (OX : ordinary x /\ ordinary y).
  { assert (B : 1001 / 1000 * reach + tiny <= bpow radix2 100).
    { change 100%Z with (98 + 2)%Z. rewrite bpow_plus. change (bpow radix2 2) with 4.
      assert (1 <= bpow radix2 98) by (apply (bpow_le radix2 0 98); lia). lra. }
    assert (D : forall a b, rd a = Ok b -> is_double b) by (intros a b Q; apply rd_spec in Q; rewrite Q; apply rnd_double).
    split; split; try lra.
    - revert Ex. unfold calculateXfromS_d. destruct (calculateX0_d L hp rp) as [v| | | |]; try discriminate. cbn [bind].
      destruct Req_EM_T as [Q|_]; [elim (om_nz s hp rp HF); exact Q|].
      destruct (rd_div 2 (hp OMEGA)) as [a1| | | |]; try discriminate. cbn [bind].
      destruct (rd (hp OMEGA * s)) as [a2| | | |]; try discriminate. cbn [bind].
      destruct (rd (a2 / 2)) as [a3| | | |]; try discriminate. cbn [bind].
      destruct (rd (a1 * _)) as [a4| | | |]; try discriminate. cbn [bind].
      destruct (rd (hp PHI0 - _)) as [a5| | | |]; try discriminate. cbn [bind].
      destruct (rd (a4 * _)) as [a6| | | |]; try discriminate. cbn [bind]. apply D.
    - revert Ey. unfold calculateYfromS_d. destruct (calculateY0_d L hp rp) as [v| | | |]; try discriminate. cbn [bind].
      destruct Req_EM_T as [Q|_]; [elim (om_nz s hp rp HF); exact Q|].
      destruct (rd_div 2 (hp OMEGA)) as [a1| | | |]; try discriminate. cbn [bind].
      destruct (rd (hp OMEGA * s)) as [a2| | | |]; try discriminate. cbn [bind].
      destruct (rd (a2 / 2)) as [a3| | | |]; try discriminate. cbn [bind].
      destruct (rd (a1 * _)) as [a4| | | |]; try discriminate. cbn [bind].
      destruct (rd (hp PHI0 - _)) as [a5| | | |]; try discriminate. cbn [bind].
      destruct (rd (a4 * _)) as [a6| | | |]; try discriminate. cbn [bind]. apply D. }
  assert (KX : Rabs (hp OMEGA) * extent x y hp rp <= 301 / 100 * (Rabs (hp OMEGA) * reach) + speck / 500).
  { eapply Rle_trans; [apply Rmult_le_compat_l; [auto|exact EX]|]. lra. }
  assert (KE : Rabs (hp OMEGA) * eps <= uround * (133 * (Rabs (hp OMEGA) * reach)) + speck / 1000) by (rewrite Ee; lra).
  assert (UK : 0 <= Rabs (hp OMEGA) * reach) by (apply Rmult_le_pos; auto).
  destruct (C88_accuracy L at2 x y hp rp f s eps HL HT (proj1 OX) (proj2 OX)) as (r & R1 & R2); auto; try lra.
  { unfold uround in KE. lra. }
  exists r. split; [exact R1|]. destruct R2 as [R2|[Q R2]].
  - left. eapply Rle_trans; [exact R2|].
    assert (uround * extent x y hp rp <= uround * (301 / 100 * reach + 2 * tiny)) by (apply Rmult_le_compat_l; lra).
    assert (uround * Rabs s <= uround * reach) by (apply Rmult_le_compat_l; lra).
    assert (uround * tiny <= / 1000000 * tiny) by (apply Rmult_le_compat_r; lra). lra.
  - right. split; [exact Q|]. eapply Rle_trans; [exact R2|].
    assert (uround * (Rabs (hp OMEGA) * extent x y hp rp) <= uround * (301 / 100 * (Rabs (hp OMEGA) * reach) + speck / 500)) by (apply Rmult_le_compat_l; lra).
    assert (uround * speck <= / 1000000 * speck) by (apply Rmult_le_compat_r; lra).
    assert (0 <= uround * (Rabs (hp OMEGA) * reach)) by (apply Rmult_le_pos; lra). lra.
Qed.
Print Assumptions C88_roundtrip.

(** ** the cases in numbers *)
(** azimuth 3/2 through the origin *)
Definition slanted (om : R) : vec5 := mk5 om 0 (3 / 2) 0 0.
Lemma d_3_2 : is_double (3 / 2).
Proof. replace (3 / 2) with (IZR 3 * bpow radix2 (-1)) by (change (bpow radix2 (-1)) with (/ 2); lra). apply dyadic; lia. Qed.
Lemma ordinary_0 : ordinary 0.
Proof. split; [apply generic_format_0|]. rewrite Rabs_R0. apply bpow_ge_0. Qed.
Lemma slanted_ordinary om : ordinary om -> om = 0 \/ bpow radix2 (-200) <= Rabs om -> ordinary_track (slanted om) v3zero.
Proof.
  intros O O2. assert (P := PI_num). constructor; cbn [slanted mk5 OMEGA PHI0 D0 v3zero vx vy]; auto using ordinary_0, d_3_2.
  - rewrite Rabs_pos_eq; lra.
  - right. rewrite Rabs_pos_eq by lra. apply Rle_trans with (bpow radix2 0); [apply bpow_le; lia|]. change (bpow radix2 0) with 1. lra.
Qed.

(** the rounded coordinates of a point at most 1024 away *)
Lemma rounded_ordinary v : Rabs v <= 1024 -> ordinary (rnd v) /\ Rabs (rnd v - v) <= bpow radix2 (-42) /\ Rabs (rnd v) <= 1025.
Proof.
  intros H. assert (E := rnd_err v). assert (U := u_small).
  assert (uround * Rabs v <= uround * 1024) by (apply Rmult_le_compat_l; lra).
  assert (least <= uround) by (unfold least; apply Rle_trans with (bpow radix2 (-53)); [apply bpow_le; lia|change (bpow radix2 (-53)) with (/ 9007199254740992); unfold uround; lra]).
  assert (B : Rabs (rnd v - v) <= bpow radix2 (-42)) by (change (bpow radix2 (-42)) with (/ 4398046511104); unfold uround in *; lra).
  assert (S := near_size _ _ _ B).
  assert (bpow radix2 (-42) <= 1) by (apply (bpow_le radix2 (-42) 0); lia).
  split; [|split; [exact B|lra]]. split; [apply rnd_double|]. apply Rle_trans with (bpow radix2 11); [change (bpow radix2 11) with 2048; lra|apply bpow_le; lia].
Qed.

(** The path length to a point 1024 along a straight track is 0 with one library and
    1024 with another; both keep the contract. *)
Theorem C88_lost_refuted : exists L at2 at2' hp rp f x y r, good_library L at2 /\ good_library L at2' /\ ordinary_track hp rp
  /\ ordinary x /\ ordinary y /\ hp OMEGA = 0 /\ is_helix hp rp f
  /\ Rabs (x - vx (f 1024)) <= bpow radix2 (-42) /\ Rabs (y - vy (f 1024)) <= bpow radix2 (-42)
  /\ calculateSfromXY_d L at2 x y hp rp = Ok 0 /\ calculateSfromXY_d L at2' x y hp rp = Ok r /\ Rabs (r - 1024) <= / 1000000.
Proof.
  destruct lib_next as (v & Nv & Lv). destruct (helix_exists (slanted 0) v3zero) as [f Hf].
  assert (F : f 1024 = hline (slanted 0) v3zero 1024) by (apply (helix_is_hline _ _ _ (eq_refl : slanted 0 OMEGA = 0) Hf)).
  assert (Fx : vx (f 1024) = 1024 * cos (3 / 2)) by (rewrite F; unfold hline; cbn [slanted mk5 OMEGA PHI0 D0 v3zero vx vy]; ring).
  assert (Fy : vy (f 1024) = 1024 * sin (3 / 2)) by (rewrite F; unfold hline; cbn [slanted mk5 OMEGA PHI0 D0 v3zero vx vy]; ring).
  assert (Bx : Rabs (vx (f 1024)) <= 1024) by (rewrite Fx, Rabs_mult, (Rabs_pos_eq 1024) by lra; assert (W := cos_1 (3 / 2)); lra).
  assert (By : Rabs (vy (f 1024)) <= 1024) by (rewrite Fy, Rabs_mult, (Rabs_pos_eq 1024) by lra; assert (W := sin_1 (3 / 2)); lra).
  destruct (rounded_ordinary _ Bx) as (Ox & Ex & Sx). destruct (rounded_ordinary _ By) as (Oy & Ey & Sy).
  assert (HT : ordinary_track (slanted 0) v3zero) by (apply slanted_ordinary; [apply ordinary_0|auto]).
  assert (P3 : Rabs (slanted 0 PHI0) <= 3) by (cbn [slanted mk5 OMEGA PHI0 D0 v3zero vx vy]; rewrite Rabs_pos_eq; lra).
  assert (A : forall w, at2_with ys xs w (m_sin best (slanted 0 PHI0)) (m_cos best (slanted 0 PHI0)) = w).
  { intros w. cbn [best m_sin m_cos slanted mk5 PHI0]. fold ys xs. unfold at2_with. destruct Req_EM_T as [_|N]; [|elim N; reflexivity]. destruct Req_EM_T as [_|N]; [reflexivity|elim N; reflexivity]. }
  destruct (C88_straight best _ _ _ _ v3zero f 1024 _ lib_same HT Ox Oy eq_refl P3 Hf Ex Ey) as [Z _].
  destruct (C88_straight best _ _ _ _ v3zero f 1024 _ Lv HT Ox Oy eq_refl P3 Hf Ex Ey) as [_ N].
  rewrite A in Z, N. destruct (N Nv) as (r & R1 & R2).
  exists best, (at2_with ys xs (3 / 2)), (at2_with ys xs v), (slanted 0), v3zero, f, (rnd (vx (f 1024))), (rnd (vy (f 1024))), r.
  split; [exact lib_same|]. split; [exact Lv|]. split; [exact HT|]. split; [exact Ox|]. split; [exact Oy|]. split; [reflexivity|]. split; [exact Hf|].
  split; [exact Ex|]. split; [exact Ey|]. split; [apply Z; reflexivity|]. split; [exact R1|]. eapply Rle_trans; [exact R2|].
  unfold extent. cbn [slanted mk5 OMEGA PHI0 D0 v3zero vx vy]. rewrite Rabs_R0, (Rabs_pos_eq 1024) by lra. change (bpow radix2 (-42)) with (/ 4398046511104).
  assert (speck <= / 10000000) by (unfold speck; apply Rle_trans with (bpow radix2 (-30)); [apply bpow_le; lia|change (bpow radix2 (-30)) with (/ 1073741824); lra]).
  unfold uround. lra.
Qed.
Print Assumptions C88_lost_refuted.

(** a circle of radius 4096 at 1024 along it *)
Example C88_ex : exists f x y, is_helix (slanted (/ 4096)) v3zero f /\ ordinary_track (slanted (/ 4096)) v3zero
  /\ Rabs (x - vx (f 1024)) <= bpow radix2 (-42) /\ Rabs (y - vy (f 1024)) <= bpow radix2 (-42)
  /\ exists r, calculateSfromXY_d best (at2_with ys xs (3 / 2)) x y (slanted (/ 4096)) v3zero = Ok r /\ Rabs (r - 1024) <= / 1000000.
Proof.
  assert (O : ordinary (/ 4096)).
  { change (/ 4096) with (bpow radix2 (-12)). split; [apply double_bpow; lia|]. rewrite Rabs_pos_eq by apply bpow_ge_0. apply bpow_le. lia. }
  assert (HT : ordinary_track (slanted (/ 4096)) v3zero).
  { apply slanted_ordinary; auto. right. change (/ 4096) with (bpow radix2 (-12)). rewrite Rabs_pos_eq by apply bpow_ge_0. apply bpow_le. lia. }
  destruct (helix_exists (slanted (/ 4096)) v3zero) as [f Hf].
  assert (F : f 1024 = hcurve (slanted (/ 4096)) v3zero 1024) by (apply helix_is_hcurve; [cbn [slanted mk5 OMEGA PHI0 D0 v3zero vx vy]; lra|exact Hf]).
  assert (Bx : Rabs (vx (f 1024)) <= 1024).
  { rewrite F. unfold hcurve. cbn [slanted mk5 OMEGA PHI0 D0 v3zero vx vy]. assert (W := sin_lip (3 / 2) (3 / 2 - 1024 * / 4096)). apply Rabs_le_inv in W.
    replace (3 / 2 - (3 / 2 - 1024 * / 4096)) with (/ 4) in W by field. rewrite (Rabs_pos_eq (/ 4)) in W by lra. apply Rabs_le. lra. }
  assert (By : Rabs (vy (f 1024)) <= 1024).
  { rewrite F. unfold hcurve. cbn [slanted mk5 OMEGA PHI0 D0 v3zero vx vy]. assert (W := cos_lip (3 / 2) (3 / 2 - 1024 * / 4096)). apply Rabs_le_inv in W.
    replace (3 / 2 - (3 / 2 - 1024 * / 4096)) with (/ 4) in W by field. rewrite (Rabs_pos_eq (/ 4)) in W by lra. apply Rabs_le. lra. }
  destruct (rounded_ordinary _ Bx) as (Ox & Ex & Sx). destruct (rounded_ordinary _ By) as (Oy & Ey & Sy).
  assert (XT : extent (rnd (vx (f 1024))) (rnd (vy (f 1024))) (slanted (/ 4096)) v3zero <= 2050).
  { unfold extent. cbn [slanted mk5 OMEGA PHI0 D0 v3zero vx vy]. rewrite Rabs_R0. lra. }
  assert (SP : speck <= / 10000000) by (unfold speck; apply Rle_trans with (bpow radix2 (-30)); [apply bpow_le; lia|change (bpow radix2 (-30)) with (/ 1073741824); lra]).
  assert (SM : bpow radix2 (-42) = / 4398046511104) by reflexivity.
  exists f, (rnd (vx (f 1024))), (rnd (vy (f 1024))). split; [exact Hf|]. split; [exact HT|]. split; [exact Ex|]. split; [exact Ey|].
  assert (OM : Rabs (slanted (/ 4096) OMEGA) = / 4096) by (cbn [slanted mk5 OMEGA PHI0 D0 v3zero vx vy]; apply Rabs_pos_eq; lra).
  assert (OS : Rabs (slanted (/ 4096) OMEGA * 1024) = / 4) by (cbn [slanted mk5 OMEGA PHI0 D0 v3zero vx vy]; rewrite Rabs_pos_eq; lra).
  destruct (C88_accuracy best _ _ _ _ _ f 1024 (bpow radix2 (-42)) lib_same HT Ox Oy) as (r & R1 & R2); auto; try (rewrite ?OM, ?OS, ?SM; lra).
  exists r. split; [exact R1|]. destruct R2 as [R2|[_ R2]].
  - eapply Rle_trans; [exact R2|]. rewrite SM, (Rabs_pos_eq 1024) by lra. unfold uround. lra.
  - exfalso. rewrite OM, OS, SM in R2. unfold uround in R2. lra.
Qed.

(** the same circle there and back *)
Example C88_ex2 : exists x y r, calculateXfromS_d best 1024 (slanted (/ 4096)) v3zero = Ok x
  /\ calculateYfromS_d best 1024 (slanted (/ 4096)) v3zero = Ok y
  /\ calculateSfromXY_d best (at2_with ys xs (3 / 2)) x y (slanted (/ 4096)) v3zero = Ok r /\ Rabs (r - 1024) <= / 1000000.
Proof.
  assert (O : moderate (/ 4096)) by (change (/ 4096) with (bpow radix2 (-12)); apply moderate_bpow; lia).
  assert (O2 : bpow radix2 (-200) <= Rabs (/ 4096)) by (change (/ 4096) with (bpow radix2 (-12)); rewrite Rabs_pos_eq by apply bpow_ge_0; apply bpow_le; lia).
  assert (HT : ordinary_track (slanted (/ 4096)) v3zero).
  { apply slanted_ordinary; auto. split; [apply O|]. change (/ 4096) with (bpow radix2 (-12)). rewrite Rabs_pos_eq by apply bpow_ge_0. apply bpow_le. lia. }
  assert (M3 : moderate (3 / 2)).
  { split; [apply d_3_2|]. rewrite Rabs_pos_eq by lra. apply Rle_trans with (bpow radix2 1); [change (bpow radix2 1) with 2; lra|apply bpow_le; lia]. }
  assert (HF : fit_for_double 1024 (slanted (/ 4096)) v3zero).
  { constructor; try apply moderate_0; [apply moderate_1024| |exact O2]. intros []; cbn [slanted mk5]; auto using moderate_0. }
  destruct (helix_exists (slanted (/ 4096)) v3zero) as [f Hf].
  destruct (C78_fromS best 1024 _ _ f best_accurate HF Hf) as (x & y & _ & X & Y & _).
  assert (OM : Rabs (slanted (/ 4096) OMEGA) = / 4096) by (cbn [slanted mk5 OMEGA]; apply Rabs_pos_eq; lra).
  assert (OS : Rabs (slanted (/ 4096) OMEGA * 1024) = / 4) by (cbn [slanted mk5 OMEGA]; rewrite Rabs_pos_eq; lra).
  assert (RE : Rabs (vx v3zero) + Rabs (vy v3zero) + Rabs (slanted (/ 4096) D0) + Rabs 1024 = 1024).
  { cbn [slanted mk5 D0 v3zero vx vy]. rewrite Rabs_R0, Rabs_pos_eq; lra. }
  destruct (C88_roundtrip best _ _ v3zero 1024 x y lib_same HT HF) as (r & R1 & R2); auto; try (rewrite ?OS, ?OM, ?RE; lra).
  { rewrite RE. apply Rle_trans with (bpow radix2 10); [change (bpow radix2 10) with 1024; lra|apply bpow_le; lia]. }
  exists x, y, r. split; [exact X|]. split; [exact Y|]. split; [exact R1|]. rewrite RE in R2.
  assert (SP : speck <= / 100000000) by (unfold speck; apply Rle_trans with (bpow radix2 (-30)); [apply bpow_le; lia|change (bpow radix2 (-30)) with (/ 1073741824); lra]).
  destruct R2 as [R2|[_ R2]].
  - eapply Rle_trans; [exact R2|]. unfold uround. lra.
  - exfalso. rewrite OM, OS in R2. unfold uround in R2. lra.
Qed.
