(** C89: moveHelixTo in double precision. *)
From Coq Require Import Reals ZArith Lra Lia Psatz.
From Flocq Require Import Core.
From Verif Require Import Num Vec NumFacts FloatWrap PointFloat SpecRound RoundFacts PointFloatFacts SpecHelix HelixFacts
  SpecPath PathTrig PathFloatFacts PathLibFacts MoveFloat SpecMoveFloat MoveFloatFacts MoveFloatTrack PropRound PropPath.
Open Scope R_scope.

(** The track described by the result is the old track, started further back by the
    returned angle divided by the curvature, up to rounding; in y the error is
    magnified by one over |cos phi0|. *)
Theorem C89_accuracy : forall fuel L at2 hp rp new, (3 <= fuel)%nat -> good_library L at2 -> origin_ok at2 -> ordinary_move hp rp new ->
  exists hp' fid, moveHelixTo_d fuel L at2 hp rp new = Ok (hp', fid)
  /\ hp' OMEGA = hp OMEGA /\ hp' TANL = hp TANL /\ - PI <= hp' PHI0 <= PI /\ - PI <= fid <= PI
  /\ forall f g, is_helix hp rp f -> is_helix hp' new g -> forall s,
     Rabs (vx (g s) - vx (f (s - fid / hp OMEGA))) <= 600 * (uround * move_extent hp rp new)
     /\ Rabs (vy (g s) - vy (f (s - fid / hp OMEGA))) <= (600 * uround + 12 * lost (hp PHI0)) * move_extent hp rp new
     /\ Rabs (vz (g s) - vz (f (s - fid / hp OMEGA))) <= 4 * (uround * move_height hp rp new) + speck.
Proof. intros fuel L at2 hp rp new HF HL HO HM. exact (move_main fuel L at2 hp rp new HF HL HO HM). Qed.
Print Assumptions C89_accuracy.

(** Tracks at an angle to the y axis keep their digits. *)
Theorem C89_clear : forall fuel L at2 hp rp new h, (3 <= fuel)%nat -> good_library L at2 -> origin_ok at2 -> ordinary_move hp rp new ->
  0 < h -> h <= Rabs (cos (hp PHI0)) ->
  exists hp' fid, moveHelixTo_d fuel L at2 hp rp new = Ok (hp', fid)
  /\ forall f g, is_helix hp rp f -> is_helix hp' new g -> forall s,
     Rabs (vy (g s) - vy (f (s - fid / hp OMEGA))) <= (600 + 12 / h) * (uround * move_extent hp rp new).
Proof.
  intros fuel L at2 hp rp new h HF HL HO HM H0 HC.
  destruct (C89_accuracy fuel L at2 hp rp new HF HL HO HM) as (hp' & fid & Q & _ & _ & _ & _ & A).
  exists hp', fid. split; [exact Q|]. intros f g Hf Hg s. destruct (A f g Hf Hg s) as (_ & Y & _). eapply Rle_trans; [exact Y|].
  assert (W : lost (hp PHI0) <= uround / h).
  { unfold lost. apply Rmult_le_compat_l; [assert (U := u_small); lra|]. apply Rinv_le; [exact H0|]. eapply Rle_trans; [exact HC|apply Rmax_r]. }
  assert (S0 : 0 <= move_extent hp rp new).
  { unfold move_extent. generalize (Rabs_pos (/ hp OMEGA)) (Rabs_pos (hp D0)) (Rabs_pos (vx rp)) (Rabs_pos (vy rp)) (Rabs_pos (vx new)) (Rabs_pos (vy new)). lra. }
  replace ((600 + 12 / h) * (uround * move_extent hp rp new)) with ((600 * uround + 12 * (uround / h)) * move_extent hp rp new) by (field; lra).
  apply Rmult_le_compat_r; lra.
Qed.
Print Assumptions C89_clear.

(** A straight track, or one so straight that its radius is beyond the range of
    double, gives no number. *)
Theorem C89_straight : forall fuel L at2 hp rp new, (3 <= fuel)%nat -> is_double (hp PHI0) -> Rabs (hp PHI0) <= 2 * PI ->
  hp OMEGA = 0 \/ Rabs (hp OMEGA) <= bpow radix2 (-1025) -> moveHelixTo_d fuel L at2 hp rp new = NonFin.
Proof.
  intros fuel L at2 hp rp new HF D B Z. destruct (fi0_ok fuel (hp PHI0) HF D B) as (fi & k & Q & _). unfold moveHelixTo_d. rewrite Q. cbn [bind].
  unfold rd_div. destruct (Req_EM_T (hp OMEGA) 0) as [E|E]; [reflexivity|]. destruct Z as [Z|Z]; [contradiction|].
  unfold rd. destruct Rlt_dec as [A|A]; [exfalso|reflexivity].
  assert (W : bpow radix2 1024 <= Rabs (rnd (1 / hp OMEGA))).
  { unfold rnd. apply abs_round_ge_generic; auto with typeclass_instances; [apply generic_format_bpow; unfold FLT_exp; lia|].
    unfold Rdiv. rewrite Rmult_1_l, Rabs_inv. apply Rle_trans with (bpow radix2 1025); [apply bpow_le; lia|].
    replace (bpow radix2 1025) with (/ bpow radix2 (-1025)) by (rewrite <- bpow_opp; reflexivity).
    apply Rinv_le; [apply Rabs_pos_lt; exact E|exact Z]. }
  lra.
Qed.
Print Assumptions C89_straight.

(** ** a track along y *)
Definition tilt : R := bpow radix2 (-27).
Definition upward : vec5 := mk5 (bpow radix2 (-10)) 0 (dHalfPi + tilt) 0 0.
Definition at2_best : R -> R -> R := at2_with ys xs (3 / 2).

Lemma tilt_num : tilt = / 134217728. Proof. reflexivity. Qed.
Lemma at2_best_zero x : 0 <= x -> at2_best 0 x = 0.
Proof.
  intros H. unfold at2_best, at2_with. destruct Req_EM_T as [Q|Q]; [elim ys_nz; auto|].
  assert (W : atan2 0 x = 0); [|rewrite W; apply rnd_0].
  destruct (Req_dec x 0) as [Z|N].
  - rewrite Z. unfold atan2. destruct Rlt_dec; [lra|reflexivity].
  - assert (W := atan2_unique x 0 ltac:(lra)). rewrite sin_0, cos_0, Rmult_0_r, Rmult_1_r in W. apply W. generalize PI_pos. lra.
Qed.
Lemma at2_best_origin : origin_ok at2_best.
Proof. split; rewrite at2_best_zero by lra; [apply generic_format_0|]. rewrite Rabs_R0. generalize PI_pos. lra. Qed.
Lemma upward_phi : is_double (dHalfPi + tilt).
Proof.
  replace (dHalfPi + tilt) with (IZR 884279723197859 * bpow radix2 (-49)); [apply dyadic; lia|].
  rewrite FloatWrapFacts.dHalfPi_eq, tilt_num. unfold dPi. change (bpow radix2 (-49)) with (/ 562949953421312). lra.
Qed.
Lemma ord_bpow e : (-1074 <= e <= 100)%Z -> ordinary (bpow radix2 e).
Proof. intros H. split; [apply double_bpow; lia|]. rewrite Rabs_pos_eq by apply bpow_ge_0. apply bpow_le. lia. Qed.
Lemma upward_ok : ordinary_move upward v3zero v3zero.
Proof.
  destruct dPi_num as (PN & P1 & P2 & P3 & P4). assert (T := tilt_num).
  assert (PB := bpow_gt_0 radix2 (-10)).
  assert (HT : ordinary_track upward v3zero).
  { constructor; cbn [upward mk5 OMEGA PHI0 D0 v3zero vx vy]; auto using ordinary_0, upward_phi.
    - apply ord_bpow. lia.
    - rewrite Rabs_pos_eq by lra. lra.
    - right. rewrite Rabs_pos_eq by lra. apply bpow_le. lia.
    - right. rewrite Rabs_pos_eq by lra. apply Rle_trans with (bpow radix2 0); [apply bpow_le; lia|]. change (bpow radix2 0) with 1. lra. }
  constructor; auto using ordinary_0. cbn [upward mk5 OMEGA]. lra.
Qed.

(** its cosine is one to all digits *)
Lemma cos_tilt : rnd (cos tilt) = 1.
Proof.
  assert (T := tilt_num). assert (P := PI_num).
  assert (C1 : cos tilt < 1) by (rewrite <- cos_0; apply cos_decreasing_1; lra).
  assert (C0 : 1 - / 36028797018963968 <= cos tilt).
  { replace tilt with (2 * (tilt / 2)) by field. rewrite cos_2a_sin. assert (W := sin_le (tilt / 2)).
    rewrite (Rabs_pos_eq (tilt / 2)) in W by lra. apply Rabs_le_inv in W.
    assert (sin (tilt / 2) * sin (tilt / 2) <= tilt / 2 * (tilt / 2)) by nra. rewrite T in H at 3 4. lra. }
  replace 1 with (IZR 9007199254740992 * bpow radix2 (-53)) by (change (bpow radix2 (-53)) with (/ 9007199254740992); lra).
  apply FloatWrapFacts.rnd_near.
  - unfold cexp, FLT_exp. rewrite (mag_unique_pos radix2 (cos tilt) 0); [reflexivity|].
    change (bpow radix2 (0 - 1)) with (/ 2). change (bpow radix2 0) with 1. lra.
  - change (bpow radix2 (-53)) with (/ 9007199254740992). apply Rabs_lt. lra.
Qed.

Lemma rdb x : is_double x -> Rabs x <= 2000 -> rd x = Ok x.
Proof.
  intros D B. replace x with (rnd x) at 2 by (apply rnd_id; exact D). apply rd_ok. apply Rle_trans with (bpow radix2 11); [change (bpow radix2 11) with 2048; lra|apply bpow_le; lia].
Qed.
Lemma d_0 : is_double 0. Proof. apply generic_format_0. Qed.
Lemma d_1 : is_double 1. Proof. exact (double_bpow 0 ltac:(lia)). Qed.
Lemma d_2 : is_double 2. Proof. exact (double_bpow 1 ltac:(lia)). Qed.
Lemma d_1024 : is_double 1024. Proof. exact (double_bpow 10 ltac:(lia)). Qed.
Ltac small := rewrite ?Rabs_R0, ?Rabs_pos_eq by lra; lra.

Lemma sine_flat fi : fi <= dPi -> sine_d fi 1 = Ok 0.
Proof.
  intros H. unfold sine_d. replace (1 - 1) with 0 by ring. rewrite (rdb 0 d_0) by small. cbn [bind].
  replace (1 + 1) with 2 by ring. rewrite (rdb 2 d_2) by small. cbn [bind]. rewrite Rmult_0_l, (rdb 0 d_0) by small. cbn [bind].
  rewrite Rmax_left, sqrt_0, rnd_0 by lra. destruct Rlt_dec; [lra|reflexivity].
Qed.
Lemma loop_stays n lo hi x : (0 < n)%nat -> lo <= x <= hi -> wrap_d n lo hi x = Ok x.
Proof.
  intros N H. destruct n; [lia|]. unfold wrap_d. cbn [dloop_up]. destruct Rlt_dec; [lra|]. cbn [bind dloop_down]. destruct Rlt_dec; [lra|reflexivity].
Qed.

Lemma upward_moved : exists fid k, moveHelixTo_d 3 best at2_best upward v3zero v3zero = Ok (mk5 (bpow radix2 (-10)) 0 dHalfPi 0 0, fid)
  /\ Rabs (fid + tilt - 2 * IZR k * PI) <= 38 * uround.
Proof.
  destruct dPi_num as (PN & P1 & P2 & P3 & P4). assert (T := tilt_num).
  assert (DT : is_double tilt) by (apply double_bpow; lia).
  assert (DH : is_double dHalfPi) by apply rnd_double.
  destruct (fid_ok 3 0 tilt ltac:(lia) d_0 DT ltac:(lra) ltac:(lra)) as (fid & k & Qfid & Dfid & Rfid & Efid).
  exists fid, k. split; [|replace (fid + tilt - 2 * IZR k * PI) with (fid - (0 - tilt) - 2 * IZR k * PI) by ring; exact Efid].
  unfold moveHelixTo_d. cbn [upward mk5 OMEGA PHI0 D0 Z0 TANL v3zero vx vy vz].
  replace (dHalfPi + tilt - dHalfPi) with tilt by ring. rewrite (rnd_id tilt DT), loop_stays by (try lia; lra). cbn [bind].
  assert (R1 : rd_div 1 (bpow radix2 (-10)) = Ok 1024).
  { unfold rd_div. destruct Req_EM_T as [E|E]; [generalize (bpow_gt_0 radix2 (-10)); lra|].
    replace (1 / bpow radix2 (-10)) with 1024 by (change (bpow radix2 (-10)) with (/ 1024); field). apply rdb; [exact d_1024|small]. }
  rewrite R1. cbn [bind]. replace (1024 + - 0) with 1024 by ring. rewrite (rdb 1024 d_1024) by small. cbn [bind best m_cos].
  rewrite cos_tilt, sine_flat by lra. cbn [bind]. rewrite Rmult_1_r, (rdb 1024 d_1024) by small. cbn [bind].
  rewrite Rplus_0_l, (rdb 1024 d_1024) by small. cbn [bind]. rewrite Rmult_0_r, (rdb 0 d_0) by small. cbn [bind].
  rewrite Rplus_0_l, (rdb 0 d_0) by small. cbn [bind].
  assert (R2 : fi0p_d 3 at2_best (bpow radix2 (-10)) 1024 0 0 0 = Ok 0).
  { unfold fi0p_d. assert (PB := bpow_gt_0 radix2 (-10)). destruct Rlt_dec; [|lra]. rewrite !Rminus_0_r. rewrite (rdb 0 d_0) by small. cbn [bind].
    rewrite (rdb 1024 d_1024) by small. cbn [bind]. destruct Rlt_dec; [lra|]. cbn [bind]. rewrite at2_best_zero by lra. apply loop_stays; [lia|lra]. }
  rewrite R2. cbn [bind]. rewrite Qfid. cbn [bind].
  assert (R3 : drp_d best 0 1024 0 0 0 1024 = Ok 0).
  { unfold drp_d. cbn [best m_cos]. rewrite cos_0, (rnd_id 1 d_1), sine_flat by lra. cbn [bind].
    rewrite Rmult_1_r, (rdb 1 d_1) by small. cbn [bind]. rewrite Rmult_0_r, (rdb 0 d_0) by small. cbn [bind].
    rewrite Rplus_0_r, (rdb 1 d_1) by small. cbn [bind]. rewrite sqrt_1, (rnd_id 1 d_1).
    assert (D1 : rd_div 1 1 = Ok 1) by (unfold rd_div; destruct Req_EM_T; [lra|]; replace (1 / 1) with 1 by field; apply rdb; [exact d_1|small]).
    rewrite D1. cbn [bind]. rewrite Rmult_1_r, (rdb 1 d_1) by small. cbn [bind]. rewrite Rmult_0_l, (rdb 0 d_0) by small. cbn [bind].
    rewrite !Rminus_0_r. rewrite (rdb 1024 d_1024) by small. cbn [bind]. rewrite Rmult_1_r, (rdb 1024 d_1024) by small. cbn [bind].
    rewrite (rdb 0 d_0) by small. cbn [bind]. rewrite Rmult_0_r, (rdb 0 d_0) by small. cbn [bind]. rewrite Rplus_0_r, (rdb 1024 d_1024) by small. cbn [bind].
    replace (1024 - 1024) with 0 by ring. apply rdb; [exact d_0|small]. }
  rewrite R3. cbn [bind].
  assert (R4 : dzp_d 0 0 0 1024 0 fid = Ok 0).
  { unfold dzp_d. rewrite Rminus_0_r, (rdb 0 d_0) by small. cbn [bind]. rewrite Rplus_0_r, (rdb 0 d_0) by small. cbn [bind].
    rewrite Rmult_0_r, (rdb 0 d_0) by small. cbn [bind]. rewrite Rmult_0_l, (rdb 0 d_0) by small. cbn [bind]. rewrite Rminus_0_r. apply rdb; [exact d_0|small]. }
  rewrite R4. cbn [bind]. rewrite Rplus_0_l, (rnd_id _ DH), loop_stays by (try lia; lra). cbn [bind]. rewrite Ropp_0. reflexivity.
Qed.

(** The factor cannot be dropped: even with correctly rounded library functions a
    track along y is turned by 2^-27 when it is moved to its own reference point, and
    every point of it is off by thirty million units. *)
Theorem C89_digits_refuted : exists L at2 hp rp hp' fid f g, good_library L at2 /\ origin_ok at2 /\ ordinary_move hp rp rp
  /\ (forall x, m_sin L x = rnd (sin x) /\ m_cos L x = rnd (cos x))
  /\ moveHelixTo_d 3 L at2 hp rp rp = Ok (hp', fid) /\ is_helix hp rp f /\ is_helix hp' rp g
  /\ hp' PHI0 = hp PHI0 - bpow radix2 (-27)
  /\ forall s, 30000000 * (uround * move_extent hp rp rp) < Rabs (vy (g s) - vy (f (s - fid / hp OMEGA))).
Proof.
  destruct upward_moved as (fid & k & Q & E). set (hp' := mk5 (bpow radix2 (-10)) 0 dHalfPi 0 0) in *.
  destruct (helix_exists upward v3zero) as [f Hf]. destruct (helix_exists hp' v3zero) as [g Hg].
  exists best, at2_best, upward, v3zero, hp', fid, f, g.
  split; [exact lib_same|]. split; [exact at2_best_origin|]. split; [exact upward_ok|]. split; [split; reflexivity|].
  split; [exact Q|]. split; [exact Hf|]. split; [exact Hg|].
  split; [unfold hp'; cbn [upward mk5 PHI0]; fold tilt; ring|].
  intros s. assert (T := tilt_num). destruct dPi_num as (PN & P1 & P2 & P3 & P4). assert (U := u_small).
  assert (OM : upward OMEGA = / 1024) by reflexivity.
  assert (Nf : upward OMEGA <> 0) by (rewrite OM; lra).
  assert (Ng : hp' OMEGA <> 0) by (change (hp' OMEGA) with (/ 1024); lra).
  rewrite (helix_is_hcurve _ _ _ Nf Hf), (helix_is_hcurve _ _ _ Ng Hg). unfold hcurve. cbn [vx vy v3zero].
  change (hp' D0) with 0. change (hp' PHI0) with dHalfPi. change (hp' OMEGA) with (/ 1024). rewrite OM.
  change (upward D0) with 0. change (upward PHI0) with (dHalfPi + tilt).
  replace (dHalfPi + tilt - (s - fid / / 1024) * / 1024) with (dHalfPi + tilt - s * / 1024 + fid) by field.
  set (w := dHalfPi - s * / 1024).
  assert (E2 : Rabs (dHalfPi + tilt - s * / 1024 + fid - w - 2 * IZR k * PI) <= 38 * uround).
  { replace (dHalfPi + tilt - s * / 1024 + fid - w - 2 * IZR k * PI) with (fid + tilt - 2 * IZR k * PI) by (unfold w; ring). exact E. }
  destruct (turn_cos _ _ _ _ E2) as [EC _].
  assert (CH : Rabs (cos dHalfPi) <= uround).
  { replace (cos dHalfPi) with (cos dHalfPi - cos (PI / 2)) by (rewrite cos_PI2; ring). eapply Rle_trans; [apply cos_lip|]. apply Rabs_le. lra. }
  assert (CT : cos (dHalfPi + tilt) <= - (63 / 100 * (tilt - uround))).
  { replace (cos (dHalfPi + tilt)) with (- sin (dHalfPi + tilt - PI / 2)) by (rewrite sin_minus, cos_PI2, sin_PI2; ring).
    set (a := dHalfPi + tilt - PI / 2). assert (A : tilt - uround <= a <= tilt + uround) by (unfold a; lra). clearbody a.
    assert (U2 : uround <= / 1000000000000) by (unfold uround; lra). assert (P := PI_num).
    assert (W := sinc_range a ltac:(rewrite Rabs_pos_eq; lra)). unfold sinc in W. destruct Req_EM_T; [lra|].
    assert (SP : 0 < sin a) by (apply sin_gt_0; lra).
    assert (SA : a <= PI / 2 * sin a).
    { destruct W as [_ W]. apply Rmult_le_compat_r with (r := sin a) in W; [|lra]. unfold Rdiv at 1 in W. rewrite Rmult_assoc, Rinv_l, Rmult_1_r in W by lra. exact W. }
    nra. }
  apply Rabs_le_inv in EC. apply Rabs_le_inv in CH.
  set (c1 := cos (dHalfPi + tilt)) in *. set (c2 := cos (dHalfPi + tilt - s * / 1024 + fid)) in *. set (c3 := cos dHalfPi) in *. set (c4 := cos w) in *.
  assert (SE : move_extent upward v3zero v3zero = 1024).
  { unfold move_extent. rewrite OM. cbn [v3zero vx vy]. change (upward D0) with 0. rewrite Rabs_R0, Rinv_inv, (Rabs_pos_eq 1024) by lra. ring. }
  rewrite SE. replace (1 / / 1024) with 1024 by field. rewrite T in CT. rewrite Rabs_left; unfold uround in *; lra.
Qed.
Print Assumptions C89_digits_refuted.

(** a circle of radius 4096, described with respect to another point *)
Example C89_ex : ordinary_move (slanted (/ 4096)) v3zero (V3 100 200 50)
  /\ exists hp' fid, moveHelixTo_d 3 best at2_best (slanted (/ 4096)) v3zero (V3 100 200 50) = Ok (hp', fid)
  /\ forall f g, is_helix (slanted (/ 4096)) v3zero f -> is_helix hp' (V3 100 200 50) g -> forall s,
     Rabs (vx (g s) - vx (f (s - fid * 4096))) <= / 1000000000 /\ Rabs (vy (g s) - vy (f (s - fid * 4096))) <= / 1000000000.
Proof.
  assert (OI : forall z, (Z.abs z < 1000)%Z -> ordinary (IZR z)).
  { intros z H. split; [replace (IZR z) with (IZR z * bpow radix2 0) by (change (bpow radix2 0) with 1; ring); apply dyadic; lia|].
    rewrite <- abs_IZR. apply Rle_trans with (IZR 1024); [apply IZR_le; lia|]. change (IZR 1024) with (bpow radix2 10). apply bpow_le. lia. }
  assert (HM : ordinary_move (slanted (/ 4096)) v3zero (V3 100 200 50)).
  { constructor; try (apply OI; lia); try apply ordinary_0.
    - apply slanted_ordinary; [exact (ord_bpow (-12) ltac:(lia))|]. right. change (/ 4096) with (bpow radix2 (-12)).
      rewrite Rabs_pos_eq by apply bpow_ge_0. apply bpow_le. lia.
    - change (slanted (/ 4096) OMEGA) with (/ 4096). lra. }
  split; [exact HM|].
  assert (HC : 4 / 100 <= Rabs (cos (slanted (/ 4096) PHI0))).
  { change (slanted (/ 4096) PHI0) with (3 / 2). assert (P := PI_num). eapply Rle_trans; [|apply Rle_abs].
    replace (cos (3 / 2)) with (sin (PI / 2 - 3 / 2)) by (rewrite sin_minus, cos_PI2, sin_PI2; ring).
    set (a := PI / 2 - 3 / 2). assert (A : 7 / 100 <= a <= 75 / 1000) by (unfold a; lra). clearbody a.
    assert (W := sinc_range a ltac:(rewrite Rabs_pos_eq; lra)). unfold sinc in W. destruct Req_EM_T; [lra|].
    assert (SP : 0 < sin a) by (apply sin_gt_0; lra).
    assert (SA : a <= PI / 2 * sin a).
    { destruct W as [_ W]. apply Rmult_le_compat_r with (r := sin a) in W; [|lra]. unfold Rdiv at 1 in W. rewrite Rmult_assoc, Rinv_l, Rmult_1_r in W by lra. exact W. }
    nra. }
  destruct (C89_accuracy 3 best at2_best _ _ _ ltac:(lia) lib_same at2_best_origin HM) as (hp' & fid & Q & _ & _ & _ & _ & A).
  exists hp', fid. split; [exact Q|]. intros f g Hf Hg s. destruct (A f g Hf Hg s) as (X & Y & _).
  change (slanted (/ 4096) OMEGA) with (/ 4096) in X, Y. replace (fid / / 4096) with (fid * 4096) in X, Y by field.
  assert (SE : move_extent (slanted (/ 4096)) v3zero (V3 100 200 50) = 4396).
  { unfold move_extent. change (slanted (/ 4096) OMEGA) with (/ 4096). change (slanted (/ 4096) D0) with 0. cbn [v3zero vx vy].
    rewrite Rabs_R0, Rinv_inv, !Rabs_pos_eq by lra. ring. }
  assert (LO : lost (slanted (/ 4096) PHI0) <= 25 * uround).
  { unfold lost. replace (25 * uround) with (uround * / (4 / 100)) by field. apply Rmult_le_compat_l; [assert (U := u_small); lra|].
    apply Rinv_le; [lra|]. eapply Rle_trans; [exact HC|apply Rmax_r]. }
  rewrite SE in X, Y. split; (eapply Rle_trans; [eassumption|]); unfold uround in *; lra.
Qed.
