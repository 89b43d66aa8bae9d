(** C100: momentum and charge over momentum in double precision. *)
From Coq Require Import Reals ZArith Lra Lia Psatz.
From Flocq Require Import Core.
From Verif Require Import Num Vec FloatWrap PointFloat SpecConst SpecRound RoundFacts PointFloatFacts BetheFloatFacts SpecFrameFloat MomFloat SpecMomFloat MomFloatFacts PropRound.
Open Scope R_scope.

(** The momentum at an arc length: transverse momentum times direction of the track. *)
Theorem C100_momentum L bz s hp : accurate L -> usual (hp OMEGA) -> usual bz -> moderate s -> (forall i, moderate (hp i)) ->
  let pt := transverse bz (hp OMEGA) in
  exists p, momentumAt_d L bz s hp = Ok p
  /\ Rabs (vx p - pt * cos (azimuth s hp)) <= Rabs pt * wobble s hp
  /\ Rabs (vy p - pt * sin (azimuth s hp)) <= Rabs pt * wobble s hp
  /\ Rabs (vz p - pt * hp TANL) <= 9 * uround * Rabs (pt * hp TANL) + least.
Proof.
  intros HL HO HB [Ds Ms] Hh pt0. destruct (pt_ok bz hp HO HB) as (p & Ep & A). fold pt0 in A. set (pt := pt0) in *.
  assert (U := u_small). assert (LU := least_u). assert (L0 := least_pos).
  unfold azimuth, wobble, momentumAt_d. set (C := hp OMEGA * s). set (ph := hp PHI0). set (cd := rnd C). set (th := rnd (ph - cd)).
  assert (MC : mag C 400) by (apply (mag_mul _ _ 200 200); [apply (Hh OMEGA)|exact Ms]).
  assert (Mc : mag cd 400) by (apply mag_rnd; [lia|auto]).
  assert (M2 : mag (ph - cd) (400 + 1)) by (apply mag_sub; auto; apply (mag_le _ 200); [apply (Hh PHI0)|lia]).
  assert (Ec : Rabs (cd - C) <= uround * Rabs C + least) by apply rnd_err.
  assert (W := rnd_step _ _ _ (sub_err _ _ _ _ _ _ (same_err ph) Ec)). fold th in W.
  assert (T : Rabs (ph - C) <= Rabs ph + Rabs C).
  { unfold Rminus. eapply Rle_trans; [apply Rabs_triang|]. rewrite Rabs_Ropp. lra. }
  assert (uround * Rabs (ph - C) <= uround * (Rabs ph + Rabs C)) by (apply Rmult_le_compat_l; lra).
  assert (P := Rabs_pos C). assert (UC : 0 <= uround * Rabs C) by (apply Rmult_le_pos; lra).
  assert (Pp := Rabs_pos ph). assert (UP : 0 <= uround * Rabs ph) by (apply Rmult_le_pos; lra).
  assert (Et : Rabs (th - (ph - C)) <= uround * Rabs ph + 21 / 10 * (uround * Rabs C) + 3 * least) by lra.
  assert (Dt : is_double th) by apply rnd_double.
  assert (E1 := cos_err L _ _ _ HL Dt Et). assert (E2 := sin_err L _ _ _ HL Dt Et).
  destruct (comp_ok bz hp HO HB p _ _ _ A E1 (cos_1 _) (cos_size L th HL Dt)) as (R1 & F1).
  destruct (comp_ok bz hp HO HB p _ _ _ A E2 (sin_1 _) (sin_size L th HL Dt)) as (R2 & F2).
  destruct (slope_ok bz hp HO HB p (hp TANL) A (Hh TANL)) as (R3 & F3). fold pt0 in F1, F2, F3. fold pt in F1, F2, F3.
  eexists. split.
  - rewrite Ep. cbn [bind]. replace (s * hp OMEGA) with C by (unfold C; ring). rewrite (mag_rd _ 400 ltac:(lia) MC). cbn [bind]. fold cd.
    rewrite (mag_rd _ 401 ltac:(lia) M2). cbn [bind]. fold th. rewrite R1. cbn [bind]. rewrite R2. cbn [bind]. rewrite R3. reflexivity.
  - cbn [vx vy vz]. split; [|split; [|exact F3]].
    + eapply Rle_trans; [exact F1|]. apply Rmult_le_compat_l; [apply Rabs_pos|]. lra.
    + eapply Rle_trans; [exact F2|]. apply Rmult_le_compat_l; [apply Rabs_pos|]. lra.
Qed.

(** At the point of closest approach the azimuth is a parameter, and exact. *)
Theorem C100_start L bz hp : accurate L -> usual (hp OMEGA) -> usual bz -> is_double (hp PHI0) -> moderate (hp TANL) ->
  let pt := transverse bz (hp OMEGA) in
  exists p, momentumAtPCA_d L bz hp = Ok p
  /\ Rabs (vx p - pt * cos (hp PHI0)) <= 12 * uround * Rabs pt
  /\ Rabs (vy p - pt * sin (hp PHI0)) <= 12 * uround * Rabs pt
  /\ Rabs (vz p - pt * hp TANL) <= 9 * uround * Rabs (pt * hp TANL) + least.
Proof.
  intros HL HO HB DP HT pt0. destruct (pt_ok bz hp HO HB) as (p & Ep & A). fold pt0 in A. set (pt := pt0) in *.
  assert (U := u_small). assert (LU := least_u). assert (L0 := least_pos).
  assert (E1 := cos_err L _ _ _ HL DP (same_err _)). assert (E2 := sin_err L _ _ _ HL DP (same_err _)).
  destruct (comp_ok bz hp HO HB p _ _ _ A E1 (cos_1 _) (cos_size L _ HL DP)) as (R1 & F1).
  destruct (comp_ok bz hp HO HB p _ _ _ A E2 (sin_1 _) (sin_size L _ HL DP)) as (R2 & F2).
  destruct (slope_ok bz hp HO HB p (hp TANL) A HT) as (R3 & F3). fold pt0 in F1, F2, F3. fold pt in F1, F2, F3.
  eexists. split.
  - unfold momentumAtPCA_d. rewrite Ep. cbn [bind]. rewrite R1. cbn [bind]. rewrite R2. cbn [bind]. rewrite R3. reflexivity.
  - cbn [vx vy vz]. split; [|split; [|exact F3]].
    + eapply Rle_trans; [exact F1|]. rewrite (Rmult_comm (12 * uround)). apply Rmult_le_compat_l; [apply Rabs_pos|]. lra.
    + eapply Rle_trans; [exact F2|]. rewrite (Rmult_comm (12 * uround)). apply Rmult_le_compat_l; [apply Rabs_pos|]. lra.
Qed.

(** Charge over momentum: the sign of curvature times field over the momentum. *)
Theorem C100_charge L bz hp : accurate L -> usual (hp OMEGA) -> usual bz -> is_double (hp TANL) -> Rabs (hp TANL) <= 100000000 ->
  let P := total bz (hp OMEGA) (hp TANL) in
  exists q, calculateQoverP_d L hp bz = Ok q
  /\ Rabs (q - sgn (hp OMEGA * bz) / P) <= uround * (16 + 8 * Rabs (hp TANL)) * / P.
Proof. intros. apply qp_ok; assumption. Qed.

(** The two agree: charge over momentum times the length of the momentum at the start is the
    charge, plus or minus one. *)
Theorem C100_agree L bz hp p q : accurate L -> usual (hp OMEGA) -> usual bz -> is_double (hp PHI0) -> is_double (hp TANL) -> Rabs (hp TANL) <= 100000000 ->
  momentumAtPCA_d L bz hp = Ok p -> calculateQoverP_d L hp bz = Ok q ->
  Rabs (q * sqrt (vx p * vx p + vy p * vy p + vz p * vz p) - sgn (hp OMEGA * bz)) <= uround * (42 + 19 * Rabs (hp TANL)).
Proof.
  intros HL HO HB DP DT T8 EP EQ. set (t := hp TANL) in *. set (om := hp OMEGA) in *.
  assert (MT : moderate t) by (split; [exact DT|]; apply Rle_trans with (bpow radix2 27); [change (bpow radix2 27) with 134217728; lra|apply bpow_le; lia]).
  destruct (C100_start L bz hp HL HO HB DP MT) as (p' & EP' & X & Y & Z). rewrite EP in EP'. injection EP' as <-.
  destruct (C100_charge L bz hp HL HO HB DT T8) as (q' & EQ' & Q). rewrite EQ in EQ'. injection EQ' as <-. fold t om in X, Y, Z, Q.
  assert (U : 0 < uround <= / 1000000000000000) by (unfold uround; lra). assert (PT := Rabs_pos t). assert (L0 := least_pos).
  assert (BP := pt_btw bz hp HO HB). fold om in BP. set (pt := transverse bz om) in *.
  assert (LP : least <= uround * Rabs pt).
  { apply Rle_trans with (bpow radix2 (-53) * bpow radix2 (-300)).
    - rewrite <- bpow_plus. unfold least. assert (E : bpow radix2 (-1074) <= bpow radix2 (-53 + -300)) by (apply bpow_le; lia). generalize (bpow_gt_0 radix2 (-1074)). lra.
    - assert (EU : bpow radix2 (-53) = uround) by (unfold uround; cbn; lra). rewrite EU. apply Rmult_le_compat_l; [lra|]. eapply Rle_trans; [|exact (proj1 BP)]. apply bpow_le. lia. }
  assert (PP : 0 < Rabs pt) by (eapply Rlt_le_trans; [apply bpow_gt_0|exact (proj1 BP)]).
  assert (UP : 0 <= uround * Rabs pt) by (apply Rmult_le_pos; lra).
  assert (UT : 0 <= uround * Rabs (pt * t)) by (apply Rmult_le_pos; [lra|apply Rabs_pos]).
  assert (LE := len_err _ _ _ _ _ _ (12 * uround * Rabs pt) (12 * uround * Rabs pt) (9 * uround * Rabs (pt * t) + least) ltac:(lra) ltac:(lra) ltac:(lra) X Y Z).
  unfold pt in LE at 1 2 3 4 5 6. rewrite (total_len bz om t (hp PHI0)) in LE.
  assert (PL : Rabs pt <= total bz om t).
  { unfold total. fold pt. rewrite <- (Rmult_1_r (Rabs pt)) at 1. apply Rmult_le_compat_l; [lra|]. assert (Q2 : 0 <= t * t) by apply Rle_0_sqr. rewrite <- sqrt_1 at 1. apply sqrt_le_1_alt. lra. }
  assert (N : Rabs (sqrt (vx p * vx p + vy p * vy p + vz p * vz p) - total bz om t) <= uround * (25 + 9 * Rabs t) * total bz om t).
  { eapply Rle_trans; [exact LE|]. apply Rle_trans with (uround * (25 + 9 * Rabs t) * Rabs pt).
    - rewrite Rabs_mult. fold pt. replace (uround * (25 + 9 * Rabs t) * Rabs pt) with (24 * (uround * Rabs pt) + uround * Rabs pt + 9 * uround * (Rabs pt * Rabs t)) by ring. lra.
    - apply Rmult_le_compat_l; [|exact PL]. apply Rmult_le_pos; lra. }
  assert (UA : uround * (16 + 8 * Rabs t) <= / 1000) by (apply Rle_trans with (/ 1000000000000000 * 1000000000); [apply Rmult_le_compat; lra|lra]).
  assert (SG : Rabs (sgn (om * bz)) = 1) by (unfold sgn; destruct (Rlt_dec _ 0); [rewrite Rabs_left|rewrite Rabs_pos_eq]; lra).
  eapply Rle_trans; [exact (product_err uround (total bz om t) _ _ _ (16 + 8 * Rabs t) (25 + 9 * Rabs t) ltac:(lra) ltac:(lra) ltac:(lra) ltac:(lra) UA SG Q N)|].
  apply Rmult_le_compat_l; lra.
Qed.

(** Without a field: zero. *)
Theorem C100_no_field L hp : calculateQoverP_d L hp 0 = Ok 0.
Proof. unfold calculateQoverP_d. destruct (Req_EM_T 0 0); [reflexivity|contradiction]. Qed.
Print Assumptions C100_momentum.
Print Assumptions C100_start.
Print Assumptions C100_charge.
Print Assumptions C100_no_field.
Print Assumptions C100_agree.

(** ** a track of 10 m radius in a field of 4 T *)
Example C100_track : exists p q, usual (curved_hp OMEGA) /\ usual 4 /\ moderate 512 /\ (forall i, moderate (curved_hp i))
  /\ momentumAt_d best 4 512 curved_hp = Ok p /\ calculateQoverP_d best curved_hp 4 = Ok q
  /\ Rabs (vz p - 299792458 * 4 * 1024 / 100000000000) <= / 10000000000000.
Proof.
  destruct curved_instance as [HL HF].
  assert (UO : usual (curved_hp OMEGA)).
  { split; [apply (fd_hp _ _ _ HF)|]. change (curved_hp OMEGA) with (bpow radix2 (-10)). rewrite Rabs_pos_eq by apply bpow_ge_0. split; apply bpow_le; lia. }
  assert (U4 : usual 4).
  { change 4 with (bpow radix2 2). split; [apply (moderate_bpow 2); lia|]. rewrite Rabs_pos_eq by apply bpow_ge_0. split; apply bpow_le; lia. }
  assert (M512 : moderate 512) by exact (moderate_bpow 9 ltac:(lia)).
  destruct (C100_momentum best 4 512 curved_hp HL UO U4 M512 (fd_hp _ _ _ HF)) as (p & E & _ & _ & Z).
  destruct (C100_charge best 4 curved_hp HL UO U4 (proj1 (fd_hp _ _ _ HF TANL))) as (q & Q & _); [change (curved_hp TANL) with 1; rewrite Rabs_R1; lra|].
  exists p, q. split; [exact UO|]. split; [exact U4|]. split; [exact M512|]. split; [exact (fd_hp _ _ _ HF)|]. split; [exact E|]. split; [exact Q|].
  revert Z. change (curved_hp TANL) with 1. change (curved_hp OMEGA) with (/ 1024). rewrite Rmult_1_r. 
  replace (transverse 4 (/ 1024)) with (299792458 * 4 * 1024 / 100000000000); [|unfold transverse, field_unit; rewrite Rabs_pos_eq by lra; field].
  rewrite (Rabs_pos_eq (299792458 * 4 * 1024 / 100000000000)) by lra. intros Z. assert (LF := least_fine). eapply Rle_trans; [exact Z|]. unfold uround in *. lra.
Qed.
Print Assumptions C100_track.
