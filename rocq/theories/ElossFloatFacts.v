(** Proofs about the energy loss in a surface in double precision. *)
From Coq Require Import Reals ZArith Lra Lia Psatz.
From Flocq Require Import Core.
From Verif Require Import Num Vec Isect Material FloatWrap PointFloat SpecRound RoundFacts PointFloatFacts NearFacts CylFloatFacts StartFloat StartFloatFacts
  SpecMaterial MaterialFacts QmsFloat SpecQmsFloat RelFacts QmsFloatFacts BetheFloat SpecBetheFloat BetheFloatFacts.
Open Scope R_scope.

Section Loss.
Variables (mlog m10 : R -> R) (mpow : R -> R -> R) (surf : surface) (uv : R * R) (p : vec3) (m : R).
Hypothesis HL : log_accurate mlog.
Hypothesis H10 : log10_accurate m10.
Hypothesis HPW : pow_accurate mpow.
Hypothesis HO : ordinary_crossing surf uv p m.
Let n := normal_there surf uv.
Let P := vr p.
Let c := Rabs (cos_angle p n).
Let kap := / c.
Let E := sqrt (P * P + m * m).

Lemma P_common : common P.
Proof. apply (btw_weak (-30) 30); [exact (oc_p _ _ _ _ HO)|lia|lia]. Qed.
Lemma l_cos : exists up d, vunit_d p = Ok up /\ vdot_d up n = Ok d /\ rel (24 * kap) (Rabs d) c /\ btw (-20) 2 c.
Proof.
  destruct (cosine p P_common n (oc_nx _ _ _ _ HO) (oc_ny _ _ _ _ HO) (oc_nz _ _ _ _ HO)) as (up & d & E1 & E2 & D & S). exists up, d. split; [exact E1|]. split; [exact E2|].
  assert (B : btw (-20) 2 c) by (split; [exact (oc_cos _ _ _ _ HO)|change (bpow radix2 2) with 4; fold c in S; lra]).
  assert (CP := btw_pos _ _ _ B). split; [|exact B]. split; [lra|]. unfold kap. replace (uround * (24 * / c) * c) with (24 * uround) by (field; lra). eapply Rle_trans; [|exact D]. apply Rabs_triang_inv2.
Qed.
Lemma k_range : 0 < kap <= 1048576.
Proof.
  destruct l_cos as (_ & _ & _ & _ & _ & C). assert (B := btw_inv _ _ _ C). split; [apply (btw_pos _ _ _ B)|]. destruct B as [_ B]. change (bpow radix2 (- -20)) with 1048576 in B. exact B.
Qed.

(** one layer *)
Let one (f : material -> R) (mat : material) (r : R) := f mat * mat_density mat * r / c.
Lemma layer d mat r mo : rel (24 * kap) (Rabs d) c -> ordinary_material mat -> r = 0 \/ moderate r -> rel 4 mo P ->
  exists pa de a1 v, rd_div r (Rabs d) = Ok pa /\ computeBetheBloch_d mlog m10 mpow mat mo m = Ok de /\ rd (de * mat_density mat) = Ok a1 /\ rd (a1 * pa) = Ok v /\
  Rabs (v - one (fun x => stopping_power x P m) mat r) <= uround * (228 + 121 * kap) * one (fun x => stopping_scale x P m) mat r
  /\ Rabs (one (fun x => stopping_power x P m) mat r) <= 5 * one (fun x => stopping_scale x P m) mat r
  /\ (one (fun x => stopping_scale x P m) mat r = 0 \/ btw (-240) 370 (one (fun x => stopping_scale x P m) mat r)).
Proof.
  intros RC HM HR RP. destruct l_cos as (_ & _ & _ & _ & _ & BC). assert (C0 := btw_pos _ _ _ BC). assert (KR := k_range). assert (U := u_fine).
  destruct (bethe_ok mlog m10 mpow mat mo P m HL H10 HPW HM (oc_p _ _ _ _ HO) RP (oc_m _ _ _ _ HO)) as (de & E1 & D1 & S1 & B1).
  set (sp := stopping_power mat P m) in *. set (sc := stopping_scale mat P m) in *. set (rho := mat_density mat) in *. assert (BR : btw (-30) 30 rho) by exact (om_density _ HM).
  assert (SC := btw_pos _ _ _ B1). assert (RH := btw_pos _ _ _ BR).
  assert (B2 := btw_mul _ _ _ _ _ _ B1 BR). assert (SR := btw_pos _ _ _ B2). set (sr := sc * rho) in *.
  assert (D2 : Rabs (de * rho - sp * rho) <= uround * 210 * sr).
  { replace (de * rho - sp * rho) with ((de - sp) * rho) by ring. rewrite Rabs_mult, (Rabs_pos_eq rho) by lra. apply Rle_trans with (uround * 210 * sc * rho); [apply Rmult_le_compat_r; lra|unfold sr; lra]. }
  assert (S2 : Rabs (sp * rho) <= 5 * sr) by (rewrite Rabs_mult, (Rabs_pos_eq rho) by lra; apply Rle_trans with (5 * sc * rho); [apply Rmult_le_compat_r; lra|unfold sr; lra]).
  assert (LE1 : least <= uround * (/ 1000 * sr)) by (apply usable_least; destruct B2 as [B2 _]; eapply Rle_trans; [|exact B2]; apply bpow_le; lia).
  assert (US : 0 <= uround * sr <= / 1000000000000000 * sr) by (split; [apply Rmult_le_pos; lra|apply Rmult_le_compat_r; lra]).
  assert (D3 := rnd_step _ _ _ D2). set (a1 := rnd (de * rho)) in *.
  assert (D4 : Rabs (a1 - sp * rho) <= uround * (2155 / 10) * sr) by (assert (uround * Rabs (sp * rho) <= uround * (5 * sr)) by (apply Rmult_le_compat_l; lra); lra).
  assert (EA : rd (de * rho) = Ok a1).
  { apply (mag_rd _ 330); [lia|]. unfold mag. apply near_size in D2. apply Rle_trans with (8 * sr); [lra|]. destruct B2 as [_ B2]. apply Rle_trans with (8 * bpow radix2 (280 + 30)); [lra|]. change 8 with (bpow radix2 3). rewrite <- bpow_plus. apply bpow_le. lia. }
  assert (S4 := near_size _ _ _ D4).
  assert (R0 : 0 <= r). { destruct HR as [->|HR]; [lra|]. left. apply (btw_pos (-30) 30). exact HR. }
  destruct (r_div _ _ _ _ _ _ (r_same r R0) RC ltac:(fw) ltac:(fw) C0) as [R5 P5].
  assert (B5 : r / c = 0 \/ btw (-32) 50 (r / c)). { destruct HR as [->|HR]; [left; unfold Rdiv; ring|right]. apply (btw_weak _ _ _ _ _ (btw_div _ _ _ _ _ _ HR BC)); lia. }
  destruct (r_op0 _ _ _ _ _ R5 ltac:(fw) B5 ltac:(lia) ltac:(lia)) as [E6 R6]. set (pa := rnd (r / Rabs d)) in *.
  exists pa, de, a1, (rnd (a1 * pa)).
  assert (O1 : one (fun x => stopping_power x P m) mat r = sp * rho * (r / c)) by (unfold one; fold sp rho; unfold Rdiv; ring).
  assert (O2 : one (fun x => stopping_scale x P m) mat r = sr * (r / c)) by (unfold one; fold sc rho; unfold sr, Rdiv; ring).
  rewrite O1, O2. split; [rewrite div_ok by exact P5; exact E6|]. split; [exact E1|]. split; [exact EA|].
  apply (r_weak _ (11 / 10 + 241 / 10 * kap)) in R6; [|lra]. assert (RR := r_range _ _ _ R6 ltac:(fw)). destruct R6 as [T0 R6]. set (t := r / c) in *.
  assert (BE : sr * t = 0 \/ btw (-240) 370 (sr * t)). { destruct B5 as [->|B5]; [left; ring|right]. apply (btw_weak _ _ _ _ _ (btw_mul _ _ _ _ _ _ B2 B5)); lia. }
  assert (ST : 0 <= sr * t) by (apply Rmult_le_pos; lra).
  assert (SS : Rabs (sp * rho * t) <= 5 * (sr * t)) by (rewrite Rabs_mult, (Rabs_pos_eq t) by lra; apply Rle_trans with (5 * sr * t); [apply Rmult_le_compat_r; lra|lra]).
  assert (MM := mul_err _ _ _ _ _ _ (5 * sr) (1000001 / 1000000 * t) D4 R6 S2 ltac:(rewrite Rabs_pos_eq; lra)).
  assert (UT : 0 <= uround * (sr * t)) by (apply Rmult_le_pos; lra). assert (UKT : 0 <= uround * kap * (sr * t)) by (apply Rmult_le_pos; [apply Rmult_le_pos; lra|exact ST]).
  assert (D7 : Rabs (a1 * pa - sp * rho * t) <= uround * (2212 / 10 + 1206 / 10 * kap) * (sr * t)).
  { eapply Rle_trans; [exact MM|].
    replace (uround * (2155 / 10) * sr * (1000001 / 1000000 * t) + 5 * sr * (uround * (11 / 10 + 241 / 10 * kap) * t)) with ((2155 / 10 * (1000001 / 1000000) + 55 / 10) * (uround * (sr * t)) + 1205 / 10 * (uround * kap * (sr * t))) by field.
    replace (uround * (2212 / 10 + 1206 / 10 * kap) * (sr * t)) with (2212 / 10 * (uround * (sr * t)) + 1206 / 10 * (uround * kap * (sr * t))) by ring. lra. }
  assert (FU := few_u (2212 / 10 + 1206 / 10 * kap) ltac:(fw)).
  split; [|split; [|split; [exact SS|exact BE]]].
  - apply (mag_rd _ 380); [lia|]. unfold mag. apply near_size in D7. assert (uround * (2212 / 10 + 1206 / 10 * kap) * (sr * t) <= / 1000000 * (sr * t)) by (apply Rmult_le_compat_r; lra).
    assert (sr * t <= bpow radix2 370) by (destruct BE as [->|[_ BE]]; [apply bpow_ge_0|exact BE]). apply Rle_trans with (8 * bpow radix2 370); [lra|]. change 8 with (bpow radix2 3). rewrite <- bpow_plus. apply bpow_le. lia.
  - destruct BE as [Z|BE].
    + rewrite Z in *. assert (Z1 : a1 * pa - sp * rho * t = 0) by (apply Rabs_le_inv in D7; lra). assert (Z2 : sp * rho * t = 0) by (apply Rabs_le_inv in SS; lra).
      rewrite Z2 in *. replace (a1 * pa) with 0 by lra. rewrite rnd_0, Rminus_0_r, Rabs_R0. lra.
    + assert (LE2 : least <= uround * (/ 1000 * (sr * t))) by (apply usable_least; destruct BE as [BE _]; eapply Rle_trans; [|exact BE]; apply bpow_le; lia).
      eapply Rle_trans; [apply (rnd_step _ _ _ D7)|]. assert (uround * Rabs (sp * rho * t) <= uround * (5 * (sr * t))) by (apply Rmult_le_compat_l; lra).
      replace (uround * (2212 / 10 + 1206 / 10 * kap) * (sr * t)) with (2212 / 10 * (uround * (sr * t)) + 1206 / 10 * (uround * kap * (sr * t))) by ring.
      replace (uround * (228 + 121 * kap) * (sr * t)) with (228 * (uround * (sr * t)) + 121 * (uround * kap * (sr * t))) by ring. lra.
Qed.

Lemma energy_ok : exists mo m2 w2 e2 en be, vr_d p = Ok mo /\ rel 4 mo P /\ rd (mo * mo) = Ok m2 /\ rd (m * m) = Ok w2 /\ rd (m2 + w2) = Ok e2 /\ sqrt_d e2 = Ok en /\ rd_div mo en = Ok be /\
  rel 6 en E /\ rel 11 be (P / E).
Proof.
  destruct (len p P_common) as (mo & E1 & R1). fold P in R1.
  assert (PR : btw (-30) 30 P) by exact (oc_p _ _ _ _ HO). assert (MR : btw (-30) 30 m) by exact (oc_m _ _ _ _ HO).
  assert (PP := btw_mul _ _ _ _ _ _ PR PR). assert (MM := btw_mul _ _ _ _ _ _ MR MR).
  assert (R2 := r_mul _ _ _ _ _ _ R1 R1 ltac:(fw) ltac:(fw)). destruct (r_op _ _ _ _ _ R2 ltac:(fw) PP ltac:(lia) ltac:(lia)) as [E3 R3].
  assert (M0 := btw_pos _ _ _ MM). assert (M1 : 0 <= m * m) by lra. destruct (r_op _ _ _ _ _ (r_same _ M1) ltac:(fw) MM ltac:(lia) ltac:(lia)) as [E4 R4].
  apply (r_weak _ (83 / 10)) in R3; [|lra]. apply (r_weak _ (83 / 10)) in R4; [|lra]. assert (R5 := r_add _ _ _ _ _ R3 R4).
  assert (EE : btw (-60) 62 (P * P + m * m)).
  { apply (btw_weak (-60) (60 + 1)); [|lia|lia]. apply btw_add; [right; exact PP|right; exact MM|]. assert (Q := btw_pos _ _ _ PP). lra. }
  destruct (r_op _ _ _ _ _ R5 ltac:(fw) EE ltac:(lia) ltac:(lia)) as [E6 R6].
  assert (E7 := sqrt_ok _ _ _ R6 ltac:(fw)). apply r_sqrt in R6; [|fw]. fold E in R6. assert (ER : btw (-30) 31 E) by (apply btw_sqrt; exact EE). apply r_rnd in R6; [|fw|apply (btw_usable _ _ _ ER); lia].
  destruct (r_div _ _ _ _ _ _ R1 R6 ltac:(fw) ltac:(fw) (btw_pos _ _ _ ER)) as [R8 P8].
  destruct (r_op _ _ _ _ _ R8 ltac:(fw) (btw_div _ _ _ _ _ _ PR ER) ltac:(lia) ltac:(lia)) as [E9 R9].
  do 6 eexists. split; [exact E1|]. split; [apply (r_weak _ _ _ _ R1); lra|]. split; [exact E3|]. split; [exact E4|]. split; [exact E6|]. split; [exact E7|]. split; [rewrite div_ok by exact P8; exact E9|].
  split; [apply (r_weak _ _ _ _ R6); lra|apply (r_weak _ _ _ _ R9); lra].
Qed.

Lemma loss_ok : exists e, computeEnergyLoss_d mlog m10 mpow surf uv p m = Ok e
  /\ Rabs (el_deltaE e - energy_loss surf uv p m) <= uround * (235 + 122 * kap) * loss_scale surf uv p m
  /\ rel 6 (el_energy e) E /\ rel 11 (el_beta e) (P / E).
Proof.
  destruct l_cos as (up & d & E1 & E2 & RC & BC). destruct energy_ok as (mo & m2 & w2 & e2 & en & be & F1 & RM & F2 & F3 & F4 & F5 & F6 & RE & RB).
  destruct (layer d _ _ mo RC (oc_min _ _ _ _ HO) (oc_in _ _ _ _ HO) RM) as (pi & di & ai & vi & A1 & A2 & A3 & A4 & DI & SI & BI).
  destruct (layer d _ _ mo RC (oc_mout _ _ _ _ HO) (oc_out _ _ _ _ HO) RM) as (po & dd & ao & vo & B1 & B2 & B3 & B4 & DO & SO & BO).
  assert (C0 := btw_pos _ _ _ BC). assert (KR := k_range). assert (U := u_fine).
  assert (O1 : energy_loss surf uv p m = one (fun x => stopping_power x P m) (sf_innerMaterial surf) (sf_innerThickness surf) + one (fun x => stopping_power x P m) (sf_outerMaterial surf) (sf_outerThickness surf)).
  { unfold energy_loss, both_layers, one. fold n c P. field. lra. }
  assert (O2 : loss_scale surf uv p m = one (fun x => stopping_scale x P m) (sf_innerMaterial surf) (sf_innerThickness surf) + one (fun x => stopping_scale x P m) (sf_outerMaterial surf) (sf_outerThickness surf)).
  { unfold loss_scale, both_layers, one. fold n c P. field. lra. }
  rewrite O1, O2. set (xi := one (fun x => stopping_power x P m) (sf_innerMaterial surf) (sf_innerThickness surf)) in *. set (xo := one (fun x => stopping_power x P m) (sf_outerMaterial surf) (sf_outerThickness surf)) in *.
  set (yi := one (fun x => stopping_scale x P m) (sf_innerMaterial surf) (sf_innerThickness surf)) in *. set (yo := one (fun x => stopping_scale x P m) (sf_outerMaterial surf) (sf_outerThickness surf)) in *.
  assert (YI : 0 <= yi) by (destruct BI as [->|BI]; [lra|left; apply (btw_pos _ _ _ BI)]). assert (YO : 0 <= yo) by (destruct BO as [->|BO]; [lra|left; apply (btw_pos _ _ _ BO)]).
  assert (DS := add_err _ _ _ _ _ _ DI DO). assert (SS : Rabs (xi + xo) <= 5 * (yi + yo)) by (eapply Rle_trans; [apply Rabs_triang|]; lra).
  assert (D1 : Rabs (vi + vo - (xi + xo)) <= uround * (228 + 121 * kap) * (yi + yo)) by lra. clear DS.
  assert (FU := few_u (228 + 121 * kap) ltac:(fw)). set (Y := yi + yo) in *. assert (Y0 : 0 <= Y) by (unfold Y; lra).
  assert (LY : uround * (228 + 121 * kap) * Y <= / 1000000 * Y) by (apply Rmult_le_compat_r; lra).
  assert (BY : Y = 0 \/ btw (-240) 371 Y).
  { destruct (Req_dec Y 0) as [Z|Z]; [left; exact Z|right]. apply (btw_add (-240) 370); [exact BI|exact BO|]. fold Y. lra. }
  assert (EF : rd (vi + vo) = Ok (rnd (vi + vo))).
  { apply (mag_rd _ 380); [lia|]. unfold mag. apply near_size in D1. assert (Y <= bpow radix2 371) by (destruct BY as [->|[_ BY]]; [apply bpow_ge_0|exact BY]).
    apply Rle_trans with (8 * bpow radix2 371); [lra|]. change 8 with (bpow radix2 3). rewrite <- bpow_plus. apply bpow_le. lia. }
  exists (EL (rnd (vi + vo)) en be). split; [|split; [|split; [exact RE|exact RB]]].
  - unfold computeEnergyLoss_d. cbv zeta. rewrite E1. cbn [bind]. fold (normal_there surf uv). fold n. rewrite E2. cbn [bind]. rewrite A1. cbn [bind]. rewrite B1. cbn [bind]. rewrite F1. cbn [bind]. rewrite F2. cbn [bind]. rewrite F3. cbn [bind]. rewrite F4. cbn [bind]. rewrite F5. cbn [bind]. rewrite F6. cbn [bind].
    rewrite A2. cbn [bind]. rewrite B2. cbn [bind]. rewrite A3. cbn [bind]. rewrite A4. cbn [bind]. rewrite B3. cbn [bind]. rewrite B4. cbn [bind]. rewrite EF. cbn [bind]. reflexivity.
  - cbn [el_deltaE]. destruct BY as [Z|BY].
    + rewrite Z in *. assert (Z1 : vi + vo - (xi + xo) = 0) by (apply Rabs_le_inv in D1; lra). assert (Z2 : xi + xo = 0) by (apply Rabs_le_inv in SS; lra).
      rewrite Z2 in *. replace (vi + vo) with 0 by lra. rewrite rnd_0, Rminus_0_r, Rabs_R0. lra.
    + assert (LE : least <= uround * (/ 1000 * Y)) by (apply usable_least; destruct BY as [BY _]; eapply Rle_trans; [|exact BY]; apply bpow_le; lia).
      eapply Rle_trans; [apply (rnd_step _ _ _ D1)|]. assert (uround * Rabs (xi + xo) <= uround * (5 * Y)) by (apply Rmult_le_compat_l; lra).
      assert (0 <= uround * Y) by (apply Rmult_le_pos; lra). assert (UK : 0 <= uround * kap * Y) by (apply Rmult_le_pos; [apply Rmult_le_pos; lra|exact Y0]).
      replace (uround * (228 + 121 * kap) * Y) with (228 * (uround * Y) + 121 * (uround * kap * Y)) by ring.
      replace (uround * (235 + 122 * kap) * Y) with (235 * (uround * Y) + 122 * (uround * kap * Y)) by ring. lra.
Qed.
End Loss.
