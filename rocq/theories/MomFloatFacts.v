(** Proofs about the momentum in double precision. *)
From Coq Require Import Reals ZArith Lra Lia Psatz.
From Flocq Require Import Core.
From Verif Require Import Num Vec FloatWrap PointFloat SpecConst SpecRound RoundFacts PointFloatFacts NearFacts RelFacts QmsFloatFacts BetheFloatFacts
  SpecFrameFloat MomFloat SpecMomFloat.
Open Scope R_scope.

(** ** relative errors of numbers of any sign *)
Definition sr (k x' x : R) : Prop := Rabs (x' - x) <= uround * k * Rabs x.

Lemma sr_same x : sr 0 x x.
Proof. unfold sr. rewrite Rminus_diag_eq, Rabs_R0 by reflexivity. lra. Qed.
Lemma sr_weak k l x' x : sr k x' x -> k <= l -> sr l x' x.
Proof. unfold sr. intros H K. eapply Rle_trans; [exact H|]. apply Rmult_le_compat_r; [apply Rabs_pos|]. apply Rmult_le_compat_l; [generalize u_fine; lra|exact K]. Qed.
Lemma sr_range k x' x : sr k x' x -> few k -> 999999 / 1000000 * Rabs x <= Rabs x' <= 1000001 / 1000000 * Rabs x.
Proof.
  unfold sr. intros H K. apply few_u in K. assert (P := Rabs_pos x). assert (uround * k * Rabs x <= / 1000000 * Rabs x) by (apply Rmult_le_compat_r; lra).
  assert (A := Rabs_triang_inv x (x - x')). replace (x - (x - x')) with x' in A by ring. rewrite (Rabs_minus_sym x x') in A.
  assert (B := near_size _ _ _ H). lra.
Qed.
Lemma sr_rnd k x' x : sr k x' x -> few k -> bpow radix2 (-900) <= Rabs x -> sr (1001 / 1000 * k + 1001 / 1000) (rnd x') x.
Proof.
  unfold sr. intros H K B. eapply Rle_trans; [apply (rnd_step _ _ _ H)|]. assert (U := u_fine).
  assert (LL : least <= uround * (/ 1000) * Rabs x).
  { apply Rle_trans with (bpow radix2 (-53) * bpow radix2 (-10) * bpow radix2 (-900)).
    - unfold least. rewrite <- !bpow_plus. apply bpow_le. lia.
    - apply Rmult_le_compat; [apply Rmult_le_pos; apply bpow_ge_0|apply bpow_ge_0| |exact B]. change (bpow radix2 (-53)) with uround. change (bpow radix2 (-10)) with (/ 1024). lra. }
  replace (uround * (1001 / 1000 * k + 1001 / 1000) * Rabs x) with (1001 / 1000 * (uround * k * Rabs x) + uround * Rabs x + uround * (/ 1000) * Rabs x) by field. lra.
Qed.
Lemma sr_mul k x' x l y' y : sr k x' x -> sr l y' y -> few k -> few l -> sr (1001 / 1000 * (k + l)) (x' * y') (x * y).
Proof.
  intros H1 H2 K L. assert (R := sr_range _ _ _ H2 L). unfold sr in *. assert (U := u_fine). unfold few in K, L. assert (PX := Rabs_pos x). assert (PY := Rabs_pos y).
  eapply Rle_trans; [apply (mul_err x' x y' y _ _ (Rabs x) (1001 / 1000 * Rabs y) H1 H2); lra|]. rewrite Rabs_mult.
  replace (uround * k * Rabs x * (1001 / 1000 * Rabs y) + Rabs x * (uround * l * Rabs y)) with (uround * (1001 / 1000 * k + l) * (Rabs x * Rabs y)) by ring.
  apply Rmult_le_compat_r; [apply Rmult_le_pos; assumption|]. apply Rmult_le_compat_l; lra.
Qed.
Lemma sr_div k x' x l y' y : sr k x' x -> sr l y' y -> few k -> few l -> y <> 0 -> sr (1001 / 1000 * (k + l)) (x' / y') (x / y) /\ y' <> 0.
Proof.
  intros H1 H2 K L NY. assert (R := sr_range _ _ _ H2 L). unfold sr in *. assert (U := u_fine). unfold few in K, L. assert (PX := Rabs_pos x). assert (PY := Rabs_pos_lt y NY).
  assert (NY' : y' <> 0) by (intros Q; rewrite Q, Rabs_R0 in R; lra). split; [|exact NY'].
  replace (x' / y' - x / y) with (((x' - x) * y - x * (y' - y)) * / (y' * y)) by (field; auto).
  rewrite Rabs_mult, Rabs_inv, Rabs_mult. unfold Rdiv. rewrite (Rabs_mult x), Rabs_inv.
  assert (T : Rabs ((x' - x) * y - x * (y' - y)) <= uround * (k + l) * (Rabs x * Rabs y)).
  { eapply Rle_trans; [apply Rabs_triang|]. rewrite Rabs_Ropp, !Rabs_mult.
    assert (Rabs (x' - x) * Rabs y <= uround * k * Rabs x * Rabs y) by (apply Rmult_le_compat_r; lra).
    assert (Rabs x * Rabs (y' - y) <= Rabs x * (uround * l * Rabs y)) by (apply Rmult_le_compat_l; lra). lra. }
  assert (PY' : 0 < Rabs y') by lra.
  apply Rmult_le_reg_r with (Rabs y' * Rabs y); [apply Rmult_lt_0_compat; assumption|].
  replace (Rabs ((x' - x) * y - x * (y' - y)) * / (Rabs y' * Rabs y) * (Rabs y' * Rabs y)) with (Rabs ((x' - x) * y - x * (y' - y))) by (field; lra).
  replace (uround * (1001 * / 1000 * (k + l)) * (Rabs x * / Rabs y) * (Rabs y' * Rabs y)) with (uround * (k + l) * (Rabs x * (1001 / 1000 * Rabs y'))) by (field; lra).
  eapply Rle_trans; [exact T|]. apply Rmult_le_compat_l; [apply Rmult_le_pos; lra|]. apply Rmult_le_compat_l; lra.
Qed.
Lemma sr_op k x' x a b : sr k x' x -> few k -> btw a b (Rabs x) -> (-900 <= a)%Z -> (b <= 900)%Z ->
  rd x' = Ok (rnd x') /\ sr (1001 / 1000 * k + 1001 / 1000) (rnd x') x.
Proof.
  intros H K (B1 & B2) A B. assert (R := sr_range _ _ _ H K). split.
  - apply (mag_rd _ 901); [lia|]. unfold mag. apply Rle_trans with (2 * bpow radix2 900).
    + assert (bpow radix2 b <= bpow radix2 900) by (apply bpow_le; exact B). assert (P := Rabs_pos x). lra.
    + change 901%Z with (1 + 900)%Z. rewrite bpow_plus. change (bpow radix2 1) with 2. lra.
  - apply sr_rnd; auto. apply Rle_trans with (bpow radix2 a); [apply bpow_le; exact A|exact B1].
Qed.
Lemma sr_abs k x' x : sr k x' x -> sr k (Rabs x') (Rabs x).
Proof. unfold sr. intros H. rewrite Rabs_Rabsolu. eapply Rle_trans; [apply Rabs_triang_inv2|exact H]. Qed.

Ltac fw := unfold few; lra.

Lemma unit_ok : sr (41 / 10) convertBr2P_d field_unit.
Proof.
  assert (B : forall x, / 1000 <= x -> bpow radix2 (-900) <= Rabs x).
  { intros x H. rewrite Rabs_pos_eq by lra. apply Rle_trans with (bpow radix2 (-10)); [apply bpow_le; lia|change (bpow radix2 (-10)) with (/ 1024); lra]. }
  unfold convertBr2P_d, field_unit. assert (A1 := sr_rnd _ _ _ (sr_same (299792458 / 1000000000)) ltac:(fw) (B (299792458 / 1000000000) ltac:(lra))).
  assert (A2 := sr_rnd _ _ _ (sr_same (1 / 100)) ltac:(fw) (B (1 / 100) ltac:(lra))).
  assert (A3 := sr_mul _ _ _ _ _ _ A1 A2 ltac:(fw) ltac:(fw)). assert (A4 := sr_rnd _ _ _ A3 ltac:(fw) (B (299792458 / 1000000000 * (1 / 100)) ltac:(lra))). apply (sr_weak _ _ _ _ A4). lra.
Qed.
Lemma unit_btw : btw (-9) 0 (Rabs field_unit).
Proof. unfold btw, field_unit. rewrite Rabs_pos_eq by lra. change (bpow radix2 (-9)) with (/ 512). change (bpow radix2 0) with 1. lra. Qed.

Lemma btw_one : btw 0 0 (Rabs 1).
Proof. unfold btw. rewrite Rabs_R1. change (bpow radix2 0) with 1. lra. Qed.
Lemma btw_nz a b x : btw a b (Rabs x) -> x <> 0.
Proof. intros (A & _) Q. rewrite Q, Rabs_R0 in A. generalize (bpow_gt_0 radix2 a). lra. Qed.

Section Track.
Variables (L : libm) (bz : R) (hp : vec5).
Hypotheses (HL : accurate L) (HO : usual (hp OMEGA)) (HB : usual bz).
Let om := hp OMEGA.
Let pt := transverse bz om.

Lemma om_nz : om <> 0.
Proof. exact (btw_nz (-100) 100 om (proj2 HO)). Qed.

Lemma pt_btw : btw (-209) 200 (Rabs pt).
Proof.
  unfold pt, transverse, Rdiv. rewrite !Rabs_mult, Rabs_inv, Rabs_Rabsolu.
  apply (btw_weak (-9 + -100 + -100) (0 + 100 + 100)); [|lia|lia]. apply btw_mul; [apply btw_mul; [exact unit_btw|apply HB]|]. apply (btw_inv (-100) 100). apply HO.
Qed.

Lemma pt_ok : exists p, pt_d om bz = Ok p /\ sr (74 / 10) p pt.
Proof.
  assert (N := om_nz). assert (BO : btw (-100) 100 (Rabs om)) by apply HO. assert (BB : btw (-100) 100 (Rabs bz)) by apply HB.
  assert (BI : btw (-100) 100 (Rabs (1 / om))) by (unfold Rdiv; rewrite Rmult_1_l, Rabs_inv; apply (btw_inv (-100) 100); exact BO).
  destruct (sr_op _ _ _ _ _ (sr_same (1 / om)) ltac:(fw) BI ltac:(lia) ltac:(lia)) as (E1 & A1).
  assert (A2 := sr_mul _ _ _ _ _ _ (sr_abs _ _ _ A1) (sr_same bz) ltac:(fw) ltac:(fw)).
  assert (BP : btw (-200) 200 (Rabs (Rabs (1 / om) * bz))) by (rewrite Rabs_mult, Rabs_Rabsolu; apply (btw_mul (-100) 100 (-100) 100); assumption).
  destruct (sr_op _ _ _ _ _ A2 ltac:(fw) BP ltac:(lia) ltac:(lia)) as (E2 & A3).
  assert (A4 := sr_mul _ _ _ _ _ _ A3 unit_ok ltac:(fw) ltac:(fw)).
  assert (EQ : Rabs (1 / om) * bz * field_unit = pt) by (unfold pt, transverse, Rdiv; rewrite Rmult_1_l, Rabs_inv; ring).
  rewrite EQ in A4. destruct (sr_op _ _ _ _ _ A4 ltac:(fw) pt_btw ltac:(lia) ltac:(lia)) as (E3 & A5).
  eexists. split; [|apply (sr_weak _ _ _ _ A5); lra]. unfold pt_d, rd_div. destruct (Req_EM_T om 0) as [Q|_]; [contradiction|]. rewrite E1. cbn [bind]. rewrite E2. cbn [bind]. exact E3.
Qed.

(** a component in the transverse plane *)
Lemma comp_ok p f g e : sr (74 / 10) p pt -> Rabs (f - g) <= e -> Rabs g <= 1 -> Rabs f <= 1001 / 1000 ->
  rd (p * f) = Ok (rnd (p * f)) /\ Rabs (rnd (p * f) - pt * g) <= Rabs pt * (1002 / 1000 * e + 9 * uround).
Proof.
  intros A E G F. assert (R := sr_range _ _ _ A ltac:(fw)). assert (U := u_fine). assert (B := pt_btw). assert (P := Rabs_pos pt).
  assert (E0 : 0 <= e) by (eapply Rle_trans; [apply Rabs_pos|exact E]). unfold sr in A. split.
  - apply (mag_rd _ (201 + 1)); [lia|]. apply mag_mul; [|apply mag_1; exact F]. unfold mag. destruct B as (_ & B).
    replace (bpow radix2 201) with (2 * bpow radix2 200); [generalize (bpow_gt_0 radix2 200); lra|]. change 201%Z with (1 + 200)%Z. rewrite bpow_plus. reflexivity.
  - assert (M := mul_err p pt f g _ _ (Rabs pt) (1001 / 1000) A E ltac:(lra) F). eapply Rle_trans; [apply (rnd_step _ _ _ M)|].
    assert (S : Rabs (pt * g) <= Rabs pt) by (rewrite Rabs_mult; rewrite <- (Rmult_1_r (Rabs pt)) at 2; apply Rmult_le_compat_l; assumption).
    assert (uround * Rabs (pt * g) <= uround * Rabs pt) by (apply Rmult_le_compat_l; lra).
    assert (LL : least <= uround * (/ 1000) * Rabs pt).
    { apply Rle_trans with (bpow radix2 (-53) * bpow radix2 (-10) * bpow radix2 (-209)).
      - unfold least. rewrite <- !bpow_plus. apply bpow_le. lia.
      - apply Rmult_le_compat; [apply Rmult_le_pos; apply bpow_ge_0|apply bpow_ge_0| |apply B]. change (bpow radix2 (-53)) with uround. change (bpow radix2 (-10)) with (/ 1024). lra. }
    assert (0 <= Rabs pt * e) by (apply Rmult_le_pos; assumption). assert (0 <= uround * Rabs pt) by (apply Rmult_le_pos; lra). lra.
Qed.

Lemma slope_ok p tl : sr (74 / 10) p pt -> moderate tl -> rd (p * tl) = Ok (rnd (p * tl)) /\ Rabs (rnd (p * tl) - pt * tl) <= 9 * uround * Rabs (pt * tl) + least.
Proof.
  intros A (_ & T). assert (R := sr_range _ _ _ A ltac:(fw)). assert (U := u_fine). assert (B := pt_btw). assert (P := Rabs_pos pt). split.
  - apply (mag_rd _ (201 + 200)); [lia|]. apply mag_mul; [|exact T]. unfold mag. destruct B as (_ & B).
    replace (bpow radix2 201) with (2 * bpow radix2 200); [generalize (bpow_gt_0 radix2 200); lra|]. change 201%Z with (1 + 200)%Z. rewrite bpow_plus. reflexivity.
  - assert (M := sr_mul _ _ _ _ _ _ A (sr_same tl) ltac:(fw) ltac:(fw)). eapply Rle_trans; [apply (rnd_step _ _ _ M)|].
    assert (0 <= uround * Rabs (pt * tl)) by (apply Rmult_le_pos; [lra|apply Rabs_pos]). lra.
Qed.
End Track.

(** ** charge over momentum *)
Lemma cos_slope t : cos (atan t) = / sqrt (1 + t * t) /\ 0 < sqrt (1 + t * t) <= 1 + Rabs t.
Proof.
  split.
  - rewrite cos_atan. unfold Rsqr, Rdiv. rewrite Rmult_1_l. reflexivity.
  - assert (Q : 0 <= t * t) by apply Rle_0_sqr. split; [apply sqrt_lt_R0; lra|]. assert (P := Rabs_pos t).
    apply Rsqr_incr_0_var; [|lra]. unfold Rsqr. rewrite sqrt_sqrt by lra. assert (Rabs t * Rabs t = t * t) by (rewrite <- Rabs_mult; apply Rabs_pos_eq; exact Q). lra.
Qed.

Lemma sgn_abs x : x <> 0 -> x = sgn x * Rabs x.
Proof. intros N. unfold sgn. destruct (Rlt_dec x 0); [rewrite Rabs_left|rewrite Rabs_pos_eq]; lra. Qed.
Lemma sgn_mul x y : x <> 0 -> y <> 0 -> sgn (x * y) = sgn x * sgn y.
Proof.
  intros X Y. unfold sgn. destruct (Rlt_dec x 0), (Rlt_dec y 0), (Rlt_dec (x * y) 0); try lra; exfalso; nra.
Qed.
Lemma sgn_sq x : sgn x * sgn x = 1.
Proof. unfold sgn. destruct (Rlt_dec x 0); lra. Qed.

Lemma qp_ok L hp bz : accurate L -> usual (hp OMEGA) -> usual bz -> is_double (hp TANL) -> Rabs (hp TANL) <= 100000000 ->
  exists q, calculateQoverP_d L hp bz = Ok q /\ Rabs (q - sgn (hp OMEGA * bz) / total bz (hp OMEGA) (hp TANL)) <= uround * (16 + 8 * Rabs (hp TANL)) * / total bz (hp OMEGA) (hp TANL).
Proof.
  intros HL HO HB DT T8. set (om := hp OMEGA) in *. set (t := hp TANL) in *. assert (U := u_fine). assert (PT := Rabs_pos t).
  assert (NO : om <> 0) by exact (btw_nz _ _ _ (proj2 HO)). assert (NB : bz <> 0) by exact (btw_nz _ _ _ (proj2 HB)).
  destruct (lambda_err L t HL DT) as (_ & EC & _). destruct (cos_slope t) as (CT & S0 & S1). rewrite CT in EC. set (S := sqrt (1 + t * t)) in *.
  assert (SI : 0 < / S) by (apply Rinv_0_lt_compat; exact S0).
  assert (A0 : sr (7 * (1 + Rabs t)) (m_cos L (m_atan L t)) (/ S)).
  { unfold sr. rewrite (Rabs_pos_eq (/ S)) by lra. eapply Rle_trans; [exact EC|].
    replace (uround * (7 * (1 + Rabs t)) * / S) with (7 * uround * ((1 + Rabs t) * / S)) by ring. rewrite <- (Rmult_1_r (7 * uround)) at 1. apply Rmult_le_compat_l; [lra|].
    apply Rmult_le_reg_r with S; [exact S0|]. replace ((1 + Rabs t) * / S * S) with (1 + Rabs t) by (field; lra). lra. }
  assert (BS : btw (-27) 0 (Rabs (/ S))).
  { rewrite Rabs_pos_eq by lra. split.
    - change (bpow radix2 (-27)) with (/ 134217728). apply Rinv_le_contravar; lra.
    - change (bpow radix2 0) with 1. rewrite <- Rinv_1. apply Rinv_le_contravar; [lra|]. assert (Q : 0 <= t * t) by apply Rle_0_sqr. rewrite <- sqrt_1. apply sqrt_le_1_alt. lra. }
  assert (A1 := sr_mul _ _ _ _ _ _ A0 (sr_same om) ltac:(fw) ltac:(fw)).
  assert (B1 : btw (-127) 100 (Rabs (/ S * om))) by (rewrite Rabs_mult; apply (btw_mul (-27) 0 (-100) 100); [exact BS|apply HO]).
  destruct (sr_op _ _ _ _ _ A1 ltac:(fw) B1 ltac:(lia) ltac:(lia)) as (E1 & A2).
  assert (A3 := sr_mul _ _ _ _ _ _ (sr_same bz) unit_ok ltac:(fw) ltac:(fw)).
  assert (B3 : btw (-109) 100 (Rabs (bz * field_unit))) by (rewrite Rabs_mult; apply (btw_mul (-100) 100 (-9) 0); [apply HB|exact unit_btw]).
  destruct (sr_op _ _ _ _ _ A3 ltac:(fw) B3 ltac:(lia) ltac:(lia)) as (E3 & A4).
  destruct (sr_div _ _ _ _ _ _ A2 A4 ltac:(fw) ltac:(fw) (btw_nz _ _ _ B3)) as (A5 & N5).
  assert (B5 : btw (-227) 209 (Rabs (/ S * om / (bz * field_unit)))).
  { unfold Rdiv. rewrite Rabs_mult, Rabs_inv. apply (btw_mul (-127) 100 (-100) 109); [exact B1|]. apply (btw_inv (-109) 100). exact B3. }
  destruct (sr_op _ _ _ _ _ A5 ltac:(fw) B5 ltac:(lia) ltac:(lia)) as (E5 & A6).
  assert (FP : 0 < field_unit) by (unfold field_unit; lra).
  assert (PO := Rabs_pos_lt om NO). assert (PB := Rabs_pos_lt bz NB).
  assert (TT : total bz om t = field_unit * Rabs bz * / Rabs om * S).
  { unfold total, transverse, Rdiv. rewrite !Rabs_mult, Rabs_inv, Rabs_Rabsolu, (Rabs_pos_eq field_unit) by lra. reflexivity. }
  assert (TP : 0 < total bz om t) by (rewrite TT; apply Rmult_lt_0_compat; [apply Rmult_lt_0_compat; [apply Rmult_lt_0_compat; assumption|apply Rinv_0_lt_compat; assumption]|assumption]).
  assert (EQ : / S * om / (bz * field_unit) = sgn (om * bz) / total bz om t).
  { rewrite TT, sgn_mul by assumption. rewrite (sgn_abs om NO) at 1. rewrite (sgn_abs bz NB) at 1.
    assert (SB : sgn bz <> 0) by (unfold sgn; destruct (Rlt_dec bz 0); lra).
    assert (IB : / sgn bz = sgn bz) by (unfold sgn; destruct (Rlt_dec bz 0); lra).
    transitivity (sgn om * / sgn bz * (/ S * Rabs om / (Rabs bz * field_unit))); [field; repeat split; lra|]. rewrite IB. field. repeat split; lra. }
  rewrite EQ in A6. unfold sr in A6.
  eexists. split.
  - unfold calculateQoverP_d. destruct (Req_EM_T bz 0) as [Q|_]; [contradiction|]. fold om t. rewrite E1. cbn [bind]. rewrite E3. cbn [bind].
    unfold rd_div. destruct (Req_EM_T _ 0) as [Q|_]; [contradiction|]. exact E5.
  - eapply Rle_trans; [exact A6|].
    replace (Rabs (sgn (om * bz) / total bz om t)) with (/ total bz om t).
    + apply Rmult_le_compat_r; [left; apply Rinv_0_lt_compat; exact TP|]. apply Rmult_le_compat_l; [lra|]. lra.
    + unfold Rdiv. rewrite Rabs_mult, (Rabs_pos_eq (/ _)) by (left; apply Rinv_0_lt_compat; exact TP). unfold sgn. destruct (Rlt_dec (om * bz) 0); [rewrite Rabs_left by lra|rewrite Rabs_pos_eq by lra]; ring.
Qed.

(** ** the length of a vector that is off a little *)
Lemma len_up a b c x y z d e f : 0 <= d -> 0 <= e -> 0 <= f -> Rabs (x - a) <= d -> Rabs (y - b) <= e -> Rabs (z - c) <= f ->
  sqrt (x * x + y * y + z * z) <= sqrt (a * a + b * b + c * c) + (d + e + f).
Proof.
  intros D0 E0 F0 D E F. set (S := a * a + b * b + c * c).
  assert (QA : 0 <= a * a) by apply Rle_0_sqr. assert (QB : 0 <= b * b) by apply Rle_0_sqr. assert (QC : 0 <= c * c) by apply Rle_0_sqr.
  assert (S0 : 0 <= S) by (unfold S; lra). assert (N0 := sqrt_pos S). assert (N2 := sqrt_sqrt S S0). set (N := sqrt S) in *.
  assert (K : forall v w g, v * v <= S -> 0 <= g -> Rabs (w - v) <= g -> w * w <= v * v + 2 * N * g + g * g).
  { intros v w g V G W. assert (VN : Rabs v <= N).
    { apply Rsqr_incr_0_var; [|exact N0]. unfold Rsqr. rewrite N2, <- Rabs_mult, Rabs_pos_eq by apply Rle_0_sqr. exact V. }
    apply Rabs_le_inv in W. apply Rabs_le_inv in VN.
    replace (w * w) with (v * v + 2 * v * (w - v) + (w - v) * (w - v)) by ring. set (h := w - v) in *.
    assert (h * h <= g * g) by nra. assert (v * h <= N * g) by nra. lra. }
  assert (KA := K a x d ltac:(unfold S; lra) D0 D). assert (KB := K b y e ltac:(unfold S; lra) E0 E). assert (KC := K c z f ltac:(unfold S; lra) F0 F).
  apply Rsqr_incr_0_var; [|lra]. unfold Rsqr. rewrite sqrt_sqrt by (assert (X1 := Rle_0_sqr x); assert (X2 := Rle_0_sqr y); assert (X3 := Rle_0_sqr z); unfold Rsqr in *; lra).
  assert (P1 := Rmult_le_pos _ _ D0 E0). assert (P2 := Rmult_le_pos _ _ D0 F0). assert (P3 := Rmult_le_pos _ _ E0 F0).
  replace ((N + (d + e + f)) * (N + (d + e + f))) with (N * N + 2 * N * d + 2 * N * e + 2 * N * f + d * d + e * e + f * f + 2 * (d * e) + 2 * (d * f) + 2 * (e * f)) by ring.
  rewrite N2. unfold S. lra.
Qed.

Lemma len_err a b c x y z d e f : 0 <= d -> 0 <= e -> 0 <= f -> Rabs (x - a) <= d -> Rabs (y - b) <= e -> Rabs (z - c) <= f ->
  Rabs (sqrt (x * x + y * y + z * z) - sqrt (a * a + b * b + c * c)) <= d + e + f.
Proof.
  intros D0 E0 F0 D E F. assert (U := len_up _ _ _ _ _ _ _ _ _ D0 E0 F0 D E F).
  rewrite Rabs_minus_sym in D, E, F. assert (V := len_up _ _ _ _ _ _ _ _ _ D0 E0 F0 D E F). apply Rabs_le. lra.
Qed.

(** the exact momentum has the length [total] *)
Lemma total_len bz om tl ph : sqrt (transverse bz om * cos ph * (transverse bz om * cos ph) + transverse bz om * sin ph * (transverse bz om * sin ph) + transverse bz om * tl * (transverse bz om * tl)) = total bz om tl.
Proof.
  unfold total. set (pt := transverse bz om). assert (Q : 0 <= tl * tl) by apply Rle_0_sqr. rewrite <- (sqrt_Rsqr_abs pt), <- sqrt_mult_alt by apply Rle_0_sqr. f_equal.
  unfold Rsqr. assert (T := sin2_cos2 ph). unfold Rsqr in T. replace (pt * pt * (1 + tl * tl)) with (pt * pt * (sin ph * sin ph + cos ph * cos ph + tl * tl)) by (rewrite T; ring). ring.
Qed.

Lemma product_err u P q n sg a b : 0 < P -> 0 <= u -> 0 <= a -> 0 <= b -> u * a <= / 1000 -> Rabs sg = 1 -> Rabs (q - sg / P) <= u * a * / P -> Rabs (n - P) <= u * b * P ->
  Rabs (q * n - sg) <= u * (a + 1001 / 1000 * b).
Proof.
  intros P0 U A B UA SG Q N. assert (PI0 : 0 < / P) by (apply Rinv_0_lt_compat; exact P0).
  replace (q * n - sg) with (sg * ((n - P) * / P) + (q - sg / P) * P + (q - sg / P) * P * ((n - P) * / P)) by (field; lra).
  assert (X : Rabs ((n - P) * / P) <= u * b).
  { rewrite Rabs_mult, (Rabs_pos_eq (/ P)) by lra. apply Rmult_le_reg_r with P; [exact P0|]. rewrite Rmult_assoc, Rinv_l by lra. lra. }
  assert (Y : Rabs ((q - sg / P) * P) <= u * a).
  { rewrite Rabs_mult, (Rabs_pos_eq P) by lra. apply Rmult_le_reg_r with (/ P); [exact PI0|]. rewrite Rmult_assoc, Rinv_r by lra. lra. }
  set (xx := (n - P) * / P) in *. set (yy := (q - sg / P) * P) in *.
  assert (Z : Rabs (yy * xx) <= / 1000 * (u * b)). { rewrite Rabs_mult. apply Rmult_le_compat; try apply Rabs_pos; lra. }
  assert (W : Rabs (sg * xx) <= u * b) by (rewrite Rabs_mult, SG; lra).
  eapply Rle_trans; [apply Rabs_triang|]. assert (T := Rabs_triang (sg * xx) yy). lra.
Qed.
