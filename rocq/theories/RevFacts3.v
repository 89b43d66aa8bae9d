(** Proofs about tracks followed backwards (C72): momentum, reference point,
    start helix. *)
From Coq Require Import Reals Lra Lia ZArith Psatz List Bool FunctionalExtensionality.
From Verif Require Import SpecConst Num NumFacts Vec Helix Isect SpecHelix SpecIsect SpecSym SpecRev
  HelixFacts PathFacts MoveFacts StartFacts SymFacts SymFacts3 RevFacts.
Import ListNotations.
Open Scope R_scope.

Lemma rev_r p q : reversed p q -> rdiv 1 (q OMEGA) = res_map Ropp (rdiv 1 (p OMEGA)).
Proof.
  intros (O & _). rewrite O. unfold rdiv.
  destruct (Req_EM_T (- p OMEGA) 0); destruct (Req_EM_T (p OMEGA) 0); try lra; [reflexivity|].
  cbn. f_equal. field. auto.
Qed.

Lemma rev_momentumAt b p q rp s : reversed p q ->
  momentumAt b (- s) q rp = res_map opposite (momentumAt b s p rp).
Proof.
  intros RV. unfold momentumAt. cbv zeta. unfold calculateOmega, calculatePhi0, calculateTanLambda.
  rewrite (rev_r p q RV). destruct (rev_trig_at p q s RV) as [-> ->].
  destruct RV as (O & T & _). rewrite T.
  destruct (rdiv 1 (p OMEGA)) as [r| | | |]; try reflexivity. cbn [bind res_map].
  rewrite Rabs_Ropp. unfold opposite; cbn [vx vy vz]. f_equal. f_equal; ring.
Qed.

Lemma rev_momentumAtPCA b p q rp : reversed p q ->
  momentumAtPCA b q rp = res_map opposite (momentumAtPCA b p rp).
Proof.
  intros RV. unfold momentumAtPCA. cbv zeta. unfold calculateOmega, calculatePhi0, calculateTanLambda.
  rewrite (rev_r p q RV). destruct (rev_trig p q RV) as [-> ->].
  destruct RV as (O & T & _). rewrite T.
  destruct (rdiv 1 (p OMEGA)) as [r| | | |]; try reflexivity. cbn [bind res_map].
  rewrite Rabs_Ropp. unfold opposite; cbn [vx vy vz]. f_equal. f_equal; ring.
Qed.

(** ** Covariances *)
Lemma rev_sign_sq i : rev_sign i * rev_sign i = 1.
Proof. destruct i; cbn [rev_sign]; ring. Qed.

Lemma m5mul_rev a b : m5mul (rev_cov a) (rev_cov b) = rev_cov (m5mul a b).
Proof.
  extensionality i. extensionality j. unfold m5mul, rev_cov, sum5.
  assert (Q : forall k, rev_sign i * a i k * rev_sign k * (rev_sign k * b k j * rev_sign j)
              = rev_sign i * (a i k * b k j) * rev_sign j).
  { intros k. transitivity (rev_sign k * rev_sign k * (rev_sign i * (a i k * b k j) * rev_sign j));
      [ring|]. rewrite rev_sign_sq. ring. }
  rewrite !Q. ring.
Qed.

Lemma m5transpose_rev a : m5transpose (rev_cov a) = rev_cov (m5transpose a).
Proof. extensionality i. extensionality j. unfold m5transpose, rev_cov. ring. Qed.

Lemma moveF_rev cpa r rdr drp tnl fid cs sn rd : cpa <> 0 ->
  moveF (- cpa) (- r) (- rdr) (- drp) (- tnl) fid cs sn (- rd)
  = rev_cov (moveF cpa r rdr drp tnl fid cs sn rd).
Proof.
  intros N. extensionality i. extensionality j. unfold rev_cov.
  assert (E : - r / - cpa = r / cpa) by (field; auto).
  destruct i, j; unfold moveF; rewrite ?E; cbn [rev_sign]; ring.
Qed.

(** ** Moving the reference point *)
Lemma sg_opp x : x <> 0 -> sg (- x) = - sg x.
Proof. intros N. unfold sg. destruct (Rlt_dec 0 (- x)); destruct (Rlt_dec 0 x); lra. Qed.

Lemma rev_centre3 p q rp : reversed p q -> p OMEGA <> 0 ->
  vx (centre q rp) = vx (centre p rp) /\ vy (centre q rp) = vy (centre p rp).
Proof.
  intros H N. destruct (rev_trig p q H) as [S C]. destruct H as (O & T & D & Z & _).
  unfold centre; cbn [vx vy]. rewrite S, C, O, D. split; field; auto.
Qed.

Lemma rev_crho p q rp v : reversed p q -> p OMEGA <> 0 -> crho q rp v = crho p rp v.
Proof. intros H N. unfold crho. destruct (rev_centre3 p q rp H N) as [-> ->]. reflexivity. Qed.

Lemma rev_move C p q rp v cm :
  reversed p q -> p OMEGA <> 0 -> off_axis p rp (vx v) (vy v) ->
  exists c' p' fid q', moveHelixTo (TP C p rp) v cm = Ok (TP c' p' v, fid)
    /\ moveHelixTo (TP (rev_cov C) q rp) v cm = Ok (TP (rev_cov c') q' v, fid)
    /\ reversed p' q'.
Proof.
  intros RV N O. assert (P := crho_pos p rp v N O). assert (Nq := rev_om p q RV N).
  destruct (moveHelixTo_closed (TP C p rp) v cm N) as (p' & fid & cd & sd & M & E0 & _ & -> & -> & E).
  destruct (moveHelixTo_closed (TP (rev_cov C) q rp) v cm Nq)
    as (q' & fid' & cd' & sd' & M' & E0' & _ & -> & -> & E').
  destruct M as [m1 m2 m3 m4 m5 m6 m7 m8 m9]. destruct M' as [n1 n2 n3 n4 n5 n6 n7 n8 n9].
  cbn [tp_par tp_ref tp_cov] in *.
  rewrite (rev_crho p q rp v RV N) in n3.
  destruct (fi0p_raw_polar p rp v) as [Cc Sc]. destruct (fi0p_raw_polar q rp v) as [Cc' Sc'].
  rewrite (rev_crho p q rp v RV N) in Cc', Sc'.
  destruct (rev_centre3 p q rp RV N) as [EX EY]. rewrite EX in Cc'. rewrite EY in Sc'.
  assert (RV' := RV). destruct RV' as (Oo & T & D & Z & kp & Pp).
  rewrite Oo in n1, n3, n7, Cc', Sc', E'. rewrite T in n2, n7, E'. rewrite Z in n7. rewrite D in E'.
  rewrite sg_opp in n3, Cc', Sc' by auto.
  assert (IO : 1 / - p OMEGA = - (1 / p OMEGA)) by (field; auto).
  rewrite IO in n3, n7, E'.
  assert (PH : exists k : BinNums.Z, q' PHI0 = p' PHI0 + PI + 2 * IZR k * PI).
  { apply angle_eq_2pi; rewrite ?neg_cos, ?neg_sin.
    - rewrite m4, n4. apply (Rmult_eq_reg_l (crho p rp v)); lra.
    - rewrite m5, n5. apply (Rmult_eq_reg_l (crho p rp v)); lra. }
  destruct PH as [k PH]. destruct m8 as [k1 K1]. destruct n8 as [k2 K2].
  assert (EF : fid' = fid).
  { assert (H : fid' = fid + 2 * IZR (k1 + k - k2 - kp) * PI).
    { rewrite !minus_IZR, plus_IZR. rewrite PH, K1, Pp in K2. lra. }
    apply angle_unique; auto.
    - rewrite H. apply cos_2kpi.
    - rewrite H. apply sin_2kpi. }
  assert (ED : q' D0 = - p' D0) by (rewrite n3, m3; ring).
  assert (Nd : 1 / p OMEGA - p' D0 = sg (p OMEGA) * crho p rp v) by (rewrite m3; ring).
  assert (Nz : 1 / p OMEGA - p' D0 <> 0).
  { rewrite Nd. destruct (sg_cases (p OMEGA)) as [-> | ->]; lra. }
  rewrite rdiv_ok in E by auto. cbn [bind] in E. cbv zeta in E.
  exists (if cm then (let F := moveF (p OMEGA) (1 / p OMEGA) (1 / p OMEGA - p D0) (- p' D0)
             (p TANL) fid (cos fid) (sin fid) (1 / (1 / p OMEGA - p' D0)) in
           m5mul (m5mul F C) (m5transpose F)) else C), p', fid, q'.
  split. { rewrite E. destruct cm; reflexivity. }
  split.
  - rewrite E', ED, EF.
    replace (- (1 / p OMEGA) - - p' D0) with (- (1 / p OMEGA - p' D0)) by ring.
    replace (- (1 / p OMEGA) - - p D0) with (- (1 / p OMEGA - p D0)) by ring.
    rewrite rdiv_ok by lra. cbn [bind]. cbv zeta.
    replace (1 / - (1 / p OMEGA - p' D0)) with (- (1 / (1 / p OMEGA - p' D0)))
      by (set (a := 1 / p OMEGA - p' D0) in *; clearbody a; field; auto).
    rewrite moveF_rev by auto.
    destruct cm; [|reflexivity].
    rewrite m5transpose_rev, !m5mul_rev. reflexivity.
  - unfold reversed. rewrite n1, n2, m1, m2, ED, n7, m7, EF.
    split; [ring|]. split; [ring|]. split; [ring|]. split; [ring|]. exists k. exact PH.
Qed.

(** ** Start helix *)
Lemma rev_start_helix x1 x2 x3 tp :
  match calculateStartHelix x1 x2 x3 tp false with
  | Ok t => exists q, calculateStartHelix x1 x2 x3 tp true = Ok (TP (tp_cov t) q (tp_ref t))
            /\ reversed (tp_par t) q
  | bad => calculateStartHelix x1 x2 x3 tp true = bad
  end.
Proof.
  destruct (Req_dec (turn x1 x2 x3) 0) as [Z|T].
  { rewrite !start_degenerate by auto. reflexivity. }
  rewrite (start_value x1 x2 x3 tp false T), (start_value x1 x2 x3 tp true T).
  cbn [tp_cov tp_ref tp_par]. eexists. split; [reflexivity|].
  assert (RS := radius_sq x1 x2 x3 false T). assert (RN := r_nz x1 x2 x3 false T).
  cbv zeta in RS, RN. cbv iota in *.
  match goal with |- reversed (mk5 (1 / ?r) (?z / (?r * 2 * ?a)) (atan2 (?r * ?V) (?r * ?U) + _) _ _) _ =>
    set (R0 := r) in *; set (al := a); set (VV := V) in *; set (UU := U) in * end.
  assert (UV : R0 * UU <> 0 \/ R0 * VV <> 0).
  { destruct (Req_dec UU 0) as [E1|NU]; [right|left; apply Rmult_integral_contrapositive; auto].
    destruct (Req_dec VV 0) as [E2|NV]; [|apply Rmult_integral_contrapositive; auto].
    exfalso. rewrite E1, E2 in RS. assert (Q : R0 * R0 = 0) by lra. apply Rmult_integral in Q. tauto. }
  unfold reversed, OMEGA, TANL, D0, Z0, PHI0; cbn [mk5].
  split; [field; auto|]. split.
  { destruct (Req_dec al 0) as [->|Na].
    - unfold Rdiv. rewrite !Rmult_0_r, Rinv_0. ring.
    - field. auto. }
  split; [ring|]. split; [reflexivity|].
  assert (PP := sqrt_x2y2_pos _ _ UV).
  assert (C0 := atan2_cos (R0 * VV) (R0 * UU)). assert (S0 := atan2_sin (R0 * VV) (R0 * UU)).
  assert (C1 := atan2_cos (- R0 * VV) (- R0 * UU)). assert (S1 := atan2_sin (- R0 * VV) (- R0 * UU)).
  replace (- R0 * UU * (- R0 * UU) + - R0 * VV * (- R0 * VV))
    with (R0 * UU * (R0 * UU) + R0 * VV * (R0 * VV)) in C1, S1 by ring.
  set (rho := sqrt (R0 * UU * (R0 * UU) + R0 * VV * (R0 * VV))) in *.
  apply angle_eq_2pi; rewrite ?neg_cos, ?neg_sin, ?cos_q, ?sin_q; apply (Rmult_eq_reg_l rho); lra.
Qed.
