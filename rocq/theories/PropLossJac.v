(** C87: the energy-loss entry of the Jacobians against the energy loss applied. *)
From Coq Require Import Reals List Bool ZArith Lra Lia Permutation Sorted.
From Coquelicot Require Import Coquelicot.
From Verif Require Import SpecConst Num Vec Helix Isect Trans Propag Material Traj.
From Verif Require Import NumFacts SpecHelix HelixFacts MoveFacts SpecMaterial MaterialFacts SpecTraj TrajFacts TrajFacts2 TrajFacts3 TrajFacts4 TrajFacts5.
From Verif Require Import SpecPropag PropagFacts2 SpecElem ElemFacts SpecEnergy EnergyFacts StepFacts TrajEx PropTraj PropEnergy PropEnergyEx.
From Verif Require Import SpecLossJac LossJacFacts.
Import ListNotations.
Open Scope R_scope.

Lemma qop_size hp bz : bz <> 0 -> hp OMEGA <> 0 -> Rabs (1 / calculateQoverP hp bz) = momentum_size bz hp.
Proof.
  intros Hb Ho. unfold calculateQoverP. destruct Req_EM_T; [contradiction|].
  unfold calculateLambda, calculateCurvature, calculateTanLambda, calculateOmega, momentum_size.
  rewrite cos_atan_eq. assert (S : 0 < sqrt (1 + hp TANL * hp TANL)) by (apply sqrt_lt_R0; nra).
  change convertBr2P_cm with field_unit.
  assert (F : 0 < field_unit) by (unfold field_unit; lra).
  replace (1 / (/ sqrt (1 + hp TANL * hp TANL) * hp OMEGA / (bz * field_unit)))
    with (field_unit * bz / hp OMEGA * sqrt (1 + hp TANL * hp TANL)) by (field; repeat split; auto; lra).
  unfold Rdiv. rewrite !Rabs_mult, Rabs_inv, (Rabs_pos_eq field_unit), (Rabs_pos_eq (sqrt _)) by lra. ring.
Qed.

(** energy and velocity that the preparation uses are those of the stored state in
    the field at the crossing *)
Lemma loss_at_state bf surf tp m el : computeEnergyLoss_tp bf surf tp m = Ok (inr el) ->
  exists s xx, intersectWithSurface surf (tp_par tp) (tp_ref tp) (OVal 0 v3zero) 0 true = Ok (true, OVal s xx)
  /\ tp_par tp OMEGA <> 0 /\ vz (bf xx) <> 0
  /\ el_energy el = energy_of (momentum_size (vz (bf xx)) (tp_par tp)) m
  /\ el_beta el = velocity (momentum_size (vz (bf xx)) (tp_par tp)) m.
Proof.
  intros C. unfold computeEnergyLoss_tp in C. cbv zeta in C.
  destruct (intersectWithSurface surf (tp_par tp) (tp_ref tp) (OVal 0 v3zero) 0 true) as [r| | | |]; try discriminate.
  cbn [bind] in C. destruct r as [[|] [s xx|]]; try discriminate.
  exists s, xx. split; auto.
  assert (N : tp_par tp OMEGA <> 0).
  { intros Z. unfold calculateOmega in C. rewrite Z, rdiv_zero in C. discriminate. }
  split; auto. unfold calculateOmega, calculateTanLambda in C. rewrite rdiv_ok in C by auto. cbn [bind] in C.
  set (phi := calculatePhifromXY _ _ _ _) in C. set (bz := vz (bf xx)) in *.
  set (pt := Rabs (1 / tp_par tp OMEGA) * bz * convertBr2P_cm) in C.
  destruct (computeEnergyLoss_uv surf _ _ m) as [e| | | |] eqn:CE; try discriminate.
  cbn [bind] in C. injection C as ->. destruct (eloss_energy _ _ _ _ _ CE) as [E1 Nz].
  assert (V : vr (V3 (pt * cos phi) (pt * sin phi) (pt * tp_par tp TANL)) = momentum_size bz (tp_par tp)).
  { unfold vr. cbn [vx vy vz].
    replace (pt * cos phi * (pt * cos phi) + pt * sin phi * (pt * sin phi) + pt * tp_par tp TANL * (pt * tp_par tp TANL))
      with (pt * pt * (1 + tp_par tp TANL * tp_par tp TANL)).
    2:{ assert (SC := sin2_cos2 phi). unfold Rsqr in SC. nra. }
    rewrite sqrt_mult; [|nra|nra]. unfold momentum_size. f_equal.
    change (pt * pt) with (Rsqr pt). rewrite sqrt_Rsqr_abs. unfold pt. change convertBr2P_cm with field_unit.
    assert (F : 0 < field_unit) by (unfold field_unit; lra). unfold Rdiv.
    rewrite !Rabs_mult, !Rabs_Rabsolu, !Rabs_inv, Rabs_R1, (Rabs_pos_eq field_unit) by lra. ring. }
  rewrite V in E1. split.
  { intros Z. apply Nz. unfold pt. rewrite Z. unfold v3zero. f_equal; ring. }
  split; auto. unfold computeEnergyLoss_uv in CE. cbv zeta in CE.
  dres CE. dres CE. dres CE. 
  destruct (rdiv (vr (V3 (pt * cos phi) (pt * sin phi) (pt * tp_par tp TANL))) _) as [b| | | |] eqn:RB; try discriminate.
  cbn [bind] in CE. dres CE. dres CE. injection CE as <-. cbn [el_beta el_energy] in *.
  unfold velocity. rewrite V in RB. unfold rdiv in RB. destruct Req_EM_T; [discriminate|]. injection RB as <-. reflexivity.
Qed.

(** The first row of every prepared Jacobian is (1 + x, 0, 0, 0, 0) with x = 0 for an
    element that does not scatter and x = 2 dE / (beta^2 E) for one that does, all
    taken for the stored state, after the energy loss at this element. *)
Theorem C87_entry : forall E t t', env_ok E -> tr_prop t = Some analyticalJacobian ->
  (forall e, In e (tr_elems t) -> tp_par (te_tp e) OMEGA <> 0 /\ vz (en_bfield E (tp_ref (te_tp e))) <> 0) ->
  prepareForFitting E t = Ok t' ->
  exists e0 l, tr_elems t' = e0 :: l /\ forall e, In e l -> exists J, te_jac e = Some J
    /\ (forall j, j <> I0 -> J I0 j = 0)
    /\ (te_scat e = false -> J I0 I0 = 1)
    /\ (te_scat e = true -> exists surf s xx el,
          te_surf e = Some surf
          /\ intersectWithSurface surf (tp_par (te_tp e)) (tp_ref (te_tp e)) (OVal 0 v3zero) 0 true = Ok (true, OVal s xx)
          /\ computeEnergyLoss_tp (en_gfield E) surf (te_tp e) (tr_mass t) = Ok (inr el)
          /\ J I0 I0 = 1 + entry_term (tr_mass t) (fun _ => el_deltaE el)
                             (calculateQoverP (tp_par (te_tp e)) (vz (en_gfield E xx)))).
Proof.
  intros E t t' Ek Pp Om P. destruct (C35_prepare _ _ _ Ek P) as (e0 & l & e0' & l' & Pm & _ & -> & _ & _ & Pr).
  exists e0', l'. split; [reflexivity|].
  assert (I1 : incl l (tr_elems t)).
  { intros x X. eapply Permutation_in; [apply Permutation_sym, Pm|right; auto]. }
  change (tr_mass t) with (tr_mass (set_elems t (e0 :: l))).
  assert (Pp' : tr_prop (set_elems t (e0 :: l)) = Some analyticalJacobian) by exact Pp.
  set (t1 := set_elems t (e0 :: l)) in *. clearbody t1. clear Pm P.
  assert (Pz : exists z, prepared E t1 z l l') by eauto. clear Pr. destruct Pz as [z Pr].
  induction Pr as [|prevS e e' l l' J S Je Jf Pr IH]; intros x X; [contradiction|].
  destruct X as [<-|X]; [|apply IH; auto; intros y Y; apply I1; right; auto].
  exists J. split; auto. destruct Jf as (gj & nrj & ts & te & G & En & T1 & T2 & HJ).
  rewrite Pp' in G. injection G as <-.
  destruct (Om e (I1 e (or_introl eq_refl))) as [O1 O2].
  set (b := en_bfield E (tp_ref (te_tp e))) in *.
  set (qp := calculateQoverP (tp_par (te_tp e)) (vz b)) in *.
  assert (Nq : - vr b * convertBr2P_cm * qp <> 0).
  { assert (qp <> 0) by (apply qop_nz; auto).
    assert (0 < vr b) by (apply sqrt_lt_R0; assert (0 < vz b * vz b) by (apply Rsqr_pos_lt; auto); nra).
    assert (0 < convertBr2P_cm) by (unfold convertBr2P_cm; lra).
    apply Rmult_integral_contrapositive_currified; auto. nra. }
  assert (R1 : J I0 I0 = 1 + nrj /\ forall j, j <> I0 -> J I0 j = 0).
  { set (dw := (te_s e - prevS) / cos (atan (tp_par (te_tp e) TANL))) in *.
    assert (Z : exists J0, analyticalJacobian m5zero dw qp ts te b 0 = Ok J0).
    { clear - HJ Nq. revert HJ. unfold analyticalJacobian. cbv zeta. destruct Req_EM_T as [|_]; [contradiction|].
      destruct (rdiv 1 (sqrt _)); cbn [bind]; try discriminate.
      destruct (vunit b); cbn [bind]; try discriminate.
      destruct (rdiv 1 qp); cbn [bind]; try discriminate.
      destruct (rdiv 1 (vtrans ts)); cbn [bind]; try discriminate.
      destruct (rdiv 1 (vtrans te)); cbn [bind]; try discriminate. eauto. }
    destruct Z as [J0 Z].
    destruct (jac_energy m5zero dw qp ts te b nrj Nq J0 Z) as (J' & HJ' & A1 & A2 & _).
    rewrite HJ in HJ'. injection HJ' as <-. split; auto. }
  destruct R1 as [R1 R2]. split; auto.
  destruct S as (_ & St & Ss & _ & Sc & _). rewrite <- St, <- Ss, <- Sc.
  destruct En as [[Sf ->]|(Sf & surf & el & Q & C & Nz & ->)]; rewrite Sf.
  - split; [intros _; rewrite R1; ring|discriminate].
  - split; [discriminate|intros _].
    destruct (loss_at_state _ _ _ _ _ C) as (s & xx & HI & Ho & Hb & Ee & Eb).
    exists surf, s, xx, el. split; auto. split; auto. split; auto. rewrite R1. unfold entry_term.
    unfold velocity_at, energy_at. rewrite qop_size by auto. rewrite <- Ee, <- Eb. reflexivity.
Qed.
Print Assumptions C87_entry.

(** The state stored by an addition has the q/p of the state it starts from (moved
    to the crossing, in the field there), changed by [applied_loss]. *)
Theorem C87_update : forall E t c e, made_by E t c e ->
  exists dE En, loss_of E t c dE En
  /\ let m := tr_mass t in
     let bz := vz (en_gfield E (tp_ref (te_tp e))) in
     let q0 := calculateQoverP (tp_par (from_state t)) bz in
     q0 <> 0 /\ energy_at m q0 = En /\ dE <> En
     /\ calculateQoverP (tp_par (te_tp e)) bz = applied_loss m (fun _ => dE) q0.
Proof.
  intros E t c e M. destruct (made_loss _ _ _ _ M) as (dE & En & L & N1 & N2 & Om & Ee & P0 & Tl & Oe).
  exists dE, En. split; auto. intros m bz q0. fold m bz in Ee, P0.
  assert (Hb : bz <> 0).
  { intros Z. unfold momentum_size in P0. rewrite Z, Rabs_R0 in P0. unfold Rdiv in P0. rewrite Rmult_0_r, !Rmult_0_l in P0. lra. }
  assert (Hq : q0 <> 0) by (apply qop_nz; auto).
  assert (Q : energy_at m q0 = En) by (unfold energy_at, q0; rewrite qop_size by auto; auto).
  split; auto. split; auto. split; auto.
  unfold applied_loss. rewrite Q. unfold q0, calculateQoverP. destruct Req_EM_T; [contradiction|].
  unfold calculateLambda, calculateCurvature, calculateTanLambda, calculateOmega. rewrite Tl, Oe.
  assert (0 < convertBr2P_cm) by (unfold convertBr2P_cm; lra).
  assert (En - dE <> 0) by lra. field. repeat split; auto; lra.
Qed.
Print Assumptions C87_update.

(** How q/p after the loss depends on q/p before it, for a loss [L] that may depend
    on q/p: by the update applied, and in nature. *)
Theorem C87_derivatives : forall m q L L', q <> 0 -> is_derive L q L' ->
  let p := Rabs (1 / q) in
  let En := energy_at m q in
  let b2 := velocity_at m q * velocity_at m q in
  let eps := L q / En in
  let r := sqrt ((En - L q) * (En - L q) - m * m) in
  (L q <> En -> is_derive (applied_loss m L) q
     (1 / (1 - eps) + (b2 * eps + q * L' / En) / ((1 - eps) * (1 - eps))))
  /\ (0 <= m -> L q < En - m -> is_derive (natural_loss m L) q
     (p * p * p / (r * r * r) * ((En - L q) / En) + q * p * L' * (En - L q) / (r * r * r))).
Proof.
  intros m q L L' Hq HL p En b2 eps r. split.
  - apply applied_derive; auto.
  - apply natural_derive; auto.
Qed.
Print Assumptions C87_derivatives.

(** Thin layers: the loss is [k * L] for small [k].  First-order change of the
    derivative of q/p: of the update, in nature, and the term in the Jacobian (which
    is taken for the state after the loss). *)
Theorem C87_thin : forall m q L L', 0 <= m -> q <> 0 -> is_derive L q L' ->
  let En := energy_at m q in
  let b2 := velocity_at m q * velocity_at m q in
  let layer k := fun r => k * L r in
  exists a n x,
    is_derive (fun k => Derive (applied_loss m (layer k)) q) 0 a
    /\ is_derive (fun k => Derive (natural_loss m (layer k)) q) 0 n
    /\ is_derive (fun k => entry_term m (layer k) (applied_loss m (layer k) q)) 0 x
    /\ a = ((1 + b2) * L q + q * L') / En
    /\ n = ((3 / b2 - 1) * L q + q * L' / b2) / En
    /\ x = 2 * L q / (b2 * En)
    /\ (L' = 0 -> x - a = (1 - b2) * (2 + b2) / b2 * (L q / En) /\ n - x = (1 - b2) / b2 * (L q / En)
        /\ (0 < L q -> 0 < m -> a < x < n) /\ (m = 0 -> a = x /\ n = x)).
Proof.
  intros m q L L' Hm Hq HL En b2 layer.
  assert (H : 0 < En) by (apply energy_pos; auto). assert (B : 0 < b2) by (apply b2_pos; auto).
  eexists. eexists. eexists. split; [apply (thin_applied m q L L' Hq HL)|]. split; [apply (thin_natural m q L L' Hq HL Hm)|].
  split; [apply (thin_entry m q L L' Hq HL)|]. fold En b2. split; auto. split; auto. split; auto.
  assert (Eb : b2 = Rabs (1 / q) * Rabs (1 / q) / (En * En)) by (apply beta_sq; auto).
  assert (Es : En * En = Rabs (1 / q) * Rabs (1 / q) + m * m) by (apply energy_sq; auto).
  assert (Bm : 1 - b2 = m * m / (En * En)) by (rewrite Eb; apply Rmult_eq_reg_r with (En * En); [|nra]; field_simplify; [|lra|lra]; nra).
  clearbody En b2. intros ->. 
  assert (X1 : 2 * L q / (b2 * En) - ((1 + b2) * L q + q * 0) / En = (1 - b2) * (2 + b2) / b2 * (L q / En)) by (field; lra).
  assert (X2 : ((3 / b2 - 1) * L q + q * 0 / b2) / En - 2 * L q / (b2 * En) = (1 - b2) / b2 * (L q / En)) by (field; lra).
  split; auto. split; auto. split.
  - intros Lp Mp. assert (0 < L q / En) by (apply Rdiv_lt_0_compat; auto).
    assert (Bp : 0 < 1 - b2) by (rewrite Bm; apply Rdiv_lt_0_compat; nra).
    assert (0 < (1 - b2) * (2 + b2) / b2 * (L q / En)).
    { apply Rmult_lt_0_compat; auto. apply Rdiv_lt_0_compat; nra. }
    assert (0 < (1 - b2) / b2 * (L q / En)).
    { apply Rmult_lt_0_compat; auto. apply Rdiv_lt_0_compat; auto. }
    lra.
  - intros ->. assert (Z : 1 - b2 = 0) by (rewrite Bm; unfold Rdiv; ring). rewrite Z in X1, X2.
    unfold Rdiv in X1, X2. rewrite !Rmult_0_l in X1, X2. unfold Rdiv. lra.
Qed.
Print Assumptions C87_thin.

(** Without mass: the update is what happens in nature, and the entry is short of its
    derivative by the square of the relative loss. *)
Theorem C87_massless : forall q d, q <> 0 -> let En := energy_at 0 q in 0 <= d < En ->
  let eps := d / En in
  applied_loss 0 (fun _ => d) q = natural_loss 0 (fun _ => d) q
  /\ is_derive (applied_loss 0 (fun _ => d)) q (1 / ((1 - eps) * (1 - eps)))
  /\ is_derive (natural_loss 0 (fun _ => d)) q (1 / ((1 - eps) * (1 - eps)))
  /\ 1 + entry_term 0 (fun _ => d) (applied_loss 0 (fun _ => d) q) = (1 - eps * eps) * (1 / ((1 - eps) * (1 - eps))).
Proof.
  intros q d Hq En Hd eps.
  assert (M0 : forall x, x <> 0 -> energy_at 0 x = Rabs (1 / x)).
  { intros x X. unfold energy_at, energy_of. rewrite Rmult_0_l, Rplus_0_r. apply sqrt_square, Rabs_pos. }
  assert (V0 : forall x, x <> 0 -> velocity_at 0 x = 1).
  { intros x X. unfold velocity_at, velocity. rewrite Rmult_0_l, Rplus_0_r, sqrt_square by apply Rabs_pos.
    apply Rinv_r. apply Rabs_no_R0. unfold Rdiv. rewrite Rmult_1_l. apply Rinv_neq_0_compat; auto. }
  assert (Pe : 0 < En) by (apply energy_pos; auto). assert (Ep : En = Rabs (1 / q)) by (apply M0; auto).
  assert (E1 : 0 <= eps < 1).
  { unfold eps. split; [apply Rmult_le_pos; [lra|left; apply Rinv_0_lt_compat; auto]|].
    apply Rmult_lt_reg_r with En; auto. unfold Rdiv. rewrite Rmult_assoc, Rinv_l, Rmult_1_l by lra. lra. }
  assert (De : d = eps * En) by (unfold eps; field; lra).
  destruct (C87_derivatives 0 q (fun _ => d) 0 Hq) as [D1 D2]; [apply @is_derive_const|]. fold En in D1, D2. fold eps in D1.
  rewrite V0 in D1 by auto. rewrite <- Ep in D2.
  assert (Rt : sqrt ((En - d) * (En - d) - 0 * 0) = En - d) by (rewrite Rmult_0_l, Rminus_0_r; apply sqrt_square; lra).
  rewrite Rt in D2.
  split; [|split; [|split]].
  - unfold applied_loss, natural_loss. fold En. rewrite Rt, <- Ep. field. split; lra.
  - match type of D1 with _ -> is_derive _ _ ?b => replace (1 / ((1 - eps) * (1 - eps))) with b; [apply D1; lra|] end.
    clearbody En. field. lra.
  - match type of D2 with _ -> _ -> is_derive _ _ ?b => replace (1 / ((1 - eps) * (1 - eps))) with b; [apply D2; lra|] end.
    rewrite De. clearbody En eps. field. split; [lra|]. split; [lra|]. nra.
  - assert (Q1 : applied_loss 0 (fun _ => d) q = q / (1 - eps)) by reflexivity.
    rewrite Q1. assert (Qn : q / (1 - eps) <> 0).
    { unfold Rdiv. apply Rmult_integral_contrapositive_currified; auto. apply Rinv_neq_0_compat. lra. }
    unfold entry_term. rewrite V0, M0 by auto.
    replace (1 / (q / (1 - eps))) with (1 / q * (1 - eps)) by (field; split; auto; lra).
    rewrite Rabs_mult, <- Ep, (Rabs_pos_eq (1 - eps)) by lra. rewrite De. clearbody En eps. field. lra.
Qed.
Print Assumptions C87_massless.
