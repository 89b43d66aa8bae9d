(** C71: a slow pion in silicon. *)
From Coq Require Import Reals List Bool ZArith Lra Lia Permutation Sorted.
From Verif Require Import SpecConst Num Vec Helix Isect Trans Material Traj.
From Verif Require Import NumFacts SpecHelix HelixFacts MoveFacts SpecMaterial MaterialFacts SpecTraj TrajFacts TrajFacts2 TrajFacts3 TrajFacts5.
From Verif Require Import SpecElem ElemFacts SpecEnergy EnergyFacts TrajEx PropEnergy.
Import ListNotations.
Open Scope R_scope.

(** momentum of the reference track of [TrajEx.v] in a field of 1 tesla *)
Definition slow : R := momentum_size 1 (mk5 1 1 0 0 0).

Lemma slow_sq : slow * slow = 2 * (field_unit * field_unit).
Proof.
  unfold slow, momentum_size. cbn [mk5]. unfold OMEGA, TANL. cbn [mk5]. rewrite Rabs_R1.
  replace (1 + 1 * 1) with 2 by ring. assert (S : sqrt 2 * sqrt 2 = 2) by (apply sqrt_sqrt; lra).
  transitivity (field_unit * field_unit * (sqrt 2 * sqrt 2)); [field|rewrite S; ring].
Qed.
Lemma slow_pos : 0 < slow.
Proof.
  unfold slow, momentum_size. unfold OMEGA, TANL. cbn [mk5]. rewrite Rabs_R1.
  apply Rmult_lt_0_compat; [unfold field_unit; lra|apply sqrt_lt_R0; lra].
Qed.

(** it loses energy in silicon *)
Lemma slow_loses : 0 < bb_fun ex_silicon pionMass slow.
Proof.
  assert (P := slow_pos). assert (Sq := slow_sq). assert (M := pion_pos).
  destruct (beta_gamma slow pionMass P M) as (BG & L2 & V2).
  assert (Bg : 9 / 10000 < slow * slow / (pionMass * pionMass) < 10 / 10000).
  { rewrite Sq. unfold field_unit, pionMass. lra. }
  unfold bb_fun, bethe_bloch, max_transfer. rewrite BG.
  assert (De : density_effect (ln (slow / pionMass) / ln 10)
     (2 * ln (excitation (mat_Z ex_silicon) / plasma (mat_density ex_silicon) (mat_Z ex_silicon) (mat_A ex_silicon)) + 1) = 0).
  { unfold density_effect. destruct Rlt_dec as [|G]; [auto|]. exfalso. apply G.
    assert (L10 : 0 < ln 10) by (rewrite <- ln_1; apply ln_increasing; lra).
    assert (Lt : ln (slow / pionMass) < 0).
    { rewrite <- ln_1. apply ln_increasing; [apply Rdiv_lt_0_compat; auto|].
      apply Rmult_lt_reg_r with pionMass; auto. unfold Rdiv. rewrite Rmult_assoc, Rinv_l, Rmult_1_l, Rmult_1_r by lra.
      apply Rsqr_incrst_0; [|lra|lra]. unfold Rsqr. rewrite Sq. unfold field_unit, pionMass. lra. }
    unfold Rdiv. assert (0 < / ln 10) by (apply Rinv_0_lt_compat; auto). nra. }
  rewrite De, V2. clear De V2. set (bg := slow * slow / (pionMass * pionMass)) in *.
  assert (Lz : lorentz slow pionMass <= 2).
  { assert (0 <= lorentz slow pionMass) by apply sqrt_pos. nra. }
  assert (Lz0 : 0 <= lorentz slow pionMass) by apply sqrt_pos.
  assert (Ex0 : 0 < excitation 14) by (apply excitation_pos; lra).
  assert (Ex : excitation 14 <= 200 * / 1000000000).
  { unfold excitation. apply Rmult_le_compat_r; [lra|].
    assert (Rpower 14 (- (19 / 100)) <= 1).
    { rewrite <- (Rpower_O 14) by lra. apply Rle_Rpower; lra. }
    lra. }
  cbn [mat_Z mat_A ex_silicon]. set (I := excitation 14) in *.
  set (k := kMe). assert (Ke : 5 / 10000 < k < 6 / 10000) by (unfold k, kMe; lra).
  set (D := 1 + 2 * lorentz slow pionMass * k / pionMass + k / pionMass * (k / pionMass)).
  assert (D2 : 0 < D <= 2).
  { assert (k / pionMass < 1 / 100) by (unfold k, kMe, pionMass; lra).
    assert (0 < k / pionMass) by (unfold k, kMe, pionMass; lra).
    unfold D. replace (2 * lorentz slow pionMass * k / pionMass) with (2 * lorentz slow pionMass * (k / pionMass)) by (unfold Rdiv; ring).
    split; nra. }
  set (r := 2 * k * bg * (2 * k * bg / D) / (I * I)).
  assert (R3 : 3 <= r).
  { unfold r. set (a := 2 * k * bg). assert (Ha : 9 / 10000000 < a) by (unfold a; nra).
    apply Rmult_le_reg_r with (I * I); [nra|].
    replace (a * (a / D) / (I * I) * (I * I)) with (a * a / D) by (field; lra).
    apply Rmult_le_reg_r with D; [lra|]. replace (a * a / D * D) with (a * a) by (field; lra).
    assert (I * I <= 200 * / 1000000000 * (200 * / 1000000000)) by nra.
    assert (0 < I * I) by nra.
    assert (3 * (I * I) * D <= 3 * (200 * / 1000000000 * (200 * / 1000000000)) * 2) by nra.
    nra. }
  assert (Ln : 1 <= ln r).
  { rewrite <- (ln_exp 1). destruct (Rle_lt_or_eq_dec (exp 1) r) as [Q|Q].
    - generalize exp_le_3. lra.
    - left. apply ln_increasing; [apply exp_pos|auto].
    - rewrite Q. lra. }
  apply Rmult_lt_0_compat.
  - apply Rmult_lt_0_compat; [unfold kK; lra|]. apply Rinv_0_lt_compat. apply Rdiv_lt_0_compat; lra.
  - assert (bg / (1 + bg) < 1 / 100).
    { apply Rmult_lt_reg_r with (1 + bg); [lra|]. unfold Rdiv. rewrite Rmult_assoc, Rinv_l by lra. lra. }
    fold D. fold r. lra.
Qed.

(** what the call computes for one station *)
Lemma station_loss_of th pos prec id dE En :
  loss_of ex_env (ex_traj None) (CMeas pos prec (ex_station 1 th (fun _ => true)) id false) dE En ->
  exists K, 0 < K /\ K = bb_fun ex_silicon pionMass slow * (233 / 100) * sqrt 2 /\ dE = th * K
  /\ En = energy_of slow pionMass.
Proof.
  intros (s & xx & mv & fid & mom & be & _ & A2 & A3 & A4).
  change (from_state (ex_traj None)) with ex_ref in *. change (tr_mass (ex_traj None)) with pionMass in *.
  assert (Om : tp_par ex_ref OMEGA <> 0) by (cbn; lra).
  destruct (move_ok ex_ref xx Om) as (p' & fid' & M & Sp & _). rewrite A2 in M. injection M as -> ->.
  cbn [tp_par tp_ref] in A3. destruct (pca_size _ _ _ _ A3) as (Om' & Sz).
  assert (Sz' : vr mom = slow).
  { rewrite Sz. unfold slow, momentum_size. rewrite (ms_om _ _ _ _ Sp), (ms_tl _ _ _ _ Sp). reflexivity. }
  destruct (eloss_energy _ _ _ _ _ A4) as (Q1 & Nm). cbn [el_energy] in Q1.
  assert (Vz : vz mom = field_unit).
  { unfold momentumAtPCA, calculateOmega, calculatePhi0, calculateTanLambda in A3. cbv zeta in A3. rewrite rdiv_ok in A3 by auto.
    cbn [bind] in A3. injection A3 as <-. cbn [vz ex_env en_gfield]. unfold ex_field. cbn [vz].
    rewrite (ms_om _ _ _ _ Sp), (ms_tl _ _ _ _ Sp). cbn. change convertBr2P_cm with field_unit.
    replace (1 / 1) with 1 by field. rewrite Rabs_R1. ring. }
  set (S := ex_station 1 th (fun _ => true)) in *.
  assert (Bv : computeBetheBloch ex_silicon (vr mom) pionMass = Ok (bb_fun ex_silicon pionMass slow)).
  { rewrite Sz'. apply bb_value; cbn; try lra; [apply slow_pos|apply pion_pos]. }
  assert (Nd : vdot mom (sf_normal S (sf_localToGlobal S (sf_globalToLocal S pos))) <> 0).
  { cbn [S ex_station sf_normal]. unfold vdot. cbn [vx vy vz]. rewrite Vz. unfold field_unit. lra. }
  destruct (eloss_value S (sf_globalToLocal S pos) mom pionMass _ _ Nm pion_pos Nd Bv Bv) as (el & Lel & _ & _ & _ & _ & Ld).
  rewrite A4 in Lel. injection Lel as <-. cbn [el_deltaE] in Ld.
  assert (Cs : cos_angle mom (sf_normal S (sf_localToGlobal S (sf_globalToLocal S pos))) = / sqrt 2).
  { unfold cos_angle. cbn [S ex_station sf_normal]. unfold vdot. cbn [vx vy vz]. rewrite Sz', Vz.
    unfold slow, momentum_size. unfold OMEGA, TANL. cbn [mk5]. rewrite Rabs_R1.
    replace (1 + 1 * 1) with 2 by ring. assert (0 < sqrt 2) by (apply sqrt_lt_R0; lra). field. split; [lra|unfold field_unit; lra]. }
  rewrite Cs in Ld. assert (S2 : 0 < sqrt 2) by (apply sqrt_lt_R0; lra).
  exists (bb_fun ex_silicon pionMass slow * (233 / 100) * sqrt 2). split.
  { apply Rmult_lt_0_compat; auto. apply Rmult_lt_0_compat; [apply slow_loses|lra]. }
  split; auto. split; [|rewrite Q1, Sz'; auto].
  rewrite Ld. cbn [S ex_station sf_innerMaterial sf_outerMaterial sf_innerThickness sf_outerThickness ex_silicon mat_density].
  rewrite Rabs_pos_eq by (left; apply Rinv_0_lt_compat; auto). set (b := bb_fun _ _ _). clearbody b.
  change (Mat 14 28 (233 / 100) (936 / 100)) with ex_silicon. field. lra.
Qed.

(** A hit in silicon of a thickness that takes half or a quarter of the energy: the
    history brakes, and the stored state has more energy than is left. *)
Theorem C71_energy_refuted : exists E ref cs t e dE En,
  env_ok E /\ history E (braking E) (mkTraj ref None) cs t /\ cs <> [] /\ ~ In CPrep cs
  /\ (exists c, cs = [c] /\ made_by E (mkTraj ref None) c e /\ loss_of E (mkTraj ref None) c dE En)
  /\ 0 < dE < En
  /\ En - dE < energy_of (momentum_size (vz (en_gfield E (tp_ref (te_tp e)))) (tp_par (te_tp e))) (tr_mass t).
Proof.
  destruct (station_new ex_initial pionMass 1 (fun _ => true) pion_pos) as [K0 HK]; try (cbn; lra).
  set (K := bb_fun ex_silicon pionMass slow * (233 / 100) * sqrt 2).
  assert (S2 : 0 < sqrt 2) by (apply sqrt_lt_R0; lra).
  assert (Kp : 0 < K) by (apply Rmult_lt_0_compat; auto; apply Rmult_lt_0_compat; [apply slow_loses|lra]).
  assert (Ep : 0 < energy_of slow pionMass).
  { apply sqrt_lt_R0. assert (P := slow_pos). assert (M := pion_pos). nra. }
  assert (T : exists th, 0 < th /\ th * K0 <> 1 /\ 0 < th * K < energy_of slow pionMass).
  { set (th := energy_of slow pionMass / 2 / K).
    assert (Tp : 0 < th) by (unfold th; apply Rdiv_lt_0_compat; lra).
    assert (Tk : th * K = energy_of slow pionMass / 2) by (unfold th; field; lra).
    destruct (Req_dec (th * K0) 1) as [Q|Q].
    - exists (th / 2). split; [lra|]. split; [lra|]. replace (th / 2 * K) with (th * K / 2) by (unfold Rdiv; ring). lra.
    - exists th. split; auto. split; auto. lra. }
  destruct T as (th & Tp & T0 & Tk).
  destruct (HK th ltac:(lra) T0) as [HM _]. set (S := ex_station 1 th (fun _ => true)) in *.
  destruct (HM v3zero [1; 1] 7%Z false) as [e He].
  set (c := CMeas v3zero [1; 1] S 7 false).
  assert (A : addMeasurement ex_env (ex_traj None) v3zero [1; 1] S 7 false = (set_elems (ex_traj None) [ex_initial; e], Ok true)).
  { unfold addMeasurement, pushElement. rewrite ex_ensure. cbn [set_elems tr_elems ex_traj mkTraj tr_mass last]. rewrite He. reflexivity. }
  assert (M : made_by ex_env (ex_traj None) c e).
  { apply addMeasurement_iff in A. destruct A as (t1 & e' & W & X & M). unfold extended in X.
    destruct W as [[W _]|(_ & i & -> & _)]; [exfalso; apply W; reflexivity|]. cbn in X. injection X as _ ->. exact M. }
  destruct (C71_step _ _ _ _ M) as (dE & En & L & U & R). cbv zeta in R.
  destruct (station_loss_of _ _ _ _ _ _ L) as (K1 & _ & EK & Ed & Ee). fold K in EK. rewrite EK in Ed.
  destruct R as (_ & _ & _ & _ & _ & R & _).
  assert (D : 0 < dE < En) by (rewrite Ed, Ee; auto).
  exists ex_env, ex_ref, [c], (set_elems (ex_traj None) [ex_initial; e]), e, dE, En.
  split; [apply ex_env_ok|]. split.
  { change [c] with ([] ++ [c]). eapply hist_snoc; [constructor| |].
    - intros dE' En' L'. destruct (U _ _ L') as [-> ->]. lra.
    - econstructor; [exact A|eauto]. }
  split; [discriminate|]. split; [intros [Q|[]]; discriminate|].
  split; [exists c; auto|]. split; auto.
  apply R; auto. change (tr_mass (ex_traj None)) with pionMass. generalize pion_pos; lra.
Qed.
Print Assumptions C71_energy_refuted.
