(** C87: a hit in silicon, marked as scattering or not. *)
From Coq Require Import Reals List Bool ZArith Lra Lia Permutation Sorted.
From Coquelicot Require Import Coquelicot.
From Verif Require Import SpecConst Num Vec Helix Isect Trans Propag Material Traj.
From Verif Require Import NumFacts SpecHelix HelixFacts MoveFacts SpecMaterial MaterialFacts SpecTraj TrajFacts TrajFacts2 TrajFacts3 TrajFacts4 TrajFacts5.
From Verif Require Import SpecPropag PropagFacts2 SpecElem ElemFacts SpecEnergy EnergyFacts StepFacts TrajEx PropTraj PropEnergy PropEnergyEx.
From Verif Require Import SpecLossJac LossJacFacts PropLossJac FitFacts2 PropFitEx.
Import ListNotations.
Open Scope R_scope.

(** A slow pion loses energy in a station of silicon; the trajectory is prepared. *)
Lemma slow_prepared (sc : bool) : exists c t t' e e' dE En,
  history ex_env (braking ex_env) (mkTraj ex_ref (Some analyticalJacobian)) [c] t
  /\ made_by ex_env (mkTraj ex_ref (Some analyticalJacobian)) c e
  /\ loss_of ex_env (mkTraj ex_ref (Some analyticalJacobian)) c dE En /\ 0 < dE < En
  /\ prepareForFitting ex_env t = Ok t' /\ tr_elems t = [ex_initial; e]
  /\ (exists e0', tr_elems t' = [e0'; e']) /\ same_but_jacobian e e' /\ te_scat e = sc /\ tr_mass t = pionMass
  /\ tp_par (te_tp e) OMEGA <> 0.
Proof.
  destruct (station_new ex_initial pionMass 1 (fun _ => true) pion_pos) as [K0 HK]; try (cbn; lra).
  set (K := bb_fun ex_silicon pionMass slow * (233 / 100) * sqrt 2).
  assert (S2 : 0 < sqrt 2) by (apply sqrt_lt_R0; lra).
  assert (Kp : 0 < K) by (apply Rmult_lt_0_compat; auto; apply Rmult_lt_0_compat; [apply slow_loses|lra]).
  assert (Ep : 0 < energy_of slow pionMass).
  { apply sqrt_lt_R0. assert (P := slow_pos). assert (M := pion_pos). nra. }
  assert (T : exists th, 0 < th /\ th * K0 <> 1 /\ 0 < th * K < energy_of slow pionMass).
  { set (th := energy_of slow pionMass / 2 / K).
    assert (Tp : 0 < th) by (unfold th; apply Rdiv_lt_0_compat; lra).
    assert (Tk : th * K = energy_of slow pionMass / 2) by (unfold th; field; lra).
    destruct (Req_dec (th * K0) 1) as [Q|Q].
    - exists (th / 2). split; [lra|]. split; [lra|]. replace (th / 2 * K) with (th * K / 2) by (unfold Rdiv; ring). lra.
    - exists th. split; auto. split; auto. lra. }
  destruct T as (th & Tp & T0 & Tk).
  destruct (HK th ltac:(lra) T0) as [HM _]. set (S := ex_station 1 th (fun _ => true)) in *.
  destruct (HM v3zero [1; 1] 7%Z sc) as [e He].
  set (c := CMeas v3zero [1; 1] S 7 sc). set (pm := Some analyticalJacobian).
  set (t := set_elems (ex_traj pm) [ex_initial; e]).
  assert (A : addMeasurement ex_env (ex_traj pm) v3zero [1; 1] S 7 sc = (t, Ok true)).
  { unfold addMeasurement, pushElement. rewrite ex_ensure. cbn [set_elems tr_elems ex_traj mkTraj tr_mass last]. rewrite He. reflexivity. }
  assert (M : made_by ex_env (ex_traj pm) c e).
  { apply addMeasurement_iff in A. destruct A as (t1 & e' & W & X & M). unfold extended in X.
    destruct W as [[W _]|(_ & i & -> & _)]; [exfalso; apply W; reflexivity|]. cbn in X. injection X as _ ->. exact M. }
  destruct (C71_step _ _ _ _ M) as (dE & En & L & U & _).
  assert (L0 : loss_of ex_env (ex_traj None) (CMeas v3zero [1; 1] S 7 false) dE En) by exact L.
  destruct (station_loss_of _ _ _ _ _ _ L0) as (K1 & _ & EK & Ed & Ee). fold K in EK. rewrite EK in Ed.
  assert (D : 0 < dE < En) by (rewrite Ed, Ee; auto).
  destruct (newMeasurement_spec _ _ _ _ _ _ _ _ _ He) as (s0 & xx & moved & fid & mom & el & B & _).
  assert (Om : tp_par (te_tp ex_initial) OMEGA <> 0) by (cbn; lra).
  assert (Ht : tp_par (te_tp ex_initial) TANL <> 0) by (cbn; lra).
  assert (Is := bu_isect _ _ _ _ _ _ _ _ _ _ _ _ _ _ _ B). unfold S in Is.
  rewrite station_isect in Is by auto. injection Is as _ Is Ix.
  assert (S1 : s0 = 1) by (rewrite <- Is; cbn; field).
  assert (Es : te_s e = 1) by (rewrite (bu_s _ _ _ _ _ _ _ _ _ _ _ _ _ _ _ B), S1; cbn; ring).
  assert (Mv := bu_move _ _ _ _ _ _ _ _ _ _ _ _ _ _ _ B).
  destruct (move_ok (te_tp ex_initial) xx Om) as (p' & fid' & Mv' & Spc & _).
  rewrite Mv in Mv'. injection Mv' as Em _.
  assert (Mo : tp_par moved OMEGA <> 0) by (rewrite Em; cbn [tp_par]; rewrite (ms_om _ _ _ _ Spc); auto).
  assert (Mt : tp_par moved TANL <> 0) by (rewrite Em; cbn [tp_par]; rewrite (ms_tl _ _ _ _ Spc); auto).
  assert (Al := bu_tp _ _ _ _ _ _ _ _ _ _ _ _ _ _ _ B).
  assert (Te : tp_par (te_tp e) TANL <> 0).
  { rewrite (proj2 (applyLoss_keep _ _ _ Al)) by discriminate. auto. }
  assert (To : tp_par (te_tp e) OMEGA <> 0).
  { apply applyLoss_spec in Al. destruct Al as (A1 & A2 & ->). cbn. unfold v5set.
    destruct (idx_eq_dec OMEGA OMEGA); [|contradiction]. unfold Rdiv.
    apply Rmult_integral_contrapositive. split; auto. apply Rinv_neq_0_compat. lra. }
  assert (Sc : te_scat e = sc) by apply (bu_scat _ _ _ _ _ _ _ _ _ _ _ _ _ _ _ B).
  assert (Srt : en_sortE ex_env (tr_elems t) = [ex_initial; e]).
  { apply isort_id. constructor; [constructor; [constructor|constructor]|]. constructor; [cbn; lra|constructor]. }
  assert (Tg : forall s, exists v, tr_tangentAt (set_elems t [ex_initial; e]) s = Ok v /\ 0 < vtrans v).
  { intros s. unfold tr_tangentAt, trajectoryElementAt. cbn [set_elems tr_elems bind]. eexists. split; [reflexivity|apply tangent_trans]. }
  destruct (Tg 0) as (v1 & V1 & W1). destruct (Tg (te_s e)) as (v2 & V2 & W2).
  assert (Ln : exists nrj, energy_term ex_env pionMass e nrj).
  { destruct sc.
    - destruct (station_lossTerm th e Sc (bu_surf _ _ _ _ _ _ _ _ _ _ _ _ _ _ _ B) To Te) as (nrj & Ln).
      exists nrj. apply lossTerm_spec. exact Ln.
    - exists 0. left. auto. }
  destruct Ln as (nrj & Ln).
  set (dw := (te_s e - 0) / cos (atan (tp_par (te_tp e) TANL))).
  set (qp := calculateQoverP (tp_par (te_tp e)) (vz (en_bfield ex_env (tp_ref (te_tp e))))).
  assert (Qn : qp <> 0) by (apply qop_nz; [cbn; lra|auto]).
  assert (HJ : exists J, analyticalJacobian m5zero dw qp v1 v2 (en_bfield ex_env (tp_ref (te_tp e))) nrj = Ok J).
  { cbn [ex_env en_bfield]. unfold ex_field, analyticalJacobian. cbv zeta.
    assert (V : vr (V3 0 0 1) = 1) by (unfold vr; cbn [vx vy vz]; replace (0 * 0 + 0 * 0 + 1 * 1) with 1 by ring; apply sqrt_1).
    destruct Req_EM_T; [eauto|]. 
    change (sqrt (vx v2 * vx v2 + vy v2 * vy v2)) with (vtrans v2). rewrite rdiv_ok by lra. cbn [bind].
    unfold vunit. rewrite V, !rdiv_ok by (auto; lra). cbn [bind]. eauto. }
  destruct HJ as [J HJ].
  destruct (C35_complete ex_env t ex_initial [e] [setJacobian e J] Srt) as (e0' & P & Sj & J0).
  { apply prep_cons with (J := J); [repeat split|reflexivity| |constructor].
    exists analyticalJacobian, nrj, v1, v2. split; auto. }
  exists c, t, (set_elems t [e0'; setJacobian e J]), e, (setJacobian e J), dE, En.
  split.
  { change [c] with ([] ++ [c]). eapply hist_snoc; [constructor| |].
    - intros dE' En' L'. destruct (U _ _ L') as [-> ->]. lra.
    - econstructor; [exact A|eauto]. }
  split; [exact M|]. split; [exact L|]. split; auto. split; [exact P|]. split; [reflexivity|].
  split; [exists e0'; reflexivity|]. split; [repeat split|]. split; auto.
Qed.

(** Claimed by a user: where the trajectory applies an energy loss, the Jacobian
    knows of it.  Not for hits that are not marked as scattering: q/p depends on
    q/p before with a slope above 1, and the entry is 1. *)
Theorem C87_unmarked_refuted : exists E ref c t t' e e' dE En J,
  env_ok E /\ history E (braking E) (mkTraj ref (Some analyticalJacobian)) [c] t
  /\ made_by E (mkTraj ref (Some analyticalJacobian)) c e
  /\ loss_of E (mkTraj ref (Some analyticalJacobian)) c dE En /\ 0 < dE < En
  /\ prepareForFitting E t = Ok t' /\ In e' (tr_elems t') /\ same_but_jacobian e e'
  /\ te_jac e' = Some J /\ J I0 I0 = 1
  /\ exists d, is_derive (applied_loss (tr_mass t) (fun _ => dE))
       (calculateQoverP (tp_par ref) (vz (en_gfield E (tp_ref (te_tp e))))) d /\ 1 < d.
Proof.
  destruct (slow_prepared false) as (c & t & t' & e & e' & dE & En & H & M & L & D & P & El & (e0' & El') & Sm & Sc & Ms & To).
  destruct (history_good _ _ _ _ _ _ (proj1 ex_env_ok) H) as (_ & _ & Pp).
  destruct (C87_entry ex_env t t' ex_env_ok Pp) as (x0 & l & Q & F); auto.
  { rewrite El. intros x [<-|[<-|[]]]; (split; [|cbn; lra]); [cbn; lra|auto]. }
  rewrite El' in Q. injection Q as <- <-. destruct (F e' (or_introl eq_refl)) as (J & HJ & _ & R & _).
  exists ex_env, ex_ref, c, t, t', e, e', dE, En, J. split; [apply ex_env_ok|]. split; auto. split; auto. split; auto.
  split; auto. split; auto. split; [rewrite El'; right; left; auto|]. split; auto. split; auto.
  split. { apply R. destruct Sm as (_ & _ & _ & _ & <- & _). auto. }
  destruct (C87_update _ _ _ _ M) as (dE1 & En1 & L1 & Hq & Ee & Ne & _). cbv zeta in *.
  destruct (C71_step _ _ _ _ M) as (dE2 & En2 & L2 & U & _).
  destruct (U _ _ L) as [-> ->]. destruct (U _ _ L1) as [-> ->].
  change (tr_mass (mkTraj ex_ref (Some analyticalJacobian))) with pionMass in *.
  change (from_state (mkTraj ex_ref (Some analyticalJacobian))) with ex_ref in *.
  rewrite Ms. set (q := calculateQoverP (tp_par ex_ref) (vz (en_gfield ex_env (tp_ref (te_tp e))))) in *.
  destruct (C87_derivatives pionMass q (fun _ => dE2) 0 Hq) as [D1 _]; [apply @is_derive_const|].
  cbv zeta in D1. rewrite Ee in D1. specialize (D1 Ne).
  eexists. split; [exact D1|]. clear D1.
  assert (B : 0 < velocity_at pionMass q * velocity_at pionMass q) by (apply b2_pos; auto).
  set (b2 := velocity_at pionMass q * velocity_at pionMass q) in *. clearbody b2.
  set (eps := dE2 / En2). assert (Ep : 0 < eps < 1).
  { unfold eps. split; [apply Rdiv_lt_0_compat; lra|]. apply Rmult_lt_reg_r with En2; [lra|].
    unfold Rdiv. rewrite Rmult_assoc, Rinv_l, Rmult_1_l by lra. lra. }
  assert (1 < 1 / (1 - eps)).
  { apply Rmult_lt_reg_r with (1 - eps); [lra|]. unfold Rdiv. rewrite Rmult_assoc, Rinv_l by lra. lra. }
  assert (0 < (b2 * eps + q * 0 / En2) / ((1 - eps) * (1 - eps))).
  { unfold Rdiv at 2. rewrite Rmult_0_r, Rmult_0_l, Rplus_0_r. apply Rdiv_lt_0_compat; nra. }
  lra.
Qed.
Print Assumptions C87_unmarked_refuted.

(** Marked as scattering, the same hit gets an entry with the term. *)
Example C87_instance : exists c t t' e' J,
  history ex_env (braking ex_env) (mkTraj ex_ref (Some analyticalJacobian)) [c] t
  /\ prepareForFitting ex_env t = Ok t' /\ In e' (tr_elems t') /\ te_scat e' = true
  /\ te_jac e' = Some J /\ exists surf s xx el, te_surf e' = Some surf
     /\ intersectWithSurface surf (tp_par (te_tp e')) (tp_ref (te_tp e')) (OVal 0 v3zero) 0 true = Ok (true, OVal s xx)
     /\ computeEnergyLoss_tp (en_gfield ex_env) surf (te_tp e') (tr_mass t) = Ok (inr el)
     /\ J I0 I0 = 1 + entry_term (tr_mass t) (fun _ => el_deltaE el)
                        (calculateQoverP (tp_par (te_tp e')) (vz (en_gfield ex_env xx))).
Proof.
  destruct (slow_prepared true) as (c & t & t' & e & e' & dE & En & H & M & L & D & P & El & (e0' & El') & Sm & Sc & Ms & To).
  destruct (history_good _ _ _ _ _ _ (proj1 ex_env_ok) H) as (_ & _ & Pp).
  destruct (C87_entry ex_env t t' ex_env_ok Pp) as (x0 & l & Q & F); auto.
  { rewrite El. intros x [<-|[<-|[]]]; (split; [|cbn; lra]); [cbn; lra|auto]. }
  rewrite El' in Q. injection Q as <- <-. destruct (F e' (or_introl eq_refl)) as (J & HJ & _ & _ & R).
  assert (Sc' : te_scat e' = true) by (destruct Sm as (_ & _ & _ & _ & <- & _); auto).
  exists c, t, t', e', J. split; auto. split; auto. split; [rewrite El'; right; left; auto|]. split; auto.
Qed.

(** The three first-order changes for a particle with m = p = 1: about 1.06, 2.83 and
    3.54 times the loss. *)
Example C87_thin_case : exists a n x,
  is_derive (fun k => Derive (applied_loss 1 (fun _ => k * 1)) 1) 0 a
  /\ is_derive (fun k => Derive (natural_loss 1 (fun _ => k * 1)) 1) 0 n
  /\ is_derive (fun k => entry_term 1 (fun _ => k * 1) (applied_loss 1 (fun _ => k * 1) 1)) 0 x
  /\ a = 3 / 2 / sqrt 2 /\ n = 5 / sqrt 2 /\ x = 4 / sqrt 2 /\ a < x < n.
Proof.
  destruct (C87_thin 1 1 (fun _ => 1) 0) as (a & n & x & A & N & X & Ea & En & Ex & Rl); try lra; [apply @is_derive_const|].
  assert (Ee : energy_at 1 1 = sqrt 2).
  { unfold energy_at, energy_of. f_equal. replace (1 / 1) with 1 by field. rewrite Rabs_R1. ring. }
  assert (S2 : sqrt 2 * sqrt 2 = 2) by (apply sqrt_sqrt; lra). assert (S0 : 0 < sqrt 2) by (apply sqrt_lt_R0; lra).
  assert (Eb : velocity_at 1 1 * velocity_at 1 1 = 1 / 2).
  { rewrite beta_sq by lra. rewrite Ee, S2. replace (1 / 1) with 1 by field. rewrite Rabs_R1. field. }
  rewrite Eb, Ee in *. exists a, n, x. split; auto. split; auto. split; auto.
  split; [rewrite Ea; match goal with |- ?u = ?v => change (@eq R u v) end; field; lra|].
  split; [rewrite En; match goal with |- ?u = ?v => change (@eq R u v) end; field; lra|].
  split; [rewrite Ex; match goal with |- ?u = ?v => change (@eq R u v) end; field; lra|].
  apply Rl; lra.
Qed.
