(** C61: the Jacobians set by the preparation. *)
From Coq Require Import Reals List Bool ZArith Lra Lia Permutation Sorted.
From Coquelicot Require Import Coquelicot.
From Verif Require Import Num Vec Helix Isect Trans Material Propag Traj.
From Verif Require Import NumFacts SpecHelix HelixFacts SpecMat SpecTrans SpecPropag JacFacts PropagFacts PropagFacts2 FamilyFacts
  SpecTraj SpecSmooth TrajFacts TrajFacts2 TrajFacts3 TrajEx SmoothFacts SpecStep StepFacts PropTraj PropTrajEx.
Import ListNotations.
Open Scope R_scope.

Section Prepared.
Variables (E : env) (ref : trackParameters) (bz : R) (t : traj) (s0 : R).
Hypothesis Hb : bz <> 0.
Hypothesis Hf : forall p, en_bfield E p = V3 0 0 bz.
Hypothesis Ho : tp_par ref OMEGA <> 0.
Hypothesis Pr : tr_prop t = Some analyticalJacobian.
Hypothesis Th : all_thin t.
Hypothesis Ne : tr_elems t <> [].
Hypothesis Un : uniform (fun s => hcurve (tp_par ref) (tp_ref ref) (s - s0)) (tp_par ref OMEGA) t.
Let hp := tp_par ref.
Let c := cos (atan (hp TANL)).
Let q := calculateQoverP hp bz.
Let step a b J := analyticalJacobian m5zero ((b - a) / c) q (calculateTangent (a - s0) hp) (calculateTangent (b - s0) hp) (V3 0 0 bz) 0 = Ok J.

(** every element lies on the helix of the reference *)
Lemma on_helix e : In e (tr_elems t) -> tp_par (te_tp e) OMEGA = hp OMEGA /\ tp_par (te_tp e) TANL = hp TANL
  /\ forall s, tangent_of e s = calculateTangent (s - s0) hp.
Proof.
  intros I. destruct (Un e I) as [O C].
  set (i := TE s0 ref None false false None [] [] None None None 0%Z).
  destruct (same_curve e i) as [T G]; auto.
  { rewrite O. auto. }
Qed.

Lemma tangent_here s : tr_tangentAt t s = Ok (calculateTangent (s - s0) hp)
  /\ tr_pointAt t s = Ok (hcurve hp (tp_ref ref) (s - s0)).
Proof.
  destruct (answers t s Ne) as (e & I & T & P). destruct (on_helix e I) as (O & _ & G). destruct (Un e I) as [_ C].
  rewrite T, G, P, C by (rewrite O; exact Ho). auto.
Qed.

Lemma jacobian_step e prevS J : In e (tr_elems t) -> jacobian_for E t prevS e J -> step prevS (te_s e) J.
Proof.
  intros I (g & nrj & ts & te & G & En & T1 & T2 & HJ). rewrite Pr in G. injection G as <-.
  rewrite (proj1 (tangent_here prevS)) in T1. injection T1 as <-.
  rewrite (proj1 (tangent_here (te_s e))) in T2. injection T2 as <-.
  apply thin_term in En; [|intros sf; apply Th; auto]. subst nrj. rewrite Hf in HJ. cbn [vz] in HJ.
  destruct (on_helix e I) as (O & L & _). unfold step, c, q.
  replace (calculateQoverP (tp_par (te_tp e)) bz) with (calculateQoverP hp bz) in HJ.
  - rewrite L in HJ. exact HJ.
  - unfold calculateQoverP, calculateLambda, calculateCurvature, calculateTanLambda, calculateOmega. rewrite O, L. reflexivity.
Qed.

Lemma prepared_steps : forall l prevS l', incl l (tr_elems t) -> prepared E t prevS l l' ->
  steps bz hp (fun s => hcurve hp (tp_ref ref) (s - s0)) prevS l'.
Proof.
  induction l as [|e l IH]; intros prevS l' I P; inversion P as [|p e1 e' l1 l1' J S Ja Jf P']; subst; [exact Logic.I|].
  cbn [steps]. destruct S as (Es & _). rewrite <- Es. split.
  - exists J. split; auto. apply step_transports; auto. apply jacobian_step; auto. apply I. left; auto.
  - apply IH; auto. intros x X. apply I. right; auto.
Qed.

Lemma mul_congr A B C : m5eq B C -> m5eq (m5mul A B) (m5mul A C).
Proof. intros Q i j. unfold m5mul, sum5. rewrite !Q. reflexivity. Qed.
Lemma eq_tr A B C : m5eq A B -> m5eq B C -> m5eq A C.
Proof. intros P Q i j. rewrite P. apply Q. Qed.

Lemma prepared_product : forall l prevS l' a A, incl l (tr_elems t) -> prepared E t prevS l l' ->
  (exists Ja, step a prevS Ja /\ m5eq Ja A) ->
  forall l1 e l2, l' = l1 ++ e :: l2 -> exists J, step a (te_s e) J /\ m5eq J (product (l1 ++ [e]) A).
Proof.
  induction l as [|x l IH]; intros prevS l' a A I P (Ja & S1 & Q1) l1 e l2 El;
    inversion P as [|p e1 e' l3 l3' J S Je Jf P']; subst; [destruct l1; discriminate|].
  match goal with H : _ :: _ = _ ++ _ |- _ => rename H into HH end. destruct S as (Es & _).
  assert (Sx : step prevS (te_s x) J) by (apply jacobian_step; auto; apply I; left; auto).
  destruct (step_compose hp (tp_ref ref) bz Hb Ho s0 a prevS (te_s x) Ja J S1 Sx) as (J2 & S2 & Q2).
  assert (Q3 : m5eq J2 (m5mul J A)) by (eapply eq_tr; [exact Q2|]; apply mul_congr; auto).
  destruct l1 as [|y l1]; cbn [app] in *.
  - injection HH as -> <-. cbn [product]. rewrite Je. exists J2. rewrite <- Es. auto.
  - injection HH as -> El. cbn [product]. rewrite Je.
    apply (IH (te_s x) l3' a (m5mul J A)) with l2; auto; [intros z Z; apply I; right; auto|]. exists J2. auto.
Qed.

Lemma step_exists a b : exists J, step a b J.
Proof.
  destruct (step_zero hp bz Hb Ho s0 a) as (J0 & S0 & _). 
  assert (Pc : 0 < c) by apply cos_atan_pos.
  assert (Hq : q <> 0) by (apply qop_nz; auto).
  destruct (jac_composition (V3 0 0 bz) q _ _ _ _ 0 ((b - a) / c) (field_nz bz Hb) Hq (step_motion hp (tp_ref ref) bz Hb Ho (a - s0)))
    as (J1 & J2 & J & E1 & E2 & _); try apply tangent_trans; try apply tangent_unit.
  fold hp c in E2. replace (a - s0 + 0 * c) with (a - s0) in E2 by ring.
  replace (a - s0 + (0 + (b - a) / c) * c) with (b - s0) in E2 by (field; lra).
  exists J2. exact E2.
Qed.

Lemma prepared_exists : forall l prevS, incl l (tr_elems t) ->
  (forall e, In e l -> exists nrj, energy_term E (tr_mass t) e nrj) -> exists l', prepared E t prevS l l'.
Proof.
  induction l as [|e l IH]; intros prevS I N; [exists []; constructor|].
  destruct (IH (te_s e)) as [l' P]; [intros x X; apply I; right; auto|intros x X; apply N; right; auto|].
  destruct (N e (or_introl eq_refl)) as [nrj En]. assert (Ie : In e (tr_elems t)) by (apply I; left; auto).
  destruct (step_exists prevS (te_s e)) as [J HJ].
  exists (setJacobian e J :: l'). apply prep_cons with J; auto; [apply same_setJacobian|].
  exists analyticalJacobian, nrj, (calculateTangent (prevS - s0) hp), (calculateTangent (te_s e - s0) hp).
  split; auto. split; auto. split; [apply tangent_here|]. split; [apply tangent_here|].
  assert (Z := En). apply thin_term in Z; [|intros sf; apply Th; auto]. rewrite Z, Hf. cbn [vz].
  destruct (on_helix e Ie) as (O & L & _). unfold step, c, q in HJ.
  replace (calculateQoverP (tp_par (te_tp e)) bz) with (calculateQoverP hp bz).
  - rewrite L. exact HJ.
  - unfold calculateQoverP, calculateLambda, calculateCurvature, calculateTanLambda, calculateOmega. rewrite O, L. reflexivity.
Qed.

Lemma prepared_app : forall l prevS l' l1 x l2, prepared E t prevS l l' -> l' = l1 ++ x :: l2 ->
  exists k, incl k l /\ prepared E t (te_s x) k l2.
Proof.
  induction l as [|e l IH]; intros prevS l' l1 x l2 P El;
    inversion P as [|p e1 e' l3 l3' J S Je Jf P']; subst; [destruct l1; discriminate|].
  match goal with H : _ :: _ = _ ++ _ |- _ => rename H into HH end.
  destruct l1 as [|y l1]; cbn [app] in *.
  - injection HH as -> <-. exists l. destruct S as (Es & _). rewrite <- Es. split; auto. intros z Z; right; auto.
  - injection HH as -> El. destruct (IH _ _ l1 x l2 P' El) as (k & K1 & K2). exists k. split; auto. intros z Z; right; auto.
Qed.
End Prepared.

(** Through surfaces without material, in a constant field along z and with the
    analytical propagator, the Jacobian of each element after the first is the
    exact derivative of the transport along the trajectory from the element before
    it -- for the second element from path length zero, not from the first. *)
Theorem C61_jacobians : forall E ref bz cs t t', env_ok E -> bz <> 0 -> (forall p, en_bfield E p = V3 0 0 bz) ->
  tp_par ref OMEGA <> 0 -> Rabs (tp_par ref PHI0) <= 2 * PI ->
  history E bare (mkTraj ref (Some analyticalJacobian)) cs t -> prepareForFitting E t = Ok t' ->
  exists f e0 l, (forall s, tr_pointAt t' s = Ok (f s)) /\ tr_elems t' = e0 :: l
    /\ steps bz (tp_par ref) f 0 l
    /\ (forall l1 e l2, l = l1 ++ e :: l2 ->
          transports bz (tp_par ref) f 0 (te_s e) (product (l1 ++ [e]) mident))
    /\ (forall l0 x l1 y l2, l = l0 ++ x :: l1 ++ y :: l2 ->
          transports bz (tp_par ref) f (te_s x) (te_s y) (product (l1 ++ [y]) mident)).
Proof.
  intros E ref bz cs t t' [So Se] Hb Hf Ho Hp H P.
  destruct (history_good _ _ _ _ _ _ So H) as (G & R & Pp).
  destruct (history_placed E _ ref _ cs t So Ho Hp (fun t c X => proj1 X) H) as [Pl _].
  assert (Th := history_thin E _ ref _ cs t So (fun t c X => proj2 (proj2 X)) H).
  destruct (prepare_spec _ _ _ P) as (e0 & l & e0' & l' & Q & -> & S0 & _ & Pr).
  destruct (So (tr_elems t)) as [Pm _]. rewrite Q in Pm.
  destruct (g_first _ G) as [N|((i & Ii & (_ & _ & S) & _) & _)].
  { rewrite N in Pm. apply Permutation_nil in Pm. discriminate. }
  rewrite R in S. set (s0 := te_s i) in *.
  assert (U : uniform (fun s => hcurve (tp_par ref) (tp_ref ref) (s - s0)) (tp_par ref OMEGA) t).
  { apply (history_uniform E _ ref _ cs t _ So Ho Hp
      ltac:(intros s1 S1 u; rewrite S in S1; injection S1 as <-; reflexivity) (fun t c X => X) H). }
  set (t1 := set_elems t (e0 :: l)) in *.
  assert (In1 : forall x, In x (tr_elems t1) -> In x (tr_elems t)).
  { intros x X. eapply Permutation_in; [apply Permutation_sym, Pm|exact X]. }
  assert (U1 : uniform (fun s => hcurve (tp_par ref) (tp_ref ref) (s - s0)) (tp_par ref OMEGA) t1) by (intros x X; apply U; auto).
  assert (T1 : all_thin t1) by (intros x sf X; apply Th; auto).
  assert (N1 : tr_elems t1 <> []) by discriminate.
  assert (P1 : tr_prop t1 = Some analyticalJacobian) by exact Pp.
  assert (I1 : incl l (tr_elems t1)) by (intros x X; right; auto).
  exists (fun s => hcurve (tp_par ref) (tp_ref ref) (s - s0)), e0', l'. split; [|split; [reflexivity|split; [|split]]].
  - intros s. apply (tangent_here ref (set_elems t (e0' :: l')) s0 Ho); [discriminate|].
    intros x X. cbn [set_elems tr_elems] in X.
    assert (F : Forall2 same_but_jacobian (e0 :: l) (e0' :: l')) by (constructor; auto; eapply prepared_forall2; eauto).
    destruct (forall2_in_r _ _ _ _ F X) as (y & Y & (Es & Et & _)). destruct (U1 y Y) as [A B].
    unfold curve_of in *. rewrite <- Es, <- Et. auto.
  - apply (prepared_steps E ref bz t1 s0 Hb Hf Ho P1 T1 N1 U1 l 0 l' I1 Pr).
  - intros l1 e l2 El.
    destruct (prepared_product E ref bz t1 s0 Hb Hf Ho P1 T1 N1 U1 l 0 l' 0 mident I1 Pr
      (step_zero (tp_par ref) bz Hb Ho s0 0) l1 e l2 El) as (J & Sj & Qj).
    eapply transports_eq; [exact Qj|]. apply step_transports; auto.
  - intros l0 x l1 y l2 El. destruct (prepared_app E t1 l 0 l' l0 x (l1 ++ y :: l2) Pr El) as (k & K1 & K2).
    destruct (prepared_product E ref bz t1 s0 Hb Hf Ho P1 T1 N1 U1 k (te_s x) (l1 ++ y :: l2) (te_s x) mident
      ltac:(intros z Z; apply I1, K1, Z) K2
      (step_zero (tp_par ref) bz Hb Ho s0 (te_s x)) l1 y l2 eq_refl) as (J & Sj & Qj).
    eapply transports_eq; [exact Qj|]. apply step_transports; auto.
Qed.
Print Assumptions C61_jacobians.

(** The preparation fails only where the energy loss is not defined; in particular
    not if no element scatters. *)
Theorem C61_prepares : forall E ref bz cs t, env_ok E -> bz <> 0 -> (forall p, en_bfield E p = V3 0 0 bz) ->
  tp_par ref OMEGA <> 0 -> Rabs (tp_par ref PHI0) <= 2 * PI ->
  history E bare (mkTraj ref (Some analyticalJacobian)) cs t -> tr_elems t <> [] ->
  (forall e, In e (tr_elems t) -> exists nrj, energy_term E (tr_mass t) e nrj) ->
  exists t', prepareForFitting E t = Ok t'.
Proof.
  intros E ref bz cs t [So Se] Hb Hf Ho Hp H Ne En.
  destruct (history_good _ _ _ _ _ _ So H) as (G & R & Pp).
  assert (Th := history_thin E _ ref _ cs t So (fun t c X => proj2 (proj2 X)) H).
  destruct (So (tr_elems t)) as [Pm _]. destruct (en_sortE E (tr_elems t)) as [|e0 l] eqn:Q.
  { apply Permutation_sym, Permutation_nil in Pm. contradiction. }
  destruct (g_first _ G) as [N|((i & Ii & (_ & _ & S) & _) & _)]; [contradiction|].
  rewrite R in S. set (s0 := te_s i) in *.
  assert (U : uniform (fun s => hcurve (tp_par ref) (tp_ref ref) (s - s0)) (tp_par ref OMEGA) t).
  { apply (history_uniform E _ ref _ cs t _ So Ho Hp
      ltac:(intros s1 S1 u; rewrite S in S1; injection S1 as <-; reflexivity) (fun t c X => X) H). }
  assert (In1 : forall x, In x (e0 :: l) -> In x (tr_elems t)).
  { intros x X. eapply Permutation_in; [apply Permutation_sym, Pm|exact X]. }
  destruct (prepared_exists E ref bz (set_elems t (e0 :: l)) s0 Hb Hf Ho Pp
    ltac:(intros x sf X; apply Th; auto) ltac:(discriminate) ltac:(intros x X; apply U; auto) l 0
    ltac:(intros x X; right; auto) ltac:(intros e X; apply En; apply In1; right; auto)) as [l' P].
  destruct (C35_complete E t e0 l l' Q P) as (e0' & P' & _). eauto.
Qed.
Print Assumptions C61_prepares.

(** ** Instance: one hit in a station without material *)
Example C61_instance : exists c t t',
  history ex_env bare (mkTraj ex_ref (Some analyticalJacobian)) [c] t
  /\ prepareForFitting ex_env t = Ok t' /\ length (tr_elems t') = 2%nat.
Proof.
  destruct (station_new ex_initial pionMass 1 (fun _ => true) pion_pos) as [K HK]; [cbn; lra|cbn; lra|cbn; lra|].
  destruct (HK 0) as [HM _]; [lra|lra|]. destruct (HM v3zero [1; 1] 7%Z false) as [e He].
  set (surf := ex_station 1 0 (fun _ => true)) in *. set (pm := Some analyticalJacobian).
  set (t := set_elems (ex_traj pm) [ex_initial; e]).
  assert (H : history ex_env bare (mkTraj ex_ref pm) [CMeas v3zero [1; 1] surf 7 false] t).
  { change [CMeas v3zero [1; 1] surf 7 false] with ([] ++ [CMeas v3zero [1; 1] surf 7 false]).
    apply hist_snoc with (mkTraj ex_ref pm); [constructor| |].
    - split; [apply station_wf|]. split; [|split; reflexivity]. intros s x Q. unfold surf in Q.
      change (from_state (mkTraj ex_ref pm)) with ex_ref in *.
      rewrite station_isect in Q by (cbn; lra). injection Q as _ <- _. cbn.
      replace (1 * ((1 - (0 + 0)) / 1)) with 1 by field. rewrite Rabs_R1. generalize PI2_3_2. lra.
    - apply step_meas with (Ok true); [|left; eauto].
      unfold addMeasurement, pushElement. fold (ex_traj pm). rewrite ex_ensure.
      cbn [set_elems tr_elems ex_traj mkTraj tr_mass last]. rewrite He. reflexivity. }
  destruct (C61_prepares ex_env ex_ref 1 _ t ex_env_ok ltac:(lra) ltac:(reflexivity) ex_om_ok ex_phi_ok H ltac:(discriminate)) as [t' P].
  - intros x [<-|[<-|[]]]; exists 0; left; split; auto.
    destruct (newMeasurement_spec _ _ _ _ _ _ _ _ _ He) as (s0 & xx & moved & fid & mom & el & B & _).
    exact (bu_scat _ _ _ _ _ _ _ _ _ _ _ _ _ _ _ B).
  - eexists. exists t, t'. split; [exact H|]. split; [exact P|].
    destruct (C35_prepare _ _ _ ex_env_ok P) as (e0 & l & e0' & l2 & Pm & _ & -> & _ & _ & Pr).
    apply prepared_forall2 in Pr. assert (Ln : length l = length l2) by (clear - Pr; induction Pr; cbn; auto). apply Permutation_length in Pm. cbn in Pm |- *. lia.
Qed.
