(** Jacobians of the preparation, with the analytical propagator. *)
From Coq Require Import Reals List Bool ZArith Lra Lia Permutation Sorted.
From Coquelicot Require Import Coquelicot.
From Verif Require Import Num Vec Helix Isect Trans Material Propag Traj.
From Verif Require Import NumFacts SpecHelix HelixFacts SpecMat SpecTrans SpecPropag JacFacts PropagFacts PropagFacts2 FamilyFacts
  SpecTraj SpecSmooth TrajFacts TrajFacts2 TrajFacts3 SmoothFacts SpecStep.
Import ListNotations.
Open Scope R_scope.

(** two elements on the same curve have the same dip and directions *)
Lemma same_curve a b : tp_par (te_tp a) OMEGA <> 0 -> tp_par (te_tp b) OMEGA <> 0 ->
  (forall s, curve_of a s = curve_of b s) ->
  tp_par (te_tp a) TANL = tp_par (te_tp b) TANL /\ forall s, tangent_of a s = tangent_of b s.
Proof.
  intros Na Nb H.
  assert (U : forall s, cos (angle_of a s) = cos (angle_of b s) /\ sin (angle_of a s) = sin (angle_of b s)
     /\ tp_par (te_tp a) TANL = tp_par (te_tp b) TANL).
  { intros s. destruct (curve_derive a Na s) as (A1 & A2 & A3). destruct (curve_derive b Nb s) as (B1 & B2 & B3).
    assert (K : forall (p : vec3 -> R) d d', is_derive (fun u => p (curve_of a u)) s d ->
       is_derive (fun u => p (curve_of b u)) s d' -> d = d').
    { intros p d d' D D'. apply is_derive_unique in D. apply is_derive_unique in D'. rewrite <- D, <- D'.
      apply Derive_ext. intros u. rewrite H. reflexivity. }
    split; [|split]; eapply K; eauto. }
  split; [apply (U 0)|]. intros s. rewrite !tangent_angle. destruct (U s) as (-> & -> & ->). reflexivity.
Qed.

Lemma elementAt_in s : forall l prevS e, In (elementAt_loop s prevS e l) (e :: l).
Proof.
  induction l as [|a l IH]; intros p e; cbn [elementAt_loop]; [left; auto|].
  destruct (Rle_dec p s); [destruct (Rlt_dec s (te_s a)); [left; auto|]|]; right; apply IH.
Qed.

(** at any path length the trajectory answers with one of its elements *)
Lemma answers t s : tr_elems t <> [] -> exists e, In e (tr_elems t)
  /\ tr_tangentAt t s = Ok (tangent_of e s)
  /\ (tp_par (te_tp e) OMEGA <> 0 -> tr_pointAt t s = Ok (curve_of e s)).
Proof.
  intros Ne. unfold tr_pointAt, tr_tangentAt, trajectoryElementAt. destruct (tr_elems t) as [|e l]; [contradiction|].
  cbn [bind]. eexists. split; [apply elementAt_in|]. split; [reflexivity|].
  intros N. rewrite pointAt_hcurve; auto.
Qed.

(** the surfaces of a history *)
Definition all_thin (t : traj) : Prop := forall e surf, In e (tr_elems t) -> te_surf e = Some surf -> thin surf.

Lemma push_thin E t new t' r : pushElement t new = (t', r) -> (exists b, r = Ok b) \/ r = Throw ->
  (forall las e, new las = Ok (Some e) -> exists mass surf cb sc meas elUV s0 xx moved fid mom el,
     built E mass las surf cb sc meas elUV e s0 xx moved fid mom el /\ thin surf) ->
  all_thin t -> all_thin t'.
Proof.
  intros A W N Th. destruct (push_spec _ _ _ _ A W) as [(_ & -> & _)|(t1 & e0 & l & En & El & C)]; auto.
  assert (T1 : all_thin t1).
  { destruct (ensure_spec _ _ En) as [(_ & ->)|(_ & s & S & ->)]; auto.
    intros e surf [<-|[]]. discriminate. }
  destruct C as [(-> & -> & _)|[(-> & -> & _)|(e & -> & C & ->)]]; auto.
  destruct (N _ _ C) as (mass & surf & cb & sc & meas & elUV & s0 & xx & moved & fid & mom & el & B & Th1).
  intros x sf. cbn [set_elems tr_elems]. rewrite in_app_iff. intros [I|[<-|[]]]; [apply T1; auto|].
  rewrite (bu_surf _ _ _ _ _ _ _ _ _ _ _ _ _ _ _ B). intros Q. injection Q as <-. auto.
Qed.

Lemma history_thin E (ok : traj -> call -> Prop) ref prop cs t : sorts te_s (en_sortE E) ->
  (forall t c, ok t c -> match c with CMeas _ _ surf _ _ | CScat surf => thin surf | _ => True end) ->
  history E ok (mkTraj ref prop) cs t -> all_thin t.
Proof.
  intros S Hok Hi. induction Hi as [|cs t k t' Hi IH O Sp]; [intros e s []|].
  apply Hok in O. clear Hok.
  destruct Sp as [position precision surf id sc t' r A W|surf t' r A W|t' A|l t' A|m].
  - apply (push_thin E t _ t' r A W); auto. intros las e N.
    destruct (newMeasurement_spec _ _ _ _ _ _ _ _ _ N) as (s0 & xx & moved & fid & mom & el & B & _).
    do 12 eexists. split; [exact B|]. auto.
  - apply (push_thin E t _ t' r A W); auto. intros las e N.
    destruct (newScatterer_spec _ _ _ _ _ N) as (s0 & xx & moved & fid & mom & el & B & _).
    do 12 eexists. split; [exact B|]. auto.
  - destruct (prepare_elems _ _ _ S A) as (l & Pm & _ & F & _). intros e sf I Q.
    destruct (forall2_in_r _ _ _ _ F I) as (x & X1 & (_ & _ & Es & _)).
    apply (IH x sf); [eapply Permutation_in; [apply Permutation_sym; eauto|auto]|congruence].
  - unfold getIntersectionsWithSurfaces in A. cbv zeta in A. dres A. injection A as <-. exact IH.
  - exact IH.
Qed.

Lemma thin_term E mass e nrj : (forall surf, te_surf e = Some surf -> thin surf) -> energy_term E mass e nrj -> nrj = 0.
Proof.
  intros Th [[_ N]|(_ & surf & el & Q & C & N & ->)]; auto. destruct (Th surf Q) as [T1 T2].
  assert (Z : el_deltaE el = 0).
  { unfold computeEnergyLoss_tp in C. cbv zeta in C. dres C. destruct a as [[|] o]; [|discriminate].
    destruct o as [s xx|]; [|discriminate]. dres C. dres C. injection C as <-. eapply thin_loss; eauto. }
  rewrite Z. unfold Rdiv. ring.
Qed.

Lemma tangent_dir s hp : calculateTangent s hp = dirvec (atan (hp TANL)) (hp PHI0 - hp OMEGA * s).
Proof. unfold calculateTangent, dirvec. cbv zeta. unfold calculateCurvature, calculateOmega, calculatePhi0, calculateLambda, calculateTanLambda. f_equal; ring. Qed.

Lemma field_nz bz : bz <> 0 -> V3 0 0 bz <> v3zero.
Proof. intros N Q. apply N. apply (f_equal vz) in Q. exact Q. Qed.

Lemma qop_nz hp bz : bz <> 0 -> hp OMEGA <> 0 -> calculateQoverP hp bz <> 0.
Proof.
  intros Hb Ho. unfold calculateQoverP. destruct Req_EM_T; [contradiction|].
  unfold calculateLambda, calculateCurvature, calculateTanLambda, calculateOmega. assert (C := cos_atan_pos (hp TANL)).
  assert (0 < convertBr2P_cm) by (unfold convertBr2P_cm; lra).
  unfold Rdiv. apply Rmult_integral_contrapositive_currified.
  - apply Rmult_integral_contrapositive_currified; lra.
  - apply Rinv_neq_0_compat. apply Rmult_integral_contrapositive_currified; lra.
Qed.

Section Step.
Variables (hp : vec5) (rp : vec3) (bz : R).
Hypothesis Hb : bz <> 0.
Hypothesis Ho : hp OMEGA <> 0.
Let c := cos (atan (hp TANL)).
Let q := calculateQoverP hp bz.

Lemma step_motion a : motion (V3 0 0 bz) q (hcurve hp rp a) (calculateTangent a hp)
   (fun u => hcurve hp rp (a + u * c)) (fun u => calculateTangent (a + u * c) hp).
Proof.
  assert (Pc : 0 < c) by apply cos_atan_pos.
  assert (H : is_helix hp rp (hcurve hp rp)).
  { destruct (proj1 (pointAt_is_helix hp rp) Ho) as (g & Hg & _). assert (E := helix_is_hcurve hp rp g Ho Hg).
    destruct Hg as [G1 G2 G3 G4]. split; [rewrite <- E; auto| | |]; intros s.
    - eapply is_derive_ext; [|apply G2]. intros t. cbv beta. rewrite E. reflexivity.
    - eapply is_derive_ext; [|apply G3]. intros t. cbv beta. rewrite E. reflexivity.
    - eapply is_derive_ext; [|apply G4]. intros t. cbv beta. rewrite E. reflexivity. }
  assert (M := motion_shift _ _ _ _ _ _ (a / c) (helix_motion hp rp (hcurve hp rp) bz Hb H)). cbv beta in M. fold c in M.
  replace (a / c * c) with a in M by (field; lra).
  assert (E : forall u, (a / c + u) * c = a + u * c) by (intros; field; lra).
  destruct M as [M1 M2 M3 M4]. split.
  - rewrite Rmult_0_l, Rplus_0_r. reflexivity.
  - rewrite Rmult_0_l, Rplus_0_r. reflexivity.
  - intros s. specialize (M3 s). rewrite E in M3. eapply vderive_ext_loc; [|exact M3].
    apply filter_forall. intros x. rewrite E. reflexivity.
  - intros s. specialize (M4 s). rewrite E in M4. eapply vderive_ext_loc; [|exact M4].
    apply filter_forall. intros x. rewrite E. reflexivity.
Qed.

Lemma tangent_trans s : 0 < vtrans (calculateTangent s hp).
Proof.
  rewrite tangent_dir. unfold vtrans. rewrite trans_dirvec by apply cos_atan_pos. apply cos_atan_pos.
Qed.

Lemma tangent_unit s : vdot (calculateTangent s hp) (calculateTangent s hp) = 1.
Proof.
  rewrite tangent_dir. generalize (atan (hp TANL)) (hp PHI0 - hp OMEGA * s). intros l f.
  assert (SC := sin2_cos2 l). assert (SF := sin2_cos2 f). unfold Rsqr in SC, SF.
  unfold vdot, dirvec; cbn [vx vy vz].
  replace (cos l * cos f * (cos l * cos f) + cos l * sin f * (cos l * sin f) + sin l * sin l)
      with (cos l * cos l * (sin f * sin f + cos f * cos f) + sin l * sin l) by ring. rewrite SF. lra.
Qed.

(** the Jacobian computed for the step from [a] to [b] *)
Lemma step_transports s0 a b J :
  analyticalJacobian m5zero ((b - a) / c) q (calculateTangent (a - s0) hp) (calculateTangent (b - s0) hp) (V3 0 0 bz) 0 = Ok J ->
  transports bz hp (fun s => hcurve hp rp (s - s0)) a b J.
Proof.
  intros HJ w. cbv zeta. fold c q. assert (Pc : 0 < c) by apply cos_atan_pos.
  assert (M := step_motion (a - s0)). rewrite tangent_dir in M.
  set (l := atan (hp TANL)) in *. set (f := hp PHI0 - hp OMEGA * (a - s0)) in *.
  assert (Et : calculateTangent (a - s0 + (b - a) / c * c) hp = calculateTangent (b - s0) hp) by (f_equal; field; lra).
  assert (Hq : q <> 0) by (apply qop_nz; auto).
  destruct (family_exists (V3 0 0 bz) q ((b - a) / c) _ l f w _ _ (field_nz bz Hb) Hq M) as (X & T & sg & la & ph & F & EX & ET).
  { cbv beta. apply tangent_trans. }
  exists l, f, X, T, sg, la, ph. split; [apply cos_atan_pos|]. split; [exact F|]. split.
  - intros s. rewrite EX. f_equal. field. lra.
  - destruct (jacobian_is_derivative _ _ _ _ _ _ _ _ _ _ _ _ (field_nz bz Hb) Hq (cos_atan_pos (hp TANL)) F) as (J' & EJ & D).
    rewrite ET, Et in EJ. rewrite tangent_dir in HJ. fold l f in HJ. fold l in EJ. rewrite HJ in EJ. injection EJ as <-. exact D.
Qed.

Lemma step_compose s0 x y z Jxy Jyz :
  analyticalJacobian m5zero ((y - x) / c) q (calculateTangent (x - s0) hp) (calculateTangent (y - s0) hp) (V3 0 0 bz) 0 = Ok Jxy ->
  analyticalJacobian m5zero ((z - y) / c) q (calculateTangent (y - s0) hp) (calculateTangent (z - s0) hp) (V3 0 0 bz) 0 = Ok Jyz ->
  exists J, analyticalJacobian m5zero ((z - x) / c) q (calculateTangent (x - s0) hp) (calculateTangent (z - s0) hp) (V3 0 0 bz) 0 = Ok J
    /\ m5eq J (m5mul Jyz Jxy).
Proof.
  intros H1 H2. assert (Pc : 0 < c) by apply cos_atan_pos.
  assert (Hq : q <> 0) by (apply qop_nz; auto).
  destruct (jac_composition (V3 0 0 bz) q _ _ _ _ ((y - x) / c) ((z - y) / c) (field_nz bz Hb) Hq (step_motion (x - s0)))
    as (J1 & J2 & J & E1 & E2 & E & C); try apply tangent_trans; try apply tangent_unit.
  replace (x - s0 + (y - x) / c * c) with (y - s0) in * by (field; lra).
  replace (x - s0 + ((y - x) / c + (z - y) / c) * c) with (z - s0) in * by (field; lra).
  replace ((y - x) / c + (z - y) / c) with ((z - x) / c) in * by (field; lra).
  rewrite H1 in E1. rewrite H2 in E2. injection E1 as <-. injection E2 as <-. eauto.
Qed.

Lemma step_zero s0 a : exists J,
  analyticalJacobian m5zero ((a - a) / c) q (calculateTangent (a - s0) hp) (calculateTangent (a - s0) hp) (V3 0 0 bz) 0 = Ok J
  /\ m5eq J mident.
Proof.
  assert (Pc : 0 < c) by apply cos_atan_pos. replace ((a - a) / c) with 0 by (field; lra).
  apply jac_identity; [apply field_nz; auto|apply qop_nz; auto|apply tangent_unit|apply tangent_trans].
Qed.
End Step.

Lemma transports_eq bz hp f a b J J' : m5eq J J' -> transports bz hp f a b J -> transports bz hp f a b J'.
Proof.
  intros Q H w. destruct (H w) as (l & ph0 & X & T & sg & la & ph & A & B & C & D).
  exists l, ph0, X, T, sg, la, ph. split; auto. split; auto. split; auto. intros i.
  replace (m5mulv J' w i) with (m5mulv J w i); auto. unfold m5mulv, sum5. rewrite !Q. reflexivity.
Qed.

Lemma transports_ext bz hp f g a b J : (forall s, f s = g s) -> transports bz hp f a b J -> transports bz hp g a b J.
Proof.
  intros Q H w. destruct (H w) as (l & ph0 & X & T & sg & la & ph & A & B & C & D).
  exists l, ph0, X, T, sg, la, ph. rewrite <- Q. split; auto. split; auto. split; auto. intros s. rewrite <- Q. auto.
Qed.
