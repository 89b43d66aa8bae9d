(** Concrete cases meeting the hypotheses of the theorems of PropTraj.v and
    PropTraj2.v. *)
From Coq Require Import Reals List Bool ZArith Lra Lia Permutation Sorted.
From Coquelicot Require Import Coquelicot.
From Verif Require Import SpecConst Num Vec Helix Isect Trans Material Traj.
From Verif Require Import NumFacts SpecHelix HelixFacts PathFacts MoveFacts SpecIsect SurfFacts SurfFacts2
  SpecTraj TrajFacts TrajFacts2 TrajFacts3 TrajFacts4 TrajFacts5 TrajEx PropSurf PropTraj PropTraj2.
Import ListNotations.
Open Scope R_scope.

(** a propagator that returns the step length in one entry *)
Definition ex_prop : propagator := fun _ dw _ _ _ _ _ => Ok (fun i j => dw).

Lemma ex_phi_ok : Rabs (tp_par ex_ref PHI0) <= 2 * PI.
Proof. cbn. rewrite Rabs_R0. generalize PI_pos; lra. Qed.
Lemma ex_om_ok : tp_par ex_ref OMEGA <> 0.
Proof. cbn. lra. Qed.

(** One measurement on a disk at z = 1, then the preparation: a history within
    half a turn with two elements, both with a Jacobian. *)
Example traj_instance : exists th t e e0' e',
  let c := CMeas v3zero [1; 1] (ex_station 1 th (fun _ => true)) 7 false in
  addMeasurement ex_env (mkTraj ex_ref (Some ex_prop)) v3zero [1; 1] (ex_station 1 th (fun _ => true)) 7 false = (t, Ok true)
  /\ history ex_env (fun t c => surfaces_ok t c /\ within_half_turn t c) (mkTraj ex_ref (Some ex_prop)) [c] t
  /\ tr_elems t = [ex_initial; e] /\ te_s e = 1 /\ te_surf e <> None
  /\ lowest <= te_s e
  /\ history ex_env any_call (mkTraj ex_ref (Some ex_prop)) [c; CPrep] (set_elems t [e0'; e'])
  /\ prepareForFitting ex_env t = Ok (set_elems t [e0'; e'])
  /\ te_jac e0' = Some m5zero /\ te_jac e' <> None.
Proof.
  destruct (ex_first_hit (Some ex_prop) 1 (fun _ => true) v3zero [1; 1] 7 false ltac:(lra)) as (th & e & _ & A & N).
  set (surf := ex_station 1 th (fun _ => true)) in *.
  destruct (newMeasurement_spec _ _ _ _ _ _ _ _ _ N) as (s0 & xx & moved & fid & mom & el & B & _).
  assert (Ho : tp_par (te_tp ex_initial) OMEGA <> 0) by (cbn; lra).
  assert (Ht : tp_par (te_tp ex_initial) TANL <> 0) by (cbn; lra).
  assert (Is := bu_isect _ _ _ _ _ _ _ _ _ _ _ _ _ _ _ B). unfold surf in Is.
  rewrite station_isect in Is by auto. injection Is as _ Is Ix.
  assert (S1 : s0 = 1) by (rewrite <- Is; cbn; field).
  assert (Es : te_s e = 1) by (rewrite (bu_s _ _ _ _ _ _ _ _ _ _ _ _ _ _ _ B), S1; cbn; ring).
  set (c := CMeas v3zero [1; 1] surf 7 false). set (t := set_elems (ex_traj (Some ex_prop)) [ex_initial; e]).
  assert (Sc : te_scat e = false) by apply (bu_scat _ _ _ _ _ _ _ _ _ _ _ _ _ _ _ B).
  assert (St : step ex_env (mkTraj ex_ref (Some ex_prop)) c t) by (econstructor; [exact A|left; eauto]).
  assert (Srt : en_sortE ex_env (tr_elems t) = [ex_initial; e]).
  { apply isort_id. constructor; [constructor; [constructor|constructor]|]. constructor; [cbn; lra|constructor]. }
  assert (Tg : forall s, exists v, tr_tangentAt (set_elems t [ex_initial; e]) s = Ok v)
    by (intros s; unfold tr_tangentAt, trajectoryElementAt; cbn [set_elems tr_elems bind]; eauto).
  destruct (Tg 0) as [v1 T1]. destruct (Tg (te_s e)) as [v2 T2].
  set (dw := (te_s e - 0) / cos (atan (tp_par (te_tp e) TANL))).
  destruct (C35_complete ex_env t ex_initial [e] [setJacobian e (fun i j => dw)] Srt) as (e0' & P & _ & J0).
  { apply prep_cons with (J := fun i j => dw); [repeat split|reflexivity| |constructor].
    exists ex_prop, 0, v1, v2. split; auto. split; [left; auto|]. split; auto. }
  exists th, t, e, e0', (setJacobian e (fun i j => dw)). cbv zeta. fold surf. fold c. split; [exact A|].
  split.
  { change [c] with ([] ++ [c]). apply hist_snoc with (t := mkTraj ex_ref (Some ex_prop)); [constructor| |exact St].
    split; [apply station_wf|]. intros s x Q. unfold surf in Q.
    change (from_state (mkTraj ex_ref (Some ex_prop))) with ex_ref in *.
    rewrite station_isect in Q by (cbn; lra). injection Q as _ <- _. cbn.
    replace (1 * ((1 - (0 + 0)) / 1)) with 1 by field. rewrite Rabs_R1. generalize PI2_3_2. lra. }
  split; [reflexivity|]. split; [auto|].
  split; [rewrite (bu_surf _ _ _ _ _ _ _ _ _ _ _ _ _ _ _ B); discriminate|].
  split. { rewrite Es. unfold lowest. assert (0 <= 10 ^ 99) by (apply pow_le; lra). lra. }
  split.
  { change [c; CPrep] with (([] ++ [c]) ++ [CPrep]). apply hist_snoc with (t := t); [|exact I|constructor; exact P].
    apply hist_snoc with (t := mkTraj ex_ref (Some ex_prop)); [constructor|exact I|exact St]. }
  split; [exact P|]. split; [exact J0|discriminate].
Qed.

(** C32: an element list with a gap, looked up between, before and below *)
Example C32_instance : forall e, te_s e = 1 ->
  let t := set_elems (ex_traj None) [ex_initial; e] in
  ordered (tr_elems t) /\ trajectoryElementAt t (1 / 2) = Ok ex_initial
  /\ trajectoryElementAt t 1 = Ok e /\ trajectoryElementAt t (-1) = Ok ex_initial
  /\ trajectoryElementAt t (lowest - 1) = Ok e.
Proof.
  intros e Es t. change lowest with bigNegative. assert (B : bigNegative <= -1).
  { unfold bigNegative. apply Ropp_le_contravar. apply pow_R1_Rle. lra. }
  unfold trajectoryElementAt, t. cbn [set_elems tr_elems elementAt_loop]. rewrite Es. split.
  { constructor; [constructor; [constructor|constructor]|]. constructor; [cbn; lra|constructor]. }
  destruct (Rle_dec bigNegative (1 / 2)); [|lra]. destruct (Rlt_dec (1 / 2) 1); [|lra].
  destruct (Rle_dec bigNegative 1); [|lra]. destruct (Rlt_dec 1 1); [lra|].
  destruct (Rle_dec bigNegative (-1)); [|lra]. destruct (Rlt_dec (-1) 1); [|lra].
  destruct (Rle_dec bigNegative (bigNegative - 1)); [lra|]. auto.
Qed.

(** C34, C56: a reference point off the origin, chosen such that the nearest
    point of the track is at pi/2 and the origin two radii from the centre: the
    first element gets the path length pi. *)
Example C34_instance :
  let ref := TP m5zero (mk5 1 1 0 0 0) (V3 (-2) 1 0) in
  calculateSfromXY 0 0 (tp_par ref) (tp_ref ref) = Ok PI
  /\ (forall f, is_helix (tp_par ref) (tp_ref ref) f ->
      forall u, dist_xy (f (PI / 2)) v3zero <= dist_xy (f u) v3zero).
Proof.
  intros ref.
  assert (Ho : tp_par ref OMEGA <> 0) by (cbn; lra).
  assert (Hp : Rabs (tp_par ref PHI0) <= 2 * PI) by (cbn; rewrite Rabs_R0; generalize PI_pos; lra).
  assert (X : forall f, is_helix (tp_par ref) (tp_ref ref) f ->
     calculateSfromXY 0 0 (tp_par ref) (tp_ref ref) = Ok (2 * (PI / 2))
     /\ forall u, dist_xy (f (PI / 2)) v3zero <= dist_xy (f u) v3zero).
  { intros f Hf. apply C34_first_length; auto.
    - change (tp_par ref OMEGA) with 1. rewrite Rmult_1_l, Rabs_pos_eq; generalize PI_pos; lra.
    - lra.
    - rewrite (helix_is_hcurve _ _ f Ho Hf). unfold hcircle, hcurve. cbn.
      rewrite sin_0. replace (0 - PI / 2 * 1) with (- (PI / 2)) by ring. rewrite sin_neg, sin_PI2. field.
    - rewrite (helix_is_hcurve _ _ f Ho Hf). unfold hcircle, hcurve. cbn.
      rewrite cos_0. replace (0 - PI / 2 * 1) with (- (PI / 2)) by ring. rewrite cos_neg, cos_PI2. field. }
  split.
  - destruct (X _ (hcurve_helix _ _ Ho)) as [-> _]. f_equal. field.
  - intros f Hf. apply X. auto.
Qed.

(** C35_repeat: the sort of the examples leaves ordered lists alone *)
Example C35_repeat_instance : forall l, ordered l -> en_sortE ex_env l = l.
Proof. intros l. apply isort_id. Qed.

(** C37: a disk behind the start is rejected, the initial element stays *)
Example C37_instance : forall prop th,
  addMeasurement ex_env (mkTraj ex_ref prop) v3zero [1; 1] (ex_station (-1) th (fun _ => true)) 7 false
  = (set_elems (mkTraj ex_ref prop) [ex_initial], Ok false).
Proof.
  intros prop th. unfold addMeasurement, pushElement. change (mkTraj ex_ref prop) with (ex_traj prop).
  rewrite ex_ensure. cbn [set_elems tr_elems last]. unfold newMeasurement. cbv zeta.
  rewrite station_isect by (cbn; lra). cbn [te_tp ex_initial ex_ref tp_par tp_ref].
  assert (Q : mode_ok 1 ((-1 - (vz v3zero + mk5 1 1 0 0 0 Z0)) / mk5 1 1 0 0 0 TANL) = false).
  { unfold mode_ok. cbn. destruct (Rlt_dec 0 (1 * ((-1 - (0 + 0)) / 1))); auto. lra. }
  rewrite Q. cbn [andb bind]. reflexivity.
Qed.

(** C38: a disk in front is found *)
Example C38_instance : forall prop th,
  found (mkTraj ex_ref prop) (ex_station 1 th (fun _ => true)) 1.
Proof.
  intros prop th. unfold found. cbn [mkTraj tr_ref]. split.
  - rewrite station_isect by (cbn; lra). eexists.
    assert (Q : (1 - (vz (tp_ref ex_ref) + tp_par ex_ref Z0)) / tp_par ex_ref TANL = 1) by (cbn; field).
    rewrite Q. assert (M : mode_ok 1 1 = true) by (unfold mode_ok; destruct (Rlt_dec 0 (1 * 1)); auto; lra).
    rewrite M. reflexivity.
  - rewrite radius_eq by (cbn; lra). change (tp_par ex_ref OMEGA) with 1.
    replace (1 / 1) with 1 by field. rewrite Rabs_R1. generalize PI2_3_2. lra.
Qed.

(** C39, C41: a one-dimensional scattering measurement that is accepted *)
Example C41_instance : forall prop, exists surf t,
  addMeasurement ex_env (mkTraj ex_ref prop) v3zero [1] surf 7 true = (t, Ok true)
  /\ tp_par (from_state (mkTraj ex_ref prop)) OMEGA <> 0.
Proof.
  intros prop. destruct (ex_first_hit prop 1 (fun _ => true) v3zero [1] 7 true ltac:(lra)) as (th & e & _ & A & N).
  eexists. eexists. split; [exact A|]. cbn. lra.
Qed.
