(** Additions to a trajectory, seen from the calls. *)
From Coq Require Import Reals List Bool ZArith Lra Lia Permutation Sorted.
From Coquelicot Require Import Coquelicot.
From Verif Require Import Num Vec Helix Isect Trans Material Traj.
From Verif Require Import NumFacts SpecHelix HelixFacts PathFacts MoveFacts SpecIsect SurfFacts SurfFacts2 SpecTraj TrajFacts TrajFacts2 TrajFacts3 TrajFacts4.
Import ListNotations.
Open Scope R_scope.

Lemma ensure_with t t1 : ensureInitial t = Ok t1 -> with_initial t t1.
Proof.
  intros H. destruct (ensure_spec _ _ H) as [[A ->]|(A & s & S & ->)]; [left; auto|right].
  split; auto. eexists. split; [reflexivity|]. cbn. repeat split; auto.
Qed.

Lemma ensure_from t t1 e0 l : ensureInitial t = Ok t1 -> tr_elems t1 = e0 :: l ->
  te_tp (last l e0) = from_state t /\ from_s t (te_s (last l e0)).
Proof.
  intros H Q. destruct (ensure_spec _ _ H) as [[A ->]|(A & s & S & ->)].
  - unfold from_state, from_s. rewrite Q. destruct (rev_last l e0) as [l' ->]. auto.
  - cbn in Q. injection Q as <- <-. unfold from_state, from_s. rewrite A. cbn. auto.
Qed.

Lemma push_ok t new t' b : pushElement t new = (t', Ok b) ->
  exists t1 las, with_initial t t1 /\ te_tp las = from_state t /\ from_s t (te_s las)
    /\ ((b = false /\ t' = t1 /\ new las = Ok None)
        \/ (b = true /\ exists e, extended t1 t' e /\ new las = Ok (Some e))).
Proof.
  intros H. destruct (push_spec _ _ _ _ H) as [(A & _)|(t1 & e0 & l & A & B & C)]; [left; eauto|discriminate|].
  exists t1, (last l e0). split; [apply ensure_with; auto|].
  destruct (ensure_from _ _ _ _ A B) as [F1 F2]. split; auto. split; auto.
  destruct C as [(C1 & C2 & C3)|[(C1 & _)|(e & C1 & C2 & C3)]].
  - left. injection C1 as ->. auto.
  - discriminate.
  - right. injection C1 as ->. split; auto. exists e. auto.
Qed.

(** all outcomes: only the element list can change *)
Lemma push_frame t new t' r : pushElement t new = (t', r) ->
  tr_ref t' = tr_ref t /\ tr_prop t' = tr_prop t /\ tr_mass t' = tr_mass t /\ tr_isect t' = tr_isect t.
Proof.
  unfold pushElement. intros H. destruct (ensureInitial t) as [t1| | | |] eqn:E0;
    try (injection H as <- <-; auto; fail).
  destruct (ensure_last _ _ E0) as (e0 & l & Q & _ & A1 & A2 & A3 & A4).
  rewrite Q in H. destruct (new (last l e0)) as [[e|]| | | |]; injection H as <- <-; cbn; auto.
Qed.

Lemma built_direction E mass las surf cb sc meas elUV e s0 xx moved fid mom el :
  built E mass las surf cb sc meas elUV e s0 xx moved fid mom el ->
  tp_par (te_tp las) OMEGA <> 0 -> Rabs (tp_par (te_tp las) PHI0) <= 2 * PI -> wf_surface surf ->
  exists k : Z, tp_par (te_tp e) PHI0
    = tp_par (te_tp las) PHI0 - tp_par (te_tp las) OMEGA * s0 + 2 * IZR k * PI.
Proof.
  intros B H Hp W. destruct (built_facts _ _ _ _ _ _ _ _ _ _ _ _ _ _ _ B H Hp W)
    as (_ & X & _ & Sp & _ & _ & _ & _ & _ & Ph & _).
  rewrite X in Sp. destruct (moved_on_track _ _ _ _ H Sp) as (_ & (k & K) & _).
  destruct (ms_fid _ _ _ _ Sp) as [k' K']. exists (k + k')%Z. rewrite Ph, K', K, plus_IZR. ring.
Qed.

(** ** the second crossing of a disk-like surface by its own state *)
Lemma disk_self surf e : isZCylinder (sf_type surf) = false -> isZPlane (sf_type surf) = false ->
  isZDisk (sf_type surf) = true -> tp_par (te_tp e) OMEGA <> 0 -> tp_par (te_tp e) TANL <> 0 ->
  tp_par (te_tp e) D0 = 0 -> tp_par (te_tp e) Z0 = 0 -> vz (tp_ref (te_tp e)) = vz (sf_origin surf) ->
  intersectWithSurface surf (tp_par (te_tp e)) (tp_ref (te_tp e)) (OVal 0 v3zero) 0 true
  = Ok (sf_insideBounds surf (tp_ref (te_tp e)), OVal 0 (tp_ref (te_tp e))).
Proof.
  intros A B C Ho Ht Hd Hz V. unfold intersectWithSurface. cbv zeta. rewrite A, B, C.
  unfold intersectWithZDisk. cbv zeta. unfold calculateZ0, calculateTanLambda.
  rewrite Hz, V. replace (vz (sf_origin surf) - (vz (sf_origin surf) + 0)) with 0 by ring.
  rewrite rdiv_ok by auto. cbn [bind]. unfold Rdiv. rewrite Rmult_0_l.
  assert (Q := XYZ_hcurve 0 (tp_par (te_tp e)) (tp_ref (te_tp e)) Ho).
  assert (Hh := here_own e Hd Hz). unfold here in Hh. rewrite Hh in Q.
  destruct (tp_ref (te_tp e)) as [x y z]. injection Q as Q1 Q2 _. cbn [vz] in V.
  rewrite Q1, Q2, <- V.
  unfold mode_ok, bounds. rewrite Rmult_0_l. destruct (Rlt_dec 0 0); [lra|]. cbn.
  reflexivity.
Qed.
