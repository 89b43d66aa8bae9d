(** C70: a setup that is turned about the field axis gives the turned fit. *)
From Coq Require Import Reals List Bool ZArith Lra Lia.
From Verif Require Import SpecConst Num Vec Helix Isect Trans Propag Material Traj Fit.
From Verif Require Import SpecIsect SpecSym PropSym SpecTraj SpecTurn TurnFacts TurnFacts2 TurnFacts3.
Import ListNotations.
Open Scope R_scope.

(** Any sequence of calls on a trajectory: every call has the same outcome, and
    the trajectory is the turned one, with the same path lengths, residuals,
    precisions, projections and Jacobians. *)
Theorem C70_run : forall g E E' tp tp' pm pm' cs cs',
  keeps_axis g -> turned_env g E E' -> turned_tp g tp tp' ->
  start_ok tp -> Rabs (tp_par tp' PHI0) <= 2 * PI ->
  both (turned_prop g) pm pm' -> Forall2 (turned_call g) cs cs' ->
  fst (run E' (mkTraj tp' pm') cs') = fst (run E (mkTraj tp pm) cs)
  /\ both (turned_traj g 0) (snd (run E (mkTraj tp pm) cs)) (snd (run E' (mkTraj tp' pm') cs')).
Proof.
  intros g E E' tp tp' pm pm' cs cs' K EV T S P B C. assert (F : m_flip g = false) by apply K.
  assert (V : inv g 0 (mkTraj tp pm) (mkTraj tp' pm')).
  { apply inv_start; auto. destruct S as (N & P0 & O).
    rewrite (SfromXY_origin g F tp tp' K) by (auto; split; auto).
    apply alike_refl. intros; ring. }
  destruct (run_turn g F 0 E E' cs cs' EV C (or_introl eq_refl) _ _ V) as [A Q]. split; auto.
  destruct (snd (run E (mkTraj tp pm) cs)), (snd (run E' (mkTraj tp' pm') cs')); cbn [both] in *; auto.
  apply inv_turned; auto.
Qed.
Print Assumptions C70_run.

(** Calls before the preparation also commute with any other shift, except that
    all path lengths change by the path length of the coordinate origin. *)
Theorem C70_shift : forall g E E' tp tp' pm pm' cs cs' s0 s1,
  m_flip g = false -> turned_env g E E' -> turned_tp g tp tp' ->
  start_ok tp -> Rabs (tp_par tp' PHI0) <= 2 * PI ->
  calculateSfromXY 0 0 (tp_par tp) (tp_ref tp) = Ok s0 ->
  calculateSfromXY 0 0 (tp_par tp') (tp_ref tp') = Ok s1 ->
  both (turned_prop g) pm pm' -> Forall2 (turned_call g) cs cs' -> Forall no_preparation cs ->
  fst (run E' (mkTraj tp' pm') cs') = fst (run E (mkTraj tp pm) cs)
  /\ both (turned_traj g (s1 - s0)) (snd (run E (mkTraj tp pm) cs)) (snd (run E' (mkTraj tp' pm') cs')).
Proof.
  intros g E E' tp tp' pm pm' cs cs' s0 s1 F EV T S P E0 E1 B C NP.
  assert (V : inv g (s1 - s0) (mkTraj tp pm) (mkTraj tp' pm')).
  { apply inv_start; auto. rewrite E0, E1. cbn [alike]. ring. }
  destruct (run_turn g F _ E E' cs cs' EV C (or_intror NP) _ _ V) as [A Q]. split; auto.
  destruct (snd (run E (mkTraj tp pm) cs)), (snd (run E' (mkTraj tp' pm') cs')); cbn [both] in *; auto.
  apply inv_turned; auto.
Qed.
Print Assumptions C70_shift.

(** [run] is the history relation of the other theorems. *)
Lemma exec_step E t c t' : (exists r, exec E t c = (r, Some t')) <-> step E t c t'.
Proof.
  split.
  - intros [r H]. destruct c; cbn [exec] in H; unfold added, keep in H.
    + destruct (addMeasurement E t position precision surf id isScatterer) as [t1 r1] eqn:Q. cbn [fst snd] in H.
      destruct r1; try discriminate; injection H as <- <-; eapply step_meas; eauto.
    + destruct (addScatterer E t surf) as [t1 r1] eqn:Q. cbn [fst snd] in H.
      destruct r1; try discriminate; injection H as <- <-; eapply step_scat; eauto.
    + destruct (prepareForFitting E t) eqn:Q; try discriminate. injection H as <- <-. constructor; auto.
    + destruct (getIntersectionsWithSurfaces E t surfaces) eqn:Q; try discriminate. injection H as <- <-. constructor; auto.
    + injection H as <- <-. constructor.
  - intros H. destruct H as [p pr S id sc t' r Q [[b ->]| ->]|S t' r Q [[b ->]| ->]|t' Q|l t' Q|m];
      cbn [exec]; unfold added, keep; rewrite ?Q; cbn [fst snd]; eauto.
Qed.

Lemma run_snoc E c : forall cs t,
  snd (run E t (cs ++ [c]))
  = match snd (run E t cs) with Some t1 => snd (exec E t1 c) | None => None end.
Proof.
  induction cs as [|d cs IH]; intros t; cbn [run app].
  - destruct (exec E t c) as [r [t1|]] eqn:Q; cbn [snd]; rewrite ?Q; auto.
  - destruct (exec E t d) as [r [t1|]]; cbn [snd]; auto.
Qed.

Theorem C70_run_is_history : forall E t0 cs t,
  snd (run E t0 cs) = Some t <-> history E any_call t0 cs t.
Proof.
  intros E t0 cs. induction cs as [|c cs IH] using rev_ind; intros t.
  - cbn. split; [intros [= <-]; constructor|]. intros H. inversion H as [|cs t1 c t2 H1 H2 H3 Q]; auto.
    destruct cs; discriminate.
  - rewrite run_snoc. split.
    + destruct (snd (run E t0 cs)) as [t1|] eqn:Q; [|discriminate]. intros H.
      apply hist_snoc with t1; [apply IH; auto|exact I|]. apply exec_step.
      destruct (exec E t1 c) as [r o]. cbn in H. subst. eauto.
    + intros H. inversion H as [Q|cs' t1 c' t2 H1 H2 H3 Q].
      { destruct cs; discriminate. }
      apply app_inj_tail in Q. destruct Q as [-> ->]. rewrite (proj2 (IH t1) H1).
      destruct (proj2 (exec_step _ _ _ _) H3) as [r ->]. reflexivity.
Qed.
Print Assumptions C70_run_is_history.

(** Points and tangents along the trajectory. *)
Theorem C70_queries : forall g t t' s, keeps_axis g -> turned_traj g 0 t t' ->
  tr_pointAt t' s = rmap (map_point g) (tr_pointAt t s)
  /\ tr_tangentAt t' s = rmap (map_dir g) (tr_tangentAt t s).
Proof.
  intros g t t' s K V. split; [apply pointAt_turn; auto; apply K|apply tangentAt_turn; auto].
Qed.
Print Assumptions C70_queries.

(** The propagators of the library do not single out a direction. *)
Theorem C70_propagators : forall g, m_flip g = false ->
  turned_prop g analyticalJacobian analyticalJacobian
  /\ turned_prop g (fun jac dw _ ts te B _ => Ok (simplifiedJacobian jac dw ts te B))
                   (fun jac dw _ ts te B _ => Ok (simplifiedJacobian jac dw ts te B)).
Proof. intros g F. split; [apply analytical_turn; auto|apply simplified_turn]. Qed.
Print Assumptions C70_propagators.

(** The fitter is given the same points, so the fit has the same outcome. *)
Theorem C70_fit : forall g G w w' st st' tid,
  m_flip g = false -> turned_world g w w' -> turned_state g st st' ->
  snd (fit G w' st' tid) = snd (fit G w st tid)
  /\ turned_state g (fst (fit G w st tid)) (fst (fit G w' st' tid)).
Proof. intros. apply fit_turn; auto. Qed.
Print Assumptions C70_fit.

(** Results: same outcome, same quality, turned parameters, same covariance. *)
Theorem C70_results : forall g E E' G w w' st st' label,
  m_flip g = false -> turned_env g E E' -> turned_world g w w' -> turned_state g st st' ->
  snd (getResults E' G w' st' label) = snd (getResults E G w st label)
  /\ turned_state g (fst (getResults E G w st label)) (fst (getResults E' G w' st' label)).
Proof. intros. apply results_turn; auto. Qed.
Print Assumptions C70_results.

(** All together: calls, fit with a new interface, query. *)
Theorem C70_turned_fit : forall g E E' tp tp' pm pm' cs cs' G label rs t,
  keeps_axis g -> turned_env g E E' -> turned_tp g tp tp' ->
  start_ok tp -> Rabs (tp_par tp' PHI0) <= 2 * PI ->
  both (turned_prop g) pm pm' -> Forall2 (turned_call g) cs cs' ->
  run E (mkTraj tp pm) cs = (rs, Some t) ->
  exists t', run E' (mkTraj tp' pm') cs' = (rs, Some t') /\ turned_traj g 0 t t'
  /\ let w := fun _ : nat => Some t in
     let w' := fun _ : nat => Some t' in
     let f := fit G w fs_start 0 in
     let f' := fit G w' fs_start 0 in
     let q := getResults E G w (fst f) label in
     let q' := getResults E' G w' (fst f') label in
     snd f' = snd f /\ fs_if (fst f') = fs_if (fst f)
     /\ snd q' = snd q
     /\ forall a fr, snd q = Ok a -> nth_error (fs_heap (fst q)) a = Some (Some fr) ->
          exists fr', nth_error (fs_heap (fst q')) a = Some (Some fr') /\ turned_fr g fr fr'.
Proof.
  intros g E E' tp tp' pm pm' cs cs' G label rs t K EV T S P B C R. assert (F : m_flip g = false) by apply K.
  destruct (C70_run g E E' tp tp' pm pm' cs cs' K EV T S P B C) as [Q1 Q2].
  rewrite R in Q1, Q2. cbn [fst snd] in *.
  destruct (run E' (mkTraj tp' pm') cs') as [rs' [t'|]]; cbn [fst snd both] in *; [|contradiction]. subst rs'.
  exists t'. split; auto. split; auto. cbv zeta.
  set (w := fun _ : nat => Some t). set (w' := fun _ : nat => Some t').
  assert (W : turned_world g w w') by (intros n; exists 0; exact Q2).
  assert (S0 : turned_state g fs_start fs_start) by (split; constructor).
  destruct (C70_fit g G w w' fs_start fs_start 0%nat F W S0) as [F1 F2].
  destruct (C70_results g E E' G w w' _ _ label F EV W F2) as [R1 [_ R2]].
  split; auto. split; [apply F2|]. split; auto.
  intros a fr _ N. revert a N. induction R2 as [|x y h h' Hx Hh IH]; intros [|a] N; cbn [nth_error] in *; try discriminate.
  - injection N as ->. destruct y as [fr'|]; [|contradiction]. exists fr'. split; auto.
  - apply IH; auto.
Qed.
Print Assumptions C70_turned_fit.

(** Every detector surface can be carried along, and those for a turn about the
    axis are usable. *)
Theorem C70_carried : forall g S,
  (z_plane (sf_type S) -> forall p, sf_normal S p = sf_normal S v3zero) ->
  moved_detector g S (carry g S) /\ (keeps_axis g -> detector_ok S -> usable g S).
Proof.
  intros g S H. split; [|apply flat_side].
  constructor; [apply C69_carried; auto|..]; intros; cbn [carry sf_u sf_v sf_globalToLocal sf_localToGlobal
    sf_innerMaterial sf_outerMaterial sf_innerThickness sf_outerThickness]; rewrite ?unmap_map; reflexivity.
Qed.
Print Assumptions C70_carried.
