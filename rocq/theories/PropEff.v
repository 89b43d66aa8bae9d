(** C81: what material_effects writes. *)
From Coq Require Import Reals List Bool ZArith Lra Lia Permutation.
From Verif Require Import Num Vec Helix Isect Trans Material Traj Fit LCIO Refit MatEff.
From Verif Require Import NumFacts SpecMat SpecHelix SpecTraj SpecElem SpecFit SpecLCIO SpecRefit SpecEff
  TrajEx PropTraj PropTraj2 PropTrajEx PropFitEx RefitFacts RefitFacts2 RefitFacts3 PropRefitEx EffFacts.
Import ListNotations.
Open Scope R_scope.

(** The events are gone through in order up to the first one that ends the
    program; of these, the ones with exactly one track are written, each as by a
    program that was just started. *)
Theorem C81_program : forall C address args l out r, (3 <= args)%nat ->
  effMain C address args l = (out, r) ->
  exists l1 l2, l = l1 ++ l2 /\ ~ In None l1
  /\ Forall2 (fun trk o => eff_alone C address trk = Ok o) (lone_tracks l1) out
  /\ ((l2 = [] /\ r = Ok tt)
      \/ (exists l3, l2 = None :: l3 /\ r = Throw)
      \/ (exists trk l3, l2 = Some [trk] :: l3 /\ same_end (eff_alone C address trk) r)).
Proof.
  intros C address args l out r A H. destruct args as [|[|[|args]]]; try lia. cbn [effMain] in H.
  assert (D := effLoop_done C address l newEff eq_refl). rewrite H in D. exact D.
Qed.
Print Assumptions C81_program.

(** The usage printed by the program names two arguments; with these it reads
    beyond the end of its argument list. *)
Theorem C81_arguments : forall C address args l,
  ((args < 2)%nat -> effMain C address args l = ([], Ok tt))
  /\ (args = 2%nat -> effMain C address args l = ([], UB)).
Proof. intros C address args l. split; [destruct args as [|[|args]]; try lia; auto|intros ->; reflexivity]. Qed.
Print Assumptions C81_arguments.

(** What is written for a track. *)
Theorem C81_track : forall C address trk o, env_ok (re_env C) ->
  eff_alone C address trk = Ok o ->
  exists ts itp t used points fr,
    tk_state trk = Some ts /\ readLCIO (re_mm C) ts = Ok itp
    /\ eff_trajectory C address itp (tk_hits trk) t used
    /\ makePoints (tr_elems t) = Ok points
    /\ is_result (re_env C) (re_gbl C) points t 0 fr
    /\ eff_written C used fr o.
Proof.
  intros C address trk o Eo H. unfold eff_alone in H. rewrite (proj1 (effTrack_value _ _ _ _)) in H. unfold eff_value in H.
  destruct (tk_state trk) as [ts|]; [|discriminate].
  destruct (readLCIO (re_mm C) ts) as [itp| | | |] eqn:Rd; try discriminate. cbn [bind newEff es_map] in H.
  destruct (effTrajectory C address (effFill [] (tk_hits trk)) itp) as [[t used]| | | |] eqn:T; try discriminate. cbn [bind fst snd] in H.
  destruct (fit_value C t) as [[b fr]| | | |] eqn:F; try discriminate. cbn [bind snd] in H.
  destruct (fit_value_spec _ _ _ _ F) as (points & Mp & R & _).
  exists ts, itp, t, used, points, fr. split; auto. split; auto.
  split; [apply effTrajectory_spec; auto|]. split; auto. split; auto. apply effFillTrack_spec. auto.
Qed.
Print Assumptions C81_track.

(** Conversely a track is written whenever these parts exist, and no two surfaces
    are crossed at the same path length. *)
Theorem C81_complete : forall C address trk ts itp t used points fr, env_ok (re_env C) -> re_mm C <> 0 ->
  tk_state trk = Some ts -> readLCIO (re_mm C) ts = Ok itp ->
  eff_trajectory C address itp (tk_hits trk) t used ->
  makePoints (tr_elems t) = Ok points ->
  is_result (re_env C) (re_gbl C) points t 0 fr ->
  (forall s surf surf', In surf (re_surfaces C) -> In surf' (re_surfaces C) ->
     found (mkTraj itp (Some (re_prop C))) surf s -> found (mkTraj itp (Some (re_prop C))) surf' s -> surf = surf') ->
  exists o, eff_alone C address trk = Ok o /\ eff_written C used fr o.
Proof.
  intros C address trk ts itp t used points fr Eo M S Rd T Mp R Tie.
  destruct (effFillTrack_ok C used fr M) as [o Fo]. exists o. split; [|apply effFillTrack_spec; auto].
  unfold eff_alone. rewrite (proj1 (effTrack_value _ _ _ _)). unfold eff_value. rewrite S, Rd. cbn [bind newEff es_map].
  rewrite (effTrajectory_back _ _ _ _ _ _ Eo Tie T). cbn [bind fst snd].
  rewrite (result_back _ _ _ _ Mp R). cbn [bind snd]. exact Fo.
Qed.
Print Assumptions C81_complete.

(** A track without state at the interaction point, or one that crosses no
    surface, is undefined behaviour. *)
Theorem C81_undefined : forall C address trk,
  (tk_state trk = None -> eff_alone C address trk = UB)
  /\ (env_ok (re_env C) -> forall ts itp, tk_state trk = Some ts -> readLCIO (re_mm C) ts = Ok itp ->
      (forall surf, In surf (re_surfaces C) -> exists o,
         intersectWithSurface surf (tp_par itp) (tp_ref itp) (OVal 0 v3zero) 1 true = Ok (false, o)) ->
      eff_alone C address trk = UB).
Proof.
  intros C address trk. unfold eff_alone. rewrite (proj1 (effTrack_value _ _ _ _)). unfold eff_value. split.
  - intros ->. reflexivity.
  - intros Eo ts itp -> -> N. cbn [bind newEff es_map]. unfold effTrajectory.
    set (t0 := mkTraj itp (Some (re_prop C))).
    assert (All : forall acc, isectAll t0 (PI * Rabs (calculateRadius (tp_par (tr_ref t0)))) acc (re_surfaces C) = Ok acc).
    { revert N. induction (re_surfaces C) as [|surf l IH]; intros N acc; auto. cbn [isectAll]. unfold isectOne at 1.
      destruct (N surf (or_introl eq_refl)) as [o Q]. change (tr_ref t0) with itp at 1 2. rewrite Q. cbn [bind]. apply IH.
      intros s I. apply N. right. auto. }
    unfold getIntersectionsWithSurfaces. cbv zeta. rewrite All. cbn [bind].
    assert (Nil : en_sortI (re_env C) (tr_isect t0) = []).
    { destruct Eo as [_ So]. destruct (So (tr_isect t0)) as [P _]. apply Permutation_nil in P. exact P. }
    rewrite Nil. cbn [set_isect tr_isect effCrossings bind fst snd].
    assert (P : prepareForFitting (re_env C) (set_isect t0 []) = UB).
    { unfold prepareForFitting. destruct Eo as [Se _]. destruct (Se (tr_elems (set_isect t0 []))) as [Q _].
      change (tr_elems (set_isect t0 [])) with (@nil telem) in *. apply Permutation_nil in Q. rewrite Q. reflexivity. }
    rewrite P. reflexivity.
Qed.
Print Assumptions C81_undefined.

(** A hit whose second error is zero measures one direction.  Yet the fit is given
    a second precision, the squared scattering angle of the surface. *)
Theorem C81_strip : forall C address h dU surf t t' pos prec,
  h_plane h = Some (dU, 0) -> effInfo C h = Ok (pos, prec) ->
  addMeasurement (re_env C) t pos prec surf address true = (t', Ok true) ->
  exists t1 e q, with_initial t t1 /\ extended t1 t' e
    /\ te_prec e = [Some (/ Rsqr (dU * re_mm C)); q; Some 0; Some 0]
    /\ forall w, q = Some w -> exists uv mom x,
         computeQMS_uv surf uv mom (tr_mass t) = Ok x /\ w = x * x /\ (x <> 0 -> 0 < w).
Proof.
  intros C address h dU surf t t' pos prec Pl I A. apply effInfo_spec in I.
  destruct I as (_ & du & dv & P & _ & _ & _ & One). destruct (P _ _ Pl) as [-> ->].
  rewrite One in A by ring. exact (C41_one_dimensional_scatterer _ _ _ _ _ _ _ A).
Qed.
Print Assumptions C81_strip.

Example C81_strip_instance : forall C, re_mm C = 1 -> re_env C = ex_env -> exists surf t,
  effInfo C (Hit 1 5 v3zero (Some (1, 0)) []) = Ok (v3zero, [1])
  /\ addMeasurement (re_env C) (mkTraj ex_ref (Some (re_prop C))) v3zero [1] surf 7 true = (t, Ok true).
Proof.
  intros C M E. destruct (C41_instance (Some (re_prop C))) as (surf & t & A & _). exists surf, t. rewrite E. split; auto.
  unfold effInfo. rewrite M. cbn [h_plane bind fst snd h_pos]. destruct (Req_EM_T (0 * 1) 0); [|lra]. rewrite rdiv_ok by lra.
  cbn [bind]. f_equal. f_equal; [unfold inUnits, v3zero; cbn; f_equal; ring|f_equal; field].
Qed.

(** ** a run *)
Lemma eff_disk G th itp t : makeTrajectory (rC G th) (Steer false false true) itp rhits = Ok t ->
  effTrajectory (rC G th) 1 (effFill [] rhits) itp = Ok (t, [1%Z]).
Proof.
  intros Q. unfold makeTrajectory in Q. destruct rhits_map as (m & M & F). rewrite M in Q. cbn [bind] in Q.
  unfold effTrajectory. cbn [rC re_env re_prop re_surfaces] in *. fold (rC G th) in *.
  destruct (getIntersectionsWithSurfaces ex_env (mkTraj itp (Some ex_prop)) [rdisk th]) as [t1| | | |] eqn:Gi; try discriminate.
  cbn [bind] in *.
  assert (Go : forall l t1 t2 u, addCrossings (rC G th) (Steer false false true) m t1 l = Ok t2 ->
    effCrossings (rC G th) 1 (effFill [] rhits) (t1, u) l = Ok (t2, u ++ map (fun _ => 1%Z) l)).
  { clear - F. induction l as [|[s surf] l IH]; intros t1 t2 u Q; cbn [addCrossings effCrossings map] in *.
    - injection Q as <-. rewrite app_nil_r. reflexivity.
    - unfold addCrossing in Q. change (to_int (re_cell (rC G th) surf)) with 5%Z in Q. rewrite F in Q.
      unfold effCrossing. change (mapFind (effFill [] rhits) (re_cell (rC G th) surf)) with (Some (th_hit (rhit 1 5 (V3 0 0 0)))).
      unfold getHitInfo in Q. unfold effInfo. cbn [rhit th_hit h_plane rC re_mm re_1D bind fst snd h_pos h_id re_env] in *.
      rewrite rdiv_ok in Q by lra. cbn [bind fst snd sg_qms] in Q.
      destruct (Req_EM_T (1 * 1) 0); [lra|]. rewrite rdiv_ok by lra. cbn [bind fst snd].
      destruct (ignoring _) as [t3| | | |]; try discriminate. cbn [bind] in *. fold (rC G th) in *.
      rewrite (IH _ _ (u ++ [1%Z]) Q), <- app_assoc. reflexivity. }
  destruct (addCrossings (rC G th) (Steer false false true) m t1 (tr_isect t1)) as [t2| | | |] eqn:Ac; try discriminate.
  cbn [bind] in Q. rewrite (Go _ _ _ [] Ac). cbn [bind fst snd app]. rewrite Q. cbn [bind].
  assert (Is : exists x, tr_isect t1 = [x]).
  { unfold getIntersectionsWithSurfaces in Gi. cbv zeta in Gi. cbn [isectAll] in Gi.
    destruct (isectOne _ _ _ _) as [acc| | | |] eqn:O; try discriminate. cbn [bind] in Gi. injection Gi as <-.
    cbn [set_isect tr_isect] in *. unfold isectOne in O.
    destruct (intersectWithSurface _ _ _ _ _ _) as [[b o]| | | |]; try discriminate. cbn [bind] in O.
    assert (N : acc <> []).
    { intros ->. cbn in Ac. injection Ac as <-. discriminate. }
    destruct b; [|injection O as <-; contradiction].
    repeat match type of O with context [match ?x with _ => _ end] => destruct x; try discriminate end;
    injection O as <-; try contradiction; eexists; reflexivity. }
  destruct Is as [x ->]. reflexivity.
Qed.

(** The track of four hits, one of which is on the surface that is crossed.  One
    hit is listed with the output track, and it is written whatever the fitter
    says.  The event with two tracks is left out, the one without tracks ends the
    program. *)
Example C81_instance : exists th, forall G, exists t points fr o,
  let C := rC G th in
  env_ok (re_env C) /\ eff_trajectory C 1 (rread 0) rhits t [1%Z]
  /\ makePoints (tr_elems t) = Ok points
  /\ is_result (re_env C) (re_gbl C) points t 0 fr
  /\ eff_alone C 1 (rtrack 0) = Ok o /\ eff_written C [1%Z] fr o
  /\ effMain C 1 3 [Some [rtrack 0]; Some [rtrack 0; rshort]; Some [rtrack 0]; None; Some [rtrack 0]] = ([o; o], Throw).
Proof.
  set (S := Steer false false true).
  assert (Up : upward (rread 0)).
  { constructor; cbn; try lra.
    - rewrite Rabs_R0. generalize PI_pos. lra.
    - replace ((1 - (0 + 0)) / 1) with 1 by field. replace (1 / 1) with 1 by field. rewrite Rabs_R1.
      generalize PI2_3_2. unfold PI2. lra. }
  destruct rhits_map as (m & M & F).
  assert (L : (3 <= length (tk_hits (rtrack 0)))%nat) by (cbn; lia).
  assert (Sd : forall G th, snd (seed (rC G th) S fs_start (rread 0) (tk_hits (rtrack 0))) = Ok (rread 0))
    by reflexivity.
  destruct (run_alone S (rtrack 0) _ _ (rread 0) _ m Up eq_refl (rstate_read 0) L Sd M F eq_refl) as (th & R).
  exists th. intros G. destruct (R G) as (t & o' & fr & points & _ & T & _ & Mp & Rs & _).
  assert (T' := eff_disk _ _ _ _ T).
  destruct (effFillTrack_ok (rC G th) [1%Z] fr) as [o Fo]; [cbn; lra|].
  assert (A : eff_alone (rC G th) 1 (rtrack 0) = Ok o).
  { unfold eff_alone. rewrite (proj1 (effTrack_value _ _ _ _)). unfold eff_value.
    change (tk_state (rtrack 0)) with (Some (rstate (0, 0, 0))). change (re_mm (rC G th)) with 1. cbv iota. rewrite rstate_read.
    cbn [bind newEff es_map]. change (tk_hits (rtrack 0)) with rhits. rewrite T'. cbn [bind fst snd].
    rewrite (result_back (rC G th) t points fr Mp Rs). cbn [bind snd]. exact Fo. }
  exists t, points, fr, o. cbv zeta. split; [exact ex_env_ok|].
  split; [apply effTrajectory_spec; [exact ex_env_ok|exact T']|]. split; auto. split; [exact Rs|]. split; auto.
  split; [apply effFillTrack_spec; auto|].
  cbn [effMain effLoop].
  destruct (effTrack (rC G th) 1 newEff (rtrack 0)) as [st1 r1] eqn:E1.
  assert (r1 = Ok o) by (unfold eff_alone in A; rewrite E1 in A; exact A). subst r1.
  assert (A2 : snd (effTrack (rC G th) 1 st1 (rtrack 0)) = Ok o).
  { rewrite effTrack_alone; auto. assert (V := effTrack_value (rC G th) 1 newEff (rtrack 0)). rewrite E1 in V. cbn [fst snd] in V.
    eapply (proj2 V). reflexivity. }
  destruct (effTrack (rC G th) 1 st1 (rtrack 0)) as [st2 r2]. cbn in A2. subst r2. reflexivity.
Qed.
