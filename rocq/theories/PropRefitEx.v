(** Concrete runs of the refitting program meeting the hypotheses of the theorems
    of PropRefit.v. *)
From Coq Require Import Reals List Bool ZArith Lra Lia Permutation Sorted.
From Coq Require Import FunctionalExtensionality.
From Coquelicot Require Import Coquelicot.
From Verif Require Import Num Vec Helix Isect Trans Material Traj.
From Verif Require Import NumFacts SpecHelix HelixFacts PathFacts MoveFacts SpecIsect SurfFacts SurfFacts2
  SpecMaterial MaterialFacts SpecTraj TrajFacts TrajFacts2 TrajFacts3 TrajFacts4 TrajFacts5 TrajEx PropSurf PropTraj PropTraj2
  PropTrajEx TransFacts Fit SpecElem SpecFit FitFacts FitFacts2 PropFit PropFit2 PropFitEx
  LCIO SpecLCIO PropLCIO PropMove PropStart Refit SpecRefit RefitFacts RefitFacts2 PropRefit.
Import ListNotations.
Open Scope R_scope.

(** a track that can be extended to the disk at z = 1 in its first half turn *)
Record upward (tp : trackParameters) : Prop := {
  up_om : tp_par tp OMEGA <> 0;
  up_tl : tp_par tp TANL <> 0;
  up_phi : Rabs (tp_par tp PHI0) <= 2 * PI;
  up_x : vx (tp_ref tp) = 0;
  up_y : vy (tp_ref tp) = 0;
  up_d0 : tp_par tp OMEGA * tp_par tp D0 < 1;
  up_s : let s := (1 - (vz (tp_ref tp) + tp_par tp Z0)) / tp_par tp TANL in
         0 < s < PI * Rabs (1 / tp_par tp OMEGA)
}.

(** the disk, the program around it, and a hit on it *)
Definition rdisk (th : R) : surface := ex_station 1 th (fun _ => true).
Definition rC (G : gbl) (th : R) : renv :=
  RE 1 ex_env ex_prop G [rdisk th] (fun _ => 5%Z) (fun _ => false).
Definition rhit (id : Z) (cell : Z) (p : vec3) : trkhit := TH (Hit id cell p (Some (1, 1)) []) false [].

Lemma run_disk itp : upward itp -> exists th, forall G S hits h m,
  hitMap hits = Ok m -> mapFind m 5 = Some h -> h_plane h = Some (1, 1) ->
  exists t e0' e', makeTrajectory (rC G th) S itp hits = Ok t /\ tr_elems t = [e0'; e']
    /\ te_tp e0' = itp /\ te_s e0' = 0 /\ te_surf e0' = None /\ 0 < te_s e'.
Proof.
  intros [Om Tl Ph X Y Dd Sp]. set (s := (1 - (vz (tp_ref itp) + tp_par itp Z0)) / tp_par itp TANL) in *. cbv zeta in Sp.
  set (ini := TE 0 itp None false false None [] [] None None None 0).
  destruct (station_new ini pionMass 1 (fun _ => true) pion_pos Om Tl) as [K HK]; [cbn; fold s; lra|].
  destruct (thin_enough K) as (th & T1 & T2). destruct (HK th) as [HM _]; [lra|auto|].
  exists th. intros G S hits h m M F Pl.
  assert (Ss : calculateSfromXY 0 0 (tp_par itp) (tp_ref itp) = Ok 0) by (apply C34_origin; auto).
  set (t0 := mkTraj itp (Some ex_prop)).
  assert (Gi : getIntersectionsWithSurfaces ex_env t0 [rdisk th] = Ok (set_isect t0 [(s, rdisk th)])).
  { unfold getIntersectionsWithSurfaces. cbn [isectAll]. unfold isectOne. change (tr_ref t0) with itp. unfold rdisk at 1.
    rewrite station_isect by auto. fold s.
    assert (Mo : mode_ok 1 s = true) by (apply mode_ok_iff; split; [lra|intros; lia]).
    rewrite Mo. cbn [andb bounds bind]. change (sf_insideBounds _ _) with true. cbn [bind].
    destruct (Rle_dec 0 s); [|lra]. rewrite radius_eq by auto. rewrite (Rabs_right (Rabs _)) by (apply Rle_ge, Rabs_pos).
    destruct (Rlt_dec s (PI * Rabs (1 / tp_par itp OMEGA))); [|lra]. cbn. reflexivity. }
  set (pos := inUnits 1 (h_pos h)).
  destruct (HM pos [1 / (1 * 1 * (1 * 1)); 1 / (1 * 1 * (1 * 1))] (h_id h) (sg_qms S)) as [e He]. fold (rdisk th) in He.
  assert (En : forall l, ensureInitial (set_isect t0 l) = Ok (set_elems (set_isect t0 l) [ini])).
  { intros l. unfold ensureInitial, addElement. cbn [t0 set_isect mkTraj tr_elems tr_ref v3zero vx vy].
    rewrite Ss. reflexivity. }
  set (t1 := set_isect t0 [(s, rdisk th)]) in *.
  set (t2 := set_elems t1 [ini; e]).
  assert (Am : addMeasurement ex_env t1 pos [1 / (1 * 1 * (1 * 1)); 1 / (1 * 1 * (1 * 1))] (rdisk th) (h_id h) (sg_qms S) = (t2, Ok true)).
  { unfold addMeasurement, pushElement. unfold t1 at 1. rewrite En.
    change (tr_elems (set_elems _ [ini])) with [ini]. cbn [last]. change (tr_mass _) with pionMass. rewrite He. reflexivity. }
  assert (Ac : addCrossings (rC G th) S m t1 (tr_isect t1) = Ok t2).
  { change (tr_isect t1) with [(s, rdisk th)]. cbn [addCrossings]. unfold addCrossing.
    change (to_int (re_cell (rC G th) (rdisk th))) with 5%Z. rewrite F. unfold getHitInfo. rewrite Pl. cbn [rC re_mm bind fst snd re_1D re_env].
    rewrite rdiv_ok by lra. cbn [bind]. fold pos. cbn [fst snd]. rewrite Am. reflexivity. }
  destruct (newMeasurement_spec _ _ _ _ _ _ _ _ _ He) as (s0 & xx & moved & fid & mom & el & B & _).
  assert (Is := bu_isect _ _ _ _ _ _ _ _ _ _ _ _ _ _ _ B). unfold rdisk in Is.
  change (te_tp ini) with itp in Is.
  rewrite station_isect in Is by auto. fold s in Is. injection Is as _ Is Ix.
  assert (Es : te_s e = s) by (rewrite (bu_s _ _ _ _ _ _ _ _ _ _ _ _ _ _ _ B), <- Is; cbn; ring).
  assert (Mv := bu_move _ _ _ _ _ _ _ _ _ _ _ _ _ _ _ B).
  destruct (move_ok (te_tp ini) xx Om) as (p' & fid' & Mv' & Spc & _).
  rewrite Mv in Mv'. injection Mv' as Em _.
  assert (Mo : tp_par moved OMEGA <> 0) by (rewrite Em; cbn [tp_par]; rewrite (ms_om _ _ _ _ Spc); auto).
  assert (Mt : tp_par moved TANL <> 0) by (rewrite Em; cbn [tp_par]; rewrite (ms_tl _ _ _ _ Spc); auto).
  assert (Al := bu_tp _ _ _ _ _ _ _ _ _ _ _ _ _ _ _ B).
  assert (Te : tp_par (te_tp e) TANL <> 0).
  { rewrite (proj2 (applyLoss_keep _ _ _ Al)) by discriminate. auto. }
  assert (To : tp_par (te_tp e) OMEGA <> 0).
  { apply applyLoss_spec in Al. destruct Al as (A1 & A2 & ->). cbn. unfold v5set.
    destruct (idx_eq_dec OMEGA OMEGA); [|contradiction]. unfold Rdiv.
    apply Rmult_integral_contrapositive. split; auto. apply Rinv_neq_0_compat. lra. }
  assert (Sc : te_scat e = sg_qms S) by apply (bu_scat _ _ _ _ _ _ _ _ _ _ _ _ _ _ _ B).
  assert (Srt : en_sortE ex_env (tr_elems t2) = [ini; e]).
  { apply isort_id. constructor; [constructor; [constructor|constructor]|]. constructor; [cbn; lra|constructor]. }
  assert (Tg : forall s, exists v, tr_tangentAt (set_elems t2 [ini; e]) s = Ok v)
    by (intros s'; unfold tr_tangentAt, trajectoryElementAt; cbn [set_elems tr_elems bind]; eauto).
  destruct (Tg 0) as [v1 V1]. destruct (Tg (te_s e)) as [v2 V2].
  assert (Ln : exists nrj, energy_term ex_env pionMass e nrj).
  { destruct (sg_qms S).
    - destruct (station_lossTerm th e Sc (bu_surf _ _ _ _ _ _ _ _ _ _ _ _ _ _ _ B) To Te) as (nrj & Ln).
      exists nrj. apply lossTerm_spec. exact Ln.
    - exists 0. left. auto. }
  destruct Ln as (nrj & Ln).
  set (dw := (te_s e - 0) / cos (atan (tp_par (te_tp e) TANL))).
  destruct (C35_complete ex_env t2 ini [e] [setJacobian e (fun i j => dw)] Srt) as (e0' & P & Sj & J0).
  { apply prep_cons with (J := fun i j => dw); [repeat split|reflexivity| |constructor].
    exists ex_prop, nrj, v1, v2. split; auto. }
  exists (set_elems t2 [e0'; setJacobian e (fun i j => dw)]), e0', (setJacobian e (fun i j => dw)).
  split.
  { unfold makeTrajectory. rewrite M. cbn [bind rC re_env re_prop re_surfaces]. fold t0. rewrite Gi. cbn [bind].
    fold t1. fold (rC G th). rewrite Ac. cbn [bind]. exact P. }
  destruct Sj as (S1 & S2 & S3 & _).
  split; [reflexivity|]. split; [rewrite <- S2; reflexivity|]. split; [rewrite <- S1; reflexivity|].
  split; [rewrite <- S3; reflexivity|]. change (te_s (setJacobian e (fun i j => dw))) with (te_s e). lra.
Qed.

(** then the fit gives a result, and the track is written *)
Lemma run_alone S trk ts rd itp h m : upward itp ->
  tk_state trk = Some ts -> readLCIO 1 ts = Ok rd -> (3 <= length (tk_hits trk))%nat ->
  (forall G th, snd (seed (rC G th) S fs_start rd (tk_hits trk)) = Ok itp) ->
  hitMap (tk_hits trk) = Ok m -> mapFind m 5 = Some h -> h_plane h = Some (1, 1) ->
  exists th, forall G, exists t o fr points, alone (rC G th) S trk = Ok o
    /\ makeTrajectory (rC G th) S itp (tk_hits trk) = Ok t
    /\ (forall e, In e (tr_elems t) -> te_surf e <> None -> 0 < te_s e)
    /\ makePoints (tr_elems t) = Ok points
    /\ is_result ex_env G points t 0 fr /\ written (rC G th) trk fr o
    /\ tp_ref (fr_tp fr) = tp_ref itp
    /\ (fst (fst (gbl_results G points 0)) <> 0%Z -> forall i, tp_par (fr_tp fr) i = tp_par itp i).
Proof.
  intros Up A B L Sd M F Pl. destruct (run_disk itp Up) as (th & R). exists th. intros G.
  destruct (R G S (tk_hits trk) h m M F Pl) as (t & e0' & e' & T & El & Tp & Ss & Sf & Sp).
  assert (Hp : exists cs, history ex_env has_precision (mkTraj itp (Some ex_prop)) (cs ++ [CPrep]) t).
  { assert (Q := T). unfold makeTrajectory in Q. rewrite M in Q. cbn [bind rC re_env re_prop re_surfaces] in Q.
    destruct (getIntersectionsWithSurfaces ex_env (mkTraj itp (Some ex_prop)) [rdisk th]) as [t1| | | |] eqn:Gi; try discriminate.
    cbn [bind] in Q. fold (rC G th) in Q.
    destruct (addCrossings (rC G th) S m t1 (tr_isect t1)) as [t2| | | |] eqn:Ac; try discriminate. cbn [bind] in Q.
    assert (H1 : history ex_env has_precision (mkTraj itp (Some ex_prop)) ([] ++ [CIsect [rdisk th]]) t1).
    { eapply hist_snoc; [constructor|exact Logic.I|constructor; exact Gi]. }
    assert (Go : forall l t1 t2 cs, addCrossings (rC G th) S m t1 l = Ok t2 ->
      history ex_env has_precision (mkTraj itp (Some ex_prop)) cs t1 ->
      exists cs', history ex_env has_precision (mkTraj itp (Some ex_prop)) cs' t2).
    { clear. induction l as [|[s surf] l IH]; intros t1 t2 cs Q H; cbn [addCrossings] in Q.
      - injection Q as <-. eauto.
      - destruct (addCrossing (rC G th) S m t1 surf) as [t3| | | |] eqn:A; try discriminate. cbn [bind] in Q.
        assert (N : exists cs', history ex_env has_precision (mkTraj itp (Some ex_prop)) cs' t3);
          [|destruct N as (cs' & N); eapply IH; eauto].
        unfold addCrossing in A. destruct (mapFind m (to_int (re_cell (rC G th) surf))) as [h|].
        + destruct (getHitInfo (rC G th) h surf) as [[pos prec]| | | |] eqn:I; try discriminate. cbn [bind fst snd] in A.
          apply getHitInfo_spec in I. destruct I as (_ & du & dv & p1 & _ & _ & _ & Pr & _).
          unfold ignoring in A. cbn [rC re_env] in A. destruct (addMeasurement ex_env t1 pos prec surf (h_id h) (sg_qms S)) as [t4 r] eqn:Am.
          destruct r as [b| | | |]; try discriminate. cbn [bind] in A. injection A as ->.
          eexists. eapply hist_snoc; [exact H| |eapply step_meas; [exact Am|eauto]]. left. rewrite Pr. discriminate.
        + assert (Sc : ignoring (addScatterer ex_env t1 surf) = Ok t3 ->
             exists cs', history ex_env has_precision (mkTraj itp (Some ex_prop)) cs' t3).
          { intros Q'. unfold ignoring in Q'. destruct (addScatterer ex_env t1 surf) as [t4 r] eqn:As.
            destruct r as [b| | | |]; try discriminate. cbn [bind] in Q'. injection Q' as ->.
            eexists. eapply hist_snoc with (c := CScat surf); [exact H|exact Logic.I|eapply step_scat; [exact As|eauto]]. }
          destruct (sg_qms S); [|injection A as <-; eauto].
          destruct (Rlt_dec _ _); [destruct (Rlt_dec _ _); [injection A as <-; eauto|auto]|auto]. }
    destruct (Go _ _ _ _ Ac H1) as (cs & H2). exists cs. eapply hist_snoc; [exact H2|exact Logic.I|constructor; exact Q]. }
  destruct Hp as (cs & Hp).
  destruct (C58_after_preparation ex_env G itp (Some ex_prop) cs [] t (only t) fs_start 0 ex_env_ok Hp ltac:(constructor) eq_refl)
    as (b & Fb).
  destruct (makePoints (tr_elems t)) as [points| | | |] eqn:Mp;
    [|unfold fit in Fb; cbn [only] in Fb; rewrite Mp in Fb; discriminate..].
  assert (Fv : exists b fr, fit_value (rC G th) t = Ok (b, fr)).
  { unfold fit_value. rewrite Mp. cbn [bind rC re_gbl re_env]. destruct (gbl_fit G points) as [rv [[chi2 ndf] lost]].
    unfold computeResults. destruct (gbl_results G points 0) as [[err corr] cov].
    rewrite El. change (elementIndex [e0'; e'] 0) with (Ok e0'). cbn [bind].
    destruct (cl2l3_column (tp_par (te_tp e0')) (en_bfield ex_env (tp_ref (te_tp e0')))) as [_ J].
    destruct J as (J & -> & _). { cbn. unfold ex_field, v3zero. intros Q. injection Q as Q. lra. }
    cbn [bind]. eauto. }
  destruct Fv as (b' & fr & Fv).
  destruct (fit_value_spec _ _ _ _ Fv) as (points' & Mp' & R' & _). rewrite Mp in Mp'. injection Mp' as <-.
  assert (Fl : exists o, fillTrack (rC G th) (tk_hits trk) fr = Ok o).
  { unfold fillTrack, createLCIO. cbn [rC re_mm]. rewrite !rdiv_ok by lra. cbn [bind]. eauto. }
  destruct Fl as (o & Fl). exists t, o, fr, points.
  split.
  { unfold alone. rewrite refitTrack_value. unfold refit_value. rewrite A. cbn [rC re_mm]. rewrite B. cbn [bind].
    destruct (Nat.ltb_spec (length (tk_hits trk)) 3); [lia|]. fold (rC G th). rewrite Sd. cbn [bind]. rewrite T. cbn [bind]. rewrite Fv. cbn [bind snd].
    exact Fl. }
  split; auto. split.
  { intros e Ie Ns. rewrite El in Ie. destruct Ie as [<-|[<-|[]]]; [contradiction|auto]. }
  split; auto. split; auto. split; [apply fillTrack_spec; exact Fl|].
  destruct R' as (e & J & rv & chi2 & ndf & lost & err & corr & cov & _ & N & _ & _ & Gr & _ & _ & _ & _ & Rf & _ & Er & _).
  rewrite El in N. cbn in N. injection N as <-. rewrite Tp in *. split; auto.
  cbn [rC re_gbl] in Gr. rewrite Gr. cbn [fst]. exact Er.
Qed.

(** a track state that can be read *)
Definition rstate (r : R * R * R) : trackState := TS 1 0 0 1 0 1 (repeat 0 15) r.
Definition rread (z : R) : trackParameters := TP m5zero (mk5 1 1 0 0 0) (V3 0 0 z).
Lemma rstate_read z : readLCIO 1 (rstate (0, 0, z)) = Ok (rread z).
Proof.
  destruct (C48_read 1 (rstate (0, 0, z))) as ((G & _) & _ & R); [lra|].
  destruct G as [[cov par ref] Q]; [cbn; lia|]. rewrite Q. destruct (R _ Q) as (P & K & F). cbn [tp_cov tp_par tp_ref rstate ts_ref] in *.
  unfold rread. f_equal. f_equal.
  - extensionality i. extensionality j. rewrite K. unfold lcio_mat. cbn [rstate ts_cov].
    assert (N : forall n k : nat, nth k (repeat 0 n) 0 = 0) by (induction n; intros [|k]; cbn; auto).
    rewrite N. unfold m5zero. ring.
  - extensionality i. rewrite P. destruct i; cbn; field.
  - rewrite F. f_equal; ring.
Qed.

Definition rhits : list trkhit :=
  [rhit 1 5 (V3 0 0 0); rhit 2 9 (V3 5 5 5); rhit 3 9 (V3 1 (-1) 0); rhit 4 9 (V3 0 (-2) 10)].
Definition rtrack (z : R) : track := Trk (Some (rstate (0, 0, z))) rhits.

Lemma rhits_map : exists m, hitMap rhits = Ok m /\ mapFind m 5 = Some (th_hit (rhit 1 5 (V3 0 0 0))).
Proof. eexists. split; reflexivity. Qed.

(** the start helix from these hits *)
Lemma rstart : exists tp, upward tp /\ tp_ref tp = v3zero
  /\ forall G th, startHelix (rC G th) rhits = Ok tp /\ start_seed (rC G th) rhits tp.
Proof.
  set (C0 := rC ex_gbl 0).
  assert (Sh : seed_hits rhits (rhit 1 5 (V3 0 0 0)) (rhit 3 9 (V3 1 (-1) 0)) (rhit 4 9 (V3 0 (-2) 10)))
    by (repeat split).
  destruct (startHelix_spec C0 rhits _ _ _ Sh) as [_ Y].
  assert (T : turn (hit_point C0 (rhit 1 5 (V3 0 0 0))) (hit_point C0 (rhit 3 9 (V3 1 (-1) 0)))
                (hit_point C0 (rhit 4 9 (V3 0 (-2) 10))) <> 0).
  { unfold turn, hit_point, vscale. cbn. lra. }
  destruct (Y T) as (tp & St & Sd). exists tp.
  assert (Sd' := Sd). destruct Sd' as (h1 & h2 & h3 & Sh' & _ & Rf & _ & Om & Ph & F).
  destruct (seed_hits_unique _ _ _ _ _ _ _ Sh Sh') as (-> & -> & ->).
  assert (Om0 : tp_par tp OMEGA <> 0) by (intros Q; rewrite Q in Om; lra).
  destruct (F _ (hcurve_helix (tp_par tp) v3zero Om0)) as (Cl & s1 & s2 & s3 & O & O3 & Fs & F1 & X2 & Y2 & X3 & Y3 & Zd).
  assert (P1 : hit_point C0 (rhit 1 5 (V3 0 0 0)) = v3zero).
  { unfold hit_point, vscale, v3zero. cbn. f_equal; ring. }
  rewrite P1 in F1.
  assert (D : tp_par tp D0 = 0).
  { specialize (Cl s1). rewrite F1 in Cl.
    assert (Q : dist_xy v3zero v3zero = 0).
    { unfold dist_xy, v3zero. cbn. replace (_ + _) with 0 by ring. apply sqrt_0. }
    rewrite Q in Cl. destruct (Req_dec (tp_par tp D0) 0) as [|N]; auto. apply Rabs_pos_lt in N. lra. }
  (* the helix starts at the origin, so s1 = 0 *)
  assert (S1 : s1 = 0).
  { unfold hcurve in F1. cbn [v3zero vx vy vz] in F1. injection F1 as Fx Fy Fz. rewrite D in Fx, Fy. rewrite (Rmult_comm s1 (tp_par tp OMEGA)) in Fx, Fy.
    set (om := tp_par tp OMEGA) in *. set (ph := tp_par tp PHI0) in *.
    assert (A : sin (ph - om * s1) = sin ph).
    { apply Rmult_eq_reg_l with (1 / om); [|unfold Rdiv; rewrite Rmult_1_l; apply Rinv_neq_0_compat; auto].
      lra. }
    assert (B : cos (ph - om * s1) = cos ph).
    { apply Rmult_eq_reg_l with (1 / om); [|unfold Rdiv; rewrite Rmult_1_l; apply Rinv_neq_0_compat; auto].
      lra. }
    assert (E : cos (om * s1) = 1).
    { replace (om * s1) with (ph - (ph - om * s1)) by ring. rewrite cos_minus, A, B. generalize (sin2_cos2 ph). unfold Rsqr. lra. }
    destruct (Rtotal_order (om * s1) 0) as [N|[N|N]].
    - exfalso. assert (R1 : Rabs (om * s1) = - (om * s1)) by (apply Rabs_left; auto). rewrite R1 in Fs.
      assert (cos (- (om * s1)) < cos 0) by (apply cos_decreasing_1; generalize PI_pos; lra).
      rewrite cos_neg, cos_0 in H. lra.
    - apply Rmult_integral in N. destruct N; [contradiction|auto].
    - exfalso. assert (R1 : Rabs (om * s1) = om * s1) by (apply Rabs_right; lra). rewrite R1 in Fs.
      assert (cos (om * s1) < cos 0) by (apply cos_decreasing_1; generalize PI_pos; lra).
      rewrite cos_0 in H. lra. }
  assert (Zz : tp_par tp Z0 = 0).
  { unfold hcurve in F1. cbn [v3zero vx vy vz] in F1. injection F1 as _ _ Fz. rewrite S1 in Fz. lra. }
  assert (Zd' : tp_par tp TANL * (s3 - s2) = 10).
  { unfold hcurve, hit_point, vscale in Zd. cbn in Zd. lra. }
  assert (Ao : 0 < Rabs (tp_par tp OMEGA)) by (apply Rabs_pos_lt; auto).
  assert (Tp : 0 < tp_par tp TANL) by (destruct (Rle_lt_dec (tp_par tp TANL) 0); [nra|auto]).
  split; [|split; [exact Rf|intros G th; split; [exact St|exact Sd]]].
  constructor; auto.
  - lra.
  - apply Rabs_le. generalize PI_pos. lra.
  - rewrite Rf. reflexivity.
  - rewrite Rf. reflexivity.
  - rewrite D. lra.
  - rewrite Rf, Zz. cbn [v3zero vz]. cbv zeta. replace (1 - (0 + 0)) with 1 by ring.
    split; [apply Rdiv_lt_0_compat; lra|].
    replace (Rabs (1 / tp_par tp OMEGA)) with (/ Rabs (tp_par tp OMEGA)).
    2:{ unfold Rdiv. rewrite Rmult_1_l, Rabs_inv. reflexivity. }
    assert (L : s3 - s2 < 2 * PI * / Rabs (tp_par tp OMEGA)) by (unfold Rdiv in O3; lra).
    assert (1 / tp_par tp TANL * 10 = s3 - s2).
    { apply Rmult_eq_reg_l with (tp_par tp TANL); [|lra]. rewrite Zd'. field. lra. }
    assert (0 < PI * / Rabs (tp_par tp OMEGA)).
    { apply Rmult_lt_0_compat; [apply PI_pos|apply Rinv_0_lt_compat; auto]. }
    lra.
Qed.

(** C75, C76: a track of four hits, refitted with the parameters as shipped,
    whatever the fitter *)
Example shipped_instance : exists th, forall G, exists itp t o fr points,
  env_ok (re_env (rC G th)) /\ (3 <= length (tk_hits (rtrack 0)))%nat
  /\ (forall h, In (Some h) (single_hits (tk_hits (rtrack 0))) -> is_int (h_cell h))
  /\ alone (rC G th) shipped (rtrack 0) = Ok o
  /\ refit_trajectory (rC G th) shipped itp (tk_hits (rtrack 0)) t
  /\ is_result ex_env G points t 0 fr /\ written (rC G th) (rtrack 0) fr o
  /\ tp_ref itp = v3zero
  /\ (forall e, In e (tr_elems t) -> te_surf e <> None ->
        calculateSfromXY 0 0 (tp_par itp) v3zero <> Ok (te_s e)).
Proof.
  destruct rstart as (tp & Up & Rf & St). destruct rhits_map as (m & M & F).
  assert (L : (3 <= length (tk_hits (rtrack 0)))%nat) by (cbn; lia).
  assert (Sd : forall G th, snd (seed (rC G th) shipped fs_start (rread 0) (tk_hits (rtrack 0))) = Ok tp).
  { intros G th. unfold seed. cbn [shipped sg_start sg_prefit]. change (tk_hits (rtrack 0)) with rhits.
    rewrite (proj1 (St G th)). reflexivity. }
  destruct (run_alone shipped (rtrack 0) _ _ tp _ m Up eq_refl (rstate_read 0) L Sd M F eq_refl) as (th & R).
  exists th. intros G. destruct (R G) as (t & o & fr & points & A & T & Tie & _ & Rs & W & _).
  assert (Hi : forall h, In (Some h) (single_hits (tk_hits (rtrack 0))) -> is_int (h_cell h)).
  { intros h I. cbn in I. repeat destruct I as [I|I]; try (injection I as <-; unfold is_int; cbn; lia). destruct I. }
  exists tp, t, o, fr, points. split; [exact ex_env_ok|]. split; [cbn; lia|]. split; auto. split; auto.
  split; [apply makeTrajectory_spec; [exact ex_env_ok|exact Hi|exact T]|]. split; auto. split; auto. split; auto.
  intros e Ie Ns Q. specialize (Tie e Ie Ns). destruct Up as [Om Tl Ph X Y Dd Sp].
  rewrite <- Rf in Q. rewrite C34_origin in Q by auto. injection Q as Q. lra.
Qed.

(** C76: without a start helix the seed is the state of the input track.  If its
    reference point is not the origin, the state written describes another curve
    than the result: here the height is off by the height of the reference
    point. *)
Theorem C76_reference_refuted : exists C S trk o itp t points fr ts tp,
  env_ok (re_env C) /\ alone C S trk = Ok o
  /\ seeded C S trk itp /\ refit_trajectory C S itp (tk_hits trk) t
  /\ makePoints (tr_elems t) = Ok points
  /\ is_result (re_env C) (re_gbl C) points t 0 fr /\ written C trk fr o
  /\ In ts (ot_states o) /\ readLCIO (re_mm C) ts = Ok tp
  /\ forall f g s, is_helix (tp_par (fr_tp fr)) (tp_ref (fr_tp fr)) f -> is_helix (tp_par tp) (tp_ref tp) g ->
       vz (f s) = vz (g s) + 1 / 2.
Proof.
  set (S := Steer false false true).
  assert (Up : upward (rread (1 / 2))).
  { constructor; cbn; try lra.
    - rewrite Rabs_R0. generalize PI_pos. lra.
    - replace ((1 - (1 / 2 + 0)) / 1) with (1 / 2) by field. replace (1 / 1) with 1 by field. rewrite Rabs_R1.
      generalize PI2_3_2. lra. }
  destruct rhits_map as (m & M & F).
  assert (L : (3 <= length (tk_hits (rtrack (1 / 2))))%nat) by (cbn; lia).
  assert (Sd : forall G th, snd (seed (rC G th) S fs_start (rread (1 / 2)) (tk_hits (rtrack (1 / 2)))) = Ok (rread (1 / 2)))
    by reflexivity.
  destruct (run_alone S (rtrack (1 / 2)) _ _ (rread (1 / 2)) _ m Up eq_refl (rstate_read (1 / 2)) L Sd M F eq_refl) as (th & R).
  destruct (R ex_gbl) as (t & o & fr & points & A & T & Tie & Mp & Rs & W & Rf & Er).
  assert (Hi : forall h, In (Some h) (single_hits (tk_hits (rtrack (1 / 2)))) -> is_int (h_cell h)).
  { intros h I. cbn in I. repeat destruct I as [I|I]; try (injection I as <-; unfold is_int; cbn; lia). destruct I. }
  assert (P := W). destruct P as (_ & _ & _ & _ & ts & Es & _ & Tr & Pr & _ & Lc).
  destruct (C48_read 1 ts) as ((Ex & _) & _ & Rp); [lra|]. destruct Ex as [tp Rd]; [lia|]. destruct (Rp tp Rd) as (Pp & _ & Pf).
  exists (rC ex_gbl th), S, (rtrack (1 / 2)), o, (rread (1 / 2)), t, points, fr, ts, tp.
  split; [exact ex_env_ok|]. split; auto.
  split; [apply (seed_spec _ _ _ (rstate (0, 0, 1 / 2)) (rread (1 / 2))); [exact L|reflexivity|exact (rstate_read (1 / 2))|apply Sd]|].
  split; [apply makeTrajectory_spec; [exact ex_env_ok|exact Hi|exact T]|].
  split; auto. split; auto. split; auto. split; [rewrite Es; left; reflexivity|]. split; [exact Rd|].
  assert (Pe : forall i, tp_par (fr_tp fr) i = tp_par tp i) by (intros i; rewrite Pp; symmetry; apply Pr).
  assert (Pz : tp_par (fr_tp fr) = tp_par tp) by (extensionality i; apply Pe).
  intros f g s Hf Hg. rewrite Pz in Hf.
  assert (Om : tp_par tp OMEGA <> 0).
  { rewrite <- Pz, Er; [cbn; lra|]. cbn. lia. }
  assert (Qf := helix_is_hcurve _ _ _ Om Hf s). assert (Qg := helix_is_hcurve _ _ _ Om Hg s).
  rewrite Qf, Qg, Rf, Pf, Tr. unfold hcurve. cbn. ring.
Qed.
Print Assumptions C76_reference_refuted.

(** C75: that track again; the fitter reports a failure, and a track with the
    parameters of the seed is written all the same. *)
Theorem C75_failed_fit_refuted : exists th o points itp ts,
  alone (rC ex_gbl th) shipped (rtrack 0) = Ok o /\ fst (gbl_fit ex_gbl points) <> 0%Z
  /\ start_seed (rC ex_gbl th) rhits itp
  /\ ot_states o = [ts] /\ forall i, unit_factor 1 i * lcio_par ts i = tp_par itp i.
Proof.
  destruct rstart as (tp & Up & Rf & St). destruct rhits_map as (m & M & F).
  assert (L : (3 <= length (tk_hits (rtrack 0)))%nat) by (cbn; lia).
  assert (Sd : forall G th, snd (seed (rC G th) shipped fs_start (rread 0) (tk_hits (rtrack 0))) = Ok tp).
  { intros G th. unfold seed. cbn [shipped sg_start sg_prefit]. change (tk_hits (rtrack 0)) with rhits.
    rewrite (proj1 (St G th)). reflexivity. }
  destruct (run_alone shipped (rtrack 0) _ _ tp _ m Up eq_refl (rstate_read 0) L Sd M F eq_refl) as (th & R).
  destruct (R ex_gbl) as (t & o & fr & points & A & T & Tie & Mp & Rs & W & _ & Er).
  destruct W as (_ & _ & _ & _ & ts & Es & _ & Tr & Pr & _ & Lc).
  exists th, o, points, tp, ts. split; auto. split; [cbn; lia|]. split; [apply St|]. split; auto.
  intros i. rewrite <- (Er ltac:(cbn; lia) i). apply Pr.
Qed.
Print Assumptions C75_failed_fit_refuted.

(** C73, C74: tracks of two and of three hits *)
Definition rshort : track := Trk (Some (rstate (0, 0, 0))) (firstn 2 rhits).

Example short_instance : forall C, re_mm C = 1 ->
  (length (tk_hits rshort) < 3)%nat /\ tk_state rshort = Some (rstate (0, 0, 0))
  /\ readLCIO (re_mm C) (rstate (0, 0, 0)) = Ok (rread 0).
Proof. intros C Q. rewrite Q. split; [cbn; lia|]. split; [reflexivity|apply rstate_read]. Qed.

Example three_instance : forall C, re_mm C = 1 ->
  let trk := Trk (Some (rstate (0, 0, 0))) [rhit 1 5 (V3 0 0 0); rhit 3 9 (V3 1 (-1) 0); rhit 4 9 (V3 0 (-2) 10)] in
  alone C shipped trk = NonFin
  /\ turn (V3 0 0 0) (V3 1 (-1) 0) (V3 0 (-2) 10) <> 0.
Proof.
  intros C Q trk. split; [|unfold turn; cbn; lra].
  apply (C74_three_hits C shipped trk (rstate (0, 0, 0)) (rread 0)); auto. rewrite Q. apply rstate_read.
Qed.

(** C73: two events are written, the third has no track collection *)
Example program_instance : exists th, forall G, exists o,
  refitProgram (rC G th) shipped
    [Some [rtrack 0; rshort]; Some []; None; Some []]
  = ([[o; newTrack]; []], Throw).
Proof.
  destruct shipped_instance as (th & R). exists th. intros G. destruct (R G) as (_ & _ & o & _ & _ & _ & _ & _ & A & _).
  exists o.
  destruct (refitProgram (rC G th) shipped
    [Some [rtrack 0; rshort]; Some []; None; Some []]) as [out r] eqn:Q.
  destruct (C73_program _ _ _ _ _ Q) as [P E].
  assert (B : alone (rC G th) shipped rshort = Ok (OT [] [] 0 0 0)).
  { apply (C73_short_track (rC G th) shipped _ (rstate (0, 0, 0)) (rread 0)); [cbn; lia|reflexivity|exact (rstate_read 0)]. }
  assert (N : forall os, ~ event_done (rC G th) shipped None os) by (intros os (tr & D & _); discriminate).
  destruct out as [|os1 out]; [|destruct out as [|os2 out]; [|destruct out as [|os3 out]]]; cbn [length firstn] in P.
  - exfalso. destruct E as [[_ E]|(ev & E1 & _ & E2)]; [discriminate|]. cbn in E1. injection E1 as <-.
    destruct E2 as [[E2 _]|(l1 & trk & l2 & E2 & _ & E3)]; [discriminate|]. injection E2 as E2.
    destruct l1 as [|a l1]; [|destruct l1 as [|b l1]]; cbn [app] in E2.
    + injection E2 as <- _. rewrite A in E3. exact E3.
    + injection E2 as _ <- _. rewrite B in E3. exact E3.
    + injection E2 as _ _ E2. destruct l1; discriminate.
  - exfalso. destruct E as [[_ E]|(ev & E1 & _ & E2)]; [discriminate|]. cbn in E1. injection E1 as <-.
    destruct E2 as [[E2 _]|(l1 & trk & l2 & E2 & _ & E3)]; [discriminate|]. injection E2 as E2. destruct l1; discriminate.
  - inversion P as [|? ? ? ? P1 P2]. inversion P2 as [|? ? ? ? P3 _]. subst.
    destruct P1 as (tr & D & F1). injection D as <-. inversion F1 as [|? o1 ? ? X1 F2]. inversion F2 as [|? o2 ? ? X2 F3]. inversion F3. subst.
    rewrite A in X1. rewrite B in X2. injection X1 as <-. injection X2 as <-.
    destruct P3 as (tr & D & F1'). injection D as <-. inversion F1'. subst.
    f_equal. destruct E as [[_ E]|(ev & E1 & _ & E2)]; [discriminate|]. cbn in E1. injection E1 as <-.
    destruct E2 as [[_ ->]|(l1 & trk & l2 & E2 & _)]; [reflexivity|discriminate].
  - exfalso. inversion P as [|? ? ? ? P1 P2]. inversion P2 as [|? ? ? ? P3 P4]. inversion P4 as [|? ? ? ? P5 _]. apply (N _ P5).
Qed.

(** C75: that track in a detector without surfaces *)
Example nothing_instance : forall E P G cell d1, env_ok E ->
  alone (RE 1 E P G [] cell d1) shipped (rtrack 0) = UB.
Proof.
  intros E P G cell d1 Eo.
  destruct (C74_start_helix (RE 1 E P G [] cell d1) rhits) as (h1 & h2 & h3 & (A1 & A2 & A3) & _ & Ok3); [cbn; lia|].
  cbn in A1, A2, A3. injection A1 as <-. injection A2 as <-. injection A3 as <-.
  destruct Ok3 as (itp & St & _); [unfold turn; cbn; lra|].
  apply (C75_nothing_crossed _ shipped _ (rstate (0, 0, 0)) (rread 0) itp); auto.
  - cbn. lia.
  - exact (rstate_read 0).
  - unfold seed. cbn [shipped sg_start sg_prefit]. change (tk_hits (rtrack 0)) with rhits. rewrite St. reflexivity.
  - intros surf I. destruct I.
Qed.

(** C75: the hypotheses of C75_complete for the track with the reference point up
    the axis *)
Example complete_instance : exists th, forall G, let C := rC G th in let S := Steer false false true in
  env_ok (re_env C) /\ re_mm C <> 0 /\ (3 <= length (tk_hits (rtrack (1 / 2))))%nat
  /\ (forall h, In (Some h) (single_hits (tk_hits (rtrack (1 / 2)))) -> is_int (h_cell h))
  /\ ~ In None (single_hits (tk_hits (rtrack (1 / 2))))
  /\ forall itp, seeded C S (rtrack (1 / 2)) itp ->
     (exists t points fr, refit_trajectory C S itp (tk_hits (rtrack (1 / 2))) t /\ makePoints (tr_elems t) = Ok points
        /\ is_result (re_env C) (re_gbl C) points t 0 fr)
     /\ forall s surf surf', In surf (re_surfaces C) -> In surf' (re_surfaces C) ->
          found (mkTraj itp (Some (re_prop C))) surf s -> found (mkTraj itp (Some (re_prop C))) surf' s -> surf = surf'.
Proof.
  set (S := Steer false false true).
  assert (Up : upward (rread (1 / 2))).
  { constructor; cbn; try lra.
    - rewrite Rabs_R0. generalize PI_pos. lra.
    - replace ((1 - (1 / 2 + 0)) / 1) with (1 / 2) by field. replace (1 / 1) with 1 by field. rewrite Rabs_R1.
      generalize PI2_3_2. lra. }
  destruct rhits_map as (m & M & F).
  assert (L : (3 <= length (tk_hits (rtrack (1 / 2))))%nat) by (cbn; lia).
  assert (Sd : forall G th, snd (seed (rC G th) S fs_start (rread (1 / 2)) (tk_hits (rtrack (1 / 2)))) = Ok (rread (1 / 2)))
    by reflexivity.
  destruct (run_alone S (rtrack (1 / 2)) _ _ (rread (1 / 2)) _ m Up eq_refl (rstate_read (1 / 2)) L Sd M F eq_refl) as (th & R).
  exists th. intros G. destruct (R G) as (t & o & fr & points & A & T & Tie & Mp & Rs & W & Rf & Er).
  assert (Hi : forall h, In (Some h) (single_hits (tk_hits (rtrack (1 / 2)))) -> is_int (h_cell h)).
  { intros h I. cbn in I. repeat destruct I as [I|I]; try (injection I as <-; unfold is_int; cbn; lia). destruct I. }
  cbv zeta. split; [exact ex_env_ok|]. split; [cbn; lra|]. split; auto. split; auto. split.
  { cbn. intros I. repeat destruct I as [I|I]; discriminate || destruct I. }
  intros itp (ts & rd & Q & Rd & Z & _). injection Q as <-.
  change (re_mm (rC G th)) with 1 in Rd. rewrite (rstate_read (1 / 2)) in Rd. injection Rd as <-. rewrite (Z eq_refl).
  split.
  - exists t, points, fr. split; [apply makeTrajectory_spec; [exact ex_env_ok|exact Hi|exact T]|]. auto.
  - intros s surf surf' [<-|[]] [<-|[]] _ _. reflexivity.
Qed.
