(** Concrete cases meeting the hypotheses of the theorems of PropFit.v and
    PropFit2.v: a silicon disk with a measurement, prepared, fitted by a fitter
    that fails, and queried. *)
From Coq Require Import Reals List Bool ZArith Lra Lia Permutation Sorted.
From Coquelicot Require Import Coquelicot.
From Verif Require Import Num Vec Helix Isect Trans Material Traj.
From Verif Require Import NumFacts SpecHelix HelixFacts PathFacts MoveFacts SpecIsect SurfFacts SurfFacts2
  SpecMaterial MaterialFacts SpecTraj TrajFacts TrajFacts2 TrajFacts3 TrajFacts4 TrajFacts5 TrajEx PropSurf PropTraj PropTraj2
  PropTrajEx Fit SpecFit FitFacts FitFacts2 PropFit PropFit2.
Import ListNotations.
Open Scope R_scope.

Lemma station_lossTerm th e : te_scat e = true -> te_surf e = Some (ex_station 1 th (fun _ => true)) ->
  tp_par (te_tp e) OMEGA <> 0 -> tp_par (te_tp e) TANL <> 0 ->
  exists nrj, lossTerm ex_env pionMass e = Ok nrj.
Proof.
  intros S U Ho Ht. unfold lossTerm. rewrite S, U.
  set (hp := tp_par (te_tp e)) in *. set (rp := tp_ref (te_tp e)).
  set (s := (1 - (vz rp + hp Z0)) / hp TANL).
  assert (HI : intersectWithSurface (ex_station 1 th (fun _ => true)) hp rp (OVal 0 v3zero) 0 true = Ok (true, OVal s (hcurve hp rp s))).
  { rewrite station_isect by auto. fold s. replace (mode_ok 0 s) with true; [reflexivity|].
    unfold mode_ok. destruct Rlt_dec; reflexivity. }
  destruct (eloss_track (en_gfield ex_env) (ex_station 1 th (fun _ => true)) (te_tp e) (hcurve hp rp) pionMass s (hcurve hp rp s))
    with (s' := s) as [_ L]; try (cbn; unfold pionMass; lra); auto.
  { apply hcurve_helix. auto. }
  destruct L as (el & bi & bo & -> & _ & _ & _ & En & _ & Be & _).
  { cbn [ex_station sf_normal]. unfold calculateTangent, vdot. cbn [vx vy vz]. unfold calculateLambda. fold hp.
    rewrite sin_atan_cos. generalize (cos_atan_pos (hp TANL)). intros Cp Q.
    assert (hp TANL * cos (atan (hp TANL)) = 0) by lra. apply Rmult_integral in H. destruct H; lra. }
  cbn [bind]. rewrite rdiv_ok; eauto. assert (0 < pionMass) by (unfold pionMass; lra).
  assert (0 < el_beta el * el_beta el) by nra. assert (0 < el_beta el * el_beta el * el_energy el) by nra. lra.
Qed.

Lemma station_angle th uv mom mass : 1 / 100 <= th -> mom <> v3zero -> vz mom <> 0 ->
  exists a, computeQMS_uv (ex_station 1 th (fun _ => true)) uv mom mass = Ok a /\ a <> 0.
Proof.
  intros Lt Nm Nz.
  assert (V := vr_pos mom Nm).
  set (n := sf_normal (ex_station 1 th (fun _ => true)) (sf_localToGlobal (ex_station 1 th (fun _ => true)) uv)).
  assert (Nd : vdot mom n <> 0) by (unfold n; cbn; unfold vdot; cbn; lra).
  eexists. split; [apply qms_value; cbn; auto; try lra|]. cbn.
  set (c := cos_angle mom (V3 0 0 1)).
  assert (C1 : Rabs c <= 1).
  { unfold c, cos_angle, vdot. cbn. replace (vx mom * 0 + vy mom * 0 + vz mom * 1) with (vz mom) by ring.
    assert (Rabs (vz mom) <= vr mom).
    { unfold vr. rewrite <- sqrt_Rsqr_abs. apply sqrt_le_1_alt. unfold Rsqr. nra. }
    unfold Rdiv. rewrite Rabs_mult, Rabs_inv, (Rabs_right (vr mom)) by lra.
    apply Rmult_le_reg_r with (vr mom); auto. rewrite Rmult_assoc, Rinv_l by lra. lra. }
  assert (C0 : 0 < Rabs c).
  { apply Rabs_pos_lt. unfold c, cos_angle, vdot. cbn. replace (vx mom * 0 + vy mom * 0 + vz mom * 1) with (vz mom) by ring.
    unfold Rdiv. apply Rmult_integral_contrapositive. split; auto. apply Rinv_neq_0_compat. lra. }
  set (t := (th / (936 / 100) + 0 / (936 / 100)) / Rabs c).
  assert (T : 1 / 1000 < t).
  { unfold t. apply Rlt_le_trans with (th / (936 / 100) + 0 / (936 / 100)); [lra|].
    rewrite <- (Rmult_1_r (_ + _)) at 1. unfold Rdiv at 3. apply Rmult_le_compat_l; [lra|].
    rewrite <- Rinv_1 at 1. apply Rinv_le_contravar; auto. }
  destruct (highland_sign (vr mom) mass t V ltac:(lra)) as [H _].
  assert (0 < highland (vr mom) mass t); [|lra]. apply H. apply Rlt_trans with (1 / 1000); auto.
  (* exp (-26.3) < 1/1000 as exp 1 > 2 *)
  assert (E1 : exp (1000 / 38) > 1000).
  { assert (E2 : exp (INR 10) > 1000).
    { assert (exp (INR 10) = exp 1 ^ 10).
      { rewrite <- Rpower_pow by apply exp_pos. unfold Rpower. rewrite ln_exp, Rmult_1_r. auto. }
      rewrite H0. apply Rlt_gt, Rlt_le_trans with (2 ^ 10).
      - lra.
      - apply pow_incr. split; [lra|]. left. apply (exp_ineq1 1). lra. }
    apply Rgt_trans with (exp (INR 10)); auto. apply exp_increasing. cbn. lra. }
  rewrite exp_Ropp. rewrite <- (Rinv_inv (1 / 1000)). apply Rinv_lt_contravar.
  - apply Rmult_lt_0_compat; [|apply exp_pos]. lra.
  - replace (/ (1 / 1000)) with 1000 by field. auto.
Qed.

(** The history [addMeasurement (scattering); prepareForFitting] with two
    elements, ready for the fit. *)
Lemma ex_prepared : exists c t e0' e' a,
  history ex_env has_precision (mkTraj ex_ref (Some ex_prop)) ([c] ++ CPrep :: []) t
  /\ tr_elems t = [e0'; e'] /\ te_meas e' = true /\ te_scat e' = true
  /\ te_prec e' = [Some 1; Some 1; Some (a * a); Some 0; Some 0] /\ a <> 0
  /\ te_tp e0' = ex_ref.
Proof.
  destruct (ex_first_hit (Some ex_prop) 1 (fun _ => true) v3zero [1; 1] 7 true ltac:(lra)) as (th & e & Th & A & N).
  set (surf := ex_station 1 th (fun _ => true)) in *.
  destruct (newMeasurement_spec _ _ _ _ _ _ _ _ _ N) as (s0 & xx & moved & fid & mom & el & B & _ & _ & _ & pl & Pl & Pr).
  destruct Pl as [(W & _)|(_ & q & Hq & Ep)]; [discriminate W|].
  assert (Ho : tp_par (te_tp ex_initial) OMEGA <> 0) by (cbn; lra).
  assert (Ht : tp_par (te_tp ex_initial) TANL <> 0) by (cbn; lra).
  assert (Is := bu_isect _ _ _ _ _ _ _ _ _ _ _ _ _ _ _ B). unfold surf in Is.
  rewrite station_isect in Is by auto. injection Is as _ Is Ix.
  assert (S1 : s0 = 1) by (rewrite <- Is; cbn; field).
  assert (Es : te_s e = 1) by (rewrite (bu_s _ _ _ _ _ _ _ _ _ _ _ _ _ _ _ B), S1; cbn; ring).
  assert (Mv := bu_move _ _ _ _ _ _ _ _ _ _ _ _ _ _ _ B).
  destruct (move_ok (te_tp ex_initial) xx Ho) as (p' & fid' & Mv' & Sp & _).
  rewrite Mv in Mv'. injection Mv' as Em _.
  assert (Mo : tp_par moved OMEGA <> 0) by (rewrite Em; cbn [tp_par]; rewrite (ms_om _ _ _ _ Sp); auto).
  assert (Mt : tp_par moved TANL <> 0) by (rewrite Em; cbn [tp_par]; rewrite (ms_tl _ _ _ _ Sp); auto).
  assert (Al := bu_tp _ _ _ _ _ _ _ _ _ _ _ _ _ _ _ B).
  assert (Te : tp_par (te_tp e) TANL <> 0).
  { rewrite (proj2 (applyLoss_keep _ _ _ Al)) by discriminate. auto. }
  assert (To : tp_par (te_tp e) OMEGA <> 0).
  { apply applyLoss_spec in Al. destruct Al as (A1 & A2 & ->). cbn. unfold v5set.
    destruct (idx_eq_dec OMEGA OMEGA); [|contradiction]. unfold Rdiv.
    apply Rmult_integral_contrapositive. split; auto. apply Rinv_neq_0_compat. lra. }
  destruct (station_loss (tp_par moved) (tp_ref moved) pionMass Mo Mt pion_pos) as (mom' & K & Ee & Mm & _ & Nm & Nz & _).
  assert (Mm' := bu_mom _ _ _ _ _ _ _ _ _ _ _ _ _ _ _ B). cbn [ex_env en_gfield] in Mm'.
  rewrite Mm in Mm'. injection Mm' as <-.
  destruct (station_angle th (sf_globalToLocal surf xx) mom' pionMass ltac:(lra) Nm Nz) as (a & Qa & Na).
  fold surf in Qa. rewrite Qa in Hq. injection Hq as <-.
  set (c := CMeas v3zero [1; 1] surf 7 true). set (t := set_elems (ex_traj (Some ex_prop)) [ex_initial; e]).
  assert (Sc : te_scat e = true) by apply (bu_scat _ _ _ _ _ _ _ _ _ _ _ _ _ _ _ B).
  assert (St : step ex_env (mkTraj ex_ref (Some ex_prop)) c t) by (apply step_meas with (Ok true); [exact A|left; eauto]).
  assert (Srt : en_sortE ex_env (tr_elems t) = [ex_initial; e]).
  { apply isort_id. constructor; [constructor; [constructor|constructor]|]. constructor; [cbn; lra|constructor]. }
  assert (Tg : forall s, exists v, tr_tangentAt (set_elems t [ex_initial; e]) s = Ok v)
    by (intros s; unfold tr_tangentAt, trajectoryElementAt; cbn [set_elems tr_elems bind]; eauto).
  destruct (Tg 0) as [v1 T1]. destruct (Tg (te_s e)) as [v2 T2].
  destruct (station_lossTerm th e Sc (bu_surf _ _ _ _ _ _ _ _ _ _ _ _ _ _ _ B) To Te) as (nrj & Ln).
  set (dw := (te_s e - 0) / cos (atan (tp_par (te_tp e) TANL))).
  destruct (C35_complete ex_env t ex_initial [e] [setJacobian e (fun i j => dw)] Srt) as (e0' & P & Sj & J0).
  { apply prep_cons with (J := fun i j => dw); [repeat split|reflexivity| |constructor].
    exists ex_prop, nrj, v1, v2. split; auto. split; [apply lossTerm_spec; exact Ln|]. split; auto. }
  exists c, (set_elems t [e0'; setJacobian e (fun i j => dw)]), e0', (setJacobian e (fun i j => dw)), a.
  split.
  { apply hist_snoc with (t := t); [|exact I|constructor; exact P].
    change [c] with ([] ++ [c]). apply hist_snoc with (t := mkTraj ex_ref (Some ex_prop)); [constructor| |exact St].
    left. discriminate. }
  split; [reflexivity|]. split; [apply (bu_meas _ _ _ _ _ _ _ _ _ _ _ _ _ _ _ B)|]. split; [exact Sc|].
  split; [cbn; rewrite Pr, Ep; reflexivity|]. split; auto. symmetry. apply (proj1 (proj2 Sj)).
Qed.

(** a fitter that reports failure, minus one degree of freedom, and at each point
    a correction of the curvature by its label minus one, counted from one *)
Definition ex_corr (_ : list gpoint) (k : nat) : vec5 * mat5 := (mk5 (INR k) 0 0 0 0, m5zero).
Definition ex_gbl : gbl :=
  Gbl (fun _ => (1%Z, (0, (-1)%Z, 0)))
      (fun points label => if Z.ltb 0 label then (0%Z, mk5 (INR (pred (Z.to_nat label))) 0 0 0 0, m5zero)
                           else (1%Z, mk5 0 0 0 0 0, m5zero)).

Lemma ex_from_one : labels_from_one ex_gbl ex_corr.
Proof.
  intros points k L. unfold ex_gbl, ex_corr. cbn [gbl_results fst snd].
  destruct (Z.ltb_spec 0 (Z.of_nat (S k))) as [_|B]; [|lia]. rewrite Nat2Z.id. reflexivity.
Qed.

(** C45, C57, C58: two elements, the second a measurement on a scatterer. *)
Example fit_instance : exists c t w st', 
  history ex_env has_precision (mkTraj ex_ref (Some ex_prop)) ([c] ++ CPrep :: []) t
  /\ history ex_env any_call (mkTraj ex_ref (Some ex_prop)) ([c] ++ CPrep :: []) t
  /\ w 0%nat = Some t /\ List.Forall fittable (tr_elems t)
  /\ fit ex_gbl w fs_start 0 = (st', Ok false)
  /\ exists points e p a, if_traj (fs_if st') = Some points /\ length points = 2%nat
     /\ nth_error (tr_elems t) 1 = Some e /\ te_scat e = true /\ te_meas e = true
     /\ nth_error points 1 = Some p /\ a <> 0
     /\ gp_scat p = Some ((0, 0), Some (1 / (a * a), 0, 0, 1 / (a * a))).
Proof.
  destruct ex_prepared as (c & t & e0' & e' & a & H & El & Me & Sc & Pr & Na & _).
  set (w := fun n : nat => match n with 0%nat => Some t | _ => None end).
  assert (Ha : history ex_env any_call (mkTraj ex_ref (Some ex_prop)) ([c] ++ [CPrep]) t)
    by exact (history_weaken _ _ _ _ _ _ (fun _ _ _ => Logic.I) H).
  destruct (C58_after_preparation ex_env ex_gbl ex_ref (Some ex_prop) [c] [] t w fs_start 0 ex_env_ok H ltac:(constructor) eq_refl)
    as (b & F).
  destruct (C58_fit ex_env ex_gbl ex_ref (Some ex_prop) _ t w fs_start 0 ex_env_ok Ha eq_refl) as [A B].
  assert (D : List.Forall fittable (tr_elems t)).
  { destruct (Classical_Prop.classic (List.Forall fittable (tr_elems t))) as [D|D]; auto.
    exfalso. rewrite (B D) in F. discriminate. }
  destruct (A D) as (st' & points & b' & F' & T & P & Q).
  assert (b' = false) as ->. { destruct b'; auto. exfalso. destruct Q as [Q _]. specialize (Q eq_refl). discriminate. }
  exists c, t, w, st'. split; auto. split; auto. split; auto. split; auto. split; auto.
  assert (N : nth_error (tr_elems t) 1 = Some e') by (rewrite El; auto).
  destruct (forall2_nth _ _ _ _ _ P N) as (p & Np & Pf).
  exists points, e', p, a. split; auto.
  split; [rewrite El in P; inversion P as [|? ? ? ? _ P1]; inversion P1 as [|? ? ? ? _ P2]; inversion P2; reflexivity|].
  split; auto. split; auto. split; auto. split; auto. split; auto.
  assert (Mp : makePoints (tr_elems t) = Ok points).
  { unfold fit in F'. cbn [w] in F'. destruct (makePoints (tr_elems t)) as [ps| | | |]; try discriminate.
    cbn in F'. injection F' as <-. cbn in T. congruence. }
  rewrite El in Mp. cbn [makePoints] in Mp. dres Mp. dres Mp. injection Mp as <-. dres B1. injection B1 as <-.
  cbn in Np. injection Np as <-. clear - B2 Sc Pr Na. unfold makePoint in B2.
  destruct (te_jac e'); [|discriminate]. dres B2. dres B2. injection B2 as <-. cbn [gp_scat].
  unfold scatPart in B0. rewrite Sc, Pr in B0. cbn [rev app] in B0. injection B0 as <-.
  assert (V := scat_value (Ok a) (Some (a * a)) eq_refl). unfold scatMatrix in V. cbv zeta in V. rewrite V. destruct (Req_EM_T a 0); [contradiction|reflexivity].
Qed.

(** C43, C44: a failed fit with minus one degree of freedom, queried at two labels
    and repeatedly; the results are flagged valid, and the correction found at the
    first point (none) is the one used for the second element. *)
Example query_instance : exists t w log st a0 a1 fr,
  tr_elems t <> [] /\ w 0%nat = Some t
  /\ log = [EvFit w 0 (Ok false); EvGet w 0 (Ok a0); EvGet w 1 (Ok a1); EvGet w 0 (Ok a0)]
  /\ fhist ex_env ex_gbl log st /\ a0 <> a1
  /\ holds st a0 fr /\ fr_valid fr = true /\ fr_ndf fr = 4294967295%Z
  /\ (forall i, tp_par (fr_tp fr) i = tp_par ex_ref i)
  /\ snd (getResults ex_env ex_gbl w st 2) = UB.
Proof.
  destruct ex_prepared as (c & t & e0' & e' & a & H & El & Me & Sc & Pr & Na & Tp0).
  set (w := fun n : nat => match n with 0%nat => Some t | _ => None end).
  assert (Ha : history ex_env any_call (mkTraj ex_ref (Some ex_prop)) ([c] ++ [CPrep]) t)
    by exact (history_weaken _ _ _ _ _ _ (fun _ _ _ => Logic.I) H).
  destruct (C58_after_preparation ex_env ex_gbl ex_ref (Some ex_prop) [c] [] t w fs_start 0 ex_env_ok H ltac:(constructor) eq_refl)
    as (b & F).
  destruct (fit ex_gbl w fs_start 0) as [st1 r] eqn:F1. cbn [snd] in F. subst r.
  assert (b = false) as ->.
  { unfold fit in F1. cbn [w] in F1. destruct (makePoints (tr_elems t)); try discriminate. cbn in F1. injection F1 as _ <-. auto. }
  assert (H1 : fhist ex_env ex_gbl ([] ++ [EvFit w 0 (Ok false)]) st1)
    by (eapply fh_fit; [constructor|exact F1|left; eauto]).
  assert (Bf : forall x, en_bfield ex_env x <> v3zero).
  { intros x Q. cbn in Q. unfold ex_field in Q. injection Q as Q. lra. }
  assert (N0 : no_fit []) by (intros ? ? ? []).
  (* label 0 *)
  destruct (C43_defined ex_env ex_gbl _ st1 w 0 H1) as (_ & _ & D).
  destruct (D [] w 0%nat false [] eq_refl N0) as [_ D2]. destruct D2 as [_ D3]; [intros ? ? []|].
  destruct (D3 t eq_refl) as [_ D4]. destruct (D4 e0' ltac:(lia)) as [_ D5]; [rewrite El; reflexivity|].
  destruct (D5 (Bf _)) as (a0 & G0). destruct (getResults ex_env ex_gbl w st1 0) as [st2 r] eqn:Q0. cbn [snd] in G0. subst r.
  assert (H2 : fhist ex_env ex_gbl (([] ++ [EvFit w 0 (Ok false)]) ++ [EvGet w 0 (Ok a0)]) st2)
    by (eapply fh_get; [exact H1|exact Q0|left; eauto]).
  clear D D3 D4 D5.
  (* label 1 *)
  destruct (C43_defined ex_env ex_gbl _ st2 w 1 H2) as (_ & _ & D).
  destruct (D [] w 0%nat false [EvGet w 0 (Ok a0)] eq_refl) as [_ D2].
  { intros ? ? ? [I|[]]. discriminate. }
  destruct D2 as [_ D3]. { intros ? ? [I|[]]. injection I as _ I. lia. }
  destruct (D3 t eq_refl) as [_ D4]. destruct (D4 e' ltac:(lia)) as [_ D5]; [rewrite El; reflexivity|].
  destruct (D5 (Bf _)) as (a1 & G1). destruct (getResults ex_env ex_gbl w st2 1) as [st3 r] eqn:Q1. cbn [snd] in G1. subst r.
  assert (H3 : fhist ex_env ex_gbl ((([] ++ [EvFit w 0 (Ok false)]) ++ [EvGet w 0 (Ok a0)]) ++ [EvGet w 1 (Ok a1)]) st3)
    by (eapply fh_get; [exact H2|exact Q1|left; eauto]).
  clear D D3 D4 D5.
  (* label 0 again *)
  assert (NF2 : no_fit [EvGet w 0 (Ok a0); EvGet w 1 (Ok a1)]).
  { intros ? ? ? [I|[I|[]]]; discriminate. }
  destruct (C43_defined ex_env ex_gbl _ st3 w 0 H3) as (_ & _ & D).
  destruct (D [] w 0%nat false [EvGet w 0 (Ok a0); EvGet w 1 (Ok a1)] eq_refl NF2) as [D2 _].
  specialize (D2 w a0 ltac:(left; reflexivity)).
  assert (H4 : fhist ex_env ex_gbl (((([] ++ [EvFit w 0 (Ok false)]) ++ [EvGet w 0 (Ok a0)]) ++ [EvGet w 1 (Ok a1)]) ++ [EvGet w 0 (Ok a0)]) st3)
    by (eapply fh_get; [exact H3|exact D2|left; eauto]).
  destruct (C43_result _ _ _ _ _ _ _ _ H3 D2) as (l1 & w0 & tid & b & l2 & t0 & points & w1 & t1 & fr & A1 & A2 & A3 & A4 & _ & A6 & A7 & A8 & A9).
  destruct (last_fit_unique (EvFit w 0 (Ok false)) (EvFit w0 tid (Ok b)) [] [EvGet w 0 (Ok a0); EvGet w 1 (Ok a1)] l1 l2) as (_ & X & Y); eauto.
  injection X as <- <- <-. subst l2.
  assert (w1 = w) as ->.
  { destruct A6 as [I|[I|[I|[]]]]; injection I as <-; auto. }
  cbn [w] in A7. injection A7 as <-.
  destruct A9 as (e & J & rv & chi2 & ndf & lost & err & co & cov & X0 & X1 & X2 & X3 & X4 & X5 & X6 & X7 & X8 & X9 & X10 & X11 & _).
  cbn in X1. rewrite El in X1. injection X1 as <-.
  exists t, w, [EvFit w 0 (Ok false); EvGet w 0 (Ok a0); EvGet w 1 (Ok a1); EvGet w 0 (Ok a0)], st3, a0, a1, fr.
  split; [rewrite El; discriminate|]. split; auto. split; auto. split; [exact H4|].
  split.
  { intros Q. destruct (C43_same_object ex_env ex_gbl [EvFit w 0 (Ok false)] [] w 0 a0 w 1 a1 st3) as [[C _] _]; auto.
    specialize (C Q). discriminate. }
  split; auto. split; auto. split.
  { rewrite X8. cbn in X3. injection X3 as _ _ <- _. reflexivity. }
  split.
  { rewrite <- Tp0. apply X11. cbn in X4. injection X4 as <- _ _. lia. }
  destruct (C43_defined ex_env ex_gbl _ st3 w 2 H3) as (_ & _ & D').
  destruct (D' [] w 0%nat false [EvGet w 0 (Ok a0); EvGet w 1 (Ok a1)] eq_refl NF2) as [_ D3].
  destruct D3 as [_ D3]; [intros ? ? [I|[I|[]]]; injection I as _ I; lia|].
  destruct (D3 t eq_refl) as [D4 _]. apply D4. right. rewrite El. cbn. lia.
Qed.

(** C58: measurements without precision are accepted *)
Example C58_no_precision_instance : exists surf t1,
  history ex_env any_call (mkTraj ex_ref None) [] (mkTraj ex_ref None)
  /\ addMeasurement ex_env (mkTraj ex_ref None) v3zero [] surf 7 false = (t1, Ok true).
Proof.
  destruct (ex_first_hit None 1 (fun _ => true) v3zero [] 7 false ltac:(lra)) as (th & e & _ & A & _).
  do 2 eexists. split; [constructor|exact A].
Qed.

(** C45: a matrix with direction cosines *)
Example C45_matrix_instance : (4 : R) <> 0 /\ 1 - (1 / 2) * (1 / 2) - (1 / 2) * (1 / 2) <> 0
  /\ 0 < 1 - (1 / 2) * (1 / 2) - (1 / 2) * (1 / 2).
Proof. split; [lra|split; lra]. Qed.
