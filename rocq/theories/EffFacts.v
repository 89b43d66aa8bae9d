(** The program material_effects: independence of the events, hits, trajectory. *)
From Coq Require Import Reals List Bool ZArith Lra Lia Permutation.
From Verif Require Import Num Vec Helix Isect Trans Material Traj Fit LCIO Refit MatEff.
From Verif Require Import NumFacts SpecMat SpecHelix SpecTraj SpecElem SpecFit SpecLCIO SpecRefit SpecEff
  TrajFacts4 FitFacts PropTraj PropTraj2 RefitFacts RefitFacts2 RefitFacts3.
Import ListNotations.
Open Scope R_scope.

(** ** one track, without the state *)
Definition eff_value (C : renv) (address : Z) (m : list (Z * hit)) (trk : track) : res otrack :=
  itp <- match tk_state trk with None => UB | Some ts => readLCIO (re_mm C) ts end ;;
  tu <- effTrajectory C address (effFill m (tk_hits trk)) itp ;;
  x <- fit_value C (fst tu) ;;
  effFillTrack C (snd tu) (snd x).

Lemma effTrack_value C address st trk :
  snd (effTrack C address st trk) = eff_value C address (es_map st) trk
  /\ forall o, snd (effTrack C address st trk) = Ok o -> es_map (fst (effTrack C address st trk)) = [].
Proof.
  unfold effTrack, eff_value.
  match goal with |- context [sbind (st, ?r) _] => destruct r as [itp| | | |] end; cbn [sbind bind snd fst es_fit];
    try (split; [reflexivity|intros; discriminate]).
  destruct (effTrajectory C address (effFill (es_map st) (tk_hits trk)) itp) as [[t used]| | | |]; cbn [sbind bind snd fst es_fit];
    try (split; [reflexivity|intros; discriminate]).
  assert (F := fit_result_snd C (es_fit st) t).
  destruct (sbind (runFit C (es_fit st) t) (fun f b => firstResult C f t)) as [f r].
  cbn [snd] in F. subst r. destruct (fit_value C t) as [x| | | |]; cbn [sbind bind snd fst];
    try (split; [reflexivity|intros; discriminate]).
  destruct (effFillTrack C used (snd x)) as [o| | | |]; cbn [sbind bind snd fst es_map]; split; auto; intros; discriminate.
Qed.

Lemma effTrack_alone C address st trk : es_map st = [] ->
  snd (effTrack C address st trk) = eff_alone C address trk.
Proof.
  intros Q. unfold eff_alone. destruct (effTrack_value C address st trk) as [-> _].
  destruct (effTrack_value C address newEff trk) as [-> _]. rewrite Q. reflexivity.
Qed.

(** ** the event loop *)
Lemma effLoop_done C address : forall l st, es_map st = [] ->
  let '(out, r) := effLoop C address st l in
  exists l1 l2, l = l1 ++ l2 /\ ~ In None l1
    /\ Forall2 (fun trk o => eff_alone C address trk = Ok o) (lone_tracks l1) out
    /\ ((l2 = [] /\ r = Ok tt)
        \/ (exists l3, l2 = None :: l3 /\ r = Throw)
        \/ (exists trk l3, l2 = Some [trk] :: l3 /\ same_end (eff_alone C address trk) r)).
Proof.
  induction l as [|ev l IH]; intros st Q; cbn [effLoop].
  - exists [], []. split; auto. split; [intros []|]. split; [constructor|auto].
  - assert (Skip : (exists tr, ev = Some tr /\ forall t, tr <> [t]) ->
      effLoop C address st (ev :: l) = effLoop C address st l).
    { intros (tr & -> & N). cbn [effLoop]. destruct tr as [|a [|b tr]]; auto. exfalso. apply (N a). auto. }
    assert (Sk : (exists tr, ev = Some tr /\ forall t, tr <> [t]) ->
      let '(out, r) := effLoop C address st l in
      exists l1 l2, ev :: l = l1 ++ l2 /\ ~ In None l1
        /\ Forall2 (fun trk o => eff_alone C address trk = Ok o) (lone_tracks l1) out
        /\ ((l2 = [] /\ r = Ok tt)
            \/ (exists l3, l2 = None :: l3 /\ r = Throw)
            \/ (exists trk l3, l2 = Some [trk] :: l3 /\ same_end (eff_alone C address trk) r))).
    { intros (tr & -> & N). specialize (IH st Q). destruct (effLoop C address st l) as [out r].
      destruct IH as (l1 & l2 & -> & A & B & D). exists (Some tr :: l1), l2. split; auto.
      split; [intros [X|X]; [discriminate|auto]|]. split; auto. cbn [lone_tracks].
      destruct tr as [|a [|b tr]]; auto. exfalso. apply (N a). auto. }
    destruct ev as [[|trk [|t2 tr]]|].
    + apply Sk. exists []. split; auto. discriminate.
    + destruct (effTrack_value C address st trk) as [_ Mp].
      assert (A := effTrack_alone C address st trk Q). destruct (effTrack C address st trk) as [st1 r]. cbn [fst snd] in *.
      subst r. destruct (eff_alone C address trk) as [o| | | |] eqn:Eo;
        try (exists [], (Some [trk] :: l); split; [reflexivity|]; split; [intros []|]; split; [constructor|];
             right; right; exists trk, l; split; [reflexivity|]; rewrite Eo; exact I).
      specialize (IH st1 (Mp o eq_refl)). destruct (effLoop C address st1 l) as [out r].
      destruct IH as (l1 & l2 & -> & B & D & F). exists (Some [trk] :: l1), l2. split; auto.
      split; [intros [X|X]; [discriminate|auto]|]. split; auto. cbn [lone_tracks]. constructor; auto.
    + apply Sk. exists (trk :: t2 :: tr). split; auto. discriminate.
    + exists [], (None :: l). split; auto. split; [intros []|]. split; [constructor|]. right. left. eauto.
Qed.

(** ** the hits *)
Lemma effRaw_spec : forall raw m,
  effRaw m raw = rev (map (fun h => (h_cell h, h))
     (filter (fun h => match h_plane h with Some _ => true | None => false end) (somes raw))) ++ m.
Proof.
  induction raw as [|[h|] raw IH]; intros m; cbn [effRaw]; [reflexivity| |apply IH].
  - rewrite IH. change (somes (Some h :: raw)) with (h :: somes raw). cbn [filter].
    destruct (h_plane h); auto. cbn [map rev]. rewrite <- app_assoc. reflexivity.
Qed.

Lemma effFill_spec : forall hits m, effFill m hits = rev (map (fun h => (h_cell h, h)) (eff_hits hits)) ++ m.
Proof.
  induction hits as [|th hits IH]; intros m; cbn [effFill eff_hits flat_map]; auto.
  rewrite IH. fold (eff_hits hits). rewrite map_app, rev_app_distr, <- app_assoc. f_equal.
  destruct (th_composite th); [apply effRaw_spec|reflexivity].
Qed.

Lemma eff_find C hits surf :
  match mapFind (effFill [] hits) (re_cell C surf) with
  | Some h => eff_latest C hits surf h
  | None => forall h, In h (eff_hits hits) -> h_cell h <> re_cell C surf
  end.
Proof.
  rewrite effFill_spec, app_nil_r. unfold eff_latest. induction (eff_hits hits) as [|h hs IH]; [cbn; intros ? []|].
  cbn [map rev]. rewrite mapFind_app.
  destruct (mapFind (rev (map (fun h0 => (h_cell h0, h0)) hs)) (re_cell C surf)) as [h'|].
  - destruct IH as (l1 & l2 & -> & P & L). exists (h :: l1), l2. auto.
  - unfold mapFind. cbn [find fst]. destruct (Z.eqb_spec (h_cell h) (re_cell C surf)) as [Q|Q].
    + exists [], hs. auto.
    + intros h' [<-|I]; auto.
Qed.

Lemma eff_latest_unique C hits surf h h' : eff_latest C hits surf h -> eff_latest C hits surf h' -> h' = h.
Proof.
  intros (l1 & l2 & E & A & B) (m1 & m2 & E' & A' & B'). rewrite E in E'. clear E. revert m1 E'.
  induction l1 as [|x l1 IH]; intros m1 E'; destruct m1 as [|y m1]; cbn in E'.
  - congruence.
  - exfalso. injection E' as _ E'. apply (B h'); auto. rewrite E'. apply in_or_app. right. left. auto.
  - exfalso. injection E' as _ E'. apply (B' h); auto. rewrite <- E'. apply in_or_app. right. left. auto.
  - injection E' as _ E'. apply (IH _ E').
Qed.

Lemma effInfo_spec C h pos prec : effInfo C h = Ok (pos, prec) <-> eff_measured C h pos prec.
Proof.
  unfold effInfo, eff_measured. rewrite inUnits_scale.
  assert (Iv : forall a, 1 / (a * a) = / Rsqr a) by (intros a; unfold Rdiv, Rsqr; ring).
  assert (Go : forall du dv,
     (if Req_EM_T dv 0 then p0 <- rdiv 1 (du * du) ;; Ok (vscale (re_mm C) (h_pos h), [p0])
      else p0 <- rdiv 1 (du * du) ;; p1 <- rdiv 1 (dv * dv) ;; Ok (vscale (re_mm C) (h_pos h), [p0; p1])) = Ok (pos, prec)
     <-> pos = vscale (re_mm C) (h_pos h) /\ du <> 0 /\ (dv <> 0 -> prec = [/ Rsqr du; / Rsqr dv])
         /\ (dv = 0 -> prec = [/ Rsqr du])).
  { intros du dv. destruct (Req_dec du 0) as [U|U].
    - rewrite U. replace (0 * 0) with 0 by ring. rewrite rdiv_zero. cbn [bind].
      split; [destruct (Req_EM_T dv 0); discriminate|tauto].
    - rewrite (rdiv_ok 1 (du * du)) by (apply sqr_nz; auto). cbn [bind]. rewrite Iv. destruct (Req_EM_T dv 0) as [V|V].
      + split; [intros H; injection H as <- <-; tauto|]. intros (-> & _ & _ & P). rewrite P by auto. reflexivity.
      + rewrite (rdiv_ok 1 (dv * dv)) by (apply sqr_nz; auto). cbn [bind]. rewrite Iv.
        split; [intros H; injection H as <- <-; tauto|]. intros (-> & _ & P & _). rewrite P by auto. reflexivity. }
  destruct (h_plane h) as [[dU dV]|].
  - cbn [bind fst snd]. rewrite Go. split.
    + intros (A & B & D & F). split; auto. exists dU, dV. split; [intros ? ? Q; injection Q as <- <-; auto|].
      split; [discriminate|auto].
    + intros (A & du & dv & Pl & _ & B & D & F). destruct (Pl _ _ eq_refl) as [-> ->]. auto.
  - unfold vec_at. destruct (h_cov h) as [|c0 [|c1 [|c2 l]]]; cbn [nth_error bind];
      try (split; [discriminate|intros (_ & du & dv & _ & Cv & _); destruct (Cv eq_refl) as (? & ? & ? & ? & ? & ? & ? & Q & _); discriminate]).
    destruct l as [|c3 [|c4 [|c5 l]]]; cbn [nth_error bind];
      try (split; [discriminate|intros (_ & du & dv & _ & Cv & _); destruct (Cv eq_refl) as (? & ? & ? & ? & ? & ? & ? & Q & _); discriminate]).
    cbn [fst snd]. split.
    + unfold rsqrt. destruct (Rlt_dec (c0 + c2) 0); cbn [bind]; [discriminate|].
      destruct (Rlt_dec c5 0); cbn [bind]; [discriminate|]. intros H. apply Go in H. destruct H as (A & B & D & F).
      split; auto. exists (sqrt (c0 + c2)), (sqrt c5). split; [discriminate|]. split; [|auto].
      intros _. exists c0, c1, c2, c3, c4, c5, l. split; auto. split; [apply sqrt_pos|]. split; [apply sqrt_sqrt; lra|].
      split; [apply sqrt_pos|apply sqrt_sqrt; lra].
    + intros (A & du & dv & _ & Cv & B & D & F).
      destruct (Cv eq_refl) as (d0 & d1 & d2 & d3 & d4 & d5 & rest & Q & Pu & Su & Pv & Sv). injection Q as <- <- <- <- <- <- <-.
      rewrite (rsqrt_pos _ du), (rsqrt_pos _ dv) by auto. cbn [bind]. apply Go. auto.
Qed.

(** ** the trajectory *)
Lemma effCrossing_spec C address hits st surf st' :
  effCrossing C address (effFill [] hits) st surf = Ok st' ->
  exists oc ou, eff_call C address hits surf (oc, ou)
    /\ snd st' = snd st ++ somes [ou]
    /\ match oc with
       | Some c => returning (re_env C) (fst st) c /\ step (re_env C) (fst st) c (fst st')
       | None => fst st' = fst st
       end.
Proof.
  assert (Fd := eff_find C hits surf). unfold effCrossing.
  destruct (mapFind (effFill [] hits) (re_cell C surf)) as [h|].
  - destruct (effInfo C h) as [[pos prec]| | | |] eqn:I; try discriminate. cbn [bind fst snd]. unfold ignoring.
    destruct (addMeasurement (re_env C) (fst st) pos prec surf address true) as [t2 r] eqn:Am.
    destruct r as [b| | | |]; try discriminate. cbn [bind]. intros H. injection H as <-. cbn [fst snd].
    exists (Some (CMeas pos prec surf address true)), (Some (h_id h)). split; [|split; [reflexivity|split]].
    + left. exists h, pos, prec. split; auto. split; auto. apply effInfo_spec. auto.
    + cbn. rewrite Am. exists b. reflexivity.
    + eapply step_meas; eauto.
  - cbv zeta.
    assert (Sc : ~ empty_surface surf ->
      (t <- ignoring (addScatterer (re_env C) (fst st) surf) ;; Ok (t, snd st)) = Ok st' ->
      exists oc ou, eff_call C address hits surf (oc, ou)
        /\ snd st' = snd st ++ somes [ou]
        /\ match oc with
           | Some c => returning (re_env C) (fst st) c /\ step (re_env C) (fst st) c (fst st')
           | None => fst st' = fst st
           end).
    { intros Ne. unfold ignoring. destruct (addScatterer (re_env C) (fst st) surf) as [t2 r] eqn:As.
      destruct r as [b| | | |]; try discriminate. cbn [bind]. intros H. injection H as <-. cbn [fst snd].
      exists (Some (CScat surf)), None. split; [|split; [cbn; rewrite app_nil_r; auto|split]].
      - right. split; auto.
      - cbn. rewrite As. exists b. reflexivity.
      - eapply step_scat; eauto. }
    unfold empty_surface in Sc.
    destruct (Rlt_dec (mat_density (sf_innerMaterial surf)) (/ 1000000)) as [L1|L1]; [|apply Sc; tauto].
    destruct (Rlt_dec (mat_density (sf_outerMaterial surf)) (/ 1000000)) as [L2|L2]; [|apply Sc; tauto].
    intros H. injection H as <-. exists None, None. split; [|split; [cbn; rewrite app_nil_r; auto|auto]].
    right. split; auto. right. split; auto. split; auto.
Qed.

Lemma effCrossing_back C address hits st surf oc ou : eff_call C address hits surf (oc, ou) ->
  forall t', match oc with
             | Some c => returning (re_env C) (fst st) c /\ step (re_env C) (fst st) c t'
             | None => t' = fst st
             end ->
  effCrossing C address (effFill [] hits) st surf = Ok (t', snd st ++ somes [ou]).
Proof.
  intros Ec t' St. assert (Fd := eff_find C hits surf). unfold effCrossing.
  destruct (mapFind (effFill [] hits) (re_cell C surf)) as [h|].
  - destruct Ec as [(h' & pos & prec & L & Me & Q)|[N _]].
    + injection Q as -> ->. assert (h' = h) as -> by (eapply eff_latest_unique; eauto).
      apply effInfo_spec in Me. rewrite Me. cbn [bind fst snd]. destruct St as [R St].
      rewrite (meas_step _ _ _ _ _ _ _ _ R St). reflexivity.
    + exfalso. destruct Fd as (l1 & l2 & Q & B & _). apply (N h); auto. rewrite Q. apply in_or_app. right. left. auto.
  - destruct Ec as [(h' & pos & prec & (l1 & l2 & Q & B & _) & _)|[_ [(Ne & Q)|([E1 E2] & Q)]]].
    + exfalso. apply (Fd h'); auto. rewrite Q. apply in_or_app. right. left. auto.
    + injection Q as -> ->. destruct St as [R St]. rewrite (scat_step _ _ _ _ R St). cbn [bind]. cbv zeta.
      unfold empty_surface in Ne. change (somes [None]) with (@nil Z). rewrite app_nil_r.
      destruct (Rlt_dec (mat_density (sf_innerMaterial surf)) (/ 1000000)); auto.
      destruct (Rlt_dec (mat_density (sf_outerMaterial surf)) (/ 1000000)); auto. exfalso. auto.
    + injection Q as -> ->. subst t'. change (somes [None]) with (@nil Z). rewrite app_nil_r.
      destruct (Rlt_dec (mat_density (sf_innerMaterial surf)) (/ 1000000)); [|contradiction].
      destruct (Rlt_dec (mat_density (sf_outerMaterial surf)) (/ 1000000)); [destruct st; auto|contradiction].
Qed.

Lemma somes_cons {A} (o : option A) l : somes (o :: l) = somes [o] ++ somes l.
Proof. destruct o; reflexivity. Qed.

Lemma effCrossings_spec C address hits : forall l st st',
  effCrossings C address (effFill [] hits) st l = Ok st' ->
  exists calls, Forall2 (fun c oc => eff_call C address hits (snd c) oc) l calls
    /\ snd st' = snd st ++ somes (map snd calls)
    /\ forall cs t0, history (re_env C) (returning (re_env C)) t0 cs (fst st) ->
         history (re_env C) (returning (re_env C)) t0 (cs ++ somes (map fst calls)) (fst st').
Proof.
  induction l as [|[s surf] l IH]; intros st st' H; cbn [effCrossings] in H.
  - injection H as <-. exists []. split; [constructor|]. cbn. rewrite app_nil_r. split; auto.
    intros cs t0 Hs. rewrite app_nil_r. exact Hs.
  - destruct (effCrossing C address (effFill [] hits) st surf) as [st1| | | |] eqn:Q; try discriminate. cbn [bind] in H.
    destruct (IH _ _ H) as (calls & F & U & Hh). clear IH H.
    destruct (effCrossing_spec _ _ _ _ _ _ Q) as (oc & ou & Ec & Us & St).
    exists ((oc, ou) :: calls). split; [constructor; auto|]. split.
    + rewrite U, Us. cbn [map snd]. rewrite (somes_cons ou (map snd calls)), app_assoc. reflexivity.
    + intros cs t0 Hs. cbn [map fst]. rewrite (somes_cons oc (map fst calls)), app_assoc. apply Hh. destruct oc as [c|].
      * destruct St as [R St]. eapply hist_snoc; eauto.
      * rewrite St. cbn. rewrite app_nil_r. exact Hs.
Qed.

Lemma effCrossings_back C address hits : forall l calls st t',
  Forall2 (fun c oc => eff_call C address hits (snd c) oc) l calls ->
  history (re_env C) (returning (re_env C)) (fst st) (somes (map fst calls)) t' ->
  effCrossings C address (effFill [] hits) st l = Ok (t', snd st ++ somes (map snd calls)).
Proof.
  induction l as [|[s surf] l IH]; intros calls st t' F H; inversion F as [|? [oc ou] ? calls' F1 F2]; subst.
  - apply history_empty in H. subst. cbn. rewrite app_nil_r. destruct st; reflexivity.
  - cbn [effCrossings]. cbn [snd] in F1. cbn [map fst snd] in *. rewrite (somes_cons ou (map snd calls')), app_assoc.
    destruct oc as [c|].
    + change (somes (Some c :: map fst calls')) with (c :: somes (map fst calls')) in H.
      destruct (history_front _ _ _ _ _ _ H) as (t1 & R & St & H1).
      rewrite (effCrossing_back C address hits st surf (Some c) ou F1 t1) by auto. cbn [bind].
      exact (IH calls' (t1, snd st ++ somes [ou]) t' F2 H1).
    + rewrite (effCrossing_back C address hits st surf None ou F1 (fst st)) by auto. cbn [bind].
      exact (IH calls' (fst st, snd st ++ somes [ou]) t' F2 H).
Qed.

Lemma effTrajectory_spec C address itp hits t used : env_ok (re_env C) ->
  effTrajectory C address (effFill [] hits) itp = Ok (t, used) -> eff_trajectory C address itp hits t used.
Proof.
  intros Eo H. unfold effTrajectory in H. set (t0 := mkTraj itp (Some (re_prop C))) in *.
  destruct (getIntersectionsWithSurfaces (re_env C) t0 (re_surfaces C)) as [t1| | | |] eqn:G; try discriminate. cbn [bind] in H.
  destruct (effCrossings C address (effFill [] hits) (t1, []) (tr_isect t1)) as [[t2 u]| | | |] eqn:A; try discriminate.
  cbn [bind fst snd] in H.
  destruct (prepareForFitting (re_env C) t2) as [t3| | | |] eqn:P; try discriminate. cbn [bind] in H. injection H as <- <-.
  destruct (C38_intersections _ _ _ _ Eo G) as (Od & (ents & Pm & Af & _) & _).
  destruct (effCrossings_spec C address hits _ _ _ A) as (calls & F & U & Hh). cbn [fst snd app] in *.
  exists (tr_isect t1), calls. split; auto. split; [exists ents; split; auto|]. split; auto. split; auto.
  assert (H0 : history (re_env C) (returning (re_env C)) t0 [CIsect (re_surfaces C)] t1).
  { change [CIsect (re_surfaces C)] with ([] ++ [CIsect (re_surfaces C)]).
    eapply hist_snoc; [constructor|exact Logic.I|]. constructor. exact G. }
  apply Hh in H0. cbn [app] in H0.
  change (CIsect (re_surfaces C) :: somes (map fst calls) ++ [CPrep]) with ((CIsect (re_surfaces C) :: somes (map fst calls)) ++ [CPrep]).
  eapply hist_snoc; [exact H0|exact Logic.I|]. constructor. exact P.
Qed.

Lemma effTrajectory_back C address itp hits t used : env_ok (re_env C) ->
  (let t0 := mkTraj itp (Some (re_prop C)) in
   forall s surf surf', In surf (re_surfaces C) -> In surf' (re_surfaces C) ->
     found t0 surf s -> found t0 surf' s -> surf = surf') ->
  eff_trajectory C address itp hits t used -> effTrajectory C address (effFill [] hits) itp = Ok (t, used).
Proof.
  intros Eo Tie (crossings & calls & Od & (ents & Pm & Af) & F & H & U). unfold effTrajectory.
  set (t0 := mkTraj itp (Some (re_prop C))) in *.
  destruct (history_front _ _ _ _ _ _ H) as (t1 & _ & St & H1).
  inversion St as [| | |? ? G|]; subst. rewrite G. cbn [bind].
  destruct (C38_intersections _ _ _ _ Eo G) as (Od' & (ents' & Pm' & Af' & Ie) & _).
  change (tr_isect t0 ++ ents') with ents' in Pm'.
  assert (ents' = ents) as -> by (eapply all_found_unique; eauto).
  assert (Q : crossings = tr_isect t1).
  { apply (sorted_unique fst); auto.
    - transitivity ents; auto. symmetry. auto.
    - intros [s surf] [s' surf'] Ia Ib E. cbn in E. subst s'.
      apply (Permutation_in _ (Permutation_sym Pm)) in Ia. apply (Permutation_in _ (Permutation_sym Pm)) in Ib.
      apply Ie in Ia. apply Ie in Ib. f_equal. eapply Tie; tauto || (destruct Ia, Ib; eauto). }
  subst crossings. destruct (history_last _ _ _ _ _ _ H1) as (t2 & H2 & _ & St2).
  rewrite (effCrossings_back C address hits _ calls (t1, []) t2 F H2). cbn [bind fst snd app].
  inversion St2 as [| |? P| |]; subst. rewrite P. reflexivity.
Qed.

Lemma effFillTrack_spec C used fr o : effFillTrack C used fr = Ok o -> eff_written C used fr o.
Proof.
  unfold effFillTrack. destruct (Req_EM_T (re_mm C) 0) as [Q|M].
  - unfold createLCIO, rdiv. rewrite Q. destruct (Req_EM_T 0 0); [discriminate|contradiction].
  - destruct (fr_tp fr) as [cov par [rx ry rz]] eqn:Tp. unfold createLCIO. cbn [tp_par tp_cov tp_ref vx vy vz].
    assert (MM : re_mm C * re_mm C <> 0) by (apply Rmult_integral_contrapositive; auto).
    rewrite !rdiv_ok by auto. cbn [bind]. intros H. injection H as <-. unfold eff_written. cbn [ot_hits ot_chi2 ot_ndf ot_number ot_states].
    split; auto. split; auto. split; auto. split; auto.
    eexists. split; [reflexivity|]. cbn [ts_location ts_ref]. split; auto. split; auto. rewrite Tp. cbn [tp_par tp_cov].
    split; [|split; [|reflexivity]].
    + intros []; cbn; unfold calculateOmega, calculateTanLambda, calculatePhi0, calculateD0, calculateZ0,
      OMEGA, TANL, PHI0, D0, Z0; field; auto.
    + intros [] []; cbn; field; auto.
Qed.

Lemma effFillTrack_ok C used fr : re_mm C <> 0 -> exists o, effFillTrack C used fr = Ok o.
Proof.
  intros M. unfold effFillTrack. destruct (fr_tp fr) as [cov par [rx ry rz]] eqn:Tp.
  unfold createLCIO. cbn [tp_par tp_cov tp_ref vx vy vz].
  assert (MM : re_mm C * re_mm C <> 0) by (apply Rmult_integral_contrapositive; auto).
  rewrite !rdiv_ok by auto. cbn [bind]. eauto.
Qed.
