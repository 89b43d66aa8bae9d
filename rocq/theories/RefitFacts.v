(** The refitting program: independence of the tracks, the event loop, the hits. *)
From Coq Require Import Reals List Bool ZArith Lra Lia Permutation.
From Verif Require Import Num Vec Helix Isect Trans Material Traj Fit LCIO Refit.
From Verif Require Import NumFacts SpecMat SpecHelix SpecTraj SpecElem SpecFit SpecLCIO SpecRefit FitFacts PropTraj PropTraj2.
Import ListNotations.
Open Scope R_scope.

(** ** results do not depend on what was fitted before *)
Definition fit_value (C : renv) (t : traj) : res (bool * fitResults) :=
  points <- makePoints (tr_elems t) ;;
  let '(rv, (chi2, ndf, lost)) := gbl_fit (re_gbl C) points in
  fr <- computeResults (re_env C) (re_gbl C) (IF (Some points) (Some 0%nat) chi2 ndf lost []) points t 0 ;;
  Ok (Z.eqb rv 0, fr).

Lemma nth_last {A} (l : list A) x : nth_error (l ++ [x]) (length l) = Some x.
Proof. induction l; cbn; auto. Qed.

Lemma runFit_snd C st st' t : snd (runFit C st t) = snd (runFit C st' t).
Proof.
  unfold runFit, traj_fit, fit, only. cbn. destruct (makePoints (tr_elems t)); auto.
  destruct (gbl_fit (re_gbl C) a) as [rv [[chi2 ndf] lost]]. reflexivity.
Qed.

Lemma fit_result C st t :
  snd (sbind (runFit C st t) (fun st b => sbind (firstResult C st t) (fun st fr => (st, Ok (b, fr)))))
  = fit_value C t.
Proof.
  unfold runFit, traj_fit, fit, only, fit_value. cbn.
  destruct (makePoints (tr_elems t)) as [points| | | |]; cbn; auto.
  destruct (gbl_fit (re_gbl C) points) as [rv [[chi2 ndf] lost]]. cbn.
  unfold firstResult, traj_getFitResults, getResults. cbn.
  match goal with |- context [computeResults ?E ?G ?i ?p ?t ?l] => destruct (computeResults E G i p t l) end; cbn; auto.
  rewrite nth_last. reflexivity.
Qed.

Lemma fit_result_snd C st t :
  snd (sbind (runFit C st t) (fun st b => firstResult C st t)) = (x <- fit_value C t ;; Ok (snd x)).
Proof.
  rewrite <- (fit_result C st). destruct (runFit C st t) as [st1 [b| | | |]]; cbn; auto.
  destruct (firstResult C st1 t) as [st2 [fr| | | |]]; cbn; auto.
Qed.

Lemma prefit_snd C st st' tp hits : snd (createPreFit C st tp hits) = snd (createPreFit C st' tp hits).
Proof.
  unfold createPreFit. destruct (moveHelixTo tp v3zero false) as [mv| | | |]; cbn [sbind]; auto.
  match goal with |- context [prefitHits ?a ?b ?c] => destruct (prefitHits a b c) as [t| | | |] end; cbn [sbind]; auto.
  destruct (prepareForFitting (re_env C) t) as [t1| | | |]; cbn [sbind]; auto.
  assert (G : forall st, snd (sbind (runFit C st t1) (fun st success =>
     if success : bool then sbind (firstResult C st t1) (fun st fr => (st, Ok (fr_tp fr))) else (st, Ok (fst mv))))
    = (b <- snd (runFit C fs_start t1) ;; if b : bool then x <- fit_value C t1 ;; Ok (fr_tp (snd x)) else Ok (fst mv))).
  { intros s. rewrite <- (runFit_snd C s). rewrite <- (fit_result C s).
    destruct (runFit C s t1) as [s1 [[|]| | | |]]; cbn; auto.
    destruct (firstResult C s1 t1) as [s2 [fr| | | |]]; cbn; auto. }
  rewrite !G. reflexivity.
Qed.

Lemma seed_snd C S st st' itp hits : snd (seed C S st itp hits) = snd (seed C S st' itp hits).
Proof.
  unfold seed. destruct (sg_start S); auto. destruct (startHelix C hits); cbn [sbind]; auto.
  destruct (sg_prefit S); auto. apply prefit_snd.
Qed.

(** one track, without the state *)
Definition refit_value (C : renv) (S : steering) (trk : track) : res otrack :=
  itp <- match tk_state trk with None => UB | Some ts => readLCIO (re_mm C) ts end ;;
  if Nat.ltb (length (tk_hits trk)) 3 then Ok newTrack
  else
    itp <- snd (seed C S fs_start itp (tk_hits trk)) ;;
    t <- makeTrajectory C S itp (tk_hits trk) ;;
    x <- fit_value C t ;;
    fillTrack C (tk_hits trk) (snd x).

Lemma refitTrack_value C S st trk : snd (refitTrack C S st trk) = refit_value C S trk.
Proof.
  unfold refitTrack, refit_value.
  match goal with |- context [sbind (st, ?r) _] => destruct r as [itp| | | |] end; cbn [sbind bind snd]; auto.
  destruct (Nat.ltb (length (tk_hits trk)) 3); auto.
  rewrite (seed_snd C S fs_start (fi_pre st)).
  destruct (seed C S (fi_pre st) itp (tk_hits trk)) as [pre [itp1| | | |]]; cbn [sbind bind snd]; auto.
  destruct (makeTrajectory C S itp1 (tk_hits trk)) as [t| | | |]; cbn [sbind bind snd fi_main fi_pre]; auto.
  assert (F := fit_result_snd C (fi_main st) t).
  destruct (sbind (runFit C (fi_main st) t) (fun st b => firstResult C st t)) as [main r].
  cbn [snd] in F. subst r. destruct (fit_value C t) as [x| | | |]; cbn [sbind bind snd]; auto.
Qed.

Lemma refitTrack_alone C S st trk : snd (refitTrack C S st trk) = alone C S trk.
Proof. unfold alone. rewrite !refitTrack_value. reflexivity. Qed.

(** ** the event loop *)
Lemma refitTracks_done C S : forall l st,
  match snd (refitTracks C S st l) with
  | Ok os => Forall2 (fun trk o => alone C S trk = Ok o) l os
  | x => exists l1 trk l2, l = l1 ++ trk :: l2
          /\ (forall t, In t l1 -> exists o, alone C S t = Ok o) /\ same_end (alone C S trk) x
  end.
Proof.
  induction l as [|trk l IH]; intros st; cbn [refitTracks snd]; [constructor|].
  assert (A := refitTrack_alone C S st trk).
  destruct (refitTrack C S st trk) as [st1 r]. cbn [snd] in A. subst r.
  destruct (alone C S trk) as [o| | | |] eqn:Q; cbn [sbind snd];
    try (exists [], trk, l; split; [reflexivity|]; split; [intros ? []|]; rewrite Q; exact I).
  specialize (IH st1). destruct (refitTracks C S st1 l) as [st2 [os| | | |]]; cbn [sbind snd] in *;
    try (destruct IH as (l1 & trk' & l2 & -> & B & D); exists (trk :: l1), trk', l2; split; [reflexivity|];
         split; [intros t [<-|I]; [exists o; exact Q|apply B; exact I]|exact D]).
  constructor; auto.
Qed.

Lemma eventLoop_done C S : forall l st c k, (c + Z.of_nat k = maxEvent - 1)%Z ->
  let '(out, r) := eventLoop C S st c l in
  Forall2 (event_done C S) (firstn (length out) l) out /\ (length out <= k)%nat
  /\ ((r = Ok tt /\ length out = Nat.min k (length l))
      \/ exists ev, nth_error l (length out) = Some ev /\ (length out < k)%nat /\ event_fails C S ev r).
Proof.
  induction l as [|ev l IH]; intros st c k K; cbn [eventLoop].
  - split; [constructor|]. split; [cbn; lia|]. left. split; auto. cbn. lia.
  - destruct (Z.ltb_spec (c + 1) maxEvent) as [L|L].
    + destruct k as [|k]; [lia|].
      assert (R : let '(st1, r) := match ev with None => (st, Throw) | Some tracks => refitTracks C S st tracks end in
        match r with
        | Ok os => event_done C S ev os
        | x => forall y : res unit, same_end x y -> event_fails C S ev y
        end).
      { destruct ev as [tracks|].
        - assert (A := refitTracks_done C S tracks st). destruct (refitTracks C S st tracks) as [st1 [os| | | |]];
            cbn [snd] in A; [exists tracks; auto| | | |];
            destruct A as (l1 & trk & l2 & -> & A & B);
            intros y Y; right; exists l1, trk, l2; (split; [reflexivity|]); (split; [exact A|]);
            destruct (alone C S trk), y; cbn in *; auto; contradiction.
        - intros y Y. left. split; auto. destruct y; cbn in Y; auto; contradiction. }
      destruct (match ev with None => (st, Throw) | Some tracks => refitTracks C S st tracks end) as [st1 r].
      destruct r as [os| | | |];
        try (split; [constructor|]; split; [cbn; lia|]; right; exists ev; split; [reflexivity|]; split; [cbn; lia|];
             apply R; exact I).
      specialize (IH st1 (c + 1)%Z k ltac:(lia)).
      destruct (eventLoop C S st1 (c + 1) l) as [out e]. destruct IH as (A & B & D).
      cbn [length firstn nth_error]. split; [constructor; auto|]. split; [lia|].
      destruct D as [[-> D]|(ev' & D1 & D2 & D3)].
      * left. split; auto. cbn [Nat.min]. rewrite D. reflexivity.
      * right. exists ev'. split; auto. split; [lia|auto].
    + split; [constructor|]. split; [cbn; lia|]. left. split; auto. cbn [length].
      replace k with 0%nat by lia. reflexivity.
Qed.

(** ** the hits *)
Lemma lcioHits_spec hits : lcioHits hits = single_hits hits.
Proof. induction hits as [|th hits IH]; cbn; [auto|now f_equal]. Qed.

Lemma mapFind_app {A} (a b : list (Z * A)) k :
  mapFind (a ++ b) k = match mapFind a k with Some x => Some x | None => mapFind b k end.
Proof.
  unfold mapFind. induction a as [|[z x] a IH]; cbn [app find fst]; auto.
  destruct (Z.eqb z k); auto.
Qed.

Lemma mapFind_none {A} (a : list (Z * A)) k : mapFind a k = None <-> forall z x, In (z, x) a -> z <> k.
Proof.
  unfold mapFind. induction a as [|[z x] a IH]; cbn [find fst].
  - split; auto; intros _ ? ? [].
  - destruct (Z.eqb_spec z k) as [Q|Q].
    + split; [discriminate|]. intros H. exfalso. apply (H z x); auto. left. auto.
    + rewrite IH. split.
      * intros H z' x' [I|I]; [congruence|eapply H; eauto].
      * intros H z' x' I. eapply H. right. eauto.
Qed.

Lemma hitMap_loop_spec : forall l m,
  ((forall o, In o l -> o <> None) ->
     exists hs, l = map Some hs /\ hitMap_loop m l = Ok (rev (map (fun h => (h_cell h, h)) hs) ++ m))
  /\ (In None l -> hitMap_loop m l = UB).
Proof.
  induction l as [|[h|] l IH]; intros m; cbn [hitMap_loop].
  - split; [|intros []]. intros _. exists []. auto.
  - destruct (IH ((h_cell h, h) :: m)) as [A B]. split.
    + intros H. destruct A as (hs & -> & ->); [intros o I; apply H; right; auto|].
      exists (h :: hs). split; auto. cbn. rewrite <- app_assoc. reflexivity.
    + intros [I|I]; [discriminate|auto].
  - split; auto. intros H. exfalso. apply (H None); [left|]; auto.
Qed.

Lemma to_int_spec z k : is_int k -> (to_int z = k <-> exists n : Z, z = (k + n * 2 ^ 32)%Z).
Proof.
  unfold is_int, to_int. intros K. change (2 ^ 31)%Z with 2147483648%Z in *. change (2 ^ 32)%Z with 4294967296%Z in *.
  split.
  - intros H. exists ((z + 2147483648) / 4294967296)%Z.
    assert (D := Z.div_mod (z + 2147483648) 4294967296 ltac:(lia)). lia.
  - intros (n & ->). replace (k + n * 4294967296 + 2147483648)%Z with (k + 2147483648 + n * 4294967296)%Z by lia.
    rewrite Z.mod_add by lia. rewrite Z.mod_small by lia. lia.
Qed.

Lemma none_in {A} (l : list (option A)) : In None l \/ forall o, In o l -> o <> None.
Proof.
  induction l as [|[x|] l [IH|IH]]; [right; intros ? []|left; right; auto| |left; left; auto|left; left; auto].
  right. intros o [<-|I]; [discriminate|auto].
Qed.

Lemma hitMap_find C hits m surf : hitMap hits = Ok m ->
  (forall h, In (Some h) (single_hits hits) -> is_int (h_cell h)) ->
  match mapFind m (to_int (re_cell C surf)) with
  | Some h => latest (single_hits hits) (belongs C surf) h
  | None => forall h, In (Some h) (single_hits hits) -> ~ belongs C surf h
  end.
Proof.
  unfold hitMap. rewrite lcioHits_spec. intros H Hi.
  destruct (hitMap_loop_spec (single_hits hits) []) as [A B].
  destruct (none_in (single_hits hits)) as [I|I].
  { rewrite (B I) in H. discriminate. }
  destruct (A I) as (hs & Q & R).
  rewrite R, app_nil_r in H. injection H as <-. rewrite Q in *. clear Q R I A B hits.
  revert Hi. induction hs as [|h hs IH]; intros Hi; [cbn; intros ? []|].
  cbn [map rev]. rewrite mapFind_app.
  assert (IH' := IH (fun h' I => Hi h' (or_intror I))). clear IH.
  destruct (mapFind (rev (map (fun h0 => (h_cell h0, h0)) hs)) (to_int (re_cell C surf))) as [h'|].
  - destruct IH' as (l1 & l2 & -> & P & L). exists (Some h :: l1), l2. auto.
  - unfold mapFind. cbn [find fst]. assert (Ih := Hi h (or_introl eq_refl)).
    destruct (Z.eqb_spec (h_cell h) (to_int (re_cell C surf))) as [Q|Q].
    + exists [], (map Some hs). split; [reflexivity|]. split; auto. unfold belongs. apply (to_int_spec _ _ Ih). auto.
    + intros h' [I|I]; [injection I as <-|auto]. intros Bl. apply Q. symmetry. apply (to_int_spec _ _ Ih). auto.
Qed.

Lemma rdiv_inv a b c : rdiv a b = Ok c -> b <> 0 /\ c = a / b.
Proof. unfold rdiv. destruct (Req_EM_T b 0); [discriminate|]. intros H. injection H as <-. auto. Qed.

Lemma getHitInfo_spec C h surf pos prec : getHitInfo C h surf = Ok (pos, prec) -> measured C h surf pos prec.
Proof.
  unfold getHitInfo, measured.
  assert (P : inUnits (re_mm C) (h_pos h) = vscale (re_mm C) (h_pos h)).
  { unfold inUnits, vscale. f_equal; ring. }
  assert (Go : forall du dvr, 
     (p0 <- rdiv 1 (du * re_mm C * (du * re_mm C)) ;;
      if re_1D C surf then Ok (inUnits (re_mm C) (h_pos h), [p0; 0])
      else dv <- dvr ;; p1 <- rdiv 1 (dv * dv) ;; Ok (inUnits (re_mm C) (h_pos h), [p0; p1])) = Ok (pos, prec) ->
     pos = vscale (re_mm C) (h_pos h) /\ du * re_mm C <> 0 /\ exists p1, prec = [/ Rsqr (du * re_mm C); p1]
       /\ (re_1D C surf = true -> p1 = 0)
       /\ (re_1D C surf = false -> exists dv, dvr = Ok dv /\ dv <> 0 /\ p1 = / Rsqr dv)).
  { intros du dvr. destruct (rdiv 1 (du * re_mm C * (du * re_mm C))) as [p0| | | |] eqn:D; try discriminate. cbn [bind].
    apply rdiv_inv in D. destruct D as [D1 D2].
    assert (N : du * re_mm C <> 0) by (intros Q; rewrite Q in D1; apply D1; ring).
    destruct (re_1D C surf).
    - intros H. injection H as <- <-. rewrite P. split; auto. split; auto. exists 0. split; [|split; [auto|discriminate]].
      unfold Rsqr. rewrite D2. f_equal. unfold Rdiv. ring.
    - destruct dvr as [dv| | | |]; try discriminate. cbn [bind].
      destruct (rdiv 1 (dv * dv)) as [p1| | | |] eqn:Dv; try discriminate. cbn [bind]. apply rdiv_inv in Dv. destruct Dv as [Dv1 Dv2].
      intros H. injection H as <- <-. rewrite P. split; auto. split; auto. exists p1. split; [|split; [discriminate|]].
      + unfold Rsqr. rewrite D2. f_equal. unfold Rdiv. ring.
      + intros _. exists dv. split; auto. assert (dv <> 0) by (intros Q; rewrite Q in Dv1; apply Dv1; ring).
        split; auto. rewrite Dv2. unfold Rsqr, Rdiv. ring. }
  destruct (h_plane h) as [[dU dV]|] eqn:Hp.
  - cbn [bind fst snd]. intros H. apply (Go dU (Ok (dV * re_mm C))) in H. destruct H as (A & B & p1 & D & E1 & E2). split; auto.
    exists dU, dV, p1. split; [intros ? ? Q; injection Q as <- <-; auto|]. split; [discriminate|]. split; auto. split; auto.
    split; auto. intros Q. destruct (E2 Q) as (dv & V & V1 & V2). injection V as <-. auto.
  - unfold vec_at. destruct (h_cov h) as [|c0 [|c1 [|c2 l]]]; cbn [nth_error bind]; try discriminate.
    destruct l as [|c3 [|c4 [|c5 l]]]; cbn [nth_error bind]; try discriminate. cbn [fst snd].
    unfold rsqrt at 1. destruct (Rlt_dec (c0 + c2) 0) as [L|L]; cbn [bind]; try discriminate.
    intros H. apply Go in H. destruct H as (A & B & p1 & D & E1 & E2). split; auto.
    exists (sqrt (c0 + c2)), (sqrt c5), p1. split; [discriminate|]. split; [|split; [auto|split; [auto|split; [auto|]]]].
    + intros _. exists c0, c1, c2, c3, c4, c5, l. split; auto. split; [apply sqrt_pos|]. split; [apply sqrt_sqrt; lra|].
      intros Q. destruct (E2 Q) as (dv & V & V1 & V2). unfold rsqrt in V. destruct (Rlt_dec c5 0); [discriminate|].
      split; [apply sqrt_pos|apply sqrt_sqrt; lra].
    + intros Q. destruct (E2 Q) as (dv & V & V1 & V2). unfold rsqrt in V. destruct (Rlt_dec c5 0); [discriminate|].
      cbn [bind] in V. injection V as <-. auto.
Qed.

(** ** the trajectory *)
Lemma addCrossings_spec C S hits m : hitMap hits = Ok m ->
  (forall h, In (Some h) (single_hits hits) -> is_int (h_cell h)) ->
  forall l t t', addCrossings C S m t l = Ok t' ->
  exists calls, Forall2 (fun c oc => call_for C S hits (snd c) oc) l calls
    /\ forall cs t0, history (re_env C) (returning (re_env C)) t0 cs t ->
         history (re_env C) (returning (re_env C)) t0 (cs ++ somes calls) t'.
Proof.
  intros M Hi. induction l as [|[s surf] l IH]; intros t t' H; cbn [addCrossings] in H.
  - injection H as <-. exists []. split; [constructor|]. intros cs t0 Hs. cbn. rewrite app_nil_r. exact Hs.
  - destruct (addCrossing C S m t surf) as [t1| | | |] eqn:Q; try discriminate. cbn [bind] in H.
    destruct (IH _ _ H) as (calls & F & Hh). clear IH H.
    assert (K : forall c, call_for C S hits surf (Some c) -> returning (re_env C) t c -> step (re_env C) t c t1 ->
      exists calls, Forall2 (fun c oc => call_for C S hits (snd c) oc) ((s, surf) :: l) calls
        /\ forall cs t0, history (re_env C) (returning (re_env C)) t0 cs t ->
             history (re_env C) (returning (re_env C)) t0 (cs ++ somes calls) t').
    { intros c Hc Rt St. exists (Some c :: calls). split; [constructor; auto|].
      intros cs t0 Hs. cbn [somes flat_map]. change (flat_map _ calls) with (somes calls).
      cbn [app]. replace (cs ++ c :: somes calls) with ((cs ++ [c]) ++ somes calls) by (rewrite <- app_assoc; reflexivity).
      apply Hh. eapply hist_snoc; eauto. }
    assert (K0 : call_for C S hits surf None -> t1 = t ->
      exists calls, Forall2 (fun c oc => call_for C S hits (snd c) oc) ((s, surf) :: l) calls
        /\ forall cs t0, history (re_env C) (returning (re_env C)) t0 cs t ->
             history (re_env C) (returning (re_env C)) t0 (cs ++ somes calls) t').
    { intros Hc ->. exists (None :: calls). split; [constructor; auto|]. exact Hh. }
    assert (Fd := hitMap_find C hits m surf M Hi). unfold addCrossing in Q.
    destruct (mapFind m (to_int (re_cell C surf))) as [h|].
    + destruct (getHitInfo C h surf) as [[pos prec]| | | |] eqn:I; try discriminate. cbn [bind fst snd] in Q.
      unfold ignoring in Q.
      destruct (addMeasurement (re_env C) t pos prec surf (h_id h) (sg_qms S)) as [t2 r] eqn:Am.
      destruct r as [b| | | |]; try discriminate. cbn [bind] in Q. injection Q as ->.
      apply (K (CMeas pos prec surf (h_id h) (sg_qms S))).
      * left. exists h, pos, prec. split; auto. split; auto. apply getHitInfo_spec. exact I.
      * cbn. rewrite Am. exists b. reflexivity.
      * eapply step_meas; eauto.
    + assert (Sc : sg_qms S = true -> ~ empty_surface surf -> ignoring (addScatterer (re_env C) t surf) = Ok t1 ->
        exists calls, Forall2 (fun c oc => call_for C S hits (snd c) oc) ((s, surf) :: l) calls
        /\ forall cs t0, history (re_env C) (returning (re_env C)) t0 cs t ->
             history (re_env C) (returning (re_env C)) t0 (cs ++ somes calls) t').
      { intros Sq Ne Q'. unfold ignoring in Q'. destruct (addScatterer (re_env C) t surf) as [t2 r] eqn:As.
        destruct r as [b| | | |]; try discriminate. cbn [bind] in Q'. injection Q' as ->.
        apply (K (CScat surf)).
        - right. split; auto.
        - cbn. rewrite As. exists b. reflexivity.
        - eapply step_scat; eauto. }
      unfold empty_surface in Sc.
      destruct (sg_qms S) eqn:Sq.
      * destruct (Rlt_dec (mat_density (sf_innerMaterial surf)) (/ 1000000)) as [L1|L1].
        -- destruct (Rlt_dec (mat_density (sf_outerMaterial surf)) (/ 1000000)) as [L2|L2].
           ++ injection Q as <-. apply K0; auto. right. split; auto. right. split; auto. right. split; auto.
           ++ apply Sc; auto. intros [_ X]. auto.
        -- apply Sc; auto. intros [X _]. auto.
      * injection Q as <-. apply K0; auto. right. split; auto.
Qed.

Lemma makeTrajectory_spec C S itp hits t : env_ok (re_env C) ->
  (forall h, In (Some h) (single_hits hits) -> is_int (h_cell h)) ->
  makeTrajectory C S itp hits = Ok t -> refit_trajectory C S itp hits t.
Proof.
  intros Ok Hi H. unfold makeTrajectory in H.
  destruct (hitMap hits) as [m| | | |] eqn:M; try discriminate. cbn [bind] in H.
  set (t0 := mkTraj itp (Some (re_prop C))) in *.
  destruct (getIntersectionsWithSurfaces (re_env C) t0 (re_surfaces C)) as [t1| | | |] eqn:G; try discriminate. cbn [bind] in H.
  destruct (addCrossings C S m t1 (tr_isect t1)) as [t2| | | |] eqn:A; try discriminate. cbn [bind] in H.
  destruct (C38_intersections _ _ _ _ Ok G) as (Od & (ents & Pm & Af & _) & _).
  destruct (addCrossings_spec C S hits m M Hi _ _ _ A) as (calls & F & Hh).
  exists (tr_isect t1), calls. split; auto. split; [exists ents; split; auto|]. split; auto.
  assert (H0 : history (re_env C) (returning (re_env C)) t0 [CIsect (re_surfaces C)] t1).
  { change [CIsect (re_surfaces C)] with ([] ++ [CIsect (re_surfaces C)]).
    eapply hist_snoc; [constructor|exact Logic.I|]. constructor. exact G. }
  apply Hh in H0. cbn [app] in H0.
  change (CIsect (re_surfaces C) :: somes calls ++ [CPrep]) with ((CIsect (re_surfaces C) :: somes calls) ++ [CPrep]).
  eapply hist_snoc; [exact H0|exact Logic.I|]. constructor. exact H.
Qed.

Lemma makeTrajectory_null C S itp hits : In None (single_hits hits) -> makeTrajectory C S itp hits = UB.
Proof.
  intros I. unfold makeTrajectory, hitMap. rewrite lcioHits_spec.
  destruct (hitMap_loop_spec (single_hits hits) []) as [_ ->]; auto.
Qed.

(** ** the result *)
Lemma fit_value_spec C t b fr : fit_value C t = Ok (b, fr) ->
  exists points, makePoints (tr_elems t) = Ok points /\ is_result (re_env C) (re_gbl C) points t 0 fr
    /\ (b = true <-> fst (gbl_fit (re_gbl C) points) = 0%Z).
Proof.
  unfold fit_value. destruct (makePoints (tr_elems t)) as [points| | | |]; try discriminate. cbn [bind].
  destruct (gbl_fit (re_gbl C) points) as [rv [[chi2 ndf] lost]] eqn:G.
  destruct (computeResults (re_env C) (re_gbl C) (IF (Some points) (Some 0%nat) chi2 ndf lost []) points t 0) as [fr'| | | |] eqn:R;
    try discriminate. cbn [bind]. intros H. injection H as <- <-.
  exists points. split; auto. split; [exact (computeResults_spec _ _ _ _ _ _ (IF (Some points) (Some 0%nat) chi2 ndf lost []) _ _ _ _ G eq_refl eq_refl eq_refl R)|]. rewrite G. cbn [fst]. apply Z.eqb_eq.
Qed.

Lemma fillTrack_spec C trk fr o : fillTrack C (tk_hits trk) fr = Ok o -> written C trk fr o.
Proof.
  unfold fillTrack. destruct (Req_EM_T (re_mm C) 0) as [Q|M].
  - unfold createLCIO, rdiv. rewrite Q. destruct (Req_EM_T 0 0); [discriminate|contradiction].
  - destruct (fr_tp fr) as [cov par [rx ry rz]] eqn:Tp. unfold createLCIO. cbn [tp_par tp_cov tp_ref vx vy vz].
    assert (MM : re_mm C * re_mm C <> 0) by (apply Rmult_integral_contrapositive; auto).
    rewrite !rdiv_ok by auto. cbn [bind]. intros H. injection H as <-. unfold written. cbn [ot_hits ot_chi2 ot_ndf ot_number ot_states].
    rewrite map_length. split; auto. split; auto. split; auto. split; auto.
    eexists. split; [reflexivity|]. cbn [ts_location ts_ref]. split; auto. split; auto. rewrite Tp. cbn [tp_par tp_cov].
    split; [|split; [|reflexivity]].
    + intros []; cbn; unfold calculateOmega, calculateTanLambda, calculatePhi0, calculateD0, calculateZ0,
      OMEGA, TANL, PHI0, D0, Z0; field; auto.
    + intros [] []; cbn; field; auto.
Qed.
