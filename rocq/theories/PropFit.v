(** C43, C44: results of the fit interface. *)
From Coq Require Import Reals List Bool ZArith Lra Lia.
From Verif Require Import Num Vec Helix Isect Trans Material Traj.
From Verif Require Import SpecMat MoveCovFacts TransFacts SpecTraj Fit SpecFit FitFacts.
Import ListNotations.
Open Scope R_scope.

(** ** lists of events *)
Lemma no_fit_app a b : no_fit (a ++ b) <-> no_fit a /\ no_fit b.
Proof.
  unfold no_fit. split.
  - intros H. split; intros w t r I; eapply H; apply in_or_app; eauto.
  - intros [A B] w t r I. apply in_app_or in I. destruct I; [eapply A|eapply B]; eauto.
Qed.

Lemma fit_suffix (l1 l2 p d : list fev) f : (exists w t r, f = EvFit w t r) ->
  no_fit d -> l1 ++ f :: l2 = p ++ d -> exists p2, l2 = p2 ++ d /\ p = l1 ++ f :: p2.
Proof.
  intros F N. revert p. induction l1 as [|x l1 IH]; intros p Q.
  - destruct p as [|y p].
    + cbn in Q. exfalso. destruct F as (w & t & r & ->). eapply (N w t r). rewrite <- Q. left. auto.
    + cbn in Q. injection Q as -> ->. exists p. auto.
  - destruct p as [|y p].
    + cbn in Q. exfalso. destruct F as (w & t & r & ->). eapply (N w t r). rewrite <- Q.
      right. apply in_or_app. right. left. auto.
    + cbn in Q. injection Q as -> Q. destruct (IH _ Q) as (p2 & -> & ->). exists p2. auto.
Qed.

Lemma fhist_mono E G l1 l2 st : fhist E G (l1 ++ l2) st ->
  exists st1, fhist E G l1 st1
    /\ (forall a, deleted st1 a -> deleted st a)
    /\ (no_fit l2 -> forall a fr, holds st1 a fr -> holds st a fr).
Proof.
  revert st. induction l2 as [|x l2 IH] using rev_ind; intros st H.
  - rewrite app_nil_r in H. exists st. auto.
  - rewrite app_assoc in H.
    inversion H as [Q|log0 st0 w tid st' r Hh F R Q|log0 st0 w label st' r Hh F R Q]; subst.
    + destruct (l1 ++ l2); discriminate.
    + apply app_inj_tail in Q. destruct Q as [-> <-]. destruct (IH _ Hh) as (st1 & A & B & C).
      exists st1. split; auto. split.
      * intros a D. eapply deleted_mono_fit; eauto.
      * intros N. exfalso. apply (N w tid r). apply in_or_app. right. left. auto.
    + apply app_inj_tail in Q. destruct Q as [-> <-]. destruct (IH _ Hh) as (st1 & A & B & C).
      exists st1. split; auto. split.
      * intros a D. eapply deleted_mono_get; eauto.
      * intros N a fr D. apply no_fit_app in N. specialize (C (proj1 N) a fr D).
        destruct (get_cases _ _ _ _ _ _ _ F R) as [(? & _ & -> & _)|(? & ? & ? & fr' & _ & _ & _ & _ & _ & _ & ->)]; auto.
        unfold holds in *. cbn. rewrite nth_error_app1; auto. apply nth_error_Some. rewrite C. discriminate.
Qed.

(** C43: a query that returns gives the result of the latest fit [w0, tid]:
    [points] are those handed to the fitter then.  The trajectory enters as it
    was at the first query [w1] for that label since the fit.  The result is
    flagged valid whether the fit succeeded or not (see [is_result]). *)
Theorem C43_result : forall E G log st w label st' a, fhist E G log st ->
  getResults E G w st label = (st', Ok a) ->
  exists l1 w0 tid b l2 t0 points w1 t1 fr,
    log = l1 ++ EvFit w0 tid (Ok b) :: l2 /\ no_fit l2
    /\ w0 tid = Some t0 /\ makePoints (tr_elems t0) = Ok points
    /\ (b = true <-> fst (gbl_fit G points) = 0%Z)
    /\ In (EvGet w1 label (Ok a)) (l2 ++ [EvGet w label (Ok a)]) /\ w1 tid = Some t1
    /\ holds st' a fr /\ is_result E G points t1 label fr.
Proof.
  intros E G log st w label st' a H Q.
  assert (H' : fhist E G (log ++ [EvGet w label (Ok a)]) st') by (eapply fh_get; eauto).
  destruct (inv_hist _ _ _ _ H') as (_ & _ & _ & _ & _ & C).
  destruct C as [(C & _)|[(l1 & w0 & tid & C & _)|C]].
  - destruct log; discriminate.
  - apply app_inj_tail in C. destruct C as [_ C]. discriminate.
  - destruct C as (l1 & w0 & tid & t0 & points & rv & chi2 & ndf & lost & l2 & EQ & NF & C).
    destruct C as (C1 & C2 & C3 & _ & _ & _ & _ & _ & C9 & C10).
    destruct (fit_suffix l1 l2 log [EvGet w label (Ok a)] (EvFit w0 tid (Ok (Z.eqb rv 0)))) as (p2 & -> & ->); eauto.
    { intros ? ? ? [I|[]]. discriminate. }
    assert (I : In (EvGet w label (Ok a)) (p2 ++ [EvGet w label (Ok a)])) by (apply in_or_app; right; left; auto).
    apply C9 in I. destruct (C10 _ _ I) as (w1 & t1 & fr & J1 & J2 & J3 & J4).
    exists l1, w0, tid, (Z.eqb rv 0), p2, t0, points, w1, t1, fr.
    apply no_fit_app in NF. rewrite C3. cbn [fst]. rewrite Z.eqb_eq. repeat (split; [solve [auto|tauto]|]). auto.
Qed.
Print Assumptions C43_result.

(** two queries without a fit between them return the same object exactly if
    they ask for the same label; the object is unchanged and alive at the end *)
Theorem C43_same_object : forall E G l m w1 lab1 a1 w2 lab2 a2 st,
  fhist E G (l ++ EvGet w1 lab1 (Ok a1) :: m ++ [EvGet w2 lab2 (Ok a2)]) st -> no_fit m ->
  (a1 = a2 <-> lab1 = lab2)
  /\ (exists st1 fr, fhist E G (l ++ [EvGet w1 lab1 (Ok a1)]) st1 /\ holds st1 a1 fr /\ holds st a1 fr).
Proof.
  intros E G l m w1 lab1 a1 w2 lab2 a2 st H N.
  assert (ND : no_fit (EvGet w1 lab1 (Ok a1) :: m ++ [EvGet w2 lab2 (Ok a2)])).
  { intros w t r [I|I]; [discriminate|]. apply in_app_or in I. destruct I as [I|[I|[]]]; [|discriminate].
    eapply N; eauto. }
  split.
  - destruct (inv_hist _ _ _ _ H) as (N1 & N2 & _ & _ & _ & C).
    destruct C as [(C & _)|[(l1 & w0 & tid & C & _)|C]].
    + destruct l; discriminate.
    + exfalso. assert (I : In (EvFit w0 tid Throw) (EvGet w1 lab1 (Ok a1) :: m ++ [EvGet w2 lab2 (Ok a2)])).
      { rewrite app_comm_cons, app_assoc in C. apply app_inj_tail in C. destruct C as [_ C]. discriminate. }
      eapply ND; eauto.
    + destruct C as (l1 & w0 & tid & t0 & points & rv & chi2 & ndf & lost & l2 & EQ & NF & C).
      destruct C as (_ & _ & _ & _ & _ & _ & _ & _ & C9 & _).
      destruct (fit_suffix l1 l2 l _ (EvFit w0 tid (Ok (Z.eqb rv 0))) ltac:(eauto) ND (eq_sym EQ)) as (p2 & E2 & _).
      assert (I1 : In (lab1, a1) (if_results (fs_if st))).
      { apply C9 with (w := w1). rewrite E2. apply in_or_app. right. left. auto. }
      assert (I2 : In (lab2, a2) (if_results (fs_if st))).
      { apply C9 with (w := w2). rewrite E2. apply in_or_app. right. right. apply in_or_app. right. left. auto. }
      split; intros Q; subst.
      * clear - N2 I1 I2. induction (if_results (fs_if st)) as [|[z b] rs IH]; [destruct I1|].
        cbn in N2. inversion N2; subst. destruct I1 as [I1|I1], I2 as [I2|I2].
        -- congruence.
        -- injection I1 as -> ->. exfalso. apply H1. apply in_map_iff. exists (lab2, a2). auto.
        -- injection I2 as -> ->. exfalso. apply H1. apply in_map_iff. exists (lab1, a2). auto.
        -- auto.
      * apply lookup_of_in in I1; auto. apply lookup_of_in in I2; auto. congruence.
  - change (l ++ EvGet w1 lab1 (Ok a1) :: m ++ [EvGet w2 lab2 (Ok a2)])
      with (l ++ [EvGet w1 lab1 (Ok a1)] ++ m ++ [EvGet w2 lab2 (Ok a2)]) in H.
    rewrite app_assoc in H. destruct (fhist_mono _ _ _ _ _ H) as (st1 & H1 & _ & K).
    exists st1. assert (I := inv_hist _ _ _ _ H1). destruct I as (_ & _ & L1 & _ & _ & C).
    assert (X : In a1 (map snd (if_results (fs_if st1)))).
    { destruct C as [(C & _)|[(l1 & w0 & tid & C & _)|C]].
      - destruct l; discriminate.
      - apply app_inj_tail in C. destruct C as [_ C]. discriminate.
      - destruct C as (l1 & w0 & tid & t0 & points & rv & chi2 & ndf & lost & l2 & EQ & NF & C).
        destruct C as (_ & _ & _ & _ & _ & _ & _ & _ & C9 & _).
        destruct (fit_suffix l1 l2 l [EvGet w1 lab1 (Ok a1)] (EvFit w0 tid (Ok (Z.eqb rv 0)))) as (p2 & E2 & _); eauto.
        { intros ? ? ? [I|[]]. discriminate. }
        apply in_map_iff. exists (lab1, a1). split; auto. apply C9 with (w := w1). rewrite E2.
        apply in_or_app. right. left. auto. }
    destruct (L1 _ X) as [fr F]. exists fr. split; auto. split; auto. apply K; auto.
    apply no_fit_app. split; auto. intros ? ? ? [I|[]]. discriminate.
Qed.
Print Assumptions C43_same_object.

(** a new fit, successful or not, discards all results handed out before, for good *)
Theorem C43_discarded : forall E G l w label a m w' tid r n st,
  fhist E G (l ++ EvGet w label (Ok a) :: m ++ EvFit w' tid r :: n) st -> deleted st a.
Proof.
  intros E G l w label a m w' tid r n st H.
  replace (l ++ EvGet w label (Ok a) :: m ++ EvFit w' tid r :: n)
    with ((l ++ EvGet w label (Ok a) :: m ++ [EvFit w' tid r]) ++ n) in H
    by (rewrite <- app_assoc; cbn; rewrite <- app_assoc; auto).
  destruct (fhist_mono _ _ _ _ _ H) as (st1 & H1 & D & _). apply D.
  destruct (inv_hist _ _ _ _ H1) as (_ & _ & L1 & _ & G5 & _).
  destruct (G5 w label a) as [I|I]; auto.
  { apply in_or_app. right. left. auto. }
  exfalso. rewrite app_comm_cons, app_assoc in H1.
  inversion H1 as [Q|log0 st0 w0 tid0 st' r0 Hh F R Q|log0 st0 w0 label0 st' r0 Hh F R Q]; subst.
  - destruct l; discriminate.
  - destruct (fit_cases _ _ _ _ _ _ F R) as (_ & Hr & _). rewrite Hr in I. destruct I.
  - apply app_inj_tail in Q. destruct Q as [_ Q]. discriminate.
Qed.
Print Assumptions C43_discarded.

(** nothing leaks: the live objects are those handed out since the latest fit *)
Theorem C43_live : forall E G log st a, fhist E G log st ->
  ((exists fr, holds st a fr) <->
   exists l1 w0 tid r l2 w label, log = l1 ++ EvFit w0 tid r :: l2 /\ no_fit l2
     /\ In (EvGet w label (Ok a)) l2).
Proof.
  intros E G log st a H. destruct (inv_hist _ _ _ _ H) as (_ & _ & L1 & L2 & _ & C).
  destruct C as [(C & Rs & _)|[(l1 & w0 & tid & C & Rs & _)|C]].
  - split.
    + intros [fr X]. apply L2 in X. rewrite Rs in X. destruct X.
    + intros (l1 & w0 & tid & r & l2 & w & label & Q & _). subst log. destruct l1; discriminate.
  - split.
    + intros [fr X]. apply L2 in X. rewrite Rs in X. destruct X.
    + intros (m1 & w1 & tid1 & r & l2 & w & label & Q & N & I). exfalso. subst log.
      destruct (last_fit_unique (EvFit w0 tid Throw) (EvFit w1 tid1 r) l1 [] m1 l2) as (_ & _ & <-); eauto.
      intros ? ? ? [].
  - destruct C as (l1 & w0 & tid & t0 & points & rv & chi2 & ndf & lost & l2 & EQ & NF & C).
    destruct C as (_ & _ & _ & _ & _ & _ & _ & _ & C9 & C10). split.
    + intros [fr X]. apply L2 in X. apply in_map_iff in X. destruct X as ((label & a') & Q & I). cbn in Q. subst a'.
      destruct (C10 _ _ I) as (w1 & t1 & fr1 & J & _). exists l1, w0, tid, (Ok (Z.eqb rv 0)), l2, w1, label. auto.
    + intros (m1 & w1 & tid1 & r & m2 & w & label & Q & N & I). subst log.
      destruct (last_fit_unique (EvFit w0 tid (Ok (Z.eqb rv 0))) (EvFit w1 tid1 r) l1 l2 m1 m2) as (_ & _ & <-); eauto.
      apply L1. apply in_map_iff. exists (label, a). split; auto. eapply C9; eauto.
Qed.
Print Assumptions C43_live.

(** When a query is defined: exactly if there was a fit, the latest one did not
    throw, and the label was asked for since, or it is the index of an element of
    the trajectory (which still exists) at a place with a field.  With a zero
    field numbers are not finite, in all other cases behaviour is undefined. *)
Theorem C43_defined : forall E G log st w label, fhist E G log st ->
  (no_fit log -> snd (getResults E G w st label) = UB)
  /\ (forall l1 w0 tid l2, log = l1 ++ EvFit w0 tid Throw :: l2 -> no_fit l2 ->
        snd (getResults E G w st label) = UB)
  /\ (forall l1 w0 tid b l2, log = l1 ++ EvFit w0 tid (Ok b) :: l2 -> no_fit l2 ->
        (forall w1 a, In (EvGet w1 label (Ok a)) l2 -> getResults E G w st label = (st, Ok a))
        /\ ((forall w1 a, ~ In (EvGet w1 label (Ok a)) l2) ->
              (w tid = None -> snd (getResults E G w st label) = UB)
              /\ (forall t, w tid = Some t ->
                   ((label < 0)%Z \/ (Z.of_nat (length (tr_elems t)) <= label)%Z ->
                      snd (getResults E G w st label) = UB)
                   /\ (forall e, (0 <= label)%Z -> nth_error (tr_elems t) (Z.to_nat label) = Some e ->
                         (en_bfield E (tp_ref (te_tp e)) = v3zero -> snd (getResults E G w st label) = NonFin)
                         /\ (en_bfield E (tp_ref (te_tp e)) <> v3zero ->
                              exists a, snd (getResults E G w st label) = Ok a))))).
Proof.
  intros E G log st w label H. destruct (inv_hist _ _ _ _ H) as (N1 & _ & _ & _ & _ & C).
  destruct C as [(C & Rs & Fi & _)|[(l1 & w0 & tid & C & Rs & Tr)|C]].
  - split; [intros _; unfold getResults; rewrite Rs; cbn; rewrite Fi; auto|].
    subst log. split; intros l1 w0 tid; [intros l2 Q|intros b l2 Q]; destruct l1; discriminate.
  - assert (U : snd (getResults E G w st label) = UB).
    { unfold getResults. rewrite Rs, Tr. cbn. destruct (if_fitted _); auto. destruct (w n); auto. }
    split; auto. split; auto. intros m1 w1 tid1 b m2 Q N. subst log.
    destruct (last_fit_unique (EvFit w0 tid Throw) (EvFit w1 tid1 (Ok b)) l1 [] m1 m2) as (_ & X & _); eauto.
    { intros ? ? ? []. } discriminate.
  - destruct C as (l1 & w0 & tid & t0 & points & rv & chi2 & ndf & lost & l2 & EQ & NF & C).
    destruct C as (C1 & C2 & C3 & C4 & C5 & C6 & C7 & C8 & C9 & C10).
    split; [intros N; exfalso; subst log; eapply (N w0 tid); apply in_or_app; right; left; eauto|].
    split.
    { intros m1 w1 tid1 m2 Q N. exfalso. subst log.
      destruct (last_fit_unique (EvFit w0 tid (Ok (Z.eqb rv 0))) (EvFit w1 tid1 Throw) l1 l2 m1 m2) as (_ & X & _); eauto.
      discriminate. }
    intros m1 w1 tid1 b m2 Q N. subst log.
    destruct (last_fit_unique (EvFit w0 tid (Ok (Z.eqb rv 0))) (EvFit w1 tid1 (Ok b)) l1 l2 m1 m2) as (_ & X & <-); eauto.
    injection X as <- <- <-. split.
    + intros w2 a I. apply C9 in I. apply lookup_of_in in I; auto. unfold getResults. rewrite I. auto.
    + intros Fresh.
      assert (L : lookup (if_results (fs_if st)) label = None).
      { destruct (lookup (if_results (fs_if st)) label) as [a|] eqn:L; auto. exfalso.
        apply lookup_in in L. destruct (C10 _ _ L) as (w2 & t2 & fr & J & _). eapply Fresh; eauto. }
      unfold getResults. rewrite L, C5, C4. split; [intros ->; auto|]. intros t ->. unfold computeResults, elementIndex.
      destruct (gbl_results G points label) as [[err corr] cov]. split.
      * intros B. destruct (Z.ltb_spec label 0); auto.
        destruct (nth_error (tr_elems t) (Z.to_nat label)) eqn:Ne; auto. exfalso.
        assert (Z.to_nat label < length (tr_elems t))%nat by (apply nth_error_Some; rewrite Ne; discriminate). lia.
      * intros e P Ne. destruct (Z.ltb_spec label 0); [lia|]. rewrite Ne. cbn [bind].
        destruct (cl2l3_column (tp_par (te_tp e)) (en_bfield E (tp_ref (te_tp e)))) as [J1 J2]. split.
        -- intros Z. rewrite J1 by auto. auto.
        -- intros Z. destruct (J2 Z) as (J & -> & _). cbn. eauto.
Qed.
Print Assumptions C43_defined.

(** C44: parameters and covariance of a result.  [e] is the element of the label,
    [corr] and [cov] what the fitter reports for it; where the fit, its points and
    the trajectory come from is as in C43_result. *)
Theorem C44_result : forall E G log st w label st' a, fhist E G log st ->
  getResults E G w st label = (st', Ok a) ->
  exists l1 w0 tid b l2 t0 points w1 t fr e J err corr cov,
    log = l1 ++ EvFit w0 tid (Ok b) :: l2 /\ no_fit l2
    /\ w0 tid = Some t0 /\ makePoints (tr_elems t0) = Ok points
    /\ In (EvGet w1 label (Ok a)) (l2 ++ [EvGet w label (Ok a)]) /\ w1 tid = Some t
    /\ (0 <= label)%Z /\ nth_error (tr_elems t) (Z.to_nat label) = Some e
    /\ holds st' a fr
    /\ curvilinearToL3Jacobian (tp_par (te_tp e)) (en_bfield E (tp_ref (te_tp e))) = Ok J
    /\ gbl_results G points label = (err, corr, cov)
    /\ tp_ref (fr_tp fr) = tp_ref (te_tp e)
    /\ (err = 0%Z -> forall i, tp_par (fr_tp fr) i = tp_par (te_tp e) i + sum5 (fun j => J i j * corr j))
    /\ (err <> 0%Z -> forall i, tp_par (fr_tp fr) i = tp_par (te_tp e) i)
    /\ (forall i j, tp_cov (fr_tp fr) i j = sum5 (fun k => sum5 (fun l => J i k * cov k l * J j l)))
    /\ (msym cov -> msym (tp_cov (fr_tp fr)))
    /\ (mpsd cov -> mpsd (tp_cov (fr_tp fr))).
Proof.
  intros E G log st w label st' a H Q.
  destruct (C43_result _ _ _ _ _ _ _ _ H Q) as (l1 & w0 & tid & b & l2 & t0 & points & w1 & t1 & fr & A).
  destruct A as (A1 & A2 & A3 & A4 & _ & A6 & W1 & Hd & X).
  destruct X as (e & J & rv & chi2 & ndf & lost & err & corr & cov & X0 & X1 & X2 & X3 & X4 & X5 & X6 & X7 & X8 & X9 & X10 & X11 & X12).
  exists l1, w0, tid, b, l2, t0, points, w1, t1, fr, e, J, err, corr, cov. repeat (split; [solve [auto]|]).
  assert (K : forall i j, tp_cov (fr_tp fr) i j = m5mul (m5mul J cov) (m5transpose J) i j).
  { intros i j. rewrite X12. unfold m5mul, m5transpose, sum5. ring. }
  split.
  - intros S i j. rewrite !K. apply congr_sym. auto.
  - intros P v. assert (quad (tp_cov (fr_tp fr)) v = quad (m5mul (m5mul J cov) (m5transpose J)) v) as ->.
    { unfold quad, sum5. rewrite !K. auto. }
    apply congr_psd. auto.
Qed.
Print Assumptions C44_result.

(** The third entry of the correction, the azimuth, never reaches the result:
    two fitters that differ only there give the same parameters. *)
Theorem C44_azimuth_correction_lost : forall E G1 G2 i points t label fr1 fr2,
  computeResults E G1 i points t label = Ok fr1 -> computeResults E G2 i points t label = Ok fr2 ->
  fst (fst (gbl_results G1 points label)) = fst (fst (gbl_results G2 points label)) ->
  (forall k, k <> I2 -> snd (fst (gbl_results G1 points label)) k = snd (fst (gbl_results G2 points label)) k) ->
  forall k, tp_par (fr_tp fr1) k = tp_par (fr_tp fr2) k.
Proof.
  intros E G1 G2 i points t label fr1 fr2 A B Er Co k. unfold computeResults in *.
  destruct (gbl_results G1 points label) as [[err corr] cov]. destruct (gbl_results G2 points label) as [[err2 corr2] cov2].
  cbn [fst snd] in *. subst err2. destruct (elementIndex (tr_elems t) label) as [e| | | |]; try discriminate. cbn [bind] in *.
  destruct (cl2l3_column (tp_par (te_tp e)) (en_bfield E (tp_ref (te_tp e)))) as [J1 J2].
  destruct (curvilinearToL3Jacobian (tp_par (te_tp e)) (en_bfield E (tp_ref (te_tp e)))) as [J| | | |] eqn:EJ; try discriminate.
  cbn [bind] in *. injection A as <-. injection B as <-. cbn.
  assert (Z : forall i, J i I2 = 0).
  { destruct J2 as (J' & Q & Z); [intros W; specialize (J1 W); congruence|]. congruence. }
  unfold v5add, m5mulv, sum5. rewrite !Z. destruct (Z.eqb err 0); auto.
  rewrite (Co I0 ltac:(discriminate)), (Co I1 ltac:(discriminate)), (Co I3 ltac:(discriminate)),
    (Co I4 ltac:(discriminate)). ring.
Qed.
Print Assumptions C44_azimuth_correction_lost.
