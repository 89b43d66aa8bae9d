(** C45, C57, C58: what the fitter receives, labels, and when a fit is defined. *)
From Coq Require Import Reals List Bool ZArith Lra Lia Permutation.
From Verif Require Import Num Vec Helix Isect Trans Material Traj.
From Verif Require Import NumFacts SpecMat SpecTraj TrajFacts TrajFacts2 TrajFacts5 SpecElem Fit SpecFit FitFacts FitFacts2 PropFit.
Import ListNotations.
Open Scope R_scope.

Lemma forall2_nth {A B : Type} (P : A -> B -> Prop) l1 l2 k a : Forall2 P l1 l2 -> nth_error l1 k = Some a ->
  exists b, nth_error l2 k = Some b /\ P a b.
Proof.
  intros F. revert k. induction F as [|x y l1 l2 H F IH]; intros [|k] Q; try discriminate.
  - injection Q as <-. exists y. auto.
  - apply IH. exact Q.
Qed.

(** C58: for a trajectory built by any history of calls, the fit hands over one
    point per element, in order, with the element's Jacobian, the first two
    residuals and precisions of a measurement, and the scattering matrix.  It is
    defined exactly if every element has its Jacobian and every measurement at
    least two precisions stored; otherwise memory outside of an object is read. *)
Theorem C58_fit : forall E G tp pm cs t w st tid, env_ok E ->
  history E any_call (mkTraj tp pm) cs t -> w tid = Some t ->
  (List.Forall fittable (tr_elems t) ->
     exists st' points b, fit G w st tid = (st', Ok b)
       /\ if_traj (fs_if st') = Some points /\ Forall2 (point_for E tp pm cs) (tr_elems t) points
       /\ (b = true <-> fst (gbl_fit G points) = 0%Z))
  /\ (~ List.Forall fittable (tr_elems t) -> snd (fit G w st tid) = UB).
Proof.
  intros E G tp pm cs t w st tid [So _] H W. assert (Ok1 := history_ok _ _ _ _ _ So H).
  destruct (makePoints_cases _ _ Ok1) as [M1 M2]. unfold fit. rewrite W. split; intros F.
  - destruct (M1 F) as [ps P]. rewrite P. destruct (gbl_fit G ps) as [rv [[chi2 ndf] lost]] eqn:Q.
    do 3 eexists. split; [reflexivity|]. split; [reflexivity|].
    split; [eapply makePoints_ok; eauto|]. rewrite Q. cbn. apply Z.eqb_eq.
  - rewrite (M2 F). reflexivity.
Qed.
Print Assumptions C58_fit.

Lemma keeps_steps E ok t0 t' : forall cs', history E ok t0 cs' t' -> List.Forall keeps_elements cs' ->
  tr_elems t' = tr_elems t0.
Proof.
  intros cs' H. induction H as [|cs t c t' H IH O St]; intros F; auto.
  apply Forall_app in F. destruct F as [F1 F2]. inversion F2; subst. rewrite <- (IH F1).
  destruct St as [position precision surf id sc t' r A R|surf t' r A R|t' A|l t' A|m]; try contradiction.
  - unfold getIntersectionsWithSurfaces in A. cbv zeta in A. dres A. injection A as <-. reflexivity.
  - reflexivity.
Qed.

Lemma history_split E ok t0 : forall cs2 cs1 t, history E ok t0 (cs1 ++ cs2) t ->
  exists t1, history E ok t0 cs1 t1 /\ history E ok t1 cs2 t.
Proof.
  intros cs2. induction cs2 as [|c cs2 IH] using rev_ind; intros cs1 t H.
  - rewrite app_nil_r in H. exists t. split; auto. constructor.
  - rewrite app_assoc in H. inversion H as [Q|cs t1 c' t' Hh O St Q]; subst.
    + destruct (cs1 ++ cs2); discriminate.
    + apply app_inj_tail in Q. destruct Q as [-> ->]. destruct (IH _ _ Hh) as (t2 & A & B).
      exists t2. split; auto. econstructor; eauto.
Qed.

Lemma history_weaken E (ok1 ok2 : traj -> call -> Prop) t0 cs t : (forall t c, ok1 t c -> ok2 t c) ->
  history E ok1 t0 cs t -> history E ok2 t0 cs t.
Proof. intros W H. induction H; econstructor; eauto. Qed.

(** After prepareForFitting, and as long as nothing is added, the fit is defined
    if every measurement came with a precision. *)
Theorem C58_after_preparation : forall E G tp pm cs cs' t w st tid, env_ok E ->
  history E has_precision (mkTraj tp pm) (cs ++ CPrep :: cs') t -> List.Forall keeps_elements cs' ->
  w tid = Some t -> exists b, snd (fit G w st tid) = Ok b.
Proof.
  intros E G tp pm cs cs' t w st tid Ek H K W. destruct Ek as [So Si].
  change (CPrep :: cs') with ([CPrep] ++ cs') in H. rewrite app_assoc in H.
  assert (H0 := H). apply history_split in H0. destruct H0 as (t1 & H1 & H2).
  assert (Q := keeps_steps _ _ _ _ _ H2 K).
  assert (F : List.Forall fittable (tr_elems t)).
  { assert (P := history_prec _ _ _ _ _ _ So (fun t c h => h) H).
    assert (J : List.Forall (fun e => te_jac e <> None) (tr_elems t)).
    { rewrite Q. inversion H1 as [Z|cs0 t2 c t3 Hh O St Z]; subst.
      - destruct cs; discriminate.
      - apply app_inj_tail in Z. destruct Z as [_ ->]. inversion St; subst. eapply prepare_jac; eauto. }
    rewrite List.Forall_forall in *. intros e I. split; [apply J; auto|apply P; auto]. }
  assert (Ha : history E any_call (mkTraj tp pm) ((cs ++ [CPrep]) ++ cs') t) by exact (history_weaken _ _ _ _ _ _ (fun _ _ _ => Logic.I) H).
  destruct (C58_fit E G tp pm _ t w st tid (conj So Si) Ha W) as [A _].
  destruct (A F) as (st' & points & b & -> & _). exists b. reflexivity.
Qed.
Print Assumptions C58_after_preparation.

(** Right after an addition the new element has no Jacobian: a fit without a new
    preparation is undefined. *)
Theorem C58_after_addition : forall E G tp pm cs t position precision surf id sc t' w st tid, env_ok E ->
  history E any_call (mkTraj tp pm) cs t ->
  addMeasurement E t position precision surf id sc = (t', Ok true) \/ addScatterer E t surf = (t', Ok true) ->
  w tid = Some t' -> snd (fit G w st tid) = UB.
Proof.
  intros E G tp pm cs t position precision surf id sc t' w st tid Ek H A W.
  assert (X : (exists c, history E any_call (mkTraj tp pm) (cs ++ [c]) t') /\ exists e, In e (tr_elems t') /\ te_jac e = None).
  { destruct A as [A|A].
    - split; [exists (CMeas position precision surf id sc); apply hist_snoc with t; [exact H|exact I|]; apply step_meas with (Ok true); [exact A|left; eauto]|].
      destruct (push_ok _ _ _ _ A) as (t1 & las & _ & _ & _ & [(Q & _)|(_ & e & Xt & N)]); try discriminate.
      exists e. split; [rewrite Xt; cbn; apply in_or_app; right; left; auto|].
      apply (newMeasurement_elem _ _ _ _ _ _ _ _ _ N).
    - split; [exists (CScat surf); apply hist_snoc with t; [exact H|exact I|]; apply step_scat with (Ok true); [exact A|left; eauto]|].
      destruct (push_ok _ _ _ _ A) as (t1 & las & _ & _ & _ & [(Q & _)|(_ & e & Xt & N)]); try discriminate.
      exists e. split; [rewrite Xt; cbn; apply in_or_app; right; left; auto|].
      apply (newScatterer_elem _ _ _ _ _ N). }
  destruct X as ((c & H') & e & Ie & Je). eapply C58_fit; eauto.
  intros F. rewrite List.Forall_forall in F. apply (F e Ie). exact Je.
Qed.
Print Assumptions C58_after_addition.

Definition short (e : telem) : Prop := te_meas e = true /\ (length (te_prec e) < 2)%nat.

Lemma push_keeps P t new t' r : pushElement t new = (t', r) -> (exists b, r = Ok b) \/ r = Throw ->
  Exists P (tr_elems t) -> Exists P (tr_elems t').
Proof.
  intros H R X. destruct (push_spec _ _ _ _ H R) as [(_ & -> & _)|(t1 & e0 & l & En & _ & C)]; auto.
  destruct (ensure_spec _ _ En) as [(_ & ->)|(Q & _)]; [|rewrite Q in X; inversion X].
  destruct C as [(_ & -> & _)|[(_ & -> & _)|(e & _ & _ & ->)]]; auto.
  cbn. apply Exists_app. auto.
Qed.

Lemma history_short E ok t0 cs t : sorts te_s (en_sortE E) -> history E ok t0 cs t ->
  Exists short (tr_elems t0) -> Exists short (tr_elems t).
Proof.
  intros So H X. induction H as [|cs t c t' H IH O St]; auto.
  destruct St as [position precision surf id sc t' r A R|surf t' r A R|t' A|l t' A|m].
  - apply (push_keeps _ _ _ _ _ A R IH).
  - apply (push_keeps _ _ _ _ _ A R IH).
  - destruct (prepare_elems _ _ _ So A) as (l & Pm & _ & F2 & _).
    apply Exists_exists in IH. destruct IH as (e & I1 & I2).
    assert (I3 : In e l) by (eapply Permutation_in; eauto).
    destruct (forall2_in_l _ _ _ _ F2 I3) as (e' & I4 & I5). apply Exists_exists. exists e'. split; auto.
    destruct I5 as (_ & _ & _ & A4 & _ & _ & A7 & _). destruct I2. split; congruence.
  - unfold getIntersectionsWithSurfaces in A. cbv zeta in A. dres A. injection A as <-. exact IH.
  - exact IH.
Qed.

(** A measurement without precisions on a surface that does not scatter is
    accepted, and makes every later fit undefined, prepared or not. *)
Theorem C58_without_precision : forall E G tp pm cs t position surf id t1 cs' t' w st tid, env_ok E ->
  history E any_call (mkTraj tp pm) cs t ->
  addMeasurement E t position [] surf id false = (t1, Ok true) ->
  history E any_call t1 cs' t' -> w tid = Some t' -> snd (fit G w st tid) = UB.
Proof.
  intros E G tp pm cs t position surf id t1 cs' t' w st tid Ek H A H' W. assert (So := proj1 Ek).
  assert (X : Exists short (tr_elems t')).
  { eapply history_short; eauto.
    destruct (push_ok _ _ _ _ A) as (t2 & las & _ & _ & _ & [(Q & _)|(_ & e & Xt & N)]); try discriminate.
    apply Exists_exists. exists e. split; [rewrite Xt; cbn; apply in_or_app; right; left; auto|].
    destruct (newMeasurement_elem _ _ _ _ _ _ _ _ _ N) as (M & _ & L). split; auto.
    destruct (Compare_dec.le_lt_dec 2 (length (te_prec e))) as [L2|L2]; auto. exfalso.
    apply L in L2. destruct L2 as [L2|L2]; [contradiction|discriminate]. }
  assert (Hx : history E any_call (mkTraj tp pm) ((cs ++ [CMeas position [] surf id false]) ++ cs') t').
  { clear - H A H'. induction H' as [|cs0 t2 c t3 Hh IH O St].
    - rewrite app_nil_r. apply hist_snoc with t; [exact H|exact I|]. apply step_meas with (Ok true); [exact A|left; eauto].
    - rewrite app_assoc. apply hist_snoc with t2; auto. }
  eapply C58_fit; eauto. intros F. apply Exists_exists in X. destruct X as (e & I1 & I2 & I3).
  rewrite List.Forall_forall in F. destruct (F e I1) as [_ L]. specialize (L I2). lia.
Qed.
Print Assumptions C58_without_precision.

(** C45: the scattering matrix of a reachable scattering element [e]. *)
Theorem C45_scatterer : forall E G tp pm cs t w st tid st' b points k e, env_ok E ->
  history E any_call (mkTraj tp pm) cs t -> w tid = Some t ->
  fit G w st tid = (st', Ok b) -> if_traj (fs_if st') = Some points ->
  nth_error (tr_elems t) k = Some e -> te_scat e = true ->
  exists p th, nth_error points k = Some p /\ scattering_angle E tp pm cs e th
    /\ ((exists a, th = Ok a /\ a <> 0
           /\ gp_scat p = Some ((0, 0), Some (1 / (a * a), 0, 0, 1 / (a * a)))
           /\ (forall x y, (x, y) <> (0, 0) ->
                 0 < x * (1 / (a * a)) * x + x * 0 * y + y * 0 * x + y * (1 / (a * a)) * y))
        \/ ((th = Ok 0 \/ th = NonFin) /\ gp_scat p = Some ((0, 0), None))).
Proof.
  intros E G tp pm cs t w st tid st' b points k e Ek H W F T N S.
  destruct (C58_fit E G tp pm cs t w st tid Ek H W) as [A B].
  assert (D : List.Forall fittable (tr_elems t)).
  { destruct (Classical_Prop.classic (List.Forall fittable (tr_elems t))) as [D|D]; auto.
    exfalso. specialize (B D). rewrite F in B. discriminate. }
  destruct (A D) as (st2 & points2 & b2 & F2 & T2 & P & _).
  rewrite F in F2. injection F2 as <- <-. rewrite T in T2. injection T2 as <-.
  destruct (forall2_nth _ _ _ _ _ P N) as (p & Np & _ & _ & _ & _ & Sp).
  destruct (Sp S) as (s & Es & th & An & C). exists p, th. split; auto. split; auto.
  destruct C as [(a & -> & Na & ->)|(Z & ->)]; [left|right; auto].
  exists a. split; auto. split; auto. split; auto. intros x y Nz.
  assert (Ka : 0 < 1 / (a * a)).
  { apply Rdiv_lt_0_compat; [lra|]. assert (0 < a \/ a < 0) as [?|?] by lra; nra. }
  assert (Sq : 0 < x * x + y * y).
  { destruct (Req_dec x 0) as [->|Nx]; [|assert (0 < x * x) by (apply Rsqr_pos_lt; auto); nra].
    destruct (Req_dec y 0) as [->|Ny]; [exfalso; auto|]. assert (0 < y * y) by (apply Rsqr_pos_lt; auto). nra. }
  replace (_ + _ + _ + _) with (1 / (a * a) * (x * x + y * y)) by ring. apply Rmult_lt_0_compat; auto.
Qed.
Print Assumptions C45_scatterer.

(** The formula for general direction cosines c1, c2 (always zero here): the
    inverse of the covariance of two projected slopes for the variance [q]. *)
Theorem C45_matrix : forall q c1 c2, q <> 0 -> 1 - c1 * c1 - c2 * c2 <> 0 ->
  let k := q / ((1 - c1 * c1 - c2 * c2) * (1 - c1 * c1 - c2 * c2)) in
  exists a b c d, scatMatrix (Some q) (Some c1) (Some c2) = Some (a, b, c, d)
    /\ a * (k * (1 - c2 * c2)) + b * (k * (c1 * c2)) = 1
    /\ a * (k * (c1 * c2)) + b * (k * (1 - c1 * c1)) = 0
    /\ c * (k * (1 - c2 * c2)) + d * (k * (c1 * c2)) = 0
    /\ c * (k * (c1 * c2)) + d * (k * (1 - c1 * c1)) = 1
    /\ (0 < q -> 0 < 1 - c1 * c1 - c2 * c2 -> forall x y, (x, y) <> (0, 0) ->
          0 < x * a * x + x * b * y + y * c * x + y * d * y).
Proof.
  intros q c1 c2 Hq Hd k. unfold scatMatrix. destruct (Req_EM_T q 0) as [?|_]; [contradiction|].
  cbv zeta. do 4 eexists. split; [reflexivity|]. unfold k.
  split; [field; auto|]. split; [field; auto|]. split; [field; auto|]. split; [field; auto|].
  intros Pq Pd x y Nz. set (S := (1 - c1 * c1 - c2 * c2) / q).
  assert (PS : 0 < S) by (apply Rdiv_lt_0_compat; auto).
  assert (X : 0 < x * x + y * y - (c1 * x + c2 * y) * (c1 * x + c2 * y)).
  { assert (Sq : 0 < x * x + y * y).
    { destruct (Req_dec x 0) as [->|Nx]; [|assert (0 < x * x) by (apply Rsqr_pos_lt; auto); nra].
      destruct (Req_dec y 0) as [->|Ny]; [exfalso; auto|]. assert (0 < y * y) by (apply Rsqr_pos_lt; auto). nra. }
    assert (CS : (c1 * x + c2 * y) * (c1 * x + c2 * y) <= (c1 * c1 + c2 * c2) * (x * x + y * y)).
    { assert (0 <= (c1 * y - c2 * x) * (c1 * y - c2 * x)) by apply Rle_0_sqr. nra. }
    nra. }
  replace (_ + _ + _ + _) with (S * (x * x + y * y - (c1 * x + c2 * y) * (c1 * x + c2 * y))) by (unfold S; ring).
  apply Rmult_lt_0_compat; auto.
Qed.
Print Assumptions C45_matrix.

(** ** C57: labels *)

(** Points are numbered from one in GBL: [corr points k] is the correction and
    covariance at point number k, counted from zero. *)
Definition labels_from_one (G : gbl) (corr : list gpoint -> nat -> vec5 * mat5) : Prop :=
  forall points k, (k < length points)%nat ->
    gbl_results G points (Z.of_nat (S k)) = (0%Z, fst (corr points k), snd (corr points k)).

(** The interface passes its label on, and uses it as an index counted from zero
    as well: the correction at a point is added to the parameters of the next
    element, and the label of the last point has no element. *)
Theorem C57_labels : forall E G corr log st w tid l1 w0 b l2 t0 points k, fhist E G log st ->
  labels_from_one G corr ->
  log = l1 ++ EvFit w0 tid (Ok b) :: l2 -> no_fit l2 ->
  w0 tid = Some t0 -> makePoints (tr_elems t0) = Ok points -> (k < length points)%nat ->
  (forall st' a, getResults E G w st (Z.of_nat (S k)) = (st', Ok a) ->
     exists w1 t1 fr e J, In (EvGet w1 (Z.of_nat (S k)) (Ok a)) (l2 ++ [EvGet w (Z.of_nat (S k)) (Ok a)])
       /\ w1 tid = Some t1 /\ nth_error (tr_elems t1) (S k) = Some e
       /\ curvilinearToL3Jacobian (tp_par (te_tp e)) (en_bfield E (tp_ref (te_tp e))) = Ok J
       /\ holds st' a fr
       /\ forall i, tp_par (fr_tp fr) i = tp_par (te_tp e) i + sum5 (fun j => J i j * fst (corr points k) j))
  /\ (w tid = Some t0 -> S k = length points -> (forall w1 a, ~ In (EvGet w1 (Z.of_nat (S k)) (Ok a)) l2) ->
        snd (getResults E G w st (Z.of_nat (S k))) = UB).
Proof.
  intros E G corr log st w tid l1 w0 b l2 t0 points k H C Q N W0 P Lk.
  assert (Lp : length points = length (tr_elems t0)).
  { clear - P. revert points P. induction (tr_elems t0) as [|e l IH]; cbn; intros points P.
    - injection P as <-. auto.
    - dres P. dres P. injection P as <-. cbn. f_equal. auto. }
  split.
  - intros st' a R. destruct (C43_result _ _ _ _ _ _ _ _ H R)
      as (m1 & w2 & tid2 & b2 & m2 & t2 & points2 & w1 & t1 & fr & A1 & A2 & A3 & A4 & _ & A6 & A7 & A8 & A9).
    rewrite Q in A1.
    destruct (last_fit_unique (EvFit w0 tid (Ok b)) (EvFit w2 tid2 (Ok b2)) l1 l2 m1 m2) as (_ & X & <-); eauto.
    injection X as <- <- <-. rewrite W0 in A3. injection A3 as <-. rewrite P in A4. injection A4 as <-.
    destruct A9 as (e & J & rv & chi2 & ndf & lost & err & co & cov & X0 & X1 & X2 & X3 & X4 & X5 & X6 & X7 & X8 & X9 & X10 & _).
    rewrite C in X4 by auto. injection X4 as <- <- <-. rewrite Nat2Z.id in X1.
    exists w1, t1, fr, e, J. auto 10.
  - intros W Lb Fr. destruct (C43_defined E G log st w (Z.of_nat (S k)) H) as (_ & _ & D).
    destruct (D _ _ _ _ _ Q N) as [_ D2]. destruct (D2 Fr) as [_ D3]. destruct (D3 _ W) as [D4 _].
    apply D4. right. lia.
Qed.
Print Assumptions C57_labels.

(** The scattering matrix of an element whatever its precisions: the last three
    are the variance and the two direction cosines, in this order. *)
Theorem C45_element : forall e p pre q c1 c2, makePoint e = Ok p -> te_scat e = true ->
  te_prec e = pre ++ [Some q; Some c1; Some c2] -> q <> 0 -> 1 - c1 * c1 - c2 * c2 <> 0 ->
  let k := q / ((1 - c1 * c1 - c2 * c2) * (1 - c1 * c1 - c2 * c2)) in
  exists a b c d, gp_scat p = Some ((0, 0), Some (a, b, c, d))
    /\ a * (k * (1 - c2 * c2)) + b * (k * (c1 * c2)) = 1
    /\ a * (k * (c1 * c2)) + b * (k * (1 - c1 * c1)) = 0
    /\ c * (k * (1 - c2 * c2)) + d * (k * (c1 * c2)) = 0
    /\ c * (k * (c1 * c2)) + d * (k * (1 - c1 * c1)) = 1.
Proof.
  intros e p pre q c1 c2 M S P Hq Hd k. unfold makePoint in M. destruct (te_jac e); [|discriminate].
  dres M. unfold scatPart in M. rewrite S, P, rev_app_distr in M. cbn [rev app bind] in M. injection M as <-. cbn [gp_scat].
  destruct (C45_matrix q c1 c2 Hq Hd) as (a' & b & c & d & E & A1 & A2 & A3 & A4 & _). fold k in A1, A2, A3, A4.
  exists a', b, c, d. split; [f_equal; f_equal; exact E|auto].
Qed.
Print Assumptions C45_element.

(** trajectory::fit and trajectory::getFitResults are the calls of the fitter, and
    undefined without one. *)
Theorem C58_fitter : forall E w st tid label,
  (forall G, traj_fit (Some G) w st tid = fit G w st tid
     /\ traj_getFitResults E (Some G) w st label = getResults E G w st label)
  /\ traj_fit None w st tid = (st, UB) /\ traj_getFitResults E None w st label = (st, UB).
Proof. repeat split. Qed.
Print Assumptions C58_fitter.
