(** Proofs about the contents of elements. *)
From Coq Require Import Reals List Bool ZArith Lra Lia Permutation FunctionalExtensionality.
From Verif Require Import SpecConst Num Vec Helix Isect Trans Material Traj.
From Verif Require Import NumFacts SpecHelix HelixFacts MoveFacts SpecTrans TransFacts SpecPropag SpecMaterial SpecTraj
  TrajFacts TrajFacts2 TrajFacts3 TrajFacts5 SpecElem.
Import ListNotations.
Open Scope R_scope.

Lemma move_values tp v tp' fid : moveHelixTo tp v false = Ok (tp', fid) ->
  tp_ref tp' = v /\ tp_cov tp' = tp_cov tp /\ tp_par tp' OMEGA = tp_par tp OMEGA.
Proof.
  intros H. destruct (Req_dec (tp_par tp OMEGA) 0) as [Z|Z].
  { rewrite move_diverges_or_nonfin in H by auto. discriminate. }
  destruct (move_ok tp v Z) as (p' & fid' & M & Sp & _). rewrite M in H. injection H as <- _.
  cbn. split; auto. split; auto. apply (ms_om _ _ _ _ Sp).
Qed.

Lemma frame_axes hp : calculateLocalCurvilinearSystem 0 hp
  = (axis_u (atan (hp TANL)) (hp PHI0), axis_v (atan (hp TANL)) (hp PHI0)).
Proof.
  unfold calculateLocalCurvilinearSystem, calculateCurvature, calculatePhi0, calculateLambda, axis_u, axis_v.
  replace (hp PHI0 - hp OMEGA * 0) with (hp PHI0) by ring. f_equal. f_equal; ring.
Qed.

Lemma squared_angle_iff t surf xx mom q :
  qms2 (computeQMS_uv surf (sf_globalToLocal surf xx) mom (tr_mass t)) = Ok q <-> squared_angle t surf xx mom q.
Proof.
  unfold squared_angle. destruct (computeQMS_uv _ _ _ _) as [a| | | |]; cbn [qms2]; split; intros H;
    try discriminate; try (destruct H as [(x & X & _)|(X & _)]; discriminate).
  - injection H as <-. left. eauto.
  - destruct H as [(x & X & ->)|(X & _)]; [|discriminate]. injection X as ->. auto.
  - injection H as <-. right. auto.
  - destruct H as [(x & X & _)|(_ & ->)]; [discriminate|auto].
Qed.

(** the state after the energy loss *)
Lemma applyLoss_iff mv dE En beta tp :
  applyLoss mv (EL dE En beta) = Ok tp <->
  En <> 0 /\ dE <> En /\ tp_ref tp = tp_ref mv /\ tp_cov tp = tp_cov mv
  /\ (forall i, i <> OMEGA -> tp_par tp i = tp_par mv i)
  /\ tp_par tp OMEGA = tp_par mv OMEGA * En / (En - dE).
Proof.
  rewrite applyLoss_spec. cbn [el_energy el_deltaE]. split.
  - intros (A & B & ->). assert (D : dE <> En).
    { intros ->. apply B. field. auto. }
    cbn. split; auto. split; auto. split; auto. split; auto. split.
    + intros i N. unfold v5set. destruct (idx_eq_dec i OMEGA); [contradiction|auto].
    + unfold v5set. destruct (idx_eq_dec OMEGA OMEGA); [|contradiction]. field. split; [lra|auto].
  - intros (A & D & E1 & E2 & E3 & E4). split; auto.
    assert (B : 1 - dE / En <> 0).
    { intros Z. apply D. apply Rmult_eq_reg_r with (/ En); [|apply Rinv_neq_0_compat; auto].
      rewrite Rinv_r by auto. unfold Rdiv in Z. lra. }
    split; auto. destruct tp as [c p r]. cbn in *. subst c r. f_equal.
    apply functional_extensionality. intros i. unfold v5set.
    destruct (idx_eq_dec i OMEGA) as [->|N]; [|auto]. rewrite E4. field. split; [auto|lra].
Qed.

Lemma arrival_iff E t las surf cb lossAt s xx mom tp : te_tp las = from_state t ->
  arrival E t surf cb lossAt s xx mom tp <->
  exists moved fid el,
    intersectWithSurface surf (tp_par (te_tp las)) (tp_ref (te_tp las)) (OVal 0 v3zero) 1 cb = Ok (true, OVal s xx)
    /\ moveHelixTo (te_tp las) xx false = Ok (moved, fid)
    /\ momentumAtPCA (en_gfield E) (tp_par moved) (tp_ref moved) = Ok mom
    /\ computeEnergyLoss_uv surf (lossAt xx) mom (tr_mass t) = Ok el
    /\ applyLoss moved el = Ok tp.
Proof.
  intros ->. unfold arrival. split.
  - intros (mv & fid & dE & En & beta & A1 & A2 & A3 & A4 & A5 & A6 & A7 & A8 & A9 & A10).
    exists mv, fid, (EL dE En beta). repeat (split; [assumption|]). apply applyLoss_iff.
    destruct (move_values _ _ _ _ A2) as (V1 & V2 & V3). rewrite V1, V2, V3. auto 10.
  - intros (mv & fid & [dE En beta] & A1 & A2 & A3 & A4 & A5). apply applyLoss_iff in A5.
    destruct (move_values _ _ _ _ A2) as (V1 & V2 & V3). rewrite V1, V2, V3 in A5.
    exists mv, fid, dE, En, beta. destruct A5 as (X1 & X2 & X3 & X4 & X5 & X6). auto 15.
Qed.

(** ** the element of a measurement *)
Lemma newMeasurement_iff E t las position precision surf id sc e :
  te_tp las = from_state t -> from_s t (te_s las) ->
  newMeasurement E (tr_mass t) las position precision surf id sc = Ok (Some e)
  <-> made_by E t (CMeas position precision surf id sc) e.
Proof.
  intros L S. split.
  - intros H. destruct (newMeasurement_spec _ _ _ _ _ _ _ _ _ H)
      as (s & xx & mv & fid & mom & el & B & D & Rs & I & pl & Pl & Pr).
    destruct (bu_proj _ _ _ _ _ _ _ _ _ _ _ _ _ _ _ B) as (p & dirs & P1 & P2 & P3).
    rewrite D in P2. injection P2 as <-. rewrite frame_axes in P3. cbn [fst snd] in P3. apply projection_iff in P3.
    exists (te_s las), s, xx, mom, (sf_u surf position), (sf_v surf position), p. cbv zeta.
    split; auto. split; [rewrite (bu_s _ _ _ _ _ _ _ _ _ _ _ _ _ _ _ B); ring|].
    split; [rewrite (bu_cls _ _ _ _ _ _ _ _ _ _ _ _ _ _ _ B), frame_axes; auto|].
    split; auto. split; auto. split; auto. split; [apply (bu_jac _ _ _ _ _ _ _ _ _ _ _ _ _ _ _ B)|].
    split.
    { apply (arrival_iff _ _ las); auto. exists mv, fid, el. destruct B; auto. }
    split; [apply (bu_surf _ _ _ _ _ _ _ _ _ _ _ _ _ _ _ B)|].
    split; [apply (bu_meas _ _ _ _ _ _ _ _ _ _ _ _ _ _ _ B)|].
    split; [apply (bu_scat _ _ _ _ _ _ _ _ _ _ _ _ _ _ _ B)|].
    split; auto. split; auto. split; auto. split; auto. split; intros Q; subst sc.
    + destruct Pl as [(W & _)|(_ & q & Hq & Ep)]; [discriminate|]. exists q.
      split; [apply squared_angle_iff; auto|]. rewrite Pr, Ep. destruct precision as [|p0 [|p1 l]]; reflexivity.
    + destruct Pl as [(_ & ->)|(W & _)]; [|discriminate]. rewrite Pr. destruct precision as [|p0 [|p1 l]]; reflexivity.
  - intros (s0 & s & xx & mom & m & n & p & F & Es & Ec & Ed & Ep & Ip & Ej & A & Esf & Em & Esc & Ei & -> & -> & Er & Pt & Pf).
    apply (arrival_iff _ _ las) in A; auto. destruct A as (mv & fid & el & A1 & A2 & A3 & A4 & A5).
    assert (Q0 : s0 = te_s las).
    { unfold from_s in *. destruct (rev (tr_elems t)); congruence. }
    unfold newMeasurement. cbv zeta. rewrite A1. cbn [bind]. rewrite A2. cbn [bind fst]. rewrite A3. cbn [bind].
    rewrite A4. cbn [bind]. rewrite A5. cbn [bind].
    assert (Np : exists pl,
      (if sc then q <- qms2 (computeQMS_uv surf (sf_globalToLocal surf xx) mom (tr_mass t)) ;;
         Ok (map Some precision ++ [q; Some 0; Some 0]) else Ok (map Some precision)) = Ok pl
      /\ te_prec e = match pl with [p] => [p; Some 0] | _ => pl end).
    { destruct sc.
      - destruct (Pt eq_refl) as (q & Q & Eq). apply squared_angle_iff in Q. rewrite Q. cbn [bind].
        eexists. split; [reflexivity|]. rewrite Eq. destruct precision as [|p0 [|p1 l]]; reflexivity.
      - eexists. split; [reflexivity|]. rewrite (Pf eq_refl). destruct precision as [|p0 [|p1 l]]; reflexivity. }
    destruct Np as (pl & Npl & Ppl). rewrite Npl. cbn [bind]. unfold mkElement. rewrite frame_axes. cbn [fst snd].
    apply projection_iff in Ip. rewrite Ip. cbn [bind]. do 2 f_equal.
    destruct e. cbn in *. subst. f_equal. ring.
Qed.

Lemma newScatterer_iff E t las surf e :
  te_tp las = from_state t -> from_s t (te_s las) ->
  newScatterer E (tr_mass t) las surf = Ok (Some e) <-> made_by E t (CScat surf) e.
Proof.
  intros L S. split.
  - intros H. destruct (newScatterer_spec _ _ _ _ _ H)
      as (s & xx & mv & fid & mom & el & B & D & Rs & I & q & Hq & Pr).
    destruct (bu_proj _ _ _ _ _ _ _ _ _ _ _ _ _ _ _ B) as (p & dirs & P1 & P2 & P3).
    rewrite D in P2. injection P2 as <-. rewrite frame_axes in P3. cbn [fst snd] in P3. apply projection_iff in P3.
    exists (te_s las), s, xx, mom, (sf_u surf xx), (sf_v surf xx), p. cbv zeta.
    split; auto. split; [rewrite (bu_s _ _ _ _ _ _ _ _ _ _ _ _ _ _ _ B); ring|].
    split; [rewrite (bu_cls _ _ _ _ _ _ _ _ _ _ _ _ _ _ _ B), frame_axes; auto|].
    split; auto. split; auto. split; auto. split; [apply (bu_jac _ _ _ _ _ _ _ _ _ _ _ _ _ _ _ B)|].
    split.
    { apply (arrival_iff _ _ las); auto. exists mv, fid, el. destruct B; auto. }
    split; [apply (bu_surf _ _ _ _ _ _ _ _ _ _ _ _ _ _ _ B)|].
    split; [apply (bu_meas _ _ _ _ _ _ _ _ _ _ _ _ _ _ _ B)|].
    split; [apply (bu_scat _ _ _ _ _ _ _ _ _ _ _ _ _ _ _ B)|].
    split; auto. split; auto. split; auto. split; auto. exists q. split; auto. apply squared_angle_iff; auto.
  - intros (s0 & s & xx & mom & m & n & p & F & Es & Ec & Ed & Ep & Ip & Ej & A & Esf & Em & Esc & Ei & -> & -> & Er & q & Q & Eq).
    apply (arrival_iff _ _ las) in A; auto. destruct A as (mv & fid & el & A1 & A2 & A3 & A4 & A5).
    assert (Q0 : s0 = te_s las).
    { unfold from_s in *. destruct (rev (tr_elems t)); congruence. }
    unfold newScatterer. cbv zeta. rewrite A1. cbn [bind]. rewrite A2. cbn [bind fst]. rewrite A3. cbn [bind].
    rewrite A4. cbn [bind]. rewrite A5. cbn [bind].
    apply squared_angle_iff in Q. rewrite Q. cbn [bind]. unfold mkElement. rewrite frame_axes. cbn [fst snd].
    apply projection_iff in Ip. rewrite Ip. cbn [bind]. do 2 f_equal.
    destruct e. cbn in *. subst. f_equal. ring.
Qed.

(** ** the calls *)
Lemma with_ensure t t1 : with_initial t t1 -> ensureInitial t = Ok t1.
Proof.
  unfold ensureInitial. intros [[A ->]|(A & i & -> & (P1 & P2 & P3) & I1 & I2 & I3 & I4 & I5 & I6 & I7 & I8 & I9)].
  - destruct (tr_elems t); [contradiction|auto].
  - rewrite A. unfold addElement. cbn [vx vy v3zero]. rewrite I2. cbn [bind]. rewrite A. cbn [app].
    destruct i. cbn in *. subst. auto.
Qed.

Lemma push_iff t new t' : pushElement t new = (t', Ok true) <->
  exists t1 las e, with_initial t t1 /\ te_tp las = from_state t /\ from_s t (te_s las)
    /\ (exists e0 l, tr_elems t1 = e0 :: l /\ las = last l e0) /\ extended t1 t' e /\ new las = Ok (Some e).
Proof.
  split.
  - intros H. destruct (push_spec _ _ _ _ H) as [(A & _)|(t1 & e0 & l & A & B & C)]; [left; eauto|discriminate|].
    destruct (ensure_from _ _ _ _ A B) as [F1 F2].
    destruct C as [(C1 & _)|[(C1 & _)|(e & _ & C2 & C3)]]; try discriminate.
    exists t1, (last l e0), e. split; [apply ensure_with; auto|]. repeat (split; [solve [eauto]|]). auto.
  - intros (t1 & las & e & W & _ & _ & (e0 & l & El & ->) & X & N). unfold pushElement.
    rewrite (with_ensure _ _ W), El, N, <- El, X. auto.
Qed.

Lemma with_last t t1 : with_initial t t1 -> exists e0 l, tr_elems t1 = e0 :: l
  /\ te_tp (last l e0) = from_state t /\ from_s t (te_s (last l e0)).
Proof.
  intros W. assert (En := with_ensure _ _ W). destruct (ensure_last _ _ En) as (e0 & l & El & _).
  exists e0, l. split; auto. eapply ensure_from; eauto.
Qed.

Lemma addMeasurement_iff E t position precision surf id sc t' :
  addMeasurement E t position precision surf id sc = (t', Ok true) <->
  exists t1 e, with_initial t t1 /\ extended t1 t' e /\ made_by E t (CMeas position precision surf id sc) e.
Proof.
  unfold addMeasurement. rewrite push_iff. split.
  - intros (t1 & las & e & W & L1 & L2 & _ & X & N). exists t1, e. split; auto. split; auto.
    eapply newMeasurement_iff; eauto.
  - intros (t1 & e & W & X & M). destruct (with_last _ _ W) as (e0 & l & El & L1 & L2).
    exists t1, (last l e0), e. repeat (split; [solve [eauto]|]). apply newMeasurement_iff; auto.
Qed.

Lemma addScatterer_iff E t surf t' :
  addScatterer E t surf = (t', Ok true) <->
  exists t1 e, with_initial t t1 /\ extended t1 t' e /\ made_by E t (CScat surf) e.
Proof.
  unfold addScatterer. rewrite push_iff. split.
  - intros (t1 & las & e & W & L1 & L2 & _ & X & N). exists t1, e. split; auto. split; auto.
    eapply newScatterer_iff; eauto.
  - intros (t1 & e & W & X & M). destruct (with_last _ _ W) as (e0 & l & El & L1 & L2).
    exists t1, (last l e0), e. repeat (split; [solve [eauto]|]). apply newScatterer_iff; auto.
Qed.

(** ** histories *)
Lemma made_from E t c e : made_by E t c e -> exists s0, from_s t s0.
Proof. intros (s0 & s & xx & mom & m & n & p & F & _). eauto. Qed.

Lemma from_with t s0 : from_s t s0 -> exists t1, with_initial t t1.
Proof.
  unfold from_s. intros F. destruct (tr_elems t) as [|e l] eqn:El.
  - cbn in F. exists (set_elems t [TE s0 (tr_ref t) None false false None [] [] None None None 0]).
    right. split; auto. eexists. split; [reflexivity|]. cbn. repeat split; auto.
  - exists t. left. split; auto. congruence.
Qed.

Lemma made_unique E t c e e' : made_by E t c e -> made_by E t c e' -> e = e'.
Proof.
  intros M M'. destruct (made_from _ _ _ _ M) as [s0 F]. destruct (from_with _ _ F) as [t1 W].
  destruct (with_last _ _ W) as (e0 & l & El & L1 & L2). destruct c.
  3-5: destruct M as (?&?&?&?&?&?&?&?&?&?&?&?&?&?&[]).
  - apply (newMeasurement_iff E t (last l e0)) in M; auto. apply (newMeasurement_iff E t (last l e0)) in M'; auto. congruence.
  - apply (newScatterer_iff E t (last l e0)) in M; auto. apply (newScatterer_iff E t (last l e0)) in M'; auto. congruence.
Qed.

(** what a call does to the elements *)
Lemma step_elems E t c t' : sorts te_s (en_sortE E) -> step E t c t' ->
  (exists t1 e, made_by E t c e /\ with_initial t t1 /\ extended t1 t' e)
  \/ ((forall e, ~ made_by E t c e)
      /\ (t' = t \/ with_initial t t'
          \/ (exists l, Permutation (tr_elems t) l /\ Forall2 same_but_jacobian l (tr_elems t')
                /\ tr_ref t' = tr_ref t /\ tr_elems t <> [] /\ c = CPrep)
          \/ (tr_elems t' = tr_elems t /\ tr_ref t' = tr_ref t))).
Proof.
  intros So St. destruct St as [position precision surf id sc t' r A R|surf t' r A R|t' A|l t' A|m].
  - destruct (Classical_Prop.classic (exists e, made_by E t (CMeas position precision surf id sc) e)) as [[e M]|N].
    + destruct (made_from _ _ _ _ M) as [s0 F]. destruct (from_with _ _ F) as [t1 W].
      assert (Y : addMeasurement E t position precision surf id sc = (set_elems t1 (tr_elems t1 ++ [e]), Ok true)).
      { apply addMeasurement_iff. exists t1, e. split; auto. split; auto. reflexivity. }
      rewrite A in Y. injection Y as -> ->. left. exists t1, e. split; auto. split; auto. reflexivity.
    + right. split; [intros e M; apply N; eauto|].
      destruct (push_spec _ _ _ _ A R) as [(_ & -> & _)|(t1 & e0 & l & En & El & C)]; [auto|].
      destruct C as [(_ & -> & _)|[(_ & -> & _)|(e & -> & C2 & C3)]].
      * right. left. apply ensure_with; auto.
      * right. left. apply ensure_with; auto.
      * exfalso. apply N. apply addMeasurement_iff in A. destruct A as (t2 & e' & _ & _ & M). eauto.
  - destruct (Classical_Prop.classic (exists e, made_by E t (CScat surf) e)) as [[e M]|N].
    + destruct (made_from _ _ _ _ M) as [s0 F]. destruct (from_with _ _ F) as [t1 W].
      assert (Y : addScatterer E t surf = (set_elems t1 (tr_elems t1 ++ [e]), Ok true)).
      { apply addScatterer_iff. exists t1, e. split; auto. split; auto. reflexivity. }
      rewrite A in Y. injection Y as -> ->. left. exists t1, e. split; auto. split; auto. reflexivity.
    + right. split; [intros e M; apply N; eauto|].
      destruct (push_spec _ _ _ _ A R) as [(_ & -> & _)|(t1 & e0 & l & En & El & C)]; [auto|].
      destruct C as [(_ & -> & _)|[(_ & -> & _)|(e & -> & C2 & C3)]].
      * right. left. apply ensure_with; auto.
      * right. left. apply ensure_with; auto.
      * exfalso. apply N. apply addScatterer_iff in A. destruct A as (t2 & e' & _ & _ & M). eauto.
  - right. split; [intros e (?&?&?&?&?&?&?&?&?&?&?&?&?&?&[])|]. right. right. left.
    destruct (prepare_elems _ _ _ So A) as (l & Pm & _ & F2 & Rf & _). exists l. split; auto. split; auto. split; auto. split; auto.
    unfold prepareForFitting in A. cbv zeta in A. cbn [set_elems tr_elems] in A. intros Z. rewrite Z in A.
    destruct (So []) as [P _]. apply Permutation_nil in P. rewrite P in A. discriminate.
  - right. split; [intros e (?&?&?&?&?&?&?&?&?&?&?&?&?&?&[])|]. right. right. right.
    unfold getIntersectionsWithSurfaces in A. cbv zeta in A. dres A. injection A as <-. auto.
  - right. split; [intros e (?&?&?&?&?&?&?&?&?&?&?&?&?&?&[])|]. auto.
Qed.

Lemma same_trans a b c : same_but_jacobian a b -> same_but_jacobian b c -> same_but_jacobian a c.
Proof.
  intros (A1 & A2 & A3 & A4 & A5 & A6 & A7 & A8 & A9 & A10 & A11) (B1 & B2 & B3 & B4 & B5 & B6 & B7 & B8 & B9 & B10 & B11).
  unfold same_but_jacobian. repeat split; congruence.
Qed.

Lemma forall2_perm {A B : Type} (P : A -> B -> Prop) l1 l2 : Forall2 P l1 l2 -> forall l2', Permutation l2 l2' ->
  exists l1', Permutation l1 l1' /\ Forall2 P l1' l2'.
Proof.
  intros F l2' Pm. revert l1 F. induction Pm as [|x l l' Pm IH|x y l|l l' l'' P1 IH1 P2 IH2]; intros l1 F.
  - inversion F; subst. exists []. auto.
  - inversion F as [|a b m1 m2 Pa Fa]; subst. destruct (IH _ Fa) as (m & Q1 & Q2). exists (a :: m). auto.
  - inversion F as [|a b m1 m2 Pa Fa]; subst. inversion Fa as [|a' b' m1' m2' Pa' Fa']; subst.
    exists (a' :: a :: m1'). split; [apply perm_swap|auto].
  - destruct (IH1 _ F) as (m & Q1 & Q2). destruct (IH2 _ Q2) as (k & Q3 & Q4). exists k. split; auto.
    eapply Permutation_trans; eauto.
Qed.

Lemma forall2_comp {A B C : Type} (P : A -> B -> Prop) (Q : B -> C -> Prop) (T : A -> C -> Prop) l1 l2 l3 :
  (forall a b c, P a b -> Q b c -> T a c) -> Forall2 P l1 l2 -> Forall2 Q l2 l3 -> Forall2 T l1 l3.
Proof.
  intros H F. revert l3. induction F; intros l3 G; inversion G; subst; constructor; eauto.
Qed.

Definition contents (ref : trackParameters) (t : traj) (es : list telem) : Prop :=
  tr_ref t = ref
  /\ ((tr_elems t = [] /\ es = [])
      \/ exists i l, initial_element ref i /\ Permutation (i :: es) l /\ Forall2 same_but_jacobian l (tr_elems t)).

Lemma with_contents ref t t1 es : contents ref t es -> with_initial t t1 ->
  tr_ref t1 = ref /\ exists i l, initial_element ref i /\ Permutation (i :: es) l
    /\ Forall2 same_but_jacobian l (tr_elems t1).
Proof.
  intros [Rf C] [[A ->]|(A & i & -> & (P1 & P2 & P3) & I1 & I2 & I3 & I4 & I5 & I6 & I7 & I8 & I9)].
  - split; auto. destruct C as [[Z _]|C]; [contradiction|auto].
  - split; auto. destruct C as [[_ ->]|(j & l & _ & Pm & F)].
    + exists i, [i]. rewrite Rf in *. split; [unfold initial_element; auto 15|]. split; auto.
      cbn. constructor; [apply same_refl|constructor].
    + exfalso. rewrite A in F. inversion F; subst. apply Permutation_sym, Permutation_nil in Pm. discriminate.
Qed.

Lemma history_build E ok ref prop cs t : sorts te_s (en_sortE E) -> history E ok (mkTraj ref prop) cs t ->
  exists es, build E ok (mkTraj ref prop) cs t es /\ contents ref t es.
Proof.
  intros So H. induction H as [|cs t c t' H (es & B & C) O St].
  - exists []. split; [constructor|]. split; auto.
  - destruct (step_elems _ _ _ _ So St) as [(t1 & e & M & W & X)|(N & D)].
    + exists (es ++ [e]). split; [eapply bd_made; eauto|]. destruct (with_contents _ _ _ _ C W) as (Rf & i & l & I & Pm & F).
      rewrite X. split; auto. right. exists i, (l ++ [e]). split; auto. split.
      * change (i :: es ++ [e]) with ((i :: es) ++ [e]). apply Permutation_app_tail. auto.
      * cbn. apply Forall2_app; auto. constructor; [apply same_refl|constructor].
    + exists es. split; [eapply bd_other; eauto|]. destruct D as [->|[W|[(l & Pm & F & Rf & Ne & _)|(El & Rf)]]]; auto.
      * destruct (with_contents _ _ _ _ C W) as (Rf & X). split; auto.
      * destruct C as [R0 [[Z _]|(i & m & I & Pm' & F')]]; [contradiction|]. split; [congruence|]. right.
        destruct (forall2_perm _ _ _ F' _ Pm) as (m' & Q1 & Q2). exists i, m'. split; auto.
        split; [eapply Permutation_trans; eauto|]. eapply forall2_comp; eauto. apply same_trans.
      * destruct C as [R0 C]. split; [congruence|]. rewrite El. auto.
Qed.

Lemma build_history E ok t0 cs t es : build E ok t0 cs t es -> history E ok t0 cs t.
Proof. intros B. induction B; [constructor|apply hist_snoc with t; auto|apply hist_snoc with t; auto]. Qed.

Lemma build_made E ok ref prop cs t es e : build E ok (mkTraj ref prop) cs t es -> In e es -> made_in E ok ref prop cs e.
Proof.
  intros B. induction B as [|cs t es c t' x B IH O St M|cs t es c t' B IH O St N]; intros I; [destruct I|..].
  - apply in_app_or in I. destruct I as [I|[<-|[]]].
    + destruct (IH I) as (cs1 & c1 & cs2 & t1 & -> & H1 & M1). exists cs1, c1, (cs2 ++ [c]), t1.
      split; [rewrite <- app_assoc; auto|auto].
    + exists cs, c, [], t. split; auto. split; auto. eapply build_history; eauto.
  - destruct (IH I) as (cs1 & c1 & cs2 & t1 & -> & H1 & M1). exists cs1, c1, (cs2 ++ [c]), t1.
    split; [rewrite <- app_assoc; auto|auto].
Qed.

(** an element of a history is the initial one or made by a call, up to its Jacobian *)
Lemma history_made E ok ref prop cs t e : sorts te_s (en_sortE E) -> history E ok (mkTraj ref prop) cs t ->
  In e (tr_elems t) ->
  exists e0, same_but_jacobian e0 e /\ (initial_element ref e0 \/ made_in E ok ref prop cs e0).
Proof.
  intros So H I. destruct (history_build _ _ _ _ _ _ So H) as (es & B & _ & C).
  destruct C as [[Z _]|(i & l & Ii & Pm & F)]; [rewrite Z in I; destruct I|].
  destruct (forall2_in_r _ _ _ _ F I) as (x & X1 & X2). exists x. split; auto.
  apply (Permutation_in _ (Permutation_sym Pm)) in X1. destruct X1 as [<-|X1]; auto.
  right. eapply build_made; eauto.
Qed.

Lemma history_frame E ok ref prop cs t : sorts te_s (en_sortE E) -> history E ok (mkTraj ref prop) cs t ->
  tr_ref t = ref /\ tr_prop t = prop /\ tr_mass t = mass_after cs.
Proof.
  intros So H. induction H as [|cs t c t' H (I1 & I2 & I3) O St]; [cbn; auto|].
  unfold mass_after in *. rewrite fold_left_app. cbn [fold_left]. rewrite <- I3.
  destruct St as [position precision surf id sc t' r A R|surf t' r A R|t' A|l t' A|m].
  - destruct (push_frame _ _ _ _ A) as (F1 & F2 & F3 & _). rewrite F1, F2, F3. auto.
  - destruct (push_frame _ _ _ _ A) as (F1 & F2 & F3 & _). rewrite F1, F2, F3. auto.
  - destruct (prepare_elems _ _ _ So A) as (l & _ & _ & _ & F1 & F2 & F3 & _). rewrite F1, F2, F3. auto.
  - unfold getIntersectionsWithSurfaces in A. cbv zeta in A. dres A. injection A as <-. auto.
  - auto.
Qed.
