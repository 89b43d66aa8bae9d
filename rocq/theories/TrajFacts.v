(** Lemmas about trajectories. *)
From Coq Require Import Reals List Bool ZArith Lra Lia Permutation Sorted.
From Coquelicot Require Import Coquelicot.
From Verif Require Import Num Vec Helix Isect Trans Material Traj.
From Verif Require Import NumFacts SpecHelix HelixFacts PathFacts MoveFacts SpecIsect SurfFacts SurfFacts2 SpecTraj.
Import ListNotations.
Open Scope R_scope.

(** ** path lengths found with mode +1 are not negative *)
Lemma select_pos tol s0 x0 s1 x1 s x : select tol 1 s0 x0 s1 x1 = Some (s, x) -> 0 <= s.
Proof.
  unfold select. cbn [Z.ltb Z.compare Pos.compare Pos.compare_cont].
  destruct (Rlt_dec s0 0), (Rlt_dec s1 0); try discriminate;
    try (destruct (Rlt_dec s0 s1)); intros E; injection E as <- <-; lra.
Qed.

Lemma mode1_pos s b : mode_ok 1 s && b = true -> 0 <= s.
Proof.
  unfold mode_ok. destruct (Rlt_dec 0 (1 * s)); [lra|]. discriminate.
Qed.

Lemma isect_pos surf hp rp o cb s xx :
  intersectWithSurface surf hp rp o 1 cb = Ok (true, OVal s xx) -> 0 <= s.
Proof.
  unfold intersectWithSurface. cbv zeta.
  destruct (isZCylinder (sf_type surf)).
  { unfold intersectWithZCylinder.
    destruct (st_parallelToZ (sf_type surf)); [|discriminate].
    destruct (sf_cyl surf) as [[rho c]|]; [|discriminate]. cbv zeta.
    match goal with |- context [xdiv ?a ?b] => destruct (xdiv a b) end; try discriminate.
    match goal with |- context [Rlt_dec 1 (Rabs ?g)] => destruct (Rlt_dec 1 (Rabs g)) end;
      [discriminate|].
    match goal with |- context [calculateSfromXY ?a ?b ?c ?d] =>
      destruct (calculateSfromXY a b c d) end; try discriminate. cbn [bind].
    match goal with |- context [calculateSfromXY ?a ?b ?c ?d] =>
      destruct (calculateSfromXY a b c d) end; try discriminate. cbn [bind].
    match goal with |- context [select ?a ?b ?c ?d ?e ?f] =>
      destruct (select a b c d e f) as [[s' x']|] eqn:Se end; [|discriminate].
    intros E; injection E as _ <- <-. eapply select_pos; eauto. }
  destruct (isZPlane (sf_type surf)).
  { unfold intersectWithZPlane. cbv zeta.
    match goal with |- context [mkStraightLine ?a ?b ?c] => destruct (mkStraightLine a b c) end;
      try discriminate. cbn [bind].
    match goal with |- context [mkCircle ?a ?b ?c] => destruct (mkCircle a b c) end;
      try discriminate. cbn [bind].
    match goal with |- context [intersectCircleStraightLine ?a ?b] =>
      destruct (intersectCircleStraightLine a b) as [l| | | |] end; try discriminate. cbn [bind].
    destruct l as [|[[X0 Y0]|] [|[[X1 Y1]|] l]]; try discriminate.
    - destruct (calculateSfromXY X0 Y0 hp rp) as [s'| | | |]; try discriminate. cbn [bind].
      intros E; injection E as E1 <- <-. eapply mode1_pos; eauto.
    - destruct (calculateSfromXY X0 Y0 hp rp) as [s0| | | |]; try discriminate. cbn [bind].
      destruct (calculateSfromXY X1 Y1 hp rp) as [s1| | | |]; try discriminate. cbn [bind].
      match goal with |- context [select ?a ?b ?c ?d ?e ?f] =>
        destruct (select a b c d e f) as [[s' x']|] eqn:Se end; [|discriminate].
      intros E; injection E as _ <- <-. eapply select_pos; eauto.  }
  destruct (isZDisk (sf_type surf)).
  { unfold intersectWithZDisk. cbv zeta.
    match goal with |- context [rdiv ?a ?b] => destruct (rdiv a b) end; try discriminate.
    cbn [bind]. intros E; injection E as E1 <- <-. eapply mode1_pos; eauto. }
  destruct (isCone (sf_type surf)); [|discriminate].
  unfold intersectWithZCone.
  destruct (intersectWithZCylinder surf hp rp o 1 false) as [[[] [s0 x0|]]| | | |]; try discriminate.
  cbn [bind]. unfold intersectWithSurfaceNewton.
  destruct (pointAt s0 hp rp) as [xx0| | | |]; try discriminate. cbn [bind].
  match goal with |- context [newton_loop ?a ?b ?c ?d ?e] =>
    destruct (newton_loop a b c d e) as [[s1 x1|s1 x1]| | | |] end; try discriminate.
  cbn [bind]. intros E; injection E as E1 <- <-. eapply mode1_pos; eauto.
Qed.

(** with mode +1 a success always has a finite point *)
Lemma isect_mode1_finite surf hp rp s0 x0 cb :
  intersectWithSurface surf hp rp (OVal s0 x0) 1 cb <> Ok (true, OBad).
Proof.
  unfold intersectWithSurface. cbv zeta.
  destruct (isZCylinder (sf_type surf)).
  { intros E. apply zcyl_not_bad in E. destruct E; discriminate. }
  destruct (isZPlane (sf_type surf)).
  { unfold intersectWithZPlane. cbv zeta.
    match goal with |- context [mkStraightLine ?a ?b ?c] => destruct (mkStraightLine a b c) end;
      try discriminate. cbn [bind].
    match goal with |- context [mkCircle ?a ?b ?c] => destruct (mkCircle a b c) end;
      try discriminate. cbn [bind].
    match goal with |- context [intersectCircleStraightLine ?a ?b] =>
      destruct (intersectCircleStraightLine a b) as [l| | | |] end; try discriminate. cbn [bind].
    destruct l as [|[[X0 Y0]|] [|[[X1 Y1]|] l]]; try discriminate.
    - destruct (calculateSfromXY X0 Y0 hp rp) as [s'| | | |]; discriminate.
    - destruct (calculateSfromXY X0 Y0 hp rp) as [s'| | | |]; try discriminate. cbn [bind].
      destruct (calculateSfromXY X1 Y1 hp rp) as [s1| | | |]; try discriminate. cbn [bind].
      match goal with |- context [select ?a ?b ?c ?d ?e ?f] =>
        destruct (select a b c d e f) as [[s2 x2]|] eqn:Se end; discriminate. }
  destruct (isZDisk (sf_type surf)).
  { unfold intersectWithZDisk. cbv zeta.
    match goal with |- context [rdiv ?a ?b] => destruct (rdiv a b) end; discriminate. }
  destruct (isCone (sf_type surf)); [|discriminate].
  unfold intersectWithZCone.
  destruct (intersectWithZCylinder surf hp rp (OVal s0 x0) 1 false) as [[[] [s1 x1|]]| | | |]; try discriminate.
  cbn [bind]. unfold intersectWithSurfaceNewton.
  destruct (pointAt s1 hp rp) as [xx0| | | |]; try discriminate. cbn [bind].
  match goal with |- context [newton_loop ?a ?b ?c ?d ?e] =>
    destruct (newton_loop a b c d e) as [[s2 x2|s2 x2]| | | |] end; discriminate.
Qed.

(** ** ordered lists *)
Lemma ordered_app_last (l : list telem) e : ordered l ->
  (forall x, In x l -> te_s x <= te_s e) -> ordered (l ++ [e]).
Proof.
  unfold ordered, ordered_by. induction l as [|a l IH]; intros O A; cbn [app].
  - constructor; [constructor|constructor].
  - inversion O as [|? ? O1 O2]; subst. constructor.
    + apply IH; auto. intros x Hx. apply A. right; auto.
    + apply Forall_app. split; auto. constructor; [|constructor]. apply A. left; auto.
Qed.

Lemma last_cons {A : Type} (l : list A) : forall a e0, last (a :: l) e0 = last l a.
Proof.
  induction l as [|b l IH]; intros a e0; auto.
  change (last (a :: b :: l) e0) with (last (b :: l) e0). rewrite !IH. auto.
Qed.

Lemma ordered_last e0 l : ordered (e0 :: l) -> forall x, In x (e0 :: l) -> te_s x <= te_s (last l e0).
Proof.
  revert e0. induction l as [|a l IH]; intros e0 O x Hx.
  - destruct Hx as [->|[]]. cbn. lra.
  - inversion O as [|? ? O1 O2]; subst. rewrite last_cons.
    destruct Hx as [->|Hx].
    + apply Rle_trans with (te_s a); [|apply IH; auto; left; auto].
      rewrite Forall_forall in O2. apply O2. left; auto.
    + apply IH; auto.
Qed.

Lemma last_in (l : list telem) e0 : In (last l e0) (e0 :: l).
Proof.
  revert e0. induction l as [|a l IH]; intros e0; [left; auto|].
  right. rewrite last_cons. apply IH.
Qed.

Lemma rev_last (l : list telem) e0 : exists l', rev (e0 :: l) = last l e0 :: l'.
Proof.
  assert (Q : e0 :: l = removelast (e0 :: l) ++ [last (e0 :: l) e0])
    by (apply app_removelast_last; discriminate).
  assert (W : last (e0 :: l) e0 = last l e0) by (destruct l; reflexivity).
  rewrite Q, W, rev_app_distr. cbn [rev app]. eauto.
Qed.

(** ** one addition *)
Lemma ensure_spec t t1 : ensureInitial t = Ok t1 ->
  (tr_elems t <> [] /\ t1 = t)
  \/ (tr_elems t = [] /\ exists s, 
       calculateSfromXY 0 0 (tp_par (tr_ref t)) (tp_ref (tr_ref t)) = Ok s
       /\ t1 = set_elems t [TE s (tr_ref t) None false false None [] [] None None None 0]).
Proof.
  unfold ensureInitial. destruct (tr_elems t) as [|e l] eqn:El.
  - unfold addElement. cbn [vx vy v3zero].
    destruct (calculateSfromXY 0 0 (tp_par (tr_ref t)) (tp_ref (tr_ref t))) as [s| | | |]; try discriminate.
    cbn [bind]. rewrite El. cbn [app]. intros Q; injection Q as <-. right. split; auto. exists s. auto.
  - intros Q; injection Q as <-. left. split; auto. discriminate.
Qed.

Lemma ensure_last t t1 : ensureInitial t = Ok t1 ->
  exists e0 l, tr_elems t1 = e0 :: l /\ te_tp (last l e0) = from_state t
    /\ tr_ref t1 = tr_ref t /\ tr_prop t1 = tr_prop t /\ tr_mass t1 = tr_mass t
    /\ tr_isect t1 = tr_isect t.
Proof.
  intros H. destruct (ensure_spec _ _ H) as [(A & ->)|(A & s & B & ->)].
  - destruct (tr_elems t) as [|e l] eqn:El; [contradiction|]. exists e, l. split; auto.
    split; [|repeat split; auto]. unfold from_state. rewrite El.
    destruct (rev_last l e) as [l' ->]. auto.
  - unfold from_state. rewrite A. cbn. eexists _, []. repeat split; reflexivity.
Qed.

Lemma push_spec t new t' r : pushElement t new = (t', r) ->
  (exists b, r = Ok b) \/ r = Throw ->
  (r = Throw /\ t' = t /\ ensureInitial t = Throw)
  \/ exists t1 e0 l, ensureInitial t = Ok t1 /\ tr_elems t1 = e0 :: l
     /\ ((r = Ok false /\ t' = t1 /\ new (last l e0) = Ok None)
         \/ (r = Throw /\ t' = t1 /\ new (last l e0) = Throw)
         \/ (exists e, r = Ok true /\ new (last l e0) = Ok (Some e)
               /\ t' = set_elems t1 (tr_elems t1 ++ [e]))).
Proof.
  unfold pushElement. destruct (ensureInitial t) as [t1| | | |] eqn:En.
  2: intros Q _; injection Q as <- <-; left; auto.
  2-4: intros Q [[b W]|W]; subst; congruence.
  destruct (tr_elems t1) as [|e0 l] eqn:El.
  { intros Q [[b W]|W]; subst; congruence. }
  intros Q W. right. exists t1, e0, l. split; auto. split; auto.
  destruct (new (last l e0)) as [[e|]| | | |] eqn:N.
  - injection Q as <- <-. right. right. exists e. rewrite ?El. auto.
  - injection Q as <- <-. left. auto.
  - injection Q as <- <-. right. left. auto.
  - destruct W as [[b W]|W]; subst; congruence.
  - destruct W as [[b W]|W]; subst; congruence.
  - destruct W as [[b W]|W]; subst; congruence.
Qed.

(** what a new element looks like *)
Record built (E : env) (mass : R) (las : telem) (surf : surface) (cb sc meas : bool)
    (elUV : vec3 -> R * R) (e : telem) (s0 : R) (xx : vec3) (moved : trackParameters) (fid : R)
    (mom : vec3) (el : eloss) : Prop := {
  bu_isect : intersectWithSurface surf (tp_par (te_tp las)) (tp_ref (te_tp las))
               (OVal 0 v3zero) 1 cb = Ok (true, OVal s0 xx);
  bu_move : moveHelixTo (te_tp las) xx false = Ok (moved, fid);
  bu_mom : momentumAtPCA (en_gfield E) (tp_par moved) (tp_ref moved) = Ok mom;
  bu_loss : computeEnergyLoss_uv surf (elUV xx) mom mass = Ok el;
  bu_tp : applyLoss moved el = Ok (te_tp e);
  bu_s : te_s e = s0 + te_s las;
  bu_surf : te_surf e = Some surf;
  bu_meas : te_meas e = meas;
  bu_scat : te_scat e = sc;
  bu_jac : te_jac e = None;
  bu_cls : te_cls e = Some (calculateLocalCurvilinearSystem 0 (tp_par (te_tp e)));
  bu_proj : exists p dirs, te_proj e = Some p /\ te_dirs e = Some dirs /\
      calculateLocalToMeasurementProjectionMatrix
        (fst (calculateLocalCurvilinearSystem 0 (tp_par (te_tp e))))
        (snd (calculateLocalCurvilinearSystem 0 (tp_par (te_tp e)))) dirs = Ok p
}.

Ltac dres H :=
  match type of H with
  | context [bind ?x _] => let N := fresh "B" in destruct x eqn:N; cbn [bind] in H; try discriminate
  end.

Lemma newMeasurement_spec E mass las position precision surf id sc e :
  newMeasurement E mass las position precision surf id sc = Ok (Some e) ->
  exists s0 xx moved fid mom el,
    built E mass las surf false sc true (fun _ => sf_globalToLocal surf position) e s0 xx moved fid mom el
    /\ te_dirs e = Some [sf_u surf position; sf_v surf position]
    /\ te_res e = [fst (sf_globalToLocal surf position) - fst (sf_globalToLocal surf xx);
                   snd (sf_globalToLocal surf position) - snd (sf_globalToLocal surf xx)]
    /\ te_id e = id
    /\ exists pl, (sc = false /\ pl = map Some precision
        \/ sc = true /\ exists q, qms2 (computeQMS_uv surf (sf_globalToLocal surf xx) mom mass) = Ok q
             /\ pl = map Some precision ++ [q; Some 0; Some 0])
       /\ te_prec e = match pl with [p] => [p; Some 0] | _ => pl end.
Proof.
  unfold newMeasurement. cbv zeta. intros H. dres H.
  destruct a as [[] [s0 xx|]]; try discriminate.
  dres H. dres H. dres H. dres H. dres H. rename a3 into pl.
  dres H. injection H as ->. unfold mkElement in B5. dres B5. injection B5 as <-.
  destruct a as [moved fid]. cbn [fst] in *.
  exists s0, xx, moved, fid, a0, a1. split.
  { constructor; auto. cbn [te_proj te_dirs te_tp]. eexists _, [sf_u surf position; sf_v surf position]. eauto. }
  cbn [te_dirs te_res te_id te_prec]. split; auto. split; auto. split; auto.
  exists pl. split; auto. destruct sc.
  - right. split; auto. dres B4. exists a. injection B4 as <-. auto.
  - left. injection B4 as <-. auto.
Qed.

Lemma newScatterer_spec E mass las surf e :
  newScatterer E mass las surf = Ok (Some e) ->
  exists s0 xx moved fid mom el,
    built E mass las surf true true false (fun x => sf_globalToLocal surf x) e s0 xx moved fid mom el
    /\ te_dirs e = Some [sf_u surf xx; sf_v surf xx]
    /\ te_res e = [0; 0] /\ te_id e = 0%Z
    /\ exists q, qms2 (computeQMS_uv surf (sf_globalToLocal surf xx) mom mass) = Ok q
             /\ te_prec e = [q; Some 0; Some 0].
Proof.
  unfold newScatterer. cbv zeta. intros H. dres H.
  destruct a as [[] [s0 xx|]]; try discriminate.
  dres H. dres H. dres H. dres H. dres H.
  dres H. injection H as ->. unfold mkElement in B5. dres B5. injection B5 as <-.
  destruct a as [moved fid]. cbn [fst] in *.
  exists s0, xx, moved, fid, a0, a1. split.
  { constructor; auto. cbn [te_proj te_dirs te_tp]. eexists _, [sf_u surf xx; sf_v surf xx]. eauto. }
  cbn [te_dirs te_res te_id te_prec]. split; auto. split; auto. split; auto.
  exists a3. auto.
Qed.
