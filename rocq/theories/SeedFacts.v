(** Nothing but covariances depends on the covariance of the start parameters. *)
From Coq Require Import Reals List Bool ZArith Lra Lia Permutation.
From Coq Require Import FunctionalExtensionality.
From Verif Require Import Num Vec Helix Isect Trans Material Traj Fit LCIO Refit.
From Verif Require Import NumFacts TrajFacts TrajFacts2 FitFacts FitFacts2 SpecTraj SpecFit SpecTrans SpecMat PropTrans SpecTurn SpecLCIO SpecRefit SpecSeed PropLCIO RefitFacts RefitFacts2.
Import ListNotations.
Open Scope R_scope.

Local Notation rr := alike.

Lemma rr_bind {A B A' B'} (R : A -> B -> Prop) (Q : A' -> B' -> Prop) x y f g :
  rr R x y -> (forall a b, R a b -> rr Q (f a) (g b)) -> rr Q (bind x f) (bind y g).
Proof. destruct x, y; cbn; auto; contradiction. Qed.

Lemma rr_eq {A B} (Q : A -> B -> Prop) {C} (x : res C) f g : (forall a, rr Q (f a) (g a)) -> rr Q (bind x f) (bind x g).
Proof. destruct x; cbn; auto. Qed.

Lemma move_same a b x : same_track a b ->
  rr (fun u v => same_track (fst u) (fst v) /\ snd v = snd u) (moveHelixTo a x false) (moveHelixTo b x false).
Proof.
  intros [P Q]. unfold moveHelixTo. rewrite P, Q. cbv zeta.
  repeat (apply rr_eq; intros ?). cbn. split; [split; reflexivity|reflexivity].
Qed.

Lemma loss_same a b el : same_track a b -> rr same_track (applyLoss a el) (applyLoss b el).
Proof.
  intros [P Q]. unfold applyLoss. rewrite P, Q. repeat (apply rr_eq; intros ?). cbn. split; reflexivity.
Qed.

Lemma mkElement_same s a b surf dirs prec resid cls id sc me : same_track a b ->
  rr same_elem (mkElement s a surf dirs prec resid cls id sc me) (mkElement s b surf dirs prec resid cls id sc me).
Proof. intros H. unfold mkElement. apply rr_eq. intros pr. constructor; auto. Qed.

Lemma optsame_bind (f g : res telem) : rr same_elem f g ->
  rr (both same_elem) (bind f (fun e => Ok (Some e))) (bind g (fun e => Ok (Some e))).
Proof. intros H. apply (rr_bind _ _ _ _ _ _ H). intros a b Q. exact Q. Qed.

Lemma newMeasurement_same E m a b pos prec surf id sc : same_elem a b ->
  rr (both same_elem) (newMeasurement E m a pos prec surf id sc) (newMeasurement E m b pos prec surf id sc).
Proof.
  intros H. assert (T := se_tp _ _ H). assert (Sq := se_s _ _ H). assert (T' := T). destruct T' as [P Q].
  unfold newMeasurement. rewrite P, Q. apply rr_eq. intros [[|] [s0 xx|]]; cbn; auto.
  eapply rr_bind; [apply move_same; exact T|]. intros [u fu] [v fv] [M F]. cbn [fst snd] in M, F |- *. subst fv.
  destruct M as [Pu Qu]. rewrite Pu, Qu. apply rr_eq. intros mom. apply rr_eq. intros el.
  eapply rr_bind; [apply loss_same; split; eauto|]. intros x y L. rewrite (proj1 L), Sq.
  apply rr_eq. intros np. apply optsame_bind. apply mkElement_same. exact L.
Qed.

Lemma newScatterer_same E m a b surf : same_elem a b ->
  rr (both same_elem) (newScatterer E m a surf) (newScatterer E m b surf).
Proof.
  intros H. assert (T := se_tp _ _ H). assert (Sq := se_s _ _ H). assert (T' := T). destruct T' as [P Q].
  unfold newScatterer. rewrite P, Q. apply rr_eq. intros [[|] [s0 xx|]]; cbn; auto.
  eapply rr_bind; [apply move_same; exact T|]. intros [u fu] [v fv] [M F]. cbn [fst snd] in M, F |- *. subst fv.
  destruct M as [Pu Qu]. rewrite Pu, Qu. apply rr_eq. intros mom. apply rr_eq. intros el.
  eapply rr_bind; [apply loss_same; split; eauto|]. intros x y L. rewrite (proj1 L), Sq.
  apply rr_eq. intros np. apply optsame_bind. apply mkElement_same. exact L.
Qed.

Lemma addElement_same a b p id : same_traj a b -> rr same_traj (addElement a p id) (addElement b p id).
Proof.
  intros [R P M El I]. destruct R as [R1 R2]. unfold addElement. rewrite R1, R2. apply rr_eq. intros s.
  constructor; cbn; auto; [split; auto|]. apply Forall2_app; auto. constructor; [|constructor]. constructor; cbn; auto. split; auto.
Qed.

Lemma ensure_same a b : same_traj a b -> rr same_traj (ensureInitial a) (ensureInitial b).
Proof.
  intros H. assert (El := st_elems _ _ H). unfold ensureInitial. inversion El as [Q1 Q2|x y l l' Q1 Q2 Q3 Q4]; try rewrite <- Q1; try rewrite <- Q2.
  - apply addElement_same. exact H.
  - exact H.
Qed.

Lemma last_same l l' : Forall2 same_elem l l' -> forall e e', same_elem e e' -> same_elem (last l e) (last l' e').
Proof.
  induction 1 as [|x y l l' Q F IH]; intros e e' H; auto. cbn [last].
  inversion F; subst; [auto|]. apply IH. auto.
Qed.

Lemma push_same a b f g : same_traj a b ->
  (forall e e', same_elem e e' -> rr (both same_elem) (f e) (g e')) ->
  same_traj (fst (pushElement a f)) (fst (pushElement b g)) /\ snd (pushElement b g) = snd (pushElement a f).
Proof.
  intros H F. unfold pushElement. assert (En := ensure_same _ _ H).
  destruct (ensureInitial a) as [a1| | | |], (ensureInitial b) as [b1| | | |]; cbn in En; try contradiction; try (split; [exact H|reflexivity]).
  assert (El := st_elems _ _ En). inversion El as [Q1 Q2|x y l l' Q F' Q1 Q2].
  - split; [exact En|reflexivity].
  - assert (Ls := last_same _ _ F' _ _ Q). specialize (F _ _ Ls).
    destruct (f (last l x)) as [[u|]| | | |], (g (last l' y)) as [[v|]| | | |]; cbn in F; try contradiction; try (split; [exact En|reflexivity]).
    cbn. split; auto. destruct En as [R P M El' I]. constructor; cbn; auto. 
    change (x :: l ++ [u]) with ((x :: l) ++ [u]). change (y :: l' ++ [v]) with ((y :: l') ++ [v]).
    apply Forall2_app; auto.
Qed.

Lemma at_loop_same : forall l l' s p e e', Forall2 same_elem l l' -> same_elem e e' ->
  same_elem (elementAt_loop s p e l) (elementAt_loop s p e' l').
Proof.
  induction l as [|x l IH]; intros l' s p e e' F H; inversion F as [|? y ? l2 Q F2]; subst; cbn; auto.
  rewrite (se_s _ _ Q). destruct (Rle_dec p s); [destruct (Rlt_dec s (te_s x))|]; auto.
Qed.

Lemma elementAt_same a b s : same_traj a b -> rr same_elem (trajectoryElementAt a s) (trajectoryElementAt b s).
Proof.
  intros H. assert (El := st_elems _ _ H). unfold trajectoryElementAt.
  inversion El as [Q1 Q2|x y l l' Q F Q1 Q2]; cbn; auto. apply at_loop_same; auto.
Qed.

Lemma queries_same a b s : same_traj a b -> tr_pointAt b s = tr_pointAt a s /\ tr_tangentAt b s = tr_tangentAt a s.
Proof.
  intros H. assert (At := elementAt_same _ _ s H). unfold tr_pointAt, tr_tangentAt.
  destruct (trajectoryElementAt a s) as [x| | | |], (trajectoryElementAt b s) as [y| | | |]; cbn in At; try contradiction; cbn [bind]; auto.
  destruct At as [[P Q] Sq]. rewrite P, Q, Sq. auto.
Qed.

Lemma lossTerm_same E m a b : same_elem a b -> lossTerm E m b = lossTerm E m a.
Proof.
  intros [[P Q] Sq Sf Me Sc]. unfold lossTerm. rewrite Sc, Sf. destruct (te_scat a); auto. destruct (te_surf a); auto.
  unfold computeEnergyLoss_tp. rewrite P, Q. reflexivity.
Qed.

Lemma prepareOne_same E t u p a b : same_traj t u -> same_elem a b -> rr same_elem (prepareOne E t p a) (prepareOne E u p b).
Proof.
  intros H S. assert (S' := S). destruct S as [[P Q] Sq Sf Me Sc Di Pr Re Cl Pj Ja Id]. unfold prepareOne.
  rewrite P, Q, Sq, (st_mass _ _ H), (st_prop _ _ H), (lossTerm_same E (tr_mass t) a b S').
  destruct (queries_same t u p H) as [_ ->]. destruct (queries_same t u (te_s a) H) as [_ ->].
  apply rr_eq. intros dw. apply rr_eq. intros nrj. apply rr_eq. intros t1. apply rr_eq. intros t2.
  destruct (tr_prop t); cbn; auto. apply rr_eq. intros j. constructor; cbn; auto. split; auto.
Qed.

Lemma prepareLoop_same E t u : same_traj t u -> forall l l' p, Forall2 same_elem l l' ->
  rr (Forall2 same_elem) (prepareLoop E t p l) (prepareLoop E u p l').
Proof.
  intros H. induction l as [|x l IH]; intros l' p F; inversion F as [|? y ? l2 Q F2]; subst; cbn [prepareLoop]; [constructor|].
  eapply rr_bind; [apply prepareOne_same; eauto|]. intros a b S. rewrite (se_s _ _ Q).
  eapply rr_bind; [apply IH; exact F2|]. intros c d S2. constructor; auto.
Qed.

Lemma prepare_same E t u : same_order te_s (en_sortE E) (en_sortE E) -> same_traj t u ->
  rr same_traj (prepareForFitting E t) (prepareForFitting E u).
Proof.
  intros So H. assert (H' := H). destruct H' as [R P M El I].
  assert (Sl : Forall2 same_elem (en_sortE E (tr_elems t)) (en_sortE E (tr_elems u))).
  { apply (So same_elem); auto. intros a b S. apply (se_s _ _ S). }
  assert (H1 : same_traj (set_elems t (en_sortE E (tr_elems t))) (set_elems u (en_sortE E (tr_elems u)))).
  { constructor; cbn; auto. }
  unfold prepareForFitting. cbv zeta. cbn [set_elems tr_elems].
  inversion Sl as [Q1 Q2|x y l l' Q F Q1 Q2]; cbn; auto. rewrite <- Q1, <- Q2 in H1.
  eapply rr_bind; [apply prepareLoop_same; [exact H1|exact F]|]. intros a b S. cbn.
  constructor; cbn; auto. constructor; auto. destruct Q as [S1 S2 S3 S4 S5 S6 S7 S8 S9 S10 S11 S12]. constructor; cbn; auto.
Qed.

Lemma isectOne_same t u m acc x : same_traj t u -> isectOne u m acc x = isectOne t m acc x.
Proof. intros H. destruct (st_ref _ _ H) as [P Q]. unfold isectOne. rewrite P, Q. reflexivity. Qed.

Lemma isectAll_same t u : same_traj t u -> forall l m acc, isectAll u m acc l = isectAll t m acc l.
Proof.
  intros H. induction l as [|x l IH]; intros m acc; [reflexivity|]. cbn [isectAll].
  rewrite (isectOne_same t u m acc x H). destruct (isectOne t m acc x); try reflexivity. cbn [bind]. apply IH.
Qed.

Lemma isect_same E t u l : same_traj t u ->
  rr same_traj (getIntersectionsWithSurfaces E t l) (getIntersectionsWithSurfaces E u l).
Proof.
  intros H. unfold getIntersectionsWithSurfaces. rewrite (isectAll_same t u H), (st_isect _ _ H).
  destruct H as [[P Q] P2 M El I]. rewrite P. apply rr_eq. intros x. constructor; cbn; auto. split; auto.
Qed.

Lemma exec_same E t u c : same_order te_s (en_sortE E) (en_sortE E) -> same_traj t u ->
  fst (exec E u c) = fst (exec E t c) /\ both same_traj (snd (exec E t c)) (snd (exec E u c)).
Proof.
  intros So H. assert (M := st_mass _ _ H).
  assert (Ad : forall f g, (forall e e', same_elem e e' -> rr (both same_elem) (f e) (g e')) ->
    fst (added (pushElement u g)) = fst (added (pushElement t f))
    /\ both same_traj (snd (added (pushElement t f))) (snd (added (pushElement u g)))).
  { intros f g F. destruct (push_same _ _ f g H F) as [A B]. unfold added. rewrite B.
    destruct (snd (pushElement t f)); cbn; auto. }
  assert (Kp : forall x y, rr same_traj x y -> fst (keep y) = fst (keep x) /\ both same_traj (snd (keep x)) (snd (keep y))).
  { intros x y. destruct x, y; cbn; auto; contradiction. }
  destruct c as [pos prec surf id sc|surf| |l|m]; cbn [exec].
  - apply Ad. intros e e' S. rewrite M. apply newMeasurement_same. exact S.
  - apply Ad. intros e e' S. rewrite M. apply newScatterer_same. exact S.
  - apply Kp. apply prepare_same; auto.
  - apply Kp. apply isect_same; auto.
  - cbn. split; auto. destruct H as [R P M' El I]. constructor; cbn; auto.
Qed.

Lemma run_same E : same_order te_s (en_sortE E) (en_sortE E) -> forall cs t u, same_traj t u ->
  fst (run E u cs) = fst (run E t cs) /\ both same_traj (snd (run E t cs)) (snd (run E u cs)).
Proof.
  intros So. induction cs as [|c cs IH]; intros t u H; cbn [run]; [cbn; auto|].
  destruct (exec_same E t u c So H) as [A B].
  destruct (exec E t c) as [r [t1|]], (exec E u c) as [r' [u1|]]; cbn in A, B; try contradiction; subst r'; cbn; auto.
  destruct (IH _ _ B) as [C D]. rewrite C. auto.
Qed.

(** ** the fit *)
Lemma makePoints_same : forall l l', Forall2 same_elem l l' -> makePoints l' = makePoints l.
Proof.
  induction 1 as [|x y l l' S F IH]; cbn [makePoints]; auto. rewrite IH. f_equal.
  destruct S as [S1 S2 S3 S4 S5 S6 S7 S8 S9 S10 S11 S12]. unfold makePoint, measPart, scatPart.
  rewrite S4, S5, S6, S7, S8, S10, S11. reflexivity.
Qed.

Lemma fit_same G w w' st tid : same_world w w' -> fit G w' st tid = fit G w st tid.
Proof.
  intros H. specialize (H tid). unfold fit. destruct (w tid) as [t|], (w' tid) as [t'|]; try contradiction; auto.
  rewrite (makePoints_same _ _ (st_elems _ _ H)). reflexivity.
Qed.

Lemma nth_same : forall l l' n, Forall2 same_elem l l' -> both same_elem (nth_error l n) (nth_error l' n).
Proof. intros l l' n F. revert n. induction F; intros [|n]; cbn; auto. Qed.

Lemma compute_same E G i points t t' label : same_traj t t' ->
  computeResults E G i points t' label = computeResults E G i points t label.
Proof.
  intros H. unfold computeResults. destruct (gbl_results G points label) as [[err corr] cov].
  unfold elementIndex. destruct (Z.ltb label 0); auto.
  assert (N := nth_same _ _ (Z.to_nat label) (st_elems _ _ H)).
  destruct (nth_error (tr_elems t) (Z.to_nat label)) as [x|], (nth_error (tr_elems t') (Z.to_nat label)) as [y|]; cbn in N; try contradiction; auto.
  cbn [bind]. destruct (se_tp _ _ N) as [P Q]. rewrite P, Q. reflexivity.
Qed.

Lemma results_same E G w w' st label : same_world w w' -> getResults E G w' st label = getResults E G w st label.
Proof.
  intros H. unfold getResults. destruct (lookup (if_results (fs_if st)) label); auto.
  destruct (if_fitted (fs_if st)) as [tid|]; auto. specialize (H tid).
  destruct (w tid) as [t|], (w' tid) as [t'|]; try contradiction; auto.
  destruct (if_traj (fs_if st)); auto. rewrite (compute_same _ _ _ _ _ _ _ H). reflexivity.
Qed.

(** ** the refitting program *)
Lemma crossing_same C S m t u surf : same_traj t u -> rr same_traj (addCrossing C S m t surf) (addCrossing C S m u surf).
Proof.
  intros H. assert (M := st_mass _ _ H).
  assert (Ig : forall f g, (forall e e', same_elem e e' -> rr (both same_elem) (f e) (g e')) ->
    rr same_traj (ignoring (pushElement t f)) (ignoring (pushElement u g))).
  { intros f g F. destruct (push_same _ _ f g H F) as [A B]. unfold ignoring.
    destruct (pushElement t f) as [t1 r], (pushElement u g) as [u1 r']. cbn in A, B. subst r'. destruct r; cbn; auto. }
  unfold addCrossing, addMeasurement, addScatterer. destruct (mapFind m (to_int (re_cell C surf))).
  - apply rr_eq. intros hi. apply Ig. intros e e' S'. rewrite M. apply newMeasurement_same. exact S'.
  - assert (Sc : rr same_traj (ignoring (pushElement t (fun last => newScatterer (re_env C) (tr_mass t) last surf)))
                              (ignoring (pushElement u (fun last => newScatterer (re_env C) (tr_mass u) last surf)))).
    { apply Ig. intros e e' S'. rewrite M. apply newScatterer_same. exact S'. }
    destruct (sg_qms S); auto. destruct (Rlt_dec _ _); auto. destruct (Rlt_dec _ _); auto.
Qed.

Lemma crossings_same C S m : forall l t u, same_traj t u -> rr same_traj (addCrossings C S m t l) (addCrossings C S m u l).
Proof.
  induction l as [|[s surf] l IH]; intros t u H; cbn [addCrossings]; [exact H|].
  eapply rr_bind; [apply crossing_same; exact H|]. intros a b. apply IH.
Qed.

Lemma makeTrajectory_same C S a b hits : same_order te_s (en_sortE (re_env C)) (en_sortE (re_env C)) -> same_track a b ->
  rr same_traj (makeTrajectory C S a hits) (makeTrajectory C S b hits).
Proof.
  intros So H. unfold makeTrajectory. apply rr_eq. intros m.
  assert (H0 : same_traj (mkTraj a (Some (re_prop C))) (mkTraj b (Some (re_prop C)))) by (constructor; cbn; auto).
  eapply rr_bind; [apply isect_same; exact H0|]. intros t u H1. rewrite (st_isect _ _ H1).
  eapply rr_bind; [apply crossings_same; exact H1|]. intros t2 u2 H2. apply prepare_same; auto.
Qed.

Lemma fit_value_same C t u : same_traj t u -> fit_value C u = fit_value C t.
Proof.
  intros H. unfold fit_value. rewrite (makePoints_same _ _ (st_elems _ _ H)).
  destruct (makePoints (tr_elems t)); cbn [bind]; auto. destruct (gbl_fit (re_gbl C) a) as [rv [[chi2 ndf] lost]].
  rewrite (compute_same _ _ _ _ _ _ _ H). reflexivity.
Qed.

Lemma setAll_same d p c c' r : alike same_track (Ok (tp_setAll d p c r)) (Ok (tp_setAll d p c' r)).
Proof. split; reflexivity. Qed.

Lemma read_same mm a b : same_state a b -> (15 <= length (ts_cov a))%nat -> (15 <= length (ts_cov b))%nat ->
  rr same_track (readLCIO mm a) (readLCIO mm b).
Proof.
  intros (A & B & D & F & G & I) L L'. unfold readLCIO. rewrite A, B, D, F, G, I. apply rr_eq. intros om.
  destruct (ts_ref a) as [[r0 r1] r2].
  assert (At : forall n (ts : trackState), (15 <= length (ts_cov ts))%nat -> (n < 15)%nat -> exists x, at_ (ts_cov ts) n = Ok x).
  { intros n ts Ln N. unfold at_. destruct (nth_error (ts_cov ts) n) eqn:Q; [eauto|]. apply nth_error_None in Q. lia. }
  assert (Go : forall n k k', (n < 15)%nat -> (forall x y, rr same_track (k x) (k' y)) ->
    rr same_track (bind (at_ (ts_cov a) n) k) (bind (at_ (ts_cov b) n) k')).
  { intros n k k' N K. destruct (At n a L N) as [x ->]. destruct (At n b L' N) as [y ->]. cbn. apply K. }
  assert (Dv : forall x y d (k k' : R -> res trackParameters), (forall x y, rr same_track (k x) (k' y)) ->
    rr same_track (bind (rdiv x d) k) (bind (rdiv y d) k')).
  { intros x y d k k' K. unfold rdiv. destruct (Req_EM_T d 0); cbn; auto. }
  cbv zeta.
  repeat first [apply Go; [lia|intros ? ?] | apply Dv; intros ? ?].
  exact (setAll_same _ _ _ _ _).
Qed.

Lemma alone_same C S a b : same_order te_s (en_sortE (re_env C)) (en_sortE (re_env C)) -> same_input a b ->
  alone C S b = alone C S a.
Proof.
  intros So [Hh Hs]. unfold alone. rewrite !refitTrack_value. unfold refit_value. rewrite Hh.
  assert (R : rr same_track (match tk_state a with None => UB | Some ts => readLCIO (re_mm C) ts end)
                            (match tk_state b with None => UB | Some ts => readLCIO (re_mm C) ts end)).
  { destruct (tk_state a), (tk_state b); cbn; auto; try contradiction. apply read_same; tauto. }
  destruct (match tk_state a with None => UB | Some ts => readLCIO (re_mm C) ts end) as [x| | | |],
           (match tk_state b with None => UB | Some ts => readLCIO (re_mm C) ts end) as [y| | | |]; cbn in R; try contradiction; cbn [bind]; auto.
  destruct (Nat.ltb (length (tk_hits a)) 3); auto.
  assert (Sd : rr same_track (snd (seed C S fs_start x (tk_hits a))) (snd (seed C S fs_start y (tk_hits a)))).
  { unfold seed. destruct (sg_start S); [|exact R]. 
    destruct (snd _) as [z| | | |]; cbn; auto. split; reflexivity. }
  destruct (snd (seed C S fs_start x (tk_hits a))) as [i| | | |], (snd (seed C S fs_start y (tk_hits a))) as [j| | | |]; cbn in Sd; try contradiction; cbn [bind]; auto.
  assert (T := makeTrajectory_same C S i j (tk_hits a) So Sd).
  destruct (makeTrajectory C S i (tk_hits a)) as [t| | | |], (makeTrajectory C S j (tk_hits a)) as [u| | | |]; cbn in T; try contradiction; cbn [bind]; auto.
  rewrite (fit_value_same C t u T). reflexivity.
Qed.

(** ** what is stored *)
Definition carried (t : traj) : Prop := Forall (fun e => tp_cov (te_tp e) = tp_cov (tr_ref t)
  /\ (te_surf e = None -> te_tp e = tr_ref t)) (tr_elems t).

Lemma move_cov tp x u : moveHelixTo tp x false = Ok u -> tp_cov (fst u) = tp_cov tp.
Proof. unfold moveHelixTo. cbv zeta. intros H. repeat dres H. injection H as <-. reflexivity. Qed.

Lemma loss_cov tp el u : applyLoss tp el = Ok u -> tp_cov u = tp_cov tp.
Proof. unfold applyLoss. intros H. repeat dres H. injection H as <-. reflexivity. Qed.

Lemma built_cov E mass las surf cb sc meas elUV e s0 xx moved fid mom el :
  built E mass las surf cb sc meas elUV e s0 xx moved fid mom el -> tp_cov (te_tp e) = tp_cov (te_tp las).
Proof. intros B. rewrite (loss_cov _ _ _ (bu_tp _ _ _ _ _ _ _ _ _ _ _ _ _ _ _ B)). exact (move_cov _ _ _ (bu_move _ _ _ _ _ _ _ _ _ _ _ _ _ _ _ B)). Qed.

Lemma push_carried t new : carried t ->
  (forall las e, new las = Ok (Some e) -> tp_cov (te_tp e) = tp_cov (te_tp las) /\ te_surf e <> None) ->
  tr_ref (fst (pushElement t new)) = tr_ref t /\ carried (fst (pushElement t new)).
Proof.
  intros H N. unfold pushElement.
  destruct (ensureInitial t) as [t1| | | |] eqn:En; try (split; [reflexivity|exact H]).
  assert (H1 : tr_ref t1 = tr_ref t /\ carried t1).
  { unfold ensureInitial in En. destruct (tr_elems t) eqn:El; [|injection En as <-; auto].
    unfold addElement in En. dres En. injection En as <-. split; [reflexivity|]. unfold carried. cbn. rewrite El. cbn. repeat constructor. }
  destruct H1 as [H1 H2]. destruct (tr_elems t1) as [|e0 l] eqn:El; [auto|].
  destruct (new (last l e0)) as [[e|]| | | |] eqn:Ne; auto. destruct (N _ _ Ne) as [N1 N2].
  cbn [fst]. split; [exact H1|]. unfold carried in *. cbn [set_elems tr_elems tr_ref]. rewrite El in H2.
  assert (I : In (last l e0) (e0 :: l)) by apply last_in.
  rewrite Forall_forall in H2. destruct (H2 _ I) as [L _].
  change (Forall (fun e => tp_cov (te_tp e) = tp_cov (tr_ref t1) /\ (te_surf e = None -> te_tp e = tr_ref t1)) ((e0 :: l) ++ [e])).
  apply Forall_app. split; [apply Forall_forall; exact H2|]. constructor; [|constructor]. split; [congruence|contradiction].
Qed.

Lemma exec_carried E t c r t' : sorts te_s (en_sortE E) -> carried t -> exec E t c = (r, Some t') ->
  tr_ref t' = tr_ref t /\ carried t'.
Proof.
  intros So H X.
  assert (Ad : forall new, (forall las e, new las = Ok (Some e) -> tp_cov (te_tp e) = tp_cov (te_tp las) /\ te_surf e <> None) ->
    added (pushElement t new) = (r, Some t') -> tr_ref t' = tr_ref t /\ carried t').
  { intros new N A. destruct (push_carried t new H N) as [P Q]. unfold added in A.
    destruct (snd (pushElement t new)); try discriminate; injection A as _ <-; auto. }
  assert (Kp : forall x, keep x = (r, Some t') -> x = Ok t').
  { intros x. destruct x; cbn; intros K; try discriminate. injection K as _ <-. reflexivity. }
  destruct c as [pos prec surf id sc|surf| |l|m]; cbn [exec] in X.
  - apply (Ad _) in X; auto. intros las e N. destruct (newMeasurement_spec _ _ _ _ _ _ _ _ _ N) as (s0 & xx & moved & fid & mom & el & B & _).
    split; [apply (built_cov _ _ _ _ _ _ _ _ _ _ _ _ _ _ _ B)|rewrite (bu_surf _ _ _ _ _ _ _ _ _ _ _ _ _ _ _ B); discriminate].
  - apply (Ad _) in X; auto. intros las e N. destruct (newScatterer_spec _ _ _ _ _ N) as (s0 & xx & moved & fid & mom & el & B & _).
    split; [apply (built_cov _ _ _ _ _ _ _ _ _ _ _ _ _ _ _ B)|rewrite (bu_surf _ _ _ _ _ _ _ _ _ _ _ _ _ _ _ B); discriminate].
  - apply Kp in X. destruct (prepare_elems _ _ _ So X) as (_ & _ & _ & _ & Rf & _).
    split; auto. unfold carried. rewrite Rf. eapply prepare_P; [|exact So|exact H|exact X].
    intros a b (_ & A & B & _). rewrite A, B. auto.
  - apply Kp in X. unfold getIntersectionsWithSurfaces in X. cbv zeta in X. dres X. injection X as <-. auto.
  - injection X as _ <-. auto.
Qed.

Lemma run_carried E : sorts te_s (en_sortE E) -> forall cs t t', carried t -> snd (run E t cs) = Some t' ->
  tr_ref t' = tr_ref t /\ carried t'.
Proof.
  intros So. induction cs as [|c cs IH]; intros t t' H R; cbn [run] in R; [injection R as <-; auto|].
  destruct (exec E t c) as [r [t1|]] eqn:X; [|discriminate]. cbn [snd] in R.
  destruct (exec_carried _ _ _ _ _ So H X) as [A B]. destruct (IH _ _ B R) as [C D]. split; congruence.
Qed.

(** ** repeated passes *)
Lemma pass_value E G pm cs tp fr : one_pass E G pm cs tp fr <->
  exists t points rv chi2 ndf lost, snd (run E (mkTraj tp pm) cs) = Some t /\ makePoints (tr_elems t) = Ok points
    /\ gbl_fit G points = (rv, (chi2, ndf, lost))
    /\ computeResults E G (IF (Some points) (Some O) chi2 ndf lost []) points t 0 = Ok fr.
Proof.
  split.
  - intros (t & st & b & st' & a & R & F & Gr & Hd). unfold fit in F. cbv zeta in F. cbn [only] in F.
    destruct (makePoints (tr_elems t)) as [points| | | |] eqn:Mp; try discriminate.
    destruct (gbl_fit G points) as [rv [[chi2 ndf] lost]] eqn:Gf. injection F as <- _.
    unfold getResults in Gr. cbn [fs_if if_results lookup find if_fitted only if_traj] in Gr.
    destruct (computeResults E G _ points t 0) as [fr'| | | |] eqn:Cr; try discriminate. injection Gr as <- <-.
    unfold holds in Hd. cbn in Hd. injection Hd as <-.
    exists t, points, rv, chi2, ndf, lost. auto.
  - intros (t & points & rv & chi2 & ndf & lost & R & Mp & Gf & Cr). unfold one_pass.
    exists t. unfold fit. cbv zeta. cbn [only]. rewrite Mp, Gf. do 4 eexists. split; [exact R|]. split; [reflexivity|].
    unfold getResults. cbn [fs_if if_results lookup find if_fitted only if_traj]. rewrite Cr. split; [reflexivity|].
    reflexivity.
Qed.

Lemma pass_unique E G pm cs tp fr fr' : one_pass E G pm cs tp fr -> one_pass E G pm cs tp fr' -> fr' = fr.
Proof.
  intros A B. apply pass_value in A, B. destruct A as (t & p & rv & c & n & l & A1 & A2 & A3 & A4).
  destruct B as (t' & p' & rv' & c' & n' & l' & B1 & B2 & B3 & B4).
  rewrite A1 in B1. injection B1 as <-. rewrite A2 in B2. injection B2 as <-. rewrite A3 in B3. injection B3 as <- <- <- <-.
  congruence.
Qed.

Lemma pass_same E G pm cs tp tp' fr : same_order te_s (en_sortE E) (en_sortE E) -> same_track tp tp' ->
  one_pass E G pm cs tp fr -> one_pass E G pm cs tp' fr.
Proof.
  intros So H A. apply pass_value in A. destruct A as (t & p & rv & c & n & l & A1 & A2 & A3 & A4).
  assert (H0 : same_traj (mkTraj tp pm) (mkTraj tp' pm)) by (constructor; cbn; auto).
  destruct (run_same E So cs _ _ H0) as [_ R]. rewrite A1 in R.
  destruct (snd (run E (mkTraj tp' pm) cs)) as [t'|] eqn:R'; cbn in R; [|contradiction].
  apply pass_value. exists t', p, rv, c, n, l. rewrite (makePoints_same _ _ (st_elems _ _ R)), (compute_same _ _ _ _ _ _ _ R). auto.
Qed.
