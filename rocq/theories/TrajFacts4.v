(** Lemmas about repeated preparation, energy loss, precisions and the
    intersection list. *)
From Coq Require Import Reals List Bool ZArith Lra Lia Permutation Sorted.
From Coquelicot Require Import Coquelicot.
From Verif Require Import Num Vec Helix Isect Trans Material Traj.
From Verif Require Import NumFacts SpecHelix HelixFacts PathFacts MoveFacts SpecIsect SurfFacts SurfFacts2 SpecTraj TrajFacts TrajFacts2 TrajFacts3.
Import ListNotations.
Open Scope R_scope.

(** ** sorting a list without equal keys *)
Lemma sorted_unique {A : Type} (key : A -> R) : forall l l' : list A,
  ordered_by key l -> ordered_by key l' -> Permutation l l' ->
  (forall a b, In a l -> In b l -> key a = key b -> a = b) -> l = l'.
Proof.
  unfold ordered_by. induction l as [|a l IH]; intros l' O O' P D.
  - apply Permutation_nil in P. auto.
  - destruct l' as [|b l']; [apply Permutation_sym, Permutation_nil in P; discriminate|].
    inversion O as [|? ? O1 O2]; subst. inversion O' as [|? ? O3 O4]; subst.
    rewrite Forall_forall in O2, O4.
    assert (Ea : a = b).
    { assert (Ib : In b (a :: l)) by (eapply Permutation_in; [apply Permutation_sym; eauto|left; auto]).
      assert (Ia : In a (b :: l')) by (eapply Permutation_in; [eauto|left; auto]).
      apply D; [left; auto|auto|].
      destruct Ib as [->|Ib]; auto. destruct Ia as [->|Ia]; auto.
      apply Rle_antisym; auto. }
    subst b. f_equal. apply IH; auto.
    + eapply Permutation_cons_inv; eauto.
    + intros x y Hx Hy. apply D; right; auto.
Qed.

(** ** preparing twice *)
Lemma elementAt_same s : forall l l' prevS e e', same_but_jacobian e e' -> Forall2 same_but_jacobian l l' ->
  same_but_jacobian (elementAt_loop s prevS e l) (elementAt_loop s prevS e' l').
Proof.
  intros l l' prevS e e' S F. revert prevS e e' S.
  induction F as [|a b l l' A F IH]; intros prevS e e' S; cbn [elementAt_loop]; auto.
  assert (Q : te_s a = te_s b) by apply A. rewrite Q.
  destruct (Rle_dec prevS s), (Rlt_dec s (te_s b)); auto.
Qed.

Lemma tangent_same t l l' s : Forall2 same_but_jacobian l l' ->
  tr_tangentAt (set_elems t l) s = tr_tangentAt (set_elems t l') s.
Proof.
  intros F. unfold tr_tangentAt, trajectoryElementAt. cbn [set_elems tr_elems].
  destruct F as [|a b l l' A F]; auto. cbn [bind].
  destruct (elementAt_same s _ _ bigNegative _ _ A F) as (-> & -> & _). auto.
Qed.

Lemma setJacobian_same e e' J : same_but_jacobian e e' -> te_jac e' = Some J -> setJacobian e J = e'.
Proof.
  intros (A1 & A2 & A3 & A4 & A5 & A6 & A7 & A8 & A9 & A10 & A11) B.
  unfold setJacobian. destruct e'; cbn in *. congruence.
Qed.

Lemma jacobian_same E t l l' prevS e e' J : Forall2 same_but_jacobian l l' -> same_but_jacobian e e' ->
  jacobian_for E (set_elems t l) prevS e J -> jacobian_for E (set_elems t l') prevS e' J.
Proof.
  intros F S (gj & nrj & ts & te & A1 & A2 & A3 & A4 & A5).
  exists gj, nrj, ts, te. cbn [set_elems tr_prop tr_mass] in *.
  rewrite <- !(tangent_same t l l') by auto.
  assert (L : energy_term E (tr_mass t) e nrj -> energy_term E (tr_mass t) e' nrj).
  { unfold energy_term. destruct S as (_ & -> & -> & _ & -> & _). auto. }
  apply L in A2. destruct S as (<- & <- & _). auto.
Qed.

Lemma prepareLoop_again E t lall lall' : Forall2 same_but_jacobian lall lall' ->
  forall prevS l l', prepared E (set_elems t lall) prevS l l' ->
  prepareLoop E (set_elems t lall') prevS l' = Ok l'.
Proof.
  intros F prevS l l' P. induction P as [|prevS e e' l l' J S Ja Jf P IH]; auto.
  cbn [prepareLoop].
  assert (Q : prepareOne E (set_elems t lall') prevS e' = Ok e').
  { apply prepareOne_spec. exists J. split.
    - symmetry. apply setJacobian_same; auto. apply same_refl.
    - eapply jacobian_same; eauto. }
  rewrite Q. cbn [bind].
  assert (Es : te_s e' = te_s e) by (symmetry; apply S). rewrite Es, IH. reflexivity.
Qed.

Lemma prepare_again E t t' : sorts te_s (en_sortE E) -> prepareForFitting E t = Ok t' ->
  en_sortE E (tr_elems t') = tr_elems t' -> prepareForFitting E t' = Ok t'.
Proof.
  intros So H Q. destruct (prepare_spec _ _ _ H) as (e0 & l & e0' & l' & A & -> & B & C & D).
  unfold prepareForFitting. cbn [set_elems tr_elems] in *. cbv zeta. rewrite Q.
  cbn [tr_ref tr_prop tr_mass tr_isect set_elems tr_elems].
  assert (F : Forall2 same_but_jacobian (e0 :: l) (e0' :: l'))
    by (constructor; auto; eapply prepared_forall2; eauto).
  assert (Z : set_elems (set_elems t (e0' :: l')) (e0' :: l') = set_elems t (e0' :: l')) by reflexivity.
  rewrite Z, (prepareLoop_again E t _ _ F _ _ _ D). cbn [bind].
  unfold m5Unit. rewrite (setJacobian_same e0' e0' m5zero) by (auto; apply same_refl). reflexivity.
Qed.

Lemma prepare_sorted E t t' : sorts te_s (en_sortE E) -> prepareForFitting E t = Ok t' ->
  ordered (tr_elems t').
Proof.
  intros So H. destruct (prepare_elems _ _ _ So H) as (l & _ & O & F & _). eapply forall2_ordered; eauto.
Qed.

(** the sort leaves an ordered list without equal path lengths as it is *)
Lemma sort_distinct srt l : sorts te_s srt -> ordered l ->
  (forall a b, In a l -> In b l -> te_s a = te_s b -> a = b) -> srt l = l.
Proof.
  intros S O D. destruct (S l) as [P O']. symmetry. eapply sorted_unique; eauto.
Qed.

(** ** uninitialised energy loss *)
Lemma loss_undefined E mass e surf o : te_scat e = true -> te_surf e = Some surf ->
  intersectWithSurface surf (tp_par (te_tp e)) (tp_ref (te_tp e)) (OVal 0 v3zero) 0 true = Ok (false, o) ->
  lossTerm E mass e = UB.
Proof.
  intros A B C. unfold lossTerm. rewrite A, B. unfold computeEnergyLoss_tp. cbv zeta. rewrite C. reflexivity.
Qed.

Lemma prepared_in E t prevS l l' e : prepared E t prevS l l' -> In e l ->
  exists nrj, lossTerm E (tr_mass t) e = Ok nrj.
Proof.
  induction 1 as [|prevS x x' l l' J S Ja (gj & nrj & ts & te & A1 & A2 & _) P IH]; intros I; [destruct I|].
  apply lossTerm_spec in A2. destruct I as [->|I]; eauto.
Qed.

Lemma prepare_needs_loss E t t' e : sorts te_s (en_sortE E) -> prepareForFitting E t = Ok t' ->
  In e (tr_elems t) -> (exists i, In i (tr_elems t) /\ te_s i < te_s e) ->
  exists nrj, lossTerm E (tr_mass t) e = Ok nrj.
Proof.
  intros So H I (i & Ii & L). destruct (prepare_spec _ _ _ H) as (e0 & l & e0' & l' & A & -> & B & C & D).
  destruct (So (tr_elems t)) as [P O]. rewrite A in P, O.
  assert (Ie : In e (e0 :: l)) by (eapply Permutation_in; eauto).
  assert (Ji : In i (e0 :: l)) by (eapply Permutation_in; eauto).
  destruct Ie as [->|Ie].
  - exfalso. inversion O as [|? ? O1 O2]; subst. rewrite Forall_forall in O2.
    destruct Ji as [->|Ji]; [lra|]. specialize (O2 i Ji). lra.
  - apply (prepared_in E (set_elems t (e0 :: l)) 0 l l'); auto.
Qed.

(** ** getIntersectionsWithSurfaces *)
Lemma found_unique t surf s s' : found t surf s -> found t surf s' -> s = s'.
Proof. intros [[x A] _] [[y B] _]. rewrite A in B. injection B; auto. Qed.

Lemma radius_abs hp : Rabs (calculateRadius hp) = calculateRadius hp.
Proof.
  unfold calculateRadius. cbv zeta. destruct (Req_EM_T (calculateCurvature hp) 0).
  - apply Rabs_R0.
  - apply Rabs_Rabsolu.
Qed.

Lemma isectOne_spec t acc surf acc' :
  isectOne t (PI * Rabs (calculateRadius (tp_par (tr_ref t)))) acc surf = Ok acc' ->
  (exists s, found t surf s /\ acc' = acc ++ [(s, surf)])
  \/ ((forall s, ~ found t surf s) /\ acc' = acc).
Proof.
  unfold isectOne, found. rewrite radius_abs. intros H. dres H.
  destruct a as [[] [s xx|]].
  - destruct (Rle_dec 0 s) as [L|L];
      [destruct (Rlt_dec s (PI * calculateRadius (tp_par (tr_ref t)))) as [M|M]|]; injection H as <-.
    + left. exists s. split; auto. split; eauto.
    + right. split; auto. intros s' [[x Q] R]. injection Q as <- <-. lra.
    + right. split; auto. intros s' [[x Q] R]. injection Q as <- <-. lra.
  - exfalso. eapply isect_mode1_finite; eauto.
  - injection H as <-. right. split; auto. intros s' [[x Q] R]. discriminate.
  - injection H as <-. right. split; auto. intros s' [[x Q] R]. discriminate.
Qed.

Lemma isectAll_spec t : forall l acc acc',
  isectAll t (PI * Rabs (calculateRadius (tp_par (tr_ref t)))) acc l = Ok acc' ->
  exists ents, all_found t l ents /\ acc' = acc ++ ents.
Proof.
  induction l as [|surf l IH]; intros acc acc' H; cbn [isectAll] in H.
  - injection H as <-. exists []. split; [constructor|rewrite app_nil_r; auto].
  - dres H. destruct (IH _ _ H) as (ents & A & ->).
    destruct (isectOne_spec _ _ _ _ B) as [(s & F & ->)|(F & ->)].
    + exists ((s, surf) :: ents). split; [constructor; auto|]. rewrite <- app_assoc. auto.
    + exists ents. split; auto. constructor; auto.
Qed.

Lemma all_found_in t l ents : all_found t l ents -> forall s surf,
  In (s, surf) ents <-> In surf l /\ found t surf s.
Proof.
  induction 1 as [|surf l s ents F A IH|surf l ents F A IH]; intros s' surf'.
  - split; [intros []|intros [[] _]].
  - split.
    + intros [Q|I]; [injection Q as <- <-; split; auto; left; auto|].
      apply IH in I. destruct I. split; auto. right; auto.
    + intros [[<-|I] Fd].
      * left. f_equal. eapply found_unique; eauto.
      * right. apply IH. auto.
  - split.
    + intros I. apply IH in I. destruct I. split; auto. right; auto.
    + intros [[<-|I] Fd]; [exfalso; eapply F; eauto|]. apply IH. auto.
Qed.

Lemma intersections_spec E t l t' : sorts fst (en_sortI E) ->
  getIntersectionsWithSurfaces E t l = Ok t' ->
  exists ents, all_found t l ents /\ Permutation (tr_isect t ++ ents) (tr_isect t')
    /\ ordered_by fst (tr_isect t') /\ tr_ref t' = tr_ref t /\ tr_elems t' = tr_elems t
    /\ tr_mass t' = tr_mass t /\ tr_prop t' = tr_prop t.
Proof.
  intros S H. unfold getIntersectionsWithSurfaces in H. cbv zeta in H. dres H. injection H as <-.
  destruct (isectAll_spec _ _ _ _ B) as (ents & A & ->).
  destruct (S (tr_isect t ++ ents)) as [P O].
  exists ents. split; auto. split; [exact P|]. split; [exact O|]. cbn. auto.
Qed.
