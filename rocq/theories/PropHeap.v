(** C42: memory ownership of trajectories. *)
From Coq Require Import Reals List Bool ZArith Lia Permutation.
From Verif Require Import Num Vec Helix Isect Trans Material Traj SpecTraj SpecThrow ThrowFacts TrajFacts Heap SpecHeap HeapFacts HeapFacts2 HeapFacts3.
Import ListNotations.
Open Scope R_scope.

(** The destructor is defined and frees everything the trajectory allocated,
    except what calls that threw have left behind; memory allocated before is as
    it was. *)
Theorem C42_destroy : forall E hsort h0 tp pm cs h t lost, hsort_ok E hsort ->
  hhist E hsort h0 tp pm cs h t -> all_leave cs lost ->
  exists tail, hDestroy t h = (h0 ++ tail, Ok tt) /\ live tail = lost.
Proof.
  intros E hsort h0 tp pm cs h t lost HS H L. destruct (hist_inv _ _ _ _ _ _ _ _ HS H) as (lost' & L' & I).
  rewrite <- (all_leave_fun _ _ L' _ L). clear L L' lost.
  destruct I as [[tail ->] B C D _ _]. unfold hDestroy. rewrite delete_ok; auto; [|intros a k J; apply C; auto].
  exists (skipn (length h0) (clearAll (h0 ++ tail) (map fst (flat_map owned1 (ht_elems t))))). split; auto.
  f_equal. apply nth_error_ext. intros n. destruct (le_lt_dec (length h0) n) as [G|G].
  - rewrite nth_error_app2 by auto. rewrite nth_error_skipn. f_equal. lia.
  - rewrite nth_error_app1 by auto. rewrite clearAll_out; [rewrite nth_error_app1; auto|].
    intros J. apply in_map_iff in J. destruct J as ([b k] & <- & J). destruct (C _ _ J). cbn in *. lia.
Qed.
Print Assumptions C42_destroy.

(** every history leaves something definite behind; nothing if no call threw *)
Theorem C42_no_leak : forall E hsort h0 tp pm cs h t, hsort_ok E hsort ->
  hhist E hsort h0 tp pm cs h t -> (forall c, ~ In (HCall c true) cs) ->
  exists n, hDestroy t h = (h0 ++ repeat None n, Ok tt).
Proof.
  intros E hsort h0 tp pm cs h t HS H N. destruct (hist_inv _ _ _ _ _ _ _ _ HS H) as (lost & L & _).
  destruct (C42_destroy _ _ _ _ _ _ _ _ _ HS H L) as (tail & A & B). exists (length tail). rewrite A. do 2 f_equal.
  assert (Z : lost = []).
  { clear - L N. induction L; auto. rewrite IHL.
    - destruct H; auto; exfalso; eapply N; apply in_app_iff; right; left; reflexivity.
    - intros c' I. apply (N c'). apply in_app_iff. auto. }
  rewrite Z in B. clear - B. induction tail as [|[k|] tail IH]; cbn in *; auto; [discriminate|]. f_equal. auto.
Qed.
Print Assumptions C42_no_leak.

Theorem C42_lost_defined : forall E hsort h0 tp pm cs h t, hsort_ok E hsort ->
  hhist E hsort h0 tp pm cs h t -> exists! lost, all_leave cs lost.
Proof.
  intros E hsort h0 tp pm cs h t HS H. destruct (hist_inv _ _ _ _ _ _ _ _ HS H) as (lost & L & _).
  exists lost. split; auto. apply all_leave_fun; auto.
Qed.
Print Assumptions C42_lost_defined.

(** At any time the pointers held by the elements are different from each other,
    point to live objects of the right type, are null where there is nothing, and what is alive is what was alive
    before, what the elements own, and what has been left behind. *)
Theorem C42_alive : forall E hsort h0 tp pm cs h t lost, hsort_ok E hsort ->
  hhist E hsort h0 tp pm cs h t -> all_leave cs lost ->
  NoDup (map fst (owned t))
  /\ (forall a k, In (a, k) (owned t) -> (length h0 <= a)%nat /\ nth_error h a = Some (Some k))
  /\ (forall e, In e (ht_elems t) -> pointers_agree e)
  /\ exists tail, h = h0 ++ tail /\ Permutation (live tail) (map snd (owned t) ++ lost).
Proof.
  intros E hsort h0 tp pm cs h t lost HS H L. destruct (hist_inv _ _ _ _ _ _ _ _ HS H) as (lost' & L' & I).
  rewrite <- (all_leave_fun _ _ L' _ L). clear L L' lost.
  destruct (inv_old _ _ _ _ I) as [tail Eh]. split; [apply I|]. split; [apply I|]. split; [apply I|]. exists tail. split; auto.
  destruct I as [_ B C D _ _]. unfold owned.
  assert (P := live_clearAll (flat_map owned1 (ht_elems t)) h B (fun a k J => proj2 (C a k J))).
  set (l := flat_map owned1 (ht_elems t)) in *.
  assert (Q : clearAll h (map fst l) = h0 ++ skipn (length h0) (clearAll h (map fst l))).
  { apply nth_error_ext. intros n. destruct (le_lt_dec (length h0) n) as [G|G].
    - rewrite (nth_error_app2 h0) by auto. rewrite nth_error_skipn. f_equal. lia.
    - rewrite (nth_error_app1 h0) by auto. rewrite clearAll_out; [rewrite Eh, nth_error_app1; auto|].
      intros J. apply in_map_iff in J. destruct J as ([b k] & <- & J). destruct (C _ _ J). cbn in *. lia. }
  rewrite Q, live_app, D in P. rewrite Eh in P at 1. rewrite live_app in P.
  apply (Permutation_app_inv_l (live h0)). rewrite P. rewrite !app_assoc. apply Permutation_app_tail. apply Permutation_app_comm.
Qed.
Print Assumptions C42_alive.

(** The memory model and the model of the other theorems agree: what a history
    does in memory it does on values, and each history of the latter is one of
    the former. *)
Definition call_of (c : hcall) : call := match c with HCall c _ => c end.

Theorem C42_same_trajectory : forall E hsort h0 tp pm, hsort_ok E hsort ->
  (forall cs h t, hhist E hsort h0 tp pm cs h t -> ~ In (HCall CPrep true) cs ->
     history E any_call (mkTraj tp pm) (map call_of cs) (erase t))
  /\ (forall cs t, history E any_call (mkTraj tp pm) cs t ->
     exists hcs h ht, hhist E hsort h0 tp pm hcs h ht /\ map call_of hcs = cs /\ erase ht = t
       /\ ~ In (HCall CPrep true) hcs).
Proof.
  intros E hsort h0 tp pm HS. split.
  - intros cs h t H N. induction H; [constructor|].
    assert (N1 : ~ In (HCall CPrep true) cs) by (intros I; apply N; apply in_app_iff; auto).
    assert (N2 : c <> HCall CPrep true) by (intros ->; apply N; apply in_app_iff; cbn; auto).
    specialize (IHhhist N1). destruct (hist_inv _ _ _ _ _ _ _ _ HS H) as (lost & _ & I).
    rewrite map_app. apply hist_snoc with (erase t); [exact IHhhist|exact Logic.I|].
    destruct H0; cbn [call_of].
    + destruct (push_effect h0 h t lost surf _ _ _ _ _ I (fun las h => newMeasurement_effect E (tr_mass (ht_base t)) las position precision surf id sc h) H0) as (A & _).
      apply step_meas with (Ok b); [exact A|eauto].
    + destruct (push_effect h0 h t lost surf _ _ _ _ _ I (fun las h => newMeasurement_effect E (tr_mass (ht_base t)) las position precision surf id sc h) H0) as (A & _).
      apply step_meas with Throw; [exact A|auto].
    + destruct (push_effect h0 h t lost surf _ _ _ _ _ I (fun las h => newScatterer_effect E (tr_mass (ht_base t)) las surf h) H0) as (A & _).
      apply step_scat with (Ok b); [exact A|eauto].
    + destruct (push_effect h0 h t lost surf _ _ _ _ _ I (fun las h => newScatterer_effect E (tr_mass (ht_base t)) las surf h) H0) as (A & _).
      apply step_scat with Throw; [exact A|auto].
    + destruct (prepare_effect _ _ _ _ _ _ _ _ _ HS I H0) as (A & _). apply step_prep. exact A.
    + contradiction.
    + apply step_isect. apply isect_erase; auto.
    + apply step_mass.
  - intros cs t H. induction H.
    { exists [], h0, (hTraj tp pm). split; [constructor|]. split; [auto|]. split; [auto|intros []]. }
    destruct IHhistory as (hcs & h & ht & A & B & C & D). subst t.
    assert (Fin : forall threw h' ht', (c = CPrep -> threw = false) -> hstep E hsort h ht (HCall c threw) h' ht' -> erase ht' = t' ->
       exists hcs1 h1 ht1, hhist E hsort h0 tp pm hcs1 h1 ht1 /\ map call_of hcs1 = cs ++ [c] /\ erase ht1 = t' /\ ~ In (HCall CPrep true) hcs1).
    { intros threw h' ht' Np S Ee. exists (hcs ++ [HCall c threw]), h', ht'. split; [econstructor; eauto|].
      split; [rewrite map_app, B; auto|]. split; auto. rewrite in_app_iff. intros [J|[J|[]]]; auto.
      injection J as -> ->. specialize (Np eq_refl). discriminate. }
    destruct (hist_inv _ _ _ _ _ _ _ _ HS A) as (lost & _ & I).
    destruct H1.
    + destruct (hAddMeasurement E ht position precision surf id sc h) as [[h' ht'] r'] eqn:Q.
      destruct (push_effect h0 h ht lost surf _ _ _ _ _ I (fun las h => newMeasurement_effect E (tr_mass (ht_base ht)) las position precision surf id sc h) Q) as (P & _).
      assert (X : (erase ht', r') = (t', r)) by (rewrite <- H1, <- P; reflexivity). injection X as X1 ->.
      destruct H2 as [[b ->]| ->]; [apply (Fin false h' ht')|apply (Fin true h' ht')]; auto; try discriminate; econstructor; eauto.
    + destruct (hAddScatterer E ht surf h) as [[h' ht'] r'] eqn:Q.
      destruct (push_effect h0 h ht lost surf _ _ _ _ _ I (fun las h => newScatterer_effect E (tr_mass (ht_base ht)) las surf h) Q) as (P & _).
      assert (X : (erase ht', r') = (t', r)) by (rewrite <- H1, <- P; reflexivity). injection X as X1 ->.
      destruct H2 as [[b ->]| ->]; [apply (Fin false h' ht')|apply (Fin true h' ht')]; auto; try discriminate; econstructor; eauto.
    + destruct (hPrepareForFitting E hsort ht h) as [[h' ht'] r'] eqn:Q.
      destruct (prepare_effect _ _ _ _ _ _ _ _ _ HS I Q) as (P & _). rewrite P in H1. destruct r' as [[]| | | |]; try discriminate.
      injection H1 as X. apply (Fin false h' ht'); auto. constructor; auto.
    + destruct (getIntersectionsWithSurfaces E (ht_base ht) l) as [b| | | |] eqn:Q.
      { apply (Fin false h (HT b (ht_elems ht))); [discriminate|constructor; auto|].
        apply isect_erase in Q. congruence. }
      1-4: exfalso; revert Q; match goal with X : getIntersectionsWithSurfaces _ _ _ = _ |- _ => revert X end;
        unfold getIntersectionsWithSurfaces; cbv zeta; cbn [erase tr_ref tr_isect set_elems];
        rewrite (isectAll_ref (erase ht) (ht_base ht) _ eq_refl); destruct isectAll; cbn [bind]; discriminate.
    + apply (Fin false h (HT (setMass (ht_base ht) m) (ht_elems ht))); [discriminate|constructor|reflexivity].
Qed.
Print Assumptions C42_same_trajectory.

(** The checks behind these statements are strict: deleting anything but a live
    object of the right type is undefined, and deleting frees just that object. *)
Theorem C42_delete_strict : forall k a h,
  match mfree k a h with
  | (h', Ok _) => nth_error h a = Some (Some k) /\ nth_error h' a = Some None
      /\ length h' = length h /\ (forall b, b <> a -> nth_error h' b = nth_error h b)
  | (h', UB) => nth_error h a <> Some (Some k) /\ h' = h
  | _ => False
  end.
Proof.
  intros k a h. unfold mfree. destruct (nth_error h a) as [[k'|]|] eqn:N.
  - destruct (kind_eqb k k') eqn:K.
    + assert (k = k') by (destruct k, k'; auto; discriminate). subst k'.
      split; [reflexivity|]. split; [apply clear_same; apply nth_error_Some; congruence|].
      split; [apply clear_length|]. intros b Hb. apply clear_other. auto.
    + split; [|reflexivity]. intros F. injection F as ->. destruct k; discriminate.
  - split; [discriminate|reflexivity].
  - split; [discriminate|reflexivity].
Qed.
Print Assumptions C42_delete_strict.
