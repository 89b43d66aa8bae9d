(** Proofs about the fit interface. *)
From Coq Require Import Reals List Bool ZArith Lra Lia.
From Verif Require Import Num Vec Helix Isect Trans Material Traj Fit SpecFit.
Import ListNotations.
Open Scope R_scope.

Lemma hdelete_nth h : forall a b, nth_error (hdelete h a) b =
  if Nat.eqb b a then (match nth_error h b with Some _ => Some None | None => None end) else nth_error h b.
Proof.
  induction h as [|x h IH]; intros a b; cbn [hdelete].
  - destruct b; cbn; match goal with |- context [if ?c then _ else _] => destruct c end; auto.
  - destruct a, b; cbn; auto.
Qed.

Lemma hdelete_length h : forall a, length (hdelete h a) = length h.
Proof. induction h; intros []; cbn; auto. Qed.

Lemma fold_delete_length rs : forall h,
  length (fold_left (fun h (r : Z * nat) => hdelete h (snd r)) rs h) = length h.
Proof. induction rs; intros h; cbn; auto. rewrite IHrs. apply hdelete_length. Qed.

Lemma fold_delete_nth rs : forall h b,
  (In b (map snd rs) -> (b < length h)%nat ->
     nth_error (fold_left (fun h (r : Z * nat) => hdelete h (snd r)) rs h) b = Some None)
  /\ (~ In b (map snd rs) -> nth_error (fold_left (fun h (r : Z * nat) => hdelete h (snd r)) rs h) b = nth_error h b).
Proof.
  induction rs as [|[z a] rs IH]; intros h b; cbn [fold_left map In snd].
  - split; [intros []|auto].
  - destruct (IH (hdelete h a) b) as [I1 I2]. rewrite hdelete_length in I1. split.
    + intros [<-|I] L; auto. destruct (in_dec Nat.eq_dec a (map snd rs)) as [J|J]; auto.
      rewrite I2 by auto. rewrite hdelete_nth, Nat.eqb_refl.
      destruct (nth_error h a) eqn:N; auto. apply nth_error_None in N. lia.
    + intros N. rewrite I2 by tauto. rewrite hdelete_nth. destruct (Nat.eqb_spec b a); auto. subst. tauto.
Qed.

(** a deleted cell stays deleted *)
Lemma deleted_delete h a b : nth_error h b = Some None -> nth_error (hdelete h a) b = Some None.
Proof. intros H. rewrite hdelete_nth, H. destruct (Nat.eqb b a); auto. Qed.

Lemma deleted_fold rs : forall h b, nth_error h b = Some None ->
  nth_error (fold_left (fun h (r : Z * nat) => hdelete h (snd r)) rs h) b = Some None.
Proof. induction rs; intros h b H; cbn; auto. apply IHrs. apply deleted_delete. auto. Qed.

Lemma fit_cases G w st tid st' r : fit G w st tid = (st', r) -> (exists b, r = Ok b) \/ r = Throw ->
  fs_heap st' = fold_left (fun h r => hdelete h (snd r)) (if_results (fs_if st)) (fs_heap st)
  /\ if_results (fs_if st') = [] /\ if_fitted (fs_if st') = Some tid
  /\ exists t, w tid = Some t
     /\ ((r = Throw /\ makePoints (tr_elems t) = Throw /\ if_traj (fs_if st') = None)
         \/ exists points rv chi2 ndf lost, makePoints (tr_elems t) = Ok points
              /\ gbl_fit G points = (rv, (chi2, ndf, lost)) /\ r = Ok (Z.eqb rv 0)
              /\ fs_if st' = IF (Some points) (Some tid) chi2 ndf lost []).
Proof.
  unfold fit. intros F R. destruct (w tid) as [t|] eqn:W; [|injection F as <- <-; destruct R as [[? R]|R]; discriminate].
  destruct (makePoints (tr_elems t)) as [points| | | |] eqn:P;
    try (injection F as <- <-; destruct R as [[? R]|R]; discriminate).
  - destruct (gbl_fit G points) as [rv [[chi2 ndf] lost]] eqn:GF. injection F as <- <-. cbn.
    repeat split; auto. exists t. split; auto. right. do 5 eexists. eauto.
  - injection F as <- <-. cbn. repeat split; auto. exists t. split; auto.
Qed.

Lemma computeResults_spec E G points t label fr i rv chi2 ndf lost :
  gbl_fit G points = (rv, (chi2, ndf, lost)) -> if_chi2 i = chi2 -> if_ndf i = ndf -> if_lost i = lost ->
  computeResults E G i points t label = Ok fr -> is_result E G points t label fr.
Proof.
  intros GF C1 C2 C3 H. unfold computeResults in H.
  destruct (gbl_results G points label) as [[err corr] cov] eqn:GR.
  unfold elementIndex in H. destruct (Z.ltb_spec label 0) as [L|L]; [discriminate|].
  destruct (nth_error (tr_elems t) (Z.to_nat label)) as [e|] eqn:N; [|discriminate]. cbn [bind] in H.
  destruct (curvilinearToL3Jacobian _ _) as [J| | | |] eqn:CJ; try discriminate. cbn [bind] in H.
  injection H as <-. cbn.
  exists e, J, rv, chi2, ndf, lost, err, corr, cov. repeat (split; [solve [auto]|]).
  split; [unfold to_unsigned; rewrite C2; reflexivity|]. split; auto.
  split; [|split].
  - intros -> i0. cbn. unfold v5add, m5mulv. reflexivity.
  - intros Ne i0. destruct (Z.eqb_spec err 0) as [?|_]; [contradiction|].
    unfold v5add, m5mulv, sum5, mk5. cbn. ring.
  - intros i0 j. cbn [fr_tp tp_setCov tp_setRef tp_setPar tp_cov]. unfold similarity, m5mul, m5transpose, sum5. ring.
Qed.

Lemma computeResults_no_throw E G i points t label : computeResults E G i points t label <> Throw.
Proof.
  unfold computeResults. destruct (gbl_results G points label) as [[err corr] cov].
  unfold elementIndex. destruct (Z.ltb label 0); [discriminate|].
  destruct (nth_error _ _); [|discriminate]. cbn [bind].
  unfold curvilinearToL3Jacobian, curvilinearToPerigeeJacobian, vunit, rdiv.
  repeat (match goal with |- context [Req_EM_T ?a ?b] => destruct (Req_EM_T a b) end; cbn [bind]; try discriminate).
Qed.

Lemma get_cases E G w st label st' r : getResults E G w st label = (st', r) -> (exists a, r = Ok a) \/ r = Throw ->
  (exists a, r = Ok a /\ st' = st /\ lookup (if_results (fs_if st)) label = Some a)
  \/ (exists tid t points fr, lookup (if_results (fs_if st)) label = None
        /\ if_fitted (fs_if st) = Some tid /\ w tid = Some t /\ if_traj (fs_if st) = Some points
        /\ computeResults E G (fs_if st) points t label = Ok fr /\ r = Ok (length (fs_heap st))
        /\ st' = FS (IF (Some points) (Some tid) (if_chi2 (fs_if st)) (if_ndf (fs_if st)) (if_lost (fs_if st))
                       ((label, length (fs_heap st)) :: if_results (fs_if st))) (fs_heap st ++ [Some fr])).
Proof.
  unfold getResults. intros H R. destruct (lookup _ label) as [a|] eqn:L.
  - left. injection H as <- <-. eauto.
  - right. destruct (if_fitted (fs_if st)) as [tid|] eqn:F; [|injection H as <- <-; destruct R as [[? R]|R]; discriminate].
    destruct (w tid) as [t|] eqn:W; [|injection H as <- <-; destruct R as [[? R]|R]; discriminate].
    destruct (if_traj (fs_if st)) as [points|] eqn:T; [|injection H as <- <-; destruct R as [[? R]|R]; discriminate].
    destruct (computeResults E G (fs_if st) points t label) as [fr| | | |] eqn:C;
      try (injection H as <- <-; destruct R as [[? R]|R]; discriminate).
    + injection H as <- <-. exists tid, t, points, fr. repeat split; auto.
    + exfalso. eapply computeResults_no_throw; eauto.
Qed.

Lemma lookup_in rs label a : lookup rs label = Some a -> In (label, a) rs.
Proof.
  unfold lookup. destruct (find _ rs) as [[z b]|] eqn:F; [|discriminate]. intros H. injection H as ->.
  apply find_some in F. destruct F as [I Q]. apply Z.eqb_eq in Q. cbn in Q. subst. auto.
Qed.

Lemma lookup_none rs label : lookup rs label = None -> ~ In label (map fst rs).
Proof.
  unfold lookup. destruct (find _ rs) as [[z b]|] eqn:F; [discriminate|]. intros _ I.
  apply in_map_iff in I. destruct I as ((z & a) & Q & I). apply (find_none _ _ F) in I. cbn in *.
  apply Z.eqb_neq in I. contradiction.
Qed.

Lemma lookup_cons label a rs l : lookup ((label, a) :: rs) l = if Z.eqb label l then Some a else lookup rs l.
Proof. unfold lookup. cbn. destruct (Z.eqb label l); auto. Qed.

Lemma lookup_of_in rs label a : NoDup (map fst rs) -> In (label, a) rs -> lookup rs label = Some a.
Proof.
  induction rs as [|[z b] rs IH]; intros N I; [destruct I|]. rewrite lookup_cons. inversion N; subst.
  destruct I as [I|I].
  - injection I as -> ->. rewrite Z.eqb_refl. auto.
  - destruct (Z.eqb_spec z label) as [->|]; auto. exfalso. apply H1. apply in_map_iff. exists (label, a). auto.
Qed.

(** ** the invariant *)
Definition inv (E : env) (G : gbl) (log : list fev) (st : fstate) : Prop :=
  let rs := if_results (fs_if st) in
  NoDup (map fst rs) /\ NoDup (map snd rs)
  /\ (forall a, In a (map snd rs) -> exists fr, holds st a fr)
  /\ (forall a fr, holds st a fr -> In a (map snd rs))
  /\ (forall w label a, In (EvGet w label (Ok a)) log -> In a (map snd rs) \/ deleted st a)
  /\ ((log = [] /\ rs = [] /\ if_fitted (fs_if st) = None /\ if_traj (fs_if st) = None)
      \/ (exists l1 w tid, log = l1 ++ [EvFit w tid Throw] /\ rs = [] /\ if_traj (fs_if st) = None)
      \/ (exists l1 w0 tid t0 points rv chi2 ndf lost l2,
            log = l1 ++ EvFit w0 tid (Ok (Z.eqb rv 0)) :: l2 /\ no_fit l2 /\ w0 tid = Some t0
            /\ makePoints (tr_elems t0) = Ok points /\ gbl_fit G points = (rv, (chi2, ndf, lost))
            /\ if_traj (fs_if st) = Some points /\ if_fitted (fs_if st) = Some tid
            /\ if_chi2 (fs_if st) = chi2 /\ if_ndf (fs_if st) = ndf /\ if_lost (fs_if st) = lost
            /\ (forall w label a, In (EvGet w label (Ok a)) l2 -> In (label, a) rs)
            /\ (forall label a, In (label, a) rs -> exists w1 t1 fr, In (EvGet w1 label (Ok a)) l2
                  /\ w1 tid = Some t1 /\ holds st a fr /\ is_result E G points t1 label fr))).

Lemma inv_hist E G log st : fhist E G log st -> inv E G log st.
Proof.
  intros H. induction H as [|log st w tid st' r H IH F R|log st w label st' r H IH Q R].
  - unfold inv, holds, deleted. cbn. repeat split; try constructor; try tauto.
    + intros a fr N. destruct a; discriminate.
  - destruct IH as (N1 & N2 & L1 & L2 & EG & _).
    destruct (fit_cases _ _ _ _ _ _ F R) as (Hh & Hr & Hf & t & W & C).
    unfold inv. rewrite Hr. cbn [map].
    split; [constructor|]. split; [constructor|]. split; [intros a []|].
    assert (Dall : forall a, In a (map snd (if_results (fs_if st))) -> deleted st' a).
    { intros a I. unfold deleted. rewrite Hh. apply fold_delete_nth; auto. destruct (L1 a I) as [fr X].
      apply nth_error_Some. rewrite X. discriminate. }
    split; [|split].
    + intros a fr X. exfalso. unfold holds in X.
      destruct (in_dec Nat.eq_dec a (map snd (if_results (fs_if st)))) as [J|J].
      * apply Dall in J. unfold deleted in J. rewrite J in X. discriminate.
      * rewrite Hh in X. rewrite (proj2 (fold_delete_nth _ _ _) J) in X. apply J. eapply L2. exact X.
    + intros w' label a I. apply in_app_or in I. destruct I as [I|[I|[]]]; [|discriminate]. right.
      destruct (EG _ _ _ I) as [J|J]; auto. unfold deleted. rewrite Hh. apply deleted_fold. exact J.
    + destruct C as [(-> & P & T)|(points & rv & chi2 & ndf & lost & P & GF & -> & Q)].
      * right. left. exists log, w, tid. auto.
      * right. right. exists log, w, tid, t, points, rv, chi2, ndf, lost, []. rewrite Q. cbn.
        split; auto. split; [intros ? ? ? []|]. do 8 (split; [solve [auto]|]). split; [intros ? ? ? []|intros ? ? []].
  - destruct IH as (N1 & N2 & L1 & L2 & EG & C).
    destruct (get_cases _ _ _ _ _ _ _ Q R) as [(a & -> & -> & LK)|(tid & t & points & fr & LK & F & W & T & CR & -> & ->)].
    + (* cached *)
      assert (I : In (label, a) (if_results (fs_if st))) by (apply lookup_in; auto).
      split; [auto|]. split; [auto|]. split; [auto|]. split; [auto|]. split.
      * intros w' label' a' J. apply in_app_or in J. destruct J as [J|[J|[]]]; [eauto|]. injection J as <- <- <-.
        left. apply in_map_iff. exists (label, a). auto.
      * destruct C as [(_ & E0 & _)|[(? & ? & ? & _ & E0 & _)|C]]; try (rewrite E0 in I; destruct I).
        right. right. destruct C as (l1 & w0 & tid & t0 & points & rv & chi2 & ndf & lost & l2 & EQ & NF & C).
        destruct C as (C1 & C2 & C3 & C4 & C5 & C6 & C7 & C8 & C9 & C10).
        exists l1, w0, tid, t0, points, rv, chi2, ndf, lost, (l2 ++ [EvGet w label (Ok a)]).
        split; [rewrite EQ, <- app_assoc; auto|].
        split; [intros ? ? ? J; apply in_app_or in J; destruct J as [J|[J|[]]]; [eapply NF; eauto|discriminate]|].
        do 8 (split; [solve [auto]|]). split.
        -- intros w' label' a' J. apply in_app_or in J. destruct J as [J|[J|[]]]; [eauto|]. injection J as <- <- <-. auto.
        -- intros label' a' J. destruct (C10 _ _ J) as (w1 & t1 & fr & J1 & J2).
           exists w1, t1, fr. split; auto. apply in_or_app. auto.
    + (* new *)
      destruct C as [(_ & _ & _ & T0)|[(? & ? & ? & _ & _ & T0)|C]]; try congruence.
      destruct C as (l1 & w0 & tid' & t0 & points' & rv & chi2 & ndf & lost & l2 & EQ & NF & C).
      destruct C as (C1 & C2 & C3 & C4 & C5 & C6 & C7 & C8 & C9 & C10).
      rewrite T in C4. injection C4 as <-. rewrite F in C5. injection C5 as <-.
      assert (RES : is_result E G points t label fr) by (eapply computeResults_spec; eauto).
      set (n := length (fs_heap st)) in *.
      assert (Keep : forall a x, nth_error (fs_heap st) a = Some x -> nth_error (fs_heap st ++ [Some fr]) a = Some x).
      { intros a x X. rewrite nth_error_app1; auto. apply nth_error_Some. rewrite X. discriminate. }
      assert (New : nth_error (fs_heap st ++ [Some fr]) n = Some (Some fr)).
      { rewrite nth_error_app2 by (unfold n; lia). unfold n. rewrite Nat.sub_diag. auto. }
      unfold inv, holds, deleted. cbn [fs_if fs_heap if_results if_traj if_fitted if_chi2 if_ndf if_lost map fst snd].
      split; [constructor; auto; apply lookup_none; auto|].
      split; [constructor; auto; intros I; destruct (L1 n I) as [x X]; unfold holds in X;
              assert (n < length (fs_heap st))%nat by (apply nth_error_Some; rewrite X; discriminate); unfold n in *; lia|].
      split; [intros a [<-|I]; [eauto|destruct (L1 a I) as [x X]; exists x; apply Keep; exact X]|].
      split.
      { intros a x X. destruct (Nat.lt_ge_cases a n) as [La|La].
        - right. rewrite nth_error_app1 in X by auto. eapply L2. exact X.
        - left. destruct (Nat.eq_dec n a) as [|Ne]; auto. exfalso.
          assert (a < length (fs_heap st ++ [Some fr]))%nat by (apply nth_error_Some; rewrite X; discriminate).
          rewrite app_length in H0. cbn in H0. unfold n in *. lia. }
      split.
      { intros w' label' a' J. apply in_app_or in J. destruct J as [J|[J|[]]].
        - destruct (EG _ _ _ J) as [I|I]; [left; right; auto|right; apply Keep; auto].
        - injection J as <- <- <-. left. left. auto. }
      right. right. exists l1, w0, tid, t0, points, rv, chi2, ndf, lost, (l2 ++ [EvGet w label (Ok n)]).
      split; [rewrite EQ, <- app_assoc; auto|].
      split; [intros ? ? ? J; apply in_app_or in J; destruct J as [J|[J|[]]]; [eapply NF; eauto|discriminate]|].
      do 8 (split; [solve [auto]|]). split.
      * intros w' label' a' J. apply in_app_or in J. destruct J as [J|[J|[]]]; [right; eauto|]. injection J as <- <- <-. left. auto.
      * intros label' a' [J|J].
        -- injection J as <- <-. exists w, t, fr. split; [apply in_or_app; right; left; auto|]. auto.
        -- destruct (C10 _ _ J) as (w1 & t1 & fr1 & J1 & J2 & J3 & J4).
           exists w1, t1, fr1. split; [apply in_or_app; auto|]. repeat split; auto.
Qed.

Lemma fhist_prefix E G l1 l2 st : fhist E G (l1 ++ l2) st -> exists st1, fhist E G l1 st1.
Proof.
  revert st. induction l2 as [|x l2 IH] using rev_ind; intros st H.
  - rewrite app_nil_r in H. eauto.
  - rewrite app_assoc in H. inversion H as [Q|? ? ? ? ? ? ? ? ? Q|? ? ? ? ? ? ? ? ? Q].
    + destruct (l1 ++ l2); discriminate.
    + apply app_inj_tail in Q. destruct Q as [-> _]. eauto.
    + apply app_inj_tail in Q. destruct Q as [-> _]. eauto.
Qed.

Lemma last_fit_unique E1 E2 (l1 l2 m1 m2 : list fev) :
  no_fit l2 -> no_fit m2 -> (exists w t r, E1 = EvFit w t r) -> (exists w t r, E2 = EvFit w t r) ->
  l1 ++ E1 :: l2 = m1 ++ E2 :: m2 -> l1 = m1 /\ E1 = E2 /\ l2 = m2.
Proof.
  intros N1 N2 F1 F2. revert m1. induction l1 as [|x l1 IH]; intros m1 Q; destruct m1 as [|y m1]; cbn in Q.
  - injection Q as -> ->. auto.
  - injection Q as -> ->. exfalso. destruct F2 as (w & t & r & ->). eapply N1. apply in_or_app. right. left. eauto.
  - injection Q as -> <-. exfalso. destruct F1 as (w & t & r & ->). eapply N2. apply in_or_app. right. left. eauto.
  - injection Q as -> Q. destruct (IH _ Q) as (-> & -> & ->). auto.
Qed.

(** no step revives a deleted result *)
Lemma deleted_mono_fit G w st tid st' r a : fit G w st tid = (st', r) -> (exists b, r = Ok b) \/ r = Throw ->
  deleted st a -> deleted st' a.
Proof.
  intros F R D. destruct (fit_cases _ _ _ _ _ _ F R) as (Hh & _). unfold deleted. rewrite Hh. apply deleted_fold. auto.
Qed.
Lemma deleted_mono_get E G w st label st' r a : getResults E G w st label = (st', r) ->
  (exists a, r = Ok a) \/ r = Throw -> deleted st a -> deleted st' a.
Proof.
  intros Q R D. destruct (get_cases _ _ _ _ _ _ _ Q R) as [(? & _ & -> & _)|(? & ? & ? & fr & _ & _ & _ & _ & _ & _ & ->)]; auto.
  unfold deleted in *. cbn. rewrite nth_error_app1; auto. apply nth_error_Some. rewrite D. discriminate.
Qed.
