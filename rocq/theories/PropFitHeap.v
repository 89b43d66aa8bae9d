(** C67: memory of fit interfaces. *)
From Coq Require Import Reals List Bool ZArith Lia.
From Verif Require Import Num Vec Helix Isect Trans Material Traj Fit SpecFit FitFacts FitHeap SpecFitHeap.
From Verif Require Import FitHeapFacts FitHeapFacts2 PropFit.
Import ListNotations.

Lemma alive_get E G log s k : shist E G log s -> (alive log k <-> exists o, getIf s k = Some o).
Proof.
  intros H. destruct (hist_hinv _ _ _ _ H) as [_ I2 I3 _ _]. unfold alive. rewrite I2, I3. split.
  - intros [L N]. destruct (nth_error (sy_ifs s) k) as [[o|]|] eqn:Q; [|congruence|].
    + exists o. apply getIf_iff. auto.
    + apply nth_error_None in Q. lia.
  - intros [o G0]. apply getIf_iff in G0. split; [eapply nth_lt; eauto|congruence].
Qed.

(** ** splitting histories *)
Lemma split_filter k m : forall log l1 w tid r l2, Forall2 (same_call m) (filter (of_if k) log) (l1 ++ EvFit w tid r :: l2) ->
  exists L1 L2, log = L1 ++ SFit k w tid r :: L2 /\ Forall2 (same_call m) (filter (of_if k) L1) l1
    /\ Forall2 (same_call m) (filter (of_if k) L2) l2.
Proof.
  induction log as [|e log IH]; intros l1 w tid r l2 F; cbn [filter] in F.
  - inversion F as [Q|]. destruct l1; discriminate.
  - destruct (of_if k e) eqn:Q.
    + destruct l1 as [|f l1].
      * inversion F as [|? ? ? ? S F']; subst. inversion S; subst. cbn in Q. apply Nat.eqb_eq in Q. subst.
        exists [], log. split; auto. split; [constructor|auto].
      * inversion F as [|? ? ? ? S F']; subst. destruct (IH _ _ _ _ _ F') as (L1 & L2 & -> & A & B).
        exists (e :: L1), L2. split; auto. cbn. rewrite Q. split; auto.
    + destruct (IH _ _ _ _ _ F) as (L1 & L2 & -> & A & B). exists (e :: L1), L2. cbn. rewrite Q. auto.
Qed.

Lemma split_log k m : forall L1 w tid r L2 flog, Forall2 (same_call m) (filter (of_if k) (L1 ++ SFit k w tid r :: L2)) flog ->
  exists l1 l2, flog = l1 ++ EvFit w tid r :: l2 /\ Forall2 (same_call m) (filter (of_if k) L1) l1
    /\ Forall2 (same_call m) (filter (of_if k) L2) l2.
Proof.
  intros L1 w tid r L2 flog F. rewrite filter_app in F. cbn in F. rewrite Nat.eqb_refl in F.
  apply Forall2_app_inv_l in F. destruct F as (l1 & l2 & F1 & F2 & ->).
  inversion F2 as [|? y ? l2' S F3]; subst. inversion S; subst. exists l1, l2'. auto.
Qed.

Lemma no_fit_filter k m L l : Forall2 (same_call m) (filter (of_if k) L) l ->
  (no_fit l <-> forall w tid r, ~ In (SFit k w tid r) L).
Proof.
  revert l. induction L as [|e L IH]; intros l F; cbn [filter] in F.
  - inversion F. split; intros _ ? ? ? [].
  - destruct (of_if k e) eqn:Q.
    + inversion F as [|? f ? l' S F']; subst. specialize (IH _ F'). split.
      * intros N w tid r [->|J].
        { inversion S; subst. eapply N. left. reflexivity. }
        { apply IH in J; auto. intros w0 t0 r0 J0. eapply N. right. eauto. }
      * intros N w tid r [->|J].
        { inversion S; subst. cbn in Q. apply Nat.eqb_eq in Q. subst. eapply N. left. reflexivity. }
        { eapply IH; eauto. intros w0 t0 r0 J0. eapply N. right. eauto. }
    + rewrite (IH _ F). split; intros N w tid r J.
      * destruct J as [->|J]; [cbn in Q; rewrite Nat.eqb_refl in Q; discriminate|]. eapply N; eauto.
      * eapply N. right. eauto.
Qed.

Lemma get_filter k m L l : Forall2 (same_call m) (filter (of_if k) L) l ->
  (forall w label b, In (SGet k w label (Ok b)) L -> exists a, In (EvGet w label (Ok a)) l /\ nth_error m a = Some b)
  /\ (forall w label a, In (EvGet w label (Ok a)) l -> exists b, In (SGet k w label (Ok b)) L /\ nth_error m a = Some b).
Proof.
  revert l. induction L as [|e L IH]; intros l F; cbn [filter] in F.
  - inversion F. split; intros ? ? ? [].
  - destruct (of_if k e) eqn:Q.
    + inversion F as [|? f ? l' S F']; subst. destruct (IH _ F') as [A B]. split.
      * intros w label b [->|J].
        { inversion S; subst. exists a. split; auto. left. auto. }
        { destruct (A _ _ _ J) as (a & J' & M). exists a. split; auto. right. auto. }
      * intros w label a [->|J].
        { inversion S; subst. exists b. cbn in Q. apply Nat.eqb_eq in Q. subst. split; auto. left. auto. }
        { destruct (B _ _ _ J) as (b & J' & M). exists b. split; auto. right. auto. }
    + destruct (IH _ F) as [A B]. split.
      * intros w label b [->|J]; [cbn in Q; rewrite Nat.eqb_refl in Q; discriminate|]. eauto.
      * intros w label a J. destruct (B _ _ _ J) as (b & J' & M). exists b. split; auto. right. auto.
Qed.

(** Each interface behaves as if it were alone: its calls and their outcomes are
    those of an interface of Fit.v (about which the other properties are), up to
    the addresses of results, which [m] translates.  Its results are there
    exactly as long as that interface has them, and until it is destroyed. *)
Theorem C67_refinement : forall E G log s k, shist E G log s -> In (SNew k) log ->
  exists flog st m, fhist E G flog st /\ Forall2 (same_call m) (filter (of_if k) log) flog
    /\ NoDup m /\ length m = length (fs_heap st)
    /\ (In (SDel k) log -> forall b, In b m -> freed s b)
    /\ (~ In (SDel k) log ->
         (forall a b, nth_error m a = Some b ->
            (forall fr, holds st a fr <-> there s b (KRes fr)) /\ (deleted st a <-> freed s b))
         /\ (forall w tid, snd (fitIf G w s k tid) = snd (fit G w st tid))
         /\ (forall w label, same_kind (snd (getRes E G w s k label)) (snd (getResults E G w st label)))).
Proof.
  intros E G log s k H N. assert (I := hist_hinv _ _ _ _ H). destruct (hi_new _ _ _ _ I k) as [Nw _]. specialize (Nw N).
  destruct (nth_error (sy_ifs s) k) as [x|] eqn:Nk; [|apply nth_error_None in Nk; lia].
  destruct (hi_ref _ _ _ _ I _ _ Nk) as (flog & st & m & A1 & A2 & A3 & A4 & A5 & A6).
  exists flog, st, m. split; auto. split; auto. split; auto. split; auto. split.
  - intros D. apply (hi_del _ _ _ _ I) in D. rewrite Nk in D. injection D as ->. exact A6.
  - intros D. destruct x as [o|]; [|exfalso; apply D; apply (hi_del _ _ _ _ I); auto]. cbn [related] in A6.
    assert (G0 : getIf s k = Some o) by (apply getIf_iff; auto). split; [|split].
    + intros a b M. assert (C := co_heap _ _ _ _ A6 _ _ M). unfold holds, there, deleted, freed.
      destruct (nth_error (fs_heap st) a) as [[fr|]|]; [| |contradiction]; rewrite C; split; intros; split; congruence.
    + intros w tid. destruct (fitIf G w s k tid) as [s' r] eqn:F.
      destruct (fit_corr G w s k tid o st m s' r (hi_inv _ _ _ _ I) G0 A6 A3 A5 F) as (st' & -> & _). reflexivity.
    + intros w label. destruct (getRes E G w s k label) as [s' r] eqn:F.
      destruct (get_corr E G w s k label o st m s' r (hi_inv _ _ _ _ I) G0 A6 A3 A4 A5 F) as (st' & r' & m' & -> & R & _).
      cbn. unfold same_kind. destruct r, r'; auto.
Qed.
Print Assumptions C67_refinement.

(** No object is freed twice or used after it was freed: destroying an interface is
    defined exactly if it exists, and so is a fit, except for what the trajectory
    itself may cause. *)
Theorem C67_defined : forall E G log s k, shist E G log s ->
  (alive log k -> snd (delIf s k) = Ok tt) /\ (~ alive log k -> snd (delIf s k) = UB)
  /\ forall w tid, (snd (fitIf G w s k tid) = UB <->
       ~ alive log k \/ w tid = None \/ exists t, w tid = Some t /\ makePoints (tr_elems t) = UB).
Proof.
  intros E G log s k H. assert (I := hist_hinv _ _ _ _ H). assert (A := alive_get _ _ _ _ k H). split; [|split].
  - intros L. apply A in L. destruct L as [o G0]. destruct (del_ok s k o (hi_inv _ _ _ _ I) G0) as (h' & -> & _). auto.
  - intros L. unfold delIf. destruct (getIf s k) as [o|] eqn:G0; auto. exfalso. apply L. apply A. eauto.
  - intros w tid. destruct (getIf s k) as [o|] eqn:G0.
    + assert (Nk := proj1 (getIf_iff _ _ _) G0).
      destruct (hi_ref _ _ _ _ I _ _ Nk) as (flog & st & m & A1 & A2 & A3 & A4 & A5 & A6).
      destruct (fitIf G w s k tid) as [s' r] eqn:F.
      destruct (fit_corr G w s k tid o st m s' r (hi_inv _ _ _ _ I) G0 A6 A3 A5 F) as (st' & Ff & _). cbn [snd].
      assert (L : alive log k) by (apply A; eauto). unfold fit in Ff. cbv zeta in Ff.
      destruct (w tid) as [t|].
      * destruct (makePoints (tr_elems t)) as [points| | | |] eqn:Mp.
        2-5 : injection Ff as _ <-; split; [intros Q; first [discriminate|right; right; exists t; auto]|intros [Q|[Q|(t' & Q & Q')]]; congruence].
        destruct (gbl_fit G points) as [rv [[chi2 ndf] lost]]. injection Ff as _ <-. split; [discriminate|].
        intros [Q|[Q|(t' & Q & Q')]]; [contradiction|discriminate|]. injection Q as <-. congruence.
      * injection Ff as _ <-. split; auto.
    + unfold fitIf. rewrite G0. cbn. split; auto. intros _. left. rewrite A. intros [o Q]. congruence.
Qed.
Print Assumptions C67_defined.

Lemma owned_res o a : In a (owned o) <-> a = io_mille o \/ io_traj o = Some a \/ In a (map snd (io_results o)).
Proof.
  unfold owned, holdings. cbn [In]. rewrite in_app_iff. destruct (io_traj o) as [g|]; cbn [In]; intuition congruence.
Qed.

Lemma last_fit_unique {A : Type} (P : A -> Prop) (l1 l1' l2 l2' : list A) x x' :
  l1 ++ x :: l2 = l1' ++ x' :: l2' -> P x -> P x' -> (forall y, P y -> ~ In y l2) -> (forall y, P y -> ~ In y l2') ->
  x = x' /\ l2 = l2'.
Proof.
  revert l1'. induction l1 as [|y l1 IH]; intros [|y' l1'] Q Px Px' N N'; cbn in Q.
  - injection Q as -> ->. auto.
  - injection Q as -> ->. exfalso. eapply N; [exact Px'|]. apply in_or_app. right. left. auto.
  - injection Q as -> <-. exfalso. eapply N'; [exact Px|]. apply in_or_app. right. left. auto.
  - injection Q as _ Q. eauto.
Qed.

Lemma since_corr log k m flog l1 w tid r l2 : Forall2 (same_call m) (filter (of_if k) log) flog ->
  flog = l1 ++ EvFit w tid r :: l2 -> no_fit l2 ->
  exists L2, since_fit log k w tid r L2 /\ Forall2 (same_call m) (filter (of_if k) L2) l2.
Proof.
  intros F -> N. destruct (split_filter _ _ _ _ _ _ _ _ F) as (L1 & L2 & -> & A & B). exists L2. split; auto.
  split; eauto. intros w' t' r'. eapply no_fit_filter; eauto.
Qed.

Lemma since_unique log k w tid r L w' tid' r' L' : since_fit log k w tid r L -> since_fit log k w' tid' r' L' ->
  w = w' /\ tid = tid' /\ r = r' /\ L = L'.
Proof.
  intros [[l1 ->] N] [[l1' Q] N'].
  destruct (last_fit_unique (fun e => exists w t r, e = SFit k w t r) _ _ _ _ _ _ Q) as [A B]; eauto.
  - intros y (a & b & c & ->). auto.
  - intros y (a & b & c & ->). auto.
  - injection A as -> -> ->. auto.
Qed.

(** what an existing interface owns *)
Lemma owned_since E G log s k o : shist E G log s -> getIf s k = Some o ->
  (io_traj o = None /\ io_results o = [] /\ ~ fitted log k)
  \/ exists g points w tid b L2 t, io_traj o = Some g /\ there s g (KGbl points) /\ since_fit log k w tid (Ok b) L2
       /\ w tid = Some t /\ makePoints (tr_elems t) = Ok points
       /\ (forall a w' label, In (SGet k w' label (Ok a)) L2 -> In a (map snd (io_results o)))
       /\ (forall a, In a (map snd (io_results o)) -> exists w' label t' fr, In (SGet k w' label (Ok a)) L2
             /\ w' tid = Some t' /\ there s a (KRes fr) /\ is_result E G points t' label fr).
Proof.
  intros H G0. assert (I := hist_hinv _ _ _ _ H). assert (Nk := proj1 (getIf_iff _ _ _) G0).
  destruct (hi_ref _ _ _ _ I _ _ Nk) as (flog & st & m & A1 & A2 & A3 & A4 & A5 & A6). cbn [related] in A6.
  assert (R := co_res _ _ _ _ A6). assert (T := co_traj _ _ _ _ A6). assert (Hp := co_heap _ _ _ _ A6).
  assert (V := inv_hist _ _ _ _ A1).
  destruct V as (_ & _ & _ & _ & _ & [(V1 & V2 & _ & V3)|[(l1 & w & tid & V1 & V2 & V3)|V]]).
  - left. rewrite V3 in T. rewrite V2 in R. inversion R as [Q|]. destruct (io_traj o); [contradiction|]. split; auto. split; auto.
    intros (w & tid & b & L2 & [L1 ->] & _). destruct (split_log _ _ _ _ _ _ _ _ A2) as (l1 & l2 & E1 & _).
    rewrite V1 in E1. destruct l1; discriminate.
  - left. rewrite V3 in T. rewrite V2 in R. inversion R as [Q|]. destruct (io_traj o); [contradiction|]. split; auto. split; auto.
    intros (w' & tid' & b & L2 & S).
    destruct (since_corr _ _ _ _ l1 w tid Throw [] A2 V1) as (L & S' & _); [intros ? ? ? []|].
    destruct (since_unique _ _ _ _ _ _ _ _ _ _ S S') as (_ & _ & Q' & _). discriminate.
  - right. destruct V as (l1 & w & tid & t & points & rv & chi2 & ndf & lost & l2 & V1 & V2 & V3 & V4 & V5 & V6 & V7 & _ & _ & _ & V8 & V9).
    rewrite V6 in T. destruct (io_traj o) as [g|]; [|contradiction].
    destruct (since_corr _ _ _ _ _ _ _ _ _ A2 V1 V2) as (L2 & S & F).
    exists g, points, w, tid, (Z.eqb rv 0), L2, t. split; auto. split; auto. split; auto. split; auto. split; auto.
    destruct (get_filter _ _ _ _ F) as [F1 F2]. split.
    + intros b w' label J. destruct (F1 _ _ _ J) as (a & J' & M). apply V8 in J'.
      refine (proj2 (corr_holdings _ _ _ _ a b A6 M) _). apply in_map_iff. exists (label, a). auto.
    + intros b J. assert (X : exists label a, In (label, a) (if_results (fs_if st)) /\ nth_error m a = Some b).
      { clear - R J. induction R as [|[z b1] [z' a1] l l' [A B] R IH]; cbn [map In snd] in J; [tauto|].
        cbn in A, B. destruct J as [<-|J]; [exists z', a1; split; [left|]; auto|].
        destruct (IH J) as (la & a & J' & M). exists la, a. split; [right|]; auto. }
      destruct X as (label & a & J' & M). destruct (V9 _ _ J') as (w1 & t1 & fr & J1 & W1 & Hl & Is).
      destruct (F2 _ _ _ J1) as (b' & J2 & M'). rewrite M in M'. injection M' as <-.
      exists w1, label, t1, fr. split; auto. split; auto. split; auto.
      specialize (Hp _ _ M). unfold holds in Hl. rewrite Hl in Hp. exact Hp.
Qed.

(** What is allocated after any history: one Mille record for each interface that
    exists, the GBL trajectory of its latest fit if that returned, and the results
    handed out since, which are those of that fit. *)
Theorem C67_live : forall E G log s, shist E G log s ->
  exists mille gbl : nat -> nat,
    (forall j k, alive log j -> alive log k -> mille j = mille k -> j = k)
    /\ (forall j k, alive log j -> alive log k -> fitted log j -> fitted log k -> gbl j = gbl k -> j = k)
    /\ (forall a, (exists c, there s a c) <->
        (exists k, alive log k /\ a = mille k) \/ (exists k, alive log k /\ fitted log k /\ a = gbl k)
        \/ (exists k w tid b l2 w' label, alive log k /\ since_fit log k w tid (Ok b) l2 /\ In (SGet k w' label (Ok a)) l2))
    /\ (forall k, alive log k -> there s (mille k) KMille)
    /\ (forall k w tid b l2, alive log k -> since_fit log k w tid (Ok b) l2 ->
          exists t points, w tid = Some t /\ makePoints (tr_elems t) = Ok points /\ there s (gbl k) (KGbl points))
    /\ (forall k w tid b l2 t points w' label a, alive log k -> since_fit log k w tid (Ok b) l2 -> w tid = Some t ->
          makePoints (tr_elems t) = Ok points -> In (SGet k w' label (Ok a)) l2 ->
          exists w1 label1 t' fr, In (SGet k w1 label1 (Ok a)) l2 /\ w1 tid = Some t' /\ there s a (KRes fr)
            /\ is_result E G points t' label1 fr).
Proof.
  intros E G log s H. assert (I := hist_hinv _ _ _ _ H). assert (Si := hi_inv _ _ _ _ I).
  assert (A := fun k => alive_get _ _ _ _ k H).
  exists (fun k => match getIf s k with Some o => io_mille o | None => O end),
         (fun k => match getIf s k with Some o => match io_traj o with Some g => g | None => O end | None => O end).
  split; [|split; [|split; [|split; [|split]]]].
  - intros j k Aj Ak Q. apply A in Aj. apply A in Ak. destruct Aj as [oj Gj], Ak as [ok Gk]. rewrite Gj, Gk in Q.
    apply (si_disj _ Si j k (io_mille oj)); eexists; split; eauto; apply owned_res; auto.
  - intros j k Aj Ak Fj Fk Q. apply A in Aj. apply A in Ak. destruct Aj as [oj Gj], Ak as [ok Gk]. rewrite Gj, Gk in Q.
    destruct (owned_since _ _ _ _ _ _ H Gj) as [(_ & _ & N)|(gj & ? & ? & ? & ? & ? & ? & Tj & _)]; [contradiction|].
    destruct (owned_since _ _ _ _ _ _ H Gk) as [(_ & _ & N)|(gk & ? & ? & ? & ? & ? & ? & Tk & _)]; [contradiction|].
    rewrite Tj, Tk in Q. subst gk.
    apply (si_disj _ Si j k gj); eexists; split; eauto; apply owned_res; auto.
  - intros a. split.
    + intros [c T]. destruct (si_live _ Si _ _ T) as (k & o & G0 & J). assert (L : alive log k) by (apply A; eauto).
      apply owned_res in J. destruct J as [->|J].
      { left. exists k. rewrite G0. auto. }
      right. destruct (owned_since _ _ _ _ _ _ H G0) as [(N1 & N2 & _)|(g & points & w & tid & b & L2 & t & O1 & O2 & O3 & O4 & O5 & O6 & O7)].
      { exfalso. rewrite N1, N2 in J. destruct J as [J|[]]. discriminate. }
      destruct J as [J|J].
      * left. exists k. rewrite G0, J. split; auto. split; auto. exists w, tid, b, L2. auto.
      * right. destruct (O7 _ J) as (w' & label & t' & fr & J1 & _). exists k, w, tid, b, L2, w', label. auto.
    + intros [(k & L & ->)|[(k & L & F & ->)|(k & w & tid & b & l2 & w' & label & L & S & J)]];
        apply A in L; destruct L as [o G0]; try rewrite G0; destruct (si_typed _ Si _ _ G0) as [Ty _].
      * destruct Ty as [T1 _]. eexists. exact T1.
      * destruct (owned_since _ _ _ _ _ _ H G0) as [(_ & _ & N)|(g & p' & w' & tid' & b' & L2 & t' & O1 & O2 & _)]; [contradiction|].
        rewrite O1. eauto.
      * destruct (owned_since _ _ _ _ _ _ H G0) as [(_ & _ & N)|(g & p' & w1 & tid' & b' & L2 & t' & O1 & O2 & O3 & O4 & O5 & O6 & O7)].
        { exfalso. apply N. exists w, tid, b, l2. auto. }
        destruct (since_unique _ _ _ _ _ _ _ _ _ _ S O3) as (_ & _ & _ & <-).
        destruct (O7 _ (O6 _ _ _ J)) as (w2 & label2 & t2 & fr & _ & _ & Q & _). eauto.
  - intros k L. apply A in L. destruct L as [o G0]. rewrite G0. destruct (si_typed _ Si _ _ G0) as [(T1 & _) _]. exact T1.
  - intros k w tid b l2 L S. apply A in L. destruct L as [o G0]. rewrite G0.
    destruct (owned_since _ _ _ _ _ _ H G0) as [(_ & _ & N)|(g & p' & w' & tid' & b' & L2 & t' & O1 & O2 & O3 & O4 & O5 & _)].
    { exfalso. apply N. exists w, tid, b, l2. auto. }
    destruct (since_unique _ _ _ _ _ _ _ _ _ _ S O3) as (<- & <- & _ & _). rewrite O1. eauto.
  - intros k w tid b l2 t points w' label a L S W P J. apply A in L. destruct L as [o G0].
    destruct (owned_since _ _ _ _ _ _ H G0) as [(_ & _ & N)|(g & p' & w1 & tid' & b' & L2 & t' & O1 & O2 & O3 & O4 & O5 & O6 & O7)].
    { exfalso. apply N. exists w, tid, b, l2. auto. }
    destruct (since_unique _ _ _ _ _ _ _ _ _ _ S O3) as (<- & <- & _ & <-). assert (p' = points) by congruence. subst p'.
    destruct (O7 _ (O6 _ _ _ J)) as (w1 & label1 & t1 & fr & Q). exists w1, label1, t1, fr. exact Q.
Qed.
Print Assumptions C67_live.

(** Once every interface is destroyed, nothing is left. *)
Theorem C67_all_freed : forall E G log s, shist E G log s -> (forall k, In (SNew k) log -> In (SDel k) log) ->
  forall a c, ~ there s a c.
Proof.
  intros E G log s H N a c T. assert (I := hist_hinv _ _ _ _ H). destruct (si_live _ (hi_inv _ _ _ _ I) _ _ T) as (k & o & G0 & _).
  destruct (proj2 (alive_get _ _ _ _ k H)) as [L D]; eauto.
Qed.
Print Assumptions C67_all_freed.

Lemma del_frame s k s' r : sinv s -> delIf s k = (s', r) ->
  forall a, (a < length (sy_heap s))%nat -> ~ owns s k a -> nth_error (sy_heap s') a = nth_error (sy_heap s) a.
Proof.
  intros I D a L N. destruct (getIf s k) as [o|] eqn:G0.
  - destruct (del_ok s k o I G0) as (h' & Q & W & _). rewrite D in Q. injection Q as -> ->. cbn.
    destruct W as (_ & _ & W). apply W. intros J. apply N. exists o. auto.
  - unfold delIf in D. rewrite G0 in D. injection D as <- _. auto.
Qed.

(** addresses of results *)
Lemma result_addr E G log s j w label a : shist E G log s -> In (SGet j w label (Ok a)) log ->
  (a < length (sy_heap s))%nat /\ forall k, k <> j -> ~ owns s k a.
Proof.
  intros H J. assert (I := hist_hinv _ _ _ _ H). assert (L : (j < length (sy_ifs s))%nat).
  { eapply (hi_old _ _ _ _ I); eauto. cbn. apply Nat.eqb_refl. }
  destruct (nth_error (sy_ifs s) j) as [x|] eqn:Nj; [|apply nth_error_None in Nj; lia].
  destruct (hi_ref _ _ _ _ I _ _ Nj) as (flog & st & m & A1 & A2 & A3 & A4 & A5 & A6).
  destruct (get_filter _ _ _ _ A2) as [F1 _]. destruct (F1 _ _ _ J) as (a' & J' & M).
  split; [apply A5; eapply nth_error_In; eauto|]. intros k N (o & G0 & Jo).
  destruct (si_typed _ (hi_inv _ _ _ _ I) _ _ G0) as [Ty _]. destruct (typed_live _ _ _ Ty Jo) as [c C].
  destruct x as [oj|]; cbn [related] in A6.
  - assert (Hp := co_heap _ _ _ _ A6 _ _ M). destruct (nth_error (fs_heap st) a') as [[fr|]|] eqn:Q; [|congruence|contradiction].
    assert (V := inv_hist _ _ _ _ A1). destruct V as (_ & _ & _ & V & _). specialize (V _ _ Q).
    apply N. eapply (si_disj _ (hi_inv _ _ _ _ I) k j a); [exists o; auto|]. exists oj. split; [apply getIf_iff; auto|].
    apply owned_res. right. right. eapply corr_holdings; eauto.
  - specialize (A6 a (nth_error_In _ _ M)). congruence.
Qed.

(** Whatever is done with another interface, also if it ends in an exception, the
    results of an interface stay as they are. *)
Theorem C67_isolation : forall E G log s j k w0 label0 a, shist E G log s -> j <> k -> In (SGet j w0 label0 (Ok a)) log ->
  nth_error (sy_heap (fst (newIf s))) a = nth_error (sy_heap s) a
  /\ (forall w tid, nth_error (sy_heap (fst (fitIf G w s k tid))) a = nth_error (sy_heap s) a)
  /\ (forall w label, nth_error (sy_heap (fst (getRes E G w s k label))) a = nth_error (sy_heap s) a)
  /\ nth_error (sy_heap (fst (delIf s k))) a = nth_error (sy_heap s) a.
Proof.
  intros E G log s j k w0 label0 a H N J. destruct (result_addr _ _ _ _ _ _ _ _ H J) as [La Own]. specialize (Own k ltac:(auto)).
  assert (I := hist_hinv _ _ _ _ H). assert (Si := hi_inv _ _ _ _ I). split; [|split; [|split]].
  - cbn. apply nth_error_app1. auto.
  - intros w tid. destruct (fitIf G w s k tid) as [s' r] eqn:F. cbn [fst]. destruct (getIf s k) as [o|] eqn:G0.
    + destruct (hi_ref _ _ _ _ I _ _ (proj1 (getIf_iff _ _ _) G0)) as (flog & st & m & A1 & A2 & A3 & A4 & A5 & A6).
      destruct (fit_corr G w s k tid o st m s' r Si G0 A6 A3 A5 F) as (_ & _ & _ & _ & _ & _ & _ & _ & Fr).
      apply Fr; auto. intros Jo. apply Own. exists o. auto.
    + unfold fitIf in F. rewrite G0 in F. injection F as <- _. auto.
  - intros w label. destruct (getRes E G w s k label) as [s' r] eqn:F. cbn [fst]. destruct (getIf s k) as [o|] eqn:G0.
    + destruct (hi_ref _ _ _ _ I _ _ (proj1 (getIf_iff _ _ _) G0)) as (flog & st & m & A1 & A2 & A3 & A4 & A5 & A6).
      destruct (get_corr E G w s k label o st m s' r Si G0 A6 A3 A4 A5 F) as (_ & _ & _ & _ & _ & _ & _ & _ & _ & _ & _ & _ & _ & _ & Fr).
      apply Fr; auto. intros Jo. apply Own. exists o. auto.
    + unfold getRes in F. rewrite G0 in F. injection F as <- _. auto.
  - destruct (delIf s k) as [s' r] eqn:F. eapply del_frame; eauto.
Qed.
Print Assumptions C67_isolation.

(** The next fit of the interface, or its destruction, frees them. *)
Theorem C67_discarded : forall E G k l w label a m e n s,
  shist E G (l ++ SGet k w label (Ok a) :: m ++ e :: n) s ->
  (exists w' tid r, e = SFit k w' tid r) \/ e = SDel k -> freed s a.
Proof.
  intros E G k l w label a m0 e n s H De. assert (I := hist_hinv _ _ _ _ H).
  assert (L : (k < length (sy_ifs s))%nat).
  { eapply (hi_old _ _ _ _ I (SGet k w label (Ok a))); [apply in_or_app; right; left; auto|]. cbn. apply Nat.eqb_refl. }
  apply (hi_new _ _ _ _ I) in L. destruct (C67_refinement _ _ _ _ k H L) as (flog & st & m & A1 & A2 & A3 & A4 & A5 & A6).
  assert (J : In (SGet k w label (Ok a)) (l ++ SGet k w label (Ok a) :: m0 ++ e :: n)) by (apply in_or_app; right; left; auto).
  destruct (get_filter _ _ _ _ A2) as [F1 _]. destruct (F1 _ _ _ J) as (a' & J' & M). assert (Im := nth_error_In _ _ M).
  destruct (in_dec Nat.eq_dec k (flat_map (fun e => match e with SDel j => [j] | _ => [] end) (l ++ SGet k w label (Ok a) :: m0 ++ e :: n))) as [D|D].
  - apply A5; auto. apply in_flat_map in D. destruct D as (x & X & Y). destruct x; cbn in Y; try tauto. destruct Y as [<-|[]]. auto.
  - assert (D' : ~ In (SDel k) (l ++ SGet k w label (Ok a) :: m0 ++ e :: n)).
    { intros X. apply D. apply in_flat_map. exists (SDel k). split; auto. left. auto. }
    destruct De as [(w' & tid & r & Qe)|Qe]; subst e.
    2 : { exfalso. apply D'. apply in_or_app. right. right. apply in_or_app. right. left. auto. }
    destruct (A6 D') as (A7 & _). apply (A7 _ _ M). clear A7 A6 A5 D D'.
    replace (l ++ SGet k w label (Ok a) :: m0 ++ SFit k w' tid r :: n)
      with ((l ++ SGet k w label (Ok a) :: m0) ++ SFit k w' tid r :: n) in A2 by (rewrite <- app_assoc; reflexivity).
    destruct (split_log _ _ _ _ _ _ _ _ A2) as (l1 & l2 & -> & B1 & B2).
    destruct (get_filter _ _ _ _ B1) as [F2 _]. destruct (F2 w label a) as (a2 & J2 & M2).
    { apply in_or_app. right. left. auto. }
    assert (a2 = a') by (eapply nodup_nth; eauto). subst a2.
    apply in_split in J2. destruct J2 as (x & y & ->). rewrite <- app_assoc in A1. cbn in A1.
    eapply C43_discarded; eauto.
Qed.
Print Assumptions C67_discarded.

(** The checks behind these statements are strict: deleting anything but a live
    object of the right type is undefined, and deleting frees just that object. *)
Theorem C67_delete_strict : forall h a,
  let effect (r : res fheap) (live : Prop) :=
    (live <-> exists h', r = Ok h') /\ (~ live <-> r = UB)
    /\ (forall h', r = Ok h' -> nth_error h' a = Some None /\ length h' = length h
          /\ forall b, b <> a -> nth_error h' b = nth_error h b) in
  effect (freeMille h a) (nth_error h a = Some (Some KMille))
  /\ effect (freeGbl h a) (exists points, nth_error h a = Some (Some (KGbl points)))
  /\ effect (freeRes h a) (exists fr, nth_error h a = Some (Some (KRes fr))).
Proof.
  intros h a effect.
  assert (W : forall c, nth_error h a = Some (Some c) -> nth_error (fclear h a) a = Some None
     /\ length (fclear h a) = length h /\ forall b, b <> a -> nth_error (fclear h a) b = nth_error h b).
  { intros c N. split; [|split; [apply fclear_length|]].
    - rewrite fclear_nth, Nat.eqb_refl, N. reflexivity.
    - intros b Hb. rewrite fclear_nth. destruct (Nat.eqb_spec b a); [contradiction|].
      destruct (Nat.eqb_spec a b); [congruence|reflexivity]. }
  assert (G : forall (r : res fheap) (P : Prop) c, nth_error h a = Some (Some c) -> P -> r = Ok (fclear h a) -> effect r P).
  { intros r P c N HP ->. unfold effect. split; [|split].
    - split; eauto.
    - split; [tauto|discriminate].
    - intros h' E. injection E as <-. apply (W c N). }
  assert (B : forall (r : res fheap) (P : Prop), ~ P -> r = UB -> effect r P).
  { intros r P HP ->. unfold effect. split; [|split].
    - split; [tauto|]. intros [h' E]. discriminate.
    - tauto.
    - discriminate. }
  unfold freeMille, freeGbl, freeRes, fcell.
  destruct (nth_error h a) as [[[|points|fr]|]|] eqn:N; (split; [|split]);
    first [ eapply G; [reflexivity| |reflexivity]; eauto
          | apply B; [|reflexivity]; try discriminate; intros [x F]; discriminate ].
Qed.
Print Assumptions C67_delete_strict.
