(** Histories of fit interfaces. *)
From Coq Require Import Reals List Bool ZArith Lia.
From Verif Require Import Num Vec Helix Isect Trans Material Traj Fit SpecFit FitFacts FitHeap SpecFitHeap FitHeapFacts PropFit.
Import ListNotations.

Definition related (h : fheap) (x : option ifobj) (st : fstate) (m : list nat) : Prop :=
  match x with Some o => corr h o st m | None => forall b, In b m -> nth_error h b = Some None end.

(** interface [k] after the calls [log], as one interface of Fit.v *)
Definition refined (E : env) (G : gbl) (log : list sev) (s : fsys) (k : nat) (x : option ifobj) : Prop :=
  exists flog st m, fhist E G flog st /\ Forall2 (same_call m) (filter (of_if k) log) flog
    /\ NoDup m /\ length m = length (fs_heap st) /\ (forall b, In b m -> (b < length (sy_heap s))%nat)
    /\ related (sy_heap s) x st m.

Record hinv (E : env) (G : gbl) (log : list sev) (s : fsys) : Prop := {
  hi_inv : sinv s;
  hi_new : forall k, In (SNew k) log <-> (k < length (sy_ifs s))%nat;
  hi_del : forall k, In (SDel k) log <-> nth_error (sy_ifs s) k = Some None;
  hi_old : forall e k, In e log -> of_if k e = true -> (k < length (sy_ifs s))%nat;
  hi_ref : forall k x, nth_error (sy_ifs s) k = Some x -> refined E G log s k x
}.

Lemma same_call_grow m m' e f : (forall a b, nth_error m a = Some b -> nth_error m' a = Some b) ->
  same_call m e f -> same_call m' e f.
Proof. intros H S. destruct S; constructor; auto. Qed.

(** what a step of [k] leaves alone for [j] *)
Lemma related_other s s' k j o x st m E G flog : sinv s -> getIf s k = Some o -> fhist E G flog st -> j <> k ->
  nth_error (sy_ifs s) j = Some x -> length m = length (fs_heap st) ->
  (forall b, In b m -> (b < length (sy_heap s))%nat) ->
  (forall a, (a < length (sy_heap s))%nat -> ~ In a (owned o) -> nth_error (sy_heap s') a = nth_error (sy_heap s) a) ->
  related (sy_heap s) x st m -> related (sy_heap s') x st m.
Proof.
  intros I Gk H N Nj Ln Lm Fr R. destruct (si_typed _ I _ _ Gk) as [Tk _].
  assert (Dead : forall b, nth_error (sy_heap s) b = Some None -> nth_error (sy_heap s') b = Some None).
  { intros b D. rewrite Fr; auto; [eapply nth_lt; eauto|]. intros J. destruct (typed_live _ _ _ Tk J) as [c C]. congruence. }
  destruct x as [oj|]; cbn [related] in *; [|intros b J; auto].
  assert (Gj : getIf s j = Some oj) by (apply getIf_iff; auto).
  assert (Own : forall a c, In a (owned oj) -> nth_error (sy_heap s) a = Some c -> nth_error (sy_heap s') a = Some c).
  { intros a c J C. rewrite Fr; auto; [eapply nth_lt; eauto|]. intros J'. apply N. eapply (si_disj _ I j k a); eexists; eauto. }
  destruct R as [C1 C2 C3 C4 C5 C6 C7]. constructor; auto.
  - destruct (io_traj oj) as [g|] eqn:Eg, (if_traj (fs_if st)); auto. apply Own; auto.
    right. unfold holdings. rewrite Eg. left. auto.
  - intros a b M. assert (C := C7 _ _ M). destruct (nth_error (fs_heap st) a) as [[fr|]|] eqn:Na; auto.
    apply Own; auto. right. unfold holdings. apply in_or_app. right.
    destruct (inv_hist _ _ _ _ H) as (_ & _ & _ & L2 & _).
    assert (J : In a (map snd (if_results (fs_if st)))) by (apply (L2 a fr); exact Na).
    clear - C1 J M. revert J. induction C1 as [|[z b1] [z' a1] l l' [A B] C1 IH]; cbn [map In snd]; [tauto|].
    cbn in B. intros [<-|J]; [left; congruence|auto].
Qed.

Lemma put_same {A : Type} (l : list A) : forall k x, nth_error l k = Some x -> put l k x = l.
Proof. induction l as [|y l IH]; intros [|k] x H; cbn in *; try discriminate; [congruence|]. f_equal. auto. Qed.

Lemma refined_call E G log s s' k o o' e : hinv E G log s -> getIf s k = Some o ->
  s' = setIf s k (Some o') (sy_heap s') -> sinv s' ->
  (length (sy_heap s) <= length (sy_heap s'))%nat ->
  (forall a, (a < length (sy_heap s))%nat -> ~ In a (owned o) -> nth_error (sy_heap s') a = nth_error (sy_heap s) a) ->
  (forall j, of_if j e = Nat.eqb k j) -> (forall j, e <> SNew j) -> (forall j, e <> SDel j) ->
  refined E G (log ++ [e]) s' k (Some o') -> hinv E G (log ++ [e]) s'.
Proof.
  intros [I1 I2 I3 I4 I5] Gk Es Is Ln Fr Eo En Ed R. assert (Nk := proj1 (getIf_iff _ _ _) Gk). assert (Lk := nth_lt _ _ _ Nk).
  assert (Ei : sy_ifs s' = put (sy_ifs s) k (Some o')) by (rewrite Es; auto).
  constructor; auto.
  - intros j. rewrite Ei, put_length, <- I2. split; intros J; [|apply in_or_app; auto].
    apply in_app_or in J. destruct J as [J|[J|[]]]; auto. exfalso. eapply En; eauto.
  - intros j. rewrite Ei, put_nth by auto. split.
    + intros J. apply in_app_or in J. destruct J as [J|[J|[]]]; [|exfalso; eapply Ed; eauto].
      apply I3 in J. destruct (Nat.eqb_spec j k) as [->|]; auto. congruence.
    + destruct (Nat.eqb_spec j k) as [->|]; [discriminate|]. intros J. apply in_or_app. left. apply I3. auto.
  - intros f j J Q. rewrite Ei, put_length. apply in_app_or in J. destruct J as [J|[<-|[]]]; [eapply I4; eauto|].
    rewrite Eo in Q. apply Nat.eqb_eq in Q. congruence.
  - intros j x Nj. rewrite Ei, put_nth in Nj by auto. destruct (Nat.eqb_spec j k) as [->|N].
    { injection Nj as <-. auto. }
    destruct (I5 _ _ Nj) as (flog & st & m & A1 & A2 & A3 & A4 & A5 & A6). exists flog, st, m. split; auto.
    split. { rewrite filter_app. cbn. rewrite Eo. destruct (Nat.eqb_spec k j); [congruence|]. rewrite app_nil_r. auto. }
    split; auto. split; auto. split; [intros b J; specialize (A5 _ J); lia|].
    eapply (related_other s s' k j o x st m); eauto.
Qed.

Lemma hist_hinv E G log s : shist E G log s -> hinv E G log s.
Proof.
  intros H. induction H as [|log s s' k H IH N|log s k w tid s' r H IH F Q|log s k w label s' r H IH F Q|log s k s' H IH F].
  - constructor.
    + constructor.
      * intros k o G0. unfold getIf in G0. destruct k; discriminate.
      * intros j k a (o & G0 & _). unfold getIf in G0. destruct j; discriminate.
      * intros a c C. unfold there in C. destruct a; discriminate.
    + intros k. cbn. lia.
    + intros k. cbn. split; [intros []|destruct k; discriminate].
    + intros e k [].
    + intros k x Q. destruct k; discriminate.
  - injection N as <- <-. destruct IH as [I1 I2 I3 I4 I5]. set (n := length (sy_ifs s)) in *.
    assert (Gt : forall j, getIf (Sys (sy_ifs s ++ [Some (IO (length (sy_heap s)) None None R0 0 R0 [])]) (sy_heap s ++ [Some KMille])) j
      = if Nat.eqb j n then Some (IO (length (sy_heap s)) None None R0 0 R0 []) else getIf s j).
    { intros j. unfold getIf. cbn [sy_ifs]. destruct (Nat.eqb_spec j n) as [->|Nj].
      - rewrite nth_error_app2; unfold n; [rewrite Nat.sub_diag|]; auto.
      - destruct (Nat.lt_ge_cases j n) as [L|L]; [rewrite nth_error_app1 by auto; auto|].
        assert (X : nth_error (sy_ifs s) j = None) by (apply nth_error_None; auto). rewrite X.
        assert (Y : nth_error (sy_ifs s ++ [Some (IO (length (sy_heap s)) None None R0 0 R0 [])]) j = None)
          by (apply nth_error_None; rewrite app_length; cbn; fold n; lia). rewrite Y. auto. }
    assert (Lt : forall j a, owns s j a -> (a < length (sy_heap s))%nat).
    { intros j a (oj & G0 & J). destruct (typed_live _ _ _ (proj1 (si_typed _ I1 _ _ G0)) J) as [c C]. eapply nth_lt; eauto. }
    assert (Old : forall a x, nth_error (sy_heap s) a = Some x -> nth_error (sy_heap s ++ [Some KMille]) a = Some x).
    { intros a x C. rewrite nth_error_app1; auto. eapply nth_lt; eauto. }
    assert (Nw : nth_error (sy_heap s ++ [Some KMille]) (length (sy_heap s)) = Some (Some KMille))
      by (rewrite nth_error_app2, Nat.sub_diag; auto).
    constructor.
    + constructor.
      * intros j o G0. rewrite Gt in G0. cbn [sy_heap]. destruct (Nat.eqb_spec j n) as [->|Nj].
        { injection G0 as <-. split; [split; [exact Nw|split; [discriminate|intros a []]]|repeat constructor; auto]. }
        destruct (si_typed _ I1 _ _ G0) as [(T1 & T2 & T3) Nd]. split; auto. split; [auto|]. split.
        { intros g Eg. destruct (T2 _ Eg) as [p P]. exists p. auto. }
        { intros a J. destruct (T3 _ J) as [f Hf]. exists f. auto. }
      * intros j l a (oj & Gj & Ij) (ol & Gl & Il). rewrite Gt in Gj, Gl.
        destruct (Nat.eqb_spec j n) as [->|Nj], (Nat.eqb_spec l n) as [->|Nl]; auto.
        { injection Gj as <-. destruct Ij as [<-|[]]. assert (X : owns s l (length (sy_heap s))) by (exists ol; auto).
          apply Lt in X. lia. }
        { injection Gl as <-. destruct Il as [<-|[]]. assert (X : owns s j (length (sy_heap s))) by (exists oj; auto).
          apply Lt in X. lia. }
        { eapply (si_disj _ I1); eexists; eauto. }
      * intros a c C. unfold there in C. cbn [sy_heap] in C. destruct (Nat.lt_ge_cases a (length (sy_heap s))) as [L|L].
        { rewrite nth_error_app1 in C by auto. destruct (si_live _ I1 _ _ C) as (j & o & G0 & J).
          exists j, o. rewrite Gt. split; auto. destruct (Nat.eqb_spec j n) as [->|]; auto.
          exfalso. apply getIf_iff in G0. apply nth_lt in G0. fold n in G0. lia. }
        { exists n. eexists. rewrite Gt, Nat.eqb_refl. split; [reflexivity|]. left. cbn.
          apply nth_lt in C. rewrite app_length in C. cbn in C. lia. }
    + intros j. cbn [sy_ifs]. rewrite app_length. cbn. fold n. split.
      * intros J. apply in_app_or in J. destruct J as [J|[J|[]]]; [apply I2 in J; lia|]. injection J as <-. lia.
      * intros L. apply in_or_app. destruct (Nat.eq_dec j n) as [->|]; [right; left; auto|]. left. apply I2. lia.
    + intros j. cbn [sy_ifs]. split.
      * intros J. apply in_app_or in J. destruct J as [J|[J|[]]]; [|discriminate]. apply I3 in J.
        rewrite nth_error_app1; auto. eapply nth_lt; eauto.
      * intros J. apply in_or_app. left. apply I3. destruct (Nat.lt_ge_cases j n) as [L|L].
        { rewrite nth_error_app1 in J; auto. }
        { rewrite nth_error_app2 in J by auto. fold n in J. destruct (j - n)%nat as [|[|]]; discriminate. }
    + intros e j J Q. cbn [sy_ifs]. rewrite app_length. cbn. fold n. apply in_app_or in J. destruct J as [J|[<-|[]]]; [|discriminate].
      assert (X := I4 _ _ J Q). lia.
    + intros j x Nj. cbn [sy_ifs] in Nj. destruct (Nat.lt_ge_cases j n) as [L|L].
      * rewrite nth_error_app1 in Nj by auto. destruct (I5 _ _ Nj) as (flog & st & m & A1 & A2 & A3 & A4 & A5 & A6).
        exists flog, st, m. split; auto. split; [rewrite filter_app; cbn; rewrite app_nil_r; auto|]. split; auto. split; auto.
        cbn [sy_heap]. split; [intros b J; specialize (A5 _ J); rewrite app_length; lia|].
        destruct x as [o|]; cbn [related] in *; [|auto].
        destruct A6 as [C1 C2 C3 C4 C5 C6 C7]. constructor; auto.
        { destruct (io_traj o), (if_traj (fs_if st)); auto. }
        { intros a b M. specialize (C7 _ _ M). destruct (nth_error (fs_heap st) a) as [[|]|]; auto. }
      * assert (j = n). { apply nth_lt in Nj. rewrite app_length in Nj. cbn in Nj. fold n in Nj. lia. } subst j.
        rewrite nth_error_app2 in Nj by auto. unfold n in Nj. rewrite Nat.sub_diag in Nj. injection Nj as <-.
        exists [], fs_start, []. split; [constructor|]. split.
        { rewrite filter_app. cbn. rewrite app_nil_r.
          assert (Z : filter (of_if n) log = []).
          { clear - I4. assert (X : forall e, In e log -> of_if n e = false).
            { intros e J. destruct (of_if n e) eqn:Q; auto. specialize (I4 _ _ J Q). unfold n in I4. lia. }
            clear I4. induction log as [|e log IH]; auto. cbn. rewrite X by (left; auto). apply IH. intros; apply X; right; auto. }
          unfold n in *. rewrite Z. constructor. }
        split; [constructor|]. split; auto. split; [intros b []|]. cbn [related]. constructor; cbn; auto.
        intros a b M. destruct a; discriminate.
  - assert (G0 : exists o, getIf s k = Some o).
    { unfold fitIf in F. destruct (getIf s k); eauto. injection F as <- <-. destruct Q as [[? Q]|Q]; discriminate. }
    destruct G0 as [o G0]. assert (Nk := proj1 (getIf_iff _ _ _) G0).
    destruct (hi_ref _ _ _ _ IH _ _ Nk) as (flog & st & m & A1 & A2 & A3 & A4 & A5 & A6). cbn [related] in A6.
    destruct (fit_corr G w s k tid o st m s' r (hi_inv _ _ _ _ IH) G0 A6 A3 A5 F)
      as (st' & Ff & Lf & o' & Es & Co & Is & Ln & Fr).
    apply (refined_call E G log s s' k o o'); auto; try discriminate.
    exists (flog ++ [EvFit w tid r]), st', m. split; [apply fh_fit with st; auto|].
    split. { rewrite filter_app. cbn. rewrite Nat.eqb_refl. apply Forall2_app; auto. repeat constructor. }
    split; auto. split; [congruence|]. split; [|exact Co]. intros b J. specialize (A5 _ J). lia.
  - assert (G0 : exists o, getIf s k = Some o).
    { unfold getRes in F. destruct (getIf s k); eauto. injection F as <- <-. destruct Q as [[? Q]|Q]; discriminate. }
    destruct G0 as [o G0]. assert (Nk := proj1 (getIf_iff _ _ _) G0).
    destruct (hi_ref _ _ _ _ IH _ _ Nk) as (flog & st & m & A1 & A2 & A3 & A4 & A5 & A6). cbn [related] in A6.
    destruct (get_corr E G w s k label o st m s' r (hi_inv _ _ _ _ IH) G0 A6 A3 A4 A5 F)
      as (st' & r' & m' & Ff & Rr & Mm & Nm & Lf & Lb & o' & Es & Co & Is & Ln & Fr).
    apply (refined_call E G log s s' k o o'); auto; try discriminate.
    assert (Gr : forall a b, nth_error m a = Some b -> nth_error m' a = Some b).
    { intros a b M. destruct Mm as [->| ->]; auto. rewrite nth_error_app1; auto. eapply nth_lt; eauto. }
    exists (flog ++ [EvGet w label r']), st', m'. split.
    { apply fh_get with st; auto. destruct Q as [[b ->]| ->]; destruct r'; try contradiction; eauto. }
    split.
    { rewrite filter_app. cbn. rewrite Nat.eqb_refl. apply Forall2_app.
      - clear - A2 Gr. induction A2; constructor; auto. eapply same_call_grow; eauto.
      - constructor; [|constructor]. destruct Q as [[b ->]| ->]; destruct r'; try contradiction; constructor; auto. }
    split; auto.
  - assert (G0 : exists o, getIf s k = Some o) by (unfold delIf in F; destruct (getIf s k); [eauto|discriminate]).
    destruct G0 as [o G0]. assert (Nk := proj1 (getIf_iff _ _ _) G0). assert (Lk := nth_lt _ _ _ Nk).
    destruct (del_ok s k o (hi_inv _ _ _ _ IH) G0) as (h' & D & W & Is). rewrite D in F. injection F as <-.
    destruct W as (W0 & W1 & W2). destruct IH as [I1 I2 I3 I4 I5].
    assert (Fr : forall a, (a < length (sy_heap s))%nat -> ~ In a (owned o) -> nth_error h' a = nth_error (sy_heap s) a) by auto.
    constructor; auto; cbn [setIf sy_ifs sy_heap].
    + intros j. rewrite put_length, <- I2. split; intros J; [|apply in_or_app; auto].
      apply in_app_or in J. destruct J as [J|[J|[]]]; auto. discriminate.
    + intros j. rewrite put_nth by auto. destruct (Nat.eqb_spec j k) as [->|Nj].
      * split; auto. intros _. apply in_or_app. right. left. auto.
      * rewrite <- I3. split; intros J; [|apply in_or_app; auto].
        apply in_app_or in J. destruct J as [J|[J|[]]]; auto. congruence.
    + intros e j J Q. rewrite put_length. apply in_app_or in J. destruct J as [J|[<-|[]]]; [eapply I4; eauto|discriminate].
    + intros j x Nj. rewrite put_nth in Nj by auto. destruct (Nat.eqb_spec j k) as [->|N].
      * injection Nj as <-. destruct (I5 _ _ Nk) as (flog & st & m & A1 & A2 & A3 & A4 & A5 & A6).
        exists flog, st, m. split; auto. split; [rewrite filter_app; cbn; rewrite app_nil_r; auto|]. split; auto. split; auto.
        cbn [setIf sy_heap]. split; [intros b J; rewrite W0; auto|]. cbn [related]. intros b J.
        apply In_nth_error in J. destruct J as [a M]. assert (C := co_heap _ _ _ _ A6 _ _ M).
        destruct (nth_error (fs_heap st) a) as [[fr|]|] eqn:Na; [| |contradiction].
        { apply W1. right. unfold holdings. apply in_or_app. right.
          destruct (inv_hist _ _ _ _ A1) as (_ & _ & _ & L2 & _).
          apply (proj2 (corr_holdings _ _ _ _ _ _ A6 M)). apply (L2 a fr). exact Na. }
        { rewrite W2; auto. intros J. destruct (typed_live _ _ _ (proj1 (si_typed _ I1 _ _ G0)) J) as [c Cc]. congruence. }
      * destruct (I5 _ _ Nj) as (flog & st & m & A1 & A2 & A3 & A4 & A5 & A6). exists flog, st, m. split; auto.
        split; [rewrite filter_app; cbn; rewrite app_nil_r; auto|]. split; auto. split; auto.
        cbn [setIf sy_heap]. split; [intros b J; specialize (A5 _ J); lia|].
        eapply (related_other s (setIf s k None h') k j o x st m); eauto.
Qed.
