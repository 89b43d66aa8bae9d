(** Proofs about the memory of fit interfaces. *)
From Coq Require Import Reals List Bool ZArith Lia.
From Verif Require Import Num Vec Helix Isect Trans Material Traj Fit SpecFit FitFacts FitHeap SpecFitHeap.
Import ListNotations.

(** ** heaps *)
Lemma fcell_iff h a c : fcell h a = Some c <-> nth_error h a = Some (Some c).
Proof. unfold fcell. destruct (nth_error h a) as [[x|]|]; split; intros H; try discriminate; congruence. Qed.

Lemma fclear_nth h : forall a b, nth_error (fclear h a) b =
  if Nat.eqb b a then (match nth_error h b with Some _ => Some None | None => None end) else nth_error h b.
Proof.
  induction h as [|x h IH]; intros a b; cbn [fclear].
  - destruct b; cbn; match goal with |- context [if ?c then _ else _] => destruct c end; auto.
  - destruct a, b; cbn; auto.
Qed.

Lemma fclear_length h : forall a, length (fclear h a) = length h.
Proof. induction h; intros []; cbn; auto. Qed.

(** exactly the objects in [l] are freed *)
Definition wiped (h h' : fheap) (l : list nat) : Prop :=
  length h' = length h /\ (forall a, In a l -> nth_error h' a = Some None)
  /\ (forall a, ~ In a l -> nth_error h' a = nth_error h a).

Lemma wiped_one h a c : nth_error h a = Some (Some c) -> wiped h (fclear h a) [a].
Proof.
  intros H. split; [apply fclear_length|]. split.
  - intros b [<-|[]]. rewrite fclear_nth, Nat.eqb_refl, H. auto.
  - intros b N. rewrite fclear_nth. destruct (Nat.eqb_spec b a); auto. subst. exfalso. apply N. left. auto.
Qed.

Lemma wiped_app h1 h2 h3 l1 l2 : wiped h1 h2 l1 -> wiped h2 h3 l2 -> wiped h1 h3 (l1 ++ l2).
Proof.
  intros (L1 & A1 & B1) (L2 & A2 & B2). split; [congruence|]. split.
  - intros a I. destruct (in_dec Nat.eq_dec a l2) as [J|J]; auto. rewrite B2 by auto.
    apply in_app_or in I. destruct I; [auto|contradiction].
  - intros a N. rewrite B2, B1; auto; intros I; apply N; apply in_or_app; auto.
Qed.

Definition res_at (h : fheap) (a : nat) : Prop := exists fr, nth_error h a = Some (Some (KRes fr)).
Definition gbl_at (h : fheap) (a : nat) : Prop := exists p, nth_error h a = Some (Some (KGbl p)).

Lemma freeResults_ok l : forall h, NoDup (map snd l) -> (forall a, In a (map snd l) -> res_at h a) ->
  exists h', freeResults h l = Ok h' /\ wiped h h' (map snd l).
Proof.
  induction l as [|[z a] l IH]; intros h N R; cbn [freeResults map snd].
  - exists h. split; auto. split; auto. split; auto. intros a [].
  - cbn in N. inversion N as [|? ? N1 N2]; subst.
    destruct (R a) as [fr H]; [left; auto|]. unfold freeRes. rewrite (proj2 (fcell_iff h a (KRes fr)) H). cbn [bind].
    assert (W := wiped_one _ _ _ H). destruct W as (W0 & W1 & W2).
    destruct (IH (fclear h a) N2) as (h' & F & W').
    { intros b I. destruct (R b) as [fr' H']; [right; auto|]. exists fr'. rewrite W2; auto. intros [<-|[]]. contradiction. }
    exists h'. split; auto. change (a :: map snd l) with ([a] ++ map snd l). eapply wiped_app; eauto. split; auto.
Qed.

Definition holdings (o : ifobj) : list nat := (match io_traj o with Some g => [g] | None => [] end) ++ map snd (io_results o).
Definition owned (o : ifobj) : list nat := io_mille o :: holdings o.

Definition typed (h : fheap) (o : ifobj) : Prop :=
  nth_error h (io_mille o) = Some (Some KMille)
  /\ (forall g, io_traj o = Some g -> gbl_at h g)
  /\ (forall a, In a (map snd (io_results o)) -> res_at h a).

Lemma typed_live h o a : typed h o -> In a (owned o) -> exists c, nth_error h a = Some (Some c).
Proof.
  intros (T1 & T2 & T3) [<-|I]; [eauto|]. unfold holdings in I. apply in_app_or in I. destruct I as [I|I].
  - destruct (io_traj o) as [g|]; [|destruct I]. destruct I as [<-|[]]. destruct (T2 g eq_refl) as [p P]. eauto.
  - destruct (T3 _ I) as [fr F]. eauto.
Qed.

Lemma nodup_app_r {A : Type} (l1 l2 : list A) : NoDup (l1 ++ l2) -> NoDup l2.
Proof. induction l1; cbn; auto. intros N. inversion N; auto. Qed.

Lemma clearObj_ok h o : typed h o -> NoDup (owned o) ->
  exists h', clearObj h o = Ok (h', IO (io_mille o) None None (io_chi2 o) (io_ndf o) (io_lost o) [])
    /\ wiped h h' (holdings o).
Proof.
  intros (T1 & T2 & T3) N. assert (Nh : NoDup (holdings o)) by (inversion N; auto). unfold clearObj.
  destruct (freeResults_ok (io_results o) h) as (h1 & F & W); auto.
  { unfold holdings in Nh. apply nodup_app_r in Nh. auto. }
  rewrite F. cbn [bind]. unfold holdings in *. destruct (io_traj o) as [g|].
  - cbn in Nh. inversion Nh as [|? ? N1 N2]; subst. destruct (T2 g eq_refl) as [p P].
    assert (P1 : nth_error h1 g = Some (Some (KGbl p))) by (destruct W as (_ & _ & W); rewrite W; auto).
    unfold freeGbl. rewrite (proj2 (fcell_iff _ _ _) P1). cbn [bind]. eexists. split; [reflexivity|].
    assert (X := wiped_app _ _ _ _ _ W (wiped_one _ _ _ P1)).
    destruct X as (X0 & X1 & X2). split; auto. split.
    + intros a I. apply X1. apply in_or_app. apply in_app_or in I. tauto.
    + intros a I. apply X2. intros J. apply I. apply in_or_app. apply in_app_or in J. tauto.
  - cbn [bind]. eexists. split; [reflexivity|]. auto.
Qed.

(** ** the objects of the program *)
Lemma put_nth {A : Type} (l : list A) : forall k x j, (k < length l)%nat ->
  nth_error (put l k x) j = if Nat.eqb j k then Some x else nth_error l j.
Proof.
  induction l as [|y l IH]; intros [|k] x [|j] H; cbn in *; try lia; auto.
  apply IH. lia.
Qed.
Lemma put_length {A : Type} (l : list A) : forall k x, length (put l k x) = length l.
Proof. induction l; intros []; cbn; auto. Qed.

Lemma getIf_iff s k o : getIf s k = Some o <-> nth_error (sy_ifs s) k = Some (Some o).
Proof. unfold getIf. destruct (nth_error (sy_ifs s) k) as [[x|]|]; split; intros H; try discriminate; congruence. Qed.

Lemma nth_lt {A : Type} (l : list A) k x : nth_error l k = Some x -> (k < length l)%nat.
Proof. intros H. apply nth_error_Some. rewrite H. discriminate. Qed.

Definition owns (s : fsys) (k : nat) (a : nat) : Prop := exists o, getIf s k = Some o /\ In a (owned o).

Record sinv (s : fsys) : Prop := {
  si_typed : forall k o, getIf s k = Some o -> typed (sy_heap s) o /\ NoDup (owned o);
  si_disj : forall j k a, owns s j a -> owns s k a -> j = k;
  si_live : forall a c, there s a c -> exists k, owns s k a
}.

(** a step of interface [k], from [o] to [x] *)
Lemma sinv_step s k o x h' : sinv s -> getIf s k = Some o ->
  (length (sy_heap s) <= length h')%nat ->
  (forall a, (a < length (sy_heap s))%nat -> ~ In a (owned o) -> nth_error h' a = nth_error (sy_heap s) a) ->
  (forall o', x = Some o' -> typed h' o' /\ NoDup (owned o')
     /\ forall a, In a (owned o') -> In a (owned o) \/ (length (sy_heap s) <= a)%nat) ->
  (forall a c, nth_error h' a = Some (Some c) -> In a (owned o) \/ (length (sy_heap s) <= a)%nat ->
     exists o', x = Some o' /\ In a (owned o')) ->
  sinv (setIf s k x h').
Proof.
  intros [I1 I2 I3] Gk Ln Fr Nw Lv. assert (Lk := nth_lt _ _ _ (proj1 (getIf_iff s k o) Gk)).
  assert (Gt : forall j, getIf (setIf s k x h') j = if Nat.eqb j k then x else getIf s j).
  { intros j. unfold getIf, setIf. cbn [sy_ifs]. rewrite put_nth by auto. destruct (Nat.eqb j k); auto. destruct x; auto. }
  assert (Lt : forall j a, owns s j a -> (a < length (sy_heap s))%nat).
  { intros j a (oj & G & I). destruct (typed_live _ _ _ (proj1 (I1 _ _ G)) I) as [c C]. eapply nth_lt; eauto. }
  assert (Kp : forall j a, j <> k -> owns s j a -> ~ In a (owned o)).
  { intros j a Nj O I. apply Nj. eapply I2; eauto. exists o. auto. }
  constructor.
  - intros j oj G. rewrite Gt in G. destruct (Nat.eqb_spec j k) as [->|Nj].
    + destruct (Nw oj G) as (T & N & _). auto.
    + destruct (I1 _ _ G) as [(T1 & T2 & T3) N]. split; auto.
      assert (Sm : forall a, In a (owned oj) -> nth_error h' a = nth_error (sy_heap s) a).
      { intros a I. assert (O : owns s j a) by (exists oj; auto). apply Fr; [exact (Lt _ _ O)|exact (Kp _ _ Nj O)]. }
      unfold setIf. cbn [sy_heap]. split; [rewrite Sm; auto; left; auto|]. split.
      * intros g Eg. destruct (T2 _ Eg) as [p P]. exists p. rewrite Sm; auto. right. unfold holdings. rewrite Eg. left. auto.
      * intros a I. destruct (T3 _ I) as [fr F]. exists fr. rewrite Sm; auto. right. unfold holdings. apply in_or_app. auto.
  - intros j l a (oj & Gj & Ij) (ol & Gl & Il). rewrite Gt in Gj, Gl.
    destruct (Nat.eqb_spec j k) as [->|Nj], (Nat.eqb_spec l k) as [->|Nl]; auto.
    + exfalso. destruct (Nw oj Gj) as (_ & _ & P). destruct (P _ Ij) as [Q|Q].
      * eapply (Kp l a Nl); eauto. exists ol. auto.
      * assert (a < length (sy_heap s))%nat by (apply (Lt l); exists ol; auto). lia.
    + exfalso. destruct (Nw ol Gl) as (_ & _ & P). destruct (P _ Il) as [Q|Q].
      * eapply (Kp j a Nj); eauto. exists oj. auto.
      * assert (a < length (sy_heap s))%nat by (apply (Lt j); exists oj; auto). lia.
    + eapply I2; eexists; eauto.
  - intros a c C. unfold there, setIf in C. cbn [sy_heap] in C.
    destruct (in_dec Nat.eq_dec a (owned o)) as [I|I].
    + destruct (Lv _ _ C (or_introl I)) as (o' & E & I'). exists k, o'. rewrite Gt, Nat.eqb_refl. auto.
    + destruct (Nat.le_gt_cases (length (sy_heap s)) a) as [L|L].
      * destruct (Lv _ _ C (or_intror L)) as (o' & E & I'). exists k, o'. rewrite Gt, Nat.eqb_refl. auto.
      * rewrite Fr in C by auto. destruct (I3 _ _ C) as (j & oj & G & J). exists j, oj. rewrite Gt.
        destruct (Nat.eqb_spec j k) as [->|]; auto. exfalso. rewrite Gk in G. injection G as <-. contradiction.
Qed.

(** ** correspondence with one interface of Fit.v *)
Record corr (h : fheap) (o : ifobj) (st : fstate) (m : list nat) : Prop := {
  co_res : Forall2 (fun r r' => fst r = fst r' /\ nth_error m (snd r') = Some (snd r)) (io_results o) (if_results (fs_if st));
  co_fit : io_fitted o = if_fitted (fs_if st);
  co_chi : io_chi2 o = if_chi2 (fs_if st);
  co_ndf : io_ndf o = if_ndf (fs_if st);
  co_lost : io_lost o = if_lost (fs_if st);
  co_traj : match io_traj o, if_traj (fs_if st) with
            | None, None => True
            | Some g, Some p => nth_error h g = Some (Some (KGbl p))
            | _, _ => False
            end;
  co_heap : forall a b, nth_error m a = Some b ->
    match nth_error (fs_heap st) a with
    | Some (Some fr) => nth_error h b = Some (Some (KRes fr))
    | Some None => nth_error h b = Some None
    | None => False
    end
}.

Lemma corr_lookup h o st m label : corr h o st m -> NoDup m ->
  match lookup (io_results o) label, lookup (if_results (fs_if st)) label with
  | Some b, Some a => nth_error m a = Some b
  | None, None => True
  | _, _ => False
  end.
Proof.
  intros [C _ _ _ _ _ _] _. induction C as [|[z b] [z' a] l l' [E N] C IH]; cbn in *; auto.
  rewrite !lookup_cons. cbn in E, N. subst z'. destruct (Z.eqb z label); auto.
Qed.

Lemma corr_holdings h o st m a b : corr h o st m -> nth_error m a = Some b ->
  (In b (map snd (io_results o)) -> exists a', In a' (map snd (if_results (fs_if st))) /\ nth_error m a' = Some b)
  /\ (In a (map snd (if_results (fs_if st))) -> In b (map snd (io_results o))).
Proof.
  intros [C _ _ _ _ _ _] N. clear - C N. induction C as [|[z b1] [z' a1] l l' [E M] C [IH1 IH2]]; cbn [map In snd]; [tauto|].
  cbn in E, M. split.
  - intros [<-|I]; [exists a1; auto|]. destruct (IH1 I) as (a' & I' & N'). exists a'. auto.
  - intros [<-|I]; [left; congruence|auto].
Qed.

Lemma clearAll_nth st a : nth_error (fs_heap (clearAll st)) a =
  if in_dec Nat.eq_dec a (map snd (if_results (fs_if st)))
  then (match nth_error (fs_heap st) a with Some _ => Some None | None => None end) else nth_error (fs_heap st) a.
Proof.
  unfold clearAll. cbn [fs_heap]. destruct (fold_delete_nth (if_results (fs_if st)) (fs_heap st) a) as [A B].
  destruct (in_dec Nat.eq_dec a (map snd (if_results (fs_if st)))) as [I|I]; auto.
  destruct (nth_error (fs_heap st) a) as [x|] eqn:N.
  - apply A; auto. eapply nth_lt; eauto.
  - apply nth_error_None in N. apply nth_error_None. rewrite fold_delete_length. auto.
Qed.

Lemma nodup_nth {A : Type} (m : list A) a a' b : NoDup m -> nth_error m a = Some b -> nth_error m a' = Some b -> a = a'.
Proof. intros N X Y. eapply NoDup_nth_error; eauto; [eapply nth_lt; eauto|congruence]. Qed.

(** after clearing *)
Lemma clear_heap h h' o st m : corr h o st m -> typed h o -> NoDup (owned o) -> NoDup m -> wiped h h' (holdings o) ->
  forall a b, nth_error m a = Some b ->
    match nth_error (fs_heap (clearAll st)) a with
    | Some (Some fr) => nth_error h' b = Some (Some (KRes fr))
    | Some None => nth_error h' b = Some None
    | None => False
    end.
Proof.
  intros C T No Nm (W0 & W1 & W2) a b M. rewrite clearAll_nth. assert (H := co_heap _ _ _ _ C _ _ M).
  destruct (corr_holdings _ _ _ _ _ _ C M) as [H1 H2].
  destruct (in_dec Nat.eq_dec a (map snd (if_results (fs_if st)))) as [I|I].
  - destruct (nth_error (fs_heap st) a) as [x|] eqn:N; auto. apply W1. apply in_or_app. right. auto.
  - assert (Nb : ~ In b (map snd (io_results o))).
    { intros J. destruct (H1 J) as (a' & I' & M'). apply I. rewrite (nodup_nth m a a' b); auto. }
    destruct (nth_error (fs_heap st) a) as [[fr|]|]; auto.
    + rewrite W2; auto. intros J. apply in_app_or in J. destruct J as [J|J]; auto.
      destruct T as (_ & T & _). destruct (io_traj o) as [g|]; [|destruct J]. destruct J as [<-|[]].
      destruct (T g eq_refl) as [p P]. congruence.
    + rewrite W2; auto. intros J. assert (J' : In b (owned o)) by (right; auto).
      destruct (typed_live _ _ _ T J') as [c Cc]. congruence.
Qed.

Lemma fit_corr G w s k tid o st m s' r : sinv s -> getIf s k = Some o -> corr (sy_heap s) o st m -> NoDup m ->
  (forall b, In b m -> (b < length (sy_heap s))%nat) ->
  fitIf G w s k tid = (s', r) -> exists st', fit G w st tid = (st', r)
    /\ length (fs_heap st') = length (fs_heap st)
    /\ exists o', s' = setIf s k (Some o') (sy_heap s') /\ corr (sy_heap s') o' st' m /\ sinv s'
    /\ (length (sy_heap s) <= length (sy_heap s'))%nat
    /\ forall a, (a < length (sy_heap s))%nat -> ~ In a (owned o) -> nth_error (sy_heap s') a = nth_error (sy_heap s) a.
Proof.
  intros I G0 C Nm Lm F. destruct (si_typed _ I _ _ G0) as [T N]. unfold fitIf in F. rewrite G0 in F.
  destruct (clearObj_ok _ _ T N) as (h1 & Cl & W). rewrite Cl in F.
  assert (W' := W). destruct W' as (W0 & W1 & W2). assert (T' := T). destruct T' as (T1 & T2 & T3).
  assert (Nmi : ~ In (io_mille o) (holdings o)) by (inversion N; auto).
  assert (M1 : nth_error h1 (io_mille o) = Some (Some KMille)) by (rewrite W2; auto).
  assert (CH := clear_heap _ _ _ _ _ C T N Nm W).
  assert (Lc : length (fs_heap (clearAll st)) = length (fs_heap st)) by (cbn; apply fold_delete_length).
  unfold fit. cbv zeta.
  assert (Easy : forall (x : res bool), s' = setIf s k (Some (IO (io_mille o) None (Some tid) (io_chi2 o) (io_ndf o) (io_lost o) [])) h1 ->
    r = x -> exists st',
      (FS (IF (if_traj (fs_if (clearAll st))) (Some tid) (if_chi2 (fs_if (clearAll st))) (if_ndf (fs_if (clearAll st)))
           (if_lost (fs_if (clearAll st))) (if_results (fs_if (clearAll st)))) (fs_heap (clearAll st)), x) = (st', r)
      /\ length (fs_heap st') = length (fs_heap st)
      /\ exists o', s' = setIf s k (Some o') (sy_heap s') /\ corr (sy_heap s') o' st' m /\ sinv s'
      /\ (length (sy_heap s) <= length (sy_heap s'))%nat
      /\ forall a, (a < length (sy_heap s))%nat -> ~ In a (owned o) -> nth_error (sy_heap s') a = nth_error (sy_heap s) a).
  { intros x Es Er. eexists. split; [subst r; reflexivity|]. split; [exact Lc|].
    exists (IO (io_mille o) None (Some tid) (io_chi2 o) (io_ndf o) (io_lost o) []). split; [subst s'; reflexivity|].
    subst s'. cbn [sy_heap setIf]. split.
    { destruct C. constructor; cbn; auto. }
    split; [|split; [lia|intros a _ Na; apply W2; intros J; apply Na; right; auto]].
    apply (sinv_step s k o); auto; [lia| | |].
    - intros a _ Na. apply W2. intros J. apply Na. right. auto.
    - intros o' Eo. injection Eo as <-. split.
      + split; [exact M1|]. cbn. split; [discriminate|intros a []].
      + split; [repeat constructor; auto|]. intros a [<-|[]]. left. left. auto.
    - intros a c Ca [J|J].
      + eexists. split; [reflexivity|]. destruct J as [<-|J]; [left; auto|]. rewrite W1 in Ca by auto. discriminate.
      + assert (Lt := nth_lt _ _ _ Ca). lia. }
  destruct (w tid) as [t|]; [|injection F as Es Er; apply (Easy UB); auto].
  destruct (makePoints (tr_elems t)) as [points| | | |].
  2,3,4,5 : injection F as Es Er; match type of Er with ?x = _ => apply (Easy x); auto end.
  destruct (gbl_fit G points) as [rv [[chi2 ndf] lost]].
  assert (Eo : io_mille (IO (io_mille o) None None (io_chi2 o) (io_ndf o) (io_lost o) []) = io_mille o) by reflexivity.
  rewrite Eo in F. clear Eo.
  assert (M2 : nth_error (h1 ++ [Some (KGbl points)]) (io_mille o) = Some (Some KMille))
    by (rewrite nth_error_app1; auto; eapply nth_lt; eauto).
  unfold setIf in F at 1. cbn [sy_heap] in F. rewrite (proj2 (fcell_iff _ _ _) M2) in F. injection F as Es Er. subst r.
  eexists. split; [reflexivity|]. split; [exact Lc|]. eexists. split; [subst s'; reflexivity|].
  subst s'. cbn [sy_heap setIf].
  assert (Lg : nth_error (h1 ++ [Some (KGbl points)]) (length h1) = Some (Some (KGbl points)))
    by (rewrite nth_error_app2, Nat.sub_diag; auto).
  split.
  { constructor; cbn; auto. intros a b M. specialize (CH _ _ M). cbn [clearAll fs_heap] in CH.
    rewrite nth_error_app1; auto. rewrite W0. apply Lm. eapply nth_error_In; eauto. }
  assert (Fr : forall a, (a < length (sy_heap s))%nat -> ~ In a (owned o) -> nth_error (h1 ++ [Some (KGbl points)]) a = nth_error (sy_heap s) a).
  { intros a La Na. rewrite nth_error_app1 by lia. apply W2. intros J. apply Na. right. auto. }
  split; [|split; [rewrite app_length; cbn; lia|exact Fr]].
  apply (sinv_step s k o); auto; [rewrite app_length; cbn; lia| |].
  - intros o' Eo. injection Eo as <-. assert (Lmi := nth_lt _ _ _ M1). split.
    + split; [exact M2|]. split; [|intros a []]. intros g Eg. injection Eg as <-. exists points. exact Lg.
    + split; [|intros a [<-|[<-|[]]]; [left; left; auto|right; lia]].
      cbn. constructor; [|repeat constructor; auto]. intros [Q|[]]. cbn in Q. lia.
  - intros a c Ca J. eexists. split; [reflexivity|]. destruct (Nat.lt_ge_cases a (length h1)) as [La|La].
    + rewrite nth_error_app1 in Ca by auto. destruct J as [[<-|J]|J]; [left; auto| |lia].
      rewrite W1 in Ca by auto. discriminate.
    + assert (La' := nth_lt _ _ _ Ca). rewrite app_length in La'. cbn in La'.
      right. cbn. left. lia.
Qed.

Lemma get_corr E G w s k label o st m s' r : sinv s -> getIf s k = Some o -> corr (sy_heap s) o st m -> NoDup m ->
  length m = length (fs_heap st) -> (forall b, In b m -> (b < length (sy_heap s))%nat) ->
  getRes E G w s k label = (s', r) -> exists st' r' m', getResults E G w st label = (st', r')
    /\ match r, r' with Ok b, Ok a => nth_error m' a = Some b | Throw, Throw | UB, UB | NonFin, NonFin | Diverge, Diverge => True
       | _, _ => False end
    /\ (m' = m \/ m' = m ++ [length (sy_heap s)]) /\ NoDup m' /\ length m' = length (fs_heap st')
    /\ (forall b, In b m' -> (b < length (sy_heap s'))%nat)
    /\ exists o', s' = setIf s k (Some o') (sy_heap s') /\ corr (sy_heap s') o' st' m' /\ sinv s'
    /\ (length (sy_heap s) <= length (sy_heap s'))%nat
    /\ forall a, (a < length (sy_heap s))%nat -> ~ In a (owned o) -> nth_error (sy_heap s') a = nth_error (sy_heap s) a.
Proof.
  intros I G0 C Nm Ln Lm F. destruct (si_typed _ I _ _ G0) as [T N]. unfold getRes in F. rewrite G0 in F.
  assert (Put : s = setIf s k (Some o) (sy_heap s)).
  { destruct s as [ifs h]. unfold setIf. cbn. f_equal. apply getIf_iff in G0. cbn in G0. clear - G0. revert k G0.
    induction ifs as [|x l IH]; intros [|k] Q; cbn in *; try discriminate; [congruence|]. f_equal. auto. }
  assert (Same : forall x (y : res nat), s' = s -> r = x -> getResults E G w st label = (st, y) ->
     match x, y with Ok b, Ok a => nth_error m a = Some b | Throw, Throw | UB, UB | NonFin, NonFin | Diverge, Diverge => True
       | _, _ => False end ->
     exists st' r' m', getResults E G w st label = (st', r')
    /\ match r, r' with Ok b, Ok a => nth_error m' a = Some b | Throw, Throw | UB, UB | NonFin, NonFin | Diverge, Diverge => True
       | _, _ => False end
    /\ (m' = m \/ m' = m ++ [length (sy_heap s)]) /\ NoDup m' /\ length m' = length (fs_heap st')
    /\ (forall b, In b m' -> (b < length (sy_heap s'))%nat)
    /\ exists o', s' = setIf s k (Some o') (sy_heap s') /\ corr (sy_heap s') o' st' m' /\ sinv s'
    /\ (length (sy_heap s) <= length (sy_heap s'))%nat
    /\ forall a, (a < length (sy_heap s))%nat -> ~ In a (owned o) -> nth_error (sy_heap s') a = nth_error (sy_heap s) a).
  { intros x y -> -> Q M. exists st, y, m. repeat (split; [solve [auto]|]). exists o. auto. }
  assert (Lk := corr_lookup _ _ _ _ label C Nm). unfold getResults in *. cbv zeta in *.
  destruct (lookup (io_results o) label) as [b|] eqn:L1, (lookup (if_results (fs_if st)) label) as [a|] eqn:L2; try contradiction.
  { injection F as <- <-. eapply Same; eauto. }
  assert (Ct := co_traj _ _ _ _ C). assert (Cf := co_fit _ _ _ _ C). rewrite Cf in F.
  destruct (if_fitted (fs_if st)) as [tid|]; [|injection F as <- <-; eapply Same; eauto].
  destruct (io_traj o) as [g|] eqn:Eg, (if_traj (fs_if st)) as [p|] eqn:Ep; try contradiction.
  2 : { injection F as <- <-. destruct (w tid); eapply Same; eauto. }
  rewrite (proj2 (fcell_iff _ _ _) Ct) in F. destruct (w tid) as [t|]; [|injection F as <- <-; eapply Same; eauto].
  assert (Cc : computeResults E G (IF (Some p) (Some tid) (io_chi2 o) (io_ndf o) (io_lost o) []) p t label
             = computeResults E G (fs_if st) p t label).
  { unfold computeResults. cbn [if_chi2 if_ndf if_lost].
    rewrite (co_chi _ _ _ _ C), (co_ndf _ _ _ _ C), (co_lost _ _ _ _ C). reflexivity. }
  rewrite Cc in F. destruct (computeResults E G (fs_if st) p t label) as [fr| | | |];
    try solve [injection F as <- <-; eapply Same; eauto; exact I].
  injection F as Es Er. subst r. set (b := length (sy_heap s)) in *.
  eexists _, _, (m ++ [b]). split; [reflexivity|]. cbn [fs_heap fs_if].
  split; [rewrite nth_error_app2, Ln, Nat.sub_diag by lia; auto|]. split; auto.
  assert (Nb : ~ In b m) by (intros J; specialize (Lm _ J); lia).
  split.
  { clear - Nm Nb. induction m as [|x m IH]; cbn; [repeat constructor; auto|]. inversion Nm; subst.
    constructor; [|apply IH; auto; intros J; apply Nb; right; auto]. intros J. apply in_app_or in J.
    destruct J as [J|[->|[]]]; auto. apply Nb. left. auto. }
  split; [rewrite !app_length, Ln; auto|].
  assert (Eh : sy_heap s' = sy_heap s ++ [Some (KRes fr)]) by (subst s'; reflexivity).
  assert (Lb : nth_error (sy_heap s') b = Some (Some (KRes fr))).
  { rewrite Eh, nth_error_app2; unfold b; [rewrite Nat.sub_diag|]; auto. }
  assert (Ol : forall a, (a < b)%nat -> nth_error (sy_heap s') a = nth_error (sy_heap s) a)
    by (intros a La; rewrite Eh, nth_error_app1; auto).
  assert (Lh : length (sy_heap s') = S b) by (rewrite Eh, app_length; cbn; unfold b; lia).
  split.
  { intros x J. apply in_app_or in J. destruct J as [J|[<-|[]]]; [specialize (Lm _ J)|]; lia. }
  eexists. split; [rewrite Eh; symmetry; exact Es|].
  assert (Lg := nth_lt _ _ _ Ct).
  assert (Lo : forall a, In a (owned o) -> (a < b)%nat).
  { intros a J. destruct (typed_live _ _ _ T J) as [c Ca]. eapply nth_lt; eauto. }
  split.
  { destruct C as [Cr _ Cx Cn Cl _ Ch]. constructor; cbn; auto.
    - constructor; [cbn; split; auto; rewrite nth_error_app2, Ln, Nat.sub_diag by lia; auto|].
      clear - Cr. induction Cr as [|x y l l' [A B] Cr IH]; constructor; auto. split; auto.
      rewrite nth_error_app1; auto. eapply nth_lt; eauto.
    - rewrite Ol; auto.
    - intros a x M. destruct (Nat.lt_ge_cases a (length m)) as [La|La].
      + rewrite nth_error_app1 in M by auto. rewrite nth_error_app1 by lia. specialize (Ch _ _ M).
        assert (x < b)%nat by (apply Lm; eapply nth_error_In; eauto). rewrite Ol by auto. auto.
      + assert (La' := nth_lt _ _ _ M). rewrite app_length in La'. cbn in La'. replace a with (length m) in * by lia.
        rewrite nth_error_app2, Nat.sub_diag in M by lia. injection M as <-.
        rewrite nth_error_app2, Ln, Nat.sub_diag by lia. cbn. auto. }
  split; [|split; [lia|intros a La _; apply Ol; auto]].
  rewrite <- Es. rewrite <- Eh. clear Same.
  apply (sinv_step s k o); auto; [lia| |].
  - intros o' Eo. injection Eo as <-. destruct T as (T1 & T2 & T3). split.
    + split; [cbn; rewrite Ol; auto; eapply nth_lt; eauto|]. split.
      * intros g' Q. cbn in Q. injection Q as <-. exists p. rewrite Ol; auto.
      * cbn. intros a [<-|J]; [exists fr; auto|]. destruct (T3 _ J) as [f Hf]. exists f. rewrite Ol; auto. eapply nth_lt; eauto.
    + assert (Sub : forall a, In a (owned o) \/ a = b <-> In a (io_mille o :: [g] ++ b :: map snd (io_results o))).
      { intros a. unfold owned, holdings. rewrite Eg. cbn. intuition. }
      split.
      * unfold owned, holdings in *. cbn in *. rewrite Eg in *. cbn in *.
        assert (B1 : b <> io_mille o) by (assert (io_mille o < b)%nat by (apply Lo; auto); lia).
        assert (B2 : b <> g) by lia.
        assert (B3 : ~ In b (map snd (io_results o))) by (intros J; assert (b < b)%nat by (apply Lo; auto); lia).
        inversion N as [|? ? N1 N2]; subst. inversion N2 as [|? ? N3 N4]; subst. cbn in N1.
        constructor; [cbn; intuition|]. constructor; [cbn; intuition|]. constructor; auto.
      * intros a J. apply Sub in J. destruct J as [J| ->]; auto.
  - intros a c Ca J. eexists. split; [reflexivity|]. unfold owned, holdings in *. cbn. rewrite Eg in *. cbn in *.
    assert (La := nth_lt _ _ _ Ca). fold b in J. destruct J as [J|J]; [intuition|]. right. right. left. lia.
Qed.

Lemma del_ok s k o : sinv s -> getIf s k = Some o ->
  exists h', delIf s k = (setIf s k None h', Ok tt) /\ wiped (sy_heap s) h' (owned o) /\ sinv (setIf s k None h').
Proof.
  intros I G0. destruct (si_typed _ I _ _ G0) as [T N]. assert (T' := T). destruct T' as (T1 & T2 & T3).
  unfold delIf. rewrite G0. unfold freeMille. rewrite (proj2 (fcell_iff _ _ _) T1). cbn [bind].
  assert (W := wiped_one _ _ _ T1). set (h1 := fclear (sy_heap s) (io_mille o)) in *.
  assert (Nm : ~ In (io_mille o) (holdings o)) by (inversion N; auto).
  assert (Same : forall a, In a (holdings o) -> nth_error h1 a = nth_error (sy_heap s) a).
  { intros a J. destruct W as (_ & _ & W). apply W. intros [Q|[]]. subst. contradiction. }
  (* the record object itself is not looked at by [clearObj] *)
  assert (Cl : exists h', clearObj h1 o = Ok (h', IO (io_mille o) None None (io_chi2 o) (io_ndf o) (io_lost o) []) /\ wiped h1 h' (holdings o)).
  { unfold clearObj. assert (Nh : NoDup (holdings o)) by (inversion N; auto).
    destruct (freeResults_ok (io_results o) h1) as (h2 & F & W2).
    { unfold holdings in Nh. apply nodup_app_r in Nh. auto. }
    { intros a J. destruct (T3 _ J) as [fr Hf]. exists fr. rewrite Same; auto. unfold holdings. apply in_or_app. auto. }
    rewrite F. cbn [bind]. unfold holdings in *. destruct (io_traj o) as [g|].
    - cbn in Nh. inversion Nh as [|? ? N1 N2]; subst. destruct (T2 g eq_refl) as [p P].
      assert (P1 : nth_error h2 g = Some (Some (KGbl p))).
      { destruct W2 as (_ & _ & W2). rewrite W2, Same; auto. left. auto. }
      unfold freeGbl. rewrite (proj2 (fcell_iff _ _ _) P1). cbn [bind]. eexists. split; [reflexivity|].
      assert (X := wiped_app _ _ _ _ _ W2 (wiped_one _ _ _ P1)).
      destruct X as (X0 & X1 & X2). split; auto. split.
      + intros a J. apply X1. apply in_or_app. apply in_app_or in J. tauto.
      + intros a J. apply X2. intros J'. apply J. apply in_or_app. apply in_app_or in J'. tauto.
    - cbn [bind]. eexists. split; [reflexivity|]. auto. }
  destruct Cl as (h' & Cl & W'). rewrite Cl. exists h'. split; auto.
  assert (Wa := wiped_app _ _ _ _ _ W W'). change ([io_mille o] ++ holdings o) with (owned o) in Wa. split; auto.
  destruct Wa as (A0 & A1 & A2). apply (sinv_step s k o); auto; [lia|discriminate|].
  intros a c Ca [J|J]; [rewrite A1 in Ca by auto; discriminate|]. assert (X := nth_lt _ _ _ Ca). lia.
Qed.
