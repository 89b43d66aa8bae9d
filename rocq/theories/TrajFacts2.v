(** Lemmas about histories of trajectories. *)
From Coq Require Import Reals List Bool ZArith Lra Lia Permutation Sorted.
From Coquelicot Require Import Coquelicot.
From Verif Require Import Num Vec Helix Isect Trans Material Traj.
From Verif Require Import NumFacts SpecHelix HelixFacts PathFacts MoveFacts SpecIsect SurfFacts SurfFacts2 SpecTraj TrajFacts.
Import ListNotations.
Open Scope R_scope.

(** ** prepareForFitting *)

Lemma lossTerm_spec E mass e nrj : lossTerm E mass e = Ok nrj <-> energy_term E mass e nrj.
Proof.
  unfold lossTerm, energy_term. destruct (te_scat e).
  - split.
    + intros H. right. split; auto. destruct (te_surf e) as [surf|]; [|discriminate].
      dres H. destruct a as [|el]; [discriminate|]. unfold rdiv in H.
      destruct (Req_EM_T (el_beta el * el_beta el * el_energy el) 0); [discriminate|].
      injection H as <-. exists surf, el. auto.
    + intros [[Q _]|(_ & surf & el & Q & C & N & ->)]; [discriminate|]. rewrite Q, C. cbn [bind].
      rewrite rdiv_ok by auto. reflexivity.
  - split.
    + intros H. injection H as <-. auto.
    + intros [[_ ->]|[Q _]]; [auto|discriminate].
Qed.

Lemma same_setJacobian e J : same_but_jacobian e (setJacobian e J).
Proof. repeat split. Qed.

Lemma prepareOne_spec E t prevS e e' : prepareOne E t prevS e = Ok e' <->
  exists J, e' = setJacobian e J /\ jacobian_for E t prevS e J.
Proof.
  unfold prepareOne, jacobian_for. cbv zeta.
  assert (C : cos (calculateLambda (tp_par (te_tp e))) <> 0).
  { unfold calculateLambda. apply Rgt_not_eq. apply cos_gt_0; destruct (atan_bound (tp_par (te_tp e) TANL)); lra. }
  unfold rdiv at 1. destruct (Req_EM_T _ 0); [contradiction|]. cbn [bind]. clear n C.
  split.
  - intros H. dres H. dres H. dres H. destruct (tr_prop t) as [gj|]; [|discriminate].
    dres H. injection H as <-. exists a2. split; auto. exists gj, a, a0, a1. apply lossTerm_spec in B. auto 6.
  - intros (J & -> & gj & nrj & ts & te & P & N & T1 & T2 & G).
    apply lossTerm_spec in N. rewrite N, T1, T2, P. cbn [bind]. unfold calculateLambda. rewrite G. reflexivity.
Qed.

Lemma prepareLoop_spec E t l : forall prevS l',
  prepareLoop E t prevS l = Ok l' -> prepared E t prevS l l'.
Proof.
  induction l as [|e l IH]; intros prevS l' H; cbn [prepareLoop] in H.
  - injection H as <-. constructor.
  - dres H. dres H. injection H as <-. apply prepareOne_spec in B. destruct B as (J & -> & B).
    apply prep_cons with (J := J); auto. apply same_setJacobian.
Qed.

Lemma prepare_spec E t t' : prepareForFitting E t = Ok t' ->
  exists e0 l e0' l', en_sortE E (tr_elems t) = e0 :: l
    /\ t' = set_elems t (e0' :: l')
    /\ same_but_jacobian e0 e0' /\ te_jac e0' = Some m5zero
    /\ prepared E (set_elems t (e0 :: l)) 0 l l'.
Proof.
  unfold prepareForFitting. cbn [tr_elems set_elems]. cbv zeta.
  destruct (en_sortE E (tr_elems t)) as [|e0 l]; [discriminate|].
  intros H. dres H. injection H as <-. apply prepareLoop_spec in B.
  exists e0, l, (setJacobian e0 m5zero), a. repeat split; auto.
Qed.

(** *** sameness of the elements before and after *)
Lemma same_refl e : same_but_jacobian e e.
Proof. repeat split. Qed.
Lemma same_sym a b : same_but_jacobian a b -> same_but_jacobian b a.
Proof. unfold same_but_jacobian. intuition. Qed.

Lemma prepared_forall2 E t prevS l l' : prepared E t prevS l l' -> Forall2 same_but_jacobian l l'.
Proof. induction 1; constructor; auto. Qed.

Lemma forall2_ordered l l' : Forall2 same_but_jacobian l l' -> ordered l -> ordered l'.
Proof.
  induction 1 as [|a b l l' A F IH]; intros O; [constructor|].
  inversion O as [|? ? O1 O2]; subst. constructor; [apply IH; auto|].
  destruct A as [A _]. rewrite <- A. clear - F O2. 
  induction F as [|x y l l' X F IH]; constructor.
  - inversion O2; subst. destruct X as [X _]. lra.
  - inversion O2; subst. apply IH. auto.
Qed.

Lemma forall2_in_r {A B : Type} (R : A -> B -> Prop) l l' y :
  Forall2 R l l' -> In y l' -> exists x, In x l /\ R x y.
Proof.
  induction 1 as [|a b l l' H F IH]; intros I; [destruct I|].
  destruct I as [->|I]; [exists a; split; auto; left; auto|].
  destruct (IH I) as (x & X1 & X2). exists x. split; auto. right; auto.
Qed.
Lemma forall2_in_l {A B : Type} (R : A -> B -> Prop) l l' x :
  Forall2 R l l' -> In x l -> exists y, In y l' /\ R x y.
Proof.
  induction 1 as [|a b l l' H F IH]; intros I; [destruct I|].
  destruct I as [->|I]; [exists b; split; auto; left; auto|].
  destruct (IH I) as (y & X1 & X2). exists y. split; auto. right; auto.
Qed.

Lemma prepare_elems E t t' : sorts te_s (en_sortE E) -> prepareForFitting E t = Ok t' ->
  exists l, Permutation (tr_elems t) l /\ ordered l /\ Forall2 same_but_jacobian l (tr_elems t')
    /\ tr_ref t' = tr_ref t /\ tr_prop t' = tr_prop t /\ tr_mass t' = tr_mass t
    /\ tr_isect t' = tr_isect t.
Proof.
  intros S H. destruct (prepare_spec _ _ _ H) as (e0 & l & e0' & l' & A & -> & B & C & D).
  destruct (S (tr_elems t)) as [S1 S2]. rewrite A in S1, S2.
  exists (e0 :: l). split; auto. split; auto. split; [|repeat split; auto].
  cbn [set_elems tr_elems]. constructor; auto. eapply prepared_forall2; eauto.
Qed.

(** ** invariant of all histories *)
Definition has_surface (e : telem) : bool := match te_surf e with None => false | _ => true end.
Definition no_surface_count (l : list telem) : nat :=
  length (filter (fun e => negb (has_surface e)) l).

Definition is_initial (ref : trackParameters) (e : telem) : Prop :=
  plain e /\ te_tp e = ref
  /\ calculateSfromXY 0 0 (tp_par ref) (tp_ref ref) = Ok (te_s e).

Record good (t : traj) : Prop := {
  g_ord : ordered (tr_elems t);
  g_first : tr_elems t = [] \/
    (exists i, In i (tr_elems t) /\ is_initial (tr_ref t) i
       /\ (forall e, In e (tr_elems t) -> te_s i <= te_s e))
    /\ no_surface_count (tr_elems t) = 1%nat
}.

Lemma count_perm l l' : Permutation l l' -> no_surface_count l = no_surface_count l'.
Proof.
  intros P. unfold no_surface_count.
  induction P; cbn [filter length]; auto.
  - destruct (negb (has_surface x)); cbn [length]; auto.
  - destruct (negb (has_surface x)), (negb (has_surface y)); cbn [length]; auto.
  - congruence.
Qed.
Lemma count_forall2 l l' : Forall2 same_but_jacobian l l' -> no_surface_count l = no_surface_count l'.
Proof.
  unfold no_surface_count. induction 1 as [|a b l l' A F IH]; auto. cbn [filter].
  assert (Q : has_surface a = has_surface b) by (unfold has_surface; destruct A as (_ & _ & -> & _); auto).
  rewrite Q. destruct (negb (has_surface b)); cbn [length]; auto.
Qed.
Lemma count_app l e : has_surface e = true -> no_surface_count (l ++ [e]) = no_surface_count l.
Proof.
  intros H. unfold no_surface_count. rewrite filter_app. cbn [filter]. rewrite H. cbn [negb].
  rewrite app_nil_r. auto.
Qed.

Lemma ensure_good t t1 : good t -> ensureInitial t = Ok t1 -> good t1.
Proof.
  intros G H. destruct (ensure_spec _ _ H) as [(A & ->)|(A & s & B & ->)]; auto.
  constructor; cbn [set_elems tr_elems tr_ref].
  - constructor; constructor.
  - right. split; [|reflexivity]. eexists. split; [left; reflexivity|]. split.
    + split; [repeat split|]. split; auto.
    + intros e [<-|[]]. lra.
Qed.

Lemma push_good E t new t' r : good t -> pushElement t new = (t', r) ->
  (exists b, r = Ok b) \/ r = Throw ->
  (forall las e, new las = Ok (Some e) -> exists mass surf cb sc meas elUV s0 xx moved fid mom el,
     built E mass las surf cb sc meas elUV e s0 xx moved fid mom el) ->
  good t'.
Proof.
  intros G P W N. destruct (push_spec _ _ _ _ P W) as [(-> & -> & _)|(t1 & e0 & l & En & El & C)]; auto.
  assert (G1 := ensure_good _ _ G En).
  destruct C as [(-> & -> & _)|[(-> & -> & _)|(e & -> & C & ->)]]; auto.
  destruct (N _ _ C) as (mass & surf & cb & sc & meas & elUV & s0 & xx & moved & fid & mom & el & B).
  assert (S0 : 0 <= s0) by (eapply isect_pos; apply (bu_isect _ _ _ _ _ _ _ _ _ _ _ _ _ _ _ B)).
  assert (Es := bu_s _ _ _ _ _ _ _ _ _ _ _ _ _ _ _ B).
  destruct G1 as [G1 G2].
  assert (L : forall x, In x (tr_elems t1) -> te_s x <= te_s e).
  { intros x Hx. rewrite El in *. specialize (ordered_last _ _ G1 x Hx). lra. }
  constructor; cbn [set_elems tr_elems tr_ref].
  - apply ordered_app_last; auto.
  - right. destruct G2 as [G2|((i & I1 & I2 & I3) & G2)]; [rewrite El in G2; discriminate|]. split.
    + exists i. split; [apply in_or_app; auto|]. split; auto.
      intros x Hx. apply in_app_or in Hx. destruct Hx as [Hx|[<-|[]]]; auto.
    + rewrite count_app; auto. unfold has_surface.
      rewrite (bu_surf _ _ _ _ _ _ _ _ _ _ _ _ _ _ _ B). auto.
Qed.

Lemma step_good E t c t' : sorts te_s (en_sortE E) -> good t -> step E t c t' -> good t'.
Proof.
  intros Se G S. destruct S as [position precision surf id sc t' r A W|surf t' r A W|t' A|l t' A|m].
  - unfold addMeasurement in A. eapply push_good; eauto. intros las e N.
    destruct (newMeasurement_spec _ _ _ _ _ _ _ _ _ N) as (s0 & xx & moved & fid & mom & el & B & _).
    eauto 20.
  - unfold addScatterer in A. eapply push_good; eauto. intros las e N.
    destruct (newScatterer_spec _ _ _ _ _ N) as (s0 & xx & moved & fid & mom & el & B & _).
    eauto 20.
  - destruct (prepare_elems _ _ _ Se A) as (l & P & O & F & Er & _). destruct G as [G1 G2].
    constructor; [eapply forall2_ordered; eauto|].
    destruct G2 as [G2|((i & I1 & I2 & I3) & G2)].
    + left. rewrite G2 in P. apply Permutation_nil in P. subst l. inversion F. auto.
    + right. split.
      * assert (Hi : In i l) by (eapply Permutation_in; eauto).
        destruct (forall2_in_l _ _ _ _ F Hi) as (i' & J1 & J2).
        exists i'. split; auto. split.
        { rewrite Er. unfold is_initial, plain in *.
          destruct J2 as (<- & <- & <- & <- & <- & _). tauto. }
        intros e He. destruct (forall2_in_r _ _ _ _ F He) as (x & X1 & X2).
        destruct J2 as (<- & _). destruct X2 as (<- & _). apply I3.
        eapply Permutation_in; [apply Permutation_sym; eauto|auto].
      * rewrite <- (count_forall2 _ _ F), <- (count_perm _ _ P). auto.
  - unfold getIntersectionsWithSurfaces in A. cbv zeta in A. dres A. injection A as <-.
    destruct G as [G1 G2]. constructor; auto.
  - destruct G as [G1 G2]. constructor; auto.
Qed.

Lemma history_good E ok ref prop cs t : sorts te_s (en_sortE E) ->
  history E ok (mkTraj ref prop) cs t -> good t /\ tr_ref t = ref /\ tr_prop t = prop.
Proof.
  intros S H. induction H as [|cs t c t' H IH O St].
  - split; [|auto]. constructor; [constructor|left; auto].
  - destruct IH as (G & R & P). split; [eapply step_good; eauto|].
    assert (X : tr_ref t' = tr_ref t /\ tr_prop t' = tr_prop t).
    { destruct St as [position precision surf id sc t' r A W|surf t' r A W|t' A|l t' A|m]; auto.
      - destruct (push_spec _ _ _ _ A W) as [(_ & -> & _)|(t1 & e0 & l & En & El & C)]; auto.
        destruct (ensure_last _ _ En) as (_ & _ & _ & _ & R1 & R2 & _).
        destruct C as [(-> & -> & _)|[(-> & -> & _)|(e & -> & C & ->)]]; auto.
      - destruct (push_spec _ _ _ _ A W) as [(_ & -> & _)|(t1 & e0 & l & En & El & C)]; auto.
        destruct (ensure_last _ _ En) as (_ & _ & _ & _ & R1 & R2 & _).
        destruct C as [(-> & -> & _)|[(-> & -> & _)|(e & -> & C & ->)]]; auto.
      - destruct (prepare_elems _ _ _ S A) as (l & _ & _ & _ & R1 & R2 & _). auto.
      - unfold getIntersectionsWithSurfaces in A. cbv zeta in A. dres A. injection A as <-. auto. }
    destruct X as [X1 X2]. rewrite X1, X2. auto.
Qed.

(** histories without prepareForFitting: the initial element stays in front *)
Lemma history_front E ok ref prop cs t : history E ok (mkTraj ref prop) cs t ->
  ~ In CPrep cs -> tr_ref t = ref /\ (tr_elems t = [] \/
    exists i l, tr_elems t = i :: l /\ is_initial ref i /\ te_jac i = None
      /\ forall e, In e l -> has_surface e = true /\ te_jac e = None).
Proof.
  intros H N. induction H as [|cs t c t' H IH O St]; [auto|].
  assert (N1 : ~ In CPrep cs) by (intros X; apply N; apply in_or_app; auto).
  assert (N2 : c <> CPrep) by (intros X; apply N; apply in_or_app; right; left; auto).
  destruct (IH N1) as (R & F). clear IH.
  assert (Push : forall new r, pushElement t new = (t', r) -> (exists b, r = Ok b) \/ r = Throw ->
    (forall las e, new las = Ok (Some e) -> has_surface e = true /\ te_jac e = None) ->
    tr_ref t' = ref /\ (tr_elems t' = [] \/
    exists i l, tr_elems t' = i :: l /\ is_initial ref i /\ te_jac i = None
      /\ forall e, In e l -> has_surface e = true /\ te_jac e = None)).
  { intros new r A W Nw.
    destruct (push_spec _ _ _ _ A W) as [(_ & -> & _)|(t1 & e0 & l & En & El & C)]; auto.
    assert (F1 : tr_ref t1 = ref /\ exists i l, tr_elems t1 = i :: l /\ is_initial ref i /\ te_jac i = None
      /\ forall e, In e l -> has_surface e = true /\ te_jac e = None).
    { destruct (ensure_spec _ _ En) as [(X & ->)|(X & s & Y & ->)].
      - split; auto. destruct F as [F|F]; auto. contradiction.
      - split; auto. eexists _, []. split; [reflexivity|]. rewrite <- R.
        split; [repeat split; auto|]. split; auto. intros e []. }
    destruct F1 as (R1 & i & l1 & F1 & F2 & F3 & F4).
    destruct C as [(-> & -> & _)|[(-> & -> & _)|(e & -> & C & ->)]]; [eauto 10|eauto 10|].
    split; auto. right. exists i, (l1 ++ [e]). cbn [set_elems tr_elems]. rewrite F1. split; auto.
    split; auto. split; auto. intros x Hx. apply in_app_or in Hx. destruct Hx as [Hx|[<-|[]]]; auto.
    apply (Nw _ _ C). }
  destruct St as [position precision surf id sc t' r A W|surf t' r A W|t' A|l t' A|m]; auto.
  - apply (Push _ _ A W). intros las e Q.
    destruct (newMeasurement_spec _ _ _ _ _ _ _ _ _ Q) as (s0 & xx & moved & fid & mom & el & B & _).
    unfold has_surface. rewrite (bu_surf _ _ _ _ _ _ _ _ _ _ _ _ _ _ _ B).
    split; auto. apply (bu_jac _ _ _ _ _ _ _ _ _ _ _ _ _ _ _ B).
  - apply (Push _ _ A W). intros las e Q.
    destruct (newScatterer_spec _ _ _ _ _ Q) as (s0 & xx & moved & fid & mom & el & B & _).
    unfold has_surface. rewrite (bu_surf _ _ _ _ _ _ _ _ _ _ _ _ _ _ _ B).
    split; auto. apply (bu_jac _ _ _ _ _ _ _ _ _ _ _ _ _ _ _ B).
  - contradiction.
  - unfold getIntersectionsWithSurfaces in A. cbv zeta in A. dres A. injection A as <-. auto.
Qed.

(** ** trajectoryElementAt *)
Lemma elementAt_spec s : forall l prevS e, ordered (e :: l) -> prevS <= s ->
  exists l1 l2, e :: l = l1 ++ elementAt_loop s prevS e l :: l2
    /\ (forall x, In x l2 -> s < te_s x)
    /\ (te_s (elementAt_loop s prevS e l) <= s \/ l1 = []).
Proof.
  induction l as [|a l IH]; intros prevS e O P; cbn [elementAt_loop].
  - exists [], []. repeat split; auto. intros x [].
  - destruct (Rle_dec prevS s) as [_|n]; [|lra].
    inversion O as [|? ? O1 O2]; subst.
    destruct (Rlt_dec s (te_s a)) as [L|L].
    + exists [], (a :: l). split; auto. split; auto. intros x [<-|Hx]; auto.
      inversion O1 as [|? ? _ O3]; subst. rewrite Forall_forall in O3. specialize (O3 x Hx). lra.
    + destruct (IH (te_s a) a O1) as (l1 & l2 & A & B & C); [lra|].
      exists (e :: l1), l2. split; [rewrite A at 1; reflexivity|]. split; auto.
      destruct C as [C| ->]; auto. cbn [app] in A. injection A as A _. left. rewrite <- A. lra.
Qed.

Lemma elementAt_low s : forall l prevS e, s < prevS -> (forall x, In x l -> s < te_s x) ->
  elementAt_loop s prevS e l = last l e.
Proof.
  induction l as [|a l IH]; intros prevS e P A; auto.
  cbn [elementAt_loop]. destruct (Rle_dec prevS s); [lra|].
  rewrite last_cons. apply IH.
  - apply A. left; auto.
  - intros x Hx. apply A. right; auto.
Qed.

(** evaluation at the path length of an element *)
Lemma elementAt_own t e : ordered (tr_elems t) -> In e (tr_elems t) -> bigNegative <= te_s e ->
  exists e1, trajectoryElementAt t (te_s e) = Ok e1 /\ In e1 (tr_elems t) /\ te_s e1 = te_s e.
Proof.
  intros O I N. unfold trajectoryElementAt. destruct (tr_elems t) as [|e0 l] eqn:El; [destruct I|].
  destruct (elementAt_spec (te_s e) l bigNegative e0 O N) as (l1 & l2 & A & B & C).
  eexists. split; [reflexivity|]. set (e1 := elementAt_loop (te_s e) bigNegative e0 l) in *.
  assert (I1 : In e1 (e0 :: l)) by (rewrite A; apply in_or_app; right; left; auto).
  split; auto. rewrite A in I, O. apply in_app_or in I.
  destruct I as [I|[I|I]].
  - destruct C as [C| ->]; [|destruct I].
    apply Rle_antisym; auto. clear - O I. induction l1 as [|a l1 IH]; [destruct I|].
    cbn [app] in O. inversion O as [|? ? O1 O2]; subst. destruct I as [->|I]; auto.
    rewrite Forall_forall in O2. apply O2. apply in_or_app. right; left; auto.
  - rewrite I. auto.
  - specialize (B e I). lra.
Qed.
