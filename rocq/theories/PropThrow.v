(** C59: which calls throw. *)
From Coq Require Import Reals List Bool ZArith Lra Lia Permutation.
From Verif Require Import Num Vec Helix Isect Trans Material Traj SpecTraj SpecTrans TransFacts PropTrans
  SpecThrow ThrowFacts TrajFacts TrajFacts4 FitFacts2 TrajEx.
Import ListNotations.
Open Scope R_scope.

(** whatever the helix, the direction and the bounds *)
Theorem C59_intersection : forall surf hp rp o mode cb,
  intersectWithSurface surf hp rp o mode cb = Throw <-> unusable surf.
Proof. exact isect_throw. Qed.
Print Assumptions C59_intersection.

Lemma mkElement_throw s tp surf u v prec resid id sc meas :
  mkElement s tp surf [u; v] prec resid (calculateLocalCurvilinearSystem 0 (tp_par tp)) id sc meas = Throw
  <-> edge_on u v tp.
Proof.
  unfold mkElement, edge_on. generalize (local_frame 0 (tp_par tp)).
  destruct (calculateLocalCurvilinearSystem 0 (tp_par tp)) as [lu lv]. intros [F _]. cbn [fst snd].
  assert (B : vdot (vcross u v) (calculateTangent 0 (tp_par tp)) = 0
    <-> calculateLocalToMeasurementProjectionMatrix lu lv [u; v] = Throw).
  { destruct (projection_two lu lv _ u v F) as [C D]. split; auto. intros E.
    destruct (Req_dec (vdot (vcross u v) (calculateTangent 0 (tp_par tp))) 0) as [|N]; auto.
    destruct (D N) as (p & E' & _). congruence. }
  rewrite B.
  destruct calculateLocalToMeasurementProjectionMatrix; cbn [bind]; split; auto; discriminate.
Qed.

Lemma throw_bind {A B} (x : res A) (f : A -> res B) : x <> Throw ->
  (bind x f = Throw <-> exists a, x = Ok a /\ f a = Throw).
Proof.
  intros N. destruct x; cbn; try contradiction; split; intros H; try discriminate; eauto.
  - destruct H as (b & Q & H). injection Q as <-. auto.
  - destruct H as (b & Q & H). discriminate.
  - destruct H as (b & Q & H). discriminate.
  - destruct H as (b & Q & H). discriminate.
Qed.

Lemma qms_outcome surf uv mom mass : exists q, qms2 (computeQMS_uv surf uv mom mass) = Ok q.
Proof.
  assert (Q : (exists x, computeQMS_uv surf uv mom mass = Ok x) \/ computeQMS_uv surf uv mom mass = NonFin).
  { unfold computeQMS_uv, vunit, rdiv, rsqrt, rln. cbv zeta.
    repeat match goal with |- context [if ?c then _ else _] => destruct c; cbn [bind]; auto end; eauto. }
  destruct Q as [[x ->]| ->]; cbn; eauto.
Qed.

Lemma newMeasurement_throw E mass las position precision surf id sc :
  newMeasurement E mass las position precision surf id sc = Throw <->
  unusable surf \/ exists xx tp', arrives E mass (te_tp las) surf false (fun _ => sf_globalToLocal surf position) xx tp'
    /\ edge_on (sf_u surf position) (sf_v surf position) tp'.
Proof.
  unfold newMeasurement. cbv zeta. set (tp := te_tp las).
  assert (T := isect_throw surf (tp_par tp) (tp_ref tp) (OVal 0 v3zero) 1 false).
  destruct (intersectWithSurface surf (tp_par tp) (tp_ref tp) (OVal 0 v3zero) 1 false) as [[b o]| | | |] eqn:Ei; cbn [bind].
  2:{ split; auto. intros _. left. apply T. auto. }
  2-4: split; [discriminate|]; intros [U|(xx & tp' & (s & m & f & p & l & H & _) & _)]; [apply T in U; discriminate|congruence].
  assert (U : ~ unusable surf) by (intros Q; apply T in Q; discriminate).
  assert (D : forall r : res (option telem), ~ (exists s0 xx0, (b, o) = (true, OVal s0 xx0)) -> r <> Throw -> (r = Throw <->
     unusable surf \/ exists xx tp', arrives E mass tp surf false (fun _ => sf_globalToLocal surf position) xx tp'
        /\ edge_on (sf_u surf position) (sf_v surf position) tp')).
  { intros r Nx Nr. split; [contradiction|]. intros [Q|(xx & tp' & (s & m & f & p & l & H & _) & _)]; [contradiction|].
    rewrite Ei in H. injection H as -> ->. exfalso. apply Nx. eauto. }
  destruct b; [|apply D; [intros (? & ? & Q); discriminate|discriminate]].
  destruct o as [s0 xx|]; [|apply D; [intros (? & ? & Q); discriminate|discriminate]].
  clear D. split.
  - intros H. right.
    apply throw_bind in H; [|auto with nt]. destruct H as ([moved fid] & Hm & H). cbn [fst] in H.
    apply throw_bind in H; [|auto with nt]. destruct H as (mom & Hp & H).
    apply throw_bind in H; [|auto with nt]. destruct H as (el & He & H).
    apply throw_bind in H; [|auto with nt]. destruct H as (tp' & Ht & H).
    exists xx, tp'. split; [exists s0, moved, fid, mom, el; auto|].
    apply throw_bind in H; [|destruct sc; nt]. destruct H as (pr & _ & H).
    match type of H with bind ?m _ = _ => destruct m eqn:Em end; cbn [bind] in H; try discriminate.
    apply mkElement_throw in Em. exact Em.
  - intros [Q|(xx' & tp' & (s & moved & fid & mom & el & H1 & H2 & H3 & H4 & H5) & Ed)]; [contradiction|].
    rewrite Ei in H1. injection H1 as -> ->. rewrite H2. cbn [bind fst]. rewrite H3. cbn [bind]. rewrite H4. cbn [bind].
    rewrite H5. cbn [bind].
    assert (P : exists pr, (if sc then q <- qms2 (computeQMS_uv surf (sf_globalToLocal surf xx') mom mass);; Ok (map Some precision ++ [q; Some 0; Some 0])
                 else Ok (map Some precision)) = Ok pr).
    { destruct sc; [|eauto]. destruct (qms_outcome surf (sf_globalToLocal surf xx') mom mass) as [q ->]. cbn. eauto. }
    destruct P as [pr ->]. cbn [bind].
    match goal with |- bind ?m _ = _ => assert (Em : m = Throw) by (apply mkElement_throw; exact Ed) end.
    rewrite Em. reflexivity.
Qed.

Lemma newScatterer_throw E mass las surf :
  newScatterer E mass las surf = Throw <->
  unusable surf \/ exists xx tp', arrives E mass (te_tp las) surf true (sf_globalToLocal surf) xx tp'
    /\ edge_on (sf_u surf xx) (sf_v surf xx) tp'.
Proof.
  unfold newScatterer. cbv zeta. set (tp := te_tp las).
  assert (T := isect_throw surf (tp_par tp) (tp_ref tp) (OVal 0 v3zero) 1 true).
  destruct (intersectWithSurface surf (tp_par tp) (tp_ref tp) (OVal 0 v3zero) 1 true) as [[b o]| | | |] eqn:Ei; cbn [bind].
  2:{ split; auto. intros _. left. apply T. auto. }
  2-4: split; [discriminate|]; intros [U|(xx & tp' & (s & m & f & p & l & H & _) & _)]; [apply T in U; discriminate|congruence].
  assert (U : ~ unusable surf) by (intros Q; apply T in Q; discriminate).
  assert (D : forall r : res (option telem), ~ (exists s0 xx0, (b, o) = (true, OVal s0 xx0)) -> r <> Throw -> (r = Throw <->
     unusable surf \/ exists xx tp', arrives E mass tp surf true (sf_globalToLocal surf) xx tp'
        /\ edge_on (sf_u surf xx) (sf_v surf xx) tp')).
  { intros r Nx Nr. split; [contradiction|]. intros [Q|(xx & tp' & (s & m & f & p & l & H & _) & _)]; [contradiction|].
    rewrite Ei in H. injection H as -> ->. exfalso. apply Nx. eauto. }
  destruct b; [|apply D; [intros (? & ? & Q); discriminate|discriminate]].
  destruct o as [s0 xx|]; [|apply D; [intros (? & ? & Q); discriminate|discriminate]].
  clear D. split.
  - intros H. right.
    apply throw_bind in H; [|auto with nt]. destruct H as ([moved fid] & Hm & H). cbn [fst] in H.
    apply throw_bind in H; [|auto with nt]. destruct H as (mom & Hp & H).
    apply throw_bind in H; [|auto with nt]. destruct H as (el & He & H).
    apply throw_bind in H; [|auto with nt]. destruct H as (tp' & Ht & H).
    exists xx, tp'. split; [exists s0, moved, fid, mom, el; auto|].
    apply throw_bind in H; [|auto with nt]. destruct H as (pr & _ & H).
    match type of H with bind ?m _ = _ => destruct m eqn:Em end; cbn [bind] in H; try discriminate.
    apply mkElement_throw in Em. exact Em.
  - intros [Q|(xx' & tp' & (s & moved & fid & mom & el & H1 & H2 & H3 & H4 & H5) & Ed)]; [contradiction|].
    rewrite Ei in H1. injection H1 as -> ->. rewrite H2. cbn [bind fst]. rewrite H3. cbn [bind]. rewrite H4. cbn [bind].
    rewrite H5. cbn [bind].
    destruct (qms_outcome surf (sf_globalToLocal surf xx') mom mass) as [q ->]. cbn [bind].
    match goal with |- bind ?m _ = _ => assert (Em : m = Throw) by (apply mkElement_throw; exact Ed) end.
    rewrite Em. reflexivity.
Qed.

(** An addition throws exactly if its surface is unusable or the track arrives
    edge-on; the trajectory is then as before, with the initial element. *)
Lemma push_throw t t' new P : (forall las, new las = Throw <-> P (te_tp las)) ->
  (pushElement t new = (t', Throw) <-> with_initial t t' /\ P (from_state t)).
Proof.
  intros N. split.
  - intros H. destruct (push_spec _ _ _ _ H (or_intror eq_refl)) as [(_ & _ & Q)|(t1 & e0 & l & En & El & C)].
    { exfalso. revert Q. unfold ensureInitial, addElement. destruct (tr_elems t); [|discriminate]. nt. }
    destruct C as [(Q & _)|[(_ & -> & Q)|(e & Q & _)]]; try discriminate.
    destruct (ensure_last _ _ En) as (e1 & l1 & El1 & Fs & _). rewrite El in El1. injection El1 as <- <-.
    apply N in Q. rewrite Fs in Q. split; auto.
    destruct (ensure_spec _ _ En) as [(A & ->)|(A & s & B & ->)]; [left; auto|right; split; auto].
    eexists. split; [reflexivity|]. repeat split; auto.
  - intros [W Q].
    assert (En : ensureInitial t = Ok t').
    { unfold ensureInitial.
      destruct W as [(A & ->)|(A & i & -> & (P1 & P2 & P3) & W1 & W2 & W3 & W4 & W5 & W6 & W7 & W8 & W9)].
      - destruct (tr_elems t); [contradiction|auto].
      - rewrite A. unfold addElement. cbn [v3zero vx vy]. rewrite W2. cbn [bind]. rewrite A. cbn [app].
        destruct i. cbn in *. subst. reflexivity. }
    unfold pushElement. rewrite En. destruct (ensure_last _ _ En) as (e0 & l & El & Fs & _). rewrite El.
    rewrite <- Fs in Q. apply N in Q. rewrite Q. reflexivity.
Qed.

Theorem C59_measurement : forall E t position precision surf id sc t',
  addMeasurement E t position precision surf id sc = (t', Throw) <->
  with_initial t t' /\
  (unusable surf \/
   exists xx tp', arrives E (tr_mass t) (from_state t) surf false (fun _ => sf_globalToLocal surf position) xx tp'
     /\ edge_on (sf_u surf position) (sf_v surf position) tp').
Proof.
  intros. unfold addMeasurement.
  apply (push_throw t t' _ (fun tp => unusable surf \/
   exists xx tp', arrives E (tr_mass t) tp surf false (fun _ => sf_globalToLocal surf position) xx tp'
     /\ edge_on (sf_u surf position) (sf_v surf position) tp')).
  intros las. apply newMeasurement_throw.
Qed.
Print Assumptions C59_measurement.

Theorem C59_scatterer : forall E t surf t',
  addScatterer E t surf = (t', Throw) <->
  with_initial t t' /\
  (unusable surf \/
   exists xx tp', arrives E (tr_mass t) (from_state t) surf true (sf_globalToLocal surf) xx tp'
     /\ edge_on (sf_u surf xx) (sf_v surf xx) tp').
Proof.
  intros. unfold addScatterer.
  apply (push_throw t t' _ (fun tp => unusable surf \/
   exists xx tp', arrives E (tr_mass t) tp surf true (sf_globalToLocal surf) xx tp'
     /\ edge_on (sf_u surf xx) (sf_v surf xx) tp')).
  intros las. apply newScatterer_throw.
Qed.
Print Assumptions C59_scatterer.

(** After any history of calls, a preparation throws only if the propagator does. *)
Definition usable_elem (e : telem) : Prop := forall surf, te_surf e = Some surf -> ~ unusable surf.

Lemma lossTerm_usable E mass e : usable_elem e -> lossTerm E mass e <> Throw.
Proof.
  intros U. unfold lossTerm. destruct (te_scat e); [|discriminate].
  destruct (te_surf e) as [surf|] eqn:Es; [|discriminate]. specialize (U _ Es).
  apply nt_bind.
  - unfold computeEnergyLoss_tp. apply nt_bind; [intros H; apply isect_throw in H; auto|].
    intros [[|] [s xx|]] _; try discriminate. nt.
  - intros [?|el] _; [discriminate|nt].
Qed.

Lemma prepareLoop_throw E t l : forall prevS, List.Forall usable_elem l -> prepareLoop E t prevS l = Throw ->
  exists getJacobian dw q ts te b n, tr_prop t = Some getJacobian /\ getJacobian m5zero dw q ts te b n = Throw.
Proof.
  assert (Tn : forall s, tr_tangentAt t s <> Throw)
    by (intros s; unfold tr_tangentAt, trajectoryElementAt; destruct (tr_elems t); cbn; discriminate).
  induction l as [|e l IH]; intros prevS F H; cbn [prepareLoop] in H; [discriminate|].
  inversion F as [|? ? F1 F2]; subst.
  destruct (prepareOne E t prevS e) as [e'| | | |] eqn:P; cbn [bind] in H; try discriminate.
  - apply (IH (te_s e) F2). destruct (prepareLoop E t (te_s e) l); cbn [bind] in H; try discriminate; auto.
  - unfold prepareOne in P. cbv zeta in P.
    apply throw_bind in P; [|auto with nt]. destruct P as (dw & _ & P).
    apply throw_bind in P; [|apply lossTerm_usable; auto]. destruct P as (nrj & _ & P).
    apply throw_bind in P; [|auto]. destruct P as (ts & _ & P).
    apply throw_bind in P; [|auto]. destruct P as (te & _ & P).
    destruct (tr_prop t) as [gj|] eqn:Eg; [|discriminate].
    match type of P with bind (gj _ ?dw ?q ?a ?b ?c ?d) _ = _ => exists gj, dw, q, a, b, c, d end. split; auto.
    match type of P with bind ?x _ = _ => destruct x eqn:Ex end; cbn [bind] in P; try discriminate. reflexivity.
Qed.

Lemma history_prop E ok tp pm cs t : history E ok (mkTraj tp pm) cs t -> tr_prop t = pm.
Proof.
  assert (PU : forall t new t' r, pushElement t new = (t', r) -> (exists b, r = Ok b) \/ r = Throw -> tr_prop t' = tr_prop t).
  { intros t0 new t' r H R. destruct (push_spec _ _ _ _ H R) as [(_ & -> & _)|(t1 & e0 & l & En & _ & C)]; auto.
    destruct (ensure_last _ _ En) as (? & ? & _ & _ & _ & Q & _).
    destruct C as [(_ & -> & _)|[(_ & -> & _)|(e & _ & _ & ->)]]; auto. }
  intros H. induction H as [|cs t c t' H IH O St]; [reflexivity|]. rewrite <- IH.
  destruct St as [position precision surf id sc t' r A R|surf t' r A R|t' A|l t' A|m].
  - exact (PU _ _ _ _ A R).
  - exact (PU _ _ _ _ A R).
  - unfold prepareForFitting in A. cbv zeta in A. destruct (tr_elems (set_elems t (en_sortE E (tr_elems t)))); [discriminate|].
    dres A. injection A as <-. reflexivity.
  - unfold getIntersectionsWithSurfaces in A. cbv zeta in A. dres A. injection A as <-. reflexivity.
  - reflexivity.
Qed.

Theorem C59_preparation : forall E tp pm cs t, env_ok E ->
  history E any_call (mkTraj tp pm) cs t -> prepareForFitting E t = Throw ->
  exists getJacobian dw q ts te b n, pm = Some getJacobian /\ getJacobian m5zero dw q ts te b n = Throw.
Proof.
  intros E tp pm cs t [S _] H P.
  assert (U : List.Forall usable_elem (tr_elems t)).
  { apply (history_P usable_elem E any_call tp pm cs t); auto.
    - intros e (A & _) surf Q. congruence.
    - intros a b (_ & _ & A & _) U surf Q. apply U. congruence.
    - intros ? ? ? ? ? surf ? ? e _ N. destruct (newMeasurement_spec _ _ _ _ _ _ _ _ _ N) as (s0 & xx & moved & fid & mom & el & B & _).
      intros surf' Q. rewrite (bu_surf _ _ _ _ _ _ _ _ _ _ _ _ _ _ _ B) in Q. injection Q as <-.
      intros V. assert (I := bu_isect _ _ _ _ _ _ _ _ _ _ _ _ _ _ _ B).
      apply (isect_throw surf (tp_par (te_tp las)) (tp_ref (te_tp las)) (OVal 0 v3zero) 1 false) in V. congruence.
    - intros ? las surf e N. destruct (newScatterer_spec _ _ _ _ _ N) as (s0 & xx & moved & fid & mom & el & B & _).
      intros surf' Q. rewrite (bu_surf _ _ _ _ _ _ _ _ _ _ _ _ _ _ _ B) in Q. injection Q as <-.
      intros V. assert (I := bu_isect _ _ _ _ _ _ _ _ _ _ _ _ _ _ _ B).
      apply (isect_throw surf (tp_par (te_tp las)) (tp_ref (te_tp las)) (OVal 0 v3zero) 1 true) in V. congruence. }
  assert (Pm : tr_prop t = pm) by (eapply history_prop; eauto).
  unfold prepareForFitting in P. cbv zeta in P. cbn [tr_elems set_elems] in P.
  destruct (S (tr_elems t)) as [Per _].
  assert (U' : List.Forall usable_elem (en_sortE E (tr_elems t))).
  { apply List.Forall_forall. intros x I. rewrite List.Forall_forall in U. apply U.
    eapply Permutation_in; [symmetry; exact Per|auto]. }
  destruct (en_sortE E (tr_elems t)) as [|e0 l]; [discriminate|].
  destruct (prepareLoop E _ 0 l) eqn:L; cbn [bind] in P; try discriminate.
  inversion U'; subst. apply prepareLoop_throw in L; auto.
Qed.
Print Assumptions C59_preparation.

(** a station whose two measurement directions are the same: every track arrives
    edge-on *)
Definition ex_flat (h th : R) (inb : vec3 -> bool) : surface :=
  Surf 1 (ST false true false false true) None inb (fun _ => V3 1 0 0) (fun _ => V3 1 0 0)
    (fun _ => V3 0 0 1) (fun x => (vx x, vy x)) (fun uv => V3 (fst uv) (snd uv) h) (V3 0 0 h)
    ex_silicon ex_silicon th 0 (fun x => vz x - h).

Example C59_edge_on_instance : forall pm, exists th t', 
  addMeasurement ex_env (ex_traj pm) v3zero [1; 1] (ex_flat 1 th (fun _ => true)) 7 true = (t', Throw)
  /\ tr_elems t' = [ex_initial] /\ ~ unusable (ex_flat 1 th (fun _ => true)).
Proof.
  intros pm. destruct (ex_first_hit pm 1 (fun _ => true) v3zero [1; 1] 7 true ltac:(lra)) as (th & e & _ & A & N).
  destruct (newMeasurement_spec _ _ _ _ _ _ _ _ _ N) as (s0 & xx & moved & fid & mom & el & B & _).
  exists th, (set_elems (ex_traj pm) [ex_initial]). split; [|split; [reflexivity|rewrite unusable_eq; intros []]].
  apply C59_measurement. split.
  - right. split; [reflexivity|]. exists ex_initial. repeat split. apply ex_first.
  - right. exists xx, (te_tp e). split.
    + exists s0, moved, fid, mom, el. split; [exact (bu_isect _ _ _ _ _ _ _ _ _ _ _ _ _ _ _ B)|].
      split; [exact (bu_move _ _ _ _ _ _ _ _ _ _ _ _ _ _ _ B)|].
      split; [exact (bu_mom _ _ _ _ _ _ _ _ _ _ _ _ _ _ _ B)|].
      split; [exact (bu_loss _ _ _ _ _ _ _ _ _ _ _ _ _ _ _ B)|exact (bu_tp _ _ _ _ _ _ _ _ _ _ _ _ _ _ _ B)].
    + unfold edge_on, vdot, vcross. cbn. ring.
Qed.

(** a vertical plane with a vertical normal is unusable *)
Example C59_unusable_instance : forall d, unusable
  (Surf 3 (ST false true false true false) None (fun _ => true) (fun _ => V3 1 0 0) (fun _ => V3 0 1 0)
    (fun _ => V3 0 0 1) (fun x => (vx x, vy x)) (fun uv => V3 (fst uv) (snd uv) d) (V3 0 0 d)
    ex_silicon ex_silicon 0 0 (fun x => vz x - d)).
Proof. intros d. rewrite unusable_eq. cbn. rewrite Rabs_R0. split; lra. Qed.
