(** Proofs about the points handed to the fitter. *)
From Coq Require Import Reals List Bool ZArith Lra Lia Permutation.
From Verif Require Import Num Vec Helix Isect Trans Material Traj NumFacts MoveFacts SpecTraj TrajFacts TrajFacts2 TrajFacts3 TrajFacts5
  SpecElem ElemFacts Fit SpecFit FitFacts.
Import ListNotations.
Open Scope R_scope.

Record elem_ok (A : telem -> res R -> Prop) (e : telem) : Prop := {
  eo_meas : te_meas e = true -> exists u v p r0 r1,
     te_dirs e = Some [u; v] /\ te_proj e = Some p /\ te_res e = [r0; r1];
  eo_scat : te_scat e = true -> exists pre q th,
     te_prec e = pre ++ [q; Some 0; Some 0] /\ A e th /\ qms2 th = Ok q
}.

Lemma elem_ok_jac E ref prop cs a b : same_but_jacobian a b ->
  elem_ok (scattering_angle E ref prop cs) a -> elem_ok (scattering_angle E ref prop cs) b.
Proof.
  intros (A1 & A2 & A3 & A4 & A5 & A6 & A7 & A8 & A9 & A10 & A11) [M S]. constructor.
  - rewrite <- A4, <- A6, <- A8, <- A10. auto.
  - rewrite <- A5, <- A7. unfold scattering_angle in *. rewrite <- A2, <- A3. auto.
Qed.

Lemma applyLoss_keep tp el tp' : applyLoss tp el = Ok tp' ->
  tp_ref tp' = tp_ref tp /\ forall i, i <> OMEGA -> tp_par tp' i = tp_par tp i.
Proof.
  unfold applyLoss. intros H. dres H. dres H. injection H as <-. cbn. split; auto.
  intros i N. unfold v5set. destruct i; cbn; auto. contradiction.
Qed.

Lemma move_ref tp v tp' fid : moveHelixTo tp v false = Ok (tp', fid) -> tp_ref tp' = v.
Proof.
  intros H. destruct (Req_dec (tp_par tp OMEGA) 0) as [Z|Z].
  { rewrite move_diverges_or_nonfin in H by auto. discriminate. }
  destruct (moveHelixTo_closed tp v false Z) as (p' & fi & a & b & _ & _ & _ & _ & _ & Eq).
  rewrite Eq in H. cbv iota in H. injection H as <- _. reflexivity.
Qed.

Lemma newMeasurement_elem E mass las position precision surf id sc e :
  newMeasurement E mass las position precision surf id sc = Ok (Some e) ->
  te_meas e = true /\ te_jac e = None
  /\ ((2 <= length (te_prec e))%nat <-> precision <> [] \/ sc = true).
Proof.
  intros H. destruct (newMeasurement_spec _ _ _ _ _ _ _ _ _ H)
    as (s0 & xx & mv & fid & mom & el & B & D & Rs & _ & pl & Pl & Pr).
  split; [apply (bu_meas _ _ _ _ _ _ _ _ _ _ _ _ _ _ _ B)|].
  split; [apply (bu_jac _ _ _ _ _ _ _ _ _ _ _ _ _ _ _ B)|].
  destruct Pl as [(-> & ->)|(-> & q & _ & ->)]; rewrite Pr.
  + destruct precision as [|p0 [|p1 l]]; cbn [map length]; split; intros W; try lia;
      try (left; discriminate). destruct W as [W|W]; [contradiction|discriminate].
  + destruct precision as [|p0 [|p1 l]]; cbn [map app length]; split; intros W; auto; try lia.
Qed.

Lemma newScatterer_elem E mass las surf e :
  newScatterer E mass las surf = Ok (Some e) -> te_meas e = false /\ te_jac e = None.
Proof.
  intros H. destruct (newScatterer_spec _ _ _ _ _ H)
    as (s0 & xx & mv & fid & mom & el & B & D & Rs & _ & q & Hq & Pr).
  split; [apply (bu_meas _ _ _ _ _ _ _ _ _ _ _ _ _ _ _ B)|apply (bu_jac _ _ _ _ _ _ _ _ _ _ _ _ _ _ _ B)].
Qed.

(** ** all reachable elements *)
Definition elem_prec (e : telem) : Prop := te_meas e = true -> (2 <= length (te_prec e))%nat.

Lemma ensure_P (P : telem -> Prop) t t1 :
  (forall e, plain e -> P e) -> List.Forall P (tr_elems t) -> ensureInitial t = Ok t1 -> List.Forall P (tr_elems t1).
Proof.
  intros HP F H. destruct (ensure_spec _ _ H) as [(_ & ->)|(_ & s & _ & ->)]; auto.
  cbn. constructor; auto. apply HP. repeat split.
Qed.

Lemma push_P (P : telem -> Prop) t new t' r :
  (forall e, plain e -> P e) -> (forall las e, new las = Ok (Some e) -> P e) ->
  List.Forall P (tr_elems t) -> pushElement t new = (t', r) -> (exists b, r = Ok b) \/ r = Throw ->
  List.Forall P (tr_elems t').
Proof.
  intros HP HN F H R. destruct (push_spec _ _ _ _ H R) as [(_ & -> & _)|(t1 & e0 & l & En & _ & C)]; auto.
  assert (F1 := ensure_P P _ _ HP F En).
  destruct C as [(_ & -> & _)|[(_ & -> & _)|(e & _ & N & ->)]]; auto.
  cbn. apply Forall_app. split; auto. constructor; eauto.
Qed.

Lemma prepare_P (P : telem -> Prop) E t t' : (forall a b, same_but_jacobian a b -> P a -> P b) ->
  sorts te_s (en_sortE E) -> List.Forall P (tr_elems t) -> prepareForFitting E t = Ok t' ->
  List.Forall P (tr_elems t').
Proof.
  intros HP S F H. destruct (prepare_elems _ _ _ S H) as (l & Pm & _ & F2 & _).
  apply List.Forall_forall. intros e I. destruct (forall2_in_r _ _ _ _ F2 I) as (x & X1 & X2).
  eapply HP; eauto. rewrite List.Forall_forall in F. apply F. eapply Permutation_in; [apply Permutation_sym; eauto|auto].
Qed.

Lemma plain_ok A e : plain e -> elem_ok A e.
Proof. intros (_ & M & S). constructor; congruence. Qed.

Lemma history_P (P : telem -> Prop) E (ok : traj -> call -> Prop) tp pm cs t :
  (forall e, plain e -> P e) ->
  (forall a b, same_but_jacobian a b -> P a -> P b) ->
  (forall t mass las position precision surf id sc e, ok t (CMeas position precision surf id sc) ->
     newMeasurement E mass las position precision surf id sc = Ok (Some e) -> P e) ->
  (forall mass las surf e, newScatterer E mass las surf = Ok (Some e) -> P e) ->
  sorts te_s (en_sortE E) -> history E ok (mkTraj tp pm) cs t -> List.Forall P (tr_elems t).
Proof.
  intros P1 P2 P3 P4 S H. induction H as [|cs t c t' H IH O St]; [constructor|].
  destruct St as [position precision surf id sc t' r A R|surf t' r A R|t' A|l t' A|m].
  - apply (push_P P _ _ _ _ P1) with (3 := A); auto. intros las e N. exact (P3 _ _ _ _ _ _ _ _ _ O N).
  - apply (push_P P _ _ _ _ P1) with (3 := A); auto. intros las e N. exact (P4 _ _ _ _ N).
  - exact (prepare_P P _ _ _ P2 S IH A).
  - unfold getIntersectionsWithSurfaces in A. cbv zeta in A. dres A. injection A as <-. exact IH.
  - exact IH.
Qed.

Lemma made_ok E ref prop cs e : made_in E any_call ref prop cs e -> elem_ok (scattering_angle E ref prop cs) e.
Proof.
  intros (cs1 & c & cs2 & t1 & -> & H & M).
  destruct M as (s0 & s & xx & mom & m & n & p & F & Es & Ec & Ed & Ep & Ip & Ej & C).
  destruct c as [position precision surf id sc|surf| | |]; [| |destruct C|destruct C|destruct C].
  - cbv zeta in C. destruct C as (A & Esf & Em & Esc & Ei & _ & _ & Er & Pt & Pf). constructor.
    + intros _. do 5 eexists. eauto.
    + intros Q. rewrite Q in Esc. subst sc. destruct (Pt eq_refl) as (q & Sq & Pr).
      exists (map Some precision), q, (computeQMS_uv surf (sf_globalToLocal surf xx) mom (tr_mass t1)).
      split; auto. split; [|apply squared_angle_iff; auto].
      exists cs1, (CMeas position precision surf id true), cs2, t1, surf, false, (fun _ => sf_globalToLocal surf position), s, xx, mom.
      split; auto. split; auto. split; auto. split; [right; eauto 10|]. auto.
  - destruct C as (A & Esf & Em & Esc & Ei & _ & _ & Er & q & Sq & Pr). constructor; [intros; congruence|].
    intros _. exists [], q, (computeQMS_uv surf (sf_globalToLocal surf xx) mom (tr_mass t1)).
    split; auto. split; [|apply squared_angle_iff; auto].
    exists cs1, (CScat surf), cs2, t1, surf, true, (sf_globalToLocal surf), s, xx, mom. auto 10.
Qed.

Lemma history_ok E tp pm cs t : sorts te_s (en_sortE E) ->
  history E any_call (mkTraj tp pm) cs t -> List.Forall (elem_ok (scattering_angle E tp pm cs)) (tr_elems t).
Proof.
  intros S H. apply List.Forall_forall. intros e I.
  destruct (history_made _ _ _ _ _ _ _ S H I) as (e0 & J & [(_ & _ & P1 & P2 & P3 & _)|M]);
    apply elem_ok_jac with e0; auto.
  - apply plain_ok. repeat split; auto.
  - apply made_ok. auto.
Qed.

Lemma history_prec E (ok : traj -> call -> Prop) tp pm cs t : sorts te_s (en_sortE E) ->
  (forall t c, ok t c -> has_precision t c) ->
  history E ok (mkTraj tp pm) cs t -> List.Forall elem_prec (tr_elems t).
Proof.
  intros S O H. eapply history_P; eauto.
  - intros e (_ & M & _) Q. congruence.
  - intros a b (_ & _ & _ & A4 & _ & _ & A7 & _) Q. unfold elem_prec. rewrite <- A4, <- A7. auto.
  - intros ? ? ? ? ? ? ? ? ? Ok0 N _. apply (newMeasurement_elem _ _ _ _ _ _ _ _ _ N). apply (O _ _ Ok0).
  - intros ? ? ? ? N Q. destruct (newScatterer_elem _ _ _ _ _ N) as (M & _). congruence.
Qed.

(** after the preparation all elements have a Jacobian *)
Lemma prepared_jac E t prevS l l' : prepared E t prevS l l' -> List.Forall (fun e => te_jac e <> None) l'.
Proof. intros H. induction H; constructor; auto. congruence. Qed.

Lemma prepare_jac E t t' : prepareForFitting E t = Ok t' -> List.Forall (fun e => te_jac e <> None) (tr_elems t').
Proof.
  intros H. destruct (prepare_spec _ _ _ H) as (e0 & l & e0' & l' & _ & -> & _ & J & Pr). cbn.
  constructor; [congruence|]. eapply prepared_jac; eauto.
Qed.

(** ** the points *)
Lemma scat_value th a : qms2 th = Ok a ->
  scatMatrix a (Some 0) (Some 0) = match th with
    | Ok x => if Req_EM_T x 0 then None else Some (1 / (x * x), 0, 0, 1 / (x * x)) | _ => None end.
Proof.
  destruct th as [x| | | |]; cbn; intros Q; try discriminate; injection Q as <-; auto.
  unfold scatMatrix. destruct (Req_EM_T x 0) as [->|N]; destruct (Req_EM_T _ 0) as [M|M]; auto.
  - exfalso. apply M. ring.
  - exfalso. apply N. apply Rsqr_0_uniq. exact M.
  - cbv zeta. do 2 f_equal; [f_equal; [f_equal|]|]; field; auto.
Qed.

Lemma makePoint_ok E ref prop cs e p : elem_ok (scattering_angle E ref prop cs) e -> makePoint e = Ok p ->
  point_for E ref prop cs e p.
Proof.
  intros [M S] H. unfold makePoint in H. destruct (te_jac e) as [jac|] eqn:J; [|discriminate].
  dres H. dres H. injection H as <-. unfold point_for. cbn [gp_jac gp_meas gp_scat].
  split; auto. unfold measPart in B. unfold scatPart in B0.
  split; [intros Q; rewrite Q in B; injection B as <-; auto|].
  split; [|split; [intros Q; rewrite Q in B0; injection B0 as <-; auto|]].
  - intros Q. rewrite Q in B. destruct (M Q) as (u & v & pr & r0 & r1 & D & P & Rs).
    rewrite D, P, Rs in B. cbn [length Nat.ltb Nat.leb] in B.
    destruct (te_prec e) as [|p0 [|p1 rest]] eqn:Ep; try discriminate. injection B as <-.
    eexists. split; eauto. exists pr, r0, r1, p0, p1, rest. auto.
  - intros Q. rewrite Q in B0. destruct (S Q) as (pre & q & th & Ep & An & Qm).
    rewrite Ep, rev_app_distr in B0. cbn [rev app] in B0. injection B0 as <-.
    eexists. split; eauto. exists th. split; auto. rewrite (scat_value _ _ Qm).
    destruct th as [x| | | |]; try discriminate; [|right; auto].
    destruct (Req_EM_T x 0) as [->|N]; [right; auto|left; eauto].
Qed.

Lemma makePoint_cases A e : elem_ok A e ->
  (fittable e -> exists p, makePoint e = Ok p) /\ (~ fittable e -> makePoint e = UB).
Proof.
  intros [M S]. unfold fittable, makePoint. destruct (te_jac e) as [jac|].
  2: split; [intros [W _]; congruence|auto].
  assert (Sp : exists s, scatPart e = Ok s).
  { unfold scatPart. destruct (te_scat e); eauto. destruct (S eq_refl) as (pre & q & th & Ep & _).
    rewrite Ep, rev_app_distr. cbn [rev app]. eauto. }
  destruct Sp as [s Sp]. rewrite Sp. unfold measPart. destruct (te_meas e).
  - destruct (M eq_refl) as (u & v & pr & r0 & r1 & D & P & Rs). rewrite D, P, Rs.
    cbn [length Nat.ltb Nat.leb]. destruct (te_prec e) as [|p0 [|p1 rest]]; cbn [bind length].
    1-2: split; [intros [_ W]; specialize (W eq_refl); lia|auto].
    split; [eauto|]. intros W. exfalso. apply W. split; [discriminate|intros _; lia].
  - cbn [bind]. split; [eauto|]. intros W. exfalso. apply W. split; discriminate.
Qed.

Lemma makePoints_ok E ref prop cs l : List.Forall (elem_ok (scattering_angle E ref prop cs)) l ->
  forall ps, makePoints l = Ok ps -> Forall2 (point_for E ref prop cs) l ps.
Proof.
  induction 1 as [|e l H F IH]; cbn; intros ps Q.
  - injection Q as <-. constructor.
  - dres Q. dres Q. injection Q as <-. constructor; auto. eapply makePoint_ok; eauto.
Qed.

Lemma makePoints_cases A l : List.Forall (elem_ok A) l ->
  (List.Forall fittable l -> exists ps, makePoints l = Ok ps)
  /\ (~ List.Forall fittable l -> makePoints l = UB).
Proof.
  induction 1 as [|e l H F [I1 I2]]; cbn.
  - split; [eauto|]. intros W. exfalso. apply W. constructor.
  - destruct (makePoint_cases _ _ H) as [M1 M2]. split.
    + intros W. inversion W; subst. destruct (M1 H2) as [p ->]. destruct (I1 H3) as [ps ->]. cbn. eauto.
    + intros W. assert (D : fittable e \/ ~ fittable e).
      { unfold fittable. destruct (te_jac e); [|right; intros [X _]; congruence].
        destruct (te_meas e); [|left; split; discriminate].
        destruct (Compare_dec.le_lt_dec 2 (length (te_prec e))); [left; split; [discriminate|auto]|].
        right. intros [_ X]. specialize (X eq_refl). lia. }
      destruct D as [D|D]; [|rewrite M2 by auto; auto].
      destruct (M1 D) as [p ->]. cbn. rewrite I2; auto.
Qed.
