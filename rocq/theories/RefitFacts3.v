(** The refitting program: from the parts of a refit back to a run. *)
From Coq Require Import Reals List Bool ZArith Lra Lia Permutation FunctionalExtensionality.
From Coquelicot Require Import Coquelicot.
From Verif Require Import Num Vec Helix Isect Trans Material Traj Fit LCIO Refit.
From Verif Require Import NumFacts SpecMat SpecHelix SpecTraj SpecElem SpecFit SpecLCIO SpecRefit
  TrajFacts4 FitFacts PropTraj PropTraj2 RefitFacts RefitFacts2.
Import ListNotations.
Open Scope R_scope.

(** ** hits *)
Lemma rsqrt_pos x y : 0 <= y -> y * y = x -> rsqrt x = Ok y.
Proof.
  intros P Q. unfold rsqrt. destruct (Rlt_dec x 0) as [L|L]; [nra|]. rewrite <- Q, sqrt_square; auto.
Qed.

Lemma sqr_nz x : x <> 0 -> x * x <> 0.
Proof. intros N. apply Rmult_integral_contrapositive. auto. Qed.

Lemma measured_info C h surf pos prec :
  measured C h surf pos prec -> getHitInfo C h surf = Ok (pos, prec).
Proof.
  intros (-> & du & dv & p1 & Pl & Cv & Nu & -> & P1 & P2). unfold getHitInfo. rewrite inUnits_scale.
  assert (Iv : forall a, 1 / a = / a) by (intros a; unfold Rdiv; ring).
  assert (Fin : forall dvr, (re_1D C surf = false -> dvr = Ok (dv * re_mm C)) ->
    (p0 <- rdiv 1 (du * re_mm C * (du * re_mm C)) ;;
      if re_1D C surf then Ok (vscale (re_mm C) (h_pos h), [p0; 0])
      else dv <- dvr ;; p1 <- rdiv 1 (dv * dv) ;; Ok (vscale (re_mm C) (h_pos h), [p0; p1]))
    = Ok (vscale (re_mm C) (h_pos h), [/ Rsqr (du * re_mm C); p1])).
  { intros dvr D. rewrite rdiv_ok by (apply sqr_nz; auto). cbn [bind]. rewrite Iv. destruct (re_1D C surf).
    - rewrite P1 by auto. reflexivity.
    - rewrite D by auto. destruct P2 as [N ->]; auto. cbn [bind]. rewrite rdiv_ok by (apply sqr_nz; auto). cbn [bind].
      rewrite Iv. reflexivity. }
  destruct (h_plane h) as [[dU dV]|].
  - destruct (Pl _ _ eq_refl) as [<- <-]. cbn [bind fst snd]. apply (Fin (Ok (dv * re_mm C))). auto.
  - destruct (Cv eq_refl) as (c0 & c1 & c2 & c3 & c4 & c5 & rest & -> & Pu & Su & V). unfold vec_at. cbn [nth_error bind fst snd].
    rewrite (rsqrt_pos _ du) by auto. cbn [bind]. apply Fin. intros Q. destruct (V Q) as [Pv Sv].
    rewrite (rsqrt_pos _ dv) by auto. reflexivity.
Qed.

Lemma latest_unique hits P h h' : latest hits P h -> latest hits P h' -> h' = h.
Proof.
  intros (l1 & l2 & E & A & B) (m1 & m2 & E' & A' & B'). rewrite E in E'. clear E hits. revert m1 E'.
  induction l1 as [|x l1 IH]; intros m1 E'; destruct m1 as [|y m1]; cbn in E'.
  - congruence.
  - exfalso. injection E' as _ E'. apply (B h'); auto. rewrite E'. apply in_or_app. right. left. auto.
  - exfalso. injection E' as _ E'. apply (B' h); auto. rewrite <- E'. apply in_or_app. right. left. auto.
  - injection E' as _ E'. apply (IH _ E').
Qed.

(** ** histories from the front *)
Lemma history_front E ok : forall cs t0 t c, history E ok t0 (c :: cs) t ->
  exists t1, ok t0 c /\ step E t0 c t1 /\ history E ok t1 cs t.
Proof.
  induction cs as [|d cs IH] using rev_ind; intros t0 t c H.
  - inversion H as [|cs' t' c' t'' H1 O St Q]; subst. destruct cs' as [|x cs']; cbn in Q.
    + injection Q as ->. inversion H1; subst; [|destruct cs; discriminate]. exists t. split; auto. split; auto. constructor.
    + injection Q as _ Q. destruct cs'; discriminate.
  - inversion H as [|cs' t' c' t'' H1 O St Q]; subst.
    change (c :: cs ++ [d]) with ((c :: cs) ++ [d]) in Q. apply app_inj_tail in Q. destruct Q as [-> ->].
    destruct (IH _ _ _ H1) as (t1 & A & B & D). exists t1. split; auto. split; auto. eapply hist_snoc; eauto.
Qed.

Lemma history_empty E ok t0 t : history E ok t0 [] t -> t = t0.
Proof. intros H. inversion H; subst; auto. destruct cs; discriminate. Qed.

Lemma history_last E ok t0 cs c t : history E ok t0 (cs ++ [c]) t ->
  exists t1, history E ok t0 cs t1 /\ ok t1 c /\ step E t1 c t.
Proof.
  intros H. inversion H as [Q|cs' t' c' t'' H1 O St Q]; subst.
  - destruct cs; discriminate.
  - apply app_inj_tail in Q. destruct Q as [-> ->]. eauto.
Qed.

Lemma meas_step E t pos prec surf id sc t1 : returning E t (CMeas pos prec surf id sc) ->
  step E t (CMeas pos prec surf id sc) t1 -> ignoring (addMeasurement E t pos prec surf id sc) = Ok t1.
Proof.
  intros (b & R) St. inversion St as [? ? ? ? ? ? r A O| | | |]; subst. rewrite A in *. cbn in R. subst r. reflexivity.
Qed.

Lemma scat_step E t surf t1 : returning E t (CScat surf) ->
  step E t (CScat surf) t1 -> ignoring (addScatterer E t surf) = Ok t1.
Proof.
  intros (b & R) St. inversion St as [|? ? r A O| | |]; subst. rewrite A in *. cbn in R. subst r. reflexivity.
Qed.

(** ** the trajectory *)
Lemma call_for_back C S hits m surf : hitMap hits = Ok m ->
  (forall h, In (Some h) (single_hits hits) -> is_int (h_cell h)) ->
  forall t, (call_for C S hits surf None -> addCrossing C S m t surf = Ok t)
    /\ (forall c t1, call_for C S hits surf (Some c) -> returning (re_env C) t c -> step (re_env C) t c t1 ->
          addCrossing C S m t surf = Ok t1).
Proof.
  intros M Hi t. assert (Fd := hitMap_find C hits m surf M Hi). unfold addCrossing.
  destruct (mapFind m (to_int (re_cell C surf))) as [h|]; split.
  - intros [(h' & pos & prec & _ & _ & Q)|[N _]]; [discriminate|]. exfalso.
    destruct Fd as (l1 & l2 & Q & B & _). apply (N h); auto. rewrite Q. apply in_or_app. right. left. auto.
  - intros c t1 [(h' & pos & prec & L & Me & Q)|[N _]] R St.
    + injection Q as ->. assert (h' = h) as -> by (eapply latest_unique; eauto).
      rewrite (measured_info _ _ _ _ _ Me). cbn [bind fst snd]. apply meas_step; auto.
    + exfalso. destruct Fd as (l1 & l2 & Q & B & _). apply (N h); auto. rewrite Q. apply in_or_app. right. left. auto.
  - intros [(h' & pos & prec & _ & _ & Q)|[_ [(_ & _ & Q)|(O & _)]]]; try discriminate.
    destruct (sg_qms S); auto. destruct O as [O|[O1 O2]]; [discriminate|].
    destruct (Rlt_dec (mat_density (sf_innerMaterial surf)) (/ 1000000)); [|contradiction].
    destruct (Rlt_dec (mat_density (sf_outerMaterial surf)) (/ 1000000)); [auto|contradiction].
  - intros c t1 [(h' & pos & prec & (l1 & l2 & Q & B & _) & _)|[_ [(Sq & Ne & Q)|(_ & Q)]]] R St; try discriminate.
    + exfalso. apply (Fd h'); auto. rewrite Q. apply in_or_app. right. left. auto.
    + injection Q as ->. rewrite Sq. assert (Ig := scat_step _ _ _ _ R St). unfold empty_surface in Ne.
      destruct (Rlt_dec (mat_density (sf_innerMaterial surf)) (/ 1000000)); auto.
      destruct (Rlt_dec (mat_density (sf_outerMaterial surf)) (/ 1000000)); auto. exfalso. auto.
Qed.

Lemma addCrossings_back C S hits m : hitMap hits = Ok m ->
  (forall h, In (Some h) (single_hits hits) -> is_int (h_cell h)) ->
  forall l calls t t', Forall2 (fun c oc => call_for C S hits (snd c) oc) l calls ->
  history (re_env C) (returning (re_env C)) t (somes calls) t' -> addCrossings C S m t l = Ok t'.
Proof.
  intros M Hi. induction l as [|[s surf] l IH]; intros calls t t' F H; inversion F as [|? oc ? calls' F1 F2]; subst.
  - apply history_empty in H. subst. reflexivity.
  - cbn [addCrossings]. destruct (call_for_back C S hits m surf M Hi t) as [B0 B1]. cbn [snd] in F1.
    destruct oc as [c|].
    + change (somes (Some c :: calls')) with (c :: somes calls') in H.
      destruct (history_front _ _ _ _ _ _ H) as (t1 & R & St & H1). rewrite (B1 _ _ F1 R St). cbn [bind]. eauto.
    + rewrite (B0 F1). cbn [bind]. eauto.
Qed.

Lemma all_found_unique t : forall l a b, all_found t l a -> all_found t l b -> a = b.
Proof.
  induction l as [|surf l IH]; intros a b A B; inversion A; subst; inversion B; subst; auto.
  - f_equal; [f_equal; eapply found_unique; eauto|eauto].
  - exfalso. match goal with H : forall s, ~ found _ _ s |- _ => eapply H; eauto end.
  - exfalso. match goal with H : forall s, ~ found _ _ s |- _ => eapply H; eauto end.
Qed.

Lemma makeTrajectory_back C S itp hits t : env_ok (re_env C) ->
  (forall h, In (Some h) (single_hits hits) -> is_int (h_cell h)) -> ~ In None (single_hits hits) ->
  (let t0 := mkTraj itp (Some (re_prop C)) in
   forall s surf surf', In surf (re_surfaces C) -> In surf' (re_surfaces C) ->
     found t0 surf s -> found t0 surf' s -> surf = surf') ->
  refit_trajectory C S itp hits t -> makeTrajectory C S itp hits = Ok t.
Proof.
  intros Eo Hi Nn Tie (crossings & calls & Od & (ents & Pm & Af) & F & H). unfold makeTrajectory.
  assert (exists m, hitMap hits = Ok m) as [m M].
  { unfold hitMap. rewrite lcioHits_spec. destruct (hitMap_loop_spec (single_hits hits) []) as [A _].
    destruct A as (hs & _ & ->); [|eauto]. intros o I ->. auto. }
  rewrite M. cbn [bind]. set (t0 := mkTraj itp (Some (re_prop C))) in *.
  destruct (history_front _ _ _ _ _ _ H) as (t1 & _ & St & H1).
  inversion St as [| | |? ? G|]; subst. rewrite G. cbn [bind].
  destruct (C38_intersections _ _ _ _ Eo G) as (Od' & (ents' & Pm' & Af' & Ie) & _).
  change (tr_isect t0 ++ ents') with ents' in Pm'.
  assert (ents' = ents) as -> by (eapply all_found_unique; eauto).
  assert (Q : crossings = tr_isect t1).
  { apply (sorted_unique fst); auto.
    - transitivity ents; auto. symmetry. auto.
    - intros [s surf] [s' surf'] Ia Ib E. cbn in E. subst s'.
      apply (Permutation_in _ (Permutation_sym Pm)) in Ia. apply (Permutation_in _ (Permutation_sym Pm)) in Ib.
      apply Ie in Ia. apply Ie in Ib. f_equal. eapply Tie; tauto || (destruct Ia, Ib; eauto). }
  subst crossings. destruct (history_last _ _ _ _ _ _ H1) as (t2 & H2 & _ & St2).
  rewrite (addCrossings_back C S hits m M Hi _ _ _ _ F H2). cbn [bind]. inversion St2; subst. auto.
Qed.

(** ** the preliminary fit and the result *)
Lemma prefitHits_back C : forall l calls t t', Forall2 (prefit_call C) l calls ->
  history (re_env C) (returning (re_env C)) t (somes calls) t' -> prefitHits C t l = Ok t'.
Proof.
  induction l as [|th l IH]; intros calls t t' F H; inversion F as [|? oc ? calls' F1 F2]; subst.
  - apply history_empty in H. subst. reflexivity.
  - cbn [prefitHits]. assert (Fd := surfMap_find C (h_cell (th_hit th))).
    destruct F1 as [(l1 & surf & l2 & pos & prec & Q & Ce & Ns & Me & ->)|[N ->]].
    + destruct (mapFind (surfMap C) (h_cell (th_hit th))) as [surf'|].
      * destruct Fd as (m1 & m2 & Q' & Ce' & Ns'). assert (surf' = surf) as ->.
        { rewrite Q in Q'. clear - Q' Ce Ce' Ns Ns'. revert m1 Q'.
          induction l1 as [|x l1 IH]; intros m1 Q'; destruct m1 as [|y m1]; cbn in Q'.
          - congruence.
          - exfalso. injection Q' as _ Q'. apply (Ns surf'); auto. rewrite Q'. apply in_or_app. right. left. auto.
          - exfalso. injection Q' as _ Q'. apply (Ns' surf); auto. rewrite <- Q'. apply in_or_app. right. left. auto.
          - injection Q' as _ Q'. apply (IH _ Q'). }
        rewrite (measured_info _ _ _ _ _ Me). cbn [bind fst snd].
        change (somes (Some ?c :: calls')) with (c :: somes calls') in H.
        destruct (history_front _ _ _ _ _ _ H) as (t1 & R & St & H1). rewrite (meas_step _ _ _ _ _ _ _ _ R St). cbn [bind]. eauto.
      * exfalso. apply (Fd surf); auto. rewrite Q. apply in_or_app. right. left. auto.
    + destruct (mapFind (surfMap C) (h_cell (th_hit th))) as [surf'|]; [|eauto].
      exfalso. destruct Fd as (m1 & m2 & Q' & Ce' & _). apply (N surf'); auto. rewrite Q'. apply in_or_app. right. left. auto.
Qed.

Lemma result_back C t points fr : makePoints (tr_elems t) = Ok points ->
  is_result (re_env C) (re_gbl C) points t 0 fr ->
  fit_value C t = Ok (Z.eqb (fst (gbl_fit (re_gbl C) points)) 0, fr).
Proof.
  intros Mp (e & J & rv & chi2 & ndf & lost & err & corr & cov & _ & N & Q & G & R & V & X & L & D & Rf & P0 & P1 & Cv).
  unfold fit_value. rewrite Mp. cbn [bind]. rewrite G. unfold computeResults. rewrite R.
  unfold elementIndex. rewrite N. cbn [Z.ltb Z.compare bind]. rewrite Q. cbn [bind fst].
  destruct fr as [va ch nd lo [cv pa rf]]. cbn in *. subst. do 4 f_equal.
  unfold tp_setCov, tp_setRef, tp_setPar. cbn. f_equal.
  - extensionality i. extensionality j. rewrite Cv. unfold similarity, m5mul, m5transpose, sum5. ring.
  - extensionality i. destruct (Z.eqb_spec err 0) as [Z0|Z0].
    + rewrite (P0 Z0). reflexivity.
    + rewrite (P1 Z0). unfold v5add, m5mulv, sum5, mk5. cbn. ring.
Qed.

Lemma chosen_unique hits l l' : chosen hits l -> chosen hits l' -> l = l'.
Proof.
  intros A B. assert (E : forall i, nth_error l i = nth_error l' i) by (intros i; rewrite (A i), (B i); reflexivity).
  clear A B. revert l' E. induction l as [|x l IH]; intros [|y l'] E; auto.
  - specialize (E 0%nat). discriminate.
  - specialize (E 0%nat). discriminate.
  - assert (E0 := E 0%nat). injection E0 as ->. f_equal. apply IH. intros i. apply (E (S i)).
Qed.

Lemma createPreFit_back C st tp hits itp : prefitted C tp hits itp -> snd (createPreFit C st tp hits) = Ok itp.
Proof.
  intros (mv & fid & l & calls & t & points & Mv & Ch & F & H & Mp & R0 & R1). unfold createPreFit. rewrite Mv.
  cbn [sbind fst]. rewrite (chosen_unique _ _ _ (prefit_chosen hits) Ch).
  destruct (history_last _ _ _ _ _ _ H) as (t2 & H2 & _ & St2).
  rewrite (prefitHits_back C _ _ _ _ F H2). cbn [sbind]. inversion St2 as [| |? P| |]; subst. rewrite P. cbn [sbind].
  assert (Rv := runFit_value C st t). assert (Fr := fit_result C st t).
  destruct (runFit C st t) as [st1 r]. cbn [snd] in Rv. subst r. rewrite Mp in *. cbn [bind sbind] in *.
  destruct (Z.eqb_spec (fst (gbl_fit (re_gbl C) points)) 0) as [Z0|Z0].
  - destruct (R0 Z0) as (fr & R & ->). rewrite (result_back C t points fr Mp R) in Fr.
    destruct (firstResult C st1 t) as [st2 [fr'| | | |]]; cbn [sbind snd] in *; try discriminate. congruence.
  - cbn [snd]. rewrite (R1 Z0). reflexivity.
Qed.

Lemma fillTrack_ok C hits fr : re_mm C <> 0 -> exists o, fillTrack C hits fr = Ok o.
Proof.
  intros M. unfold fillTrack. destruct (fr_tp fr) as [cov par [rx ry rz]] eqn:Tp.
  unfold createLCIO. cbn [tp_par tp_cov tp_ref vx vy vz].
  assert (MM : re_mm C * re_mm C <> 0) by (apply Rmult_integral_contrapositive; auto).
  rewrite !rdiv_ok by auto. cbn [bind]. eauto.
Qed.
