(** The refitting program: the start helix and the preliminary fit. *)
From Coq Require Import Reals List Bool ZArith Lra Lia Permutation.
From Coquelicot Require Import Coquelicot.
From Verif Require Import Num Vec Helix Isect Trans Material Traj Fit LCIO Refit.
From Verif Require Import NumFacts SpecMat SpecHelix SpecTraj SpecElem SpecFit SpecLCIO SpecRefit
  HelixFacts MoveFacts FitFacts PropMove PropStart PropTraj PropTraj2 RefitFacts.
Import ListNotations.
Open Scope R_scope.

Lemma inUnits_scale mm p : inUnits mm p = vscale mm p.
Proof. unfold inUnits, vscale. f_equal; ring. Qed.

Lemma seed_hits_ex (hits : list trkhit) : (3 <= length hits)%nat ->
  exists h1 h2 h3, seed_hits hits h1 h2 h3
    /\ vec_at hits 0 = Ok h1 /\ vec_at hits (Nat.div (length hits + 1) 2) = Ok h2
    /\ vec_at hits (length hits - 1) = Ok h3.
Proof.
  intros L. assert (D : (Nat.div (length hits + 1) 2 < length hits)%nat) by (apply Nat.div_lt_upper_bound; lia).
  destruct (nth_error hits 0) as [h1|] eqn:E1; [|apply nth_error_None in E1; lia].
  destruct (nth_error hits (Nat.div (length hits + 1) 2)) as [h2|] eqn:E2; [|apply nth_error_None in E2; lia].
  destruct (nth_error hits (length hits - 1)) as [h3|] eqn:E3; [|apply nth_error_None in E3; lia].
  exists h1, h2, h3. unfold seed_hits, vec_at. rewrite E1, E2, E3. auto.
Qed.

Lemma seed_hits_unique hits h1 h2 h3 h1' h2' h3' : seed_hits hits h1 h2 h3 -> seed_hits hits h1' h2' h3' ->
  h1' = h1 /\ h2' = h2 /\ h3' = h3.
Proof. unfold seed_hits. intros (A & B & D) (A' & B' & D'). repeat split; congruence. Qed.

Lemma startHelix_spec C hits h1 h2 h3 : seed_hits hits h1 h2 h3 ->
  let x1 := hit_point C h1 in let x2 := hit_point C h2 in let x3 := hit_point C h3 in
  (turn x1 x2 x3 = 0 -> startHelix C hits = NonFin)
  /\ (turn x1 x2 x3 <> 0 -> exists tp, startHelix C hits = Ok tp /\ start_seed C hits tp).
Proof.
  intros Sh x1 x2 x3. assert (Sh' := Sh). destruct Sh' as (E1 & E2 & E3). unfold startHelix, vec_at.
  rewrite E1, E2, E3. cbn [bind]. rewrite !inUnits_scale. fold (hit_point C h1) (hit_point C h2) (hit_point C h3).
  fold x1 x2 x3. split.
  - intros T. apply (C22_collinear x1 x2 x3 tp_default false) in T. rewrite T. reflexivity.
  - intros T. destruct (C22_start_helix x1 x2 x3 tp_default false T) as (hp & -> & Om & Dz & Zz & Ph & Sg & F).
    cbn [bind]. set (tp0 := TP (tp_cov tp_default) hp x1).
    assert (Om0 : tp_par tp0 OMEGA <> 0) by exact Om.
    destruct (C07_move_keeps_the_curve tp0 v3zero) as [M _]. destruct (M Om0) as (p' & fid & Mv & Po & Pt & Fr & Pr & _ & Gf).
    rewrite Mv. cbn [bind fst]. eexists. split; [reflexivity|].
    exists h1, h2, h3. split; auto. cbv zeta. fold x1 x2 x3. cbn [tp_setCov tp_ref tp_cov tp_par].
    split; auto. split; auto. split.
    { intros [] []; reflexivity. }
    cbn [tp_par] in Po. unfold tp0 in Po. cbn [tp_par] in Po.
    split; [rewrite Po; exact Sg|]. split; auto.
    intros g Hg. assert (Hf := hcurve_helix hp x1 Om). set (f := hcurve hp x1) in *.
    assert (G := Gf f g Hf Hg). unfold tp0 in G. cbn [tp_par] in G.
    destruct (C08_moved_d0_is_closest_distance tp0 v3zero (TP (tp_cov tp0) p' v3zero) fid f Om0 Hf Mv) as (Cl & _).
    split.
    + intros s. rewrite G. apply Cl.
    + destruct (F f Hf) as (F0 & s2 & s3 & (O1 & O2) & X2 & Y2 & X3 & Y3 & Zd).
      set (k := fid / hp OMEGA) in *.
      assert (Gs : forall s, g (s + k) = f s) by (intros s; rewrite G; f_equal; ring).
      exists (0 + k), (s2 + k), (s3 + k). rewrite !Gs, Po. split; [lra|]. split; [lra|].
      assert (Rabs (hp OMEGA * (0 + k)) <= PI).
      { replace (hp OMEGA * (0 + k)) with fid by (unfold k; field; auto). exact Fr. }
      tauto.
Qed.

(** ** the preliminary fit *)
Lemma everyNth_nth {A} (step : nat) : (0 < step)%nat -> forall (l : list A) skip i,
  nth_error (everyNth step skip l) i = nth_error l (skip + i * step).
Proof.
  intros P. induction l as [|x l IH]; intros skip i; cbn [everyNth].
  - destruct i, (skip + _)%nat; reflexivity.
  - destruct skip as [|k].
    + destruct i as [|i]; [reflexivity|]. cbn [nth_error]. rewrite IH.
      replace (0 + S i * step)%nat with (S (step - 1 + i * step)) by lia. reflexivity.
    + rewrite IH. reflexivity.
Qed.

Lemma prefit_chosen hits : chosen hits (everyNth (prefitStep (length hits)) 0 hits).
Proof.
  unfold chosen, prefitStep. intros i. rewrite everyNth_nth; auto.
  destruct (Nat.leb_spec (length hits) 25); [lia|].
  apply Nat.div_str_pos. lia.
Qed.

Lemma surfMap_loop C : forall l m,
  fold_left (fun m s => (re_cell C s, s) :: m) l m = rev (map (fun s => (re_cell C s, s)) l) ++ m.
Proof.
  induction l as [|s l IH]; intros m; cbn [fold_left map rev]; auto. rewrite IH, <- app_assoc. reflexivity.
Qed.

Lemma surfMap_find C k :
  match mapFind (surfMap C) k with
  | Some surf => exists l1 l2, re_surfaces C = l1 ++ surf :: l2 /\ re_cell C surf = k
      /\ forall s, In s l2 -> re_cell C s <> k
  | None => forall s, In s (re_surfaces C) -> re_cell C s <> k
  end.
Proof.
  unfold surfMap. rewrite surfMap_loop, app_nil_r. induction (re_surfaces C) as [|s l IH]; cbn [map rev].
  - cbn. intros ? [].
  - rewrite mapFind_app. destruct (mapFind (rev (map (fun s0 => (re_cell C s0, s0)) l)) k) as [surf|].
    + destruct IH as (l1 & l2 & -> & A & B). exists (s :: l1), l2. auto.
    + unfold mapFind. cbn [find fst]. destruct (Z.eqb_spec (re_cell C s) k) as [Q|Q].
      * exists [], l. auto.
      * intros s' [<-|I]; auto.
Qed.

Lemma prefitHits_spec C : forall l t t', prefitHits C t l = Ok t' ->
  exists calls, Forall2 (prefit_call C) l calls
    /\ forall cs t0, history (re_env C) (returning (re_env C)) t0 cs t ->
         history (re_env C) (returning (re_env C)) t0 (cs ++ somes calls) t'.
Proof.
  induction l as [|th l IH]; intros t t' H; cbn [prefitHits] in H.
  - injection H as <-. exists []. split; [constructor|]. intros cs t0 Hs. cbn. rewrite app_nil_r. exact Hs.
  - assert (Fd := surfMap_find C (h_cell (th_hit th))).
    destruct (mapFind (surfMap C) (h_cell (th_hit th))) as [surf|].
    + destruct (getHitInfo C (th_hit th) surf) as [[pos prec]| | | |] eqn:I; try discriminate. cbn [bind fst snd] in H.
      unfold ignoring in H.
      destruct (addMeasurement (re_env C) t pos prec surf (h_id (th_hit th)) false) as [t2 r] eqn:Am.
      destruct r as [b| | | |]; try discriminate. cbn [bind] in H.
      destruct (IH _ _ H) as (calls & F & Hh).
      set (c := CMeas pos prec surf (h_id (th_hit th)) false).
      exists (Some c :: calls). split.
      * constructor; auto. left. destruct Fd as (l1 & l2 & A & B & D). exists l1, surf, l2, pos, prec.
        split; auto. split; auto. split; auto. split; auto. apply getHitInfo_spec. exact I.
      * intros cs t0 Hs. cbn [somes flat_map]. change (flat_map _ calls) with (somes calls). cbn [app].
        replace (cs ++ c :: somes calls) with ((cs ++ [c]) ++ somes calls) by (rewrite <- app_assoc; reflexivity).
        apply Hh. eapply hist_snoc; [exact Hs| |].
        -- cbn. rewrite Am. exists b. reflexivity.
        -- eapply step_meas; eauto.
    + destruct (IH _ _ H) as (calls & F & Hh). exists (None :: calls). split; [constructor; auto|exact Hh].
      right. auto.
Qed.

Lemma runFit_value C st t : snd (runFit C st t)
  = (points <- makePoints (tr_elems t) ;; Ok (Z.eqb (fst (gbl_fit (re_gbl C) points)) 0)).
Proof.
  unfold runFit, traj_fit, fit, only. cbn. destruct (makePoints (tr_elems t)); auto. cbn.
  destruct (gbl_fit (re_gbl C) a) as [rv [[chi2 ndf] lost]]. reflexivity.
Qed.

Lemma createPreFit_spec C st tp hits itp : snd (createPreFit C st tp hits) = Ok itp -> prefitted C tp hits itp.
Proof.
  unfold createPreFit. destruct (moveHelixTo tp v3zero false) as [[mv fid]| | | |] eqn:Mv; cbn [sbind snd fst]; try discriminate.
  destruct (prefitHits C (mkTraj mv (Some (re_prop C))) (everyNth (prefitStep (length hits)) 0 hits)) as [t1| | | |] eqn:P;
    cbn [sbind snd]; try discriminate.
  destruct (prepareForFitting (re_env C) t1) as [t| | | |] eqn:Q; cbn [sbind snd]; try discriminate.
  destruct (prefitHits_spec C _ _ _ P) as (calls & F & Hh).
  assert (Hs := Hh [] _ (hist_nil _ _ _)). cbn [app] in Hs.
  assert (Hs' : history (re_env C) (returning (re_env C)) (mkTraj mv (Some (re_prop C))) (somes calls ++ [CPrep]) t).
  { eapply hist_snoc; [exact Hs|exact Logic.I|]. constructor. exact Q. }
  assert (Rv := runFit_value C st t). assert (Fr := fit_result C st t).
  destruct (runFit C st t) as [st1 r]. cbn [snd] in Rv. subst r.
  destruct (makePoints (tr_elems t)) as [points| | | |] eqn:Mp; cbn [bind sbind snd] in *; try discriminate.
  intros H. exists mv, fid, (everyNth (prefitStep (length hits)) 0 hits), calls, t, points.
  split; auto. split; [apply prefit_chosen|]. split; auto. split; auto. split; auto.
  destruct (Z.eqb_spec (fst (gbl_fit (re_gbl C) points)) 0) as [Z0|Z0].
  - split; [|intros N; contradiction]. intros _.
    destruct (firstResult C st1 t) as [st2 [fr| | | |]]; cbn [sbind snd] in *; try discriminate.
    symmetry in Fr. apply fit_value_spec in Fr. destruct Fr as (points' & Mp' & R & _).
    rewrite Mp in Mp'. injection Mp' as <-. exists fr. split; auto. congruence.
  - split; [intros N; contradiction|]. intros _. cbn [snd] in H. congruence.
Qed.

Lemma seed_spec C S trk ts rd itp : (3 <= length (tk_hits trk))%nat -> tk_state trk = Some ts -> readLCIO (re_mm C) ts = Ok rd ->
  snd (seed C S fs_start rd (tk_hits trk)) = Ok itp -> seeded C S trk itp.
Proof.
  intros L A B H. exists ts, rd. split; auto. split; auto. unfold seed in H. destruct (sg_start S) eqn:Ss.
  - split; [discriminate|]. intros _. destruct (seed_hits_ex (tk_hits trk) L) as (h1 & h2 & h3 & Sh & _).
    destruct (startHelix_spec C (tk_hits trk) h1 h2 h3 Sh) as [N Y].
    destruct (Req_dec (turn (hit_point C h1) (hit_point C h2) (hit_point C h3)) 0) as [T|T].
    + rewrite (N T) in H. discriminate.
    + destruct (Y T) as (tp & Q & Sp). rewrite Q in H. cbn [sbind] in H. exists tp. split; auto.
      destruct (sg_prefit S).
      * split; [discriminate|]. intros _. eapply createPreFit_spec. exact H.
      * cbn [snd] in H. split; [congruence|discriminate].
  - cbn [snd] in H. split; [congruence|discriminate].
Qed.
