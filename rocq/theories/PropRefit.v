(** Properties C73-C76: the refitting program examples/lcio_tracks. *)
From Coq Require Import Reals List Bool ZArith Lra Lia Permutation Arith.
From Coquelicot Require Import Coquelicot.
From Verif Require Import Num Vec Helix Isect Trans Material Traj Fit LCIO Refit.
From Verif Require Import NumFacts SpecMat SpecHelix SpecTraj SpecElem SpecFit SpecLCIO SpecRefit
  TrajFacts4 FitFacts PropFit2 PropStart PropTraj PropTraj2 PropLCIO RefitFacts RefitFacts2 RefitFacts3.
Import ListNotations.
Open Scope R_scope.

(** C73: events are written in order up to the first one that ends the program,
    at most 1000; each has one track per input track, in order, and each track is
    what the program makes of it when it is the only one. *)
Theorem C73_program : forall C S l out r, refitProgram C S l = (out, r) ->
  Forall2 (event_done C S) (firstn (length out) l) out
  /\ ((r = Ok tt /\ length out = Nat.min event_limit (length l))
      \/ exists ev, nth_error l (length out) = Some ev /\ (length out < event_limit)%nat
           /\ event_fails C S ev r).
Proof.
  intros C S l out r H. unfold refitProgram in H.
  assert (A := eventLoop_done C S l newFitters (-1) event_limit eq_refl).
  rewrite H in A. destruct A as (A & _ & B). split; auto.
Qed.
Print Assumptions C73_program.

(** A track of fewer than three hits is not dropped, as the message of the program
    says, but written without hits and states. *)
Theorem C73_short_track : forall C S trk ts tp, (length (tk_hits trk) < 3)%nat ->
  tk_state trk = Some ts -> readLCIO (re_mm C) ts = Ok tp ->
  alone C S trk = Ok (OT [] [] 0 0 0).
Proof.
  intros C S trk ts tp L A B. unfold alone. rewrite refitTrack_value. unfold refit_value. rewrite A, B. cbn [bind].
  destruct (Nat.ltb_spec (length (tk_hits trk)) 3); [reflexivity|lia].
Qed.
Print Assumptions C73_short_track.

(** Tracks without state at the interaction point end the program. *)
Theorem C73_no_state : forall C S trk, tk_state trk = None -> alone C S trk = UB.
Proof. intros C S trk A. unfold alone. rewrite refitTrack_value. unfold refit_value. rewrite A. reflexivity. Qed.
Print Assumptions C73_no_state.

(** C74: if the start helix is computed, it is made from the first, the last and a
    middle hit; there are no finite parameters exactly if these are in line in the
    transverse plane. *)
Theorem C74_start_helix : forall C hits, (3 <= length hits)%nat ->
  exists h1 h2 h3, seed_hits hits h1 h2 h3
    /\ (turn (hit_point C h1) (hit_point C h2) (hit_point C h3) = 0 -> startHelix C hits = NonFin)
    /\ (turn (hit_point C h1) (hit_point C h2) (hit_point C h3) <> 0 ->
          exists tp, startHelix C hits = Ok tp /\ start_seed C hits tp).
Proof.
  intros C hits L. destruct (seed_hits_ex hits L) as (h1 & h2 & h3 & Sh & _). exists h1, h2, h3. split; auto.
  exact (startHelix_spec C hits h1 h2 h3 Sh).
Qed.
Print Assumptions C74_start_helix.

(** These are three different hits of the track exactly if it has four or more:
    of a track of three hits none can be refitted. *)
Theorem C74_three_hits : forall C S trk ts tp, length (tk_hits trk) = 3%nat -> sg_start S = true ->
  tk_state trk = Some ts -> readLCIO (re_mm C) ts = Ok tp -> alone C S trk = NonFin.
Proof.
  intros C S trk ts tp L Ss A B. unfold alone. rewrite refitTrack_value. unfold refit_value. rewrite A, B. cbn [bind].
  rewrite L. cbn [Nat.ltb Nat.leb]. unfold seed. rewrite Ss.
  destruct (seed_hits_ex (tk_hits trk)) as (h1 & h2 & h3 & Sh & _); [lia|].
  destruct (startHelix_spec C (tk_hits trk) h1 h2 h3 Sh) as [N _].
  destruct Sh as (_ & E2 & E3). rewrite L in E2, E3. cbn in E2, E3. rewrite E2 in E3. injection E3 as <-.
  rewrite N; [reflexivity|]. unfold turn. ring.
Qed.
Print Assumptions C74_three_hits.

Theorem C74_positions : forall n : nat, (3 <= n)%nat ->
  ((0 < Nat.div (n + 1) 2 /\ Nat.div (n + 1) 2 < n - 1)%nat <-> (4 <= n)%nat).
Proof.
  intros n L. assert (A := Nat.div_mod (n + 1) 2 ltac:(lia)). assert (B := Nat.mod_upper_bound (n + 1) 2 ltac:(lia)). lia.
Qed.
Print Assumptions C74_positions.

(** C75: what is written for a track of three or more hits: the result for the
    first element of a trajectory that has one measurement or scatterer for each
    surface crossed by the seed. *)
Theorem C75_refit : forall C S trk o, env_ok (re_env C) ->
  (forall h, In (Some h) (single_hits (tk_hits trk)) -> is_int (h_cell h)) ->
  (3 <= length (tk_hits trk))%nat -> alone C S trk = Ok o ->
  exists itp t points fr,
    seeded C S trk itp /\ refit_trajectory C S itp (tk_hits trk) t
    /\ makePoints (tr_elems t) = Ok points
    /\ is_result (re_env C) (re_gbl C) points t 0 fr
    /\ written C trk fr o.
Proof.
  intros C S trk o Eo Hi L H. unfold alone in H. rewrite refitTrack_value in H. unfold refit_value in H.
  destruct (tk_state trk) as [ts|] eqn:A; [|discriminate].
  destruct (readLCIO (re_mm C) ts) as [rd| | | |] eqn:B; try discriminate. cbn [bind] in H.
  destruct (Nat.ltb_spec (length (tk_hits trk)) 3); [lia|].
  destruct (snd (seed C S fs_start rd (tk_hits trk))) as [itp| | | |] eqn:Sd; try discriminate. cbn [bind] in H.
  destruct (makeTrajectory C S itp (tk_hits trk)) as [t| | | |] eqn:T; try discriminate. cbn [bind] in H.
  destruct (fit_value C t) as [[b fr]| | | |] eqn:F; try discriminate. cbn [bind snd] in H.
  destruct (fit_value_spec _ _ _ _ F) as (points & Mp & R & _).
  exists itp, t, points, fr. split; [eapply seed_spec; eauto|]. split; [eapply makeTrajectory_spec; eauto|].
  split; auto. split; auto. apply fillTrack_spec. exact H.
Qed.
Print Assumptions C75_refit.

(** Conversely a track is written whenever these parts exist: a seed, the
    trajectory of every possible seed, its points and its result, and no two
    surfaces crossed at the same path length. *)
Theorem C75_complete : forall C S trk ts rd, env_ok (re_env C) -> re_mm C <> 0 ->
  (3 <= length (tk_hits trk))%nat -> tk_state trk = Some ts -> readLCIO (re_mm C) ts = Ok rd ->
  (forall h, In (Some h) (single_hits (tk_hits trk)) -> is_int (h_cell h)) ->
  ~ In None (single_hits (tk_hits trk)) ->
  (sg_start S = true -> exists h1 h2 h3, seed_hits (tk_hits trk) h1 h2 h3
     /\ turn (hit_point C h1) (hit_point C h2) (hit_point C h3) <> 0) ->
  (sg_start S = true -> sg_prefit S = true -> forall tp, start_seed C (tk_hits trk) tp ->
     exists itp, prefitted C tp (tk_hits trk) itp) ->
  (forall itp, seeded C S trk itp ->
     (exists t points fr, refit_trajectory C S itp (tk_hits trk) t /\ makePoints (tr_elems t) = Ok points
        /\ is_result (re_env C) (re_gbl C) points t 0 fr)
     /\ forall s surf surf', In surf (re_surfaces C) -> In surf' (re_surfaces C) ->
          found (mkTraj itp (Some (re_prop C))) surf s -> found (mkTraj itp (Some (re_prop C))) surf' s -> surf = surf') ->
  exists o, alone C S trk = Ok o.
Proof.
  intros C S trk ts rd Eo M L A B Hi Nn Sh Pf Hs. unfold alone. rewrite refitTrack_value. unfold refit_value. rewrite A, B.
  cbn [bind]. destruct (Nat.ltb_spec (length (tk_hits trk)) 3); [lia|].
  assert (exists itp, snd (seed C S fs_start rd (tk_hits trk)) = Ok itp) as [itp Sd].
  { unfold seed. destruct (sg_start S); [|eexists; reflexivity].
    destruct (Sh eq_refl) as (h1 & h2 & h3 & Sh' & T).
    destruct (startHelix_spec C (tk_hits trk) h1 h2 h3 Sh') as [_ Y]. destruct (Y T) as (tp & Q & St).
    rewrite Q. cbn [sbind]. destruct (sg_prefit S); [|eexists; reflexivity].
    destruct (Pf eq_refl eq_refl tp St) as (itp & P). exists itp. apply createPreFit_back. auto. }
  rewrite Sd. cbn [bind]. destruct (Hs itp) as ((t & points & fr & T & Mp & R) & Tie); [eapply seed_spec; eauto|].
  rewrite (makeTrajectory_back C S itp (tk_hits trk) t Eo Hi Nn Tie T). cbn [bind].
  rewrite (result_back C t points fr Mp R). cbn [bind snd]. apply fillTrack_ok. auto.
Qed.
Print Assumptions C75_complete.

(** A raw hit that is not a tracker hit is dereferenced. *)
Theorem C75_null_hit : forall C S trk o, (3 <= length (tk_hits trk))%nat ->
  In None (single_hits (tk_hits trk)) -> alone C S trk <> Ok o.
Proof.
  intros C S trk o L I H. unfold alone in H. rewrite refitTrack_value in H. unfold refit_value in H.
  destruct (match tk_state trk with None => UB | Some ts => readLCIO (re_mm C) ts end); try discriminate. cbn [bind] in H.
  destruct (Nat.ltb_spec (length (tk_hits trk)) 3); [lia|].
  destruct (snd (seed C S fs_start a (tk_hits trk))); try discriminate. cbn [bind] in H.
  rewrite makeTrajectory_null in H by auto. discriminate.
Qed.
Print Assumptions C75_null_hit.

(** If the seed crosses no surface, the preparation reads the first element of an
    empty list. *)
Theorem C75_nothing_crossed : forall C S trk ts rd itp, env_ok (re_env C) ->
  (3 <= length (tk_hits trk))%nat -> tk_state trk = Some ts -> readLCIO (re_mm C) ts = Ok rd ->
  snd (seed C S fs_start rd (tk_hits trk)) = Ok itp ->
  (forall surf, In surf (re_surfaces C) -> exists o,
     intersectWithSurface surf (tp_par itp) (tp_ref itp) (OVal 0 v3zero) 1 true = Ok (false, o)) ->
  alone C S trk = UB.
Proof.
  intros C S trk ts rd itp Eo L A B Sd Nx. unfold alone. rewrite refitTrack_value. unfold refit_value. rewrite A, B. cbn [bind].
  destruct (Nat.ltb_spec (length (tk_hits trk)) 3); [lia|]. rewrite Sd. cbn [bind].
  assert (M : makeTrajectory C S itp (tk_hits trk) = UB); [|rewrite M; reflexivity].
  unfold makeTrajectory. unfold hitMap. rewrite lcioHits_spec.
  destruct (hitMap_loop_spec (single_hits (tk_hits trk)) []) as [HA HB].
  destruct (none_in (single_hits (tk_hits trk))) as [I|I].
  { rewrite (HB I). reflexivity. }
  destruct (HA I) as (hs & _ & ->). cbn [bind].
  set (t0 := mkTraj itp (Some (re_prop C))).
  assert (G : forall maxS l, (forall surf, In surf l -> In surf (re_surfaces C)) -> isectAll t0 maxS [] l = Ok []).
  { intros maxS. induction l as [|surf l IH]; intros Sub; cbn [isectAll]; auto.
    destruct (Nx surf (Sub _ (or_introl eq_refl))) as (o & Q).
    unfold isectOne. change (tr_ref t0) with itp. rewrite Q. cbn [bind]. apply IH. intros s Is. apply Sub. right. auto. }
  assert (GI : exists t1, getIntersectionsWithSurfaces (re_env C) t0 (re_surfaces C) = Ok t1 /\ tr_isect t1 = [] /\ tr_elems t1 = []).
  { unfold getIntersectionsWithSurfaces. change (tr_isect t0) with (@nil (R * surface)). rewrite G by auto. cbn [bind].
    eexists. split; [reflexivity|]. split; [|reflexivity]. cbn.
    destruct Eo as [_ Eo]. destruct (Eo []) as [P _]. apply Permutation_nil in P. exact P. }
  destruct GI as (t1 & -> & T1 & T2). cbn [bind]. rewrite T1. cbn [addCrossings bind].
  apply C35_empty; auto.
Qed.
Print Assumptions C75_nothing_crossed.

(** C76: the state written carries the origin as reference point.  For a seed at
    the origin, and if no surface is met at the path length of the first element,
    reading it back gives the parameters and the reference point of the result. *)
Theorem C76_reference : forall C S trk o itp t points fr, env_ok (re_env C) ->
  refit_trajectory C S itp (tk_hits trk) t -> is_result (re_env C) (re_gbl C) points t 0 fr ->
  written C trk fr o -> re_mm C <> 0 -> tp_ref itp = v3zero ->
  (forall e, In e (tr_elems t) -> te_surf e <> None ->
     calculateSfromXY 0 0 (tp_par itp) v3zero <> Ok (te_s e)) ->
  forall ts, In ts (ot_states o) ->
  exists tp, readLCIO (re_mm C) ts = Ok tp
    /\ (forall i, tp_par tp i = tp_par (fr_tp fr) i) /\ tp_ref tp = tp_ref (fr_tp fr).
Proof.
  intros C S trk o itp t points fr Eo (crossings & calls & _ & _ & _ & H) R W M Or Tie ts Its.
  apply (history_weaken _ _ any_call) in H; [|intros; exact Logic.I].
  destruct (C31_ordered _ _ _ _ _ Eo H) as [_ [El|(l1 & i & l2 & El & Pl & Ti & Si & Ns & Sl & _)]].
  - destruct R as (e & J & rv & chi2 & ndf & lost & err & corr & cov & _ & N & _). rewrite El in N. discriminate.
  - assert (l1 = []) as ->.
    { destruct l1 as [|e l1]; auto. exfalso. apply (Tie e).
      - rewrite El. left. auto.
      - apply Ns. left. auto.
      - rewrite (Sl e); [rewrite <- Or; exact Si|left; auto]. }
    destruct R as (e & J & rv & chi2 & ndf & lost & err & corr & cov & _ & N & _ & _ & _ & _ & _ & _ & _ & Rf & _).
    rewrite El in N. cbn in N. injection N as <-. rewrite Ti, Or in Rf.
    destruct W as (_ & _ & _ & _ & ts' & Es & _ & Tr & Pr & _ & Lc). rewrite Es in Its. destruct Its as [<-|[]].
    destruct (C48_read (re_mm C) ts' M) as ((Ex & _) & _ & Rp).
    destruct Ex as [tp Rd]; [lia|]. destruct (Rp tp Rd) as (Pp & _ & Pf). exists tp. split; auto. split.
    + intros j. rewrite Pp. apply Pr.
    + rewrite Pf, Tr, Rf. unfold v3zero. cbn. f_equal; ring.
Qed.
Print Assumptions C76_reference.
