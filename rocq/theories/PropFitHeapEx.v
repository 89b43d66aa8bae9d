(** A concrete case for C67: two fit interfaces for one trajectory. *)
From Coq Require Import Reals List Bool ZArith Lra Lia.
From Verif Require Import Num Vec Helix Isect Trans Material Traj SpecTraj TrajFacts TrajFacts2 TrajFacts3 TrajFacts4 TrajFacts5 TrajEx
  Fit SpecFit FitFacts FitFacts2 PropFit PropFit2 PropTrajEx PropFitEx FitHeap SpecFitHeap FitHeapFacts FitHeapFacts2 PropFitHeap.
Import ListNotations.
Open Scope R_scope.

(** Both fit, both are asked for a result, the first fits again and is destroyed: the
    result of the first is gone, that of the second is there until it is destroyed too. *)
Example C67_instance : exists w log s s' a b fr,
  log = [SNew 0; SNew 1; SFit 0 w 0 (Ok false); SFit 1 w 0 (Ok false); SGet 0 w 0 (Ok a); SGet 1 w 0 (Ok b);
         SFit 0 w 0 (Ok false); SDel 0]
  /\ shist ex_env ex_gbl log s /\ a <> b
  /\ ~ alive log 0 /\ alive log 1 /\ freed s a /\ there s b (KRes fr)
  /\ snd (delIf s 0) = UB /\ snd (fitIf ex_gbl w s 0 0) = UB
  /\ shist ex_env ex_gbl (log ++ [SDel 1]) s' /\ freed s' b.
Proof.
  destruct ex_prepared as (c & t & e0' & e' & a & H & El & Me & Sc & Pr & Na & Tp0).
  set (w := fun n : nat => match n with 0%nat => Some t | _ => None end).
  destruct (C58_after_preparation ex_env ex_gbl ex_ref (Some ex_prop) [c] [] t w fs_start 0 ex_env_ok H ltac:(constructor) eq_refl)
    as (b0 & F).
  assert (P : exists points, makePoints (tr_elems t) = Ok points).
  { unfold fit in F. cbn [w] in F. destruct (makePoints (tr_elems t)); try discriminate. eauto. }
  destruct P as [points P]. clear F b0.
  assert (Bf : forall x, en_bfield ex_env x <> v3zero).
  { intros x Q. cbn in Q. unfold ex_field in Q. injection Q as Q. lra. }
  assert (Fit : forall st, snd (fit ex_gbl w st 0) = Ok false).
  { intros st. unfold fit. cbn [w]. rewrite P. reflexivity. }
  assert (N0 : no_fit []) by (intros ? ? ? []).
  (* a fit of an existing interface *)
  assert (FitStep : forall log s k, shist ex_env ex_gbl log s -> alive log k ->
    exists s', shist ex_env ex_gbl (log ++ [SFit k w 0 (Ok false)]) s').
  { intros log s k Hs [L D]. destruct (C67_refinement _ _ _ _ k Hs L) as (flog & st & m & _ & _ & _ & _ & _ & A).
    destruct (A D) as (_ & A2 & _). destruct (fitIf ex_gbl w s k 0) as [s' r] eqn:Q.
    specialize (A2 w 0%nat). rewrite Fit, Q in A2. cbn in A2. subst r. exists s'. eapply sh_fit; eauto. }
  assert (GetStep : forall log s k L2, shist ex_env ex_gbl log s -> alive log k -> since_fit log k w 0 (Ok false) L2 ->
    (forall e, In e L2 -> of_if k e = false) ->
    exists s' x, shist ex_env ex_gbl (log ++ [SGet k w 0 (Ok x)]) s').
  { intros log s k L2 Hs [L D] [[L1 ->] NF] No. destruct (C67_refinement _ _ _ _ k Hs L) as (flog & st & m & A1 & A2 & _ & _ & _ & A).
    destruct (A D) as (_ & _ & A3). destruct (split_log _ _ _ _ _ _ _ _ A2) as (l1 & l2 & -> & _ & B2).
    assert (filter (of_if k) L2 = []) as Q.
    { clear - No. induction L2 as [|e L2 IH]; auto. cbn. rewrite (No e) by (left; auto). apply IH. intros; apply No; right; auto. }
    rewrite Q in B2. inversion B2. subst l2.
    destruct (C43_defined ex_env ex_gbl _ st w 0 A1) as (_ & _ & D').
    destruct (D' l1 w 0%nat false [] eq_refl N0) as [_ D2]. destruct D2 as [_ D3]; [intros ? ? []|].
    destruct (D3 t eq_refl) as [_ D4]. destruct (D4 e0' ltac:(lia)) as [_ D5]; [rewrite El; reflexivity|].
    destruct (D5 (Bf _)) as (a0 & G0). specialize (A3 w 0%Z). rewrite G0 in A3.
    destruct (getRes ex_env ex_gbl w s k 0) as [s' r] eqn:Q'. cbn [snd] in A3. destruct r as [x| | | |]; cbn in A3; try contradiction.
    exists s', x. eapply sh_get; eauto. }
  assert (H0 : shist ex_env ex_gbl [] sys_start) by constructor.
  assert (H1 := sh_new _ _ _ _ _ _ H0 eq_refl). cbn [app] in H1.
  assert (H2 := sh_new _ _ _ _ _ _ H1 eq_refl). cbn [app length sy_ifs newIf fst snd] in H2.
  assert (Al : forall l k, In (SNew k) l -> ~ In (SDel k) l -> alive l k) by (intros; split; auto).
  destruct (FitStep _ _ 0%nat H2) as [s3 H3]. { apply Al; cbn; intuition discriminate. }
  destruct (FitStep _ _ 1%nat H3) as [s4 H4]. { apply Al; cbn; intuition discriminate. }
  cbn [app] in H3, H4.
  destruct (GetStep _ _ 0%nat [SFit 1 w 0 (Ok false)] H4) as (s5 & x & H5).
  { apply Al; cbn; intuition discriminate. }
  { split; [eexists [_; _]; reflexivity|]. cbn. intuition discriminate. }
  { intros e [<-|[]]. reflexivity. }
  cbn [app] in H5.
  destruct (GetStep _ _ 1%nat [SGet 0 w 0 (Ok x)] H5) as (s6 & y & H6).
  { apply Al; cbn; intuition discriminate. }
  { split; [eexists [_; _; _]; reflexivity|]. cbn. intuition discriminate. }
  { intros e [<-|[]]. reflexivity. }
  cbn [app] in H6.
  destruct (FitStep _ _ 0%nat H6) as [s7 H7]. { apply Al; cbn; intuition discriminate. }
  cbn [app] in H7.
  destruct (C67_defined _ _ _ _ 0%nat H7) as (D0 & _). destruct (delIf s7 0) as [s8 r] eqn:Q8. cbn [snd] in D0.
  rewrite D0 in Q8 by (apply Al; cbn; intuition discriminate).
  assert (H8 := sh_del _ _ _ _ _ _ H7 Q8). cbn [app] in H8.
  destruct (C67_defined _ _ _ _ 1%nat H8) as (D1 & _). destruct (delIf s8 1) as [s9 r9] eqn:Q9. cbn [snd] in D1.
  rewrite D1 in Q9 by (apply Al; cbn; intuition discriminate).
  assert (H9 := sh_del _ _ _ _ _ _ H8 Q9).
  destruct (C67_live _ _ _ _ H8) as (mille & gbl & _ & _ & _ & _ & _ & Live).
  destruct (Live 1%nat w 0%nat false [SGet 0 w 0 (Ok x); SGet 1 w 0 (Ok y); SFit 0 w 0 (Ok false); SDel 0] t points w 0%Z y)
    as (_ & _ & _ & fr & _ & _ & Th & _); auto.
  { apply Al; cbn; intuition discriminate. }
  { split; [eexists [_; _; _]; reflexivity|]. cbn. intuition discriminate. }
  { cbn. auto. }
  assert (Fx : freed s8 x).
  { eapply (C67_discarded _ _ 0%nat [_; _; _; _] w 0 x [_] (SFit 0 w 0 (Ok false)) [_]); [exact H8|eauto]. }
  exists w. eexists. exists s8, s9, x, y, fr. split; [reflexivity|]. split; [exact H8|]. split.
  { intros ->. unfold freed, there in *. congruence. }
  assert (Na0 : ~ alive [SNew 0; SNew 1; SFit 0 w 0 (Ok false); SFit 1 w 0 (Ok false); SGet 0 w 0 (Ok x); SGet 1 w 0 (Ok y);
         SFit 0 w 0 (Ok false); SDel 0] 0). { intros [_ D]. apply D. cbn. auto 12. }
  split; auto. split. { apply Al; cbn; intuition discriminate. }
  split; auto. split; auto. destruct (C67_defined _ _ _ _ 0%nat H8) as (_ & U & V). split; auto. split; [apply V; auto|].
  split; auto. eapply (C67_discarded _ _ 1%nat [_; _; _; _; _] w 0 y [_; _] (SDel 1) []); [exact H9|auto].
Qed.
Print Assumptions C67_instance.
