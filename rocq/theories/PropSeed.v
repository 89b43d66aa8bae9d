(** C77: the covariance matrix of the start parameters has no influence on anything
    but the covariance matrices stored with the elements. *)
From Coq Require Import Reals List Bool ZArith Lra Lia.
From Coq Require Import FunctionalExtensionality.
From Verif Require Import Num Vec Helix Isect Trans Material Traj Fit LCIO Refit.
From Verif Require Import NumFacts MaterialFacts FitFacts SpecTraj SpecFit SpecTrans SpecMat PropTrans SpecTurn TurnFacts PropTurn PropTurnEx.
From Verif Require Import SpecLCIO SpecRefit SpecSeed SeedFacts TransFacts TrajFacts TrajFacts2 TrajEx PropFit2 PropFitEx PropRefitEx PropLCIO.
Import ListNotations.
Open Scope R_scope.

(** The same calls on trajectories started from the same parameters at the same
    point: all outcomes are equal, and the trajectories agree in everything but
    covariances. *)
Theorem C77_run : forall E tp tp' pm cs, same_order te_s (en_sortE E) (en_sortE E) -> same_track tp tp' ->
  fst (run E (mkTraj tp' pm) cs) = fst (run E (mkTraj tp pm) cs)
  /\ both same_traj (snd (run E (mkTraj tp pm) cs)) (snd (run E (mkTraj tp' pm) cs)).
Proof. intros E tp tp' pm cs So H. apply run_same; auto. constructor; cbn; auto. Qed.
Print Assumptions C77_run.

(** Such trajectories have the same points and directions, and are fitted with the
    same outcome, the same state of the interface and the same results, covariance
    included. *)
Theorem C77_fit : forall E G w w' st,  same_world w w' ->
  (forall n t t' s, w n = Some t -> w' n = Some t' ->
     tr_pointAt t' s = tr_pointAt t s /\ tr_tangentAt t' s = tr_tangentAt t s)
  /\ (forall tid, fit G w' st tid = fit G w st tid)
  /\ (forall label, getResults E G w' st label = getResults E G w st label).
Proof.
  intros E G w w' st H. split; [|split].
  - intros n t t' s A B. apply queries_same. specialize (H n). rewrite A, B in H. exact H.
  - intros tid. apply fit_same. exact H.
  - intros label. apply results_same. exact H.
Qed.
Print Assumptions C77_fit.

(** The covariance stored with every element is that of the start parameters: it is
    never transported to where the element is. *)
Theorem C77_stored : forall E tp pm cs t e, env_ok E -> snd (run E (mkTraj tp pm) cs) = Some t ->
  In e (tr_elems t) -> tp_cov (te_tp e) = tp_cov tp.
Proof.
  intros E tp pm cs t e [So _] R I.
  destruct (run_carried E So cs (mkTraj tp pm) t ltac:(constructor) R) as [A B]. unfold carried in B.
  rewrite Forall_forall in B. rewrite (proj1 (B e I)), A. reflexivity.
Qed.
Print Assumptions C77_stored.

(** The refitting program makes the same of tracks that differ in the covariance
    matrix and the location of their state only. *)
Theorem C77_program : forall C S trk trk', same_order te_s (en_sortE (re_env C)) (en_sortE (re_env C)) ->
  same_input trk trk' -> alone C S trk' = alone C S trk.
Proof. intros C S trk trk' So H. apply alone_same; auto. Qed.
Print Assumptions C77_program.

(** Passes repeated from the estimated parameters: if the fitter reports for label
    zero an error, or a correction in azimuth only, where the trajectory starts, the
    parameters never change, however often the fit is repeated. *)
Theorem C77_stall : forall E G pm cs tp t points e err corr cov, env_ok E ->
  same_order te_s (en_sortE E) (en_sortE E) ->
  snd (run E (mkTraj tp pm) cs) = Some t -> makePoints (tr_elems t) = Ok points ->
  nth_error (tr_elems t) 0 = Some e -> te_surf e = None ->
  gbl_results G points 0 = (err, corr, cov) ->
  (err = 0%Z -> forall i, i <> I2 -> corr i = 0) ->
  (forall n a, passes E G pm cs tp n a -> same_track tp a)
  /\ (forall fr, one_pass E G pm cs tp fr -> forall n, exists a, passes E G pm cs tp n a /\ one_pass E G pm cs a fr).
Proof.
  intros E G pm cs tp t points e err corr cov [So _] So2 R Mp N Sf Gr Co.
  destruct (run_carried E So cs (mkTraj tp pm) t ltac:(constructor) R) as [A B]. unfold carried in B.
  rewrite Forall_forall in B. assert (Te := proj2 (B e (nth_error_In _ _ N)) Sf). rewrite A in Te. cbn in Te.
  assert (One : forall fr, one_pass E G pm cs tp fr -> same_track tp (fr_tp fr)).
  { intros fr P. apply pass_value in P. destruct P as (t' & p' & rv & c & n & l & P1 & P2 & P3 & P4).
    rewrite R in P1. injection P1 as <-. rewrite Mp in P2. injection P2 as <-.
    eapply computeResults_spec in P4; [|exact P3|reflexivity|reflexivity|reflexivity].
    destruct P4 as (e' & J & rv' & chi2 & ndf & lost & err' & corr' & cov' & _ & N' & Cj & _ & Gr' & _ & _ & _ & _ & Rf & K1 & K2 & _).
    cbn [Z.to_nat] in N'. rewrite N in N'. injection N' as <-. rewrite Gr in Gr'. injection Gr' as <- <- <-. rewrite Te in *.
    split; [|exact Rf]. extensionality i. destruct (Z.eq_dec err 0) as [Q|Q]; [|apply K2; exact Q].
    rewrite K1 by exact Q. assert (J0 : forall i, J i I2 = 0).
    { destruct (cl2l3_column (tp_par tp) (en_bfield E (tp_ref tp))) as [X Y].
      destruct (v3_dec (en_bfield E (tp_ref tp))) as [D|D]; [rewrite X in Cj by exact D; discriminate|].
      destruct (Y D) as (J' & Cj' & H). rewrite Cj in Cj'. injection Cj' as ->. exact H. }
    unfold sum5. rewrite J0, (Co Q I0), (Co Q I1), (Co Q I3), (Co Q I4) by discriminate. ring. }
  assert (All : forall n a, passes E G pm cs tp n a -> same_track tp a).
  { induction 1 as [|n a fr P IH Q]; [split; reflexivity|]. apply One. apply (pass_same _ _ _ _ a); auto. destruct IH as [I1 I2]. split; auto. }
  split; auto. intros fr P. induction n as [|n (a & Ha & Pa)].
  - exists tp. split; [constructor|exact P].
  - exists (fr_tp fr). split; [econstructor; eauto|]. apply (pass_same _ _ _ _ tp); auto.
Qed.
Print Assumptions C77_stall.

(** ** concrete cases *)

(** a hit on a silicon disk, started with any covariance *)
Example run_instance : forall C, exists th t t', 
  run ex_env (mkTraj ex_ref (Some simp)) [CMeas v3zero [1; 1] (ex_station 1 th (fun _ => true)) 7 false] = ([Ok true], Some t)
  /\ run ex_env (mkTraj (TP C (tp_par ex_ref) (tp_ref ex_ref)) (Some simp))
       [CMeas v3zero [1; 1] (ex_station 1 th (fun _ => true)) 7 false] = ([Ok true], Some t')
  /\ length (tr_elems t') = 2%nat /\ Forall (fun e => tp_cov (te_tp e) = C) (tr_elems t').
Proof.
  intros C. destruct ex_hit as (th & e & R & _ & _ & _). set (cs := [_]) in R.
  assert (Sm : same_track ex_ref (TP C (tp_par ex_ref) (tp_ref ex_ref))) by (split; reflexivity).
  destruct (C77_run ex_env _ _ (Some simp) cs (isort_same te_s) Sm) as [A B]. rewrite R in A, B. cbn [fst snd] in A, B.
  destruct (run ex_env (mkTraj (TP C (tp_par ex_ref) (tp_ref ex_ref)) (Some simp)) cs) as [rs [t'|]] eqn:R'; cbn in A, B; [|contradiction].
  subst rs. eexists th, _, t'. split; [exact R|]. split; [exact R'|].
  split.
  - assert (El := st_elems _ _ B). cbn [set_elems tr_elems] in El. inversion El as [|? ? ? ? _ F]. inversion F as [|? ? ? ? _ F']. inversion F'. reflexivity.
  - apply Forall_forall. intros x I. apply (C77_stored ex_env (TP C (tp_par ex_ref) (tp_ref ex_ref)) (Some simp) cs t' x ex_env_ok); auto.
    rewrite R'. reflexivity.
Qed.

(** the program: the same track with unit covariance *)
Definition rtrack1 : track := Trk (Some (TS 1 0 0 1 0 1 (repeat 1 15) (0, 0, 0))) rhits.
Example program_instance : exists th, forall G, exists o,
  alone (rC G th) shipped (rtrack 0) = Ok o /\ alone (rC G th) shipped rtrack1 = Ok o.
Proof.
  destruct shipped_instance as (th & R). exists th. intros G. destruct (R G) as (_ & _ & o & _ & _ & _ & _ & _ & A & _).
  exists o. split; [exact A|]. transitivity (alone (rC G th) shipped (rtrack 0)); [|exact A].
  apply C77_program; [apply isort_same|].
  split; [reflexivity|]. cbn. split; [repeat split|]. split; lia.
Qed.

(** a fitter that only ever turns the track: the passes come to nothing *)
Definition turner : gbl := Gbl (fun _ => (0%Z, (1, 1%Z, 0))) (fun _ _ => (0%Z, mk5 0 0 1 0 0, m5zero)).
Example stall_instance : exists th fr t points e,
  let cs := [CMeas v3zero [1; 1] (ex_station 1 th (fun _ => true)) 7 false; CPrep] in
  snd (run ex_env (mkTraj ex_ref (Some simp)) cs) = Some t /\ makePoints (tr_elems t) = Ok points
  /\ nth_error (tr_elems t) 0 = Some e /\ te_surf e = None
  /\ one_pass ex_env turner (Some simp) cs ex_ref fr
  /\ forall n, exists a, passes ex_env turner (Some simp) cs ex_ref n a /\ same_track ex_ref a.
Proof.
  destruct ex_hit as (th & e & R & Es & Sc & Th). set (S := ex_station 1 th (fun _ => true)) in *.
  set (t1 := set_elems (mkTraj ex_ref (Some simp)) [ex_initial; e]) in *.
  destruct (prep_two t1 ex_initial e eq_refl) as (J & Pr & _); [cbn; lra|auto|reflexivity|].
  set (t := set_elems t1 [setJacobian ex_initial (m5Unit m5zero); setJacobian e J]) in *.
  set (cs := [CMeas v3zero [1; 1] S 7 false; CPrep]).
  assert (X : exec ex_env (mkTraj ex_ref (Some simp)) (CMeas v3zero [1; 1] S 7 false) = (Ok true, Some t1)).
  { cbn [run] in R. destruct (exec ex_env (mkTraj ex_ref (Some simp)) (CMeas v3zero [1; 1] S 7 false)) as [r [x|]]; [|discriminate].
    injection R as -> ->. reflexivity. }
  assert (R2 : run ex_env (mkTraj ex_ref (Some simp)) cs = ([Ok true; Ok true], Some t)).
  { unfold cs. cbn [run]. rewrite X. cbn [exec]. rewrite Pr. reflexivity. }
  assert (H : history ex_env has_precision (mkTraj ex_ref (Some simp)) ([CMeas v3zero [1; 1] S 7 false] ++ [CPrep]) t).
  { eapply hist_snoc; [|exact Logic.I|constructor; exact Pr].
    change [CMeas v3zero [1; 1] S 7 false] with ([] ++ [CMeas v3zero [1; 1] S 7 false]).
    eapply hist_snoc; [constructor|left; discriminate|]. cbn [exec] in X. unfold added in X.
    destruct (addMeasurement ex_env (mkTraj ex_ref (Some simp)) v3zero [1; 1] S 7 false) as [t2 r] eqn:Am. cbn [fst snd] in X.
    destruct r; try discriminate. injection X as -> ->. eapply step_meas; [exact Am|eauto]. }
  destruct (C58_after_preparation ex_env turner ex_ref (Some simp) _ [] t (only t) fs_start 0 ex_env_ok H ltac:(constructor) eq_refl) as (b & Fb).
  destruct (makePoints (tr_elems t)) as [points| | | |] eqn:Mp;
    [|unfold fit in Fb; cbn [only] in Fb; rewrite Mp in Fb; discriminate..].
  set (i0 := IF (Some points) (Some O) 1 1%Z 0 []).
  assert (Fr : exists fr, computeResults ex_env turner i0 points t 0 = Ok fr).
  { unfold computeResults. cbn [turner gbl_results Z.eqb]. change (elementIndex (tr_elems t) 0) with (Ok (setJacobian ex_initial (m5Unit m5zero))).
    cbn [bind]. change (te_tp (setJacobian ex_initial (m5Unit m5zero))) with ex_ref.
    destruct (cl2l3_column (tp_par ex_ref) (en_bfield ex_env (tp_ref ex_ref))) as [_ Y].
    destruct Y as (J' & -> & _). { cbn. unfold ex_field, v3zero. intros Q. injection Q as Q. lra. }
    cbn [bind]. eauto. }
  destruct Fr as (fr & Fr).
  assert (P : one_pass ex_env turner (Some simp) cs ex_ref fr).
  { apply pass_value. exists t, points, 0%Z, 1, 1%Z, 0. rewrite R2. split; [reflexivity|]. split; [exact Mp|]. split; [reflexivity|exact Fr]. }
  exists th, fr, t, points, (setJacobian ex_initial (m5Unit m5zero)). cbv zeta. fold S. fold cs.
  assert (R3 : snd (run ex_env (mkTraj ex_ref (Some simp)) cs) = Some t) by (rewrite R2; reflexivity).
  split; [exact R3|]. split; auto. split; auto. split; auto. split; auto.
  destruct (C77_stall ex_env turner (Some simp) cs ex_ref t points (setJacobian ex_initial (m5Unit m5zero)) 0%Z (mk5 0 0 1 0 0) m5zero
    ex_env_ok (isort_same te_s) R3 Mp eq_refl eq_refl eq_refl) as [St Ex].
  { intros _ i Ni. destruct i; cbn; auto. contradiction. }
  intros n. destruct (Ex fr P n) as (a & Pa & _). exists a. split; auto. apply (St n a Pa).
Qed.
