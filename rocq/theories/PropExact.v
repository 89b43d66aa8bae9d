(** C63: hits on the track give back the track. *)
From Coq Require Import Reals List Bool ZArith Lra Lia Permutation.
From Verif Require Import Num Vec Helix Isect Trans Propag Material Traj Fit.
From Verif Require Import SpecHelix HelixFacts SpecTraj SpecSmooth SpecFit SpecExact.
From Verif Require Import TrajFacts TrajFacts2 TrajFacts3 TrajFacts5 FitFacts2 SmoothFacts StepFacts ExactFacts PropFit PropFit2.
From Verif Require Import TrajEx PropTraj PropTrajEx PropStep.
Import ListNotations.
Open Scope R_scope.

(** Hits at the crossings found by the track itself: the fitter receives zero
    residuals only, for measurements and scatterers, with or without material. *)
Theorem C63_residuals : forall E ref prop cs t points, env_ok E ->
  history E exact_hit (mkTraj ref prop) cs t -> makePoints (tr_elems t) = Ok points ->
  List.Forall no_residual points.
Proof.
  intros E ref prop cs t points [So _] H M. apply points_no_residual with (tr_elems t); auto.
  eapply history_exact with (ok := exact_hit); eauto.
Qed.
Print Assumptions C63_residuals.

(** All results of such a fit are the parameters of the elements. *)
Theorem C63_exact_hits : forall E G log st w label st' a, env_ok E -> unbiased G -> fhist E G log st ->
  (forall w0 tid b, In (EvFit w0 tid (Ok b)) log -> fitted_from E exact_hit w0 tid) ->
  getResults E G w st label = (st', Ok a) ->
  exists w0 tid b w1 t1 e fr, In (EvFit w0 tid (Ok b)) log
    /\ In (EvGet w1 label (Ok a)) (log ++ [EvGet w label (Ok a)]) /\ w1 tid = Some t1
    /\ nth_error (tr_elems t1) (Z.to_nat label) = Some e
    /\ holds st' a fr /\ tp_ref (fr_tp fr) = tp_ref (te_tp e)
    /\ forall i, tp_par (fr_tp fr) i = tp_par (te_tp e) i.
Proof.
  intros E G log st w label st' a Ek U H Fr Q.
  destruct (C43_result E G log st w label st' a H Q)
    as (l1 & w0 & tid & b & l2 & t0 & points & w1 & t1 & fr & Lg & _ & W0 & Mp & _ & I1 & W1 & Ho & Rs).
  assert (If : In (EvFit w0 tid (Ok b)) log) by (rewrite Lg; apply in_or_app; right; left; auto).
  destruct (Fr _ _ _ If t0 W0) as (ref & prop & cs & Hi).
  assert (Z := C63_residuals E ref prop cs t0 points Ek Hi Mp).
  destruct Rs as (e & J & rv & chi2 & ndf & lost & err & co & cov & X0 & X1 & X2 & X3 & X4 & X5 & X6 & X7 & X8 & X9 & X10 & X11 & _).
  exists w0, tid, b, w1, t1, e, fr. split; auto. split.
  { rewrite Lg. apply in_app_or in I1. apply in_or_app. destruct I1 as [I1|I1]; auto. left. apply in_or_app. right. right. auto. }
  split; auto. split; auto. split; auto. split; auto.
  intros i. destruct (Z.eq_dec err 0) as [E0|E0]; [|auto]. rewrite X10 by auto.
  assert (C := U _ _ _ _ _ Z X4 E0). unfold sum5. rewrite !C. ring.
Qed.
Print Assumptions C63_exact_hits.

(** Without material each fitted state describes the track that made the hits:
    its helix is the reference helix, counted from the element. *)
Theorem C63_no_material : forall E G log st w label st' a ref prop f, env_ok E -> unbiased G -> fhist E G log st ->
  tp_par ref OMEGA <> 0 -> Rabs (tp_par ref PHI0) <= 2 * PI -> is_helix (tp_par ref) (tp_ref ref) f ->
  (forall w0 tid b, In (EvFit w0 tid (Ok b)) log -> fitted_from E exact_hit w0 tid) ->
  (forall w1 tid t1, In (EvGet w1 label (Ok a)) (log ++ [EvGet w label (Ok a)]) -> w1 tid = Some t1 ->
     exists cs, history E bare (mkTraj ref prop) cs t1) ->
  getResults E G w st label = (st', Ok a) ->
  exists fr s, holds st' a fr /\ forall g, is_helix (tp_par (fr_tp fr)) (tp_ref (fr_tp fr)) g ->
    forall u, g u = f (s + u).
Proof.
  intros E G log st w label st' a ref prop f Ek U H Ho Hp Hf Fr Br Q.
  destruct (C63_exact_hits E G log st w label st' a Ek U H Fr Q)
    as (w0 & tid & b & w1 & t1 & e & fr & _ & I1 & W1 & Ne & Hh & Rr & Rp).
  destruct (Br _ _ _ I1 W1) as [cs Hi]. destruct Ek as [So Si].
  destruct (history_good _ _ _ _ _ _ So Hi) as (G0 & R & _).
  assert (Ie : In e (tr_elems t1)) by (eapply nth_error_In; eauto).
  destruct (g_first _ G0) as [N|((i & I & (_ & _ & S) & _) & _)]; [rewrite N in Ie; destruct Ie|]. rewrite R in S.
  assert (Un := history_uniform E _ ref prop cs t1 (fun u => f (u - te_s i)) So Ho Hp
    ltac:(intros s0 S0 u; rewrite S in S0; injection S0 as <-; apply helix_is_hcurve; auto) (fun t c X => X) Hi).
  destruct (Un e Ie) as [Om Cu].
  exists fr, (te_s e - te_s i). split; auto. intros g Hg u.
  assert (Oe : tp_par (fr_tp fr) OMEGA <> 0) by (rewrite Rp, Om; auto).
  rewrite (helix_is_hcurve _ _ _ Oe Hg).
  replace (te_s e - te_s i + u) with ((te_s e + u) - te_s i) by ring. rewrite <- Cu. unfold curve_of.
  rewrite Rr. unfold hcurve. rewrite !Rp. replace (te_s e + u - te_s e) with u by ring. reflexivity.
Qed.
Print Assumptions C63_no_material.

(** ** Instance *)

(** a fitter that corrects the curvature by the sum of all residuals *)
Definition sum_gbl : gbl :=
  Gbl (fun _ => (0%Z, (0, 0%Z, 0)))
      (fun points _ => (0%Z, mk5 (fold_right (fun p x => match gp_meas p with
                                   | Some (_, (r0, r1), _) => r0 + r1 + x | None => x end) 0 points) 0 0 0 0, m5zero)).

Lemma sum_unbiased : unbiased sum_gbl.
Proof.
  intros points label err corr cov F Q _ i. cbn in Q. injection Q as _ <- _.
  assert (Z : fold_right (fun p x => match gp_meas p with
                | Some (_, (r0, r1), _) => r0 + r1 + x | None => x end) 0 points = 0).
  { induction F as [|p l [P _] _ IH]; cbn; auto. destruct (gp_meas p) as [[[m [r0 r1]] q]|]; auto.
    specialize (P _ eq_refl). cbn in P. injection P as -> ->. rewrite IH. ring. }
  rewrite Z. destruct i; reflexivity.
Qed.

(** a hit where the track crosses a station without material *)
Example C63_instance : exists c t w st st' a,
  history ex_env bare_exact (mkTraj ex_ref (Some analyticalJacobian)) [c; CPrep] t
  /\ length (tr_elems t) = 2%nat
  /\ w 0%nat = Some t /\ fhist ex_env sum_gbl [EvFit w 0 (Ok true)] st
  /\ getResults ex_env sum_gbl w st 1 = (st', Ok a).
Proof.
  destruct (station_new ex_initial pionMass 1 (fun _ => true) pion_pos) as [K HK]; [cbn; lra|cbn; lra|cbn; lra|].
  destruct (HK 0) as [HM _]; [lra|lra|].
  set (hit := hcurve (tp_par ex_ref) (tp_ref ex_ref) ((1 - (vz (tp_ref ex_ref) + tp_par ex_ref Z0)) / tp_par ex_ref TANL)).
  destruct (HM hit [1; 1] 7%Z false) as [e He].
  set (surf := ex_station 1 0 (fun _ => true)) in *. set (pm := Some analyticalJacobian). set (c := CMeas hit [1; 1] surf 7 false).
  set (t := set_elems (ex_traj pm) [ex_initial; e]).
  assert (H : history ex_env bare_exact (mkTraj ex_ref pm) [c] t).
  { change [c] with ([] ++ [c]).
    apply hist_snoc with (mkTraj ex_ref pm); [constructor| |].
    - split.
      + split; [apply station_wf|]. split; [|split; reflexivity]. intros s x Q. unfold surf in Q.
        change (from_state (mkTraj ex_ref pm)) with ex_ref in *.
        rewrite station_isect in Q by (cbn; lra). injection Q as _ <- _. cbn.
        replace (1 * ((1 - (0 + 0)) / 1)) with 1 by field. rewrite Rabs_R1. generalize PI2_3_2. lra.
      + intros s x Q. unfold surf in Q. change (from_state (mkTraj ex_ref pm)) with ex_ref in *.
        rewrite station_isect in Q by (cbn; lra). injection Q as _ _ <-. reflexivity.
    - apply step_meas with (Ok true); [|left; eauto].
      unfold addMeasurement, pushElement. fold (ex_traj pm). rewrite ex_ensure.
      cbn [set_elems tr_elems ex_traj mkTraj tr_mass last]. rewrite He. reflexivity. }
  assert (Hb : history ex_env bare (mkTraj ex_ref pm) [c] t)
    by exact (history_weaken _ _ _ _ _ _ (fun t c X => proj1 X) H).
  destruct (C61_prepares ex_env ex_ref 1 _ t ex_env_ok ltac:(lra) ltac:(reflexivity) ex_om_ok ex_phi_ok Hb ltac:(discriminate)) as [t' P].
  { intros x [<-|[<-|[]]]; exists 0; left; split; auto.
    destruct (newMeasurement_spec _ _ _ _ _ _ _ _ _ He) as (s0 & xx & moved & fid & mom & el & B & _).
    exact (bu_scat _ _ _ _ _ _ _ _ _ _ _ _ _ _ _ B). }
  assert (H' : history ex_env bare_exact (mkTraj ex_ref pm) ([c] ++ [CPrep]) t').
  { apply hist_snoc with t; auto; [|constructor; exact P]. split; [|exact I]. split; [exact I|split; exact I]. }
  assert (L : length (tr_elems t') = 2%nat).
  { destruct (C35_prepare _ _ _ ex_env_ok P) as (e0 & l & e0' & l2 & Pm & _ & -> & _ & _ & Pr).
    apply prepared_forall2 in Pr. assert (Ln : length l = length l2) by (clear - Pr; induction Pr; cbn; auto).
    apply Permutation_length in Pm. cbn in Pm |- *. lia. }
  set (w := fun n : nat => match n with 0%nat => Some t' | _ => None end).
  assert (Hp : history ex_env has_precision (mkTraj ex_ref pm) ([c] ++ CPrep :: []) t').
  { apply hist_snoc with t; [|exact I|constructor; exact P].
    inversion H as [|cs t0 c0 t1 H0 O St Q]. destruct cs as [|x cs]; [|destruct cs; discriminate].
    injection Q as ->. change [c] with ([] ++ [c]). apply hist_snoc with t0; auto.
    - inversion H0; [constructor|]. destruct cs; discriminate.
    - left. discriminate. }
  destruct (C58_after_preparation ex_env sum_gbl ex_ref pm [c] [] t' w fs_start 0 ex_env_ok Hp ltac:(constructor) eq_refl)
    as (b & F).
  destruct (fit sum_gbl w fs_start 0) as [st1 r] eqn:F1. cbn [snd] in F. subst r.
  assert (b = true) as ->.
  { unfold fit in F1. cbn [w] in F1. destruct (makePoints (tr_elems t')); try discriminate. cbn in F1. injection F1 as _ <-. auto. }
  assert (H1 : fhist ex_env sum_gbl ([] ++ [EvFit w 0 (Ok true)]) st1)
    by (eapply fh_fit; [constructor|exact F1|left; eauto]).
  destruct (C43_defined ex_env sum_gbl _ st1 w 1 H1) as (_ & _ & D).
  destruct (D [] w 0%nat true [] eq_refl ltac:(intros ? ? ? [])) as [_ D2]. destruct D2 as [_ D3]; [intros ? ? []|].
  destruct (D3 t' eq_refl) as [_ D4].
  destruct (tr_elems t') as [|x [|y [|]]] eqn:El; try discriminate.
  destruct (D4 y ltac:(lia)) as [_ D5]; [try rewrite El; reflexivity|].
  destruct D5 as (a1 & G1).
  { intros Q. cbn in Q. unfold ex_field in Q. injection Q as Q. lra. }
  destruct (getResults ex_env sum_gbl w st1 1) as [st2 r] eqn:Q0. cbn [snd] in G1. subst r.
  exists c, t', w, st1, st2, a1. split; [exact H'|]. split; [try rewrite El; reflexivity|]. split; auto.
Qed.
