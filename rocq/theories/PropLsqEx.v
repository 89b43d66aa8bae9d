(** C66: a trajectory with three hits of a displaced track. *)
From Coq Require Import Reals List Bool ZArith Lra Lia Psatz.
From Verif Require Import Num Vec Helix Isect Trans Propag Material Traj Fit.
From Verif Require Import SpecMat SpecTrans SpecTraj SpecElem SpecFit SpecExact SpecMeas SpecLsq.
From Verif Require Import SpecHelix HelixFacts MoveFacts TransFacts TrajFacts TrajFacts2 TrajFacts3 FitFacts FitFacts2 LsqFacts TrajEx.
From Verif Require Import PropTraj PropTrajEx PropFit PropFit2 PropExact PropLsq.
Import ListNotations.
Open Scope R_scope.

(** a propagator a user could supply: with x = (q/p, slopes, offsets), over [dw]
    the first slope changes by 2 dw q/p and the offsets by the mean slopes *)
Definition shear (d : R) : mat5 := fun i j =>
  match i, j with
  | I0, I0 | I1, I1 | I2, I2 | I3, I3 | I4, I4 => 1
  | I1, I0 => 2 * d
  | I3, I0 => d * d
  | I3, I1 => d
  | I4, I2 => d
  | _, _ => 0
  end.
Definition lsq_prop : propagator := fun _ dw _ _ _ _ _ => Ok (shear dw).

(** the state the stations are reached with *)
Definition at_height (e : telem) (z : R) : Prop :=
  tp_par (te_tp e) OMEGA = 1 /\ tp_par (te_tp e) TANL = 1 /\ vz (tp_ref (te_tp e)) + tp_par (te_tp e) Z0 = z.

Definition good (las e : telem) (z : R) (x : vec5) : Prop :=
  at_height e (z + 1) /\ te_s e = te_s las + 1 /\ te_meas e = true /\ te_scat e = false
  /\ exists P, te_proj e = Some P /\ te_dirs e = Some [V3 1 0 0; V3 0 1 0]
     /\ (forall y : vec5, predicted P y = (0, 0) -> y I3 = 0 /\ y I4 = 0)
     /\ te_res e = [fst (predicted P x); snd (predicted P x)] /\ te_prec e = [Some 1; Some 1].

Lemma inverts_injective p u v m n : inverts p u v m n ->
  forall y : vec5, predicted p y = (0, 0) -> y I3 = 0 /\ y I4 = 0.
Proof.
  destruct p as [[[p11 p12] p21] p22]. unfold inverts. intros H y Q. cbn in Q. injection Q as Q1 Q2.
  destruct (H 1 0) as [A1 A2]. destruct (H 0 1) as [B1 B2]. unfold vdot, vadd, vscale in *. cbn [vx vy vz] in *.
  set (a := vx m * (1 * vx u + 0 * vx v) + vy m * (1 * vy u + 0 * vy v) + vz m * (1 * vz u + 0 * vz v)) in *.
  set (b := vx n * (1 * vx u + 0 * vx v) + vy n * (1 * vy u + 0 * vy v) + vz n * (1 * vz u + 0 * vz v)) in *.
  set (c := vx m * (0 * vx u + 1 * vx v) + vy m * (0 * vy u + 1 * vy v) + vz m * (0 * vz u + 1 * vz v)) in *.
  set (d := vx n * (0 * vx u + 1 * vx v) + vy n * (0 * vy u + 1 * vy v) + vz n * (0 * vz u + 1 * vz v)) in *.
  clearbody a b c d.
  assert (D : (p11 * p22 - p12 * p21) * (a * d - b * c) = 1).
  { transitivity ((p11 * a + p12 * b) * (p21 * c + p22 * d) - (p21 * a + p22 * b) * (p11 * c + p12 * d)); [ring|].
    rewrite A1, A2, B1, B2. ring. }
  split.
  - transitivity (y I3 * ((p11 * p22 - p12 * p21) * (a * d - b * c))); [rewrite D; ring|].
    transitivity ((a * d - b * c) * (p22 * (p11 * y I3 + p12 * y I4) - p12 * (p21 * y I3 + p22 * y I4))); [ring|].
    rewrite Q1, Q2. ring.
  - transitivity (y I4 * ((p11 * p22 - p12 * p21) * (a * d - b * c))); [rewrite D; ring|].
    transitivity ((a * d - b * c) * (p11 * (p21 * y I3 + p22 * y I4) - p21 * (p11 * y I3 + p12 * y I4))); [ring|].
    rewrite Q1, Q2. ring.
Qed.

(** everything about a hit on the next station but its residuals *)
Lemma next_hit las z pos e : at_height las z ->
  newMeasurement ex_env pionMass las pos [1; 1] (ex_station (z + 1) 0 (fun _ => true)) 7 false = Ok (Some e) ->
  at_height e (z + 1) /\ te_s e = te_s las + 1 /\ te_meas e = true /\ te_scat e = false
  /\ (exists fid p', moveHelixTo (te_tp las) (hcurve (tp_par (te_tp las)) (tp_ref (te_tp las)) 1) false = Ok (TP (tp_cov (te_tp las)) p' (tp_ref (te_tp e)), fid)
        /\ forall i, tp_par (te_tp e) i = p' i)
  /\ (exists P, te_proj e = Some P /\ te_dirs e = Some [V3 1 0 0; V3 0 1 0]
       /\ calculateLocalToMeasurementProjectionMatrix
        (fst (calculateLocalCurvilinearSystem 0 (tp_par (te_tp e))))
        (snd (calculateLocalCurvilinearSystem 0 (tp_par (te_tp e)))) [V3 1 0 0; V3 0 1 0] = Ok P)
  /\ te_res e = [vx pos - vx (hcurve (tp_par (te_tp las)) (tp_ref (te_tp las)) 1);
                 vy pos - vy (hcurve (tp_par (te_tp las)) (tp_ref (te_tp las)) 1)]
  /\ te_prec e = [Some 1; Some 1].
Proof.
  intros (Ho & Ht & Hz) N.
  destruct (newMeasurement_spec _ _ _ _ _ _ _ _ _ N)
    as (s0 & xx & moved & fid & mom & el & B & Dr & Rs & _ & pl & Pl & Pr).
  destruct Pl as [(_ & Ep)|(W & _)]; [|discriminate W].
  assert (Ho' : tp_par (te_tp las) OMEGA <> 0) by (rewrite Ho; lra).
  assert (Ht' : tp_par (te_tp las) TANL <> 0) by (rewrite Ht; lra).
  assert (Is := bu_isect _ _ _ _ _ _ _ _ _ _ _ _ _ _ _ B).
  rewrite station_isect in Is by auto. injection Is as _ Is Ix.
  assert (S1 : s0 = 1) by (rewrite <- Is, Hz, Ht; field).
  rewrite Is, S1 in Ix.
  assert (Mv := bu_move _ _ _ _ _ _ _ _ _ _ _ _ _ _ _ B).
  destruct (move_ok (te_tp las) xx Ho') as (p' & fid' & Mv' & Sp & _).
  assert (Mv2 := Mv'). rewrite Mv in Mv2. injection Mv2 as Em Ef.
  assert (Mo : tp_par moved OMEGA = 1) by (rewrite Em; cbn [tp_par]; rewrite (ms_om _ _ _ _ Sp); auto).
  assert (Mt : tp_par moved TANL = 1) by (rewrite Em; cbn [tp_par]; rewrite (ms_tl _ _ _ _ Sp); auto).
  assert (Mr : tp_ref moved = xx) by (rewrite Em; auto).
  assert (Al := bu_tp _ _ _ _ _ _ _ _ _ _ _ _ _ _ _ B).
  destruct (station_loss (tp_par moved) (tp_ref moved) pionMass ltac:(rewrite Mo; lra) ltac:(rewrite Mt; lra) pion_pos)
    as (mom' & K & Ee & Mm & Pe & _ & _ & L).
  assert (Mm' := bu_mom _ _ _ _ _ _ _ _ _ _ _ _ _ _ _ B). cbn [ex_env en_gfield] in Mm'.
  rewrite Mm in Mm'. injection Mm' as <-.
  assert (Lo := bu_loss _ _ _ _ _ _ _ _ _ _ _ _ _ _ _ B).
  cbv beta in Lo.
  match type of Lo with computeEnergyLoss_uv _ ?uv _ _ = _ =>
    destruct (L (z + 1) 0 (fun _ => true) uv) as (el' & L1 & L2 & L3) end.
  rewrite L1 in Lo. injection Lo as ->.
  destruct (applyLoss_keep _ _ _ Al) as [Kr Kp].
  apply applyLoss_spec in Al. destruct Al as (_ & _ & At). rewrite L2, L3 in At.
  assert (Ko : tp_par (te_tp e) OMEGA = 1).
  { rewrite At. cbn [tp_par]. unfold v5set. destruct (idx_eq_dec OMEGA OMEGA); [|contradiction]. rewrite Mo. field. }
  assert (Kall : forall i, tp_par (te_tp e) i = p' i).
  { intros i. destruct (idx_eq_dec i OMEGA) as [->|Ni].
    - rewrite Ko, (ms_om _ _ _ _ Sp), Ho. auto.
    - rewrite Kp by auto. rewrite Em. reflexivity. }
  assert (Z1 : p' Z0 = 0).
  { rewrite <- Ix in Sp. destruct (moved_on_track _ _ _ _ Ho' Sp) as (_ & _ & X). apply X.
    rewrite Ho. replace (1 * 1) with 1 by ring. rewrite Rabs_R1. generalize PI2_3_2. lra. }
  split; [|split; [|split; [|split; [|split; [|split; [|split]]]]]].
  - split; auto. split; [rewrite Kall, (ms_tl _ _ _ _ Sp); auto|].
    rewrite Kall, Z1, Kr, Mr, <- Ix. unfold hcurve. cbn [vz]. rewrite Ht. lra.
  - rewrite (bu_s _ _ _ _ _ _ _ _ _ _ _ _ _ _ _ B), S1. ring.
  - exact (bu_meas _ _ _ _ _ _ _ _ _ _ _ _ _ _ _ B).
  - exact (bu_scat _ _ _ _ _ _ _ _ _ _ _ _ _ _ _ B).
  - exists fid', p'. rewrite Kr, Mr, Ix. split; auto.
  - destruct (bu_proj _ _ _ _ _ _ _ _ _ _ _ _ _ _ _ B) as (P & dirs & P1 & P2 & P3).
    exists P. split; auto. rewrite Dr in P2. injection P2 as <-. split; auto.
  - rewrite Rs, Ix. reflexivity.
  - rewrite Pr, Ep. reflexivity.
Qed.

Lemma next_good las z x : at_height las z -> exists pos e,
  newMeasurement ex_env pionMass las pos [1; 1] (ex_station (z + 1) 0 (fun _ => true)) 7 false = Ok (Some e)
  /\ good las e z x.
Proof.
  intros A. assert (A' := A). destruct A' as (Ho & Ht & Hz).
  destruct (station_new las pionMass (z + 1) (fun _ => true) pion_pos) as [K HK];
    [rewrite Ho; lra|rewrite Ht; lra|rewrite Hz, Ht; lra|].
  destruct (HK 0) as [HM _]; [lra|lra|].
  destruct (HM v3zero [1; 1] 7%Z false) as [e0 He0].
  destruct (next_hit _ _ _ _ A He0) as (_ & _ & _ & _ & (f0 & p0 & M0 & T0) & (P & _ & _ & P0) & _).
  set (c := hcurve (tp_par (te_tp las)) (tp_ref (te_tp las)) 1) in *.
  set (pos := V3 (vx c + fst (predicted P x)) (vy c + snd (predicted P x)) 0).
  destruct (HM pos [1; 1] 7%Z false) as [e He]. exists pos, e. split; auto.
  destruct (next_hit _ _ _ _ A He) as (B1 & B2 & B3 & B4 & (f1 & p1 & M1 & T1) & (P' & Q1 & Q2 & Q3) & R & W).
  fold c in M1, R. rewrite M0 in M1. injection M1 as M1 _ _.
  assert (P' = P) as ->.
  { assert (Ee : tp_par (te_tp e) = tp_par (te_tp e0)).
    { apply FunctionalExtensionality.functional_extensionality. intros i. rewrite T0, T1, M1. auto. }
    rewrite Ee, P0 in Q3. injection Q3 as <-. auto. }
  split; auto. split; auto. split; auto. split; auto. exists P. split; auto. split; auto. split.
  - apply projection_iff in P0. exact (inverts_injective _ _ _ _ _ P0).
  - split; auto. rewrite R. unfold pos. cbn [vx vy]. f_equal; [ring|f_equal; ring].
Qed.

(** the displacement at the four elements, and a fitter that reports it *)
Definition lsq_dw : R := 1 / cos (atan 1).
Definition disp0 : vec5 := mk5 1 2 3 4 5.
Definition disp1 : vec5 := m5mulv (shear lsq_dw) disp0.
Definition disp2 : vec5 := m5mulv (shear lsq_dw) disp1.
Definition disp3 : vec5 := m5mulv (shear lsq_dw) disp2.
Definition disps : list vec5 := [disp0; disp1; disp2; disp3].
Definition lsq_gbl : gbl := Gbl (fun _ => (0%Z, (0, 1%Z, 0)))
  (fun _ label => (0%Z, nth (pred (Z.to_nat label)) disps (mk5 0 0 0 0 0), m5zero)).

Lemma lsq_gbl_at ps : List.Forall regular ps -> chain ps disps (no_kinks ps) -> Forall2 explains ps disps ->
  least_squares_at lsq_gbl ps.
Proof.
  intros Rg C Ex xs ks M U. destruct (explained_minimal _ _ Rg C Ex) as [Mi Z].
  specialize (U _ _ Mi). split.
  - intros k x N. exists (nth k disps (mk5 0 0 0 0 0)), m5zero. cbn [lsq_gbl gbl_results]. rewrite Nat2Z.id. cbn [pred].
    split; auto. destruct (forall2_nth _ _ _ _ _ U N) as (y & Ny & Xy).
    rewrite (nth_error_nth _ _ _ Ny). intros i. symmetry. apply Xy.
  - cbn. assert (A := proj2 M _ _ C). rewrite Z in A. assert (B := cost_nonneg _ Rg xs ks). lra.
Qed.

Lemma lsq_dw_nonzero : lsq_dw <> 0.
Proof.
  unfold lsq_dw. assert (0 < cos (atan 1)) by (apply cos_gt_0; destruct (atan_bound 1); lra).
  intros Q. assert (1 = 0); [|lra]. transitivity (1 / cos (atan 1) * cos (atan 1)); [field; lra|rewrite Q; ring].
Qed.

Lemma shear_kernel d x : (forall i, m5mulv (shear d) x i = 0) -> forall i, x i = 0.
Proof.
  intros H. assert (A0 := H I0). assert (A1 := H I1). assert (A2 := H I2). assert (A3 := H I3). assert (A4 := H I4).
  unfold m5mulv, sum5 in *. cbn [shear] in *.
  assert (X0 : x I0 = 0) by lra. rewrite X0 in *. assert (X1 : x I1 = 0) by lra. rewrite X1 in *.
  assert (X2 : x I2 = 0) by lra. rewrite X2 in *. intros []; lra.
Qed.

(** Two equal steps after a point where the offsets vanish, with vanishing
    offsets: nothing is displaced. *)
Lemma shear_steps d (x y z : vec5) : d <> 0 -> (forall i, y i = m5mulv (shear d) x i) -> (forall i, z i = m5mulv (shear d) y i) ->
  x I3 = 0 -> x I4 = 0 -> y I3 = 0 -> y I4 = 0 -> z I3 = 0 -> forall i, x i = 0.
Proof.
  intros D Y Z X3 X4 Y3 Y4 Z3.
  assert (B0 := Y I0). assert (B1 := Y I1). assert (B3 := Y I3). assert (B4 := Y I4). assert (C3 := Z I3).
  unfold m5mulv, sum5 in *. cbn [shear] in *. rewrite X3, X4, Y3, Y4, Z3 in *.
  assert (E2 : x I2 = 0) by (apply Rmult_eq_reg_l with d; auto; lra).
  assert (E1 : d * x I1 + d * d * x I0 = 0) by lra.
  assert (C : d * y I1 + d * d * y I0 = 0) by lra. rewrite B1, B0, E2 in C.
  assert (E0 : d * d * x I0 = 0) by lra.
  assert (F0 : x I0 = 0). { apply Rmult_eq_reg_l with (d * d); [lra|]. apply Rmult_integral_contrapositive; auto. }
  assert (F1 : x I1 = 0). { apply Rmult_eq_reg_l with d; auto. rewrite F0 in E1. lra. }
  intros []; auto.
Qed.

(** the call at a station *)
Definition station_call (pos : vec3) (h : R) : call := CMeas pos [1; 1] (ex_station h 0 (fun _ => true)) 7 false.

Lemma good_push t las e z pos x l : tr_mass t = pionMass -> tr_elems t = ex_initial :: l -> las = last l ex_initial ->
  newMeasurement ex_env pionMass las pos [1; 1] (ex_station (z + 1) 0 (fun _ => true)) 7 false = Ok (Some e) ->
  good las e z x -> step ex_env t (station_call pos (z + 1)) (set_elems t (tr_elems t ++ [e])).
Proof.
  intros Hm Hl Hx N _. apply step_meas with (Ok true); [|left; eauto].
  unfold addMeasurement, pushElement, ensureInitial. rewrite Hl. cbn [tr_elems].
  rewrite Hl. rewrite Hm, <- Hx, N. reflexivity.
Qed.

Example C66_instance : exists cs t points w st st' a,
  history ex_env any_call (mkTraj ex_ref (Some lsq_prop)) cs t
  /\ length (tr_elems t) = 4%nat /\ w 0%nat = Some t
  /\ makePoints (tr_elems t) = Ok points
  /\ List.Forall regular points /\ observable points /\ least_squares_at lsq_gbl points
  /\ chain points disps (no_kinks points) /\ Forall2 explains points disps
  /\ fhist ex_env lsq_gbl [EvFit w 0 (Ok true)] st
  /\ getResults ex_env lsq_gbl w st 1 = (st', Ok a).
Proof.
  assert (A0 : at_height ex_initial 0) by (repeat split; cbn; ring).
  destruct (next_good ex_initial 0 disp1 A0) as (pos1 & e1 & N1 & G1).
  destruct (next_good e1 (0 + 1) disp2 (proj1 G1)) as (pos2 & e2 & N2 & G2).
  destruct (next_good e2 (0 + 1 + 1) disp3 (proj1 G2)) as (pos3 & e3 & N3 & G3).
  set (t0 := mkTraj ex_ref (Some lsq_prop)).
  set (t1 := set_elems t0 [ex_initial; e1]). set (t2 := set_elems t0 [ex_initial; e1; e2]).
  set (t3 := set_elems t0 [ex_initial; e1; e2; e3]).
  assert (S1 : step ex_env t0 (station_call pos1 (0 + 1)) t1).
  { apply step_meas with (Ok true); [|left; eauto]. unfold addMeasurement, pushElement. unfold t0.
    fold (ex_traj (Some lsq_prop)). rewrite ex_ensure.
    cbn [set_elems tr_elems ex_traj mkTraj tr_mass last]. rewrite N1. reflexivity. }
  assert (S2 : step ex_env t1 (station_call pos2 (0 + 1 + 1)) t2)
    by exact (good_push t1 e1 e2 (0 + 1) pos2 disp2 [e1] eq_refl eq_refl eq_refl N2 G2).
  assert (S3 : step ex_env t2 (station_call pos3 (0 + 1 + 1 + 1)) t3)
    by exact (good_push t2 e2 e3 (0 + 1 + 1) pos3 disp3 [e1; e2] eq_refl eq_refl eq_refl N3 G3).
  destruct G1 as (H1 & L1 & M1 & C1 & P1 & G1). destruct G2 as (H2 & L2 & M2 & C2 & P2 & G2).
  destruct G3 as (H3 & L3 & M3 & C3 & P3 & G3).
  cbn [ex_initial te_s] in L1.
  assert (Srt : en_sortE ex_env (tr_elems t3) = [ex_initial; e1; e2; e3]).
  { apply isort_id. cbn [t3 set_elems tr_elems]. unfold ordered_by.
    repeat constructor; cbn [ex_initial te_s]; lra. }
  assert (Tg : forall s, exists v, tr_tangentAt (set_elems t3 [ex_initial; e1; e2; e3]) s = Ok v)
    by (intros s; unfold tr_tangentAt, trajectoryElementAt; cbn [set_elems tr_elems bind]; eauto).
  assert (Jac : forall p e, te_scat e = false -> te_s e = p + 1 -> tp_par (te_tp e) TANL = 1 ->
    jacobian_for ex_env (set_elems t3 [ex_initial; e1; e2; e3]) p e (shear lsq_dw)).
  { intros p e Sc Ls Tl. destruct (Tg p) as [v1 T1]. destruct (Tg (te_s e)) as [v2 T2].
    exists lsq_prop, 0, v1, v2. split; auto. split; [left; auto|]. split; auto. split; auto.
    unfold lsq_prop. rewrite Tl, Ls. unfold lsq_dw. do 2 f_equal. f_equal. ring. }
  set (j1 := setJacobian e1 (shear lsq_dw)). set (j2 := setJacobian e2 (shear lsq_dw)). set (j3 := setJacobian e3 (shear lsq_dw)).
  destruct (C35_complete ex_env t3 ex_initial [e1; e2; e3] [j1; j2; j3] Srt) as (e0' & Pq & Sj & J0).
  { apply prep_cons with (J := shear lsq_dw); [repeat split|reflexivity|apply Jac; auto; apply H1|].
    apply prep_cons with (J := shear lsq_dw); [repeat split|reflexivity|apply Jac; auto; apply H2|].
    apply prep_cons with (J := shear lsq_dw); [repeat split|reflexivity|apply Jac; auto; apply H3|]. constructor. }
  set (t' := set_elems t3 [e0'; j1; j2; j3]) in *.
  destruct G1 as (Q1 & D1 & I1' & R1 & W1). destruct G2 as (Q2 & D2 & I2' & R2 & W2). destruct G3 as (Q3 & D3 & I3' & R3 & W3).
  set (pt := fun P x => GP (shear lsq_dw) (Some (P, predicted P x, (Some 1, Some 1))) None).
  set (points := [GP m5zero None None; pt P1 disp1; pt P2 disp2; pt P3 disp3]).
  assert (Mp : makePoints (tr_elems t') = Ok points).
  { destruct Sj as (_ & _ & _ & Sm & Ss & _). cbn [ex_initial te_meas te_scat] in Sm, Ss.
    unfold t'. cbn [set_elems tr_elems makePoints].
    unfold makePoint at 1. rewrite J0. unfold measPart, scatPart. rewrite <- Sm, <- Ss. cbn [bind].
    assert (Mk : forall e P x, te_meas e = true -> te_scat e = false -> te_proj e = Some P ->
      te_dirs e = Some [V3 1 0 0; V3 0 1 0] -> te_res e = [fst (predicted P x); snd (predicted P x)] ->
      te_prec e = [Some 1; Some 1] -> makePoint (setJacobian e (shear lsq_dw)) = Ok (pt P x)).
    { intros e P x B1 B2 B3 B4 B5 B6. unfold makePoint, measPart, scatPart. cbn [setJacobian te_jac te_meas te_scat te_dirs te_proj te_res te_prec].
      rewrite B1, B2, B3, B4, B5, B6. cbn. unfold pt. rewrite <- surjective_pairing. reflexivity. }
    unfold j1, j2, j3. rewrite (Mk e1 P1 disp1), (Mk e2 P2 disp2), (Mk e3 P3 disp3) by auto. reflexivity. }
  assert (Rg : List.Forall regular points).
  { assert (Rp : forall P x, regular (pt P x)).
    { intros P x. split; [|intros r M Q; discriminate]. intros P' r w0 w1 Q. injection Q as _ _ <- <-.
      exists 1, 1. repeat split; lra. }
    constructor; [split; intros; discriminate|]. repeat (constructor; auto). }
  assert (Ch : chain points disps (no_kinks points)).
  { assert (Kk : forall x, kicked x (0, 0) = x).
    { intros x. apply FunctionalExtensionality.functional_extensionality. intros i. unfold kicked. destruct i; cbn; ring. }
    cbn [points disps no_kinks map chain pt gp_jac gp_scat]. rewrite !Kk.
    repeat (split; [auto|]). exact I. }
  assert (Ex : Forall2 explains points disps).
  { assert (Xp : forall P x, explains (pt P x) x) by (intros P x P' r w Q; injection Q as <- <- _; auto).
    constructor; [intros P' r w Q; discriminate|]. repeat (constructor; auto). }
  assert (Ob : observable points).
  { intros xs Cx Ux. destruct xs as [|x0 [|x1 [|x2 [|x3 [|]]]]]; cbn [points no_kinks map chain] in Cx; try tauto.
    cbn [pt gp_jac gp_scat] in Cx.
    destruct Cx as (_ & K1 & _ & K2 & _ & K3 & _).
    assert (Kk : forall x, kicked x (0, 0) = x).
    { intros x. apply FunctionalExtensionality.functional_extensionality. intros i. unfold kicked. destruct i; cbn; ring. }
    rewrite Kk in *.
    inversion Ux as [|? ? ? ? _ V1]; subst. inversion V1 as [|? ? ? ? U1 V2]; subst.
    inversion V2 as [|? ? ? ? U2 V3']; subst. inversion V3' as [|? ? ? ? U3 _]; subst.
    assert (Us : forall P x y, unseen (pt P x) y -> predicted P y = (0, 0)).
    { intros P x y U. destruct (U P _ 1 1 eq_refl) as [A B]. rewrite (surjective_pairing (predicted P y)), A, B by lra. auto. }
    destruct (I1' _ (Us _ _ _ U1)) as [A3 A4]. destruct (I2' _ (Us _ _ _ U2)) as [B3 B4]. destruct (I3' _ (Us _ _ _ U3)) as [E3 E4].
    assert (Z1 := shear_steps lsq_dw x1 x2 x3 lsq_dw_nonzero K2 K3 A3 A4 B3 B4 E3).
    assert (Z0 : forall i, x0 i = 0) by (apply (shear_kernel lsq_dw); intros i; rewrite <- K1; auto).
    assert (Z2 : forall i, x2 i = 0) by (intros i; rewrite K2; unfold m5mulv, sum5; rewrite !Z1; ring).
    assert (Z3 : forall i, x3 i = 0) by (intros i; rewrite K3; unfold m5mulv, sum5; rewrite !Z2; ring).
    repeat (constructor; auto). }
  set (w := fun n : nat => match n with 0%nat => Some t' | _ => None end).
  destruct (fit lsq_gbl w fs_start 0) as [st1 r] eqn:F1.
  assert (r = Ok true) as ->.
  { unfold fit in F1. cbn [w] in F1. rewrite Mp in F1. cbn in F1. injection F1 as _ <-. auto. }
  assert (Hf : fhist ex_env lsq_gbl ([] ++ [EvFit w 0 (Ok true)]) st1)
    by (eapply fh_fit; [constructor|exact F1|left; eauto]).
  destruct (C43_defined ex_env lsq_gbl _ st1 w 1 Hf) as (_ & _ & D).
  destruct (D [] w 0%nat true [] eq_refl ltac:(intros ? ? ? [])) as [_ D2']. destruct D2' as [_ D3']; [intros ? ? []|].
  destruct (D3' t' eq_refl) as [_ D4].
  destruct (D4 j1 ltac:(lia)) as [_ D5]; [reflexivity|].
  destruct D5 as (a1 & Ga).
  { intros Q. cbn in Q. unfold ex_field in Q. injection Q as Q. lra. }
  destruct (getResults ex_env lsq_gbl w st1 1) as [st2 r] eqn:Q0. cbn [snd] in Ga. subst r.
  exists [station_call pos1 (0 + 1); station_call pos2 (0 + 1 + 1); station_call pos3 (0 + 1 + 1 + 1); CPrep], t', points, w, st1, st2, a1.
  split.
  { change (history ex_env any_call t0 (((([] ++ [station_call pos1 (0 + 1)]) ++ [station_call pos2 (0 + 1 + 1)])
        ++ [station_call pos3 (0 + 1 + 1 + 1)]) ++ [CPrep]) t').
    apply hist_snoc with t3; [|exact I|constructor; exact Pq].
    apply hist_snoc with t2; [|exact I|exact S3]. apply hist_snoc with t1; [|exact I|exact S2].
    apply hist_snoc with t0; [constructor|exact I|exact S1]. }
  split; [reflexivity|]. split; auto. split; auto. split; auto. split; auto.
  split; [apply lsq_gbl_at; auto|]. split; auto.
Qed.
