(** C66: what a least-squares fitter makes of a displaced track. *)
From Coq Require Import Reals List Bool ZArith Lra Lia Psatz.
From Verif Require Import Num Vec Helix Isect Trans Propag Material Traj Fit.
From Verif Require Import SpecMat SpecTrans SpecTraj SpecElem SpecFit SpecExact SpecMeas SpecLsq.
From Verif Require Import TrajFacts TrajFacts2 FitFacts FitFacts2 LsqFacts PropFit PropFit2 PropMeas PropExact.
Import ListNotations.
Open Scope R_scope.

(** If the residuals of all points are those of one displaced track, and no other
    displacement gives the same, a least-squares fitter finds the displacement at
    every point, with chi2 zero and whatever the weights. *)
Theorem C66_displacement_found : forall G points xs, List.Forall regular points -> observable points ->
  least_squares_at G points -> chain points xs (no_kinks points) -> Forall2 explains points xs ->
  (forall k x, nth_error xs k = Some x ->
     exists c cov, gbl_results G points (Z.of_nat (S k)) = (0%Z, c, cov) /\ forall i, c i = x i)
  /\ fst (fst (snd (gbl_fit G points))) = 0.
Proof. intros. apply least_squares_explained; auto. Qed.
Print Assumptions C66_displacement_found.

(** What the interface reports then: chi2 zero, and at label k+1 the parameters of
    element k+1 plus the transformed displacement at element k. *)
Theorem C66_fit : forall E G log st w tid l1 w0 b l2 t0 points xs k x st' a, fhist E G log st ->
  log = l1 ++ EvFit w0 tid (Ok b) :: l2 -> no_fit l2 ->
  w0 tid = Some t0 -> makePoints (tr_elems t0) = Ok points ->
  List.Forall regular points -> observable points -> least_squares_at G points ->
  chain points xs (no_kinks points) -> Forall2 explains points xs -> nth_error xs k = Some x ->
  getResults E G w st (Z.of_nat (S k)) = (st', Ok a) ->
  exists w1 t1 fr e J, In (EvGet w1 (Z.of_nat (S k)) (Ok a)) (l2 ++ [EvGet w (Z.of_nat (S k)) (Ok a)])
    /\ w1 tid = Some t1 /\ nth_error (tr_elems t1) (S k) = Some e
    /\ curvilinearToL3Jacobian (tp_par (te_tp e)) (en_bfield E (tp_ref (te_tp e))) = Ok J
    /\ holds st' a fr /\ fr_chi2 fr = 0 /\ tp_ref (fr_tp fr) = tp_ref (te_tp e)
    /\ forall i, tp_par (fr_tp fr) i = tp_par (te_tp e) i + sum5 (fun j => J i j * x j).
Proof.
  intros E G log st w tid l1 w0 b l2 t0 points xs k x st' a H Q N W0 P Rg Ob Ls Ch Ex Nx R.
  destruct (C66_displacement_found G points xs Rg Ob Ls Ch Ex) as [A C].
  destruct (A _ _ Nx) as (c & cv & Gr & Ce).
  destruct (C43_result _ _ _ _ _ _ _ _ H R)
    as (m1 & w2 & tid2 & b2 & m2 & t2 & points2 & w1 & t1 & fr & A1 & A2 & A3 & A4 & _ & A6 & A7 & A8 & A9).
  rewrite Q in A1.
  destruct (last_fit_unique (EvFit w0 tid (Ok b)) (EvFit w2 tid2 (Ok b2)) l1 l2 m1 m2) as (_ & X & <-); eauto.
  injection X as <- <- <-. rewrite W0 in A3. injection A3 as <-. rewrite P in A4. injection A4 as <-.
  destruct A9 as (e & J & rv & chi2 & ndf & lost & err & co & cov & X0 & X1 & X2 & X3 & X4 & X5 & X6 & X7 & X8 & X9 & X10 & _).
  rewrite Gr in X4. injection X4 as <- <- <-. rewrite Nat2Z.id in X1. rewrite X3 in C. cbn in C.
  exists w1, t1, fr, e, J. split; auto. split; auto. split; auto. split; auto. split; auto.
  split; [congruence|]. split; auto. intros i. rewrite X10 by auto. unfold sum5. rewrite !Ce. reflexivity.
Qed.
Print Assumptions C66_fit.

Lemma chain_zero ps : chain ps (map (fun _ => mk5 0 0 0 0 0) ps) (no_kinks ps).
Proof.
  induction ps as [|p ps IH]; cbn; auto. split; auto. split; auto. destruct ps; cbn; auto.
  intros i. unfold m5mulv, sum5, kicked. destruct i; cbn; ring.
Qed.

Lemma explains_zero ps : List.Forall no_residual ps -> Forall2 explains ps (map (fun _ => mk5 0 0 0 0 0) ps).
Proof.
  intros F. induction F as [|p ps [M _] F IH]; cbn; constructor; auto.
  intros [[[p11 p12] p21] p22] r w Q. specialize (M _ Q). cbn in M. subst r. cbn. f_equal; ring.
Qed.

(** Hits on the track, with the contract of least squares instead of the
    assumption of C63: the result at label k+1 is the state of element k+1. *)
Theorem C66_exact_hits : forall E G log st w tid l1 w0 b l2 t0 points ref prop cs k st' a, env_ok E -> fhist E G log st ->
  log = l1 ++ EvFit w0 tid (Ok b) :: l2 -> no_fit l2 ->
  w0 tid = Some t0 -> makePoints (tr_elems t0) = Ok points ->
  history E exact_hit (mkTraj ref prop) cs t0 ->
  List.Forall regular points -> observable points -> least_squares_at G points -> (k < length points)%nat ->
  getResults E G w st (Z.of_nat (S k)) = (st', Ok a) ->
  exists w1 t1 fr e, w1 tid = Some t1 /\ nth_error (tr_elems t1) (S k) = Some e
    /\ In (EvGet w1 (Z.of_nat (S k)) (Ok a)) (l2 ++ [EvGet w (Z.of_nat (S k)) (Ok a)])
    /\ holds st' a fr /\ fr_chi2 fr = 0 /\ tp_ref (fr_tp fr) = tp_ref (te_tp e)
    /\ forall i, tp_par (fr_tp fr) i = tp_par (te_tp e) i.
Proof.
  intros E G log st w tid l1 w0 b l2 t0 points ref prop cs k st' a Ek H Q N W0 P Hi Rg Ob Ls Lk R.
  assert (Z := C63_residuals E ref prop cs t0 points Ek Hi P).
  destruct (nth_error points k) as [p|] eqn:Np; [|apply nth_error_None in Np; lia].
  assert (Nx : nth_error (map (fun _ : gpoint => mk5 0 0 0 0 0) points) k = Some (mk5 0 0 0 0 0))
    by exact (map_nth_error (fun _ : gpoint => mk5 0 0 0 0 0) k points Np).
  destruct (C66_fit E G log st w tid l1 w0 b l2 t0 points _ k _ st' a H Q N W0 P Rg Ob Ls (chain_zero points)
    (explains_zero points Z) Nx R) as (w1 & t1 & fr & e & J & I1 & W1 & Ne & _ & Hh & C0 & Rr & Rp).
  exists w1, t1, fr, e. split; auto. split; auto. split; auto. split; auto. split; auto. split; auto.
  intros i. rewrite Rp. unfold sum5. cbn. ring.
Qed.
Print Assumptions C66_exact_hits.

(** Points of a trajectory are regular where the precisions given are finite and
    not negative and the scattering angle is finite and not zero. *)
Theorem C66_regular : forall E tp pm cs t points, env_ok E -> history E any_call (mkTraj tp pm) cs t ->
  makePoints (tr_elems t) = Ok points -> forall p, In p points ->
  (forall P r w0 w1, gp_meas p = Some (P, r, (w0, w1)) -> exists a b, w0 = Some a /\ w1 = Some b /\ 0 <= a /\ 0 <= b) ->
  (forall r M, gp_scat p = Some (r, M) -> M <> None) -> regular p.
Proof.
  intros E tp pm cs t points [So Se] H M p I W S. split; auto. intros r M0 Q.
  assert (Ok1 := history_ok _ _ _ _ _ So H).
  assert (F : Forall2 (point_for E tp pm cs) (tr_elems t) points) by (eapply makePoints_ok; eauto).
  destruct (forall2_in_r _ _ _ _ F I) as (e & _ & _ & _ & _ & P4 & P5).
  destruct (te_scat e); [|rewrite (P4 eq_refl) in Q; discriminate].
  destruct (P5 eq_refl) as (s & Sg & th & _ & [(a & _ & Na & ->)|(_ & ->)]).
  - rewrite Sg in Q. injection Q as <- <-. split; auto. do 4 eexists. split; [reflexivity|]. intros x y D.
    assert (K : 0 < 1 / (a * a)). { apply Rdiv_lt_0_compat; [lra|]. nra. }
    assert (0 < x * x + y * y).
    { destruct (Req_dec x 0) as [->|X]; [|nra]. destruct (Req_dec y 0) as [->|Y]; [congruence|nra]. }
    nra.
  - exfalso. rewrite Sg in Q. injection Q as <- <-. exact (S _ _ Sg eq_refl).
Qed.
Print Assumptions C66_regular.

(** A hit where the displaced track crosses a flat surface gives residuals that
    the displacement explains to the fitter for every displacement only if the
    projection stored for the element is symmetric. *)
Theorem C66_hits : forall E t position precision surf id sc t' o m n,
  addMeasurement E t position precision surf id sc = (t', Ok true) -> flat surf o m n ->
  exists t1 e u v p11 p12 p21 p22 r0 r1,
    extended t1 t' e /\ te_cls e = Some (u, v) /\ te_proj e = Some (p11, p12, p21, p22) /\ te_res e = [r0; r1]
    /\ forall (x : vec5) a b, meets u v (calculateTangent 0 (tp_par (te_tp e))) m n (x I3) (x I4) a b ->
         sf_globalToLocal surf position
           = sf_globalToLocal surf (vadd (tp_ref (te_tp e)) (vadd (vscale a m) (vscale b n))) ->
         (r0, r1) = predicted (p11, p21, p12, p22) x
         /\ ((r0, r1) = predicted (p11, p12, p21, p22) x <-> (p12 - p21) * x I4 = 0 /\ (p12 - p21) * x I3 = 0).
Proof.
  intros E t position precision surf id sc t' o m n A F.
  destruct (C62_measurement _ _ _ _ _ _ _ _ _ _ _ A F)
    as (t1 & e & u & v & p11 & p12 & p21 & p22 & r0 & r1 & X & C & P & R & _ & _ & M).
  exists t1, e, u, v, p11, p12, p21, p22, r0, r1. split; auto. split; auto. split; auto. split; auto.
  intros x a b Me Q. destruct (M _ _ _ _ Me) as [M1 M2]. cbv zeta in M1, M2. rewrite Q in M1, M2.
  assert (E0 : r0 = p11 * x I3 + p21 * x I4) by lra. assert (E1 : r1 = p12 * x I3 + p22 * x I4) by lra.
  cbn [predicted]. split; [f_equal; lra|]. split.
  - intros Y. injection Y as Y0 Y1. split; lra.
  - intros [Y0 Y1]. f_equal; lra.
Qed.
Print Assumptions C66_hits.
