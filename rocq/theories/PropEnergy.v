(** C71: momentum and energy along a trajectory. *)
From Coq Require Import Reals List Bool ZArith Lra Lia Permutation Sorted.
From Coquelicot Require Import Coquelicot.
From Verif Require Import SpecConst Num Vec Helix Isect Trans Material Traj.
From Verif Require Import NumFacts SpecHelix HelixFacts MoveFacts SpecMaterial MaterialFacts SpecTraj TrajFacts TrajFacts2 TrajFacts3 TrajFacts5.
From Verif Require Import SpecElem ElemFacts SpecEnergy EnergyFacts TrajEx.
Import ListNotations.
Open Scope R_scope.

(** One accepted addition: the momentum is scaled by 1 - dE/E.  This is not the
    momentum that belongs to the energy E - dE: the new state has more energy,
    unless the particle has no mass or loses nothing. *)
Theorem C71_step : forall E t c e, made_by E t c e ->
  exists dE En, loss_of E t c dE En
  /\ (forall dE' En', loss_of E t c dE' En' -> dE' = dE /\ En' = En)
  /\ let m := tr_mass t in
     let bz := vz (en_gfield E (tp_ref (te_tp e))) in
     let p0 := momentum_size bz (tp_par (from_state t)) in
     let p1 := momentum_size bz (tp_par (te_tp e)) in
     0 < p0 /\ En = energy_of p0 m /\ dE <> En
     /\ p1 = p0 * Rabs (1 - dE / En)
     /\ energy_of p1 m * energy_of p1 m
        = (En - dE) * (En - dE) + m * m * (1 - (1 - dE / En) * (1 - dE / En))
     /\ (m <> 0 -> 0 < dE < En -> En - dE < energy_of p1 m < En)
     /\ (0 <= dE < En -> (energy_of p1 m = En - dE <-> m = 0 \/ dE = 0)).
Proof.
  intros E t c e M. destruct (made_loss _ _ _ _ M) as (dE & En & L & N1 & N2 & Om & Ee & P0 & Tl & Oe).
  exists dE, En. split; auto. split; [intros dE' En' L'; eapply loss_unique; eauto|].
  intros m bz p0 p1. fold m bz p0 in Ee, P0.
  assert (Ep : En * En = p0 * p0 + m * m).
  { rewrite Ee. unfold energy_of. apply sqrt_sqrt. nra. }
  assert (En0 : 0 < En).
  { rewrite Ee. unfold energy_of. apply sqrt_lt_R0. nra. }
  assert (P1 : p1 = p0 * Rabs (1 - dE / En)).
  { unfold p1, p0, momentum_size. rewrite Tl, Oe.
    assert (D : En - dE <> 0) by lra.
    assert (A0 : 0 < Rabs (tp_par (from_state t) OMEGA)) by (apply Rabs_pos_lt; auto).
    assert (A1 : 0 < Rabs (En - dE)) by (apply Rabs_pos_lt; auto).
    replace (1 - dE / En) with ((En - dE) / En) by (field; lra).
    unfold Rdiv. rewrite !Rabs_mult, !Rabs_inv, (Rabs_pos_eq En) by lra. field. lra. }
  split; auto. split; auto. split; auto. split; auto.
  set (k := 1 - dE / En) in *.
  assert (Kd : En - dE = k * En) by (unfold k; field; lra).
  assert (Sq : energy_of p1 m * energy_of p1 m = p0 * p0 * (k * k) + m * m).
  { unfold energy_of. rewrite sqrt_sqrt by nra. rewrite P1.
    replace (p0 * Rabs k * (p0 * Rabs k)) with (p0 * p0 * (Rabs k * Rabs k)) by ring.
    rewrite <- Rabs_mult, (Rabs_pos_eq (k * k)) by nra. ring. }
  assert (Nn : 0 <= energy_of p1 m) by apply sqrt_pos.
  assert (Main : energy_of p1 m * energy_of p1 m = (En - dE) * (En - dE) + m * m * (1 - k * k)).
  { rewrite Sq, Kd. replace (k * En * (k * En)) with (k * k * (En * En)) by ring. rewrite Ep. ring. }
  split; auto. set (E1 := energy_of p1 m) in *. clearbody E1.
  split.
  - intros Hm [D1 D2]. assert (K1 : 0 < k < 1) by (split; [apply Rmult_lt_reg_r with En; lra|apply Rmult_lt_reg_r with En; lra]).
    assert (0 < m * m) by (apply Rsqr_pos_lt; auto).
    assert (0 < m * m * (1 - k * k)) by (apply Rmult_lt_0_compat; nra).
    split; [nra|]. assert (0 < p0 * p0) by nra. assert (E1 * E1 < En * En) by (rewrite Sq, Ep; nra). nra.
  - intros [D1 D2]. assert (K1 : 0 < k <= 1) by (split; [apply Rmult_lt_reg_r with En; lra|apply Rmult_le_reg_r with En; lra]).
    split.
    + intros Q. rewrite Q in Main. assert (Z : m * m * (1 - k * k) = 0) by lra.
      apply Rmult_integral in Z. destruct Z as [Z|Z]; [left; nra|right]. assert (k = 1) by nra. subst k. nra.
    + intros [Z|Z].
      * rewrite Z in Main. nra.
      * assert (k = 1) by nra. rewrite H in Main. nra.
Qed.
Print Assumptions C71_step.

(** For a small loss the momentum should drop by dE/beta; it drops by beta dE. *)
Theorem C71_rate : forall p m, 0 < p ->
  let En := energy_of p m in
  let beta := velocity p m in
  is_derive (fun dE => p * (1 - dE / En)) 0 (- beta)
  /\ is_derive (fun dE => sqrt ((En - dE) * (En - dE) - m * m)) 0 (- (1 / beta)).
Proof.
  intros p m P En beta. assert (En2 : En * En = p * p + m * m) by (apply sqrt_sqrt; nra).
  assert (E0 : 0 < En) by (apply sqrt_lt_R0; nra).
  assert (B : beta = p / En) by reflexivity. rewrite B. clearbody En. clear beta B.
  split.
  - auto_derive; auto. field. lra.
  - auto_derive; [nra|].
    replace ((En + - 0) * (En + - 0) + - (m * m)) with (p * p) by nra. rewrite sqrt_square by lra.
    field. lra.
Qed.
Print Assumptions C71_rate.

(** Along a history: the curvature of the last state is that of the reference
    track, divided by 1 - dE/E for every accepted addition (before any
    preparation, which may reorder elements of equal path length). *)
Theorem C71_product : forall E ok ref prop cs t, env_ok E ->
  history E ok (mkTraj ref prop) cs t -> ~ In CPrep cs ->
  exists es ls, build E ok (mkTraj ref prop) cs t es
  /\ Forall2 (fun e l => exists cs1 c cs2 t1, cs = cs1 ++ c :: cs2
       /\ history E ok (mkTraj ref prop) cs1 t1 /\ made_by E t1 c e /\ loss_of E t1 c (fst l) (snd l)) es ls
  /\ tp_par (from_state t) OMEGA * fraction ls = tp_par ref OMEGA
  /\ fraction ls <> 0
  /\ tp_par (from_state t) TANL = tp_par ref TANL.
Proof.
  intros E ok ref prop cs t [So _] H. induction H as [|cs t c t' H IH O St]; intros N.
  - exists [], []. split; [constructor|]. split; [constructor|]. cbn [fraction from_state mkTraj tr_elems rev tr_ref].
    split; [ring|]. split; [lra|auto].
  - destruct IH as (es & ls & B & F & Om & Nz & Tl); [intros I; apply N; apply in_or_app; auto|].
    assert (F' : Forall2 (fun e l => exists cs1 c0 cs2 t1, cs ++ [c] = cs1 ++ c0 :: cs2
       /\ history E ok (mkTraj ref prop) cs1 t1 /\ made_by E t1 c0 e /\ loss_of E t1 c0 (fst l) (snd l)) es ls).
    { clear - F. induction F as [|e l es ls (cs1 & c1 & cs2 & t1 & -> & R) F IH]; constructor; auto.
      exists cs1, c1, (cs2 ++ [c]), t1. split; [rewrite <- app_assoc; auto|auto]. }
    destruct (step_elems _ _ _ _ So St) as [(t1 & e & M & W & X)|(Nm & K)].
    + destruct (made_loss _ _ _ _ M) as (dE & En & L & N1 & N2 & Om0 & _ & _ & Te & Oe).
      assert (Fs : from_state t' = te_tp e).
      { rewrite X. unfold from_state. cbn [set_elems tr_elems]. rewrite rev_app_distr. reflexivity. }
      exists (es ++ [e]), (ls ++ [(dE, En)]). split; [eapply bd_made; eauto|].
      split.
      { apply Forall2_app; auto. constructor; [|constructor]. exists cs, c, [], t. auto. }
      rewrite fraction_app, Fs, Oe, Te. cbn [fraction].
      split; [rewrite <- Om; field; lra|]. split; [|congruence].
      apply Rmult_integral_contrapositive. split; auto. rewrite Rmult_1_r.
      intros Q. apply N2. apply Rmult_eq_reg_r with (/ En); [|apply Rinv_neq_0_compat; auto]. rewrite Rinv_r by auto.
      unfold Rdiv in Q. lra.
    + exists es, ls. split; [eapply bd_other; eauto|]. split; auto.
      assert (Fs : from_state t' = from_state t).
      { destruct K as [->|[[[_ ->]|(Z & i & -> & _ & T & _)]|[(l & Pm & _ & _ & _ & ->)|(El & Rf)]]]; auto.
        - unfold from_state. cbn [set_elems tr_elems rev app]. rewrite Z. exact T.
        - exfalso. apply N. apply in_or_app. right. left. auto.
        - unfold from_state. rewrite El, Rf. auto. }
      rewrite Fs. auto.
Qed.
Print Assumptions C71_product.

(** If no call gains energy or loses all of it, charge and dip are the same and the
    curvature does not decrease along the list of elements (without preparation, or
    with all path lengths different). *)
Theorem C71_slows_down : forall E ref prop cs t, env_ok E ->
  history E (braking E) (mkTraj ref prop) cs t ->
  ~ In CPrep cs \/ NoDup (map te_s (tr_elems t)) ->
  StronglySorted slower (tr_elems t).
Proof. exact history_mono. Qed.
Print Assumptions C71_slows_down.

(** ... so in a uniform field neither momentum nor energy increase. *)
Theorem C71_momentum_drops : forall a b bz m, slower a b ->
  momentum_size bz (tp_par (te_tp b)) <= momentum_size bz (tp_par (te_tp a))
  /\ energy_of (momentum_size bz (tp_par (te_tp b))) m <= energy_of (momentum_size bz (tp_par (te_tp a))) m.
Proof.
  intros a b bz m (S & A & T).
  assert (P : momentum_size bz (tp_par (te_tp b)) <= momentum_size bz (tp_par (te_tp a))).
  { unfold momentum_size. rewrite T. apply Rmult_le_compat_r; [apply sqrt_pos|].
    assert (tp_par (te_tp a) OMEGA <> 0) by nra.
    assert (0 < Rabs (tp_par (te_tp a) OMEGA)) by (apply Rabs_pos_lt; auto).
    unfold Rdiv. apply Rmult_le_compat_l.
    - apply Rmult_le_pos; [unfold field_unit; lra|apply Rabs_pos].
    - apply Rinv_le_contravar; auto. }
  split; auto. unfold energy_of. apply sqrt_le_1_alt.
  assert (0 <= momentum_size bz (tp_par (te_tp b))).
  { unfold momentum_size. apply Rmult_le_pos; [|apply sqrt_pos]. unfold Rdiv.
    apply Rmult_le_pos; [apply Rmult_le_pos; [unfold field_unit; lra|apply Rabs_pos]|].
    assert (0 <= Rabs (tp_par (te_tp b) OMEGA)) by apply Rabs_pos.
    destruct (Req_dec (Rabs (tp_par (te_tp b) OMEGA)) 0) as [->|]; [rewrite Rinv_0; lra|].
    left. apply Rinv_0_lt_compat. lra. }
  nra.
Qed.
Print Assumptions C71_momentum_drops.
