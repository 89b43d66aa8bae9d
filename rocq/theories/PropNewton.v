(** C68: when the Newton search finds the surface, and when it does not. *)
From Coq Require Import Reals Lra Lia Psatz ZArith List Bool.
From Coquelicot Require Import Coquelicot.
From Verif Require Import SpecConst Num NumFacts Vec Helix Isect SpecHelix SpecIsect HelixFacts PathFacts IsectFacts
  SurfFacts SurfFacts2 SpecNewton NewtonFacts PropSurf.
Open Scope R_scope.

Lemma mode_bounds mode s cb (surf : surface) x : mode_ok mode s && bounds surf cb x = true
  <-> sign_ok mode s /\ (cb = true -> sf_insideBounds surf x = true).
Proof.
  rewrite andb_true_iff, mode_ok_iff, bounds_iff. tauto.
Qed.

Lemma loop_S surf hp rp b st : newton_loop surf hp rp (S b) st =
  (r <- newton_step surf hp rp st ;;
   match r with inl (s, xx) => Ok (NDone s xx) | inr st' => newton_loop surf hp rp b st' end).
Proof. reflexivity. Qed.

(** a crossing near a point that is close to the surface *)
Lemma near_crossing surf hp f I d0 g M s : tame surf hp f I d0 g M -> I s -> Rabs (sf_distance surf (f s)) < newton_tol ->
  forall s', I s' -> sf_distance surf (f s') = 0 -> 2 * M * Rabs (s' - s) <= g -> Rabs (s' - s) < 2 * newton_tol / g.
Proof.
  intros T Is D s' Is' E H.
  assert (L := tame_linear _ _ _ _ _ _ _ T s s' Is Is'). assert (Rg := tame_rate _ _ _ _ _ _ _ T s Is).
  assert (Hg := tame_g _ _ _ _ _ _ _ T). rewrite E in L. set (d := sf_distance surf (f s)) in *.
  set (G := rate surf hp f s) in *. set (x := s' - s) in *.
  assert (A : Rabs (G * x) <= Rabs d + M * (x * x)).
  { replace (G * x) with (- d - (0 - d - G * x)) by ring. eapply Rle_trans; [apply Rabs_triang|].
    rewrite !Rabs_Ropp. lra. }
  rewrite Rabs_mult in A. replace (x * x) with (Rabs x * Rabs x) in A by (rewrite <- Rabs_mult; apply Rabs_pos_eq, Rle_0_sqr).
  assert (Px := Rabs_pos x). apply Rmult_lt_reg_r with g; auto.
  replace (2 * newton_tol / g * g) with (2 * newton_tol) by (field; lra). nra.
Qed.

Lemma start_good surf f (I : R -> Prop) d0 p q s0 : I s0 -> d0 = Rabs (sf_distance surf (f s0)) -> d0 < 10000000000 ->
  good surf f I d0 p q 0 (start_state s0 (f s0)).
Proof.
  intros Is E H. unfold good, start_state. cbn [n_s n_xx n_prevDist n_alpha pow]. rewrite <- E.
  rewrite (Rabs_pos_eq 10000000000) by lra. split; [reflexivity|]. split; [exact Is|]. split; [lra|]. split; [lra|]. intros; auto.
Qed.

(** Each step is better than the one before: the distance shrinks at least by
    the factor [q] per step. *)
Theorem C68_converges : forall surf hp rp f I d0 g M q s0 mode cb,
  hp OMEGA <> 0 -> is_helix hp rp f -> tame surf hp f I d0 g M ->
  I s0 -> d0 = Rabs (sf_distance surf (f s0)) -> d0 < 10000000000 ->
  stretch hp - 1 + bend hp d0 g M <= q -> / 100000000000 + bend hp d0 g M <= q -> q < 1 ->
  d0 * q ^ 100 < newton_tol ->
  finds surf hp rp f I g M s0 mode cb.
Proof.
  intros surf hp rp f I d0 g M q s0 mode cb Ho Hf T Is E Hd Q1 Q2 Q3 Q4.
  assert (H0 : 0 <= d0) by (rewrite E; apply Rabs_pos).
  assert (Gd := start_good surf f I d0 0 q s0 Is E Hd).
  destruct (good_loop surf hp rp f I d0 g M Ho Hf T 0 q Q1 Q2 Q3 (or_introl eq_refl) (Rle_refl 0) 101 0 _ H0 Gd)
    as [(s & j & L & _ & Ij & D & _)|[(Z & _)|(s & m & Em & L & _ & D & _)]]; [|discriminate|].
  - exists s, (mode_ok mode s && bounds surf cb (f s)). unfold intersectWithSurfaceNewton.
    rewrite (pt hp rp f Ho Hf). cbn [bind]. fold (start_state s0 (f s0)). change newton_budget with 101%nat. rewrite L. cbn [bind].
    split; [reflexivity|]. split; [exact Ij|]. split; [exact D|]. split; [apply mode_bounds|].
    eapply near_crossing; eauto.
  - exfalso. injection Em as <-. cbn [Nat.add] in D. lra.
Qed.
Print Assumptions C68_converges.

(** Each step is better, but by no more than the factor [p]: the steps run out. *)
Theorem C68_runs_out : forall surf hp rp f I d0 g M p s0 mode cb,
  hp OMEGA <> 0 -> is_helix hp rp f -> tame surf hp f I d0 g M ->
  I s0 -> d0 = Rabs (sf_distance surf (f s0)) -> d0 < 10000000000 ->
  stretch hp + bend hp d0 g M < 2 -> 0 <= p <= stretch hp / (1 + / 100000000000) - 1 - bend hp d0 g M ->
  newton_tol <= d0 * p ^ 100 ->
  gives_up surf hp rp f I (d0 * p ^ 100) s0 mode cb.
Proof.
  intros surf hp rp f I d0 g M p s0 mode cb Ho Hf T Is E Hd Q1 [P0 P1] P2.
  assert (H0 : 0 <= d0) by (rewrite E; apply Rabs_pos).
  assert (Eb := e_pos surf hp f I d0 g M T H0).
  destruct (stretch_cos hp) as [K1 _].
  assert (Kd : stretch hp / (1 + / 100000000000) <= stretch hp - / 100000000000).
  { apply Rmult_le_reg_r with (1 + / 100000000000); [lra|].
    replace (stretch hp / (1 + / 100000000000) * (1 + / 100000000000)) with (stretch hp) by (field; lra).
    assert (0 <= stretch hp - 1 - bend hp d0 g M).
    { assert (stretch hp / (1 + / 100000000000) <= stretch hp); [|lra].
      apply Rmult_le_reg_r with (1 + / 100000000000); [lra|].
      replace (stretch hp / (1 + / 100000000000) * (1 + / 100000000000)) with (stretch hp) by (field; lra). lra. }
    destruct (Rle_dec (1 + / 100000000000) (stretch hp)) as [Hk|Hk]; [nra|]. exfalso.
    assert (stretch hp / (1 + / 100000000000) < 1); [|lra].
    apply Rmult_lt_reg_r with (1 + / 100000000000); [lra|].
    replace (stretch hp / (1 + / 100000000000) * (1 + / 100000000000)) with (stretch hp) by (field; lra). lra. }
  set (q := stretch hp - 1 + bend hp d0 g M).
  assert (Q2 : / 100000000000 + bend hp d0 g M <= q) by (unfold q; lra).
  assert (Q3 : q < 1) by (unfold q; lra).
  assert (Gd := start_good surf f I d0 p q s0 Is E Hd).
  assert (P3 : p <= 1) by lra.
  destruct (good_loop surf hp rp f I d0 g M Ho Hf T p q (Rle_refl _) Q2 Q3 (or_intror P1) P0 101 0 _ H0 Gd)
    as [(s & j & L & Lj & Ij & D & B)|[(Z & _)|(s & m & Em & L & Ij & _ & D)]]; [|discriminate|].
  - exfalso. cbn [Nat.add] in B.
    assert (p ^ 100 <= p ^ j).
    { replace 100%nat with (j + (100 - j))%nat by lia. rewrite pow_add.
      rewrite <- (Rmult_1_r (p ^ j)) at 2. apply Rmult_le_compat_l; [apply pow_le; auto|].
      rewrite <- (pow1 (100 - j)). apply pow_incr. lra. }
    assert (d0 * p ^ 100 <= d0 * p ^ j) by (apply Rmult_le_compat_l; auto). lra.
  - injection Em as <-. cbn [Nat.add] in D. exists s. unfold intersectWithSurfaceNewton.
    rewrite (pt hp rp f Ho Hf). cbn [bind]. fold (start_state s0 (f s0)). change newton_budget with 101%nat. rewrite L. cbn [bind]. auto.
Qed.
Print Assumptions C68_runs_out.

(** Steps with less damping than [damping j] are rejected, and a step with that
    damping improves the distance: it shrinks at least by [q] in every second step. *)
Theorem C68_damped_converges : forall surf hp rp f I d0 g M q j s0 mode cb,
  hp OMEGA <> 0 -> is_helix hp rp f -> tame surf hp f I d0 g M ->
  I s0 -> d0 = Rabs (sf_distance surf (f s0)) -> d0 < 10000000000 ->
  (1 <= j <= 99)%nat -> 2 + bend hp d0 g M <= stretch hp / (1 + damping (j - 1)) ->
  Rabs (1 - stretch hp / (1 + damping j)) + bend hp d0 g M <= q -> q < 1 ->
  d0 * q ^ useful j < newton_tol ->
  finds surf hp rp f I g M s0 mode cb.
Proof.
  intros surf hp rp f I d0 g M q j s0 mode cb Ho Hf T Is E Hd Hj R1 Q1 Q2 Q3.
  assert (H0 : 0 <= d0) by (rewrite E; apply Rabs_pos).
  destruct j as [|J]; [lia|]. replace (S J - 1)%nat with J in R1 by lia.
  change damping with level in *.
  destruct (Rlt_dec d0 newton_tol) as [L0|L0].
  { exists s0, (mode_ok mode s0 && bounds surf cb (f s0)). unfold intersectWithSurfaceNewton.
    rewrite (pt hp rp f Ho Hf). cbn [bind]. change newton_budget with (S 100). rewrite loop_S. unfold newton_step at 1. cbn [n_s n_xx]. rewrite <- E.
    change newton_eps with newton_tol. destruct (Rlt_dec d0 newton_tol); [|contradiction]. cbn [bind].
    split; [reflexivity|]. split; [exact Is|]. split; [exact L0|]. split; [apply mode_bounds|].
    eapply near_crossing; eauto. rewrite <- E; auto. }
  destruct (damped_start surf hp rp f I d0 g M Ho Hf T 0 q s0 Is E Hd ltac:(lra))
    as (st' & S1 & F & B).
  assert (U : improvements 100 (S J - 0) = useful (S J)).
  { rewrite improvements_value. replace (S J - 0)%nat with (S J) by lia.
    replace (Nat.ltb (S J) 100) with true by (symmetry; apply Nat.ltb_lt; lia). reflexivity. }
  destruct (damped_loop surf hp rp f I d0 g M Ho Hf T J 0 q R1 Q1 Q2 (or_introl eq_refl) (Rle_refl 0) H0 100 0 0 st' ltac:(lia) F B)
    as [(s & i & L & _ & Ij & D & _)|(s & L & _ & D & _)].
  - exists s, (mode_ok mode s && bounds surf cb (f s)). unfold intersectWithSurfaceNewton.
    rewrite (pt hp rp f Ho Hf). cbn [bind]. fold (start_state s0 (f s0)). change newton_budget with (S 100).
    rewrite loop_S, S1. cbn [bind]. rewrite L. cbn [bind].
    split; [reflexivity|]. split; [exact Ij|]. split; [exact D|]. split; [apply mode_bounds|].
    eapply near_crossing; eauto.
  - exfalso. rewrite U in D. cbn [Nat.add] in D. lra.
Qed.
Print Assumptions C68_damped_converges.

Theorem C68_damped_runs_out : forall surf hp rp f I d0 g M p j s0 mode cb,
  hp OMEGA <> 0 -> is_helix hp rp f -> tame surf hp f I d0 g M ->
  I s0 -> d0 = Rabs (sf_distance surf (f s0)) -> d0 < 10000000000 ->
  (1 <= j <= 99)%nat -> 2 + bend hp d0 g M <= stretch hp / (1 + damping (j - 1)) ->
  Rabs (1 - stretch hp / (1 + damping j)) + bend hp d0 g M < 1 ->
  0 <= p <= Rabs (1 - stretch hp / (1 + damping j)) - bend hp d0 g M ->
  newton_tol <= d0 * p ^ useful j ->
  gives_up surf hp rp f I (d0 * p ^ useful j) s0 mode cb.
Proof.
  intros surf hp rp f I d0 g M p j s0 mode cb Ho Hf T Is E Hd Hj R1 Q1 [P0 P1] P2.
  assert (H0 : 0 <= d0) by (rewrite E; apply Rabs_pos).
  assert (Eb := e_pos surf hp f I d0 g M T H0).
  destruct j as [|J]; [lia|]. replace (S J - 1)%nat with J in R1 by lia.
  change damping with level in *.
  assert (Pp : p ^ useful (S J) <= 1). { rewrite <- (pow1 (useful (S J))). apply pow_incr. lra. }
  assert (L0 : newton_tol <= d0). { eapply Rle_trans; [exact P2|]. nra. }
  set (q := Rabs (1 - stretch hp / (1 + level (S J))) + bend hp d0 g M).
  destruct (damped_start surf hp rp f I d0 g M Ho Hf T p q s0 Is E Hd L0)
    as (st' & S1 & F & B).
  assert (U : improvements 100 (S J - 0) = useful (S J)).
  { rewrite improvements_value. replace (S J - 0)%nat with (S J) by lia.
    replace (Nat.ltb (S J) 100) with true by (symmetry; apply Nat.ltb_lt; lia). reflexivity. }
  destruct (damped_loop surf hp rp f I d0 g M Ho Hf T J p q R1 (Rle_refl _) Q1 (or_intror P1) P0 H0 100 0 0 st' ltac:(lia) F B)
    as [(s & i & L & Li & Ij & D & Lo)|(s & L & Ij & _ & Lo)]; rewrite U in *; cbn [Nat.add] in *.
  - exfalso.
    assert (p ^ useful (S J) <= p ^ i).
    { replace (useful (S J)) with (i + (useful (S J) - i))%nat by lia. rewrite pow_add.
      rewrite <- (Rmult_1_r (p ^ i)) at 2. apply Rmult_le_compat_l; [apply pow_le; auto|].
      rewrite <- (pow1 (useful (S J) - i)). apply pow_incr. lra. }
    assert (d0 * p ^ useful (S J) <= d0 * p ^ i) by (apply Rmult_le_compat_l; auto). lra.
  - exists s. unfold intersectWithSurfaceNewton.
    rewrite (pt hp rp f Ho Hf). cbn [bind]. fold (start_state s0 (f s0)). change newton_budget with (S 100).
    rewrite loop_S, S1. cbn [bind]. rewrite L. cbn [bind]. auto.
Qed.
Print Assumptions C68_damped_runs_out.
