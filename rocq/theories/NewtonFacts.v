(** Convergence of the Newton search. *)
From Coq Require Import Reals Lra Lia Psatz ZArith List Bool.
From Coquelicot Require Import Coquelicot.
From Verif Require Import SpecConst Num NumFacts Vec Helix Isect SpecHelix SpecIsect HelixFacts PathFacts IsectFacts
  SurfFacts SurfFacts2 SpecNewton.
Open Scope R_scope.

Lemma stretch_cos hp : 1 <= stretch hp /\ stretch hp * cos (atan (hp TANL)) = 1.
Proof.
  unfold stretch. set (t := hp TANL). assert (Hc : 0 < cos (atan t)) by (apply cos_gt_0; generalize (atan_bound t); lra).
  split.
  - rewrite <- sqrt_1 at 1. apply sqrt_le_1_alt. nra.
  - assert (Ht : t * cos (atan t) = sin (atan t)).
    { rewrite <- (atan_right_inv t) at 1. unfold tan. field. lra. }
    assert (S := sin2_cos2 (atan t)). unfold Rsqr in S.
    assert (E : 1 + t * t = (/ cos (atan t)) * (/ cos (atan t))).
    { apply Rmult_eq_reg_r with (cos (atan t) * cos (atan t)); [|nra].
      transitivity (cos (atan t) * cos (atan t) + (t * cos (atan t)) * (t * cos (atan t))); [ring|].
      rewrite Ht. transitivity 1; [lra|field; lra]. }
    rewrite E, sqrt_square; [field; lra|]. apply Rlt_le, Rinv_0_lt_compat; auto.
Qed.

Lemma tangent_velocity s hp : calculateTangent s hp = vscale (cos (atan (hp TANL))) (velocity hp s).
Proof.
  unfold calculateTangent, velocity, vscale. cbv zeta.
  unfold calculateCurvature, calculateOmega, calculatePhi0, calculateLambda, calculateTanLambda. cbn [vx vy vz].
  assert (Hc : 0 < cos (atan (hp TANL))) by (apply cos_gt_0; generalize (atan_bound (hp TANL)); lra).
  f_equal; try ring.
  set (t := hp TANL) in *. rewrite <- (atan_right_inv t) at 3. unfold tan. field. lra.
Qed.

Section Search.
Variables (surf : surface) (hp : vec5) (rp : vec3) (f : R -> vec3) (I : R -> Prop) (d0 g M : R).
Hypothesis Ho : hp OMEGA <> 0.
Hypothesis Hf : is_helix hp rp f.
Hypothesis T : tame surf hp f I d0 g M.

Let delta (s : R) : R := sf_distance surf (f s).
Let k : R := stretch hp.
Let e : R := bend hp d0 g M.

Lemma pt s : pointAt s hp rp = Ok (f s).
Proof. rewrite pointAt_hcurve by auto. f_equal. apply (helix_unique hp rp); auto. apply hcurve_helix; auto. Qed.

(** one step from [s] with damping [a] *)
Lemma one_step s a : I s -> Rabs (delta s) <= d0 -> 0 <= a ->
  let s' := s - delta s / ((1 + a) * (cos (atan (hp TANL)) * rate surf hp f s)) in
  I s' /\ (Rabs (1 - k / (1 + a)) - e) * Rabs (delta s) <= Rabs (delta s') <= (Rabs (1 - k / (1 + a)) + e) * Rabs (delta s).
Proof.
  intros Is Hd Ha s'. destruct (stretch_cos hp) as [K1 K2]. fold k in K1, K2. set (c := cos (atan (hp TANL))) in *.
  assert (Hg := tame_g _ _ _ _ _ _ _ T). assert (HM := tame_M _ _ _ _ _ _ _ T).
  assert (Rg := tame_rate _ _ _ _ _ _ _ T s Is). set (G := rate surf hp f s) in *.
  assert (NG : G <> 0). { intros Z. rewrite Z, Rabs_R0 in Rg. lra. }
  assert (Nc : c <> 0). { intros Z. rewrite Z in K2. lra. }
  assert (Ds : s' - s = - (delta s) * (k / (1 + a)) / G).
  { unfold s'. apply Rmult_eq_reg_r with c; auto.
    transitivity (- delta s * (k * c) / (1 + a) / G); [rewrite K2|]; field; repeat split; lra. }
  clearbody s'.
  set (m := k / (1 + a)) in *.
  assert (Hm : 0 < m <= k).
  { split; [apply Rdiv_lt_0_compat; lra|]. unfold m. apply Rmult_le_reg_r with (1 + a); [lra|].
    replace (k / (1 + a) * (1 + a)) with k by (field; lra). nra. }
  assert (Ab : Rabs (s' - s) = Rabs (delta s) * m / Rabs G).
  { rewrite Ds. unfold Rdiv. rewrite !Rabs_mult, Rabs_Ropp, Rabs_inv by auto. rewrite (Rabs_pos_eq m) by lra. reflexivity. }
  assert (Pd := Rabs_pos (delta s)).
  assert (Le : Rabs (s' - s) <= k * Rabs (delta s) / g).
  { rewrite Ab. apply Rmult_le_compat; try nra.
    - apply Rlt_le, Rinv_0_lt_compat. lra.
    - apply Rinv_le_contravar; lra. }
  assert (Is' : I s').
  { apply (tame_step _ _ _ _ _ _ _ T s s' Is); auto. eapply Rle_trans; [exact Le|]. fold k. apply Rmult_le_compat_r; [apply Rlt_le, Rinv_0_lt_compat; auto|]. nra. }
  split; auto.
  assert (Li := tame_linear _ _ _ _ _ _ _ T s s' Is Is'). fold G in Li. fold (delta s') (delta s) in Li.
  replace (G * (s' - s)) with (- delta s * m) in Li by (rewrite Ds; field; auto).
  assert (Sq : (s' - s) * (s' - s) <= (k * Rabs (delta s) / g) * (k * Rabs (delta s) / g)).
  { replace ((s' - s) * (s' - s)) with (Rabs (s' - s) * Rabs (s' - s)) by (rewrite <- Rabs_mult; apply Rabs_pos_eq; apply Rle_0_sqr).
    apply Rmult_le_compat; auto; apply Rabs_pos. }
  assert (Rem : M * ((s' - s) * (s' - s)) <= e * Rabs (delta s)).
  { eapply Rle_trans; [apply Rmult_le_compat_l; [exact HM|exact Sq]|]. unfold e, bend. fold k.
    replace (M * (k * Rabs (delta s) / g * (k * Rabs (delta s) / g)))
      with (M * Rabs (delta s) * (k * k) / (g * g) * Rabs (delta s)) by (field; lra).
    apply Rmult_le_compat_r; auto. unfold Rdiv. apply Rmult_le_compat_r.
    - apply Rlt_le, Rinv_0_lt_compat. nra.
    - apply Rmult_le_compat_r; [nra|]. apply Rmult_le_compat_l; auto. }
  set (r := delta s' - delta s - - delta s * m) in *.
  assert (Hr : Rabs r <= e * Rabs (delta s)) by lra.
  assert (Eq : delta s' = delta s * (1 - m) + r) by (unfold r; ring).
  assert (Em : Rabs (delta s * (1 - m)) = Rabs (1 - m) * Rabs (delta s)) by (rewrite Rabs_mult; ring).
  rewrite !Rmult_plus_distr_r, Rmult_minus_distr_r, <- Em, Eq. split.
  - generalize (Rabs_triang (delta s * (1 - m) + r) (- r)). rewrite Rabs_Ropp.
    replace (delta s * (1 - m) + r + - r) with (delta s * (1 - m)) by ring. lra.
  - generalize (Rabs_triang (delta s * (1 - m)) r). lra.
Qed.

Lemma e_pos : 0 <= d0 -> 0 <= e.
Proof.
  intros H. destruct (stretch_cos hp) as [K1 _]. unfold e, bend. apply Rmult_le_pos.
  - repeat apply Rmult_le_pos; auto; try (unfold k in *; lra). exact (tame_M _ _ _ _ _ _ _ T).
  - apply Rlt_le, Rinv_0_lt_compat. generalize (tame_g _ _ _ _ _ _ _ T). nra.
Qed.

(** ** the search when every pass improves *)
Section Steady.
Variables (p q : R).
Let tol11 : R := / 100000000000.
Hypothesis Hq : k - 1 + e <= q.
Hypothesis Hq' : tol11 + e <= q.
Hypothesis Hq1 : q < 1.
Hypothesis Hp : p = 0 \/ p <= k / (1 + tol11) - 1 - e.
Hypothesis Hp0 : 0 <= p.

Lemma ratio_bounds a : 0 <= a <= tol11 -> 0 <= d0 ->
  Rabs (1 - k / (1 + a)) + e <= q /\ (p = 0 \/ p <= Rabs (1 - k / (1 + a)) - e).
Proof.
  intros Ha H0. destruct (stretch_cos hp) as [K1 _]. fold k in K1. assert (E := e_pos H0).
  assert (A : k / (1 + tol11) <= k / (1 + a)).
  { apply Rmult_le_compat_l; [lra|]. apply Rinv_le_contravar; lra. }
  assert (B : k / (1 + a) <= k).
  { apply Rmult_le_reg_r with (1 + a); [lra|]. replace (k / (1 + a) * (1 + a)) with k by (field; lra). nra. }
  assert (C : 1 - a <= k / (1 + a)).
  { apply Rmult_le_reg_r with (1 + a); [lra|]. replace (k / (1 + a) * (1 + a)) with k by (field; lra). nra. }
  split.
  - apply Rplus_le_reg_r with (- e). apply Rle_trans with (q - e); [|lra]. ring_simplify (Rabs (1 - k / (1 + a)) + e + - e).
    apply Rabs_le. lra.
  - destruct Hp as [Z|Hp']; [left; exact Z|right]. assert (D := Rle_abs (- (1 - k / (1 + a)))). rewrite Rabs_Ropp in D. lra.
Qed.

(** state before evaluation number [n] *)
Definition good (n : nat) (st : nstate) : Prop :=
  n_xx st = f (n_s st) /\ I (n_s st) /\ 0 < n_alpha st <= / 10000000000
  /\ d0 * p ^ n <= Rabs (delta (n_s st)) <= d0 * q ^ n
  /\ (newton_tol <= Rabs (delta (n_s st)) -> Rabs (delta (n_s st)) < Rabs (n_prevDist st)).

Lemma q_pos : 0 <= d0 -> 0 <= q.
Proof. intros H. assert (E := e_pos H). unfold tol11 in *. lra. Qed.

Lemma pow_le_1 n : 0 <= d0 -> q ^ n <= 1.
Proof. intros H. assert (Q := q_pos H). rewrite <- (pow1 n). apply pow_incr. lra. Qed.

Lemma good_step n st : 0 <= d0 -> good n st -> newton_tol <= Rabs (delta (n_s st)) ->
  exists st', newton_step surf hp rp st = Ok (inr st') /\ good (S n) st'
    /\ n_prevXX st' = f (n_prevS st') /\ I (n_prevS st') /\ d0 * p ^ n <= Rabs (delta (n_prevS st')).
Proof.
  intros H0 (Gx & GI & Ga & Gd & Gp) Ht. specialize (Gp Ht).
  assert (P1 := pow_le_1 n H0).
  assert (Hd : Rabs (delta (n_s st)) <= d0).
  { destruct Gd as [_ Gd]. eapply Rle_trans; [exact Gd|]. nra. }
  unfold newton_step. rewrite Gx. fold (delta (n_s st)). change newton_eps with newton_tol.
  destruct (Rlt_dec (Rabs (delta (n_s st))) newton_tol) as [L|_]; [lra|].
  destruct (Rlt_dec (Rabs (delta (n_s st))) (Rabs (n_prevDist st))) as [_|L]; [|contradiction].
  cbn [fst snd n_s n_xx n_prevXX n_prevS n_prevDist n_alpha]. cbv zeta.
  set (a := n_alpha st * alphaDecr).
  assert (Ha : 0 < a <= tol11).
  { unfold a, alphaDecr, alphaIncr, tol11. split; [lra|]. lra. }
  destruct (stretch_cos hp) as [K1 K2]. set (c := cos (atan (hp TANL))) in *.
  assert (Rg := tame_rate _ _ _ _ _ _ _ T _ GI). assert (Hg := tame_g _ _ _ _ _ _ _ T).
  assert (Dt : vdot (sf_normal surf (f (n_s st))) (calculateTangent (n_s st) hp) = c * rate surf hp f (n_s st)).
  { rewrite tangent_velocity. unfold rate, vdot, vscale. cbn [vx vy vz]. fold c. ring. }
  rewrite Dt.
  assert (NG : rate surf hp f (n_s st) <> 0). { intros Z. rewrite Z, Rabs_R0 in Rg. lra. }
  assert (Nc : c <> 0). { intros Z. rewrite Z in K2. lra. }
  assert (N : (1 + a) * (c * rate surf hp f (n_s st)) <> 0) by (repeat apply Rmult_integral_contrapositive_currified; auto; lra).
  rewrite (rdiv_ok _ _ N). cbn [bind]. rewrite pt. cbn [bind].
  destruct (one_step (n_s st) a GI Hd ltac:(lra)) as [I' [B1 B2]]. fold c in I', B1, B2.
  destruct (ratio_bounds a ltac:(lra) H0) as [R1 R2].
  eexists. split; [reflexivity|].
  cbn [n_s n_xx n_prevXX n_prevS n_prevDist n_alpha]. split; [|split; [reflexivity|split; [exact GI|tauto]]].
  assert (Pd := Rabs_pos (delta (n_s st))). set (s' := n_s st - _ / _) in *.
  set (x := Rabs (1 - k / (1 + a))) in *.
  split; [reflexivity|]. split; [exact I'|]. split; [cbn [n_alpha]; split; [apply Ha|eapply Rle_trans; [apply Ha|]; unfold tol11; clear; lra]|]. cbn [n_s pow].
  assert (Lo : p * Rabs (delta (n_s st)) <= Rabs (delta s')).
  { destruct R2 as [->|R2]; [rewrite Rmult_0_l; apply Rabs_pos|]. eapply Rle_trans; [|exact B1]. apply Rmult_le_compat_r; auto. }
  assert (Hi : Rabs (delta s') <= q * Rabs (delta (n_s st))).
  { eapply Rle_trans; [exact B2|]. apply Rmult_le_compat_r; auto. }
  split; [split|].
  - eapply Rle_trans; [|exact Lo]. replace (d0 * (p * p ^ n)) with (p * (d0 * p ^ n)) by ring. apply Rmult_le_compat_l; tauto.
  - eapply Rle_trans; [exact Hi|]. replace (d0 * (q * q ^ n)) with (q * (d0 * q ^ n)) by ring.
    apply Rmult_le_compat_l; [apply q_pos; auto|tauto].
  - intros _. cbn [n_prevDist]. eapply Rle_lt_trans; [exact Hi|]. assert (0 < newton_tol) by (unfold newton_tol; lra).
    rewrite <- (Rmult_1_l (Rabs (delta (n_s st)))) at 2. apply Rmult_lt_compat_r; lra.
Qed.

Lemma good_stop n st : good n st -> Rabs (delta (n_s st)) < newton_tol ->
  newton_step surf hp rp st = Ok (inl (n_s st, f (n_s st))).
Proof.
  intros (Gx & _) H. unfold newton_step. rewrite Gx. fold (delta (n_s st)). change newton_eps with newton_tol.
  destruct (Rlt_dec (Rabs (delta (n_s st))) newton_tol); [reflexivity|contradiction].
Qed.

(** the loop ends with a result, or after all evaluations *)
Lemma good_loop : forall b n st, 0 <= d0 -> good n st ->
  (exists s j, newton_loop surf hp rp b st = Ok (NDone s (f s)) /\ (j < b)%nat /\ I s /\ Rabs (delta s) < newton_tol
     /\ d0 * p ^ (n + j) <= Rabs (delta s))
  \/ (b = 0%nat /\ newton_loop surf hp rp b st = Ok (NGiveUp (n_prevS st) (n_prevXX st)))
  \/ exists s m, b = S m /\ newton_loop surf hp rp b st = Ok (NGiveUp s (f s)) /\ I s
       /\ newton_tol <= d0 * q ^ (n + m) /\ d0 * p ^ (n + m) <= Rabs (delta s).
Proof.
  induction b as [|b IH]; intros n st H0 Gd; [right; left; auto|].
  cbn [newton_loop]. destruct (Rlt_dec (Rabs (delta (n_s st))) newton_tol) as [L|L].
  - rewrite (good_stop n st Gd L). cbn [bind]. left. exists (n_s st), 0%nat. destruct Gd as (_ & GI & _ & Gd & _).
    rewrite Nat.add_0_r. repeat split; auto; try tauto. lia.
  - destruct (good_step n st H0 Gd ltac:(lra)) as (st' & -> & G' & Px & PI' & Pd). cbn [bind].
    destruct (IH (S n) st' H0 G') as [(s & j & E & Lj & Is & D & B)|[(-> & E)|(s & m & -> & E & Is & D & B)]].
    + left. exists s, (S j). replace (n + S j)%nat with (S n + j)%nat by lia. repeat split; auto. lia.
    + right. right. exists (n_prevS st'), 0%nat. rewrite E, Px, Nat.add_0_r. repeat split; auto.
      destruct Gd as (_ & _ & _ & [_ Gd] & _). lra.
    + right. right. exists s, (S m). replace (n + S m)%nat with (S n + m)%nat by lia. repeat split; auto.
Qed.
End Steady.

(** ** the search when the damping has to grow first *)
Section Damped.
Variables (J' : nat) (p q : R).
(** damping after [i] rejected steps *)
Definition level (i : nat) : R := / 100000000000 * 10 ^ i.
Hypothesis Hrej : 2 + e <= k / (1 + level J').
Hypothesis Hq : Rabs (1 - k / (1 + level (S J'))) + e <= q.
Hypothesis Hq1 : q < 1.
Hypothesis Hp : p = 0 \/ p <= Rabs (1 - k / (1 + level (S J'))) - e.
Hypothesis Hp0 : 0 <= p.
Hypothesis H0 : 0 <= d0.

Lemma level_pos i : 0 < level i.
Proof. unfold level. apply Rmult_lt_0_compat; [lra|]. apply pow_lt. lra. Qed.

Lemma level_mono i j : (i <= j)%nat -> level i <= level j.
Proof. intros H. unfold level. apply Rmult_le_compat_l; [lra|]. apply Rle_pow; [lra|auto]. Qed.

Lemma level_S i : level (S i) = level i * 10.
Proof. unfold level. cbn [pow]. ring. Qed.

Lemma qd_pos : 0 <= q.
Proof. assert (E := e_pos H0). assert (A := Rabs_pos (1 - k / (1 + level (S J')))). lra. Qed.

(** step taken from the remembered point *)
Definition from_best (i : nat) (st : nstate) : Prop :=
  n_prevXX st = f (n_prevS st) /\ I (n_prevS st) /\ n_prevDist st = delta (n_prevS st)
  /\ n_alpha st = level i /\ n_xx st = f (n_s st)
  /\ n_s st = n_prevS st - delta (n_prevS st)
        / ((1 + level i) * (cos (atan (hp TANL)) * rate surf hp f (n_prevS st))).

(** [m] improvements so far *)
Definition bounded (m : nat) (st : nstate) : Prop :=
  newton_tol <= Rabs (delta (n_prevS st)) /\ d0 * p ^ m <= Rabs (delta (n_prevS st)) <= d0 * q ^ m.

Lemma qpow_le_1 n : q ^ n <= 1.
Proof. assert (Q := qd_pos). rewrite <- (pow1 n). apply pow_incr. lra. Qed.

Lemma bounded_le m st : bounded m st -> Rabs (delta (n_prevS st)) <= d0.
Proof. intros (_ & _ & H). assert (P := qpow_le_1 m). eapply Rle_trans; [exact H|]. nra. Qed.

Lemma make_step i st d s x a :
  x = f s -> I s -> d = delta s -> a = level i ->
  newton_step surf hp rp st =
    (q0 <- rdiv d ((1 + a) * vdot (sf_normal surf x) (calculateTangent s hp)) ;;
     xx <- pointAt (s - q0) hp rp ;; Ok (inr (NS (s - q0) xx x s d a))) ->
  exists st', newton_step surf hp rp st = Ok (inr st') /\ from_best i st' /\ n_prevS st' = s.
Proof.
  intros -> Is -> -> ->.
  assert (Rg := tame_rate _ _ _ _ _ _ _ T s Is). assert (Hg := tame_g _ _ _ _ _ _ _ T).
  destruct (stretch_cos hp) as [K1 K2]. 
  assert (Dt : vdot (sf_normal surf (f s)) (calculateTangent s hp) = cos (atan (hp TANL)) * rate surf hp f s).
  { rewrite tangent_velocity. unfold rate, vdot, vscale. cbn [vx vy vz]. ring. }
  rewrite Dt.
  assert (NG : rate surf hp f s <> 0). { intros Z. rewrite Z, Rabs_R0 in Rg. lra. }
  assert (Nc : cos (atan (hp TANL)) <> 0). { intros Z. rewrite Z in K2. lra. }
  assert (Lp := level_pos i).
  assert (N : (1 + level i) * (cos (atan (hp TANL)) * rate surf hp f s) <> 0)
    by (repeat apply Rmult_integral_contrapositive_currified; auto; lra).
  rewrite (rdiv_ok _ _ N). cbn [bind]. rewrite pt. cbn [bind].
  eexists. split; [reflexivity|]. split; [|reflexivity].
  unfold from_best. cbn [n_s n_xx n_prevXX n_prevS n_prevDist n_alpha]. repeat split; auto.
Qed.

Lemma reject_step i m st : (i <= J')%nat -> from_best i st -> bounded m st ->
  exists st', newton_step surf hp rp st = Ok (inr st') /\ from_best (S i) st' /\ n_prevS st' = n_prevS st.
Proof.
  intros Li (F1 & F2 & F3 & F4 & F5 & F6) B. assert (Bd := bounded_le _ _ B). destruct B as (Bt & _).
  assert (Lp := level_pos i).
  destruct (one_step (n_prevS st) (level i) F2 Bd ltac:(lra)) as [_ [B1 _]]. rewrite <- F6 in B1.
  assert (A : 1 + e <= Rabs (1 - k / (1 + level i))).
  { destruct (stretch_cos hp) as [K1 _]. fold k in K1.
    assert (k / (1 + level J') <= k / (1 + level i)).
    { apply Rmult_le_compat_l; [lra|]. apply Rinv_le_contravar; [lra|]. generalize (level_mono _ _ Li). lra. }
    assert (D := Rle_abs (- (1 - k / (1 + level i)))). rewrite Rabs_Ropp in D. lra. }
  assert (G : Rabs (delta (n_prevS st)) <= Rabs (delta (n_s st))).
  { eapply Rle_trans; [|exact B1]. rewrite <- (Rmult_1_l (Rabs (delta (n_prevS st)))) at 1.
    apply Rmult_le_compat_r; [apply Rabs_pos|lra]. }
  apply (make_step (S i) st (n_prevDist st) (n_prevS st) (n_prevXX st) (n_alpha st * alphaIncr)); auto.
  - rewrite F4, level_S. reflexivity.
  - unfold newton_step. rewrite F5. fold (delta (n_s st)). change newton_eps with newton_tol.
    destruct (Rlt_dec (Rabs (delta (n_s st))) newton_tol) as [L|_]; [lra|].
    rewrite F3. destruct (Rlt_dec (Rabs (delta (n_s st))) (Rabs (delta (n_prevS st)))) as [L|_]; [lra|].
    reflexivity.
Qed.

Lemma accept_step m st : from_best (S J') st -> bounded m st ->
  (newton_step surf hp rp st = Ok (inl (n_s st, f (n_s st))) /\ I (n_s st)
   /\ Rabs (delta (n_s st)) < newton_tol /\ d0 * p ^ S m <= Rabs (delta (n_s st)))
  \/ exists st', newton_step surf hp rp st = Ok (inr st') /\ from_best J' st' /\ bounded (S m) st'.
Proof.
  intros (F1 & F2 & F3 & F4 & F5 & F6) B. assert (Bd := bounded_le _ _ B). destruct B as (Bt & Bp & Bq).
  assert (Lp := level_pos (S J')).
  destruct (one_step (n_prevS st) (level (S J')) F2 Bd ltac:(lra)) as [Is [B1 B2]]. rewrite <- F6 in B1, B2, Is.
  assert (Pd := Rabs_pos (delta (n_prevS st))).
  assert (Lo : p * Rabs (delta (n_prevS st)) <= Rabs (delta (n_s st))).
  { destruct Hp as [->|R2]; [rewrite Rmult_0_l; apply Rabs_pos|].
    eapply Rle_trans; [|exact B1]. apply Rmult_le_compat_r; auto. }
  assert (Hi : Rabs (delta (n_s st)) <= q * Rabs (delta (n_prevS st))).
  { eapply Rle_trans; [exact B2|]. apply Rmult_le_compat_r; auto. }
  assert (Lo' : d0 * p ^ S m <= Rabs (delta (n_s st))).
  { eapply Rle_trans; [|exact Lo]. cbn [pow]. replace (d0 * (p * p ^ m)) with (p * (d0 * p ^ m)) by ring.
    apply Rmult_le_compat_l; auto. }
  assert (Hi' : Rabs (delta (n_s st)) <= d0 * q ^ S m).
  { eapply Rle_trans; [exact Hi|]. cbn [pow]. replace (d0 * (q * q ^ m)) with (q * (d0 * q ^ m)) by ring.
    apply Rmult_le_compat_l; [apply qd_pos|auto]. }
  assert (Lt : Rabs (delta (n_s st)) < Rabs (delta (n_prevS st))).
  { eapply Rle_lt_trans; [exact Hi|]. assert (0 < newton_tol) by (unfold newton_tol; lra).
    rewrite <- (Rmult_1_l (Rabs (delta (n_prevS st)))) at 2. apply Rmult_lt_compat_r; lra. }
  destruct (Rlt_dec (Rabs (delta (n_s st))) newton_tol) as [L|L].
  - left. split; [|auto]. unfold newton_step. rewrite F5. fold (delta (n_s st)). change newton_eps with newton_tol.
    destruct (Rlt_dec (Rabs (delta (n_s st))) newton_tol); [reflexivity|contradiction].
  - right.
    destruct (make_step J' st (delta (n_s st)) (n_s st) (f (n_s st)) (n_alpha st * alphaDecr)) as (st' & E & Fb & Es); auto.
    + rewrite F4, level_S. unfold alphaDecr, alphaIncr. field.
    + unfold newton_step. rewrite F5. fold (delta (n_s st)). change newton_eps with newton_tol.
      destruct (Rlt_dec (Rabs (delta (n_s st))) newton_tol) as [L'|_]; [contradiction|].
      rewrite F3. destruct (Rlt_dec (Rabs (delta (n_s st))) (Rabs (delta (n_prevS st)))) as [_|L']; [|contradiction].
      reflexivity.
    + exists st'. split; auto. split; auto. unfold bounded. rewrite Es. split; [lra|]. split; auto.
Qed.

(** improvements in [b] evaluations, the first [d] of them in vain *)
Fixpoint improvements (b d : nat) : nat :=
  match b, d with
  | O, _ => O
  | S b', O => S (improvements b' 1)
  | S b', S d' => improvements b' d'
  end.

Lemma damped_loop : forall b i m st, (i <= S J')%nat -> from_best i st -> bounded m st ->
  (exists s j, newton_loop surf hp rp b st = Ok (NDone s (f s)) /\ (j <= m + improvements b (S J' - i))%nat
     /\ I s /\ Rabs (delta s) < newton_tol /\ d0 * p ^ j <= Rabs (delta s))
  \/ exists s, newton_loop surf hp rp b st = Ok (NGiveUp s (f s)) /\ I s
       /\ newton_tol <= d0 * q ^ (m + improvements b (S J' - i))
       /\ d0 * p ^ (m + improvements b (S J' - i)) <= Rabs (delta s).
Proof.
  induction b as [|b IH]; intros i m st Li F B.
  - right. exists (n_prevS st). cbn [improvements newton_loop]. rewrite Nat.add_0_r.
    destruct F as (-> & F2 & _). destruct B as (B1 & B2 & B3). split; [reflexivity|]. split; auto. split; [lra|auto].
  - cbn [newton_loop]. destruct (Nat.eq_dec i (S J')) as [->|N].
    + rewrite Nat.sub_diag. cbn [improvements].
      destruct (accept_step m st F B) as [(-> & Is & D & P)|(st' & -> & F' & B')]; cbn [bind].
      * left. exists (n_s st), (S m). repeat split; auto. lia.
      * destruct (IH J' (S m) st' ltac:(lia) F' B') as [(s & j & E & Lj & R)|(s & E & R)];
          replace (S J' - J')%nat with 1%nat in * by lia.
        -- left. exists s, j. split; auto. split; [lia|auto].
        -- right. exists s. replace (m + S (improvements b 1))%nat with (S m + improvements b 1)%nat by lia. auto.
    + destruct (reject_step i m st ltac:(lia) F B) as (st' & -> & F' & Es). cbn [bind].
      assert (B' : bounded m st') by (unfold bounded; rewrite Es; exact B).
      replace (S J' - i)%nat with (S (S J' - S i)) by lia. cbn [improvements].
      apply (IH (S i) m st'); auto. lia.
Qed.

(** first evaluation *)
Lemma damped_start s0 : I s0 -> d0 = Rabs (delta s0) -> d0 < 10000000000 -> newton_tol <= d0 ->
  exists st', newton_step surf hp rp (start_state s0 (f s0)) = Ok (inr st') /\ from_best 0 st' /\ bounded 0 st'.
Proof.
  intros Is E Hd Ht.
  destruct (make_step 0 (start_state s0 (f s0)) (delta s0) s0 (f s0) (/ 10000000000 * alphaDecr)) as (st' & Es & F & P); auto.
  - unfold alphaDecr, alphaIncr, level. cbn [pow]. field.
  - unfold newton_step, start_state. cbn [n_s n_xx n_prevXX n_prevS n_prevDist n_alpha]. fold (delta s0). change newton_eps with newton_tol.
    destruct (Rlt_dec (Rabs (delta s0)) newton_tol) as [L|_]; [lra|].
    destruct (Rlt_dec (Rabs (delta s0)) (Rabs 10000000000)) as [_|L]; [reflexivity|].
    exfalso. apply L. rewrite (Rabs_pos_eq 10000000000); lra.
  - exists st'. split; auto. split; auto. unfold bounded. rewrite P. rewrite <- E. cbn [pow]. lra.
Qed.
End Damped.
End Search.

Lemma improvements_value : forall b d, improvements b d = if Nat.ltb d b then S (Nat.div (b - 1 - d) 2) else 0%nat.
Proof.
  fix IH 1. intros b d. destruct b as [|b]; [destruct d; reflexivity|]. cbn [improvements]. destruct d as [|d].
  - destruct b as [|b]; [reflexivity|]. cbn [improvements]. rewrite (IH b 0%nat). destruct b as [|b].
    + reflexivity.
    + replace (Nat.ltb 0 (S b)) with true by reflexivity. replace (Nat.ltb 0 (S (S (S b)))) with true by reflexivity.
      f_equal. replace (S (S (S b)) - 1 - 0)%nat with (b + 1 * 2)%nat by lia. rewrite Nat.div_add by lia.
      replace (S b - 1 - 0)%nat with b by lia. lia.
  - rewrite (IH b d). replace (S b - 1 - S d)%nat with (b - 1 - d)%nat by lia. reflexivity.
Qed.

