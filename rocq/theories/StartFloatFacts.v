(** Proofs about the start helix in double precision. *)
From Coq Require Import Reals ZArith Lra Lia Psatz.
From Flocq Require Import Core.
From Verif Require Import Num Vec FloatWrap SpecHelix PointFloat SpecRound SpecPath RoundFacts PointFloatFacts NearFacts CylGeom CylFloatFacts PathTrig MoveFloatFacts Helix NumFacts StartFacts StartFloat SpecStartFloat SpecPlaneFloat PlaneFinite.
Open Scope R_scope.

Lemma div_inv {A} x y (k : R -> res A) v : (z <- rd_div x y ;; k z) = Ok v -> y <> 0 /\ k (rnd (x / y)) = Ok v.
Proof. unfold rd_div. destruct Req_EM_T; [discriminate|]. intros E. apply rd_inv in E. auto. Qed.

Lemma n_tight B e x' x C f : near B e x' x -> Rabs x <= C -> e * B <= f * C -> near C f x' x.
Proof. intros [_ D] H E. split; [exact H|]. eapply Rle_trans; [exact D|]. apply Rmult_le_compat_l; [generalize u_small; lra|exact E]. Qed.

Lemma n_div B e x' x y f y' : near B e x' x -> near y f y' y -> 0 < y -> 0 <= e <= 1000 -> 0 <= f <= 1000 ->
  near (B / y) (e + f + / 10) (x' / y') (x / y) /\ 999 / 1000 * y <= y' <= 1001 / 1000 * y.
Proof.
  intros N1 [_ D2] Y E F. assert (P1 := n_pos _ _ _ _ N1). destruct N1 as [A D]. assert (U := u_small). assert (U' := u_tiny).
  assert (UF : uround * (f * y) <= / 1000000 * y).
  { replace (uround * (f * y)) with (uround * f * y) by ring. apply Rmult_le_compat_r; [lra|]. apply Rle_trans with (/ 1000000000000 * 1000); [apply Rmult_le_compat; lra|lra]. }
  apply Rabs_le_inv in D2 as D3. assert (Y' : 999999 / 1000000 * y <= y' <= 1000001 / 1000000 * y) by lra. split; [|lra].
  assert (IY : 0 < / y) by (apply Rinv_0_lt_compat; lra). split.
  - unfold Rdiv. rewrite Rabs_mult, Rabs_inv, (Rabs_pos_eq y) by lra. apply Rmult_le_compat_r; lra.
  - replace (x' / y' - x / y) with (((x' - x) - x / y * (y' - y)) / y') by (field; lra).
    unfold Rdiv at 1. rewrite Rabs_mult, Rabs_inv, (Rabs_pos_eq y') by lra.
    assert (T : Rabs (x' - x - x / y * (y' - y)) <= uround * ((e + f) * B)).
    { unfold Rminus at 1. eapply Rle_trans; [apply Rabs_triang|]. rewrite Rabs_Ropp, Rabs_mult. unfold Rdiv. rewrite Rabs_mult, Rabs_inv, (Rabs_pos_eq y) by lra.
      assert (Rabs x * / y * Rabs (y' - y) <= B * / y * (uround * (f * y))).
      { apply Rmult_le_compat; [apply Rmult_le_pos; [apply Rabs_pos|lra]|apply Rabs_pos|apply Rmult_le_compat_r; lra|exact D2]. }
      replace (B * / y * (uround * (f * y))) with (uround * (f * B)) in H by (field; lra). lra. }
    assert (IY' : / y' <= 1000002 / 1000000 * / y).
    { apply Rle_trans with (/ (999999 / 1000000 * y)); [apply Rinv_le_contravar; lra|]. rewrite Rinv_mult. apply Rmult_le_compat_r; lra. }
    eapply Rle_trans; [apply Rmult_le_compat; [apply Rabs_pos|left; apply Rinv_0_lt_compat; lra|exact T|exact IY']|].
    assert (UB : 0 <= uround * (B * / y)) by (apply Rmult_le_pos; [lra|apply Rmult_le_pos; lra]).
    replace (uround * ((e + f) * B) * (1000002 / 1000000 * / y)) with ((e + f) * (1000002 / 1000000) * (uround * (B * / y))) by ring.
    replace (uround * ((e + f + / 10) * (B / y))) with ((e + f + / 10) * (uround * (B * / y))) by (unfold Rdiv; ring).
    apply Rmult_le_compat_r; lra.
Qed.

Lemma n_div_abs B e x' x y f y' : near B e x' x -> near (Rabs y) f y' y -> y <> 0 -> 0 <= e <= 1000 -> 0 <= f <= 1000 ->
  near (B / Rabs y) (e + f + / 10) (x' / y') (x / y).
Proof.
  intros N1 N2 Y E F. destruct (Rle_lt_dec 0 y) as [P|P].
  - rewrite (Rabs_pos_eq y) in * by lra. apply (n_div _ _ _ _ _ _ _ N1 N2); lra.
  - rewrite (Rabs_left y) in * by lra. apply n_opp in N1. apply n_opp in N2. destruct (n_div _ _ _ _ _ _ _ N1 N2 ltac:(lra) E F) as [A B'].
    assert (y' <> 0) by lra. replace (- x' / - y') with (x' / y') in A by (field; assumption). replace (- x / - y) with (x / y) in A by (field; assumption). exact A.
Qed.

Lemma us_pow B k : bpow radix2 k <= B -> (-700 <= k)%Z -> usable B.
Proof. intros H K. right. eapply Rle_trans; [apply bpow_le; exact K|exact H]. Qed.

(** ** one side of the triangle *)
Section Side.
Variables (a b : vec3).
Hypothesis HA : apart a b.
Let D := dist_xy a b.
Let dx := vx b - vx a. Let dy := vy b - vy a.
Definition size (x y : R) : R := rnd (sqrt (rnd (rnd (x * x) + rnd (y * y)))).
Let m' := size (rnd dx) (rnd dy).

Lemma D_pos : bpow radix2 (-100) <= D /\ 0 < D /\ D * D = dx * dx + dy * dy /\ Rabs dx <= D /\ Rabs dy <= D /\ usable D /\ usable (D * D).
Proof.
  assert (P := bpow_gt_0 radix2 (-100)). assert (H := HA). unfold apart in H. fold D in H. assert (S := dist_sq b a). rewrite dist_sym in S. fold D in S. fold dx dy in S.
  destruct (dist_x b a) as [X Y]. rewrite dist_sym in X, Y. fold D in X, Y. fold dx in X. fold dy in Y.
  split; [exact H|]. split; [lra|]. split; [exact S|]. split; [exact X|]. split; [exact Y|]. split; [apply (us_pow _ (-100)); [exact H|lia]|].
  apply (us_pow _ (-200)); [|lia]. replace (-200)%Z with (-100 + -100)%Z by lia. rewrite bpow_plus. apply Rmult_le_compat; lra.
Qed.
Lemma n_size_sq : near D (5 / 1) m' D.
Proof.
  destruct D_pos as (D1 & D2 & D3 & D4 & D5 & D6 & D7).
  assert (G : forall z, Rabs z <= D -> near (D * D) (32 / 10) (rnd (rnd z * rnd z)) (z * z)).
  { intros z Hz. assert (A := n_same _ _ Hz). rn A A1 assumption. assert (B := n_mul _ _ _ _ _ _ _ _ A1 A1 ltac:(lra) ltac:(lra)). rn B B1 assumption. apply (n_weak _ _ _ _ _ _ B1); lra. }
  assert (A := n_add _ _ _ _ _ _ _ _ (32 / 10) (G _ D4) (G _ D5) ltac:(lra) ltac:(lra)). rewrite <- D3 in A.
  assert (DD : 0 < D * D) by (apply Rmult_lt_0_compat; lra).
  apply (n_tight _ _ _ _ (D * D) (64 / 10)) in A; [|rewrite Rabs_pos_eq; lra|lra]. rn A A1 assumption.
  unfold m', size. set (t := rnd (rnd (rnd dx * rnd dx) + rnd (rnd dy * rnd dy))) in *. destruct A1 as [_ A1].
  assert (U := u_small). assert (U' := u_tiny).
  assert (UD : uround * ((64 / 10 + 101 / 100) * (D * D)) <= / 1000 * (D * D)).
  { replace (uround * ((64 / 10 + 101 / 100) * (D * D))) with (uround * (64 / 10 + 101 / 100) * (D * D)) by ring. apply Rmult_le_compat_r; lra. }
  apply Rabs_le_inv in A1 as A2. assert (T0 : 0 <= t) by lra. set (q := sqrt t). assert (QQ : q * q = t) by (apply sqrt_sqrt, T0). assert (Q0 : 0 <= q) by apply sqrt_pos.
  assert (QL : 99 / 100 * D <= q).
  { apply Rsqr_incr_0_var; [|exact Q0]. unfold Rsqr. rewrite QQ. lra. }
  assert (E : near D (39 / 10) q D).
  { split; [rewrite Rabs_pos_eq; lra|]. apply Rmult_le_reg_r with (q + D); [lra|]. rewrite <- (Rabs_pos_eq (q + D)) at 1 by lra. rewrite <- Rabs_mult.
    replace ((q - D) * (q + D)) with (t - D * D) by (rewrite <- QQ; ring). eapply Rle_trans; [exact A1|].
    replace (uround * (39 / 10 * D) * (q + D)) with (uround * (39 / 10 * (D * (q + D)))) by ring. apply Rmult_le_compat_l; [lra|].
    assert (D * (199 / 100 * D) <= D * (q + D)) by (apply Rmult_le_compat_l; lra). lra. }
  rn E E1 assumption. apply (n_weak _ _ _ _ _ _ E1); lra.
Qed.
Lemma n_unit z : Rabs z <= D -> near 1 (72 / 10) (rnd (rnd z / m')) (z / D).
Proof.
  intros H. destruct D_pos as (D1 & D2 & D3 & D4 & D5 & D6 & D7). assert (A := n_same _ _ H). rn A A1 assumption.
  destruct (n_div _ _ _ _ _ _ _ A1 n_size_sq D2 ltac:(lra) ltac:(lra)) as [B _]. replace (D / D) with 1 in B by (field; lra).
  assert (U1 : usable 1) by (apply (us_pow _ 0); [apply Rle_refl|lia]). rn B B1 assumption. apply (n_weak _ _ _ _ _ _ B1); lra.
Qed.
Lemma m_pos : 0 < m'.
Proof. destruct n_size_sq as [_ A]. destruct D_pos as (D1 & D2 & _). apply Rabs_le_inv in A. assert (U := u_tiny). assert (uround * (5 / 1 * D) <= / 1000 * D) by (replace (uround * (5 / 1 * D)) with (uround * (5 / 1) * D) by ring; apply Rmult_le_compat_r; lra). lra. Qed.
Lemma unit_sq : dx / D * (dx / D) + dy / D * (dy / D) = 1.
Proof. destruct D_pos as (D1 & D2 & D3 & _). transitivity ((dx * dx + dy * dy) / (D * D)); [field; lra|]. rewrite <- D3. field. lra. Qed.
End Side.

Lemma vr_inv x y m : vr_d (V3 x y 0) = Ok m -> m = size x y.
Proof.
  unfold vr_d. cbn [vx vy vz]. intros E. do 3 apply rd_inv in E. rewrite Rmult_0_r in E. do 2 apply rd_inv in E. injection E as <-. rewrite rnd_0, Rplus_0_r, (rnd_id (rnd _)) by apply rnd_double. reflexivity.
Qed.
Lemma vunit_inv x y v : vunit_d (V3 x y 0) = Ok v -> size x y <> 0 /\ vx v = rnd (x / size x y) /\ vy v = rnd (y / size x y).
Proof.
  unfold vunit_d. intros E. apply bind_inv in E. destruct E as (m & EM & E). apply vr_inv in EM. subst m. cbn [vx vy vz] in E.
  apply div_inv in E. destruct E as [N E]. apply div_inv in E. destruct E as [_ E]. apply div_inv in E. destruct E as [_ E]. injection E as <-. auto.
Qed.
Lemma across_inv a b v : across_d a b = Ok v -> v = V3 (rnd (vx b - vx a)) (rnd (vy b - vy a)) 0.
Proof. unfold across_d. intros E. do 2 apply rd_inv in E. injection E as <-. reflexivity. Qed.

(** ** nothing overflows *)
Lemma mag_div x y k l : mag x k -> bpow radix2 l <= Rabs y -> mag (x / y) (k - l).
Proof.
  unfold mag. intros A B. unfold Rdiv, Zminus. rewrite Rabs_mult, Rabs_inv, bpow_plus, bpow_opp. apply Rmult_le_compat; [apply Rabs_pos| |exact A|].
  - left. apply Rinv_0_lt_compat. generalize (bpow_gt_0 radix2 l). lra.
  - apply Rinv_le_contravar; [apply bpow_gt_0|exact B].
Qed.
Lemma div_fin {A} x y k l (K : R -> res A) : mag x k -> bpow radix2 l <= Rabs y -> (k - l <= 1000)%Z -> bind (rd_div x y) K = K (rnd (x / y)).
Proof.
  intros M B E. unfold rd_div. destruct Req_EM_T as [Z|_]; [exfalso; rewrite Z, Rabs_R0 in B; generalize (bpow_gt_0 radix2 l); lra|].
  apply (rd_fin _ (k - l)); [apply mag_div; assumption|exact E].
Qed.
Lemma mag_0 k : mag 0 k.
Proof. unfold mag. rewrite Rabs_R0. apply bpow_ge_0. Qed.
Lemma vr_ok a b : mag a 103 -> mag b 103 -> vr_d (V3 a b 0) = Ok (size a b).
Proof.
  intros A B. unfold vr_d. cbn [vx vy vz]. assert (Z := mag_0 0). fin 5. rewrite Rmult_0_r, rnd_0, Rplus_0_r, (rnd_id (rnd _)) by apply rnd_double. reflexivity.
Qed.
Lemma vunit_ok a b : mag a 103 -> mag b 103 -> bpow radix2 (-101) <= Rabs (size a b) ->
  vunit_d (V3 a b 0) = Ok (V3 (rnd (a / size a b)) (rnd (b / size a b)) 0).
Proof.
  intros A B S. unfold vunit_d. rewrite (vr_ok a b A B). cbn [bind vx vy vz].
  rewrite (div_fin _ _ 103 (-101)) by (assumption || lia). rewrite (div_fin _ _ 103 (-101)) by (assumption || lia). rewrite (div_fin _ _ 103 (-101)) by (apply mag_0 || assumption || lia).
  unfold Rdiv at 3. rewrite Rmult_0_l, rnd_0. reflexivity.
Qed.

(** ** one coordinate of the centre, seen from the first hit *)
Section Comp.
Variables (a1 a2 a3 r0 r c w S G : R).
Hypothesis Hr : Rabs r = Rabs r0.
Hypothesis HS : Rabs a1 + Rabs a2 + Rabs a3 <= S.
Hypothesis HS0 : bpow radix2 (-100) <= S.
Hypothesis Hr0 : bpow radix2 (-110) <= Rabs r0.
Hypothesis HG : 1 <= G.
Hypothesis Hc : Rabs c <= 11 / 10 * G.
Hypothesis Hw : Rabs w <= 101 / 100.
Lemma n_comp : near (Rabs r0 * (3 / 2 * S + 12 / 10 * G * Rabs r0)) (56 / 10)
  (rnd (r * rnd (rnd (rnd (/ 2 * rnd (a2 + a3)) + rnd (rnd (r0 * c) * w)) - a1))) (r * ((a2 + a3) / 2 - a1 + r0 * c * w)).
Proof.
  assert (SP := bpow_gt_0 radix2 (-100)). assert (RP := bpow_gt_0 radix2 (-110)). assert (P1 := Rabs_pos a1). assert (P2 := Rabs_pos a2). assert (P3 := Rabs_pos a3).
  assert (U1 : usable S) by (apply (us_pow _ (-100)); [lra|lia]).
  assert (A := n_same S (a2 + a3) ltac:(eapply Rle_trans; [apply Rabs_triang|lra])). rn A A1 assumption.
  assert (B := n_mul _ _ _ _ _ _ _ _ (n_same (/ 2) (/ 2) ltac:(rewrite Rabs_pos_eq; lra)) A1 ltac:(lra) ltac:(lra)).
  assert (U2 : usable (/ 2 * S)) by (apply (us_pow _ (-110)); [apply Rle_trans with (/ 1024 * bpow radix2 (-100)); [change (-110)%Z with (-10 + -100)%Z; rewrite bpow_plus; apply Rle_refl|lra]|lia]).
  rn B B1 assumption.
  assert (C := n_mul _ _ _ _ _ _ _ _ (n_same (Rabs r0) r0 ltac:(lra)) (n_same _ _ Hc) ltac:(lra) ltac:(lra)).
  assert (U3 : forall k, 1 <= k -> usable (Rabs r0 * (k * G))).
  { intros k K. apply (us_pow _ (-110)); [|lia]. apply Rle_trans with (Rabs r0 * 1); [lra|]. apply Rmult_le_compat_l; [apply Rabs_pos|]. apply Rle_trans with (1 * 1); [lra|apply Rmult_le_compat; lra]. }
  rn C C1 (apply U3; lra). assert (Dk := n_mul _ _ _ _ _ _ _ _ C1 (n_same _ _ Hw) ltac:(lra) ltac:(lra)).
  assert (GR : 0 < Rabs r0 * G) by (apply Rmult_lt_0_compat; lra).
  apply (n_weak _ _ (Rabs r0 * (12 / 10 * G)) (11 / 10)) in Dk; [|lra|lra|lra]. rn Dk D1 (apply U3; lra).
  assert (E := n_add _ _ _ _ _ _ _ _ (22 / 10) B1 D1 ltac:(lra) ltac:(lra)).
  assert (U4 : forall k, / 2 <= k -> usable (k * S + Rabs r0 * (12 / 10 * G))).
  { intros k K. apply (us_pow _ (-110)); [|lia]. apply Rle_trans with (0 + Rabs r0 * 1); [lra|]. apply Rplus_le_compat; [apply Rmult_le_pos; lra|]. apply Rmult_le_compat_l; lra. }
  rn E E1 (apply U4; lra).
  assert (F := n_sub _ _ _ _ _ _ _ _ (33 / 10) E1 (n_same S a1 ltac:(lra)) ltac:(lra) ltac:(lra)).
  replace (/ 2 * S + Rabs r0 * (12 / 10 * G) + S) with (3 / 2 * S + Rabs r0 * (12 / 10 * G)) in F by field.
  rn F F1 (apply U4; lra).
  assert (K := n_mul _ _ _ _ _ _ _ _ (n_same (Rabs r0) r ltac:(lra)) F1 ltac:(lra) ltac:(lra)).
  assert (U5 : usable (Rabs r0 * (3 / 2 * S + Rabs r0 * (12 / 10 * G)))).
  { apply (us_pow _ (-220)); [|lia]. change (-220)%Z with (-110 + -110)%Z. rewrite bpow_plus. apply Rmult_le_compat; [lra|lra|lra|].
    apply Rle_trans with (0 + Rabs r0 * 1); [lra|]. apply Rplus_le_compat; [apply Rmult_le_pos; lra|]. apply Rmult_le_compat_l; lra. }
  rn K K1 assumption. replace (/ 2 * (a2 + a3) + r0 * c * w - a1) with ((a2 + a3) / 2 - a1 + r0 * c * w) in K1 by field.
  apply (n_weak _ _ _ _ _ _ K1); [lra|lra|]. apply Req_le. ring.
Qed.
End Comp.

(** ** the triangle *)
Section Hits.
Variables (x1 x2 x3 : vec3).
Hypothesis HH : ordinary_hits x1 x2 x3.
Let D12 := dist_xy x1 x2. Let D13 := dist_xy x1 x3. Let D23 := dist_xy x2 x3.
Let m12 := size (rnd (vx x2 - vx x1)) (rnd (vy x2 - vy x1)).
Let m13 := size (rnd (vx x3 - vx x1)) (rnd (vy x3 - vy x1)).
Let m23 := size (rnd (vx x3 - vx x2)) (rnd (vy x3 - vy x2)).
Let ux12 := rnd (rnd (vx x2 - vx x1) / m12). Let uy12 := rnd (rnd (vy x2 - vy x1) / m12).
Let ux13 := rnd (rnd (vx x3 - vx x1) / m13). Let uy13 := rnd (rnd (vy x3 - vy x1) / m13).
Let ux23 := rnd (rnd (vx x3 - vx x2) / m23). Let uy23 := rnd (rnd (vy x3 - vy x2) / m23).
Let s' := rnd (rnd (ux12 * uy13) - rnd (uy12 * ux13)).
Let s := turn x1 x2 x3 / (D12 * D13).
Let t' := rnd (- / 2 * m23).
Let r' := rnd (t' / s').

Lemma Dp a b : apart a b -> 0 < dist_xy a b.
Proof. intros H. destruct (D_pos a b H) as (_ & A & _). exact A. Qed.
Lemma Ds : 0 < D12 /\ 0 < D13 /\ 0 < D23.
Proof. split; [exact (Dp _ _ (oh_12 _ _ _ HH))|]. split; [exact (Dp _ _ (oh_13 _ _ _ HH))|exact (Dp _ _ (oh_23 _ _ _ HH))]. Qed.
Lemma us1 : usable 1.
Proof. apply (us_pow _ 0); [apply Rle_refl|lia]. Qed.
Lemma D_top : D23 <= bpow radix2 102.
Proof.
  assert (B : forall x y, ordinary x -> ordinary y -> Rabs (x - y) <= 2 * bpow radix2 100).
  { intros x y [_ X] [_ Y]. unfold Rminus. eapply Rle_trans; [apply Rabs_triang|]. rewrite Rabs_Ropp. lra. }
  destruct (oh_2 _ _ _ HH) as (A1 & A2 & _). destruct (oh_3 _ _ _ HH) as (B1 & B2 & _).
  unfold D23. eapply Rle_trans; [apply (dist_le _ _ (2 * bpow radix2 100)); apply B; assumption|].
  change 102%Z with (2 + 100)%Z. rewrite bpow_plus. change (bpow radix2 2) with 4. assert (P := bpow_gt_0 radix2 100). lra.
Qed.
Lemma s_size : Rabs s <= 1.
Proof.
  destruct Ds as (P1 & P2 & P3). assert (Q1 := unit_sq x1 x2 (oh_12 _ _ _ HH)). assert (Q2 := unit_sq x1 x3 (oh_13 _ _ _ HH)). fold D12 in Q1. fold D13 in Q2. cbv zeta in *.
  set (a := (vx x2 - vx x1) / D12) in *. set (b := (vy x2 - vy x1) / D12) in *. set (c := (vx x3 - vx x1) / D13) in *. set (d := (vy x3 - vy x1) / D13) in *.
  assert (E : s = a * d - b * c) by (unfold s, turn, a, b, c, d; field; split; lra). rewrite E. clearbody a b c d. clear - Q1 Q2.
  assert (W1 := Rle_0_sqr (a - d)). assert (W2 := Rle_0_sqr (b + c)). assert (W3 := Rle_0_sqr (a + d)). assert (W4 := Rle_0_sqr (b - c)). unfold Rsqr in *. apply Rabs_le. lra.
Qed.
Lemma n_sin : near 1 (33 / 1) s' s.
Proof.
  destruct Ds as (P1 & P2 & P3). assert (U1 := us1).
  destruct (D_pos x1 x2 (oh_12 _ _ _ HH)) as (_ & _ & _ & X12 & Y12 & _). destruct (D_pos x1 x3 (oh_13 _ _ _ HH)) as (_ & _ & _ & X13 & Y13 & _).
  assert (A := n_unit x1 x2 (oh_12 _ _ _ HH) _ X12). assert (B := n_unit x1 x2 (oh_12 _ _ _ HH) _ Y12). assert (C := n_unit x1 x3 (oh_13 _ _ _ HH) _ X13). assert (D := n_unit x1 x3 (oh_13 _ _ _ HH) _ Y13).
  fold m12 in A, B. fold m13 in C, D. fold ux12 in A. fold uy12 in B. fold ux13 in C. fold uy13 in D. fold D12 in A, B. fold D13 in C, D.
  assert (E := n_mul _ _ _ _ _ _ _ _ A D ltac:(lra) ltac:(lra)). assert (F := n_mul _ _ _ _ _ _ _ _ B C ltac:(lra) ltac:(lra)). rewrite Rmult_1_l in E, F.
  rn E E1 assumption. rn F F1 assumption. assert (G := n_sub _ _ _ _ _ _ _ _ (155 / 10) E1 F1 ltac:(lra) ltac:(lra)).
  assert (ES : (vx x2 - vx x1) / D12 * ((vy x3 - vy x1) / D13) - (vy x2 - vy x1) / D12 * ((vx x3 - vx x1) / D13) = s) by (unfold s, turn; field; split; lra).
  rewrite ES in G. apply (n_tight _ _ _ _ 1 (31 / 1)) in G; [|apply s_size|lra]. rn G G1 assumption. apply (n_weak _ _ _ _ _ _ G1); lra.
Qed.
Lemma n_t : near (D23 / 2) (64 / 10) (- t') (D23 / 2).
Proof.
  destruct Ds as (P1 & P2 & P3). assert (A := n_size_sq x2 x3 (oh_23 _ _ _ HH)). fold D23 m23 in A.
  assert (B := n_mul _ _ _ _ _ _ _ _ (n_same (/ 2) (- / 2) ltac:(rewrite Rabs_left; lra)) A ltac:(lra) ltac:(lra)).
  assert (UD : usable (/ 2 * D23)).
  { apply (us_pow _ (-101)); [|lia]. change (-101)%Z with (-1 + -100)%Z. rewrite bpow_plus. change (bpow radix2 (-1)) with (/ 2). apply Rmult_le_compat_l; [lra|exact (oh_23 _ _ _ HH)]. }
  rn B B1 assumption. fold t' in B1. apply n_opp in B1. replace (- (- / 2 * D23)) with (D23 / 2) in B1 by field. replace (/ 2 * D23) with (D23 / 2) in B1 by field.
  apply (n_weak _ _ _ _ _ _ B1); lra.
Qed.
(** relative error of a rounding *)
Lemma rnd_rel x : bpow radix2 (-700) <= Rabs x -> Rabs (rnd x - x) <= 101 / 100 * uround * Rabs x.
Proof. intros H. assert (W := rnd_err x). assert (L := usable_least _ H). assert (0 <= uround * Rabs x) by (apply Rmult_le_pos; [generalize u_small; lra|apply Rabs_pos]). lra. Qed.
Lemma t_range : 49 / 100 * D23 <= - t' <= 51 / 100 * D23.
Proof.
  destruct Ds as (P1 & P2 & P3). destruct n_t as [_ A]. apply Rabs_le_inv in A. assert (U := u_tiny).
  assert (uround * (64 / 10 * (D23 / 2)) <= / 1000 * D23) by (replace (uround * (64 / 10 * (D23 / 2))) with (uround * (32 / 10) * D23) by field; apply Rmult_le_compat_r; lra). lra.
Qed.
Lemma s'_top : Rabs s' <= 1001 / 1000.
Proof. assert (A := n_size _ _ _ _ n_sin ltac:(lra)). lra. Qed.
Lemma n_r : s' <> 0 -> Rabs (r' - t' / s') <= 101 / 100 * uround * Rabs (t' / s') /\ 48 / 100 * D23 <= Rabs (t' / s').
Proof.
  intros N. destruct Ds as (P1 & P2 & P3). assert (T := t_range). assert (S := s'_top). assert (S0 := Rabs_pos_lt _ N).
  assert (B : 48 / 100 * D23 <= Rabs (t' / s')).
  { unfold Rdiv. rewrite Rabs_mult, Rabs_inv, (Rabs_left t') by lra. apply Rle_trans with (49 / 100 * D23 * / (1001 / 1000)); [lra|].
    apply Rmult_le_compat; [lra|left; apply Rinv_0_lt_compat; lra|lra|apply Rinv_le_contravar; lra]. }
  split; [|exact B]. apply rnd_rel. apply Rle_trans with (bpow radix2 (-102)); [apply bpow_le; lia|].
  eapply Rle_trans; [|exact B]. change (-102)%Z with (-2 + -100)%Z. rewrite bpow_plus. change (bpow radix2 (-2)) with (/ 4).
  assert (H := oh_23 _ _ _ HH). unfold apart in H. fold D23 in H. lra.
Qed.
Lemma r_nz : s' <> 0 -> r' <> 0.
Proof.
  intros N E. destruct (n_r N) as [A B]. destruct Ds as (P1 & P2 & P3). rewrite E, Rminus_0_l, Rabs_Ropp in A. assert (U := u_small).
  assert (101 / 100 * uround * Rabs (t' / s') <= / 2 * Rabs (t' / s')) by (apply Rmult_le_compat_r; lra). lra.
Qed.
Lemma n_ir : s' <> 0 -> near (2 / D23) (407 / 10) (1 / r') (- curvature x1 x2 x3).
Proof.
  intros N. destruct Ds as (P1 & P2 & P3). destruct (n_r N) as [A B]. assert (RZ := r_nz N). assert (T := t_range). assert (U := u_small). assert (UT := u_tiny).
  destruct (n_div _ _ _ _ _ _ _ n_sin n_t ltac:(lra) ltac:(lra) ltac:(lra)) as [E _].
  replace (1 / (D23 / 2)) with (2 / D23) in E by (field; lra). replace (s / (D23 / 2)) with (curvature x1 x2 x3) in E by (unfold s, curvature; fold D12 D13 D23; field; repeat split; lra).
  apply n_opp in E. replace (- (s' / - t')) with (s' / t') in E by (field; lra).
  assert (IZ : t' / s' <> 0) by (intros Z; rewrite Z, Rabs_R0 in B; lra).
  assert (I : Rabs (1 / r' - s' / t') <= uround * (102 / 100 * Rabs (s' / t'))).
  { replace (1 / r' - s' / t') with (- ((r' - t' / s') / r' * (s' / t'))) by (field; repeat split; try lra; assumption).
    rewrite Rabs_Ropp, Rabs_mult. rewrite <- (Rmult_assoc uround). apply Rmult_le_compat_r; [apply Rabs_pos|].
    unfold Rdiv at 1. rewrite Rabs_mult, Rabs_inv. assert (R0 : 999 / 1000 * Rabs (t' / s') <= Rabs r').
    { assert (W := Rabs_triang_inv (t' / s') (t' / s' - r')). replace (t' / s' - (t' / s' - r')) with r' in W by ring. rewrite (Rabs_minus_sym (t' / s') r') in W.
      assert (101 / 100 * uround * Rabs (t' / s') <= / 1000 * Rabs (t' / s')) by (apply Rmult_le_compat_r; lra). lra. }
    assert (RP := Rabs_pos_lt _ RZ). apply Rmult_le_reg_r with (Rabs r'); [exact RP|]. rewrite Rmult_assoc, Rinv_l, Rmult_1_r by lra.
    eapply Rle_trans; [exact A|]. replace (uround * (102 / 100) * Rabs r') with (102 / 100 * uround * Rabs r') by ring.
    apply Rle_trans with (102 / 100 * uround * (999 / 1000 * Rabs (t' / s'))); [|apply Rmult_le_compat_l; lra].
    assert (0 <= uround * Rabs (t' / s')) by (apply Rmult_le_pos; lra). lra. }
  assert (Z := n_size _ _ _ _ E ltac:(lra)).
  destruct E as [E1 E2]. split; [exact E1|]. replace (1 / r' - - curvature x1 x2 x3) with ((1 / r' - s' / t') + (s' / t' - - curvature x1 x2 x3)) by ring.
    eapply Rle_trans; [apply Rabs_triang|]. assert (0 < 2 / D23) by (apply Rdiv_lt_0_compat; lra).
    assert (uround * (102 / 100 * Rabs (s' / t')) <= uround * (102 / 100 * (1001 / 1000 * (2 / D23)))) by (apply Rmult_le_compat_l; lra).
    assert (0 < uround * (2 / D23)) by (apply Rmult_lt_0_compat; lra). lra.
Qed.
Lemma n_om : s' <> 0 -> near (2 / D23) (42 / 1) (rnd (1 / r')) (- curvature x1 x2 x3).
Proof.
  intros N. destruct Ds as (P1 & P2 & P3). assert (F := n_ir N).
  assert (UD : usable (2 / D23)).
  { apply (us_pow _ (-101)); [|lia]. change (-101)%Z with (1 + -102)%Z. rewrite bpow_plus. change (bpow radix2 1) with 2. apply Rmult_le_compat_l; [lra|].
    change (-102)%Z with (- (102))%Z. rewrite (bpow_opp radix2 102). apply Rinv_le_contravar; [exact P3|exact D_top]. }
  rn F F1 assumption. apply (n_weak _ _ _ _ _ _ F1); lra.
Qed.

(** ** the exact start helix in the same terms *)
Let c := ((vx x2 - vx x1) * (vx x3 - vx x1) + (vy x2 - vy x1) * (vy x3 - vy x1)) / (D12 * D13).
Let Nx := - curvature x1 x2 x3 * ((vx x2 + vx x3) / 2 - vx x1) + c * ((vy x3 - vy x2) / D23).
Let Ny := - curvature x1 x2 x3 * ((vy x2 + vy x3) / 2 - vy x1) + c * - ((vx x3 - vx x2) / D23).

Lemma start_exact (tp : trackParameters) (backward : bool) : turn x1 x2 x3 <> 0 -> let sg := if backward then -1 else 1 in
  exists hp, calculateStartHelix x1 x2 x3 tp backward = Ok (TP (tp_cov tp) hp x1)
  /\ hp OMEGA = sg * - curvature x1 x2 x3
  /\ hp TANL = (vz x2 - vz x3) / (sg * - (D23 / s) * atan2 s c)
  /\ sin (hp PHI0) = sg * Nx /\ cos (hp PHI0) = - (sg * Ny).
Proof.
  intros HC sg. destruct Ds as (P1 & P2 & P3). assert (V := start_value x1 x2 x3 tp backward HC). assert (PD := phi_dir x1 x2 x3 backward HC). cbv zeta in V, PD.
  assert (E12 : sqrt ((vx x2 - vx x1) * (vx x2 - vx x1) + (vy x2 - vy x1) * (vy x2 - vy x1)) = D12) by (unfold D12, dist_xy; f_equal; ring).
  assert (E13 : sqrt ((vx x3 - vx x1) * (vx x3 - vx x1) + (vy x3 - vy x1) * (vy x3 - vy x1)) = D13) by (unfold D13, dist_xy; f_equal; ring).
  assert (E23 : sqrt ((vx x2 - vx x1) * (vx x2 - vx x1) + (vy x2 - vy x1) * (vy x2 - vy x1) + ((vx x3 - vx x1) * (vx x3 - vx x1) + (vy x3 - vy x1) * (vy x3 - vy x1))
     - 2 * ((vx x2 - vx x1) * (vx x3 - vx x1) + (vy x2 - vy x1) * (vy x3 - vy x1))) = D23) by (unfold D23, dist_xy; f_equal; ring).
  rewrite E12, E13, E23 in V, PD. fold (turn x1 x2 x3) in V, PD. fold c in V. fold s in V, PD.
  assert (SN : s <> 0) by (unfold s; intros Z; apply HC; replace (turn x1 x2 x3) with (turn x1 x2 x3 / (D12 * D13) * (D12 * D13)) by (field; lra); rewrite Z; ring).
  assert (R0 : - (1 / 2) * D23 / s <> 0) by (intros Z; apply P3 || (assert (D23 = -2 * s * (- (1 / 2) * D23 / s)) by (field; exact SN); rewrite Z in H; lra)).
  assert (KE : 1 / (- (1 / 2) * D23 / s) = - curvature x1 x2 x3) by (unfold curvature; fold D12 D13 D23; unfold s; field; repeat split; try lra; exact HC).
  eexists. split; [exact V|]. cbn [mk5].
  set (ph := atan2 _ _ + PI / 2) in *. clearbody ph. destruct PD as [PX PY].
  set (rr := if backward then - (- (1 / 2) * D23 / s) else - (1 / 2) * D23 / s) in *.
  assert (RE : rr = sg * (- (1 / 2) * D23 / s)) by (unfold rr, sg; destruct backward; ring).
  assert (SG : sg * sg = 1) by (unfold sg; destruct backward; ring). assert (SZ : sg <> 0) by (unfold sg; destruct backward; lra).
  assert (RZ : rr <> 0) by (rewrite RE; apply Rmult_integral_contrapositive_currified; assumption).
  assert (IR : / rr = sg * - curvature x1 x2 x3).
  { rewrite RE, <- KE. transitivity (sg * sg * / (sg * (- (1 / 2) * D23 / s))); [rewrite SG; ring|]. field. repeat split; (exact SN || exact SZ || lra). }
  assert (G : forall a b, rr * a = b -> a = b * (sg * - curvature x1 x2 x3)) by (intros a b <-; rewrite <- IR; field; exact RZ).
  split; [change (1 / rr = sg * - curvature x1 x2 x3); rewrite <- IR; field; exact RZ|].
  split; [change ((vz x2 - vz x3) / (rr * 2 * atan2 s c) = (vz x2 - vz x3) / (sg * - (D23 / s) * atan2 s c)); f_equal; f_equal; rewrite RE; field; exact SN|].
  assert (TE : curvature x1 x2 x3 / (2 * turn x1 x2 x3) = / (D12 * D13 * D23)) by (unfold curvature; fold D12 D13 D23; field; repeat split; try lra; exact HC).
  split.
  - change (sin ph = sg * Nx). rewrite (G _ _ PX). unfold Nx, c.
    transitivity (sg * (- curvature x1 x2 x3 * ((vx x2 - vx x1 + (vx x3 - vx x1)) / 2)
       + curvature x1 x2 x3 / (2 * turn x1 x2 x3) * ((vx x2 - vx x1) * (vx x3 - vx x1) + (vy x2 - vy x1) * (vy x3 - vy x1)) * (vy x3 - vy x1 - (vy x2 - vy x1)))); [field; exact HC|].
    rewrite TE. field. repeat split; lra.
  - change (cos ph = - (sg * Ny)). rewrite (G _ _ PY). unfold Ny, c.
    transitivity (- (sg * (- curvature x1 x2 x3 * ((vy x2 - vy x1 + (vy x3 - vy x1)) / 2)
       - curvature x1 x2 x3 / (2 * turn x1 x2 x3) * ((vx x2 - vx x1) * (vx x3 - vx x1) + (vy x2 - vy x1) * (vy x3 - vy x1)) * (vx x3 - vx x1 - (vx x2 - vx x1))))); [field; exact HC|].
    rewrite TE. field. repeat split; lra.
Qed.

(** ** the cosine *)
Let G := (D12 + D23) * (D12 + D23) / (D12 * D13).
Let H := (D12 + D13) / D23.
Let q1 := rnd (m13 / m12). Let q2 := rnd (m23 / m12).
Let b' := rnd (m12 + m23).
Let q3 := rnd (rnd (rnd (1 - q2) * b') / m13).
Let c' := rnd (/ 2 * rnd (q1 + q3)).
Lemma tri : D13 <= D12 + D23 /\ D12 <= D13 + D23 /\ D23 <= D12 + D13.
Proof.
  split; [apply dist_tri|]. split; [unfold D12, D13, D23; rewrite (dist_sym x2 x3); apply dist_tri|]. unfold D12, D13, D23. rewrite (dist_sym x1 x2). apply dist_tri.
Qed.
Lemma GH : 1 <= G /\ 1 <= H /\ uneven x1 x2 x3 = G + H.
Proof.
  destruct Ds as (P1 & P2 & P3). destruct tri as (T1 & T2 & T3). split; [|split; [|reflexivity]].
  - unfold G. apply Rmult_le_reg_r with (D12 * D13); [apply Rmult_lt_0_compat; lra|]. unfold Rdiv. rewrite Rmult_assoc, Rinv_l, Rmult_1_l, Rmult_1_r by (apply Rgt_not_eq, Rmult_lt_0_compat; lra).
    apply Rmult_le_compat; lra.
  - unfold H. apply Rmult_le_reg_r with D23; [exact P3|]. unfold Rdiv. rewrite Rmult_assoc, Rinv_l by lra. lra.
Qed.
Lemma D_low : bpow radix2 (-100) <= D12 /\ bpow radix2 (-100) <= D13 /\ bpow radix2 (-100) <= D23.
Proof. split; [exact (oh_12 _ _ _ HH)|]. split; [exact (oh_13 _ _ _ HH)|exact (oh_23 _ _ _ HH)]. Qed.
Lemma D12_top : D12 <= bpow radix2 102.
Proof.
  assert (B : forall x y, ordinary x -> ordinary y -> Rabs (x - y) <= 2 * bpow radix2 100).
  { intros x y [_ X] [_ Y]. unfold Rminus. eapply Rle_trans; [apply Rabs_triang|]. rewrite Rabs_Ropp. lra. }
  destruct (oh_2 _ _ _ HH) as (A1 & A2 & _). destruct (oh_1 _ _ _ HH) as (B1 & B2 & _).
  unfold D12. eapply Rle_trans; [apply (dist_le _ _ (2 * bpow radix2 100)); apply B; assumption|].
  change 102%Z with (2 + 100)%Z. rewrite bpow_plus. change (bpow radix2 2) with 4. assert (P := bpow_gt_0 radix2 100). lra.
Qed.
Lemma us_quot a : bpow radix2 (-100) <= a -> usable (a / D12).
Proof.
  intros A. destruct Ds as (P1 & P2 & P3). apply (us_pow _ (-202)); [|lia]. change (-202)%Z with (-100 + - (102))%Z. rewrite bpow_plus, (bpow_opp radix2 102).
  apply Rmult_le_compat; [apply bpow_ge_0|left; apply Rinv_0_lt_compat, bpow_gt_0|exact A|]. apply Rinv_le_contravar; [exact P1|exact D12_top].
Qed.
Lemma cos_form : c = / 2 * (D13 / D12 + (1 - D23 / D12) * (D12 + D23) / D13).
Proof.
  destruct Ds as (P1 & P2 & P3). transitivity ((D13 * D13 + D12 * D12 - D23 * D23) / (2 * D12 * D13)); [|field; lra].
  assert (E12 := dist_sq x1 x2). assert (E13 := dist_sq x1 x3). assert (E23 := dist_sq x2 x3). fold D12 in E12. fold D13 in E13. fold D23 in E23.
  rewrite E12, E13, E23. unfold c. field. lra.
Qed.
Lemma n_cos : near G (28 / 1) c' c.
Proof.
  destruct Ds as (P1 & P2 & P3). destruct tri as (T1 & T2 & T3). destruct GH as (G1 & H1 & _). destruct D_low as (L1 & L2 & L3).
  assert (M12 := n_size_sq x1 x2 (oh_12 _ _ _ HH)). assert (M13 := n_size_sq x1 x3 (oh_13 _ _ _ HH)). assert (M23 := n_size_sq x2 x3 (oh_23 _ _ _ HH)).
  fold D12 m12 in M12. fold D13 m13 in M13. fold D23 m23 in M23.
  destruct (n_div _ _ _ _ _ _ _ M13 M12 P1 ltac:(lra) ltac:(lra)) as [A _]. rn A A1 (apply us_quot; assumption). fold q1 in A1.
  destruct (n_div _ _ _ _ _ _ _ M23 M12 P1 ltac:(lra) ltac:(lra)) as [B _]. rn B B1 (apply us_quot; assumption). fold q2 in B1.
  assert (QP : 0 < D23 / D12) by (apply Rdiv_lt_0_compat; lra).
  assert (C := n_sub _ _ _ _ _ _ _ _ (112 / 10) (n_same 1 1 ltac:(rewrite Rabs_R1; lra)) B1 ltac:(lra) ltac:(lra)).
  assert (U2 : usable (1 + D23 / D12)) by (apply (us_pow _ 0); [change (bpow radix2 0) with 1; lra|lia]). rn C C1 assumption.
  assert (E := n_add _ _ _ _ _ _ _ _ (5 / 1) M12 M23 ltac:(lra) ltac:(lra)).
  assert (U3 : usable (D12 + D23)) by (apply (us_pow _ (-100)); [lra|lia]). rn E E1 assumption. fold b' in E1.
  assert (F := n_mul _ _ _ _ _ _ _ _ C1 E1 ltac:(lra) ltac:(lra)).
  assert (U4 : usable ((1 + D23 / D12) * (D12 + D23))).
  { apply (us_pow _ (-100)); [|lia]. apply Rle_trans with (1 * (D12 + D23)); [lra|]. apply Rmult_le_compat_r; lra. }
  rn F F1 assumption. destruct (n_div _ _ _ _ _ _ _ F1 M13 P2 ltac:(lra) ltac:(lra)) as [K _].
  assert (GE : (1 + D23 / D12) * (D12 + D23) / D13 = G) by (unfold G; field; lra). rewrite GE in K.
  assert (U5 : usable G) by (apply (us_pow _ 0); [exact G1|lia]). rn K K1 assumption. fold q3 in K1.
  assert (W := n_add _ _ _ _ _ _ _ _ (257 / 10) A1 K1 ltac:(lra) ltac:(lra)).
  assert (QG : D13 / D12 <= G).
  { unfold G. replace (D13 / D12) with (D13 * D13 / (D12 * D13)) by (field; lra). apply Rmult_le_compat_r; [left; apply Rinv_0_lt_compat, Rmult_lt_0_compat; lra|]. apply Rmult_le_compat; lra. }
  apply (n_weak _ _ (2 * G) (257 / 10)) in W; [|lra|lra|lra].
  assert (U6 : usable (2 * G)) by (apply (us_pow _ 0); [change (bpow radix2 0) with 1; lra|lia]). rn W W1 assumption.
  assert (Z := n_mul _ _ _ _ _ _ _ _ (n_same (/ 2) (/ 2) ltac:(rewrite Rabs_pos_eq; lra)) W1 ltac:(lra) ltac:(lra)).
  replace (/ 2 * (2 * G)) with G in Z by field. rn Z Z1 assumption. fold c' in Z1. rewrite <- cos_form in Z1. apply (n_weak _ _ _ _ _ _ Z1); lra.
Qed.

(** ** what the program computes *)
Let sg (backward : bool) : R := if backward then -1 else 1.
Let hx := rnd (/ 2 * rnd (vx x2 + vx x3)). Let hy := rnd (/ 2 * rnd (vy x2 + vy x3)).
Let rc := rnd (r' * c').
Let cx := rnd (hx + rnd (rc * uy23)). Let cy := rnd (hy + rnd (rc * - ux23)).
Lemma start_inv at2 backward hp : calculateStartHelix_d at2 x1 x2 x3 backward = Ok hp -> let r := if backward then - r' else r' in
  s' <> 0 /\ hp OMEGA = rnd (1 / r) /\ hp D0 = 0 /\ hp Z0 = 0
  /\ hp TANL = rnd (rnd (vz x2 - vz x3) / rnd (rnd (r * 2) * at2 s' c'))
  /\ hp PHI0 = rnd (at2 (rnd (r * rnd (cy - vy x1))) (rnd (r * rnd (cx - vx x1))) + dHalfPi).
Proof.
  intros E r. unfold calculateStartHelix_d in E.
  apply bind_inv in E. destruct E as (v12 & E1 & E). apply across_inv in E1. subst v12.
  apply bind_inv in E. destruct E as (v13 & E1 & E). apply across_inv in E1. subst v13.
  apply bind_inv in E. destruct E as (v23 & E1 & E). apply across_inv in E1. subst v23.
  apply bind_inv in E. destruct E as (n12 & E1 & E). apply vr_inv in E1. subst n12. apply bind_inv in E. destruct E as (u12 & E1 & E). apply vunit_inv in E1. destruct E1 as (Z12 & X12 & Y12).
  apply bind_inv in E. destruct E as (n13 & E1 & E). apply vr_inv in E1. subst n13. apply bind_inv in E. destruct E as (u13 & E1 & E). apply vunit_inv in E1. destruct E1 as (Z13 & X13 & Y13).
  apply bind_inv in E. destruct E as (n23 & E1 & E). apply vr_inv in E1. subst n23. apply bind_inv in E. destruct E as (u23 & E1 & E). apply vunit_inv in E1. destruct E1 as (Z23 & X23 & Y23).
  fold m12 in X12, Y12, E. fold m13 in X13, Y13, E. fold m23 in X23, Y23, E. fold ux12 in X12. fold uy12 in Y12. fold ux13 in X13. fold uy13 in Y13. fold ux23 in X23. fold uy23 in Y23.
  apply bind_inv in E. destruct E as (sn & E1 & E).
  assert (ES : sn = s').
  { unfold cross_z_d in E1. do 2 apply rd_inv in E1. rewrite X12, Y12, X13, Y13 in E1. unfold rd in E1. destruct Rlt_dec; [|discriminate]. injection E1 as <-. reflexivity. }
  subst sn. clear E1. rewrite X23, Y23 in E.
  apply div_inv in E. destruct E as [_ E]. apply div_inv in E. destruct E as [_ E]. do 3 apply rd_inv in E. apply div_inv in E. destruct E as [_ E]. do 2 apply rd_inv in E.
  fold q1 q2 b' in E. fold q3 in E. fold c' in E. cbv zeta in E.
  apply rd_inv in E. apply div_inv in E. destruct E as [SN E]. fold t' in E. fold r' in E. do 9 apply rd_inv in E. fold rc hx hy in E. fold cx cy in E. fold r in E.
  apply div_inv in E. destruct E as [_ E]. do 3 apply rd_inv in E. apply div_inv in E. destruct E as [_ E]. do 5 apply rd_inv in E.
  injection E as <-. split; [exact SN|]. repeat split; reflexivity.
Qed.

(** ** the direction at the first hit *)
Lemma r_low : s' <> 0 -> 47 / 100 * D23 <= Rabs r' /\ bpow radix2 (-110) <= Rabs r'.
Proof.
  intros N. destruct (n_r N) as [A B]. destruct Ds as (P1 & P2 & P3). assert (U := u_tiny).
  assert (C : 47 / 100 * D23 <= Rabs r').
  { assert (W := Rabs_triang_inv (t' / s') (t' / s' - r')). replace (t' / s' - (t' / s' - r')) with r' in W by ring. rewrite (Rabs_minus_sym (t' / s') r') in W.
    assert (101 / 100 * uround * Rabs (t' / s') <= / 1000 * Rabs (t' / s')) by (apply Rmult_le_compat_r; lra). lra. }
  split; [exact C|]. eapply Rle_trans; [|exact C]. change (-110)%Z with (-10 + -100)%Z. rewrite bpow_plus. change (bpow radix2 (-10)) with (/ 1024).
  destruct D_low as (_ & _ & L3). lra.
Qed.
Lemma c_size : Rabs c <= 1.
Proof. assert (P := n_cos). assert (Q := s_size). destruct Ds as (P1 & P2 & P3).
  assert (Q1 := unit_sq x1 x2 (oh_12 _ _ _ HH)). assert (Q2 := unit_sq x1 x3 (oh_13 _ _ _ HH)). fold D12 in Q1. fold D13 in Q2. cbv zeta in *.
  set (a := (vx x2 - vx x1) / D12) in *. set (b := (vy x2 - vy x1) / D12) in *. set (e := (vx x3 - vx x1) / D13) in *. set (d := (vy x3 - vy x1) / D13) in *.
  assert (E : c = a * e + b * d) by (unfold c, a, b, d, e; field; split; lra). rewrite E. clearbody a b d e. clear - Q1 Q2.
  assert (W1 := Rle_0_sqr (a - e)). assert (W2 := Rle_0_sqr (b - d)). assert (W3 := Rle_0_sqr (a + e)). assert (W4 := Rle_0_sqr (b + d)). unfold Rsqr in *. apply Rabs_le. lra.
Qed.
Lemma c'_top : Rabs c' <= 11 / 10 * G.
Proof. assert (A := n_size _ _ _ _ n_cos ltac:(lra)). destruct GH as (G1 & _). lra. Qed.
Lemma S_low : bpow radix2 (-100) <= spans x1 x2 x3.
Proof.
  destruct D_low as (L1 & _). eapply Rle_trans; [exact L1|]. assert (Q := dist_sq x1 x2). fold D12 in Q. assert (P := proj1 Ds).
  assert (X := Rabs_triang (vx x1) (- vx x2)). assert (Y := Rabs_triang (vy x1) (- vy x2)). rewrite Rabs_Ropp in X, Y.
  assert (Z3 := Rabs_pos (vx x3)). assert (Z4 := Rabs_pos (vy x3)). change (vx x1 + - vx x2) with (vx x1 - vx x2) in X. change (vy x1 + - vy x2) with (vy x1 - vy x2) in Y.
  apply Rle_trans with (Rabs (vx x1 - vx x2) + Rabs (vy x1 - vy x2)); [|unfold spans; lra].
  assert (A := Rabs_pos (vx x1 - vx x2)). assert (B := Rabs_pos (vy x1 - vy x2)).
  apply Rsqr_incr_0_var; [|lra]. unfold Rsqr. rewrite Q.
  replace ((vx x1 - vx x2) * (vx x1 - vx x2)) with (Rabs (vx x1 - vx x2) * Rabs (vx x1 - vx x2)) by (symmetry; apply Rsqr_abs).
  replace ((vy x1 - vy x2) * (vy x1 - vy x2)) with (Rabs (vy x1 - vy x2) * Rabs (vy x1 - vy x2)) by (symmetry; apply Rsqr_abs).
  assert (0 <= Rabs (vx x1 - vx x2) * Rabs (vy x1 - vy x2)) by (apply Rmult_le_pos; lra). lra.
Qed.
Lemma S_top : spans x1 x2 x3 <= bpow radix2 103.
Proof.
  destruct (oh_1 _ _ _ HH) as ([_ A] & [_ B] & _). destruct (oh_2 _ _ _ HH) as ([_ C] & [_ E] & _). destruct (oh_3 _ _ _ HH) as ([_ F] & [_ K] & _).
  change 103%Z with (3 + 100)%Z. rewrite bpow_plus. change (bpow radix2 3) with 8. assert (P := bpow_gt_0 radix2 100). unfold spans. lra.
Qed.
(** the inverse radius and the curvature handed out *)
Lemma inv_r : s' <> 0 -> / Rabs r' <= 1001 / 1000 * Rabs (rnd (1 / r')) + 2 * least.
Proof.
  intros N. assert (RZ := r_nz N). assert (W := rnd_err (1 / r')). assert (E : Rabs (1 / r') = / Rabs r') by (unfold Rdiv; rewrite Rmult_1_l; apply Rabs_inv). rewrite E in W.
  assert (T := Rabs_triang_inv (1 / r') (1 / r' - rnd (1 / r'))). replace (1 / r' - (1 / r' - rnd (1 / r'))) with (rnd (1 / r')) in T by ring. rewrite E, (Rabs_minus_sym (1 / r')) in T.
  assert (IP : 0 < / Rabs r') by (apply Rinv_0_lt_compat, Rabs_pos_lt, RZ). assert (U := u_tiny). assert (U0 := u_small).
  assert (uround * / Rabs r' <= / 1000000 * / Rabs r') by (apply Rmult_le_compat_r; lra). assert (L0 : 0 < least) by apply bpow_gt_0. lra.
Qed.
Lemma comp_err a1 a2 a3 w w' r sg0 : s' <> 0 -> sg0 * sg0 = 1 -> r = sg0 * r' -> Rabs a1 + Rabs a2 + Rabs a3 <= spans x1 x2 x3 ->
  Rabs ((a2 + a3) / 2 - a1) <= (D12 + D13) / 2 -> near 1 (72 / 10) w' w ->
  Rabs (rnd (r * rnd (rnd (rnd (/ 2 * rnd (a2 + a3)) + rnd (rnd (r' * c') * w')) - a1)) / (r' * r')
    - sg0 * (- curvature x1 x2 x3 * ((a2 + a3) / 2 - a1) + c * w))
  <= uround * (85 / 10 * (spans x1 x2 x3 * Rabs (rnd (1 / r'))) + 43 * uneven x1 x2 x3).
Proof.
  intros N SG ER HA HB NW. destruct Ds as (P1 & P2 & P3). destruct GH as (G1 & H1 & QE). assert (RZ := r_nz N). assert (RP := Rabs_pos_lt _ RZ). assert (U := u_small). assert (UT := u_tiny).
  assert (AS : Rabs sg0 = 1).
  { assert (Z : (sg0 - 1) * (sg0 + 1) = 0) by lra. apply Rmult_integral in Z. destruct Z as [Z|Z]; [replace sg0 with 1 by lra; apply Rabs_R1|replace sg0 with (-1) by lra; rewrite Rabs_left; lra]. }
  assert (HR : Rabs r = Rabs r') by (rewrite ER, Rabs_mult, AS; ring).
  assert (W1 := n_size _ _ _ _ NW ltac:(lra)).
  destruct (n_comp a1 a2 a3 r' r c' w' (spans x1 x2 x3) G HR HA S_low (proj2 (r_low N)) G1 c'_top ltac:(lra)) as [_ E].
  set (p := rnd (r * _)) in *. set (S := spans x1 x2 x3) in *. set (A := (a2 + a3) / 2 - a1) in *. clearbody p.
  assert (R2 : 0 < r' * r') by (apply Rlt_0_sqr, RZ).
  assert (R2E : r' * r' = Rabs r' * Rabs r') by apply Rsqr_abs.
  assert (T1 : Rabs (p / (r' * r') - sg0 * (1 / r' * A + c' * w')) <= uround * (84 / 10 * (S * / Rabs r') + 68 / 10 * G)).
  { replace (p / (r' * r') - sg0 * (1 / r' * A + c' * w')) with ((p - r * (A + r' * c' * w')) / (r' * r')) by (rewrite ER; field; exact RZ).
    unfold Rdiv at 1. rewrite Rabs_mult, Rabs_inv, (Rabs_pos_eq (r' * r')) by lra. apply Rmult_le_reg_r with (r' * r'); [exact R2|]. rewrite Rmult_assoc, Rinv_l, Rmult_1_r by lra.
    eapply Rle_trans; [exact E|]. rewrite R2E.
    replace (uround * (84 / 10 * (S * / Rabs r') + 68 / 10 * G) * (Rabs r' * Rabs r')) with (uround * (84 / 10 * S * Rabs r' + 68 / 10 * (G * (Rabs r' * Rabs r')))) by (field; lra).
    apply Rmult_le_compat_l; [lra|]. assert (0 <= G * (Rabs r' * Rabs r')) by (apply Rmult_le_pos; [lra|apply Rmult_le_pos; lra]). lra. }
  assert (SI : S * / Rabs r' <= 1001 / 1000 * (S * Rabs (rnd (1 / r'))) + / 1000).
  { assert (SL := S_low). assert (SP := bpow_gt_0 radix2 (-100)). fold S in SL. apply Rle_trans with (S * (1001 / 1000 * Rabs (rnd (1 / r')) + 2 * least)); [apply Rmult_le_compat_l; [lra|apply inv_r, N]|].
    assert (S * (2 * least) <= / 1000); [|lra]. apply Rle_trans with (bpow radix2 103 * (2 * least)); [apply Rmult_le_compat_r; [unfold least; assert (X := bpow_gt_0 radix2 (-1074)); lra|exact S_top]|].
    change 2 with (bpow radix2 1). unfold least. rewrite <- !bpow_plus. apply Rle_trans with (bpow radix2 (-10)); [apply bpow_le; lia|change (bpow radix2 (-10)) with (/ 1024); lra]. }
  assert (T2 : Rabs (1 / r' * A - - curvature x1 x2 x3 * A) <= uround * (407 / 10 * H)).
  { rewrite <- Rmult_minus_distr_r, Rabs_mult. destruct (n_ir N) as [_ I].
    eapply Rle_trans; [apply Rmult_le_compat; [apply Rabs_pos|apply Rabs_pos|exact I|exact HB]|]. apply Req_le. unfold H. field. lra. }
  assert (T3 : Rabs (c' * w' - c * w) <= uround * (353 / 10 * G)).
  { destruct (n_mul _ _ _ _ _ _ _ _ n_cos NW ltac:(lra) ltac:(lra)) as [_ M]. rewrite Rmult_1_r in M. eapply Rle_trans; [exact M|]. apply Rmult_le_compat_l; [lra|]. apply Rmult_le_compat_r; lra. }
  replace (p / (r' * r') - sg0 * (- curvature x1 x2 x3 * A + c * w)) with
    ((p / (r' * r') - sg0 * (1 / r' * A + c' * w')) + sg0 * ((1 / r' * A - - curvature x1 x2 x3 * A) + (c' * w' - c * w))) by ring.
  eapply Rle_trans; [apply Rabs_triang|]. rewrite (Rabs_mult sg0), AS, Rmult_1_l.
  assert (T4 := Rabs_triang (1 / r' * A - - curvature x1 x2 x3 * A) (c' * w' - c * w)).
  apply Rle_trans with (uround * (84 / 10 * (S * / Rabs r') + 68 / 10 * G) + uround * (407 / 10 * H) + uround * (353 / 10 * G)); [lra|].
  rewrite <- !Rmult_plus_distr_l. apply Rmult_le_compat_l; [lra|]. rewrite QE.
  assert (0 <= S * Rabs (rnd (1 / r'))) by (apply Rmult_le_pos; [generalize S_low (bpow_gt_0 radix2 (-100)); fold S; lra|apply Rabs_pos]). lra.
Qed.
Lemma half_x a b e : Rabs (b - a) <= D12 -> Rabs (e - a) <= D13 -> Rabs ((b + e) / 2 - a) <= (D12 + D13) / 2.
Proof. intros A B. apply Rabs_le_inv in A. apply Rabs_le_inv in B. apply Rabs_le. lra. Qed.
Lemma scale_angle y x a l : 0 < l -> angle_of y x a -> angle_of (y / l) (x / l) a.
Proof.
  intros P (A & B & C). split; [exact A|]. assert (E : sqrt (x / l * (x / l) + y / l * (y / l)) = sqrt (x * x + y * y) / l).
  { replace (x / l * (x / l) + y / l * (y / l)) with ((x * x + y * y) / (l * l)) by (field; lra). rewrite sqrt_div_alt by (apply Rmult_lt_0_compat; lra). rewrite sqrt_square by lra. reflexivity. }
  rewrite E. split; [transitivity (sqrt (x * x + y * y) * cos a / l); [field; lra|rewrite B; reflexivity]|transitivity (sqrt (x * x + y * y) * sin a / l); [field; lra|rewrite C; reflexivity]].
Qed.
Lemma om_abs (backward : bool) : Rabs (rnd (1 / (if backward then - r' else r'))) = Rabs (rnd (1 / r')).
Proof. destruct backward; [|reflexivity]. replace (1 / - r') with (- (1 / r')) by (destruct (Req_dec r' 0) as [->|N]; [rewrite Ropp_0; unfold Rdiv; rewrite Rinv_0; ring|field; exact N]). rewrite FloatWrapFacts.rnd_opp, Rabs_Ropp. reflexivity. Qed.
Lemma azimuth L at2 backward hp' phi : good_library L at2 -> calculateStartHelix_d at2 x1 x2 x3 backward = Ok hp' ->
  sin phi = (if backward then -1 else 1) * Nx -> cos phi = - ((if backward then -1 else 1) * Ny) ->
  let e := uround * (18 * (spans x1 x2 x3 * Rabs (hp' OMEGA)) + 97 * uneven x1 x2 x3) in
  e <= / 50 -> exists k : Z, Rabs (hp' PHI0 - phi - 2 * IZR k * PI) <= e.
Proof.
  intros HL HC ES EC. destruct (start_inv _ _ _ HC) as (N & EO & _ & _ & _ & EP). rewrite EO, om_abs, EP. clear EO EP HC.
  set (sg0 := if backward then -1 else 1) in *. set (r := if backward then - r' else r').
  intros e HE. destruct Ds as (P1 & P2 & P3). destruct GH as (G1 & H1 & QE). assert (U := u_small). assert (UT := u_tiny). assert (RZ := r_nz N).
  assert (SG : sg0 * sg0 = 1) by (unfold sg0; destruct backward; ring). assert (ER : r = sg0 * r') by (unfold r, sg0; destruct backward; ring).
  destruct (D_pos x1 x2 (oh_12 _ _ _ HH)) as (_ & _ & _ & X12 & Y12 & _). destruct (D_pos x1 x3 (oh_13 _ _ _ HH)) as (_ & _ & _ & X13 & Y13 & _). destruct (D_pos x2 x3 (oh_23 _ _ _ HH)) as (_ & _ & _ & X23 & Y23 & _).
  assert (WX := n_unit x2 x3 (oh_23 _ _ _ HH) _ X23). assert (WY := n_unit x2 x3 (oh_23 _ _ _ HH) _ Y23). cbv zeta in WX, WY. fold m23 in WX, WY. fold ux23 in WX. fold uy23 in WY. fold D23 in WX, WY. apply n_opp in WX.
  assert (Q1 := Rabs_pos (vx x1)). assert (Q2 := Rabs_pos (vx x2)). assert (Q3 := Rabs_pos (vx x3)). assert (Q4 := Rabs_pos (vy x1)). assert (Q5 := Rabs_pos (vy x2)). assert (Q6 := Rabs_pos (vy x3)).
  assert (EX := comp_err (vx x1) (vx x2) (vx x3) _ _ r sg0 N SG ER ltac:(unfold spans; lra) (half_x _ _ _ X12 X13) WY).
  assert (EY := comp_err (vy x1) (vy x2) (vy x3) _ _ r sg0 N SG ER ltac:(unfold spans; lra) (half_x _ _ _ Y12 Y13) WX).
  fold hx rc in EX. fold hy rc in EY. fold cx in EX. fold cy in EY. fold Nx in EX. fold Ny in EY.
  set (py := rnd (r * rnd (cy - vy x1))) in *. set (px := rnd (r * rnd (cx - vx x1))) in *.
  set (K := spans x1 x2 x3 * Rabs (rnd (1 / r'))) in *. set (Q := uneven x1 x2 x3) in *. set (d := uround * (85 / 10 * K + 43 * Q)) in *.
  assert (K0 : 0 <= K) by (apply Rmult_le_pos; [generalize S_low (bpow_gt_0 radix2 (-100)); lra|apply Rabs_pos]).
  assert (QU : 2 <= Q) by (rewrite QE; lra).
  assert (UK : 0 <= uround * K) by (apply Rmult_le_pos; lra). assert (UQ : uround * 2 <= uround * Q) by (apply Rmult_le_compat_l; lra).
  assert (DE : 21 / 10 * d + 124 / 10 * uround <= e) by (unfold d, e; lra).
  assert (R2 : 0 < r' * r') by (apply Rlt_0_sqr, RZ).
  assert (ES2 : sg0 * Nx = cos (phi - PI / 2)) by (rewrite cos_minus, cos_PI2, sin_PI2; lra).
  assert (EC2 : sg0 * Ny = sin (phi - PI / 2)) by (rewrite sin_minus, cos_PI2, sin_PI2; lra).
  rewrite ES2 in EX. rewrite EC2 in EY.
  assert (NZ : px <> 0 \/ py <> 0).
  { destruct (Req_dec px 0) as [ZX|]; [|left; assumption]. destruct (Req_dec py 0) as [ZY|]; [|right; assumption]. exfalso. rewrite ZX in EX. rewrite ZY in EY.
    replace (0 / (r' * r') - cos (phi - PI / 2)) with (- cos (phi - PI / 2)) in EX by (field; lra). replace (0 / (r' * r') - sin (phi - PI / 2)) with (- sin (phi - PI / 2)) in EY by (field; lra).
    rewrite Rabs_Ropp in EX, EY. assert (W := sin2_cos2 (phi - PI / 2)). unfold Rsqr in W. assert (D1 : d <= / 10) by lra.
    apply Rabs_le_inv in EX. apply Rabs_le_inv in EY. nra. }
  destruct (gl_atan2 _ _ HL py px (rnd_double _) (rnd_double _) NZ) as (_ & a & AO & AE).
  destruct (angle_err (phi - PI / 2) (py / (r' * r')) (px / (r' * r')) a d EY EX ltac:(lra) (scale_angle _ _ _ _ R2 AO)) as (k & KE).
  exists k. destruct AO as (AR & _). destruct dPi_num as (PN1 & PN0 & PN2 & _ & PN3). assert (LU := proj2 least_u). assert (PB := PI_4).
  assert (AA : Rabs a <= 32 / 10) by (apply Rabs_le; lra).
  assert (AE2 : Rabs (at2 py px - a) <= 65 / 10 * uround).
  { eapply Rle_trans; [exact AE|]. assert (2 * uround * Rabs a <= 2 * uround * (32 / 10)) by (apply Rmult_le_compat_l; lra). lra. }
  set (b := at2 py px) in *. clearbody b. apply Rabs_le_inv in AE2. apply Rabs_le_inv in AA.
  destruct (rd1 (b + dHalfPi) 48 ltac:(apply Rabs_le; lra) ltac:(lra)) as [_ RE].
  assert (W := rnd_err (b + dHalfPi)). assert (BB : Rabs (b + dHalfPi) <= 48 / 10) by (apply Rabs_le; lra).
  assert (uround * Rabs (b + dHalfPi) <= uround * (48 / 10)) by (apply Rmult_le_compat_l; lra).
  apply Rabs_le_inv in KE. assert (W2 : Rabs (rnd (b + dHalfPi) - (b + dHalfPi)) <= 485 / 100 * uround) by lra. apply Rabs_le_inv in W2. apply Rabs_le. lra.
Qed.

(** ** the slope *)
Lemma right_half a : - PI <= a <= PI -> 0 < cos a -> Rabs a < PI / 2.
Proof.
  intros R0 C. apply Rnot_le_lt. intros W. assert (Z : cos (Rabs a) = cos a) by (unfold Rabs; destruct Rcase_abs; [apply cos_neg|reflexivity]).
  assert (Rabs a <= PI) by (apply Rabs_le; lra). assert (cos (Rabs a) <= 0) by (apply cos_le_0; generalize PI_pos; lra). lra.
Qed.
Lemma sc_one : s * s + c * c = 1.
Proof.
  destruct Ds as (P1 & P2 & P3). assert (E12 := dist_sq x1 x2). assert (E13 := dist_sq x1 x3). fold D12 in E12. fold D13 in E13.
  transitivity ((turn x1 x2 x3 * turn x1 x2 x3 + ((vx x2 - vx x1) * (vx x3 - vx x1) + (vy x2 - vy x1) * (vy x3 - vy x1)) * ((vx x2 - vx x1) * (vx x3 - vx x1) + (vy x2 - vy x1) * (vy x3 - vy x1))) / (D12 * D12 * (D13 * D13))).
  - unfold s, c. field. lra.
  - apply Rmult_eq_reg_r with (D12 * D12 * (D13 * D13)); [|apply Rgt_not_eq; repeat apply Rmult_lt_0_compat; lra].
    unfold Rdiv. rewrite Rmult_assoc, Rinv_l by (apply Rgt_not_eq; repeat apply Rmult_lt_0_compat; lra). rewrite E12, E13. unfold turn. ring.
Qed.
Lemma cap : ahead x1 x2 x3 -> / 10 <= c.
Proof.
  intros A. unfold ahead in A. fold D12 D13 in A. destruct Ds as (P1 & P2 & P3). assert (P : 0 < D12 * D13) by (apply Rmult_lt_0_compat; lra).
  apply Rmult_le_reg_r with (D12 * D13); [exact P|]. unfold c, Rdiv. rewrite Rmult_assoc, Rinv_l by lra. lra.
Qed.
(** the half angle over its sine *)
Lemma half_angle al : ahead x1 x2 x3 -> s <> 0 -> s' <> 0 -> uround * (160 * uneven x1 x2 x3) <= / 100 -> angle_of s' c' al ->
  let X := atan2 s c / s in let Y := al / s' in
  99 / 100 <= X /\ 97 / 100 <= Y <= 17 / 10 /\ Rabs (X - Y) <= uround * (695 / 10 * G) + uround * (65 * G) * Y /\ al <> 0 /\ Rabs s' <= 11 / 10 * Rabs al.
Proof.
  intros HA SN SN' HQ AO X Y. assert (C1 := cap HA). destruct GH as (G1 & H1 & QE). assert (U := u_small). assert (UT := u_tiny).
  assert (UG : 0 <= uround * G) by (apply Rmult_le_pos; lra). assert (UG2 : uround * G <= / 16000) by (rewrite QE in HQ; assert (0 <= uround * H) by (apply Rmult_le_pos; lra); lra).
  set (g := uround * G) in *. assert (NS := proj2 n_sin). assert (NC := proj2 n_cos). assert (SO := sc_one).
  assert (UG1 : uround <= g) by (unfold g; apply Rle_trans with (uround * 1); [lra|apply Rmult_le_compat_l; lra]).
  assert (ES : Rabs (s' - s) <= 33 * g) by (eapply Rle_trans; [exact NS|]; lra).
  assert (EC : Rabs (c' - c) <= 28 * g) by (eapply Rle_trans; [exact NC|]; unfold g; lra).
  assert (A1 : sin (atan2 s c) = s) by (rewrite <- (atan2_sin s c) at 2; replace (c * c + s * s) with 1 by lra; rewrite sqrt_1; ring).
  assert (A2 : cos (atan2 s c) = c) by (rewrite <- (atan2_cos s c) at 2; replace (c * c + s * s) with 1 by lra; rewrite sqrt_1; ring).
  assert (A3 := atan2_range s c). assert (A4 := right_half (atan2 s c) ltac:(lra) ltac:(lra)).
  set (a := atan2 s c) in *.
  assert (XE : X = sinc a).
  { unfold X. unfold sinc. destruct (Req_EM_T a 0) as [Z|Z]; [exfalso; apply SN; rewrite <- A1, Z; apply sin_0|rewrite A1; reflexivity]. }
  assert (XR := sinc_range a ltac:(lra)). rewrite <- XE in XR.
  destruct (angle_err a s' c' al (33 * g) ltac:(rewrite A1; exact ES) ltac:(rewrite A2; lra) ltac:(lra) AO) as (k & KE).
  destruct AO as (AR & AC & AS). set (rho := sqrt (c' * c' + s' * s')) in *.
  apply Rabs_le_inv in ES as ES2. apply Rabs_le_inv in EC as EC2. assert (CS := c_size). assert (SS := s_size). apply Rabs_le_inv in CS. apply Rabs_le_inv in SS.
  assert (R2 : Rabs (rho * rho - 1) <= 123 * g).
  { assert (RR : rho * rho = c' * c' + s' * s') by (apply sqrt_sqrt; assert (T1 := Rle_0_sqr c'); assert (T2 := Rle_0_sqr s'); unfold Rsqr in *; lra).
    replace (rho * rho - 1) with ((c' - c) * (c' + c) + (s' - s) * (s' + s)) by (rewrite RR; lra). eapply Rle_trans; [apply Rabs_triang|]. rewrite !Rabs_mult.
    assert (Rabs (c' - c) * Rabs (c' + c) <= 28 * g * (201 / 100)) by (apply Rmult_le_compat; [apply Rabs_pos|apply Rabs_pos|exact EC|apply Rabs_le; lra]).
    assert (Rabs (s' - s) * Rabs (s' + s) <= 33 * g * (201 / 100)) by (apply Rmult_le_compat; [apply Rabs_pos|apply Rabs_pos|exact ES|apply Rabs_le; lra]). lra. }
  assert (R0 : 0 <= rho) by apply sqrt_pos. assert (R3 : 98 / 100 <= rho) by (apply Rsqr_incr_0_var; [|exact R0]; unfold Rsqr; apply Rabs_le_inv in R2; lra).
  assert (R4 : Rabs (rho - 1) <= 64 * g).
  { apply Rmult_le_reg_r with (rho + 1); [lra|]. rewrite <- (Rabs_pos_eq (rho + 1)) at 1 by lra. rewrite <- Rabs_mult. replace ((rho - 1) * (rho + 1)) with (rho * rho - 1) by ring.
    eapply Rle_trans; [exact R2|]. apply Rle_trans with (64 * g * (198 / 100)); [lra|]. apply Rmult_le_compat_l; lra. }
  apply Rabs_le_inv in R4 as R5.
  assert (CP : 0 < cos al) by (apply Rmult_lt_reg_l with rho; [lra|]; rewrite Rmult_0_r, AC; lra).
  assert (AH := right_half al AR CP).
  assert (K0 : k = 0%Z).
  { apply Rabs_def2 in A4. apply Rabs_def2 in AH. apply Rabs_le_inv in KE. assert (PP := PI_pos). assert (P2 := PI2_1).
    assert (-1 < IZR k < 1) by (split; nra). apply Z.le_antisymm; [apply Z.lt_succ_r, lt_IZR; simpl; lra|apply Z.lt_pred_le, lt_IZR; simpl; lra]. }
  subst k. replace (al - a - 2 * 0 * PI) with (al - a) in KE by ring.
  assert (LIP := sinc_lip al a ltac:(lra) ltac:(lra)). assert (SR := sinc_range al ltac:(lra)).
  assert (AN : al <> 0) by (intros Z; apply SN'; rewrite <- AS, Z, sin_0; ring).
  assert (YE : Y * rho = sinc al).
  { unfold Y, sinc. destruct (Req_EM_T al 0); [contradiction|]. assert (sin al <> 0) by (intros Z; apply SN'; rewrite <- AS, Z; ring). rewrite <- AS. field. split; [assumption|lra]. }
  assert (P4 := proj1 (proj1 (proj2 (conj I dPi_num)))). assert (PU : PI / 2 <= 15709 / 10000) by (destruct dPi_num as (Q1 & _ & Q2 & _); lra).
  assert (YL : 97 / 100 <= Y) by (apply Rmult_le_reg_r with rho; [lra|]; rewrite YE; lra).
  assert (YU : Y <= 17 / 10) by (apply Rmult_le_reg_r with rho; [lra|]; rewrite YE; lra).
  split; [lra|]. split; [lra|]. split.
  - replace (X - Y) with (- (sinc al - sinc a) + Y * (rho - 1)) by (rewrite XE, <- YE; ring). eapply Rle_trans; [apply Rabs_triang|]. rewrite Rabs_Ropp, Rabs_mult, (Rabs_pos_eq Y) by lra.
    assert (Y * Rabs (rho - 1) <= Y * (64 * g)) by (apply Rmult_le_compat_l; lra). assert (0 <= Y * g) by (apply Rmult_le_pos; lra).
    replace (uround * (695 / 10 * G)) with (695 / 10 * g) by (unfold g; ring). replace (uround * (65 * G)) with (65 * g) by (unfold g; ring). lra.
  - split; [exact AN|]. rewrite <- AS, Rabs_mult, (Rabs_pos_eq rho) by lra. apply Rmult_le_compat; [lra|apply Rabs_pos|lra|].
    assert (W := sinc_range al ltac:(lra)). unfold sinc in W. destruct (Req_EM_T al 0); [contradiction|].
    assert (SZ : sin al <> 0) by (intros Z; apply SN'; rewrite <- AS, Z; ring). assert (SP := Rabs_pos_lt _ SZ).
    apply Rle_trans with (Rabs (al / sin al) * Rabs (sin al)); [|rewrite <- Rabs_mult; right; f_equal; field; exact SZ].
    rewrite <- (Rmult_1_l (Rabs (sin al))) at 1. apply Rmult_le_compat_r; [lra|]. rewrite Rabs_pos_eq; lra.
Qed.
Lemma s_low : s' <> 0 -> bpow radix2 (-500) <= Rabs (rnd (1 / r')) -> bpow radix2 (-650) <= Rabs s'.
Proof.
  intros N HO. destruct (n_r N) as [A B]. destruct Ds as (P1 & P2 & P3). assert (RZ := r_nz N). assert (RP := Rabs_pos_lt _ RZ). assert (T := t_range). assert (SP := Rabs_pos_lt _ N). assert (U := u_small). assert (UT := u_tiny).
  assert (W := rnd_err (1 / r')). assert (E : Rabs (1 / r') = / Rabs r') by (unfold Rdiv; rewrite Rmult_1_l; apply Rabs_inv). rewrite E in W.
  assert (TT := Rabs_triang (1 / r') (rnd (1 / r') - 1 / r')). replace (1 / r' + (rnd (1 / r') - 1 / r')) with (rnd (1 / r')) in TT by ring. rewrite E in TT.
  assert (IP : 0 < / Rabs r') by (apply Rinv_0_lt_compat, RP). assert (uround * / Rabs r' <= / 1000000 * / Rabs r') by (apply Rmult_le_compat_r; lra).
  assert (LB : least <= / 2 * bpow radix2 (-500)) by (change (/ 2) with (bpow radix2 (-1)); unfold least; rewrite <- bpow_plus; apply bpow_le; lia).
  assert (I1 : / 4 * bpow radix2 (-500) <= / Rabs r') by lra.
  assert (R0 : Rabs (t' / s') <= 2 * Rabs r').
  { assert (W2 := Rabs_triang_inv (t' / s') (t' / s' - r')). replace (t' / s' - (t' / s' - r')) with r' in W2 by ring. rewrite (Rabs_minus_sym (t' / s') r') in W2.
    assert (101 / 100 * uround * Rabs (t' / s') <= / 1000 * Rabs (t' / s')) by (apply Rmult_le_compat_r; [apply Rabs_pos|lra]). assert (X := Rabs_pos (t' / s')). lra. }
  assert (TE : Rabs (t' / s') * Rabs s' = - t') by (rewrite <- Rabs_mult; replace (t' / s' * s') with t' by (field; exact N); apply Rabs_left; lra).
  assert (C : 49 / 100 * D23 * / (2 * Rabs r') <= Rabs s').
  { apply Rmult_le_reg_r with (2 * Rabs r'); [lra|]. rewrite Rmult_assoc, Rinv_l, Rmult_1_r by lra. apply Rle_trans with (Rabs (t' / s') * Rabs s'); [lra|]. rewrite (Rmult_comm (Rabs s')). apply Rmult_le_compat_r; lra. }
  eapply Rle_trans; [|exact C]. rewrite Rinv_mult. apply Rle_trans with (49 / 100 * bpow radix2 (-100) * (/ 2 * (/ 4 * bpow radix2 (-500)))).
  - replace (49 / 100 * bpow radix2 (-100) * (/ 2 * (/ 4 * bpow radix2 (-500)))) with (49 / 800 * (bpow radix2 (-100) * bpow radix2 (-500))) by field. rewrite <- bpow_plus.
    change (-100 + -500)%Z with (50 + -650)%Z. rewrite bpow_plus. change (bpow radix2 50) with 1125899906842624. assert (X := bpow_gt_0 radix2 (-650)). lra.
  - destruct D_low as (_ & _ & L3). assert (X := bpow_gt_0 radix2 (-100)). assert (X2 := bpow_gt_0 radix2 (-500)). apply Rmult_le_compat; lra.
Qed.
Lemma slope L at2 backward hp' : good_library L at2 -> calculateStartHelix_d at2 x1 x2 x3 backward = Ok hp' -> turn x1 x2 x3 <> 0 ->
  ahead x1 x2 x3 -> uround * (160 * uneven x1 x2 x3) <= / 100 -> bpow radix2 (-500) <= Rabs (hp' OMEGA) ->
  let T := (vz x2 - vz x3) / ((if backward then -1 else 1) * - (D23 / s) * atan2 s c) in
  Rabs (hp' TANL - T) <= uround * (160 * uneven x1 x2 x3) * Rabs T + speck.
Proof.
  intros HL HC HT HA HQ HO. destruct (start_inv _ _ _ HC) as (N & EO & _ & _ & ET & _). rewrite EO, om_abs in HO. rewrite ET. clear EO ET HC.
  set (sg0 := if backward then -1 else 1) in *. set (r := if backward then - r' else r'). set (dz := vz x2 - vz x3). intros T.
  destruct Ds as (P1 & P2 & P3). destruct GH as (G1 & H1 & QE). assert (U := u_small). assert (UT := u_tiny). assert (RZ := r_nz N).
  assert (SN : s <> 0) by (unfold s; intros Z; apply HT; replace (turn x1 x2 x3) with (turn x1 x2 x3 / (D12 * D13) * (D12 * D13)) by (field; lra); rewrite Z; ring).
  assert (ER : r = sg0 * r') by (unfold r, sg0; destruct backward; ring). assert (SG : Rabs sg0 = 1) by (unfold sg0; destruct backward; [rewrite Rabs_left; lra|apply Rabs_R1]).
  assert (SZ : sg0 <> 0) by (intros Z; rewrite Z, Rabs_R0 in SG; lra).
  destruct (gl_atan2 _ _ HL s' c' (rnd_double _) (rnd_double _) (or_intror N)) as (_ & al & AO & AE).
  destruct (half_angle al HA SN N HQ AO) as (XL & (YL & YU) & XY & AN & SA). set (X := atan2 s c / s) in *. set (Y := al / s') in *.
  set (a' := at2 s' c') in *. clearbody a'. assert (SL := s_low N HO). destruct (n_r N) as [RA RB]. assert (TR := t_range).
  assert (AP := Rabs_pos_lt _ AN). assert (SPP := Rabs_pos_lt _ N).
  assert (AB : bpow radix2 (-700) <= Rabs al).
  { apply Rle_trans with (/ 2 * bpow radix2 (-650)); [change (/ 2) with (bpow radix2 (-1)); rewrite <- bpow_plus; apply bpow_le; lia|lra]. }
  assert (NA : near (Rabs al) (201 / 100) a' al).
  { split; [lra|]. eapply Rle_trans; [exact AE|]. assert (W := usable_least _ AB). assert (0 <= uround * Rabs al) by (apply Rmult_le_pos; lra). lra. }
  assert (NR : near (Rabs (t' / s')) (101 / 100) r (sg0 * (t' / s'))).
  { split; [rewrite Rabs_mult, SG; lra|]. rewrite ER, <- Rmult_minus_distr_l, Rabs_mult, SG, Rmult_1_l. eapply Rle_trans; [exact RA|]. apply Req_le. ring. }
  assert (B := n_mul _ _ _ _ _ _ _ _ NR (n_same 2 2 ltac:(rewrite Rabs_pos_eq; lra)) ltac:(lra) ltac:(lra)).
  assert (UB : usable (Rabs (t' / s') * 2)).
  { apply (us_pow _ (-110)); [|lia]. destruct D_low as (_ & _ & L3). apply Rle_trans with (/ 1024 * bpow radix2 (-100)); [change (/ 1024) with (bpow radix2 (-10)); rewrite <- bpow_plus; apply bpow_le; lia|].
    assert (Q := bpow_gt_0 radix2 (-100)). lra. }
  rn B B1 assumption. assert (C := n_mul _ _ _ _ _ _ _ _ B1 NA ltac:(lra) ltac:(lra)).
  set (y := sg0 * (t' / s') * 2 * al) in *.
  assert (YV : y = sg0 * (2 * t' * Y)) by (unfold y, Y; field; exact N).
  assert (YA : Rabs y = Rabs (t' / s') * 2 * Rabs al) by (unfold y; rewrite !Rabs_mult, SG, (Rabs_pos_eq 2) by lra; ring).
  assert (YA2 : Rabs y = 2 * - t' * Y) by (rewrite YV, Rabs_mult, SG, Rmult_1_l, !Rabs_mult, (Rabs_pos_eq 2), (Rabs_left t'), (Rabs_pos_eq Y) by lra; reflexivity).
  rewrite <- YA in C.
  assert (YB : 9 / 10 * D23 <= Rabs y <= 2 * D23).
  { rewrite YA2. split; [apply Rle_trans with (2 * (49 / 100 * D23) * (97 / 100)); [lra|apply Rmult_le_compat; lra]|apply Rle_trans with (2 * (51 / 100 * D23) * (17 / 10)); [apply Rmult_le_compat; lra|lra]]. }
  destruct D_low as (_ & _ & L3). assert (DT := D_top). assert (BP := bpow_gt_0 radix2 (-100)).
  assert (UY : usable (Rabs y)).
  { apply (us_pow _ (-110)); [|lia]. apply Rle_trans with (/ 1024 * bpow radix2 (-100)); [change (/ 1024) with (bpow radix2 (-10)); rewrite <- bpow_plus; apply bpow_le; lia|]. lra. }
  rn C C1 assumption. assert (YN : y <> 0) by (intros Z; rewrite Z, Rabs_R0 in YB; lra).
  set (B0 := Rabs dz + bpow radix2 (-500)). assert (B5 := bpow_gt_0 radix2 (-500)). assert (ZP := Rabs_pos dz).
  assert (E := n_same B0 dz ltac:(unfold B0; lra)). rn E E1 (apply (us_pow _ (-500)); [unfold B0; lra|lia]).
  assert (F := n_div_abs _ _ _ _ _ _ _ E1 C1 YN ltac:(lra) ltac:(lra)).
  assert (IY : 0 < / Rabs y) by (apply Rinv_0_lt_compat; lra).
  assert (UF : usable (B0 / Rabs y)).
  { apply (us_pow _ (-603)); [|lia]. change (-603)%Z with (-500 + - (103))%Z. rewrite bpow_plus. apply Rmult_le_compat; [apply bpow_ge_0|apply bpow_ge_0|unfold B0; lra|].
    rewrite (bpow_opp radix2 103). apply Rinv_le_contravar; [lra|]. change 103%Z with (1 + 102)%Z. rewrite bpow_plus. change (bpow radix2 1) with 2. lra. }
  rn F F1 assumption. destruct F1 as [_ F2]. fold dz. set (v := rnd (rnd dz / _)) in *. clearbody v.
  assert (TE : T = dz / (sg0 * (- D23 * X))) by (unfold T, X; f_equal; field; exact SN).
  assert (XP : 0 < D23 * X) by (apply Rmult_lt_0_compat; lra).
  assert (DE : dz / y - T = T * ((D23 * X - 2 * - t' * Y) / (2 * - t' * Y))).
  { rewrite TE, YV. field. repeat split; lra. }
  assert (YP : 0 < 2 * - t' * Y) by lra.
  set (g := uround * G). assert (UG1 : uround <= g) by (unfold g; apply Rle_trans with (uround * 1); [lra|apply Rmult_le_compat_l; lra]).
  assert (UG2 : g <= / 16000) by (unfold g; rewrite QE in HQ; assert (0 <= uround * H) by (apply Rmult_le_pos; lra); lra).
  assert (DB : Rabs (D23 * X - 2 * - t' * Y) <= 1435 / 10 * g * (2 * - t' * Y)).
  { destruct n_t as [_ NT].
    replace (D23 * X - 2 * - t' * Y) with (D23 * (X - Y) - 2 * Y * (- t' - D23 / 2)) by field. unfold Rminus at 1. eapply Rle_trans; [apply Rabs_triang|]. rewrite Rabs_Ropp, !Rabs_mult, (Rabs_pos_eq D23), (Rabs_pos_eq 2), (Rabs_pos_eq Y) by lra.
    assert (V1 : D23 * Rabs (X - Y) <= D23 * (695 / 10 * g + 65 * g * Y)).
    { apply Rmult_le_compat_l; [lra|]. eapply Rle_trans; [exact XY|]. apply Req_le. unfold g. ring. }
    assert (V2 : 2 * Y * Rabs (- t' - D23 / 2) <= 2 * Y * (g * (32 / 10 * D23))).
    { apply Rmult_le_compat_l; [lra|]. eapply Rle_trans; [exact NT|]. replace (uround * (64 / 10 * (D23 / 2))) with (uround * (32 / 10 * D23)) by field. apply Rmult_le_compat_r; lra. }
    assert (DG : 0 < D23 * g) by (apply Rmult_lt_0_compat; lra). assert (DY : 97 / 100 * (D23 * g) <= D23 * g * Y) by (rewrite (Rmult_comm (97 / 100)); apply Rmult_le_compat_l; lra).
    assert (V4 : 9999 / 10000 * (D23 * g * Y) <= g * (2 * - t' * Y)).
    { replace (g * (2 * - t' * Y)) with (2 * - t' * (g * Y)) by ring. replace (9999 / 10000 * (D23 * g * Y)) with (9999 / 10000 * D23 * (g * Y)) by ring. apply Rmult_le_compat_r; [apply Rmult_le_pos; lra|].
      apply Rabs_le_inv in NT. assert (uround * (64 / 10 * (D23 / 2)) <= / 100000 * D23) by (replace (uround * (64 / 10 * (D23 / 2))) with (uround * (32 / 10) * D23) by field; apply Rmult_le_compat_r; lra). lra. }
    lra. }
  assert (DR : Rabs (dz / y - T) <= 1435 / 10 * g * Rabs T).
  { rewrite DE, Rabs_mult, (Rmult_comm _ (Rabs T)). apply Rmult_le_compat_l; [apply Rabs_pos|]. unfold Rdiv at 1. rewrite Rabs_mult, Rabs_inv, (Rabs_pos_eq (2 * - t' * Y)) by lra.
    apply Rmult_le_reg_r with (2 * - t' * Y); [exact YP|]. rewrite Rmult_assoc, Rinv_l, Rmult_1_r by lra. exact DB. }
  assert (TP := Rabs_pos T).
  assert (ZY : Rabs dz / Rabs y <= 102 / 100 * Rabs T).
  { replace (Rabs dz / Rabs y) with (Rabs (dz / y)) by (unfold Rdiv; rewrite Rabs_mult, Rabs_inv; reflexivity). assert (W := Rabs_triang (dz / y - T) T). replace (dz / y - T + T) with (dz / y) in W by ring.
    assert (1435 / 10 * g * Rabs T <= 1435 / 160000 * Rabs T) by (apply Rmult_le_compat_r; lra). lra. }
  assert (SB : B0 / Rabs y <= 102 / 100 * Rabs T + bpow radix2 (-390)).
  { unfold B0, Rdiv. rewrite Rmult_plus_distr_r. apply Rplus_le_compat; [exact ZY|]. change (-390)%Z with (-500 + 110)%Z. rewrite bpow_plus. apply Rmult_le_compat_l; [lra|].
    change 110%Z with (- (-110))%Z. rewrite (bpow_opp radix2 (-110)). apply Rinv_le_contravar; [apply bpow_gt_0|]. apply Rle_trans with (/ 1024 * bpow radix2 (-100)); [change (/ 1024) with (bpow radix2 (-10)); rewrite <- bpow_plus; apply bpow_le; lia|lra]. }
  replace (v - T) with ((v - dz / y) + (dz / y - T)) by ring. eapply Rle_trans; [apply Rabs_triang|].
  assert (F3 : Rabs (v - dz / y) <= 93 / 10 * g * Rabs T + speck).
  { eapply Rle_trans; [exact F2|]. match goal with |- uround * (?k * _) <= _ => apply Rle_trans with (uround * (9 * (102 / 100 * Rabs T + bpow radix2 (-390)))) end.
    - apply Rmult_le_compat_l; [lra|]. apply Rmult_le_compat; [lra|apply Rmult_le_pos; [unfold B0; lra|lra]|lra|exact SB].
    - assert (uround * Rabs T <= g * Rabs T) by (apply Rmult_le_compat_r; lra). assert (0 <= g * Rabs T) by (apply Rmult_le_pos; lra).
      assert (S9 : uround * 9 * bpow radix2 (-390) <= speck).
      { apply Rle_trans with (1 * bpow radix2 (-390)); [apply Rmult_le_compat_r; [apply bpow_ge_0|lra]|]. rewrite Rmult_1_l. apply bpow_le. lia. }
      lra. }
  rewrite QE. replace (uround * (160 * (G + H)) * Rabs T) with (160 * g * Rabs T + 160 * (uround * H * Rabs T)) by (unfold g; ring).
  assert (0 <= uround * H * Rabs T) by (apply Rmult_le_pos; [apply Rmult_le_pos; lra|lra]). assert (0 <= g * Rabs T) by (apply Rmult_le_pos; lra). lra.
Qed.

(** ** three hits well off a line give a helix *)
Lemma diff_mag a b : ordinary a -> ordinary b -> mag (rnd (a - b)) 101.
Proof. intros [_ A] [_ B]. change (mag a 100) in A. change (mag b 100) in B. mg. Qed.
Lemma m_low x y : apart x y -> let m := size (rnd (vx y - vx x)) (rnd (vy y - vy x)) in bpow radix2 (-101) <= Rabs m.
Proof.
  intros A m. assert (P := m_pos x y A). cbv zeta in P. fold m in P. rewrite Rabs_pos_eq by lra. destruct (n_size_sq x y A) as [_ E]. cbv zeta in E. fold m in E. assert (U := u_tiny). assert (DP := Dp x y A).
  assert (uround * (5 / 1 * dist_xy x y) <= / 1000 * dist_xy x y) by (replace (uround * (5 / 1 * dist_xy x y)) with (uround * (5 / 1) * dist_xy x y) by ring; apply Rmult_le_compat_r; lra).
  apply Rabs_le_inv in E. unfold apart in A. change (-101)%Z with (-1 + -100)%Z. rewrite bpow_plus. change (bpow radix2 (-1)) with (/ 2). lra.
Qed.
Lemma start_fin L at2 backward : sound_library L at2 -> 100 * uround <= Rabs (curvature x1 x2 x3) * D23 ->
  exists hp, calculateStartHelix_d at2 x1 x2 x3 backward = Ok hp.
Proof.
  intros HS HK. destruct Ds as (P1 & P2 & P3). assert (U := u_small). assert (UT := u_tiny).
  assert (SV : 50 * uround <= Rabs s).
  { assert (E : curvature x1 x2 x3 * D23 = 2 * s) by (unfold curvature, s; fold D12 D13 D23; field; lra).
    assert (E2 : Rabs (curvature x1 x2 x3) * D23 = 2 * Rabs s) by (rewrite <- (Rabs_pos_eq D23) at 1 by lra; rewrite <- Rabs_mult, E, Rabs_mult, (Rabs_pos_eq 2) by lra; reflexivity). lra. }
  assert (SL : bpow radix2 (-52) <= Rabs s').
  { destruct n_sin as [_ E]. assert (W := Rabs_triang_inv s (s - s')). replace (s - (s - s')) with s' in W by ring. rewrite (Rabs_minus_sym s s') in W.
    assert (uround * (33 / 1 * 1) = 33 * uround) by field. change (bpow radix2 (-52)) with (/ 4503599627370496). unfold uround in *. lra. }
  assert (N : s' <> 0) by (intros Z; rewrite Z, Rabs_R0 in SL; generalize (bpow_gt_0 radix2 (-52)); lra).
  destruct (oh_1 _ _ _ HH) as (OX1 & OY1 & OZ1). destruct (oh_2 _ _ _ HH) as (OX2 & OY2 & OZ2). destruct (oh_3 _ _ _ HH) as (OX3 & OY3 & OZ3).
  assert (M12 := m_low _ _ (oh_12 _ _ _ HH)). assert (M13 := m_low _ _ (oh_13 _ _ _ HH)). assert (M23 := m_low _ _ (oh_23 _ _ _ HH)). cbv zeta in M12, M13, M23.
  assert (X12 := diff_mag _ _ OX2 OX1). assert (Y12 := diff_mag _ _ OY2 OY1). assert (X13 := diff_mag _ _ OX3 OX1). assert (Y13 := diff_mag _ _ OY3 OY1).
  assert (X23 := diff_mag _ _ OX3 OX2). assert (Y23 := diff_mag _ _ OY3 OY2).
  assert (across : forall a b, ordinary (vx a) -> ordinary (vy a) -> ordinary (vx b) -> ordinary (vy b) -> across_d a b = Ok (V3 (rnd (vx b - vx a)) (rnd (vy b - vy a)) 0)).
  { intros a b [_ A] [_ B] [_ C] [_ E]. change (mag (vx a) 100) in A. change (mag (vy a) 100) in B. change (mag (vx b) 100) in C. change (mag (vy b) 100) in E. unfold across_d. fin 2. reflexivity. }
  unfold calculateStartHelix_d. rewrite !across by assumption. cbn [bind].
  rewrite (vr_ok _ _ (mag_le _ _ 103 X12 ltac:(lia)) (mag_le _ _ 103 Y12 ltac:(lia))), (vunit_ok _ _ (mag_le _ _ 103 X12 ltac:(lia)) (mag_le _ _ 103 Y12 ltac:(lia)) M12). cbn [bind].
  rewrite (vr_ok _ _ (mag_le _ _ 103 X13 ltac:(lia)) (mag_le _ _ 103 Y13 ltac:(lia))), (vunit_ok _ _ (mag_le _ _ 103 X13 ltac:(lia)) (mag_le _ _ 103 Y13 ltac:(lia)) M13). cbn [bind].
  rewrite (vr_ok _ _ (mag_le _ _ 103 X23 ltac:(lia)) (mag_le _ _ 103 Y23 ltac:(lia))), (vunit_ok _ _ (mag_le _ _ 103 X23 ltac:(lia)) (mag_le _ _ 103 Y23 ltac:(lia)) M23). cbn [bind].
  assert (D13_top : D13 <= bpow radix2 102).
  { assert (B : forall x y, ordinary x -> ordinary y -> Rabs (x - y) <= 2 * bpow radix2 100).
    { intros x y [_ X] [_ Y]. unfold Rminus. eapply Rle_trans; [apply Rabs_triang|]. rewrite Rabs_Ropp. lra. }
    unfold D13. eapply Rle_trans; [apply (dist_le _ _ (2 * bpow radix2 100)); apply B; assumption|].
    change 102%Z with (2 + 100)%Z. rewrite bpow_plus. change (bpow radix2 2) with 4. assert (P := bpow_gt_0 radix2 100). lra. }
  assert (MM : forall D m, near D (5 / 1) m D -> D <= bpow radix2 102 -> mag m 103).
  { intros D m E T. assert (W := n_size _ _ _ _ E ltac:(lra)). unfold mag. change 103%Z with (1 + 102)%Z. rewrite bpow_plus. change (bpow radix2 1) with 2. assert (P := bpow_gt_0 radix2 102). lra. }
  assert (S12 : mag m12 103) by (exact (MM _ _ (n_size_sq x1 x2 (oh_12 _ _ _ HH)) D12_top)). assert (S13 : mag m13 103) by (exact (MM _ _ (n_size_sq x1 x3 (oh_13 _ _ _ HH)) D13_top)).
  assert (S23 : mag m23 103) by (exact (MM _ _ (n_size_sq x2 x3 (oh_23 _ _ _ HH)) D_top)).
  fold m12 in M12 |- *. fold m13 in M13 |- *. fold m23 in M23 |- *.
  unfold cross_z_d. cbn [vx vy vz]. fold ux12 uy12 ux13 uy13 ux23 uy23.
  destruct (D_pos x1 x2 (oh_12 _ _ _ HH)) as (_ & _ & _ & A1 & A2 & _). destruct (D_pos x1 x3 (oh_13 _ _ _ HH)) as (_ & _ & _ & A3 & A4 & _). destruct (D_pos x2 x3 (oh_23 _ _ _ HH)) as (_ & _ & _ & A5 & A6 & _).
  assert (V1 : mag ux12 1) by (apply mag_1; assert (W := n_size _ _ _ _ (n_unit x1 x2 (oh_12 _ _ _ HH) _ A1) ltac:(lra)); fold m12 ux12 in W; lra).
  assert (V2 : mag uy12 1) by (apply mag_1; assert (W := n_size _ _ _ _ (n_unit x1 x2 (oh_12 _ _ _ HH) _ A2) ltac:(lra)); fold m12 uy12 in W; lra).
  assert (V3' : mag ux13 1) by (apply mag_1; assert (W := n_size _ _ _ _ (n_unit x1 x3 (oh_13 _ _ _ HH) _ A3) ltac:(lra)); fold m13 ux13 in W; lra).
  assert (V4 : mag uy13 1) by (apply mag_1; assert (W := n_size _ _ _ _ (n_unit x1 x3 (oh_13 _ _ _ HH) _ A4) ltac:(lra)); fold m13 uy13 in W; lra).
  assert (V5 : mag ux23 1) by (apply mag_1; assert (W := n_size _ _ _ _ (n_unit x2 x3 (oh_23 _ _ _ HH) _ A5) ltac:(lra)); fold m23 ux23 in W; lra).
  assert (V6 : mag uy23 1) by (apply mag_1; assert (W := n_size _ _ _ _ (n_unit x2 x3 (oh_23 _ _ _ HH) _ A6) ltac:(lra)); fold m23 uy23 in W; lra).
  assert (MS : mag s' 1) by (apply mag_1, s'_top).
  assert (MX1 : mag (vx x1) 100) by apply OX1. assert (MY1 : mag (vy x1) 100) by apply OY1. assert (MX2 : mag (vx x2) 100) by apply OX2. assert (MY2 : mag (vy x2) 100) by apply OY2.
  assert (MX3 : mag (vx x3) 100) by apply OX3. assert (MY3 : mag (vy x3) 100) by apply OY3. assert (MZ2 : mag (vz x2) 100) by apply OZ2. assert (MZ3 : mag (vz x3) 100) by apply OZ3.
  assert (MH : mag (/ 2) 1) by (apply mag_1; rewrite Rabs_pos_eq; lra). assert (MHN : mag (- / 2) 1) by (apply mag_opp, MH). assert (MO : mag 1 1) by (apply mag_1; rewrite Rabs_R1; lra). assert (M2 := mag_2).
  assert (V5N := mag_opp _ _ V5).
  fin 2. rewrite (rd_fin _ 4) by (mg || lia). fold s'.
  rewrite (div_fin _ _ 103 (-101)) by (assumption || lia). rewrite (div_fin _ _ 103 (-101)) by (assumption || lia). fold q1 q2.
  assert (MQ1 : mag q1 204) by (apply mag_rnd'; [exact (mag_div _ _ _ _ S13 M12)|lia]). assert (MQ2 : mag q2 204) by (apply mag_rnd'; [exact (mag_div _ _ _ _ S23 M12)|lia]).
  fin 3. fold b'. assert (MB : mag (rnd (rnd (1 - q2) * b')) 309) by (unfold b'; mg). rewrite (div_fin _ _ 309 (-101)) by (assumption || lia). fold q3.
  assert (MQ3 : mag q3 410) by (apply mag_rnd'; [exact (mag_div _ _ _ _ MB M13)|lia]). fin 2. fold c'. assert (MC : mag c' 412) by (unfold c'; mg). cbv zeta.
  fin 1. fold t'. assert (MT : mag t' 104) by (unfold t'; mg). rewrite (div_fin _ _ 104 (-52)) by (assumption || lia). fold r'.
  assert (MR : mag r' 156) by (apply mag_rnd'; [exact (mag_div _ _ _ _ MT SL)|lia]).
  fin 9. fold rc hx hy. fold cx cy. set (r := if backward then - r' else r').
  assert (RL : bpow radix2 (-110) <= Rabs r) by (unfold r; destruct backward; [rewrite Rabs_Ropp|]; apply (r_low N)).
  assert (MRR : mag r 156) by (unfold r; destruct backward; [apply mag_opp|]; exact MR).
  rewrite (div_fin _ _ 1 (-110)) by (assumption || lia). fin 2.
  destruct (gl_atan2 _ _ (sl_good _ _ HS) s' c' (rnd_double _) (rnd_double _) (or_intror N)) as (_ & al & AO & AE). set (a' := at2 s' c') in *.
  assert (MA : mag a' 2) by (assert (W := at2_size L at2 HS s' c' (rnd_double _) (rnd_double _)); unfold mag; change (bpow radix2 2) with 4; fold a' in W; lra).
  fin 1.
  assert (AL : bpow radix2 (-470) <= Rabs al).
  { destruct AO as (_ & _ & AS). set (rho := sqrt (c' * c' + s' * s')) in *. assert (R0 : 0 <= rho) by apply sqrt_pos.
    assert (RT : rho <= bpow radix2 414).
    { apply Rle_trans with (Rabs c' + Rabs s').
      - assert (CA := Rabs_pos c'). assert (SA := Rabs_pos s'). apply Rsqr_incr_0_var; [|lra]. unfold Rsqr. unfold rho. rewrite sqrt_sqrt by (generalize (Rle_0_sqr c') (Rle_0_sqr s'); unfold Rsqr; lra).
        replace (c' * c') with (Rabs c' * Rabs c') by (symmetry; apply Rsqr_abs). replace (s' * s') with (Rabs s' * Rabs s') by (symmetry; apply Rsqr_abs).
        assert (0 <= Rabs c' * Rabs s') by (apply Rmult_le_pos; lra). lra.
      - unfold mag in MC, MS. assert (bpow radix2 1 <= bpow radix2 412) by (apply bpow_le; lia). change 414%Z with (2 + 412)%Z. rewrite bpow_plus. change (bpow radix2 2) with 4. assert (X := bpow_gt_0 radix2 412). lra. }
    assert (SI := sin_le al). assert (E : Rabs s' = rho * Rabs (sin al)) by (rewrite <- AS, Rabs_mult, (Rabs_pos_eq rho) by lra; reflexivity).
    assert (B : rho * Rabs (sin al) <= bpow radix2 414 * Rabs al) by (apply Rmult_le_compat; auto using Rabs_pos).
    apply Rmult_le_reg_l with (bpow radix2 414); [apply bpow_gt_0|]. rewrite <- bpow_plus. apply Rle_trans with (bpow radix2 (-52)); [apply bpow_le; lia|lra]. }
  assert (AL2 : bpow radix2 (-471) <= Rabs a').
  { assert (W := Rabs_triang_inv al (al - a')). replace (al - (al - a')) with a' in W by ring. rewrite (Rabs_minus_sym al a') in W.
    assert (2 * uround * Rabs al <= / 1000 * Rabs al) by (apply Rmult_le_compat_r; [apply Rabs_pos|lra]).
    assert (LB : least <= / 4 * bpow radix2 (-470)) by (change (/ 4) with (bpow radix2 (-2)); unfold least; rewrite <- bpow_plus; apply bpow_le; lia).
    change (-471)%Z with (-1 + -470)%Z. rewrite bpow_plus. change (bpow radix2 (-1)) with (/ 2). assert (X := bpow_gt_0 radix2 (-470)). lra. }
  assert (keep : forall x k, (-600 <= k)%Z -> bpow radix2 k <= Rabs x -> bpow radix2 (k - 1) <= Rabs (rnd x)).
  { intros x k K B. assert (B7 : bpow radix2 (-700) <= Rabs x) by (apply Rle_trans with (bpow radix2 k); [apply bpow_le; lia|exact B]). assert (E := rnd_rel _ B7). assert (W := Rabs_triang_inv x (x - rnd x)). replace (x - (x - rnd x)) with (rnd x) in W by ring. rewrite (Rabs_minus_sym x) in W.
    assert (101 / 100 * uround * Rabs x <= / 2 * Rabs x) by (apply Rmult_le_compat_r; [apply Rabs_pos|lra]).
    replace (k - 1)%Z with (-1 + k)%Z by lia. rewrite bpow_plus. change (bpow radix2 (-1)) with (/ 2). lra. }
  assert (L2 : bpow radix2 (-111) <= Rabs (rnd (r * 2))).
  { apply (keep _ (-110)%Z); [lia|]. rewrite Rabs_mult, (Rabs_pos_eq 2) by lra. assert (X := Rabs_pos r). lra. }
  assert (L3 : bpow radix2 (-583) <= Rabs (rnd (rnd (r * 2) * a'))).
  { apply (keep _ (-582)%Z); [lia|]. rewrite Rabs_mult. change (-582)%Z with (-111 + -471)%Z. rewrite bpow_plus. apply Rmult_le_compat; auto using bpow_ge_0. }
  rewrite (div_fin _ _ 101 (-583)) by (mg || assumption || lia). clear L3 L2 keep AL2 AE. assert (MCX : mag cx 572) by (unfold cx, rc, hx; mg). assert (MCY : mag cy 572) by (unfold cy, rc, hy; mg). fin 4.
  assert (MHP : mag dHalfPi 1) by (unfold mag; destruct dPi_num as (Q1 & _ & _ & _ & Q2); rewrite Q2, Rabs_pos_eq by lra; change (bpow radix2 1) with 2; lra).
  match goal with |- context [at2 ?p ?q + dHalfPi] => assert (MP : mag (at2 p q) 2) by (assert (W := at2_size L at2 HS p q (rnd_double _) (rnd_double _)); unfold mag; change (bpow radix2 2) with 4; lra) end.
  fin 1. eexists. reflexivity.
Qed.
End Hits.
