(** Proofs about the crossing of two circles in double precision. *)
From Coq Require Import Reals ZArith List Bool Lra Lia Psatz.
From Flocq Require Import Core.
From Verif Require Import Num Vec Isect FloatWrap PointFloat PlaneFloat SpecRound RoundFacts PointFloatFacts BetheFloatFacts CircFloat SpecCircFloat.
Import ListNotations.
Open Scope R_scope.

Lemma line_no_throw x0 y0 r nx ny d : intersectCircleStraightLine_d x0 y0 r nx ny d <> Throw.
Proof.
  assert (N : forall x, rd x <> Throw) by (intros x; unfold rd; destruct (Rlt_dec _ _); discriminate).
  assert (ND : forall x y, rd_div x y <> Throw) by (intros x y; unfold rd_div; destruct (Req_EM_T _ _); [discriminate|apply N]).
  unfold intersectCircleStraightLine_d.
  repeat match goal with
    | |- bind (rd ?x) _ <> _ => let e := fresh in destruct (rd x) eqn:e; cbn [bind]; try discriminate; try (exfalso; exact (N _ e))
    | |- bind (rd_div ?x ?y) _ <> _ => let e := fresh in destruct (rd_div x y) eqn:e; cbn [bind]; try discriminate; try (exfalso; exact (ND _ _ e))
    | |- (if ?b then _ else _) <> _ => destruct b; try discriminate
    | |- (let DISC := _ in _) <> _ => cbv zeta
  end; try discriminate.
Qed.

(** adding one rounded square to a sum *)
Lemma step_ok s' s e x (sub : bool) k : mag s' k -> mag x 100 -> (200 <= k <= 900)%Z -> Rabs (s' - s) <= e ->
  let t := if sub then rnd (s' - rnd (x * x)) else rnd (s' + rnd (x * x)) in
  let T := if sub then s - x * x else s + x * x in
  rd (x * x) = Ok (rnd (x * x)) /\ rd (if sub then s' - rnd (x * x) else s' + rnd (x * x)) = Ok t /\ mag t (k + 1)
  /\ Rabs (t - T) <= 1001 / 1000 * (e + uround * (x * x) + least) + uround * Rabs T + least.
Proof.
  intros MS MX K E t T. assert (QX : 0 <= x * x) by apply Rle_0_sqr.
  assert (M2 : mag (x * x) 200) by (change 200%Z with (100 + 100)%Z; apply mag_mul; exact MX).
  assert (M2' : mag (rnd (x * x)) k) by (apply (mag_le _ 200); [apply mag_rnd; [lia|exact M2]|lia]).
  assert (R := rnd_err (x * x)). rewrite (Rabs_pos_eq (x * x)) in R by exact QX.
  split; [apply (mag_rd _ 200); [lia|exact M2]|]. unfold t, T. destruct sub.
  - assert (M := mag_sub _ _ _ MS M2'). split; [apply (mag_rd _ (k + 1)); [lia|exact M]|]. split; [apply mag_rnd; [lia|exact M]|].
    eapply Rle_trans; [apply (rnd_step _ _ _ (sub_err _ _ _ _ _ _ E R))|]. lra.
  - assert (M := mag_add _ _ _ MS M2'). split; [apply (mag_rd _ (k + 1)); [lia|exact M]|]. split; [apply mag_rnd; [lia|exact M]|].
    eapply Rle_trans; [apply (rnd_step _ _ _ (add_err _ _ _ _ _ _ E R))|]. lra.
Qed.

Lemma dist_ok c1 c2 : plain_circle c1 -> plain_circle c2 -> exists d, radicalDistance_d c1 c2 = Ok d /\ Rabs (d - power_difference c1 c2) <= 62 / 10 * (uround * scale c1 c2).
Proof.
  intros (X1 & Y1 & R1) (X2 & Y2 & R2). assert (U := u_fine). assert (L0 := least_pos).
  set (q1 := c_r c1 * c_r c1). set (q2 := c_r c2 * c_r c2). set (p1 := c_x c1 * c_x c1). set (p2 := c_x c2 * c_x c2). set (w1 := c_y c1 * c_y c1). set (w2 := c_y c2 * c_y c2).
  assert (Q1 : 0 <= q1) by apply Rle_0_sqr. assert (Q2 : 0 <= q2) by apply Rle_0_sqr. assert (P1 : 0 <= p1) by apply Rle_0_sqr.
  assert (P2 : 0 <= p2) by apply Rle_0_sqr. assert (W1 : 0 <= w1) by apply Rle_0_sqr. assert (W2 : 0 <= w2) by apply Rle_0_sqr.
  assert (Mq : mag q1 200) by (change 200%Z with (100 + 100)%Z; apply mag_mul; exact R1).
  assert (Mq' : mag (rnd q1) 200) by (apply mag_rnd; [lia|exact Mq]).
  assert (E0 := rnd_err q1). rewrite (Rabs_pos_eq q1) in E0 by exact Q1.
  destruct (step_ok _ _ _ (c_r c2) true 200 Mq' R2 ltac:(lia) E0) as (A1 & A2 & M1 & E1). cbv iota zeta in A2, M1, E1. fold q2 in A1, A2, M1, E1. set (s1 := rnd (rnd q1 - rnd q2)) in *.
  destruct (step_ok _ _ _ (c_x c1) true (200 + 1) M1 X1 ltac:(lia) E1) as (A3 & A4 & M2 & E2). cbv iota zeta in A4, M2, E2. fold p1 in A3, A4, M2, E2. set (s2 := rnd (s1 - rnd p1)) in *.
  destruct (step_ok _ _ _ (c_x c2) false (200 + 1 + 1) M2 X2 ltac:(lia) E2) as (A5 & A6 & M3 & E3). cbv iota zeta in A6, M3, E3. fold p2 in A5, A6, M3, E3. set (s3 := rnd (s2 + rnd p2)) in *.
  destruct (step_ok _ _ _ (c_y c1) true (200 + 1 + 1 + 1) M3 Y1 ltac:(lia) E3) as (A7 & A8 & M4 & E4). cbv iota zeta in A8, M4, E4. fold w1 in A7, A8, M4, E4. set (s4 := rnd (s3 - rnd w1)) in *.
  destruct (step_ok _ _ _ (c_y c2) false (200 + 1 + 1 + 1 + 1) M4 Y2 ltac:(lia) E4) as (A9 & A10 & M5 & E5). cbv iota zeta in A10, M5, E5. fold w2 in A9, A10, M5, E5. set (s5 := rnd (s4 + rnd w2)) in *.
  exists s5. split.
  - unfold radicalDistance_d. fold q1 q2 p1 p2 w1 w2. rewrite (mag_rd q1 200 ltac:(lia) Mq); cbn [bind]. rewrite A1; cbn [bind]. rewrite A2; cbn [bind]. rewrite A3; cbn [bind]. rewrite A4; cbn [bind].
    rewrite A5; cbn [bind]. rewrite A6; cbn [bind]. rewrite A7; cbn [bind]. rewrite A8; cbn [bind]. rewrite A9; cbn [bind]. exact A10.
  - assert (PD : power_difference c1 c2 = q1 - q2 - p1 + p2 - w1 + w2) by (unfold power_difference, q1, q2, p1, p2, w1, w2; ring).
    set (G := bpow radix2 (-900)). assert (G0 : 0 < G) by apply bpow_gt_0.
    assert (SC : scale c1 c2 = q1 + p1 + w1 + q2 + p2 + w2 + G) by (unfold scale, G, q1, q2, p1, p2, w1, w2; ring).
    rewrite PD, SC. set (Z := q1 + p1 + w1 + q2 + p2 + w2 + G).
    assert (LZ : least <= / 1000 * (uround * Z)).
    { apply Rle_trans with (bpow radix2 (-10) * (bpow radix2 (-53) * G)).
      - unfold least, G. rewrite <- !bpow_plus. apply bpow_le. lia.
      - change (bpow radix2 (-10)) with (/ 1024). change (bpow radix2 (-53)) with uround.
        assert (uround * G <= uround * Z) by (apply Rmult_le_compat_l; [lra|unfold Z; lra]). assert (0 < uround * G) by (apply Rmult_lt_0_compat; lra). lra. }
    assert (B : forall T, - Z <= T <= Z -> uround * Rabs T <= uround * Z) by (intros T HT; apply Rmult_le_compat_l; [lra|apply Rabs_le; exact HT]).
    assert (B1 := B (q1 - q2) ltac:(unfold Z; lra)). assert (B2 := B (q1 - q2 - p1) ltac:(unfold Z; lra)). assert (B3 := B (q1 - q2 - p1 + p2) ltac:(unfold Z; lra)).
    assert (B4 := B (q1 - q2 - p1 + p2 - w1) ltac:(unfold Z; lra)). assert (B5 := B (q1 - q2 - p1 + p2 - w1 + w2) ltac:(unfold Z; lra)).
    assert (UZ : uround * Z = uround * q1 + uround * p1 + uround * w1 + uround * q2 + uround * p2 + uround * w2 + uround * G) by (unfold Z; ring).
    assert (U1 : 0 <= uround * q1) by (apply Rmult_le_pos; lra). assert (U2 : 0 <= uround * q2) by (apply Rmult_le_pos; lra).
    assert (U3 : 0 <= uround * p1) by (apply Rmult_le_pos; lra). assert (U4 : 0 <= uround * p2) by (apply Rmult_le_pos; lra).
    assert (U5 : 0 <= uround * w1) by (apply Rmult_le_pos; lra). assert (U6 : 0 <= uround * w2) by (apply Rmult_le_pos; lra).
    assert (U7 : 0 <= uround * G) by (apply Rmult_le_pos; lra).
    clear - B1 B2 B3 B4 B5 UZ U1 U2 U3 U4 U5 U6 U7 E5 LZ L0. clearbody s5 Z. lra.
Qed.

(** the normal of the common line *)
Lemma normal_ok a b : mag a 100 -> mag b 100 -> exists d n, rd (b - a) = Ok d /\ rd (2 * d) = Ok n /\ Rabs (n - 2 * (b - a)) <= 5 * uround * Rabs (b - a) + 5 * least.
Proof.
  intros A B. assert (M := mag_sub _ _ _ B A). assert (M' : mag (rnd (b - a)) (100 + 1)) by (apply mag_rnd; [lia|exact M]).
  assert (MT : mag (2 * rnd (b - a)) (1 + (100 + 1))) by (apply mag_mul; [unfold mag; change (bpow radix2 1) with 2; rewrite Rabs_pos_eq; lra|exact M']).
  exists (rnd (b - a)), (rnd (2 * rnd (b - a))). split; [apply (mag_rd _ (100 + 1)); [lia|exact M]|]. split; [apply (mag_rd _ (1 + (100 + 1))); [lia|exact MT]|].
  assert (E := rnd_err (b - a)). assert (F : Rabs (2 * rnd (b - a) - 2 * (b - a)) <= 2 * (uround * Rabs (b - a) + least)).
  { replace (2 * rnd (b - a) - 2 * (b - a)) with (2 * (rnd (b - a) - (b - a))) by ring. rewrite Rabs_mult, (Rabs_pos_eq 2) by lra. lra. }
  assert (W := rnd_step _ _ _ F). rewrite (Rabs_mult 2), (Rabs_pos_eq 2) in W by lra.
  assert (U := u_fine). assert (L0 := least_pos). assert (0 <= uround * Rabs (b - a)) by (apply Rmult_le_pos; [lra|apply Rabs_pos]). lra.
Qed.

Lemma tol_ok : Rabs (rnd (/ 1000000000000) - / 1000000000000) <= / 1000000000000000.
Proof.
  assert (E := rnd_err (/ 1000000000000)). rewrite (Rabs_pos_eq (/ 1000000000000)) in E by lra. assert (U := u_fine). assert (F := least_fine).
  eapply Rle_trans; [exact E|]. lra.
Qed.

(** the result, once the numbers of the line are known *)
Lemma circ_split c1 c2 : plain_circle c1 -> plain_circle c2 ->
  exists nx ny d, Rabs (d - power_difference c1 c2) <= 62 / 10 * (uround * scale c1 c2)
  /\ Rabs (nx - 2 * (c_x c2 - c_x c1)) <= 5 * uround * Rabs (c_x c2 - c_x c1) + 5 * least
  /\ Rabs (ny - 2 * (c_y c2 - c_y c1)) <= 5 * uround * Rabs (c_y c2 - c_y c1) + 5 * least
  /\ intersectCircleCircle_d c1 c2 =
    (if Rlt_dec d 0 then Throw
     else if andb (if Rlt_dec (Rabs nx) (rnd (/ 1000000000000)) then true else false)
                  (if Rlt_dec (Rabs ny) (rnd (/ 1000000000000)) then true else false) then Throw
     else intersectCircleStraightLine_d (c_x c1) (c_y c1) (c_r c1) nx ny d).
Proof.
  intros P1 P2. destruct (dist_ok _ _ P1 P2) as (d & D & ED). destruct P1 as (X1 & Y1 & R1). destruct P2 as (X2 & Y2 & R2).
  destruct (normal_ok _ _ X1 X2) as (dx & nx & A1 & A2 & A3). destruct (normal_ok _ _ Y1 Y2) as (dy & ny & B1 & B2 & B3).
  exists nx, ny, d. split; [exact ED|]. split; [exact A3|]. split; [exact B3|].
  unfold intersectCircleCircle_d. rewrite A1; cbn [bind]. rewrite A2; cbn [bind]. rewrite B1; cbn [bind]. rewrite B2; cbn [bind]. rewrite D; cbn [bind]. reflexivity.
Qed.

Lemma small_n n a : Rabs (n - 2 * a) <= 5 * uround * Rabs a + 5 * least -> Rabs a <= 99 / 200 * / 1000000000000 -> Rabs n < rnd (/ 1000000000000).
Proof.
  intros E A. assert (T := tol_ok). assert (U := u_fine). assert (F := least_fine). apply Rabs_le_inv in T.
  assert (Q : uround * Rabs a <= / 1000000000000000 * (99 / 200 * / 1000000000000)) by (apply Rmult_le_compat; [lra|apply Rabs_pos|lra|exact A]).
  assert (I := Rabs_triang (n - 2 * a) (2 * a)). replace (n - 2 * a + 2 * a) with n in I by ring. rewrite (Rabs_mult 2), (Rabs_pos_eq 2) in I by lra. lra.
Qed.

Lemma large_n n a : Rabs (n - 2 * a) <= 5 * uround * Rabs a + 5 * least -> 101 / 200 * / 1000000000000 <= Rabs a -> ~ Rabs n < rnd (/ 1000000000000).
Proof.
  intros E A H. assert (T := tol_ok). assert (U := u_fine). assert (F := least_fine). apply Rabs_le_inv in T.
  assert (Q : uround * Rabs a <= / 1000000000000000 * Rabs a) by (apply Rmult_le_compat_r; [apply Rabs_pos|lra]).
  assert (I := Rabs_triang (2 * a - n) n). replace (2 * a - n + n) with (2 * a) in I by ring. rewrite (Rabs_minus_sym (2 * a)), (Rabs_mult 2), (Rabs_pos_eq 2) in I by lra. lra.
Qed.
