(** C102: the crossing of two straight lines in double precision. *)
From Coq Require Import Reals ZArith List Lra Lia Psatz.
From Flocq Require Import Core.
From Verif Require Import Num Vec Isect FloatWrap PointFloat SpecRound RoundFacts PointFloatFacts BetheFloatFacts LineFloat SpecLineFloat LineFloatFacts.
From Verif Require FloatWrapFacts.
Import ListNotations.
Open Scope R_scope.

(** There is always an answer: nothing, or one point that is close to every common point. *)
Theorem C102_crossing l1 l2 : plain_line l1 -> plain_line l2 ->
  intersectStraightLineStraightLine_d l1 l2 = Ok []
  \/ exists x y, intersectStraightLineStraightLine_d l1 l2 = Ok [(x, y)]
     /\ forall X Y, on_the_line l1 X Y -> on_the_line l2 X Y ->
        Rabs (x - X) <= 13 * uround * reach l1 l2 / (turn l1 l2) ^ 2 /\ Rabs (y - Y) <= 13 * uround * reach l1 l2 / (turn l1 l2) ^ 2.
Proof.
  intros H1 H2. destruct (disc_ok l1 l2 H1 H2) as (d & Ed & E & T2). unfold intersectStraightLineStraightLine_d. rewrite Ed. cbn [bind].
  destruct (Rlt_dec d (rnd (1 / 1000000000))) as [_|G]; [left; reflexivity|]. apply Rnot_lt_le in G.
  assert (TH := rnd_err (1 / 1000000000)). rewrite (Rabs_pos_eq (1 / 1000000000)) in TH by lra.
  assert (U := u_fine). assert (US : uround <= / 1000000000000000) by (unfold uround; lra). assert (LU := least_u). assert (L0 := least_pos).
  assert (D : 9 / 10000000000 <= turn l1 l2 <= 2) by (apply Rabs_le_inv in TH, E, T2; lra).
  destruct (reach_least l1 l2) as (LR & R0). destruct H1 as (A1 & B1 & C1). destruct H2 as (A2 & B2 & C2).
  assert (G9 := bpow_gt_0 radix2 (-900)).
  assert (M : forall a n, Rabs a <= bpow radix2 200 -> Rabs n <= 1 -> mag (a * n) 200) by (intros a n A N; unfold mag; assert (K := one_mul a n N); lra).
  assert (S1 : Rabs (l_d l1 * l_n1 l2) + Rabs (l_n1 l1 * l_d l2) <= reach l1 l2).
  { assert (K := one_mul (l_d l1) _ B2). assert (K2 := one_mul (l_d l2) _ B1). rewrite (Rmult_comm (l_n1 l1)). unfold reach. lra. }
  assert (S2 : Rabs (l_d l2 * l_n0 l1) + Rabs (l_d l1 * l_n0 l2) <= reach l1 l2).
  { assert (K := one_mul (l_d l1) _ A2). assert (K2 := one_mul (l_d l2) _ A1). unfold reach. lra. }
  destruct (coord_ok (l_d l1) (l_n1 l2) (l_n1 l1) (l_d l2) _ d (turn l1 l2) (M _ _ C1 B2) ltac:(rewrite Rmult_comm; exact (M _ _ C2 B1)) S1 LR E D) as (n & x & Q1 & Q2 & Q3 & Q4 & EX).
  destruct (coord_ok (l_d l2) (l_n0 l1) (l_d l1) (l_n0 l2) _ d (turn l1 l2) (M _ _ C2 A1) (M _ _ C1 A2) S2 LR E D) as (k & y & W1 & W2 & W3 & W4 & EY).
  right. exists x, y. split.
  - rewrite Q1; cbn [bind]. rewrite Q2; cbn [bind]. rewrite Q3; cbn [bind]. rewrite Q4; cbn [bind].
    rewrite W1; cbn [bind]. rewrite W2; cbn [bind]. rewrite W3; cbn [bind]. rewrite W4; cbn [bind]. reflexivity.
  - intros X Y P1 P2. unfold on_the_line in P1, P2. replace ((turn l1 l2) ^ 2) with (turn l1 l2 * turn l1 l2) by ring.
    assert (N0 : turn l1 l2 <> 0) by lra. split.
    + replace X with ((l_d l1 * l_n1 l2 - l_n1 l1 * l_d l2) / turn l1 l2); [exact EX|].
      apply Rmult_eq_reg_r with (turn l1 l2); [|exact N0]. unfold Rdiv. rewrite Rmult_assoc, Rinv_l by exact N0. rewrite <- P1, <- P2. unfold turn. ring.
    + replace Y with ((l_d l2 * l_n0 l1 - l_d l1 * l_n0 l2) / turn l1 l2); [exact EY|].
      apply Rmult_eq_reg_r with (turn l1 l2); [|exact N0]. unfold Rdiv. rewrite Rmult_assoc, Rinv_l by exact N0. rewrite <- P1, <- P2. unfold turn. ring.
Qed.

(** Which of the two it is, is decided by the angle, up to rounding. *)
Theorem C102_decision l1 l2 : plain_line l1 -> plain_line l2 ->
  (turn l1 l2 <= / 1000000000 - 5 * uround -> intersectStraightLineStraightLine_d l1 l2 = Ok [])
  /\ (/ 1000000000 + 5 * uround <= turn l1 l2 -> intersectStraightLineStraightLine_d l1 l2 <> Ok []).
Proof.
  intros H1 H2. destruct (disc_ok l1 l2 H1 H2) as (d & Ed & E & T2).
  assert (TH := rnd_err (1 / 1000000000)). rewrite (Rabs_pos_eq (1 / 1000000000)) in TH by lra.
  assert (U := u_fine). assert (LU := least_u). assert (L0 := least_pos). apply Rabs_le_inv in TH, E. split; intros T.
  - unfold intersectStraightLineStraightLine_d. rewrite Ed. cbn [bind]. destruct (Rlt_dec _ _) as [_|G]; [reflexivity|]. apply Rnot_lt_le in G. lra.
  - unfold intersectStraightLineStraightLine_d. rewrite Ed. cbn [bind]. destruct (Rlt_dec _ _) as [G|_]; [lra|].
    repeat match goal with |- context [bind ?e _] => destruct e; cbn [bind]; try discriminate end.
Qed.

(** The order of the lines matters, for all doubles: of the two orders at most one gives a point. *)
Theorem C102_order l1 l2 p r : intersectStraightLineStraightLine_d l1 l2 = Ok (p :: r) -> intersectStraightLineStraightLine_d l2 l1 = Ok [].
Proof.
  unfold intersectStraightLineStraightLine_d at 1. destruct (lineDiscriminant_d l1 l2) as [d| | | |] eqn:Ed; cbn [bind]; try discriminate.
  destruct (Rlt_dec d (rnd (1 / 1000000000))) as [_|G]; [discriminate|]. intros _. apply Rnot_lt_le in G.
  assert (S : lineDiscriminant_d l2 l1 = Ok (- d)).
  { revert Ed. unfold lineDiscriminant_d. destruct (rd (l_n0 l1 * l_n1 l2)) as [a| | | |]; cbn [bind]; try discriminate.
    destruct (rd (l_n0 l2 * l_n1 l1)) as [b| | | |]; cbn [bind]; try discriminate. unfold rd.
    replace (b - a) with (- (a - b)) by ring. rewrite FloatWrapFacts.rnd_opp, Rabs_Ropp. destruct (Rlt_dec _ _); [|discriminate]. intros Q. injection Q as ->. reflexivity. }
  assert (TH := rnd_err (1 / 1000000000)). rewrite (Rabs_pos_eq (1 / 1000000000)) in TH by lra. apply Rabs_le_inv in TH.
  assert (US : 0 < uround <= / 1000000000000000) by (unfold uround; lra). assert (LU := least_u). assert (LF := least_fine).
  assert (T0 : 0 < rnd (1 / 1000000000)) by lra.
  unfold intersectStraightLineStraightLine_d. rewrite S. cbn [bind]. destruct (Rlt_dec _ _) as [_|K]; [reflexivity|]. apply Rnot_lt_le in K. lra.
Qed.
Print Assumptions C102_crossing.
Print Assumptions C102_decision.
Print Assumptions C102_order.

(** ** two perpendicular lines *)
Example C102_perpendicular : exists x y, intersectStraightLineStraightLine_d (Line 1 0 3) (Line 0 1 4) = Ok [(x, y)]
  /\ intersectStraightLineStraightLine_d (Line 0 1 4) (Line 1 0 3) = Ok []
  /\ Rabs (x - 3) <= 92 * uround /\ Rabs (y - 4) <= 92 * uround.
Proof.
  assert (G : 4 <= bpow radix2 200) by (change 4 with (bpow radix2 2); apply bpow_le; lia).
  assert (P1 : plain_line (Line 1 0 3)) by (unfold plain_line; cbn [l_n0 l_n1 l_d]; rewrite Rabs_R1, Rabs_R0, (Rabs_pos_eq 3) by lra; lra).
  assert (P2 : plain_line (Line 0 1 4)) by (unfold plain_line; cbn [l_n0 l_n1 l_d]; rewrite Rabs_R1, Rabs_R0, (Rabs_pos_eq 4) by lra; lra).
  assert (T : turn (Line 1 0 3) (Line 0 1 4) = 1) by (unfold turn; cbn [l_n0 l_n1]; ring).
  assert (U := u_fine).
  destruct (C102_decision _ _ P1 P2) as (_ & N). rewrite T in N.
  destruct (C102_crossing _ _ P1 P2) as [E|(x & y & E & B)]; [exfalso; apply N; [lra|exact E]|].
  exists x, y. split; [exact E|]. split; [exact (C102_order _ _ _ _ E)|].
  destruct (B 3 4) as (X & Y); [unfold on_the_line; cbn [l_n0 l_n1 l_d]; ring|unfold on_the_line; cbn [l_n0 l_n1 l_d]; ring|].
  rewrite T in X, Y. assert (Q : reach (Line 1 0 3) (Line 0 1 4) <= 701 / 100).
  { unfold reach. cbn [l_d]. rewrite (Rabs_pos_eq 3), (Rabs_pos_eq 4) by lra. assert (bpow radix2 (-900) <= bpow radix2 (-10)) by (apply bpow_le; lia). change (bpow radix2 (-10)) with (/ 1024) in *. lra. }
  assert (13 * uround * reach (Line 1 0 3) (Line 0 1 4) <= 13 * uround * (701 / 100)) by (apply Rmult_le_compat_l; lra).
  replace (13 * uround * reach (Line 1 0 3) (Line 0 1 4) / 1 ^ 2) with (13 * uround * reach (Line 1 0 3) (Line 0 1 4)) in X, Y by field. lra.
Qed.
Print Assumptions C102_perpendicular.
