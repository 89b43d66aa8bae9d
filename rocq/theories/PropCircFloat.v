(** C103: when the crossing of two circles throws, in double precision. *)
From Coq Require Import Reals ZArith List Bool Lra Lia.
From Flocq Require Import Core.
From Verif Require Import Num Vec Isect FloatWrap PointFloat PlaneFloat SpecRound RoundFacts PointFloatFacts BetheFloatFacts CircFloat SpecCircFloat CircFloatFacts.
Import ListNotations.
Open Scope R_scope.

(** clearly negative offset: throws, whatever the circles have in common *)
Theorem C103_negative c1 c2 :
  plain_circle c1 -> plain_circle c2 ->
  power_difference c1 c2 < - (7 * (uround * scale c1 c2)) ->
  intersectCircleCircle_d c1 c2 = Throw.
Proof.
  intros P1 P2 H. destruct (circ_split _ _ P1 P2) as (nx & ny & d & D & _ & _ & ->). apply Rabs_le_inv in D.
  assert (U := u_fine). assert (S : 0 <= uround * scale c1 c2).
  { apply Rmult_le_pos; [lra|]. unfold scale. assert (G := bpow_gt_0 radix2 (-900)).
    assert (Z := fun x => pow2_ge_0 x). assert (Z1 := Z (c_r c1)). assert (Z2 := Z (c_x c1)). assert (Z3 := Z (c_y c1)). assert (Z4 := Z (c_r c2)). assert (Z5 := Z (c_x c2)). assert (Z6 := Z (c_y c2)). lra. }
  destruct (Rlt_dec d 0) as [_|N]; [reflexivity|]. exfalso. lra.
Qed.

(** centres that nearly coincide: throws *)
Theorem C103_concentric c1 c2 :
  plain_circle c1 -> plain_circle c2 ->
  Rabs (c_x c2 - c_x c1) <= 99 / 200 * / 1000000000000 ->
  Rabs (c_y c2 - c_y c1) <= 99 / 200 * / 1000000000000 ->
  intersectCircleCircle_d c1 c2 = Throw.
Proof.
  intros P1 P2 HX HY. destruct (circ_split _ _ P1 P2) as (nx & ny & d & _ & X & Y & ->).
  destruct (Rlt_dec d 0); [reflexivity|].
  destruct (Rlt_dec (Rabs nx) _) as [_|N]; [|elim N; exact (small_n _ _ X HX)].
  destruct (Rlt_dec (Rabs ny) _) as [_|N]; [|elim N; exact (small_n _ _ Y HY)]. reflexivity.
Qed.

(** otherwise, outside the margins of rounding: no exception *)
Theorem C103_returns c1 c2 :
  plain_circle c1 -> plain_circle c2 ->
  7 * (uround * scale c1 c2) <= power_difference c1 c2 ->
  101 / 200 * / 1000000000000 <= Rabs (c_x c2 - c_x c1) \/ 101 / 200 * / 1000000000000 <= Rabs (c_y c2 - c_y c1) ->
  intersectCircleCircle_d c1 c2 <> Throw.
Proof.
  intros P1 P2 H HN. destruct (circ_split _ _ P1 P2) as (nx & ny & d & D & X & Y & ->). apply Rabs_le_inv in D.
  assert (U := u_fine). assert (S : 0 <= uround * scale c1 c2).
  { apply Rmult_le_pos; [lra|]. unfold scale. assert (G := bpow_gt_0 radix2 (-900)).
    assert (Z := fun x => pow2_ge_0 x). assert (Z1 := Z (c_r c1)). assert (Z2 := Z (c_x c1)). assert (Z3 := Z (c_y c1)). assert (Z4 := Z (c_r c2)). assert (Z5 := Z (c_x c2)). assert (Z6 := Z (c_y c2)). lra. }
  destruct (Rlt_dec d 0) as [N|_]; [exfalso; lra|].
  destruct (Rlt_dec (Rabs nx) _) as [NX|_]; [destruct (Rlt_dec (Rabs ny) _) as [NY|_]|]; cbn [andb]; try apply line_no_throw.
  exfalso. destruct HN as [HX|HY]; [exact (large_n _ _ X HX NX)|exact (large_n _ _ Y HY NY)].
Qed.

(** hence, outside the margins, exactly one of the two orders throws *)
Theorem C103_one_order c1 c2 :
  plain_circle c1 -> plain_circle c2 ->
  7 * (uround * scale c1 c2) < Rabs (power_difference c1 c2) ->
  101 / 200 * / 1000000000000 <= Rabs (c_x c2 - c_x c1) \/ 101 / 200 * / 1000000000000 <= Rabs (c_y c2 - c_y c1) ->
  intersectCircleCircle_d c1 c2 = Throw <-> intersectCircleCircle_d c2 c1 <> Throw.
Proof.
  intros P1 P2 H HN.
  assert (SC : scale c2 c1 = scale c1 c2) by (unfold scale; ring).
  assert (PD : power_difference c2 c1 = - power_difference c1 c2) by (unfold power_difference; ring).
  destruct (Rle_or_lt 0 (power_difference c1 c2)) as [G|G].
  - rewrite Rabs_pos_eq in H by exact G.
    assert (A := C103_returns _ _ P1 P2 ltac:(lra) HN). assert (B := C103_negative _ _ P2 P1 ltac:(rewrite SC, PD; lra)). split; intros E; [elim (A E)|elim (E B)].
  - rewrite Rabs_left in H by exact G.
    assert (A := C103_negative _ _ P1 P2 ltac:(lra)).
    assert (B := C103_returns _ _ P2 P1 ltac:(rewrite SC, PD; lra) ltac:(rewrite (Rabs_minus_sym (c_x c1)), (Rabs_minus_sym (c_y c1)); exact HN)). split; intros E; [exact B|exact A].
Qed.

Print Assumptions C103_negative.
Print Assumptions C103_one_order.
Print Assumptions C103_concentric.
Print Assumptions C103_returns.

Lemma plain_small x y r : Rabs x <= 1024 -> Rabs y <= 1024 -> Rabs r <= 1024 -> plain_circle (Circ x y r).
Proof.
  intros X Y R. assert (B : 1024 <= bpow radix2 100) by (change 1024 with (bpow radix2 10); apply bpow_le; lia).
  unfold plain_circle. cbn [c_x c_y c_r]. lra.
Qed.

(** Circles about (3,0) with radius 2 and about the origin with radius 2 cross in two points, but
    the call throws in this order and not in the other. *)
Example C103_order :
  intersectCircleCircle_d (Circ 3 0 2) (Circ 0 0 2) = Throw /\ intersectCircleCircle_d (Circ 0 0 2) (Circ 3 0 2) <> Throw.
Proof.
  assert (U := u_fine). assert (G : bpow radix2 (-900) <= 1) by (change 1 with (bpow radix2 0); apply bpow_le; lia). assert (G0 := bpow_gt_0 radix2 (-900)).
  assert (UG : uround * bpow radix2 (-900) <= uround * 1) by (apply Rmult_le_compat_l; lra).
  assert (P : plain_circle (Circ 3 0 2)) by (apply plain_small; rewrite Rabs_pos_eq; lra).
  assert (Q : plain_circle (Circ 0 0 2)) by (apply plain_small; rewrite Rabs_pos_eq; lra).
  split.
  - apply C103_negative; [exact P|exact Q|]. unfold power_difference, scale; cbn [c_x c_y c_r]. lra.
  - apply C103_returns; [exact Q|exact P| |left]; unfold power_difference, scale; cbn [c_x c_y c_r]; [lra|rewrite Rabs_pos_eq; lra].
Qed.
