(** Proofs about the crossing of two lines in double precision. *)
From Coq Require Import Reals ZArith List Lra Lia Psatz.
From Flocq Require Import Core.
From Verif Require Import Num Vec Isect FloatWrap PointFloat SpecRound RoundFacts PointFloatFacts BetheFloatFacts LineFloat SpecLineFloat.
From Verif Require FloatWrapFacts.
Import ListNotations.
Open Scope R_scope.

Lemma one_mul a n : Rabs n <= 1 -> Rabs (a * n) <= Rabs a.
Proof. intros N. rewrite Rabs_mult. assert (P := Rabs_pos a). assert (Rabs a * Rabs n <= Rabs a * 1) by (apply Rmult_le_compat_l; lra). lra. Qed.

Lemma unit_mag n : Rabs n <= 1 -> mag n 0.
Proof. unfold mag. change (bpow radix2 0) with 1. auto. Qed.

(** difference of two rounded products *)
Lemma diff_ok a b c d k : mag (a * b) k -> mag (c * d) k -> (-1000 <= k <= 900)%Z ->
  rd (a * b) = Ok (rnd (a * b)) /\ rd (c * d) = Ok (rnd (c * d)) /\ rd (rnd (a * b) - rnd (c * d)) = Ok (rnd (rnd (a * b) - rnd (c * d)))
  /\ mag (rnd (rnd (a * b) - rnd (c * d))) (k + 1)
  /\ Rabs (rnd (rnd (a * b) - rnd (c * d)) - (a * b - c * d)) <= 2002 / 1000 * (uround * (Rabs (a * b) + Rabs (c * d))) + 4 * least.
Proof.
  intros A B K. assert (Ma := mag_rnd _ _ (proj1 K) A). assert (Mb := mag_rnd _ _ (proj1 K) B). assert (M := mag_sub _ _ _ Ma Mb).
  split; [apply (mag_rd _ k); [lia|exact A]|]. split; [apply (mag_rd _ k); [lia|exact B]|]. split; [apply (mag_rd _ (k + 1)); [lia|exact M]|].
  split; [apply mag_rnd; [lia|exact M]|].
  assert (W := rnd_step _ _ _ (sub_err _ _ _ _ _ _ (rnd_err (a * b)) (rnd_err (c * d)))).
  assert (T : Rabs (a * b - c * d) <= Rabs (a * b) + Rabs (c * d)) by (unfold Rminus; eapply Rle_trans; [apply Rabs_triang|]; rewrite Rabs_Ropp; lra).
  assert (U := u_fine). assert (L0 := least_pos). assert (P1 := Rabs_pos (a * b)). assert (P2 := Rabs_pos (c * d)).
  assert (uround * Rabs (a * b - c * d) <= uround * (Rabs (a * b) + Rabs (c * d))) by (apply Rmult_le_compat_l; lra).
  assert (0 <= uround * (Rabs (a * b) + Rabs (c * d))) by (apply Rmult_le_pos; lra). lra.
Qed.

Lemma prod_le_1 a b : Rabs a <= 1 -> Rabs b <= 1 -> Rabs (a * b) <= 1.
Proof. intros A B. eapply Rle_trans; [apply (one_mul a b B)|exact A]. Qed.

Lemma disc_ok l1 l2 : plain_line l1 -> plain_line l2 -> exists d, lineDiscriminant_d l1 l2 = Ok d /\ Rabs (d - turn l1 l2) <= 41 / 10 * uround /\ Rabs (turn l1 l2) <= 2.
Proof.
  intros (A1 & B1 & _) (A2 & B2 & _).
  assert (P1 := prod_le_1 _ _ A1 B2). assert (P2 := prod_le_1 _ _ A2 B1).
  destruct (diff_ok (l_n0 l1) (l_n1 l2) (l_n0 l2) (l_n1 l1) 0 (unit_mag _ P1) (unit_mag _ P2) ltac:(lia)) as (R1 & R2 & R3 & _ & E).
  eexists. split; [unfold lineDiscriminant_d; rewrite R1; cbn [bind]; rewrite R2; cbn [bind]; exact R3|].
  fold (turn l1 l2) in E. assert (U := u_fine). assert (LU := least_u). assert (L0 := least_pos). split.
  - assert (uround * (Rabs (l_n0 l1 * l_n1 l2) + Rabs (l_n0 l2 * l_n1 l1)) <= uround * 2) by (apply Rmult_le_compat_l; lra). lra.
  - unfold turn, Rminus. eapply Rle_trans; [apply Rabs_triang|]. rewrite Rabs_Ropp. lra.
Qed.

Lemma reach_least l1 l2 : least <= / 1000 * (uround * reach l1 l2) /\ 0 < reach l1 l2.
Proof.
  assert (P1 := Rabs_pos (l_d l1)). assert (P2 := Rabs_pos (l_d l2)). assert (G := bpow_gt_0 radix2 (-900)). split; [|unfold reach; lra].
  apply Rle_trans with (bpow radix2 (-10) * (bpow radix2 (-53) * bpow radix2 (-900))).
  - unfold least. rewrite <- !bpow_plus. apply bpow_le. lia.
  - change (bpow radix2 (-10)) with (/ 1024). change (bpow radix2 (-53)) with uround. assert (U := u_fine).
    assert (uround * bpow radix2 (-900) <= uround * reach l1 l2) by (apply Rmult_le_compat_l; [lra|unfold reach; lra]).
    assert (0 < uround * bpow radix2 (-900)) by (apply Rmult_lt_0_compat; lra). lra.
Qed.

(** one coordinate *)
Lemma coord_ok a b c d S dd D : mag (a * b) 200 -> mag (c * d) 200 -> Rabs (a * b) + Rabs (c * d) <= S -> least <= / 1000 * (uround * S) ->
  Rabs (dd - D) <= 41 / 10 * uround -> 9 / 10000000000 <= D <= 2 ->
  exists n x, rd (a * b) = Ok (rnd (a * b)) /\ rd (c * d) = Ok (rnd (c * d)) /\ rd (rnd (a * b) - rnd (c * d)) = Ok n /\ rd_div n dd = Ok x
  /\ Rabs (x - (a * b - c * d) / D) <= 13 * uround * S / (D * D).
Proof.
  intros M1 M2 HS LS ED HD. destruct (diff_ok a b c d 200 M1 M2 ltac:(lia)) as (R1 & R2 & R3 & Mn & E).
  set (n := rnd (rnd (a * b) - rnd (c * d))) in *. set (N := a * b - c * d) in *.
  assert (U := u_fine). assert (L0 := least_pos). assert (US : uround <= / 1000000000000000) by (unfold uround; lra).
  assert (S0 : 0 <= S) by (assert (P1 := Rabs_pos (a * b)); assert (P2 := Rabs_pos (c * d)); lra).
  assert (US0 : 0 <= uround * S) by (apply Rmult_le_pos; lra).
  assert (EN : Rabs (n - N) <= 201 / 100 * (uround * S)).
  { assert (uround * (Rabs (a * b) + Rabs (c * d)) <= uround * S) by (apply Rmult_le_compat_l; lra). lra. }
  assert (NS : Rabs N <= S) by (unfold N, Rminus; eapply Rle_trans; [apply Rabs_triang|]; rewrite Rabs_Ropp; exact HS).
  assert (DD : 999 / 1000 * D <= dd <= 1001 / 1000 * D) by (apply Rabs_le_inv in ED; lra).
  assert (D0 : 0 < D) by lra. assert (dd0 : 0 < dd) by lra.
  assert (Q : Rabs (n / dd - N / D) <= 82 / 10 * (uround * S) / (D * D)).
  { replace (n / dd - N / D) with (((n - N) * D - N * (dd - D)) * / (dd * D)) by (field; lra). rewrite Rabs_mult, Rabs_inv.
    rewrite (Rabs_pos_eq (dd * D)) by (apply Rmult_le_pos; lra).
    assert (T : Rabs ((n - N) * D - N * (dd - D)) <= 812 / 100 * (uround * S)).
    { unfold Rminus at 1. eapply Rle_trans; [apply Rabs_triang|]. rewrite Rabs_Ropp, !Rabs_mult, (Rabs_pos_eq D) by lra.
      assert (Rabs (n - N) * D <= 201 / 100 * (uround * S) * 2) by (apply Rmult_le_compat; try apply Rabs_pos; lra).
      assert (Rabs N * Rabs (dd - D) <= S * (41 / 10 * uround)) by (apply Rmult_le_compat; try apply Rabs_pos; lra). lra. }
    apply Rmult_le_reg_r with (dd * D); [apply Rmult_lt_0_compat; lra|]. rewrite Rmult_assoc, Rinv_l by (apply Rgt_not_eq, Rmult_lt_0_compat; lra). rewrite Rmult_1_r.
    eapply Rle_trans; [exact T|]. replace (82 / 10 * (uround * S) / (D * D) * (dd * D)) with (82 / 10 * (uround * S) * (dd * / D)) by (field; lra).
    assert (999 / 1000 <= dd * / D) by (apply Rmult_le_reg_r with D; [exact D0|]; rewrite Rmult_assoc, Rinv_l by lra; lra).
    assert (82 / 10 * (uround * S) * (999 / 1000) <= 82 / 10 * (uround * S) * (dd * / D)) by (apply Rmult_le_compat_l; lra). lra. }
  assert (MQ : mag (n / dd) 235).
  { change 235%Z with (201 + 34)%Z. unfold Rdiv. apply mag_mul; [exact Mn|]. unfold mag. rewrite Rabs_inv, Rabs_pos_eq by lra.
    change (bpow radix2 34) with 17179869184. rewrite <- (Rinv_inv 17179869184). apply Rinv_le_contravar; lra. }
  exists n, (rnd (n / dd)). split; [exact R1|]. split; [exact R2|]. split; [exact R3|].
  split; [unfold rd_div; destruct (Req_EM_T dd 0); [lra|]; apply (mag_rd _ 235); [lia|exact MQ]|].
  eapply Rle_trans; [apply (rnd_step _ _ _ Q)|].
  assert (DI : 0 < / (D * D)) by (apply Rinv_0_lt_compat, Rmult_lt_0_compat; lra).
  assert (ND : Rabs (N / D) <= 2 * S * / (D * D)).
  { unfold Rdiv. rewrite Rabs_mult, Rabs_inv, (Rabs_pos_eq D) by lra. replace (/ D) with (D * / (D * D)) by (field; lra). rewrite <- Rmult_assoc.
    apply Rmult_le_compat_r; [lra|]. replace (2 * S) with (S * 2) by ring. apply Rmult_le_compat; try apply Rabs_pos; lra. }
  assert (uround * Rabs (N / D) <= uround * (2 * S * / (D * D))) by (apply Rmult_le_compat_l; lra).
  assert (I4 : / 4 <= / (D * D)) by (apply Rinv_le_contravar; [apply Rmult_lt_0_compat; lra|nra]).
  set (w := uround * S) in *. assert (LW : least <= / 100 * (w * / (D * D))).
  { assert (w * / 4 <= w * / (D * D)) by (apply Rmult_le_compat_l; lra). lra. }
  assert (W0 : 0 <= w * / (D * D)) by (apply Rmult_le_pos; lra).
  unfold Rdiv in *. replace (13 * uround * S * / (D * D)) with (13 * (w * / (D * D))) by (unfold w; ring).
  replace (uround * (2 * S * / (D * D))) with (2 * (w * / (D * D))) in * by (unfold w; ring).
  replace (82 * / 10 * w * / (D * D)) with (82 * / 10 * (w * / (D * D))) by ring. lra.
Qed.
