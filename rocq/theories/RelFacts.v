(** Relative errors of numbers that are not negative, in rounding units. *)
From Coq Require Import Reals ZArith Lra Lia Psatz.
From Flocq Require Import Core.
From Verif Require Import Num Vec FloatWrap PointFloat SpecRound RoundFacts NearFacts PointFloatFacts.
Open Scope R_scope.

Definition rel (k x' x : R) : Prop := 0 <= x /\ Rabs (x' - x) <= uround * k * x.
Definition few (k : R) : Prop := 0 <= k <= 1000000000.

Lemma few_u k : few k -> 0 <= uround * k <= / 1000000.
Proof.
  intros K. unfold few in K. assert (U : 0 < uround <= / 1000000000000000) by (unfold uround; lra). split; [apply Rmult_le_pos; lra|].
  apply Rle_trans with (/ 1000000000000000 * 1000000000); [apply Rmult_le_compat; lra|lra].
Qed.
Lemma r_same x : 0 <= x -> rel 0 x x.
Proof. intros H. split; [exact H|]. rewrite Rminus_diag_eq, Rabs_R0 by reflexivity. lra. Qed.
Lemma r_weak k l x' x : rel k x' x -> k <= l -> rel l x' x.
Proof.
  intros [P D] H. split; [exact P|]. eapply Rle_trans; [exact D|]. apply Rmult_le_compat_r; [exact P|]. apply Rmult_le_compat_l; [unfold uround; lra|exact H].
Qed.
Lemma r_range k x' x : rel k x' x -> few k -> 999999 / 1000000 * x <= x' <= 1000001 / 1000000 * x.
Proof.
  intros [P D] K. apply few_u in K. apply Rabs_le_inv in D. assert (uround * k * x <= / 1000000 * x) by (apply Rmult_le_compat_r; lra). lra.
Qed.
Lemma r_rnd k x' x : rel k x' x -> few k -> usable x -> rel (k + 101 / 100) (rnd x') x.
Proof.
  intros N K [Z|H].
  - subst x. destruct (r_range _ _ _ N K) as [A B]. assert (x' = 0) by lra. subst x'. rewrite rnd_0. apply (r_weak 0); [apply r_same; lra|]. unfold few in K. lra.
  - assert (L := usable_least _ H). assert (R := r_range _ _ _ N K). destruct N as [P D]. split; [exact P|].
    assert (W := rnd_err x'). assert (U := u_small). rewrite (Rabs_pos_eq x') in W by lra.
    replace (rnd x' - x) with ((rnd x' - x') + (x' - x)) by ring. eapply Rle_trans; [apply Rabs_triang|].
    assert (uround * x' <= uround * (1000001 / 1000000 * x)) by (apply Rmult_le_compat_l; lra).
    assert (0 <= uround * x) by (apply Rmult_le_pos; lra). lra.
Qed.
Lemma r_mul k x' x l y' y : rel k x' x -> rel l y' y -> few k -> few l -> rel (1001 / 1000 * (k + l)) (x' * y') (x * y).
Proof.
  intros N1 N2 K L. assert (R := r_range _ _ _ N2 L). destruct N1 as [P1 D1]. destruct N2 as [P2 D2]. assert (U := u_small). unfold few in K, L.
  assert (Z : 0 <= x * y) by (apply Rmult_le_pos; assumption). split; [exact Z|].
  eapply Rle_trans; [apply (mul_err x' x y' y _ _ x (1001 / 1000 * y) D1 D2)|].
  - rewrite Rabs_pos_eq; lra.
  - rewrite Rabs_pos_eq; lra.
  - replace (uround * k * x * (1001 / 1000 * y) + x * (uround * l * y)) with (uround * (1001 / 1000 * k + l) * (x * y)) by ring.
    apply Rmult_le_compat_r; [exact Z|]. apply Rmult_le_compat_l; lra.
Qed.
Lemma r_div k x' x l y' y : rel k x' x -> rel l y' y -> few k -> few l -> 0 < y -> rel (1001 / 1000 * (k + l)) (x' / y') (x / y) /\ 0 < y'.
Proof.
  intros N1 N2 K L Y. assert (R := r_range _ _ _ N2 L). destruct N1 as [P1 D1]. destruct N2 as [P2 D2]. assert (U := u_small). unfold few in K, L.
  split; [|lra]. assert (IY : 0 < / y) by (apply Rinv_0_lt_compat; exact Y). assert (Z : 0 <= x / y) by (apply Rmult_le_pos; lra). split; [exact Z|].
  replace (x' / y' - x / y) with (((x' - x) - x / y * (y' - y)) / y') by (field; lra).
  unfold Rdiv at 1. rewrite Rabs_mult, Rabs_inv, (Rabs_pos_eq y') by lra.
  assert (T : Rabs (x' - x - x / y * (y' - y)) <= uround * (k + l) * x).
  { unfold Rminus at 1. eapply Rle_trans; [apply Rabs_triang|]. rewrite Rabs_Ropp, Rabs_mult, (Rabs_pos_eq (x / y)) by exact Z.
    assert (Q : x / y * Rabs (y' - y) <= x / y * (uround * l * y)) by (apply Rmult_le_compat_l; assumption).
    replace (x / y * (uround * l * y)) with (uround * l * x) in Q by (field; lra). lra. }
  assert (IY' : / y' <= 1001 / 1000 * / y).
  { apply Rle_trans with (/ (1000 / 1001 * y)); [apply Rinv_le_contravar; lra|]. rewrite Rinv_mult. apply Rmult_le_compat_r; lra. }
  eapply Rle_trans; [apply Rmult_le_compat; [apply Rabs_pos|left; apply Rinv_0_lt_compat; lra|exact T|exact IY']|].
  right. unfold Rdiv. ring.
Qed.
Lemma r_add k x' x y' y : rel k x' x -> rel k y' y -> rel k (x' + y') (x + y).
Proof.
  intros [P1 D1] [P2 D2]. split; [lra|]. eapply Rle_trans; [apply (add_err _ _ _ _ _ _ D1 D2)|]. lra.
Qed.
Lemma r_sqrt k x' x : rel k x' x -> few k -> rel (501 / 1000 * k) (sqrt x') (sqrt x).
Proof.
  intros N K. assert (R := r_range _ _ _ N K). destruct N as [P D]. assert (X0 : 0 <= x') by lra. assert (SA := sqrt_sqrt _ X0). assert (SB := sqrt_sqrt _ P).
  assert (Q0 := sqrt_pos x). assert (P0 := sqrt_pos x'). set (p := sqrt x') in *. set (q := sqrt x) in *. split; [exact Q0|].
  assert (U := u_small). unfold few in K.
  destruct (Req_dec q 0) as [Z|Z].
  - assert (x = 0) by (rewrite <- SB, Z; ring). assert (x' = 0) by lra. assert (p = 0) by nra. rewrite Z, H1, Rminus_0_r, Rabs_R0. lra.
  - assert (Q1 : 0 < q) by lra. assert (PL : 998 / 1000 * q <= p) by (apply Rsqr_incr_0_var; [unfold Rsqr; nra|exact P0]).
    apply Rmult_le_reg_r with (p + q); [lra|]. rewrite <- (Rabs_pos_eq (p + q)) at 1 by lra. rewrite <- Rabs_mult.
    replace ((p - q) * (p + q)) with (x' - x) by (rewrite <- SA, <- SB; ring). eapply Rle_trans; [exact D|].
    replace (uround * (501 / 1000 * k) * q * (p + q)) with (uround * k * (501 / 1000 * (q * (p + q)))) by ring.
    apply Rmult_le_compat_l; [apply Rmult_le_pos; lra|]. assert (q * (1998 / 1000 * q) <= q * (p + q)) by (apply Rmult_le_compat_l; lra). lra.
Qed.

(** one operation *)
Lemma r_size k x' x n : rel k x' x -> few k -> x <= bpow radix2 n -> (-1000 <= n <= 900)%Z -> rd x' = Ok (rnd x').
Proof.
  intros N K X H. apply (mag_rd x' (n + 1)); [lia|]. destruct (r_range _ _ _ N K) as [A B]. destruct N as [P _]. unfold mag. rewrite Rabs_pos_eq by lra.
  rewrite bpow_plus. change (bpow radix2 1) with 2. assert (G := bpow_gt_0 radix2 n). lra.
Qed.
