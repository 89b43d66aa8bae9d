(** Relative errors: [x'] differs from [x] by [e] rounding units of the scale [B]. *)
From Coq Require Import Reals ZArith Lra Lia Psatz.
From Flocq Require Import Core.
From Verif Require Import Num Vec FloatWrap PointFloat SpecRound RoundFacts.
Open Scope R_scope.

Definition near (B e x' x : R) : Prop := Rabs x <= B /\ Rabs (x' - x) <= uround * (e * B).
Definition usable (B : R) : Prop := B = 0 \/ bpow radix2 (-700) <= B.

Lemma usable_pos B : usable B -> 0 <= B.
Proof. intros [->|H]; [lra|]. generalize (bpow_gt_0 radix2 (-700)). lra. Qed.
Lemma usable_least B : bpow radix2 (-700) <= B -> least <= uround * (/ 1000 * B).
Proof.
  intros H. assert (E : bpow radix2 (-1074) <= bpow radix2 (-53) * (bpow radix2 (-10) * bpow radix2 (-700))).
  { rewrite <- !bpow_plus. apply bpow_le. lia. }
  assert (U : uround = bpow radix2 (-53)) by (change (bpow radix2 (-53)) with (/ 9007199254740992); reflexivity).
  unfold least. eapply Rle_trans; [exact E|]. rewrite U. apply Rmult_le_compat_l; [apply bpow_ge_0|].
  apply Rmult_le_compat; [apply bpow_ge_0|apply bpow_ge_0| |exact H]. change (bpow radix2 (-10)) with (/ 1024). lra.
Qed.

Lemma n_pos B e x' x : near B e x' x -> 0 <= B.
Proof. intros [H _]. eapply Rle_trans; [apply Rabs_pos|exact H]. Qed.

Lemma n_same B x : Rabs x <= B -> near B 0 x x.
Proof. intros H. split; [exact H|]. rewrite Rminus_diag_eq, Rabs_R0 by reflexivity. lra. Qed.

Lemma n_weak B e C f x' x : near B e x' x -> 0 <= e -> e <= f -> B <= C -> near C f x' x.
Proof.
  intros N E F H. assert (P := n_pos _ _ _ _ N). destruct N as [S D]. assert (U := u_small). split; [lra|].
  eapply Rle_trans; [exact D|]. apply Rmult_le_compat_l; [lra|]. apply Rmult_le_compat; lra.
Qed.

Lemma n_size B e x' x : near B e x' x -> 0 <= e <= 1000 -> Rabs x' <= 1001 / 1000 * B.
Proof.
  intros N E. assert (P := n_pos _ _ _ _ N). destruct N as [S D]. assert (W := near_size _ _ _ D). assert (U := u_small).
  assert (uround * (e * B) <= / 1000000 * (1000 * B)); [|lra].
  apply Rmult_le_compat; [lra|apply Rmult_le_pos; lra|lra|]. apply Rmult_le_compat_r; lra.
Qed.

Lemma u_tiny : uround <= / 1000000000000.
Proof. unfold uround. lra. Qed.

Lemma n_rnd B e x' x : near B e x' x -> 0 <= e <= 1000 -> usable B -> near B (e + 101 / 100) (rnd x') x.
Proof.
  intros N E [Z|H].
  - subst B. destruct N as [S D]. rewrite Rmult_0_r, Rmult_0_r in D.
    assert (X : x = 0) by (assert (Q := Rabs_pos x); destruct (Req_dec x 0) as [|Q0]; [auto|apply Rabs_pos_lt in Q0; lra]).
    assert (X' : x' = 0).
    { subst x. rewrite Rminus_0_r in D. assert (Q := Rabs_pos x'); destruct (Req_dec x' 0) as [|Q0]; [auto|apply Rabs_pos_lt in Q0; lra]. }
    subst. rewrite rnd_0. apply (n_weak 0 0); [apply n_same; rewrite Rabs_R0; lra|lra|lra|lra].
  - assert (L := usable_least _ H). assert (S' := n_size _ _ _ _ N E). assert (P := n_pos _ _ _ _ N). destruct N as [S D]. split; [exact S|].
    assert (W := rnd_err x'). assert (U := u_small).
    replace (rnd x' - x) with ((rnd x' - x') + (x' - x)) by ring. eapply Rle_trans; [apply Rabs_triang|].
    assert (uround * Rabs x' <= uround * (1001 / 1000 * B)) by (apply Rmult_le_compat_l; lra).
    assert (0 <= uround * B) by (apply Rmult_le_pos; lra). lra.
Qed.

Lemma n_mul B e x' x C f y' y : near B e x' x -> near C f y' y -> 0 <= e <= 1000 -> 0 <= f <= 1000 ->
  near (B * C) (e + f + / 100) (x' * y') (x * y).
Proof.
  intros N1 N2 E F. assert (P1 := n_pos _ _ _ _ N1). assert (P2 := n_pos _ _ _ _ N2). assert (S2 := n_size _ _ _ _ N2 F).
  destruct N1 as [A D]. destruct N2 as [A2 D2]. assert (U := u_small). assert (U' := u_tiny). split.
  - rewrite Rabs_mult. apply Rmult_le_compat; auto using Rabs_pos.
  - assert (SS : Rabs y' <= C + uround * (f * C)) by (apply near_size in D2; lra).
    eapply Rle_trans; [apply (mul_err x' x y' y _ _ B (C + uround * (f * C)) D D2 A SS)|].
    assert (BC : 0 <= B * C) by (apply Rmult_le_pos; lra).
    assert (EF : uround * (e * f) <= / 100).
    { apply Rle_trans with (/ 1000000000000 * (1000 * 1000)); [|lra]. apply Rmult_le_compat; [lra|apply Rmult_le_pos; lra|lra|].
      apply Rmult_le_compat; lra. }
    assert (uround * (uround * (e * f)) <= uround * / 100) by (apply Rmult_le_compat_l; lra).
    replace (uround * (e * B) * (C + uround * (f * C)) + B * (uround * (f * C))) with
      (uround * ((e + f) * (B * C)) + uround * (uround * (e * f)) * (B * C)) by ring.
    assert (uround * (uround * (e * f)) * (B * C) <= uround * / 100 * (B * C)) by (apply Rmult_le_compat_r; lra). lra.
Qed.

Lemma n_add B e x' x C f y' y g : near B e x' x -> near C f y' y -> e <= g -> f <= g -> near (B + C) g (x' + y') (x + y).
Proof.
  intros N1 N2 E F. assert (P1 := n_pos _ _ _ _ N1). assert (P2 := n_pos _ _ _ _ N2).
  destruct N1 as [A D]. destruct N2 as [A2 D2]. assert (U := u_small). split; [eapply Rle_trans; [apply Rabs_triang|]; lra|].
  eapply Rle_trans; [apply (add_err _ _ _ _ _ _ D D2)|]. rewrite <- Rmult_plus_distr_l. apply Rmult_le_compat_l; [lra|].
  rewrite Rmult_plus_distr_l. apply Rplus_le_compat; apply Rmult_le_compat_r; lra.
Qed.
Lemma n_opp B e x' x : near B e x' x -> near B e (- x') (- x).
Proof. intros [A D]. split; [rewrite Rabs_Ropp; exact A|]. replace (- x' - - x) with (- (x' - x)) by ring. rewrite Rabs_Ropp. exact D. Qed.
Lemma n_sub B e x' x C f y' y g : near B e x' x -> near C f y' y -> e <= g -> f <= g -> near (B + C) g (x' - y') (x - y).
Proof. intros. unfold Rminus. eapply n_add; eauto using n_opp. Qed.

(** square roots *)
Lemma sqrt_close a b k t : 0 <= a -> 0 <= b -> 0 <= k <= 1 -> 0 <= t -> Rabs (a - b) <= k * b + t * t ->
  Rabs (sqrt a - sqrt b) <= k * sqrt b + t.
Proof.
  intros A B K T H. apply Rabs_le_inv in H. assert (SA := sqrt_sqrt a A). assert (SB := sqrt_sqrt b B).
  set (p := sqrt a) in *. set (q := sqrt b) in *. assert (P0 : 0 <= p) by apply sqrt_pos. assert (Q0 : 0 <= q) by apply sqrt_pos.
  apply Rabs_le. split.
  - apply Rnot_lt_le. intros C. assert (D : p < q - k * q - t) by lra. assert (E : 0 <= q - k * q - t) by lra.
    assert (F : p * p < (q - k * q - t) * (q - k * q - t)) by (apply Rmult_le_0_lt_compat; lra).
    assert (0 <= t * (q - k * q - t)) by (apply Rmult_le_pos; lra). assert (0 <= k * (1 - k) * (q * q)) by (apply Rmult_le_pos; [apply Rmult_le_pos; lra|nra]). nra.
  - apply Rnot_lt_le. intros C. assert (D : q + k * q + t < p) by lra.
    assert (E : 0 <= k * q) by (apply Rmult_le_pos; lra).
    assert (F : (q + k * q + t) * (q + k * q + t) < p * p) by (apply Rmult_le_0_lt_compat; lra).
    assert (0 <= t * q) by (apply Rmult_le_pos; lra). assert (0 <= k * (q * q)) by (apply Rmult_le_pos; [lra|nra]).
    assert (0 <= t * (k * q)) by (apply Rmult_le_pos; lra). assert (0 <= (k * q) * (k * q)) by nra. nra.
Qed.
