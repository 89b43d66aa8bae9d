(** The search in double precision: when it gets to the surface. *)
From Coq Require Import Reals ZArith List Bool Lra Lia Psatz.
From Flocq Require Import Core.
From Verif Require Import SpecConst Num Vec Isect SpecIsect FloatWrap PointFloat PlaneFloat NewtonFloat SpecRound SpecNewton SpecNewtonFloat
  RoundFacts NewtonFloatFacts.
Open Scope R_scope.

Lemma rnd_rel2 x : bpow radix2 (-400) <= Rabs x -> Rabs (rnd x - x) <= 2 * uround * Rabs x.
Proof. intros H. assert (E := rnd_err x). assert (LU := least_u400 _ H). lra. Qed.

Lemma u_tiny16 : 0 < uround <= / 1000000000000000.
Proof. unfold uround. lra. Qed.

Lemma Rabs_mid a b : Rabs b - Rabs (a - b) <= Rabs a.
Proof. assert (H := Rabs_triang (b - a) a). replace (b - a + a) with b in H by ring. rewrite (Rabs_minus_sym b a) in H. lra. Qed.

(** The quotient of the step. *)
Lemma quotient d c y h alpha : 0 <= alpha <= / 1000000000 -> 0 <= h <= / 100 -> bpow radix2 (-100) <= Rabs y <= 1 ->
  Rabs (c - y) <= h * Rabs y -> / 100000 <= Rabs d <= 10000000000 ->
  exists a den q, rd (1 + alpha) = Ok a /\ rd (a * c) = Ok den /\ rd_div d den = Ok q
  /\ Rabs (q * y - d) <= (2 * h + / 250000000) * Rabs d.
Proof.
  intros Ha Hh Hy Hc Hd. assert (U := u_tiny16). assert (BP := bpow_gt_0 radix2 (-100)).
  assert (B400 : bpow radix2 (-400) <= / 2 * bpow radix2 (-100)).
  { change (/ 2) with (bpow radix2 (-1)). rewrite <- bpow_plus. apply bpow_le. lia. }
  assert (B1000 : forall x, Rabs x <= 1000000000000 * bpow radix2 100 -> Rabs x <= bpow radix2 1000).
  { intros x Hx. eapply Rle_trans; [exact Hx|]. apply Rle_trans with (bpow radix2 40 * bpow radix2 100).
    - apply Rmult_le_compat_r; [apply bpow_ge_0|]. change (bpow radix2 40) with 1099511627776. lra.
    - rewrite <- bpow_plus. apply bpow_le. lia. }
  assert (B100 : 1 <= bpow radix2 100) by (change 1 with (bpow radix2 0); apply bpow_le; lia).
  assert (B0 : bpow radix2 (-100) <= / 1000000) by (apply Rle_trans with (bpow radix2 (-20)); [apply bpow_le; lia|change (bpow radix2 (-20)) with (/ 1048576); lra]).
  assert (EA := rnd_rel2 (1 + alpha)). rewrite (Rabs_pos_eq (1 + alpha)) in EA by lra. specialize (EA ltac:(lra)).
  set (a := rnd (1 + alpha)) in *. assert (A1 : Rabs (a - 1) <= 12 / 10 * / 1000000000).
  { apply Rabs_le_inv in EA. apply Rabs_le. assert (uround * (1 + alpha) <= / 1000000000000000 * 2) by (apply Rmult_le_compat; lra). lra. }
  set (Y := Rabs y) in *.
  assert (CY : Rabs c <= 101 / 100 * Y). { apply near_size in Hc. fold Y in Hc. assert (h * Y <= / 100 * Y) by (apply Rmult_le_compat_r; lra). lra. }
  assert (P1 : Rabs (a * c - y) <= 12 / 10 * / 1000000000 * (101 / 100 * Y) + h * Y).
  { replace (a * c - y) with ((a - 1) * c + (c - y)) by ring. eapply Rle_trans; [apply Rabs_triang|]. rewrite Rabs_mult.
    assert (Rabs (a - 1) * Rabs c <= 12 / 10 * / 1000000000 * (101 / 100 * Y)) by (apply Rmult_le_compat; try apply Rabs_pos; lra). lra. }
  assert (hY : 0 <= h * Y <= / 100 * Y) by (split; [apply Rmult_le_pos; lra|apply Rmult_le_compat_r; lra]).
  assert (AC : 98 / 100 * Y <= Rabs (a * c) <= 102 / 100 * Y).
  { split; [assert (Q := Rabs_mid (a * c) y); fold Y in Q; lra|]. apply near_size in P1. fold Y in P1. lra. }
  assert (ED := rnd_rel2 (a * c) ltac:(lra)).
  set (den := rnd (a * c)) in *.
  assert (UY : uround * Rabs (a * c) <= / 1000000000000000 * (102 / 100 * Y)) by (apply Rmult_le_compat; try apply Rabs_pos; lra).
  assert (D1 : Rabs (den - y) <= h * Y + 13 / 10 * / 1000000000 * Y).
  { replace (den - y) with ((den - a * c) + (a * c - y)) by ring. eapply Rle_trans; [apply Rabs_triang|]. lra. }
  assert (DN : 98 / 100 * Y <= Rabs den). { assert (Q := Rabs_mid den y). fold Y in Q. lra. }
  assert (DN2 : Rabs den <= 102 / 100 * Y). { apply near_size in D1. fold Y in D1. lra. }
  assert (Dnz : den <> 0). { intros E. rewrite E, Rabs_R0 in DN. lra. }
  set (D := Rabs d) in *.
  assert (QD : Rabs (d / den) * Rabs den = D). { unfold D. rewrite <- Rabs_mult. f_equal. field. exact Dnz. }
  assert (Q0 := Rabs_pos (d / den)).
  assert (QL : / 1000000 <= Rabs (d / den)). { apply Rnot_lt_le. intros C. assert (Rabs (d / den) * Rabs den <= / 1000000 * (102 / 100)) by (apply Rmult_le_compat; try apply Rabs_pos; lra). lra. }
  assert (QY : Rabs (d / den) * Y <= 103 / 100 * D). { assert (Rabs (d / den) * (98 / 100 * Y) <= Rabs (d / den) * Rabs den) by (apply Rmult_le_compat_l; lra). lra. }
  assert (QU : Rabs (d / den) <= 1000000000000 * bpow radix2 100).
  { assert (Y1 : 1 <= bpow radix2 100 * Y).
    { replace 1 with (bpow radix2 100 * bpow radix2 (-100)) by (rewrite <- bpow_plus; reflexivity). apply Rmult_le_compat_l; lra. }
    assert (Rabs (d / den) * 1 <= Rabs (d / den) * (bpow radix2 100 * Y)) by (apply Rmult_le_compat_l; lra).
    replace (Rabs (d / den) * (bpow radix2 100 * Y)) with (bpow radix2 100 * (Rabs (d / den) * Y)) in H by ring.
    assert (bpow radix2 100 * (Rabs (d / den) * Y) <= bpow radix2 100 * 1000000000000) by (apply Rmult_le_compat_l; lra). lra. }
  exists a, den, (rnd (d / den)). split; [|split; [|split]].
  - apply rd_ok. apply B1000. rewrite Rabs_pos_eq by lra. lra.
  - apply rd_ok. apply B1000. lra.
  - unfold rd_div. destruct (Req_EM_T den 0); [congruence|]. apply rd_ok. apply B1000. exact QU.
  - assert (EQ := rnd_rel2 (d / den) ltac:(lra)). set (q := rnd (d / den)) in *.
    replace (q * y - d) with ((q - d / den) * y + d / den * (y - den)) by (field; exact Dnz).
    eapply Rle_trans; [apply Rabs_triang|]. rewrite !Rabs_mult. fold Y. rewrite (Rabs_minus_sym y den).
    assert (Rabs (q - d / den) * Y <= 2 * uround * Rabs (d / den) * Y) by (apply Rmult_le_compat_r; lra).
    assert (Rabs (d / den) * Rabs (den - y) <= Rabs (d / den) * (h * Y + 13 / 10 * / 1000000000 * Y)) by (apply Rmult_le_compat_l; lra).
    replace (Rabs (d / den) * (h * Y + 13 / 10 * / 1000000000 * Y)) with ((h + 13 / 10 * / 1000000000) * (Rabs (d / den) * Y)) in H0 by ring.
    assert ((h + 13 / 10 * / 1000000000) * (Rabs (d / den) * Y) <= (h + 13 / 10 * / 1000000000) * (103 / 100 * D)) by (apply Rmult_le_compat_l; lra).
    assert (uround * (Rabs (d / den) * Y) <= / 1000000000000000 * (103 / 100 * D)) by (apply Rmult_le_compat; try lra; apply Rmult_le_pos; lra).
    assert (0 <= h * D) by (apply Rmult_le_pos; lra). lra.
Qed.

Lemma abs6 a b c d e f : Rabs (a + b + c + d + e + f) <= Rabs a + Rabs b + Rabs c + Rabs d + Rabs e + Rabs f.
Proof.
  assert (H1 := Rabs_triang (a + b + c + d + e) f). assert (H2 := Rabs_triang (a + b + c + d) e).
  assert (H3 := Rabs_triang (a + b + c) d). assert (H4 := Rabs_triang (a + b) c). assert (H5 := Rabs_triang a b). lra.
Qed.

(** What the step does to a function that is almost linear. *)
Lemma descent p p' d d' y w q rho M e k B : 1 <= w -> 0 < Rabs y <= 1 -> 0 <= k <= / 10 ->
  Rabs (d - p) <= e -> Rabs (d' - p') <= e ->
  Rabs (p' - p - w * y * (- q + rho)) <= M * ((- q + rho) * (- q + rho)) ->
  Rabs (q * y - d) <= k * Rabs d -> Rabs rho <= B + / 1000000000 * Rabs q -> 0 <= B <= / 1000 * Rabs d -> 0 <= M ->
  Rabs d' <= (w - 1 + w * (k + / 500000000) + 13 / 10 * M * Rabs d / (Rabs y * Rabs y)) * Rabs d + w * B + 2 * e.
Proof.
  intros Hw Hy Hk E1 E2 E3 E4 Hr HB HM. set (D := Rabs d) in *. set (Y := Rabs y) in *. set (Q := Rabs q) in *.
  assert (D0 := Rabs_pos d). fold D in D0. assert (Q0 := Rabs_pos q). fold Q in Q0.
  assert (kD : 0 <= k * D <= / 10 * D) by (split; [apply Rmult_le_pos; lra|apply Rmult_le_compat_r; lra]).
  assert (QY : Q * Y <= 11 / 10 * D). { unfold Q, Y. rewrite <- Rabs_mult. apply near_size in E4. fold D in E4. lra. }
  assert (QY2 : 9 / 10 * D <= Q * Y). { unfold Q, Y. rewrite <- Rabs_mult. assert (X := Rabs_mid (q * y) d). fold D in X. lra. }
  assert (QL : 9 / 10 * D <= Q). { assert (Q * Y <= Q * 1) by (apply Rmult_le_compat_l; lra). lra. }
  assert (X1 : Rabs (- q + rho) <= 1002 / 1000 * Q). { eapply Rle_trans; [apply Rabs_triang|]. rewrite Rabs_Ropp. fold Q. lra. }
  assert (X2 : (- q + rho) * (- q + rho) <= (1002 / 1000 * Q) * (1002 / 1000 * Q)).
  { replace ((- q + rho) * (- q + rho)) with (Rabs (- q + rho) * Rabs (- q + rho)) by (rewrite <- Rabs_mult; apply Rabs_pos_eq, Rle_0_sqr).
    apply Rmult_le_compat; try apply Rabs_pos; exact X1. }
  assert (X3 : M * ((- q + rho) * (- q + rho)) <= 13 / 10 * M * D / (Y * Y) * D).
  { eapply Rle_trans; [apply Rmult_le_compat_l; [exact HM|exact X2]|].
    replace (13 / 10 * M * D / (Y * Y) * D) with (M * (13 / 10 * (D / Y) * (D / Y))) by (field; lra).
    apply Rmult_le_compat_l; [exact HM|].
    assert (QD : Q <= 11 / 10 * (D / Y)).
    { apply Rmult_le_reg_r with Y; [lra|]. replace (11 / 10 * (D / Y) * Y) with (11 / 10 * D) by (field; lra). exact QY. }
    assert (Z0 : 0 <= D / Y) by (apply Rmult_le_pos; [lra|left; apply Rinv_0_lt_compat; lra]).
    assert (Q * Q <= (11 / 10 * (D / Y)) * (11 / 10 * (D / Y))) by (apply Rmult_le_compat; lra). 
    assert (0 <= (D / Y) * (D / Y)) by (apply Rmult_le_pos; lra). lra. }
  replace d' with ((d' - p') + (p' - p - w * y * (- q + rho)) + (- (d - p)) + (d * (1 - w)) + (- (w * (q * y - d))) + w * (y * rho)) by ring.
  assert (T5 : Rabs (d * (1 - w)) = (w - 1) * D). { rewrite Rabs_mult, (Rabs_left1 (1 - w)) by lra. fold D. ring. }
  assert (T6 : Rabs (w * (q * y - d)) <= w * (k * D)). { rewrite Rabs_mult, (Rabs_pos_eq w) by lra. apply Rmult_le_compat_l; lra. }
  assert (T7 : Rabs (w * (y * rho)) <= w * (B + / 500000000 * D)).
  { rewrite Rabs_mult, (Rabs_pos_eq w) by lra. apply Rmult_le_compat_l; [lra|]. rewrite Rabs_mult. fold Y.
    assert (Y * B <= 1 * B) by (apply Rmult_le_compat_r; lra).
    assert (Y * Rabs rho <= Y * (B + / 1000000000 * Q)) by (apply Rmult_le_compat_l; lra).
    lra. }
  eapply Rle_trans; [apply abs6|]. rewrite !Rabs_Ropp, T5.
  replace ((w - 1 + w * (k + / 500000000) + 13 / 10 * M * D / (Y * Y)) * D + w * B + 2 * e)
    with (e + (13 / 10 * M * D / (Y * Y) * D) + e + (w - 1) * D + w * (k * D) + w * (B + / 500000000 * D)) by ring.
  lra.
Qed.

Section Search.
Variables (L : libm) (S : surface_d) (surf : surface) (hp : vec5) (rp : vec3) (f : R -> vec3) (I : R -> Prop).
Variables (B e h d0 g M k : R).
Hypothesis T : tame surf hp f I d0 g M.
Hypothesis F : faithful L S surf hp rp f I B e h g.
Hypothesis Hh : 0 <= h <= / 100.
Hypothesis Hg : bpow radix2 (-100) * stretch hp <= g.
Hypothesis Hd0 : d0 <= 10000000000.
Hypothesis HB : 0 <= B /\ 2 * uround * B <= / 100000000.
Hypothesis He : 0 <= e <= / 1000000.
Hypothesis Hk : stretch hp - 1 + bend hp d0 g M + stretch hp * (2 * h + / 100000000) + (2 * e + 2 * stretch hp * uround * B) / tol_d <= k.
Hypothesis K1 : k < 1.
Hypothesis TR : / 11000 <= tol_d.

Let w := stretch hp.
Let phi s := sf_distance surf (f s).

Lemma w_1 : 1 <= w.
Proof.
  unfold w, stretch. rewrite <- sqrt_1 at 1. apply sqrt_le_1_alt. assert (P := Rle_0_sqr (hp TANL)). unfold Rsqr in P. lra.
Qed.

Definition here s x d := measured L S hp rp s x d.

(** one step from a good point *)
Lemma step_good s x d alpha : is_double s -> I s -> here s x d -> tol_d <= Rabs d -> 2 * Rabs d <= d0 -> 0 <= alpha <= / 1000000000 ->
  exists s' x' d', newton_next_d L S hp s (Some x) d alpha = Some s' /\ is_double s' /\ I s' /\ here s' x' d' /\ Rabs d' <= k * Rabs d.
Proof.
  intros Ds Is Hx Hd Hd2 Ha. assert (W := w_1). assert (U := u_tiny16). assert (G0 := tame_g _ _ _ _ _ _ _ T). assert (M0 := tame_M _ _ _ _ _ _ _ T).
  destruct (fa_here _ _ _ _ _ _ _ _ _ _ _ F s Ds Is) as (x1 & d1 & n & tg & c & [P1 P2] & Ed & En & Et & Ec & Eg).
  destruct Hx as [P1' P2']. rewrite P1 in P1'. injection P1' as <-. rewrite P2 in P2'. injection P2' as <-.
  rename x1 into x, d1 into d. fold w in Eg.
  set (r := rate surf hp f s) in *. assert (Rg := tame_rate _ _ _ _ _ _ _ T s Is). fold r in Rg.
  assert (Ru := fa_unit _ _ _ _ _ _ _ _ _ _ _ F s Is). fold r w in Ru.
  set (y := r / w) in *. assert (Yr : Rabs y = Rabs r / w). { unfold y, Rdiv. rewrite Rabs_mult, (Rabs_pos_eq (/ w)); [reflexivity|]. left. apply Rinv_0_lt_compat. lra. }
  assert (W' : 0 < / w) by (apply Rinv_0_lt_compat; lra).
  assert (gw : g / w <= Rabs y). { rewrite Yr. unfold Rdiv. apply Rmult_le_compat_r; lra. }
  assert (Y1 : Rabs y <= 1). { rewrite Yr. apply Rmult_le_reg_r with w; [lra|]. replace (Rabs r / w * w) with (Rabs r) by (field; lra). lra. }
  assert (gl : bpow radix2 (-100) <= g / w). { apply Rmult_le_reg_r with w; [lra|]. replace (g / w * w) with g by (field; lra). exact Hg. }
  assert (BP := bpow_gt_0 radix2 (-100)).
  destruct (quotient d c y h alpha Ha Hh) as (a & den & q & EA & ED & EQ & Q); [lra| |split; lra|].
  { eapply Rle_trans; [exact Eg|]. apply Rmult_le_compat_l; lra. }
  assert (D0 := Rabs_pos d).
  assert (kk : 0 <= 2 * h + / 250000000 <= / 10) by lra.
  assert (QY : Rabs q * Rabs y <= 11 / 10 * Rabs d). { rewrite <- Rabs_mult. apply near_size in Q. nra. }
  assert (Qw : Rabs q * (g / w) <= 11 / 10 * Rabs d). { eapply Rle_trans; [|exact QY]. apply Rmult_le_compat_l; [apply Rabs_pos|exact gw]. }
  assert (QQ : Rabs q <= 11 / 10 * Rabs d * w / g).
  { apply Rmult_le_reg_r with (g / w); [lra|]. replace (11 / 10 * Rabs d * w / g * (g / w)) with (11 / 10 * Rabs d) by (field; lra). exact Qw. }
  assert (Bs := fa_size _ _ _ _ _ _ _ _ _ _ _ F s Is).
  assert (Es := rnd_err (s - q)). set (s' := rnd (s - q)) in *.
  assert (LS : least <= uround * / 1000000000000000000). 
  { apply least_u400. apply Rle_trans with (bpow radix2 (-60)); [apply bpow_le; lia|]. change (bpow radix2 (-60)) with (/ 1152921504606846976). lra. }
  assert (Q0 := Rabs_pos q).
  assert (QL : 8 / 10 * Rabs d <= Rabs q).
  { assert (X := Rabs_mid (q * y) d). rewrite Rabs_mult in X. assert (Rabs q * Rabs y <= Rabs q * 1) by (apply Rmult_le_compat_l; lra). nra. }
  assert (SQ : Rabs (s - q) <= B + Rabs q). { replace (s - q) with (s + - q) by ring. eapply Rle_trans; [apply Rabs_triang|]. rewrite Rabs_Ropp. lra. }
  set (rho := s' - (s - q)) in *.
  assert (HR : Rabs rho <= uround * B + / 1000000000 * Rabs q).
  { assert (uround * Rabs (s - q) <= uround * (B + Rabs q)) by (apply Rmult_le_compat_l; lra).
    assert (uround * Rabs q <= / 1000000000000000 * Rabs q) by (apply Rmult_le_compat_r; lra). lra. }
  assert (UB : 0 <= uround * B) by (apply Rmult_le_pos; lra).
  assert (Hs' : s' - s = - q + rho) by (unfold rho; ring).
  assert (Is' : I s').
  { apply (tame_step _ _ _ _ _ _ _ T s s' Is).
    - change (Rabs (phi s) <= d0). replace (phi s) with (d - (d - phi s)) by ring. eapply Rle_trans; [apply Rabs_triang|]. rewrite Rabs_Ropp. unfold phi. lra.
    - rewrite Hs'. eapply Rle_trans; [apply Rabs_triang|]. rewrite Rabs_Ropp.
      assert (11 / 10 * Rabs d * w / g <= 11 / 20 * (w * d0 / g)).
      { replace (11 / 20 * (w * d0 / g)) with (11 / 10 * (d0 / 2) * w / g) by (field; lra). unfold Rdiv. apply Rmult_le_compat_r; [left; apply Rinv_0_lt_compat; lra|].
        apply Rmult_le_compat_r; lra. }
      fold w. lra. }
  assert (Ds' : is_double s') by apply rnd_double.
  destruct (fa_here _ _ _ _ _ _ _ _ _ _ _ F s' Ds' Is') as (x' & d' & _ & _ & _ & Mx & Ed' & _).
  exists s', x', d'. split; [|split; [exact Ds'|split; [exact Is'|split; [exact Mx|]]]].
  - unfold newton_next_d. rewrite En, Et. cbn [bind]. rewrite Ec. cbn [bind]. rewrite EA. cbn [bind]. rewrite ED. cbn [bind]. rewrite EQ. cbn [bind].
    rewrite rd_ok; [reflexivity|]. eapply Rle_trans; [exact SQ|].
    assert (B <= bpow radix2 100).
    { apply Rmult_le_reg_l with (2 * uround); [lra|]. replace (2 * uround * bpow radix2 100) with (bpow radix2 48).
      - change (bpow radix2 48) with 281474976710656. lra.
      - replace uround with (bpow radix2 (-53)) by (unfold uround; simpl; lra). replace (2 * bpow radix2 (-53)) with (bpow radix2 (-52)) by (simpl; lra). rewrite <- bpow_plus. reflexivity. }
    assert (Rabs q <= bpow radix2 140).
    { apply Rmult_le_reg_r with (bpow radix2 (-100)); [exact BP|]. rewrite <- bpow_plus. change (bpow radix2 (140 + -100)) with 1099511627776.
      assert (Rabs q * bpow radix2 (-100) <= Rabs q * (g / w)) by (apply Rmult_le_compat_l; lra). lra. }
    assert (bpow radix2 100 <= bpow radix2 140) by (apply bpow_le; lia).
    assert (bpow radix2 140 + bpow radix2 140 = bpow radix2 141) by (replace (bpow radix2 141) with (bpow radix2 1 * bpow radix2 140) by (rewrite <- bpow_plus; reflexivity); change (bpow radix2 1) with 2; ring).
    assert (bpow radix2 141 <= bpow radix2 1000) by (apply bpow_le; lia). lra.
  - assert (LN := tame_linear _ _ _ _ _ _ _ T s s' Is Is'). fold r in LN. rewrite Hs' in LN.
    assert (DS := descent (phi s) (phi s') d d' y w q rho M e (2 * h + / 250000000) (uround * B) W ltac:(lra) kk Ed Ed').
    eapply Rle_trans; [apply DS; auto|].
    + replace (w * y) with r by (unfold y; field; lra). exact LN.
    + split; [exact UB|]. lra.
    + assert (BE : 13 / 10 * M * Rabs d / (Rabs y * Rabs y) <= bend hp d0 g M).
      { unfold bend. fold w. apply Rle_trans with (13 / 10 * M * Rabs d / (g / w * (g / w))).
        - unfold Rdiv at 1. apply Rmult_le_compat_l; [apply Rmult_le_pos; [apply Rmult_le_pos; lra|lra]|].
          apply Rinv_le_contravar; [apply Rmult_lt_0_compat; lra|apply Rmult_le_compat; lra].
        - replace (13 / 10 * M * Rabs d / (g / w * (g / w))) with (13 / 10 * M * (w * w) * / (g * g) * Rabs d) by (field; lra).
          replace (M * d0 * (w * w) / (g * g)) with (M * (w * w) * / (g * g) * d0) by (field; lra).
          assert (0 <= M * (w * w) * / (g * g)).
          { apply Rmult_le_pos; [apply Rmult_le_pos; [lra|apply Rmult_le_pos; lra]|]. left. apply Rinv_0_lt_compat. apply Rmult_lt_0_compat; lra. }
          set (mm := M * (w * w) * / (g * g)) in *. replace (13 / 10 * M * (w * w) * / (g * g) * Rabs d) with (mm * (13 / 10 * Rabs d)) by (unfold mm; ring).
          apply Rmult_le_compat_l; lra. }
      assert (NO : w * (uround * B) + 2 * e <= (2 * e + 2 * w * uround * B) / tol_d * Rabs d).
      { assert (0 <= w * (uround * B)) by (apply Rmult_le_pos; lra).
        apply Rle_trans with ((2 * e + 2 * w * uround * B) / tol_d * tol_d).
        - replace ((2 * e + 2 * w * uround * B) / tol_d * tol_d) with (2 * e + 2 * (w * (uround * B))) by (field; lra). lra.
        - apply Rmult_le_compat_l; [|exact Hd]. unfold Rdiv. apply Rmult_le_pos; [lra|left; apply Rinv_0_lt_compat; lra]. }
      assert (Hk' := Hk). fold w in Hk'.
      set (be := bend hp d0 g M) in *. set (no := (2 * e + 2 * w * uround * B) / tol_d) in *.
      assert ((w - 1 + w * (2 * h + / 250000000 + / 500000000) + 13 / 10 * M * Rabs d / (Rabs y * Rabs y)) * Rabs d
        <= (w - 1 + w * (2 * h + / 100000000) + be) * Rabs d).
      { apply Rmult_le_compat_r; [exact D0|]. assert (w * (2 * h + / 250000000 + / 500000000) <= w * (2 * h + / 100000000)) by (apply Rmult_le_compat_l; lra). lra. }
      assert ((w - 1 + w * (2 * h + / 100000000) + be + no) * Rabs d <= k * Rabs d) by (apply Rmult_le_compat_r; lra).
      lra.
Qed.

Lemma k_pos : 0 <= d0 -> 0 <= k.
Proof.
  intros Z. assert (W := w_1). assert (G0 := tame_g _ _ _ _ _ _ _ T). assert (M0 := tame_M _ _ _ _ _ _ _ T). assert (U := u_tiny16). fold w in Hk.
  assert (0 <= bend hp d0 g M).
  { unfold bend, Rdiv. fold w. apply Rmult_le_pos; [apply Rmult_le_pos; [apply Rmult_le_pos; lra|apply Rmult_le_pos; lra]|]. left. apply Rinv_0_lt_compat. apply Rmult_lt_0_compat; lra. }
  assert (0 <= (2 * e + 2 * w * uround * B) / tol_d).
  { apply Rmult_le_pos; [|left; apply Rinv_0_lt_compat; lra]. assert (0 <= w * (uround * B)) by (apply Rmult_le_pos; [lra|apply Rmult_le_pos; lra]). lra. }
  assert (0 <= w * (2 * h + / 100000000)) by (apply Rmult_le_pos; lra). lra.
Qed.

(** at the head of the loop after [m] passes, all of them improvements *)
Definition going (dS : R) (m : nat) (st : dstate) : Prop :=
  exists s x d, d_s st = Some s /\ d_xx st = Some x /\ is_double s /\ I s /\ here s x d
  /\ Rabs d <= dS * k ^ m /\ Rabs d < Rabs (d_prevDist st) /\ 0 <= d_alpha st <= / 1000000000.

Lemma alpha_falls a : 0 <= a <= / 1000000000 -> 0 <= rnd (a * alphaDecr_d) <= / 1000000000.
Proof.
  intros H. assert (DE := decr_err). apply Rabs_le_inv in DE. assert (U := u_tiny16).
  assert (A0 : 0 <= a * alphaDecr_d) by (apply Rmult_le_pos; lra).
  assert (A1 : a * alphaDecr_d <= / 1000000000 * (2 / 10)) by (apply Rmult_le_compat; lra).
  split; [rewrite <- rnd_0; apply round_le; auto with typeclass_instances|].
  assert (E := rnd_err (a * alphaDecr_d)). rewrite (Rabs_pos_eq _ A0) in E. apply Rabs_le_inv in E.
  assert (LS : least <= uround * / 1000000000000000000). 
  { apply least_u400. apply Rle_trans with (bpow radix2 (-60)); [apply bpow_le; lia|]. change (bpow radix2 (-60)) with (/ 1152921504606846976). lra. }
  assert (uround * (a * alphaDecr_d) <= / 1000000000000000 * (/ 1000000000 * (2 / 10))) by (apply Rmult_le_compat; lra). lra.
Qed.

Lemma going_loop dS n : 0 <= dS -> 2 * dS <= d0 -> dS * k ^ 100 < tol_d -> forall m st, (m + n = 101)%nat -> (m <= 100)%nat -> going dS m st ->
  exists s x d, newton_loop_d L S hp rp n st = inl (s, x) /\ is_double s /\ I s /\ here s x d /\ Rabs d < tol_d.
Proof.
  intros H0 H2 HE. assert (KP := k_pos ltac:(lra)). induction n as [|n IH]; intros m st Hm Hm2 G; [lia|].
  destruct G as (s & x & d & E1 & E2 & Ds & Is & Hx & Hd & Hp & Ha). cbn [newton_loop_d]. unfold newton_step_d. rewrite E1, E2.
  assert (Hx0 := Hx). destruct Hx as [P1 P2]. rewrite P2. change newton_eps_d with tol_d.
  destruct (Rlt_dec (Rabs d) tol_d) as [LT|GE].
  - exists s, x, d. auto.
  - destruct (Rlt_dec (Rabs d) (Rabs (d_prevDist st))) as [_|N]; [|lra].
    assert (Km : k ^ m <= 1). { rewrite <- (pow1 m). apply pow_incr. lra. }
    assert (Km0 : 0 <= k ^ m) by (apply pow_le; lra).
    assert (dm : dS * k ^ m <= dS * 1) by (apply Rmult_le_compat_l; lra).
    assert (A := alpha_falls (d_alpha st) Ha).
    destruct (step_good s x d (rnd (d_alpha st * alphaDecr_d)) Ds Is Hx0 ltac:(lra) ltac:(lra) A) as (s' & x' & d' & N1 & Ds' & Is' & Hx' & Hd').
    rewrite N1. assert (m <> 100%nat). { intros ->. lra. }
    apply (IH (Datatypes.S m)); [lia|lia|]. exists s', x', d'. cbn [d_s d_xx d_prevDist d_alpha point_o].
    split; [reflexivity|]. split; [destruct Hx' as [-> _]; reflexivity|]. split; [exact Ds'|]. split; [exact Is'|]. split; [exact Hx'|].
    assert (Dp := Rabs_pos d). split; [|split; [|exact A]].
    + eapply Rle_trans; [exact Hd'|]. replace (dS * k ^ Datatypes.S m) with (k * (dS * k ^ m)) by (cbn [pow]; ring). apply Rmult_le_compat_l; lra.
    + eapply Rle_lt_trans; [exact Hd'|]. assert (0 < Rabs d) by lra. replace (Rabs d) with (1 * Rabs d) at 2 by ring. apply Rmult_lt_compat_r; lra.
Qed.

Lemma near_cross s d : I s -> Rabs (d - phi s) <= e -> Rabs d < tol_d ->
  forall s', I s' -> phi s' = 0 -> 2 * M * Rabs (s' - s) <= g -> Rabs (s' - s) < 2 * (tol_d + e) / g.
Proof.
  intros Is E D s' Is' Z H.
  assert (LN := tame_linear _ _ _ _ _ _ _ T s s' Is Is'). assert (Rg := tame_rate _ _ _ _ _ _ _ T s Is).
  assert (G0 := tame_g _ _ _ _ _ _ _ T). fold (phi s) (phi s') in LN. rewrite Z in LN.
  set (G := rate surf hp f s) in *. set (x := s' - s) in *.
  assert (P : Rabs (phi s) < tol_d + e). { replace (phi s) with (d - (d - phi s)) by ring. eapply Rle_lt_trans; [apply Rabs_triang|]. rewrite Rabs_Ropp. lra. }
  assert (A : Rabs (G * x) <= Rabs (phi s) + M * (x * x)).
  { replace (G * x) with (- phi s - (0 - phi s - G * x)) by ring. eapply Rle_trans; [apply Rabs_triang|]. rewrite !Rabs_Ropp. lra. }
  rewrite Rabs_mult in A. replace (x * x) with (Rabs x * Rabs x) in A by (rewrite <- Rabs_mult; apply Rabs_pos_eq, Rle_0_sqr).
  assert (Px := Rabs_pos x). apply Rmult_lt_reg_r with g; auto.
  replace (2 * (tol_d + e) / g * g) with (2 * (tol_d + e)) by (field; lra).
  assert (g * Rabs x <= Rabs G * Rabs x) by (apply Rmult_le_compat_r; lra).
  assert (2 * M * Rabs x * Rabs x <= g * Rabs x) by (apply Rmult_le_compat_r; lra). lra.
Qed.

Lemma converges s0 x0 dd mode cb : is_double s0 -> I s0 -> measured L S hp rp s0 x0 dd -> 2 * Rabs dd <= d0 -> Rabs dd * k ^ 100 < tol_d ->
  exists s x d, intersectWithSurfaceNewton_d L S surf hp rp s0 mode cb = (mode_ok mode s && bounds surf cb x, (s, Some x))
  /\ is_double s /\ I s /\ measured L S hp rp s x d /\ Rabs d < tol_d /\ Rabs (phi s) < tol_d + e
  /\ forall s', I s' -> phi s' = 0 -> 2 * M * Rabs (s' - s) <= g -> Rabs (s' - s) < 2 * (tol_d + e) / g.
Proof.
  intros Ds Is Hx H2 HE. assert (DP := Rabs_pos dd).
  assert (U := u_tiny16).
  assert (G : going (Rabs dd) 0 (DS (Some s0) (finite (pointAt_d L s0 hp rp)) (finite (pointAt_d L s0 hp rp)) s0 10000000000 (rnd (/ 10000000000)))).
  { exists s0, x0, dd. cbn [d_s d_xx d_prevDist d_alpha pow]. assert (Hx' := Hx). destruct Hx as [P1 P2]. rewrite P1. cbn [finite].
    repeat (split; [first [reflexivity|assumption]|]). split; [lra|]. split; [rewrite (Rabs_pos_eq 10000000000) by lra; lra|].
    assert (E := rnd_err (/ 10000000000)). rewrite (Rabs_pos_eq (/ 10000000000)) in E by lra. apply Rabs_le_inv in E.
    assert (LS : least <= uround * / 1000000000000000000). 
    { apply least_u400. apply Rle_trans with (bpow radix2 (-60)); [apply bpow_le; lia|]. change (bpow radix2 (-60)) with (/ 1152921504606846976). lra. }
    assert (uround * / 10000000000 <= / 1000000000000000 * / 10000000000) by (apply Rmult_le_compat_r; lra). lra. }
  destruct (going_loop (Rabs dd) 101 DP H2 HE 0 _ eq_refl ltac:(lia) G) as (s & x & d & E & Ds' & Is' & Hx' & Hd).
  exists s, x, d. unfold intersectWithSurfaceNewton_d. change newton_budget with 101%nat. rewrite E.
  split; [reflexivity|]. split; [exact Ds'|]. split; [exact Is'|]. split; [exact Hx'|]. split; [exact Hd|].
  assert (ED : Rabs (d - phi s) <= e).
  { destruct (fa_here _ _ _ _ _ _ _ _ _ _ _ F s Ds' Is') as (x1 & d1 & n & tg & c & [P1 P2] & Ed & _).
    destruct Hx' as [Q1 Q2]. rewrite P1 in Q1. injection Q1 as <-. rewrite P2 in Q2. injection Q2 as <-. exact Ed. }
  split; [|apply (near_cross s d Is' ED Hd)].
  replace (phi s) with (d - (d - phi s)) by ring. eapply Rle_lt_trans; [apply Rabs_triang|]. rewrite Rabs_Ropp. lra.
Qed.
End Search.
