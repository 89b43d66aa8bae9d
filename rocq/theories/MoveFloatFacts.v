(** Rounding errors of moveHelixTo. *)
From Coq Require Import Reals ZArith Lra Lia Psatz.
From Flocq Require Import Core.
From Verif Require Import Num Vec NumFacts FloatWrap PointFloat SpecRound RoundFacts PointFloatFacts SpecPath PathTrig PathFloatFacts
  MoveFloat SpecMoveFloat.
Open Scope R_scope.

Lemma least_u : 1000000 * least <= uround * bpow radix2 (-300) /\ 1000000 * least <= uround.
Proof.
  assert (U : uround = bpow radix2 (-53)) by (change (bpow radix2 (-53)) with (/ 9007199254740992); reflexivity).
  assert (A : 1000000 * least <= bpow radix2 (-353)).
  { apply Rle_trans with (bpow radix2 20 * least).
    - apply Rmult_le_compat_r; [apply Rlt_le, least_pos|]. change (bpow radix2 20) with 1048576. lra.
    - unfold least. rewrite <- bpow_plus. apply bpow_le. lia. }
  split; [rewrite U, <- bpow_plus; exact A|]. rewrite U. eapply Rle_trans; [exact A|]. apply bpow_le. lia.
Qed.

(** an operation with a result of size [B] *)
Lemma rdk x B : Rabs x <= B -> B <= bpow radix2 1000 -> rd x = Ok (rnd x) /\ Rabs (rnd x - x) <= uround * B + least.
Proof.
  intros H K. split; [apply rd_ok; lra|]. eapply Rle_trans; [apply rnd_err|]. assert (U := u_small).
  assert (uround * Rabs x <= uround * B) by (apply Rmult_le_compat_l; lra). lra.
Qed.
Lemma rd1 x B : Rabs x <= B -> B <= 1000 -> rd x = Ok (rnd x) /\ Rabs (rnd x - x) <= uround * (B + / 1000000).
Proof.
  intros H K. destruct (rdk x B H) as [A E].
  - apply Rle_trans with (bpow radix2 10); [change (bpow radix2 10) with 1024; lra|apply bpow_le; lia].
  - split; [exact A|]. destruct least_u as [_ Lu]. lra.
Qed.

(** ** the loops *)
Lemma dPi_num : 314159 / 100000 < dPi < 31416 / 10000 /\ dPi <= PI /\ PI - dPi <= 2 * uround /\ dTwoPi = 2 * dPi /\ dHalfPi = dPi / 2.
Proof.
  assert (C := dPi_close). apply Rabs_le_inv in C. split; [unfold dPi; lra|]. split.
  - destruct (Machin.PI_2_3_7_ineq 12) as [A _]. unfold AltSeries.tg_alt, Machin.PI_2_3_7_tg, Ratan.Ratan_seq in A.
    cbn [sum_f_R0 Nat.mul Nat.add INR pow] in A. unfold dPi. lra.
  - split; [lra|]. split; [apply FloatWrapFacts.dTwoPi_eq|apply FloatWrapFacts.dHalfPi_eq].
Qed.

Lemma two_pi_step x B : Rabs (x + dTwoPi) <= B -> B <= 1000 -> Rabs (rnd (x + dTwoPi) - x - 2 * PI) <= uround * (B + 41 / 10).
Proof.
  intros H K. destruct (rd1 _ _ H K) as [_ E]. destruct dPi_num as (_ & P1 & P2 & P3 & _). assert (U := u_small).
  apply Rabs_le_inv in E. apply Rabs_le. rewrite P3 in *. lra.
Qed.
Lemma two_pi_down x B : Rabs (x - dTwoPi) <= B -> B <= 1000 -> Rabs (rnd (x - dTwoPi) - x + 2 * PI) <= uround * (B + 41 / 10).
Proof.
  intros H K. destruct (rd1 _ _ H K) as [_ E]. destruct dPi_num as (_ & P1 & P2 & P3 & _). assert (U := u_small).
  apply Rabs_le_inv in E. apply Rabs_le. rewrite P3 in *. lra.
Qed.

(** the value is in the range and differs from a whole number of turns by little *)
Lemma wrap_ok fuel lo hi x : (3 <= fuel)%nat -> is_double x -> is_double lo -> Rabs x <= 8 -> - (35 / 10) <= lo <= 0 -> hi = lo + dTwoPi ->
  exists z k, wrap_d fuel lo hi x = Ok z /\ is_double z /\ lo <= z <= hi /\ Rabs (z - x - 2 * IZR k * PI) <= 24 * uround.
Proof.
  intros F D DL HX HL HH. destruct fuel as [|[|[|n]]]; try lia. clear F.
  destruct dPi_num as (PN & P1 & P2 & P3 & _). assert (U := u_small). apply Rabs_le_inv in HX.
  assert (UP : exists y k, dloop_up (S (S (S n))) lo x = Ok y /\ is_double y /\ lo <= y /\ y <= 8 /\ Rabs (y - x - 2 * IZR k * PI) <= 163 / 10 * uround).
  { cbn [dloop_up]. destruct (Rlt_dec x lo) as [A|A].
    - assert (E : Rabs (rnd (x + dTwoPi) - x - 2 * PI) <= uround * (63 / 10 + 41 / 10)) by (apply two_pi_step; [apply Rabs_le|]; lra).
      set (x1 := rnd (x + dTwoPi)) in *.
      assert (D1 : is_double x1) by apply rnd_double.
      destruct (Rlt_dec x1 lo) as [A1|A1].
      + assert (E1 : Rabs (x1 - x - 2 * PI) <= uround * (18 / 10 + 41 / 10)).
        { unfold x1. apply two_pi_step; [|lra]. apply Rabs_le_inv in E. apply Rabs_le. lra. }
        assert (E2 : Rabs (rnd (x1 + dTwoPi) - x1 - 2 * PI) <= uround * (63 / 10 + 41 / 10)).
        { apply two_pi_step; [|lra]. apply Rabs_le_inv in E1. apply Rabs_le. lra. }
        apply Rabs_le_inv in E1. apply Rabs_le_inv in E2.
        destruct (Rlt_dec (rnd (x1 + dTwoPi)) lo) as [A2|A2]; [lra|].
        exists (rnd (x1 + dTwoPi)), 2%Z. split; [reflexivity|]. split; [apply rnd_double|]. split; [lra|]. split; [lra|]. apply Rabs_le. lra.
      + apply Rabs_le_inv in E. exists x1, 1%Z. split; [reflexivity|]. split; [auto|]. split; [lra|]. split; [lra|]. apply Rabs_le. lra.
    - exists x, 0%Z. split; [reflexivity|]. split; [auto|]. split; [lra|]. split; [lra|]. apply Rabs_le. lra. }
  destruct UP as (y & k & Q & Dy & Y1 & Y2 & Ey). unfold wrap_d. rewrite Q. cbn [bind]. apply Rabs_le_inv in Ey.
  cbn [dloop_down]. destruct (Rlt_dec hi y) as [A|A].
  - assert (E : Rabs (rnd (y - dTwoPi) - y + 2 * PI) <= uround * (4 - 5 / 10 + 41 / 10)).
    { apply two_pi_down; [|lra]. apply Rabs_le. rewrite HH in A. split; [|lra]. lra. }
    apply Rabs_le_inv in E. destruct (Rlt_dec hi (rnd (y - dTwoPi))) as [A1|A1]; [lra|].
    exists (rnd (y - dTwoPi)), (k - 1)%Z. split; [reflexivity|]. split; [apply rnd_double|]. split.
    + split; [|lra]. rewrite <- (rnd_id lo DL). apply FloatWrapFacts.rnd_le. lra.
    + rewrite minus_IZR. apply Rabs_le. lra.
  - exists y, k. split; [reflexivity|]. split; [auto|]. split; [lra|]. apply Rabs_le. lra.
Qed.

(** ** the sine *)
Lemma sine_ok L fi : accurate L -> is_double fi -> 0 <= fi <= dTwoPi -> exists s,
  sine_d fi (m_cos L fi) = Ok s /\ is_double s /\ Rabs (s * s - sin fi * sin fi) <= 11 * uround
  /\ Rabs (s - sin fi) <= / 16777216 /\ Rabs (s - sin fi) * Rabs (sin fi) <= 11 * uround.
Proof.
  intros HL D F. assert (U := u_small). destruct least_u as [_ Lu]. destruct dPi_num as (PN & P1 & P2 & P3 & _).
  set (cs := m_cos L fi). set (c := cos fi). set (sn := sin fi).
  assert (EC : Rabs (cs - c) <= 2001 / 1000 * uround).
  { assert (W := cos_err L fi fi 0 HL D ltac:(rewrite Rminus_diag_eq, Rabs_R0 by reflexivity; lra)). fold cs c in W. lra. }
  assert (BC := COS_bound fi). fold c in BC. assert (BS := SIN_bound fi). fold sn in BS.
  assert (T1 : sn * sn + c * c = 1) by (unfold sn, c; apply sc1).
  apply Rabs_le_inv in EC.
  destruct (rd1 (1 - cs) (2001 / 1000)) as [A1 A2]; [apply Rabs_le; lra|lra|].
  destruct (rd1 (1 + cs) (2001 / 1000)) as [B1 B2]; [apply Rabs_le; lra|lra|].
  assert (A3 := rnd_err (1 - cs)). assert (B3 := rnd_err (1 + cs)).
  set (a := rnd (1 - cs)) in *. set (b := rnd (1 + cs)) in *.
  assert (W : Rabs (a * b - (1 - cs) * (1 + cs)) <= 25 / 10 * uround).
  { assert (G := near_size _ _ _ B3).
    assert (AB : Rabs (1 - cs) * Rabs (1 + cs) <= 1001 / 1000).
    { rewrite <- Rabs_mult. apply Rabs_le. split; nra. }
    assert (PA := Rabs_pos (1 - cs)). assert (PB := Rabs_pos (1 + cs)).
    assert (LA : Rabs (1 - cs) <= 2001 / 1000) by (apply Rabs_le; lra).
    assert (LB : Rabs (1 + cs) <= 2001 / 1000) by (apply Rabs_le; lra).
    assert (Pb := Rabs_pos b). assert (LE := least_pos).
    assert (Lb : Rabs b <= 3) by nra.
    replace (a * b - (1 - cs) * (1 + cs)) with ((a - (1 - cs)) * b + (1 - cs) * (b - (1 + cs))) by ring.
    eapply Rle_trans; [apply Rabs_triang|]. rewrite !Rabs_mult.
    assert (Q1 : Rabs (a - (1 - cs)) * Rabs b <= uround * (Rabs (1 - cs) * Rabs b) + least * 3).
    { apply Rle_trans with ((uround * Rabs (1 - cs) + least) * Rabs b); [apply Rmult_le_compat_r; auto|]. nra. }
    assert (Q2 : Rabs (1 - cs) * Rabs (b - (1 + cs)) <= uround * (Rabs (1 - cs) * Rabs (1 + cs)) + 3 * least).
    { apply Rle_trans with (Rabs (1 - cs) * (uround * Rabs (1 + cs) + least)); [apply Rmult_le_compat_l; auto|]. nra. }
    assert (Q3 : Rabs (1 - cs) * Rabs b <= 1002 / 1000).
    { apply Rle_trans with (Rabs (1 - cs) * (Rabs (1 + cs) + (uround * Rabs (1 + cs) + least))); [apply Rmult_le_compat_l; auto|]. nra. }
    assert (uround * (Rabs (1 - cs) * Rabs b) <= uround * (1002 / 1000)) by (apply Rmult_le_compat_l; lra).
    assert (uround * (Rabs (1 - cs) * Rabs (1 + cs)) <= uround * (1001 / 1000)) by (apply Rmult_le_compat_l; lra).
    lra. }
  assert (W2 : Rabs ((1 - cs) * (1 + cs) - sn * sn) <= 41 / 10 * uround).
  { replace ((1 - cs) * (1 + cs) - sn * sn) with ((c - cs) * (c + cs)) by (replace (sn * sn) with (1 - c * c) by lra; ring).
    rewrite Rabs_mult. apply Rle_trans with ((2001 / 1000 * uround) * (2001 / 1000)); [|lra].
    apply Rmult_le_compat; try apply Rabs_pos; apply Rabs_le; lra. }
  assert (SB : 0 <= sn * sn <= 1) by nra.
  assert (W3 : Rabs (a * b - sn * sn) <= 66 / 10 * uround).
  { replace (a * b - sn * sn) with ((a * b - (1 - cs) * (1 + cs)) + ((1 - cs) * (1 + cs) - sn * sn)) by ring.
    eapply Rle_trans; [apply Rabs_triang|]. lra. }
  apply Rabs_le_inv in W3.
  destruct (rd1 (a * b) (1001 / 1000)) as [C1 C2]; [apply Rabs_le; lra|lra|].
  set (d := rnd (a * b)) in *. apply Rabs_le_inv in C2.
  assert (M1 : Rabs (Rmax 0 d - sn * sn) <= 8 * uround).
  { apply Rabs_le. unfold Rmax. destruct Rle_dec; lra. }
  assert (M0 : 0 <= Rmax 0 d) by apply Rmax_l.
  set (t := sqrt (Rmax 0 d)). assert (TT : t * t = Rmax 0 d) by (apply sqrt_sqrt; auto). assert (T0 : 0 <= t) by apply sqrt_pos.
  rewrite <- TT in M1. apply Rabs_le_inv in M1. assert (TB : t <= 1001 / 1000) by nra.
  destruct (rd1 t (1001 / 1000)) as [_ S2]; [rewrite Rabs_pos_eq; lra|lra|].
  assert (S0 : 0 <= rnd t) by (rewrite <- rnd_0; apply FloatWrapFacts.rnd_le; auto).
  set (s := rnd t) in *. apply Rabs_le_inv in S2.
  assert (SS : Rabs (s * s - sn * sn) <= 105 / 10 * uround) by (apply Rabs_le; split; nra).
  assert (ABS : Rabs (s * s - sn * sn) = Rabs (s - Rabs sn) * (s + Rabs sn)).
  { rewrite <- (Rabs_pos_eq (s + Rabs sn)) by (assert (Q := Rabs_pos sn); lra). rewrite <- Rabs_mult. f_equal.
    assert (Q : Rabs sn * Rabs sn = sn * sn) by (rewrite <- Rabs_mult; apply Rabs_pos_eq; lra). rewrite <- Q. ring. }
  assert (N0 := Rabs_pos sn). assert (G0 := Rabs_pos (s - Rabs sn)).
  assert (G1 : Rabs (s - Rabs sn) * Rabs sn <= 105 / 10 * uround) by nra.
  assert (G2 : Rabs (s - Rabs sn) <= / 20000000).
  { assert (Q : Rabs (s - Rabs sn) <= s + Rabs sn) by (apply Rabs_le; lra).
    assert (Q2 : Rabs (s - Rabs sn) * Rabs (s - Rabs sn) <= 105 / 10 * uround) by nra.
    apply Rnot_lt_le. intros X. assert (/ 20000000 * / 20000000 < Rabs (s - Rabs sn) * Rabs (s - Rabs sn)) by (apply Rmult_le_0_lt_compat; lra).
    unfold uround in Q2. lra. }
  exists (if Rlt_dec dPi fi then - s else s).
  split; [unfold sine_d; fold cs; rewrite A1; cbn [bind]; fold a; rewrite B1; cbn [bind]; fold b; rewrite C1; cbn [bind]; reflexivity|].
  split; [destruct Rlt_dec; [apply FloatWrapFacts.double_opp|]; apply rnd_double|].
  split; [destruct Rlt_dec; [replace (- s * - s) with (s * s) by ring|]; lra|].
  destruct (Rlt_dec dPi fi) as [X|X].
  - destruct (Rle_dec PI fi) as [Y|Y].
    + assert (sn <= 0) by (unfold sn; apply sin_le_0; lra).
      replace (- s - sn) with (- (s - Rabs sn)) by (rewrite Rabs_left1 by auto; ring). rewrite Rabs_Ropp. lra.
    + assert (Z : Rabs sn <= 2 * uround).
      { unfold sn. replace (sin fi) with (sin fi - sin PI) by (rewrite sin_PI; ring). eapply Rle_trans; [apply sin_lip|]. apply Rabs_le. lra. }
      assert (Q : Rabs (- s - sn) <= / 18000000).
      { apply Rabs_le_inv in G2. apply Rabs_le_inv in Z. apply Rabs_le. unfold uround in Z. unfold Rabs in G2. destruct Rcase_abs; lra. }
      split; [lra|]. apply Rle_trans with (/ 18000000 * (2 * uround)); [|lra]. apply Rmult_le_compat; auto using Rabs_pos.
  - assert (0 <= sn) by (unfold sn; apply sin_ge_0; lra). rewrite (Rabs_pos_eq sn) in * by auto. lra.
Qed.

(** ** the normalisation *)
Lemma norm_ok cs s c sn : Rabs (cs - c) <= 2001 / 1000 * uround -> Rabs (s * s - sn * sn) <= 11 * uround -> sn * sn + c * c = 1 ->
  let n2 := rnd (rnd (cs * cs) + rnd (s * s)) in let an := rnd (1 / rnd (sqrt n2)) in
  rd (cs * cs) = Ok (rnd (cs * cs)) /\ rd (s * s) = Ok (rnd (s * s)) /\ rd (rnd (cs * cs) + rnd (s * s)) = Ok n2
  /\ rd_div 1 (rnd (sqrt n2)) = Ok an /\ Rabs (an - 1) <= 21 * uround
  /\ rd (cs * an) = Ok (rnd (cs * an)) /\ Rabs (rnd (cs * an) - c) <= 25 * uround
  /\ rd (s * an) = Ok (rnd (s * an)) /\ Rabs (rnd (s * an) - s) <= 23 * uround.
Proof.
  intros EC ES T n2 an. assert (U := u_small). apply Rabs_le_inv in EC. apply Rabs_le_inv in ES.
  assert (BC : -1 <= c <= 1) by (split; nra). assert (BS : 0 <= sn * sn <= 1) by (split; nra).
  assert (E1 : Rabs (cs * cs - c * c) <= 401 / 100 * uround).
  { replace (cs * cs - c * c) with ((cs - c) * (cs + c)) by ring. rewrite Rabs_mult.
    apply Rle_trans with ((2001 / 1000 * uround) * (2001 / 1000)); [|lra].
    apply Rmult_le_compat; try apply Rabs_pos; apply Rabs_le; lra. }
  apply Rabs_le_inv in E1.
  destruct (rd1 (cs * cs) (1001 / 1000)) as [C1 C2]; [apply Rabs_le; nra|lra|].
  destruct (rd1 (s * s) (1001 / 1000)) as [S1 S2]; [apply Rabs_le; nra|lra|].
  apply Rabs_le_inv in C2. apply Rabs_le_inv in S2.
  destruct (rd1 (rnd (cs * cs) + rnd (s * s)) (1001 / 1000)) as [N1 N2]; [apply Rabs_le; lra|lra|].
  fold n2 in N1, N2. apply Rabs_le_inv in N2.
  assert (EN : Rabs (n2 - 1) <= 181 / 10 * uround) by (apply Rabs_le; lra).
  assert (NP : 0 <= n2) by (apply Rabs_le_inv in EN; lra).
  assert (EQ : Rabs (sqrt n2 - 1) <= 181 / 10 * uround).
  { assert (Q := sqrt_sqrt n2 NP). assert (Q0 := sqrt_pos n2). set (q := sqrt n2) in *.
    replace (n2 - 1) with ((q - 1) * (q + 1)) in EN by (rewrite <- Q; ring). rewrite Rabs_mult, (Rabs_pos_eq (q + 1)) in EN by lra.
    assert (P := Rabs_pos (q - 1)). nra. }
  apply Rabs_le_inv in EQ.
  destruct (rd1 (sqrt n2) (1001 / 1000)) as [_ Q2]; [apply Rabs_le; lra|lra|]. apply Rabs_le_inv in Q2.
  assert (EM : Rabs (rnd (sqrt n2) - 1) <= 192 / 10 * uround) by (apply Rabs_le; lra). apply Rabs_le_inv in EM.
  set (m := rnd (sqrt n2)) in *. clearbody m.
  assert (EI : Rabs (1 / m - 1) <= 193 / 10 * uround).
  { assert (MP : 999 / 1000 <= m) by lra. replace (1 / m - 1) with ((1 - m) * / m) by (field; lra). rewrite Rabs_mult.
    assert (I0 : 0 < / m) by (apply Rinv_0_lt_compat; lra).
    assert (I : m * / m = 1) by (apply Rinv_r; lra).
    rewrite (Rabs_pos_eq (/ m)) by lra. set (i := / m) in *. clearbody i.
    assert (i <= 1 + 20 * uround) by nra.
    assert (Rabs (1 - m) <= 192 / 10 * uround) by (apply Rabs_le; lra).
    apply Rle_trans with ((192 / 10 * uround) * (1 + 20 * uround)); [apply Rmult_le_compat; try lra; apply Rabs_pos|]. nra. }
  apply Rabs_le_inv in EI.
  destruct (rd1 (1 / m) (1001 / 1000)) as [I1 I2]; [apply Rabs_le; lra|lra|]. fold an in I1, I2. apply Rabs_le_inv in I2.
  assert (EA : Rabs (an - 1) <= 204 / 10 * uround) by (apply Rabs_le; lra).
  assert (ST : forall v, -1001 / 1000 <= v <= 1001 / 1000 -> rd (v * an) = Ok (rnd (v * an)) /\ Rabs (rnd (v * an) - v) <= 22 * uround).
  { intros v V. assert (EV : Rabs (v * an - v) <= 205 / 10 * uround).
    { replace (v * an - v) with (v * (an - 1)) by ring. rewrite Rabs_mult.
      apply Rle_trans with (1001 / 1000 * (204 / 10 * uround)); [|lra]. apply Rmult_le_compat; auto using Rabs_pos. apply Rabs_le. lra. }
    apply Rabs_le_inv in EV. destruct (rd1 (v * an) (1002 / 1000)) as [V1 V2]; [apply Rabs_le; lra|lra|].
    split; [exact V1|]. apply Rabs_le_inv in V2. apply Rabs_le. lra. }
  destruct (ST cs) as [K1 K2]; [lra|]. destruct (ST s) as [L1 L2]; [split; nra|].
  split; [exact C1|]. split; [exact S1|]. split; [exact N1|].
  split; [unfold rd_div; destruct Req_EM_T; [lra|exact I1]|]. split; [lra|]. split; [exact K1|].
  split; [apply Rabs_le_inv in K2; apply Rabs_le; lra|]. split; [exact L1|]. lra.
Qed.

(** ** angles *)
Lemma turn_cos x y k e : Rabs (x - y - 2 * IZR k * PI) <= e -> Rabs (cos x - cos y) <= e /\ Rabs (sin x - sin y) <= e.
Proof.
  intros H. rewrite <- (cos_2kpi y k), <- (sin_2kpi y k).
  replace (x - y - 2 * IZR k * PI) with (x - (y + 2 * IZR k * PI)) in H by ring.
  split; (eapply Rle_trans; [|exact H]); [apply cos_lip|apply sin_lip].
Qed.

Lemma fi0_ok fuel phi : (3 <= fuel)%nat -> is_double phi -> Rabs phi <= 2 * PI ->
  exists z k, wrap_d fuel 0 dTwoPi (rnd (phi - dHalfPi)) = Ok z /\ is_double z /\ 0 <= z <= dTwoPi
  /\ Rabs (z - (phi - PI / 2) - 2 * IZR k * PI) <= 34 * uround.
Proof.
  intros F D B. destruct dPi_num as (PN & P1 & P2 & P3 & P4). assert (U := u_small). apply Rabs_le_inv in B.
  destruct (rd1 (phi - dHalfPi) (79 / 10)) as [_ E]; [apply Rabs_le; lra|lra|]. apply Rabs_le_inv in E.
  destruct (wrap_ok fuel 0 dTwoPi (rnd (phi - dHalfPi)) F) as (z & k & Q & Dz & Rz & Ez); try lra.
  - apply rnd_double.
  - apply generic_format_0.
  - apply Rabs_le. lra.
  - exists z, k. split; [exact Q|]. split; [exact Dz|]. split; [exact Rz|]. apply Rabs_le_inv in Ez. apply Rabs_le. lra.
Qed.

(** the direction of a vector or of its opposite *)
Definition points_along (wx wy fp : R) : Prop :=
  exists rho, rho * rho <= wx * wx + wy * wy
  /\ Rabs (wx - rho * cos fp) <= 31 * uround * Rabs rho /\ Rabs (wy - rho * sin fp) <= 31 * uround * Rabs rho
  /\ Rabs (wx * cos fp + wy * sin fp - rho) <= 31 * uround * Rabs rho.

Lemma along_angle wx wy sg a fp k : sg * sg = 1 -> angle_of (sg * wy) (sg * wx) a -> Rabs (fp - a - 2 * IZR k * PI) <= 31 * uround ->
  points_along wx wy fp.
Proof.
  intros SG (_ & X & Y) E. destruct (turn_cos _ _ _ _ E) as [EC ES].
  replace (sg * wx * (sg * wx) + sg * wy * (sg * wy)) with ((sg * sg) * (wx * wx + wy * wy)) in X, Y by ring. rewrite SG, Rmult_1_l in X, Y.
  set (rho := sqrt (wx * wx + wy * wy)) in *. assert (R0 : 0 <= rho) by apply sqrt_pos.
  assert (RR : rho * rho = wx * wx + wy * wy) by (apply sqrt_sqrt; nra).
  assert (AS : Rabs sg = 1).
  { assert (Q : Rabs sg * Rabs sg = 1) by (rewrite <- Rabs_mult, SG; apply Rabs_R1). assert (P := Rabs_pos sg). nra. }
  assert (WX : wx = sg * rho * cos a) by (replace wx with (sg * (sg * wx)) by (rewrite <- Rmult_assoc, SG; ring); rewrite <- X; ring).
  assert (WY : wy = sg * rho * sin a) by (replace wy with (sg * (sg * wy)) by (rewrite <- Rmult_assoc, SG; ring); rewrite <- Y; ring).
  assert (AR : Rabs (sg * rho) = rho) by (rewrite Rabs_mult, AS, Rmult_1_l; apply Rabs_pos_eq; auto).
  exists (sg * rho). rewrite AR. split; [|split; [|split]].
  - replace (sg * rho * (sg * rho)) with ((sg * sg) * (rho * rho)) by ring. rewrite SG, RR. lra.
  - rewrite WX at 1. replace (sg * rho * cos a - sg * rho * cos fp) with (- (sg * rho * (cos fp - cos a))) by ring.
    rewrite Rabs_Ropp, Rabs_mult, AR. rewrite Rmult_comm. apply Rmult_le_compat_r; auto.
  - rewrite WY at 1. replace (sg * rho * sin a - sg * rho * sin fp) with (- (sg * rho * (sin fp - sin a))) by ring.
    rewrite Rabs_Ropp, Rabs_mult, AR. rewrite Rmult_comm. apply Rmult_le_compat_r; auto.
  - rewrite WX, WY. replace (sg * rho * cos a * cos fp + sg * rho * sin a * sin fp - sg * rho) with (sg * rho * (cos (fp - a) - cos 0)) by (rewrite cos_minus, cos_0; ring).
    rewrite Rabs_mult, AR, Rmult_comm. apply Rmult_le_compat_r; auto. rewrite <- (cos_2kpi 0 k). eapply Rle_trans; [apply cos_lip|].
    replace (fp - a - (0 + 2 * IZR k * PI)) with (fp - a - 2 * IZR k * PI) by ring. exact E.
Qed.

Lemma fi0p_ok fuel L at2 cpa xc yc xv yv wx wy : (3 <= fuel)%nat -> good_library L at2 -> origin_ok at2 -> cpa <> 0 ->
  rd (xc - xv) = Ok wx -> rd (yc - yv) = Ok wy -> exists fp,
  fi0p_d fuel at2 cpa xc yc xv yv = Ok fp /\ is_double fp /\ 0 <= fp <= dTwoPi /\ points_along wx wy fp.
Proof.
  intros F HL HO HC EX EY. assert (U := u_small). destruct least_u as [_ Lu]. assert (P := PI_num).
  assert (VX := rd_spec _ _ EX). assert (VY := rd_spec _ _ EY).
  assert (DX : is_double wx) by (rewrite VX; apply rnd_double). assert (DY : is_double wy) by (rewrite VY; apply rnd_double).
  assert (OPP : forall p q w, rd (p - q) = Ok w -> rd (q - p) = Ok (- w)).
  { intros p q w. unfold rd. replace (q - p) with (- (p - q)) by ring. rewrite FloatWrapFacts.rnd_opp, Rabs_Ropp.
    destruct Rlt_dec; [|discriminate]. intros Q. injection Q as <-. reflexivity. }
  assert (K : exists sg, sg * sg = 1 /\ fi0p_d fuel at2 cpa xc yc xv yv = wrap_d fuel 0 dTwoPi (at2 (sg * wy) (sg * wx))).
  { unfold fi0p_d. destruct (Rlt_dec 0 cpa) as [A|A].
    - exists 1. split; [ring|]. rewrite EY. cbn [bind]. rewrite EX. cbn [bind]. destruct Rlt_dec; [lra|]. cbn [bind]. rewrite !Rmult_1_l. reflexivity.
    - exists (-1). split; [ring|]. cbn [bind]. destruct Rlt_dec; [|lra]. rewrite (OPP _ _ _ EY). cbn [bind]. rewrite (OPP _ _ _ EX). cbn [bind].
      replace (- wy) with (-1 * wy) by ring. replace (- wx) with (-1 * wx) by ring. reflexivity. }
  destruct K as (sg & SG & K). rewrite K. clear K.
  assert (DS : forall w, is_double w -> is_double (sg * w)).
  { intros w Dw. assert (sg = 1 \/ sg = -1) as [Q|Q] by nra; rewrite Q.
    - rewrite Rmult_1_l. auto. - replace (-1 * w) with (- w) by ring. apply FloatWrapFacts.double_opp. auto. }
  assert (A : is_double (at2 (sg * wy) (sg * wx)) /\ Rabs (at2 (sg * wy) (sg * wx)) <= 4 /\ exists a, angle_of (sg * wy) (sg * wx) a /\
     (Rabs (at2 (sg * wy) (sg * wx) - a) <= 64 / 10 * uround \/ wx = 0 /\ wy = 0)).
  { destruct (Req_dec wx 0) as [ZX|NX]; [destruct (Req_dec wy 0) as [ZY|NY]|].
    - rewrite ZX, ZY, Rmult_0_r. destruct HO as [O1 O2]. split; [exact O1|]. split; [lra|]. exists 0. split; [|right; auto].
      split; [lra|]. replace (0 * 0 + 0 * 0) with 0 by ring. rewrite sqrt_0. split; ring.
    - destruct (gl_atan2 _ _ HL (sg * wy) (sg * wx)) as (D1 & a & G & E); auto; [right; nra|].
      split; [exact D1|]. destruct G as (G1 & G2). assert (AA : Rabs a <= PI) by (apply Rabs_le; lra).
      assert (2 * uround * Rabs a <= 2 * uround * PI) by (apply Rmult_le_compat_l; lra).
      assert (EE : Rabs (at2 (sg * wy) (sg * wx) - a) <= 64 / 10 * uround) by nra.
      assert (Z := near_size _ _ _ EE). split; [lra|]. exists a. split; [split; auto|left; auto].
    - destruct (gl_atan2 _ _ HL (sg * wy) (sg * wx)) as (D1 & a & G & E); auto; [left; nra|].
      split; [exact D1|]. destruct G as (G1 & G2). assert (AA : Rabs a <= PI) by (apply Rabs_le; lra).
      assert (2 * uround * Rabs a <= 2 * uround * PI) by (apply Rmult_le_compat_l; lra).
      assert (EE : Rabs (at2 (sg * wy) (sg * wx) - a) <= 64 / 10 * uround) by nra.
      assert (Z := near_size _ _ _ EE). split; [lra|]. exists a. split; [split; auto|left; auto]. }
  destruct A as (D1 & B1 & a & G & E). set (t := at2 (sg * wy) (sg * wx)) in *.
  destruct (wrap_ok fuel 0 dTwoPi t F D1) as (fp & k & Q & Dz & Rz & Ez); try lra; [apply generic_format_0|].
  exists fp. split; [exact Q|]. split; [exact Dz|]. split; [exact Rz|].
  destruct E as [E|[ZX ZY]].
  - apply (along_angle wx wy sg a fp k SG G). apply Rabs_le_inv in E. apply Rabs_le_inv in Ez. apply Rabs_le. lra.
  - rewrite ZX, ZY. exists 0. rewrite !Rabs_R0. repeat split; try lra; rewrite ?Rmult_0_l, ?Rminus_0_r, ?Rplus_0_l, ?Rmult_0_r, ?Rabs_R0; lra.
Qed.

Lemma dPi_double : is_double dPi.
Proof.
  unfold dPi. apply generic_format_FLT. exists (Float radix2 884279719003555 (-48)); try reflexivity. simpl. lia.
Qed.

Lemma fid_ok fuel fp fi : (3 <= fuel)%nat -> is_double fp -> is_double fi -> 0 <= fp <= dTwoPi -> 0 <= fi <= dTwoPi ->
  exists d k, fid_d fuel fp fi = Ok d /\ is_double d /\ - dPi <= d <= dPi /\ Rabs (d - (fp - fi) - 2 * IZR k * PI) <= 38 * uround.
Proof.
  intros F Dp Di Bp Bi. destruct dPi_num as (PN & P1 & P2 & P3 & P4). assert (U := u_small).
  destruct (rd1 (fp - fi) (63 / 10)) as [Q E]; [apply Rabs_le; lra|lra|]. apply Rabs_le_inv in E.
  destruct (wrap_ok fuel 0 dTwoPi (rnd (fp - fi)) F) as (z & k & Qz & Dz & Rz & Ez); try lra.
  - apply rnd_double.
  - apply generic_format_0.
  - apply Rabs_le. lra.
  - apply Rabs_le_inv in Ez. unfold fid_d. rewrite Q. cbn [bind]. rewrite Qz. cbn [bind]. destruct (Rlt_dec dPi z) as [A|A].
    + assert (S := two_pi_down z (32 / 10) ltac:(apply Rabs_le; lra) ltac:(lra)). apply Rabs_le_inv in S.
      destruct (rd1 (z - dTwoPi) (32 / 10)) as [Q2 _]; [apply Rabs_le; lra|lra|].
      exists (rnd (z - dTwoPi)), (k - 1)%Z. split; [exact Q2|]. split; [apply rnd_double|]. rewrite minus_IZR. split; [|apply Rabs_le; lra].
      split; [|lra]. rewrite <- (rnd_id (- dPi)) by (apply FloatWrapFacts.double_opp, dPi_double). apply FloatWrapFacts.rnd_le. lra.
    + exists z, k. split; [reflexivity|]. split; [exact Dz|]. split; [lra|apply Rabs_le; lra].
Qed.

Lemma phi_ok fuel fp : (3 <= fuel)%nat -> is_double fp -> 0 <= fp <= dTwoPi ->
  exists z k, wrap_d fuel (- dPi) dPi (rnd (fp + dHalfPi)) = Ok z /\ is_double z /\ - dPi <= z <= dPi
  /\ Rabs (z - (fp + PI / 2) - 2 * IZR k * PI) <= 34 * uround.
Proof.
  intros F Dp Bp. destruct dPi_num as (PN & P1 & P2 & P3 & P4). assert (U := u_small).
  destruct (rd1 (fp + dHalfPi) (79 / 10)) as [_ E]; [apply Rabs_le; lra|lra|]. apply Rabs_le_inv in E.
  destruct (wrap_ok fuel (- dPi) dPi (rnd (fp + dHalfPi)) F) as (z & k & Q & Dz & Rz & Ez); try lra.
  - apply rnd_double.
  - apply FloatWrapFacts.double_opp, dPi_double.
  - apply Rabs_le. lra.
  - exists z, k. split; [exact Q|]. split; [exact Dz|]. split; [exact Rz|]. apply Rabs_le_inv in Ez. apply Rabs_le. lra.
Qed.

(** ** distances: errors in units of [uround] times the extent [S] *)
Section D.
Variable S : R.
Hypothesis SL : 1000000 * least <= uround * S.
Hypothesis SU : S <= bpow radix2 300.
Let u := uround.

Lemma S0 : 0 < S.
Proof. assert (U := u_small). assert (P := least_pos). assert (0 < uround * S) by lra. nra. Qed.
Lemma rS x k : Rabs x <= k * S -> k <= 1000 -> rd x = Ok (rnd x) /\ Rabs (rnd x - x) <= (k + / 1000000) * (uround * S).
Proof.
  intros H K. assert (P := S0). destruct (rdk x (k * S) H) as [A E].
  - apply Rle_trans with (bpow radix2 10 * bpow radix2 300); [|rewrite <- bpow_plus; apply bpow_le; lia].
    change (bpow radix2 10) with 1024. generalize (bpow_gt_0 radix2 300). nra.
  - split; [exact A|]. lra.
Qed.

(** the coordinate of the centre *)
Lemma centre_ok x0 e rdr g' g eg : Rabs x0 + Rabs e <= S -> Rabs (rdr - e) <= 201 / 100 * (u * S) -> Rabs (g' - g) <= eg -> Rabs g <= 1 -> eg <= / 1000 ->
  rd (rdr * g') = Ok (rnd (rdr * g')) /\ rd (x0 + rnd (rdr * g')) = Ok (rnd (x0 + rnd (rdr * g')))
  /\ Rabs (rnd (x0 + rnd (rdr * g')) - (x0 + e * g)) <= eg * S + 42 / 10 * (u * S).
Proof.
  intros HS HE HG G1 EG. assert (P := S0). assert (U := u_small). fold u in U.
  assert (PX := Rabs_pos x0). assert (PE := Rabs_pos e). assert (US : 0 < u * S) by (apply Rmult_lt_0_compat; lra).
  assert (UL : u * S <= / 1000000 * S) by (apply Rmult_le_compat_r; lra).
  assert (SZ := near_size _ _ _ HE). assert (GZ := near_size _ _ _ HG). assert (EG0 : 0 <= eg) by (eapply Rle_trans; [apply Rabs_pos|exact HG]).
  assert (M : Rabs (rdr * g' - e * g) <= 201 / 100 * (u * S) * (1001 / 1000) + S * eg) by (apply mul_err; auto; lra).
  assert (A : Rabs (rdr * g') <= 1002 / 1000 * S).
  { rewrite Rabs_mult. apply Rle_trans with ((S + 201 / 100 * (u * S)) * (1001 / 1000)); [apply Rmult_le_compat; try apply Rabs_pos; lra|lra]. }
  destruct (rS (rdr * g') (1002 / 1000) A) as [A1 A2]; [lra|]. fold u in A2.
  assert (B : Rabs (x0 + rnd (rdr * g')) <= 1003 / 1000 * S).
  { replace (x0 + rnd (rdr * g')) with ((x0 + e * g) + ((rnd (rdr * g') - rdr * g') + (rdr * g' - e * g))) by ring.
    eapply Rle_trans; [apply Rabs_triang|].
    assert (Rabs (x0 + e * g) <= S).
    { eapply Rle_trans; [apply Rabs_triang|]. rewrite Rabs_mult. nra. }
    assert (Q := Rabs_triang (rnd (rdr * g') - rdr * g') (rdr * g' - e * g)).
    assert (S * eg <= S * / 1000) by (apply Rmult_le_compat_l; lra). lra. }
  destruct (rS (x0 + rnd (rdr * g')) (1003 / 1000) B) as [B1 B2]; [lra|]. fold u in B2.
  split; [exact A1|]. split; [exact B1|].
  replace (rnd (x0 + rnd (rdr * g')) - (x0 + e * g)) with
    ((rnd (x0 + rnd (rdr * g')) - (x0 + rnd (rdr * g'))) + ((rnd (rdr * g') - rdr * g') + (rdr * g' - e * g))) by ring.
  assert (Q := Rabs_triang (rnd (rdr * g') - rdr * g') (rdr * g' - e * g)).
  eapply Rle_trans; [apply Rabs_triang|]. lra.
Qed.

(** the new distance from the centre *)
Lemma drp_ok L fp xc yc xv yv r q wx wy : accurate L -> is_double fp -> 0 <= fp <= dTwoPi -> points_along wx wy fp ->
  rd (xc - xv) = Ok wx -> rd (yc - yv) = Ok wy -> Rabs wx <= 102 / 100 * S -> Rabs wy <= 102 / 100 * S ->
  Rabs q <= S -> Rabs (r - q) <= 1001 / 1000 * (u * S) -> exists drp,
  drp_d L fp xc yc xv yv r = Ok drp
  /\ Rabs ((q + drp) * cos fp - wx) <= 320 * (u * S) /\ Rabs ((q + drp) * sin fp - wy) <= 320 * (u * S).
Proof.
  intros HL D F HP EX EY BX BY BQ ER. assert (P := S0). assert (U := u_small). fold u in U.
  assert (US : 0 < u * S) by (apply Rmult_lt_0_compat; lra).
  assert (UL : u * S <= / 1000000 * S) by (apply Rmult_le_compat_r; lra).
  destruct (sine_ok L fp HL D F) as (s & Qs & Ds & Es & Es1 & Es2). fold u in Es, Es2.
  destruct least_u as [_ Lu]. fold u in Lu.
  assert (EC : Rabs (m_cos L fp - cos fp) <= 2001 / 1000 * u).
  { assert (W := cos_err L fp fp 0 HL D ltac:(rewrite Rminus_diag_eq, Rabs_R0 by reflexivity; lra)). fold u in W. lra. }
  destruct (norm_ok (m_cos L fp) s (cos fp) (sin fp) EC Es (sc1 fp)) as (N1 & N2 & N3 & N4 & N5 & N6 & N7 & N8 & N9). fold u in N7, N9.
  set (an := rnd (1 / rnd (sqrt (rnd (rnd (m_cos L fp * m_cos L fp) + rnd (s * s)))))) in *.
  set (cn := rnd (m_cos L fp * an)) in *. set (sn := rnd (s * an)) in *.
  assert (BC := cos_1 fp). assert (BS := sin_1 fp).
  assert (CZ := near_size _ _ _ N7).
  assert (ESn : Rabs (sn - sin fp) <= / 16777216 + 23 * u).
  { replace (sn - sin fp) with ((sn - s) + (s - sin fp)) by ring. eapply Rle_trans; [apply Rabs_triang|]. lra. }
  assert (SZ := near_size _ _ _ ESn).
  destruct HP as (rho & R1 & PX & PY & PP). fold u in PX, PY, PP.
  assert (R2 : Rabs rho <= 16 / 10 * S).
  { assert (QX : wx * wx <= (102 / 100 * S) * (102 / 100 * S)).
    { rewrite <- (Rabs_pos_eq (wx * wx)) by nra. rewrite Rabs_mult. apply Rmult_le_compat; auto using Rabs_pos. }
    assert (QY : wy * wy <= (102 / 100 * S) * (102 / 100 * S)).
    { rewrite <- (Rabs_pos_eq (wy * wy)) by nra. rewrite Rabs_mult. apply Rmult_le_compat; auto using Rabs_pos. }
    apply Rnot_lt_le. intros X. assert (QR : (16 / 10 * S) * (16 / 10 * S) < Rabs rho * Rabs rho) by (apply Rmult_le_0_lt_compat; lra).
    rewrite <- Rabs_mult, (Rabs_pos_eq (rho * rho)) in QR by nra. nra. }
  assert (X1 : Rabs (wx * cn) <= 103 / 100 * S).
  { rewrite Rabs_mult. apply Rle_trans with (102 / 100 * S * (1001 / 1000)); [apply Rmult_le_compat; try apply Rabs_pos; lra|lra]. }
  assert (Y1 : Rabs (wy * sn) <= 103 / 100 * S).
  { rewrite Rabs_mult. apply Rle_trans with (102 / 100 * S * (1001 / 1000)); [apply Rmult_le_compat; try apply Rabs_pos; lra|lra]. }
  destruct (rS _ _ X1) as [X2 X3]; [lra|]. destruct (rS _ _ Y1) as [Y2 Y3]; [lra|]. fold u in X3, Y3.
  assert (EX1 : Rabs (wx * cn - wx * cos fp) <= 26 * (u * S)).
  { replace (wx * cn - wx * cos fp) with (wx * (cn - cos fp)) by ring. rewrite Rabs_mult.
    apply Rle_trans with (102 / 100 * S * (25 * u)); [apply Rmult_le_compat; auto using Rabs_pos|lra]. }
  assert (UR2 : u * Rabs rho <= 16 / 10 * (u * S)).
  { apply Rle_trans with (u * (16 / 10 * S)); [apply Rmult_le_compat_l; lra|lra]. }
  assert (EY1 : Rabs (wy * sn - wy * sin fp) <= 55 * (u * S)).
  { replace (wy * sn - wy * sin fp) with (wy * (sn - s) + ((wy - rho * sin fp) * (s - sin fp) + rho * (sin fp * (s - sin fp)))) by ring.
    eapply Rle_trans; [apply Rabs_triang|].
    assert (Q1 : Rabs (wy * (sn - s)) <= 102 / 100 * S * (23 * u)) by (rewrite Rabs_mult; apply Rmult_le_compat; auto using Rabs_pos).
    assert (Q2 : Rabs ((wy - rho * sin fp) * (s - sin fp)) <= 31 * u * Rabs rho * (/ 16777216)) by (rewrite Rabs_mult; apply Rmult_le_compat; auto using Rabs_pos).
    assert (Q3 : Rabs (rho * (sin fp * (s - sin fp))) <= Rabs rho * (11 * u)).
    { rewrite Rabs_mult. apply Rmult_le_compat_l; [apply Rabs_pos|]. rewrite Rabs_mult, Rmult_comm. exact Es2. }
    assert (Q4 := Rabs_triang ((wy - rho * sin fp) * (s - sin fp)) (rho * (sin fp * (s - sin fp)))). lra. }
  assert (EW : Rabs (rnd (wx * cn) + rnd (wy * sn) - rho) <= 133 * (u * S)).
  { replace (rnd (wx * cn) + rnd (wy * sn) - rho) with ((rnd (wx * cn) - wx * cn) + ((rnd (wy * sn) - wy * sn) +
      ((wx * cn - wx * cos fp) + ((wy * sn - wy * sin fp) + (wx * cos fp + wy * sin fp - rho))))) by ring.
    eapply Rle_trans; [apply Rabs_triang|]. assert (Z1 := Rabs_triang (rnd (wy * sn) - wy * sn) ((wx * cn - wx * cos fp) + ((wy * sn - wy * sin fp) + (wx * cos fp + wy * sin fp - rho)))).
    assert (Z2 := Rabs_triang (wx * cn - wx * cos fp) ((wy * sn - wy * sin fp) + (wx * cos fp + wy * sin fp - rho))).
    assert (Z3 := Rabs_triang (wy * sn - wy * sin fp) (wx * cos fp + wy * sin fp - rho)). lra. }
  assert (W1 := near_size _ _ _ EW).
  destruct (rS (rnd (wx * cn) + rnd (wy * sn)) (161 / 100)) as [W2 W3]; [lra|lra|]. fold u in W3.
  set (w := rnd (rnd (wx * cn) + rnd (wy * sn))) in *.
  assert (RZ := near_size _ _ _ ER).
  assert (WZ : Rabs (w - r) <= 27 / 10 * S).
  { replace (w - r) with ((w - (rnd (wx * cn) + rnd (wy * sn))) + ((rnd (wx * cn) + rnd (wy * sn)) + - r)) by ring.
    eapply Rle_trans; [apply Rabs_triang|]. assert (Z := Rabs_triang (rnd (wx * cn) + rnd (wy * sn)) (- r)). rewrite Rabs_Ropp in Z. lra. }
  destruct (rS _ _ WZ) as [D2 D3]; [lra|]. fold u in D3.
  assert (EF : Rabs (q + rnd (w - r) - rho) <= 140 * (u * S)).
  { replace (q + rnd (w - r) - rho) with ((rnd (w - r) - (w - r)) + (- (r - q) + ((w - (rnd (wx * cn) + rnd (wy * sn))) + (rnd (wx * cn) + rnd (wy * sn) - rho)))) by ring.
    eapply Rle_trans; [apply Rabs_triang|].
    assert (Z1 := Rabs_triang (- (r - q)) ((w - (rnd (wx * cn) + rnd (wy * sn))) + (rnd (wx * cn) + rnd (wy * sn) - rho))). rewrite Rabs_Ropp in Z1.
    assert (Z2 := Rabs_triang (w - (rnd (wx * cn) + rnd (wy * sn))) (rnd (wx * cn) + rnd (wy * sn) - rho)). lra. }
  exists (rnd (w - r)). split.
  - unfold drp_d. rewrite Qs. cbn [bind]. rewrite N1. cbn [bind]. rewrite N2. cbn [bind]. rewrite N3. cbn [bind]. rewrite N4. cbn [bind].
    fold an. rewrite N6. cbn [bind]. rewrite N8. cbn [bind]. rewrite EX. cbn [bind]. fold cn sn. rewrite X2. cbn [bind]. rewrite EY. cbn [bind].
    rewrite Y2. cbn [bind]. rewrite W2. cbn [bind]. exact D2.
  - assert (ST : forall v g, Rabs g <= 1 -> Rabs (v - rho * g) <= 31 * u * Rabs rho -> Rabs ((q + rnd (w - r)) * g - v) <= 320 * (u * S)).
    { intros v g G V. replace ((q + rnd (w - r)) * g - v) with ((q + rnd (w - r) - rho) * g + - (v - rho * g)) by ring.
      eapply Rle_trans; [apply Rabs_triang|]. rewrite Rabs_Ropp, Rabs_mult.
      assert (Rabs (q + rnd (w - r) - rho) * Rabs g <= 140 * (u * S) * 1) by (apply Rmult_le_compat; auto using Rabs_pos). lra. }
    split; apply ST; auto.
Qed.
End D.
