(** Proofs about the double precision wrapping loops (C11). *)
From Coq Require Import Reals ZArith Lra Lia Psatz.
From Flocq Require Import Core.
From Verif Require Import Num FloatWrap.
Open Scope R_scope.

Notation fexp := (FLT_exp (-1074) 53).

Local Instance vfe : Valid_exp fexp.
Proof. apply FLT_exp_valid. reflexivity. Qed.

Lemma fmt_rnd x : is_double (rnd x).
Proof. apply generic_format_round; auto with typeclass_instances. Qed.

Lemma rnd_id x : is_double x -> rnd x = x.
Proof. intros H. apply round_generic; auto with typeclass_instances. Qed.

Lemma rnd_le x y : x <= y -> rnd x <= rnd y.
Proof. intros H. apply round_le; auto with typeclass_instances. Qed.

Lemma rnd_opp x : rnd (- x) = - rnd x.
Proof. apply round_NE_opp. Qed.

(** a point closer than half a unit to a grid point rounds to it *)
Lemma rnd_near y n e : cexp radix2 fexp y = e ->
  Rabs (y - IZR n * bpow radix2 e) < bpow radix2 e / 2 ->
  rnd y = IZR n * bpow radix2 e.
Proof.
  intros He Hd. unfold rnd, round, F2R, scaled_mantissa. simpl. rewrite He.
  f_equal. f_equal. apply Znearest_imp.
  assert (P := bpow_gt_0 radix2 e).
  replace (y * bpow radix2 (- e) - IZR n) with ((y - IZR n * bpow radix2 e) * bpow radix2 (- e)).
  - rewrite Rabs_mult, (Rabs_pos_eq (bpow radix2 (- e))) by apply bpow_ge_0.
    apply Rmult_lt_reg_r with (bpow radix2 e); auto.
    rewrite Rmult_assoc, <- bpow_plus. replace (- e + e)%Z with 0%Z by lia. simpl. lra.
  - rewrite Rmult_minus_distr_r, Rmult_assoc, <- bpow_plus.
    replace (e + - e)%Z with 0%Z by lia. simpl. ring.
Qed.

Lemma double_multiple x e : is_double x -> (e <= cexp radix2 fexp x)%Z ->
  exists n, x = IZR n * bpow radix2 e.
Proof.
  intros H He. unfold is_double, generic_format in H.
  set (m := Ztrunc (scaled_mantissa radix2 fexp x)) in *.
  set (c := cexp radix2 fexp x) in *.
  exists (m * radix2 ^ (c - e))%Z. rewrite mult_IZR, IZR_Zpower by lia.
  rewrite Rmult_assoc, <- bpow_plus. replace (c - e + e)%Z with c by lia.
  rewrite H at 1. reflexivity.
Qed.

Definition B56 : R := 72057594037927936.
Lemma B56_bpow : B56 = bpow radix2 56.
Proof. reflexivity. Qed.

Lemma dTwoPi_eq : dTwoPi = 2 * dPi.
Proof.
  apply rnd_id. unfold dPi.
  apply generic_format_FLT. exists (Float radix2 884279719003555 (-47)); try reflexivity.
  - unfold F2R; simpl. lra.
  - simpl. lia.
Qed.

Lemma dHalfPi_eq : dHalfPi = dPi / 2.
Proof.
  apply rnd_id. unfold dPi.
  apply generic_format_FLT. exists (Float radix2 884279719003555 (-49)); try reflexivity.
  - unfold F2R; simpl. lra.
  - simpl. lia.
Qed.

Lemma double_B56 : is_double B56.
Proof. rewrite B56_bpow. apply generic_format_bpow. unfold FLT_exp. simpl. lia. Qed.

Lemma mag_big y k : bpow radix2 (k - 1) <= y -> (k <= mag radix2 y)%Z.
Proof.
  intros H. apply mag_ge_bpow. rewrite Rabs_pos_eq; auto.
  generalize (bpow_gt_0 radix2 (k - 1)); lra.
Qed.

Lemma cexp_ge y : B56 <= y -> (4 <= cexp radix2 fexp y)%Z.
Proof.
  intros H. rewrite B56_bpow in H. assert (M := mag_big y 57 H).
  unfold cexp, FLT_exp. lia.
Qed.

Lemma cexp_le x y : 0 < y -> y <= x -> (cexp radix2 fexp y <= cexp radix2 fexp x)%Z.
Proof.
  intros H1 H2. unfold cexp, FLT_exp.
  assert (mag radix2 y <= mag radix2 x)%Z by (apply mag_le; auto). lia.
Qed.

Lemma double_big x : is_double x -> B56 < x -> B56 + 16 <= x.
Proof.
  intros H Hx. destruct (double_multiple x 4 H) as [n Hn]; [apply cexp_ge; lra|].
  assert (E : B56 = IZR 4503599627370496 * bpow radix2 4) by (unfold B56; simpl; lra).
  rewrite E in Hx |- *. rewrite Hn in Hx |- *.
  assert (P : 0 < bpow radix2 4) by apply bpow_gt_0.
  apply Rmult_lt_reg_r in Hx; auto. apply lt_IZR in Hx.
  assert (IZR (4503599627370496 + 1) <= IZR n) by (apply IZR_le; lia).
  rewrite plus_IZR in H0. simpl bpow in *. lra.
Qed.

(** small decrements are absorbed *)
Lemma absorb_down x d : is_double x -> B56 < x -> 0 <= d < 8 -> rnd (x - d) = x.
Proof.
  intros H Hx Hd. assert (H16 := double_big x H Hx).
  assert (C4 : (4 <= cexp radix2 fexp (x - d))%Z) by (apply cexp_ge; lra).
  assert (Cx : (cexp radix2 fexp (x - d) <= cexp radix2 fexp x)%Z)
    by (apply cexp_le; unfold B56 in *; lra).
  destruct (double_multiple x _ H Cx) as [n Hn].
  rewrite Hn at 2. apply rnd_near; auto. rewrite <- Hn.
  replace (x - d - x) with (- d) by ring. rewrite Rabs_Ropp, Rabs_pos_eq by lra.
  assert (bpow radix2 4 <= bpow radix2 (cexp radix2 fexp (x - d))) by (apply bpow_le; auto).
  simpl (bpow radix2 4) in H0. lra.
Qed.

Lemma absorb_up_56 d : 0 <= d < 8 -> rnd (B56 + d) = B56.
Proof.
  intros Hd.
  assert (E : B56 = IZR 4503599627370496 * bpow radix2 4) by (unfold B56; simpl; lra).
  rewrite E at 2. apply rnd_near.
  - unfold cexp. rewrite (mag_unique radix2 (B56 + d) 57).
    + reflexivity.
    + rewrite Rabs_pos_eq by (unfold B56; lra).
      change (bpow radix2 (57 - 1)) with B56.
      replace (bpow radix2 57) with (2 * B56) by (unfold B56; simpl; lra).
      unfold B56. lra.
  - rewrite <- E. replace (B56 + d - B56) with d by ring. rewrite Rabs_pos_eq by lra.
    simpl bpow. lra.
Qed.

(** below 2^56 the error of an operation is at most 4 *)
Lemma rnd_err y : Rabs y < B56 -> Rabs (rnd y - y) <= 4.
Proof.
  intros H.
  assert (A : Rabs (rnd y - y) <= / 2 * ulp radix2 fexp y) by (apply error_le_half_ulp; auto with typeclass_instances).
  destruct (Req_dec y 0) as [E|E].
  { subst y. unfold rnd. rewrite round_0 by auto with typeclass_instances.
    rewrite Rminus_0_r, Rabs_R0. lra. }
  rewrite ulp_neq_0 in A by auto.
  assert (M : (mag radix2 y <= 56)%Z) by (apply mag_le_bpow; auto).
  assert (C : (cexp radix2 fexp y <= 3)%Z) by (unfold cexp, FLT_exp; lia).
  apply (bpow_le radix2) in C. simpl (bpow radix2 3) in C. lra.
Qed.

Lemma dTwoPi_bounds : 6 < dTwoPi < 7.
Proof. rewrite dTwoPi_eq. unfold dPi. lra. Qed.

Lemma dloop_down_stuck fuel hi x : is_double x -> B56 < x -> hi <= B56 ->
  dloop_down fuel hi x = Diverge.
Proof.
  intros H Hx Hh. induction fuel as [|n IH]; simpl; auto.
  destruct (Rlt_dec hi x); [|lra].
  rewrite absorb_down; auto. generalize dTwoPi_bounds; lra.
Qed.

Lemma dloop_down_ends hi : 0 <= hi -> forall n x, is_double x -> x <= B56 -> x - hi <= 2 * INR n ->
  exists y, dloop_down (S n) hi x = Ok y /\ y <= hi /\ is_double y /\ (hi < x -> hi - 11 < y) /\ (x <= hi -> y = x).
Proof.
  intros Hh. generalize dTwoPi_bounds; intros HB.
  induction n as [|n IH]; intros x D Hx Hm.
  - simpl in Hm. exists x. simpl. destruct (Rlt_dec hi x); [lra|].
    repeat split; auto; lra.
  - rewrite S_INR in Hm. remember (S n) as m. simpl. destruct (Rlt_dec hi x) as [L|L].
    + subst m.
      assert (Ea : Rabs (x - dTwoPi) < B56) by (apply Rabs_def1; unfold B56 in *; lra).
      assert (E := rnd_err _ Ea). apply Rabs_le_inv in E.
      destruct (IH (rnd (x - dTwoPi))) as (y & Ey & Y1 & Y2 & Y3 & Y4).
      * apply fmt_rnd.
      * lra.
      * lra.
      * exists y. split; auto. split; auto. split; auto. split.
        -- intros _. destruct (Rlt_dec hi (rnd (x - dTwoPi))); [auto|].
           rewrite Y4 by lra. lra.
        -- lra.
    + exists x. repeat split; auto; lra.
Qed.

Lemma dloop_up_down fuel lo x :
  dloop_up fuel lo x = match dloop_down fuel (- lo) (- x) with Ok y => Ok (- y) | r => r end.
Proof.
  revert x. induction fuel as [|n IH]; intros x; simpl; auto.
  destruct (Rlt_dec x lo); destruct (Rlt_dec (- lo) (- x)); try lra.
  - rewrite IH. rewrite <- rnd_opp.
    replace (- (x + dTwoPi)) with (- x - dTwoPi) by ring. reflexivity.
  - rewrite Ropp_involutive. reflexivity.
Qed.

Lemma double_opp x : is_double x -> is_double (- x).
Proof. apply generic_format_opp. Qed.

Lemma enough_fuel d : exists n, d <= 2 * INR n.
Proof.
  exists (Z.to_nat (up (Rabs d))). rewrite INR_IZR_INZ.
  destruct (archimed (Rabs d)) as [A _]. generalize (Rabs_pos d) (Rle_abs d); intros P Q.
  assert (0 < IZR (up (Rabs d))) by lra. apply lt_IZR in H.
  rewrite Z2Nat.id by lia. lra.
Qed.

Lemma dloop_up_stuck fuel lo x : is_double x -> x < - B56 -> - B56 <= lo ->
  dloop_up fuel lo x = Diverge.
Proof.
  intros H Hx Hl. rewrite dloop_up_down, dloop_down_stuck; auto; try lra. apply double_opp; auto.
Qed.

Lemma fuel_mono_down n m hi x y : (n <= m)%nat -> dloop_down n hi x = Ok y -> dloop_down m hi x = Ok y.
Proof.
  revert m x. induction n as [|n IH]; intros m x Hm; simpl; [discriminate|].
  destruct m as [|m]; [lia|]. simpl. destruct (Rlt_dec hi x); auto. apply IH. lia.
Qed.

Lemma fuel_mono_up n m hi x y : (n <= m)%nat -> dloop_up n hi x = Ok y -> dloop_up m hi x = Ok y.
Proof.
  revert m x. induction n as [|n IH]; intros m x Hm; simpl; [discriminate|].
  destruct m as [|m]; [lia|]. simpl. destruct (Rlt_dec x hi); auto. apply IH. lia.
Qed.

(** the wrapped start value *)
Lemma fi0_range phi0 : is_double phi0 ->
  (Rabs phi0 <= B56 -> Rabs (rnd (phi0 - dHalfPi)) <= B56)
  /\ (B56 < phi0 -> rnd (phi0 - dHalfPi) = phi0)
  /\ (phi0 < - B56 -> rnd (phi0 - dHalfPi) < - B56).
Proof.
  intros H.
  assert (HP : 1 < dHalfPi < 2) by (rewrite dHalfPi_eq; unfold dPi; lra).
  split; [|split].
  - intros Hp. apply Rabs_le_inv in Hp. apply Rabs_le. split.
    + apply Rle_trans with (rnd (- (B56 + dHalfPi))).
      * rewrite rnd_opp, absorb_up_56 by lra. lra.
      * apply rnd_le. lra.
    + apply Rle_trans with (rnd B56); [apply rnd_le; lra|]. rewrite rnd_id; [lra | apply double_B56].
  - intros Hp. apply absorb_down; auto. lra.
  - intros Hp. apply Rle_lt_trans with (rnd phi0); [apply rnd_le; lra|]. rewrite rnd_id; auto.
Qed.

Lemma wrap_double phi0 : is_double phi0 ->
  (Rabs phi0 <= B56 ->
     exists n z, (forall m, (n <= m)%nat -> wrap_fi0_d m phi0 = Ok z) /\ -11 < z <= dTwoPi)
  /\ (B56 < Rabs phi0 -> forall n, wrap_fi0_d n phi0 = Diverge).
Proof.
  intros H. destruct (fi0_range phi0 H) as (A & B & C).
  generalize dTwoPi_bounds; intros HB. split.
  - intros Hp. specialize (A Hp). apply Rabs_le_inv in A. unfold wrap_fi0_d.
    set (x := rnd (phi0 - dHalfPi)) in *.
    assert (Dx : is_double x) by apply fmt_rnd.
    destruct (enough_fuel (- x - - 0)) as [n Hn].
    destruct (dloop_down_ends (- 0) ltac:(lra) n (- x)) as (y & Ey & Y1 & Y2 & Y3 & Y4).
    { apply double_opp; auto. } { lra. } { auto. }
    assert (Eu : dloop_up (S n) 0 x = Ok (- y)) by (rewrite dloop_up_down, Ey; reflexivity).
    assert (Yb : - y <= B56).
    { destruct (Rlt_dec (-0) (- x)).
      - assert (-0 - 11 < y) by auto. unfold B56. lra.
      - rewrite Y4 by lra. lra. }
    destruct (enough_fuel (- y - dTwoPi)) as [m Hm].
    destruct (dloop_down_ends dTwoPi ltac:(lra) m (- y)) as (z & Ez & Z1 & Z2 & Z3 & Z4).
    { apply double_opp; auto. } { lra. } { auto. }
    exists (S (n + m)), z. split.
    + intros k Hk. rewrite (fuel_mono_up (S n) k 0 x (- y)) by (auto; lia). simpl bind.
      apply fuel_mono_down with (S m); [lia|auto].
    + split; auto. destruct (Rlt_dec dTwoPi (- y)).
      * assert (dTwoPi - 11 < z) by auto. lra.
      * rewrite Z4 by lra. lra.
  - intros Hp n. unfold wrap_fi0_d.
    destruct (Rle_lt_dec 0 phi0) as [L|L].
    + rewrite Rabs_pos_eq in Hp by auto. rewrite (B Hp). destruct n; auto.
      simpl. destruct (Rlt_dec phi0 0); [lra|]. simpl bind.
      apply (dloop_down_stuck (S n) dTwoPi phi0); auto. unfold B56; lra.
    + rewrite Rabs_left in Hp by auto. rewrite dloop_up_stuck; auto.
      * apply fmt_rnd.
      * apply C. lra.
      * unfold B56; lra.
Qed.

Lemma B56_pow : B56 = 2 ^ 56.
Proof. unfold B56. simpl. lra. Qed.

Lemma wrap_double_iff phi0 : is_double phi0 ->
  ((exists n z, wrap_fi0_d n phi0 = Ok z) <-> Rabs phi0 <= 2 ^ 56)
  /\ (2 ^ 56 < Rabs phi0 -> forall n, wrap_fi0_d n phi0 = Diverge).
Proof.
  intros H. rewrite <- B56_pow. destruct (wrap_double phi0 H) as [A B]. split; [|exact B].
  split.
  - intros (n & z & E). destruct (Rle_lt_dec (Rabs phi0) B56) as [L|L]; auto.
    rewrite (B L n) in E. discriminate.
  - intros L. destruct (A L) as (n & z & E & _). exists n, z. apply E. auto.
Qed.

Lemma double_example : is_double (2 ^ 57) /\ 2 ^ 56 < Rabs (2 ^ 57).
Proof.
  split.
  - replace (2 ^ 57) with (bpow radix2 57) by (simpl; lra).
    apply generic_format_bpow. unfold FLT_exp. simpl. lia.
  - rewrite Rabs_pos_eq; [apply Rlt_pow; [lra | lia] | apply pow_le; lra].
Qed.
