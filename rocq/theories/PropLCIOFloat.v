(** Property C49: the round trip in floating point. *)
From Coq Require Import Reals List Bool ZArith Lra Lia Psatz.
From Flocq Require Import Core Relative.
From Verif Require Import Num Vec LCIO FloatWrap LCIOFloat.
Import ListNotations.
Open Scope R_scope.

Notation fexp32 := (FLT_exp (-149) 24).
Notation fexp64 := (FLT_exp (-1074) 53).

Local Instance vfe32 : Valid_exp fexp32.
Proof. apply FLT_exp_valid. reflexivity. Qed.
Local Instance vfe64 : Valid_exp fexp64.
Proof. apply FLT_exp_valid. reflexivity. Qed.

Definition u53 : R := / 9007199254740992.   (* 2^-53 *)

(** ** double rounding is relative *)
Lemma rnd_rel z : z = 0 \/ bpow radix2 (-1022) <= Rabs z ->
  exists e, Rabs e <= u53 /\ rnd z = z * (1 + e).
Proof.
  intros [->|H].
  - exists 0. split; [rewrite Rabs_R0; unfold u53; lra|]. unfold rnd. rewrite round_0 by auto with typeclass_instances. ring.
  - destruct (relative_error_N_FLT_ex radix2 (-1074) 53 eq_refl (fun x => negb (Z.even x)) z) as (e & He & Q).
    + exact H.
    + exists e. split; [|exact Q]. unfold u53. simpl in He. unfold Z.pow_pos in He. simpl in He. lra.
Qed.

(** ** floats *)
Lemma float_multiple x e : is_float x -> (e <= cexp radix2 fexp32 x)%Z ->
  exists n, x = IZR n * bpow radix2 e.
Proof.
  intros H He. unfold is_float, generic_format in H.
  set (m := Ztrunc (scaled_mantissa radix2 fexp32 x)) in *.
  set (c := cexp radix2 fexp32 x) in *.
  exists (m * radix2 ^ (c - e))%Z. rewrite mult_IZR, IZR_Zpower by lia.
  rewrite Rmult_assoc, <- bpow_plus. replace (c - e + e)%Z with c by lia.
  rewrite H at 1. reflexivity.
Qed.

Lemma float_ge x : is_float x -> x <> 0 -> bpow radix2 (-149) <= Rabs x.
Proof.
  intros F N. destruct (float_multiple x (-149) F) as [n Q].
  - unfold cexp, FLT_exp. lia.
  - rewrite Q, Rabs_mult, (Rabs_pos_eq (bpow _ _)) by apply bpow_ge_0.
    assert (n <> 0)%Z by (intros ->; apply N; rewrite Q; ring).
    rewrite <- abs_IZR. assert (1 <= IZR (Z.abs n)) by (apply IZR_le; lia).
    assert (P := bpow_gt_0 radix2 (-149)). nra.
Qed.

(** a number very close to a float converts to it *)
Lemma rndf_near x y : is_float x -> Rabs (y - x) <= Rabs x * / 1099511627776 -> rndf y = x.
Proof.
  intros F H. destruct (Req_dec x 0) as [->|N].
  - rewrite Rabs_R0, Rmult_0_l, Rminus_0_r in H.
    assert (y = 0) by (destruct (Req_dec y 0); auto; apply Rabs_pos_lt in H0; lra).
    subst y. apply round_0. auto with typeclass_instances.
  - assert (Rx := Rabs_pos_lt x N).
    assert (NP : Rabs (rndf y - y) <= Rabs (x - y)).
    { destruct (round_N_pt radix2 fexp32 (fun t => negb (Z.even t)) y) as [_ B]. apply B. exact F. }
    assert (D : Rabs (rndf y - x) <= Rabs x * / 549755813888).
    { replace (rndf y - x) with ((rndf y - y) + (y - x)) by ring.
      eapply Rle_trans; [apply Rabs_triang|]. rewrite (Rabs_minus_sym x y) in NP. lra. }
    set (f := rndf y) in *.
    assert (Ff : is_float f) by (apply generic_format_round; auto with typeclass_instances).
    set (e := cexp radix2 fexp32 x). set (e' := Z.max (e - 1) (-149)).
    assert (Lf : Rabs x / 2 <= Rabs f).
    { assert (Rabs x <= Rabs f + Rabs (x - f)).
      { replace x with (f + (x - f)) at 1 by ring. apply Rabs_triang. }
      rewrite (Rabs_minus_sym f x) in D. lra. }
    assert (Nf : f <> 0) by (intros Q; rewrite Q, Rabs_R0 in Lf; lra).
    assert (Mg : (mag radix2 x - 1 <= mag radix2 f)%Z).
    { apply mag_ge_bpow. destruct (mag radix2 x) as (ex & Bx). cbn [mag_val] in *.
      specialize (Bx N). eapply Rle_trans; [|exact Lf].
      replace (ex - 1 - 1)%Z with (ex - 1 + -1)%Z by lia. rewrite bpow_plus.
      change (bpow radix2 (-1)) with (/ 2). lra. }
    assert (Lx : Rabs x < bpow radix2 (e + 24)).
    { eapply Rlt_le_trans; [apply bpow_mag_gt|]. apply bpow_le. unfold e, cexp, FLT_exp. lia. }
    destruct (float_multiple x e' F) as [nx Qx]; [unfold e', e, cexp, FLT_exp; lia|].
    destruct (float_multiple f e' Ff) as [nf Qf]; [unfold e', e, cexp, FLT_exp; lia|].
    destruct (Z.eq_dec nf nx) as [->|Ne]; [congruence|]. exfalso.
    assert (D1 : bpow radix2 e' <= Rabs (f - x)).
    { rewrite Qf, Qx. replace (IZR nf * bpow radix2 e' - IZR nx * bpow radix2 e')
        with (IZR (nf - nx) * bpow radix2 e') by (rewrite minus_IZR; ring).
      rewrite Rabs_mult, (Rabs_pos_eq (bpow _ _)) by apply bpow_ge_0. rewrite <- abs_IZR.
      assert (1 <= IZR (Z.abs (nf - nx))) by (apply IZR_le; lia).
      assert (P := bpow_gt_0 radix2 e'). nra. }
    assert (D2 : bpow radix2 (e - 1) <= bpow radix2 e') by (apply bpow_le; unfold e'; lia).
    replace (e + 24)%Z with (e - 1 + 25)%Z in Lx by lia. rewrite bpow_plus in Lx.
    change (bpow radix2 25) with 33554432 in Lx.
    assert (P := bpow_gt_0 radix2 (e - 1)). lra.
Qed.

Lemma rndf_id x : is_float x -> rndf x = x.
Proof. intros H. apply round_generic; auto with typeclass_instances. Qed.

(** ** the conversions *)
Lemma tiny x k : is_float x -> / 70000 <= Rabs k -> x * k = 0 \/ bpow radix2 (-1022) <= Rabs (x * k).
Proof.
  intros F K. destruct (Req_dec x 0) as [->|N]; [left; ring|]. right.
  apply Rle_trans with (bpow radix2 (-149 + -17)); [apply bpow_le; lia|].
  rewrite bpow_plus, Rabs_mult. assert (L := float_ge x F N).
  change (bpow radix2 (-17)) with (/ 131072). assert (P := bpow_gt_0 radix2 (-149)).
  apply Rmult_le_compat; lra.
Qed.

Lemma step_rel x k : is_float x -> / 70000 <= Rabs k ->
  exists e, Rabs e <= u53 /\ rnd (x * k) = x * k * (1 + e).
Proof. intros F K. apply rnd_rel. apply tiny; auto. Qed.


Lemma unitlike_bounds e : Rabs e <= u53 -> 1 - u53 <= 1 + e <= 1 + u53.
Proof. intros H. apply Rabs_le_inv in H. lra. Qed.

Lemma rndf_factor x q : is_float x -> Rabs (q - 1) <= / 1099511627776 -> rndf (x * q) = x.
Proof.
  intros F H. apply rndf_near; auto. replace (x * q - x) with (x * (q - 1)) by ring.
  rewrite Rabs_mult. apply Rmult_le_compat_l; auto. apply Rabs_pos.
Qed.

Definition scale_ok (m : R) : Prop := / 16 <= m <= 16.

Lemma abs_ge a b : a <= b -> a <= Rabs b.
Proof. intros H. eapply Rle_trans; [exact H|apply Rle_abs]. Qed.

Lemma round_md m x : scale_ok m -> is_float x -> rndf (ddiv (dmul x m) m) = x.
Proof.
  intros M F. unfold ddiv, dmul, scale_ok in *.
  destruct (step_rel x m F) as (e1 & H1 & ->); [apply abs_ge; lra|].
  apply unitlike_bounds in H1.
  replace (x * m * (1 + e1) / m) with (x * (1 + e1)) by (field; lra).
  destruct (step_rel x (1 + e1) F) as (e2 & H2 & ->); [apply abs_ge; unfold u53 in *; lra|].
  apply unitlike_bounds in H2. rewrite Rmult_assoc. apply rndf_factor; auto.
  apply Rabs_le. unfold u53 in *. split; nra.
Qed.

Lemma round_dm m x : scale_ok m -> is_float x -> rndf (dmul (ddiv x m) m) = x.
Proof.
  intros M F. unfold ddiv, dmul, scale_ok in *.
  assert (I : / 16 <= / m).
  { apply Rinv_le; lra. }
  destruct (step_rel x (/ m) F) as (e1 & H1 & Q); [apply abs_ge; lra|].
  unfold Rdiv. rewrite Q. apply unitlike_bounds in H1.
  replace (x * / m * (1 + e1) * m) with (x * (1 + e1)) by (field; lra).
  destruct (step_rel x (1 + e1) F) as (e2 & H2 & ->); [apply abs_ge; unfold u53 in *; lra|].
  apply unitlike_bounds in H2. rewrite Rmult_assoc. apply rndf_factor; auto.
  apply Rabs_le. unfold u53 in *. split; nra.
Qed.

Lemma square_rel m : scale_ok m -> exists e, Rabs e <= u53 /\ dmul m m = m * m * (1 + e).
Proof.
  intros M. unfold scale_ok in M. apply rnd_rel. right.
  apply Rle_trans with (bpow radix2 (-8)); [apply bpow_le; lia|].
  change (bpow radix2 (-8)) with (/ 256). apply abs_ge. nra.
Qed.

Lemma three a b c d : 1 - u53 <= a <= 1 + u53 -> 1 - u53 <= b <= 1 + u53 -> 1 - u53 <= c <= 1 + u53 ->
  1 - u53 <= d <= 1 + u53 -> Rabs (a * b * c / d - 1) <= / 1099511627776.
Proof.
  intros A B C D. assert (0 < d) by (unfold u53 in *; lra).
  assert (P : 1 - 4 * u53 <= a * b * c <= 1 + 4 * u53).
  { assert (1 - 3 * u53 <= a * b <= 1 + 3 * u53) by (unfold u53 in *; split; nra).
    unfold u53 in *; split; nra. }
  replace (a * b * c / d - 1) with ((a * b * c - d) / d) by (field; lra).
  apply Rabs_le. split; apply Rmult_le_reg_r with d; auto;
    unfold Rdiv; rewrite ?Rmult_assoc, ?Rinv_l, ?Rmult_1_r by lra; unfold u53 in *; lra.
Qed.

Lemma round_mmd m x : scale_ok m -> is_float x -> rndf (ddiv (dmul (dmul x m) m) (dmul m m)) = x.
Proof.
  intros M F. destruct (square_rel m M) as (e3 & H3 & ->). apply unitlike_bounds in H3.
  unfold ddiv, dmul, scale_ok in *.
  destruct (step_rel x m F) as (e1 & H1 & ->); [apply abs_ge; lra|].
  apply unitlike_bounds in H1.
  replace (x * m * (1 + e1) * m) with (x * (m * m * (1 + e1))) by ring.
  assert (m * m >= / 256) by nra.
  destruct (step_rel x (m * m * (1 + e1)) F) as (e2 & H2 & ->); [apply abs_ge; unfold u53 in *; nra|].
  apply unitlike_bounds in H2.
  assert (0 < 1 + e3) by (unfold u53 in *; lra).
  replace (x * (m * m * (1 + e1)) * (1 + e2) / (m * m * (1 + e3)))
    with (x * ((1 + e1) * (1 + e2) / (1 + e3))) by (field; lra).
  assert (T : Rabs ((1 + e1) * (1 + e2) * 1 / (1 + e3) - 1) <= / 1099511627776)
    by (apply three; auto; unfold u53; lra).
  rewrite Rmult_1_r in T. apply Rabs_le_inv in T.
  destruct (step_rel x ((1 + e1) * (1 + e2) / (1 + e3)) F) as (e4 & H4 & ->); [apply abs_ge; lra|].
  apply unitlike_bounds in H4.
  replace (x * ((1 + e1) * (1 + e2) / (1 + e3)) * (1 + e4))
    with (x * ((1 + e1) * (1 + e2) * (1 + e4) / (1 + e3))) by (field; lra).
  apply rndf_factor; auto. apply three; auto.
Qed.

Lemma round_dmm m x : scale_ok m -> is_float x -> rndf (dmul (ddiv x (dmul m m)) (dmul m m)) = x.
Proof.
  intros M F. destruct (square_rel m M) as (e3 & H3 & ->). apply unitlike_bounds in H3.
  unfold ddiv, dmul, scale_ok in *.
  assert (A : 0 < m * m * (1 + e3) <= 257) by (unfold u53 in *; split; nra).
  set (k := m * m * (1 + e3)) in *.
  assert (I : / 257 <= / k) by (apply Rinv_le; lra).
  destruct (step_rel x (/ k) F) as (e1 & H1 & Q); [apply abs_ge; lra|].
  unfold Rdiv. rewrite Q. apply unitlike_bounds in H1.
  replace (x * / k * (1 + e1) * k) with (x * (1 + e1)) by (field; lra).
  destruct (step_rel x (1 + e1) F) as (e2 & H2 & ->); [apply abs_ge; unfold u53 in *; lra|].
  apply unitlike_bounds in H2. rewrite Rmult_assoc. apply rndf_factor; auto.
  apply Rabs_le. unfold u53 in *. split; nra.
Qed.

(** every number of a track state is a finite float *)
Definition finite_float (x : R) : Prop := is_float x /\ Rabs x < bpow radix2 128.
Definition float_state (ts : trackState) : Prop :=
  finite_float (ts_D0 ts) /\ finite_float (ts_Phi ts) /\ finite_float (ts_Omega ts)
  /\ finite_float (ts_Z0 ts) /\ finite_float (ts_TanLambda ts)
  /\ List.Forall finite_float (ts_cov ts)
  /\ (let '(x, y, z) := ts_ref ts in finite_float x /\ finite_float y /\ finite_float z).

(** far from the largest double, 2^1024 *)
Definition small (x : R) : Prop := Rabs x <= bpow radix2 140.

Lemma rnd_small z : Rabs z <= bpow radix2 140 -> Rabs (rnd z) <= bpow radix2 140.
Proof.
  intros H. unfold rnd. apply abs_round_le_generic; auto with typeclass_instances.
  apply generic_format_bpow. unfold FLT_exp. lia.
Qed.

Lemma float_bound x : finite_float x -> Rabs x <= bpow radix2 128.
Proof. intros [_ H]. lra. Qed.

Lemma mul_bound x k a : Rabs x <= bpow radix2 a -> Rabs k <= 16 -> Rabs (x * k) <= bpow radix2 (a + 4).
Proof.
  intros A K. rewrite Rabs_mult, bpow_plus. change (bpow radix2 4) with 16.
  apply Rmult_le_compat; auto; apply Rabs_pos.
Qed.

Lemma rnd_bound z a : (-1074 <= a)%Z -> Rabs z <= bpow radix2 a -> Rabs (rnd z) <= bpow radix2 a.
Proof.
  intros A H. unfold rnd. apply abs_round_le_generic; auto with typeclass_instances.
  apply generic_format_bpow. unfold FLT_exp. lia.
Qed.

Lemma weaken x a b : (a <= b)%Z -> Rabs x <= bpow radix2 a -> Rabs x <= bpow radix2 b.
Proof. intros L H. eapply Rle_trans; [exact H|]. apply bpow_le; auto. Qed.

Lemma small_float x : finite_float x -> small x.
Proof. intros H. apply (weaken x 128); [lia|]. apply float_bound; auto. Qed.
Lemma small_mul x m : scale_ok m -> finite_float x -> small (dmul x m).
Proof.
  intros M F. apply (weaken _ (128 + 4)); [lia|]. apply rnd_bound; [lia|]. apply mul_bound.
  apply float_bound; auto. unfold scale_ok in M. rewrite Rabs_pos_eq; lra.
Qed.
Lemma small_div x m : scale_ok m -> finite_float x -> small (ddiv x m).
Proof.
  intros M F. apply (weaken _ (128 + 4)); [lia|]. apply rnd_bound; [lia|]. apply mul_bound.
  apply float_bound; auto. unfold scale_ok in M. 
  assert (0 < / m) by (apply Rinv_0_lt_compat; lra).
  rewrite Rabs_pos_eq by lra. replace 16 with (/ / 16) by field. apply Rinv_le; lra.
Qed.
Lemma small_mulmul x m : scale_ok m -> finite_float x -> small (dmul (dmul x m) m).
Proof.
  intros M F. assert (K : Rabs m <= 16) by (unfold scale_ok in M; rewrite Rabs_pos_eq; lra).
  apply (weaken _ (128 + 4 + 4)); [lia|]. apply rnd_bound; [lia|]. apply mul_bound; auto.
  apply rnd_bound; [lia|]. apply mul_bound; auto. apply float_bound; auto.
Qed.
Lemma small_div2 x m : scale_ok m -> finite_float x -> small (ddiv x (dmul m m)).
Proof.
  intros M F. destruct (square_rel m M) as (e & H & ->). apply unitlike_bounds in H. unfold scale_ok in M.
  assert (A : / 257 <= m * m * (1 + e)) by (unfold u53 in *; nra).
  set (k := m * m * (1 + e)) in *.
  apply (weaken _ (128 + 9)); [lia|]. apply rnd_bound; [lia|].
  unfold Rdiv. rewrite Rabs_mult, bpow_plus. change (bpow radix2 9) with 512.
  apply Rmult_le_compat; try apply Rabs_pos. apply float_bound; auto.
  assert (0 < / k) by (apply Rinv_0_lt_compat; lra).
  rewrite Rabs_pos_eq by lra. apply Rle_trans with 257; [|lra]. replace 257 with (/ / 257) by field. apply Rinv_le; lra.
Qed.

(** Reading a state of finite floats (subnormal ones included) and writing it
    back returns every float unchanged; all doubles in between are finite. *)
Theorem C49_float_round_trip : forall mm ts, scale_ok mm -> length (ts_cov ts) = 15%nat -> float_state ts ->
  exists tp, readLCIO_d mm ts = Ok tp
    /\ (forall i, small (tp_par tp i)) /\ (forall i j, small (tp_cov tp i j))
    /\ small (vx (tp_ref tp)) /\ small (vy (tp_ref tp)) /\ small (vz (tp_ref tp))
    /\ createLCIO_d mm tp = TS 0 (ts_D0 ts) (ts_Phi ts) (ts_Omega ts) (ts_Z0 ts) (ts_TanLambda ts)
                               (ts_cov ts) (ts_ref ts).
Proof.
  intros m ts M L (F1 & F2 & F3 & F4 & F5 & FC & FR).
  destruct ts as [lo a b c d e cv [[r0 r1] r2]]. cbn [ts_cov ts_D0 ts_Phi ts_Omega ts_Z0 ts_TanLambda ts_ref] in *.
  destruct FR as (R0 & R1 & R2).
  do 15 (destruct cv as [|? cv]; [cbn in L; lia|]). destruct cv; [|cbn in L; lia]. clear L.
  repeat match goal with H : List.Forall _ (_ :: _) |- _ =>
    inversion H as [|? ? ? ?]; subst; clear H end.
  unfold readLCIO_d. cbn [ts_Omega ts_TanLambda ts_Phi ts_D0 ts_Z0 ts_cov ts_ref]. cbn [bind at_ nth_error].
  eexists. split; [reflexivity|].
  split; [|split; [|split; [|split; [|split]]]].
  - intros []; cbn; auto using small_float, small_mul, small_div.
  - intros [] []; cbn; auto using small_float, small_mul, small_div, small_mulmul, small_div2.
  - cbn; auto using small_mul.
  - cbn; auto using small_mul.
  - cbn; auto using small_mul.
  - unfold createLCIO_d. cbn.
    unfold calculateOmega, calculateTanLambda, calculatePhi0, calculateD0, calculateZ0, OMEGA, TANL, PHI0, D0, Z0; cbn.
    repeat match goal with H : finite_float _ |- _ => destruct H as [H _] end.
    repeat first [rewrite round_md by auto | rewrite round_dm by auto | rewrite round_mmd by auto
      | rewrite round_dmm by auto | rewrite rndf_id by auto]. reflexivity.
Qed.
Print Assumptions C49_float_round_trip.

(** the double nearest to 0.1, DD4hep's millimetre *)
Definition mm_double : R := 3602879701896397 / 36028797018963968.

Lemma mm_double_ok : scale_ok mm_double /\ is_double mm_double.
Proof.
  split; [unfold scale_ok, mm_double; lra|].
  apply generic_format_FLT. exists (Float radix2 3602879701896397 (-55)).
  - unfold F2R, mm_double. cbn [Fnum Fexp]. change (bpow radix2 (-55)) with (/ 36028797018963968). field.
  - reflexivity.
  - cbn. lia.
Qed.

(** floats that are not dyadic multiples of simple values, and the smallest
    subnormal number *)
Definition fl_a : R := 13421773 / 134217728.   (* 0.1f *)
Definition fl_s : R := bpow radix2 (-149).

Lemma fl_a_ok : finite_float fl_a.
Proof.
  split.
  - apply generic_format_FLT. exists (Float radix2 13421773 (-27)).
    + unfold F2R, fl_a. cbn [Fnum Fexp]. change (bpow radix2 (-27)) with (/ 134217728). field.
    + reflexivity.
    + cbn. lia.
  - apply Rlt_trans with (bpow radix2 0); [|apply bpow_lt; lia]. simpl. unfold fl_a. rewrite Rabs_pos_eq; lra.
Qed.
Lemma fl_s_ok : finite_float fl_s.
Proof.
  split.
  - apply generic_format_bpow. unfold FLT_exp. lia.
  - unfold fl_s. rewrite Rabs_pos_eq by apply bpow_ge_0. apply bpow_lt; lia.
Qed.

Example ex_float_state : exists tp,
  let ts := TS 1 fl_a fl_s fl_a fl_s fl_a (repeat fl_a 14 ++ [fl_s]) (fl_s, fl_a, fl_a) in
  readLCIO_d mm_double ts = Ok tp /\ createLCIO_d mm_double tp =
    TS 0 fl_a fl_s fl_a fl_s fl_a (repeat fl_a 14 ++ [fl_s]) (fl_s, fl_a, fl_a).
Proof.
  destruct (C49_float_round_trip mm_double
    (TS 1 fl_a fl_s fl_a fl_s fl_a (repeat fl_a 14 ++ [fl_s]) (fl_s, fl_a, fl_a))) as (tp & A & _ & _ & _ & _ & _ & B).
  - apply mm_double_ok.
  - reflexivity.
  - unfold float_state. cbn. assert (A := fl_a_ok). assert (S := fl_s_ok).
    repeat (split; [solve [auto]|]). split; [|auto].
    repeat (constructor; [solve [auto]|]). constructor.
  - exists tp. split; auto.
Qed.
