(** C84: what the comparison functions of the unit tests accept. *)
From Coq Require Import Reals ZArith Lra Lia Psatz.
From Flocq Require Import Core Relative.
From Verif Require Import Num FloatWrap LCIOFloat RoundFacts PropLCIOFloat UCmp.
Open Scope R_scope.

Local Instance vfe32' : Valid_exp fexp32.
Proof. apply FLT_exp_valid. reflexivity. Qed.
Local Instance vfe64' : Valid_exp fexp64.
Proof. apply FLT_exp_valid. reflexivity. Qed.

(** relative error of single precision, 2^-24 *)
Definition half_ulp : R := / 16777216.

Lemma rndf_err x : Rabs (rndf x - x) <= half_ulp * Rabs x + bpow radix2 (-150).
Proof.
  destruct (error_N_FLT radix2 (-149) 24 eq_refl (fun x => negb (Z.even x)) x) as (e & n & He & Hn & _ & Q).
  unfold rndf. rewrite Q. replace (x * (1 + e) + n - x) with (x * e + n) by ring.
  eapply Rle_trans; [apply Rabs_triang|]. rewrite Rabs_mult.
  assert (B : Rabs e <= half_ulp) by (unfold half_ulp; simpl in He; unfold Z.pow_pos in He; simpl in He; lra).
  assert (Rabs n <= bpow radix2 (-150)).
  { replace (bpow radix2 (-150)) with (/ 2 * bpow radix2 (-149)); [exact Hn|]. change (-150)%Z with (-1 + -149)%Z. rewrite bpow_plus. reflexivity. }
  assert (Rabs x * Rabs e <= Rabs x * half_ulp) by (apply Rmult_le_compat_l; [apply Rabs_pos|auto]). lra.
Qed.

Lemma rndf_0 : rndf 0 = 0.
Proof. apply round_0. auto with typeclass_instances. Qed.

Lemma rndf_float x : is_float (rndf x).
Proof. apply generic_format_round; auto with typeclass_instances. Qed.

Lemma pow_float e : (-149 <= e)%Z -> is_float (bpow radix2 e).
Proof. intros H. apply generic_format_bpow. unfold FLT_exp. lia. Qed.

Lemma rndf_ge x e : (-149 <= e)%Z -> bpow radix2 e <= Rabs x -> bpow radix2 e <= Rabs (rndf x).
Proof. intros E H. apply abs_round_ge_generic; auto with typeclass_instances. apply pow_float. exact E. Qed.
Lemma rndf_le x e : (-149 <= e)%Z -> Rabs x <= bpow radix2 e -> Rabs (rndf x) <= bpow radix2 e.
Proof. intros E H. apply abs_round_le_generic; auto with typeclass_instances. apply pow_float. exact E. Qed.

(** floats from 2^k on are multiples of 2^(k-23) *)
Lemma big_multiple x k : (-126 <= k)%Z -> is_float x -> bpow radix2 k <= Rabs x -> exists n, x = IZR n * bpow radix2 (k - 23).
Proof.
  intros K F H. apply float_multiple; [exact F|]. unfold cexp.
  assert (L : (k < mag radix2 x)%Z). { apply mag_gt_bpow. exact H. }
  unfold FLT_exp. lia.
Qed.

Lemma toFloat_ok x : Rabs x <= bpow radix2 127 -> toFloat x = Ok (rndf x).
Proof.
  intros H. unfold toFloat. destruct (Rlt_dec (Rabs (rndf x)) (bpow radix2 128)) as [_|N]; [reflexivity|].
  exfalso. apply N. eapply Rle_lt_trans; [apply rndf_le; [|exact H]; lia|]. apply bpow_lt. lia.
Qed.

Lemma compare_value tol a b : Rabs a <= bpow radix2 127 -> Rabs b <= bpow radix2 127 ->
  compareTo tol a b = Ok (if Rlt_dec (Rabs (rndf (rndf a - rndf b))) (rnd tol) then true else false).
Proof. intros A B. unfold compareTo. rewrite !toFloat_ok by assumption. reflexivity. Qed.

Lemma rnd_tol_le tol e : (-1074 <= e)%Z -> tol <= bpow radix2 e -> rnd tol <= bpow radix2 e.
Proof. intros E H. apply (round_le_generic radix2 fexp64 ZnearestE); [|exact H]. apply generic_format_bpow. unfold FLT_exp. lia. Qed.
Lemma rnd_tol_ge tol e : (-1074 <= e)%Z -> bpow radix2 e <= tol -> bpow radix2 e <= rnd tol.
Proof. intros E H. apply (round_ge_generic radix2 fexp64 ZnearestE); [|exact H]. apply generic_format_bpow. unfold FLT_exp. lia. Qed.

Lemma compare_big tol k a b : (-126 <= k)%Z -> 0 < rnd tol <= bpow radix2 (k - 23) ->
  bpow radix2 k <= Rabs a <= bpow radix2 127 -> bpow radix2 k <= Rabs b <= bpow radix2 127 ->
  compareTo tol a b = Ok (if Req_EM_T (rndf a) (rndf b) then true else false).
Proof.
  intros K T A B. rewrite compare_value by tauto. f_equal. destruct (Req_EM_T (rndf a) (rndf b)) as [E|N].
  - rewrite E. replace (rndf b - rndf b) with 0 by ring. rewrite rndf_0, Rabs_R0.
    destruct (Rlt_dec 0 (rnd tol)); [reflexivity|lra].
  - destruct (Rlt_dec _ _) as [L|_]; [|reflexivity]. exfalso.
    destruct (big_multiple (rndf a) k K (rndf_float a)) as [n Hn]; [apply rndf_ge; [lia|tauto]|].
    destruct (big_multiple (rndf b) k K (rndf_float b)) as [m Hm]; [apply rndf_ge; [lia|tauto]|].
    assert (D : rndf a - rndf b = IZR (n - m) * bpow radix2 (k - 23)) by (rewrite Hn, Hm, minus_IZR; ring).
    assert (n <> m) by (intros ->; apply N; congruence).
    assert (G : bpow radix2 (k - 23) <= Rabs (rndf a - rndf b)).
    { rewrite D, Rabs_mult, (Rabs_pos_eq (bpow _ _)) by apply bpow_ge_0. rewrite <- abs_IZR.
      assert (1 <= IZR (Z.abs (n - m))) by (apply IZR_le; lia). assert (P := bpow_gt_0 radix2 (k - 23)). nra. }
    apply rndf_ge in G; [|lia]. lra.
Qed.

Lemma tol9_bounds : bpow radix2 (-30) <= rnd (1 / 1000000000) <= bpow radix2 (-29).
Proof. split; [apply rnd_tol_ge; [lia|]|apply rnd_tol_le; [lia|]]; simpl; unfold Z.pow_pos; simpl; lra. Qed.
Lemma tol5_bounds : bpow radix2 (-17) <= rnd (1 / 100000) <= bpow radix2 (-16).
Proof. split; [apply rnd_tol_ge; [lia|]|apply rnd_tol_le; [lia|]]; simpl; unfold Z.pow_pos; simpl; lra. Qed.

(** For numbers from 1/64 on (128 for the rough comparison), numbers are equal for
    the unit tests exactly if they are the same in single precision. *)
Theorem C84_large : forall a b,
  (1 / 64 <= Rabs a <= bpow radix2 127 -> 1 / 64 <= Rabs b <= bpow radix2 127 ->
     exists t, floatCompare a b = Ok t /\ (t = true <-> rndf a = rndf b))
  /\ (128 <= Rabs a <= bpow radix2 127 -> 128 <= Rabs b <= bpow radix2 127 ->
     exists t, roughFloatCompare a b = Ok t /\ (t = true <-> rndf a = rndf b)).
Proof.
  intros a b. split; intros A B.
  - assert (E : bpow radix2 (-6) = 1 / 64) by (simpl; unfold Z.pow_pos; simpl; lra). rewrite <- E in A, B.
    unfold floatCompare. rewrite (compare_big _ (-6) a b); [|lia| |exact A|exact B].
    + eexists. split; [reflexivity|]. destruct (Req_EM_T (rndf a) (rndf b)); split; auto; discriminate.
    + assert (T := tol9_bounds). assert (P := bpow_gt_0 radix2 (-30)). change (-6 - 23)%Z with (-29)%Z. lra.
  - assert (E : bpow radix2 7 = 128) by (simpl; reflexivity). rewrite <- E in A, B.
    unfold roughFloatCompare. rewrite (compare_big _ 7 a b); [|lia| |exact A|exact B].
    + eexists. split; [reflexivity|]. destruct (Req_EM_T (rndf a) (rndf b)); split; auto; discriminate.
    + assert (T := tol5_bounds). assert (P := bpow_gt_0 radix2 (-17)). change (7 - 23)%Z with (-16)%Z. lra.
Qed.
Print Assumptions C84_large.

Lemma tiny150 : bpow radix2 (-150) <= 1 / 1000000000000000000000.
Proof. apply Rle_trans with (bpow radix2 (-70)); [apply bpow_le; lia|]. simpl. unfold Z.pow_pos. simpl. lra. Qed.

Lemma rnd_tol_near tol : 0 < tol -> Rabs (rnd tol - tol) <= tol / 1000000 + 1 / 1000000000000000000000.
Proof.
  intros T. assert (E := rnd_err tol). rewrite (Rabs_pos_eq tol) in E by lra. assert (U := u_small).
  assert (L : SpecRound.least <= 1 / 1000000000000000000000).
  { unfold SpecRound.least. eapply Rle_trans; [apply (bpow_le radix2 _ (-150)); lia|]. apply tiny150. }
  assert (SpecRound.uround * tol <= / 1000000 * tol) by (apply Rmult_le_compat_r; lra). lra.
Qed.

Lemma accept_bound tol a b : 1 / 1000000000 <= tol -> Rabs a <= bpow radix2 127 -> Rabs b <= bpow radix2 127 ->
  compareTo tol a b = Ok true -> Rabs (a - b) <= 1001 / 1000 * tol + half_ulp * (Rabs a + Rabs b).
Proof.
  intros T A B H. rewrite compare_value in H by assumption. destruct (Rlt_dec _ _) as [L|]; [|discriminate]. clear H.
  set (d := rndf a - rndf b) in *.
  assert (Ea := rndf_err a). assert (Eb := rndf_err b). assert (Ed := rndf_err d). assert (Et := rnd_tol_near tol ltac:(lra)).
  assert (W := tiny150).
  assert (D : Rabs d <= Rabs (rndf d) + Rabs (rndf d - d)).
  { replace d with (rndf d + - (rndf d - d)) at 1 by ring. rewrite <- (Rabs_Ropp (rndf d - d)). apply Rabs_triang. }
  assert (Rabs (a - b) <= Rabs d + Rabs (rndf a - a) + Rabs (rndf b - b)).
  { replace (a - b) with (d + - (rndf a - a) + (rndf b - b)) by (unfold d; ring).
    eapply Rle_trans; [apply Rabs_triang|]. apply Rplus_le_compat_r. eapply Rle_trans; [apply Rabs_triang|].
    rewrite (Rabs_Ropp (rndf a - a)). lra. }
  assert (rnd tol <= tol + (tol / 1000000 + 1 / 1000000000000000000000)).
  { assert (X := Rle_abs (rnd tol - tol)). lra. }
  assert (P := Rabs_pos d). unfold half_ulp in *. lra.
Qed.

Lemma accept_close tol a b : 1 / 1000000000 <= tol -> Rabs a <= bpow radix2 127 -> Rabs b <= bpow radix2 127 ->
  Rabs (a - b) + half_ulp * (Rabs a + Rabs b) <= 999 / 1000 * tol -> compareTo tol a b = Ok true.
Proof.
  intros T A B H. rewrite compare_value by assumption. destruct (Rlt_dec _ _) as [|L]; [reflexivity|]. exfalso. apply L. clear L.
  set (d := rndf a - rndf b) in *.
  assert (Ea := rndf_err a). assert (Eb := rndf_err b). assert (Ed := rndf_err d). assert (Et := rnd_tol_near tol ltac:(lra)).
  assert (W := tiny150).
  assert (D : Rabs (rndf d) <= Rabs d + Rabs (rndf d - d)).
  { replace (rndf d) with (d + (rndf d - d)) at 1 by ring. apply Rabs_triang. }
  assert (Rabs d <= Rabs (a - b) + Rabs (rndf a - a) + Rabs (rndf b - b)).
  { replace d with ((a - b) + (rndf a - a) + - (rndf b - b)) by (unfold d; ring).
    eapply Rle_trans; [apply Rabs_triang|]. rewrite (Rabs_Ropp (rndf b - b)). apply Rplus_le_compat_r. apply Rabs_triang. }
  assert (tol - (tol / 1000000 + 1 / 1000000000000000000000) <= rnd tol).
  { rewrite Rabs_minus_sym in Et. assert (X := Rle_abs (tol - rnd tol)). lra. }
  assert (P := Rabs_pos d). assert (Pa := Rabs_pos a). assert (Pb := Rabs_pos b). assert (Pab := Rabs_pos (a - b)).
  assert (Rabs d <= 999 / 1000 * tol + 2 * (1 / 1000000000000000000000)) by (unfold half_ulp in *; lra).
  unfold half_ulp in *. lra.
Qed.

(** How far numbers that are accepted can be apart, and how close is close enough. *)
Theorem C84_tolerance : forall a b, Rabs a <= bpow radix2 127 -> Rabs b <= bpow radix2 127 ->
  (floatCompare a b = Ok true -> Rabs (a - b) <= 1001 / 1000 / 1000000000 + (Rabs a + Rabs b) / 16777216)
  /\ (Rabs (a - b) + (Rabs a + Rabs b) / 16777216 <= 999 / 1000 / 1000000000 -> floatCompare a b = Ok true)
  /\ (roughFloatCompare a b = Ok true -> Rabs (a - b) <= 1001 / 1000 / 100000 + (Rabs a + Rabs b) / 16777216)
  /\ (Rabs (a - b) + (Rabs a + Rabs b) / 16777216 <= 999 / 1000 / 100000 -> roughFloatCompare a b = Ok true).
Proof.
  intros a b A B. unfold floatCompare, roughFloatCompare. split; [|split; [|split]]; intros H.
  - apply accept_bound in H; try lra. unfold half_ulp in H. lra.
  - apply accept_close; try lra. unfold half_ulp. lra.
  - apply accept_bound in H; try lra. unfold half_ulp in H. lra.
  - apply accept_close; try lra. unfold half_ulp. lra.
Qed.
Print Assumptions C84_tolerance.

Lemma rndf_opp x : rndf (- x) = - rndf x.
Proof. apply round_NE_opp. Qed.

(** Equal numbers are accepted, the order does not matter, and an argument out of
    range is undefined behaviour. *)
Theorem C84_equal : forall a b,
  (Rabs a <= bpow radix2 127 -> floatCompare a a = Ok true /\ roughFloatCompare a a = Ok true)
  /\ (floatCompare a b = Ok true -> roughFloatCompare a b = Ok true)
  /\ floatCompare a b = floatCompare b a /\ roughFloatCompare a b = roughFloatCompare b a
  /\ (bpow radix2 128 <= Rabs a \/ bpow radix2 128 <= Rabs b -> floatCompare a b = UB /\ roughFloatCompare a b = UB).
Proof.
  assert (Sy : forall tol a b, compareTo tol a b = compareTo tol b a).
  { intros tol a b. unfold compareTo, toFloat. destruct (Rlt_dec (Rabs (rndf a)) _), (Rlt_dec (Rabs (rndf b)) _); cbn [bind]; try reflexivity.
    do 2 f_equal. replace (rndf a - rndf b) with (- (rndf b - rndf a)) by ring. rewrite rndf_opp, Rabs_Ropp. reflexivity. }
  assert (Rf : forall tol a, 0 < rnd tol -> Rabs a <= bpow radix2 127 -> compareTo tol a a = Ok true).
  { intros tol a T A. rewrite compare_value by assumption. replace (rndf a - rndf a) with 0 by ring. rewrite rndf_0, Rabs_R0. destruct (Rlt_dec 0 (rnd tol)); [reflexivity|lra]. }
  assert (Ov : forall tol a b, bpow radix2 128 <= Rabs a -> compareTo tol a b = UB).
  { intros tol a b H. apply rndf_ge in H; [|lia]. unfold compareTo, toFloat. destruct (Rlt_dec _ _); [lra|reflexivity]. }
  assert (T9 := tol9_bounds). assert (T5 := tol5_bounds). assert (P9 := bpow_gt_0 radix2 (-30)). assert (P5 := bpow_gt_0 radix2 (-17)).
  intros a b. split; [|split; [|split; [|split]]].
  - intros A. split; apply Rf; lra.
  - unfold floatCompare, roughFloatCompare, compareTo. destruct (toFloat a) as [x| | | |]; try discriminate. cbn [bind].
    destruct (toFloat b) as [y| | | |]; try discriminate. cbn [bind]. destruct (Rlt_dec _ _) as [L|]; [|discriminate]. intros _.
    destruct (Rlt_dec _ _) as [|N]; [reflexivity|]. exfalso. apply N. eapply Rlt_le_trans; [exact L|].
    eapply Rle_trans; [apply T9|]. eapply Rle_trans; [|apply T5]. apply bpow_le. lia.
  - apply Sy.
  - apply Sy.
  - unfold floatCompare, roughFloatCompare. intros [H|H].
    + split; apply Ov; exact H.
    + rewrite (Sy _ a b). rewrite (Sy (1 / 100000) a b). split; apply Ov; exact H.
Qed.
Print Assumptions C84_equal.

Lemma float_small n e : (Z.abs n <= 16777216)%Z -> (-149 <= e)%Z -> is_float (IZR n * bpow radix2 e).
Proof.
  intros N E. destruct (Z.eq_dec (Z.abs n) 16777216) as [Q|Q].
  - destruct (Z.abs_eq_or_opp n) as [S|S].
    + replace (IZR n * bpow radix2 e) with (bpow radix2 (24 + e)); [apply pow_float; lia|]. rewrite bpow_plus.
      replace n with 16777216%Z by lia. reflexivity.
    + replace (IZR n * bpow radix2 e) with (- bpow radix2 (24 + e)); [apply generic_format_opp, pow_float; lia|]. rewrite bpow_plus.
      replace n with (-16777216)%Z by lia. change (bpow radix2 24) with (IZR 16777216). rewrite <- Ropp_mult_distr_l_reverse, <- opp_IZR. reflexivity.
  - apply generic_format_FLT. exists (Float radix2 n e); [reflexivity| |exact E]. cbn [Fnum]. change (radix2 ^ 24)%Z with 16777216%Z. lia.
Qed.

(** the claims that the tolerance is the number in the code are false, both ways *)
Theorem C84_absolute_refuted :
  (exists a b, is_double a /\ is_double b /\ floatCompare a b = Ok true /\ Rabs (a - b) = 1)
  /\ (exists a b, is_double a /\ is_double b /\ floatCompare a b = Ok false /\ Rabs (a - b) < 1 / 100000000000).
Proof.
  assert (Db : forall n e, (Z.abs n < 9007199254740992)%Z -> (-1074 <= e)%Z -> is_double (IZR n * bpow radix2 e)).
  { intros n e N E. apply generic_format_FLT. exists (Float radix2 n e); [reflexivity| |exact E]. cbn [Fnum]. change (radix2 ^ 53)%Z with 9007199254740992%Z. exact N. }
  assert (P127 : 100000000 <= bpow radix2 127).
  { apply Rle_trans with (bpow radix2 30); [simpl; lra|apply bpow_le; lia]. }
  split.
  - exists 16777216, 16777217. split; [|split; [|split]].
    + replace 16777216 with (IZR 16777216 * bpow radix2 0) by (simpl; ring). apply Db; lia.
    + replace 16777217 with (IZR 16777217 * bpow radix2 0) by (simpl; ring). apply Db; lia.
    + assert (E : rndf 16777217 = 16777216).
      { unfold rndf, round, scaled_mantissa, cexp. assert (M : mag radix2 16777217 = 25%Z :> Z).
        { apply mag_unique. rewrite Rabs_pos_eq by lra. simpl. lra. }
        rewrite M. replace (FLT_exp (-149) 24 25) with 1%Z by (unfold FLT_exp; lia).
        replace (ZnearestE (16777217 * bpow radix2 (- (1)))) with 8388608%Z.
        - unfold F2R. cbn [Fnum Fexp]. simpl. lra.
        - symmetry. unfold ZnearestE, Znearest. replace (16777217 * bpow radix2 (- (1))) with (8388608 + / 2) by (simpl; unfold Z.pow_pos; simpl; lra).
          assert (F : Zfloor (8388608 + / 2) = 8388608%Z) by (apply Zfloor_imp; simpl; split; lra).
          rewrite F. rewrite Rcompare_Eq by lra. reflexivity. }
      assert (E2 : rndf 16777216 = 16777216).
      { apply rndf_id. replace 16777216 with (IZR 16777216 * bpow radix2 0) by (simpl; ring). apply float_small; lia. }
      destruct (C84_large 16777216 16777217) as [[t [Q I]] _]; try (rewrite Rabs_pos_eq by lra; lra).
      rewrite Q. f_equal. apply I. congruence.
    + rewrite Rabs_left by lra. ring.
  - assert (X : bpow radix2 (-40) = / 1099511627776) by (simpl; unfold Z.pow_pos; simpl; reflexivity).
    exists (IZR 1099511693311 * bpow radix2 (-40)), (IZR 1099511693313 * bpow radix2 (-40)).
    split; [apply Db; lia|]. split; [apply Db; lia|]. split; [|rewrite X, Rabs_left by lra; lra].
    assert (NP : forall v u, is_float u -> Rabs (rndf v - v) <= Rabs (u - v)).
    { intros v u F. destruct (round_N_pt radix2 fexp32 (fun t => negb (Z.even t)) v) as [_ N]. apply N. exact F. }
    assert (F1 : is_float 1) by (replace 1 with (IZR 1 * bpow radix2 0) by (simpl; ring); apply float_small; lia).
    assert (F2 : is_float (8388609 / 8388608)).
    { replace (8388609 / 8388608) with (IZR 8388609 * bpow radix2 (-23)) by (simpl; unfold Z.pow_pos; simpl; lra). apply float_small; lia. }
    rewrite X. set (v := IZR 1099511693311 * / 1099511627776). set (u := IZR 1099511693313 * / 1099511627776).
    assert (Ev : v = 1 + 65535 / 1099511627776) by (unfold v; lra). assert (Eu : u = 1 + 65537 / 1099511627776) by (unfold u; lra). clearbody u v.
    assert (V := NP v 1 F1). assert (U := NP u _ F2).
    assert (Lv : rndf v <= 1).
    { assert (Y := Rle_abs (rndf v - v)). rewrite (Rabs_left (1 - v)) in V by lra.
      destruct (big_multiple (rndf v) 0 ltac:(lia) (rndf_float v)) as [n Hn].
      - apply rndf_ge; [lia|]. rewrite Rabs_pos_eq by lra. simpl. lra.
      - replace (bpow radix2 (0 - 23)) with (/ 8388608) in Hn by (simpl; unfold Z.pow_pos; simpl; reflexivity).
        destruct (Z_le_gt_dec n 8388608) as [L|G]; [apply IZR_le in L; lra|].
        assert (L : (8388609 <= n)%Z) by lia. apply IZR_le in L. lra. }
    assert (Lu : 1 < rndf u).
    { rewrite Rabs_minus_sym in U. assert (Y := Rle_abs (u - rndf u)). rewrite (Rabs_pos_eq (8388609 / 8388608 - u)) in U by lra. lra. }
    destruct (C84_large v u) as [[t [Q I]] _].
    + rewrite Rabs_pos_eq by lra. lra.
    + rewrite Rabs_pos_eq by lra. lra.
    + rewrite Q. f_equal. destruct t; [|reflexivity]. exfalso. assert (rndf v = rndf u) by (apply I; reflexivity). lra.
Qed.
Print Assumptions C84_absolute_refuted.

(** An ordinary case: 3.1 and a number a little off. *)
Example C84_instance : floatCompare (31 / 10) (31 / 10) = Ok true /\ roughFloatCompare (1 / 2) (1 / 2 + 1 / 1000000) = Ok true
  /\ floatCompare 1 (1 + 1 / 1000000) = Ok false.
Proof.
  assert (P127 : 100 <= bpow radix2 127).
  { apply Rle_trans with (bpow radix2 10); [simpl; lra|apply bpow_le; lia]. }
  split; [|split].
  - apply (proj1 (C84_equal (31 / 10) 0)). rewrite Rabs_pos_eq; lra.
  - destruct (C84_tolerance (1 / 2) (1 / 2 + 1 / 1000000)) as (_ & _ & _ & T); try (rewrite Rabs_pos_eq; lra). apply T.
    rewrite (Rabs_left (1 / 2 - (1 / 2 + 1 / 1000000))) by lra. rewrite !Rabs_pos_eq by lra. lra.
  - destruct (C84_large 1 (1 + 1 / 1000000)) as [[t [Q I]] _]; try (rewrite Rabs_pos_eq; lra).
    rewrite Q. f_equal. destruct t; [|reflexivity]. exfalso.
    destruct (C84_tolerance 1 (1 + 1 / 1000000)) as (T & _); try (rewrite Rabs_pos_eq; lra).
    specialize (T Q). rewrite Rabs_left in T by lra. rewrite !Rabs_pos_eq in T by lra. lra.
Qed.
