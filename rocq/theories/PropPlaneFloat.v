(** C92: the crossing of a track with a plane parallel to z in double precision. *)
From Coq Require Import Reals ZArith Lra Lia Bool List Psatz.
From Flocq Require Import Core.
From Verif Require Import Num Vec Helix Isect FloatWrap SpecHelix SpecIsect HelixFacts IsectFacts SurfFacts SurfFacts2 PointFloat SpecRound SpecPath RoundFacts
  PointFloatFacts PathTrig PathFloatFacts PathLibFacts MoveFloatFacts PropRound PropPath PropMoveFloat PropSurf PropDiskFloat PropCylFloat PathFloat NearFacts CylGeom CylFloatFacts
  PlaneFloat SpecPlaneFloat PlaneFloatFacts PlaneFinite.
Import ListNotations.
Open Scope R_scope.

(** Whatever is returned for a curved track, it is one of four: nothing is found, and the
    track stays on one side of the plane; the coordinates are not numbers, and the track
    stays on one side but comes close; there is one crossing, and no other point of the track is on the
    plane; or there are two crossings, no other points of the track are on the plane, and
    the mode chooses between these two.  All this up to rounding. *)
Theorem C92_outcome : forall L at2 surf hp rp out mode cb f b out',
  let o := sf_origin surf in let n := sf_normal surf v3zero in
  good_library L at2 -> ordinary_track hp rp -> hp OMEGA <> 0 -> ordinary_plane o n -> spread o hp rp <= bpow radix2 98 -> is_helix hp rp f ->
  intersectWithZPlane_d L at2 surf hp rp out mode cb = Ok (b, out') ->
  (b = false /\ out' = out /\ one_side f o n (225 * haze o hp rp))
  \/ (out' = OBad /\ (b = true <-> mode = 0%Z) /\ (mode = 0%Z -> cb = false) /\ one_side f o n (225 * haze o hp rp)
      /\ comes_close f o n (/ 900000000 * Rabs (hp OMEGA) + 230 * haze o hp rp))
  \/ (exists s x, crossing f o n hp rp s x /\ only f o n hp rp x /\ out' = OVal s x
       /\ (b = true <-> sign_ok mode s /\ (cb = true -> sf_insideBounds surf x = true)))
  \/ exists s0 x0 s1 x1, crossing f o n hp rp s0 x0 /\ crossing f o n hp rp s1 x1 /\ both f o n hp rp x0 x1
     /\ ((b = false /\ out' = out /\ none_for mode (fun s => s = s0 \/ s = s1))
         \/ exists s x, out' = OVal s x /\ (s = s0 /\ x = x0 \/ s = s1 /\ x = x1)
            /\ picked 0 mode (fun s => s = s0 \/ s = s1) s
            /\ (b = true <-> (cb = true -> sf_insideBounds surf x = true))).
Proof.
  intros L at2 surf hp rp out mode cb f b out' o n HL HT HO HN HB Hf E.
  destruct (plane_outcome L at2 hp rp o n HL HT HO HN HB f Hf surf mode cb out b out' eq_refl eq_refl eq_refl E)
    as [A|[A|[(s & x & A & B & Q & ->)|(s0 & x0 & s1 & x1 & A & B & D & Q)]]]; [auto|auto| |].
  - right. right. left. exists s, x. split; [exact A|]. split; [exact B|]. split; [exact Q|apply answer].
  - right. right. right. exists s0, x0, s1, x1. split; [exact A|]. split; [exact B|]. split; [exact D|].
    destruct (select 0 mode s0 x0 s1 x1) as [[s x]|] eqn:ES; injection Q as -> ->.
    + right. exists s, x. split; [reflexivity|]. split; [apply (select_some 0 mode s0 x0 s1 x1); [lra|exact ES]|].
      split; [apply (select_picked 0 mode s0 x0 s1 x1 s x); [lra|tauto|exact ES]|apply bounds_iff].
    + left. split; [reflexivity|]. split; [reflexivity|]. apply (select_none_for 0 mode s0 x0 s1 x1); [tauto|exact ES].
Qed.
Print Assumptions C92_outcome.

(** The path length to a point is finite, wherever the point is. *)
Theorem C92_path_finite : forall L at2 x y hp rp, sound_library L at2 -> ordinary_track hp rp -> ordinary x -> ordinary y ->
  exists s, calculateSfromXY_d L at2 x y hp rp = Ok s /\ Rabs s <= bpow radix2 180.
Proof. intros L at2 x y hp rp HS HT HX HY. exact (path_fin L at2 HS x y hp rp HT HX HY). Qed.
Print Assumptions C92_path_finite.

(** Nothing overflows and nothing throws; the only result that is not finite is that of
    a touching track, and it goes to the caller or to the test of the bounds. *)
Theorem C92_finite : forall L at2 surf hp rp out mode cb f,
  let o := sf_origin surf in let n := sf_normal surf v3zero in
  sound_library L at2 -> ordinary_track hp rp -> hp OMEGA <> 0 -> ordinary_plane o n -> spread o hp rp <= bpow radix2 98 -> is_helix hp rp f ->
  ordinary (hp Z0) -> ordinary (hp TANL) -> ordinary (vz rp) ->
  (exists b out', intersectWithZPlane_d L at2 surf hp rp out mode cb = Ok (b, out'))
  \/ (intersectWithZPlane_d L at2 surf hp rp out mode cb = NonFin /\ mode = 0%Z /\ cb = true /\ one_side f o n (225 * haze o hp rp)
      /\ comes_close f o n (/ 900000000 * Rabs (hp OMEGA) + 230 * haze o hp rp)).
Proof.
  intros L at2 surf hp rp out mode cb f o n HS HT HO HN HB Hf Z1 Z2 Z3.
  exact (plane_fin L at2 hp rp o n HS HT HO HN HB (conj Z1 (conj Z2 Z3)) surf mode cb out f Hf eq_refl eq_refl eq_refl).
Qed.
Print Assumptions C92_finite.

(** A track that goes clearly through the plane is found: in mode 0 there is a result,
    on the plane and on the track. *)
Theorem C92_found : forall L at2 surf hp rp out f t t',
  let o := sf_origin surf in let n := sf_normal surf v3zero in
  sound_library L at2 -> ordinary_track hp rp -> hp OMEGA <> 0 -> ordinary_plane o n -> spread o hp rp <= bpow radix2 98 -> is_helix hp rp f ->
  ordinary (hp Z0) -> ordinary (hp TANL) -> ordinary (vz rp) ->
  beyond o n (f t) < - (225 * haze o hp rp) -> 225 * haze o hp rp < beyond o n (f t') ->
  exists s x, intersectWithZPlane_d L at2 surf hp rp out 0 false = Ok (true, OVal s x) /\ crossing f o n hp rp s x.
Proof.
  intros L at2 surf hp rp out f t t' o n HS HT HO HN HB Hf Z1 Z2 Z3 T1 T2.
  assert (NS : ~ one_side f o n (225 * haze o hp rp)) by (intros [A|A]; [specialize (A t)|specialize (A t')]; lra).
  destruct (C92_finite L at2 surf hp rp out 0 false f HS HT HO HN HB Hf Z1 Z2 Z3) as [(b & out' & E)|(_ & _ & Q & _)]; [|discriminate Q].
  destruct (C92_outcome L at2 surf hp rp out 0 false f b out' (sl_good _ _ HS) HT HO HN HB Hf E)
    as [(_ & _ & A)|[(_ & _ & _ & A & _)|[(s & x & A & _ & -> & B)|(s0 & x0 & s1 & x1 & A0 & A1 & _ & [(_ & _ & Q)|(s & x & -> & W & _ & B)])]]]; try contradiction.
  - exists s, x. rewrite E. assert (b = true) by (apply B; split; [split; lia|discriminate]). subst b. auto.
  - exfalso. destruct (Q s0 (or_introl eq_refl)) as [[C _]|[C _]]; lia.
  - exists s, x. rewrite E. assert (b = true) by (apply B; discriminate). subst b. destruct W as [[-> ->]|[-> ->]]; auto.
Qed.
Print Assumptions C92_found.

(** Straight tracks are treated as a circle of radius zero at the origin: planes that do
    not contain the z axis are not found, wherever the track goes. *)
Theorem C92_straight : forall L at2 surf hp rp out mode cb,
  let o := sf_origin surf in let n := sf_normal surf v3zero in
  hp OMEGA = 0 -> ordinary_plane o n -> Rabs (vx o) <= 1000000 -> Rabs (vy o) <= 1000000 -> / 10000 <= vx o * vx n + vy o * vy n ->
  intersectWithZPlane_d L at2 surf hp rp out mode cb = Ok (false, out).
Proof.
  intros L at2 surf hp rp out mode cb o n HO HN B2 B3 HD.
  destruct (n_sizes o n HN) as (N1 & N2 & N3 & N4).
  assert (S2 : mag (vx o) 20) by (unfold mag; change (bpow radix2 20) with 1048576; lra). assert (S3 : mag (vy o) 20) by (unfold mag; change (bpow radix2 20) with 1048576; lra).
  assert (S7 : mag (vx n) 1) by (unfold mag; change (bpow radix2 1) with 2; lra). assert (S8 : mag (vy n) 1) by (unfold mag; change (bpow radix2 1) with 2; lra).
  assert (Z0 : mag 0 1) by (unfold mag; rewrite Rabs_R0; apply bpow_ge_0).
  unfold intersectWithZPlane_d. fold o n. cbv zeta.
  assert (MV : vdot_d o n = Ok (rnd (rnd (vx o * vx n) + rnd (vy o * vy n)))).
  { unfold vdot_d. rewrite (op_nz _ _ HN), Rmult_0_r. fin 4. erewrite rd_fin1; [|mag_up|vm_compute; discriminate].
    rewrite rnd_0, Rplus_0_r, (rnd_id (rnd _)) by apply rnd_double. reflexivity. }
  rewrite MV. cbn [bind]. clear MV. rewrite (normal_ok o n HN).
  unfold calculateRadius_d, calculateXCenter_d, calculateYCenter_d. destruct Req_EM_T as [_|Q]; [|contradiction]. cbn [bind].
  set (ds := Rabs (rnd (rnd (vx o * vx n) + rnd (vy o * vy n)))).
  assert (DL : / 16384 <= ds).
  { assert (G : forall a b, Rabs a <= 1000000 -> Rabs b <= 1005 / 1000 -> Rabs (rnd (a * b) - a * b) <= / 1000000).
    { intros a b Ha Hb. assert (E := rnd_err (a * b)). assert (T := u_tiny). destruct least_u as [_ LU]. assert (U := u_small).
      assert (Rabs (a * b) <= 1000000 * (1005 / 1000)) by (rewrite Rabs_mult; apply Rmult_le_compat; auto using Rabs_pos).
      assert (uround * Rabs (a * b) <= uround * (1000000 * (1005 / 1000))) by (apply Rmult_le_compat_l; lra). unfold uround in *. lra. }
    assert (A1 := G _ _ B2 N1). assert (A2 := G _ _ B3 N2). apply Rabs_le_inv in A1. apply Rabs_le_inv in A2.
    set (a := rnd (vx o * vx n)) in *. set (b := rnd (vy o * vy n)) in *.
    apply Rle_trans with (rnd (a + b)); [|unfold ds; apply Rle_abs].
    assert (SM : rnd (bpow radix2 (-14)) <= rnd (a + b)).
    { apply round_le; [apply FLT_exp_valid; reflexivity|apply valid_rnd_N|]. change (bpow radix2 (-14)) with (/ 16384). lra. }
    rewrite rnd_id in SM by (apply double_bpow; lia). change (bpow radix2 (-14)) with (/ 16384) in SM. exact SM. }
  assert (MD : mag ds 24) by (unfold ds; apply mag_abs; mg). assert (DD : is_double ds) by (unfold ds; apply generic_format_abs; [apply rnd_double]).
  clearbody ds. unfold intersectCircleStraightLine_d. rewrite !Rmult_0_r. fin 3. rewrite rnd_0, Rplus_0_r, rnd_0, Rminus_0_r. fin 5. rewrite rnd_0, Rmult_0_l. fin 3.
  rewrite rnd_0, (rnd_id ds DD), Rminus_0_l.
  destruct Rlt_dec as [_|Q]; [reflexivity|]. elim Q.
  rewrite (rnd_id (- rnd (ds * ds))) by (apply opp_double, rnd_double). apply Ropp_lt_contravar.
  apply Rle_lt_trans with (bpow radix2 (-29)).
  - rewrite <- (rnd_id (bpow radix2 (-29))) by (apply double_bpow; lia). apply round_le; [apply FLT_exp_valid; reflexivity|apply valid_rnd_N|].
    change (bpow radix2 (-29)) with (/ 536870912). lra.
  - apply Rlt_le_trans with (bpow radix2 (-28)); [apply bpow_lt; lia|]. rewrite <- (rnd_id (bpow radix2 (-28))) by (apply double_bpow; lia).
    apply round_le; [apply FLT_exp_valid; reflexivity|apply valid_rnd_N|]. change (bpow radix2 (-28)) with (/ 268435456). assert (/ 16384 * / 16384 <= ds * ds) by (apply Rmult_le_compat; lra). lra.
Qed.
Print Assumptions C92_straight.

(** The constructor of the line throws if the normal has no part in the xy plane, and
    nothing else throws. *)
Theorem C92_throws : forall L at2 surf hp rp out mode cb,
  let n := sf_normal surf v3zero in
  (intersectWithZPlane_d L at2 surf hp rp out mode cb = Throw
   -> Rabs (vx n) < rnd (/ 1000000000000) /\ Rabs (vy n) < rnd (/ 1000000000000))
  /\ (Rabs (vx n) < rnd (/ 1000000000000) -> Rabs (vy n) < rnd (/ 1000000000000) ->
      (exists d, vdot_d (sf_origin surf) n = Ok d) -> intersectWithZPlane_d L at2 surf hp rp out mode cb = Throw).
Proof.
  intros L at2 surf hp rp out mode cb n. unfold intersectWithZPlane_d. fold n. cbv zeta. split.
  2:{ intros A B (d & ->). cbn [bind]. destruct Rlt_dec; [|contradiction]. destruct Rlt_dec; [reflexivity|contradiction]. }
  assert (RD : forall x, rd x <> Throw) by (intros x; unfold rd; destruct Rlt_dec; discriminate).
  assert (BD : forall A B (m : res A) (k : A -> res B), m <> Throw -> (forall a, k a <> Throw) -> bind m k <> Throw)
    by (intros A B m k H1 H2; destruct m; cbn [bind]; try discriminate; [apply H2|congruence]).
  assert (DV : forall x y, rd_div x y <> Throw) by (intros x y; unfold rd_div; destruct Req_EM_T; [discriminate|apply RD]).
  assert (TP : forall x y, track_point L at2 x y hp rp <> Throw).
  { intros x y. unfold track_point. apply BD.
    - unfold calculateSfromXY_d, turning_d. cbv zeta. repeat first [apply RD | apply DV | (apply BD; [|intros]) | discriminate | match goal with |- context [if ?d then _ else _] => destruct d end].
    - intros s. apply BD; [|discriminate]. unfold calculateZfromS_d. do 2 (apply BD; [apply RD|intros]). apply RD. }
  intros E. destruct (Rlt_dec (Rabs (vx n)) (rnd (/ 1000000000000))) as [A|A]; [destruct (Rlt_dec (Rabs (vy n)) (rnd (/ 1000000000000))) as [B|B]; [auto|]|]; exfalso; revert E; cbn [andb].
  all: change (?a = Throw -> False) with (a <> Throw).
  all: apply BD; [unfold vdot_d; do 4 (apply BD; [apply RD|intros]); apply RD|intros].
  all: apply BD; [unfold calculateRadius_d; destruct Req_EM_T; [discriminate|apply BD; [apply DV|discriminate]]|intros].
  all: apply BD; [unfold calculateXCenter_d; destruct Req_EM_T; [discriminate|apply BD; [apply DV|intros]; do 2 (apply BD; [apply RD|intros]); apply RD]|intros].
  all: apply BD; [unfold calculateYCenter_d; destruct Req_EM_T; [discriminate|apply BD; [apply DV|intros]; do 2 (apply BD; [apply RD|intros]); apply RD]|intros].
  all: apply BD; [unfold intersectCircleStraightLine_d; do 11 (apply BD; [apply RD|intros]); destruct Rlt_dec; [discriminate|]; apply BD; [apply DV|intros];
    destruct Rlt_dec; [discriminate|]; cbv zeta; do 10 (apply BD; [apply RD|intros]); destruct Rle_dec; [discriminate|]; do 6 (apply BD; [apply RD|intros]); discriminate|].
  all: intros [|[[X0 Y0]|] [|[[X1 Y1]|] l]]; try discriminate; try (destruct (Z.eqb mode 0); [destruct cb|]; discriminate);
    try (apply BD; [apply TP|discriminate]); do 2 (apply BD; [apply TP|intros]); destruct select as [[s x]|]; discriminate.
Qed.
Print Assumptions C92_throws.

(** ** a library *)
Lemma dPi_below : bpow radix2 (-55) <= PI - dPi.
Proof.
  destruct (Machin.PI_2_3_7_ineq 12) as [A _]. unfold AltSeries.tg_alt, Machin.PI_2_3_7_tg, Ratan.Ratan_seq in A.
  cbn [sum_f_R0 Nat.mul Nat.add INR pow] in A. unfold dPi. change (bpow radix2 (-55)) with (/ 36028797018963968). lra.
Qed.
Lemma grid x : is_double x -> 2 <= x < 4 -> exists m, x = IZR m * bpow radix2 (-51).
Proof.
  intros D H. unfold is_double in D. red in D. exists (Ztrunc (scaled_mantissa radix2 (FLT_exp (-1074) 53) x)). rewrite D at 1. unfold F2R. cbn [Fnum Fexp].
  replace (cexp radix2 (FLT_exp (-1074) 53) x) with (-51)%Z; [reflexivity|]. unfold cexp. rewrite (mag_unique radix2 x 2); [reflexivity|].
  change (bpow radix2 (2 - 1)) with 2. change (bpow radix2 2) with 4. rewrite Rabs_pos_eq; lra.
Qed.
Lemma off_pi x : is_double x -> 0 <= x <= 4 -> bpow radix2 (-55) <= Rabs (PI - x).
Proof.
  intros D H. assert (B := dPi_below). destruct dPi_num as (P1 & P2 & P3 & _). unfold uround in P3.
  assert (E55 : bpow radix2 (-55) = / 36028797018963968) by reflexivity.
  destruct (Rle_dec x dPi) as [L|L]; [rewrite Rabs_pos_eq; lra|].
  destruct (Rle_dec 4 x); [rewrite Rabs_left; lra|]. destruct (grid x D ltac:(lra)) as (m & E).
  assert (ED : dPi = IZR 7074237752028440 * bpow radix2 (-51)) by (change (bpow radix2 (-51)) with (/ 2251799813685248); unfold dPi; lra).
  assert (M : (7074237752028441 <= m)%Z).
  { apply Z.le_succ_l with (n := 7074237752028440%Z). apply lt_IZR. apply Rmult_lt_reg_r with (bpow radix2 (-51)); [apply bpow_gt_0|]. rewrite <- E, <- ED. lra. }
  apply IZR_le in M. assert (X : dPi + bpow radix2 (-51) <= x).
  { rewrite E, ED. change (bpow radix2 (-51)) with (/ 2251799813685248). lra. }
  change (bpow radix2 (-51)) with (/ 2251799813685248) in X. rewrite Rabs_left; lra.
Qed.
Lemma sin_below y : Rabs y <= PI / 2 -> Rabs y <= 2 * Rabs (sin y).
Proof.
  intros H. assert (W := sinc_range _ H). assert (P := PI_num). unfold sinc in W. destruct (Req_EM_T y 0) as [Z|Z]; [rewrite Z, Rabs_R0; generalize (Rabs_pos (sin 0)); lra|].
  assert (NS : sin y <> 0) by (intros Y; rewrite Y in W; unfold Rdiv in W; rewrite Rinv_0 in W; lra).
  replace y with (y / sin y * sin y) at 1 by (field; auto). rewrite Rabs_mult. apply Rmult_le_compat_r; [apply Rabs_pos|]. rewrite Rabs_pos_eq; lra.
Qed.
Lemma best_sound : sound_library best at2_best.
Proof.
  constructor; [exact lib_same| |].
  - intros x D H. assert (P := PI_num). assert (U := u_small). assert (B60 : bpow radix2 (-60) = / 1152921504606846976) by reflexivity.
    destruct (Rle_dec (Rabs x) (PI / 2)) as [S|S].
    + assert (A := gl_sin _ _ lib_same x D ltac:(lra)). assert (B := sin_below x S). assert (W := near_size (sin x) (m_sin best x) _ ltac:(rewrite Rabs_minus_sym; exact A)).
      assert (uround * Rabs (sin x) <= / 1000000 * Rabs (sin x)) by (apply Rmult_le_compat_r; [apply Rabs_pos|lra]).
      rewrite B60. generalize (Rabs_pos x). lra.
    + assert (O := off_pi (Rabs x) ltac:(apply generic_format_abs; exact D) ltac:(split; [apply Rabs_pos|lra])).
      assert (SE : Rabs (sin x) = Rabs (sin (PI - Rabs x))).
      { rewrite <- (Ropp_involutive (Rabs x)) at 1. rewrite Ropp_involutive, sin_PI_x. unfold Rabs at 3. destruct (Rcase_abs x); [rewrite sin_neg, Rabs_Ropp|]; reflexivity. }
      assert (B := sin_below (PI - Rabs x) ltac:(apply Rabs_le; lra)).
      assert (A := rnd_err (sin x)). assert (W := near_size (sin x) (rnd (sin x)) _ ltac:(rewrite Rabs_minus_sym; exact A)).
      cbn [m_sin best]. assert (uround * Rabs (sin x) <= / 1000000 * Rabs (sin x)) by (apply Rmult_le_compat_r; [apply Rabs_pos|lra]).
      assert (LL : least <= bpow radix2 (-100)) by (apply bpow_le; lia). assert (L100 : bpow radix2 (-100) <= bpow radix2 (-60)) by (apply bpow_le; lia).
      change (bpow radix2 (-55)) with (/ 36028797018963968) in O. rewrite B60 in *.
      assert (L100' : bpow radix2 (-100) = / 1152921504606846976 * / 1099511627776) by (change (-100)%Z with (-60 + -40)%Z; rewrite bpow_plus; reflexivity).
      assert (/ 1152921504606846976 * Rabs x <= / 1152921504606846976 * 4) by (apply Rmult_le_compat_l; lra). lra.
  - rewrite at2_best_zero, Rabs_R0 by lra. lra.
Qed.

(** ** Almost straight: a position is not accurate to the size of the coordinates *)
Definition almost_straight : vec5 := mk5 (bpow radix2 (-60)) 0 0 0 0.
Lemma almost_straight_ok : ordinary_track almost_straight (V3 0 60 0).
Proof.
  assert (O0 := ordinary_0). constructor; cbn [vx vy vz]; auto.
  - exact (ord_bpow (-60) ltac:(lia)).
  - change (almost_straight PHI0) with 0. apply d_0.
  - split; [replace 60 with (IZR 60 * bpow radix2 0) by (change (bpow radix2 0) with 1; ring); apply dyadic; lia|].
    rewrite Rabs_pos_eq by lra. apply Rle_trans with (bpow radix2 10); [change (bpow radix2 10) with 1024; lra|apply bpow_le; lia].
  - change (almost_straight PHI0) with 0. rewrite Rabs_R0. generalize PI_RGT_0. lra.
  - right. change (almost_straight OMEGA) with (bpow radix2 (-60)). rewrite Rabs_pos_eq by apply bpow_ge_0. apply bpow_le. lia.
Qed.
Lemma x_plane : ordinary_plane (sf_origin (ex_plane 1 1)) (sf_normal (ex_plane 1 1) v3zero).
Proof. assert (A := d_0). assert (B := d_1). constructor; cbn; auto; lra. Qed.
Lemma spread_as : spread (V3 1 0 0) almost_straight (V3 0 60 0) = 61 + bpow radix2 60.
Proof.
  unfold spread. cbn [vx vy]. change (almost_straight D0) with 0. change (almost_straight OMEGA) with (bpow radix2 (-60)).
  rewrite Rabs_R0, Rabs_R1, (Rabs_pos_eq 60), (Rabs_pos_eq (bpow _ _)) by (apply bpow_ge_0 || lra). rewrite <- bpow_opp. change (- -60)%Z with 60%Z. ring.
Qed.
Lemma as_circle : intersectCircleStraightLine_d 0 (- bpow radix2 60) (bpow radix2 60) 1 0 1 = Ok [Some (1, - bpow radix2 61); Some (1, 0)].
Proof.
  set (W := bpow radix2 60). assert (WE : W = 1152921504606846976) by reflexivity.
  assert (DW : forall k, (-1000 <= k)%Z -> is_double (bpow radix2 k)) by (intros k Hk; apply double_bpow; lia).
  assert (D0 := d_0). assert (D1 := d_1). assert (D2 : is_double W) by (apply DW; lia). assert (D3 : is_double (W * W)) by (unfold W; rewrite <- bpow_plus; apply DW; lia).
  assert (D4 : is_double (- W)) by (apply opp_double, D2). assert (D5 : is_double (- bpow radix2 61)) by (apply opp_double, DW; lia).
  assert (BW : bpow radix2 61 = 2 * W) by (change 61%Z with (1 + 60)%Z; rewrite bpow_plus; reflexivity).
  assert (W2 : W * W = bpow radix2 120) by (unfold W; rewrite <- bpow_plus; reflexivity).
  assert (step : forall A x y (k : R -> res A), x = y -> is_double y -> Rabs y <= bpow radix2 120 -> bind (rd x) k = k y).
  { intros A x y k -> Dy By. rewrite (rd_fin_ok y 120 By) by lia. cbn [bind]. rewrite rnd_id; auto. }
  assert (B1 : Rabs 0 <= bpow radix2 120) by (rewrite Rabs_R0; apply bpow_ge_0). assert (B2 : Rabs 1 <= bpow radix2 120) by (rewrite Rabs_R1; apply (bpow_le radix2 0); lia).
  assert (B3 : Rabs W <= bpow radix2 120) by (unfold W; rewrite Rabs_pos_eq by apply bpow_ge_0; apply bpow_le; lia).
  assert (B4 : Rabs (W * W) <= bpow radix2 120) by (rewrite W2, Rabs_pos_eq by apply bpow_ge_0; lra).
  assert (B5 : Rabs (- W) <= bpow radix2 120) by (rewrite Rabs_Ropp; exact B3).
  assert (B6 : Rabs (- bpow radix2 61) <= bpow radix2 120) by (rewrite Rabs_Ropp, Rabs_pos_eq by apply bpow_ge_0; apply bpow_le; lia).
  unfold intersectCircleStraightLine_d.
  rewrite (step _ _ 0) by (ring || assumption). rewrite (step _ _ 0) by (ring || assumption). rewrite (step _ _ 0) by (ring || assumption).
  rewrite (step _ _ 1) by (ring || assumption). rewrite (step _ _ 1) by (ring || assumption). rewrite (step _ _ 0) by (ring || assumption).
  rewrite (step _ _ 1) by (ring || assumption). rewrite (step _ _ (W * W)) by (ring || assumption). rewrite (step _ _ (W * W)) by (ring || assumption). rewrite (step _ _ 1) by (ring || assumption).
  assert (LO : rnd (W * W - 1) = W * W).
  { replace (W * W - 1) with (W * W - rnd 1) by (rewrite (rnd_id 1 D1); reflexivity). apply stuck_angle; [exact D3|].
    rewrite W2, Rabs_R1, Rabs_pos_eq by apply bpow_ge_0. rewrite <- bpow_plus. apply (bpow_le radix2 0). lia. }
  assert (LR : rd (W * W - 1) = Ok (W * W)).
  { rewrite <- LO at 2. apply (rd_fin_ok _ 120); [|lia]. unfold mag. rewrite W2. assert (1 <= bpow radix2 120) by (apply (bpow_le radix2 0); lia). rewrite Rabs_pos_eq; lra. }
  rewrite LR. cbn [bind]. assert (P2 : 1 <= W * W) by (rewrite W2; apply (bpow_le radix2 0); lia).
  assert (R9 : 0 <= rnd (/ 1000000000) <= 1 / 2).
  { split; [rewrite <- rnd_0; apply round_le; [apply FLT_exp_valid; reflexivity|apply valid_rnd_N|lra]|].
    assert (E := rnd_small (/ 1000000000) 1 ltac:(rewrite Rabs_pos_eq; lra) ltac:(lra)). apply Rabs_le_inv in E. lra. }
  destruct Rlt_dec; [lra|]. unfold rd_div. destruct Req_EM_T; [lra|]. rewrite (step _ _ 1) by (field || assumption).
  destruct Rlt_dec; [lra|]. cbv zeta. replace (rnd (sqrt (W * W))) with W by (rewrite sqrt_square, rnd_id; auto; lra).
  rewrite (step _ _ 1) by (ring || assumption). rewrite (step _ _ 0) by (ring || assumption). rewrite (step _ _ 0) by (ring || assumption). rewrite (step _ _ W) by (ring || assumption).
  rewrite (step _ _ 1) by (ring || assumption). rewrite (step _ _ 1) by (ring || assumption). rewrite (step _ _ 1) by (ring || assumption).
  rewrite (step _ _ (- W)) by (ring || assumption). rewrite (step _ _ (- W)) by (ring || assumption). rewrite (step _ _ (- bpow radix2 61)) by ((rewrite BW; ring) || assumption).
  destruct Rle_dec; [lra|].
  rewrite (step _ _ 1) by (ring || assumption). rewrite (step _ _ 1) by (ring || assumption). rewrite (step _ _ 1) by (ring || assumption).
  rewrite (step _ _ W) by (ring || assumption). rewrite (step _ _ W) by (ring || assumption). rewrite (step _ _ 0) by (ring || assumption). reflexivity.
Qed.

Lemma as_result s x b : intersectWithZPlane_d best at2_best (ex_plane 1 1) almost_straight (V3 0 60 0) OBad 0 false = Ok (b, OVal s x) -> vx x = 1 /\ vy x <= 0.
Proof.
  assert (Dz := d_0). assert (D1 := d_1). assert (DW : is_double (bpow radix2 60)) by (apply double_bpow; lia).
  assert (step : forall A x y (k : R -> res A), x = y -> is_double y -> Rabs y <= bpow radix2 120 -> bind (rd x) k = k y).
  { intros A x' y k -> Dy By. rewrite (rd_fin_ok y 120 By) by lia. cbn [bind]. rewrite rnd_id; auto. }
  assert (B1 : Rabs 0 <= bpow radix2 120) by (rewrite Rabs_R0; apply bpow_ge_0). assert (B2 : Rabs 1 <= bpow radix2 120) by (rewrite Rabs_R1; apply (bpow_le radix2 0); lia).
  assert (B3 : Rabs (bpow radix2 60) <= bpow radix2 120) by (rewrite Rabs_pos_eq by apply bpow_ge_0; apply bpow_le; lia).
  assert (V : vdot_d (V3 1 0 0) (V3 1 0 0) = Ok 1).
  { unfold vdot_d. cbn [vx vy vz]. rewrite (step _ _ 1) by (ring || assumption). rewrite (step _ _ 0) by (ring || assumption). rewrite (step _ _ 1) by (ring || assumption).
    rewrite (step _ _ 0) by (ring || assumption). rewrite Rplus_0_r. rewrite (rd_fin_ok _ 120 B2), rnd_id by (exact D1 || lia). reflexivity. }
  assert (ON : 1 / bpow radix2 (-60) = bpow radix2 60) by (unfold Rdiv; rewrite Rmult_1_l, <- bpow_opp; reflexivity).
  assert (NZ : bpow radix2 (-60) <> 0) by (generalize (bpow_gt_0 radix2 (-60)); lra).
  assert (ER : calculateRadius_d almost_straight = Ok (bpow radix2 60)).
  { unfold calculateRadius_d. change (almost_straight OMEGA) with (bpow radix2 (-60)). destruct Req_EM_T; [contradiction|]. unfold rd_div. destruct Req_EM_T; [contradiction|].
    rewrite ON, (step _ _ (bpow radix2 60)), Rabs_pos_eq by (reflexivity || assumption || apply bpow_ge_0). reflexivity. }
  assert (EX : calculateXCenter_d best almost_straight (V3 0 60 0) = Ok 0).
  { unfold calculateXCenter_d. change (almost_straight OMEGA) with (bpow radix2 (-60)). change (almost_straight D0) with 0. change (almost_straight PHI0) with 0. cbn [m_sin best vx].
    rewrite sin_0, rnd_0. destruct Req_EM_T; [contradiction|]. unfold rd_div. destruct Req_EM_T; [contradiction|]. rewrite ON.
    rewrite (step _ _ (bpow radix2 60)) by (reflexivity || assumption). rewrite (step _ _ (bpow radix2 60)) by (ring || assumption). rewrite (step _ _ 0) by (ring || assumption).
    rewrite Rplus_0_r, (rd_fin_ok _ 120 B1), rnd_id by (exact Dz || lia). reflexivity. }
  assert (EY : calculateYCenter_d best almost_straight (V3 0 60 0) = Ok (- bpow radix2 60)).
  { unfold calculateYCenter_d. change (almost_straight OMEGA) with (bpow radix2 (-60)). change (almost_straight D0) with 0. change (almost_straight PHI0) with 0. cbn [m_cos best vy].
    rewrite cos_0, (rnd_id 1 D1). destruct Req_EM_T; [contradiction|]. unfold rd_div. destruct Req_EM_T; [contradiction|]. rewrite ON.
    rewrite (step _ _ (bpow radix2 60)) by (reflexivity || assumption). do 2 rewrite (step _ _ (bpow radix2 60)) by (ring || assumption).
    change (bpow radix2 60) with 1152921504606846976.
    assert (E : rnd (60 - 1152921504606846976) = IZR (-9007199254740992) * bpow radix2 (59 - 52)).
    { apply rounds; [lia| |].
      - change (bpow radix2 59) with 576460752303423488. change (bpow radix2 (59 + 1)) with 1152921504606846976. rewrite Rabs_left by lra. lra.
      - change (bpow radix2 (52 - 59)) with (/ 128). apply Rabs_def1; lra. }
    rewrite (rd_fin_ok _ 60), E; [f_equal; change (bpow radix2 (59 - 52)) with 128; lra| |lia].
    unfold mag. change (bpow radix2 60) with 1152921504606846976. rewrite Rabs_left; lra. }
  unfold intersectWithZPlane_d. change (sf_normal (ex_plane 1 1) v3zero) with (V3 1 0 0). change (sf_origin (ex_plane 1 1)) with (V3 1 0 0). cbv zeta. rewrite V. cbn [bind vx vy].
  rewrite (normal_ok _ _ x_plane : andb (if Rlt_dec (Rabs 1) _ then true else false) (if Rlt_dec (Rabs 0) _ then true else false) = false).
  rewrite ER, EX, EY, Rabs_R1. cbn [bind]. rewrite as_circle. cbn [bind]. intros E.
  assert (TP : forall X Y v, track_point best at2_best X Y almost_straight (V3 0 60 0) = Ok v -> vx (snd v) = X /\ vy (snd v) = Y).
  { intros X Y v T. unfold track_point in T. apply bind_inv in T. destruct T as (? & _ & T). apply bind_inv in T. destruct T as (? & _ & T). injection T as <-. auto. }
  apply bind_inv in E. destruct E as (v & EV & E). apply bind_inv in E. destruct E as (w & EW & E). apply TP in EV. apply TP in EW.
  assert (P := bpow_gt_0 radix2 61).
  destruct (select 0 0 (fst v) (snd v) (fst w) (snd w)) as [[s' x']|] eqn:Q; [|discriminate E]. injection E as <- <- <-.
  apply select_some in Q; [|lra]. destruct Q as [[[_ ->]|[_ ->]] _]; destruct EV, EW; split; lra.
Qed.

Theorem C92_blurred_refuted : exists L at2 surf hp rp f t s x, sound_library L at2 /\ ordinary_track hp rp /\ is_helix hp rp f
  /\ ordinary_plane (sf_origin surf) (sf_normal surf v3zero)
  /\ beyond (sf_origin surf) (sf_normal surf v3zero) (f t) = 0 /\ Rabs t <= 2
  /\ intersectWithZPlane_d L at2 surf hp rp OBad 0 false = Ok (true, OVal s x) /\ 58 <= Rabs (vy x - vy (f t)).
Proof.
  destruct (helix_exists almost_straight (V3 0 60 0)) as (f & Hf). set (om := bpow radix2 (-60)).
  assert (OM : almost_straight OMEGA = om) by reflexivity. assert (P0 : 0 < om) by apply bpow_gt_0. assert (NZ : om <> 0) by lra. assert (OE : om = / 1152921504606846976) by reflexivity.
  set (t := asin om / om). assert (RG : -1 <= om <= 1) by lra.
  assert (AB : Rabs (asin om) <= 2 * om).
  { destruct (asin_bound om) as [A1 A2]. eapply Rle_trans; [apply sin_below; apply Rabs_le; lra|]. rewrite sin_asin, (Rabs_pos_eq om) by lra. lra. }
  assert (T2 : Rabs t <= 2).
  { unfold t, Rdiv. rewrite Rabs_mult, Rabs_inv, (Rabs_pos_eq om) by lra. apply Rmult_le_reg_r with om; [exact P0|]. rewrite Rmult_assoc, Rinv_l by exact NZ. lra. }
  assert (FX : vx (f t) = 1).
  { rewrite (helix_is_hcurve _ _ _ NZ Hf). unfold hcurve. cbn [vx]. rewrite OM. change (almost_straight PHI0) with 0. change (almost_straight D0) with 0.
    replace (0 - t * om) with (- asin om) by (unfold t; field; exact NZ). rewrite sin_neg, sin_asin, sin_0 by lra. field. exact NZ. }
  assert (FY : 58 <= vy (f t)).
  { destruct (slow_helix _ _ f t 0 Hf) as [_ SY]. rewrite Rminus_0_r in SY. rewrite (helix_start _ _ _ Hf) in SY. cbn [vy] in SY. change (almost_straight D0) with 0 in SY. apply Rabs_le_inv in SY. lra. }
  assert (O0 := ordinary_0). assert (SB : spread (V3 1 0 0) almost_straight (V3 0 60 0) <= bpow radix2 98).
  { rewrite spread_as. apply Rle_trans with (bpow radix2 61); [change (bpow radix2 61) with 2305843009213693952; change (bpow radix2 60) with 1152921504606846976; lra|apply bpow_le; lia]. }
  assert (ST : haze (V3 1 0 0) almost_straight (V3 0 60 0) <= 200).
  { unfold haze, stretch. rewrite spread_as, OM. rewrite (Rabs_pos_eq om) by lra. rewrite OE. change (bpow radix2 60) with 1152921504606846976. unfold uround. lra. }
  assert (H0 : 0 <= haze (V3 1 0 0) almost_straight (V3 0 60 0)).
  { unfold haze, stretch. rewrite spread_as, OM. rewrite (Rabs_pos_eq om) by lra. rewrite OE. change (bpow radix2 60) with 1152921504606846976. unfold uround. lra. }
  assert (FF : forall z, -1 <= z <= 1 -> vx (f (asin z / om)) = z / om).
  { intros z Hz. rewrite (helix_is_hcurve _ _ _ NZ Hf). unfold hcurve. cbn [vx]. rewrite OM. change (almost_straight PHI0) with 0. change (almost_straight D0) with 0.
    replace (0 - asin z / om * om) with (- asin z) by (field; exact NZ). rewrite sin_neg, sin_asin, sin_0 by lra. field. exact NZ. }
  destruct (C92_found best at2_best (ex_plane 1 1) almost_straight (V3 0 60 0) OBad f (asin (-1) / om) (asin 1 / om) best_sound almost_straight_ok NZ x_plane SB Hf O0 O0 O0) as (s & x & E & _).
  { unfold beyond. cbn [sf_origin sf_normal ex_plane ex_surface vx vy]. rewrite FF by lra. change (sf_origin (ex_plane 1 1)) with (V3 1 0 0). rewrite OE. lra. }
  { unfold beyond. cbn [sf_origin sf_normal ex_plane ex_surface vx vy]. rewrite FF by lra. change (sf_origin (ex_plane 1 1)) with (V3 1 0 0). rewrite OE. lra. }
  exists best, at2_best, (ex_plane 1 1), almost_straight, (V3 0 60 0), f, t, s, x.
  split; [exact best_sound|]. split; [exact almost_straight_ok|]. split; [exact Hf|]. split; [exact x_plane|].
  split; [unfold beyond; cbn [sf_origin sf_normal ex_plane ex_surface vx vy]; rewrite FX; ring|]. split; [exact T2|]. split; [exact E|].
  destruct (as_result _ _ _ E) as [_ Y]. rewrite Rabs_left1 by lra. lra.
Qed.
Print Assumptions C92_blurred_refuted.

(** ** A plane just beyond the circle: reported as met, with coordinates that are not numbers *)
Definition unit_circle : vec5 := mk5 1 0 0 0 0.
Definition missed_plane : surface :=
  ex_surface plane_type None (V3 0 (- (2 + bpow radix2 (-40))) 0) (V3 0 (-1) 0) (fun x => - (vy x + (2 + bpow radix2 (-40)))).
Lemma missed_result out : intersectWithZPlane_d best at2_best missed_plane unit_circle v3zero out 0 false = Ok (true, OBad)
  /\ intersectWithZPlane_d best at2_best missed_plane unit_circle v3zero out 0 true = NonFin.
Proof.
  set (dl := bpow radix2 (-40)). assert (DE : dl = / 1099511627776) by reflexivity.
  assert (step : forall A x y (k : R -> res A), x = y -> is_double y -> Rabs y <= bpow radix2 2 -> bind (rd x) k = k y).
  { intros A x y k -> Dy By. rewrite (rd_fin_ok y 2 By) by lia. cbn [bind]. rewrite rnd_id; auto. }
  assert (B : forall y, -4 <= y <= 4 -> Rabs y <= bpow radix2 2) by (intros y H; change (bpow radix2 2) with 4; apply Rabs_le; lra).
  assert (F0 := d_0). assert (F1 := d_1). assert (Fm : is_double (- (1))) by (apply opp_double, d_1).
  assert (Fd : forall m, (Z.abs m < 4 * 2 ^ 40)%Z -> is_double (IZR m * dl)) by (intros m Hm; apply dyadic; lia).
  assert (F2 : is_double (2 + dl)) by (replace (2 + dl) with (IZR (2199023255553) * dl) by (rewrite DE; lra); apply Fd; lia).
  assert (F3 : is_double (1 + dl)) by (replace (1 + dl) with (IZR (1099511627777) * dl) by (rewrite DE; lra); apply Fd; lia).
  assert (F4 : is_double (- (2 * dl))) by (replace (- (2 * dl)) with (IZR (-2) * dl) by (rewrite DE; lra); apply Fd; lia).
  assert (SQ : rnd ((1 + dl) * (1 + dl)) = 1 + 2 * dl).
  { rewrite (rounds _ 4503599627378688 0); [change (bpow radix2 (0 - 52)) with (/ 4503599627370496); rewrite DE; lra|lia| |].
    - change (bpow radix2 0) with 1. change (bpow radix2 (0 + 1)) with 2. rewrite DE, Rabs_pos_eq; lra.
    - change (bpow radix2 (52 - 0)) with 4503599627370496. rewrite DE. apply Rabs_def1; lra. }
  assert (SR : rd ((1 + dl) * (1 + dl)) = Ok (1 + 2 * dl)) by (rewrite (rd_fin_ok _ 2), SQ; [reflexivity|apply B; try rewrite DE; lra|lia]).
  assert (V : vdot_d (V3 0 (- (2 + dl)) 0) (V3 0 (-1) 0) = Ok (2 + dl)).
  { unfold vdot_d. cbn [vx vy vz]. rewrite (step _ _ 0) by (ring || assumption || (apply B; try rewrite DE; lra)). rewrite (step _ _ (2 + dl)) by (ring || assumption || (apply B; try rewrite DE; lra)).
    rewrite (step _ _ (2 + dl)) by (ring || assumption || (apply B; try rewrite DE; lra)). rewrite (step _ _ 0) by (ring || assumption || (apply B; try rewrite DE; lra)).
    rewrite Rplus_0_r. rewrite (rd_fin_ok _ 2), rnd_id by (assumption || lia || (apply B; try rewrite DE; lra)). reflexivity. }
  assert (ER : calculateRadius_d unit_circle = Ok 1).
  { unfold calculateRadius_d, rd_div. change (unit_circle OMEGA) with 1. destruct Req_EM_T; [lra|]. rewrite (step _ _ 1) by (field || assumption || (apply B; lra)). rewrite Rabs_R1. reflexivity. }
  assert (EX : calculateXCenter_d best unit_circle v3zero = Ok 0).
  { unfold calculateXCenter_d, rd_div. change (unit_circle OMEGA) with 1. change (unit_circle D0) with 0. change (unit_circle PHI0) with 0. cbn [m_sin best vx v3zero].
    rewrite sin_0, rnd_0. destruct Req_EM_T; [lra|]. rewrite (step _ _ 1) by (field || assumption || (apply B; lra)). rewrite (step _ _ 1) by (ring || assumption || (apply B; lra)).
    rewrite (step _ _ 0) by (ring || assumption || (apply B; lra)). rewrite Rplus_0_r, (rd_fin_ok _ 2), rnd_id by (assumption || lia || (apply B; lra)). reflexivity. }
  assert (EY : calculateYCenter_d best unit_circle v3zero = Ok (- (1))).
  { unfold calculateYCenter_d, rd_div. change (unit_circle OMEGA) with 1. change (unit_circle D0) with 0. change (unit_circle PHI0) with 0. cbn [m_cos best vy v3zero].
    rewrite cos_0, (rnd_id 1 F1). destruct Req_EM_T; [lra|]. rewrite (step _ _ 1) by (field || assumption || (apply B; lra)). do 2 rewrite (step _ _ 1) by (ring || assumption || (apply B; lra)).
    replace (0 - 1) with (- (1)) by ring. rewrite (rd_fin_ok _ 2), rnd_id by (assumption || lia || (apply B; lra)). reflexivity. }
  assert (IC : intersectCircleStraightLine_d 0 (- (1)) 1 0 (-1) (2 + dl) = Ok [None]).
  { unfold intersectCircleStraightLine_d, rd_div.
    rewrite (step _ _ 0) by (ring || assumption || (apply B; lra)). rewrite (step _ _ 1) by (ring || assumption || (apply B; lra)). rewrite (step _ _ 1) by (ring || assumption || (apply B; lra)).
    rewrite (step _ _ (1 + dl)) by (ring || assumption || (apply B; try rewrite DE; lra)).
    rewrite (step _ _ 0) by (ring || assumption || (apply B; lra)). rewrite (step _ _ 1) by (ring || assumption || (apply B; lra)). rewrite (step _ _ 1) by (ring || assumption || (apply B; lra)).
    rewrite (step _ _ 1) by (ring || assumption || (apply B; lra)). rewrite (step _ _ 1) by (ring || assumption || (apply B; lra)). rewrite SR. cbn [bind].
    rewrite (step _ _ (- (2 * dl))) by (ring || assumption || (apply B; try rewrite DE; lra)).
    assert (R9 : bpow radix2 (-30) <= rnd (/ 1000000000)).
    { rewrite <- (rnd_id (bpow radix2 (-30))) by (apply double_bpow; lia). apply round_le; [apply FLT_exp_valid; reflexivity|apply valid_rnd_N|]. change (bpow radix2 (-30)) with (/ 1073741824). lra. }
    change (bpow radix2 (-30)) with (/ 1073741824) in R9. destruct Rlt_dec as [Q|_]; [exfalso; rewrite DE in Q; lra|].
    destruct Req_EM_T; [lra|]. rewrite (step _ _ 1) by (field || assumption || (apply B; lra)). destruct Rlt_dec as [_|Q]; [reflexivity|exfalso; apply Q; rewrite DE; lra]. }
  assert (NB : (if Rlt_dec (Rabs (-1)) (rnd (/ 1000000000000)) then true else false) = false).
  { destruct Rlt_dec as [Q|_]; [|reflexivity]. exfalso. assert (W : rnd (/ 1000000000000) <= rnd 1) by (apply round_le; [apply FLT_exp_valid; reflexivity|apply valid_rnd_N|lra]).
    rewrite (rnd_id 1 F1) in W. rewrite Rabs_left in Q; lra. }
  unfold intersectWithZPlane_d. change (sf_normal missed_plane v3zero) with (V3 0 (-1) 0). change (sf_origin missed_plane) with (V3 0 (- (2 + dl)) 0). cbv zeta. rewrite V. cbn [bind vx vy].
  rewrite NB, andb_false_r, ER, EX, EY, (Rabs_pos_eq (2 + dl)) by (rewrite DE; lra). cbn [bind]. rewrite IC. split; reflexivity.
Qed.

Lemma unit_low f t : is_helix unit_circle v3zero f -> -2 <= vy (f t).
Proof.
  intros Hf. assert (OM : unit_circle OMEGA = 1) by reflexivity. assert (NZ : unit_circle OMEGA <> 0) by (rewrite OM; lra).
  rewrite (helix_is_hcurve unit_circle v3zero f NZ Hf). unfold hcurve. cbn [vy v3zero]. assert (PH : unit_circle PHI0 = 0) by reflexivity. assert (DD : unit_circle D0 = 0) by reflexivity.
  rewrite OM, PH, DD, cos_0. generalize (COS_bound (0 - t * 1)). lra.
Qed.

Theorem C92_nan_refuted : exists L at2 surf hp rp f, sound_library L at2 /\ ordinary_track hp rp /\ is_helix hp rp f
  /\ ordinary_plane (sf_origin surf) (sf_normal surf v3zero)
  /\ (forall t, beyond (sf_origin surf) (sf_normal surf v3zero) (f t) < 0)
  /\ (forall out, intersectWithZPlane_d L at2 surf hp rp out 0 false = Ok (true, OBad))
  /\ (forall out, intersectWithZPlane_d L at2 surf hp rp out 0 true = NonFin).
Proof.
  destruct (helix_exists unit_circle v3zero) as (f & Hf). exists best, at2_best, missed_plane, unit_circle, v3zero, f.
  assert (DE : bpow radix2 (-40) = / 1099511627776) by reflexivity. assert (O0 := ordinary_0).
  split; [exact best_sound|]. split.
  { constructor; cbn [vx vy vz v3zero]; auto.
    - exact (ord_bpow 0 ltac:(lia)).
    - change (unit_circle PHI0) with 0. apply d_0.
    - change (unit_circle PHI0) with 0. rewrite Rabs_R0. generalize PI_RGT_0. lra.
    - right. change (unit_circle OMEGA) with 1. rewrite Rabs_R1. apply (bpow_le radix2 _ 0). lia. }
  split; [exact Hf|]. split.
  { assert (A := d_0). constructor; cbn; auto; try (rewrite ?DE; lra).
    - apply opp_double. replace (2 + / 1099511627776) with (IZR (2199023255553) * bpow radix2 (-40)) by (rewrite DE; lra). apply dyadic; lia.
    - exact (opp_double _ d_1). }
  split.
  { intros t. assert (B := unit_low f t Hf). change (sf_origin missed_plane) with (V3 0 (- (2 + bpow radix2 (-40))) 0). change (sf_normal missed_plane v3zero) with (V3 0 (-1) 0).
    unfold beyond. cbn [vx vy]. rewrite DE. lra. }
  split; intros out; [exact (proj1 (missed_result out))|exact (proj2 (missed_result out))].
Qed.
Print Assumptions C92_nan_refuted.

(** ** An ordinary track and an ordinary plane *)
Definition y_plane (a : R) : surface := ex_surface plane_type None (V3 0 a 0) (V3 0 1 0) (fun x => vy x - a).
Example C92_ex : exists f s x t, is_helix (slanted (/ 4096)) v3zero f /\ ordinary_track (slanted (/ 4096)) v3zero
  /\ intersectWithZPlane_d best at2_best (y_plane 100) (slanted (/ 4096)) v3zero OBad 0 false = Ok (true, OVal s x)
  /\ Rabs (vy x - 100) <= / 10000000000 /\ dist_xy (f t) x <= / 1000000000.
Proof.
  destruct (helix_exists (slanted (/ 4096)) v3zero) as (f & Hf). assert (O0 := ordinary_0). assert (OM : slanted (/ 4096) OMEGA = / 4096) by reflexivity.
  assert (HT : ordinary_track (slanted (/ 4096)) v3zero).
  { apply slanted_ordinary; [exact (ord_bpow (-12) ltac:(lia))|]. right. change (/ 4096) with (bpow radix2 (-12)). rewrite Rabs_pos_eq by apply bpow_ge_0. apply bpow_le. lia. }
  assert (HP : ordinary_plane (V3 0 100 0) (V3 0 1 0)).
  { assert (A := d_0). assert (B := d_1). constructor; cbn [vx vy vz]; auto; try lra.
    replace 100 with (IZR 100 * bpow radix2 0) by (change (bpow radix2 0) with 1; ring). apply dyadic; lia. }
  assert (SP : spread (V3 0 100 0) (slanted (/ 4096)) v3zero = 4196).
  { unfold spread. rewrite OM. change (slanted (/ 4096) D0) with 0. cbn [v3zero vx vy]. rewrite Rabs_R0, !Rabs_pos_eq by lra. lra. }
  assert (HZ : haze (V3 0 100 0) (slanted (/ 4096)) v3zero <= 4300 * uround) by (unfold haze, stretch; rewrite SP, OM, Rabs_pos_eq by lra; unfold uround; lra).
  assert (U := u_small). assert (NZ : slanted (/ 4096) OMEGA <> 0) by (rewrite OM; lra).
  assert (F0 : vy (f 0) = 0) by (rewrite (helix_start _ _ _ Hf); change (slanted (/ 4096) D0) with 0; cbn [v3zero vy]; ring).
  assert (F1 : 300 <= vy (f 1000)).
  { rewrite (helix_is_hcurve _ _ _ NZ Hf). unfold hcurve. cbn [vy v3zero]. rewrite OM. change (slanted (/ 4096) D0) with 0. change (slanted (/ 4096) PHI0) with (3 / 2).
    assert (P := PI_num). rewrite form2. set (a := (3 / 2 - (3 / 2 - 1000 * / 4096)) / 2). set (b := (3 / 2 + (3 / 2 - 1000 * / 4096)) / 2).
    assert (EA : a = 125 / 1024) by (unfold a; lra). assert (EB : b = 1411 / 1024) by (unfold b; lra).
    assert (A1 := sin_below a ltac:(apply Rabs_le; lra)). assert (B1 := sin_below b ltac:(apply Rabs_le; lra)).
    assert (A0 : 0 < sin a) by (apply sin_gt_0; lra). assert (B0 : 0 < sin b) by (apply sin_gt_0; lra).
    rewrite !Rabs_pos_eq in A1, B1 by lra. assert (125 / 2048 * (1411 / 2048) <= sin a * sin b) by (apply Rmult_le_compat; lra). nra. }
  destruct (C92_found best at2_best (y_plane 100) (slanted (/ 4096)) v3zero OBad f 0 1000 best_sound HT NZ HP) as (s & x & E & [C1 C2 (t & _ & C3 & _)]); auto.
  - change (sf_origin (y_plane 100)) with (V3 0 100 0). rewrite SP. apply Rle_trans with (bpow radix2 13); [change (bpow radix2 13) with 8192; lra|apply bpow_le; lia].
  - change (sf_origin (y_plane 100)) with (V3 0 100 0). unfold beyond. cbn [y_plane ex_surface sf_origin sf_normal vx vy]. rewrite F0. lra.
  - change (sf_origin (y_plane 100)) with (V3 0 100 0). unfold beyond. cbn [y_plane ex_surface sf_origin sf_normal vx vy]. lra.
  - exists f, s, x, t. split; [exact Hf|]. split; [exact HT|]. split; [exact E|].
    change (sf_origin (y_plane 100)) with (V3 0 100 0) in *. change (sf_normal (y_plane 100) v3zero) with (V3 0 1 0) in *. rewrite SP in C1. unfold beyond in C1. cbn [vx vy] in C1.
    assert (UE : uround <= / 4503599627370496) by (unfold uround; lra).
    split; [|lra]. replace (vy x - 100) with ((vx x - 0) * 0 + (vy x - 100) * 1) by ring. lra.
Qed.
Print Assumptions C92_ex.

(** ** A straight track that goes through the plane and is not found *)
Example C92_straight_ex : let hp := mk5 0 0 0 0 0 in exists f, is_helix hp v3zero f /\ beyond (V3 1 0 0) (V3 1 0 0) (f 1) = 0
  /\ forall L at2 out mode cb, intersectWithZPlane_d L at2 (ex_plane 1 1) hp v3zero out mode cb = Ok (false, out).
Proof.
  intros hp. exists (hline hp v3zero). split; [apply hline_helix; reflexivity|]. split.
  - unfold beyond, hline, hp. cbn. rewrite cos_0, sin_0. ring.
  - intros. apply C92_straight; [reflexivity|exact x_plane| | |]; cbn; rewrite ?Rabs_R0, ?Rabs_R1; lra.
Qed.
Print Assumptions C92_straight_ex.
