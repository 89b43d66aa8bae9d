(** C91: the crossing of a track with a cylinder in double precision. *)
From Coq Require Import Reals ZArith Lra Lia Bool.
From Flocq Require Import Core.
From Verif Require Import Num Vec Helix Isect FloatWrap SpecHelix SpecIsect HelixFacts IsectFacts SurfFacts2 PointFloat SpecRound SpecPath RoundFacts
  PointFloatFacts PathFloatFacts PathLibFacts PropRound PropPath PropMoveFloat PropSurf PropDiskFloat CylFloat SpecCylFloat NearFacts CylGeom CylFloatFacts.
Open Scope R_scope.

(** Whatever is returned: either nothing, and the track does not cross the cylinder by
    more than the error of a position; or there are two crossings, no other points of
    the track are on the cylinder, and the mode chooses between these two. *)
Theorem C91_outcome : forall L at2 as_ surf rho c hp rp mode cb f b o,
  good_library L at2 -> good_asin as_ -> ordinary_track hp rp -> ordinary_cylinder rho c -> is_helix hp rp f ->
  sf_cyl surf = Some (rho, c) ->
  intersectWithZCylinder_d L at2 as_ surf hp rp mode cb = Ok (b, o) ->
  (b = false /\ o = None /\ passes_by f rho c (113 * blur rho c hp rp))
  \/ exists s0 x0 s1 x1, located f rho c hp rp s0 x0 /\ located f rho c hp rp s1 x1 /\ exhaust f rho c hp rp x0 x1
     /\ match o with
        | None => b = false /\ none_for mode (fun s => s = s0 \/ s = s1)
        | Some (s, x) => (s = s0 /\ x = x0 \/ s = s1 /\ x = x1)
            /\ picked (/ 5000 + 2 * uround * (Rabs s0 + Rabs s1)) mode (fun s => s = s0 \/ s = s1) s
            /\ (b = true <-> (cb = true -> sf_insideBounds surf x = true))
        end.
Proof.
  intros L at2 as_ surf rho c hp rp mode cb f b o HL HA HT HC Hf HS E.
  assert (HP : st_parallelToZ (sf_type surf) = true).
  { unfold intersectWithZCylinder_d in E. destruct (st_parallelToZ (sf_type surf)); [reflexivity|discriminate E]. }
  destruct (outcome L at2 as_ hp rp rho c HL HA HT HC f Hf surf mode cb (b, o) HP HS E) as [[Q P]|(s0 & x0 & s1 & x1 & L0 & L1 & X & Q)].
  - left. injection Q as -> ->. repeat split; auto.
  - right. exists s0, x0, s1, x1. repeat (split; [assumption|]). assert (W := select_d_spec mode s0 x0 s1 x1).
    destruct (select_d mode s0 x0 s1 x1) as [[s x]|]; injection Q as -> ->; [|auto].
    destruct W as [W1 W2]. split; [exact W1|]. split; [exact W2|apply bounds_iff].
Qed.
Print Assumptions C91_outcome.

(** If the radius of the track is large, the result is finite: nothing overflows and
    nothing is undefined. *)
Theorem C91_finite : forall L at2 as_ surf rho c hp rp mode cb,
  good_library L at2 -> good_asin as_ -> ordinary_track hp rp -> ordinary_cylinder rho c ->
  ordinary (hp Z0) -> ordinary (hp TANL) -> ordinary (vz rp) ->
  st_parallelToZ (sf_type surf) = true -> sf_cyl surf = Some (rho, c) -> bend rho c hp rp <= 4 / 10 ->
  exists b o, intersectWithZCylinder_d L at2 as_ surf hp rp mode cb = Ok (b, o).
Proof.
  intros L at2 as_ surf rho c hp rp mode cb HL HA HT HC Z1 Z2 Z3 HP HS KB. destruct (helix_exists hp rp) as (f & Hf).
  destruct (finite L at2 as_ hp rp rho c HL HA HT HC f Hf surf mode cb HP HS (proj2 Z1) (proj2 Z2) (proj2 Z3) KB) as ([b o] & E). eauto.
Qed.
Print Assumptions C91_finite.

(** The surface is checked before anything else, and nothing else throws. *)
Theorem C91_throws : forall L at2 as_ surf hp rp mode cb,
  intersectWithZCylinder_d L at2 as_ surf hp rp mode cb = Throw
  <-> (st_parallelToZ (sf_type surf) = false \/ sf_cyl surf = None).
Proof.
  intros L at2 as_ surf hp rp mode cb. unfold intersectWithZCylinder_d.
  destruct (st_parallelToZ (sf_type surf)); [|tauto]. destruct (sf_cyl surf) as [[rho c]|]; [|tauto]. split; [|intros [Q|Q]; discriminate Q].
  assert (RD : forall x, rd x <> Throw) by (intros x; unfold rd; destruct Rlt_dec; discriminate).
  assert (BD : forall A B (m : res A) (k : A -> res B), m <> Throw -> (forall a, k a <> Throw) -> bind m k <> Throw)
    by (intros A B m k H1 H2; destruct m; cbn [bind]; try discriminate; [apply H2|congruence]).
  assert (DV : forall x y, rd_div x y <> Throw) by (intros x y; unfold rd_div; destruct Req_EM_T; [discriminate|apply RD]).
  assert (CP : forall phi, cyl_point L at2 rho c phi hp rp <> Throw).
  { intros phi. unfold cyl_point. do 4 (apply BD; [apply RD|intros]). apply BD.
    - unfold PathFloat.calculateSfromXY_d. cbv zeta. repeat first [apply RD | apply DV | (apply BD; [|intros]) | discriminate | match goal with |- context [if ?d then _ else _] => destruct d end].
    - intros s. apply BD; [|discriminate]. unfold calculateZfromS_d. do 2 (apply BD; [apply RD|intros]). apply RD. }
  intros E. exfalso. revert E. cbv zeta. change (?a = Throw -> False) with (a <> Throw). do 10 (apply BD; [apply RD|intros]).
  apply BD; [unfold gamma_num; do 12 (apply BD; [apply RD|intros]); apply RD|intros num].
  apply BD; [unfold gamma_den; do 4 (apply BD; [apply RD|intros]); apply RD|intros den].
  destruct Req_EM_T; [destruct Req_EM_T; discriminate|]. destruct Rlt_dec; [discriminate|].
  apply BD; [apply RD|intros]. apply BD; [destruct Rlt_dec; apply RD|intros]. apply BD; [apply RD|intros].
  do 2 (apply BD; [apply CP|intros]). destruct select_d as [[s x]|]; discriminate.
Qed.
Print Assumptions C91_throws.

(** ** concrete roundings *)
Lemma rounds x n e : (-1022 <= e)%Z -> bpow radix2 e <= Rabs x < bpow radix2 (e + 1) -> Rabs (x * bpow radix2 (52 - e) - IZR n) < / 2 ->
  rnd x = IZR n * bpow radix2 (e - 52).
Proof.
  intros He Hx Hn. assert (C : cexp radix2 (FLT_exp (-1074) 53) x = (e - 52)%Z).
  { unfold cexp. rewrite (mag_unique radix2 x (e + 1)); [unfold FLT_exp; lia|]. replace (e + 1 - 1)%Z with e by lia. exact Hx. }
  unfold rnd, round. unfold F2R. cbn [Fnum Fexp]. rewrite C. f_equal. f_equal. apply Znearest_imp. unfold scaled_mantissa. rewrite C.
  replace (- (e - 52))%Z with (52 - e)%Z by lia. exact Hn.
Qed.
Definition best_asin (x : R) : R := rnd (asin x).
Lemma best_asin_good : good_asin best_asin.
Proof. intros x _ _. split; [apply rnd_double|apply rnd_off]. Qed.

Lemma unit_cylinder : ordinary_cylinder 1 v3zero.
Proof.
  assert (Z : is_double 0 /\ Rabs 0 <= bpow radix2 98) by (split; [apply d_0|rewrite Rabs_R0; apply bpow_ge_0]).
  constructor; auto using d_1; [apply (bpow_le radix2 (-200) 0)|apply (bpow_le radix2 0 98)]; lia.
Qed.

(** A track that touches the cylinder where it starts is not found, in no mode: gamma
    is rounded up to more than one. *)
Definition touching : vec5 := mk5 (3 * bpow radix2 (-55)) 0 0 0 0.
Lemma touching_ok : ordinary_track touching (V3 0 1 0).
Proof.
  assert (O0 := ordinary_0). assert (O1 : ordinary 1) by exact (ord_bpow 0 ltac:(lia)).
  assert (B : bpow radix2 (-55) = / 36028797018963968) by reflexivity. constructor; cbn [vx vy vz]; auto.
  - split; [apply dyadic; lia|]. change (touching OMEGA) with (3 * bpow radix2 (-55)). rewrite Rabs_pos_eq by (rewrite B; lra).
    apply Rle_trans with (bpow radix2 0); [change (bpow radix2 0) with 1; rewrite B; lra|apply bpow_le; lia].
  - change (touching PHI0) with 0. apply d_0.
  - change (touching PHI0) with 0. rewrite Rabs_R0. generalize PI_RGT_0. lra.
  - right. change (touching OMEGA) with (3 * bpow radix2 (-55)). assert (P := bpow_gt_0 radix2 (-55)). rewrite Rabs_pos_eq by lra.
    apply Rle_trans with (bpow radix2 (-55)); [apply bpow_le; lia|lra].
Qed.

Ltac small2 := unfold Rabs; destruct Rcase_abs; lra.
Lemma touching_missed mode cb : intersectWithZCylinder_d best at2_best best_asin (ex_cyl 0 0 1) touching (V3 0 1 0) mode cb = Ok (false, None).
Proof.
  set (w := / 18014398509481984 * / 2). assert (DW : w = bpow radix2 (-55)) by (unfold w; change (bpow radix2 (-55)) with (/ 36028797018963968); lra).
  assert (W : w = / 36028797018963968) by (unfold w; lra). clearbody w.
  assert (DO : is_double (3 * w)) by (rewrite DW; apply dyadic; lia).
  assert (E0 := d_0). assert (D1 := d_1). assert (D2 := d_2).
  assert (DN1 : is_double (-1)) by (apply opp_double, d_1). assert (DN2 : is_double (-2)) by (apply opp_double, d_2).
  assert (DON : is_double (- (3 * w))) by (apply opp_double, DO).
  unfold intersectWithZCylinder_d. change (st_parallelToZ (sf_type (ex_cyl 0 0 1))) with true. change (sf_cyl (ex_cyl 0 0 1)) with (Some (1, v3zero)).
  cbv beta iota zeta. change (touching OMEGA) with (3 * bpow radix2 (-55)). rewrite <- DW. change (touching PHI0) with 0. change (touching D0) with 0.
  cbn [best m_sin m_cos vx vy v3zero]. rewrite sin_0, cos_0, rnd_0, (rnd_id 1 D1).
  assert (step : forall A x y (k : R -> res A), x = y -> is_double y -> Rabs y <= 2000 -> bind (rd x) k = k y).
  { intros A x y k -> Dy By. rewrite (rdb y Dy By). reflexivity. }
  rewrite (step _ _ 0) by (lra || exact E0 || small2). rewrite (step _ _ 0) by (lra || exact E0 || small2).
  rewrite (step _ _ 0) by (lra || exact E0 || small2). rewrite (step _ _ 1) by (lra || exact D1 || small2).
  rewrite (step _ _ 0) by (lra || exact E0 || small2). rewrite (step _ _ (-1)) by (lra || exact DN1 || small2).
  rewrite (step _ _ 0) by (lra || exact E0 || small2). rewrite (step _ _ 0) by (lra || exact E0 || small2).
  rewrite (step _ _ (- (3 * w))) by (lra || exact DON || small2).
  assert (C1 : rnd (1 + - (3 * w)) = IZR 9007199254740991 * bpow radix2 (-53)).
  { apply (rounds _ _ (-1)); [lia| |].
    - change (bpow radix2 (-1)) with (/ 2). change (bpow radix2 (-1 + 1)) with 1. rewrite Rabs_pos_eq by lra. lra.
    - change (bpow radix2 (52 - -1)) with 9007199254740992. small2. }
  change (bpow radix2 (-53)) with (/ 9007199254740992) in C1. set (v := IZR 9007199254740991 * / 9007199254740992) in *.
  assert (V : v = 1 - 4 * w) by (unfold v; lra).
  assert (DV : is_double v) by (rewrite <- C1; apply rnd_double).
  replace (rd (1 + - (3 * w))) with (Ok v) by (rewrite <- C1; symmetry; apply rd_ok; apply Rle_trans with (bpow radix2 1); [change (bpow radix2 1) with 2; small2|apply bpow_le; lia]).
  cbn [bind].
  assert (T2 : rnd (2 - 3 * w) = 2).
  { replace 2 with (IZR 9007199254740992 * bpow radix2 (0 - 52)) at 2 by (change (bpow radix2 (0 - 52)) with (/ 4503599627370496); lra). apply rounds; [lia| |].
    - change (bpow radix2 0) with 1. change (bpow radix2 (0 + 1)) with 2. rewrite Rabs_pos_eq by lra. lra.
    - change (bpow radix2 (52 - 0)) with 4503599627370496. small2. }
  assert (T2r : rd (2 - 3 * w) = Ok 2) by (rewrite <- T2 at 2; apply rd_ok; apply Rle_trans with (bpow radix2 1); [change (bpow radix2 1) with 2; small2|apply bpow_le; lia]).
  assert (N : gamma_num (3 * w) 1 0 (-1) 0 1 = Ok 2).
  { unfold gamma_num. do 2 rewrite (step _ _ 0) by (lra || exact E0 || small2). do 2 rewrite (step _ _ (-2)) by (lra || exact DN2 || small2).
    rewrite (step _ _ 2) by (lra || exact D2 || small2). do 2 rewrite (step _ _ (3 * w)) by (lra || exact DO || small2).
    rewrite T2r. cbn [bind]. rewrite (step _ _ 0) by (lra || exact E0 || small2). do 2 rewrite (step _ _ 1) by (lra || exact D1 || small2).
    rewrite (step _ _ (3 * w)) by (lra || exact DO || small2). exact T2r. }
  rewrite N. cbn [bind].
  assert (Q : rnd (v * v) = IZR 9007199254740990 * bpow radix2 (-53)).
  { apply (rounds _ _ (-1)); [lia| |].
    - change (bpow radix2 (-1)) with (/ 2). change (bpow radix2 (-1 + 1)) with 1. assert (v * v = 1 - 8 * w + 16 * (w * w)) by (rewrite V; ring).
      assert (w * w <= w * / 100) by (apply Rmult_le_compat_l; lra). assert (0 <= w * w) by (apply Rmult_le_pos; lra). rewrite Rabs_pos_eq by lra. lra.
    - change (bpow radix2 (52 - -1)) with 9007199254740992. rewrite V, W. small2. }
  change (bpow radix2 (-53)) with (/ 9007199254740992) in Q. set (q := IZR 9007199254740990 * / 9007199254740992) in *.
  assert (QV : q = 1 - 8 * w) by (unfold q; lra). assert (DQ : is_double q) by (rewrite <- Q; apply rnd_double).
  assert (QR : rd (v * v) = Ok q) by (rewrite <- Q; apply rd_ok; apply Rle_trans with (bpow radix2 1); [change (bpow radix2 1) with 2; rewrite V, W; small2|apply bpow_le; lia]).
  assert (SQ : rnd (sqrt q) = v).
  { unfold v. change (/ 9007199254740992) with (bpow radix2 (-1 - 52)). 
    assert (S1 : sqrt q <= 1 - 4 * w) by (rewrite <- (sqrt_square (1 - 4 * w)) by lra; apply sqrt_le_1_alt; rewrite QV; assert (0 <= w * w) by (apply Rmult_le_pos; lra); lra).
    assert (S2 : 1 - 5 * w <= sqrt q) by (rewrite <- (sqrt_square (1 - 5 * w)) by lra; apply sqrt_le_1_alt; rewrite QV; assert (w * w <= w * / 100) by (apply Rmult_le_compat_l; lra); lra).
    apply rounds; [lia| |].
    - change (bpow radix2 (-1)) with (/ 2). change (bpow radix2 (-1 + 1)) with 1. rewrite Rabs_pos_eq by lra. lra.
    - change (bpow radix2 (52 - -1)) with 9007199254740992. apply Rabs_def1; lra. }
  assert (DD : is_double (2 * v)).
  { replace (2 * v) with (IZR 9007199254740991 * bpow radix2 (-52)); [apply dyadic; lia|]. change (bpow radix2 (-52)) with (/ 4503599627370496). unfold v. lra. }
  assert (DE : gamma_den 1 0 v = Ok (2 * v)).
  { unfold gamma_den. rewrite (step _ _ 2) by (lra || exact D2 || small2). rewrite (step _ _ 0) by (lra || exact E0 || small2). rewrite QR. cbn [bind].
    rewrite (step _ _ q) by (lra || exact DQ || small2). rewrite SQ. apply rdb; [exact DD|small2]. }
  rewrite DE. cbn [bind]. destruct (Req_EM_T (2 * v) 0) as [Z|Z]; [lra|].
  assert (G : rnd (2 / (2 * v)) = IZR 4503599627370497 * bpow radix2 (-52)).
  { replace (2 / (2 * v)) with (/ v) by (field; lra). unfold v. rewrite Rinv_mult. rewrite Rinv_inv. apply (rounds _ _ 0); [lia| |].
    - change (bpow radix2 0) with 1. change (bpow radix2 (0 + 1)) with 2. rewrite Rabs_pos_eq by lra. lra.
    - change (bpow radix2 (52 - 0)) with 4503599627370496. small2. }
  rewrite G. change (bpow radix2 (-52)) with (/ 4503599627370496). destruct Rlt_dec as [_|N1]; [reflexivity|]. elim N1. rewrite Rabs_pos_eq; lra.
Qed.

Theorem C91_touch_refuted : exists L at2 as_ surf rho c hp rp f, good_library L at2 /\ good_asin as_ /\ ordinary_track hp rp /\ ordinary_cylinder rho c
  /\ is_helix hp rp f /\ sf_cyl surf = Some (rho, c) /\ bend rho c hp rp <= 4 / 10 /\ dist_xy (f 0) c = rho
  /\ forall mode cb, intersectWithZCylinder_d L at2 as_ surf hp rp mode cb = Ok (false, None).
Proof.
  destruct (helix_exists touching (V3 0 1 0)) as (f & Hf).
  exists best, at2_best, best_asin, (ex_cyl 0 0 1), 1, v3zero, touching, (V3 0 1 0), f.
  split; [exact lib_same|]. split; [exact best_asin_good|]. split; [exact touching_ok|]. split; [exact unit_cylinder|]. split; [exact Hf|]. split; [reflexivity|].
  split; [|split; [|exact touching_missed]].
  - unfold bend, reach. cbn [v3zero vx vy]. change (touching OMEGA) with (3 * bpow radix2 (-55)). change (touching D0) with 0. change (bpow radix2 (-55)) with (/ 36028797018963968).
    rewrite Rabs_R0, Rabs_R1, Rabs_pos_eq by lra. lra.
  - rewrite (helix_start _ _ _ Hf). unfold dist_xy. change (touching PHI0) with 0. change (touching D0) with 0. cbn [v3zero vx vy]. rewrite sin_0, cos_0.
    match goal with |- sqrt ?a = 1 => replace a with 1 by ring end. apply sqrt_1.
Qed.
Print Assumptions C91_touch_refuted.

(** A straight track that passes the cylinder outside is given a crossing. *)
Definition outside : vec5 := mk5 0 0 0 (bpow radix2 (-60)) 0.
Lemma outside_ok : ordinary_track outside (V3 0 1 0).
Proof.
  assert (O0 := ordinary_0). assert (O1 : ordinary 1) by exact (ord_bpow 0 ltac:(lia)). constructor; cbn [vx vy vz]; auto.
  - exact (ord_bpow (-60) ltac:(lia)).
  - change (outside PHI0) with 0. apply d_0.
  - change (outside PHI0) with 0. rewrite Rabs_R0. generalize PI_RGT_0. lra.
Qed.
Lemma outside_found : exists s x, intersectWithZCylinder_d best at2_best best_asin (ex_cyl 0 0 1) outside (V3 0 1 0) 0 false = Ok (true, Some (s, x)).
Proof.
  assert (O0 := ordinary_0).
  destruct (C91_finite best at2_best best_asin (ex_cyl 0 0 1) 1 v3zero outside (V3 0 1 0) 0 false lib_same best_asin_good outside_ok unit_cylinder O0 O0 O0 eq_refl eq_refl)
    as (b & o & E).
  { unfold bend. change (outside OMEGA) with 0. rewrite Rabs_R0. lra. }
  assert (E0 := d_0). assert (D1 := d_1). assert (D2 := d_2). assert (DN1 : is_double (-1)) by (apply opp_double, d_1). assert (DN2 : is_double (-2)) by (apply opp_double, d_2).
  set (w := bpow radix2 (-60)). assert (DW : is_double w) by (apply double_bpow; lia). assert (PW : 0 < w) by apply bpow_gt_0.
  assert (W1 : w <= 1) by (apply (bpow_le radix2 (-60) 0); lia).
  assert (LO : rnd (1 + w) = 1).
  { replace (1 + w) with (1 - rnd (- w)) by (rewrite (rnd_id _ (opp_double _ DW)); ring).
    apply stuck_angle; [exact D1|]. rewrite Rabs_Ropp, Rabs_R1, Rmult_1_r, Rabs_pos_eq by lra. apply bpow_le. lia. }
  assert (LR : rd (1 + w) = Ok 1) by (rewrite <- LO at 2; apply rd_ok; apply Rle_trans with (bpow radix2 1); [change (bpow radix2 1) with 2; small2|apply bpow_le; lia]).
  rewrite E. revert E.
  unfold intersectWithZCylinder_d. change (st_parallelToZ (sf_type (ex_cyl 0 0 1))) with true. change (sf_cyl (ex_cyl 0 0 1)) with (Some (1, v3zero)).
  cbv beta iota zeta. change (outside OMEGA) with 0. change (outside PHI0) with 0. change (outside D0) with w.
  cbn [m_sin m_cos best vx vy v3zero]. rewrite sin_0, cos_0, rnd_0, (rnd_id 1 D1).
  assert (step : forall A x y (k : R -> res A), x = y -> is_double y -> Rabs y <= 2000 -> bind (rd x) k = k y).
  { intros A x y k -> Dy By. rewrite (rdb y Dy By). reflexivity. }
  do 2 rewrite (step _ _ 0) by (lra || exact E0 || small2). rewrite (step _ _ w) by (lra || exact DW || small2). rewrite LR. cbn [bind].
  rewrite (step _ _ 0) by (lra || exact E0 || small2). rewrite (step _ _ (-1)) by (lra || exact DN1 || small2).
  do 3 rewrite (step _ _ 0) by (lra || exact E0 || small2). rewrite (step _ _ 1) by (lra || exact D1 || small2).
  assert (N : gamma_num 0 1 0 (-1) 0 1 = Ok 2).
  { unfold gamma_num. do 2 rewrite (step _ _ 0) by (lra || exact E0 || small2). do 2 rewrite (step _ _ (-2)) by (lra || exact DN2 || small2).
    rewrite (step _ _ 2) by (lra || exact D2 || small2). do 2 rewrite (step _ _ 0) by (lra || exact E0 || small2).
    rewrite (step _ _ 2) by (lra || exact D2 || small2). rewrite (step _ _ 0) by (lra || exact E0 || small2). do 2 rewrite (step _ _ 1) by (lra || exact D1 || small2).
    rewrite (step _ _ 0) by (lra || exact E0 || small2). rewrite Rminus_0_r. apply rdb; [exact D2|small2]. }
  rewrite N. cbn [bind].
  assert (DE : gamma_den 1 0 1 = Ok 2).
  { unfold gamma_den. rewrite (step _ _ 2) by (lra || exact D2 || small2). rewrite (step _ _ 0) by (lra || exact E0 || small2).
    do 2 rewrite (step _ _ 1) by (lra || exact D1 || small2). rewrite sqrt_1, (rnd_id 1 D1), Rmult_1_r. apply rdb; [exact D2|small2]. }
  rewrite DE. cbn [bind]. destruct (Req_EM_T 2 0) as [Z|_]; [lra|]. replace (2 / 2) with 1 by field. rewrite (rnd_id 1 D1).
  destruct (Rlt_dec 1 (Rabs 1)) as [Z|_]; [rewrite Rabs_R1 in Z; lra|]. intros E.
  do 2 (apply bind_inv in E; destruct E as (? & _ & E)). apply bind_inv in E; destruct E as (? & _ & E).
  apply bind_inv in E; destruct E as (p0 & _ & E). apply bind_inv in E; destruct E as (p1 & _ & E).
  assert (V := select_d_spec 0 (fst p0) (snd p0) (fst p1) (snd p1)). destruct (select_d 0 (fst p0) (snd p0) (fst p1) (snd p1)) as [[s y]|].
  - cbn [bounds] in E. injection E as <- <-. exists s, y. reflexivity.
  - destruct (V _ (or_introl eq_refl)) as [[C _]|[C _]]; lia.
Qed.
Theorem C91_ghost_refuted : exists L at2 as_ surf rho c hp rp f s x, good_library L at2 /\ good_asin as_ /\ ordinary_track hp rp /\ ordinary_cylinder rho c
  /\ is_helix hp rp f /\ sf_cyl surf = Some (rho, c) /\ bend rho c hp rp <= 4 / 10 /\ (forall t, rho < dist_xy (f t) c)
  /\ intersectWithZCylinder_d L at2 as_ surf hp rp 0 false = Ok (true, Some (s, x)).
Proof.
  destruct (helix_exists outside (V3 0 1 0)) as (f & Hf). destruct outside_found as (s & x & E).
  exists best, at2_best, best_asin, (ex_cyl 0 0 1), 1, v3zero, outside, (V3 0 1 0), f, s, x.
  split; [exact lib_same|]. split; [exact best_asin_good|]. split; [exact outside_ok|]. split; [exact unit_cylinder|]. split; [exact Hf|]. split; [reflexivity|].
  split; [|split; [|exact E]].
  - unfold bend. change (outside OMEGA) with 0. rewrite Rabs_R0. lra.
  - intros t. rewrite (helix_is_hline _ _ _ eq_refl Hf). destruct (dist_x (hline outside (V3 0 1 0) t) v3zero) as [_ W].
    eapply Rlt_le_trans; [|exact W]. unfold hline. cbn [vy v3zero]. change (outside PHI0) with 0. change (outside D0) with (bpow radix2 (-60)). rewrite sin_0, cos_0.
    assert (P := bpow_gt_0 radix2 (-60)). rewrite Rabs_pos_eq; lra.
Qed.
Print Assumptions C91_ghost_refuted.

(** A track of radius 4096 from the axis of a cylinder of radius 100: found, on the
    cylinder to 10^-12, and at least 70 and at most 161 away. *)
Example C91_ex : exists f s x, is_helix (slanted (/ 4096)) v3zero f /\ ordinary_track (slanted (/ 4096)) v3zero
  /\ intersectWithZCylinder_d best at2_best best_asin (ex_cyl 0 0 100) (slanted (/ 4096)) v3zero 0 false = Ok (true, Some (s, x))
  /\ Rabs (dist_xy x v3zero - 100) <= / 1000000000000 /\ 70 <= Rabs s <= 161
  /\ Rabs (vz x - vz (f s)) <= / 1000000000000.
Proof.
  destruct (helix_exists (slanted (/ 4096)) v3zero) as (f & Hf).
  assert (O0 := ordinary_0). assert (OM : slanted (/ 4096) OMEGA = / 4096) by reflexivity.
  assert (HT : ordinary_track (slanted (/ 4096)) v3zero).
  { apply slanted_ordinary; [exact (ord_bpow (-12) ltac:(lia))|]. right. change (/ 4096) with (bpow radix2 (-12)). rewrite Rabs_pos_eq by apply bpow_ge_0. apply bpow_le. lia. }
  assert (HC : ordinary_cylinder 100 v3zero).
  { destruct unit_cylinder. constructor; auto.
    - replace 100 with (IZR 100 * bpow radix2 0) by (change (bpow radix2 0) with 1; ring). apply dyadic; lia.
    - lra.
    - apply Rle_trans with (bpow radix2 10); [change (bpow radix2 10) with 1024; lra|apply bpow_le; lia]. }
  assert (RE : reach 100 v3zero (slanted (/ 4096)) v3zero = 100).
  { unfold reach. change (slanted (/ 4096) D0) with 0. cbn [v3zero vx vy]. rewrite Rabs_R0. lra. }
  assert (BE : bend 100 v3zero (slanted (/ 4096)) v3zero = 100 / 4096) by (unfold bend; rewrite RE, OM, Rabs_pos_eq by lra; lra).
  assert (BL : blur 100 v3zero (slanted (/ 4096)) v3zero <= 103 * uround) by (unfold blur; rewrite RE, BE; unfold uround; lra).
  assert (F0 : dist_xy (f 0) v3zero = 0).
  { rewrite (helix_start _ _ _ Hf). unfold dist_xy. change (slanted (/ 4096) PHI0) with (3 / 2). change (slanted (/ 4096) D0) with 0. cbn [v3zero vx vy].
    match goal with |- sqrt ?a = 0 => replace a with 0 by ring end. apply sqrt_0. }
  assert (UV : uround <= / 1000000000000000) by (unfold uround; lra). assert (U := u_small).
  destruct (C91_finite best at2_best best_asin (ex_cyl 0 0 100) 100 v3zero (slanted (/ 4096)) v3zero 0 false lib_same best_asin_good HT HC O0 O0 O0 eq_refl eq_refl ltac:(rewrite BE; lra))
    as (b & o & E).
  exists f. destruct (C91_outcome best at2_best best_asin (ex_cyl 0 0 100) 100 v3zero (slanted (/ 4096)) v3zero 0 false f b o lib_same best_asin_good HT HC Hf eq_refl E)
    as [(_ & _ & [P|P])|(s0 & x0 & s1 & x1 & L0 & L1 & _ & Q)].
  - exfalso. specialize (P 0). rewrite F0 in P. lra.
  - exfalso. specialize (P 1000). assert (C := chord_len _ _ f Hf 1000). rewrite OM, !Rabs_pos_eq in C by lra. specialize (C ltac:(generalize PI2_3_2; unfold PI2; lra)).
    assert (T := dist_tri (f 1000) (f 0) v3zero). rewrite (dist_sym v3zero (f 0)), F0 in T. lra.
  - destruct o as [[s x]|]; [|destruct Q as [_ Q]; destruct (Q _ (or_introl eq_refl)) as [[C _]|[C _]]; lia].
    destruct Q as (WH & _ & B). assert (b = true) by (apply B; discriminate). subst b. exists s, x. split; [exact Hf|]. split; [exact HT|]. split; [exact E|].
    assert (LC : located f 100 v3zero (slanted (/ 4096)) v3zero s x) by (destruct WH as [[-> ->]|[-> ->]]; assumption).
    destruct LC as [L2 L3 (t & T1 & T2 & T3 & T4)]. destruct (T3 ltac:(rewrite BE; lra)) as [T5 T6]. specialize (T4 T5 ltac:(rewrite BE; lra)).
    rewrite BE in T4. rewrite RE in L2, T6. split; [lra|].
    assert (C := chord_len _ _ f Hf t T1).
    assert (A1 := dist_tri (f t) (f 0) v3zero). rewrite (dist_sym v3zero (f 0)), F0 in A1.
    assert (A2 := dist_tri (f t) v3zero x). assert (A3 := dist_tri x v3zero (f t)). rewrite (dist_sym x (f t)) in A3.
    assert (A4 := dist_tri (f t) v3zero (f 0)). rewrite F0 in A4. apply Rabs_le_inv in L2.
    assert (SL : dist_xy (f t) (f 0) <= 142 / 100 * Rabs t).
    { destruct (slow_helix _ _ f t 0 Hf) as [SX SY]. rewrite Rminus_0_r in SX, SY. apply dist_le; assumption. }
    assert (SP : speck <= / 1000) by (unfold speck; apply Rle_trans with (bpow radix2 (-10)); [apply bpow_le; lia|change (bpow radix2 (-10)) with (/ 1024); lra]).
    assert (UT : uround * Rabs t <= uround * 300) by (apply Rmult_le_compat_l; lra).
    destruct T4 as [T4|[_ T4]].
    + split.
      * assert (B1 : Rabs s <= Rabs t + Rabs (s - t)) by (replace s with (t + (s - t)) at 1 by ring; apply Rabs_triang).
        assert (B2 : Rabs t <= Rabs s + Rabs (s - t)) by (rewrite (Rabs_minus_sym s t); replace t with (s + (t - s)) at 1 by ring; apply Rabs_triang). lra.
      * eapply Rle_trans; [exact L3|]. change (slanted (/ 4096) Z0) with 0. change (slanted (/ 4096) TANL) with 0. cbn [v3zero vz]. rewrite Rmult_0_r, Rabs_R0.
        rewrite !Rplus_0_r, Rmult_0_r, Rplus_0_l. unfold tiny. apply Rle_trans with (bpow radix2 (-50)); [apply bpow_le; lia|]. change (bpow radix2 (-50)) with (/ 1125899906842624). lra.
    + exfalso. rewrite OM, Rabs_mult, (Rabs_pos_eq (/ 4096)) in T4 by lra.
      assert (uround * (27 + 700 * (100 / 4096 * (1 + 100 / 4096))) <= / 1000) by (unfold uround; lra).
      assert (SP2 : speck <= / 1000) by exact SP. lra.
Qed.
