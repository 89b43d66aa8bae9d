(** C93: the start helix through three hits in double precision. *)
From Coq Require Import Reals ZArith Lra Lia Psatz.
From Flocq Require Import Core.
From Verif Require Import Num Vec Helix FloatWrap SpecHelix HelixFacts PointFloat SpecRound SpecPath RoundFacts PointFloatFacts PathLibFacts PropRound PropPath PropMoveFloat PropCylFloat
  SpecPlaneFloat PropPlaneFloat NearFacts CylGeom CylFloatFacts StartFacts PropStart StartFloat SpecStartFloat StartFloatFacts.
Open Scope R_scope.

(** the curvature, whichever way the library computes arcs: collinear hits included *)
Theorem C93_curvature : forall at2 x1 x2 x3 backward hp', ordinary_hits x1 x2 x3 -> calculateStartHelix_d at2 x1 x2 x3 backward = Ok hp' ->
  Rabs (hp' OMEGA - (if backward then 1 else -1) * curvature x1 x2 x3) <= 84 * uround / dist_xy x2 x3
  /\ hp' D0 = 0 /\ hp' Z0 = 0.
Proof.
  intros at2 x1 x2 x3 backward hp' HH HC. destruct (start_inv x1 x2 x3 _ _ _ HC) as (N & EO & ED & EZ & _). split; [|split; assumption].
  destruct (n_om x1 x2 x3 HH N) as [_ E]. assert (P := Dp _ _ (oh_23 _ _ _ HH)).
  assert (B : uround * (42 / 1 * (2 / dist_xy x2 x3)) = 84 * uround / dist_xy x2 x3) by (field; lra). rewrite B in E. rewrite EO.
  destruct backward.
  - match goal with |- context [1 / - ?r] => set (r' := r) in * end. assert (RZ : r' <> 0) by (exact (r_nz x1 x2 x3 HH N)).
    replace (1 / - r') with (- (1 / r')) by (field; exact RZ). rewrite FloatWrapFacts.rnd_opp. rewrite <- Rabs_Ropp. eapply Rle_trans; [|exact E]. right. f_equal. ring.
  - eapply Rle_trans; [|exact E]. right. f_equal. ring.
Qed.
Print Assumptions C93_curvature.

(** The parameters are close to those of a helix that threads the hits. *)
Theorem C93_close : forall L at2 x1 x2 x3 backward hp', good_library L at2 -> ordinary_hits x1 x2 x3 -> turn x1 x2 x3 <> 0 ->
  calculateStartHelix_d at2 x1 x2 x3 backward = Ok hp' ->
  exists hp, threads hp x1 x2 x3 backward
  /\ Rabs (hp' OMEGA - hp OMEGA) <= 84 * uround / dist_xy x2 x3
  /\ (let e := uround * (18 * (spans x1 x2 x3 * Rabs (hp' OMEGA)) + 97 * uneven x1 x2 x3) in
      e <= / 50 -> exists k : Z, Rabs (hp' PHI0 - hp PHI0 - 2 * IZR k * PI) <= e)
  /\ (let e := uround * (160 * uneven x1 x2 x3) in
      ahead x1 x2 x3 -> e <= / 100 -> bpow radix2 (-500) <= Rabs (hp' OMEGA) -> Rabs (hp' TANL - hp TANL) <= e * Rabs (hp TANL) + speck).
Proof.
  intros L at2 x1 x2 x3 backward hp' HL HH HT HC. set (tp := TP m5zero (mk5 0 0 0 0 0) v3zero).
  destruct (start_exact x1 x2 x3 HH tp backward HT) as (hp & E1 & EO & ET & ES & EC).
  destruct (C22_start_helix x1 x2 x3 tp backward HT) as (hp2 & E2 & NZ & Z1 & Z2 & _ & _ & TH). rewrite E1 in E2. assert (EQ : hp2 = hp) by congruence. subst hp2. clear E1 E2.
  exists hp. split; [repeat split; auto; apply TH; assumption|]. split.
  { destruct (C93_curvature _ _ _ _ _ _ HH HC) as (A & _). rewrite EO. eapply Rle_trans; [|exact A]. right. f_equal. destruct backward; ring. }
  split.
  - intros e HE. exact (azimuth x1 x2 x3 HH L at2 backward hp' (hp PHI0) HL HC ES EC HE).
  - intros e HA HE HO. rewrite ET. exact (slope x1 x2 x3 HH L at2 backward hp' HL HC HT HA HE HO).
Qed.
Print Assumptions C93_close.

(** Hits well off a line give a helix, which turns the right way. *)
Theorem C93_finite : forall L at2 x1 x2 x3 backward, sound_library L at2 -> ordinary_hits x1 x2 x3 ->
  100 * uround <= Rabs (curvature x1 x2 x3) * dist_xy x2 x3 ->
  exists hp', calculateStartHelix_d at2 x1 x2 x3 backward = Ok hp'
  /\ (if backward then 0 < hp' OMEGA * turn x1 x2 x3 else hp' OMEGA * turn x1 x2 x3 < 0).
Proof.
  intros L at2 x1 x2 x3 backward HS HH HK. destruct (start_fin x1 x2 x3 HH L at2 backward HS HK) as (hp' & E). exists hp'. split; [exact E|].
  destruct (C93_curvature _ _ _ _ _ _ HH E) as (A & _). assert (P1 := Dp _ _ (oh_12 _ _ _ HH)). assert (P2 := Dp _ _ (oh_13 _ _ _ HH)). assert (P3 := Dp _ _ (oh_23 _ _ _ HH)). assert (U := u_small).
  assert (U0 : 0 < uround) by (unfold uround; lra).
  assert (B : 84 * uround / dist_xy x2 x3 < Rabs (curvature x1 x2 x3)).
  { apply Rmult_lt_reg_r with (dist_xy x2 x3); [exact P3|]. unfold Rdiv. rewrite Rmult_assoc, Rinv_l, Rmult_1_r by lra. lra. }
  set (D := dist_xy x1 x2 * dist_xy x1 x3 * dist_xy x2 x3). assert (DP : 0 < D) by (repeat apply Rmult_lt_0_compat; assumption).
  assert (TE : turn x1 x2 x3 = curvature x1 x2 x3 * (D / 2)) by (unfold curvature; fold D; field; lra). rewrite TE.
  set (k := curvature x1 x2 x3) in *. set (o := hp' OMEGA) in *. clearbody k o D. clear - A B DP.
  assert (S : 0 < (if backward then 1 else -1) * (o * k)).
  { assert (C := Rle_lt_trans _ _ _ A B). destruct backward; unfold Rabs in C; repeat destruct Rcase_abs; try nra. }
  destruct backward.
  - replace (o * (k * (D / 2))) with (1 * (o * k) * (D / 2)) by field. apply Rmult_lt_0_compat; lra.
  - assert (W := Rmult_lt_0_compat _ (D / 2) S ltac:(lra)). replace (o * (k * (D / 2))) with (- (-1 * (o * k) * (D / 2))) by field. lra.
Qed.
Print Assumptions C93_finite.

(** The result is a helix of finite numbers, or some number is not finite. *)
Definition fine {A} (r : res A) : Prop := (exists a, r = Ok a) \/ r = NonFin.
Lemma fine_ok {A} (a : A) : fine (Ok a). Proof. left. eauto. Qed.
Lemma fine_bind {A B} (m : res A) (k : A -> res B) : fine m -> (forall a, fine (k a)) -> fine (bind m k).
Proof. intros [(a & ->)| ->] H; [apply H|right; reflexivity]. Qed.
Lemma fine_rd x : fine (rd x). Proof. unfold rd. destruct Rlt_dec; [apply fine_ok|right; reflexivity]. Qed.
Lemma fine_div x y : fine (rd_div x y). Proof. unfold rd_div. destruct Req_EM_T; [right; reflexivity|apply fine_rd]. Qed.
Ltac fine_up := repeat first [apply fine_ok | apply fine_rd | apply fine_div | (apply fine_bind; [|intros ?])].
Lemma fine_vr v : fine (vr_d v). Proof. unfold vr_d. fine_up. Qed.
Lemma fine_unit v : fine (vunit_d v). Proof. unfold vunit_d. apply fine_bind; [apply fine_vr|intros ?]. fine_up. Qed.
Lemma fine_across a b : fine (across_d a b). Proof. unfold across_d. fine_up. Qed.
Lemma start_fine at2 x1 x2 x3 backward : fine (calculateStartHelix_d at2 x1 x2 x3 backward).
Proof.
  unfold calculateStartHelix_d. do 3 (apply fine_bind; [apply fine_across|intros ?]). do 3 (apply fine_bind; [apply fine_vr|intros ?]; apply fine_bind; [apply fine_unit|intros ?]).
  apply fine_bind; [unfold cross_z_d; fine_up|intros ?]. cbv zeta. fine_up.
Qed.

(** Hits that are not on a line, but so nearly that the computed sine is zero, give no
    helix. *)
Definition bent : vec3 := V3 45 (60 + bpow radix2 (-47)) 0.
Lemma d_int n : (Z.abs n < 2 ^ 53)%Z -> is_double (IZR n).
Proof. intros H. replace (IZR n) with (IZR n * bpow radix2 0) by (change (bpow radix2 0) with 1; ring). apply dyadic; lia. Qed.
Lemma bent_double : is_double (60 + bpow radix2 (-47)).
Proof. assert (W : bpow radix2 (-47) = / 140737488355328) by reflexivity. replace (60 + bpow radix2 (-47)) with (IZR 8444249301319681 * bpow radix2 (-47)) by (rewrite W; lra). apply dyadic; lia. Qed.
Lemma size_345 : size 3 4 = 5.
Proof.
  unfold size. replace (3 * 3) with (IZR 9) by lra. replace (4 * 4) with (IZR 16) by lra. rewrite (rnd_id (IZR 9)), (rnd_id (IZR 16)) by (apply d_int; lia).
  replace (IZR 9 + IZR 16) with (IZR 25) by lra. rewrite (rnd_id (IZR 25)) by (apply d_int; lia). replace (IZR 25) with (5 * 5) by lra. rewrite sqrt_square by lra. apply rnd_id. exact (d_int 5 ltac:(lia)).
Qed.
Lemma size_bent : size 45 (60 + bpow radix2 (-47)) = 75.
Proof.
  assert (W : bpow radix2 (-47) = / 140737488355328) by reflexivity. assert (W40 : bpow radix2 (-40) = / 1099511627776) by reflexivity.
  unfold size. replace (45 * 45) with (IZR 2025) by lra. rewrite (rnd_id (IZR 2025)) by (apply d_int; lia).
  assert (E : rnd ((60 + bpow radix2 (-47)) * (60 + bpow radix2 (-47))) = IZR 7916483719987202 * bpow radix2 (11 - 52)).
  { apply rounds; [lia| |]; rewrite W.
    - change (bpow radix2 11) with 2048. change (bpow radix2 (11 + 1)) with 4096. rewrite Rabs_pos_eq; lra.
    - change (bpow radix2 (52 - 11)) with 2199023255552. apply Rabs_def1; lra. }
  rewrite E. change (bpow radix2 (11 - 52)) with (/ 2199023255552).
  replace (IZR 2025 + IZR 7916483719987202 * / 2199023255552) with (IZR 6184752906240001 * bpow radix2 (-40)) by (rewrite W40; lra).
  rewrite (rnd_id (IZR 6184752906240001 * bpow radix2 (-40))) by (apply dyadic; lia). rewrite W40.
  set (x := sqrt _). assert (X0 : 0 <= x) by apply sqrt_pos. assert (XX : x * x = 5625 + / 1099511627776) by (unfold x; rewrite sqrt_sqrt; lra).
  assert (X1 : 75 <= x) by (apply Rsqr_incr_0_var; [|exact X0]; unfold Rsqr; lra).
  assert (X2 : (x - 75) * 150 <= / 1099511627776) by (apply Rle_trans with ((x - 75) * (x + 75)); [apply Rmult_le_compat_l; lra|replace ((x - 75) * (x + 75)) with (x * x - 5625) by ring; lra]).
  rewrite (rounds x 5277655813324800 6); [change (bpow radix2 (6 - 52)) with (/ 70368744177664); lra|lia| |].
  - change (bpow radix2 6) with 64. change (bpow radix2 (6 + 1)) with 128. rewrite Rabs_pos_eq; lra.
  - change (bpow radix2 (52 - 6)) with 70368744177664. apply Rabs_def1; lra.
Qed.
Lemma slope_bent : rnd ((60 + bpow radix2 (-47)) / 75) = rnd (4 / 5).
Proof.
  assert (W : bpow radix2 (-47) = / 140737488355328) by reflexivity.
  transitivity (IZR 7205759403792794 * bpow radix2 (-1 - 52)); [|symmetry]; apply rounds; try lia.
  - rewrite W. change (bpow radix2 (-1)) with (/ 2). change (bpow radix2 (-1 + 1)) with 1. rewrite Rabs_pos_eq; lra.
  - rewrite W. change (bpow radix2 (52 - -1)) with 9007199254740992. apply Rabs_def1; lra.
  - change (bpow radix2 (-1)) with (/ 2). change (bpow radix2 (-1 + 1)) with 1. rewrite Rabs_pos_eq; lra.
  - change (bpow radix2 (52 - -1)) with 9007199254740992. apply Rabs_def1; lra.
Qed.
Lemma ord_int n : (Z.abs n < 2 ^ 53)%Z -> ordinary (IZR n).
Proof.
  intros H. split; [apply d_int, H|]. rewrite <- abs_IZR. apply Rle_trans with (IZR (2 ^ 53)); [apply IZR_le; lia|].
  change (IZR (2 ^ 53)) with (bpow radix2 53). apply bpow_le. lia.
Qed.
Lemma apart_x a b : 1 <= Rabs (vx a - vx b) -> apart a b.
Proof. intros H. unfold apart. apply Rle_trans with (bpow radix2 0); [apply bpow_le; lia|]. change (bpow radix2 0) with 1. eapply Rle_trans; [exact H|]. apply dist_x. Qed.

Theorem C93_lost_refuted : exists x1 x2 x3, ordinary_hits x1 x2 x3 /\ turn x1 x2 x3 <> 0
  /\ forall at2 backward, calculateStartHelix_d at2 x1 x2 x3 backward = NonFin.
Proof.
  exists v3zero, (V3 3 4 0), bent. assert (W : bpow radix2 (-47) = / 140737488355328) by reflexivity. split; [|split].
  - constructor; cbn [vx vy vz v3zero bent]; try (repeat split; first [exact (proj1 (ord_int 0 ltac:(lia)))|exact (proj2 (ord_int 0 ltac:(lia)))|exact (proj1 (ord_int 3 ltac:(lia)))|exact (proj2 (ord_int 3 ltac:(lia)))
      |exact (proj1 (ord_int 4 ltac:(lia)))|exact (proj2 (ord_int 4 ltac:(lia)))|exact (proj1 (ord_int 45 ltac:(lia)))|exact (proj2 (ord_int 45 ltac:(lia)))|exact bent_double
      |rewrite W, Rabs_pos_eq by lra; apply Rle_trans with (bpow radix2 10); [change (bpow radix2 10) with 1024; lra|apply bpow_le; lia]]); apply apart_x; cbn [vx v3zero bent]; small2.
  - unfold turn, bent, v3zero. cbn [vx vy]. rewrite W. lra.
  - intros at2 backward. destruct (start_fine at2 v3zero (V3 3 4 0) bent backward) as [(hp & E)|E]; [|exact E]. exfalso.
    destruct (start_inv _ _ _ _ _ _ E) as (N & _). apply N. cbn [vx vy v3zero bent].
    rewrite !Rminus_0_r. rewrite (rnd_id 3 (d_int 3 ltac:(lia))), (rnd_id 4 (d_int 4 ltac:(lia))), (rnd_id 45 (d_int 45 ltac:(lia))), (rnd_id _ bent_double), size_345, size_bent, slope_bent.
    replace (45 / 75) with (3 / 5) by lra. rewrite (Rmult_comm (rnd (4 / 5))), Rminus_diag_eq by reflexivity. apply rnd_0.
Qed.
Print Assumptions C93_lost_refuted.

(** ** Three hits of a curved track *)
Definition hit1 : vec3 := v3zero.
Definition hit2 : vec3 := V3 256 16 128.
Definition hit3 : vec3 := V3 512 64 256.
Lemma hits_ok : ordinary_hits hit1 hit2 hit3.
Proof.
  assert (O : forall n, (Z.abs n < 2 ^ 53)%Z -> ordinary (IZR n)) by exact ord_int.
  constructor; cbn [vx vy vz v3zero hit1 hit2 hit3]; try (split; [|split]; apply O; lia); apply apart_x; cbn [vx v3zero hit1 hit2 hit3]; small2.
Qed.
Lemma hits_dist : 256 <= dist_xy hit1 hit2 <= 257 /\ 515 <= dist_xy hit1 hit3 <= 516 /\ 260 <= dist_xy hit2 hit3 <= 261.
Proof.
  unfold dist_xy. cbn [vx vy v3zero hit1 hit2 hit3].
  assert (B : forall x a b, 0 <= a -> 0 <= b -> a * a <= x <= b * b -> a <= sqrt x <= b).
  { intros x a b A B [X Y]. split; [rewrite <- (sqrt_square a A)|rewrite <- (sqrt_square b B)]; apply sqrt_le_1_alt; assumption. }
  split; [|split]; apply B; lra.
Qed.
Example C93_ex : exists hp hp', threads hp hit1 hit2 hit3 false /\ calculateStartHelix_d at2_best hit1 hit2 hit3 false = Ok hp'
  /\ Rabs (hp' OMEGA - hp OMEGA) <= / 10000000000000000
  /\ (exists k : Z, Rabs (hp' PHI0 - hp PHI0 - 2 * IZR k * PI) <= / 10000000000000)
  /\ Rabs (hp' TANL - hp TANL) <= / 10000000000000 * Rabs (hp TANL) + speck.
Proof.
  assert (HH := hits_ok). destruct hits_dist as (A & B & C). assert (T : turn hit1 hit2 hit3 = 8192) by (unfold turn; cbn [vx vy v3zero hit1 hit2 hit3]; lra).
  assert (CV : curvature hit1 hit2 hit3 = 16384 / (dist_xy hit1 hit2 * dist_xy hit1 hit3 * dist_xy hit2 hit3)) by (unfold curvature; rewrite T; f_equal; lra).
  assert (UE : uneven hit1 hit2 hit3 <= 52 / 10).
  { unfold uneven. set (a := dist_xy hit1 hit2) in *. set (b := dist_xy hit1 hit3) in *. set (c := dist_xy hit2 hit3) in *. clearbody a b c.
    assert (Q1 : (a + c) * (a + c) / (a * b) <= 204 / 100).
    { apply Rmult_le_reg_r with (a * b); [nra|]. unfold Rdiv at 1. rewrite Rmult_assoc, Rinv_l by nra. nra. }
    assert (Q2 : (a + b) / c <= 3) by (apply Rmult_le_reg_r with c; [lra|]; unfold Rdiv; rewrite Rmult_assoc, Rinv_l by lra; lra). lra. }
  assert (SP : spans hit1 hit2 hit3 = 848) by (unfold spans; cbn [vx vy v3zero hit1 hit2 hit3]; rewrite Rabs_R0, !Rabs_pos_eq by lra; lra).
  assert (CB : / 3000 <= curvature hit1 hit2 hit3 <= / 2000).
  { rewrite CV. set (a := dist_xy hit1 hit2) in *. set (b := dist_xy hit1 hit3) in *. set (c := dist_xy hit2 hit3) in *. clearbody a b c.
    assert (AB : 256 * 515 <= a * b <= 257 * 516) by (split; apply Rmult_le_compat; lra). assert (ABC : 256 * 515 * 260 <= a * b * c <= 257 * 516 * 261) by (split; apply Rmult_le_compat; lra).
    set (v := a * b * c) in *. clearbody v. split; apply Rmult_le_reg_r with v; try lra; unfold Rdiv; rewrite (Rmult_assoc 16384), Rinv_l by lra; lra. }
  assert (U : uround = / 9007199254740992) by reflexivity.
  destruct (C93_finite best at2_best hit1 hit2 hit3 false best_sound HH) as (hp' & E & _).
  { rewrite Rabs_pos_eq by lra. apply Rle_trans with (/ 3000 * 260); [rewrite U; lra|apply Rmult_le_compat; lra]. }
  destruct (C93_close best at2_best hit1 hit2 hit3 false hp' (sl_good _ _ best_sound) HH ltac:(rewrite T; lra) E) as (hp & TH & K1 & K2 & K3).
  exists hp, hp'. split; [exact TH|]. split; [exact E|].
  assert (KB : 84 * uround / dist_xy hit2 hit3 <= / 10000000000000000).
  { apply Rle_trans with (84 * uround / 260); [apply Rmult_le_compat_l; [rewrite U; lra|apply Rinv_le_contravar; lra]|rewrite U; lra]. }
  split; [lra|].
  destruct (C93_curvature _ _ _ _ _ _ HH E) as (K0 & _). assert (K4 := Rle_trans _ _ _ K0 KB). apply Rabs_le_inv in K4.
  assert (OB : / 4000 <= Rabs (hp' OMEGA) <= / 1000) by (rewrite Rabs_left by lra; lra).
  split.
  - destruct K2 as (k & K2).
    + rewrite SP, U. lra.
    + exists k. eapply Rle_trans; [exact K2|]. rewrite SP, U. lra.
  - eapply Rle_trans; [apply K3|].
    + unfold ahead. cbn [vx vy v3zero hit1 hit2 hit3]. assert (dist_xy hit1 hit2 * dist_xy hit1 hit3 <= 257 * 516) by (apply Rmult_le_compat; lra). unfold hit1, hit2, hit3 in *. cbn [vx vy v3zero] in *. lra.
    + rewrite U. lra.
    + apply Rle_trans with (bpow radix2 (-20)); [apply bpow_le; lia|]. change (bpow radix2 (-20)) with (/ 1048576). lra.
    + apply Rplus_le_compat_r, Rmult_le_compat_r; [apply Rabs_pos|]. rewrite U. lra.
Qed.
Print Assumptions C93_ex.
