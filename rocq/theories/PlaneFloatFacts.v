(** Facts about PlaneFloat.v: one operation after the other. *)
From Coq Require Import Reals ZArith Lra Lia Psatz List Bool.
From Flocq Require Import Core.
From Verif Require Import Num Vec FloatWrap PointFloat SpecRound SpecPath RoundFacts PointFloatFacts PathTrig PathFloatFacts MoveFloatFacts NearFacts
  SpecHelix HelixFacts Isect SpecIsect SurfFacts NumFacts CylGeom PathFloat PropPath MoveFacts PropMove PropRound CylFloatFacts PlaneFloat SpecPlaneFloat.
Import ListNotations.
Open Scope R_scope.

Section Plane.
Variables (L : libm) (at2 : R -> R -> R) (hp : vec5) (rp o n : vec3).
Hypothesis HL : good_library L at2.
Hypothesis HT : ordinary_track hp rp.
Hypothesis HO : hp OMEGA <> 0.
Hypothesis HN : ordinary_plane o n.
Hypothesis HB : spread o hp rp <= bpow radix2 98.

Let om := hp OMEGA. Let ph := hp PHI0. Let d0 := hp D0.
Let P := spread o hp rp.
Let r := / Rabs om.
Let sn := m_sin L ph. Let cs := m_cos L ph.
Let nx := vx n. Let ny := vy n.
Let a' := rnd (rnd (1 / om) - d0).
Let x0' := rnd (vx rp + rnd (a' * sn)). Let y0' := rnd (vy rp - rnd (a' * cs)).
Let C := centre hp rp.
Let r' := Rabs (rnd (1 / om)).
Let dist' := Rabs (rnd (rnd (vx o * nx) + rnd (vy o * ny))).
Let dd' := rnd (dist' - rnd (rnd (nx * x0') + rnd (ny * y0'))).
Let dd := - beyond o n C.
Let ns' := rnd (rnd (nx * nx) + rnd (ny * ny)).
Let ns := nx * nx + ny * ny.
Let disc' := rnd (rnd (rnd (r' * r') * ns') - rnd (dd' * dd')).
Let disc := r * r * ns - dd * dd.
Let inv' := rnd (1 / ns').
Let D' := rnd (sqrt disc').

Lemma r_pos : 0 < r /\ Rabs om * r = 1.
Proof. assert (A : 0 < Rabs om) by (apply Rabs_pos_lt, HO). split; [apply Rinv_0_lt_compat, A|unfold r; field; lra]. Qed.
Lemma P_parts : Rabs (vx o) + Rabs (vy o) + r <= P /\ Rabs (vx rp) + (r + Rabs d0) <= P /\ Rabs (vy rp) + (r + Rabs d0) <= P /\ r <= P.
Proof.
  unfold P, spread. fold om d0 r. destruct r_pos.
  generalize (Rabs_pos (vx o)) (Rabs_pos (vy o)) (Rabs_pos (vx rp)) (Rabs_pos (vy rp)) (Rabs_pos d0). intros. lra.
Qed.
Lemma r_large : bpow radix2 (-100) <= r.
Proof.
  destruct r_pos as [A B]. destruct (ot_om _ _ HT) as [_ O]. fold om in O.
  apply Rmult_le_reg_l with (Rabs om); [apply Rabs_pos_lt, HO|]. rewrite B.
  apply Rle_trans with (bpow radix2 100 * bpow radix2 (-100)); [apply Rmult_le_compat_r; [apply bpow_ge_0|exact O]|].
  rewrite <- bpow_plus. simpl. lra.
Qed.
Lemma us_r B : r / 100 <= B -> usable B.
Proof.
  intros H. right. apply Rle_trans with (bpow radix2 (-100) * bpow radix2 (-10)); [rewrite <- bpow_plus; apply bpow_le; lia|].
  change (bpow radix2 (-10)) with (/ 1024). assert (A := bpow_gt_0 radix2 (-100)). generalize r_large. lra.
Qed.
Lemma us_r2 B : r * r <= B -> usable B.
Proof.
  intros H. right. apply Rle_trans with (bpow radix2 (-100) * bpow radix2 (-100)); [rewrite <- bpow_plus; apply bpow_le; lia|].
  eapply Rle_trans; [|exact H]. apply Rmult_le_compat; auto using bpow_ge_0, r_large.
Qed.
Lemma us_1 B : / 100 <= B -> usable B.
Proof. intros H. right. apply Rle_trans with (/ 1024); [|lra]. apply (bpow_le radix2 (-700) (-10)). lia. Qed.

Lemma n_sizes : Rabs nx <= 1005 / 1000 /\ Rabs ny <= 1005 / 1000 /\ Rabs nx + Rabs ny <= 1422 / 1000 /\ 99 / 100 <= ns <= 101 / 100.
Proof.
  assert (U := op_unit _ _ HN). fold nx ny in U.
  assert (E1 : nx * nx = Rabs nx * Rabs nx) by (rewrite <- Rabs_mult, Rabs_pos_eq; nra). assert (E2 : ny * ny = Rabs ny * Rabs ny) by (rewrite <- Rabs_mult, Rabs_pos_eq; nra).
  assert (A := Rabs_pos nx). assert (B := Rabs_pos ny). rewrite E1, E2 in U. unfold ns. rewrite E1, E2. set (a := Rabs nx) in *. set (b := Rabs ny) in *. clearbody a b.
  assert (Q := Rle_0_sqr (a - b)). unfold Rsqr in Q. repeat split; try lra; nra.
Qed.

(** ** the centre *)
Lemma n_rad : near r (101 / 100) (rnd (1 / om)) (1 / om).
Proof.
  destruct r_pos as [R0 R1].
  assert (A : near r 0 (1 / om) (1 / om)).
  { apply n_same. unfold Rdiv. rewrite Rmult_1_l, Rabs_inv. fold r. lra. }
  rn A B (apply us_r; lra). apply (n_weak _ _ _ _ _ _ B); lra.
Qed.
Lemma n_x0 : near P (65 / 10) x0' (vx C) /\ near P (65 / 10) y0' (vy C).
Proof.
  destruct r_pos as [R0 R1]. assert (PP := P_parts). assert (D0p := Rabs_pos d0). assert (RP := conj (Rabs_pos (vx rp)) (Rabs_pos (vy rp))).
  destruct (n_lib L at2 HL ph (ot_ph _ _ HT)) as [Sn Cs]. fold sn in Sn. fold cs in Cs.
  assert (A := n_sub _ _ _ _ _ _ _ _ (101 / 100) n_rad (n_same _ d0 (Rle_refl _)) ltac:(lra) ltac:(lra)).
  rn A A1 (apply us_r; lra). fold a' in A1.
  assert (G : forall z f t, near 1 (21 / 10) f t -> Rabs z + (r + Rabs d0) <= P ->
    near P (65 / 10) (rnd (z + rnd (a' * f))) (z + (1 / om - d0) * t) /\ near P (65 / 10) (rnd (z - rnd (a' * f))) (z - (1 / om - d0) * t)).
  { intros z f t F Hz. assert (PZ := Rabs_pos z). assert (B := n_mul _ _ _ _ _ _ _ _ A1 F ltac:(lra) ltac:(lra)). rewrite Rmult_1_r in B.
    rn B B1 (apply us_r; lra). split.
    - assert (E := n_add _ _ _ _ _ _ _ _ (52 / 10) (n_same _ z (Rle_refl _)) B1 ltac:(lra) ltac:(lra)).
      rn E E1 (apply us_r; lra). apply (n_weak _ _ _ _ _ _ E1); lra.
    - assert (E := n_sub _ _ _ _ _ _ _ _ (52 / 10) (n_same _ z (Rle_refl _)) B1 ltac:(lra) ltac:(lra)).
      rn E E1 (apply us_r; lra). apply (n_weak _ _ _ _ _ _ E1); lra. }
  destruct (G (vx rp) _ _ Sn) as [G1 _]; [lra|]. destruct (G (vy rp) _ _ Cs) as [_ G2]; [lra|]. fold x0' in G1. fold y0' in G2.
  unfold C, centre. cbn [vx vy]. fold om ph d0. split.
  - exact G1.
  - exact G2.
Qed.

(** ** the distance of the centre from the plane *)
Lemma n_dist : near (1005 / 1000 * P) (21 / 10) dist' (vx o * nx + vy o * ny).
Proof.
  destruct r_pos as [R0 R1]. assert (PP := P_parts). destruct n_sizes as (N1 & N2 & N3 & N4). assert (OX := Rabs_pos (vx o)). assert (OY := Rabs_pos (vy o)).
  assert (G : forall a b, Rabs b <= 1005 / 1000 -> near (1005 / 1000 * (Rabs a + r / 2)) (102 / 100) (rnd (a * b)) (a * b)).
  { intros a b Hb. assert (PA := Rabs_pos a).
    assert (A := n_mul _ _ _ _ _ _ _ _ (n_same (Rabs a + r / 2) a ltac:(lra)) (n_same _ b Hb) ltac:(lra) ltac:(lra)).
    rn A A1 (apply us_r; lra). apply (n_weak _ _ _ _ _ _ A1); lra. }
  assert (A := n_add _ _ _ _ _ _ _ _ (102 / 100) (G (vx o) nx N1) (G (vy o) ny N2) ltac:(lra) ltac:(lra)).
  rn A A1 (apply us_r; lra). apply (n_weak _ _ (1005 / 1000 * P) (21 / 10)) in A1; [|lra|lra|lra].
  destruct A1 as [Q1 Q2]. split; [exact Q1|]. unfold dist'. set (z := rnd _) in *. clearbody z. assert (W := op_away _ _ HN). fold nx ny in W.
  eapply Rle_trans; [|exact Q2]. rewrite <- (Rabs_pos_eq (vx o * nx + vy o * ny)) at 1 by exact W. apply Rabs_triang_inv2.
Qed.
Lemma n_dd : near (302 / 100 * P) (98 / 10) dd' dd.
Proof.
  destruct r_pos as [R0 R1]. assert (PP := P_parts). destruct n_sizes as (N1 & N2 & N3 & N4). assert (P0 : r <= P) by lra.
  destruct n_x0 as [X Y].
  assert (A := n_mul _ _ _ _ _ _ _ _ (n_same _ nx N1) X ltac:(lra) ltac:(lra)). rn A A1 (apply us_r; lra).
  assert (B := n_mul _ _ _ _ _ _ _ _ (n_same _ ny N2) Y ltac:(lra) ltac:(lra)). rn B B1 (apply us_r; lra).
  assert (E := n_add _ _ _ _ _ _ _ _ (76 / 10) A1 B1 ltac:(lra) ltac:(lra)). rn E E1 (apply us_r; lra).
  assert (F := n_sub _ _ _ _ _ _ _ _ (87 / 10) n_dist E1 ltac:(lra) ltac:(lra)). rn F F1 (apply us_r; lra). fold dd' in F1.
  apply (n_weak _ _ (302 / 100 * P) (98 / 10)) in F1; [|lra|lra|lra].
  replace dd with (vx o * nx + vy o * ny - (nx * vx C + ny * vy C)); [exact F1|]. unfold dd, beyond. fold nx ny. ring.
Qed.

(** ** the discriminant *)
Lemma n_ns : near (101 / 100) (21 / 10) ns' ns.
Proof.
  destruct n_sizes as (N1 & N2 & N3 & N4).
  assert (G : forall a, Rabs (rnd (a * a) - a * a) <= uround * (101 / 100 * (a * a)) + least).
  { intros a. assert (E := rnd_err (a * a)). assert (Q := Rle_0_sqr a). unfold Rsqr in Q. rewrite (Rabs_pos_eq (a * a)) in E by exact Q. assert (U := u_small).
    assert (0 <= uround * (a * a)) by (apply Rmult_le_pos; lra). lra. }
  assert (A := G nx). assert (B := G ny). assert (LU : least <= uround * (/ 1000 * 1)) by (apply usable_least, (bpow_le radix2 (-700) 0); lia).
  assert (U := u_small).
  assert (E : near (101 / 100) (104 / 100) (rnd (nx * nx) + rnd (ny * ny)) ns).
  { split; [rewrite Rabs_pos_eq; lra|]. unfold ns.
    replace (rnd (nx * nx) + rnd (ny * ny) - (nx * nx + ny * ny)) with ((rnd (nx * nx) - nx * nx) + (rnd (ny * ny) - ny * ny)) by ring.
    eapply Rle_trans; [apply Rabs_triang|]. fold ns in N4. unfold ns in N4. assert (uround * (nx * nx + ny * ny) <= uround * (101 / 100)) by (apply Rmult_le_compat_l; lra). lra. }
  rn E E1 (apply us_1; lra). apply (n_weak _ _ _ _ _ _ E1); lra.
Qed.
Lemma rr2 : 1 / om * (1 / om) = r * r.
Proof. unfold r. rewrite <- Rabs_inv, <- Rabs_mult, Rabs_pos_eq by nra. unfold Rdiv. ring. Qed.
Lemma r'2 : r' * r' = rnd (1 / om) * rnd (1 / om).
Proof. unfold r'. rewrite <- Rabs_mult, Rabs_pos_eq; nra. Qed.
Lemma PP_pos : 0 < P /\ r * r <= P * P /\ 0 < uround * P /\ 0 < uround * (P * P) /\ uround * P <= / 1000000000000 * P.
Proof.
  destruct r_pos as [R0 R1]. assert (PP := P_parts). assert (0 < P) by lra. assert (U := u_small). assert (UT := u_tiny).
  split; [lra|]. split; [apply Rmult_le_compat; lra|]. split; [apply Rmult_lt_0_compat; lra|]. split; [apply Rmult_lt_0_compat; [lra|apply Rmult_lt_0_compat; lra]|].
  apply Rmult_le_compat_r; lra.
Qed.
Lemma n_disc : near (1017 / 100 * (P * P)) (218 / 10) disc' disc.
Proof.
  destruct r_pos as [R0 R1]. assert (PP := P_parts). destruct PP_pos as (Q1 & Q2 & _). assert (R2 : 0 < r * r) by (apply Rmult_lt_0_compat; lra).
  assert (A := n_mul _ _ _ _ _ _ _ _ n_rad n_rad ltac:(lra) ltac:(lra)). rewrite rr2, <- r'2 in A. rn A A1 (apply us_r2; lra).
  apply (n_weak _ _ (P * P) (31 / 10)) in A1; [|lra|lra|lra].
  assert (B := n_mul _ _ _ _ _ _ _ _ A1 n_ns ltac:(lra) ltac:(lra)). rn B B1 (apply us_r2; lra).
  assert (E := n_mul _ _ _ _ _ _ _ _ n_dd n_dd ltac:(lra) ltac:(lra)). rn E E1 (apply us_r2; lra).
  assert (F := n_sub _ _ _ _ _ _ _ _ (2070 / 100) B1 E1 ltac:(lra) ltac:(lra)). rn F F1 (apply us_r2; lra). fold disc' in F1. fold disc in F1.
  apply (n_weak _ _ _ _ _ _ F1); lra.
Qed.
Lemma n_inv : near (102 / 100) (42 / 10) inv' (/ ns) /\ 98 / 100 <= ns'.
Proof.
  destruct n_sizes as (N1 & N2 & N3 & N4). destruct n_ns as [A B]. assert (U := u_small). apply Rabs_le_inv in B.
  assert (S : 98 / 100 <= ns' <= 102 / 100) by lra. split; [|lra].
  assert (I : 0 < / ns <= 102 / 100).
  { split; [apply Rinv_0_lt_compat; lra|]. apply Rle_trans with (/ (99 / 100)); [apply Rinv_le_contravar; lra|lra]. }
  assert (I' : 0 < / ns' <= 103 / 100).
  { split; [apply Rinv_0_lt_compat; lra|]. apply Rle_trans with (/ (98 / 100)); [apply Rinv_le_contravar; lra|lra]. }
  assert (E : near (102 / 100) (31 / 10) (1 / ns') (/ ns)).
  { split; [rewrite Rabs_pos_eq; lra|]. replace (1 / ns' - / ns) with ((ns - ns') * (/ ns * / ns')) by (field; lra). rewrite Rabs_mult, (Rabs_pos_eq (_ * _)) by nra.
    assert (Rabs (ns - ns') <= uround * (21 / 10 * (101 / 100))) by (apply Rabs_le; lra). assert (II : / ns * / ns' <= 102 / 100 * (103 / 100)) by (apply Rmult_le_compat; lra).
    eapply Rle_trans; [apply Rmult_le_compat; [apply Rabs_pos|nra|exact H|exact II]|]. lra. }
  rn E E1 (apply us_1; lra). fold inv' in E1. apply (n_weak _ _ _ _ _ _ E1); lra.
Qed.

Variable f : R -> vec3.
Hypothesis Hf : is_helix hp rp f.

Lemma r_abs : r = Rabs (/ om).
Proof. unfold r. rewrite Rabs_inv. reflexivity. Qed.
Lemma f_round t : let v := f t in (vx v - vx C) * (vx v - vx C) + (vy v - vy C) * (vy v - vy C) = r * r.
Proof. cbv zeta. unfold C. rewrite <- dist_sq, (f_circle hp rp f Hf t HO). fold om. rewrite <- r_abs. reflexivity. Qed.
Lemma haze_r : haze o hp rp = uround * (P * P) / r.
Proof. unfold haze, stretch. fold P om. destruct r_pos as [A B]. replace (Rabs om) with (/ r) by (unfold r; apply Rinv_inv). field. lra. Qed.

(** ** no solution *)
Lemma no_crossing : disc' < 0 -> one_side f o n (225 * haze o hp rp).
Proof.
  intros H. destruct n_disc as [_ B]. apply Rabs_le_inv in B. destruct r_pos as [R0 R1]. destruct PP_pos as (Q1 & Q2 & Q3 & Q4 & Q5). destruct n_sizes as (N1 & N2 & N3 & N4).
  assert (K : r * r * ns <= dd * dd + 222 * (uround * (P * P))) by (unfold disc in B; lra).
  set (q := sqrt ns). assert (QQ : q * q = ns) by (apply sqrt_sqrt; lra). assert (QB : 99 / 100 <= q).
  { rewrite <- (sqrt_square (99 / 100)) by lra. apply sqrt_le_1_alt. lra. }
  assert (CS : forall t, Rabs (nx * (vx (f t) - vx C) + ny * (vy (f t) - vy C)) <= q * r).
  { intros t. assert (W := f_round t). cbv zeta in W. set (a := vx (f t) - vx C) in *. set (b := vy (f t) - vy C) in *.
    apply Rsqr_incr_0_var; [|apply Rmult_le_pos; lra]. rewrite <- Rsqr_abs. unfold Rsqr. replace (q * r * (q * r)) with (q * q * (r * r)) by ring. rewrite QQ, <- W. unfold ns.
    assert (Z := Rle_0_sqr (nx * b - ny * a)). unfold Rsqr in Z. lra. }
  assert (GAP : q * r <= Rabs dd + 225 * haze o hp rp).
  { rewrite haze_r. set (h := uround * (P * P)) in *. clearbody h. destruct (Rle_dec (q * r) (Rabs dd)) as [Z|Z].
    { assert (0 < h / r) by (apply Rdiv_lt_0_compat; lra). lra. }
    assert (V : (q * r - Rabs dd) * (q * r) <= 222 * h).
    { replace (r * r * ns) with (q * r * (q * r)) in K by (rewrite <- QQ; ring). replace (dd * dd) with (Rabs dd * Rabs dd) in K by (rewrite <- Rabs_mult, Rabs_pos_eq; nra).
      assert (0 <= Rabs dd) by apply Rabs_pos. nra. }
    assert (V2 : (q * r - Rabs dd) * (99 / 100 * r) <= 222 * h).
    { eapply Rle_trans; [|exact V]. apply Rmult_le_compat_l; [lra|]. apply Rmult_le_compat_r; lra. }
    assert (q * r - Rabs dd <= 225 * (h / r)); [|lra].
    apply Rmult_le_reg_r with r; [exact R0|]. replace (225 * (h / r) * r) with (225 * h) by (field; lra). lra. }
  assert (BE : forall t, beyond o n (f t) = nx * (vx (f t) - vx C) + ny * (vy (f t) - vy C) - dd).
  { intros t. unfold dd, beyond. fold nx ny. ring. }
  destruct (Rle_dec 0 dd) as [Z|Z].
  - right. intros t. rewrite BE. assert (W := CS t). apply Rabs_le_inv in W. rewrite Rabs_pos_eq in GAP by exact Z. lra.
  - left. intros t. rewrite BE. assert (W := CS t). apply Rabs_le_inv in W. rewrite Rabs_left in GAP by lra. lra.
Qed.

Lemma grazing : disc' < 0 -> - rnd (/ 1000000000) <= disc' -> comes_close f o n (/ 900000000 * Rabs (hp OMEGA) + 230 * haze o hp rp).
Proof.
  intros H H'. destruct n_disc as [_ B]. apply Rabs_le_inv in B. destruct r_pos as [R0 R1]. destruct PP_pos as (Q1 & Q2 & Q3 & Q4 & Q5). destruct n_sizes as (N1 & N2 & N3 & N4).
  assert (E9 : rnd (/ 1000000000) <= 1001 / 1000 * / 1000000000).
  { assert (W := rnd_err (/ 1000000000)). rewrite (Rabs_pos_eq (/ 1000000000)) in W by lra. apply Rabs_le_inv in W. assert (U := u_small). destruct least_u as [_ LU].
    assert (least <= / 1000000000000000000) by (apply Rle_trans with (bpow radix2 (-60)); [apply bpow_le; lia|change (bpow radix2 (-60)) with (/ 1152921504606846976); lra]). lra. }
  assert (K : Rabs disc <= 1001 / 1000 * / 1000000000 + 222 * (uround * (P * P))) by (apply Rabs_le; lra). set (h := uround * (P * P)) in *.
  set (q := sqrt ns). assert (QQ : q * q = ns) by (apply sqrt_sqrt; lra). assert (QB : 99 / 100 <= q).
  { rewrite <- (sqrt_square (99 / 100)) by lra. apply sqrt_le_1_alt. lra. }
  set (e := if Rle_dec 0 dd then 1 else -1). assert (E2 : e * e = 1) by (unfold e; destruct Rle_dec; lra). assert (ED : e * dd = Rabs dd) by (unfold e; destruct Rle_dec; [rewrite Rabs_pos_eq|rewrite Rabs_left]; lra).
  destruct (near_track hp rp f Hf (vx C + r * e * nx / q) (vy C + r * e * ny / q) 0 0) as (t & _ & T).
  { rewrite (power_circle hp rp _ _ HO). cbv zeta. fold C om.
    match goal with |- Rabs ?z <= 0 => replace z with 0; [rewrite Rabs_R0; lra|] end.
    assert (X : (vx C + r * e * nx / q - vx C) * (vx C + r * e * nx / q - vx C) + (vy C + r * e * ny / q - vy C) * (vy C + r * e * ny / q - vy C) = r * r).
    { transitivity (r * r * (e * e) * (nx * nx + ny * ny) / (q * q)); [field; lra|]. rewrite E2, QQ. fold ns. field. lra. }
    rewrite X, <- rr2. field. exact HO. }
  exists t. assert (D0' := dist_x (f t) (V3 (vx C + r * e * nx / q) (vy C + r * e * ny / q) 0)). destruct D0' as [X1 X2]. cbn [vx vy] in X1, X2.
  assert (Y1 : vx (f t) = vx C + r * e * nx / q) by (assert (X0 := Rle_trans _ _ _ X1 T); apply Rabs_le_inv in X0; lra).
  assert (Y2 : vy (f t) = vy C + r * e * ny / q) by (assert (X0 := Rle_trans _ _ _ X2 T); apply Rabs_le_inv in X0; lra).
  assert (BE : beyond o n (f t) = e * (q * r - Rabs dd)).
  { transitivity (r * e * (nx * nx + ny * ny) / q - dd); [unfold dd, beyond; fold nx ny; rewrite Y1, Y2; field; lra|]. fold ns. rewrite <- QQ.
    replace (e * (q * r - Rabs dd)) with (e * (q * r) - e * Rabs dd) by ring. rewrite <- ED. replace (e * (e * dd)) with (e * e * dd) by ring. rewrite E2. field. lra. }
  rewrite BE, Rabs_mult. replace (Rabs e) with 1 by (unfold e; destruct Rle_dec; rewrite ?Rabs_R1, ?Rabs_left; lra). rewrite Rmult_1_l.
  assert (DP : disc = (q * r - Rabs dd) * (q * r + Rabs dd)).
  { unfold disc. rewrite <- QQ. replace (dd * dd) with (Rabs dd * Rabs dd) by (rewrite <- Rabs_mult; apply Rabs_pos_eq; apply Rle_0_sqr). ring. }
  rewrite DP, Rabs_mult in K. set (g := Rabs (q * r - Rabs dd)) in *. assert (G0 : 0 <= g) by apply Rabs_pos.
  assert (AD := Rabs_pos dd). assert (QR : 99 / 100 * r <= q * r) by (apply Rmult_le_compat_r; lra). rewrite (Rabs_pos_eq (q * r + Rabs dd)) in K by lra.
  assert (V : g * (99 / 100 * r) <= 1001 / 1000 * / 1000000000 + 222 * h) by (eapply Rle_trans; [|exact K]; apply Rmult_le_compat_l; lra).
  rewrite haze_r. fold h om. apply Rmult_le_reg_r with r; [exact R0|].
  replace ((/ 900000000 * Rabs om + 230 * (h / r)) * r) with (/ 900000000 * (Rabs om * r) + 230 * h) by (field; lra). rewrite R1. lra.
Qed.

(** ** when there is a solution *)
Section Found.
Hypothesis SD : 0 <= disc'.
Lemma D_facts : 0 <= D' /\ Rabs (D' * D' - disc) <= 245 * (uround * (P * P)) /\ D' <= 1006 / 1000 * P /\ Rabs dd <= 1006 / 1000 * P /\ Rabs dd' <= 1007 / 1000 * P
  /\ Rabs (dd' - dd) <= 296 / 10 * (uround * P) /\ Rabs (D' * D' - disc') <= 22 / 10 * (uround * (P * P)).
Proof.
  destruct r_pos as [R0 R1]. assert (PP := P_parts). destruct PP_pos as (Q1 & Q2 & Q3 & Q4 & Q5). destruct n_disc as [A B]. destruct n_dd as [E F]. destruct n_sizes as (N1 & N2 & N3 & N4).
  assert (U := u_small). assert (UT := u_tiny). assert (R2 : r * r * ns <= P * P * (101 / 100)) by (apply Rmult_le_compat; [nra|lra|lra|lra]).
  assert (UPP : uround * (P * P) <= / 1000000000000 * (P * P)) by (apply Rmult_le_compat_r; nra).
  apply Rabs_le_inv in B. assert (dd2 : dd * dd <= 1011 / 1000 * (P * P)) by (unfold disc in B; lra).
  assert (DS : disc' <= 1011 / 1000 * (P * P)). { unfold disc in B. assert (0 <= dd * dd) by nra. lra. }
  assert (SQ := sqrt_sqrt disc' SD). assert (S0 := sqrt_pos disc'). set (s := sqrt disc') in *.
  assert (SB : s <= 10055 / 10000 * P) by (apply Rsqr_incr_0_var; unfold Rsqr; nra).
  assert (DE : Rabs (D' - s) <= uround * (101 / 100 * P)).
  { unfold D'. fold s. assert (W := rnd_err s). rewrite (Rabs_pos_eq s) in W by exact S0.
    assert (LU : least <= uround * (/ 1000 * P)). { apply usable_least. apply Rle_trans with (bpow radix2 (-100)); [apply bpow_le; lia|]. generalize r_large. lra. }
    assert (uround * s <= uround * (10055 / 10000 * P)) by (apply Rmult_le_compat_l; lra). lra. }
  assert (D0 : 0 <= D') by (unfold D'; rewrite <- rnd_0; apply round_le; [apply FLT_exp_valid; reflexivity|apply valid_rnd_N|exact S0]).
  clearbody s. assert (D2 : Rabs (D' * D' - disc') <= 22 / 10 * (uround * (P * P))).
  { rewrite <- SQ. replace (D' * D' - s * s) with ((D' - s) * (D' + s)) by ring. rewrite Rabs_mult, (Rabs_pos_eq (D' + s)) by lra.
    assert (V : D' + s <= 202 / 100 * P). { apply Rabs_le_inv in DE. lra. }
    eapply Rle_trans; [apply Rmult_le_compat; [apply Rabs_pos|lra|exact DE|exact V]|]. lra. }
  assert (DB : Rabs dd <= 1006 / 1000 * P).
  { apply Rsqr_incr_0_var; [|lra]. rewrite <- Rsqr_abs. unfold Rsqr. assert (0 <= P * P) by nra. lra. }
  apply Rabs_le_inv in D2. repeat split.
  - exact D0.
  - apply Rabs_le. lra.
  - apply Rabs_le_inv in DE. lra.
  - exact DB.
  - assert (W := near_size _ _ _ F). lra.
  - lra.
  - apply Rabs_le. lra.
Qed.

Lemma coord z' z a b : near P (65 / 10) z' z -> Rabs a <= 1005 / 1000 -> Rabs b <= 1005 / 1000 ->
  near (308 / 100 * P) (84 / 10) (rnd (z' + rnd (rnd (rnd (a * dd') + rnd (b * D')) * inv'))) (z + (a * dd' + b * D') * / ns)
  /\ near (308 / 100 * P) (84 / 10) (rnd (z' + rnd (rnd (rnd (a * dd') - rnd (b * D')) * inv'))) (z + (a * dd' - b * D') * / ns).
Proof.
  intros HZ Ha Hb. destruct D_facts as (F1 & F2 & F3 & F4 & F5 & F6 & F7). destruct r_pos as [R0 R1]. assert (PP := P_parts).
  assert (A := n_mul _ _ _ _ _ _ _ _ (n_same _ a Ha) (n_same _ dd' F5) ltac:(lra) ltac:(lra)). rn A A1 (apply us_r; lra).
  assert (B := n_mul _ _ _ _ _ _ _ _ (n_same _ b Hb) (n_same (1006 / 1000 * P) D' ltac:(rewrite Rabs_pos_eq; lra)) ltac:(lra) ltac:(lra)). rn B B1 (apply us_r; lra).
  assert (G : forall w' w, near (203 / 100 * P) (103 / 100) w' w -> near (308 / 100 * P) (84 / 10) (rnd (z' + rnd (rnd w' * inv'))) (z + w * / ns)).
  { intros w' w W. rn W W1 (apply us_r; lra). assert (E := n_mul _ _ _ _ _ _ _ _ W1 (proj1 n_inv) ltac:(lra) ltac:(lra)). rn E E1 (apply us_r; lra).
    assert (F := n_add _ _ _ _ _ _ _ _ (73 / 10) HZ E1 ltac:(lra) ltac:(lra)). rn F G1 (apply us_r; lra). apply (n_weak _ _ _ _ _ _ G1); lra. }
  split; apply G.
  - assert (E := n_add _ _ _ _ _ _ _ _ (103 / 100) A1 B1 ltac:(lra) ltac:(lra)). apply (n_weak _ _ _ _ _ _ E); lra.
  - assert (E := n_sub _ _ _ _ _ _ _ _ (103 / 100) A1 B1 ltac:(lra) ltac:(lra)). apply (n_weak _ _ _ _ _ _ E); lra.
Qed.

(** the exact intersection of the rounded line and circle; [e] is 1 or -1 *)
Definition ideal_x (e : R) : R := vx C + (nx * dd' + e * ny * D') * / ns.
Definition ideal_y (e : R) : R := vy C + (ny * dd' - e * nx * D') * / ns.
Definition found (e x y : R) : Prop := (e = 1 \/ e = -1) /\ Rabs (x - ideal_x e) <= 26 * (uround * P) /\ Rabs (y - ideal_y e) <= 26 * (uround * P)
  /\ is_double x /\ is_double y /\ Rabs x <= 31 / 10 * P /\ Rabs y <= 31 / 10 * P.

Lemma found_1 : found 1 (rnd (x0' + rnd (rnd (rnd (nx * dd') + rnd (ny * D')) * inv'))) (rnd (y0' + rnd (rnd (rnd (ny * dd') - rnd (nx * D')) * inv'))).
Proof.
  destruct n_sizes as (N1 & N2 & N3 & N4). destruct n_x0 as [X Y]. destruct (coord _ _ nx ny X N1 N2) as [A _]. destruct (coord _ _ ny nx Y N2 N1) as [_ B]. destruct PP_pos as (Q1 & Q2 & Q3 & Q4 & Q5).
  assert (SA := n_size _ _ _ _ A ltac:(lra)). assert (SB := n_size _ _ _ _ B ltac:(lra)).
  split; [auto|]. unfold ideal_x, ideal_y. rewrite !Rmult_1_l. destruct A as [_ A]. destruct B as [_ B]. split; [lra|]. split; [lra|]. split; [apply rnd_double|]. split; [apply rnd_double|]. split; lra.
Qed.
Lemma found_2 : found (-1) (rnd (x0' + rnd (rnd (rnd (nx * dd') - rnd (ny * D')) * inv'))) (rnd (y0' + rnd (rnd (rnd (ny * dd') + rnd (nx * D')) * inv'))).
Proof.
  destruct n_sizes as (N1 & N2 & N3 & N4). destruct n_x0 as [X Y]. destruct (coord _ _ nx ny X N1 N2) as [_ A]. destruct (coord _ _ ny nx Y N2 N1) as [B _]. destruct PP_pos as (Q1 & Q2 & Q3 & Q4 & Q5).
  assert (SA := n_size _ _ _ _ A ltac:(lra)). assert (SB := n_size _ _ _ _ B ltac:(lra)).
  split; [auto|]. unfold ideal_x, ideal_y. replace (nx * dd' + -1 * ny * D') with (nx * dd' - ny * D') by ring. replace (ny * dd' - -1 * nx * D') with (ny * dd' + nx * D') by ring.
  destruct A as [_ A]. destruct B as [_ B]. split; [lra|]. split; [lra|]. split; [apply rnd_double|]. split; [apply rnd_double|]. split; lra.
Qed.

Lemma found_plane e x y z : found e x y -> Rabs (beyond o n (V3 x y z)) <= 76 * (uround * P).
Proof.
  intros (_ & X & Y & _). destruct D_facts as (_ & _ & _ & _ & _ & F6 & _). destruct n_sizes as (N1 & N2 & N3 & N4). destruct PP_pos as (Q1 & Q2 & Q3 & Q4 & Q5).
  assert (E : beyond o n (V3 x y z) = (x - ideal_x e) * nx + (y - ideal_y e) * ny + (dd' - dd)).
  { unfold beyond, ideal_x, ideal_y, dd, beyond. cbn [vx vy]. fold nx ny. unfold ns in *. field. lra. }
  rewrite E. eapply Rle_trans; [apply Rabs_triang|]. assert (T := Rabs_triang ((x - ideal_x e) * nx) ((y - ideal_y e) * ny)). rewrite !Rabs_mult in T.
  assert (Rabs (x - ideal_x e) * Rabs nx <= 26 * (uround * P) * Rabs nx) by (apply Rmult_le_compat_r; [apply Rabs_pos|exact X]).
  assert (Rabs (y - ideal_y e) * Rabs ny <= 26 * (uround * P) * Rabs ny) by (apply Rmult_le_compat_r; [apply Rabs_pos|exact Y]).
  assert (26 * (uround * P) * (Rabs nx + Rabs ny) <= 26 * (uround * P) * (1422 / 1000)) by (apply Rmult_le_compat_l; lra). lra.
Qed.

Lemma e_sq e x y : found e x y -> e * e = 1 /\ Rabs e = 1.
Proof. intros [[-> | ->] _]; (split; [ring|]); [apply Rabs_R1|replace (-1) with (- (1)) by ring; rewrite Rabs_Ropp; apply Rabs_R1]. Qed.

Lemma found_power e x y : found e x y -> Rabs (power hp rp x y) <= 600 * haze o hp rp.
Proof.
  intros F. destruct (e_sq _ _ _ F) as [E2 EA]. destruct F as (_ & X & Y & _). destruct D_facts as (F1 & F2 & F3 & F4 & F5 & F6 & F7). destruct n_sizes as (N1 & N2 & N3 & N4).
  destruct PP_pos as (Q1 & Q2 & Q3 & Q4 & Q5). destruct r_pos as [R0 R1]. destruct n_inv as [[IB _] _].
  rewrite (power_circle hp rp x y HO). cbv zeta. fold C om. rewrite haze_r.
  set (a := x - ideal_x e) in *. set (b := y - ideal_y e) in *.
  set (I := (nx * dd' + e * ny * D') * / ns). set (J := (ny * dd' - e * nx * D') * / ns).
  replace (x - vx C) with (I + a) by (unfold a, ideal_x, I; ring). replace (y - vy C) with (J + b) by (unfold b, ideal_y, J; ring).
  assert (IJ : I * I + J * J = (dd' * dd' + D' * D') * / ns).
  { unfold I, J. transitivity ((dd' * dd' + e * e * (D' * D')) * ns * / ns * / ns); [unfold ns; ring|]. rewrite E2. field. lra. }
  assert (ID : I * I + J * J - r * r = ((dd' - dd) * (dd' + dd) + (D' * D' - disc)) * / ns).
  { rewrite IJ. unfold disc. field. lra. }
  assert (SZ : forall u v, Rabs u <= 1005 / 1000 -> Rabs v <= 1005 / 1000 -> Rabs ((u * dd' + v * D') * / ns) <= 208 / 100 * P).
  { intros u v Hu Hv. rewrite Rabs_mult. assert (T := Rabs_triang (u * dd') (v * D')). rewrite !Rabs_mult, (Rabs_pos_eq D') in T by exact F1.
    assert (Rabs u * Rabs dd' <= 1005 / 1000 * (1007 / 1000 * P)) by (apply Rmult_le_compat; auto using Rabs_pos).
    assert (Rabs v * D' <= 1005 / 1000 * (1006 / 1000 * P)) by (apply Rmult_le_compat; auto using Rabs_pos).
    apply Rle_trans with (203 / 100 * P * (102 / 100)); [|lra]. apply Rmult_le_compat; auto using Rabs_pos; lra. }
  assert (IS : Rabs I <= 208 / 100 * P) by (apply SZ; [exact N1|rewrite Rabs_mult, EA, Rmult_1_l; exact N2]).
  assert (JS : Rabs J <= 208 / 100 * P).
  { unfold J. replace (ny * dd' - e * nx * D') with (ny * dd' + - (e * nx) * D') by ring. apply SZ; [exact N2|rewrite Rabs_Ropp, Rabs_mult, EA, Rmult_1_l; exact N1]. }
  assert (M1 : Rabs (I * I + J * J - r * r) <= 312 * (uround * (P * P))).
  { rewrite ID, Rabs_mult. assert (T := Rabs_triang ((dd' - dd) * (dd' + dd)) (D' * D' - disc)). rewrite Rabs_mult in T.
    assert (T2 := Rabs_triang dd' dd).
    assert (V : Rabs (dd' - dd) * Rabs (dd' + dd) <= 296 / 10 * (uround * P) * (2013 / 1000 * P)) by (apply Rmult_le_compat; auto using Rabs_pos; lra).
    apply Rle_trans with (305 * (uround * (P * P)) * (102 / 100)); [|lra]. apply Rmult_le_compat; auto using Rabs_pos; lra. }
  assert (G : forall u v, Rabs u <= 208 / 100 * P -> Rabs v <= 26 * (uround * P) -> Rabs (v * (2 * u + v)) <= 110 * (uround * (P * P))).
  { intros u v Hu Hv. rewrite Rabs_mult. assert (T := Rabs_triang (2 * u) v). rewrite Rabs_mult, (Rabs_pos_eq 2) in T by lra.
    apply Rle_trans with (26 * (uround * P) * (417 / 100 * P)); [|lra]. apply Rmult_le_compat; auto using Rabs_pos; lra. }
  assert (M2 := G I a IS X). assert (M3 := G J b JS Y).
  replace (om * ((I + a) * (I + a) + (J + b) * (J + b)) - / om) with (om * ((I * I + J * J - r * r) + (a * (2 * I + a) + b * (2 * J + b)))).
  2:{ rewrite <- rr2. fold om in HO. field. exact HO. }
  rewrite Rabs_mult. assert (T1 := Rabs_triang (I * I + J * J - r * r) (a * (2 * I + a) + b * (2 * J + b))). assert (T2 := Rabs_triang (a * (2 * I + a)) (b * (2 * J + b))).
  replace (600 * (uround * (P * P) / r)) with (Rabs om * (600 * (uround * (P * P)))).
  2:{ replace (Rabs om) with (/ r) by (unfold r; apply Rinv_inv). field. lra. }
  apply Rmult_le_compat_l; [apply Rabs_pos|]. lra.
Qed.

(** ** every crossing is found *)
Definition along (t : R) : R := (vx (f t) - vx C) * ny - (vy (f t) - vy C) * nx.
Lemma along_sq t : beyond o n (f t) = 0 -> along t * along t = disc.
Proof.
  intros B. assert (W := f_round t). cbv zeta in W. unfold along, disc, ns. rewrite <- W.
  assert (E : dd = (vx (f t) - vx C) * nx + (vy (f t) - vy C) * ny) by (unfold dd; unfold beyond in *; fold nx ny in B |- *; lra). rewrite E. ring.
Qed.
Lemma found_near e x y z t : found e x y -> beyond o n (f t) = 0 ->
  dist_xy (f t) (V3 x y z) <= 1007 / 1000 * Rabs (along t - e * D') + 67 * (uround * P).
Proof.
  intros F B. destruct (e_sq _ _ _ F) as [E2 EA]. destruct F as (_ & X & Y & _). destruct D_facts as (F1 & F2 & F3 & F4 & F5 & F6 & F7). destruct n_sizes as (N1 & N2 & N3 & N4).
  destruct PP_pos as (Q1 & Q2 & Q3 & Q4 & Q5).
  assert (A : dist_xy (V3 (ideal_x e) (ideal_y e) z) (V3 x y z) <= 142 / 100 * (26 * (uround * P))) by (rewrite dist_sym; apply dist_le; cbn [vx vy]; auto).
  assert (E : dd = (vx (f t) - vx C) * nx + (vy (f t) - vy C) * ny) by (unfold dd; unfold beyond in *; fold nx ny in B |- *; lra).
  assert (SQ : dist_xy (f t) (V3 (ideal_x e) (ideal_y e) z) <= 1007 / 1000 * (Rabs (along t - e * D') + Rabs (dd' - dd))).
  { apply Rsqr_incr_0_var.
    2:{ generalize (Rabs_pos (along t - e * D')) (Rabs_pos (dd' - dd)). lra. }
    unfold Rsqr. rewrite dist_sq. cbn [vx vy].
    replace (_ + _) with (((dd - dd') * (dd - dd') + (along t - e * D') * (along t - e * D')) * / ns).
    2:{ rewrite E. unfold ideal_x, ideal_y, along. unfold ns in *. field. lra. }
    set (p := along t - e * D'). assert (SA : forall w, w * w = Rabs w * Rabs w) by (intros w; rewrite <- Rabs_mult, Rabs_pos_eq; [reflexivity|apply Rle_0_sqr]).
    assert (S1 : (dd - dd') * (dd - dd') = Rabs (dd' - dd) * Rabs (dd' - dd)) by (rewrite <- SA; ring).
    assert (S2 := SA p). rewrite S1, S2. assert (V1 := Rabs_pos p). assert (V2 := Rabs_pos (dd' - dd)).
    set (u := Rabs p) in *. set (v := Rabs (dd' - dd)) in *. clearbody u v.
    assert (IN : 0 < / ns <= 1007 / 1000 * (1007 / 1000)).
    { split; [apply Rinv_0_lt_compat; lra|]. apply Rle_trans with (/ (99 / 100)); [apply Rinv_le_contravar; lra|lra]. }
    assert ((v * v + u * u) * / ns <= (u + v) * (u + v) * (1007 / 1000 * (1007 / 1000))); [|lra].
    apply Rmult_le_compat; try lra; nra. }
  assert (T := dist_tri (f t) (V3 x y z) (V3 (ideal_x e) (ideal_y e) z)). lra.
Qed.

Lemma both_close x1 y1 z1 x2 y2 z2 : found 1 x1 y1 -> found (-1) x2 y2 -> both f o n hp rp (V3 x1 y1 z1) (V3 x2 y2 z2).
Proof.
  intros A1 A2 t B. assert (V1 := found_near _ _ _ z1 t A1 B). assert (V2 := found_near _ _ _ z2 t A2 B). fold P. destruct D_facts as (F1 & F2 & F3 & F4 & F5 & F6 & F7).
  destruct n_sizes as (N1 & N2 & N3 & N4). destruct PP_pos as (Q1 & Q2 & Q3 & Q4 & Q5). assert (SQ := along_sq t B). set (s := along t) in *. clearbody s.
  rewrite Rmult_1_l in V1. replace (s - -1 * D') with (s + D') in V2 by ring.
  assert (PR : Rabs (s - D') * Rabs (s + D') <= 245 * (uround * (P * P))).
  { rewrite <- Rabs_mult. replace ((s - D') * (s + D')) with (- (D' * D' - s * s)) by ring. rewrite Rabs_Ropp, SQ. exact F2. }
  assert (SB : Rabs s <= 1006 / 1000 * P).
  { apply Rsqr_incr_0_var; [|lra]. rewrite <- Rsqr_abs. unfold Rsqr. rewrite SQ. unfold disc. destruct r_pos as [R0 _].
    assert (r * r * ns <= P * P * (101 / 100)) by (apply Rmult_le_compat; [nra|lra|lra|lra]). assert (0 <= dd * dd) by nra. assert (0 <= P * P) by nra. lra. }
  assert (T1 : Rabs (s - D') + Rabs (s + D') <= 2012 / 1000 * P).
  { apply Rabs_le_inv in SB. unfold Rabs. destruct (Rcase_abs (s - D')); destruct (Rcase_abs (s + D')); lra. }
  assert (W1 := Rabs_pos (s - D')). assert (W2 := Rabs_pos (s + D')). set (u := Rabs (s - D')) in *. set (v := Rabs (s + D')) in *. clearbody u v.
  set (e := uround * P) in *. assert (EE : uround * (P * P) = e * P) by (unfold e; ring). rewrite EE in *. clearbody e.
  apply Rle_trans with ((1007 / 1000 * u + 67 * e) * (1007 / 1000 * v + 67 * e)).
  { apply Rmult_le_compat; auto using dist_pos. }
  assert (e * (u + v) <= e * (2012 / 1000 * P)) by (apply Rmult_le_compat_l; lra). assert (e * e <= e * (/ 1000000000000 * P)) by (apply Rmult_le_compat_l; lra). lra.
Qed.
Lemma only_close x y z : disc' <= rnd (/ 1000000000) -> found 1 x y -> only f o n hp rp (V3 x y z).
Proof.
  intros SM A1 t B. assert (V1 := found_near _ _ _ z t A1 B). fold P. destruct D_facts as (F1 & F2 & F3 & F4 & F5 & F6 & F7).
  destruct PP_pos as (Q1 & Q2 & Q3 & Q4 & Q5). assert (SQ := along_sq t B). set (s := along t) in *. clearbody s. destruct n_disc as [_ ND]. apply Rabs_le_inv in ND. apply Rabs_le_inv in F7.
  assert (R1 : rnd (/ 1000000000) <= 1001 / 1000000000000).
  { assert (W := rnd_err (/ 1000000000)). rewrite (Rabs_pos_eq (/ 1000000000)) in W by lra. apply Rabs_le_inv in W. assert (U := u_small). destruct least_u as [_ LU]. assert (UT := u_tiny). lra. }
  rewrite Rmult_1_l in V1. assert (T : Rabs (s - D') * Rabs (s - D') <= 2 * (s * s + D' * D')).
  { rewrite <- Rabs_mult, Rabs_pos_eq by apply Rle_0_sqr. assert (Z := Rle_0_sqr (s + D')). unfold Rsqr in Z. lra. }
  assert (W := Rabs_pos (s - D')). set (u := Rabs (s - D')) in *. clearbody u.
  assert (EE : uround * P * (uround * P) <= / 1000000000000 * (uround * (P * P))).
  { replace (uround * (P * P)) with (uround * P * P) by ring. assert (uround * P * (uround * P) <= uround * P * (/ 1000000000000 * P)) by (apply Rmult_le_compat_l; lra). lra. }
  set (e := uround * P) in *. clearbody e.
  apply Rle_trans with ((1007 / 1000 * u + 67 * e) * (1007 / 1000 * u + 67 * e)); [apply Rmult_le_compat; auto using dist_pos|].
  assert (Z := Rle_0_sqr (1007 / 1000 * u - 67 * e)). unfold Rsqr in Z.
  assert ((1007 / 1000 * u + 67 * e) * (1007 / 1000 * u + 67 * e) <= 2 * (1007 / 1000 * (1007 / 1000)) * (u * u) + 2 * 67 * 67 * (e * e)) by lra.
  assert (2 * (1007 / 1000 * (1007 / 1000)) * (u * u) <= 2 * (1007 / 1000 * (1007 / 1000)) * (2 * (s * s + D' * D'))) by lra.
  lra.
Qed.

(** ** path lengths *)
Lemma stretch_1 : 1 <= stretch o hp rp.
Proof. destruct r_pos as [R0 R1]. assert (PP := P_parts). unfold stretch. fold P om. rewrite <- R1. apply Rmult_le_compat_l; [apply Rabs_pos|lra]. Qed.
Lemma found_ordinary e x y : found e x y -> ordinary x /\ ordinary y /\ extent x y hp rp <= 72 / 10 * P.
Proof.
  intros (_ & _ & _ & DX & DY & X & Y). fold P in HB. destruct r_pos as [R0 R1].
  assert (E : bpow radix2 100 = 4 * bpow radix2 98) by (change 100%Z with (2 + 98)%Z; rewrite bpow_plus; reflexivity).
  assert (B := bpow_gt_0 radix2 98). split; [split; [exact DX|lra]|]. split; [split; [exact DY|lra]|].
  unfold extent. assert (Rabs (vx rp) + Rabs (vy rp) + Rabs (hp D0) <= P); [|lra].
  unfold P, spread. fold om r. generalize (Rabs_pos (vx o)) (Rabs_pos (vy o)). lra.
Qed.
Lemma found_path e x y z s : found e x y -> calculateSfromXY_d L at2 x y hp rp = Ok s -> calculateZfromS_d s hp rp = Ok z ->
  crossing f o n hp rp s (V3 x y z).
Proof.
  intros F ES EZ. destruct (near_track hp rp f Hf x y z _ (found_power _ _ _ F)) as (t & T1 & T2).
  destruct PP_pos as (Q1 & Q2 & Q3 & Q4 & Q5). assert (U := u_small). assert (UT := u_tiny). constructor.
  - fold P. apply (found_plane e), F.
  - cbn [vz]. apply (height hp rp f Hf), EZ.
  - exists t. split; [exact T1|]. split; [exact T2|]. intros OT KB. destruct (found_ordinary _ _ _ F) as (OX & OY & EX).
    assert (K1 := stretch_1). set (K := stretch o hp rp) in *. assert (HK : Rabs om * P = K) by reflexivity. assert (HH : haze o hp rp = uround * (P * K)) by reflexivity.
    destruct (dist_x (V3 x y z) (f t)) as [DX DY]. cbn [vx vy] in DX, DY. rewrite dist_sym in T2. assert (AO := Rabs_pos om).
    assert (OE : Rabs om * extent x y hp rp <= 72 / 10 * K).
    { replace (72 / 10 * K) with (Rabs om * (72 / 10 * P)) by (rewrite <- HK; ring). apply Rmult_le_compat_l; lra. }
    assert (KM : K * K <= 100000 * 100000) by (apply Rmult_le_compat; lra).
    assert (OW : Rabs om * (600 * haze o hp rp) = 600 * (uround * (K * K))) by (rewrite HH, <- HK; ring).
    destruct (C88_accuracy L at2 x y hp rp f t (600 * haze o hp rp) HL HT OX OY) as (s' & E & AC); auto; fold om; try lra.
    { rewrite OW. assert (uround * (K * K) <= uround * (100000 * 100000)) by (apply Rmult_le_compat_l; lra). unfold uround in *. lra. }
    rewrite ES in E. injection E as <-. destruct AC as [AC|[AC AD]]; [left|right; split; [exact AC|]].
    + assert (uround * extent x y hp rp <= uround * (72 / 10 * P)) by (apply Rmult_le_compat_l; lra).
      assert (uround * P <= haze o hp rp). { rewrite HH. apply Rmult_le_compat_l; [lra|]. assert (P * 1 <= P * K) by (apply Rmult_le_compat_l; lra). lra. }
      lra.
    + fold om in AD. eapply Rle_trans; [exact AD|]. rewrite OW.
      assert (uround * (Rabs om * extent x y hp rp) <= uround * (72 / 10 * K)) by (apply Rmult_le_compat_l; lra).
      assert (uround * K <= uround * (K * K)). { apply Rmult_le_compat_l; [lra|]. assert (1 * K <= K * K) by (apply Rmult_le_compat_r; lra). lra. }
      assert (0 <= uround * (K * K)) by (apply Rmult_le_pos; [lra|nra]). lra.
Qed.
End Found.

(** ** all together *)
Lemma inv_rd x y : rd x = Ok y -> y = rnd x.
Proof. intros E. apply rd_spec in E. exact E. Qed.
Lemma div_inv {A} x y (k : R -> res A) v : (z <- rd_div x y ;; k z) = Ok v -> y <> 0 /\ k (rnd (x / y)) = Ok v.
Proof. unfold rd_div. destruct Req_EM_T; [discriminate|]. intros E. apply rd_inv in E. auto. Qed.

Lemma dot_inv (z : R) v : vdot_d (V3 (vx o) (vy o) z) n = Ok v -> Rabs v = dist'.
Proof.
  unfold vdot_d. cbn [vx vy vz]. rewrite (op_nz _ _ HN), Rmult_0_r. intros E. do 4 apply rd_inv in E. apply inv_rd in E.
  rewrite E, rnd_0, Rplus_0_r, rnd_id by apply rnd_double. reflexivity.
Qed.
Lemma radius_inv v : calculateRadius_d hp = Ok v -> v = r'.
Proof. unfold calculateRadius_d. destruct Req_EM_T; [contradiction|]. intros E. apply div_inv in E. destruct E as [_ E]. injection E as <-. reflexivity. Qed.
Lemma xc_inv v : calculateXCenter_d L hp rp = Ok v -> v = x0'.
Proof. unfold calculateXCenter_d. destruct Req_EM_T; [contradiction|]. intros E. apply div_inv in E. destruct E as [_ E]. do 2 apply rd_inv in E. apply inv_rd in E. exact E. Qed.
Lemma yc_inv v : calculateYCenter_d L hp rp = Ok v -> v = y0'.
Proof. unfold calculateYCenter_d. destruct Req_EM_T; [contradiction|]. intros E. apply div_inv in E. destruct E as [_ E]. do 2 apply rd_inv in E. apply inv_rd in E. exact E. Qed.

Lemma line_inv l : intersectCircleStraightLine_d x0' y0' r' nx ny dist' = Ok l ->
  (l = [] /\ disc' < 0) \/ (l = [None] /\ disc' < 0 /\ - rnd (/ 1000000000) <= disc')
  \/ (exists x y, l = [Some (x, y)] /\ found 1 x y /\ 0 <= disc' <= rnd (/ 1000000000))
  \/ (exists x1 y1 x2 y2, l = [Some (x1, y1); Some (x2, y2)] /\ found 1 x1 y1 /\ found (-1) x2 y2 /\ rnd (/ 1000000000) < disc').
Proof.
  unfold intersectCircleStraightLine_d. intros E. do 11 apply rd_inv in E. fold dd' ns' disc' in E.
  assert (R0 : 0 <= rnd (/ 1000000000)) by (rewrite <- rnd_0; apply round_le; [apply FLT_exp_valid; reflexivity|apply valid_rnd_N|lra]).
  destruct Rlt_dec as [H1|H1]; [injection E as <-; left; split; [reflexivity|lra]|].
  apply div_inv in E. destruct E as [_ E]. fold inv' in E.
  destruct Rlt_dec as [H2|H2]; [injection E as <-; right; left; repeat split; lra|]. assert (SD : 0 <= disc') by lra.
  cbv zeta in E. fold D' in E. do 10 apply rd_inv in E. right. right.
  destruct Rle_dec as [H3|H3].
  - injection E as <-. left. do 2 eexists. split; [reflexivity|]. split; [apply (found_1 SD)|lra].
  - do 6 apply rd_inv in E. injection E as <-. right. do 4 eexists. split; [reflexivity|]. split; [apply (found_1 SD)|]. split; [apply (found_2 SD)|lra].
Qed.

Lemma point_inv e x y v : 0 <= disc' -> found e x y -> track_point L at2 x y hp rp = Ok v ->
  crossing f o n hp rp (fst v) (snd v) /\ snd v = V3 x y (vz (snd v)).
Proof.
  intros SD F E. unfold track_point in E. apply bind_inv in E. destruct E as (s & ES & E). apply bind_inv in E. destruct E as (z & EZ & E). injection E as <-.
  cbn [fst snd vz]. split; [|reflexivity]. exact (found_path SD e x y z s F ES EZ).
Qed.

Lemma plane_outcome surf mode cb out b out' : vx (sf_origin surf) = vx o -> vy (sf_origin surf) = vy o -> sf_normal surf v3zero = n ->
  intersectWithZPlane_d L at2 surf hp rp out mode cb = Ok (b, out') ->
  (b = false /\ out' = out /\ one_side f o n (225 * haze o hp rp))
  \/ (out' = OBad /\ (b = true <-> mode = 0%Z) /\ (mode = 0%Z -> cb = false) /\ one_side f o n (225 * haze o hp rp)
      /\ comes_close f o n (/ 900000000 * Rabs (hp OMEGA) + 230 * haze o hp rp))
  \/ (exists s x, crossing f o n hp rp s x /\ only f o n hp rp x /\ out' = OVal s x
       /\ b = mode_ok mode s && bounds surf cb x)
  \/ exists s0 x0 s1 x1, crossing f o n hp rp s0 x0 /\ crossing f o n hp rp s1 x1 /\ both f o n hp rp x0 x1
     /\ (b, out') = match select 0 mode s0 x0 s1 x1 with None => (false, out) | Some (s, x) => (bounds surf cb x, OVal s x) end.
Proof.
  intros EX EY EN E. unfold intersectWithZPlane_d in E. rewrite EN in E. cbv zeta in E. apply bind_inv in E. destruct E as (v & EV & E).
  assert (EO : sf_origin surf = V3 (vx o) (vy o) (vz (sf_origin surf))) by (rewrite <- EX, <- EY; destruct (sf_origin surf); reflexivity). rewrite EO in EV.
  apply dot_inv in EV. rewrite EV in E. clear v EV.
  match type of E with context [if ?c then Throw else _] => destruct c end; [discriminate|].
  apply bind_inv in E. destruct E as (v1 & E1 & E). apply radius_inv in E1. subst v1.
  apply bind_inv in E. destruct E as (v1 & E1 & E). apply xc_inv in E1. subst v1.
  apply bind_inv in E. destruct E as (v1 & E1 & E). apply yc_inv in E1. subst v1.
  apply bind_inv in E. destruct E as (l & E1 & E). apply line_inv in E1.
  destruct E1 as [[-> N]|[(-> & N & NG)|[(x & y & -> & F & N1 & N2)|(x1 & y1 & x2 & y2 & -> & F1 & F2 & N)]]].
  - left. injection E as <- <-. auto using no_crossing.
  - right. left. destruct (Z.eqb_spec mode 0) as [M|M].
    + destruct cb; [discriminate|]. injection E as <- <-. split; [reflexivity|]. split; [tauto|]. split; [auto|]. split; [apply no_crossing, N|apply grazing; assumption].
    + injection E as <- <-. split; [reflexivity|]. split; [split; [discriminate|contradiction]|]. split; [contradiction|]. split; [apply no_crossing, N|apply grazing; assumption].
  - right. right. left. apply bind_inv in E. destruct E as (v & EV & E). destruct (point_inv _ _ _ _ N1 F EV) as [CR PV]. injection E as <- <-.
    exists (fst v), (snd v). split; [exact CR|]. split; [rewrite PV; apply (only_close N1); assumption|]. auto.
  - right. right. right. assert (SD : 0 <= disc').
    { assert (0 <= rnd (/ 1000000000)) by (rewrite <- rnd_0; apply round_le; [apply FLT_exp_valid; reflexivity|apply valid_rnd_N|lra]). lra. }
    apply bind_inv in E. destruct E as (v & EV & E). apply bind_inv in E. destruct E as (w & EW & E).
    destruct (point_inv _ _ _ _ SD F1 EV) as [CR PV]. destruct (point_inv _ _ _ _ SD F2 EW) as [CR2 PW].
    exists (fst v), (snd v), (fst w), (snd w). split; [exact CR|]. split; [exact CR2|]. split; [rewrite PV, PW; apply (both_close SD); assumption|].
    destruct select as [[s x]|]; injection E as <- <-; reflexivity.
Qed.
End Plane.
