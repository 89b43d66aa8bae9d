(** Proofs about calculateStartHelix (C22). *)
From Coq Require Import Reals Lra Lia ZArith Psatz.
From Coquelicot Require Import Coquelicot.
From Verif Require Import Num NumFacts Vec Helix SpecHelix HelixFacts PathFacts.
Open Scope R_scope.

Lemma norm2_pos a b : a <> 0 \/ b <> 0 -> 0 < sqrt (a * a + b * b).
Proof. intros H. apply sqrt_lt_R0. destruct H; nra. Qed.

Lemma ssq_nn a b : 0 <= a * a + b * b. Proof. nra. Qed.
Lemma ssq_pos a b : a * a + b * b <> 0 -> 0 < sqrt (a * a + b * b).
Proof. intros. apply sqrt_lt_R0. assert (0 <= a * a + b * b) by nra. lra. Qed.
Lemma gram_l x y z c : x * y = z * z + c * c -> c <> 0 -> 0 <= x -> 0 < x.
Proof. intros E N P. destruct (Req_dec x 0) as [->|]; [exfalso; apply N; nra|lra]. Qed.
Lemma prod3_pos a b c : 0 < a -> 0 < b -> 0 < c -> 0 < a * b * c.
Proof. intros. apply Rmult_lt_0_compat; auto. apply Rmult_lt_0_compat; auto. Qed.
Lemma prod_pos a b : 0 < a -> 0 < b -> 0 < a * b.
Proof. intros. apply Rmult_lt_0_compat; auto. Qed.
Lemma div_pos a b : 0 < a -> 0 < b -> 0 < a / b.
Proof. intros. apply Rdiv_lt_0_compat; auto. Qed.
Lemma div_neg a b : a < 0 -> 0 < b -> a / b < 0.
Proof. intros. unfold Rdiv. assert (0 < / b) by (apply Rinv_0_lt_compat; auto). nra. Qed.
Lemma pos_nz a : 0 < a -> a <> 0. Proof. lra. Qed.
Lemma nz_mul a b : a <> 0 -> b <> 0 -> a * b <> 0.
Proof. apply Rmult_integral_contrapositive_currified. Qed.

Lemma vunit_flat a b : 
  (a * a + b * b <> 0 ->
   vunit (V3 a b 0) = Ok (V3 (a / sqrt (a * a + b * b)) (b / sqrt (a * a + b * b)) 0))
  /\ (a * a + b * b = 0 -> vunit (V3 a b 0) = NonFin).
Proof.
  unfold vunit, vr. cbn [vx vy vz].
  replace (a * a + b * b + 0 * 0) with (a * a + b * b) by ring.
  split; intros H.
  - assert (0 < sqrt (a * a + b * b)) by (apply sqrt_lt_R0; nra).
    rewrite !rdiv_ok by lra. cbn [bind]. f_equal. f_equal. field. lra.
  - rewrite H, sqrt_0, rdiv_zero. reflexivity.
Qed.

Lemma vr_flat a b : vr (V3 a b 0) = sqrt (a * a + b * b).
Proof. unfold vr; cbn [vx vy vz]. f_equal. ring. Qed.

Section Start.
Variables (x1 x2 x3 : vec3) (tp : trackParameters) (backward : bool).
Let ax := vx x2 - vx x1.
Let ay := vy x2 - vy x1.
Let bx := vx x3 - vx x1.
Let by' := vy x3 - vy x1.
Let cr := ax * by' - ay * bx.
Let AA := ax * ax + ay * ay.
Let BB := bx * bx + by' * by'.
Let AB := ax * bx + ay * by'.
Let CC := AA + BB - 2 * AB.
Let m12 := sqrt AA.
Let m13 := sqrt BB.
Let m23 := sqrt CC.

Lemma turn_cr : turn x1 x2 x3 = cr.
Proof. reflexivity. Qed.

Lemma gram : AA * BB = AB * AB + cr * cr.
Proof. unfold AA, BB, AB, cr. ring. Qed.
Lemma gram2 : BB * CC = (BB - AB) * (BB - AB) + cr * cr.
Proof. unfold CC, AA, BB, AB, cr. ring. Qed.
Lemma gram3 : AA * CC = (AA - AB) * (AA - AB) + cr * cr.
Proof. unfold CC, AA, BB, AB, cr. ring. Qed.

Lemma CC_eq : (vx x3 - vx x2) * (vx x3 - vx x2) + (vy x3 - vy x2) * (vy x3 - vy x2) = CC.
Proof. unfold CC, AA, BB, AB, ax, ay, bx, by'. ring. Qed.

Lemma CC_pos : 0 <= CC.
Proof. rewrite <- CC_eq. apply ssq_nn. Qed.

(** collinear or coinciding projections *)
Lemma start_degenerate : turn x1 x2 x3 = 0 ->
  calculateStartHelix x1 x2 x3 tp backward = NonFin.
Proof.
  rewrite turn_cr. intros Z. unfold calculateStartHelix, vsub. cbv zeta. cbn [vx vy vz].
  fold ax ay bx by'.
  destruct (Req_dec AA 0) as [A0|A0].
  { rewrite (proj2 (vunit_flat ax ay) A0). reflexivity. }
  rewrite (proj1 (vunit_flat ax ay) A0). cbn [bind].
  destruct (Req_dec BB 0) as [B0|B0].
  { rewrite (proj2 (vunit_flat bx by') B0). reflexivity. }
  rewrite (proj1 (vunit_flat bx by') B0). cbn [bind].
  destruct (Req_dec CC 0) as [C0|C0].
  { rewrite (proj2 (vunit_flat (vx x3 - vx x2) (vy x3 - vy x2))); [reflexivity|]. rewrite CC_eq. auto. }
  rewrite (proj1 (vunit_flat (vx x3 - vx x2) (vy x3 - vy x2))) by (rewrite CC_eq; auto). cbn [bind].
  rewrite !vr_flat.
  assert (P12 : 0 < sqrt (ax * ax + ay * ay)) by (apply ssq_pos; exact A0).
  assert (P13 : 0 < sqrt (bx * bx + by' * by')) by (apply ssq_pos; exact B0).
  rewrite (rdiv_ok (sqrt (bx * bx + by' * by'))) by lra. cbn [bind].
  rewrite rdiv_ok by lra. cbn [bind]. rewrite rdiv_ok by lra. cbn [bind].
  match goal with |- context [rdiv _ (vz (vcross ?a ?b))] => replace (vz (vcross a b)) with 0 end.
  { rewrite rdiv_zero. reflexivity. }
  unfold vcross; cbn [vx vy vz].
  transitivity (cr / (sqrt (ax * ax + ay * ay) * sqrt (bx * bx + by' * by'))).
  - rewrite Z. unfold Rdiv. ring.
  - unfold cr. field. lra.
Qed.

Section NonDeg.
Hypothesis Hcr : cr <> 0.

Lemma AA_pos : 0 < AA.
Proof. apply (gram_l _ _ _ _ gram Hcr). apply ssq_nn. Qed.
Lemma BB_pos : 0 < BB.
Proof. apply (gram_l _ _ _ _ gram2 Hcr). apply ssq_nn. Qed.
Lemma CC_pos' : 0 < CC.
Proof. assert (G := gram3). rewrite Rmult_comm in G. apply (gram_l _ _ _ _ G Hcr). exact CC_pos. Qed.

Lemma m12_pos : 0 < m12. Proof. apply sqrt_lt_R0, AA_pos. Qed.
Lemma m13_pos : 0 < m13. Proof. apply sqrt_lt_R0, BB_pos. Qed.
Lemma m23_pos : 0 < m23. Proof. apply sqrt_lt_R0, CC_pos'. Qed.
Lemma m12_sq : m12 * m12 = AA. Proof. apply sqrt_sqrt, Rlt_le, AA_pos. Qed.
Lemma m13_sq : m13 * m13 = BB. Proof. apply sqrt_sqrt, Rlt_le, BB_pos. Qed.
Lemma m23_sq : m23 * m23 = CC. Proof. apply sqrt_sqrt, Rlt_le, CC_pos'. Qed.

Let sa := cr / (m12 * m13).
Let ca := AB / (m12 * m13).
Let al := atan2 sa ca.
Let sg := cr / (m13 * m23).
Let cg := (BB - AB) / (m13 * m23).
Let ga := atan2 sg cg.
Let r0 := - (1 / 2) * m23 / sa.
Let r := if backward then - r0 else r0.

Lemma unit_a : ca * ca + sa * sa = 1.
Proof.
  unfold ca, sa. assert (G := gram). assert (A := m12_pos). assert (B := m13_pos).
  transitivity ((AB * AB + cr * cr) / ((m12 * m12) * (m13 * m13))); [field; lra|].
  rewrite <- G, m12_sq, m13_sq. field. generalize AA_pos BB_pos. lra.
Qed.
Lemma unit_g : cg * cg + sg * sg = 1.
Proof.
  unfold cg, sg. assert (G := gram2). assert (A := m23_pos). assert (B := m13_pos).
  transitivity (((BB - AB) * (BB - AB) + cr * cr) / ((m13 * m13) * (m23 * m23))); [field; lra|].
  rewrite <- G, m23_sq, m13_sq. field. generalize CC_pos' BB_pos. lra.
Qed.

Lemma cs_al : cos al = ca /\ sin al = sa.
Proof.
  assert (C := atan2_cos sa ca). assert (S := atan2_sin sa ca). rewrite unit_a, sqrt_1 in C, S.
  fold al in C, S. split; lra.
Qed.
Lemma cs_ga : cos ga = cg /\ sin ga = sg.
Proof.
  assert (C := atan2_cos sg cg). assert (S := atan2_sin sg cg). rewrite unit_g, sqrt_1 in C, S.
  fold ga in C, S. split; lra.
Qed.

Lemma sa_nz : sa <> 0.
Proof.
  unfold sa. intros E. apply Hcr. assert (A := m12_pos). assert (B := m13_pos).
  replace cr with (cr / (m12 * m13) * (m12 * m13)) by (field; lra). rewrite E. ring.
Qed.

Lemma r0_nz : r0 <> 0.
Proof.
  unfold r0. assert (A := m23_pos). assert (B := sa_nz). intros E.
  assert (m23 = - 2 * sa * (- (1 / 2) * m23 / sa)) by (field; auto). rewrite E in H. lra.
Qed.
Lemma r_nz : r <> 0.
Proof. unfold r. assert (A := r0_nz). destruct backward; lra. Qed.

Lemma cos_code :
  1 / 2 * (m13 / m12 + (1 - m23 / m12) * (m12 + m23) / m13) = ca.
Proof.
  unfold ca. assert (A := m12_pos). assert (B := m13_pos).
  transitivity ((m13 * m13 + m12 * m12 - m23 * m23) / (2 * m12 * m13)); [field; lra|].
  rewrite m13_sq, m12_sq, m23_sq. unfold CC. field. lra.
Qed.

Let xc := vx x1 + ((ax + bx) / 2 - AB / (2 * cr) * (by' - ay)).
Let yc := vy x1 + ((ay + by') / 2 + AB / (2 * cr) * (bx - ax)).

Lemma start_value : 
  calculateStartHelix x1 x2 x3 tp backward =
  Ok (TP (tp_cov tp)
        (mk5 (1 / r) ((vz x2 - vz x3) / (r * 2 * al))
             (atan2 (r * (yc - vy x1)) (r * (xc - vx x1)) + PI / 2) 0 0) x1).
Proof.
  assert (P12 := m12_pos). assert (P13 := m13_pos). assert (P23 := m23_pos).
  assert (Nal : al <> 0).
  { intros E. destruct cs_al as [_ S]. rewrite E, sin_0 in S. apply sa_nz. auto. }
  assert (Nr := r_nz).
  unfold calculateStartHelix. cbv zeta. unfold vsub. cbn [vx vy vz].
  fold ax ay bx by'.
  rewrite (proj1 (vunit_flat ax ay)) by (generalize AA_pos; unfold AA; lra). cbn [bind].
  rewrite (proj1 (vunit_flat bx by')) by (generalize BB_pos; unfold BB; lra). cbn [bind].
  rewrite (proj1 (vunit_flat (vx x3 - vx x2) (vy x3 - vy x2)))
    by (rewrite CC_eq; generalize CC_pos'; lra). cbn [bind].
  rewrite !vr_flat. rewrite CC_eq. change (ax * ax + ay * ay) with AA. change (bx * bx + by' * by') with BB.
  fold m12 m13 m23.
  rewrite (rdiv_ok m13 m12) by lra. cbn [bind].
  rewrite (rdiv_ok m23 m12) by lra. cbn [bind].
  rewrite (rdiv_ok _ m13) by lra. cbn [bind].
  rewrite cos_code.
  assert (Es : vz (vcross (V3 (ax / m12) (ay / m12) 0) (V3 (bx / m13) (by' / m13) 0)) = sa).
  { unfold vcross, sa, cr; cbn [vx vy vz]. field. lra. }
  rewrite Es. rewrite (rdiv_ok _ sa) by exact sa_nz. cbn [bind]. fold r0. fold al. fold r.
  rewrite (rdiv_ok 1 r) by auto. cbn [bind].
  rewrite (rdiv_ok _ (r * 2 * al)).
  2:{ repeat apply nz_mul; auto; lra. }
  cbn [bind].
  assert (K : r0 * ca / m23 = - (AB / (2 * cr))).
  { unfold r0, ca, sa. field. lra. }
  assert (Ex : vx (vadd (vscale (1 / 2) (vadd x2 x3))
       (vscale (r0 * ca) (vcross (V3 ((vx x3 - vx x2) / m23) ((vy x3 - vy x2) / m23) 0) (V3 0 0 1)))) = xc).
  { unfold vadd, vscale, vcross; cbn [vx vy vz].
    transitivity (1 / 2 * (vx x2 + vx x3) + r0 * ca / m23 * (vy x3 - vy x2)); [field; lra|].
    rewrite K. unfold xc, ax, bx, by', ay. field. fold ax ay bx by'. fold cr. auto. }
  assert (Ey : vy (vadd (vscale (1 / 2) (vadd x2 x3))
       (vscale (r0 * ca) (vcross (V3 ((vx x3 - vx x2) / m23) ((vy x3 - vy x2) / m23) 0) (V3 0 0 1)))) = yc).
  { unfold vadd, vscale, vcross; cbn [vx vy vz].
    transitivity (1 / 2 * (vy x2 + vy x3) - r0 * ca / m23 * (vx x3 - vx x2)); [field; lra|].
    rewrite K. unfold yc, ax, bx, by', ay. field. auto. }
  rewrite Ex, Ey. reflexivity.
Qed.

(** squared radius *)
Lemma radius_sq : (xc - vx x1) * (xc - vx x1) + (yc - vy x1) * (yc - vy x1) = r * r.
Proof.
  assert (P12 := m12_pos). assert (P13 := m13_pos). assert (P23 := m23_pos).
  transitivity (r0 * r0); [|unfold r; destruct backward; ring].
  transitivity (AA * BB * CC / (4 * (cr * cr))).
  - unfold xc, yc.
    replace (AA * BB) with (AB * AB + cr * cr) by (symmetry; apply gram).
    unfold CC, AA, BB, AB. unfold cr in *. field. auto.
  - unfold r0, sa.
    transitivity ((m12 * m12) * (m13 * m13) * (m23 * m23) / (4 * (cr * cr))).
    + rewrite m12_sq, m13_sq, m23_sq. reflexivity.
    + field. lra.
Qed.

Let ph := atan2 (r * (yc - vy x1)) (r * (xc - vx x1)) + PI / 2.

Lemma phi_dir : r * sin ph = xc - vx x1 /\ r * cos ph = - (yc - vy x1).
Proof.
  assert (Nr := r_nz).
  set (X := xc - vx x1) in *. set (Y := yc - vy x1) in *.
  assert (R2 : X * X + Y * Y = r * r) by exact radius_sq.
  assert (C := atan2_cos (r * Y) (r * X)). assert (S := atan2_sin (r * Y) (r * X)).
  replace (r * X * (r * X) + r * Y * (r * Y)) with ((r * r) * (r * r)) in C, S
    by (rewrite <- R2 at 1; ring).
  rewrite sqrt_square in C, S by nra.
  unfold ph. fold X Y. rewrite sin_plus, cos_plus, sin_PI2, cos_PI2.
  set (c := cos (atan2 (r * Y) (r * X))) in *. set (s := sin (atan2 (r * Y) (r * X))) in *.
  split; apply Rmult_eq_reg_l with r; auto; lra.
Qed.

Lemma ph_range : - (PI / 2) < ph <= 3 * (PI / 2).
Proof. unfold ph. generalize (atan2_range (r * (yc - vy x1)) (r * (xc - vx x1))). lra. Qed.

(** sum of the angles *)
Lemma cs_sum : sin (ga + al) = cr / (m12 * m23) /\ cos (ga + al) = (AB - AA) / (m12 * m23).
Proof.
  assert (P12 := m12_pos). assert (P13 := m13_pos). assert (P23 := m23_pos).
  destruct cs_al as [Ca Sa]. destruct cs_ga as [Cg Sg]. assert (Q := m13_sq).
  rewrite sin_plus, cos_plus, Ca, Sa, Cg, Sg. unfold ca, sa, cg, sg. split.
  - transitivity (cr * BB / (m12 * (m13 * m13) * m23)); [field; lra|]. rewrite Q. field.
    generalize BB_pos; lra.
  - assert (G := gram).
    transitivity ((BB * AB - (AB * AB + cr * cr)) / (m12 * (m13 * m13) * m23)); [field; lra|].
    rewrite <- G, Q. field. generalize BB_pos; lra.
Qed.

Lemma angle_signs :
  (0 < cr -> 0 < ga /\ 0 < al /\ ga + al < PI) /\ (cr < 0 -> ga < 0 /\ al < 0 /\ - PI < ga + al).
Proof.
  assert (P12 := m12_pos). assert (P13 := m13_pos). assert (P23 := m23_pos).
  assert (Ra := atan2_range sa ca). fold al in Ra. assert (Rg := atan2_range sg cg). fold ga in Rg.
  destruct cs_al as [_ Sa]. destruct cs_ga as [_ Sg]. destruct cs_sum as [Ss _].
  assert (I1 : 0 < / (m12 * m13)) by (apply Rinv_0_lt_compat; nra).
  assert (I2 : 0 < / (m13 * m23)) by (apply Rinv_0_lt_compat; nra).
  assert (I3 : 0 < / (m12 * m23)) by (apply Rinv_0_lt_compat; nra).
  assert (Pos : forall t, - PI < t <= PI -> 0 < sin t -> 0 < t).
  { intros t Ht H. destruct (Rlt_dec 0 t); auto. exfalso.
    assert (0 <= sin (- t)) by (apply sin_ge_0; lra). rewrite sin_neg in H0. lra. }
  assert (Neg : forall t, - PI < t <= PI -> sin t < 0 -> t < 0).
  { intros t Ht H. destruct (Rlt_dec t 0); auto. exfalso.
    assert (0 <= sin t) by (apply sin_ge_0; lra). lra. }
  split; intros H.
  - assert (0 < sa) by (unfold sa, Rdiv; nra). assert (0 < sg) by (unfold sg, Rdiv; nra).
    assert (A : 0 < al) by (apply Pos; auto; lra). assert (B : 0 < ga) by (apply Pos; auto; lra).
    split; auto. split; auto. destruct (Rlt_dec (ga + al) PI); auto. exfalso.
    assert (0 < sin (ga + al)) by (rewrite Ss; unfold Rdiv; nra).
    assert (0 <= sin (ga + al - PI)) by (apply sin_ge_0; lra).
    rewrite sin_minus, cos_PI, sin_PI in H3. lra.
  - assert (sa < 0) by (unfold sa, Rdiv; nra). assert (sg < 0) by (unfold sg, Rdiv; nra).
    assert (A : al < 0) by (apply Neg; auto; lra). assert (B : ga < 0) by (apply Neg; auto; lra).
    split; auto. split; auto. destruct (Rlt_dec (- PI) (ga + al)); auto. exfalso.
    assert (Ta : al <> - PI) by lra. 
    assert (sin (ga + al) < 0) by (rewrite Ss; unfold Rdiv; nra).
    assert (0 <= sin (- (ga + al) - PI)) by (apply sin_ge_0; lra).
    rewrite sin_minus, cos_PI, sin_PI, sin_neg in H3. lra.
Qed.

Let hp := mk5 (1 / r) ((vz x2 - vz x3) / (r * 2 * al)) ph 0 0.

Lemma hp_om : hp OMEGA = 1 / r. Proof. reflexivity. Qed.

Lemma curve_at t : vx (hcurve hp x1 (- (2 * r * t))) = vx x1 + ((xc - vx x1) * (1 - cos (2 * t)) + (yc - vy x1) * sin (2 * t))
  /\ vy (hcurve hp x1 (- (2 * r * t))) = vy x1 + ((yc - vy x1) * (1 - cos (2 * t)) - (xc - vx x1) * sin (2 * t)).
Proof.
  assert (Nr := r_nz). destruct phi_dir as [S C].
  unfold hcurve. cbn [vx vy].
  change (hp PHI0) with ph. change (hp OMEGA) with (1 / r). change (hp D0) with 0.
  replace (ph - - (2 * r * t) * (1 / r)) with (ph + 2 * t) by (field; auto).
  replace (1 / (1 / r)) with r by (field; auto).
  rewrite sin_plus, cos_plus. rewrite <- S. replace (yc - vy x1) with (- (r * cos ph)) by lra.
  split; ring.
Qed.

Lemma passes_2 : vx (hcurve hp x1 (- (2 * r * ga))) = vx x2 /\ vy (hcurve hp x1 (- (2 * r * ga))) = vy x2.
Proof.
  assert (P12 := m12_pos). assert (P13 := m13_pos). assert (P23 := m23_pos).
  destruct (curve_at ga) as [-> ->]. destruct cs_ga as [Cg Sg].
  rewrite cos_2a_sin, sin_2a, Cg, Sg.
  assert (K1 : 1 - (1 - 2 * sg * sg) = 2 * (cr * cr) / (BB * CC)).
  { unfold sg. transitivity (2 * (cr * cr) / ((m13 * m13) * (m23 * m23))); [field; lra|]. rewrite m13_sq, m23_sq. reflexivity. }
  assert (K2 : 2 * sg * cg = 2 * cr * (BB - AB) / (BB * CC)).
  { unfold sg, cg. transitivity (2 * cr * (BB - AB) / ((m13 * m13) * (m23 * m23))); [field; lra|]. rewrite m13_sq, m23_sq. reflexivity. }
  rewrite K1, K2. assert (BP := BB_pos). assert (CP := CC_pos').
  assert (N : BB * CC <> 0) by nra.
  split; [apply Rplus_eq_reg_l with (- vx x1); transitivity ax; [|unfold ax; ring]
         |apply Rplus_eq_reg_l with (- vy x1); transitivity ay; [|unfold ay; ring]].
  - transitivity ((2 * cr * (cr * (xc - vx x1) + (BB - AB) * (yc - vy x1))) / (BB * CC)); [field; lra|].
    apply Rmult_eq_reg_r with (BB * CC); auto.
    transitivity (2 * cr * (cr * (xc - vx x1) + (BB - AB) * (yc - vy x1))); [field; lra|].
    unfold xc, yc. rewrite gram2.
    transitivity (cr * cr * (ax + bx) - AB * (by' - ay) * cr
       + (BB - AB) * (cr * (ay + by') + AB * (bx - ax))); [field; auto|].
    unfold BB, AB, cr. ring.
  - transitivity ((2 * cr * (cr * (yc - vy x1) - (BB - AB) * (xc - vx x1))) / (BB * CC)); [field; lra|].
    apply Rmult_eq_reg_r with (BB * CC); auto.
    transitivity (2 * cr * (cr * (yc - vy x1) - (BB - AB) * (xc - vx x1))); [field; lra|].
    unfold xc, yc. rewrite gram2.
    transitivity (cr * cr * (ay + by') + AB * (bx - ax) * cr
       - (BB - AB) * (cr * (ax + bx) - AB * (by' - ay))); [field; auto|].
    unfold BB, AB, cr. ring.
Qed.

Lemma passes_3 : vx (hcurve hp x1 (- (2 * r * (ga + al)))) = vx x3
  /\ vy (hcurve hp x1 (- (2 * r * (ga + al)))) = vy x3.
Proof.
  assert (P12 := m12_pos). assert (P13 := m13_pos). assert (P23 := m23_pos).
  destruct (curve_at (ga + al)) as [-> ->]. destruct cs_sum as [Sg Cg].
  rewrite cos_2a_sin, sin_2a, Cg, Sg.
  assert (K1 : 1 - (1 - 2 * (cr / (m12 * m23)) * (cr / (m12 * m23))) = 2 * (cr * cr) / (AA * CC)).
  { transitivity (2 * (cr * cr) / ((m12 * m12) * (m23 * m23))); [field; lra|]. rewrite m12_sq, m23_sq. reflexivity. }
  assert (K2 : 2 * (cr / (m12 * m23)) * ((AB - AA) / (m12 * m23)) = 2 * cr * (AB - AA) / (AA * CC)).
  { transitivity (2 * cr * (AB - AA) / ((m12 * m12) * (m23 * m23))); [field; lra|]. rewrite m12_sq, m23_sq. reflexivity. }
  rewrite K1, K2. assert (BP := AA_pos). assert (CP := CC_pos').
  assert (N : AA * CC <> 0) by nra.
  split; [apply Rplus_eq_reg_l with (- vx x1); transitivity bx; [|unfold bx; ring]
         |apply Rplus_eq_reg_l with (- vy x1); transitivity by'; [|unfold by'; ring]].
  - transitivity ((2 * cr * (cr * (xc - vx x1) + (AB - AA) * (yc - vy x1))) / (AA * CC)); [field; lra|].
    apply Rmult_eq_reg_r with (AA * CC); auto.
    transitivity (2 * cr * (cr * (xc - vx x1) + (AB - AA) * (yc - vy x1))); [field; lra|].
    unfold xc, yc. rewrite gram3.
    transitivity (cr * cr * (ax + bx) - AB * (by' - ay) * cr
       + (AB - AA) * (cr * (ay + by') + AB * (bx - ax))); [field; auto|].
    unfold AA, AB, cr. ring.
  - transitivity ((2 * cr * (cr * (yc - vy x1) - (AB - AA) * (xc - vx x1))) / (AA * CC)); [field; lra|].
    apply Rmult_eq_reg_r with (AA * CC); auto.
    transitivity (2 * cr * (cr * (yc - vy x1) - (AB - AA) * (xc - vx x1))); [field; lra|].
    unfold xc, yc. rewrite gram3.
    transitivity (cr * cr * (ay + by') + AB * (bx - ax) * cr
       - (AB - AA) * (cr * (ax + bx) - AB * (by' - ay))); [field; auto|].
    unfold AA, AB, cr. ring.
Qed.

Lemma r_sign : 0 < - (2 * (if backward then - r else r)) * cr.
Proof.
  assert (P12 := m12_pos). assert (P13 := m13_pos). assert (P23 := m23_pos).
  replace (if backward then - r else r) with r0 by (unfold r; destruct backward; ring).
  unfold r0, sa.
  replace (- (2 * (- (1 / 2) * m23 / (cr / (m12 * m13)))) * cr) with (m12 * m13 * m23) by (field; lra).
  apply Rmult_lt_0_compat; auto. apply Rmult_lt_0_compat; auto.
Qed.
End NonDeg.
End Start.

(** * The theorem *)
Lemma start_through_points x1 x2 x3 tp backward : turn x1 x2 x3 <> 0 ->
  exists hp, calculateStartHelix x1 x2 x3 tp backward = Ok (TP (tp_cov tp) hp x1)
  /\ hp OMEGA <> 0 /\ hp D0 = 0 /\ hp Z0 = 0
  /\ - (PI / 2) < hp PHI0 <= 3 * (PI / 2)
  /\ (if backward then 0 < hp OMEGA * turn x1 x2 x3 else hp OMEGA * turn x1 x2 x3 < 0)
  /\ forall f, is_helix hp x1 f ->
     f 0 = x1
     /\ exists s2 s3,
          (if backward then - (2 * PI / Rabs (hp OMEGA)) < s3 /\ s3 < s2 < 0
           else 0 < s2 < s3 /\ s3 < 2 * PI / Rabs (hp OMEGA))
          /\ vx (f s2) = vx x2 /\ vy (f s2) = vy x2
          /\ vx (f s3) = vx x3 /\ vy (f s3) = vy x3
          /\ vz (f s3) - vz (f s2) = vz x3 - vz x2.
Proof.
  intros H.
  pose proof (start_value x1 x2 x3 tp backward H) as V.
  pose proof (passes_2 x1 x2 x3 backward H) as P2.
  pose proof (passes_3 x1 x2 x3 backward H) as P3.
  pose proof (r_nz x1 x2 x3 backward H) as Nr.
  pose proof (r_sign x1 x2 x3 backward H) as Sr.
  pose proof (ph_range x1 x2 x3 backward) as Rp.
  pose proof (angle_signs x1 x2 x3 H) as As.
  change (turn x1 x2 x3) with ((vx x2 - vx x1) * (vy x3 - vy x1) - (vy x2 - vy x1) * (vx x3 - vx x1)) in *.
  cbv zeta in *.
  set (C := (vx x2 - vx x1) * (vy x3 - vy x1) - (vy x2 - vy x1) * (vx x3 - vx x1)) in *.
  match type of V with _ = Ok (TP _ (mk5 (1 / ?r) _ _ 0 0) _) => set (r1 := r) in * end.
  match type of V with _ = Ok (TP _ (mk5 _ (_ / (_ * 2 * ?al)) _ 0 0) _) => set (al1 := al) in * end.
  match type of V with _ = Ok (TP _ (mk5 _ _ ?ph 0 0) _) => set (ph1 := ph) in * end.
  match type of P2 with context [hcurve _ _ (- (2 * r1 * ?ga))] => set (ga1 := ga) in * end.
  clearbody r1 al1 ph1 ga1 C.
  assert (Ir : (1 / r1) * r1 = 1) by (field; auto).
  assert (Iab : 2 * PI / Rabs (1 / r1) = 2 * PI * Rabs r1).
  { unfold Rdiv at 2. rewrite Rmult_1_l, Rabs_inv. field. apply Rabs_no_R0; auto. }
  exists (mk5 (1 / r1) ((vz x2 - vz x3) / (r1 * 2 * al1)) ph1 0 0).
  assert (HO : mk5 (1 / r1) ((vz x2 - vz x3) / (r1 * 2 * al1)) ph1 0 0 OMEGA <> 0).
  { cbn. apply Rmult_integral_contrapositive_currified; [lra | apply Rinv_neq_0_compat; auto]. }
  split; [exact V|]. split; [exact HO|]. split; [reflexivity|]. split; [reflexivity|].
  split; [exact Rp|].
  assert (SS : (if backward then 0 < r1 * C else r1 * C < 0)) by (destruct backward; lra).
  clear Sr.
  assert (Nal : al1 <> 0).
  { destruct (Rtotal_order C 0) as [L|[L|L]]; [|contradiction|]; destruct As as [A B];
      [specialize (B L)|specialize (A L)]; lra. }
  split.
  { cbn. assert (Q : 1 / r1 * C = (r1 * C) * (/ r1 * / r1)) by (field; auto).
    assert (0 < / r1 * / r1) by (assert (Z := Rinv_neq_0_compat _ Nr); nra).
    rewrite Q. destruct backward; nra. }
  intros f Hf.
  assert (E := helix_is_hcurve _ _ _ HO Hf).
  split.
  { rewrite E. unfold hcurve. change (mk5 (1 / r1) ((vz x2 - vz x3) / (r1 * 2 * al1)) ph1 0 0 D0) with 0.
    change (mk5 (1 / r1) ((vz x2 - vz x3) / (r1 * 2 * al1)) ph1 0 0 Z0) with 0.
    destruct x1 as [a b c]; cbn [vx vy vz]. rewrite !Rmult_0_l, !Rminus_0_r. f_equal; ring. }
  exists (- (2 * r1 * ga1)), (- (2 * r1 * (ga1 + al1))). rewrite !E.
  destruct P2 as [P2x P2y], P3 as [P3x P3y].
  split; [|repeat split; auto].
  - change (mk5 (1 / r1) ((vz x2 - vz x3) / (r1 * 2 * al1)) ph1 0 0 OMEGA) with (1 / r1). rewrite Iab.
    destruct As as [Ap An].
    destruct (Rtotal_order C 0) as [L|[L|L]]; [specialize (An L); clear Ap|contradiction|specialize (Ap L); clear An].
    + destruct backward.
      * assert (r1 < 0) by nra. rewrite Rabs_left by auto. repeat split; nra.
      * assert (0 < r1) by nra. rewrite Rabs_right by lra. repeat split; nra.
    + destruct backward.
      * assert (0 < r1) by nra. rewrite Rabs_right by lra. repeat split; nra.
      * assert (r1 < 0) by nra. rewrite Rabs_left by auto. repeat split; nra.
  - unfold hcurve. cbn [vz]. change (mk5 (1 / r1) ((vz x2 - vz x3) / (r1 * 2 * al1)) ph1 0 0 TANL) with ((vz x2 - vz x3) / (r1 * 2 * al1)).
    field. auto.
Qed.
