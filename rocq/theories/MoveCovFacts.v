(** Proofs about the covariance update of moveHelixTo (C10). *)
From Coq Require Import Reals Lra Lia ZArith Psatz List FunctionalExtensionality.
From Coquelicot Require Import Coquelicot.
From Verif Require Import Num NumFacts Vec Helix SpecHelix HelixFacts PathFacts MoveFacts SpecMat.
Open Scope R_scope.

(** ** congruence preserves symmetry and positivity *)
Lemma congr_sym F C : msym C -> msym (m5mul (m5mul F C) (m5transpose F)).
Proof.
  intros H i j. unfold m5mul, m5transpose, sum5.
  rewrite (H I1 I0), (H I2 I0), (H I3 I0), (H I4 I0), (H I2 I1), (H I3 I1), (H I4 I1),
    (H I3 I2), (H I4 I2), (H I4 I3). ring.
Qed.

Lemma congr_quad F C v :
  quad (m5mul (m5mul F C) (m5transpose F)) v = quad C (m5mulv (m5transpose F) v).
Proof. unfold quad, m5mul, m5mulv, m5transpose, sum5. ring. Qed.

Lemma congr_psd F C : mpsd C -> mpsd (m5mul (m5mul F C) (m5transpose F)).
Proof. intros H v. rewrite congr_quad. apply H. Qed.

(** ** half-angle form of an angle *)
Lemma one_plus_cos_pos x : - PI < x < PI -> 0 < 1 + cos x.
Proof.
  intros H. replace x with (2 * (x / 2)) by field. rewrite cos_2a_cos.
  assert (0 < cos (x / 2)) by (apply cos_gt_0; lra). nra.
Qed.

Lemma half_angle x : - PI < x < PI -> x = 2 * atan (sin x / (1 + cos x)).
Proof.
  intros H. assert (Hc : 0 < cos (x / 2)) by (apply cos_gt_0; lra).
  replace (sin x / (1 + cos x)) with (tan (x / 2)).
  - rewrite atan_tan by lra. field.
  - replace x with (2 * (x / 2)) at 2 3 by field.
    rewrite cos_2a_cos, sin_2a. unfold tan. field.
    split; nra.
Qed.

Lemma half_angle' x : - PI <= x <= PI -> 0 < 1 + cos x -> x = 2 * atan (sin x / (1 + cos x)).
Proof.
  intros H Hc. apply half_angle.
  split.
  - destruct H as [[H|H] _]; auto. rewrite <- H, cos_neg, cos_PI in Hc. lra.
  - destruct H as [_ [H|H]]; auto. rewrite H, cos_PI in Hc. lra.
Qed.

Lemma derive_half_angle (C S : R -> R) (c s dc ds : R) :
  is_derive C 0 dc -> is_derive S 0 ds -> C 0 = c -> S 0 = s -> c * c + s * s = 1 ->
  c * dc + s * ds = 0 -> 0 < 1 + c ->
  is_derive (fun t => 2 * atan (S t / (1 + C t))) 0 (c * ds - s * dc).
Proof.
  intros HC HS EC ES E1 E2 Hp.
  assert (DC := is_derive_unique _ _ _ HC). assert (DS := is_derive_unique _ _ _ HS).
  auto_derive.
  - rewrite EC. repeat split; try (eexists; eassumption). lra.
  - change (Derive (fun x : R => S x) 0) with (Derive S 0).
    change (Derive (fun x : R => C x) 0) with (Derive C 0).
    rewrite DC, DS, EC, ES.
    assert (N1 : 1 + c <> 0) by lra.
    assert (Q : (1 + c) * (1 + c) + s * s = 2 * (1 + c)) by (ring_simplify; nra).
    replace (1 + s * / (1 + c) * (s * / (1 + c) * 1))
      with (2 * (1 + c) / ((1 + c) * (1 + c))) by (rewrite <- Q; field; auto).
    transitivity ((ds * (1 + c) - s * dc) / (1 + c)); [field; auto|].
    apply Rmult_eq_reg_r with (1 + c); auto.
    transitivity (ds * (1 + c) - s * dc); [field; auto|].
    transitivity (c * ds + ds * (c * c) - s * (c * dc) - s * dc); [|ring].
    replace (c * dc) with (- (s * ds)) by lra.
    transitivity (c * ds + ds * (c * c + s * s) - s * dc); [rewrite E1; ring | ring].
Qed.

(** normalised vector *)
Lemma derive_unit_x (X Y : R -> R) (k x y dx dy rho : R) :
  is_derive X 0 dx -> is_derive Y 0 dy -> X 0 = x -> Y 0 = y ->
  rho = sqrt (x * x + y * y) -> 0 < rho ->
  is_derive (fun t => k * X t / sqrt (X t * X t + Y t * Y t)) 0
    (- (k * y / rho) * ((x * dy - y * dx) / (rho * rho))).
Proof.
  intros HX HY EX EY Er Hr.
  assert (DX := is_derive_unique _ _ _ HX). assert (DY := is_derive_unique _ _ _ HY).
  assert (Hpos : 0 < x * x + y * y).
  { destruct (Rle_lt_dec (x * x + y * y) 0) as [L|L]; auto.
    rewrite Er in Hr. rewrite sqrt_neg_0 in Hr by auto. lra. }
  auto_derive.
  - rewrite EX, EY. repeat split; try (eexists; eassumption); try lra.
  - change (Derive (fun x : R => X x) 0) with (Derive X 0).
    change (Derive (fun x : R => Y x) 0) with (Derive Y 0).
    rewrite DX, DY, EX, EY, <- Er.
    assert (Q : rho * rho = x * x + y * y) by (rewrite Er; apply sqrt_sqrt; lra).
    match goal with |- ?l = ?r => transitivity ((k * (dx * (rho * rho) - x * (x * dx + y * dy))) / (rho * rho * rho)) end.
    + field. lra.
    + rewrite Q at 1. field. lra.
Qed.

Lemma derive_norm (X Y : R -> R) (x y dx dy rho : R) :
  is_derive X 0 dx -> is_derive Y 0 dy -> X 0 = x -> Y 0 = y ->
  rho = sqrt (x * x + y * y) -> 0 < rho ->
  is_derive (fun t => sqrt (X t * X t + Y t * Y t)) 0 ((x * dx + y * dy) / rho).
Proof.
  intros HX HY EX EY Er Hr.
  assert (DX := is_derive_unique _ _ _ HX). assert (DY := is_derive_unique _ _ _ HY).
  assert (Hpos : 0 < x * x + y * y).
  { destruct (Rle_lt_dec (x * x + y * y) 0) as [L|L]; auto.
    rewrite Er in Hr. rewrite sqrt_neg_0 in Hr by auto. lra. }
  auto_derive.
  - rewrite EX, EY. repeat split; try (eexists; eassumption); try lra.
  - change (Derive (fun x : R => X x) 0) with (Derive X 0).
    change (Derive (fun x : R => Y x) 0) with (Derive Y 0).
    rewrite DX, DY, EX, EY, <- Er. field. lra.
Qed.

Lemma derive_pos_locally (f : R -> R) l : is_derive f 0 l -> 0 < f 0 ->
  locally 0 (fun t => 0 < f t).
Proof.
  intros H Hp.
  assert (Cf := ex_derive_continuous f 0 (ex_intro _ l H)).
  apply (Cf (fun y => 0 < y)). apply (open_gt 0 (f 0)). exact Hp.
Qed.

Lemma derive_neq_locally (f : R -> R) l : is_derive f 0 l -> f 0 <> 0 ->
  locally 0 (fun t => f t <> 0).
Proof.
  intros H Hp.
  assert (Cf := ex_derive_continuous f 0 (ex_intro _ l H)).
  apply (Cf (fun y => y <> 0)). apply (open_neq 0 (f 0)). exact Hp.
Qed.

(** ** moved parameters as functions of the displacement *)
Definition mpar (C : mat5) (hp : vec5) (rp v : vec3) (i : idx) : R :=
  match moveHelixTo (TP C hp rp) v false with Ok (tp', _) => tp_par tp' i | _ => 0 end.
Definition mfid (C : mat5) (hp : vec5) (rp v : vec3) : R :=
  match moveHelixTo (TP C hp rp) v false with Ok (_, f) => f | _ => 0 end.

Lemma mpar_spec C hp rp v : hp OMEGA <> 0 ->
  moved_spec (TP C hp rp) v (mpar C hp rp v) (mfid C hp rp v).
Proof.
  intros H. destruct (move_ok (TP C hp rp) v H) as (p' & fid & E & M & _).
  unfold mpar, mfid. rewrite E. exact M.
Qed.

Section Deriv.
Variables (C : mat5) (hp : vec5) (rp v : vec3) (w : vec5).
Hypothesis Hom : hp OMEGA <> 0.
Hypothesis Hrho : 0 < crho hp rp v.

Let q (t : R) : vec5 := displaced hp w t.
Let s := sg (hp OMEGA).
Let rho := crho hp rp v.
Let X (t : R) := vx (centre (q t) rp) - vx v.
Let Y (t : R) := vy (centre (q t) rp) - vy v.
Let a := 1 / hp OMEGA - hp D0.
Let k := w OMEGA / (hp OMEGA * hp OMEGA) + w D0.
Let sp := sin (hp PHI0).
Let cp := cos (hp PHI0).
Let dX := - k * sp + a * cp * w PHI0.
Let dY := k * cp + a * sp * w PHI0.

Lemma q0 i : q 0 i = hp i.
Proof. unfold q, displaced. ring. Qed.

Lemma der_X : is_derive X 0 dX.
Proof.
  unfold X, centre, q, displaced; simpl. auto_derive.
  - replace (hp OMEGA + 0 * w OMEGA) with (hp OMEGA) by ring. auto.
  - replace (hp OMEGA + 0 * w OMEGA) with (hp OMEGA) by ring.
    replace (hp D0 + 0 * w D0) with (hp D0) by ring.
    replace (hp PHI0 + 0 * w PHI0) with (hp PHI0) by ring.
    fold sp cp. unfold dX, a, k. field. auto.
Qed.

Lemma der_Y : is_derive Y 0 dY.
Proof.
  unfold Y, centre, q, displaced; simpl. auto_derive.
  - replace (hp OMEGA + 0 * w OMEGA) with (hp OMEGA) by ring. auto.
  - replace (hp OMEGA + 0 * w OMEGA) with (hp OMEGA) by ring.
    replace (hp D0 + 0 * w D0) with (hp D0) by ring.
    replace (hp PHI0 + 0 * w PHI0) with (hp PHI0) by ring.
    fold sp cp. unfold dY, a, k. field. auto.
Qed.

Lemma centre_q0 : centre (q 0) rp = centre hp rp.
Proof. unfold centre. rewrite !q0. reflexivity. Qed.

Let x := vx (centre hp rp) - vx v.
Let y := vy (centre hp rp) - vy v.

Lemma X0' : X 0 = x. Proof. unfold X. rewrite centre_q0. reflexivity. Qed.
Lemma Y0' : Y 0 = y. Proof. unfold Y. rewrite centre_q0. reflexivity. Qed.
Lemma rho_eq : rho = sqrt (x * x + y * y). Proof. reflexivity. Qed.

Let cf (t : R) := s * X t / sqrt (X t * X t + Y t * Y t).
Let sf (t : R) := s * Y t / sqrt (X t * X t + Y t * Y t).
Let c0 := s * x / rho.
Let s0 := s * y / rho.
Let df := (x * dY - y * dX) / (rho * rho).

Lemma der_cf : is_derive cf 0 (- s0 * df).
Proof. apply derive_unit_x; auto using der_X, der_Y, X0', Y0', rho_eq. Qed.
Lemma der_sf : is_derive sf 0 (c0 * df).
Proof.
  apply is_derive_ext with (fun t => s * Y t / sqrt (Y t * Y t + X t * X t)).
  - intros t. unfold sf. rewrite Rplus_comm. reflexivity.
  - replace (c0 * df) with (- (s * x / rho) * ((y * dX - x * dY) / (rho * rho))).
    + apply derive_unit_x; auto using der_X, der_Y, X0', Y0'.
      rewrite Rplus_comm. apply rho_eq.
    + unfold c0, df. field. unfold rho; lra.
Qed.
Lemma cf0 : cf 0 = c0. Proof. unfold cf, c0. rewrite X0', Y0', <- rho_eq. reflexivity. Qed.
Lemma sf0 : sf 0 = s0. Proof. unfold sf, s0. rewrite X0', Y0', <- rho_eq. reflexivity. Qed.

Lemma rho2 : rho * rho = x * x + y * y.
Proof. rewrite rho_eq. apply sqrt_sqrt. nra. Qed.

Lemma cs0 : c0 * c0 + s0 * s0 = 1.
Proof.
  assert (Hs : s * s = 1) by apply sg_sq.
  assert (N : rho <> 0) by (unfold rho; lra).
  unfold c0, s0. transitivity (s * s * (x * x + y * y) / (rho * rho)); [field; auto|].
  rewrite Hs, <- rho2. field. auto.
Qed.

(** what holds near t = 0 *)
Lemma near_ok : locally 0 (fun t =>
  moved_spec (TP C (q t) rp) v (mpar C (q t) rp v) (mfid C (q t) rp v)
  /\ q t OMEGA <> 0 /\ sg (q t OMEGA) = s
  /\ cos (fi0p_raw (q t) rp v) = cf t /\ sin (fi0p_raw (q t) rp v) = sf t).
Proof.
  assert (L1 : locally 0 (fun t => 0 < hp OMEGA * q t OMEGA)).
  { apply derive_pos_locally with (hp OMEGA * w OMEGA).
    - unfold q, displaced. auto_derive; auto. ring.
    - rewrite q0. nra. }
  assert (L2 : locally 0 (fun t => 0 < sqrt (X t * X t + Y t * Y t))).
  { apply derive_pos_locally with ((x * dX + y * dY) / rho).
    - apply derive_norm; auto using der_X, der_Y, X0', Y0', rho_eq.
    - rewrite X0', Y0', <- rho_eq. exact Hrho. }
  generalize (filter_and _ _ L1 L2). apply filter_imp.
  intros t [H1 H2].
  assert (N : q t OMEGA <> 0) by (intros E; rewrite E in H1; lra).
  assert (S' : sg (q t OMEGA) = s).
  { unfold s, sg. destruct (Rlt_dec 0 (q t OMEGA)); destruct (Rlt_dec 0 (hp OMEGA)); auto; nra. }
  split; [apply mpar_spec; auto|]. split; [auto|]. split; [auto|].
  destruct (fi0p_raw_polar (q t) rp v) as [P1 P2]. rewrite S' in P1, P2.
  change (crho (q t) rp v) with (sqrt (X t * X t + Y t * Y t)) in P1, P2.
  unfold cf, sf. fold (X t) in P1. fold (Y t) in P2. rewrite <- P1, <- P2.
  split; field; lra.
Qed.

Let csfd := - s0 * cp + c0 * sp.
Let snfd := c0 * cp + s0 * sp.

Lemma sca : csfd * csfd + snfd * snfd = 1.
Proof.
  unfold csfd, snfd. transitivity ((c0 * c0 + s0 * s0) * (sp * sp + cp * cp)); [ring|].
  rewrite cs0. unfold sp, cp. rewrite sc1. ring.
Qed.

Lemma df_eq : df = s / rho * (k * snfd + a * w PHI0 * csfd).
Proof.
  assert (Hs : s * s = 1) by apply sg_sq.
  assert (N : rho <> 0) by (unfold rho; lra).
  assert (Ex : x = s * rho * c0).
  { unfold c0. transitivity (s * s * x); [rewrite Hs; ring | field; auto]. }
  assert (Ey : y = s * rho * s0).
  { unfold s0. transitivity (s * s * y); [rewrite Hs; ring | field; auto]. }
  unfold df. rewrite Ex, Ey. unfold dX, dY, snfd, csfd. field. auto.
Qed.

Lemma der_D0 : is_derive (fun t => mpar C (q t) rp v D0) 0
  (- (w OMEGA / (hp OMEGA * hp OMEGA)) * (1 - csfd) + csfd * w D0 - a * snfd * w PHI0).
Proof.
  apply is_derive_ext_loc with (fun t => 1 / q t OMEGA - s * sqrt (X t * X t + Y t * Y t)).
  - generalize near_ok. apply filter_imp. intros t (M & N & S' & _ & _).
    rewrite (ms_d0 _ _ _ _ M). simpl tp_par; simpl tp_ref. rewrite S'. reflexivity.
  - assert (Hs : s * s = 1) by apply sg_sq.
    assert (Nr : rho <> 0) by (unfold rho; lra).
    replace (- (w OMEGA / (hp OMEGA * hp OMEGA)) * (1 - csfd) + csfd * w D0 - a * snfd * w PHI0)
      with (minus (- w OMEGA / (hp OMEGA * hp OMEGA)) (s * ((x * dX + y * dY) / rho))).
    + apply @is_derive_minus.
      * unfold q, displaced. auto_derive.
        -- replace (hp OMEGA + 0 * w OMEGA) with (hp OMEGA) by ring. auto.
        -- replace (hp OMEGA + 0 * w OMEGA) with (hp OMEGA) by ring. field. auto.
      * apply is_derive_scal. apply derive_norm; auto using der_X, der_Y, X0', Y0', rho_eq.
    + unfold minus, plus, opp; simpl.
      replace (s * ((x * dX + y * dY) / rho)) with (c0 * dX + s0 * dY)
        by (unfold c0, s0; field; auto).
      unfold csfd, snfd, dX, dY, k. field. auto.
Qed.

Lemma der_PHI0 : Rabs (mpar C hp rp v PHI0) < PI ->
  is_derive (fun t => mpar C (q t) rp v PHI0) 0 df.
Proof.
  intros Hp.
  assert (M0 := mpar_spec C hp rp v Hom).
  assert (E0 : cos (mpar C hp rp v PHI0) = - s0).
  { generalize (locally_singleton _ _ near_ok). intros (M & _ & _ & _ & E).
    rewrite (ms_cos _ _ _ _ M0). simpl tp_par; simpl tp_ref.
    rewrite <- sf0, <- E. f_equal. unfold fi0p_raw. rewrite centre_q0, q0. reflexivity. }
  assert (Hc : 0 < 1 + - s0).
  { rewrite <- E0. apply one_plus_cos_pos. apply Rabs_def2 in Hp. lra. }
  apply is_derive_ext_loc with (fun t => 2 * atan (cf t / (1 + - sf t))).
  - assert (L : locally 0 (fun t => 0 < 1 + - sf t)).
    { apply derive_pos_locally with (0 + - (c0 * df)).
      - apply @is_derive_plus; [apply @is_derive_const | apply @is_derive_opp, der_sf].
      - rewrite sf0. exact Hc. }
    generalize (filter_and _ _ near_ok L). apply filter_imp.
    intros t [(M & N & S' & Ec & Es) Ht].
    assert (A := ms_cos _ _ _ _ M). assert (B := ms_sin _ _ _ _ M).
    simpl tp_par in A, B; simpl tp_ref in A, B. rewrite Es in A. rewrite Ec in B.
    rewrite <- A, <- B. symmetry. apply half_angle'; [apply (ms_phi_range _ _ _ _ M)|].
    rewrite A. auto.
  - replace df with (- s0 * (- s0 * df) - c0 * (- (c0 * df)))
      by (transitivity (df * (c0 * c0 + s0 * s0)); [ring | rewrite cs0; ring]).
    apply derive_half_angle with (C := fun t => - sf t) (S := cf).
    + apply @is_derive_opp, der_sf.
    + apply der_cf.
    + rewrite sf0. reflexivity.
    + apply cf0.
    + generalize cs0. intros E. lra.
    + ring.
    + exact Hc.
Qed.

Lemma cos_sin_fid t : moved_spec (TP C (q t) rp) v (mpar C (q t) rp v) (mfid C (q t) rp v) ->
  cos (mfid C (q t) rp v) = - sin (fi0p_raw (q t) rp v) * cos (q t PHI0)
                            + cos (fi0p_raw (q t) rp v) * sin (q t PHI0)
  /\ sin (mfid C (q t) rp v) = cos (fi0p_raw (q t) rp v) * cos (q t PHI0)
                            + sin (fi0p_raw (q t) rp v) * sin (q t PHI0).
Proof.
  intros M. destruct (ms_fid _ _ _ _ M) as [n Hn]. simpl tp_par in Hn.
  replace (mfid C (q t) rp v) with
    (mpar C (q t) rp v PHI0 - q t PHI0 + 2 * IZR (- n) * PI)
    by (rewrite Hn, opp_IZR; ring).
  rewrite cos_2kpi, sin_2kpi, cos_minus, sin_minus, (ms_cos _ _ _ _ M), (ms_sin _ _ _ _ M).
  simpl tp_par; simpl tp_ref.
  split; ring.
Qed.

Lemma fid0_cs : cos (mfid C hp rp v) = csfd /\ sin (mfid C hp rp v) = snfd.
Proof.
  generalize (locally_singleton _ _ near_ok). intros (M & _ & _ & E1 & E2).
  destruct (cos_sin_fid 0 M) as [A B].
  assert (Em : mfid C (q 0) rp v = mfid C hp rp v).
  { f_equal. apply functional_extensionality. intros i. apply q0. }
  rewrite Em in A, B. rewrite A, B, E1, E2, cf0, sf0, q0. split; reflexivity.
Qed.

Lemma der_fid : mfid C hp rp v < PI ->
  is_derive (fun t => mfid C (q t) rp v) 0 (df - w PHI0).
Proof.
  intros Hp.
  assert (M0 := mpar_spec C hp rp v Hom).
  destruct fid0_cs as [A B].
  assert (Hc : 0 < 1 + csfd).
  { rewrite <- A. apply one_plus_cos_pos. generalize (ms_fid_range _ _ _ _ M0). lra. }
  set (CC := fun t => - sf t * cos (q t PHI0) + cf t * sin (q t PHI0)).
  set (SS := fun t => cf t * cos (q t PHI0) + sf t * sin (q t PHI0)).
  assert (Dcf := is_derive_unique _ _ _ der_cf). assert (Dsf := is_derive_unique _ _ _ der_sf).
  assert (H1 : is_derive CC 0 (- snfd * (df - w PHI0))).
  { unfold CC, q, displaced. auto_derive.
    - repeat split; eexists; [apply der_sf | apply der_cf].
    - change (Derive (fun x0 : R => sf x0) 0) with (Derive sf 0).
      change (Derive (fun x0 : R => cf x0) 0) with (Derive cf 0).
      rewrite Dcf, Dsf, cf0, sf0.
      replace (hp PHI0 + 0 * w PHI0) with (hp PHI0) by ring. fold sp cp.
      unfold snfd. ring. }
  assert (H2 : is_derive SS 0 (csfd * (df - w PHI0))).
  { unfold SS, q, displaced. auto_derive.
    - repeat split; eexists; [apply der_cf | apply der_sf].
    - change (Derive (fun x0 : R => sf x0) 0) with (Derive sf 0).
      change (Derive (fun x0 : R => cf x0) 0) with (Derive cf 0).
      rewrite Dcf, Dsf, cf0, sf0.
      replace (hp PHI0 + 0 * w PHI0) with (hp PHI0) by ring. fold sp cp.
      unfold csfd. ring. }
  assert (C0 : CC 0 = csfd) by (unfold CC; rewrite cf0, sf0, q0; reflexivity).
  assert (S0 : SS 0 = snfd) by (unfold SS; rewrite cf0, sf0, q0; reflexivity).
  apply is_derive_ext_loc with (fun t => 2 * atan (SS t / (1 + CC t))).
  - assert (L : locally 0 (fun t => 0 < 1 + CC t)).
    { apply derive_pos_locally with (0 + - snfd * (df - w PHI0)).
      - apply @is_derive_plus; [apply @is_derive_const | exact H1].
      - rewrite C0. exact Hc. }
    generalize (filter_and _ _ near_ok L). apply filter_imp.
    intros t [(M & N & S' & Ec & Es) Ht].
    destruct (cos_sin_fid t M) as [A' B']. rewrite Ec, Es in A', B'.
    fold (CC t) in A'. fold (SS t) in B'.
    rewrite <- A', <- B'. symmetry. apply half_angle'.
    + generalize (ms_fid_range _ _ _ _ M). lra.
    + rewrite A'. exact Ht.
  - replace (df - w PHI0) with (csfd * (csfd * (df - w PHI0)) - snfd * (- snfd * (df - w PHI0)))
      by (transitivity ((df - w PHI0) * (csfd * csfd + snfd * snfd)); [ring | rewrite sca; ring]).
    apply derive_half_angle with (C := CC) (S := SS); auto.
    + apply sca.
    + ring.
Qed.

Lemma der_Z0 : mfid C hp rp v < PI ->
  is_derive (fun t => mpar C (q t) rp v Z0) 0
    (w Z0 - 1 / hp OMEGA * mfid C hp rp v * w TANL
     + w OMEGA / (hp OMEGA * hp OMEGA) * hp TANL * mfid C hp rp v
     - 1 / hp OMEGA * hp TANL * (df - w PHI0)).
Proof.
  intros Hp. assert (D := der_fid Hp). assert (Du := is_derive_unique _ _ _ D).
  assert (Em : mfid C (q 0) rp v = mfid C hp rp v).
  { f_equal. apply functional_extensionality. intros i. apply q0. }
  set (G := fun t => mfid C (q t) rp v) in *.
  apply is_derive_ext_loc with (fun t => vz rp - vz v + (hp Z0 + t * w Z0)
     - 1 / (hp OMEGA + t * w OMEGA) * (hp TANL + t * w TANL) * G t).
  - generalize near_ok. apply filter_imp. intros t (M & _).
    rewrite (ms_z0 _ _ _ _ M). reflexivity.
  - assert (EG : G 0 = mfid C hp rp v) by exact Em.
    assert (D' : is_derive G 0 (df - w PHI0)) by exact D.
    assert (Du' : Derive G 0 = df - w PHI0) by exact Du. clearbody G. auto_derive.
    + replace (hp OMEGA + 0 * w OMEGA) with (hp OMEGA) by ring. split; auto.
      split; auto. eexists. apply D'.
    + change (Derive (fun x0 : R => G x0) 0) with (Derive G 0). rewrite Du'.
      replace (hp OMEGA + 0 * w OMEGA) with (hp OMEGA) by ring.
      replace (hp TANL + 0 * w TANL) with (hp TANL) by ring.
      rewrite EG. field. auto.
Qed.
End Deriv.

(** sign of the exchange d0 <-> -d0 *)
Definition esign (i : idx) : R := match i with I3 => -1 | _ => 1 end.

Lemma crho_pos hp rp v : hp OMEGA <> 0 ->
  (vx v <> calculateXCenter hp rp \/ vy v <> calculateYCenter hp rp) -> 0 < crho hp rp v.
Proof.
  intros H N. destruct (center_eq hp rp H) as [-> ->] in N.
  unfold crho. apply sqrt_lt_R0.
  set (a := vx (centre hp rp) - vx v). set (b := vy (centre hp rp) - vy v).
  destruct N as [N|N].
  - assert (a <> 0) by (unfold a; lra). nra.
  - assert (b <> 0) by (unfold b; lra). nra.
Qed.

Lemma crho_zero hp rp v : hp OMEGA <> 0 ->
  vx v = calculateXCenter hp rp -> vy v = calculateYCenter hp rp -> crho hp rp v = 0.
Proof.
  intros H E1 E2. destruct (center_eq hp rp H) as [A B]. rewrite A in E1. rewrite B in E2.
  unfold crho. rewrite E1, E2. replace (_ + _) with 0 by ring. apply sqrt_0.
Qed.

Lemma move_cov_centre C hp rp v : hp OMEGA <> 0 ->
  vx v = calculateXCenter hp rp -> vy v = calculateYCenter hp rp ->
  moveHelixTo (TP C hp rp) v true = NonFin.
Proof.
  intros H E1 E2. assert (E := crho_zero hp rp v H E1 E2).
  destruct (moveHelixTo_closed (TP C hp rp) v true H) as (p' & fid & a & b & M & _ & _ & _ & _ & Eq).
  rewrite Eq. rewrite (ms_d0 _ _ _ _ M). simpl tp_par; simpl tp_ref. rewrite E.
  replace (1 / hp OMEGA - (1 / hp OMEGA - sg (hp OMEGA) * 0)) with 0 by ring.
  rewrite rdiv_zero. reflexivity.
Qed.

Lemma move_cov_form hp rp v : hp OMEGA <> 0 -> 0 < crho hp rp v ->
  forall C, moveHelixTo (TP C hp rp) v true =
    (let p' := mpar m5zero hp rp v in let fid := mfid m5zero hp rp v in
     let F := moveF (hp OMEGA) (1 / hp OMEGA) (1 / hp OMEGA - hp D0) (- p' D0) (hp TANL)
                fid (cos fid) (sin fid) (sg (hp OMEGA) / crho hp rp v) in
     Ok (TP (m5mul (m5mul F C) (m5transpose F)) p' v, fid)).
Proof.
  intros H Hr C. cbv zeta.
  destruct (moveHelixTo_closed (TP C hp rp) v true H) as (p' & fid & a & b & M & E0 & Em & Ea & Eb & Eq).
  simpl tp_par in *; simpl tp_ref in *; simpl tp_cov in *.
  destruct (moveHelixTo_closed (TP m5zero hp rp) v false H)
    as (p2 & f2 & a2 & b2 & M2 & E02 & Em2 & Ea2 & Eb2 & Eq2).
  simpl tp_par in *; simpl tp_ref in *; simpl tp_cov in *. cbv iota in Eq2.
  assert (Ep : mpar m5zero hp rp v = p2) by (unfold mpar; rewrite Eq2; reflexivity).
  assert (Ef : mfid m5zero hp rp v = f2) by (unfold mfid; rewrite Eq2; reflexivity).
  rewrite Ep, Ef.
  assert (EE : p2 = p' /\ f2 = fid).
  { assert (F : f2 = fid).
    { destruct (ms_fid _ _ _ _ M) as [k Hk]. destruct (ms_fid _ _ _ _ M2) as [k2 Hk2].
      simpl tp_par in Hk, Hk2.
      apply angle_unique; try apply (ms_fid_range _ _ _ _ M2); try apply (ms_fid_range _ _ _ _ M).
      - rewrite <- (cos_2kpi fid (k - k2)). f_equal.
        rewrite minus_IZR. rewrite E0 in Hk. rewrite E02 in Hk2. lra.
      - rewrite <- (sin_2kpi fid (k - k2)). f_equal.
        rewrite minus_IZR. rewrite E0 in Hk. rewrite E02 in Hk2. lra. }
    split; auto. rewrite Em, Em2. 
    rewrite (ms_om _ _ _ _ M), (ms_om _ _ _ _ M2), (ms_tl _ _ _ _ M), (ms_tl _ _ _ _ M2),
      (ms_d0 _ _ _ _ M), (ms_d0 _ _ _ _ M2), (ms_z0 _ _ _ _ M), (ms_z0 _ _ _ _ M2), E0, E02, F.
    reflexivity. }
  destruct EE as [-> ->].
  rewrite Eq. rewrite rdiv_ok.
  - simpl bind. rewrite Ea, Eb.
    replace (1 / (1 / hp OMEGA - p' D0)) with (sg (hp OMEGA) / crho hp rp v); [reflexivity|].
    rewrite (ms_d0 _ _ _ _ M). simpl tp_par; simpl tp_ref.
    replace (1 / hp OMEGA - (1 / hp OMEGA - sg (hp OMEGA) * crho hp rp v))
      with (sg (hp OMEGA) * crho hp rp v) by ring.
    destruct (sg_cases (hp OMEGA)) as [-> | ->]; field; lra.
  - rewrite (ms_d0 _ _ _ _ M). simpl tp_par; simpl tp_ref.
    destruct (sg_cases (hp OMEGA)) as [-> | ->]; lra.
Qed.

Lemma mpar_C C C' hp rp v : hp OMEGA <> 0 -> 0 < crho hp rp v ->
  mpar C hp rp v = mpar C' hp rp v /\ mfid C hp rp v = mfid C' hp rp v.
Proof.
  intros H Hr.
  assert (K : forall C0, mpar C0 hp rp v = mpar m5zero hp rp v /\ mfid C0 hp rp v = mfid m5zero hp rp v).
  { intros C0. assert (E := move_cov_form hp rp v H Hr C0). cbv zeta in E.
    apply move_cov_ok in E. destruct E as (_ & E & _).
    simpl tp_par in E. simpl tp_cov in E.
    unfold mpar at 1, mfid at 1. rewrite E. split; reflexivity. }
  destruct (K C) as [-> ->]. destruct (K C') as [-> ->]. auto.
Qed.

Definition Fmove (hp : vec5) (rp v : vec3) : mat5 :=
  moveF (hp OMEGA) (1 / hp OMEGA) (1 / hp OMEGA - hp D0) (- mpar m5zero hp rp v D0) (hp TANL)
    (mfid m5zero hp rp v) (cos (mfid m5zero hp rp v)) (sin (mfid m5zero hp rp v))
    (sg (hp OMEGA) / crho hp rp v).

Lemma move_jacobian_explicit hp rp v : hp OMEGA <> 0 ->
  (vx v <> calculateXCenter hp rp \/ vy v <> calculateYCenter hp rp) ->
  let F := Fmove hp rp v in let p' := mpar m5zero hp rp v in let fid := mfid m5zero hp rp v in
    (forall C, moveHelixTo (TP C hp rp) v true
               = Ok (TP (m5mul (m5mul F C) (m5transpose F)) p' v, fid)
            /\ moveHelixTo (TP C hp rp) v false = Ok (TP C p' v, fid))
    /\ forall C w i, (i = PHI0 -> Rabs (p' PHI0) < PI) -> (i = Z0 -> fid < PI) ->
       is_derive (fun t => mpar C (displaced hp w t) rp v i) 0
         (sum5 (fun j => esign i * esign j * F i j * w j)).
Proof.
  intros H N. assert (Hr := crho_pos hp rp v H N).
  set (p' := mpar m5zero hp rp v). set (fid := mfid m5zero hp rp v).
  set (F := moveF (hp OMEGA) (1 / hp OMEGA) (1 / hp OMEGA - hp D0) (- p' D0) (hp TANL)
                fid (cos fid) (sin fid) (sg (hp OMEGA) / crho hp rp v)).
  cbv zeta. change (Fmove hp rp v) with F. split.
  { intros C. assert (E := move_cov_form hp rp v H Hr C). cbv zeta in E. fold p' fid in E. fold F in E.
    split; [exact E|]. apply move_cov_ok in E. apply E. }
  intros C w i H1 H2.
  destruct (mpar_C C m5zero hp rp v H Hr) as [Ep Ef]. fold p' in Ep. fold fid in Ef.
  destruct (fid0_cs C hp rp v w H Hr) as [Ec Es]. rewrite Ef in Ec, Es.
  assert (Dq : forall i, i = OMEGA \/ i = TANL ->
     is_derive (fun t => mpar C (displaced hp w t) rp v i) 0 (w i)).
  { intros i0 Hi.
    apply is_derive_ext_loc with (fun t => hp i0 + t * w i0).
    - generalize (near_ok C hp rp v w H Hr). apply filter_imp. intros t (M & _).
      destruct Hi as [-> | ->]; [rewrite (ms_om _ _ _ _ M) | rewrite (ms_tl _ _ _ _ M)]; reflexivity.
    - auto_derive; auto. ring. }
  destruct i.
  - replace (sum5 _) with (w OMEGA); [apply Dq; auto|].
    unfold sum5, F; simpl. unfold OMEGA. ring.
  - replace (sum5 _) with (w TANL); [apply Dq; auto|].
    unfold sum5, F; simpl. unfold TANL. ring.
  - assert (D := der_PHI0 C hp rp v w H Hr). rewrite Ep in D. specialize (D (H1 eq_refl)).
    match goal with |- is_derive _ _ ?g => match type of D with is_derive _ _ ?d => replace g with d; [exact D|] end end.
    rewrite (df_eq hp rp v w Hr). cbv zeta. rewrite <- Ec, <- Es.
    unfold sum5, F; simpl. unfold OMEGA, TANL, PHI0, D0, Z0 in *. field. split; lra.
  - assert (D := der_D0 C hp rp v w H Hr). cbv zeta in D.
    match goal with |- is_derive _ _ ?g => match type of D with is_derive _ _ ?d => replace g with d; [exact D|] end end. rewrite <- Ec, <- Es.
    unfold sum5, F; simpl. unfold OMEGA, TANL, PHI0, D0, Z0 in *. field. auto.
  - assert (D := der_Z0 C hp rp v w H Hr). rewrite Ef in D. specialize (D (H2 eq_refl)).
    match goal with |- is_derive _ _ ?g => match type of D with is_derive _ _ ?d => replace g with d; [exact D|] end end.
    rewrite (df_eq hp rp v w Hr). cbv zeta. rewrite <- Ec, <- Es.
    unfold sum5, F; simpl. unfold OMEGA, TANL, PHI0, D0, Z0 in *. field. split; lra.
Qed.

Lemma move_jacobian hp rp v : hp OMEGA <> 0 ->
  (vx v <> calculateXCenter hp rp \/ vy v <> calculateYCenter hp rp) ->
  exists F p' fid,
    (forall C, moveHelixTo (TP C hp rp) v true
               = Ok (TP (m5mul (m5mul F C) (m5transpose F)) p' v, fid)
            /\ moveHelixTo (TP C hp rp) v false = Ok (TP C p' v, fid))
    /\ forall C w i, (i = PHI0 -> Rabs (p' PHI0) < PI) -> (i = Z0 -> fid < PI) ->
       is_derive (fun t => mpar C (displaced hp w t) rp v i) 0
         (sum5 (fun j => esign i * esign j * F i j * w j)).
Proof.
  intros H N. exists (Fmove hp rp v), (mpar m5zero hp rp v), (mfid m5zero hp rp v).
  exact (move_jacobian_explicit hp rp v H N).
Qed.

(** a covariance without correlations of d0 comes out with the sign of every
    new correlation of d0 reversed *)
Lemma flip_cov F C :
  (forall j, j <> D0 -> C D0 j = 0 /\ C j D0 = 0) ->
  let J := fun i j => esign i * esign j * F i j in
  forall i j, m5mul (m5mul J C) (m5transpose J) i j
              = esign i * esign j * m5mul (m5mul F C) (m5transpose F) i j.
Proof.
  intros H J i j.
  destruct (H I0) as [A0 B0]; [discriminate|]. destruct (H I1) as [A1 B1]; [discriminate|].
  destruct (H I2) as [A2 B2]; [discriminate|]. destruct (H I4) as [A4 B4]; [discriminate|].
  unfold D0 in *.
  unfold J, m5mul, m5transpose, sum5. 
  rewrite A0, B0, A1, B1, A2, B2, A4, B4.
  change (esign I0) with 1. change (esign I1) with 1. change (esign I2) with 1.
  change (esign I3) with (-1). change (esign I4) with 1. ring.
Qed.

(** a quarter turn *)
Definition w_hp : vec5 := mk5 1 0 0 0 0.
Definition w_v : vec3 := V3 1 (-1) 0.
Definition w_C : mat5 := fun i j => match i, j with I0, I0 => 1 | _, _ => 0 end.

Lemma w_centre : centre w_hp v3zero = V3 0 (-1) 0.
Proof. unfold centre, w_hp; simpl. rewrite sin_0, cos_0. f_equal; field. Qed.

Lemma w_crho : crho w_hp v3zero w_v = 1.
Proof.
  unfold crho. rewrite w_centre. simpl.
  replace (_ + _) with 1 by ring. apply sqrt_1.
Qed.

Lemma w_sg : sg (w_hp OMEGA) = 1.
Proof. unfold sg, w_hp; simpl. destruct (Rlt_dec 0 1); lra. Qed.

Lemma w_raw : cos (fi0p_raw w_hp v3zero w_v) = -1 /\ sin (fi0p_raw w_hp v3zero w_v) = 0.
Proof.
  destruct (fi0p_raw_polar w_hp v3zero w_v) as [A B].
  rewrite w_crho, w_sg, w_centre in A, B. simpl in A, B. split; lra.
Qed.

Lemma w_nz : w_hp OMEGA <> 0.
Proof. unfold w_hp; simpl. lra. Qed.

Lemma w_off : vx w_v <> calculateXCenter w_hp v3zero \/ vy w_v <> calculateYCenter w_hp v3zero.
Proof.
  left. destruct (center_eq w_hp v3zero w_nz) as [-> _]. rewrite w_centre. simpl. lra.
Qed.

Lemma w_fid : cos (mfid m5zero w_hp v3zero w_v) = 0 /\ sin (mfid m5zero w_hp v3zero w_v) = -1
  /\ cos (mpar m5zero w_hp v3zero w_v PHI0) = 0.
Proof.
  assert (M := mpar_spec m5zero w_hp v3zero w_v w_nz).
  assert (A := ms_cos _ _ _ _ M). assert (B := ms_sin _ _ _ _ M).
  simpl tp_par in A, B; simpl tp_ref in A, B.
  destruct w_raw as [E1 E2]. rewrite E2 in A. rewrite E1 in B.
  destruct (ms_fid _ _ _ _ M) as [k Hk]. simpl tp_par in Hk.
  replace (mfid m5zero w_hp v3zero w_v)
    with (mpar m5zero w_hp v3zero w_v PHI0 + 2 * IZR (- k) * PI)
    by (rewrite Hk, opp_IZR; unfold w_hp; simpl; ring).
  rewrite cos_2kpi, sin_2kpi, A, B. repeat split; lra.
Qed.

Lemma move_cov_sign_refuted :
  exists hp rp v C tp' fid J,
    hp OMEGA <> 0
    /\ moveHelixTo (TP C hp rp) v true = Ok (tp', fid)
    /\ (forall w i, is_derive (fun t => mpar C (displaced hp w t) rp v i) 0
                      (sum5 (fun j => J i j * w j)))
    /\ msym C /\ mpsd C
    /\ tp_cov tp' D0 PHI0 = -1
    /\ m5mul (m5mul J C) (m5transpose J) D0 PHI0 = 1.
Proof.
  destruct (move_jacobian_explicit w_hp v3zero w_v w_nz w_off) as [E D].
  destruct w_fid as (F1 & F2 & F3).
  exists w_hp, v3zero, w_v, w_C,
    (TP (m5mul (m5mul (Fmove w_hp v3zero w_v) w_C) (m5transpose (Fmove w_hp v3zero w_v)))
        (mpar m5zero w_hp v3zero w_v) w_v), (mfid m5zero w_hp v3zero w_v),
    (fun i j => esign i * esign j * Fmove w_hp v3zero w_v i j).
  split; [exact w_nz|]. split; [apply E|]. split; [|split; [|split; [|split]]].
  - intros w i. apply D.
    + intros _. assert (M := mpar_spec m5zero w_hp v3zero w_v w_nz).
      generalize (ms_phi_range _ _ _ _ M). intros [L1 L2]. apply Rabs_def1.
      * destruct L2 as [L2|L2]; auto. rewrite L2, cos_PI in F3. lra.
      * destruct L1 as [L1|L1]; auto. rewrite <- L1, cos_neg, cos_PI in F3. lra.
    + intros _. assert (M := mpar_spec m5zero w_hp v3zero w_v w_nz).
      generalize (ms_fid_range _ _ _ _ M). intros [L1 L2].
      destruct L2 as [L2|L2]; auto. rewrite L2, cos_PI in F1. lra.
  - intros i j. destruct i, j; reflexivity.
  - intros u. unfold quad, sum5, w_C. simpl. nra.
  - simpl tp_cov. unfold m5mul, m5transpose, sum5, w_C, Fmove. rewrite F1, F2, w_crho, w_sg.
    unfold moveF, w_hp; simpl. field.
  - unfold m5mul, m5transpose, sum5, w_C, Fmove. rewrite F1, F2, w_crho, w_sg.
    unfold moveF, w_hp; simpl. field.
Qed.
