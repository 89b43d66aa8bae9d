(** Every step of the transport has neighbours: existence of the family of motions
    used in the statement about the propagation Jacobian. *)
From Coq Require Import Reals Ranalysis5 Nsatz Lra Psatz.
From Coquelicot Require Import Coquelicot.
From Verif Require Import SpecConst Num NumFacts Vec Helix Trans Propag SpecHelix SpecPropag HelixFacts JacFacts PropagFacts PropagFacts2.
Open Scope R_scope.

Lemma ball_abs (x eps y : R) : ball x eps y <-> Rabs (y - x) < eps.
Proof. unfold ball; cbn; unfold AbsRing_ball, abs, minus, plus, opp; cbn. reflexivity. Qed.

(** the implicit function of one variable, differentiable at one point *)
Lemma implicit (G D : R -> R -> R) dw g' :
  locally 0 (fun e => forall s, is_derive (G e) s (D e s)) ->
  G 0 dw = 0 -> is_derive (fun e => G e dw) 0 g' -> 0 < D 0 dw ->
  (forall eps, 0 < eps -> exists d, 0 < d /\ forall e s, Rabs e < d -> Rabs (s - dw) < d -> Rabs (D e s - D 0 dw) < eps) ->
  exists sg, sg 0 = dw /\ locally 0 (fun e => G e (sg e) = 0) /\ ex_derive sg 0.
Proof.
  intros [d0 H0] G0 Dg PD Cd. set (c := D 0 dw / 2). assert (Pc : 0 < c) by (unfold c; lra).
  destruct (Cd c Pc) as (d & Pd & Hd).
  assert (Dc : forall e s, Rabs e < d -> Rabs (s - dw) < d -> c < D e s).
  { intros e s A B. specialize (Hd e s A B). apply Rabs_def2 in Hd. unfold c in *. lra. }
  assert (Gc : continuous (fun e => G e dw) 0) by (apply (ex_derive_continuous (V := R_NormedModule)); eexists; exact Dg).
  assert (Gs : forall eps, 0 < eps -> exists d1, 0 < d1 /\ forall e, Rabs e < d1 -> Rabs (G e dw) < eps).
  { intros eps Pe.
    assert (L : locally (G 0 dw) (fun y => Rabs y < eps)).
    { exists (mkposreal eps Pe). intros y Hy. apply (proj1 (ball_abs _ _ _)) in Hy.
      rewrite G0, Rminus_0_r in Hy. exact Hy. }
    destruct (Gc _ L) as [d1 H1].
    exists d1. split; [apply cond_pos|]. intros e He. apply (H1 e). apply (proj2 (ball_abs _ _ _)). rewrite Rminus_0_r. exact He. }
  set (r := d / 2). assert (Pr : 0 < r) by (unfold r; lra).
  destruct (Gs (c * r) ltac:(apply Rmult_lt_0_compat; auto)) as (d1 & P1 & H1).
  assert (D0 : forall e, Rabs e < d0 -> forall s, is_derive (G e) s (D e s)).
  { intros e He. apply H0. apply (proj2 (ball_abs _ _ _)). rewrite Rminus_0_r. exact He. }
  set (eta := Rmin (d0 : R) (Rmin d d1)).
  assert (Pe : 0 < eta) by (unfold eta; repeat apply Rmin_glb_lt; auto; apply cond_pos).
  assert (He : forall e, Rabs e < eta -> Rabs e < d0 /\ Rabs e < d /\ Rabs e < d1).
  { intros e H. unfold eta in H. assert (A := Rmin_l d0 (Rmin d d1)). assert (B := Rmin_r d0 (Rmin d d1)).
    assert (A' := Rmin_l d d1). assert (B' := Rmin_r d d1). repeat split; lra. }
  assert (MV : forall e s, Rabs e < eta -> exists xi, G e s - G e dw = D e xi * (s - dw) /\ Rabs (xi - dw) <= Rabs (s - dw)).
  { intros e s H. destruct (He e H) as (A & B & C).
    destruct (MVT_gen (G e) dw s (D e)) as (xi & X1 & X2).
    - intros x _. apply D0; auto.
    - intros x _. apply continuity_pt_filterlim. apply (ex_derive_continuous (V := R_NormedModule)). eexists. apply D0; auto.
    - exists xi. split; auto. unfold Rmin, Rmax in X1. destruct Rle_dec; unfold Rabs; destruct Rcase_abs, Rcase_abs; lra. }
  assert (Root : forall e, Rabs e < eta -> {z : R | dw - r <= z <= dw + r /\ G e z = 0}).
  { intros e H. destruct (He e H) as (A & B & C). apply (IVT_interv (G e)).
    - intros a _. apply continuity_pt_filterlim. apply (ex_derive_continuous (V := R_NormedModule)). eexists. apply D0; auto.
    - lra.
    - destruct (MV e (dw - r) H) as (xi & X1 & X2). specialize (H1 e C). apply Rabs_def2 in H1.
      replace (dw - r - dw) with (- r) in * by ring. rewrite Rabs_Ropp, (Rabs_pos_eq r) in X2 by lra.
      assert (Y := Dc e xi B ltac:(unfold r in *; lra)). nra.
    - destruct (MV e (dw + r) H) as (xi & X1 & X2). specialize (H1 e C). apply Rabs_def2 in H1.
      replace (dw + r - dw) with r in * by ring. rewrite (Rabs_pos_eq r) in X2 by lra.
      assert (Y := Dc e xi B ltac:(unfold r in *; lra)). nra. }
  set (sg := fun e => match Rlt_dec (Rabs e) eta with left H => proj1_sig (Root e H) | right _ => dw end).
  assert (Sg : forall e, Rabs e < eta -> Rabs (sg e - dw) <= r /\ G e (sg e) = 0).
  { intros e H. unfold sg. destruct Rlt_dec as [H'|n]; [|contradiction]. destruct (Root e H') as (z & Z1 & Z2). cbn.
    split; auto. unfold Rabs; destruct Rcase_abs; lra. }
  assert (Key : forall e, Rabs e < eta -> exists xi, c < D e xi /\ (sg e - dw) * D e xi = - G e dw /\ Rabs (xi - dw) <= Rabs (sg e - dw)).
  { intros e H. destruct (He e H) as (A & B & C). destruct (Sg e H) as [S1 S2]. destruct (MV e (sg e) H) as (xi & X1 & X2).
    exists xi. split; [apply Dc; auto; unfold r in *; lra|]. split; auto. rewrite S2 in X1. lra. }
  assert (Z0 : sg 0 = dw).
  { destruct (Key 0) as (xi & K1 & K2 & _); [rewrite Rabs_R0; auto|]. rewrite G0 in K2.
    assert (H : (sg 0 - dw) * D 0 xi = 0) by lra. apply Rmult_integral in H. destruct H; lra. }
  exists sg. split; auto. split.
  - exists (mkposreal eta Pe). intros e H. apply (proj1 (ball_abs _ _ _)) in H. rewrite Rminus_0_r in H. apply Sg; auto.
  - exists (- g' / D 0 dw). apply is_derive_Reals. intros eps Peps.
    set (e2 := eps * c * D 0 dw / (4 * (Rabs g' + 1))).
    assert (Pg := Rabs_pos g').
    assert (P2 : 0 < e2).
    { unfold e2. apply Rdiv_lt_0_compat; [|lra]. apply Rmult_lt_0_compat; auto. apply Rmult_lt_0_compat; auto. }
    destruct (Cd e2 P2) as (d2 & Pd2 & Hd2).
    destruct (Gs (c * d2) ltac:(apply Rmult_lt_0_compat; auto)) as (d3 & P3 & H3).
    apply is_derive_Reals in Dg. destruct (Dg (eps * c / 4)) as [d4 H4]; [apply Rdiv_lt_0_compat; [apply Rmult_lt_0_compat; auto|lra]|].
    set (dd := Rmin eta (Rmin d2 (Rmin d3 d4))).
    assert (Pdd : 0 < dd) by (unfold dd; repeat apply Rmin_glb_lt; auto; apply cond_pos).
    exists (mkposreal dd Pdd). intros h Nh Hh. cbn in Hh.
    assert (Hh4 : Rabs h < eta /\ Rabs h < d2 /\ Rabs h < d3 /\ Rabs h < d4).
    { unfold dd in Hh. assert (A1 := Rmin_l eta (Rmin d2 (Rmin d3 d4))). assert (A2 := Rmin_r eta (Rmin d2 (Rmin d3 d4))).
      assert (A3 := Rmin_l d2 (Rmin d3 d4)). assert (A4 := Rmin_r d2 (Rmin d3 d4)). assert (A5 := Rmin_l d3 d4). assert (A6 := Rmin_r d3 d4).
      repeat split; lra. }
    destruct Hh4 as (B1 & B2 & B3 & B4). destruct (Key h B1) as (xi & K1 & K2 & K3).
    specialize (H4 h Nh B4). rewrite Rplus_0_l, G0, Rminus_0_r in H4. specialize (H3 h B3).
    assert (X : Rabs (xi - dw) < d2).
    { apply Rle_lt_trans with (1 := K3). apply Rmult_lt_reg_l with c; auto. apply Rle_lt_trans with (2 := H3).
      rewrite <- (Rabs_Ropp (G h dw)), <- K2, Rabs_mult, (Rabs_pos_eq (D h xi)) by lra. assert (Y := Rabs_pos (sg h - dw)). nra. }
    specialize (Hd2 h xi B2 X). rewrite Rplus_0_l, Z0.
    set (A := G h dw / h) in *. set (Dx := D h xi) in *. set (D1 := D 0 dw) in *.
    assert (Ek : (sg h - dw) / h = - A / Dx).
    { unfold A. replace (- (G h dw / h)) with ((sg h - dw) * Dx / h) by (rewrite K2; field; auto). field. split; auto. lra. }
    rewrite Ek. replace (- A / Dx - - g' / D1) with ((- (A - g') * D1 + g' * (Dx - D1)) / (Dx * D1)) by (field; lra).
    assert (PDD : 0 < Dx * D1) by (apply Rmult_lt_0_compat; lra).
    unfold Rdiv. rewrite Rabs_mult, (Rabs_pos_eq (/ (Dx * D1))) by (left; apply Rinv_0_lt_compat; auto).
    apply Rmult_lt_reg_r with (Dx * D1); auto. rewrite Rmult_assoc, Rinv_l, Rmult_1_r by lra.
    apply Rle_lt_trans with (1 := Rabs_triang _ _). rewrite !Rabs_mult, Rabs_Ropp, (Rabs_pos_eq D1) by lra.
    assert (Q1 : Rabs g' * Rabs (Dx - D1) <= (Rabs g' + 1) * e2).
    { assert (Z := Rabs_pos (Dx - D1)). nra. }
    assert (Q2 : (Rabs g' + 1) * e2 = eps * c * D1 / 4) by (unfold e2; field; lra).
    assert (Q3 : Rabs (A - g') * D1 < eps * c / 4 * D1) by (apply Rmult_lt_compat_r; auto).
    assert (Q4 : eps * (c * D1) < eps * (Dx * D1)) by (apply Rmult_lt_compat_l; auto; apply Rmult_lt_compat_r; auto).
    nra.
Qed.

Lemma unit_angles f2 t : vdot t t = 1 -> 0 < cos f2 * vx t + sin f2 * vy t ->
  t = dirvec (atan (vz t / sqrt (vx t * vx t + vy t * vy t)))
             (f2 + atan ((cos f2 * vy t - sin f2 * vx t) / (cos f2 * vx t + sin f2 * vy t))).
Proof.
  destruct t as [x y z]. unfold vdot, dirvec. cbn [vx vy vz]. intros U P.
  assert (CS := sin2_cos2 f2). unfold Rsqr in CS.
  set (a := cos f2 * x + sin f2 * y) in *. set (b := cos f2 * y - sin f2 * x).
  assert (Eab : a * a + b * b = x * x + y * y).
  { unfold a, b. replace (x * x + y * y) with ((x * x + y * y) * (sin f2 * sin f2 + cos f2 * cos f2)) by (rewrite CS; ring). ring. }
  assert (Px : 0 < x * x + y * y) by nra.
  set (r := sqrt (x * x + y * y)). assert (Pr : 0 < r) by (apply sqrt_lt_R0; auto).
  assert (Er : r * r = x * x + y * y) by (apply sqrt_sqrt; lra).
  rewrite cos_plus, sin_plus. rewrite !cos_atan, !sin_atan.
  assert (S1 : sqrt (1 + (z / r)²) = 1 / r).
  { replace (1 + (z / r)²) with ((1 / r) * (1 / r)).
    - apply sqrt_square. left. apply Rdiv_lt_0_compat; lra.
    - unfold Rsqr. assert (E1 : r * r + z * z = 1) by lra. transitivity ((r * r + z * z) / (r * r)); [rewrite E1|]; field; lra. }
  assert (S2 : sqrt (1 + (b / a)²) = r / a).
  { replace (1 + (b / a)²) with ((r / a) * (r / a)).
    - apply sqrt_square. left. apply Rdiv_lt_0_compat; lra.
    - unfold Rsqr. replace (r / a * (r / a)) with ((r * r) / (a * a)) by (field; lra). rewrite Er, <- Eab. field. lra. }
  rewrite S1, S2. f_equal.
  - replace x with (x * (sin f2 * sin f2 + cos f2 * cos f2)) at 1 by (rewrite CS; ring).
    replace (x * (sin f2 * sin f2 + cos f2 * cos f2)) with (cos f2 * a - sin f2 * b) by (unfold a, b; ring). field. lra.
  - replace y with (y * (sin f2 * sin f2 + cos f2 * cos f2)) at 1 by (rewrite CS; ring).
    replace (y * (sin f2 * sin f2 + cos f2 * cos f2)) with (cos f2 * b + sin f2 * a) by (unfold a, b; ring). field. lra.
  - field. lra.
Qed.

Lemma cont2 (D : R -> R -> R) dw : continuous (fun p : R * R => D (fst p) (snd p)) (0, dw) ->
  forall eps, 0 < eps -> exists d, 0 < d /\ forall e s, Rabs e < d -> Rabs (s - dw) < d -> Rabs (D e s - D 0 dw) < eps.
Proof.
  intros C eps Pe.
  assert (L : locally (D 0 dw) (fun y => Rabs (y - D 0 dw) < eps)).
  { exists (mkposreal eps Pe). intros y Hy. apply (proj1 (ball_abs _ _ _)) in Hy. exact Hy. }
  destruct (C _ L) as [d H]. exists d. split; [apply cond_pos|]. intros e s He Hs.
  apply (H (e, s)). split; cbn [fst snd]; apply (proj2 (ball_abs _ _ _)); [rewrite Rminus_0_r|]; auto.
Qed.

Lemma cont_fun (f : R -> R) (g : R * R -> R) p : (forall x, ex_derive f x) -> continuous g p -> continuous (fun q => f (g q)) p.
Proof. intros D C. apply (continuous_comp g f); auto. apply (ex_derive_continuous (V := R_NormedModule)). apply D. Qed.
Lemma cont_add (f g : R * R -> R) p : continuous f p -> continuous g p -> continuous (fun q => f q + g q) p.
Proof. intros A B. exact (continuous_plus (V := R_NormedModule) f g p A B). Qed.
Lemma cont_mul (f g : R * R -> R) p : continuous f p -> continuous g p -> continuous (fun q => f q * g q) p.
Proof. intros A B. exact (continuous_mult (K := R_AbsRing) f g p A B). Qed.
Lemma cont_opp (f : R * R -> R) p : continuous f p -> continuous (fun q => - f q) p.
Proof. intros A. exact (continuous_opp (V := R_NormedModule) f p A). Qed.
Lemma cont_sub (f g : R * R -> R) p : continuous f p -> continuous g p -> continuous (fun q => f q - g q) p.
Proof. intros A B. apply cont_add; auto. apply cont_opp; auto. Qed.
Lemma cont_cst (c : R) p : continuous (fun _ : R * R => c) p.
Proof. apply continuous_const. Qed.
Lemma cont_1 p : continuous (fun q : R * R => fst q) p.
Proof. destruct p. apply continuous_fst. Qed.
Lemma cont_2 p : continuous (fun q : R * R => snd q) p.
Proof. destruct p. apply continuous_snd. Qed.
Lemma ed_cos x : ex_derive cos x. Proof. auto_derive. auto. Qed.
Lemma ed_sin x : ex_derive sin x. Proof. auto_derive. auto. Qed.
Ltac ct := lazymatch goal with
  | |- continuous (fun p => @?f p + @?g p) _ => apply (cont_add f g); ct
  | |- continuous (fun p => @?f p - @?g p) _ => apply (cont_sub f g); ct
  | |- continuous (fun p => @?f p * @?g p) _ => apply (cont_mul f g); ct
  | |- continuous (fun p => - @?f p) _ => apply (cont_opp f); ct
  | |- continuous (fun p => cos (@?f p)) _ => apply (cont_fun cos f); [apply ed_cos|ct]
  | |- continuous (fun p => sin (@?f p)) _ => apply (cont_fun sin f); [apply ed_sin|ct]
  | |- continuous (fun p => fst p) _ => apply cont_1
  | |- continuous (fun p => snd p) _ => apply cont_2
  | |- _ => apply cont_cst
  end.

Lemma sub_const (F : R -> R) x d k : is_derive F x d -> is_derive (fun s => F s - k) x d.
Proof. intros V. auto_derive; [eexists; exact V|]. rewrite Rmult_1_l. apply is_derive_unique. exact V. Qed.

Lemma dot_self_sub (a c : vec3) : vdot (vsub a a) c = 0.
Proof. unfold vdot, vsub. cbn [vx vy vz]. ring. Qed.

Lemma angles_derive (x y z : R -> R) c s : ex_derive x 0 -> ex_derive y 0 -> ex_derive z 0 ->
  ex_derive (fun e => c * x e + s * y e) 0
  /\ (0 < x 0 * x 0 + y 0 * y 0 -> ex_derive (fun e => atan (z e / sqrt (x e * x e + y e * y e))) 0)
  /\ forall k, (c * x 0 + s * y 0 <> 0 -> ex_derive (fun e => k + atan ((c * y e - s * x e) / (c * x e + s * y e))) 0).
Proof.
  intros Dx Dy Dz. split; [auto_derive; auto|]. split.
  - intros P. auto_derive. assert (0 < sqrt (x 0 * x 0 + y 0 * y 0)) by (apply sqrt_lt_R0; auto). repeat split; auto; lra.
  - intros k N. auto_derive. repeat split; auto.
Qed.

Section Family.
Variables (b : vec3) (qop dw : R) (x0 : vec3) (l f : R) (w : vec5) (h : vec3).
Hypothesis Eb : b = vscale (vr b) h.
Hypothesis Hh : vdot h h = 1.
Hypothesis Pb : 0 < vr b.
Hypothesis Hq : qop <> 0.

Let qp := - vr b * convertBr2P_cm.
Let Qe e := qp * (qop + e * w I0).
Let t0 e := dirvec (l + e * w I1) (f + e * w I2).
Let xe e := vadd x0 (vscale e (vadd (vscale (w I3) (axis_u l f)) (vscale (w I4) (axis_v l f)))).
Definition fam_T (e s : R) : vec3 := rot (Qe e * s) h (t0 e).
Definition fam_X (e s : R) : vec3 :=
  if Req_EM_T (Qe e) 0 then vadd (xe e) (vscale s (t0 e)) else vadd (xe e) (vscale (1 / Qe e) (irot (Qe e * s) h (t0 e))).

Lemma qp_nz' : qp <> 0. Proof. exact (qp_nz b Pb). Qed.

Lemma fam_motion e : motion b (qop + e * w I0) (xe e) (t0 e) (fam_X e) (fam_T e).
Proof.
  unfold fam_X, fam_T. destruct Req_EM_T as [Z|N].
  - assert (Zq : qop + e * w I0 = 0) by (unfold Qe in Z; apply Rmult_integral in Z; destruct Z; auto; exfalso; apply qp_nz'; auto).
    split.
    + vx3. apply v3eq; cbn; ring.
    + rewrite Rmult_0_r. apply rot_0.
    + intros s. rewrite Z, Rmult_0_l, rot_0. generalize (xe e) (t0 e). intros [px py pz] [tx ty tz]. split; [|split]; vx3; cbn [vx vy vz]; auto_derive; auto; ring.
    + intros s. rewrite Zq, Rmult_0_r, Z.
      assert (V : vderive (fun _ : R => t0 e) s v3zero) by apply vderive_const.
      replace (vscale 0 (vcross (rot (0 * s) h (t0 e)) b)) with v3zero by (unfold v3zero; vx3; apply v3eq; cbn; ring).
      apply (vderive_ext_loc (fun _ => t0 e)); auto. apply filter_forall. intros x. rewrite Rmult_0_l, rot_0. reflexivity.
  - exact (motion_exists b (qop + e * w I0) (xe e) (t0 e) h Eb Hh N).
Qed.

Lemma fam_family : 0 < vtrans (fam_T 0 dw) -> exists sg la ph, transport_family b qop dw x0 l f w fam_X fam_T sg la ph.
Proof.
  intros Pt. set (t2 := fam_T 0 dw) in *.
  assert (NQ0 : Qe 0 <> 0).
  { unfold Qe. rewrite Rmult_0_l, Rplus_0_r. apply Rmult_integral_contrapositive_currified; [exact qp_nz'|exact Hq]. }
  assert (Nq : locally 0 (fun e => Qe e <> 0)) by (apply near_nonzero; [unfold Qe; auto_derive; auto|exact NQ0]).
  assert (U0 : vdot t2 t2 = 1).
  { unfold t2, fam_T. rewrite rot_dot by auto. unfold t0, dirvec, vdot. cbn [vx vy vz].
    generalize (l + 0 * w I1) (f + 0 * w I2); intros x y. assert (A := sin2_cos2 x). assert (B := sin2_cos2 y). unfold Rsqr in *. nsatz. }
  destruct (implicit (fun e s => vdot (vsub (fam_X e s) (fam_X 0 dw)) t2) (fun e s => vdot (fam_T e s) t2) dw
     (Derive (fun e => vdot (vsub (fam_X e dw) (fam_X 0 dw)) t2) 0)) as (sg & S0 & S1 & S2).
  - apply filter_forall. intros e s. assert (M := mo_dx _ _ _ _ _ _ (fam_motion e) s).
    apply (is_derive_ext (fun s => vdot (fam_X e s) t2 - vdot (fam_X 0 dw) t2)).
    { intros t. assert (EE : forall a c d : vec3, vdot a d - vdot c d = vdot (vsub a c) d) by (intros; unfold vdot, vsub; cbn [vx vy vz]; ring). apply EE. }
    assert (V := vderive_dot _ t2 _ _ M). exact (sub_const (fun s => vdot (fam_X e s) t2) s _ _ V).
  - cbv beta. apply dot_self_sub.
  - apply Derive_correct.
    apply (ex_derive_ext_loc (fun e => vdot (vsub (vadd (xe e) (vscale (1 / Qe e) (irot (Qe e * dw) h (t0 e)))) (fam_X 0 dw)) t2)).
    { apply filter_imp with (2 := Nq). intros e N. unfold fam_X at 2. destruct (Req_EM_T (Qe e) 0); [contradiction|reflexivity]. }
    generalize (fam_X 0 dw). intros X0. clearbody t2. unfold xe, t0, dirvec, axis_u, axis_v. vx3. unfold Qe in *. auto_derive. repeat split; auto.
  - change (0 < vdot t2 t2). lra.
  - apply (cont2 (fun e s => vdot (fam_T e s) t2)). clearbody t2. unfold fam_T, t0, Qe, dirvec. vx3. ct.
  - assert (W : forall e, vdot (fam_T e (sg e)) (fam_T e (sg e)) = 1).
    { intros e. unfold fam_T. rewrite rot_dot by auto. unfold t0, dirvec, vdot. cbn [vx vy vz].
      generalize (l + e * w I1) (f + e * w I2); intros x y. assert (A := sin2_cos2 x). assert (B := sin2_cos2 y). unfold Rsqr in *. nsatz. }
    destruct (dirvec_exists t2 U0 Pt) as (l2 & f2 & C2 & _ & E2).
    assert (DT : ex_derive (fun e => vx (fam_T e (sg e))) 0 /\ ex_derive (fun e => vy (fam_T e (sg e))) 0 /\ ex_derive (fun e => vz (fam_T e (sg e))) 0).
    { unfold fam_T, t0, Qe, dirvec. vx3. split; [|split]; auto_derive; auto. }
    set (TT := fun e => fam_T e (sg e)) in *.
    assert (T0 : TT 0 = t2) by (unfold TT; rewrite S0; reflexivity).
    destruct DT as (D1 & D2 & D3). change (ex_derive (fun e => vx (TT e)) 0) in D1. change (ex_derive (fun e => vy (TT e)) 0) in D2. change (ex_derive (fun e => vz (TT e)) 0) in D3.
    assert (A0 : cos f2 * vx (TT 0) + sin f2 * vy (TT 0) = cos l2).
    { rewrite T0, E2. unfold dirvec. cbn [vx vy]. assert (B := sin2_cos2 f2). unfold Rsqr in B. nsatz. }
    exists sg, (fun e => atan (vz (TT e) / sqrt (vx (TT e) * vx (TT e) + vy (TT e) * vy (TT e)))),
      (fun e => f2 + atan ((cos f2 * vy (TT e) - sin f2 * vx (TT e)) / (cos f2 * vx (TT e) + sin f2 * vy (TT e)))).
    assert (Dr : 0 < vx (TT 0) * vx (TT 0) + vy (TT 0) * vy (TT 0)).
    { rewrite T0. unfold vtrans in Pt. apply sqrt_lt_0_alt. rewrite sqrt_0. exact Pt. }
    destruct (angles_derive _ _ _ (cos f2) (sin f2) D1 D2 D3) as (Ex & Ela & Eph).
    split; auto.
    + exact fam_motion.
    + assert (Na : locally 0 (fun e => 0 < cos f2 * vx (TT e) + sin f2 * vy (TT e))).
      { apply (ex_derive_continuous (V := R_NormedModule)) in Ex.
        apply (Ex (fun y => 0 < y)). rewrite A0. apply (open_gt 0). exact C2. }
      apply filter_imp with (2 := Na). intros e P. apply (unit_angles f2 (TT e)); auto. apply W.
    + apply cos_gt_0; [destruct (atan_bound (vz (TT 0) / sqrt (vx (TT 0) * vx (TT 0) + vy (TT 0) * vy (TT 0))))|destruct (atan_bound (vz (TT 0) / sqrt (vx (TT 0) * vx (TT 0) + vy (TT 0) * vy (TT 0))))]; lra.
    + apply (Eph f2). rewrite A0. lra.
Qed.
End Family.

(** every motion that does not end along z has such a family around it *)
Lemma family_exists b qop dw x0 l f w X0 T0 : b <> v3zero -> qop <> 0 ->
  motion b qop x0 (dirvec l f) X0 T0 -> 0 < vtrans (T0 dw) ->
  exists X T sg la ph, transport_family b qop dw x0 l f w X T sg la ph
    /\ (forall s, X 0 s = X0 s) /\ forall s, T 0 s = T0 s.
Proof.
  intros Hb Hq M P. destruct (unit_field b Hb) as (h & _ & Hh & Pb & Eb).
  assert (NQ : - vr b * convertBr2P_cm * qop <> 0) by (apply Rmult_integral_contrapositive_currified; auto; exact (qp_nz b Pb)).
  assert (M0 := fam_motion b qop x0 l f w h Eb Hh Pb 0). cbv zeta in M0.
  rewrite !Rmult_0_l, !Rplus_0_r in M0.
  replace (vadd x0 (vscale 0 (vadd (vscale (w I3) (axis_u l f)) (vscale (w I4) (axis_v l f))))) with x0 in M0 by (destruct x0; vx3; f_equal; ring).
  assert (U1 := motion_unique b qop x0 (dirvec l f) X0 T0 h Eb Hh NQ M).
  assert (U2 := motion_unique b qop x0 (dirvec l f) _ _ h Eb Hh NQ M0).
  assert (ET : forall s, fam_T b qop l f w h 0 s = T0 s) by (intros s; rewrite (proj1 (U1 s)); apply U2).
  destruct (fam_family b qop dw x0 l f w h Eb Hh Pb Hq) as (sg & la & ph & F); [rewrite ET; auto|].
  do 5 eexists. split; [exact F|]. split; [|exact ET]. intros s. rewrite (proj2 (U1 s)). apply U2.
Qed.
