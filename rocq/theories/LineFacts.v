(** Transport without a field. *)
From Coq Require Import Reals Nsatz Lra Psatz.
From Coquelicot Require Import Coquelicot.
From Verif Require Import SpecConst Num NumFacts Vec Helix Trans Propag SpecHelix SpecMat SpecTrans SpecPropag HelixFacts JacFacts PropagFacts PropagFacts2.
Open Scope R_scope.

Lemma line_motion x0 t0 qop : motion v3zero qop x0 t0 (fun s => vadd x0 (vscale s t0)) (fun _ => t0).
Proof.
  destruct x0 as [px py pz], t0 as [tx ty tz]. split.
  - vx3. f_equal; ring.
  - reflexivity.
  - intros s. vx3. split; [|split]; cbn [vx vy vz]; auto_derive; auto; ring.
  - intros s. vx3. split; [|split]; cbn [vx vy vz]; (auto_derive; [auto|]); unfold v3zero; cbn [vx vy vz]; ring.
Qed.

Lemma line_unique x0 t0 qop X T : motion v3zero qop x0 t0 X T ->
  forall s, T s = t0 /\ X s = vadd x0 (vscale s t0).
Proof.
  intros [X0 T0 DX DT].
  assert (ET : forall s, T s = t0).
  { intros s. rewrite <- T0. 
    assert (Z : forall r, vderive T r v3zero).
    { intros r. specialize (DT r). replace v3zero with (vscale (field_unit * qop) (vcross (T r) v3zero)); auto.
      unfold v3zero; vx3. apply v3eq; cbn; ring. }
    apply v3eq; [apply (const_of_zero_derive (fun r => vx (T r)))|apply (const_of_zero_derive (fun r => vy (T r)))|apply (const_of_zero_derive (fun r => vz (T r)))];
      intros r; apply (Z r). }
  intros s. split; auto.
  assert (Z : forall (p : vec3 -> R), (forall r, is_derive (fun u => p (X u)) r (p t0)) -> p (X s) = p (X 0) + s * p t0).
  { intros p D.
    assert (K : forall r, is_derive (fun u => p (X u) - u * p t0) r 0).
    { intros r. assert (R1 := is_derive_minus (V := R_NormedModule) _ (fun u => u * p t0) r _ (p t0) (D r) ltac:(auto_derive; auto; ring)).
      eapply derive_val; [exact R1|]. unfold minus, plus, opp; cbn. ring. }
    assert (Q := const_of_zero_derive _ K s). cbv beta in Q. lra. }
  assert (DX' : forall r, vderive X r t0) by (intros r; rewrite <- (ET r); apply DX).
  rewrite <- X0. vx3. apply v3eq; cbn [vx vy vz]; apply Z; intros r; apply (DX' r).
Qed.

Lemma dir_unit l f : vdot (dirvec l f) (dirvec l f) = 1.
Proof.
  unfold vdot, dirvec. cbn [vx vy vz]. assert (A := sin2_cos2 l). assert (B := sin2_cos2 f). unfold Rsqr in *. nsatz.
Qed.

(** equal directions off the z axis: equal angles, as far as sine and cosine go *)
Lemma dir_inj l f l' f' : 0 < cos l -> 0 < cos l' -> dirvec l f = dirvec l' f' ->
  sin l = sin l' /\ cos l = cos l' /\ cos f = cos f' /\ sin f = sin f'.
Proof.
  intros C C' Q. unfold dirvec in Q. injection Q as A B S.
  assert (P := sin2_cos2 l). assert (P' := sin2_cos2 l'). assert (F := sin2_cos2 f). assert (F' := sin2_cos2 f'). unfold Rsqr in *.
  assert (Ec : cos l = cos l').
  { assert (H : cos l * cos l = cos l' * cos l') by (rewrite S in P; lra). nra. }
  rewrite Ec in A, B. split; auto. split; auto. split; apply Rmult_eq_reg_l with (cos l'); auto; lra.
Qed.

Section Line.
Variables (qop dw : R) (x0 : vec3) (l f : R) (w : vec5).
Hypothesis Cl : 0 < cos l.
Let xe e := vadd x0 (vscale e (vadd (vscale (w I3) (axis_u l f)) (vscale (w I4) (axis_v l f)))).
Let t0 e := dirvec (l + e * w I1) (f + e * w I2).

Lemma t0_near : locally 0 (fun e => vdot (t0 e) (dirvec l f) <> 0).
Proof.
  apply (near_nonzero (fun e => vdot (t0 e) (dirvec l f))).
  - unfold t0, dirvec, vdot. cbn [vx vy vz]. auto_derive. auto.
  - unfold t0. rewrite !Rmult_0_l, !Rplus_0_r, dir_unit. lra.
Qed.

Lemma line_plane e sg : vdot (vsub (vadd (xe e) (vscale sg (t0 e))) (vadd x0 (vscale dw (dirvec l f)))) (dirvec l f)
  = sg * vdot (t0 e) (dirvec l f) - dw.
Proof.
  transitivity (sg * vdot (t0 e) (dirvec l f) - dw * vdot (dirvec l f) (dirvec l f)).
  - unfold xe. generalize (t0 e). intros [tx ty tz]. destruct x0. unfold axis_u, axis_v, dirvec. vx3.
    assert (A := sin2_cos2 f). unfold Rsqr in A. nsatz.
  - rewrite dir_unit. ring.
Qed.

Lemma line_family : exists X T sg la ph, transport_family v3zero qop dw x0 l f w X T sg la ph.
Proof.
  exists (fun e s => vadd (xe e) (vscale s (t0 e))), (fun e _ => t0 e), (fun e => dw / vdot (t0 e) (dirvec l f)),
    (fun e => l + e * w I1), (fun e => f + e * w I2).
  assert (E0 : t0 0 = dirvec l f) by (unfold t0; rewrite !Rmult_0_l, !Rplus_0_r; reflexivity).
  assert (X0 : vadd (xe 0) (vscale dw (t0 0)) = vadd x0 (vscale dw (dirvec l f))).
  { rewrite E0. f_equal. unfold xe. destruct x0. vx3. f_equal; ring. }
  split.
  - intros e. apply line_motion.
  - rewrite E0, dir_unit. field.
  - apply filter_imp with (2 := t0_near). intros e N. rewrite X0, E0, line_plane. field. auto.
  - apply filter_forall. reflexivity.
  - rewrite Rmult_0_l, Rplus_0_r. exact Cl.
  - unfold t0, dirvec, vdot. cbn [vx vy vz]. auto_derive.
    rewrite !Rmult_0_l, !Rplus_0_r. change (vdot (dirvec l f) (dirvec l f) <> 0). rewrite dir_unit. lra.
  - auto_derive. auto.
  - auto_derive. auto.
Qed.

Lemma line_derivative X T sg la ph nrj : transport_family v3zero qop dw x0 l f w X T sg la ph ->
  exists J, analyticalJacobian mident dw qop (dirvec l f) (T 0 dw) v3zero nrj = Ok J
  /\ forall i, is_derive (fun e => end_coords qop dw w X sg la ph e i) 0 (m5mulv J w i).
Proof.
  intros F.
  assert (U := fun e => line_unique _ _ _ _ _ (tf_motion _ _ _ _ _ _ _ _ _ _ _ _ F e)). fold (xe) in U. 
  assert (E0 : t0 0 = dirvec l f) by (unfold t0; rewrite !Rmult_0_l, !Rplus_0_r; reflexivity).
  assert (Ex : xe 0 = x0) by (unfold xe; destruct x0; vx3; f_equal; ring).
  assert (ET : forall e s, T e s = t0 e) by (intros e s; apply (U e s)).
  assert (EX : forall e s, X e s = vadd (xe e) (vscale s (t0 e))) by (intros e s; apply (U e s)).
  destruct F as [Mo S0 Pl Di Co Dsg Dla Dph]. clear Mo U.
  assert (D0 : dirvec l f = dirvec (la 0) (ph 0)).
  { apply locally_singleton in Di. rewrite ET, E0 in Di. exact Di. }
  destruct (dir_inj _ _ _ _ Cl Co D0) as (Q1 & Q2 & Q3 & Q4).
  set (a' := Derive la 0). set (p' := Derive ph 0). set (g' := Derive sg 0).
  assert (Da : is_derive la 0 a') by (apply Derive_correct; auto).
  assert (Dp : is_derive ph 0 p') by (apply Derive_correct; auto).
  assert (Dg : is_derive sg 0 g') by (apply Derive_correct; auto).
  (* angles *)
  assert (V1 : vderive t0 0 (vadd (vscale (w I1) (axis_v l f)) (vscale (w I2 * cos l) (axis_u l f)))).
  { unfold t0, dirvec, axis_u, axis_v. vx3.
    split; [|split]; cbn [vx vy vz]; (auto_derive; [auto|]); rewrite ?Rmult_0_l, ?Rplus_0_r; ring. }
  assert (V2 : vderive t0 0 (vadd (vscale a' (axis_v l f)) (vscale (p' * cos l) (axis_u l f)))).
  { apply (vderive_ext_loc (fun e => dirvec (la e) (ph e))).
    - apply filter_imp with (2 := Di). intros e Q. rewrite ET in Q. auto.
    - unfold dirvec, axis_u, axis_v. vx3. rewrite Q1, Q2, Q3, Q4.
      split; [|split]; cbn [vx vy vz]; (auto_derive; [split; [exact Dla|split; [exact Dph|exact Logic.I]]||exact Dla||auto|]);
        change (Derive (fun x : R => la x) 0) with a'; change (Derive (fun x : R => ph x) 0) with p'; ring. }
  assert (V := vderive_unique _ _ _ _ V1 V2).
  assert (W1 : a' = w I1 /\ p' = w I2).
  { apply (f_equal (fun v => (vdot v (axis_v l f), vdot v (axis_u l f)))) in V. injection V as A B.
    assert (SF := sin2_cos2 f). assert (SL := sin2_cos2 l). unfold Rsqr in SF, SL.
    assert (A1 : forall x y, vdot (vadd (vscale x (axis_v l f)) (vscale y (axis_u l f))) (axis_v l f) = x).
    { intros x y. unfold axis_u, axis_v. vx3. nsatz. }
    assert (A2 : forall x y, vdot (vadd (vscale x (axis_v l f)) (vscale y (axis_u l f))) (axis_u l f) = y).
    { intros x y. unfold axis_u, axis_v. vx3. nsatz. }
    rewrite !A1 in A. rewrite !A2 in B. split; auto. apply Rmult_eq_reg_r with (cos l); lra. }
  destruct W1 as [W1 W2].
  (* position *)
  assert (Ax : axis_u (la 0) (ph 0) = axis_u l f /\ axis_v (la 0) (ph 0) = axis_v l f).
  { unfold axis_u, axis_v. rewrite <- Q1, <- Q2, <- Q3, <- Q4. auto. }
  destruct Ax as [Au Av].
  assert (DX : vderive (fun e => X e (sg e)) 0 (vadd (vadd (vscale (w I3) (axis_u l f)) (vscale (w I4) (axis_v l f)))
       (vadd (vscale g' (dirvec l f)) (vscale dw (vadd (vscale (w I1) (axis_v l f)) (vscale (w I2 * cos l) (axis_u l f))))))).
  { apply (vderive_ext_loc (fun e => vadd (xe e) (vscale (sg e) (t0 e)))).
    - apply filter_forall. intros e. symmetry. apply EX.
    - assert (R1 : vderive xe 0 (vadd (vscale (w I3) (axis_u l f)) (vscale (w I4) (axis_v l f)))).
      { unfold xe. generalize (vadd (vscale (w I3) (axis_u l f)) (vscale (w I4) (axis_v l f))). intros [dx dy dz]. destruct x0 as [px py pz]. vx3.
        split; [|split]; cbn [vx vy vz]; auto_derive; auto; ring. }
      assert (R2 := vderive_scale sg t0 0 g' _ Dg V1). rewrite E0, S0 in R2.
      exact (vderive_add _ _ _ _ _ R1 R2). }
  unfold analyticalJacobian. cbv zeta. destruct Req_EM_T as [_|N].
  2:{ exfalso. apply N. unfold vr, v3zero. cbn [vx vy vz]. replace (0 * 0 + 0 * 0 + 0 * 0) with 0 by ring. rewrite sqrt_0. ring. }
  eexists. split; [reflexivity|].
  assert (Tr : sqrt (vx (dirvec l f) * vx (dirvec l f) + vy (dirvec l f) * vy (dirvec l f)) = cos l) by (apply trans_dirvec; auto).
  assert (Pos : forall c, vdot c c = c.(vx) * c.(vx) + c.(vy) * c.(vy) + c.(vz) * c.(vz)) by (intros; unfold vdot; ring).
  assert (DP : forall c, is_derive (fun e => vdot (vsub (X e (sg e)) (X 0 dw)) c) 0
     (vdot (vadd (vadd (vscale (w I3) (axis_u l f)) (vscale (w I4) (axis_v l f)))
       (vadd (vscale g' (dirvec l f)) (vscale dw (vadd (vscale (w I1) (axis_v l f)) (vscale (w I2 * cos l) (axis_u l f)))))) c)).
  { intros c. assert (R1 := vderive_dot _ c _ _ DX).
    assert (R2 := is_derive_minus (V := R_NormedModule) _ (fun _ => vdot (X 0 dw) c) 0 _ 0 R1 (is_derive_const (V := R_NormedModule) _ 0)).
    eapply is_derive_ext; [|eapply derive_val; [exact R2|unfold minus, plus, opp; cbn; ring]].
    intros e. unfold minus, plus, opp; cbn. generalize (X e (sg e)) (X 0 dw). intros [ax ay az] [bx b_ bz]. destruct c as [c1 c2 c3]. unfold vdot, vsub; cbn [vx vy vz]. ring. }
  assert (SF := sin2_cos2 f). assert (SL := sin2_cos2 l). unfold Rsqr in SF, SL.
  intros i. unfold end_coords, lineJacobian, m5mulv, sum5, m5set, mident. rewrite Tr, Au, Av.
  destruct i; cbn.
  - auto_derive; auto. ring.
  - eapply derive_val; [exact Da|]. rewrite W1. ring.
  - eapply derive_val; [exact Dp|]. rewrite W2. ring.
  - eapply derive_val; [apply DP|]. unfold axis_u, axis_v, dirvec. vx3. nsatz.
  - eapply derive_val; [apply DP|]. unfold axis_u, axis_v, dirvec. vx3. nsatz.
Qed.
End Line.

Definition e2 : vec5 := mk5 0 0 1 0 0.

Lemma simplified_line dw l f : 0 < cos l ->
  let J := simplifiedJacobian mident dw (dirvec l f) (dirvec l f) v3zero in
  J I3 I2 = dw /\ J I4 I1 = dw /\ J I2 I0 = 0 /\ J I3 I0 = 0
  /\ forall i j, (i, j) <> (I3, I2) -> (i, j) <> (I4, I1) -> (i, j) <> (I2, I0) -> (i, j) <> (I3, I0) -> J i j = mident i j.
Proof.
  intros C J. unfold J, simplifiedJacobian. cbv zeta. unfold v3zero. cbn [vx vy vz].
  replace (1 + _ * _) with 1 by ring. rewrite sqrt_1. unfold m5set, m5Unit, mident.
  split; [cbn; lra|]. split; [cbn; lra|]. split; [cbn; lra|]. split; [cbn; lra|].
  intros i j A1 A2 A3 A4. destruct i, j; try congruence; reflexivity.
Qed.

Lemma simplified_line_derivative qop dw x0 l f : 0 < cos l ->
  (forall w X T sg la ph, transport_family v3zero qop dw x0 l f w X T sg la ph ->
     forall i, is_derive (fun e => end_coords qop dw w X sg la ph e i) 0
       (m5mulv (simplifiedJacobian mident dw (dirvec l f) (T 0 dw) v3zero) w i))
  <-> dw = 0 \/ cos l = 1.
Proof.
  intros C. split.
  - intros H. destruct (line_family qop dw x0 l f e2 C) as (X & T & sg & la & ph & F).
    destruct (line_derivative qop dw x0 l f e2 C X T sg la ph 0 F) as (J & EJ & D).
    specialize (H e2 X T sg la ph F I3). specialize (D I3).
    assert (Q := is_derive_unique _ _ _ H). rewrite (is_derive_unique _ _ _ D) in Q.
    assert (TT : T 0 dw = dirvec l f).
    { destruct (line_unique _ _ _ _ _ (tf_motion _ _ _ _ _ _ _ _ _ _ _ _ F 0) dw) as [E _]. rewrite E, !Rmult_0_l, !Rplus_0_r. auto. }
    rewrite TT in *. destruct (simplified_line dw l f C) as (S1 & _ & _ & S2 & S).
    unfold analyticalJacobian in EJ. cbv zeta in EJ. destruct Req_EM_T as [_|N].
    2:{ exfalso. apply N. unfold vr, v3zero. cbn [vx vy vz]. replace (0 * 0 + 0 * 0 + 0 * 0) with 0 by ring. rewrite sqrt_0. ring. }
    injection EJ as <-. unfold lineJacobian in Q. rewrite trans_dirvec in Q by auto. unfold m5mulv, sum5 in Q. cbv zeta in S1.
    rewrite S1 in Q. unfold e2 in Q. cbn [mk5] in Q. rewrite !Rmult_0_r in Q. unfold m5set in Q. cbn in Q. ring_simplify in Q.
    destruct (Req_dec dw 0); auto. right. apply Rmult_eq_reg_l with dw; lra.
  - intros H w X T sg la ph F i.
    destruct (line_derivative qop dw x0 l f w C X T sg la ph 0 F) as (J & EJ & D).
    assert (TT : T 0 dw = dirvec l f).
    { destruct (line_unique _ _ _ _ _ (tf_motion _ _ _ _ _ _ _ _ _ _ _ _ F 0) dw) as [E _]. rewrite E, !Rmult_0_l, !Rplus_0_r. auto. }
    rewrite TT in *. destruct (simplified_line dw l f C) as (S1 & S3 & S4 & S2 & S).
    unfold analyticalJacobian in EJ. cbv zeta in EJ. destruct Req_EM_T as [_|N].
    2:{ exfalso. apply N. unfold vr, v3zero. cbn [vx vy vz]. replace (0 * 0 + 0 * 0 + 0 * 0) with 0 by ring. rewrite sqrt_0. ring. }
    injection EJ as <-. eapply derive_val; [apply D|].
    assert (E : forall j, lineJacobian mident dw (dirvec l f) i j = simplifiedJacobian mident dw (dirvec l f) (dirvec l f) v3zero i j).
    { intros j. unfold lineJacobian. rewrite trans_dirvec by auto.
      cbv zeta in S, S1, S2, S3, S4.
      destruct i, j; try (rewrite S by congruence; reflexivity); rewrite ?S1, ?S2, ?S3, ?S4; try reflexivity.
      change (dw * cos l = dw). destruct H as [H|H]; rewrite H; ring. }
    unfold m5mulv, sum5. rewrite !E. reflexivity.
Qed.

Lemma simplified_entries jac dw ts te b :
  let J := simplifiedJacobian jac dw ts te b in
  J I4 I1 = dw /\ J I2 I0 = - (vz b * dw) /\ 2 * J I3 I0 = J I2 I0 * J I3 I2
  /\ J I3 I2 * J I3 I2 * (1 + (vz ts - vz te) * (vz ts - vz te)) = dw * dw /\ 0 <= dw * J I3 I2
  /\ forall i j, (i, j) <> (I3, I2) -> (i, j) <> (I4, I1) -> (i, j) <> (I2, I0) -> (i, j) <> (I3, I0) -> J i j = jac i j.
Proof.
  intros J. unfold J, simplifiedJacobian. cbv zeta. set (d := vz ts - vz te).
  assert (P : 0 < 1 + d * d) by nra. assert (Q := sqrt_lt_R0 _ P). assert (S := sqrt_sqrt _ (Rlt_le _ _ P)). 
  assert (K : 1 / sqrt (1 + d * d) * sqrt (1 + d * d) = 1) by (field; lra).
  assert (K0 : 0 < 1 / sqrt (1 + d * d)) by (apply Rdiv_lt_0_compat; lra).
  revert K K0. generalize (1 / sqrt (1 + d * d)). intros c K K0. unfold m5set, m5Unit. cbn.
  split; [reflexivity|]. split; [ring|]. split; [lra|]. split.
  - rewrite <- S. transitivity (dw * dw * ((c * sqrt (1 + d * d)) * (c * sqrt (1 + d * d)))); [ring|rewrite K; ring].
  - split; [assert (0 <= dw * dw) by nra; nra|]. intros i j A1 A2 A3 A4. destruct i, j; try congruence; reflexivity.
Qed.
