(** Proofs about materialUtils.cc (C40, C54, C55). *)
From Coq Require Import Reals Lra List Psatz.
From Coquelicot Require Import Coquelicot.
From Verif Require Import Num NumFacts Vec Helix Isect Trans Material SpecHelix SpecMaterial HelixFacts TransFacts PropagFacts.
Import ListNotations.
Open Scope R_scope.

Lemma vr_pos p : p <> v3zero -> 0 < vr p.
Proof. intros H. destruct (unit_field p H) as (h & _ & _ & P & _). exact P. Qed.

Lemma vr_zero : vr v3zero = 0.
Proof. unfold vr, v3zero. cbn [vx vy vz]. rewrite !Rmult_0_l, !Rplus_0_l. apply sqrt_0. Qed.

Lemma vunit_value p : p <> v3zero -> vunit p = Ok (V3 (vx p / vr p) (vy p / vr p) (vz p / vr p)).
Proof. intros H. assert (P := vr_pos p H). unfold vunit. rewrite !rdiv_ok by lra. reflexivity. Qed.

Lemma vunit_zero : vunit v3zero = NonFin.
Proof. unfold vunit. rewrite vr_zero, rdiv_zero. reflexivity. Qed.

Lemma v3_dec (p : vec3) : p = v3zero \/ p <> v3zero.
Proof.
  destruct p as [x y z]. unfold v3zero. destruct (Req_dec x 0), (Req_dec y 0), (Req_dec z 0);
    try (right; intros E; injection E; intros; contradiction). left. subst. reflexivity.
Qed.

Lemma energy_pos p m : 0 < p -> p < sqrt (p * p + m * m) \/ m = 0.
Proof.
  intros P. destruct (Req_dec m 0); auto. left.
  rewrite <- (sqrt_square p) at 1 by lra. apply sqrt_lt_1; nra.
Qed.

Section Surf.
Variables (surf : surface) (uv : R * R) (p : vec3) (m : R).
Let n := sf_normal surf (sf_localToGlobal surf uv).
Let ri := sf_innerThickness surf.
Let ro := sf_outerThickness surf.
Let xi := mat_radiationLength (sf_innerMaterial surf).
Let xo := mat_radiationLength (sf_outerMaterial surf).

Lemma qms_value : 0 <= ri -> 0 <= ro -> 0 < xi -> 0 < xo -> 0 < ri + ro ->
  p <> v3zero -> vdot p n <> 0 ->
  computeQMS_uv surf uv p m = Ok (highland (vr p) m ((ri / xi + ro / xo) / Rabs (cos_angle p n))).
Proof.
  intros H1 H2 H3 H4 H5 Hp Hn. assert (P := vr_pos p Hp).
  unfold computeQMS_uv. fold ri ro xi xo. rewrite (rdiv_ok ri xi), (rdiv_ok ro xo) by lra. cbn [bind].
  rewrite rdiv_ok by lra. cbn [bind]. rewrite vunit_value by auto. cbn [bind]. fold n.
  assert (Ec : vdot (V3 (vx p / vr p) (vy p / vr p) (vz p / vr p)) n = cos_angle p n).
  { unfold cos_angle, vdot. cbn [vx vy vz]. field. lra. }
  rewrite Ec. assert (C0 : cos_angle p n <> 0).
  { unfold cos_angle, Rdiv. intros E. apply Rmult_integral in E. destruct E; auto.
    assert (/ vr p <> 0) by (apply Rinv_neq_0_compat; lra). contradiction. }
  assert (C : 0 < Rabs (cos_angle p n)) by (apply Rabs_pos_lt; auto).
  rewrite rdiv_ok by lra. cbn [bind].
  assert (En : 0 < sqrt (vr p * vr p + m * m)) by (apply sqrt_lt_R0; nra).
  rewrite rdiv_ok by lra. cbn [bind].
  assert (B : 0 < vr p / sqrt (vr p * vr p + m * m)) by (apply Rdiv_lt_0_compat; lra).
  rewrite rdiv_ok by nra. cbn [bind].
  set (c := Rabs (cos_angle p n)) in *.
  assert (Et : (ri + ro) / c * ((ri / xi + ro / xo) / (ri + ro)) = (ri / xi + ro / xo) / c) by (field; lra).
  rewrite Et.
  assert (Q : 0 < ri / xi + ro / xo).
  { assert (0 < / xi) by (apply Rinv_0_lt_compat; lra). assert (0 < / xo) by (apply Rinv_0_lt_compat; lra).
    unfold Rdiv. destruct (Req_dec ri 0) as [Z|Z].
    - rewrite Z. assert (0 < ro) by lra. nra.
    - assert (0 < ri * / xi) by (apply Rmult_lt_0_compat; lra). assert (0 <= ro * / xo) by nra. lra. }
  assert (T : 0 < (ri / xi + ro / xo) / c) by (apply Rdiv_lt_0_compat; lra).
  unfold rsqrt, rln. destruct Rlt_dec; [lra|]. cbn [bind]. destruct Rlt_dec; [|lra]. cbn [bind].
  f_equal. unfold highland, velocity. ring.
Qed.

Lemma qms_nonfinite : xi <> 0 -> xo <> 0 -> ri + ro = 0 \/ p = v3zero \/ vdot p n = 0 ->
  computeQMS_uv surf uv p m = NonFin.
Proof.
  intros H3 H4 H. unfold computeQMS_uv. fold ri ro xi xo. rewrite (rdiv_ok ri xi), (rdiv_ok ro xo) by auto. cbn [bind].
  destruct (Req_dec (ri + ro) 0) as [Z|Z]; [rewrite Z, rdiv_zero; reflexivity|].
  rewrite rdiv_ok by auto. cbn [bind].
  destruct (v3_dec p) as [E|Hp]; [rewrite E, vunit_zero; reflexivity|].
  rewrite vunit_value by auto. cbn [bind]. fold n. assert (P := vr_pos p Hp).
  assert (Zn : vdot p n = 0) by (destruct H as [|[|]]; congruence).
  assert (Ec : vdot (V3 (vx p / vr p) (vy p / vr p) (vz p / vr p)) n = 0).
  { transitivity (vdot p n / vr p); [unfold vdot; cbn [vx vy vz]; field; lra|]. rewrite Zn. field. lra. }
  rewrite Ec, Rabs_R0, rdiv_zero. reflexivity.
Qed.

Lemma eloss_value bi bo : p <> v3zero -> 0 < m -> vdot p n <> 0 ->
  computeBetheBloch (sf_innerMaterial surf) (vr p) m = Ok bi ->
  computeBetheBloch (sf_outerMaterial surf) (vr p) m = Ok bo ->
  exists e, computeEnergyLoss_uv surf uv p m = Ok e
  /\ el_energy e * el_energy e = vr p * vr p + m * m /\ m < el_energy e
  /\ el_beta e = velocity (vr p) m /\ 0 < el_beta e < 1
  /\ el_deltaE e = (bi * mat_density (sf_innerMaterial surf) * ri + bo * mat_density (sf_outerMaterial surf) * ro)
                   / Rabs (cos_angle p n).
Proof.
  intros Hp Hm Hn B1 B2. assert (P := vr_pos p Hp).
  unfold computeEnergyLoss_uv. rewrite vunit_value by auto. cbn [bind]. fold n ri ro.
  assert (Ec : vdot (V3 (vx p / vr p) (vy p / vr p) (vz p / vr p)) n = cos_angle p n).
  { unfold cos_angle, vdot. cbn [vx vy vz]. field. lra. }
  rewrite Ec. assert (C0 : cos_angle p n <> 0).
  { unfold cos_angle, Rdiv. intros E. apply Rmult_integral in E. destruct E; auto.
    assert (/ vr p <> 0) by (apply Rinv_neq_0_compat; lra). contradiction. }
  assert (C : 0 < Rabs (cos_angle p n)) by (apply Rabs_pos_lt; auto).
  rewrite (rdiv_ok ri), (rdiv_ok ro) by lra. cbn [bind].
  assert (En : 0 < sqrt (vr p * vr p + m * m)) by (apply sqrt_lt_R0; nra).
  rewrite rdiv_ok by lra. cbn [bind]. rewrite B1, B2. cbn [bind].
  eexists. split; [reflexivity|]. cbn [el_deltaE el_energy el_beta].
  split; [apply sqrt_sqrt; nra|]. split.
  - rewrite <- (sqrt_square m) at 1 by lra. apply sqrt_lt_1; nra.
  - split; [reflexivity|]. split.
    + split; [apply Rdiv_lt_0_compat; lra|]. apply Rmult_lt_reg_r with (sqrt (vr p * vr p + m * m)); auto.
      unfold Rdiv. rewrite Rmult_assoc, Rinv_l by lra. rewrite Rmult_1_r, Rmult_1_l.
      destruct (energy_pos (vr p) m P); lra.
    + field. lra.
Qed.

Lemma eloss_grazing : p <> v3zero -> vdot p n = 0 -> computeEnergyLoss_uv surf uv p m = NonFin.
Proof.
  intros Hp Hn. assert (P := vr_pos p Hp). unfold computeEnergyLoss_uv. rewrite vunit_value by auto. cbn [bind]. fold n ri ro.
  assert (Ec : vdot (V3 (vx p / vr p) (vy p / vr p) (vz p / vr p)) n = 0).
  { transitivity (vdot p n / vr p); [unfold vdot; cbn [vx vy vz]; field; lra|]. rewrite Hn. field. lra. }
  rewrite Ec, Rabs_R0, rdiv_zero. reflexivity.
Qed.
End Surf.

(** Highland's formula is positive above a thickness of exp(-1000/38) *)
Lemma highland_sign p m t : 0 < p -> 0 < t ->
  (0 < highland p m t <-> exp (- (1000 / 38)) < t) /\ (highland p m t = 0 <-> t = exp (- (1000 / 38))).
Proof.
  intros P T. unfold highland, velocity.
  assert (En : 0 < sqrt (p * p + m * m)) by (apply sqrt_lt_R0; nra).
  assert (B : 0 < p / sqrt (p * p + m * m)) by (apply Rdiv_lt_0_compat; lra).
  assert (K : 0 < 136 / 10000 / (p * (p / sqrt (p * p + m * m))) * sqrt t).
  { apply Rmult_lt_0_compat; [|apply sqrt_lt_R0; auto]. apply Rdiv_lt_0_compat; [lra|]. apply Rmult_lt_0_compat; lra. }
  set (k := _ * sqrt t) in *. clearbody k.
  assert (E : t = exp (ln t)) by (symmetry; apply exp_ln; auto).
  split; split; intros H.
  - assert (0 < 1 + 38 / 1000 * ln t). { apply Rmult_lt_reg_l with k; lra. }
    rewrite E. apply exp_increasing. lra.
  - rewrite E in H. apply exp_lt_inv in H. apply Rmult_lt_0_compat; lra.
  - assert (1 + 38 / 1000 * ln t = 0). { apply Rmult_eq_reg_l with k; lra. }
    rewrite E. f_equal. lra.
  - rewrite H, ln_exp. field_simplify; lra.
Qed.

(** Bethe-Bloch *)

Lemma excitation_pos Z : 0 < Z -> 0 < excitation Z.
Proof. intros H. unfold excitation. assert (0 < Rpower Z (- (19 / 100))) by apply exp_pos. nra. Qed.
Lemma plasma_pos rho Z A : 0 < rho -> 0 < Z -> 0 < A -> 0 < plasma rho Z A.
Proof.
  intros. unfold plasma. assert (0 < sqrt (rho * Z / A)). { apply sqrt_lt_R0. apply Rdiv_lt_0_compat; nra. } nra.
Qed.

Lemma beta_gamma p m : 0 < p -> 0 < m ->
  velocity p m * velocity p m * (lorentz p m * lorentz p m) = p * p / (m * m)
  /\ lorentz p m * lorentz p m = 1 + p * p / (m * m)
  /\ velocity p m * velocity p m = (p * p / (m * m)) / (1 + p * p / (m * m)).
Proof.
  intros P M. assert (A : 0 < p * p / (m * m)) by (apply Rdiv_lt_0_compat; nra).
  assert (L : lorentz p m * lorentz p m = 1 + p * p / (m * m)) by (unfold lorentz; apply sqrt_sqrt; lra).
  assert (V : velocity p m * velocity p m = (p * p / (m * m)) / (1 + p * p / (m * m))).
  { unfold velocity. assert (E : sqrt (p * p + m * m) * sqrt (p * p + m * m) = p * p + m * m) by (apply sqrt_sqrt; nra).
    assert (0 < sqrt (p * p + m * m)) by (apply sqrt_lt_R0; nra).
    transitivity (p * p / (sqrt (p * p + m * m) * sqrt (p * p + m * m))); [field; lra|]. rewrite E. field. nra. }
  split; [|split]; auto. rewrite L, V. field. nra.
Qed.

Lemma ln_sqrt x : 0 < x -> ln (sqrt x) = / 2 * ln x.
Proof. intros H. rewrite <- Rpower_sqrt by auto. unfold Rpower. apply ln_exp. Qed.

Lemma bb_value mat p m : 0 < mat_density mat -> 0 < mat_Z mat -> 0 < mat_A mat -> 0 < p -> 0 < m ->
  computeBetheBloch mat p m
  = Ok (bethe_bloch kK kMe (mat_Z mat) (mat_A mat) (excitation (mat_Z mat)) m (velocity p m) (lorentz p m)
         (density_effect (ln (p / m) / ln 10)
            (2 * ln (excitation (mat_Z mat) / plasma (mat_density mat) (mat_Z mat) (mat_A mat)) + 1))).
Proof.
  intros Hr HZ HA P M. unfold computeBetheBloch, rpow.
  destruct (beta_gamma p m P M) as (BG & L2 & V2).
  assert (A : 0 < p * p / (m * m)) by (apply Rdiv_lt_0_compat; nra).
  assert (EI := excitation_pos _ HZ). assert (EP := plasma_pos _ _ _ Hr HZ HA).
  destruct Rlt_dec; [|lra]. cbn [bind]. fold (excitation (mat_Z mat)).
  rewrite (rdiv_ok _ (mat_A mat)) by lra. cbn [bind]. unfold rsqrt.
  destruct Rlt_dec as [N|_]. { exfalso. assert (0 < mat_density mat * mat_Z mat / mat_A mat) by (apply Rdiv_lt_0_compat; nra). lra. }
  cbn [bind]. fold (plasma (mat_density mat) (mat_Z mat) (mat_A mat)).
  set (I := excitation (mat_Z mat)) in *. set (W := plasma (mat_density mat) (mat_Z mat) (mat_A mat)) in *.
  rewrite (rdiv_ok (p * p)) by nra. cbn [bind]. rewrite (rdiv_ok kMe) by lra. cbn [bind].
  assert (Es : sqrt (p * p / (m * m)) = p / m).
  { rewrite <- (sqrt_square (p / m)). - f_equal. field. lra. - apply Rlt_le, Rdiv_lt_0_compat; auto. }
  rewrite Es. unfold rln at 1. destruct Rlt_dec as [_|N]; [|exfalso; apply N; apply Rdiv_lt_0_compat; auto]. cbn [bind].
  rewrite (rdiv_ok I) by lra. cbn [bind]. unfold rln at 1.
  destruct Rlt_dec as [_|N]; [|exfalso; apply N; apply Rdiv_lt_0_compat; auto]. cbn [bind].
  assert (Me : 0 < kMe) by (unfold kMe; lra).
  assert (Mm : 0 < kMe / m) by (apply Rdiv_lt_0_compat; auto).
  assert (G : 0 < sqrt (1 + p * p / (m * m))) by (apply sqrt_lt_R0; lra).
  assert (D : 0 < 1 + kMe / m * (2 * sqrt (1 + p * p / (m * m)) + kMe / m)) by nra.
  rewrite rdiv_ok by lra. cbn [bind].
  assert (I2 : 0 < I * I) by nra. rewrite rdiv_ok by lra. cbn [bind].
  assert (ET : 2 * kMe * (p * p / (m * m)) / (1 + kMe / m * (2 * sqrt (1 + p * p / (m * m)) + kMe / m))
               = max_transfer kMe m (velocity p m) (lorentz p m)).
  { unfold max_transfer. rewrite BG. unfold lorentz. f_equal. set (z := sqrt _). clearbody z. field. lra. }
  rewrite ET. assert (T : 0 < max_transfer kMe m (velocity p m) (lorentz p m)).
  { rewrite <- ET. apply Rdiv_lt_0_compat; auto. nra. }
  set (tm := max_transfer kMe m (velocity p m) (lorentz p m)) in *.
  unfold rln. destruct Rlt_dec as [_|N].
  2:{ exfalso. apply N. apply Rdiv_lt_0_compat; auto. apply Rmult_lt_0_compat; auto. nra. }
  cbn [bind]. rewrite (rdiv_ok _ (mat_A mat)) by lra. cbn [bind].
  rewrite (rdiv_ok _ (p * p / (m * m))) by lra. cbn [bind]. rewrite (rdiv_ok _ (1 + p * p / (m * m))) by lra. cbn [bind].
  f_equal. unfold bethe_bloch. fold tm. rewrite BG, V2.
  assert (Ed : (if Rle_dec 3 (ln (p / m) / ln 10)
      then 4606 / 1000 * (ln (p / m) / ln 10) + - (2 * ln (I / W) + 1)
      else if Rle_dec 0 (ln (p / m) / ln 10)
       then 4606 / 1000 * (ln (p / m) / ln 10) + - (2 * ln (I / W) + 1) +
        - - (2 * ln (I / W) + 1) / 27 * ((3 - ln (p / m) / ln 10) * (3 - ln (p / m) / ln 10) * (3 - ln (p / m) / ln 10))
       else 0) = density_effect (ln (p / m) / ln 10) (2 * ln (I / W) + 1)).
  { unfold density_effect. set (x := ln (p / m) / ln 10). set (c := 2 * ln (I / W) + 1). clearbody x c.
    destruct (Rle_dec 3 x); destruct (Rlt_dec x 0); try lra.
    - destruct (Rlt_dec x 3); lra.
    - destruct (Rle_dec 0 x); lra.
    - destruct (Rlt_dec x 3); [|lra]. destruct (Rle_dec 0 x); [|lra]. field. }
  rewrite Ed. set (dd := density_effect _ _). set (lg := ln _). set (bg := p * p / (m * m)) in *. clearbody dd lg bg. field. repeat split; lra.
Qed.

(** the momentum dependence has no jumps *)
Lemma density_continuous C x : continuous (fun x => density_effect x C) x.
Proof.
  assert (L : forall y, density_effect y C =
     (4606 / 1000 * Rmax y 0 - C + C / 27 * ((3 - Rmin 3 (Rmax y 0)) * (3 - Rmin 3 (Rmax y 0)) * (3 - Rmin 3 (Rmax y 0))))).
  { intros y. unfold density_effect. destruct (Rlt_dec y 0).
    - rewrite (Rmax_right y 0), (Rmin_right 3 0) by lra. field.
    - rewrite (Rmax_left y 0) by lra. destruct (Rlt_dec y 3).
      + rewrite (Rmin_right 3 y) by lra. reflexivity.
      + rewrite (Rmin_left 3 y) by lra. field. }
  apply continuous_ext with (f := fun y => 4606 / 1000 * Rmax y 0 - C + C / 27 * ((3 - Rmin 3 (Rmax y 0)) * (3 - Rmin 3 (Rmax y 0)) * (3 - Rmin 3 (Rmax y 0)))).
  { intros y. symmetry. apply L. }
  assert (Cm : continuous (fun y => Rmax y 0) x).
  { apply continuous_ext with (f := fun y => (y + Rabs y) * / 2).
    - intros y. unfold Rmax. destruct Rle_dec; unfold Rabs; destruct Rcase_abs; simpl; lra.
    - apply (continuous_mult (fun y => y + Rabs y) (fun _ => / 2)); [|apply continuous_const].
      apply (continuous_plus (fun y => y) Rabs); [apply continuous_id|apply continuous_Rabs]. }
  assert (Cn : continuous (fun y => 3 - Rmin 3 (Rmax y 0)) x).
  { apply continuous_ext with (f := fun y => (3 - Rmax y 0 + Rabs (3 - Rmax y 0)) * / 2).
    - intros y. set (z := Rmax y 0). unfold Rmin. destruct Rle_dec; unfold Rabs; destruct Rcase_abs; simpl; lra.
    - assert (C3 : continuous (fun y => 3 - Rmax y 0) x).
      { apply (continuous_minus (fun _ => 3) (fun y => Rmax y 0)); [apply continuous_const|exact Cm]. }
      apply (continuous_mult (fun y => 3 - Rmax y 0 + Rabs (3 - Rmax y 0)) (fun _ => / 2)); [|apply continuous_const].
      apply (continuous_plus (fun y => 3 - Rmax y 0) (fun y => Rabs (3 - Rmax y 0))); [exact C3|].
      apply (continuous_comp (fun y => 3 - Rmax y 0) Rabs); [exact C3|apply continuous_Rabs]. }
  apply (continuous_plus (fun y => 4606 / 1000 * Rmax y 0 - C)
     (fun y => C / 27 * ((3 - Rmin 3 (Rmax y 0)) * (3 - Rmin 3 (Rmax y 0)) * (3 - Rmin 3 (Rmax y 0))))).
  - apply (continuous_minus (fun y => 4606 / 1000 * Rmax y 0) (fun _ => C)); [|apply continuous_const].
    apply (continuous_mult (fun _ => 4606 / 1000) (fun y => Rmax y 0)); [apply continuous_const|exact Cm].
  - apply (continuous_mult (fun _ => C / 27) _); [apply continuous_const|].
    apply (continuous_mult (fun y => (3 - Rmin 3 (Rmax y 0)) * (3 - Rmin 3 (Rmax y 0))) (fun y => 3 - Rmin 3 (Rmax y 0))); [|exact Cn].
    apply (continuous_mult (fun y => 3 - Rmin 3 (Rmax y 0)) (fun y => 3 - Rmin 3 (Rmax y 0))); exact Cn.
Qed.

Definition bb_fun (mat : material) (m p : R) : R :=
  bethe_bloch kK kMe (mat_Z mat) (mat_A mat) (excitation (mat_Z mat)) m (velocity p m) (lorentz p m)
   (density_effect (ln (p / m) / ln 10)
      (2 * ln (excitation (mat_Z mat) / plasma (mat_density mat) (mat_Z mat) (mat_A mat)) + 1)).

Lemma bb_continuous mat m p : 0 < mat_density mat -> 0 < mat_Z mat -> 0 < mat_A mat -> 0 < m -> 0 < p ->
  continuous (bb_fun mat m) p.
Proof.
  intros Hr HZ HA M P. set (I := excitation (mat_Z mat)). set (c := 2 * ln (I / plasma (mat_density mat) (mat_Z mat) (mat_A mat)) + 1).
  assert (EI : 0 < I) by (apply excitation_pos; auto).
  assert (EK : 0 < kK * mat_Z mat / mat_A mat) by (apply Rdiv_lt_0_compat; [unfold kK; nra|auto]).
  set (K := kK * mat_Z mat / mat_A mat) in *.
  assert (Me : 0 < kMe) by (unfold kMe; lra).
  set (G := fun q : R => K * ((1 + q * q / (m * m)) / (q * q / (m * m))) *
     (1 / 2 * ln (2 * kMe * (q * q / (m * m)) * (2 * kMe * (q * q / (m * m)) / (1 + 2 * sqrt (1 + q * q / (m * m)) * kMe / m + (kMe / m) * (kMe / m))) / (I * I))
      - (q * q / (m * m)) / (1 + q * q / (m * m)))).
  assert (E : forall q, 0 < q -> bb_fun mat m q = G q - K * ((1 + q * q / (m * m)) / (q * q / (m * m))) * density_effect (ln (q / m) / ln 10) c).
  { intros q Q. destruct (beta_gamma q m Q M) as (BG & L2 & V2). unfold bb_fun, bethe_bloch, max_transfer, G.
    fold I. fold c. fold K. rewrite BG, V2. unfold lorentz.
    assert (0 < q * q / (m * m)) by (apply Rdiv_lt_0_compat; nra).
    set (lg := ln _). set (dd := density_effect _ _). set (bg := q * q / (m * m)) in *. clearbody lg dd bg.
    field. lra. }
  assert (Lc : locally p (fun q => G q - K * ((1 + q * q / (m * m)) / (q * q / (m * m))) * density_effect (ln (q / m) / ln 10) c = bb_fun mat m q)).
  { apply (locally_interval _ p 0 p_infty); simpl; auto. intros q Q _. symmetry. apply E. exact Q. }
  refine (continuous_ext_loc _ _ _ Lc _).
  assert (Hp : 0 < p * p / (m * m)) by (apply Rdiv_lt_0_compat; nra).
  assert (Cb : continuous (fun q => q * q / (m * m)) p).
  { apply (ex_derive_continuous (fun q => q * q / (m * m))). auto_derive. auto. }
  assert (Cf : continuous (fun q => K * ((1 + q * q / (m * m)) / (q * q / (m * m)))) p).
  { apply (continuous_comp (fun q => q * q / (m * m)) (fun b => K * ((1 + b) / b))); [exact Cb|].
    clearbody K. apply (ex_derive_continuous (fun b => K * ((1 + b) / b))). auto_derive. lra. }
  apply (continuous_minus G (fun q => K * ((1 + q * q / (m * m)) / (q * q / (m * m))) * density_effect (ln (q / m) / ln 10) c)).
  - unfold G.
    apply (continuous_comp (fun q => q * q / (m * m)) (fun b => K * ((1 + b) / b) *
       (1 / 2 * ln (2 * kMe * b * (2 * kMe * b / (1 + 2 * sqrt (1 + b) * kMe / m + kMe / m * (kMe / m))) / (I * I)) - b / (1 + b)))); [exact Cb|].
    set (b := p * p / (m * m)) in *. clearbody b K I. set (k := kMe) in *. clearbody k.
    assert (Hs : 0 < sqrt (1 + b)) by (apply sqrt_lt_R0; lra).
    assert (Hm : 0 < / m) by (apply Rinv_0_lt_compat; auto).
    assert (Hd : 0 < 1 + 2 * sqrt (1 + b) * k / m + k / m * (k / m)).
    { unfold Rdiv. assert (0 < sqrt (1 + b) * (k * / m)) by (apply Rmult_lt_0_compat; nra). nra. }
    match goal with |- continuous ?F _ => apply (ex_derive_continuous F) end.
    auto_derive. repeat split; try lra.
    assert (HI : 0 < / (I * I)) by (apply Rinv_0_lt_compat; nra).
    assert (Hi := Rinv_0_lt_compat _ Hd). unfold Rdiv in Hi.
    apply Rmult_lt_0_compat; auto. apply Rmult_lt_0_compat; [nra|]. apply Rmult_lt_0_compat; [nra|exact Hi].
  - apply (continuous_mult (fun q => K * ((1 + q * q / (m * m)) / (q * q / (m * m)))) (fun q => density_effect (ln (q / m) / ln 10) c)); [exact Cf|].
    apply (continuous_comp (fun q => ln (q / m) / ln 10) (fun x => density_effect x c)); [|apply density_continuous].
    clear - M P. apply (ex_derive_continuous (fun q => ln (q / m) / ln 10)).
    assert (ln 10 <> 0) by (apply Rgt_not_eq; rewrite <- ln_1; apply ln_increasing; lra).
    auto_derive. apply Rmult_lt_0_compat; auto. apply Rinv_0_lt_compat; auto.
Qed.

(** asymptotic behaviour *)
Lemma ln10_bounds : 2 < ln 10 < 3.
Proof.
  assert (E2 : exp 2 <= 9).
  { replace 2 with (1 + 1) by ring. rewrite exp_plus. assert (H := exp_le_3). assert (0 < exp 1) by apply exp_pos. nra. }
  assert (E3 : 10 < exp 3).
  { assert (H : 1 + / 2 < exp (/ 2)) by (apply exp_ineq1; lra).
    replace 3 with (/ 2 + / 2 + (/ 2 + / 2) + (/ 2 + / 2)) by field. rewrite !exp_plus.
    set (a := exp (/ 2)) in *. clearbody a. assert (9 / 4 < a * a) by nra. set (b := a * a) in *. clearbody b.
    assert (81 / 16 < b * b) by nra. nra. }
  split.
  - rewrite <- (ln_exp 2). apply ln_increasing; [apply exp_pos|lra].
  - rewrite <- (ln_exp 3). apply ln_increasing; lra.
Qed.

Lemma eventually_ln a K : 0 < a -> exists Y, 1000 <= Y /\ forall y, Y < y -> K < a * ln y.
Proof.
  intros A. exists (Rmax 1000 (exp (K / a))). split; [apply Rmax_l|].
  intros y Hy. assert (1000 < y) by (generalize (Rmax_l 1000 (exp (K / a))); lra).
  assert (E : exp (K / a) < y) by (generalize (Rmax_r 1000 (exp (K / a))); lra).
  apply ln_increasing in E; [|apply exp_pos]. rewrite ln_exp in E.
  replace K with (a * (K / a)) by (field; lra). apply Rmult_lt_compat_l; auto.
Qed.

Section Asym.
Variables (mat : material) (m : R).
Hypothesis (Hr : 0 < mat_density mat) (HZ : 0 < mat_Z mat) (HA : 0 < mat_A mat) (Hm : 0 < m).
Let I := excitation (mat_Z mat).
Let C := 2 * ln (I / plasma (mat_density mat) (mat_Z mat) (mat_A mat)) + 1.

Lemma ln_cube_3 y k : 0 < y -> 0 < k -> ln (k * (y * y * y)) = ln k + 3 * ln y.
Proof. intros. rewrite !ln_mult by (repeat apply Rmult_lt_0_compat; auto). ring. Qed.

Lemma sigma_high y : 1000 < y -> density_effect (ln (y * m / m) / ln 10) C = 4606 / 1000 * (ln y / ln 10) - C.
Proof.
  intros Y. replace (y * m / m) with y by (field; lra). destruct ln10_bounds as [L1 L2].
  assert (3 < ln y / ln 10).
  { apply Rmult_lt_reg_r with (ln 10); [lra|]. unfold Rdiv. rewrite Rmult_assoc, Rinv_l by lra. rewrite Rmult_1_r.
    assert (E : ln 1000 < ln y) by (apply ln_increasing; lra).
    replace 1000 with (10 * 10 * 10) in E by ring. rewrite !ln_mult in E by lra. lra. }
  unfold density_effect. destruct Rlt_dec; [lra|]. destruct Rlt_dec; lra.
Qed.

Lemma kin y : 1000 < y -> exists b2, 0 < b2 < 1 /\
  velocity (y * m) m * velocity (y * m) m = b2
  /\ velocity (y * m) m * velocity (y * m) m * (lorentz (y * m) m * lorentz (y * m) m) = y * y
  /\ y < lorentz (y * m) m < 2 * y.
Proof.
  intros Y. destruct (beta_gamma (y * m) m) as (BG & L2 & V2); [nra|auto|].
  assert (E : y * m * (y * m) / (m * m) = y * y) by (field; lra). rewrite E in *.
  exists (y * y / (1 + y * y)). split; [|split; [exact V2|split; [exact BG|]]].
  - split; [apply Rdiv_lt_0_compat; nra|]. apply Rmult_lt_reg_r with (1 + y * y); [nra|].
    unfold Rdiv. rewrite Rmult_assoc, Rinv_l by nra. lra.
  - unfold lorentz. rewrite E. split.
    + rewrite <- (sqrt_square y) at 1 by lra. apply sqrt_lt_1; nra.
    + rewrite <- (sqrt_square (2 * y)) by lra. apply sqrt_lt_1; nra.
Qed.

Lemma tmax_bounds y : 1000 < y ->
  let t := max_transfer kMe m (velocity (y * m) m) (lorentz (y * m) m) in
  t <= m * y /\ 2 * kMe / (1 + 4 * (kMe / m) + kMe / m * (kMe / m)) * y <= t /\ 0 < t.
Proof.
  intros Y t. destruct (kin y Y) as (b2 & _ & _ & BG & G1 & G2).
  unfold t, max_transfer. rewrite BG. set (g := lorentz (y * m) m) in *. clearbody g.
  assert (Me : 0 < kMe) by (unfold kMe; lra). set (r := kMe / m).
  assert (R0 : 0 < r) by (apply Rdiv_lt_0_compat; auto).
  assert (Ek : kMe = r * m) by (unfold r; field; lra).
  replace (2 * g * kMe / m) with (2 * g * r) by (unfold r; field; lra). rewrite Ek. clearbody r.
  assert (D : 0 < 1 + 2 * g * r + r * r) by nra.
  assert (D2 : 0 < 1 + 4 * r + r * r) by nra.
  split; [|split].
  - apply Rmult_le_reg_r with (1 + 2 * g * r + r * r); auto.
    unfold Rdiv. rewrite Rmult_assoc, Rinv_l, Rmult_1_r by lra.
    assert (m * y * (2 * y * r) <= m * y * (2 * g * r)).
    { apply Rmult_le_compat_l; [nra|]. nra. }
    assert (0 < m * y) by nra. nra.
  - apply Rmult_le_reg_r with (1 + 2 * g * r + r * r); auto.
    unfold Rdiv. rewrite (Rmult_assoc (2 * (r * m) * (y * y))), Rinv_l, Rmult_1_r by lra.
    apply Rmult_le_reg_r with (1 + 4 * r + r * r); auto.
    apply Rle_trans with (2 * (r * m) * y * (1 + 2 * g * r + r * r)); [right; field; lra|].
    assert (W : 1 + 2 * g * r + r * r <= y * (1 + 4 * r + r * r)).
    { assert (g * r <= 2 * y * r) by nra. assert (r * r <= y * (r * r)) by nra. nra. }
    assert (0 < r * m) by nra.
    apply Rle_trans with (2 * (r * m) * y * (y * (1 + 4 * r + r * r))); [|right; ring].
    apply Rmult_le_compat_l; [nra|exact W].
  - apply Rdiv_lt_0_compat; auto. clear t. assert (0 < r * m) by nra. apply Rmult_lt_0_compat; nra.
Qed.

Lemma bb_sign_factor bt : 0 < bt * bt -> 0 < kK * mat_Z mat / mat_A mat * / (bt * bt).
Proof.
  intros B. apply Rmult_lt_0_compat; [|apply Rinv_0_lt_compat; auto]. apply Rdiv_lt_0_compat; [unfold kK; nra|auto].
Qed.

Lemma bb_eventually_negative : exists P, 0 < P /\ forall p, P < p -> exists d, computeBetheBloch mat p m = Ok d /\ d < 0.
Proof.
  destruct ln10_bounds as [L1 L2].
  set (a := 4606 / 1000 * / ln 10 - 3 / 2).
  assert (A : 0 < a).
  { unfold a. assert (/ 3 < / ln 10) by (apply Rinv_lt_contravar; nra). lra. }
  assert (EI : 0 < I) by (apply excitation_pos; auto). assert (Me : 0 < kMe) by (unfold kMe; lra).
  set (k0 := 2 * kMe * m / (I * I)). assert (K0 : 0 < k0) by (apply Rdiv_lt_0_compat; nra).
  destruct (eventually_ln a (1 / 2 * ln k0 + C) A) as (Y & Y1 & HY).
  exists (Y * m). split; [nra|]. intros p Hp.
  assert (Hy : exists y, p = y * m) by (exists (p / m); field; lra). destruct Hy as [y Ey].
  assert (Yy : Y < y). { apply Rmult_lt_reg_r with m; auto. rewrite <- Ey. exact Hp. }
  subst p. assert (Y3 : 1000 < y) by lra.
  eexists. split; [apply bb_value; auto; nra|]. fold I. fold C.
  destruct (kin y Y3) as (b2 & B1 & B2 & BG & _). destruct (tmax_bounds y Y3) as (T1 & _ & T3). cbv zeta in T1, T3.
  rewrite sigma_high by auto. unfold bethe_bloch. set (t := max_transfer _ _ _ _) in *. rewrite BG.
  assert (F := bb_sign_factor (velocity (y * m) m) ltac:(lra)). set (k := kK * _ / _ * _) in *.
  assert (X : ln (2 * kMe * (y * y) * t / (I * I)) <= ln k0 + 3 * ln y).
  { rewrite <- ln_cube_3 by (auto; lra). 
    assert (Z : 0 < / (I * I)) by (apply Rinv_0_lt_compat; nra).
    apply ln_le.
    - apply Rdiv_lt_0_compat; [|apply Rmult_lt_0_compat; exact EI]. apply Rmult_lt_0_compat; [apply Rmult_lt_0_compat; [lra|apply Rmult_lt_0_compat; lra]|exact T3].
    - unfold k0, Rdiv. apply Rle_trans with (2 * kMe * (y * y) * (m * y) * / (I * I)); [|right; ring].
      apply Rmult_le_compat_r; [lra|]. apply Rmult_le_compat_l; [nra|exact T1]. }
  specialize (HY y Yy). unfold a in HY. unfold Rdiv in *.
  assert (Q : 1 * / 2 * ln (2 * kMe * (y * y) * t * / (I * I)) - velocity (y * m) m * velocity (y * m) m
     - (4606 * / 1000 * (ln y * / ln 10) - C) < 0).
  { rewrite B2. set (lg := ln (2 * kMe * (y * y) * t * / (I * I))) in *. set (ly := ln y) in *. set (lk := ln k0) in *.
    assert (4606 * / 1000 * (ly * / ln 10) = 4606 * / 1000 * / ln 10 * ly) by ring. 
    assert ((4606 * / 1000 * / ln 10 - 3 * / 2) * ly = 4606 * / 1000 * / ln 10 * ly - 3 * / 2 * ly) by ring. lra. }
  match goal with |- k * ?e < 0 => assert (e < 0) by exact Q end. clear - F H. nra.
Qed.

(** with half of the density effect, as in the published formula, it is not *)
Lemma bb_half_eventually_positive : exists P, 0 < P /\ forall p, P < p ->
  0 < bethe_bloch kK kMe (mat_Z mat) (mat_A mat) I m (velocity p m) (lorentz p m) (density_effect (ln (p / m) / ln 10) C / 2).
Proof.
  destruct ln10_bounds as [L1 L2].
  set (a := 3 / 2 - 2303 / 1000 * / ln 10).
  assert (A : 0 < a).
  { unfold a. assert (/ ln 10 < / 2) by (apply Rinv_lt_contravar; nra). lra. }
  assert (EI : 0 < I) by (apply excitation_pos; auto). assert (Me : 0 < kMe) by (unfold kMe; lra).
  assert (R0 : 0 < kMe / m) by (apply Rdiv_lt_0_compat; auto).
  set (t0 := 2 * kMe / (1 + 4 * (kMe / m) + kMe / m * (kMe / m))). assert (T0 : 0 < t0) by (apply Rdiv_lt_0_compat; nra).
  set (k0 := 2 * kMe * t0 / (I * I)). assert (K0 : 0 < k0) by (apply Rdiv_lt_0_compat; nra).
  destruct (eventually_ln a (1 - C / 2 - 1 / 2 * ln k0) A) as (Y & Y1 & HY).
  exists (Y * m). split; [nra|]. intros p Hp.
  assert (Hy : exists y, p = y * m) by (exists (p / m); field; lra). destruct Hy as [y Ey].
  assert (Yy : Y < y). { apply Rmult_lt_reg_r with m; auto. rewrite <- Ey. exact Hp. }
  subst p. assert (Y3 : 1000 < y) by lra.
  destruct (kin y Y3) as (b2 & B1 & B2 & BG & _). destruct (tmax_bounds y Y3) as (_ & T1 & T3). cbv zeta in T1, T3. fold t0 in T1.
  rewrite sigma_high by auto. unfold bethe_bloch. set (t := max_transfer _ _ _ _) in *. rewrite BG.
  assert (F := bb_sign_factor (velocity (y * m) m) ltac:(lra)). set (k := kK * _ / _ * _) in *.
  assert (X : ln k0 + 3 * ln y <= ln (2 * kMe * (y * y) * t / (I * I))).
  { rewrite <- ln_cube_3 by (auto; lra). 
    assert (Z : 0 < / (I * I)) by (apply Rinv_0_lt_compat; nra).
    apply ln_le.
    - apply Rmult_lt_0_compat; auto. assert (0 < y * y) by nra. nra.
    - unfold k0, Rdiv. apply Rle_trans with (2 * kMe * (y * y) * (t0 * y) * / (I * I)); [right; ring|].
      apply Rmult_le_compat_r; [lra|]. apply Rmult_le_compat_l; [nra|exact T1]. }
  specialize (HY y Yy). unfold a in HY. unfold Rdiv in *.
  apply Rmult_lt_0_compat; [exact F|]. rewrite B2.
  set (lg := ln (2 * kMe * (y * y) * t * / (I * I))) in *. set (ly := ln y) in *. set (lk := ln k0) in *.
  assert (4606 * / 1000 * (ly * / ln 10) = 4606 * / 1000 * / ln 10 * ly) by ring. 
  assert ((3 * / 2 - 2303 * / 1000 * / ln 10) * ly = 3 * / 2 * ly - 2303 * / 1000 * / ln 10 * ly) by ring. lra.
Qed.
End Asym.

(** the azimuth of the direction at a point of the helix *)
Lemma phi_direction hp rp f : is_helix hp rp f -> forall s,
  cos (calculatePhifromXY (vx (f s)) (vy (f s)) hp rp) = cos (hp PHI0 - hp OMEGA * s)
  /\ sin (calculatePhifromXY (vx (f s)) (vy (f s)) hp rp) = sin (hp PHI0 - hp OMEGA * s).
Proof.
  intros Hf s.
  assert (E : calculatePhifromXY (vx (f s)) (vy (f s)) hp rp = atan2 (sin (hp PHI0 - hp OMEGA * s)) (cos (hp PHI0 - hp OMEGA * s))).
  { unfold calculatePhifromXY, calculateX0, calculateY0, calculatePhi0, calculateD0, calculateCurvature.
    destruct (Req_dec (hp OMEGA) 0) as [Z|N].
    - rewrite Z. replace (hp PHI0 - 0 * s) with (hp PHI0) by ring. f_equal; ring.
    - rewrite (helix_is_hcurve hp rp f N Hf s). unfold hcurve. cbn [vx vy]. rewrite sin_neg.
      replace (hp PHI0 - s * hp OMEGA) with (hp PHI0 - hp OMEGA * s) by ring.
      f_equal; field; auto. }
  rewrite E. set (t := hp PHI0 - hp OMEGA * s).
  assert (C := atan2_cos (sin t) (cos t)). assert (S := atan2_sin (sin t) (cos t)).
  replace (cos t * cos t + sin t * sin t) with 1 in C, S by (generalize (sc1 t); lra). rewrite sqrt_1 in C, S. lra.
Qed.

(** momentum used by computeQMS and computeEnergyLoss for a track *)
Definition used_momentum (bz : R) (hp : vec5) (phi : R) : vec3 :=
  let pt := Rabs (1 / hp OMEGA) * bz * convertBr2P_cm in V3 (pt * cos phi) (pt * sin phi) (pt * hp TANL).

Lemma used_momentum_value hp bz s phi : hp OMEGA <> 0 -> bz <> 0 ->
  cos phi = cos (hp PHI0 - hp OMEGA * s) -> sin phi = sin (hp PHI0 - hp OMEGA * s) ->
  exists k, (k = Rabs (1 / calculateQoverP hp bz) \/ k = - Rabs (1 / calculateQoverP hp bz))
    /\ used_momentum bz hp phi = vscale k (calculateTangent s hp).
Proof.
  intros Ho Hb Ec Es. unfold used_momentum. rewrite Ec, Es.
  assert (A := momentum_scaled (fun _ => V3 0 0 bz) s hp v3zero Ho). cbn [vz] in A. cbv zeta in A.
  unfold momentumAt, calculateOmega in A. rewrite rdiv_ok in A by auto. cbn [bind vz] in A.
  unfold calculatePhi0, calculateTanLambda in A. 
  replace (hp PHI0 - s * hp OMEGA) with (hp PHI0 - hp OMEGA * s) in A by ring.
  destruct A as (A1 & A2 & _). destruct (Rtotal_order bz 0) as [N|[N|N]]; [|contradiction|].
  - destruct (A2 N) as (k & K1 & K2). exists (- k). split; [right; congruence|]. injection K2. intros. unfold vscale. f_equal; assumption.
  - destruct (A1 N) as (k & K1 & K2). exists k. split; [left; congruence|]. injection K2. intros. unfold vscale. f_equal; assumption.
Qed.

Lemma tangent_norm s hp : vr (calculateTangent s hp) = 1.
Proof.
  destruct (Req_dec (hp OMEGA) 0) as [Z|N].
  - apply (tangent_unit_derivative hp v3zero (hline hp v3zero)). apply hline_helix; auto.
  - apply (tangent_unit_derivative hp v3zero (hcurve hp v3zero)). apply hcurve_helix; auto.
Qed.

Lemma vr_scale k a : vr (vscale k a) = Rabs k * vr a.
Proof.
  unfold vr, vscale. cbn [vx vy vz]. rewrite <- sqrt_Rsqr_abs, <- sqrt_mult_alt by apply Rle_0_sqr.
  f_equal. unfold Rsqr. ring.
Qed.

Lemma used_norm k a q : q <> 0 -> vr a = 1 -> k = Rabs q \/ k = - Rabs q ->
  vr (vscale k a) = Rabs q /\ vscale k a <> v3zero
  /\ forall n, Rabs (cos_angle (vscale k a) n) = Rabs (vdot a n) /\ (vdot (vscale k a) n = 0 <-> vdot a n = 0).
Proof.
  intros Hq Ha Hk. assert (Q : 0 < Rabs q) by (apply Rabs_pos_lt; auto).
  assert (E : Rabs k = Rabs q) by (destruct Hk as [-> | ->]; rewrite ?Rabs_Ropp; apply Rabs_Rabsolu).
  assert (V : vr (vscale k a) = Rabs q) by (rewrite vr_scale, Ha, E; ring).
  assert (k <> 0) by (intros Z; rewrite Z, Rabs_R0 in E; lra).
  assert (L : forall n, vdot (vscale k a) n = k * vdot a n) by (intros; unfold vdot, vscale; cbn [vx vy vz]; ring).
  split; auto. split.
  - intros Z. rewrite Z, vr_zero in V. lra.
  - intros n. split.
    + unfold cos_angle. rewrite V, L. unfold Rdiv. rewrite !Rabs_mult, E, Rabs_inv, Rabs_Rabsolu. field. lra.
    + rewrite L. split; intros Z.
      * apply Rmult_integral in Z. destruct Z; [contradiction|auto].
      * rewrite Z. ring.
Qed.

Lemma qop_nonzero hp bz : hp OMEGA <> 0 -> bz <> 0 -> calculateQoverP hp bz <> 0.
Proof. intros Ho Hb. destruct (qop_sign hp bz Hb Ho) as [N _]. exact N. Qed.

Lemma qms_track bf surf hp rp f m s xx :
  let t := sf_innerThickness surf / mat_radiationLength (sf_innerMaterial surf)
         + sf_outerThickness surf / mat_radiationLength (sf_outerMaterial surf) in
  let n := sf_normal surf (sf_localToGlobal surf (sf_globalToLocal surf xx)) in
  let bz := vz (bf xx) in
  0 <= sf_innerThickness surf -> 0 <= sf_outerThickness surf ->
  0 < mat_radiationLength (sf_innerMaterial surf) -> 0 < mat_radiationLength (sf_outerMaterial surf) ->
  hp OMEGA <> 0 -> bz <> 0 -> is_helix hp rp f ->
  intersectWithSurface surf hp rp (OVal 0 v3zero) 0 true = Ok (true, OVal s xx) -> 
  forall s', xx = f s' ->
  computeQMS_hp bf surf hp rp m =
     if Req_EM_T (sf_innerThickness surf + sf_outerThickness surf) 0 then NonFin
     else if Req_EM_T (vdot (calculateTangent s' hp) n) 0 then NonFin
     else Ok (highland (Rabs (1 / calculateQoverP hp bz)) m (t / Rabs (vdot (calculateTangent s' hp) n))).
Proof.
  intros t n bz H1 H2 H3 H4 Ho Hb Hf HI s'' E''. unfold computeQMS_hp. rewrite HI. cbn [bind].
  unfold calculateOmega, calculateTanLambda. rewrite rdiv_ok by auto. cbn [bind]. fold bz.
  destruct (phi_direction hp rp f Hf s'') as [Pc Ps]. rewrite <- E'' in Pc, Ps.
  destruct (used_momentum_value hp bz s'' _ Ho Hb Pc Ps) as (k & K1 & K2).
  unfold used_momentum in K2. cbv zeta in K2. rewrite K2.
  assert (Hq : 1 / calculateQoverP hp bz <> 0).
  { unfold Rdiv. rewrite Rmult_1_l. apply Rinv_neq_0_compat. apply qop_nonzero; auto. }
  destruct (used_norm k (calculateTangent s'' hp) _ Hq (tangent_norm s'' hp) K1) as (V & Nz & Cn).
  destruct (Cn n) as [C1 C2].
  destruct Req_EM_T as [Z|Z].
  - apply qms_nonfinite; auto; lra.
  - destruct Req_EM_T as [Z'|Z'].
    + apply qms_nonfinite; auto; try lra. right; right. apply C2. exact Z'.
    + rewrite qms_value; auto.
      * fold n. fold t. rewrite V, C1. reflexivity.
      * lra.
      * fold n. intros Q. apply Z', C2, Q.
Qed.

Lemma eloss_track bf surf tp f m s xx :
  let hp := tp_par tp in
  let mi := sf_innerMaterial surf in
  let mo := sf_outerMaterial surf in
  let n := sf_normal surf (sf_localToGlobal surf (sf_globalToLocal surf xx)) in
  let bz := vz (bf xx) in
  let p := Rabs (1 / calculateQoverP hp bz) in
  0 < m ->
  0 < mat_density mi -> 0 < mat_Z mi -> 0 < mat_A mi -> 0 < mat_density mo -> 0 < mat_Z mo -> 0 < mat_A mo ->
  hp OMEGA <> 0 -> bz <> 0 -> is_helix hp (tp_ref tp) f ->
  intersectWithSurface surf hp (tp_ref tp) (OVal 0 v3zero) 0 true = Ok (true, OVal s xx) -> 
  forall s', xx = f s' ->
  (vdot (calculateTangent s' hp) n = 0 -> computeEnergyLoss_tp bf surf tp m = NonFin)
  /\ (vdot (calculateTangent s' hp) n <> 0 ->
   exists e bi bo, computeEnergyLoss_tp bf surf tp m = Ok (inr e)
   /\ computeBetheBloch mi p m = Ok bi /\ computeBetheBloch mo p m = Ok bo
   /\ el_energy e * el_energy e = p * p + m * m /\ m < el_energy e
   /\ el_beta e = velocity p m /\ 0 < el_beta e < 1
   /\ el_deltaE e = (bi * mat_density mi * sf_innerThickness surf + bo * mat_density mo * sf_outerThickness surf)
                    / Rabs (vdot (calculateTangent s' hp) n)).
Proof.
  intros hp mi mo n bz p M A1 A2 A3 A4 A5 A6 Ho Hb Hf HI s' E.
  unfold computeEnergyLoss_tp. fold hp. rewrite HI. cbn [bind].
  unfold calculateOmega, calculateTanLambda. rewrite rdiv_ok by auto. cbn [bind]. fold bz.
  destruct (phi_direction hp (tp_ref tp) f Hf s') as [Pc Ps]. rewrite <- E in Pc, Ps.
  destruct (used_momentum_value hp bz s' _ Ho Hb Pc Ps) as (k & K1 & K2).
  unfold used_momentum in K2. cbv zeta in K2. rewrite K2.
  assert (Hq : 1 / calculateQoverP hp bz <> 0).
  { unfold Rdiv. rewrite Rmult_1_l. apply Rinv_neq_0_compat. apply qop_nonzero; auto. }
  destruct (used_norm k (calculateTangent s' hp) _ Hq (tangent_norm s' hp) K1) as (V & Nz & Cn).
  destruct (Cn n) as [C1 C2]. fold p in V. assert (P : 0 < p) by (apply Rabs_pos_lt; auto).
  split; intros Z.
  - rewrite eloss_grazing; auto. fold n. apply C2. exact Z.
  - destruct (eloss_value surf (sf_globalToLocal surf xx) (vscale k (calculateTangent s' hp)) m (bb_fun mi m p) (bb_fun mo m p))
      as (e & Ee & B1 & B2 & B3 & B4 & B5); auto.
    + fold n. intros Q. apply Z, C2, Q.
    + rewrite V. apply bb_value; auto.
    + rewrite V. apply bb_value; auto.
    + exists e, (bb_fun mi m p), (bb_fun mo m p). rewrite Ee. cbn [bind]. fold n in B5. rewrite V in B1, B3. rewrite C1 in B5.
      split; [reflexivity|]. split; [apply bb_value; auto|]. split; [apply bb_value; auto|].
      split; [exact B1|]. split; [exact B2|]. split; [exact B3|]. split; [exact B4|exact B5].
Qed.
