(** An uncharged track in a field (C28): the neighbouring motions. *)
From Coq Require Import Reals Lra Psatz.
From Coquelicot Require Import Coquelicot.
From Verif Require Import SpecConst Num Vec Trans Propag SpecMat SpecPropag.
Open Scope R_scope.

Lemma atan_le_id x : 0 <= x -> atan x <= x.
Proof.
  intros H. destruct (Req_dec x 0) as [->|N]; [rewrite atan_0; lra|].
  destruct (Rle_dec (atan x) x) as [|G]; auto. exfalso.
  destruct (MVT_gen (fun y => y - atan y) 0 x (fun y => 1 - / (1 + y * y))) as (c & _ & E).
  - intros y _. auto_derive; auto. field. nra.
  - intros y _. apply continuity_pt_minus; [apply derivable_continuous_pt; reg|apply derivable_continuous_pt, derivable_pt_atan].
  - rewrite atan_0 in E. assert (0 <= 1 - / (1 + c * c)).
    { assert (/ (1 + c * c) <= / 1) by (apply Rinv_le_contravar; nra). lra. }
    nra.
Qed.

Lemma asin_bounds u : 0 <= u -> u * u <= 1 / 2 -> u <= asin u <= u * (1 + 2 * (u * u)).
Proof.
  intros H L. assert (U : u < 1) by nra. assert (B := asin_bound u).
  assert (S : sin (asin u) = u) by (apply sin_asin; lra).
  assert (P : 0 <= asin u).
  { destruct (Rle_dec 0 (asin u)) as [|N]; auto. exfalso.
    assert (0 < sin (- asin u)) by (apply sin_gt_0; lra). rewrite sin_neg in H0. lra. }
  split.
  - destruct (Req_dec (asin u) 0) as [Z|N]; [rewrite Z, sin_0 in S; lra|].
    rewrite <- S at 1. left. apply sin_lt_x. lra.
  - assert (Q : 0 < 1 - u * u) by nra.
    assert (Sq : 1 - u * u <= sqrt (1 - u * u)).
    { rewrite <- (sqrt_square (1 - u * u)) at 1 by lra. apply sqrt_le_1; nra. }
    assert (E : asin u = atan (u / sqrt (1 - u * u))).
    { rewrite asin_atan by lra. reflexivity. }
    rewrite E. apply Rle_trans with (u / sqrt (1 - u * u)).
    + apply atan_le_id. apply Rmult_le_pos; auto. left. apply Rinv_0_lt_compat. lra.
    + apply Rmult_le_compat_l; auto. apply Rle_trans with (/ (1 - u * u)); [apply Rinv_le_contravar; lra|].
      apply Rmult_le_reg_r with (1 - u * u); auto. rewrite Rinv_l by lra. nra.
Qed.

Definition nb_sg (k e : R) : R := if Req_EM_T e 0 then 1 else asin (k * e) / (k * e).
Definition nb_T (k e s : R) : vec3 := V3 (cos (k * e * s)) (- sin (k * e * s)) 0.
Definition nb_X (k e s : R) : vec3 :=
  if Req_EM_T e 0 then V3 s 0 0 else V3 (sin (k * e * s) / (k * e)) ((cos (k * e * s) - 1) / (k * e)) 0.

Lemma nb_sg_near k e : k <> 0 -> (k * e) * (k * e) <= 1 / 2 -> Rabs (nb_sg k e - 1) <= 2 * ((k * e) * (k * e)).
Proof.
  intros K L. unfold nb_sg. destruct (Req_EM_T e 0) as [->|N].
  - rewrite Rminus_eq_0, Rabs_R0. nra.
  - assert (U : k * e <> 0) by (apply Rmult_integral_contrapositive_currified; auto).
    set (u := k * e) in *.
    assert (G : forall v, 0 < v -> v * v = u * u -> Rabs (asin v / v - 1) <= 2 * (u * u)).
    { intros v V Q. destruct (asin_bounds v) as [A B]; [lra|lra|].
      replace (asin v / v - 1) with ((asin v - v) / v) by (field; lra).
      rewrite Rabs_pos_eq; [|apply Rmult_le_pos; [lra|left; apply Rinv_0_lt_compat; auto]].
      apply Rmult_le_reg_r with v; auto. unfold Rdiv. rewrite Rmult_assoc, Rinv_l by lra. rewrite <- Q. lra. }
    destruct (Rlt_dec 0 u) as [P|P]; [apply G; auto|].
    replace (asin u / u) with (asin (- u) / (- u)); [apply G; [lra|ring]|].
    rewrite asin_opp. field. auto.
Qed.

Lemma nb_sg_derive k : k <> 0 -> is_derive (nb_sg k) 0 0.
Proof.
  intros K. apply is_derive_Reals. intros eps He.
  assert (Kp : 0 < Rabs k) by (apply Rabs_pos_lt; auto).
  set (d := Rmin (/ (2 * Rabs k)) (eps / (4 * (k * k)))).
  assert (K2 : 0 < k * k) by nra.
  assert (Dp : 0 < d).
  { unfold d. apply Rmin_pos; [apply Rinv_0_lt_compat; lra|]. apply Rdiv_lt_0_compat; lra. }
  exists (mkposreal d Dp). intros h Hh Lh. cbn in Lh. rewrite Rplus_0_l, Rminus_0_r.
  assert (Z : nb_sg k 0 = 1) by (unfold nb_sg; destruct (Req_EM_T 0 0); lra). rewrite Z.
  assert (L1 : Rabs h < / (2 * Rabs k)) by (eapply Rlt_le_trans; [exact Lh|apply Rmin_l]).
  assert (L2 : Rabs h < eps / (4 * (k * k))) by (eapply Rlt_le_trans; [exact Lh|apply Rmin_r]).
  assert (H0 : 0 < Rabs h) by (apply Rabs_pos_lt; auto).
  assert (Q : Rabs k * Rabs h < 1 / 2).
  { apply Rmult_lt_compat_l with (r := Rabs k) in L1; auto.
    replace (Rabs k * / (2 * Rabs k)) with (1 / 2) in L1 by (field; lra). auto. }
  assert (Sq : forall x, x * x = Rabs x * Rabs x) by (intros x; unfold Rabs; destruct (Rcase_abs x); ring).
  assert (N := nb_sg_near k h K).
  assert (L3 : k * h * (k * h) <= 1 / 2).
  { rewrite (Sq (k * h)), Rabs_mult. assert (0 < Rabs k * Rabs h) by (apply Rmult_lt_0_compat; auto). nra. }
  specialize (N L3). unfold Rdiv. rewrite Rabs_mult, Rabs_inv.
  apply Rle_lt_trans with (2 * (k * h * (k * h)) * / Rabs h).
  - apply Rmult_le_compat_r; auto. left. apply Rinv_0_lt_compat. auto.
  - replace (k * h * (k * h)) with (k * k * (Rabs h * Rabs h)) by (rewrite <- Sq; ring).
    replace (2 * (k * k * (Rabs h * Rabs h)) * / Rabs h) with (2 * (k * k) * Rabs h) by (field; lra).
    apply Rmult_lt_compat_l with (r := 2 * (k * k)) in L2; [|lra].
    replace (2 * (k * k) * (eps / (4 * (k * k)))) with (eps / 2) in L2 by (field; auto). lra.
Qed.

Lemma asin_k_derive k : is_derive (fun e => - asin (k * e)) 0 (- k).
Proof.
  assert (D : is_derive asin 0 1).
  { apply is_derive_Reals. replace 1 with (1 / sqrt (1 - 0²)).
    - assert (O : -1 < 0 < 1) by lra. rewrite <- (derive_pt_asin 0 O).
      exact (proj2_sig (derivable_pt_asin 0 O)).
    - unfold Rsqr. rewrite Rmult_0_l, Rminus_0_r, sqrt_1. field. }
  evar_last.
  - apply (is_derive_opp (V := R_NormedModule) (fun e => asin (k * e))).
    apply (is_derive_comp asin (fun e => k * e)).
    + rewrite Rmult_0_r. exact D.
    + auto_derive; auto.
  - unfold opp, scal; simpl. unfold mult; simpl. ring.
Qed.

Lemma nb_family : let k := field_unit in
  transport_family (V3 0 0 1) 0 1 v3zero 0 0 (mk5 1 0 0 0 0)
    (nb_X k) (nb_T k) (nb_sg k) (fun _ => 0) (fun e => - asin (k * e)).
Proof.
  intros k. assert (K : 0 < k) by (unfold k, field_unit; lra).
  assert (Ks : forall e, k * e * nb_sg k e = asin (k * e)).
  { intros e. unfold nb_sg. destruct (Req_EM_T e 0) as [->|N]; [rewrite !Rmult_0_r, asin_0; ring|].
    field. split; lra. }
  assert (B : locally 0 (fun e => -1 <= k * e <= 1)).
  { assert (P : 0 < / k) by (apply Rinv_0_lt_compat; auto). exists (mkposreal _ P). intros e He.
    unfold ball in He; simpl in He. unfold AbsRing_ball, abs, minus, plus, opp in He; simpl in He.
    rewrite Ropp_0, Rplus_0_r in He. apply Rabs_def2 in He. destruct He as [E1 E2].
    apply Rmult_lt_compat_l with (r := k) in E1, E2; auto.
    rewrite Ropp_mult_distr_r_reverse, Rinv_r in E2 by lra. rewrite Rinv_r in E1 by lra. lra. }
  split.
  - intros e. cbn [mk5]. split.
    + unfold nb_X, vadd, vscale, axis_u, axis_v, v3zero. cbn [vx vy vz]. destruct (Req_EM_T e 0) as [->|N].
      * f_equal; ring.
      * rewrite Rmult_0_r, sin_0, cos_0. f_equal; field; split; lra.
    + unfold nb_T, dirvec. rewrite !Rmult_0_r, Rplus_0_r, sin_0, cos_0. f_equal; ring.
    + intros s. unfold vderive, nb_X, nb_T. cbn [vx vy vz]. destruct (Req_EM_T e 0) as [->|N]; cbn [vx vy vz].
      * rewrite Rmult_0_r, Rmult_0_l, cos_0, sin_0. split; [|split]; auto_derive; auto; ring.
      * split; [|split]; auto_derive; auto; field; split; lra.
    + intros s. unfold vderive, nb_T, vscale, vcross. cbn [vx vy vz]. fold k.
      split; [|split]; auto_derive; auto; ring.
  - unfold nb_sg. destruct (Req_EM_T 0 0); lra.
  - revert B. apply filter_imp. intros e L. unfold nb_X, nb_T, vdot, vsub.
    destruct (Req_EM_T 0 0) as [_|]; [|lra]. rewrite Rmult_0_r, Rmult_0_l, cos_0, sin_0.
    assert (E := Ks e). destruct (Req_EM_T e 0) as [->|N]; cbn [vx vy vz].
    + unfold nb_sg. destruct (Req_EM_T 0 0); lra.
    + rewrite E, sin_asin by auto. field. split; lra.
  - apply filter_forall. intros e. unfold nb_T, dirvec. rewrite Ks, sin_0, cos_0, cos_neg, sin_neg. f_equal; ring.
  - rewrite cos_0. lra.
  - exists 0. apply nb_sg_derive. lra.
  - exists 0. auto_derive; auto.
  - exists (- k). apply asin_k_derive.
Qed.

Lemma nb_jacobian : analyticalJacobian mident 1 0 (dirvec 0 0) (nb_T field_unit 0 1) (V3 0 0 1) 0
  = Ok (lineJacobian mident 1 (dirvec 0 0)).
Proof. unfold analyticalJacobian. destruct Req_EM_T as [_|N]; [reflexivity|]. exfalso. apply N. ring. Qed.
