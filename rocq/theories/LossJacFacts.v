(** Derivatives of the changes of q/p by an energy loss. *)
From Coq Require Import Reals Lra Lia.
From Coquelicot Require Import Coquelicot.
From Verif Require Import SpecMaterial SpecEnergy SpecLossJac.
Open Scope R_scope.

Section Loss.
Variables (m q : R).
Hypothesis Hq : q <> 0.
Let p := Rabs (1 / q).
Let En := energy_at m q.

Lemma inv_sq r : r <> 0 -> Rabs (1 / r) * Rabs (1 / r) = / (r * r).
Proof. intros N. rewrite <- Rabs_mult. rewrite Rabs_pos_eq; [field; auto|]. apply Rle_0_sqr. Qed.

Lemma p_pos : 0 < p.
Proof. apply Rabs_pos_lt. unfold Rdiv. rewrite Rmult_1_l. apply Rinv_neq_0_compat; auto. Qed.

Lemma energy_pos : 0 < En.
Proof. apply sqrt_lt_R0. assert (P := p_pos). fold p. nra. Qed.

Lemma energy_sq : En * En = p * p + m * m.
Proof. unfold En, energy_at, energy_of. rewrite sqrt_sqrt; auto. fold p. nra. Qed.

Lemma beta_sq : velocity_at m q * velocity_at m q = p * p / (En * En).
Proof.
  assert (H := energy_pos). unfold velocity_at, velocity. fold p.
  change (sqrt (p * p + m * m)) with En. field. lra.
Qed.

Lemma energy_derive : is_derive (energy_at m) q (- (p * p / (q * En))).
Proof.
  assert (P := p_pos). assert (H := energy_pos).
  apply (is_derive_ext_loc (fun r => sqrt (/ (r * r) + m * m))).
  { assert (Op : locally q (fun r => r <> 0)) by (apply (open_neq 0); auto).
    revert Op. apply filter_imp. intros r N. unfold energy_at, energy_of. rewrite inv_sq by auto. reflexivity. }
  assert (S : sqrt (/ (q * q) + m * m) = En).
  { unfold En, energy_at, energy_of. rewrite inv_sq by auto. reflexivity. }
  assert (Pq : p * p = / (q * q)) by (apply inv_sq; auto).
  assert (Q2 : 0 < q * q) by nra.
  auto_derive.
  - assert (0 < / (q * q)) by (apply Rinv_0_lt_compat; auto). split; [nra|]. split; [nra|auto].
  - rewrite S, Pq. field. split; [auto|lra].
Qed.

Variable L : R -> R.
Variable L' : R.
Hypothesis HL : is_derive L q L'.
Let eps := L q / En.
Let b2 := velocity_at m q * velocity_at m q.

Lemma applied_derive : L q <> En ->
  is_derive (applied_loss m L) q (1 / (1 - eps) + (b2 * eps + q * L' / En) / ((1 - eps) * (1 - eps))).
Proof.
  intros N. assert (H := energy_pos). assert (HE := energy_derive).
  assert (Ne : 1 - eps <> 0).
  { unfold eps. intros Q. apply N. apply Rmult_eq_reg_r with (/ En); [|apply Rinv_neq_0_compat; lra].
    rewrite Rinv_r by lra. unfold Rdiv in Q. lra. }
  unfold applied_loss.
  assert (D : is_derive (fun r => r / (1 - L r / energy_at m r)) q
     ((1 * (1 - eps) - q * (0 - (L' * En - L q * - (p * p / (q * En))) / En ^ 2)) / (1 - eps) ^ 2)).
  { apply (is_derive_div (fun r => r) (fun r => 1 - L r / energy_at m r) q 1); [apply @is_derive_id| |exact Ne].
    apply @is_derive_minus; [apply @is_derive_const|].
    apply (is_derive_div L (energy_at m) q); auto. fold En. lra. }
  match goal with D : is_derive _ _ ?a |- is_derive _ _ ?b => replace b with a; [exact D|] end.
  unfold b2. rewrite beta_sq. unfold eps in *. clearbody En p.
  assert (Ne' : En - L q <> 0) by lra. field. split; [|split]; auto; lra.
Qed.

Lemma natural_derive : 0 <= m -> L q < En - m ->
  let r := sqrt ((En - L q) * (En - L q) - m * m) in
  is_derive (natural_loss m L) q (p * p * p / (r * r * r) * ((En - L q) / En) + q * p * L' * (En - L q) / (r * r * r)).
Proof.
  intros Hm N r. assert (P := p_pos). assert (H := energy_pos). assert (HE := energy_derive).
  assert (A : 0 < (En - L q) * (En - L q) - m * m) by nra.
  assert (Rp : 0 < r) by (apply sqrt_lt_R0; auto).
  assert (C : locally q (fun x => 0 < x * q)).
  { assert (Cq : continuous (fun x => x * q) q) by (apply (continuous_mult (fun x => x) (fun _ => q)); [apply continuous_id|apply continuous_const]).
    apply (Cq (fun y => 0 < y)). apply (open_gt 0). nra. }
  apply (is_derive_ext_loc (fun x => q * p / sqrt ((energy_at m x - L x) * (energy_at m x - L x) - m * m))).
  { revert C. apply filter_imp. intros x X. unfold natural_loss. f_equal. unfold p.
    assert (x <> 0) by nra. destruct (Rtotal_order q 0) as [Q|[Q|Q]]; [|lra|].
    - assert (x < 0) by nra. rewrite !Rabs_left; [field; auto| |]; unfold Rdiv; rewrite Rmult_1_l; apply Rinv_lt_0_compat; auto.
    - assert (0 < x) by nra. rewrite !Rabs_pos_eq; [field; auto| |]; unfold Rdiv; rewrite Rmult_1_l; left; apply Rinv_0_lt_compat; auto. }
  assert (D : is_derive (fun x => (energy_at m x - L x) * (energy_at m x - L x) - m * m) q
     ((- (p * p / (q * En)) - L') * (En - L q) + (En - L q) * (- (p * p / (q * En)) - L') - 0)).
  { apply @is_derive_minus; [|apply @is_derive_const].
    apply (is_derive_mult (fun x => energy_at m x - L x) (fun x => energy_at m x - L x) q); [| |intros; apply Rmult_comm].
    - apply @is_derive_minus; auto.
    - apply @is_derive_minus; auto. }
  assert (D2 := is_derive_sqrt _ q _ D A).
  assert (D3 := is_derive_div (fun _ => q * p) _ q 0 _ (is_derive_const (q * p) q) D2).
  match type of D3 with ?A -> _ => assert (G : A) by (cbv beta; fold En; fold r; lra) end.
  specialize (D3 G). clear D2.
  match type of D3 with is_derive _ _ ?a => match goal with |- is_derive _ _ ?b => replace b with a; [exact D3|] end end.
  fold En. fold r.
  assert (Pq : p * p = / (q * q)) by (apply inv_sq; auto).
  transitivity (q * p * (p * p / (q * En) + L') * (En - L q) / (r * r * r)); [unfold zero; cbn; clearbody r En p; field; lra|].
  replace (q * p * (p * p / (q * En) + L')) with (p * (p * p) / En + q * p * L') by (clearbody En p; field; lra).
  clearbody r En p. field. lra.
Qed.
End Loss.

(** ** thin layers: the loss is [k * L], [k] small *)
Section Thin.
Variables (m q : R) (L : R -> R) (L' : R).
Hypothesis Hq : q <> 0.
Hypothesis HL : is_derive L q L'.
Let p := Rabs (1 / q).
Let En := energy_at m q.
Let b2 := velocity_at m q * velocity_at m q.

Lemma scaled_derive k : is_derive (fun r => k * L r) q (k * L').
Proof. apply (is_derive_scal L q k L' HL). Qed.

Lemma near0 c : 0 < c -> locally 0 (fun k => k * L q < c).
Proof.
  intros C. assert (Ct : continuous (fun k => k * L q) 0).
  { apply (continuous_mult (fun k => k) (fun _ => L q)); [apply continuous_id|apply continuous_const]. }
  apply (Ct (fun y => y < c)). apply (open_lt c). rewrite Rmult_0_l. auto.
Qed.

Lemma b2_pos : 0 < b2.
Proof.
  unfold b2. rewrite beta_sq by auto. fold p. fold En. assert (0 < p) by (apply p_pos; auto).
  assert (0 < En) by (apply energy_pos; auto). apply Rdiv_lt_0_compat; nra.
Qed.

Lemma thin_applied : is_derive (fun k => Derive (applied_loss m (fun r => k * L r)) q) 0
  (((1 + b2) * L q + q * L') / En).
Proof.
  assert (H : 0 < En) by (apply energy_pos; auto).
  apply (is_derive_ext_loc (fun k => 1 / (1 - k * L q / En) + (b2 * (k * L q / En) + q * (k * L') / En) / ((1 - k * L q / En) * (1 - k * L q / En)))).
  { generalize (near0 En H). apply filter_imp. intros k K. symmetry. apply is_derive_unique.
    apply (applied_derive m q Hq (fun r => k * L r) (k * L') (scaled_derive k)). fold En. lra. }
  clearbody En b2. auto_derive.
  - unfold Rdiv. rewrite ?Rmult_0_l, ?Ropp_0, ?Rplus_0_r. repeat split; lra.
  - field. lra.
Qed.

Lemma thin_natural : 0 <= m -> is_derive (fun k => Derive (natural_loss m (fun r => k * L r)) q) 0
  (((3 / b2 - 1) * L q + q * L' / b2) / En).
Proof.
  intros Hm. assert (H : 0 < En) by (apply energy_pos; auto). assert (P : 0 < p) by (apply p_pos; auto).
  assert (Sq : En * En = p * p + m * m) by (apply energy_sq; auto).
  assert (G : 0 < En - m) by nra.
  set (r := fun k => sqrt ((En - k * L q) * (En - k * L q) - m * m)).
  apply (is_derive_ext_loc (fun k => p * p * p / (r k * r k * r k) * ((En - k * L q) / En)
     + q * p * (k * L') * (En - k * L q) / (r k * r k * r k))).
  { generalize (near0 _ G). apply filter_imp. intros k K. symmetry. apply is_derive_unique.
    apply (natural_derive m q Hq (fun r => k * L r) (k * L') (scaled_derive k) Hm). exact K. }
  assert (R0 : r 0 = p).
  { unfold r. rewrite Rmult_0_l, Rminus_0_r. replace (En * En - m * m) with (p * p) by lra. apply sqrt_square. lra. }
  assert (Dr : is_derive r 0 (- L q * En / p)).
  { unfold r. auto_derive.
    - replace ((En + - (0 * L q)) * (En + - (0 * L q)) + - (m * m)) with (p * p) by (clearbody En p; nra). nra.
    - replace ((En + - (0 * L q)) * (En + - (0 * L q)) + - (m * m)) with (p * p) by (clearbody En p; nra).
      rewrite sqrt_square by lra. clearbody En p. field. lra. }
  unfold b2. rewrite beta_sq by auto. fold p. fold En.
  assert (S3 : q * q * (p * p) = 1) by (unfold p; rewrite inv_sq by auto; field; auto).
  clearbody r. assert (Ex : ex_derive r 0) by (eexists; exact Dr).
  apply is_derive_unique in Dr.
  auto_derive.
  - rewrite R0. repeat split; auto; clearbody p; apply Rmult_integral_contrapositive_currified; nra.
  - change (Derive (fun x => r x) 0) with (Derive r 0). rewrite Dr, R0. clearbody En p. field. lra.
Qed.

Lemma thin_entry : is_derive (fun k => entry_term m (fun r => k * L r) (applied_loss m (fun r => k * L r) q)) 0
  (2 * L q / (b2 * En)).
Proof.
  assert (H : 0 < En) by (apply energy_pos; auto). assert (B := b2_pos).
  set (q1 := fun k => applied_loss m (fun r => k * L r) q).
  assert (Q0 : q1 0 = q).
  { unfold q1, applied_loss. unfold Rdiv. rewrite !Rmult_0_l, Rminus_0_r, Rinv_1. ring. }
  assert (C1 : continuous q1 0).
  { apply (@ex_derive_continuous R_AbsRing R_NormedModule). unfold q1, applied_loss. fold En. clearbody En. auto_derive.
    unfold Rdiv. rewrite ?Rmult_0_l, ?Ropp_0, ?Rplus_0_r. lra. }
  set (g := fun k => 2 * L (q1 k) / (velocity_at m (q1 k) * velocity_at m (q1 k) * energy_at m (q1 k))).
  assert (Ce : continuous (energy_at m) q) by (apply (@ex_derive_continuous R_AbsRing R_NormedModule); eexists; apply energy_derive; auto).
  assert (Cl : continuous L q) by (apply (@ex_derive_continuous R_AbsRing R_NormedModule); eexists; exact HL).
  assert (Cg : continuous g 0).
  { apply (continuous_comp q1 (fun x => 2 * L x / (velocity_at m x * velocity_at m x * energy_at m x))); [exact C1|].
    rewrite Q0.
    assert (Cp : continuous (fun x => Rabs (1 / x)) q).
    { apply (continuous_comp (fun x => 1 / x) Rabs); [|apply continuous_Rabs].
      apply (@ex_derive_continuous R_AbsRing R_NormedModule). auto_derive. auto. }
    assert (Ci : continuous (fun x => / energy_at m x) q).
    { apply (continuous_comp (energy_at m) Rinv); [exact Ce|].
      apply (@ex_derive_continuous R_AbsRing R_NormedModule). auto_derive. fold En. lra. }
    assert (Cv : continuous (velocity_at m) q).
    { apply (continuous_mult (fun x => Rabs (1 / x)) (fun x => / energy_at m x)); auto. }
    unfold Rdiv. apply (continuous_mult (fun x => 2 * L x)).
    - apply (continuous_mult (fun _ => 2) L); [apply continuous_const|exact Cl].
    - apply (continuous_comp (fun x => velocity_at m x * velocity_at m x * energy_at m x) Rinv).
      + apply (continuous_mult (fun x => velocity_at m x * velocity_at m x) (energy_at m)); [|exact Ce].
        apply (continuous_mult (velocity_at m) (velocity_at m)); exact Cv.
      + apply (@ex_derive_continuous R_AbsRing R_NormedModule). auto_derive. fold b2. fold En. nra. }
  apply (is_derive_ext (fun k => k * g k)).
  { intros k. unfold entry_term, g. fold (q1 k). unfold Rdiv. cbn. match goal with |- ?a = ?b => change (@eq R a b) end. ring. }
  replace (2 * L q / (b2 * En)) with (g 0) by (unfold g; rewrite Q0; reflexivity).
  clear - Cg. split; [apply @is_linear_scal_l|]. intros x Hx.
  assert (X : x = 0) by (symmetry; apply (is_filter_lim_locally_unique 0 x Hx)).
  rewrite X. intros eps.
  assert (Cn := proj1 (filterlim_locally _ _) Cg eps). revert Cn. apply filter_imp. intros k K.
  unfold minus, plus, opp, scal, mult; cbn. unfold mult; cbn. rewrite Rmult_0_l.
  replace (k * g k + - 0 + - ((k + - 0) * g 0)) with (k * (g k - g 0)) by ring.
  unfold norm; cbn. unfold abs; cbn. rewrite Rabs_mult, Ropp_0, Rplus_0_r.
  unfold ball in K; cbn in K. unfold AbsRing_ball, abs, minus, plus, opp in K; cbn in K.
  rewrite Rmult_comm. apply Rmult_le_compat_r; [apply Rabs_pos|]. unfold Rminus. lra.
Qed.
End Thin.
