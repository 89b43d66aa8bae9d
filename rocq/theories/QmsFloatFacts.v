(** Proofs about multiple scattering in double precision. *)
From Coq Require Import Reals ZArith Lra Lia Psatz.
From Flocq Require Import Core.
From Verif Require Import Num Vec Isect FloatWrap PointFloat SpecRound RoundFacts PointFloatFacts NearFacts CylFloatFacts StartFloat StartFloatFacts SpecMaterial QmsFloat SpecQmsFloat RelFacts.
Open Scope R_scope.

(** ** ranges *)
Definition btw (a b : Z) (x : R) : Prop := bpow radix2 a <= x <= bpow radix2 b.
Lemma btw_pos a b x : btw a b x -> 0 < x.
Proof. intros [H _]. generalize (bpow_gt_0 radix2 a). lra. Qed.
Lemma btw_weak a b c d x : btw a b x -> (c <= a)%Z -> (b <= d)%Z -> btw c d x.
Proof. intros [A B] C D. apply (bpow_le radix2) in C, D. split; lra. Qed.
Lemma btw_mul a b c d x y : btw a b x -> btw c d y -> btw (a + c) (b + d) (x * y).
Proof.
  intros H1 H2. assert (P1 := btw_pos _ _ _ H1). assert (P2 := btw_pos _ _ _ H2). destruct H1 as [A B]. destruct H2 as [C D].
  split; rewrite bpow_plus; apply Rmult_le_compat; try apply bpow_ge_0; lra.
Qed.
Lemma btw_inv a b x : btw a b x -> btw (- b) (- a) (/ x).
Proof.
  intros H. assert (P := btw_pos _ _ _ H). destruct H as [A B]. split; rewrite bpow_opp; apply Rinv_le_contravar; try assumption. apply bpow_gt_0.
Qed.
Lemma btw_div a b c d x y : btw a b x -> btw c d y -> btw (a - d) (b - c) (x / y).
Proof. intros H1 H2. apply (btw_mul _ _ (- d) (- c)); [exact H1|apply btw_inv, H2]. Qed.
Lemma btw_add a b x y : x = 0 \/ btw a b x -> y = 0 \/ btw a b y -> 0 < x + y -> btw a (b + 1) (x + y).
Proof.
  intros H1 H2 P. unfold btw. rewrite bpow_plus. change (bpow radix2 1) with 2. assert (G := bpow_gt_0 radix2 a). assert (G2 := bpow_gt_0 radix2 b).
  destruct H1 as [->|[A B]]; destruct H2 as [->|[C D]]; lra.
Qed.
Lemma btw_sqrt a b x : btw (a + a) (b + b) x -> btw a b (sqrt x).
Proof.
  intros [A B]. rewrite bpow_plus in A. rewrite bpow_plus in B. assert (G := bpow_ge_0 radix2 a). assert (G2 := bpow_ge_0 radix2 b).
  split; [rewrite <- (sqrt_square (bpow radix2 a)) by exact G|rewrite <- (sqrt_square (bpow radix2 b)) by exact G2]; apply sqrt_le_1_alt; assumption.
Qed.
Lemma btw_usable a b x : btw a b x -> (-700 <= a)%Z -> usable x.
Proof. intros [H _] K. apply (us_pow _ a); assumption. Qed.

(** ** single operations *)
Lemma r_op k x' x a b : rel k x' x -> few k -> btw a b x -> (-700 <= a)%Z -> (-1000 <= b <= 900)%Z ->
  rd x' = Ok (rnd x') /\ rel (k + 101 / 100) (rnd x') x.
Proof.
  intros N K H A B. split; [apply (r_size k x' x b N K); [apply H|exact B]|]. apply r_rnd; [exact N|exact K|]. apply (btw_usable a b); assumption.
Qed.
Lemma r_op0 k x' x a b : rel k x' x -> few k -> x = 0 \/ btw a b x -> (-700 <= a)%Z -> (-1000 <= b <= 900)%Z ->
  rd x' = Ok (rnd x') /\ rel (k + 101 / 100) (rnd x') x.
Proof.
  intros N K [Z|H] A B; [|apply (r_op k x' x a b); assumption]. split.
  - apply (r_size k x' x b N K); [rewrite Z; apply bpow_ge_0|exact B].
  - apply r_rnd; [exact N|exact K|]. left. exact Z.
Qed.
Lemma div_ok x y : 0 < y -> rd_div x y = rd (x / y).
Proof. intros H. unfold rd_div. destruct Req_EM_T; [lra|reflexivity]. Qed.
Lemma sqrt_ok k x' x : rel k x' x -> few k -> sqrt_d x' = Ok (rnd (sqrt x')).
Proof. intros N K. destruct (r_range _ _ _ N K) as [A _]. destruct N as [P _]. unfold sqrt_d. destruct Rlt_dec; [exfalso; lra|reflexivity]. Qed.

(** ** length and direction of a vector *)
Section Dir.
Variable p : vec3.
Hypothesis HP : common (vr p).
Let P := vr p.

Lemma P_sq : P * P = vx p * vx p + vy p * vy p + vz p * vz p.
Proof. unfold P, vr. apply sqrt_sqrt. nra. Qed.
Lemma P_pos : 0 < P.
Proof. apply (btw_pos (-100) 100). exact HP. Qed.
Lemma P_comp : Rabs (vx p) <= P /\ Rabs (vy p) <= P /\ Rabs (vz p) <= P.
Proof.
  assert (S := P_sq). assert (G := P_pos). split; [|split]; apply Rsqr_incr_0_var; try lra; rewrite <- Rsqr_abs; unfold Rsqr; nra.
Qed.
Lemma len : exists m', vr_d p = Ok m' /\ rel (36 / 10) m' P.
Proof.
  assert (S := P_sq). assert (G := P_pos). destruct P_comp as (X & Y & Z).
  assert (BP : btw (-100) 100 P) by exact HP. assert (BPP := btw_mul _ _ _ _ _ _ BP BP).
  assert (UPP : usable (P * P)) by (apply (btw_usable _ _ _ BPP); lia). assert (GG : 0 < P * P) by (apply Rmult_lt_0_compat; lra).
  assert (M : forall z, Rabs z <= P -> mag (z * z) 200).
  { intros z H. change 200%Z with (100 + 100)%Z. apply mag_mul; apply Rle_trans with P; try exact H; apply HP. }
  assert (N : forall z, Rabs z <= P -> near (P * P) (103 / 100) (rnd (z * z)) (z * z)).
  { intros z H. assert (A := n_same (P * P) (z * z)). rewrite Rabs_mult in A. specialize (A ltac:(apply Rmult_le_compat; auto using Rabs_pos)). rn A A1 assumption. apply (n_weak _ _ _ _ _ _ A1); lra. }
  assert (M1 := M _ X). assert (M2 := M _ Y). assert (M3 := M _ Z). clear M.
  unfold vr_d. fin 5. eexists. split; [reflexivity|].
  assert (A := n_add _ _ _ _ _ _ _ _ (103 / 100) (N _ X) (N _ Y) ltac:(lra) ltac:(lra)).
  assert (B0 : 0 <= vx p * vx p + vy p * vy p <= P * P) by nra.
  apply (n_tight _ _ _ _ (P * P) (206 / 100)) in A; [|rewrite Rabs_pos_eq; lra|lra]. rn A A1 assumption.
  assert (B := n_add _ _ _ _ _ _ _ _ (308 / 100) A1 (N _ Z) ltac:(lra) ltac:(lra)). rewrite <- S in B.
  assert (B1 : near (P * P) (411 / 100) (rnd (rnd (vx p * vx p) + rnd (vy p * vy p)) + rnd (vz p * vz p)) (P * P)).
  { destruct A1 as [_ A1]. destruct (N _ Z) as [_ A2]. split; [rewrite Rabs_pos_eq; lra|]. assert (AE := add_err _ _ _ _ _ _ A1 A2). rewrite <- S in AE. eapply Rle_trans; [exact AE|].
    assert (U := u_small). rewrite <- Rmult_plus_distr_l. apply Rmult_le_compat_l; [lra|]. lra. }
  clear B. rn B1 B2 assumption.
  assert (Q : rel (513 / 100) (rnd (rnd (rnd (vx p * vx p) + rnd (vy p * vy p)) + rnd (vz p * vz p))) (P * P)).
  { destruct B2 as [_ B2]. split; [lra|]. eapply Rle_trans; [exact B2|]. assert (U := u_small). assert (0 <= uround * (P * P)) by (apply Rmult_le_pos; lra). lra. }
  apply r_sqrt in Q; [|unfold few; lra]. rewrite sqrt_square in Q by lra. apply r_rnd in Q; [|unfold few; lra|apply (btw_usable _ _ _ BP); lia].
  apply (r_weak _ _ _ _ Q). lra.
Qed.

Lemma dir : exists up, vunit_d p = Ok up /\ near 1 (48 / 10) (vx up) (vx p / P) /\ near 1 (48 / 10) (vy up) (vy p / P) /\ near 1 (48 / 10) (vz up) (vz p / P).
Proof.
  destruct len as (m' & E & R). assert (G := P_pos). destruct P_comp as (X & Y & Z).
  assert (RR := r_range _ _ _ R ltac:(unfold few; lra)).
  assert (N : near P (36 / 10) m' P). { destruct R as [_ D]. split; [rewrite Rabs_pos_eq; lra|]. eapply Rle_trans; [exact D|]. lra. }
  assert (ML : bpow radix2 (-101) <= Rabs m').
  { rewrite Rabs_pos_eq by lra. change (-101)%Z with (-100 + -1)%Z. rewrite bpow_plus. change (bpow radix2 (-1)) with (/ 2). destruct HP as [H _]. fold P in H. assert (Q := bpow_gt_0 radix2 (-100)). lra. }
  assert (M : forall z, Rabs z <= P -> mag z 100) by (intros z H; apply Rle_trans with P; [exact H|apply HP]).
  assert (W : forall z, Rabs z <= P -> near 1 (48 / 10) (rnd (z / m')) (z / P)).
  { intros z H. destruct (n_div _ _ _ _ _ _ _ (n_same _ _ H) N G ltac:(lra) ltac:(lra)) as [B _]. replace (P / P) with 1 in B by (field; lra).
    assert (U1 : usable 1) by (apply (us_pow _ 0); [apply Rle_refl|lia]). rn B B1 assumption. apply (n_weak _ _ _ _ _ _ B1); lra. }
  unfold vunit_d. rewrite E. cbn [bind].
  rewrite (div_fin _ _ 100 (-101)) by (auto || lia). rewrite (div_fin _ _ 100 (-101)) by (auto || lia). rewrite (div_fin _ _ 100 (-101)) by (auto || lia).
  eexists. split; [reflexivity|]. cbn [vx vy vz]. auto.
Qed.

Lemma cosine n : Rabs (vx n) <= 1 -> Rabs (vy n) <= 1 -> Rabs (vz n) <= 1 ->
  exists up d, vunit_d p = Ok up /\ vdot_d up n = Ok d /\ Rabs (d - cos_angle p n) <= 24 * uround /\ Rabs (cos_angle p n) <= 3.
Proof.
  intros NX NY NZ. destruct dir as (up & E & X & Y & Z). exists up.
  assert (U1 : usable 1) by (apply (us_pow _ 0); [apply Rle_refl|lia]).
  assert (T : forall v w z, near 1 (48 / 10) v w -> Rabs z <= 1 -> near 1 (583 / 100) (rnd (v * z)) (w * z) /\ mag (v * z) 1).
  { intros v w z V H. assert (A := n_mul _ _ _ _ _ _ _ _ V (n_same _ _ H) ltac:(lra) ltac:(lra)). rewrite Rmult_1_r in A.
    assert (S := n_size _ _ _ _ A ltac:(lra)). split; [|unfold mag; change (bpow radix2 1) with 2; lra]. rn A A1 assumption. apply (n_weak _ _ _ _ _ _ A1); lra. }
  destruct (T _ _ _ X NX) as [A1 M1]. destruct (T _ _ _ Y NY) as [A2 M2]. destruct (T _ _ _ Z NZ) as [A3 M3]. clear T.
  unfold vdot_d. fin 4.
  assert (B := n_add _ _ _ _ _ _ _ _ (583 / 100) A1 A2 ltac:(lra) ltac:(lra)).
  assert (U2 : usable (1 + 1)) by (apply (us_pow _ 1); [apply Rle_refl|lia]). rn B B1 assumption.
  assert (C := n_add _ _ _ _ _ _ _ _ (684 / 100) B1 A3 ltac:(lra) ltac:(lra)).
  assert (U3 : usable (1 + 1 + 1)) by (apply (us_pow _ 1); [change (bpow radix2 1) with 2; lra|lia]). rn C C1 assumption.
  assert (S := n_size _ _ _ _ C ltac:(lra)).
  eexists. split; [exact E|]. split; [apply (rd_fin1 _ 3); [unfold mag; change (bpow radix2 3) with 8; lra|lia]|].
  assert (EC : vx p / P * vx n + vy p / P * vy n + vz p / P * vz n = cos_angle p n) by (unfold cos_angle, vdot; fold P; field; generalize P_pos; lra).
  rewrite EC in C1. destruct C1 as [C1 C2]. assert (U := u_small). split; [eapply Rle_trans; [exact C2|]; lra|lra].
Qed.
End Dir.

(** ** the logarithm *)
Lemma ln_below y : 0 < y -> ln y <= y - 1.
Proof.
  intros H. destruct (Req_dec (ln y) 0) as [Z|Z].
  - rewrite Z. rewrite <- (exp_ln y H), Z, exp_0. lra.
  - assert (E := exp_ineq1 (ln y) Z). rewrite (exp_ln y H) in E. lra.
Qed.
Lemma ln_quot x y : 0 < x -> 0 < y -> ln (x / y) = ln x - ln y.
Proof. intros A B. unfold Rdiv. rewrite ln_mult, ln_Rinv by (try apply Rinv_0_lt_compat; assumption). ring. Qed.
Lemma ln_rel k x' x : rel k x' x -> few k -> 0 < x -> Rabs (ln x' - ln x) <= uround * (1001 / 1000 * k).
Proof.
  intros N K X. assert (R := r_range _ _ _ N K). destruct N as [_ D]. assert (F := few_u _ K). assert (X' : 0 < x') by lra.
  assert (IX : 0 < / x) by (apply Rinv_0_lt_compat; lra). assert (IX' : 0 < / x') by (apply Rinv_0_lt_compat; lra).
  assert (E1 : ln x' - ln x <= x' / x - 1). { rewrite <- ln_quot by lra. apply ln_below. apply Rdiv_lt_0_compat; lra. }
  assert (E2 : ln x - ln x' <= x / x' - 1). { rewrite <- ln_quot by lra. apply ln_below. apply Rdiv_lt_0_compat; lra. }
  assert (S1 : x' / x - 1 <= uround * k). { replace (x' / x - 1) with ((x' - x) * / x) by (field; lra). apply Rmult_le_reg_r with x; [lra|]. rewrite Rmult_assoc, Rinv_l, Rmult_1_r by lra. apply Rabs_le_inv in D. lra. }
  assert (S2 : x / x' - 1 <= uround * (1001 / 1000 * k)).
  { replace (x / x' - 1) with ((x - x') * / x') by (field; lra). apply Rmult_le_reg_r with x'; [lra|]. rewrite Rmult_assoc, Rinv_l, Rmult_1_r by lra. apply Rabs_le_inv in D.
    assert (uround * k * x <= uround * k * (1001 / 1000 * x')) by (apply Rmult_le_compat_l; lra). lra. }
  apply Rabs_le. lra.
Qed.

(** ** the angle *)
Section Angle.
Variables (mlog : R -> R) (surf : surface) (uv : R * R) (p : vec3) (m : R).
Hypothesis HL : log_accurate mlog.
Hypothesis HO : ordinary_layer surf uv p m.
Let n := normal_at surf uv.
Let P := vr p.
Let c := Rabs (cos_angle p n).
Let ri := sf_innerThickness surf. Let ro := sf_outerThickness surf.
Let xi := mat_radiationLength (sf_innerMaterial surf). Let xo := mat_radiationLength (sf_outerMaterial surf).
Let T := ri + ro.
Let S := ri / xi + ro / xo.
Let t := radiation_lengths surf uv p.
Let E := sqrt (P * P + m * m).
Let kap := / c.

Lemma c_range : btw (-20) 2 c.
Proof.
  destruct (cosine p (ol_p _ _ _ _ HO) n (ol_nx _ _ _ _ HO) (ol_ny _ _ _ _ HO) (ol_nz _ _ _ _ HO)) as (up & d & _ & _ & _ & H). split; [exact (ol_cos _ _ _ _ HO)|]. change (bpow radix2 2) with 4. unfold c. lra.
Qed.
Lemma kap_range : 0 < kap <= 1048576.
Proof. assert (B := btw_inv _ _ _ c_range). split; [apply (btw_pos _ _ _ B)|]. destruct B as [_ B]. change (bpow radix2 (- -20)) with 1048576 in B. exact B. Qed.
Lemma t_S : t = S / c.
Proof. reflexivity. Qed.
Lemma quot_range r x : r = 0 \/ common r -> common x -> r / x = 0 \/ btw (-200) 200 (r / x).
Proof.
  intros [->|H] X; [left; unfold Rdiv; ring|right]. apply (btw_weak _ _ _ _ _ (btw_div _ _ _ _ _ _ H X)); lia.
Qed.
Lemma quot_pos r x : r = 0 \/ common r -> common x -> 0 <= r / x /\ (0 < r -> 0 < r / x) /\ 0 <= r.
Proof.
  intros [->|H] X.
  - split; [unfold Rdiv; rewrite Rmult_0_l; lra|split; lra].
  - assert (A := btw_pos _ _ _ H). assert (B := btw_pos _ _ _ X). assert (0 < r / x) by (apply Rdiv_lt_0_compat; assumption). split; [|split]; try intros; lra.
Qed.
Lemma S_range : btw (-200) 201 S.
Proof.
  destruct (quot_pos _ _ (ol_in _ _ _ _ HO) (ol_xin _ _ _ _ HO)) as (A & B & B0). destruct (quot_pos _ _ (ol_out _ _ _ _ HO) (ol_xout _ _ _ _ HO)) as (C & D & D0).
  assert (TP := ol_some _ _ _ _ HO). apply (btw_add (-200) 200); [apply quot_range; apply HO|apply quot_range; apply HO|]. fold ri xi in A, B, B0. fold ro xo in C, D, D0. fold ri ro in TP. fold ri ro xi xo. destruct (Rle_lt_dec ri 0) as [Z|Z]; [assert (0 < ro / xo) by (apply D; lra); lra|specialize (B Z); lra].
Qed.
Lemma T_range : btw (-100) 101 T.
Proof. apply (btw_add (-100) 100); apply HO. Qed.
Lemma t_range : btw (-202) 221 t.
Proof. rewrite t_S. apply (btw_weak _ _ _ _ _ (btw_div _ _ _ _ _ _ S_range c_range)); lia. Qed.
Lemma ln_range : Rabs (ln t) <= 221.
Proof.
  assert (TR := t_range). assert (TP := btw_pos _ _ _ TR). destruct TR as [A B]. assert (L2 := ln_below 2 ltac:(lra)). assert (L0 : 0 < ln 2) by (rewrite <- ln_1; apply ln_increasing; lra).
  assert (LE : forall x y, 0 < x -> x <= y -> ln x <= ln y). { intros x y X [Y| ->]; [left; apply ln_increasing; assumption|lra]. }
  apply LE in A; [|apply bpow_gt_0]. apply LE in B; [|exact TP]. rewrite bpow_exp, ln_exp in A. rewrite bpow_exp, ln_exp in B. change (IZR radix2) with 2 in A, B. apply Rabs_le. lra.
Qed.

(** the matter crossed *)
Lemma rtot_ok : rd (ri + ro) = Ok (rnd (ri + ro)) /\ rel (101 / 100) (rnd (ri + ro)) T.
Proof.
  assert (TR := T_range). destruct (r_op 0 T T _ _ (r_same T ltac:(left; apply (btw_pos _ _ _ TR))) ltac:(unfold few; lra) TR ltac:(lia) ltac:(lia)) as [A B]. split; [exact A|]. apply (r_weak _ _ _ _ B). lra.
Qed.
Lemma frac_ok r x : r = 0 \/ common r -> common x -> exists a, rd_div r x = Ok a /\ rel (101 / 100) a (r / x).
Proof.
  intros H X. assert (XP := btw_pos _ _ _ X). destruct (quot_pos _ _ H X) as (Q & _).
  destruct (r_op0 0 (r / x) (r / x) _ _ (r_same _ Q) ltac:(unfold few; lra) (quot_range _ _ H X) ltac:(lia) ltac:(lia)) as [A B].
  exists (rnd (r / x)). split; [rewrite div_ok by exact XP; exact A|]. apply (r_weak _ _ _ _ B). lra.
Qed.
Lemma eff_ok : exists a b ab x0, rd_div ri xi = Ok a /\ rd_div ro xo = Ok b /\ rd (a + b) = Ok ab /\ rd_div ab (rnd (ri + ro)) = Ok x0 /\ rel (41 / 10) x0 (S / T).
Proof.
  destruct (frac_ok ri xi (ol_in _ _ _ _ HO) (ol_xin _ _ _ _ HO)) as (a & E1 & R1). destruct (frac_ok ro xo (ol_out _ _ _ _ HO) (ol_xout _ _ _ _ HO)) as (b & E2 & R2).
  assert (R3 := r_add _ _ _ _ _ R1 R2). destruct (r_op _ _ _ _ _ R3 ltac:(unfold few; lra) S_range ltac:(lia) ltac:(lia)) as [E3 R4]. destruct rtot_ok as [_ R5]. assert (TR := T_range).
  destruct (r_div _ _ _ _ _ _ R4 R5 ltac:(unfold few; lra) ltac:(unfold few; lra) (btw_pos _ _ _ TR)) as [R6 P6].
  destruct (r_op _ _ _ _ _ R6 ltac:(unfold few; lra) (btw_div _ _ _ _ _ _ S_range TR) ltac:(lia) ltac:(lia)) as [E7 R7].
  exists a, b, (rnd (a + b)), (rnd (rnd (a + b) / rnd (ri + ro))). split; [exact E1|]. split; [exact E2|]. split; [exact E3|]. split; [rewrite div_ok by exact P6; exact E7|]. apply (r_weak _ _ _ _ R7). lra.
Qed.
Lemma cos_ok : exists up d, vunit_d p = Ok up /\ vdot_d up n = Ok d /\ rel (24 * kap) (Rabs d) c.
Proof.
  destruct (cosine p (ol_p _ _ _ _ HO) n (ol_nx _ _ _ _ HO) (ol_ny _ _ _ _ HO) (ol_nz _ _ _ _ HO)) as (up & d & E1 & E2 & D & _). exists up, d. split; [exact E1|]. split; [exact E2|].
  assert (CP := btw_pos _ _ _ c_range). split; [lra|]. unfold kap. replace (uround * (24 * / c) * c) with (24 * uround) by (field; lra). eapply Rle_trans; [|exact D]. apply Rabs_triang_inv2.
Qed.
Lemma depth_ok d x0 : rel (24 * kap) (Rabs d) c -> rel (41 / 10) x0 (S / T) ->
  exists pa X, rd_div (rnd (ri + ro)) (Rabs d) = Ok pa /\ rd (pa * x0) = Ok X /\ rel (8 + 25 * kap) X t /\ is_double X.
Proof.
  intros RC RX. destruct rtot_ok as [_ R1]. assert (CR := c_range). assert (TR := T_range). assert (SR := S_range). assert (KR := kap_range).
  destruct (r_div _ _ _ _ _ _ R1 RC ltac:(unfold few; lra) ltac:(unfold few; lra) (btw_pos _ _ _ CR)) as [R2 P2].
  destruct (r_op _ _ _ _ _ R2 ltac:(unfold few; lra) (btw_div _ _ _ _ _ _ TR CR) ltac:(lia) ltac:(lia)) as [E3 R3].
  assert (R4 := r_mul _ _ _ _ _ _ R3 RX ltac:(unfold few; lra) ltac:(unfold few; lra)).
  assert (Q : T / c * (S / T) = t). { rewrite t_S. assert (A := btw_pos _ _ _ CR). assert (B := btw_pos _ _ _ TR). field. lra. }
  rewrite Q in R4. destruct (r_op _ _ _ _ _ R4 ltac:(unfold few; lra) t_range ltac:(lia) ltac:(lia)) as [E5 R5].
  eexists. eexists. split; [rewrite div_ok by exact P2; exact E3|]. split; [exact E5|]. split; [apply (r_weak _ _ _ _ R5); lra|apply rnd_double].
Qed.
(** the momentum *)
Lemma m_sq : m * m = 0 \/ btw (-200) 200 (m * m).
Proof. destruct (ol_m _ _ _ _ HO) as [->|H]; [left; ring|right]. apply (btw_mul _ _ _ _ _ _ H H). Qed.
Lemma P_range : btw (-100) 100 P.
Proof. exact (ol_p _ _ _ _ HO). Qed.
Lemma PP_range : btw (-200) 200 (P * P).
Proof. exact (btw_mul _ _ _ _ _ _ P_range P_range). Qed.
Lemma EE_range : btw (-200) 202 (P * P + m * m).
Proof.
  apply (btw_weak (-200) (200 + 1)); [|lia|lia]. apply btw_add; [right; apply PP_range|apply m_sq|]. assert (A := btw_pos _ _ _ PP_range). nra.
Qed.
Lemma E_range : btw (-100) 101 E.
Proof. apply btw_sqrt. exact EE_range. Qed.
Lemma mom_ok : exists mo m2 w2 e2 en be mb c1 c2, vr_d p = Ok mo /\ rd (mo * mo) = Ok m2 /\ rd (m * m) = Ok w2 /\ rd (m2 + w2) = Ok e2 /\ sqrt_d e2 = Ok en /\
  rd_div mo en = Ok be /\ rd (mo * be) = Ok mb /\ rd_div c0136_d mb = Ok c1 /\ rd (c1 * 1) = Ok c2 /\ rel (18 / 1) c2 (136 / 10000 / (P * (P / E))) /\ btw (-110) 302 (136 / 10000 / (P * (P / E))).
Proof.
  destruct (len p (ol_p _ _ _ _ HO)) as (mo & E1 & R1). fold P in R1. exists mo.
  assert (R2 := r_mul _ _ _ _ _ _ R1 R1 ltac:(unfold few; lra) ltac:(unfold few; lra)). destruct (r_op _ _ _ _ _ R2 ltac:(unfold few; lra) PP_range ltac:(lia) ltac:(lia)) as [E3 R3].
  assert (M0 : 0 <= m * m) by nra.
  destruct (r_op0 0 (m * m) (m * m) _ _ (r_same _ M0) ltac:(unfold few; lra) m_sq ltac:(lia) ltac:(lia)) as [E4 R4].
  apply (r_weak _ (83 / 10)) in R3; [|lra]. apply (r_weak _ (83 / 10)) in R4; [|lra]. assert (R5 := r_add _ _ _ _ _ R3 R4).
  destruct (r_op _ _ _ _ _ R5 ltac:(unfold few; lra) EE_range ltac:(lia) ltac:(lia)) as [E6 R6].
  assert (E7 := sqrt_ok _ _ _ R6 ltac:(unfold few; lra)). apply r_sqrt in R6; [|unfold few; lra]. fold E in R6. apply r_rnd in R6; [|unfold few; lra|apply (btw_usable _ _ _ E_range); lia].
  destruct (r_div _ _ _ _ _ _ R1 R6 ltac:(unfold few; lra) ltac:(unfold few; lra) (btw_pos _ _ _ E_range)) as [R8 P8].
  assert (BR := btw_div _ _ _ _ _ _ P_range E_range). destruct (r_op _ _ _ _ _ R8 ltac:(unfold few; lra) BR ltac:(lia) ltac:(lia)) as [E9 R9].
  assert (R10 := r_mul _ _ _ _ _ _ R1 R9 ltac:(unfold few; lra) ltac:(unfold few; lra)).
  assert (PB := btw_mul _ _ _ _ _ _ P_range BR).
  assert (PB2 : btw (-301) 100 (P * (P / E))).
  { split; [apply (btw_weak _ _ (-301) 400 _ PB); lia|]. assert (PP := btw_pos _ _ _ P_range). assert (EP := btw_pos _ _ _ E_range). destruct P_range as [_ H].
    apply Rle_trans with (P * 1); [|lra]. apply Rmult_le_compat_l; [lra|]. apply Rmult_le_reg_r with E; [exact EP|]. unfold Rdiv. rewrite Rmult_assoc, Rinv_l, Rmult_1_r, Rmult_1_l by lra.
    unfold E. rewrite <- (sqrt_square P) at 1 by lra. apply sqrt_le_1_alt. nra. }
  destruct (r_op _ _ _ _ _ R10 ltac:(unfold few; lra) PB2 ltac:(lia) ltac:(lia)) as [E11 R11].
  assert (CB : btw (-10) 0 (136 / 10000)) by (split; [change (bpow radix2 (-10)) with (/ 1024)|change (bpow radix2 0) with 1]; lra).
  assert (C0 : 0 <= 136 / 10000) by lra. destruct (r_op 0 (136 / 10000) (136 / 10000) _ _ (r_same _ C0) ltac:(unfold few; lra) CB ltac:(lia) ltac:(lia)) as [_ R12]. fold c0136_d in R12.
  destruct (r_div _ _ _ _ _ _ R12 R11 ltac:(unfold few; lra) ltac:(unfold few; lra) (btw_pos _ _ _ PB2)) as [R13 P13].
  assert (AB := btw_div _ _ _ _ _ _ CB PB2). destruct (r_op _ _ _ _ _ R13 ltac:(unfold few; lra) AB ltac:(lia) ltac:(lia)) as [E14 R14].
  assert (R15 := R14). rewrite <- (Rmult_1_r (rnd (c0136_d / _))) in R15. destruct (r_op _ _ _ _ _ R15 ltac:(unfold few; lra) AB ltac:(lia) ltac:(lia)) as [E16 R16].
  do 8 eexists. split; [exact E1|]. split; [exact E3|]. split; [exact E4|]. split; [exact E6|]. split; [exact E7|]. split; [rewrite div_ok by exact P8; exact E9|]. split; [exact E11|].
  split; [rewrite div_ok by exact P13; exact E14|]. split; [exact E16|]. split; [apply (r_weak _ _ _ _ R16); lra|]. apply (btw_weak _ _ _ _ _ AB); lia.
Qed.

(** the factor with the logarithm *)
Let Lam := 1 + 38 / 1000 * Rabs (ln t).
Lemma log_ok X : rel (8 + 25 * kap) X t -> is_double X -> exists lg l f, log_d mlog X = Ok lg /\ rd (c038_d * lg) = Ok l /\ rd (1 + l) = Ok f /\
  Rabs (f - (1 + 38 / 1000 * ln t)) <= uround * (6 + kap) * Lam.
Proof.
  intros R D. assert (KR := kap_range). assert (TP := btw_pos _ _ _ t_range). assert (FK : few (8 + 25 * kap)) by (unfold few; lra).
  assert (LR := ln_rel _ _ _ R FK TP). assert (RR := r_range _ _ _ R FK). assert (XP : 0 < X) by lra. assert (FU := few_u _ FK). assert (N := ln_range).
  destruct (HL X D XP) as [DL HLX]. assert (U : 0 < uround <= / 1000000000000000) by (unfold uround; lra).
  assert (LE : least <= uround * / 1000000).
  { replace uround with (bpow radix2 (-53)) by (change (bpow radix2 (-53)) with (/ 9007199254740992); reflexivity). apply Rle_trans with (bpow radix2 (-53) * bpow radix2 (-20)); [rewrite <- bpow_plus; apply bpow_le; lia|].
    apply Rmult_le_compat_l; [apply bpow_ge_0|]. change (bpow radix2 (-20)) with (/ 1048576). lra. }
  set (a := ln t) in *. set (a' := ln X) in *. set (lg := mlog X) in *. set (k := 8 + 25 * kap) in *. set (A := Rabs a) in *. assert (A0 : 0 <= A) by apply Rabs_pos.
  assert (UA : 0 <= uround * A) by (apply Rmult_le_pos; lra).
  assert (UK : 0 <= uround * k <= / 1000000) by exact FU. assert (K8 : 8 <= k) by (unfold k; lra).
  assert (S1 : Rabs a' <= A + / 100000). { apply near_size in LR. fold A in LR. lra. }
  assert (D1 : Rabs (lg - a) <= uround * (201 / 100 * A + 102 / 100 * k)).
  { replace (lg - a) with ((lg - a') + (a' - a)) by ring. eapply Rle_trans; [apply Rabs_triang|].
    assert (2 * uround * Rabs a' <= 2 * uround * (A + / 100000)) by (apply Rmult_le_compat_l; lra).
    assert (uround * 8 <= uround * k) by (apply Rmult_le_compat_l; lra). lra. }
  assert (B1 : Rabs (lg - a) <= / 100000).
  { eapply Rle_trans; [exact D1|]. assert (uround * A <= / 1000000000000000 * 221) by (apply Rmult_le_compat; lra). lra. }
  assert (S2 : Rabs lg <= A + / 100000) by (apply near_size in B1; exact B1).
  assert (ELG : log_d mlog X = Ok lg).
  { unfold log_d. destruct Rlt_dec as [_|Q]; [|contradiction]. rewrite (mag_rd _ 8); [|lia|unfold mag; change (bpow radix2 8) with 256; fold lg; lra]. f_equal. apply rnd_id. exact DL. }
  exists lg. assert (CE := rnd_err (38 / 1000)). fold c038_d in CE. rewrite (Rabs_pos_eq (38 / 1000)) in CE by lra.
  assert (CE2 : Rabs (c038_d - 38 / 1000) <= uround * (39 / 1000)) by lra.
  assert (CS : Rabs c038_d <= 39 / 1000). { apply near_size in CE2. rewrite (Rabs_pos_eq (38 / 1000)) in CE2 by lra. lra. }
  assert (M1 := mul_err _ _ _ _ _ _ (38 / 1000) (A + / 100000) CE2 D1 ltac:(rewrite Rabs_pos_eq; lra) S2).
  assert (D2 : Rabs (c038_d * lg - 38 / 1000 * a) <= uround * (117 / 1000 * A + 39 / 1000 * k)).
  { eapply Rle_trans; [exact M1|]. assert (uround * 8 <= uround * k) by (apply Rmult_le_compat_l; lra). lra. }
  assert (Z2 : Rabs (c038_d * lg) <= 10). { rewrite Rabs_mult. apply Rle_trans with (39 / 1000 * 222); [|lra]. apply Rmult_le_compat; try apply Rabs_pos; lra. }
  assert (D3 := rnd_step _ _ _ D2). rewrite (Rabs_mult (38 / 1000) a), (Rabs_pos_eq (38 / 1000)) in D3 by lra. fold A in D3.
  set (l := rnd (c038_d * lg)) in *.
  assert (D4 : Rabs (l - 38 / 1000 * a) <= uround * (156 / 1000 * A + 392 / 10000 * k)).
  { eapply Rle_trans; [exact D3|]. assert (uround * 8 <= uround * k) by (apply Rmult_le_compat_l; lra). lra. }
  assert (D5 : Rabs (1 + l - (1 + 38 / 1000 * a)) <= uround * (156 / 1000 * A + 392 / 10000 * k)) by (replace (1 + l - (1 + 38 / 1000 * a)) with (l - 38 / 1000 * a) by ring; exact D4).
  assert (D6 := rnd_step _ _ _ D5).
  assert (SF : Rabs (1 + 38 / 1000 * a) <= Lam). { eapply Rle_trans; [apply Rabs_triang|]. rewrite Rabs_R1, Rabs_mult, (Rabs_pos_eq (38 / 1000)) by lra. fold A. unfold Lam. fold a A. lra. }
  assert (LL : Lam = 1 + 38 / 1000 * A) by reflexivity.
  assert (Z3 : Rabs (1 + l) <= 20).
  { apply near_size in D5. assert (uround * A <= / 1000000000000000 * 221) by (apply Rmult_le_compat; lra). lra. }
  exists l, (rnd (1 + l)). split; [exact ELG|].
  split; [apply (mag_rd _ 4); [lia|unfold mag; change (bpow radix2 4) with 16; lra]|].
  split; [apply (mag_rd _ 5); [lia|unfold mag; change (bpow radix2 5) with 32; lra]|].
  eapply Rle_trans; [exact D6|]. assert (uround * Rabs (1 + 38 / 1000 * a) <= uround * Lam) by (apply Rmult_le_compat_l; lra).
  assert (UL : 0 <= uround * kap) by (apply Rmult_le_pos; lra). assert (UL2 : 0 <= uround * kap * A) by (apply Rmult_le_pos; lra). rewrite LL in *. unfold k in *. lra.
Qed.

Lemma angle_ok : exists q, computeQMS_d mlog surf uv p m = Ok q /\ Rabs (q - highland P m t) <= uround * (33 + 14 * kap) * highland_scale P m t.
Proof.
  destruct rtot_ok as [E1 R1]. destruct eff_ok as (a & b & ab & x0 & E2 & E3 & E4 & E5 & R5). destruct cos_ok as (up & d & E6 & E7 & R7).
  destruct (depth_ok d x0 R7 R5) as (pa & X & E8 & E9 & R9 & D9). destruct mom_ok as (mo & m2 & w2 & e2 & en & be & mb & c1 & c2 & F1 & F2 & F3 & F4 & F5 & F6 & F7 & F8 & F9 & RA & BA).
  destruct (log_ok X R9 D9) as (lg & l & f & G1 & G2 & G3 & DF).
  unfold computeQMS_d. fold ri ro xi xo. fold (normal_at surf uv). fold n. cbv zeta. assert (KR := kap_range).
  assert (H1 := sqrt_ok _ _ _ R9 ltac:(unfold few; lra)). assert (TR := t_range).
  assert (RQ := r_sqrt _ _ _ R9 ltac:(unfold few; lra)).
  assert (SQ : btw (-101) 111 (sqrt t)) by (apply btw_sqrt; apply (btw_weak _ _ _ _ _ TR); lia).
  apply r_rnd in RQ; [|unfold few; lra|apply (btw_usable _ _ _ SQ); lia].
  assert (RM := r_mul _ _ _ _ _ _ RA RQ ltac:(unfold few; lra) ltac:(unfold few; lra)).
  assert (AR := btw_mul _ _ _ _ _ _ BA SQ). destruct (r_op _ _ _ _ _ RM ltac:(unfold few; lra) AR ltac:(lia) ltac:(lia)) as [H2 R2].
  rewrite E1, E2. cbn [bind]. rewrite E3. cbn [bind]. rewrite E4. cbn [bind]. rewrite E5. cbn [bind]. rewrite E6. cbn [bind]. fold n. rewrite E7. cbn [bind]. rewrite E8. cbn [bind]. rewrite E9. cbn [bind].
  rewrite F1. cbn [bind]. rewrite F2. cbn [bind]. rewrite F3. cbn [bind]. rewrite F4. cbn [bind]. rewrite F5. cbn [bind]. rewrite F6. cbn [bind]. rewrite F7. cbn [bind]. rewrite F8. cbn [bind]. rewrite F9. cbn [bind].
  rewrite H1. cbn [bind]. rewrite H2. cbn [bind]. rewrite G1. cbn [bind]. rewrite G2. cbn [bind]. rewrite G3. cbn [bind].
  assert (HH : highland P m t = 136 / 10000 / (P * (P / E)) * sqrt t * (1 + 38 / 1000 * ln t)) by reflexivity.
  assert (HS : highland_scale P m t = 136 / 10000 / (P * (P / E)) * sqrt t * Lam) by reflexivity. rewrite HH, HS.
  set (A := 136 / 10000 / (P * (P / E)) * sqrt t) in *. set (c3 := rnd (c2 * rnd (sqrt X))) in *. set (F := 1 + 38 / 1000 * ln t) in *.
  assert (AP := btw_pos _ _ _ AR). apply (r_weak _ (25 + 1265 / 100 * kap)) in R2; [|lra].
  assert (U : 0 < uround <= / 1000000000000000) by (unfold uround; lra).
  assert (LP : 1 <= Lam <= 10). { assert (N := ln_range). assert (Q := Rabs_pos (ln t)). unfold Lam. lra. }
  assert (SF : Rabs F <= Lam). { unfold F, Lam. eapply Rle_trans; [apply Rabs_triang|]. rewrite Rabs_R1, Rabs_mult, (Rabs_pos_eq (38 / 1000)) by lra. lra. }
  assert (FU := few_u (6 + kap) ltac:(unfold few; lra)).
  assert (SF' : Rabs f <= 1001 / 1000 * Lam). { apply near_size in DF. assert (uround * (6 + kap) * Lam <= / 1000000 * Lam) by (apply Rmult_le_compat_r; lra). lra. }
  destruct R2 as [_ R2].
  assert (MM := mul_err _ _ _ _ _ _ A _ R2 DF ltac:(rewrite Rabs_pos_eq; lra) SF').
  assert (UAL : 0 <= uround * (A * Lam)) by (apply Rmult_le_pos; [lra|apply Rmult_le_pos; lra]).
  assert (UKL : 0 <= uround * kap * (A * Lam)) by (apply Rmult_le_pos; [apply Rmult_le_pos; lra|apply Rmult_le_pos; lra]).
  assert (D1 : Rabs (c3 * f - A * F) <= uround * (3103 / 100 + 137 / 10 * kap) * (A * Lam)).
  { eapply Rle_trans; [exact MM|].
    replace (uround * (25 + 1265 / 100 * kap) * A * (1001 / 1000 * Lam) + A * (uround * (6 + kap) * Lam)) with ((1001 / 1000 * 25 + 6) * (uround * (A * Lam)) + (1001 / 1000 * (1265 / 100) + 1) * (uround * kap * (A * Lam))) by ring.
    replace (uround * (3103 / 100 + 137 / 10 * kap) * (A * Lam)) with (3103 / 100 * (uround * (A * Lam)) + 137 / 10 * (uround * kap * (A * Lam))) by ring. lra. }
  assert (ALP : 0 < A * Lam) by (apply Rmult_lt_0_compat; lra).
  assert (SAF : Rabs (A * F) <= A * Lam) by (rewrite Rabs_mult, (Rabs_pos_eq A) by lra; apply Rmult_le_compat_l; lra).
  assert (LE : least <= uround * (/ 1000 * (A * Lam))).
  { apply usable_least. apply Rle_trans with A; [|rewrite <- (Rmult_1_r A) at 1; apply Rmult_le_compat_l; lra]. destruct AR as [AR _]. eapply Rle_trans; [|exact AR]. apply bpow_le. lia. }
  assert (D2 := rnd_step _ _ _ D1). assert (uround * Rabs (A * F) <= uround * (A * Lam)) by (apply Rmult_le_compat_l; lra).
  exists (rnd (c3 * f)). split.
  - apply (mag_rd _ 420); [lia|]. unfold mag. apply near_size in D1. assert (FU2 := few_u (3103 / 100 + 137 / 10 * kap) ltac:(unfold few; lra)).
    assert (uround * (3103 / 100 + 137 / 10 * kap) * (A * Lam) <= / 1000000 * (A * Lam)) by (apply Rmult_le_compat_r; lra).
    apply Rle_trans with (16 * A); [assert (A * Lam <= A * 10) by (apply Rmult_le_compat_l; lra); lra|]. destruct AR as [_ AR]. apply Rle_trans with (16 * bpow radix2 (302 + 111)); [lra|].
    change 16 with (bpow radix2 4). rewrite <- bpow_plus. apply bpow_le. lia.
  - eapply Rle_trans; [exact D2|].
    replace (uround * (3103 / 100 + 137 / 10 * kap) * (A * Lam)) with (3103 / 100 * (uround * (A * Lam)) + 137 / 10 * (uround * kap * (A * Lam))) by ring.
    replace (uround * (33 + 14 * kap) * (A * Lam)) with (33 * (uround * (A * Lam)) + 14 * (uround * kap * (A * Lam))) by ring. lra.
Qed.
End Angle.
