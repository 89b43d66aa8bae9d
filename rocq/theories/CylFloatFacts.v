(** Facts about CylFloat.v: one operation after the other. *)
From Coq Require Import Reals ZArith Lra Lia Psatz.
From Flocq Require Import Core.
From Verif Require Import Num Vec FloatWrap PointFloat SpecRound SpecPath RoundFacts PointFloatFacts PathTrig PathFloatFacts MoveFloatFacts NearFacts
  SpecHelix HelixFacts Isect SpecIsect SurfFacts NumFacts CylGeom PathFloat PropPath MoveFacts PropMove PropRound CylFloat SpecCylFloat.
Open Scope R_scope.

Tactic Notation "rn" hyp(A) ident(B) tactic(tac) := assert (B := A); apply n_rnd in B; [|lra|tac].

Lemma rd_inv {A} x (k : R -> res A) r : (y <- rd x ;; k y) = Ok r -> k (rnd x) = Ok r.
Proof. unfold rd. destruct Rlt_dec; [auto|discriminate]. Qed.
Lemma bind_inv {A B} (m : res A) (k : A -> res B) r : bind m k = Ok r -> exists a, m = Ok a /\ k a = Ok r.
Proof. destruct m; try discriminate. intros H. eexists. split; [reflexivity|exact H]. Qed.

Lemma mag_rnd' x k : mag x k -> (-1000 <= k)%Z -> mag (rnd x) k.
Proof. intros A B. apply mag_rnd; auto. Qed.
Lemma mag_add' x y k l : mag x k -> mag y l -> mag (x + y) (Z.max k l + 1).
Proof. intros A B. apply mag_add; [apply (mag_le _ k)|apply (mag_le _ l)]; auto; lia. Qed.
Lemma mag_sub' x y k l : mag x k -> mag y l -> mag (x - y) (Z.max k l + 1).
Proof. intros A B. apply mag_sub; [apply (mag_le _ k)|apply (mag_le _ l)]; auto; lia. Qed.
Lemma mag_sqrt x k : mag x k -> (0 <= k)%Z -> mag (sqrt x) k.
Proof.
  unfold mag. intros A B. rewrite Rabs_pos_eq by apply sqrt_pos. assert (1 <= bpow radix2 k) by (apply (bpow_le radix2 0); lia).
  apply Rabs_le_inv in A. rewrite <- (sqrt_square (bpow radix2 k)) by lra. apply sqrt_le_1_alt.
  assert (1 * bpow radix2 k <= bpow radix2 k * bpow radix2 k) by (apply Rmult_le_compat_r; lra). lra.
Qed.
Lemma mag_2 : mag 2 1.
Proof. unfold mag. rewrite Rabs_pos_eq by lra. change (bpow radix2 1) with 2. lra. Qed.
Lemma rd_fin {A} x k (K : R -> res A) : mag x k -> (k <= 1000)%Z -> bind (rd x) K = K (rnd x).
Proof. intros H L. rewrite (mag_rd x k L H). reflexivity. Qed.
Lemma rd_fin1 x k : mag x k -> (k <= 1000)%Z -> rd x = Ok (rnd x).
Proof. intros H L. exact (mag_rd x k L H). Qed.
Ltac mag_up := match goal with
  | H : mag ?x _ |- mag ?x _ => exact H
  | |- mag (rnd _) _ => eapply mag_rnd'; [mag_up|vm_compute; discriminate]
  | |- mag (sqrt _) _ => eapply mag_sqrt; [mag_up|vm_compute; discriminate]
  | |- mag (_ + _) _ => eapply mag_add'; mag_up
  | |- mag (_ - _) _ => eapply mag_sub'; mag_up
  | |- mag (_ * _) _ => eapply mag_mul; mag_up
  end.
Ltac mg := eapply mag_le; [mag_up|vm_compute; discriminate].
Ltac fin1 := match goal with |- context [bind (rd ?x) ?K] => erewrite (rd_fin x); [|mag_up|vm_compute; discriminate]; cbv beta end.
Tactic Notation "fin" integer(n) := do n fin1.

Section Cyl.
Variables (L : libm) (at2 : R -> R -> R) (as_ : R -> R) (hp : vec5) (rp : vec3) (rho : R) (c : vec3).
Hypothesis HL : good_library L at2.
Hypothesis HA : good_asin as_.
Hypothesis HT : ordinary_track hp rp.
Hypothesis HC : ordinary_cylinder rho c.

Let om := hp OMEGA. Let ph := hp PHI0. Let d0 := hp D0.
Let S := reach rho c hp rp.
Let K := Rabs om * S.
Let M := 1 + K.
Let sn := m_sin L ph. Let cs := m_cos L ph.
Let x0' := rnd (vx rp - rnd (d0 * sn)). Let y0' := rnd (vy rp + rnd (d0 * cs)).
Let dx' := rnd (vx c - x0'). Let dy' := rnd (vy c - y0').
Let sox' := rnd (sn - rnd (om * dx')). Let coy' := rnd (cs + rnd (om * dy')).
Let dx := vx c - (vx rp - d0 * sin ph). Let dy := vy c - (vy rp + d0 * cos ph).
Let sox := sin ph - om * dx. Let coy := cos ph + om * dy.
Let N := 2 * dx * sin ph - 2 * dy * cos ph - om * rho * rho - om * (dx * dx + dy * dy).
Let num' := rnd (rnd (rnd (rnd (rnd (2 * dx') * sn) - rnd (rnd (2 * dy') * cs)) - rnd (rnd (om * rho) * rho))
                 - rnd (om * rnd (rnd (dx' * dx') + rnd (dy' * dy')))).
Let q' := rnd (rnd (sox' * sox') + rnd (coy' * coy')).
Let den' := rnd (rnd (2 * rho) * rnd (sqrt q')).
Let h' := sqrt (sox' * sox' + coy' * coy').
Let h := sqrt (sox * sox + coy * coy).

Lemma rho_pos : 0 < rho.
Proof. generalize (oc_small _ _ HC) (bpow_gt_0 radix2 (-200)). lra. Qed.
Lemma parts : Rabs (vx c) + (Rabs (vx rp) + (Rabs d0 + rho)) <= S /\ Rabs (vy c) + (Rabs (vy rp) + (Rabs d0 + rho)) <= S
  /\ Rabs (vx c) + rho <= S /\ Rabs (vy c) + rho <= S /\ rho <= S.
Proof.
  unfold S, reach, d0. assert (R0 := rho_pos).
  generalize (Rabs_pos (vx c)) (Rabs_pos (vy c)) (Rabs_pos (vx rp)) (Rabs_pos (vy rp)) (Rabs_pos (hp D0)). intros. lra.
Qed.
Lemma K_pos : 0 <= K.
Proof. apply Rmult_le_pos; [apply Rabs_pos|]. generalize parts rho_pos. lra. Qed.
Lemma b200 B : rho <= B -> bpow radix2 (-200) <= B.
Proof. generalize (oc_small _ _ HC). lra. Qed.
Lemma us B : rho <= B -> usable B.
Proof. intros H. right. apply Rle_trans with (bpow radix2 (-200)); [apply bpow_le; lia|apply b200, H]. Qed.
Lemma usM : usable M.
Proof. right. apply Rle_trans with 1; [apply (bpow_le radix2 (-700) 0); lia|]. unfold M. generalize K_pos. lra. Qed.
Lemma us_om B k : (k <= 500)%Z -> bpow radix2 (- k) <= B -> usable (Rabs om * B).
Proof.
  intros Hk H. destruct (ot_om0 _ _ HT) as [Z|Z]; [left; unfold om; rewrite Z, Rabs_R0; ring|]. right.
  apply Rle_trans with (bpow radix2 (-200) * bpow radix2 (- k)); [rewrite <- bpow_plus; apply bpow_le; lia|].
  apply Rmult_le_compat; auto using bpow_ge_0.
Qed.
Lemma one_us : usable 1.
Proof. right. apply (bpow_le radix2 (-700) 0). lia. Qed.
Lemma b_mul A B k l : bpow radix2 k <= A -> bpow radix2 l <= B -> bpow radix2 (k + l) <= A * B.
Proof. intros HA' HB. rewrite bpow_plus. apply Rmult_le_compat; auto using bpow_ge_0. Qed.

Lemma n_lib a : is_double a -> near 1 (21 / 10) (m_sin L a) (sin a) /\ near 1 (21 / 10) (m_cos L a) (cos a).
Proof.
  intros D. assert (A := gl_accurate _ _ HL). destruct least_u as [_ Lu]. assert (U := u_small).
  split; split; [apply sin_1| |apply cos_1|].
  - destruct (sin_at L A a D) as [E _]. lra.
  - destruct (cos_at L A a D) as [E _]. lra.
Qed.
Lemma n_sn : near 1 (21 / 10) sn (sin ph). Proof. apply (n_lib ph), HT. Qed.
Lemma n_cs : near 1 (21 / 10) cs (cos ph). Proof. apply (n_lib ph), HT. Qed.

Lemma n_leg f g : near 1 (21 / 10) f g -> near (Rabs d0 + rho) (32 / 10) (rnd (d0 * f)) (d0 * g).
Proof.
  intros F. assert (R0 := rho_pos). assert (P := Rabs_pos d0).
  assert (A := n_mul _ _ _ _ _ _ _ _ (n_same (Rabs d0 + rho) d0 ltac:(lra)) F ltac:(lra) ltac:(lra)). rewrite Rmult_1_r in A.
  assert (E1 : rho <= Rabs d0 + rho) by lra. assert (B := n_rnd _ _ _ _ A ltac:(lra) (us _ E1)). apply (n_weak _ _ _ _ _ _ B); lra.
Qed.
Lemma n_dx : near S (54 / 10) dx' dx.
Proof.
  assert (R0 := rho_pos). assert (P := Rabs_pos d0). assert (P1 := Rabs_pos (vx rp)). assert (P2 := Rabs_pos (vx c)).
  assert (A := n_sub _ _ _ _ _ _ _ _ (32 / 10) (n_same _ (vx rp) (Rle_refl _)) (n_leg _ _ n_sn) ltac:(lra) ltac:(lra)).
  rn A B (apply us; lra). fold x0' in B.
  assert (C := n_sub _ _ _ _ _ _ _ _ (43 / 10) (n_same _ (vx c) (Rle_refl _)) B ltac:(lra) ltac:(lra)).
  rn C D (apply us; lra). fold dx' dx in D.
  apply (n_weak _ _ _ _ _ _ D); [lra|lra|apply parts].
Qed.
Lemma n_dy : near S (54 / 10) dy' dy.
Proof.
  assert (R0 := rho_pos). assert (P := Rabs_pos d0). assert (P1 := Rabs_pos (vy rp)). assert (P2 := Rabs_pos (vy c)).
  assert (A := n_add _ _ _ _ _ _ _ _ (32 / 10) (n_same _ (vy rp) (Rle_refl _)) (n_leg _ _ n_cs) ltac:(lra) ltac:(lra)).
  rn A B (apply us; lra). fold y0' in B.
  assert (C := n_sub _ _ _ _ _ _ _ _ (43 / 10) (n_same _ (vy c) (Rle_refl _)) B ltac:(lra) ltac:(lra)).
  rn C D (apply us; lra). fold dy' dy in D.
  apply (n_weak _ _ _ _ _ _ D); [lra|lra|apply parts].
Qed.
Lemma S_200 : bpow radix2 (-200) <= S.
Proof. apply b200. apply parts. Qed.
Lemma n_bent d' d : near S (54 / 10) d' d -> near K (65 / 10) (rnd (om * d')) (om * d).
Proof.
  intros D. assert (A := n_mul _ _ _ _ _ _ _ _ (n_same _ om (Rle_refl _)) D ltac:(lra) ltac:(lra)).
  assert (B := n_rnd _ _ _ _ A ltac:(lra) (us_om _ 200 ltac:(lia) S_200)). apply (n_weak _ _ _ _ _ _ B); unfold K; lra.
Qed.
Lemma n_sox : near M (76 / 10) sox' sox.
Proof.
  assert (A := n_sub _ _ _ _ _ _ _ _ (65 / 10) n_sn (n_bent _ _ n_dx) ltac:(lra) ltac:(lra)). fold M in A.
  assert (B := n_rnd _ _ _ _ A ltac:(lra) usM). apply (n_weak _ _ _ _ _ _ B); lra.
Qed.
Lemma n_coy : near M (76 / 10) coy' coy.
Proof.
  assert (A := n_add _ _ _ _ _ _ _ _ (65 / 10) n_cs (n_bent _ _ n_dy) ltac:(lra) ltac:(lra)). fold M in A.
  assert (B := n_rnd _ _ _ _ A ltac:(lra) usM). apply (n_weak _ _ _ _ _ _ B); lra.
Qed.

Lemma n_two d' d f g : near S (54 / 10) d' d -> near 1 (21 / 10) f g -> near (2 * S) (96 / 10) (rnd (rnd (2 * d') * f)) (2 * d * g).
Proof.
  intros D F. assert (R0 := rho_pos). assert (PS := parts).
  assert (A := n_mul _ _ _ _ _ _ _ _ (n_same 2 2 ltac:(rewrite Rabs_pos_eq; lra)) D ltac:(lra) ltac:(lra)).
  rn A B (apply us; lra).
  assert (C := n_mul _ _ _ _ _ _ _ _ B F ltac:(lra) ltac:(lra)).
  rn C E (apply us; lra). apply (n_weak _ _ _ _ _ _ E); lra.
Qed.

Lemma n_num : Rabs (num' - N) <= 60 * (uround * (S * M)).
Proof.
  assert (R0 := rho_pos). assert (PS := parts). assert (S2 := S_200). assert (U := u_small). assert (K0 := K_pos).
  assert (A := n_sub _ _ _ _ _ _ _ _ _ (n_two _ _ _ _ n_dx n_sn) (n_two _ _ _ _ n_dy n_cs) (Rle_refl _) (Rle_refl _)).
  rn A A1 (apply us; lra).
  assert (SR : Rabs rho <= S) by (rewrite Rabs_pos_eq; lra).
  assert (B := n_mul _ _ _ _ _ _ _ _ (n_same _ om (Rle_refl _)) (n_same S rho SR) ltac:(lra) ltac:(lra)).
  assert (B1 := n_rnd _ _ _ _ B ltac:(lra) (us_om _ 200 ltac:(lia) S2)).
  assert (B2 := n_mul _ _ _ _ _ _ _ _ B1 (n_same S rho SR) ltac:(lra) ltac:(lra)).
  assert (SS : bpow radix2 (-400) <= S * S) by exact (b_mul _ _ (-200) (-200) S2 S2).
  assert (B3 : near (Rabs om * S * S) (205 / 100) (rnd (rnd (om * rho) * rho)) (om * rho * rho)).
  { rewrite Rmult_assoc in B2 at 1. assert (Q := n_rnd _ _ _ _ B2 ltac:(lra) (us_om _ 400 ltac:(lia) SS)). rewrite <- Rmult_assoc in Q.
    apply (n_weak _ _ _ _ _ _ Q); lra. }
  fold K in B3. assert (KS : 0 <= K * S) by (apply Rmult_le_pos; lra).
  assert (C := n_sub _ _ _ _ _ _ _ _ _ A1 B3 (Rle_refl _) ltac:(lra)).
  rn C C1 (apply us; lra).
  assert (X := n_rnd _ _ _ _ (n_mul _ _ _ _ _ _ _ _ n_dx n_dx ltac:(lra) ltac:(lra)) ltac:(lra) (or_intror (Rle_trans _ _ _ (bpow_le radix2 (-700) (-400) ltac:(lia)) SS))).
  assert (Y := n_rnd _ _ _ _ (n_mul _ _ _ _ _ _ _ _ n_dy n_dy ltac:(lra) ltac:(lra)) ltac:(lra) (or_intror (Rle_trans _ _ _ (bpow_le radix2 (-700) (-400) ltac:(lia)) SS))).
  assert (XY := n_add _ _ _ _ _ _ _ _ _ X Y (Rle_refl _) (Rle_refl _)).
  assert (S4 : bpow radix2 (-400) <= S * S + S * S) by (assert (0 <= S * S) by nra; lra).
  assert (XY1 := n_rnd _ _ _ _ XY ltac:(lra) (or_intror (Rle_trans _ _ _ (bpow_le radix2 (-700) (-400) ltac:(lia)) S4))).
  assert (Z := n_mul _ _ _ _ _ _ _ _ (n_same _ om (Rle_refl _)) XY1 ltac:(lra) ltac:(lra)).
  assert (Z1 := n_rnd _ _ _ _ Z ltac:(lra) (us_om _ 400 ltac:(lia) S4)).
  assert (E := n_sub _ _ _ _ _ _ _ _ (139 / 10) C1 Z1 ltac:(lra) ltac:(lra)).
  assert (EP : Rabs om * (S * S + S * S) = 2 * (K * S)) by (unfold K; ring). rewrite EP in E.
  rn E E1 (apply us; lra). fold N num' in E1. destruct E1 as [_ E1].
  eapply Rle_trans; [exact E1|]. assert (uround * ((139 / 10 + 101 / 100) * (2 * S + 2 * S + K * S + 2 * (K * S))) <= uround * (60 * (S * M))); [|lra].
  apply Rmult_le_compat_l; [lra|]. unfold M. lra.
Qed.

(** ** the denominator *)
Lemma h'_size : 0 <= h' <= 2002 / 1000 * M.
Proof.
  assert (A := n_size _ _ _ _ n_sox ltac:(lra)). assert (B := n_size _ _ _ _ n_coy ltac:(lra)). split; [apply sqrt_pos|]. unfold h'.
  assert (K0 := K_pos). assert (M1 : 0 <= M) by (unfold M; lra).
  rewrite <- (sqrt_square (2002 / 1000 * M)) by lra. apply sqrt_le_1_alt.
  assert (forall x B, Rabs x <= B -> x * x <= B * B).
  { intros x B0 X. rewrite <- (Rabs_pos_eq (x * x)) by nra. rewrite Rabs_mult. apply Rmult_le_compat; auto using Rabs_pos. }
  assert (X1 := H _ _ A). assert (X2 := H _ _ B). nra.
Qed.

Lemma q'_close : 0 <= q' /\ Rabs (q' - (sox' * sox' + coy' * coy')) <= 21 / 10 * uround * (sox' * sox' + coy' * coy') + 4 * least.
Proof.
  assert (U := u_small). assert (LP := least_pos).
  assert (A := rnd_err (sox' * sox')). assert (B := rnd_err (coy' * coy')).
  assert (C := rnd_err (rnd (sox' * sox') + rnd (coy' * coy'))). fold q' in C.
  assert (X0 : 0 <= sox' * sox') by nra. assert (Y0 : 0 <= coy' * coy') by nra.
  assert (NN : forall x, 0 <= x -> 0 <= rnd x).
  { intros x Hx. rewrite <- rnd_0. apply round_le; [apply FLT_exp_valid; reflexivity|apply valid_rnd_N|exact Hx]. }
  assert (Q0 : 0 <= q') by (unfold q'; apply NN; generalize (NN _ X0) (NN _ Y0); lra).
  set (X := sox' * sox') in *. set (Y := coy' * coy') in *. set (X' := rnd X) in *. set (Y' := rnd Y) in *.
  assert (X0' : 0 <= X') by apply NN, X0. assert (Y0' : 0 <= Y') by apply NN, Y0. split; [exact Q0|].
  clearbody X Y X' Y'. rewrite (Rabs_pos_eq X) in A by lra. rewrite (Rabs_pos_eq Y) in B by lra. rewrite (Rabs_pos_eq (X' + Y')) in C by lra.
  assert (S1 : X' + Y' <= 11 / 10 * (X + Y) + 2 * least).
  { apply Rabs_le_inv in A. apply Rabs_le_inv in B.
    assert (uround * X <= / 1000000 * X) by (apply Rmult_le_compat_r; lra). assert (uround * Y <= / 1000000 * Y) by (apply Rmult_le_compat_r; lra). lra. }
  assert (S2 : Rabs (X' + Y' - (X + Y)) <= uround * (X + Y) + 2 * least).
  { eapply Rle_trans; [apply (add_err _ _ _ _ _ _ A B)|]. lra. }
  assert (uround * (X' + Y') <= uround * (11 / 10 * (X + Y) + 2 * least)) by (apply Rmult_le_compat_l; lra).
  assert (uround * least <= / 1000000 * least) by (apply Rmult_le_compat_r; lra).
  replace (q' - (X + Y)) with ((q' - (X' + Y')) + (X' + Y' - (X + Y))) by ring. eapply Rle_trans; [apply Rabs_triang|]. lra.
Qed.

Lemma n_den : near (2 * S * (2002 / 1000 * M)) (53 / 10) den' (2 * rho * h').
Proof.
  assert (R0 := rho_pos). assert (PS := parts). assert (K0 := K_pos). destruct q'_close as [Q0 Q]. destruct h'_size as [H0 H1].
  assert (U := u_small). assert (LP := least_pos).
  assert (P : 0 <= sox' * sox' + coy' * coy') by nra.
  assert (T : 4 * least <= bpow radix2 (-530) * bpow radix2 (-530)).
  { rewrite <- bpow_plus. unfold least. change 4 with (bpow radix2 2). rewrite <- bpow_plus. apply bpow_le. lia. }
  assert (T0 := bpow_gt_0 radix2 (-530)).
  assert (SQ := sqrt_close q' _ (21 / 10 * uround) (bpow radix2 (-530)) Q0 P ltac:(lra) ltac:(lra) ltac:(lra)). fold h' in SQ.
  assert (T1 : bpow radix2 (-530) <= uround * / 1000).
  { apply Rle_trans with (bpow radix2 (-80)); [apply bpow_le; lia|]. change (bpow radix2 (-80)) with (/ 1208925819614629174706176). unfold uround. lra. }
  assert (A : near (2002 / 1000 * M) (22 / 10) (sqrt q') h').
  { split; [rewrite Rabs_pos_eq; lra|]. eapply Rle_trans; [exact SQ|].
    assert (uround * h' <= uround * (2002 / 1000 * M)) by (apply Rmult_le_compat_l; lra).
    assert (uround * 1 <= uround * M) by (apply Rmult_le_compat_l; unfold M; lra). lra. }
  assert (UM : usable (2002 / 1000 * M)).
  { right. apply Rle_trans with 1; [apply (bpow_le radix2 (-700) 0); lia|]. unfold M. lra. }
  assert (B := n_rnd _ _ _ _ A ltac:(lra) UM).
  assert (C0 := n_same (2 * S) (2 * rho) ltac:(rewrite Rabs_pos_eq; lra)). rn C0 C (apply us; lra).
  assert (D := n_mul _ _ _ _ _ _ _ _ C B ltac:(lra) ltac:(lra)).
  rn D E (apply us; assert (0 <= S * K) by (apply Rmult_le_pos; lra); unfold M; nra).
  apply (n_weak _ _ _ _ _ _ E); try lra.
Qed.
Lemma den_err : Rabs (den' - 2 * rho * h') <= 22 * (uround * (S * M)).
Proof.
  destruct n_den as [_ E]. eapply Rle_trans; [exact E|]. assert (U := u_small). assert (PS := parts). assert (R0 := rho_pos). assert (K0 := K_pos).
  assert (0 <= S * M) by (apply Rmult_le_pos; [lra|unfold M; lra]). assert (0 <= uround * (S * M)) by (apply Rmult_le_pos; lra).
  replace (uround * (53 / 10 * (2 * S * (2002 / 1000 * M)))) with (uround * (S * M) * (53 / 10 * 2 * (2002 / 1000))) by field. lra.
Qed.
Lemma den_pos : 0 <= den'.
Proof.
  unfold den'. rewrite <- rnd_0. assert (R0 := rho_pos).
  assert (MO : forall a b, a <= b -> rnd a <= rnd b) by (intros a b; apply round_le; [apply FLT_exp_valid; reflexivity | apply valid_rnd_N]).
  apply MO. apply Rmult_le_pos.
  - rewrite <- rnd_0. apply MO. lra.
  - rewrite <- rnd_0. apply MO. apply sqrt_pos.
Qed.
Lemma h_err : Rabs (h' - h) <= 154 / 10 * (uround * M).
Proof.
  destruct n_sox as [_ A]. destruct n_coy as [_ B].
  (* |(|a'| - |a|)| <= |a' - a| *)
  assert (T : forall a b a' b', sqrt (a' * a' + b' * b') <= sqrt (a * a + b * b) + (Rabs (a' - a) + Rabs (b' - b))).
  { intros a b a' b'. assert (P1 := Rabs_pos (a' - a)). assert (P2 := Rabs_pos (b' - b)).
    set (q := sqrt (a * a + b * b)). assert (Q0 : 0 <= q) by apply sqrt_pos. assert (QQ : q * q = a * a + b * b) by (apply sqrt_sqrt; nra). clearbody q.
    assert (A2 : 0 <= a * a) by nra. assert (B2 : 0 <= b * b) by nra.
    rewrite <- (sqrt_square (q + (Rabs (a' - a) + Rabs (b' - b)))) by lra. apply sqrt_le_1_alt.
    assert (E1 : Rabs (a' - a) * Rabs (a' - a) = (a' - a) * (a' - a)) by (rewrite <- Rabs_mult; apply Rabs_pos_eq; apply Rle_0_sqr).
    assert (E2 : Rabs (b' - b) * Rabs (b' - b) = (b' - b) * (b' - b)) by (rewrite <- Rabs_mult; apply Rabs_pos_eq; apply Rle_0_sqr).
    assert (QA : Rabs a <= q) by (apply Rsqr_incr_0_var; [unfold Rsqr; rewrite <- Rabs_mult, (Rabs_pos_eq (a * a)) by nra; nra|exact Q0]).
    assert (QB : Rabs b <= q) by (apply Rsqr_incr_0_var; [unfold Rsqr; rewrite <- Rabs_mult, (Rabs_pos_eq (b * b)) by nra; nra|exact Q0]).
    assert (V1 : a * (a' - a) <= q * Rabs (a' - a)).
    { eapply Rle_trans; [apply Rle_abs|]. rewrite Rabs_mult. apply Rmult_le_compat_r; lra. }
    assert (V2 : b * (b' - b) <= q * Rabs (b' - b)).
    { eapply Rle_trans; [apply Rle_abs|]. rewrite Rabs_mult. apply Rmult_le_compat_r; lra. }
    assert (0 <= Rabs (a' - a) * Rabs (b' - b)) by (apply Rmult_le_pos; lra). nra. }
  assert (X := T sox coy sox' coy'). assert (Y := T sox' coy' sox coy). fold h h' in X, Y.
  rewrite (Rabs_minus_sym sox), (Rabs_minus_sym coy) in Y. apply Rabs_le. lra.
Qed.

(** ** the two azimuths *)
Lemma SM_pos : 0 <= uround * (S * M) /\ uround * S <= uround * (S * M) /\ 0 < uround * S.
Proof.
  assert (U := u_small). assert (PS := parts). assert (R0 := rho_pos). assert (K0 := K_pos).
  assert (0 <= S * K) by (apply Rmult_le_pos; lra). assert (S * M = S + S * K) by (unfold M; ring).
  assert (0 <= uround * (S * K)) by (apply Rmult_le_pos; lra). assert (0 < uround * S) by (apply Rmult_lt_0_compat; lra).
  rewrite H0, Rmult_plus_distr_l. lra.
Qed.

Lemma den_size : den' <= 402 / 100 * (2002 / 2000 * (S * M)).
Proof.
  assert (A := n_size _ _ _ _ n_den ltac:(lra)). rewrite Rabs_pos_eq in A by apply den_pos.
  assert (PS := parts). assert (R0 := rho_pos). assert (K0 := K_pos). assert (0 <= S * M) by (apply Rmult_le_pos; [lra|unfold M; lra]). lra.
Qed.

Let g := rnd (num' / den').
Lemma gamma_err : den' <> 0 -> Rabs g <= 1 -> Rabs (g * (2 * rho * h') - N) <= 87 * (uround * (S * M)).
Proof.
  intros D G. assert (D0 := den_pos). assert (DS := den_size). assert (A := n_num). assert (B := den_err). assert (U := u_small). destruct SM_pos as (P0 & P1 & P2).
  assert (E := rnd_err (num' / den')). fold g in E. set (v := num' / den') in *.
  assert (V : v * den' = num') by (unfold v; field; exact D). clearbody v. destruct least_u as [_ Lu]. assert (LP := least_pos).
  assert (V1 : Rabs v <= 1001 / 1000).
  { assert (W := E). rewrite Rabs_minus_sym in W. apply near_size in W.
    assert (uround * Rabs v <= / 1000000 * Rabs v) by (apply Rmult_le_compat_r; [apply Rabs_pos|lra]). lra. }
  replace (g * (2 * rho * h') - N) with ((g * (2 * rho * h' - den') + (g - v) * den') + (num' - N)) by (rewrite <- V; ring).
  eapply Rle_trans; [apply Rabs_triang|]. assert (T := Rabs_triang (g * (2 * rho * h' - den')) ((g - v) * den')). rewrite !Rabs_mult in T.
  rewrite (Rabs_minus_sym (2 * rho * h')), (Rabs_pos_eq den') in T by lra.
  assert (T1 : Rabs g * Rabs (den' - 2 * rho * h') <= 1 * (22 * (uround * (S * M)))) by (apply Rmult_le_compat; auto using Rabs_pos).
  assert (E' : Rabs (g - v) <= 101 / 100 * uround).
  { assert (uround * Rabs v <= uround * (1001 / 1000)) by (apply Rmult_le_compat_l; lra). lra. }
  assert (T2 : Rabs (g - v) * den' <= 101 / 100 * uround * (402 / 100 * (2002 / 2000 * (S * M)))) by (apply Rmult_le_compat; auto using Rabs_pos; lra).
  lra.
Qed.

Lemma nonzero : den' <> 0 -> sox' <> 0 \/ coy' <> 0.
Proof.
  intros D. destruct (Req_dec sox' 0) as [X|]; [|auto]. destruct (Req_dec coy' 0) as [Y|]; [|auto]. exfalso. apply D.
  unfold den', q'. rewrite X, Y, Rmult_0_l, rnd_0, Rplus_0_r, rnd_0, sqrt_0, rnd_0, Rmult_0_r. apply rnd_0.
Qed.

Let phirho := at2 sox' coy'.
Let asing := as_ g.
Let w1 := if Rlt_dec 0 asing then rnd (dPi - asing) else rnd (- dPi - asing).

Lemma phirho_err : den' <> 0 -> exists a, angle_of sox' coy' a /\ Rabs (phirho - a) <= 631 / 100 * uround /\ Rabs phirho <= 316 / 100.
Proof.
  intros D. destruct (gl_atan2 _ _ HL sox' coy' (rnd_double _) (rnd_double _)) as (_ & a & Ha & E).
  { destruct (nonzero D); auto. }
  exists a. split; [exact Ha|]. fold phirho in E. destruct Ha as [B _]. assert (P := PI_num). assert (A : Rabs a <= 315 / 100) by (apply Rabs_le; lra).
  assert (U := u_small). destruct least_u as [_ Lu]. assert (uround * Rabs a <= uround * (315 / 100)) by (apply Rmult_le_compat_l; lra).
  assert (EE : Rabs (phirho - a) <= 631 / 100 * uround) by lra. split; [exact EE|]. apply near_size in EE. lra.
Qed.
Lemma asing_err : Rabs g <= 1 -> Rabs (asing - asin g) <= 316 / 100 * uround /\ Rabs asing <= 158 / 100 /\ sin (asin g) = g.
Proof.
  intros G. destruct (HA g (rnd_double _) G) as [_ E]. fold asing in E. assert (P := PI_num). assert (U := u_small). destruct least_u as [_ Lu].
  apply Rabs_le_inv in G. assert (A := asin_bound g). assert (A1 : Rabs (asin g) <= 1575 / 1000) by (apply Rabs_le; lra).
  assert (uround * Rabs (asin g) <= uround * (1575 / 1000)) by (apply Rmult_le_compat_l; lra).
  assert (EE : Rabs (asing - asin g) <= 316 / 100 * uround) by lra. split; [exact EE|]. split; [apply near_size in EE; lra|apply sin_asin; lra].
Qed.

Lemma azimuth0 a : Rabs g <= 1 -> Rabs (phirho - a) <= 631 / 100 * uround -> Rabs phirho <= 316 / 100 ->
  rd (asing + phirho) = Ok (rnd (asing + phirho)) /\ Rabs (rnd (asing + phirho) - a - asin g) <= 21 * uround.
Proof.
  intros G A B. destruct (asing_err G) as (E & C & SA). assert (U := u_small).
  assert (SZ : Rabs (asing + phirho) <= 5) by (eapply Rle_trans; [apply Rabs_triang|]; lra).
  destruct (rd1 _ 5 SZ ltac:(lra)) as [W1 W2]. split; [exact W1|].
  replace (rnd (asing + phirho) - a - asin g) with ((rnd (asing + phirho) - (asing + phirho)) + ((asing + phirho) - (asin g + a))) by ring.
  eapply Rle_trans; [apply Rabs_triang|]. assert (T := add_err _ _ _ _ _ _ E A). lra.
Qed.
Lemma azimuth1 a : Rabs g <= 1 -> Rabs (phirho - a) <= 631 / 100 * uround -> Rabs phirho <= 316 / 100 ->
  (if Rlt_dec 0 asing then rd (dPi - asing) else rd (- dPi - asing)) = Ok w1
  /\ rd (w1 + phirho) = Ok (rnd (w1 + phirho))
  /\ exists p, (p = PI \/ p = - PI) /\ Rabs (rnd (w1 + phirho) - a - (p - asin g)) <= 21 * uround.
Proof.
  intros G A B. destruct (asing_err G) as (E & C & SA). assert (U := u_small). destruct dPi_num as (D1 & D2 & D3 & _ & _).
  assert (X : exists p p', (p = PI \/ p = - PI) /\ Rabs (p' - p) <= 2 * uround /\ Rabs (p' - asing) <= 315 / 100 /\ w1 = rnd (p' - asing)
    /\ (if Rlt_dec 0 asing then rd (dPi - asing) else rd (- dPi - asing)) = rd (p' - asing)).
  { apply Rabs_le_inv in C. unfold w1. destruct (Rlt_dec 0 asing) as [Q|Q].
    - exists PI, dPi. repeat split; auto. + apply Rabs_le; lra. + apply Rabs_le; lra.
    - exists (- PI), (- dPi). repeat split; auto. + apply Rabs_le; lra. + apply Rabs_le; lra. }
  destruct X as (p & p' & Hp & Ep & Sp & Ew & ->). destruct (rd1 _ _ Sp ltac:(lra)) as [W1 W2]. rewrite <- Ew in W1, W2. rewrite W1.
  assert (SW : Rabs w1 <= 316 / 100) by (apply near_size in W2; lra).
  assert (SZ : Rabs (w1 + phirho) <= 632 / 100) by (eapply Rle_trans; [apply Rabs_triang|]; lra).
  destruct (rd1 _ _ SZ ltac:(lra)) as [W3 W4]. split; [reflexivity|]. split; [exact W3|]. exists p. split; [exact Hp|].
  replace (rnd (w1 + phirho) - a - (p - asin g)) with
    ((rnd (w1 + phirho) - (w1 + phirho)) + (((w1 - (p' - asing)) + (phirho - a)) + ((p' - asing) - (p - asin g)))) by ring.
  eapply Rle_trans; [apply Rabs_triang|]. assert (T := sub_err _ _ _ _ _ _ Ep E).
  assert (T2 := Rabs_triang (w1 - (p' - asing) + (phirho - a)) (p' - asing - (p - asin g))).
  assert (T3 := Rabs_triang (w1 - (p' - asing)) (phirho - a)). lra.
Qed.
Lemma half_turn p x : p = PI \/ p = - PI -> sin (p - x) = sin x /\ cos (p - x) = - cos x.
Proof.
  intros [-> | ->].
  - rewrite sin_minus, cos_minus, sin_PI, cos_PI. split; ring.
  - rewrite sin_minus, cos_minus, sin_neg, cos_neg, sin_PI, cos_PI. split; ring.
Qed.

(** ** the distance of a point from the circle of the track *)
Definition power (x y : R) : R :=
  let X := x - (vx rp - d0 * sin ph) in let Y := y - (vy rp + d0 * cos ph) in
  om * (X * X + Y * Y) - 2 * (X * sin ph - Y * cos ph).

Lemma power_cyl phi : power (vx c + rho * cos phi) (vy c + rho * sin phi) = - N + 2 * rho * (coy * sin phi - sox * cos phi).
Proof.
  unfold power, N, coy, sox. cbv zeta.
  replace (vx c + rho * cos phi - (vx rp - d0 * sin ph)) with (dx + rho * cos phi) by (unfold dx; ring).
  replace (vy c + rho * sin phi - (vy rp + d0 * cos ph)) with (dy + rho * sin phi) by (unfold dy; ring).
  assert (E : cos phi * cos phi = 1 - sin phi * sin phi) by (generalize (sin2_cos2 phi); unfold Rsqr; lra).
  clearbody dx dy. ring_simplify. replace (cos phi ^ 2) with (1 - sin phi * sin phi) by (rewrite <- E; ring). ring.
Qed.

Definition px (phi : R) : R := rnd (vx c + rnd (rho * m_cos L phi)).
Definition py (phi : R) : R := rnd (vy c + rnd (rho * m_sin L phi)).
Lemma n_point z f t : near 1 (21 / 10) f t -> near (Rabs z + rho) (42 / 10) (rnd (z + rnd (rho * f))) (z + rho * t).
Proof.
  intros F. assert (R0 := rho_pos). assert (PZ := Rabs_pos z).
  assert (A := n_mul _ _ _ _ _ _ _ _ (n_same rho rho ltac:(rewrite Rabs_pos_eq; lra)) F ltac:(lra) ltac:(lra)). rewrite Rmult_1_r in A.
  rn A B (apply us; lra).
  assert (C := n_add _ _ _ _ _ _ _ _ (313 / 100) (n_same _ z (Rle_refl _)) B ltac:(lra) ltac:(lra)).
  rn C D (apply us; lra). apply (n_weak _ _ _ _ _ _ D); lra.
Qed.
Lemma p_err phi : is_double phi ->
  Rabs (px phi - (vx c + rho * cos phi)) <= 42 / 10 * (uround * S) /\ Rabs (py phi - (vy c + rho * sin phi)) <= 42 / 10 * (uround * S)
  /\ Rabs (px phi) <= 1001 / 1000 * (Rabs (vx c) + rho) /\ Rabs (py phi) <= 1001 / 1000 * (Rabs (vy c) + rho).
Proof.
  intros D. destruct (n_lib phi D) as [Sn Cs]. assert (X := n_point (vx c) _ _ Cs). assert (Y := n_point (vy c) _ _ Sn). fold (px phi) in X. fold (py phi) in Y.
  assert (SX := n_size _ _ _ _ X ltac:(lra)). assert (SY := n_size _ _ _ _ Y ltac:(lra)). assert (PS := parts). assert (U := u_small).
  destruct X as [_ X]. destruct Y as [_ Y]. split; [|split; [|split; [exact SX|exact SY]]].
  - eapply Rle_trans; [exact X|]. assert (uround * (Rabs (vx c) + rho) <= uround * S) by (apply Rmult_le_compat_l; lra). lra.
  - eapply Rle_trans; [exact Y|]. assert (uround * (Rabs (vy c) + rho) <= uround * S) by (apply Rmult_le_compat_l; lra). lra.
Qed.

Lemma off_axis : Rabs dx + rho <= S /\ Rabs dy + rho <= S.
Proof.
  assert (PS := parts). assert (A : Rabs (d0 * sin ph) <= Rabs d0) by (rewrite Rmult_comm; apply leg_size, sin_1).
  assert (B : Rabs (d0 * cos ph) <= Rabs d0) by (rewrite Rmult_comm; apply leg_size, cos_1). unfold dx, dy.
  assert (T1 := Rabs_triang (vx c) (- vx rp + d0 * sin ph)). assert (T2 := Rabs_triang (- vx rp) (d0 * sin ph)).
  assert (T3 := Rabs_triang (vy c) (- vy rp + - (d0 * cos ph))). assert (T4 := Rabs_triang (- vy rp) (- (d0 * cos ph))).
  rewrite !Rabs_Ropp in *. split.
  - replace (vx c - (vx rp - d0 * sin ph)) with (vx c + (- vx rp + d0 * sin ph)) by ring. lra.
  - replace (vy c - (vy rp + d0 * cos ph)) with (vy c + (- vy rp + - (d0 * cos ph))) by ring. lra.
Qed.

(** moving a point of the cylinder *)
Lemma power_move phi x y e : Rabs (x - (vx c + rho * cos phi)) <= e -> Rabs (y - (vy c + rho * sin phi)) <= e -> e <= / 1000 * S ->
  Rabs (power x y - power (vx c + rho * cos phi) (vy c + rho * sin phi)) <= 401 / 100 * (e * M).
Proof.
  intros X Y E. destruct off_axis as [A B]. assert (R0 := rho_pos). assert (K0 := K_pos).
  assert (E0 : 0 <= e) by (eapply Rle_trans; [apply Rabs_pos|exact X]).
  unfold power. cbv zeta. set (a := x - (vx c + rho * cos phi)) in *. set (b := y - (vy c + rho * sin phi)) in *.
  replace (x - (vx rp - d0 * sin ph)) with (dx + rho * cos phi + a) by (unfold a, dx; ring).
  replace (y - (vy rp + d0 * cos ph)) with (dy + rho * sin phi + b) by (unfold b, dy; ring).
  replace (vx c + rho * cos phi - (vx rp - d0 * sin ph)) with (dx + rho * cos phi) by (unfold dx; ring).
  replace (vy c + rho * sin phi - (vy rp + d0 * cos ph)) with (dy + rho * sin phi) by (unfold dy; ring).
  clearbody a b. assert (P : Rabs (dx + rho * cos phi) <= S).
  { eapply Rle_trans; [apply Rabs_triang|]. assert (W := cos_1 phi). rewrite Rabs_mult, (Rabs_pos_eq rho) by lra. nra. }
  assert (Q : Rabs (dy + rho * sin phi) <= S).
  { eapply Rle_trans; [apply Rabs_triang|]. assert (W := sin_1 phi). rewrite Rabs_mult, (Rabs_pos_eq rho) by lra. nra. }
  set (X0 := dx + rho * cos phi) in *. set (Y0 := dy + rho * sin phi) in *. clearbody X0 Y0.
  replace (om * ((X0 + a) * (X0 + a) + (Y0 + b) * (Y0 + b)) - 2 * ((X0 + a) * sin ph - (Y0 + b) * cos ph) - (om * (X0 * X0 + Y0 * Y0) - 2 * (X0 * sin ph - Y0 * cos ph)))
    with (a * (om * (2 * X0 + a) + - (2 * sin ph)) + b * (om * (2 * Y0 + b) + 2 * cos ph)) by ring.
  assert (G : forall z Z t, Rabs z <= e -> Rabs Z <= S -> Rabs t <= 1 -> Rabs (z * (om * (2 * Z + z) + 2 * t)) <= e * (2005 / 1000 * M)).
  { intros z Z t Hz HZ Ht. rewrite Rabs_mult. apply Rmult_le_compat; auto using Rabs_pos.
    eapply Rle_trans; [apply Rabs_triang|]. rewrite !Rabs_mult, (Rabs_pos_eq 2) by lra.
    assert (T := Rabs_triang (2 * Z) z). rewrite Rabs_mult, (Rabs_pos_eq 2) in T by lra.
    assert (Rabs om * Rabs (2 * Z + z) <= Rabs om * (2005 / 1000 * S)) by (apply Rmult_le_compat_l; [apply Rabs_pos|lra]).
    assert (W : Rabs om * (2005 / 1000 * S) = 2005 / 1000 * K) by (unfold K; ring). unfold M. lra. }
  eapply Rle_trans; [apply Rabs_triang|].
  assert (G1 := G a X0 (- sin ph) X P ltac:(rewrite Rabs_Ropp; apply sin_1)). assert (G2 := G b Y0 (cos ph) Y Q (cos_1 _)).
  replace (2 * - sin ph) with (- (2 * sin ph)) in G1 by ring. lra.
Qed.

Lemma power_err phi a : is_double phi -> den' <> 0 -> Rabs g <= 1 -> angle_of sox' coy' a -> Rabs (sin (phi - a) - g) <= 21 * uround ->
  Rabs (power (px phi) (py phi)) <= 220 * (uround * (S * M)).
Proof.
  intros D DN G [_ [A1 A2]] E. destruct (p_err phi D) as (X & Y & _). destruct SM_pos as (P0 & P1 & P2). assert (U := u_small). assert (UT := u_tiny). assert (R0 := rho_pos). assert (PS := parts).
  assert (K0 := K_pos).
  assert (V : Rabs (power (px phi) (py phi) - power (vx c + rho * cos phi) (vy c + rho * sin phi)) <= 401 / 100 * (42 / 10 * (uround * S) * M)).
  { apply power_move; auto. assert (uround * S <= / 1000000000000 * S) by (apply Rmult_le_compat_r; lra). lra. }
  assert (Z : Rabs (power (vx c + rho * cos phi) (vy c + rho * sin phi)) <= 203 * (uround * (S * M))).
  { rewrite power_cyl. rewrite (Rplus_comm (coy' * coy')) in A1, A2. fold h' in A1, A2.
    assert (EQ : coy' * sin phi - sox' * cos phi = h' * sin (phi - a)).
    { rewrite sin_minus. clearbody h'. rewrite <- A1, <- A2. ring. }
    destruct n_sox as [_ E1]. destruct n_coy as [_ E2]. destruct h'_size as [H0 H1]. assert (GE := gamma_err DN G).
    replace (- N + 2 * rho * (coy * sin phi - sox * cos phi)) with
      ((g * (2 * rho * h') - N) + (2 * rho * h' * (sin (phi - a) - g) + 2 * rho * (- ((coy' - coy) * sin phi) + (sox' - sox) * cos phi))).
    2:{ replace (2 * rho * h' * (sin (phi - a) - g)) with (2 * rho * (coy' * sin phi - sox' * cos phi) - g * (2 * rho * h')) by (rewrite EQ; ring). ring. }
    eapply Rle_trans; [apply Rabs_triang|].
    assert (T := Rabs_triang (2 * rho * h' * (sin (phi - a) - g)) (2 * rho * (- ((coy' - coy) * sin phi) + (sox' - sox) * cos phi))).
    assert (T1 : Rabs (2 * rho * h' * (sin (phi - a) - g)) <= 2 * S * (2002 / 1000 * M) * (21 * uround)).
    { rewrite Rabs_mult. apply Rmult_le_compat; auto using Rabs_pos. rewrite Rabs_pos_eq by (apply Rmult_le_pos; lra). apply Rmult_le_compat; lra. }
    assert (T2 : Rabs (2 * rho * (- ((coy' - coy) * sin phi) + (sox' - sox) * cos phi)) <= 2 * S * (2 * (uround * (76 / 10 * M)))).
    { rewrite Rabs_mult. apply Rmult_le_compat; auto using Rabs_pos. { rewrite Rabs_pos_eq; lra. }
      eapply Rle_trans; [apply Rabs_triang|]. rewrite Rabs_Ropp, !Rabs_mult.
      assert (Q1 : Rabs (coy' - coy) * Rabs (sin phi) <= uround * (76 / 10 * M) * 1) by (apply Rmult_le_compat; auto using Rabs_pos, sin_1).
      assert (Q2 : Rabs (sox' - sox) * Rabs (cos phi) <= uround * (76 / 10 * M) * 1) by (apply Rmult_le_compat; auto using Rabs_pos, cos_1). lra. }
    lra. }
  replace (power (px phi) (py phi)) with ((power (px phi) (py phi) - power (vx c + rho * cos phi) (vy c + rho * sin phi)) + power (vx c + rho * cos phi) (vy c + rho * sin phi)) by ring.
  eapply Rle_trans; [apply Rabs_triang|]. lra.
Qed.

(** ** the track *)
Variable f : R -> vec3.
Hypothesis Hf : is_helix hp rp f.

Lemma power_circle x y : om <> 0 -> let C := centre hp rp in
  power x y = om * ((x - vx C) * (x - vx C) + (y - vy C) * (y - vy C)) - / om.
Proof.
  intros O. cbv zeta. unfold power, centre. cbv zeta. cbn [vx vy]. fold om ph d0.
  assert (E := sc1 ph). transitivity (om * ((x - (vx rp - d0 * sin ph) - / om * sin ph) * (x - (vx rp - d0 * sin ph) - / om * sin ph)
    + (y - (vy rp + d0 * cos ph) + / om * cos ph) * (y - (vy rp + d0 * cos ph) + / om * cos ph)) - / om * (sin ph * sin ph + cos ph * cos ph)); [field; auto|].
  rewrite E. field. auto.
Qed.

Lemma radius_pos : om <> 0 -> 0 < Rabs (/ om) /\ Rabs om * Rabs (/ om) = 1.
Proof. intros O. split; [apply Rabs_pos_lt, Rinv_neq_0_compat, O|]. rewrite <- Rabs_mult, Rinv_r, Rabs_R1 by exact O. reflexivity. Qed.

Lemma f_circle t : om <> 0 -> dist_xy (f t) (centre hp rp) = Rabs (/ om).
Proof.
  intros O. rewrite (helix_is_hcurve _ _ _ O Hf). assert (A := hcurve_on_circle hp rp t O). rewrite hcircle_centre in A. unfold on_circle in A. cbv [c_x c_y c_r fst snd] in A.
  unfold dist_xy. rewrite A. fold om. replace (1 / om) with (/ om) by (unfold Rdiv; ring). apply sqrt_square, Rabs_pos.
Qed.

Lemma near_track x y z w : Rabs (power x y) <= w -> exists t, Rabs (om * t) <= PI /\ dist_xy (f t) (V3 x y z) <= w.
Proof.
  intros W. destruct (Req_dec om 0) as [O|O].
  - set (X := x - (vx rp - d0 * sin ph)). set (Y := y - (vy rp + d0 * cos ph)).
    exists (X * cos ph + Y * sin ph). split; [rewrite O, Rmult_0_l, Rabs_R0; generalize PI_num; lra|].
    unfold power in W. cbv zeta in W. fold X Y in W. rewrite O in W. assert (E := sc1 ph).
    assert (V : dist_xy (f (X * cos ph + Y * sin ph)) (V3 x y z) = Rabs (X * sin ph - Y * cos ph)).
    { rewrite (helix_is_hline _ _ _ O Hf). unfold dist_xy, hline. cbn [vx vy]. fold ph d0. rewrite <- sqrt_Rsqr_abs. f_equal. unfold Rsqr.
      replace (vx rp - d0 * sin ph + (X * cos ph + Y * sin ph) * cos ph - x) with ((X * cos ph + Y * sin ph) * cos ph - X) by (unfold X; ring).
      replace (vy rp + d0 * cos ph + (X * cos ph + Y * sin ph) * sin ph - y) with ((X * cos ph + Y * sin ph) * sin ph - Y) by (unfold Y; ring).
      clearbody X Y. replace ((X * cos ph + Y * sin ph) * cos ph - X) with (sin ph * (Y * cos ph - X * sin ph)).
      2:{ transitivity (X * (cos ph * cos ph) + Y * sin ph * cos ph - X * (sin ph * sin ph + cos ph * cos ph)); [ring|rewrite E; ring]. }
      replace ((X * cos ph + Y * sin ph) * sin ph - Y) with (cos ph * (X * sin ph - Y * cos ph)).
      2:{ transitivity (X * sin ph * cos ph + Y * (sin ph * sin ph) - Y * (sin ph * sin ph + cos ph * cos ph)); [ring|rewrite E; ring]. }
      transitivity ((X * sin ph - Y * cos ph) * (X * sin ph - Y * cos ph) * (sin ph * sin ph + cos ph * cos ph)); [ring|rewrite E; ring]. }
    rewrite V. replace (0 * (X * X + Y * Y) - 2 * (X * sin ph - Y * cos ph)) with (- (2 * (X * sin ph - Y * cos ph))) in W by ring.
    rewrite Rabs_Ropp, Rabs_mult, (Rabs_pos_eq 2) in W by lra. generalize (Rabs_pos (X * sin ph - Y * cos ph)). lra.
  - destruct (radius_pos O) as [R0 RO]. assert (P := power_circle x y O). cbv zeta in P. set (C := centre hp rp) in *.
    destruct (circle_near (vx C) (vy C) (Rabs (/ om)) x y R0) as (X & Y & E1 & E2).
    destruct (circle_param hp rp X Y O) as (t & T1 & T2 & T3).
    { rewrite hcircle_centre. unfold on_circle. cbv [c_x c_y c_r fst snd]. fold C om. rewrite E1. f_equal; f_equal; unfold Rdiv; ring. }
    exists t. split; [exact T1|]. rewrite (helix_is_hcurve _ _ _ O Hf). unfold dist_xy. cbn [vx vy]. rewrite T2, T3, E2.
    set (d2 := (x - vx C) * (x - vx C) + (y - vy C) * (y - vy C)) in *. assert (D2 : 0 <= d2) by apply ss_nonneg. clearbody d2.
    assert (DD := sqrt_sqrt d2 D2). assert (D0 := sqrt_pos d2). set (d := sqrt d2) in *. clearbody d.
    assert (PE : power x y = om * ((d - Rabs (/ om)) * (d + Rabs (/ om)))).
    { rewrite P, <- DD. replace ((d - Rabs (/ om)) * (d + Rabs (/ om))) with (d * d - Rabs (/ om) * Rabs (/ om)) by ring.
      rewrite <- Rabs_mult, (Rabs_pos_eq (/ om * / om)) by nra. field. auto. }
    rewrite PE, !Rabs_mult in W. rewrite (Rabs_pos_eq (d + _)) in W by lra. eapply Rle_trans; [|exact W].
    assert (AO := Rabs_pos om). assert (V := Rabs_pos (d - Rabs (/ om))).
    replace (Rabs om * (Rabs (d - Rabs (/ om)) * (d + Rabs (/ om)))) with (Rabs (d - Rabs (/ om)) * (Rabs om * d + Rabs om * Rabs (/ om))) by ring.
    rewrite RO. assert (0 <= Rabs om * d) by (apply Rmult_le_pos; lra). nra.
Qed.

(** ** no solution *)
Lemma lever_circle : om <> 0 -> h = Rabs om * dist_xy (centre hp rp) c.
Proof.
  intros O. unfold h, dist_xy. rewrite <- (sqrt_square (Rabs om)) by apply Rabs_pos. rewrite <- sqrt_mult.
  2:{ apply Rmult_le_pos; apply Rabs_pos. } 2:{ apply ss_nonneg. }
  f_equal. rewrite <- Rabs_mult, Rabs_pos_eq by nra. unfold sox, coy, dx, dy, centre. cbn [vx vy]. fold om ph d0. field. auto.
Qed.
Lemma no_solution : den' <= Rabs num' -> passes_by f rho c (113 * (uround * (S * M))).
Proof.
  intros H. assert (A := n_num). assert (B := den_err). assert (D := h_err). destruct SM_pos as (P0 & P1 & P2). assert (R0 := rho_pos). assert (PS := parts).
  assert (U := u_small). assert (K0 := K_pos).
  set (del := 113 * (uround * (S * M))). assert (DL0 : 0 <= del) by (unfold del; lra).
  assert (MN : 2 * rho * h - del <= Rabs N).
  { assert (V : 2 * rho * Rabs (h' - h) <= 2 * S * (154 / 10 * (uround * M))) by (apply Rmult_le_compat; [lra|apply Rabs_pos|lra|exact D]).
    rewrite <- (Rabs_pos_eq (2 * rho)) in V at 1 by lra. rewrite <- Rabs_mult in V. apply Rabs_le_inv in V. apply Rabs_le_inv in B.
    assert (W := near_size num' N _ A). unfold del. lra. }
  clearbody del. clear A B D H P0 P1 P2. unfold passes_by. destruct (Req_dec om 0) as [O|O].
  - left. intros t. rewrite (helix_is_hline _ _ _ O Hf). set (Q := hline hp rp t).
    assert (HH : h = 1).
    { unfold h, sox, coy. rewrite O. replace ((sin ph - 0 * dx) * (sin ph - 0 * dx) + (cos ph + 0 * dy) * (cos ph + 0 * dy)) with (sin ph * sin ph + cos ph * cos ph) by ring.
      rewrite sc1. apply sqrt_1. }
    assert (E : (vx Q - vx c) * sin ph - (vy Q - vy c) * cos ph = - (N / 2)).
    { unfold Q, hline, N, dx, dy. cbn [vx vy]. fold ph d0. rewrite O. field. }
    assert (CS : Rabs (N / 2) <= dist_xy Q c).
    { rewrite <- Rabs_Ropp, <- E. unfold dist_xy. rewrite <- sqrt_Rsqr_abs. apply sqrt_le_1_alt. unfold Rsqr. assert (Z := sc1 ph).
      set (a := vx Q - vx c). set (b := vy Q - vy c). assert (0 <= (a * cos ph + b * sin ph) * (a * cos ph + b * sin ph)) by apply Rle_0_sqr.
      assert (a * a + b * b = (a * a + b * b) * (sin ph * sin ph + cos ph * cos ph)) by (rewrite Z; ring). lra. }
    assert (N2 : Rabs (N / 2) = Rabs N / 2) by (unfold Rdiv; rewrite Rabs_mult, (Rabs_pos_eq (/ 2)); lra). rewrite HH in MN. lra.
  - destruct (radius_pos O) as [RP RO]. assert (LE := lever_circle O). set (C := centre hp rp) in *. set (r := Rabs (/ om)) in *. set (e := dist_xy C c) in *.
    assert (E0 : 0 <= e) by apply dist_pos.
    assert (NE : Rabs N = Rabs om * Rabs (r * r - e * e - rho * rho)).
    { rewrite <- Rabs_mult. f_equal. assert (P := power_circle (vx c) (vy c) O). cbv zeta in P. fold C in P.
      replace ((vx c - vx C) * (vx c - vx C) + (vy c - vy C) * (vy c - vy C)) with (e * e) in P by (unfold e; rewrite dist_sq; ring).
      unfold power in P. cbv zeta in P. fold dx dy in P. unfold r. rewrite <- Rabs_mult, (Rabs_pos_eq (/ om * / om)) by nra.
      replace (om * (/ om * / om - e * e - rho * rho)) with (/ om - om * (e * e) - om * (rho * rho)) by (field; auto). unfold N. lra. }
    rewrite NE, LE in MN. assert (AO : 0 < Rabs om) by (apply Rabs_pos_lt, O).
    assert (MR : 2 * rho * e - del * r <= Rabs (r * r - e * e - rho * rho)).
    { apply Rmult_le_reg_l with (Rabs om); [exact AO|]. replace (Rabs om * (2 * rho * e - del * r)) with (2 * rho * (Rabs om * e) - del * (Rabs om * r)) by ring. rewrite RO. lra. }
    assert (FC : forall t, dist_xy (f t) C = r) by (intros t; apply f_circle, O).
    assert (T1 : forall t, e - r <= dist_xy (f t) c) by (intros t; assert (T := dist_tri C c (f t)); rewrite (dist_sym C (f t)), FC in T; fold e in T; lra).
    assert (T2 : forall t, r - e <= dist_xy (f t) c).
    { intros t. assert (T := dist_tri (f t) C c). rewrite FC, (dist_sym c C) in T. fold e in T. lra. }
    assert (T3 : forall t, dist_xy (f t) c <= r + e) by (intros t; assert (T := dist_tri (f t) c C); rewrite FC in T; fold e in T; lra).
    destruct (Rle_dec 0 (r * r - e * e - rho * rho)) as [Q|Q].
    + rewrite Rabs_pos_eq in MR by exact Q. left. intros t. specialize (T2 t).
      assert (e + rho <= r + del); [|lra].
      apply Rsqr_incr_0_var; [unfold Rsqr|lra]. assert (0 <= del * r) by (apply Rmult_le_pos; lra). assert (0 <= del * del) by nra. nra.
    + rewrite Rabs_left in MR by lra.
      assert (SQ : (r - del) * (r - del) <= (e - rho) * (e - rho) \/ r <= del).
      { destruct (Rle_dec r del); [right; lra|left]. assert (0 <= del * (r - del)) by (apply Rmult_le_pos; lra). nra. }
      assert (AB : r - del <= Rabs (e - rho)).
      { destruct SQ as [SQ|SQ]; [|generalize (Rabs_pos (e - rho)); lra]. destruct (Rle_dec r del); [generalize (Rabs_pos (e - rho)); lra|].
        apply Rsqr_incr_0_var; [rewrite <- Rsqr_abs; exact SQ|apply Rabs_pos]. }
      destruct (Rle_dec rho e).
      * left. intros t. specialize (T1 t). rewrite Rabs_pos_eq in AB by lra. lra.
      * right. intros t. specialize (T3 t). rewrite Rabs_left in AB by lra. lra.
Qed.

(** ** both crossings are found *)
Definition cylp (phi z : R) : vec3 := V3 (vx c + rho * cos phi) (vy c + rho * sin phi) z.

Lemma chord a b z z' : dist_xy (cylp a z) (cylp b z') = 2 * rho * Rabs (sin ((a - b) / 2)).
Proof.
  assert (R0 := rho_pos). rewrite <- (Rabs_pos_eq (2 * rho)) by lra. rewrite <- Rabs_mult, <- sqrt_Rsqr_abs. unfold dist_xy, cylp. cbn [vx vy]. f_equal. unfold Rsqr.
  assert (E : cos (a - b) = 1 - 2 * (sin ((a - b) / 2) * sin ((a - b) / 2))) by (replace (a - b) with (2 * ((a - b) / 2)) at 1 by field; rewrite cos_2a_sin; ring).
  rewrite cos_minus in E. assert (A := sc1 a). assert (B := sc1 b).
  transitivity (rho * rho * ((sin a * sin a + cos a * cos a) + (sin b * sin b + cos b * cos b) - 2 * (cos a * cos b + sin a * sin b))); [ring|].
  rewrite E, A, B. ring.
Qed.
Lemma on_cyl x : dist_xy x c = rho -> exists psi, x = cylp psi (vz x).
Proof.
  intros D. assert (R0 := rho_pos). assert (Q := dist_sq x c). rewrite D in Q.
  set (X := (vx x - vx c) / rho). set (Y := (vy x - vy c) / rho).
  assert (E : X * X + Y * Y = 1).
  { transitivity (((vx x - vx c) * (vx x - vx c) + (vy x - vy c) * (vy x - vy c)) / (rho * rho)); [unfold X, Y; field; lra|]. rewrite <- Q. field. lra. }
  assert (Cc := atan2_cos Y X). assert (Ss := atan2_sin Y X). rewrite E, sqrt_1, Rmult_1_l in Cc, Ss.
  exists (atan2 Y X). unfold cylp. rewrite Cc, Ss. destruct x as [x1 x2 x3]. cbn [vx vy vz] in *. unfold X, Y. f_equal; field; lra.
Qed.
Lemma power_f t : power (vx (f t)) (vy (f t)) = 0.
Proof.
  destruct (Req_dec om 0) as [O|O].
  - rewrite (helix_is_hline _ _ _ O Hf). unfold power, hline. cbv zeta. cbn [vx vy]. fold ph d0. rewrite O. ring.
  - rewrite power_circle by exact O. cbv zeta. assert (F := f_circle t O). assert (Q := dist_sq (f t) (centre hp rp)). rewrite F in Q. rewrite <- Q, <- Rabs_mult, Rabs_pos_eq by nra. field. auto.
Qed.

Lemma found_close phi phie z t : is_double phi -> Rabs (phi - phie) <= 21 * uround ->
  dist_xy (f t) (V3 (px phi) (py phi) z) <= dist_xy (f t) (cylp phie z) + 27 * (uround * S).
Proof.
  intros D E. destruct (p_err phi D) as (X & Y & _). assert (R0 := rho_pos). assert (PS := parts). assert (U := u_small).
  assert (A : dist_xy (cylp phi z) (V3 (px phi) (py phi) z) <= 142 / 100 * (42 / 10 * (uround * S))).
  { rewrite dist_sym. apply dist_le; unfold cylp; cbn [vx vy]; auto. }
  assert (B : dist_xy (cylp phie z) (cylp phi z) <= 21 * (uround * S)).
  { rewrite chord. assert (W := sin_le ((phie - phi) / 2)). assert (V : Rabs ((phie - phi) / 2) <= 21 * uround / 2).
    { unfold Rdiv. rewrite Rabs_mult, (Rabs_pos_eq (/ 2)), Rabs_minus_sym by lra. lra. }
    assert (2 * rho * Rabs (sin ((phie - phi) / 2)) <= 2 * S * (21 * uround / 2)) by (apply Rmult_le_compat; [lra|apply Rabs_pos|lra|lra]). lra. }
  assert (T1 := dist_tri (f t) (V3 (px phi) (py phi) z) (cylp phie z)). assert (T2 := dist_tri (cylp phie z) (V3 (px phi) (py phi) z) (cylp phi z)).
  assert (0 < uround * S) by apply SM_pos. lra.
Qed.

Lemma both_found a phi0 phi1 p z0 z1 t : den' <> 0 -> Rabs g <= 1 -> angle_of sox' coy' a -> is_double phi0 -> is_double phi1 -> p = PI \/ p = - PI ->
  Rabs (phi0 - a - asin g) <= 21 * uround -> Rabs (phi1 - a - (p - asin g)) <= 21 * uround -> dist_xy (f t) c = rho ->
  h * (dist_xy (f t) (V3 (px phi0) (py phi0) z0) * dist_xy (f t) (V3 (px phi1) (py phi1) z1)) <= 350 * (uround * (S * M) * (rho + 4 * (uround * S))).
Proof.
  intros DN G [_ [A1 A2]] D0 D1 Hp E0 E1 ON. destruct (on_cyl _ ON) as [psi EF]. assert (R0 := rho_pos). assert (PS := parts). assert (U := u_small). assert (K0 := K_pos).
  destruct SM_pos as (P0 & P1 & P2). destruct (asing_err G) as (_ & _ & SA).
  rewrite (Rplus_comm (coy' * coy')) in A1, A2. fold h' in A1, A2.
  assert (EQ : coy' * sin psi - sox' * cos psi = h' * sin (psi - a)).
  { rewrite sin_minus. clearbody h'. rewrite <- A1, <- A2. ring. }
  destruct n_sox as [S1 E2]. destruct n_coy as [S2 E3]. destruct h'_size as [H0 H1]. assert (GE := gamma_err DN G).
  assert (PW := power_f t). rewrite EF in PW. unfold cylp in PW. cbn [vx vy] in PW. rewrite power_cyl in PW.
  assert (X1 : Rabs (2 * rho * h' * sin (psi - a) - N) <= 304 / 10 * (uround * (S * M))).
  { replace (2 * rho * h' * sin (psi - a) - N) with (2 * rho * ((coy' - coy) * sin psi + - ((sox' - sox) * cos psi))).
    2:{ replace (2 * rho * h' * sin (psi - a)) with (2 * rho * (coy' * sin psi - sox' * cos psi)) by (rewrite EQ; ring). lra. }
    rewrite Rabs_mult, (Rabs_pos_eq (2 * rho)) by lra.
    assert (T := Rabs_triang ((coy' - coy) * sin psi) (- ((sox' - sox) * cos psi))). rewrite Rabs_Ropp, !Rabs_mult in T.
    assert (Q1 : Rabs (coy' - coy) * Rabs (sin psi) <= uround * (76 / 10 * M) * 1) by (apply Rmult_le_compat; auto using Rabs_pos, sin_1).
    assert (Q2 : Rabs (sox' - sox) * Rabs (cos psi) <= uround * (76 / 10 * M) * 1) by (apply Rmult_le_compat; auto using Rabs_pos, cos_1).
    assert (2 * rho * Rabs ((coy' - coy) * sin psi + - ((sox' - sox) * cos psi)) <= 2 * S * (2 * (uround * (76 / 10 * M)))); [|lra].
    apply Rmult_le_compat; [lra|apply Rabs_pos|lra|lra]. }
  assert (X2 : 2 * rho * h' * Rabs (sin (psi - a) - g) <= 118 * (uround * (S * M))).
  { rewrite <- (Rabs_pos_eq (2 * rho * h')) by (apply Rmult_le_pos; lra). rewrite <- Rabs_mult.
    replace (2 * rho * h' * (sin (psi - a) - g)) with ((2 * rho * h' * sin (psi - a) - N) - (g * (2 * rho * h') - N)) by ring.
    eapply Rle_trans; [apply Rabs_triang|]. rewrite Rabs_Ropp. lra. }
  set (phe0 := a + asin g). set (phe1 := a + (p - asin g)).
  assert (F0 := found_close phi0 phe0 z0 t D0). assert (F1 := found_close phi1 phe1 z1 t D1).
  replace (phi0 - phe0) with (phi0 - a - asin g) in F0 by (unfold phe0; ring). replace (phi1 - phe1) with (phi1 - a - (p - asin g)) in F1 by (unfold phe1; ring).
  specialize (F0 E0). specialize (F1 E1). rewrite EF, chord in F0, F1. rewrite <- EF in F0, F1.
  assert (PR : Rabs (sin ((psi - phe0) / 2)) * Rabs (sin ((psi - phe1) / 2)) = Rabs (sin (psi - a) - g) / 2).
  { replace (Rabs (sin (psi - a) - g)) with (Rabs (sin (psi - a) - sin (asin g))) by (rewrite SA; reflexivity). rewrite form4. rewrite !Rabs_mult, (Rabs_pos_eq 2) by lra.
    replace ((psi - phe0) / 2) with ((psi - a - asin g) / 2) by (unfold phe0; field).
    replace (Rabs (sin ((psi - phe1) / 2))) with (Rabs (cos ((psi - a + asin g) / 2))); [field|].
    unfold phe1. destruct Hp as [-> | ->].
    - replace ((psi - (a + (PI - asin g))) / 2) with ((psi - a + asin g) / 2 - PI / 2) by field. rewrite sin_minus, cos_PI2, sin_PI2.
      rewrite <- Rabs_Ropp. f_equal. ring.
    - replace ((psi - (a + (- PI - asin g))) / 2) with ((psi - a + asin g) / 2 + PI / 2) by field. rewrite sin_plus, cos_PI2, sin_PI2. f_equal. ring. }
  set (u0 := Rabs (sin ((psi - phe0) / 2))) in *. set (u1 := Rabs (sin ((psi - phe1) / 2))) in *.
  assert (B0 : 0 <= u0 <= 1) by (split; [apply Rabs_pos|apply sin_1]). assert (B1 : 0 <= u1 <= 1) by (split; [apply Rabs_pos|apply sin_1]).
  clearbody u0 u1. set (d0' := dist_xy (f t) (V3 (px phi0) (py phi0) z0)) in *. set (d1' := dist_xy (f t) (V3 (px phi1) (py phi1) z1)) in *.
  assert (Z0 : 0 <= d0') by apply dist_pos. assert (Z1 : 0 <= d1') by apply dist_pos. clearbody d0' d1'.
  set (eps := 27 * (uround * S)) in *. assert (EP : 0 <= eps) by (unfold eps; lra).
  assert (HB : h <= 15 / 10 * M).
  { unfold h. assert (M0 : 0 <= M) by (unfold M; lra). rewrite <- (sqrt_square (15 / 10 * M)) by lra. apply sqrt_le_1_alt.
    assert (forall x, Rabs x <= M -> x * x <= M * M).
    { intros x Hx. rewrite <- (Rabs_pos_eq (x * x)) by nra. rewrite Rabs_mult. apply Rmult_le_compat; auto using Rabs_pos. }
    assert (Y1 := H _ S1). assert (Y2 := H _ S2). nra. }
  assert (HP : 0 <= h) by apply sqrt_pos. assert (HE := h_err). apply Rabs_le_inv in HE.
  assert (V1 : d0' * d1' <= 4 * (rho * rho) * (u0 * u1) + (4 * rho * eps + eps * eps)).
  { apply Rle_trans with ((2 * rho * u0 + eps) * (2 * rho * u1 + eps)); [apply Rmult_le_compat; lra|].
    assert (rho * eps * u0 <= rho * eps * 1) by (apply Rmult_le_compat_l; [apply Rmult_le_pos; lra|lra]).
    assert (rho * eps * u1 <= rho * eps * 1) by (apply Rmult_le_compat_l; [apply Rmult_le_pos; lra|lra]). lra. }
  assert (V2 : h * (4 * (rho * rho) * (u0 * u1)) <= 180 * (uround * (S * M) * rho)).
  { assert (W1 : (h - h') * (4 * (rho * rho) * (u0 * u1)) <= 154 / 10 * (uround * M) * (4 * (rho * S))).
    { apply Rle_trans with (154 / 10 * (uround * M) * (4 * (rho * rho) * (u0 * u1))).
      - apply Rmult_le_compat_r; [|lra]. apply Rmult_le_pos; [nra|apply Rmult_le_pos; lra].
      - apply Rmult_le_compat_l; [apply Rmult_le_pos; [lra|apply Rmult_le_pos; [lra|unfold M; lra]]|].
        assert (u0 * u1 <= 1 * 1) by (apply Rmult_le_compat; lra).
        assert (rho * rho * (u0 * u1) <= rho * S * (1 * 1)); [|lra].
        apply Rmult_le_compat; [nra|apply Rmult_le_pos; lra|apply Rmult_le_compat_l; lra|lra]. }
    assert (W2 : h' * (4 * (rho * rho) * (u0 * u1)) = rho * (2 * rho * h' * Rabs (sin (psi - a) - g))) by (rewrite PR; field).
    assert (W3 : rho * (2 * rho * h' * Rabs (sin (psi - a) - g)) <= rho * (118 * (uround * (S * M)))) by (apply Rmult_le_compat_l; lra).
    assert (0 <= rho * (uround * (S * M))) by (apply Rmult_le_pos; lra). lra. }
  assert (V3' : h * (4 * rho * eps + eps * eps) <= 15 / 10 * M * (4 * rho * eps + eps * eps)).
  { apply Rmult_le_compat_r; [|exact HB]. assert (0 <= rho * eps) by (apply Rmult_le_pos; lra). assert (QE := Rle_0_sqr eps). unfold Rsqr in QE. lra. }
  assert (V4 : h * (d0' * d1') <= h * (4 * (rho * rho) * (u0 * u1) + (4 * rho * eps + eps * eps))) by (apply Rmult_le_compat_l; lra).
  eapply Rle_trans; [exact V4|]. rewrite Rmult_plus_distr_l. unfold eps in V3' |- *. fold eps.
  assert (0 <= uround * (S * M) * rho) by (apply Rmult_le_pos; lra). assert (0 <= uround * (S * M) * (uround * S)) by (apply Rmult_le_pos; lra).
  replace (15 / 10 * M * (4 * rho * (27 * (uround * S)) + 27 * (uround * S) * (27 * (uround * S)))) with
    (162 * (uround * (S * M) * rho) + 15 / 10 * 729 * (uround * (S * M) * (uround * S))) in V3' by field.
  fold eps in V3'. lra.
Qed.

(** ** path lengths *)
Lemma f_start : vx (f 0) = vx rp - d0 * sin ph /\ vy (f 0) = vy rp + d0 * cos ph.
Proof. rewrite (helix_start _ _ _ Hf). cbn [vx vy]. fold d0 ph. split; ring. Qed.

Lemma chord_len t : Rabs (om * t) <= PI -> Rabs t <= 16 / 10 * dist_xy (f t) (f 0).
Proof.
  intros T. destruct f_start as [A B]. destruct (Req_dec om 0) as [O|O].
  - assert (E : dist_xy (f t) (f 0) = Rabs t).
    { unfold dist_xy. rewrite A, B, (helix_is_hline _ _ _ O Hf). unfold hline. cbn [vx vy]. fold ph d0. rewrite <- sqrt_Rsqr_abs. f_equal. unfold Rsqr.
      transitivity (t * t * (sin ph * sin ph + cos ph * cos ph)); [ring|]. rewrite sc1. ring. }
    rewrite E. generalize (Rabs_pos t). lra.
  - assert (E : Rabs om * dist_xy (f t) (f 0) = 2 * Rabs (sin (om * t / 2))).
    { rewrite <- (Rabs_pos_eq (dist_xy _ _)) by apply dist_pos. rewrite <- Rabs_mult, <- (Rabs_pos_eq 2) at 1 by lra. rewrite <- Rabs_mult. apply Rsqr_eq_abs_0.
      unfold Rsqr. replace (om * dist_xy (f t) (f 0) * (om * dist_xy (f t) (f 0))) with (om * om * (dist_xy (f t) (f 0) * dist_xy (f t) (f 0))) by ring.
      rewrite dist_sq, A, B, (helix_is_hcurve _ _ _ O Hf). unfold hcurve. cbn [vx vy]. fold om ph d0.
      assert (C2 : cos (om * t) = 1 - 2 * (sin (om * t / 2) * sin (om * t / 2))) by (replace (om * t) with (2 * (om * t / 2)) at 1 by field; rewrite cos_2a_sin; ring).
      replace (om * t) with (ph - (ph - t * om)) in C2 at 1 by ring. rewrite cos_minus in C2. assert (S1 := sc1 ph). assert (S2 := sc1 (ph - t * om)).
      transitivity ((sin ph * sin ph + cos ph * cos ph) + (sin (ph - t * om) * sin (ph - t * om) + cos (ph - t * om) * cos (ph - t * om))
        - 2 * (cos ph * cos (ph - t * om) + sin ph * sin (ph - t * om))); [field; auto|]. rewrite S1, S2, C2. ring. }
    assert (H : Rabs (om * t / 2) <= PI / 2) by (unfold Rdiv; rewrite Rabs_mult, (Rabs_pos_eq (/ 2)) by lra; lra).
    assert (W := sinc_range _ H). assert (P := PI_num).
    assert (Q : Rabs (om * t / 2) <= PI / 2 * Rabs (sin (om * t / 2))).
    { unfold sinc in W. destruct (Req_EM_T (om * t / 2) 0) as [Z|Z].
      - rewrite Z, Rabs_R0. apply Rmult_le_pos; [lra|apply Rabs_pos].
      - assert (NS : sin (om * t / 2) <> 0) by (intros Y; rewrite Y in W; unfold Rdiv in W; rewrite Rinv_0 in W; lra).
        set (x := om * t / 2) in *. clearbody x.
        assert (Rabs (x / sin x) <= PI / 2) by (rewrite Rabs_pos_eq; lra). replace x with (x / sin x * sin x) at 1 by (field; auto). rewrite Rabs_mult.
        apply Rmult_le_compat_r; [apply Rabs_pos|auto]. }
    assert (AO : 0 < Rabs om) by (apply Rabs_pos_lt, O). apply Rmult_le_reg_l with (Rabs om); [exact AO|].
    replace (Rabs om * (16 / 10 * dist_xy (f t) (f 0))) with (16 / 10 * (Rabs om * dist_xy (f t) (f 0))) by ring. rewrite E, <- Rabs_mult.
    replace (om * t) with (2 * (om * t / 2)) at 1 by field. rewrite Rabs_mult, (Rabs_pos_eq 2) by lra.
    assert (V := Rabs_pos (sin (om * t / 2))). nra.
Qed.

Lemma start_far phi z : is_double phi -> dist_xy (V3 (px phi) (py phi) z) (f 0) <= 143 / 100 * S.
Proof.
  intros D. destruct (p_err phi D) as (X & Y & _). destruct f_start as [A B]. destruct off_axis as [P Q]. assert (R0 := rho_pos). assert (U := u_small). assert (PS := parts).
  assert (US : uround * S <= / 1000000 * S) by (apply Rmult_le_compat_r; lra).
  eapply Rle_trans; [apply (dist_le _ _ (1001 / 1000 * S))|lra]; cbn [vx vy].
  - rewrite A. replace (px phi - (vx rp - d0 * sin ph)) with ((px phi - (vx c + rho * cos phi)) + (dx + rho * cos phi)) by (unfold dx; ring).
    eapply Rle_trans; [apply Rabs_triang|]. assert (T := Rabs_triang dx (rho * cos phi)). rewrite Rabs_mult, (Rabs_pos_eq rho) in T by lra. assert (W := cos_1 phi). nra.
  - rewrite B. replace (py phi - (vy rp + d0 * cos ph)) with ((py phi - (vy c + rho * sin phi)) + (dy + rho * sin phi)) by (unfold dy; ring).
    eapply Rle_trans; [apply Rabs_triang|]. assert (T := Rabs_triang dy (rho * sin phi)). rewrite Rabs_mult, (Rabs_pos_eq rho) in T by lra. assert (W := sin_1 phi). nra.
Qed.

Lemma ordinary_p phi : is_double phi -> ordinary (px phi) /\ ordinary (py phi) /\ extent (px phi) (py phi) hp rp <= 201 / 100 * S.
Proof.
  intros D. destruct (p_err phi D) as (_ & _ & X & Y). assert (R0 := rho_pos). destruct (oc_x _ _ HC) as [_ BX]. destruct (oc_y _ _ HC) as [_ BY]. assert (BR := oc_large _ _ HC).
  assert (E : bpow radix2 100 = 4 * bpow radix2 98) by (change 100%Z with (2 + 98)%Z; rewrite bpow_plus; reflexivity).
  assert (P := bpow_gt_0 radix2 98).
  split; [split; [apply rnd_double|lra]|]. split; [split; [apply rnd_double|lra]|].
  unfold extent, S, reach. generalize (Rabs_pos (vx c)) (Rabs_pos (vy c)) (Rabs_pos (vx rp)) (Rabs_pos (vy rp)) (Rabs_pos (hp D0)). intros. lra.
Qed.

Lemma near_path phi z w : is_double phi -> w <= 220 * (uround * (S * M)) -> Rabs (power (px phi) (py phi)) <= w ->
  exists t, Rabs (om * t) <= PI /\ dist_xy (f t) (V3 (px phi) (py phi) z) <= w
    /\ (K <= 4 / 10 -> Rabs (om * t) <= 1 /\ Rabs t <= 3 * S)
    /\ (Rabs (om * t) <= 1 -> K <= 100000 -> exists s, calculateSfromXY_d L at2 (px phi) (py phi) hp rp = Ok s
      /\ (Rabs (s - t) <= 1450 * (uround * (S * M)) + 50 * uround * Rabs t + speck
        \/ s = 0 /\ Rabs (om * t) <= uround * (27 + 700 * (K * M)) + speck)).
Proof.
  intros D HW W. destruct (near_track _ _ z _ W) as (t & T1 & T2). exists t. split; [exact T1|]. split; [exact T2|].
  assert (U := u_small). assert (UT := u_tiny). assert (K0 := K_pos). assert (PS := parts). assert (R0 := rho_pos). destruct SM_pos as (P0 & P1 & P2). split.
  - intros KS. assert (F := start_far phi z D). assert (T := dist_tri (f t) (f 0) (V3 (px phi) (py phi) z)). assert (C := chord_len t T1).
    assert (SM : uround * (S * M) <= / 1000000 * (S * (14 / 10))).
    { apply Rmult_le_compat; [lra|apply Rmult_le_pos; [lra|unfold M; lra]|lra|]. apply Rmult_le_compat_l; unfold M; lra. }
    assert (TB : Rabs t <= 24 / 10 * S) by lra. split; [|lra]. rewrite Rabs_mult.
    assert (Rabs om * Rabs t <= Rabs om * (24 / 10 * S)) by (apply Rmult_le_compat_l; [apply Rabs_pos|exact TB]).
    assert (Rabs om * (24 / 10 * S) = 24 / 10 * K) by (unfold K; ring). lra.
  - intros OT KB. destruct (ordinary_p phi D) as (OX & OY & EX). destruct (dist_x (V3 (px phi) (py phi) z) (f t)) as [DX DY]. cbn [vx vy] in DX, DY. rewrite dist_sym in T2.
    assert (AO := Rabs_pos om).
    assert (OE : Rabs om * extent (px phi) (py phi) hp rp <= 201 / 100 * K).
    { replace (201 / 100 * K) with (Rabs om * (201 / 100 * S)) by (unfold K; ring). apply Rmult_le_compat_l; lra. }
    assert (KM : K * M <= 100000 * 100001) by (apply Rmult_le_compat; unfold M; lra). assert (KM0 : 0 <= K * M) by (apply Rmult_le_pos; unfold M; lra).
    assert (OW : Rabs om * w <= 220 * (uround * (K * M))).
    { apply Rle_trans with (Rabs om * (220 * (uround * (S * M)))); [apply Rmult_le_compat_l; lra|]. right. unfold K. ring. }
    destruct (C88_accuracy L at2 (px phi) (py phi) hp rp f t w HL HT OX OY) as (s & E & AC); auto; fold om; try lra.
    { eapply Rle_trans; [exact OW|]. assert (uround * (K * M) <= uround * (100000 * 100001)) by (apply Rmult_le_compat_l; lra). unfold uround in *. lra. }
    exists s. split; [exact E|]. destruct AC as [AC|[AC AD]]; [left|right; split; [exact AC|]].
    + assert (uround * extent (px phi) (py phi) hp rp <= uround * (201 / 100 * S)) by (apply Rmult_le_compat_l; lra). lra.
    + fold om in AD. eapply Rle_trans; [exact AD|].
      assert (uround * (Rabs om * extent (px phi) (py phi) hp rp) <= uround * (201 / 100 * K)) by (apply Rmult_le_compat_l; lra).
      assert (uround * K <= uround * (K * M)).
      { apply Rmult_le_compat_l; [lra|]. assert (0 <= K * K) by nra. unfold M. lra. }
      assert (0 <= uround * (K * M)) by (apply Rmult_le_pos; lra). lra.
Qed.

Lemma height s z : calculateZfromS_d s hp rp = Ok z -> Rabs (z - vz (f s)) <= 3 * uround * (Rabs (hp Z0) + Rabs (vz rp) + Rabs (s * hp TANL)) + tiny.
Proof.
  unfold calculateZfromS_d. intros E. unfold bind in E.
  destruct (rd (hp Z0 + vz rp)) as [a| | | |] eqn:A; try discriminate E. destruct (rd (s * hp TANL)) as [b| | | |] eqn:B; try discriminate E.
  apply rd_spec in A. apply rd_spec in B. apply rd_spec in E.
  assert (V : vz (f s) = (hp Z0 + vz rp) + s * hp TANL).
  { destruct (Req_dec om 0) as [O|O]; [rewrite (helix_is_hline _ _ _ O Hf)|rewrite (helix_is_hcurve _ _ _ O Hf)]; unfold hline, hcurve; cbn [vz]; ring. }
  rewrite V. set (m := hp Z0 + vz rp) in *. set (n := s * hp TANL) in *.
  assert (Em := rnd_err m). assert (En := rnd_err n). rewrite <- A in Em. rewrite <- B in En. assert (Ez := rnd_step (a + b) (m + n) _ (add_err _ _ _ _ _ _ Em En)). rewrite <- E in Ez.
  assert (T1 := Rabs_triang m n). assert (T2 := Rabs_triang (hp Z0) (vz rp)). fold m in T2. assert (U := u_small).
  assert (uround * Rabs (m + n) <= uround * (Rabs m + Rabs n)) by (apply Rmult_le_compat_l; lra).
  assert (uround * Rabs m <= uround * (Rabs (hp Z0) + Rabs (vz rp))) by (apply Rmult_le_compat_l; lra).
  assert (TI : 1000 * least <= tiny).
  { unfold least, tiny. apply Rle_trans with (bpow radix2 10 * bpow radix2 (-1074)); [apply Rmult_le_compat_r; [apply bpow_ge_0|change (bpow radix2 10) with 1024; lra]|].
    rewrite <- bpow_plus. apply bpow_le. lia. }
  assert (LP := least_pos). assert (0 <= uround * Rabs n) by (apply Rmult_le_pos; [lra|apply Rabs_pos]).
  assert (0 <= uround * (Rabs (hp Z0) + Rabs (vz rp))) by (apply Rmult_le_pos; [lra|generalize (Rabs_pos (hp Z0)) (Rabs_pos (vz rp)); lra]). lra.
Qed.

Lemma on_cylinder_err phi z : is_double phi -> Rabs (dist_xy (V3 (px phi) (py phi) z) c - rho) <= 9 * (uround * S).
Proof.
  intros D. destruct (p_err phi D) as (X & Y & _). assert (R0 := rho_pos). destruct SM_pos as (_ & _ & P2).
  assert (A : dist_xy (V3 (px phi) (py phi) z) (cylp phi z) <= 142 / 100 * (42 / 10 * (uround * S))) by (apply dist_le; unfold cylp; cbn [vx vy]; auto).
  assert (B : dist_xy (cylp phi z) c = rho).
  { unfold dist_xy, cylp. cbn [vx vy]. replace ((vx c + rho * cos phi - vx c) * (vx c + rho * cos phi - vx c) + (vy c + rho * sin phi - vy c) * (vy c + rho * sin phi - vy c))
      with (rho * rho * (sin phi * sin phi + cos phi * cos phi)) by ring. rewrite sc1, Rmult_1_r. apply sqrt_square. lra. }
  assert (T1 := dist_tri (V3 (px phi) (py phi) z) c (cylp phi z)). assert (T2 := dist_tri (cylp phi z) c (V3 (px phi) (py phi) z)). rewrite (dist_sym (cylp phi z) (V3 _ _ _)) in T2.
  apply Rabs_le. lra.
Qed.

Lemma point_located phi s x : is_double phi -> Rabs (power (px phi) (py phi)) <= 220 * (uround * (S * M)) ->
  cyl_point L at2 rho c phi hp rp = Ok (s, x) -> x = V3 (px phi) (py phi) (vz x) /\ located f rho c hp rp s x.
Proof.
  intros D W E. unfold cyl_point, bind in E.
  destruct (rd (rho * m_cos L phi)) as [a| | | |] eqn:A; try discriminate E. apply rd_spec in A.
  destruct (rd (vx c + a)) as [X| | | |] eqn:EX; try discriminate E. apply rd_spec in EX. subst a.
  destruct (rd (rho * m_sin L phi)) as [a| | | |] eqn:A; try discriminate E. apply rd_spec in A.
  destruct (rd (vy c + a)) as [Y| | | |] eqn:EY; try discriminate E. apply rd_spec in EY. subst a.
  fold (px phi) in EX. fold (py phi) in EY. subst X Y.
  destruct (calculateSfromXY_d L at2 (px phi) (py phi) hp rp) as [s'| | | |] eqn:ES; try discriminate E.
  destruct (calculateZfromS_d s' hp rp) as [z| | | |] eqn:EZ; try discriminate E. injection E as <- <-. cbn [vz]. split; [reflexivity|].
  destruct (near_path phi z _ D (Rle_refl _) W) as (t & T1 & T2 & T3 & T4). constructor.
  - apply on_cylinder_err, D.
  - cbn [vz]. apply height, EZ.
  - exists t. split; [exact T1|]. split; [exact T2|]. split; [exact T3|]. intros Q1 Q2. destruct (T4 Q1 Q2) as (s & E & R1). rewrite ES in E. injection E as <-. exact R1.
Qed.

(** ** all together *)
Lemma num_inv n : gamma_num om rho dx' dy' sn cs = Ok n -> n = num'.
Proof. unfold gamma_num. intros E. do 12 apply rd_inv in E. apply rd_spec in E. exact E. Qed.
Lemma den_inv n : gamma_den rho sox' coy' = Ok n -> n = den'.
Proof. unfold gamma_den. intros E. do 4 apply rd_inv in E. apply rd_spec in E. exact E. Qed.

Lemma rnd_in x : Rabs x <= 1 -> Rabs (rnd x) <= 1.
Proof. intros H. apply (mag_rnd x 0); [lia|exact H]. Qed.

Lemma exhausted a p x0 x1 : den' <> 0 -> Rabs g <= 1 -> angle_of sox' coy' a -> p = PI \/ p = - PI ->
  Rabs (rnd (asing + phirho) - a - asin g) <= 21 * uround -> Rabs (rnd (w1 + phirho) - a - (p - asin g)) <= 21 * uround ->
  x0 = V3 (px (rnd (asing + phirho))) (py (rnd (asing + phirho))) (vz x0) -> x1 = V3 (px (rnd (w1 + phirho))) (py (rnd (w1 + phirho))) (vz x1) ->
  exhaust f rho c hp rp x0 x1.
Proof.
  intros DN G A Hp E0 E1 X0 X1 t ON.
  assert (W := both_found a _ _ p (vz x0) (vz x1) t DN G A (rnd_double _) (rnd_double _) Hp E0 E1 ON). rewrite <- X0, <- X1 in W. split.
  - intros O. replace h with 1 in W.
    2:{ unfold h, sox, coy. unfold om. rewrite O. replace ((sin ph - 0 * dx) * (sin ph - 0 * dx) + (cos ph + 0 * dy) * (cos ph + 0 * dy)) with (sin ph * sin ph + cos ph * cos ph) by ring.
      rewrite sc1, sqrt_1. reflexivity. }
    rewrite Rmult_1_l in W. exact W.
  - intros m r O Hm. destruct (PropMove.circle_unique hp rp f m r O Hf Hm) as (C1 & C2 & C3).
    destruct (center_eq hp rp O) as [C4 C5]. rewrite C4 in C1. rewrite C5 in C2. rewrite radius_eq in C3 by exact O.
    replace (dist_xy m c / r) with h; [exact W|]. rewrite lever_circle by exact O. unfold dist_xy. rewrite C1, C2, C3. fold om.
    replace (1 / om) with (/ om) by (unfold Rdiv; ring). rewrite Rabs_inv. field. apply Rabs_no_R0, O.
Qed.

Lemma angles a : den' <> 0 -> Rabs g <= 1 -> angle_of sox' coy' a -> Rabs (phirho - a) <= 631 / 100 * uround -> Rabs phirho <= 316 / 100 ->
  rd (asing + phirho) = Ok (rnd (asing + phirho)) /\ (if Rlt_dec 0 asing then rd (dPi - asing) else rd (- dPi - asing)) = Ok w1
  /\ rd (w1 + phirho) = Ok (rnd (w1 + phirho))
  /\ Rabs (power (px (rnd (asing + phirho))) (py (rnd (asing + phirho)))) <= 220 * (uround * (S * M))
  /\ Rabs (power (px (rnd (w1 + phirho))) (py (rnd (w1 + phirho)))) <= 220 * (uround * (S * M)).
Proof.
  intros Z G1 Ha B1 B2. destruct (azimuth0 a G1 B1 B2) as [A0 A0']. destruct (azimuth1 a G1 B1 B2) as (A1 & A1' & p & Hp & A1'').
  destruct (asing_err G1) as (_ & _ & SA).
  assert (V0 : Rabs (sin (rnd (asing + phirho) - a) - g) <= 21 * uround).
  { replace (sin (rnd (asing + phirho) - a) - g) with (sin (rnd (asing + phirho) - a) - sin (asin g)) by (rewrite SA; reflexivity). eapply Rle_trans; [apply sin_lip|exact A0']. }
  assert (V1 : Rabs (sin (rnd (w1 + phirho) - a) - g) <= 21 * uround).
  { destruct (half_turn p (asin g) Hp) as [HS' _].
    replace (sin (rnd (w1 + phirho) - a) - g) with (sin (rnd (w1 + phirho) - a) - sin (p - asin g)) by (rewrite HS', SA; reflexivity). eapply Rle_trans; [apply sin_lip|exact A1'']. }
  repeat split; auto; [exact (power_err _ a (rnd_double _) Z G1 Ha V0)|exact (power_err _ a (rnd_double _) Z G1 Ha V1)].
Qed.

Lemma outcome surf mode cb r : st_parallelToZ (sf_type surf) = true -> sf_cyl surf = Some (rho, c) ->
  intersectWithZCylinder_d L at2 as_ surf hp rp mode cb = Ok r ->
  (r = (false, None) /\ passes_by f rho c (113 * (uround * (S * M))))
  \/ exists s0 x0 s1 x1, located f rho c hp rp s0 x0 /\ located f rho c hp rp s1 x1 /\ exhaust f rho c hp rp x0 x1
     /\ r = match select_d mode s0 x0 s1 x1 with None => (false, None) | Some (s, xx) => (bounds surf cb xx, Some (s, xx)) end.
Proof.
  intros HP HS E. unfold intersectWithZCylinder_d in E. rewrite HP, HS in E. cbv zeta in E.
  do 10 apply rd_inv in E. fold om ph d0 sn cs in E. fold x0' y0' in E. fold dx' dy' in E. fold sox' coy' in E.
  apply bind_inv in E. destruct E as (n & En & E). apply num_inv in En. subst n.
  apply bind_inv in E. destruct E as (n & En & E). apply den_inv in En. subst n. assert (D0 := den_pos).
  destruct (Req_EM_T den' 0) as [Z|Z].
  - destruct (Req_EM_T num' 0); [discriminate E|]. injection E as <-. left. split; [reflexivity|]. apply no_solution. rewrite Z. apply Rabs_pos.
  - fold g in E. destruct (Rlt_dec 1 (Rabs g)) as [G|G].
    + injection E as <-. left. split; [reflexivity|]. apply no_solution. apply Rnot_lt_le. intros C. apply (Rlt_not_le _ _ G). apply rnd_in.
      unfold Rdiv. rewrite Rabs_mult, Rabs_inv, (Rabs_pos_eq den') by lra. apply Rmult_le_reg_r with den'; [lra|].
      rewrite Rmult_assoc, Rinv_l, Rmult_1_r, Rmult_1_l by lra. lra.
    + right. assert (G1 : Rabs g <= 1) by lra. fold phirho asing in E. destruct (phirho_err Z) as (a & Ha & B1 & B2).
      destruct (azimuth0 a G1 B1 B2) as [A0 A0']. destruct (azimuth1 a G1 B1 B2) as (A1 & A1' & p & Hp & A1'').
      rewrite A0 in E. cbn [bind] in E. rewrite A1 in E. cbn [bind] in E. rewrite A1' in E. cbn [bind] in E.
      destruct (asing_err G1) as (_ & _ & SA).
      assert (V0 : Rabs (sin (rnd (asing + phirho) - a) - g) <= 21 * uround).
      { replace (sin (rnd (asing + phirho) - a) - g) with (sin (rnd (asing + phirho) - a) - sin (asin g)) by (rewrite SA; reflexivity). eapply Rle_trans; [apply sin_lip|exact A0']. }
      assert (V1 : Rabs (sin (rnd (w1 + phirho) - a) - g) <= 21 * uround).
      { destruct (half_turn p (asin g) Hp) as [HS' _].
        replace (sin (rnd (w1 + phirho) - a) - g) with (sin (rnd (w1 + phirho) - a) - sin (p - asin g)) by (rewrite HS', SA; reflexivity). eapply Rle_trans; [apply sin_lip|exact A1'']. }
      assert (P0 := power_err _ a (rnd_double _) Z G1 Ha V0). assert (P1 := power_err _ a (rnd_double _) Z G1 Ha V1).
      apply bind_inv in E. destruct E as ([s0 x0] & E0 & E). apply bind_inv in E. destruct E as ([s1 x1] & E1 & E). cbn [fst snd] in E.
      destruct (point_located _ _ _ (rnd_double _) P0 E0) as [X0 L0]. destruct (point_located _ _ _ (rnd_double _) P1 E1) as [X1 L1].
      exists s0, x0, s1, x1. split; [exact L0|]. split; [exact L1|]. split; [exact (exhausted a p x0 x1 Z G1 Ha Hp A0' A1'' X0 X1)|].
      destruct (select_d mode s0 x0 s1 x1) as [[s x]|]; injection E as <-; reflexivity.
Qed.
(** ** no step overflows *)
Lemma m_dx : mag dx' 110 /\ mag dy' 110 /\ mag sn 1 /\ mag cs 1 /\ mag om 100 /\ mag d0 100 /\ mag rho 98 /\ mag (vx c) 98 /\ mag (vy c) 98 /\ mag (vx rp) 100 /\ mag (vy rp) 100.
Proof.
  assert (R0 := rho_pos). assert (F1 : mag sn 1) by (apply mag_1; generalize (n_size _ _ _ _ n_sn ltac:(lra)); lra).
  assert (F2 : mag cs 1) by (apply mag_1; generalize (n_size _ _ _ _ n_cs ltac:(lra)); lra).
  assert (F3 : mag om 100) by apply HT. assert (F4 : mag d0 100) by apply HT. assert (F5 : mag (vx rp) 100) by apply HT. assert (F6 : mag (vy rp) 100) by apply HT.
  assert (F7 : mag (vx c) 98) by apply HC. assert (F8 : mag (vy c) 98) by apply HC.
  assert (F9 : mag rho 98) by (unfold mag; rewrite Rabs_pos_eq by lra; apply HC).
  split; [unfold dx', x0'; mg|]. split; [unfold dy', y0'; mg|]. repeat split; assumption.
Qed.
Lemma m_sox : mag sox' 220 /\ mag coy' 220.
Proof. destruct m_dx as (A & B & F1 & F2 & F3 & _). unfold sox', coy'. split; mg. Qed.
Lemma num_ok : gamma_num om rho dx' dy' sn cs = Ok num'.
Proof.
  destruct m_dx as (A & B & F1 & F2 & F3 & F4 & F9 & _). assert (T := mag_2). unfold gamma_num, num'. fin 12. apply (rd_fin1 _ 900); [mg|lia].
Qed.
Lemma den_ok : gamma_den rho sox' coy' = Ok den'.
Proof.
  destruct m_dx as (_ & _ & _ & _ & _ & _ & F9 & _). destruct m_sox as [A B]. assert (T := mag_2). unfold gamma_den, den', q'. fin 4. apply (rd_fin1 _ 900); [mg|lia].
Qed.

Lemma den_large : K <= 4 / 10 -> 0 < den'.
Proof.
  intros KB. assert (R0 := rho_pos). assert (U := u_small). assert (UT := u_tiny). destruct least_u as [_ Lu]. assert (K0 := K_pos). destruct off_axis as [A B]. assert (AO := Rabs_pos om).
  assert (DX : Rabs (om * dx) <= K) by (rewrite Rabs_mult; unfold K; apply Rmult_le_compat_l; lra).
  assert (DY : Rabs (om * dy) <= K) by (rewrite Rabs_mult; unfold K; apply Rmult_le_compat_l; lra).
  assert (C1 := sc1 ph). set (sp := sin ph) in *. set (cp := cos ph) in *.
  assert (Q : 18 / 100 <= sox * sox + coy * coy).
  { unfold sox, coy. fold sp cp. set (a := om * dx) in *. set (b := om * dy) in *. clearbody a b sp cp.
    assert (I : (sp * (sp - a) + cp * (cp + b)) * (sp * (sp - a) + cp * (cp + b)) <= (sp - a) * (sp - a) + (cp + b) * (cp + b)).
    { assert (J := Rle_0_sqr (sp * (cp + b) - cp * (sp - a))). unfold Rsqr in J.
      replace ((sp - a) * (sp - a) + (cp + b) * (cp + b)) with ((sp * sp + cp * cp) * ((sp - a) * (sp - a) + (cp + b) * (cp + b))) by (rewrite C1; ring). lra. }
    assert (V : Rabs sp + Rabs cp <= 1415 / 1000).
    { assert (SA : Rabs sp * Rabs sp = sp * sp) by (rewrite <- Rabs_mult; apply Rabs_pos_eq; exact (Rle_0_sqr sp)).
      assert (CA : Rabs cp * Rabs cp = cp * cp) by (rewrite <- Rabs_mult; apply Rabs_pos_eq; exact (Rle_0_sqr cp)).
      assert (J := Rle_0_sqr (Rabs sp - Rabs cp)). unfold Rsqr in J. assert (P1 := Rabs_pos sp). assert (P2 := Rabs_pos cp).
      apply Rnot_lt_le. intros C. assert (1415 / 1000 * (1415 / 1000) < (Rabs sp + Rabs cp) * (Rabs sp + Rabs cp)) by (apply Rmult_le_0_lt_compat; lra). lra. }
    assert (W : 43 / 100 <= sp * (sp - a) + cp * (cp + b)).
    { replace (sp * (sp - a) + cp * (cp + b)) with (1 - sp * a + cp * b) by (rewrite <- C1; ring).
      assert (E1 : Rabs (sp * a) <= Rabs sp * K) by (rewrite Rabs_mult; apply Rmult_le_compat_l; [apply Rabs_pos|exact DX]).
      assert (E2 : Rabs (cp * b) <= Rabs cp * K) by (rewrite Rabs_mult; apply Rmult_le_compat_l; [apply Rabs_pos|exact DY]).
      assert (E3 : (Rabs sp + Rabs cp) * K <= 1415 / 1000 * (4 / 10)) by (apply Rmult_le_compat; try lra; generalize (Rabs_pos sp) (Rabs_pos cp); lra).
      apply Rabs_le_inv in E1. apply Rabs_le_inv in E2. lra. }
    assert (43 / 100 * (43 / 100) <= (sp * (sp - a) + cp * (cp + b)) * (sp * (sp - a) + cp * (cp + b))) by (apply Rmult_le_compat; lra). lra. }
  assert (H : 42 / 100 <= h).
  { unfold h. rewrite <- (sqrt_square (42 / 100)) by lra. apply sqrt_le_1_alt. lra. }
  assert (E := h_err). assert (UM : uround * M <= / 1000000 * (14 / 10)) by (apply Rmult_le_compat; unfold M; lra). apply Rabs_le_inv in E.
  assert (H' : 41 / 100 <= h') by lra.
  assert (Q' : 16 / 100 <= sox' * sox' + coy' * coy').
  { assert (SQ : h' * h' = sox' * sox' + coy' * coy') by (unfold h'; apply sqrt_sqrt, ss_nonneg). rewrite <- SQ.
    assert (41 / 100 * (41 / 100) <= h' * h') by (apply Rmult_le_compat; lra). lra. }
  destruct q'_close as [_ E']. set (v := sox' * sox' + coy' * coy') in *. assert (uround * v <= / 1000000 * v) by (apply Rmult_le_compat_r; lra). apply Rabs_le_inv in E'.
  assert (Q2 : / 4 * / 4 <= q') by lra.
  assert (MO : forall a b, a <= b -> rnd a <= rnd b) by (intros a b; apply round_le; [apply FLT_exp_valid; reflexivity | apply valid_rnd_N]).
  assert (R1 : / 4 <= rnd (sqrt q')).
  { rewrite <- (rnd_id (/ 4)) by exact (double_bpow (-2) ltac:(lia)). apply MO. rewrite <- (sqrt_square (/ 4)) by lra. apply sqrt_le_1_alt, Q2. }
  assert (R2 : rho <= rnd (2 * rho)) by (rewrite <- (rnd_id rho) at 1 by apply HC; apply MO; lra).
  apply Rlt_le_trans with (bpow radix2 (-202)); [apply bpow_gt_0|]. unfold den'. rewrite <- (rnd_id (bpow radix2 (-202))) by (apply double_bpow; lia). apply MO.
  replace (bpow radix2 (-202)) with (bpow radix2 (-200) * / 4) by (change (/ 4) with (bpow radix2 (-2)); rewrite <- bpow_plus; reflexivity).
  apply Rmult_le_compat; [apply bpow_ge_0|lra| |exact R1]. generalize (oc_small _ _ HC). lra.
Qed.

Lemma point_ok phi : is_double phi -> mag (hp Z0) 100 -> mag (hp TANL) 100 -> mag (vz rp) 100 -> K <= 4 / 10 ->
  Rabs (power (px phi) (py phi)) <= 220 * (uround * (S * M)) -> exists s x, cyl_point L at2 rho c phi hp rp = Ok (s, x).
Proof.
  intros D Z1 Z2 Z3 KB W. destruct (near_path phi 0 _ D (Rle_refl _) W) as (t & _ & _ & T1 & T2). destruct (T1 KB) as [T3 T4]. destruct (T2 T3 ltac:(lra)) as (s & E & AC).
  assert (R0 := rho_pos). assert (U := u_small). assert (UT := u_tiny). assert (K0 := K_pos). assert (PS := parts).
  destruct m_dx as (_ & _ & _ & _ & _ & F4 & F9 & F7 & F8 & F5 & F6).
  assert (SS : S <= bpow radix2 103).
  { unfold S, reach. unfold mag in F4, F5, F6, F7, F8, F9. rewrite (Rabs_pos_eq rho) in F9 by lra. fold d0.
    replace (bpow radix2 103) with (8 * bpow radix2 100) by (change 103%Z with (3 + 100)%Z; rewrite bpow_plus; reflexivity).
    assert (bpow radix2 98 <= bpow radix2 100) by (apply bpow_le; lia). assert (B := bpow_gt_0 radix2 100). lra. }
  assert (SP : speck <= 1) by (apply (bpow_le radix2 _ 0); lia).
  assert (MS : mag s 106).
  { unfold mag. destruct AC as [AC|[-> _]]; [|rewrite Rabs_R0; apply bpow_ge_0].
    assert (SM : uround * (S * M) <= / 1000000 * (S * (14 / 10))).
    { apply Rmult_le_compat; [lra|apply Rmult_le_pos; [lra|unfold M; lra]|lra|]. apply Rmult_le_compat_l; unfold M; lra. }
    assert (PT := Rabs_pos t). assert (uround * Rabs t <= / 1000000 * Rabs t) by (apply Rmult_le_compat_r; lra).
    assert (Rabs s <= Rabs t + Rabs (s - t)) by (replace s with (t + (s - t)) at 1 by ring; apply Rabs_triang).
    replace (bpow radix2 106) with (8 * bpow radix2 103) by (change 106%Z with (3 + 103)%Z; rewrite bpow_plus; reflexivity).
    assert (1 <= bpow radix2 103) by (apply (bpow_le radix2 0); lia). lra. }
  destruct (n_lib phi D) as [NS NC].
  assert (F1 : mag (m_sin L phi) 1) by (apply mag_1; generalize (n_size _ _ _ _ NS ltac:(lra)); lra).
  assert (F2 : mag (m_cos L phi) 1) by (apply mag_1; generalize (n_size _ _ _ _ NC ltac:(lra)); lra).
  unfold cyl_point. fin 4. unfold px, py in E. rewrite E. cbn [bind]. unfold calculateZfromS_d. fin 3. eexists. eexists. reflexivity.
Qed.

Lemma finite surf mode cb : st_parallelToZ (sf_type surf) = true -> sf_cyl surf = Some (rho, c) ->
  mag (hp Z0) 100 -> mag (hp TANL) 100 -> mag (vz rp) 100 -> K <= 4 / 10 ->
  exists r, intersectWithZCylinder_d L at2 as_ surf hp rp mode cb = Ok r.
Proof.
  intros HP HS Z1 Z2 Z3 KB. unfold intersectWithZCylinder_d. rewrite HP, HS. cbv zeta. fold om ph d0 sn cs.
  destruct m_dx as (M1 & M2 & F1 & F2 & F3 & F4 & F9 & F7 & F8 & F5 & F6). destruct m_sox as [M3 M4]. fin 4. fold x0' y0'.
  assert (mag x0' 105) by (unfold x0'; mg). assert (mag y0' 105) by (unfold y0'; mg). fin 2. fold dx' dy'. fin 4. fold sox' coy'.
  rewrite num_ok. cbn [bind]. rewrite den_ok. cbn [bind]. assert (DL := den_large KB). destruct (Req_EM_T den' 0) as [Z|Z]; [lra|].
  fold g. destruct (Rlt_dec 1 (Rabs g)) as [G|G]; [eexists; reflexivity|]. assert (G1 : Rabs g <= 1) by lra. fold phirho asing.
  destruct (phirho_err Z) as (a & Ha & B1 & B2). destruct (angles a Z G1 Ha B1 B2) as (A0 & A1 & A1' & P0 & P1).
  rewrite A0. cbn [bind]. rewrite A1. cbn [bind]. rewrite A1'. cbn [bind].
  destruct (point_ok _ (rnd_double _) Z1 Z2 Z3 KB P0) as (s0 & x0 & E0). destruct (point_ok _ (rnd_double _) Z1 Z2 Z3 KB P1) as (s1 & x1 & E1).
  rewrite E0. cbn [bind]. rewrite E1. cbn [bind fst snd]. destruct (select_d mode s0 x0 s1 x1) as [[s x]|]; eexists; reflexivity.
Qed.
End Cyl.

(** ** the choice *)
Lemma almost a : 0 <= a -> a <= rnd (a + rnd (/ 10000)) + uround * a /\ rnd (a + rnd (/ 10000)) <= a + (/ 5000 + 2 * uround * a).
Proof.
  intros A. assert (U := u_small). assert (UT := u_tiny). destruct least_u as [_ Lu]. assert (E := rnd_err (/ 10000)). rewrite (Rabs_pos_eq (/ 10000)) in E by lra. apply Rabs_le_inv in E.
  set (e := rnd (/ 10000)) in *. clearbody e. assert (uround * / 10000 <= / 1000000000000 * / 10000) by (apply Rmult_le_compat_r; lra).
  assert (E1 : 9 / 100000 <= e <= 11 / 100000) by lra. assert (F := rnd_err (a + e)). rewrite (Rabs_pos_eq (a + e)) in F by lra. apply Rabs_le_inv in F.
  assert (uround * e <= / 1000000000000 * (11 / 100000)) by (apply Rmult_le_compat; lra). assert (0 <= uround * a) by (apply Rmult_le_pos; lra). lra.
Qed.

Lemma select_d_spec mode s0 x0 s1 x1 :
  match select_d mode s0 x0 s1 x1 with
  | None => none_for mode (fun s => s = s0 \/ s = s1)
  | Some (s, x) => (s = s0 /\ x = x0 \/ s = s1 /\ x = x1)
      /\ picked (/ 5000 + 2 * uround * (Rabs s0 + Rabs s1)) mode (fun s => s = s0 \/ s = s1) s
  end.
Proof.
  assert (U := u_small). assert (P0 := Rabs_pos s0). assert (P1 := Rabs_pos s1).
  destruct (almost (Rabs s0) P0) as [A0 B0]. destruct (almost (Rabs s1) P1) as [A1 B1].
  assert (0 <= uround * Rabs s0) by (apply Rmult_le_pos; lra). assert (0 <= uround * Rabs s1) by (apply Rmult_le_pos; lra).
  unfold select_d. cbv zeta.
  destruct (Rlt_dec s0 0); destruct (Rlt_dec s1 0);
    repeat match goal with |- context [Z.ltb ?a ?b] => destruct (Z.ltb_spec a b) end;
    repeat match goal with |- context [Rlt_dec ?a ?b] => destruct (Rlt_dec a b) end;
    try (intros s [-> | ->]; first [left; split; [lia|lra] | right; split; [lia|lra]]);
    (split; [first [left; split; reflexivity | right; split; reflexivity]|]);
    (constructor; [auto
      | intros HM; first [lia | split; [lra|intros s' [-> | ->]; intros; lra]]
      | intros HM; first [lia | split; [lra|intros s' [-> | ->]; intros; lra]]
      | intros HM s' [-> | ->]; first [lia | lra | (rewrite ?(Rabs_left s0), ?(Rabs_left s1), ?(Rabs_pos_eq s0), ?(Rabs_pos_eq s1) in * by lra; lra)]]).
Qed.
