(** Rounding of points and directions along a track: lemmas. *)
From Coq Require Import Reals ZArith Lra Lia Psatz.
From Flocq Require Import Core Relative.
From Verif Require Import Num Vec FloatWrap PointFloat SpecRound RoundFacts Helix.
Open Scope R_scope.

(** sizes by powers of two *)
Definition mag (x : R) (k : Z) : Prop := Rabs x <= bpow radix2 k.

Lemma mag_le x k l : mag x k -> (k <= l)%Z -> mag x l.
Proof. intros H L. unfold mag. eapply Rle_trans; [exact H|]. apply bpow_le; auto. Qed.
Lemma mag_mul x y k l : mag x k -> mag y l -> mag (x * y) (k + l).
Proof. unfold mag. intros A B. rewrite Rabs_mult, bpow_plus. apply Rmult_le_compat; auto using Rabs_pos. Qed.
Lemma bpow_S k : bpow radix2 (k + 1) = 2 * bpow radix2 k.
Proof. rewrite bpow_plus. change (bpow radix2 1) with 2. ring. Qed.
Lemma mag_add x y k : mag x k -> mag y k -> mag (x + y) (k + 1).
Proof. unfold mag. intros A B. rewrite bpow_S. eapply Rle_trans; [apply Rabs_triang|]. lra. Qed.
Lemma mag_opp x k : mag x k -> mag (- x) k.
Proof. unfold mag. rewrite Rabs_Ropp. auto. Qed.
Lemma mag_sub x y k : mag x k -> mag y k -> mag (x - y) (k + 1).
Proof. intros A B. apply mag_add; auto. apply mag_opp; auto. Qed.
Lemma mag_rnd x k : (-1000 <= k)%Z -> mag x k -> mag (rnd x) k.
Proof.
  unfold mag, rnd. intros K H. apply abs_round_le_generic; auto with typeclass_instances.
  apply generic_format_bpow. unfold FLT_exp. lia.
Qed.
Lemma mag_rd x k : (k <= 1000)%Z -> mag x k -> rd x = Ok (rnd x).
Proof. intros K H. apply rd_ok. apply (mag_le x k 1000 H K). Qed.
Lemma mag_1 x : Rabs x <= 1001 / 1000 -> mag x 1.
Proof. unfold mag. change (bpow radix2 1) with 2. lra. Qed.

(** the correctly rounded mathematical library *)
Definition best : libm := Libm (fun x => rnd (sin x)) (fun x => rnd (cos x)) (fun x => rnd (atan x)).
Lemma best_accurate : accurate best.
Proof.
  assert (G : forall g, off_by_one (fun x => rnd (g x)) g).
  { intros g x _. split; [apply rnd_double|]. eapply Rle_trans; [apply rnd_err|]. assert (U := u_small).
    assert (0 <= uround * Rabs (g x)) by (apply Rmult_le_pos; [lra|apply Rabs_pos]). lra. }
  split; [|split]; apply G.
Qed.

Section R.
Variables (L : libm) (s : R) (hp : vec5) (rp : vec3).
Hypothesis HL : accurate L.
Hypothesis HF : fit_for_double s hp rp.

Let om := hp OMEGA. Let ph := hp PHI0. Let d0 := hp D0.
Let u := uround. Let eta := least.
Let t : R := bpow radix2 (-660).

Lemma om_nz : om <> 0.
Proof. intros Q. assert (B := fd_om _ _ _ HF). unfold om in Q. rewrite Q, Rabs_R0 in B. generalize (bpow_gt_0 radix2 (-200)). lra. Qed.

Lemma m_hp i : mag (hp i) 200. Proof. apply (fd_hp _ _ _ HF i). Qed.
Lemma m_s : mag s 200. Proof. apply (fd_s _ _ _ HF). Qed.
Lemma m_x : mag (vx rp) 200. Proof. apply (fd_x _ _ _ HF). Qed.
Lemma m_y : mag (vy rp) 200. Proof. apply (fd_y _ _ _ HF). Qed.
Lemma m_z : mag (vz rp) 200. Proof. apply (fd_z _ _ _ HF). Qed.
Lemma d_hp i : is_double (hp i). Proof. apply (fd_hp _ _ _ HF i). Qed.
Lemma m_inv : mag (/ om) 200.
Proof.
  unfold mag. rewrite Rabs_inv. replace 200%Z with (- -200)%Z by reflexivity. rewrite bpow_opp.
  apply Rinv_le; [apply bpow_gt_0|]. apply (fd_om _ _ _ HF).
Qed.

Lemma eta_t a k : mag a k -> (k <= 410)%Z -> 0 <= eta * Rabs a <= t.
Proof.
  intros M K. unfold eta, t, least. split; [apply Rmult_le_pos; [apply bpow_ge_0|apply Rabs_pos]|].
  replace (-660)%Z with (-1074 + 414)%Z by reflexivity. rewrite bpow_plus. apply Rmult_le_compat_l; [apply bpow_ge_0|].
  apply (mag_le a k 414 M). lia.
Qed.
Lemma eta_1 : 0 <= eta <= t.
Proof. split; [left; apply least_pos|]. unfold eta, t, least. apply bpow_le. lia. Qed.
Lemma t_tiny : 0 < t /\ 1000 * t <= tiny.
Proof.
  split; [apply bpow_gt_0|]. unfold t, tiny. replace (-600)%Z with (-660 + 60)%Z by reflexivity. rewrite bpow_plus.
  assert (P := bpow_gt_0 radix2 (-660)). assert (1000 <= bpow radix2 60).
  { apply Rle_trans with (bpow radix2 10); [change (bpow radix2 10) with 1024; lra|apply bpow_le; lia]. }
  nra.
Qed.
Lemma t_u : t <= u / 1000000.
Proof.
  unfold t, u, uround. apply Rle_trans with (bpow radix2 (-80)); [apply bpow_le; lia|].
  change (bpow radix2 (-80)) with (/ 1208925819614629174706176). lra.
Qed.

(** ** the point of closest approach *)
Lemma opp_double x : is_double x -> is_double (- x).
Proof. apply generic_format_opp. Qed.

(** an entry of the direction times a length *)
Lemma leg_err f g d : Rabs (f - g) <= 2 * u + eta -> Rabs f <= 1001 / 1000 -> Rabs g <= 1 -> mag d 200 ->
  rd (f * d) = Ok (rnd (f * d)) /\ mag (rnd (f * d)) 201
  /\ Rabs (rnd (f * d) - g * d) <= u * (31 / 10 * Rabs d) + 3 * t.
Proof.
  intros E F G M. assert (U := u_small). fold u in U. assert (E1 := eta_1). assert (ED := eta_t d 200 M ltac:(lia)).
  assert (M1 : mag (f * d) 201).
  { replace 201%Z with (1 + 200)%Z by reflexivity. apply mag_mul; [apply mag_1; auto|auto]. }
  assert (Ea : Rabs (f * d - g * d) <= (2 * u + eta) * Rabs d).
  { rewrite <- Rmult_minus_distr_r, Rabs_mult. apply Rmult_le_compat_r; [apply Rabs_pos|auto]. }
  assert (P := Rabs_pos d).
  assert (Sa : Rabs (g * d) <= Rabs d).
  { rewrite Rabs_mult. rewrite <- (Rmult_1_l (Rabs d)) at 2. apply Rmult_le_compat_r; auto. }
  split; [apply (mag_rd _ 201 ltac:(lia) M1)|]. split; [apply mag_rnd; [lia|auto]|].
  assert (W := rnd_step _ _ _ Ea). fold u eta in W.
  assert (u * Rabs (g * d) <= u * Rabs d) by (apply Rmult_le_compat_l; lra).
  assert (0 <= u * Rabs d) by (apply Rmult_le_pos; lra). nra.
Qed.

(** a sum of two intermediate results *)
Lemma plus_err a' a b' b ea eb A B k : Rabs (a' - a) <= ea -> Rabs (b' - b) <= eb -> mag a' k -> mag b' k -> (-900 <= k <= 900)%Z ->
  Rabs a <= A -> Rabs b <= B ->
  rd (a' + b') = Ok (rnd (a' + b')) /\ mag (rnd (a' + b')) (k + 1)
  /\ Rabs (rnd (a' + b') - (a + b)) <= 1001 / 1000 * (ea + eb) + u * (A + B) + t.
Proof.
  intros Ea Eb Ma Mb K Sa Sb. assert (U := u_small). fold u in U. assert (E1 := eta_1).
  assert (M := mag_add _ _ _ Ma Mb).
  split; [apply (mag_rd _ (k + 1)); [lia|auto]|]. split; [apply mag_rnd; [lia|auto]|].
  assert (W := rnd_step _ _ _ (add_err _ _ _ _ _ _ Ea Eb)). fold u eta in W.
  assert (T : Rabs (a + b) <= A + B) by (eapply Rle_trans; [apply Rabs_triang|]; lra).
  assert (u * Rabs (a + b) <= u * (A + B)) by (apply Rmult_le_compat_l; lra). lra.
Qed.

Lemma same_err a : Rabs (a - a) <= 0.
Proof. rewrite Rminus_diag_eq, Rabs_R0 by reflexivity. lra. Qed.

Lemma sin_at x : is_double x -> Rabs (m_sin L x - sin x) <= 2 * u + eta /\ Rabs (m_sin L x) <= 1001 / 1000.
Proof.
  intros D. split; [|apply sin_size; auto]. assert (W := sin_err L _ _ 0 HL D (same_err x)). fold u eta in W. lra.
Qed.
Lemma cos_at x : is_double x -> Rabs (m_cos L x - cos x) <= 2 * u + eta /\ Rabs (m_cos L x) <= 1001 / 1000.
Proof.
  intros D. split; [|apply cos_size; auto]. assert (W := cos_err L _ _ 0 HL D (same_err x)). fold u eta in W. lra.
Qed.

Lemma leg_size g d : Rabs g <= 1 -> Rabs (g * d) <= Rabs d.
Proof.
  intros G. rewrite Rabs_mult. rewrite <- (Rmult_1_l (Rabs d)) at 2. apply Rmult_le_compat_r; auto. apply Rabs_pos.
Qed.

Lemma pca_err f g r : Rabs (f - g) <= 2 * u + eta -> Rabs f <= 1001 / 1000 -> Rabs g <= 1 -> mag r 200 ->
  exists v, bind (rd (f * d0)) (fun a => rd (a + r)) = Ok v /\ mag v 202
  /\ Rabs (v - (g * d0 + r)) <= u * (42 / 10 * Rabs d0 + Rabs r) + 5 * t.
Proof.
  intros E F G M. assert (U := u_small). fold u in U.
  destruct (leg_err f g d0 E F G (m_hp D0)) as (R1 & M1 & E1).
  destruct (plus_err _ _ r r _ 0 (Rabs d0) (Rabs r) 201 E1 (same_err r) M1 (mag_le _ 200 201 M ltac:(lia)) ltac:(lia) (leg_size g d0 G) (Rle_refl _))
    as (R2 & M2 & E2).
  exists (rnd (rnd (f * d0) + r)). rewrite R1. cbn [bind]. rewrite R2. split; [reflexivity|]. split; [exact M2|].
  assert (T := proj1 t_tiny). assert (P := Rabs_pos d0). assert (P2 := Rabs_pos r).
  assert (0 <= u * Rabs d0) by (apply Rmult_le_pos; lra). lra.
Qed.

Lemma X0_err : exists v, calculateX0_d L hp rp = Ok v /\ mag v 202
  /\ Rabs (v - calculateX0 hp rp) <= u * (42 / 10 * Rabs d0 + Rabs (vx rp)) + 5 * t.
Proof.
  destruct (sin_at _ (opp_double _ (d_hp PHI0))) as [A B].
  exact (pca_err _ (sin (- hp PHI0)) (vx rp) A B (sin_1 _) m_x).
Qed.
Lemma Y0_err : exists v, calculateY0_d L hp rp = Ok v /\ mag v 202
  /\ Rabs (v - calculateY0 hp rp) <= u * (42 / 10 * Rabs d0 + Rabs (vy rp)) + 5 * t.
Proof.
  destruct (cos_at _ (d_hp PHI0)) as [A B].
  exact (pca_err _ (cos (hp PHI0)) (vy rp) A B (cos_1 _) m_y).
Qed.

(** ** the chord *)
Let H := om * s / 2.
Let Q := 2 / om.
Let hd := rnd (rnd (om * s) / 2).
Let qd := rnd (2 / om).

Lemma QH : Rabs Q * Rabs H = Rabs s.
Proof. rewrite <- Rabs_mult. f_equal. unfold Q, H. field. apply om_nz. Qed.
Lemma m_H : mag H 400.
Proof.
  unfold H. assert (M : mag (om * s) (200 + 200)) by (apply mag_mul; [apply m_hp|apply m_s]). unfold mag in *.
  unfold Rdiv. rewrite Rabs_mult, (Rabs_pos_eq (/ 2)) by lra. generalize (bpow_gt_0 radix2 (200 + 200)).
  change (200 + 200)%Z with 400%Z in *. lra.
Qed.
Lemma m_Q : mag Q 201.
Proof. unfold Q, Rdiv. replace 201%Z with (1 + 200)%Z by reflexivity. apply mag_mul; [|apply m_inv]. unfold mag. change (bpow radix2 1) with 2. rewrite Rabs_pos_eq; lra. Qed.

Lemma half_err : rd (om * s) = Ok (rnd (om * s)) /\ rd (rnd (om * s) / 2) = Ok hd /\ mag hd 400
  /\ Rabs (hd - H) <= u * (21 / 10 * Rabs H) + 2 * eta.
Proof.
  assert (U := u_small). fold u in U. assert (E1 := eta_1).
  assert (M : mag (om * s) 400) by (apply (mag_mul _ _ 200 200); [apply m_hp|apply m_s]).
  assert (Mc : mag (rnd (om * s)) 400) by (apply mag_rnd; [lia|auto]).
  assert (Mh : mag (rnd (om * s) / 2) 400).
  { unfold mag in *. unfold Rdiv. rewrite Rabs_mult, (Rabs_pos_eq (/ 2)) by lra. generalize (bpow_gt_0 radix2 400). lra. }
  split; [apply (mag_rd _ 400); [lia|auto]|]. split; [apply (mag_rd _ 400); [lia|auto]|]. split; [apply mag_rnd; [lia|auto]|].
  assert (Ec : Rabs (rnd (om * s) - om * s) <= u * Rabs (om * s) + eta) by apply rnd_err.
  assert (QQ : Rabs (om * s) = 2 * Rabs H).
  { unfold H, Rdiv. rewrite (Rabs_mult (om * s) (/ 2)), (Rabs_pos_eq (/ 2)) by lra. lra. }
  assert (Eh : Rabs (rnd (om * s) / 2 - H) <= u * Rabs H + eta / 2).
  { unfold H at 1. replace (rnd (om * s) / 2 - om * s / 2) with ((rnd (om * s) - om * s) * / 2) by field.
    rewrite Rabs_mult, (Rabs_pos_eq (/ 2)) by lra. rewrite QQ in Ec. lra. }
  assert (W := rnd_step _ _ _ Eh). fold u eta hd in W. assert (P := Rabs_pos H).
  assert (0 <= u * Rabs H) by (apply Rmult_le_pos; lra). lra.
Qed.

Lemma q_err : rd_div 2 om = Ok qd /\ mag qd 201 /\ Rabs (qd - Q) <= u * Rabs Q + eta.
Proof.
  unfold rd_div. destruct (Req_EM_T om 0) as [Z|_]; [elim om_nz; auto|].
  split; [apply (mag_rd _ 201); [lia|apply m_Q]|]. split; [apply mag_rnd; [lia|apply m_Q]|]. apply rnd_err.
Qed.

Let ad := rnd (qd * m_sin L hd).
Lemma chord_err : rd (qd * m_sin L hd) = Ok ad /\ mag ad 202
  /\ Rabs (ad - Q * sin H) <= u * (64 / 10 * Rabs s) + 14 * t /\ Rabs (Q * sin H) <= Rabs s.
Proof.
  assert (U := u_small). fold u in U. assert (E1 := eta_1).
  destruct half_err as (_ & _ & _ & Eh). destruct q_err as (_ & Mq & Eq).
  assert (Dh : is_double hd) by apply rnd_double.
  assert (Es := sin_err_small L hd H _ HL Dh Eh). fold u eta in Es.
  assert (P := Rabs_pos H). assert (PQ := Rabs_pos Q). assert (Ps := Rabs_pos s).
  assert (UH : 0 <= u * Rabs H) by (apply Rmult_le_pos; lra).
  assert (Es' : Rabs (m_sin L hd - sin H) <= u * (42 / 10 * Rabs H) + 4 * eta).
  { assert (u * (u * Rabs H) <= / 1000000 * (u * Rabs H)) by (apply Rmult_le_compat_r; lra).
    assert (u * eta <= / 1000000 * eta) by (apply Rmult_le_compat_r; lra). lra. }
  clear Es. assert (Ss := sin_le H).
  assert (SB : Rabs (m_sin L hd) <= 101 / 100 * Rabs H + 4 * eta).
  { assert (W := near_size _ _ _ Es').
    assert (u * Rabs H <= / 1000000 * Rabs H) by (apply Rmult_le_compat_r; lra). lra. }
  assert (Em := mul_err _ _ _ _ _ _ _ _ Eq Es' (Rle_refl _) SB).
  assert (EQ := eta_t Q 201 m_Q ltac:(lia)). assert (EH := eta_t H 400 m_H ltac:(lia)).
  assert (Sa : Rabs (Q * sin H) <= Rabs s).
  { rewrite <- QH, Rabs_mult. apply Rmult_le_compat_l; auto. }
  assert (Em' : Rabs (qd * m_sin L hd - Q * sin H) <= u * (53 / 10 * Rabs s) + 12 * t).
  { eapply Rle_trans; [exact Em|].
    replace ((u * Rabs Q + eta) * (101 / 100 * Rabs H + 4 * eta) + Rabs Q * (u * (42 / 10 * Rabs H) + 4 * eta))
      with (u * (521 / 100 * (Rabs Q * Rabs H)) + 4 * (u * (eta * Rabs Q)) + 101 / 100 * (eta * Rabs H) + 4 * (eta * eta) + 4 * (eta * Rabs Q)) by field.
    rewrite QH.
    assert (u * (eta * Rabs Q) <= / 1000000 * t) by (apply Rmult_le_compat; lra).
    assert (eta * eta <= 1 * t). { apply Rmult_le_compat; try lra. assert (W := t_u). lra. }
    assert (0 <= u * Rabs s) by (apply Rmult_le_pos; lra). lra. }
  assert (Mm : mag (qd * m_sin L hd) 202).
  { apply (mag_mul _ _ 201 1); auto. apply mag_1. apply sin_size; auto. }
  split; [apply (mag_rd _ 202); [lia|auto]|]. split; [apply mag_rnd; [lia|auto]|]. split; [|exact Sa].
  assert (W := rnd_step _ _ _ Em'). fold u eta ad in W.
  assert (u * Rabs (Q * sin H) <= u * Rabs s) by (apply Rmult_le_compat_l; lra).
  assert (0 <= u * Rabs s) by (apply Rmult_le_pos; lra). assert (T := proj1 t_tiny). lra.
Qed.

Let thd := rnd (ph - hd).
Lemma mid_err : rd (ph - hd) = Ok thd /\ is_double thd
  /\ Rabs (thd - (ph - H)) <= u * (Rabs ph + 32 / 10 * Rabs H) + 4 * eta.
Proof.
  assert (U := u_small). fold u in U. assert (E1 := eta_1). destruct half_err as (_ & _ & Mh & Eh).
  assert (M : mag (ph - hd) (400 + 1)) by (apply mag_sub; auto; apply (mag_le _ 200); [apply m_hp|lia]).
  split; [apply (mag_rd _ 401); [lia|exact M]|]. split; [apply rnd_double|].
  assert (W := rnd_step _ _ _ (sub_err _ _ _ _ _ _ (same_err ph) Eh)). fold u eta thd in W.
  assert (T : Rabs (ph - H) <= Rabs ph + Rabs H).
  { unfold Rminus. eapply Rle_trans; [apply Rabs_triang|]. rewrite Rabs_Ropp. lra. }
  assert (u * Rabs (ph - H) <= u * (Rabs ph + Rabs H)) by (apply Rmult_le_compat_l; lra).
  assert (P := Rabs_pos H). assert (0 <= u * Rabs H) by (apply Rmult_le_pos; lra). lra.
Qed.

(** the chord times an entry of its direction, added to the coordinate [p] of the
    point of closest approach *)
Lemma end_err f g p p' r : mag p' 202 -> Rabs (p' - p) <= u * (42 / 10 * Rabs d0 + Rabs r) + 5 * t -> Rabs p <= Rabs d0 + Rabs r ->
  Rabs (f - g) <= 2 * u + eta + (u * (Rabs ph + 32 / 10 * Rabs H) + 4 * eta) -> Rabs f <= 1001 / 1000 -> Rabs g <= 1 ->
  rd (ad * f) = Ok (rnd (ad * f)) /\
  rd (p' + rnd (ad * f)) = Ok (rnd (p' + rnd (ad * f)))
  /\ Rabs (rnd (p' + rnd (ad * f)) - (p + Q * sin H * g))
     <= 16 * u * (Rabs r + Rabs d0 + Rabs s * (1 + Rabs ph + Rabs (om * s))) + tiny.
Proof.
  intros Mp Ep Sp Ef Sf Sg. assert (U := u_small). fold u in U. assert (E1 := eta_1).
  destruct chord_err as (_ & Ma & Ea & Sa).
  assert (Mm : mag (ad * f) 203) by (apply (mag_mul _ _ 202 1); auto; apply mag_1; auto).
  assert (Ps := Rabs_pos s). assert (P := Rabs_pos H). assert (Pp := Rabs_pos ph).
  assert (Es := eta_t s 200 m_s ltac:(lia)). assert (T := proj1 t_tiny).
  assert (Em := mul_err _ _ _ _ _ _ _ _ Ea Ef Sa Sf).
  assert (US : 0 <= u * Rabs s) by (apply Rmult_le_pos; lra).
  assert (USP : 0 <= u * Rabs s * Rabs ph) by (apply Rmult_le_pos; lra).
  assert (USH : 0 <= u * Rabs s * Rabs H) by (apply Rmult_le_pos; lra).
  assert (Em' : Rabs (ad * f - Q * sin H * g) <= 85 / 10 * (u * Rabs s) + u * Rabs s * Rabs ph + 32 / 10 * (u * Rabs s * Rabs H) + 20 * t).
  { eapply Rle_trans; [exact Em|].
    replace (Rabs s * (2 * u + eta + (u * (Rabs ph + 32 / 10 * Rabs H) + 4 * eta)))
      with (2 * (u * Rabs s) + 5 * (eta * Rabs s) + u * Rabs s * Rabs ph + 32 / 10 * (u * Rabs s * Rabs H)) by field. lra. }
  assert (W := rnd_step _ _ _ Em'). fold u eta in W.
  assert (Sg2 : Rabs (Q * sin H * g) <= Rabs s).
  { rewrite Rabs_mult. rewrite <- (Rmult_1_r (Rabs s)). apply Rmult_le_compat; auto using Rabs_pos. }
  assert (u * Rabs (Q * sin H * g) <= u * Rabs s) by (apply Rmult_le_compat_l; lra).
  assert (W2 : Rabs (rnd (ad * f) - Q * sin H * g) <= 96 / 10 * (u * Rabs s) + 11 / 10 * (u * Rabs s * Rabs ph) + 33 / 10 * (u * Rabs s * Rabs H) + 22 * t) by lra.
  split; [apply (mag_rd _ 203); [lia|auto]|].
  destruct (plus_err p' p _ _ _ _ _ _ 203 Ep W2 (mag_le _ 202 203 Mp ltac:(lia)) (mag_rnd _ 203 ltac:(lia) Mm) ltac:(lia) Sp Sg2)
    as (R2 & _ & E2).
  split; [exact R2|]. eapply Rle_trans; [exact E2|].
  assert (QQ : Rabs (om * s) = 2 * Rabs H).
  { unfold H, Rdiv. rewrite (Rabs_mult (om * s) (/ 2)), (Rabs_pos_eq (/ 2)) by lra. lra. }
  rewrite QQ. assert (Tt := proj2 t_tiny).
  assert (0 <= u * Rabs d0) by (apply Rmult_le_pos; [lra|apply Rabs_pos]).
  assert (0 <= u * Rabs r) by (apply Rmult_le_pos; [lra|apply Rabs_pos]).
  replace (16 * u * (Rabs r + Rabs d0 + Rabs s * (1 + Rabs ph + 2 * Rabs H)))
    with (16 * (u * Rabs r) + 16 * (u * Rabs d0) + 16 * (u * Rabs s) + 16 * (u * Rabs s * Rabs ph) + 32 * (u * Rabs s * Rabs H)) by ring.
  lra.
Qed.

Lemma size_pca g r : Rabs g <= 1 -> Rabs (g * d0 + r) <= Rabs d0 + Rabs r.
Proof. intros G. eapply Rle_trans; [apply Rabs_triang|]. assert (W := leg_size g d0 G). lra. Qed.

Lemma X_err : exists v, calculateXfromS_d L s hp rp = Ok v /\
  Rabs (v - calculateXfromS s hp rp) <= 16 * u * (Rabs (vx rp) + Rabs d0 + Rabs s * (1 + Rabs ph + Rabs (om * s))) + tiny.
Proof.
  destruct X0_err as (p' & R0 & M0 & E0). destruct half_err as (R1 & R2 & _). destruct q_err as (R3 & _).
  destruct chord_err as (R4 & _). destruct mid_err as (R5 & D5 & E5).
  assert (Ef := cos_err L thd (ph - H) _ HL D5 E5). fold u eta in Ef.
  destruct (end_err _ _ _ _ (vx rp) M0 E0 (size_pca _ _ (sin_1 _)) Ef (cos_size L thd HL D5) (cos_1 _)) as (R6 & R7 & E7).
  eexists. unfold calculateXfromS_d. rewrite R0. cbn [bind]. fold om ph.
  unfold calculateXfromS, calculateCurvature, calculatePhi0. fold om ph.
  destruct (Req_EM_T om 0) as [Z|_]; [elim om_nz; auto|].
  rewrite R3. cbn [bind]. rewrite R1. cbn [bind]. rewrite R2. cbn [bind]. rewrite R4. cbn [bind]. rewrite R5. cbn [bind].
  rewrite R6. cbn [bind]. rewrite R7. split; [reflexivity|exact E7].
Qed.
Lemma Y_err : exists v, calculateYfromS_d L s hp rp = Ok v /\
  Rabs (v - calculateYfromS s hp rp) <= 16 * u * (Rabs (vy rp) + Rabs d0 + Rabs s * (1 + Rabs ph + Rabs (om * s))) + tiny.
Proof.
  destruct Y0_err as (p' & R0 & M0 & E0). destruct half_err as (R1 & R2 & _). destruct q_err as (R3 & _).
  destruct chord_err as (R4 & _). destruct mid_err as (R5 & D5 & E5).
  assert (Ef := sin_err L thd (ph - H) _ HL D5 E5). fold u eta in Ef.
  destruct (end_err _ _ _ _ (vy rp) M0 E0 (size_pca _ _ (cos_1 _)) Ef (sin_size L thd HL D5) (sin_1 _)) as (R6 & R7 & E7).
  eexists. unfold calculateYfromS_d. rewrite R0. cbn [bind]. fold om ph.
  unfold calculateYfromS, calculateCurvature, calculatePhi0. fold om ph.
  destruct (Req_EM_T om 0) as [Z|_]; [elim om_nz; auto|].
  rewrite R3. cbn [bind]. rewrite R1. cbn [bind]. rewrite R2. cbn [bind]. rewrite R4. cbn [bind]. rewrite R5. cbn [bind].
  rewrite R6. cbn [bind]. rewrite R7. split; [reflexivity|exact E7].
Qed.

(** ** z *)
Lemma z_err : exists a b v, rd (hp Z0 + vz rp) = Ok a /\ rd (s * hp TANL) = Ok b /\ rd (a + b) = Ok v
  /\ Rabs (v - (hp Z0 + vz rp + s * hp TANL)) <= 4 * u * (Rabs (vz rp) + Rabs (hp Z0) + Rabs (s * hp TANL)) + tiny.
Proof.
  assert (U := u_small). fold u in U. assert (T := proj1 t_tiny). assert (Tt := proj2 t_tiny). assert (E1 := eta_1).
  destruct (plus_err _ _ _ _ _ _ _ _ 200 (same_err (hp Z0)) (same_err (vz rp)) (m_hp Z0) m_z ltac:(lia) (Rle_refl _) (Rle_refl _)) as (R1 & M1 & E2).
  assert (M2 : mag (s * hp TANL) 400) by (apply (mag_mul _ _ 200 200); [apply m_s|apply m_hp]).
  assert (R2 := mag_rd _ 400 ltac:(lia) M2). assert (E3 := rnd_err (s * hp TANL)). fold u eta in E3.
  destruct (plus_err _ _ _ _ _ _ _ _ 400 E2 E3 (mag_le _ 201 400 M1 ltac:(lia)) (mag_rnd _ 400 ltac:(lia) M2) ltac:(lia) (Rabs_triang _ _) (Rle_refl _)) as (R3 & _ & E4).
  do 3 eexists. split; [exact R1|]. split; [exact R2|]. split; [exact R3|]. eapply Rle_trans; [exact E4|].
  assert (0 <= u * Rabs (hp Z0)) by (apply Rmult_le_pos; [lra|apply Rabs_pos]).
  assert (0 <= u * Rabs (vz rp)) by (apply Rmult_le_pos; [lra|apply Rabs_pos]).
  assert (0 <= u * Rabs (s * hp TANL)) by (apply Rmult_le_pos; [lra|apply Rabs_pos]). lra.
Qed.

(** ** pointAt *)
Let C := s * om.
Let K := 1 / om.
Let cd := rnd (s * om).
Let ed := rnd (ph - cd).
Let kd := rnd (1 / om).

Lemma angle_err : rd (s * om) = Ok cd /\ rd (ph - cd) = Ok ed /\ is_double ed
  /\ Rabs (ed - (ph - C)) <= u * (Rabs ph + 21 / 10 * Rabs C) + 3 * eta.
Proof.
  assert (U := u_small). fold u in U. assert (E1 := eta_1).
  assert (M : mag (s * om) 400) by (apply (mag_mul _ _ 200 200); [apply m_s|apply m_hp]).
  assert (Mc : mag cd 400) by (apply mag_rnd; [lia|auto]).
  assert (M2 : mag (ph - cd) (400 + 1)) by (apply mag_sub; auto; apply (mag_le _ 200); [apply m_hp|lia]).
  split; [apply (mag_rd _ 400); [lia|auto]|]. split; [apply (mag_rd _ 401); [lia|auto]|]. split; [apply rnd_double|].
  assert (Ec : Rabs (cd - C) <= u * Rabs C + eta) by apply rnd_err.
  assert (W := rnd_step _ _ _ (sub_err _ _ _ _ _ _ (same_err ph) Ec)). fold u eta ed in W.
  assert (T : Rabs (ph - C) <= Rabs ph + Rabs C).
  { unfold Rminus. eapply Rle_trans; [apply Rabs_triang|]. rewrite Rabs_Ropp. lra. }
  assert (u * Rabs (ph - C) <= u * (Rabs ph + Rabs C)) by (apply Rmult_le_compat_l; lra).
  assert (P := Rabs_pos C). assert (0 <= u * Rabs C) by (apply Rmult_le_pos; lra). lra.
Qed.

Lemma k_err : rd_div 1 om = Ok kd /\ mag kd 200 /\ Rabs (kd - K) <= u * Rabs K + eta /\ mag K 200.
Proof.
  assert (MK : mag K 200) by (unfold K, Rdiv; rewrite Rmult_1_l; apply m_inv).
  unfold rd_div. destruct (Req_EM_T om 0) as [Z|_]; [elim om_nz; auto|].
  split; [apply (mag_rd _ 200); [lia|apply MK]|]. split; [apply mag_rnd; [lia|apply MK]|]. split; [apply rnd_err|auto].
Qed.

(** the arc: [1/omega] times the difference of two entries *)
Lemma arc_err f g f' g' p p' r : mag p' 203 -> Rabs (p' - p) <= u * (42 / 10 * Rabs d0 + Rabs r) + 5 * t -> Rabs p <= Rabs d0 + Rabs r ->
  Rabs (f - g) <= 2 * u + eta -> Rabs f <= 1001 / 1000 -> Rabs g <= 1 ->
  Rabs (f' - g') <= 2 * u + eta + (u * (Rabs ph + 21 / 10 * Rabs C) + 3 * eta) -> Rabs f' <= 1001 / 1000 -> Rabs g' <= 1 ->
  let d := rnd (f - f') in let a := rnd (kd * d) in
  rd (f - f') = Ok d /\ rd (kd * d) = Ok a /\
  (exists v, rd (p' + a) = Ok v /\
     Rabs (v - (p + K * (g - g'))) <= 16 * u * (Rabs r + Rabs d0 + (1 + Rabs ph + Rabs C) * Rabs K) + tiny) /\
  (exists v, rd (p' - a) = Ok v /\
     Rabs (v - (p - K * (g - g'))) <= 16 * u * (Rabs r + Rabs d0 + (1 + Rabs ph + Rabs C) * Rabs K) + tiny).
Proof.
  intros Mp Ep Sp Ef Sf Sg Ef' Sf' Sg' d a. assert (U := u_small). fold u in U. assert (E1 := eta_1). assert (T := proj1 t_tiny). assert (Tt := proj2 t_tiny).
  destruct k_err as (_ & Mk & Ek & MK).
  assert (Mf : mag (f - f') (1 + 1)) by (apply mag_sub; apply mag_1; auto). change (1 + 1)%Z with 2%Z in Mf.
  assert (Md : mag d 2) by (apply mag_rnd; [lia|auto]).
  assert (Mm : mag (kd * d) 202) by (apply (mag_mul _ _ 200 2); auto).
  assert (Ma : mag a 202) by (apply mag_rnd; [lia|auto]).
  split; [apply (mag_rd _ 2); [lia|auto]|]. split; [apply (mag_rd _ 202); [lia|auto]|].
  assert (Pp := Rabs_pos ph). assert (PC := Rabs_pos C). assert (PK := Rabs_pos K).
  assert (UP : 0 <= u * Rabs ph) by (apply Rmult_le_pos; lra). assert (UC : 0 <= u * Rabs C) by (apply Rmult_le_pos; lra).
  assert (Ed := rnd_step _ _ _ (sub_err _ _ _ _ _ _ Ef Ef')). fold u eta d in Ed.
  assert (Sg2 : Rabs (g - g') <= 2) by (unfold Rminus; eapply Rle_trans; [apply Rabs_triang|]; rewrite Rabs_Ropp; lra).
  assert (u * Rabs (g - g') <= u * 2) by (apply Rmult_le_compat_l; lra).
  assert (Ed' : Rabs (d - (g - g')) <= 61 / 10 * u + 11 / 10 * (u * Rabs ph) + 22 / 10 * (u * Rabs C) + 7 * eta) by lra.
  assert (Sd : Rabs d <= 4) by exact Md.
  assert (Em := mul_err _ _ _ _ _ _ _ _ Ek Ed' (Rle_refl _) Sd).
  assert (EK := eta_t K 200 MK ltac:(lia)).
  assert (UK : 0 <= u * Rabs K) by (apply Rmult_le_pos; lra).
  assert (UKP : 0 <= u * Rabs K * Rabs ph) by (apply Rmult_le_pos; lra).
  assert (UKC : 0 <= u * Rabs K * Rabs C) by (apply Rmult_le_pos; lra).
  assert (Em' : Rabs (kd * d - K * (g - g')) <= 101 / 10 * (u * Rabs K) + 11 / 10 * (u * Rabs K * Rabs ph) + 22 / 10 * (u * Rabs K * Rabs C) + 11 * t).
  { eapply Rle_trans; [exact Em|].
    replace (Rabs K * (61 / 10 * u + 11 / 10 * (u * Rabs ph) + 22 / 10 * (u * Rabs C) + 7 * eta))
      with (61 / 10 * (u * Rabs K) + 11 / 10 * (u * Rabs K * Rabs ph) + 22 / 10 * (u * Rabs K * Rabs C) + 7 * (eta * Rabs K)) by field. lra. }
  assert (Sk : Rabs (K * (g - g')) <= 2 * Rabs K) by (rewrite Rabs_mult; assert (W := Rmult_le_compat_l _ _ _ PK Sg2); lra).
  assert (u * Rabs (K * (g - g')) <= u * (2 * Rabs K)) by (apply Rmult_le_compat_l; lra).
  assert (Ea := rnd_step _ _ _ Em'). fold u eta a in Ea.
  assert (Ea' : Rabs (a - K * (g - g')) <= 122 / 10 * (u * Rabs K) + 12 / 10 * (u * Rabs K * Rabs ph) + 23 / 10 * (u * Rabs K * Rabs C) + 13 * t) by lra.
  assert (Ud : 0 <= u * Rabs d0) by (apply Rmult_le_pos; [lra|apply Rabs_pos]).
  assert (Ur : 0 <= u * Rabs r) by (apply Rmult_le_pos; [lra|apply Rabs_pos]).
  assert (F : forall e, e <= 1001 / 1000 * (u * (42 / 10 * Rabs d0 + Rabs r) + 5 * t + (122 / 10 * (u * Rabs K) + 12 / 10 * (u * Rabs K * Rabs ph) + 23 / 10 * (u * Rabs K * Rabs C) + 13 * t)) + u * (Rabs d0 + Rabs r + 2 * Rabs K) + t ->
    e <= 16 * u * (Rabs r + Rabs d0 + (1 + Rabs ph + Rabs C) * Rabs K) + tiny).
  { intros e He. replace (16 * u * (Rabs r + Rabs d0 + (1 + Rabs ph + Rabs C) * Rabs K))
      with (16 * (u * Rabs r) + 16 * (u * Rabs d0) + 16 * (u * Rabs K) + 16 * (u * Rabs K * Rabs ph) + 16 * (u * Rabs K * Rabs C)) by ring. lra. }
  split.
  - destruct (plus_err p' p _ _ _ _ _ _ 203 Ep Ea' Mp (mag_le _ 202 203 Ma ltac:(lia)) ltac:(lia) Sp Sk) as (R2 & _ & E2).
    eexists. split; [exact R2|]. apply F. exact E2.
  - assert (Eo : Rabs (- a - - (K * (g - g'))) <= 122 / 10 * (u * Rabs K) + 12 / 10 * (u * Rabs K * Rabs ph) + 23 / 10 * (u * Rabs K * Rabs C) + 13 * t).
    { replace (- a - - (K * (g - g'))) with (- (a - K * (g - g'))) by ring. rewrite Rabs_Ropp. exact Ea'. }
    assert (So : Rabs (- (K * (g - g'))) <= 2 * Rabs K) by (rewrite Rabs_Ropp; exact Sk).
    destruct (plus_err p' p _ _ _ _ _ _ 203 Ep Eo Mp (mag_opp _ _ (mag_le _ 202 203 Ma ltac:(lia))) ltac:(lia) Sp So) as (R2 & _ & E2).
    eexists. split; [exact R2|]. apply F. exact E2.
Qed.

Lemma point_err : exists v, pointAt_d L s hp rp = Ok v /\ forall w, pointAt s hp rp = Ok w ->
  Rabs (vx v - vx w) <= 16 * u * (Rabs (vx rp) + Rabs d0 + (1 + Rabs ph + Rabs C) * Rabs K) + tiny /\
  Rabs (vy v - vy w) <= 16 * u * (Rabs (vy rp) + Rabs d0 + (1 + Rabs ph + Rabs C) * Rabs K) + tiny /\
  Rabs (vz v - vz w) <= 4 * u * (Rabs (vz rp) + Rabs (hp Z0) + Rabs (s * hp TANL)) + tiny.
Proof.
  assert (U := u_small). fold u in U. assert (T := proj1 t_tiny).
  destruct angle_err as (R1 & R2 & De & Ee). destruct k_err as (R3 & _). destruct z_err as (za & zb & z & Z1 & Z2 & Z3 & Ez).
  destruct (sin_at _ (d_hp PHI0)) as [As Bs]. destruct (cos_at _ (d_hp PHI0)) as [Ac Bc].
  destruct (leg_err _ _ d0 As Bs (sin_1 _) (m_hp D0)) as (L1 & ML1 & EL1).
  destruct (leg_err _ _ d0 Ac Bc (cos_1 _) (m_hp D0)) as (L2 & ML2 & EL2).
  assert (EL1' : Rabs (- rnd (m_sin L (hp PHI0) * d0) - - (sin (hp PHI0) * d0)) <= u * (31 / 10 * Rabs d0) + 3 * t).
  { replace (- rnd (m_sin L (hp PHI0) * d0) - - (sin (hp PHI0) * d0)) with (- (rnd (m_sin L (hp PHI0) * d0) - sin (hp PHI0) * d0)) by ring.
    rewrite Rabs_Ropp. exact EL1. }
  assert (S1 : Rabs (- (sin (hp PHI0) * d0)) <= Rabs d0) by (rewrite Rabs_Ropp; apply leg_size, sin_1).
  destruct (plus_err _ _ _ _ _ _ _ _ 201 (same_err (vx rp)) EL1' (mag_le _ 200 201 m_x ltac:(lia)) (mag_opp _ _ ML1) ltac:(lia) (Rle_refl _) S1) as (P1 & MP1 & EP1).
  destruct (plus_err _ _ _ _ _ _ _ _ 201 (same_err (vy rp)) EL2 (mag_le _ 200 201 m_y ltac:(lia)) ML2 ltac:(lia) (Rle_refl _) (leg_size _ d0 (cos_1 _))) as (P2 & MP2 & EP2).
  assert (Es := sin_err L ed (ph - C) _ HL De Ee). assert (Ec := cos_err L ed (ph - C) _ HL De Ee). fold u eta in Es, Ec.
  assert (Ud : 0 <= u * Rabs d0) by (apply Rmult_le_pos; [lra|apply Rabs_pos]).
  assert (Ux : 0 <= u * Rabs (vx rp)) by (apply Rmult_le_pos; [lra|apply Rabs_pos]).
  assert (Uy : 0 <= u * Rabs (vy rp)) by (apply Rmult_le_pos; [lra|apply Rabs_pos]).
  destruct (arc_err _ _ _ _ (vx rp + - (sin (hp PHI0) * d0)) _ (vx rp) (mag_le _ 202 203 MP1 ltac:(lia)) ltac:(eapply Rle_trans; [exact EP1|lra])
    ltac:(eapply Rle_trans; [apply Rabs_triang|lra]) As Bs (sin_1 _) Es (sin_size L ed HL De) (sin_1 _)) as (A1 & A2 & (x & X1 & X2) & _).
  destruct (arc_err _ _ _ _ (vy rp + cos (hp PHI0) * d0) _ (vy rp) (mag_le _ 202 203 MP2 ltac:(lia)) ltac:(eapply Rle_trans; [exact EP2|lra])
    ltac:(eapply Rle_trans; [apply Rabs_triang|generalize (leg_size _ d0 (cos_1 (hp PHI0))); lra]) Ac Bc (cos_1 _) Ec (cos_size L ed HL De) (cos_1 _)) as (B1 & B2 & _ & (y & Y1 & Y2)).
  exists (V3 x y z). split.
  - unfold pointAt_d. fold om ph d0. rewrite R3. cbn [bind]. rewrite R1. cbn [bind]. rewrite R2. cbn [bind].
    rewrite (Rmult_comm d0 (m_sin L ph)). fold ph in L1, L2. rewrite L1. cbn [bind]. fold ph in P1, P2. unfold Rminus in P1 |- * at 1.
    fold ph in A1, A2, X1, B1, B2, Y1.
    rewrite P1. cbn [bind]. rewrite A1. cbn [bind]. rewrite A2. cbn [bind]. rewrite X1. cbn [bind].
    rewrite (Rmult_comm d0 (m_cos L ph)), L2. cbn [bind]. rewrite P2. cbn [bind]. rewrite B1. cbn [bind]. rewrite B2. cbn [bind]. rewrite Y1. cbn [bind].
    rewrite (Rplus_comm (vz rp)), Z1. cbn [bind]. rewrite Z2. cbn [bind]. rewrite Z3. reflexivity.
  - intros w Hw. unfold pointAt, rdiv, calculateOmega in Hw. fold om in Hw. destruct (Req_EM_T om 0) as [Z|_]; [elim om_nz; auto|].
    cbn [bind] in Hw. injection Hw as <-. cbn [vx vy vz]. unfold calculatePhi0, calculateTanLambda, calculateD0, calculateZ0. fold ph d0 om K C.
    fold ph in X2, Y2.
    split; [|split].
    + replace (vx rp - d0 * sin ph + K * (sin ph - sin (ph - C))) with (vx rp + - (sin ph * d0) + K * (sin ph - sin (ph - C))) by ring. exact X2.
    + replace (vy rp + d0 * cos ph - K * (cos ph - cos (ph - C))) with (vy rp + cos ph * d0 - K * (cos ph - cos (ph - C))) by ring. exact Y2.
    + rewrite (Rplus_comm (vz rp)). exact Ez.
Qed.
End R.

(** ** directions *)
Lemma atan_2 a : Rabs (atan a) <= 2.
Proof. generalize (atan_bound a), PI_4. intros. apply Rabs_le. lra. Qed.

Lemma least_u : least <= uround / 1000000.
Proof. generalize t_u, eta_1. lra. Qed.

(** products of two entries *)
Lemma entry_err f g f' g' e e' : Rabs (f - g) <= e -> Rabs (f' - g') <= e' -> Rabs f' <= 1001 / 1000 -> Rabs g <= 1 -> Rabs g' <= 1 ->
  Rabs (rnd (f * f') - g * g') <= 101 / 100 * e + 101 / 100 * e' + uround + least.
Proof.
  intros E E' F G G'. assert (U := u_small). assert (Em := mul_err _ _ _ _ _ _ _ _ E E' G F).
  assert (W := rnd_step _ _ _ Em).
  assert (Rabs (g * g') <= 1). { rewrite Rabs_mult. rewrite <- (Rmult_1_r 1). apply Rmult_le_compat; auto using Rabs_pos. }
  assert (uround * Rabs (g * g') <= uround * 1) by (apply Rmult_le_compat_l; lra).
  assert (0 <= e) by (eapply Rle_trans; [apply Rabs_pos|exact E]).
  assert (0 <= e') by (eapply Rle_trans; [apply Rabs_pos|exact E']). lra.
Qed.

Lemma lambda_err L x : accurate L -> is_double x ->
  is_double (m_atan L x) /\ Rabs (m_cos L (m_atan L x) - cos (atan x)) <= 7 * uround /\ Rabs (m_sin L (m_atan L x) - sin (atan x)) <= 7 * uround
  /\ Rabs (m_cos L (m_atan L x)) <= 1001 / 1000.
Proof.
  intros HL D. assert (U := u_small). assert (LU := least_u). destruct HL as (A1 & A2 & A3). destruct (A3 x D) as [Dl El].
  assert (HL : accurate L) by (split; [|split]; auto). assert (B := atan_2 x).
  assert (2 * uround * Rabs (atan x) <= 2 * uround * 2) by (apply Rmult_le_compat_l; lra).
  assert (El' : Rabs (m_atan L x - atan x) <= 41 / 10 * uround) by lra.
  split; [exact Dl|]. assert (W := cos_err L _ _ _ HL Dl El'). assert (W2 := sin_err L _ _ _ HL Dl El').
  split; [lra|]. split; [lra|]. apply cos_size; auto.
Qed.

Lemma tangent_err L s hp : accurate L -> moderate s -> (forall i, moderate (hp i)) ->
  exists v, calculateTangent_d L s hp = Ok v /\
  Rabs (vx v - vx (calculateTangent s hp)) <= 16 * uround * (1 + Rabs (hp PHI0) + Rabs (hp OMEGA * s)) /\
  Rabs (vy v - vy (calculateTangent s hp)) <= 16 * uround * (1 + Rabs (hp PHI0) + Rabs (hp OMEGA * s)) /\
  Rabs (vz v - vz (calculateTangent s hp)) <= 7 * uround.
Proof.
  intros HL [Ds Ms] Hh. assert (U := u_small). assert (LU := least_u). assert (L0 := least_pos).
  set (C := hp OMEGA * s). set (ph := hp PHI0). set (cd := rnd C). set (th := rnd (ph - cd)).
  assert (MC : mag C 400) by (apply (mag_mul _ _ 200 200); [apply (Hh OMEGA)|exact Ms]).
  assert (Mc : mag cd 400) by (apply mag_rnd; [lia|auto]).
  assert (M2 : mag (ph - cd) (400 + 1)) by (apply mag_sub; auto; apply (mag_le _ 200); [apply (Hh PHI0)|lia]).
  assert (Ec : Rabs (cd - C) <= uround * Rabs C + least) by apply rnd_err.
  assert (W := rnd_step _ _ _ (sub_err _ _ _ _ _ _ (same_err ph) Ec)). fold th in W.
  assert (T : Rabs (ph - C) <= Rabs ph + Rabs C).
  { unfold Rminus. eapply Rle_trans; [apply Rabs_triang|]. rewrite Rabs_Ropp. lra. }
  assert (uround * Rabs (ph - C) <= uround * (Rabs ph + Rabs C)) by (apply Rmult_le_compat_l; lra).
  assert (P := Rabs_pos C). assert (UC : 0 <= uround * Rabs C) by (apply Rmult_le_pos; lra).
  assert (Pp := Rabs_pos ph). assert (UP : 0 <= uround * Rabs ph) by (apply Rmult_le_pos; lra).
  assert (Et : Rabs (th - (ph - C)) <= uround * Rabs ph + 21 / 10 * (uround * Rabs C) + 3 * least) by lra.
  assert (Dt : is_double th) by apply rnd_double.
  assert (E1 := cos_err L _ _ _ HL Dt Et). assert (E2 := sin_err L _ _ _ HL Dt Et).
  destruct (lambda_err L (hp TANL) HL (proj1 (Hh TANL))) as (Dl & El & Em & Sl).
  assert (F1 := entry_err _ _ _ _ _ _ E1 El Sl (cos_1 _) (cos_1 _)). assert (F2 := entry_err _ _ _ _ _ _ E2 El Sl (sin_1 _) (cos_1 _)).
  assert (M3 : mag (m_cos L th * m_cos L (m_atan L (hp TANL))) (1 + 1)) by (apply mag_mul; apply mag_1; [apply cos_size; auto|exact Sl]).
  assert (M4 : mag (m_sin L th * m_cos L (m_atan L (hp TANL))) (1 + 1)) by (apply mag_mul; apply mag_1; [apply sin_size; auto|exact Sl]).
  eexists. split.
  - unfold calculateTangent_d. fold C ph. rewrite (mag_rd _ 400 ltac:(lia) MC). cbn [bind]. fold cd.
    rewrite (mag_rd _ 401 ltac:(lia) M2). cbn [bind]. fold th. rewrite (mag_rd _ 2 ltac:(lia) M3). cbn [bind].
    rewrite (mag_rd _ 2 ltac:(lia) M4). reflexivity.
  - unfold calculateTangent, calculateCurvature, calculatePhi0, calculateLambda. cbn [vx vy vz]. fold C ph.
    split; [|split].
    + change (atan (calculateTanLambda hp)) with (atan (hp TANL)). lra.
    + change (atan (calculateTanLambda hp)) with (atan (hp TANL)). lra.
    + exact Em.
Qed.

(** the norm is right whatever the angle *)
Lemma tangent_norm L s hp v : accurate L -> (forall i, is_double (hp i)) -> calculateTangent_d L s hp = Ok v ->
  Rabs (vx v * vx v + vy v * vy v + vz v * vz v - 1) <= 32 * uround.
Proof.
  intros HL Hd. unfold calculateTangent_d.
  destruct (rd (hp OMEGA * s)) as [c| | | |] eqn:Ec; cbn [bind]; try discriminate.
  destruct (rd (hp PHI0 - c)) as [th| | | |] eqn:Et; cbn [bind]; try discriminate.
  set (l := m_atan L (hp TANL)).
  destruct (rd (m_cos L th * m_cos L l)) as [t0| | | |] eqn:E0; cbn [bind]; try discriminate.
  destruct (rd (m_sin L th * m_cos L l)) as [t1| | | |] eqn:E1; cbn [bind]; try discriminate.
  intros Hv. injection Hv as <-. cbn [vx vy vz].
  apply rd_spec in Et, E0, E1. assert (U := u_small). assert (LU := least_u). assert (L0 := least_pos).
  assert (Dt : is_double th) by (rewrite Et; apply rnd_double).
  assert (Dl : is_double l) by (destruct HL as (_ & _ & A); apply A; auto).
  assert (C1 := cos_err L th th 0 HL Dt (same_err th)). assert (S1 := sin_err L th th 0 HL Dt (same_err th)).
  assert (C2 := cos_err L l l 0 HL Dl (same_err l)). assert (S2 := sin_err L l l 0 HL Dl (same_err l)).
  assert (F0 := entry_err _ _ _ _ _ _ C1 C2 (cos_size L l HL Dl) (cos_1 _) (cos_1 _)).
  assert (F1 := entry_err _ _ _ _ _ _ S1 C2 (cos_size L l HL Dl) (sin_1 _) (cos_1 _)).
  rewrite <- E0 in F0. rewrite <- E1 in F1.
  assert (Q1 := sin2_cos2 th). assert (Q2 := sin2_cos2 l). unfold Rsqr in Q1, Q2.
  set (x := cos th * cos l) in *. set (y := sin th * cos l) in *. set (z := sin l) in *.
  assert (N : x * x + y * y + z * z = 1).
  { replace (x * x + y * y) with ((sin th * sin th + cos th * cos th) * (cos l * cos l)) by (unfold x, y; ring). rewrite Q1, Rmult_1_l, Rplus_comm. exact Q2. }
  assert (B : forall a b e, Rabs (a - b) <= e -> Rabs b <= 1 -> 0 <= e <= / 1000 -> Rabs (a * a - b * b) <= 201 / 100 * e).
  { intros a b e Hab Hb He. replace (a * a - b * b) with ((a - b) * (a + b)) by ring. rewrite Rabs_mult.
    assert (Rabs (a + b) <= 2001 / 1000).
    { replace (a + b) with ((a - b) + 2 * b) by ring. eapply Rle_trans; [apply Rabs_triang|]. rewrite Rabs_mult, (Rabs_pos_eq 2) by lra. lra. }
    apply Rle_trans with (e * (2001 / 1000)); [apply Rmult_le_compat; auto using Rabs_pos|lra]. }
  assert (sx : Rabs x <= 1) by (unfold x; rewrite Rabs_mult; rewrite <- (Rmult_1_r 1); apply Rmult_le_compat; auto using Rabs_pos, cos_1).
  assert (sy : Rabs y <= 1) by (unfold y; rewrite Rabs_mult; rewrite <- (Rmult_1_r 1); apply Rmult_le_compat; auto using Rabs_pos, cos_1, sin_1).
  assert (sz : Rabs z <= 1) by apply sin_1. clearbody x y z.
  assert (B0 := B t0 x (52 / 10 * uround) ltac:(lra) sx ltac:(lra)).
  assert (B1 := B t1 y (52 / 10 * uround) ltac:(lra) sy ltac:(lra)).
  assert (B2 := B (m_sin L l) z (21 / 10 * uround) ltac:(lra) sz ltac:(lra)).
  rewrite <- N. replace (t0 * t0 + t1 * t1 + m_sin L l * m_sin L l - (x * x + y * y + z * z)) with ((t0 * t0 - x * x) + (t1 * t1 - y * y) + (m_sin L l * m_sin L l - z * z)) by ring.
  eapply Rle_trans; [apply Rabs_triang|]. assert (W := Rabs_triang (t0 * t0 - x * x) (t1 * t1 - y * y)). lra.
Qed.

(** ** angles that do not move *)
Lemma rnd_le2 x : Rabs (rnd x) <= 2 * Rabs x.
Proof.
  assert (G := round_N_pt radix2 fexp64 (fun x => negb (Z.even x)) x). destruct G as [_ G].
  specialize (G 0 (generic_format_0 _ _)). fold (rnd x) in G.
  replace (0 - x) with (- x) in G by ring. rewrite Rabs_Ropp in G. change (round radix2 fexp64 (Znearest (fun x0 => negb (Z.even x0))) x) with (rnd x) in G.
  assert (W := near_size _ _ _ G). lra.
Qed.

Global Instance prec53 : Prec_gt_0 53.
Proof. reflexivity. Qed.

Lemma gap_pos f g : is_double f -> is_double g -> 0 < f -> f <> g -> bpow radix2 (-54) * f <= Rabs (g - f).
Proof.
  intros Hf Hg P N.
  assert (B54 : bpow radix2 (-53) = 2 * bpow radix2 (-54)) by (rewrite <- bpow_S; reflexivity).
  assert (B0 := bpow_gt_0 radix2 (-54)).
  assert (B1 : bpow radix2 (-54) <= / 4) by (apply (bpow_le radix2 (-54) (-2)); lia).
  destruct (Rlt_dec f g) as [Lt|Ge].
  - assert (S := succ_le_lt radix2 fexp64 f g Hf Hg Lt). rewrite succ_eq_pos in S by lra.
    assert (Ug := ulp_FLT_gt radix2 (-1074) 53 f).
    rewrite Rabs_pos_eq in Ug |- * by lra. change (-(53))%Z with (-53)%Z in Ug. nra.
  - assert (Lt : g < f) by lra.
    assert (S := pred_ge_gt radix2 fexp64 g f Hg Hf Lt).
    assert (PP := pred_plus_ulp radix2 fexp64 f ltac:(lra) Hf). assert (P0 := pred_ge_0 radix2 fexp64 f P Hf).
    assert (Ug := ulp_FLT_gt radix2 (-1074) 53 (pred radix2 fexp64 f)). change (-(53))%Z with (-53)%Z in Ug.
    rewrite (Rabs_pos_eq (pred _ _ _)) in Ug by lra. rewrite Rabs_minus_sym, Rabs_pos_eq by lra.
    destruct (Rle_dec (f / 2) (pred radix2 fexp64 f)); nra.
Qed.
Lemma gap f g : is_double f -> is_double g -> f <> g -> bpow radix2 (-54) * Rabs f <= Rabs (g - f).
Proof.
  intros Hf Hg N. destruct (Rtotal_order f 0) as [Lt|[E|Gt]].
  - rewrite (Rabs_left f) by auto. replace (Rabs (g - f)) with (Rabs (- g - - f)) by (rewrite <- Rabs_Ropp; f_equal; ring).
    apply gap_pos; try apply opp_double; auto; lra.
  - subst f. rewrite Rabs_R0, Rmult_0_r. apply Rabs_pos.
  - rewrite (Rabs_pos_eq f) by lra. apply gap_pos; auto.
Qed.

Lemma stuck_angle ph c : is_double ph -> Rabs c <= bpow radix2 (-57) * Rabs ph -> rnd (ph - rnd c) = ph.
Proof.
  intros D H. destruct (Req_dec (rnd (ph - rnd c)) ph) as [E|N]; [exact E|exfalso].
  destruct (Req_dec ph 0) as [Z|NZ].
  { subst ph. rewrite Rabs_R0, Rmult_0_r in H. assert (c = 0). { destruct (Req_dec c 0); auto. assert (0 < Rabs c) by (apply Rabs_pos_lt; auto). lra. }
    subst c. rewrite rnd_0, Rminus_0_r, rnd_0 in N. auto. }
  assert (R2 := rnd_le2 c). set (d := rnd c) in *.
  assert (G := round_N_pt radix2 fexp64 (fun x => negb (Z.even x)) (ph - d)). destruct G as [_ G].
  specialize (G ph D). change (round radix2 fexp64 (Znearest (fun x0 => negb (Z.even x0))) (ph - d)) with (rnd (ph - d)) in G.
  replace (ph - (ph - d)) with d in G by ring.
  assert (T : Rabs (rnd (ph - d) - ph) <= 2 * Rabs d).
  { replace (rnd (ph - d) - ph) with ((rnd (ph - d) - (ph - d)) + - d) by ring. eapply Rle_trans; [apply Rabs_triang|]. rewrite Rabs_Ropp. lra. }
  assert (W := gap ph (rnd (ph - d)) D (rnd_double _) (fun e => N (eq_sym e))).
  assert (B54 : bpow radix2 (-54) = 8 * bpow radix2 (-57)).
  { replace (-54)%Z with (-57 + 3)%Z by reflexivity. rewrite bpow_plus. change (bpow radix2 3) with 8. ring. }
  assert (B0 := bpow_gt_0 radix2 (-57)). assert (0 < Rabs ph) by (apply Rabs_pos_lt; auto).
  assert (0 < bpow radix2 (-57) * Rabs ph) by (apply Rmult_lt_0_compat; auto). rewrite B54 in W. lra.
Qed.

Lemma rd_0 : rd 0 = Ok 0.
Proof. unfold rd. rewrite rnd_0, Rabs_R0. destruct (Rlt_dec 0 (bpow radix2 1024)) as [|N]; auto. elim N. apply bpow_gt_0. Qed.

(** what is returned then: the point of closest approach *)
Lemma stuck_point L s hp rp v : is_double (hp PHI0) ->
  Rabs (s * hp OMEGA) <= bpow radix2 (-57) * Rabs (hp PHI0) -> pointAt_d L s hp rp = Ok v ->
  vx v = rnd (rnd (vx rp - rnd (hp D0 * m_sin L (hp PHI0)))) /\ vy v = rnd (rnd (vy rp + rnd (hp D0 * m_cos L (hp PHI0)))).
Proof.
  intros D H. unfold pointAt_d.
  destruct (rd_div 1 (hp OMEGA)) as [q| | | |]; cbn [bind]; try discriminate.
  destruct (rd (s * hp OMEGA)) as [c| | | |] eqn:Ec; cbn [bind]; try discriminate. apply rd_spec in Ec.
  destruct (rd (hp PHI0 - c)) as [th| | | |] eqn:Et; cbn [bind]; try discriminate. apply rd_spec in Et.
  rewrite Ec, (stuck_angle _ _ D H) in Et. subst th.
  destruct (rd (hp D0 * m_sin L (hp PHI0))) as [a| | | |] eqn:E1; cbn [bind]; try discriminate. apply rd_spec in E1.
  destruct (rd (vx rp - a)) as [a1| | | |] eqn:E2; cbn [bind]; try discriminate. apply rd_spec in E2.
  rewrite (Rminus_diag_eq (m_sin L (hp PHI0))) by reflexivity. rewrite rd_0. cbn [bind]. rewrite Rmult_0_r, rd_0. cbn [bind].
  destruct (rd (a1 + 0)) as [x| | | |] eqn:E3; cbn [bind]; try discriminate. apply rd_spec in E3.
  destruct (rd (hp D0 * m_cos L (hp PHI0))) as [b| | | |] eqn:E4; cbn [bind]; try discriminate. apply rd_spec in E4.
  destruct (rd (vy rp + b)) as [b1| | | |] eqn:E5; cbn [bind]; try discriminate. apply rd_spec in E5.
  rewrite (Rminus_diag_eq (m_cos L (hp PHI0))) by reflexivity. rewrite rd_0. cbn [bind]. rewrite Rmult_0_r, rd_0. cbn [bind].
  destruct (rd (b1 - 0)) as [y| | | |] eqn:E6; cbn [bind]; try discriminate. apply rd_spec in E6.
  destruct (rd (vz rp + hp Z0)) as [z1| | | |]; cbn [bind]; try discriminate.
  destruct (rd (s * hp TANL)) as [z2| | | |]; cbn [bind]; try discriminate.
  destruct (rd (z1 + z2)) as [z| | | |]; cbn [bind]; try discriminate.
  intros Q. injection Q as <-. cbn [vx vy]. rewrite E3, E6, E2, E5, E1, E4, Rplus_0_r, Rminus_0_r. auto.
Qed.
