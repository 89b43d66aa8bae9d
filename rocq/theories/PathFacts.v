(** Proofs about calculateSfromXY (C05, C06). *)
From Coq Require Import Reals Lra Lia ZArith Psatz.
From Coquelicot Require Import Coquelicot.
From Verif Require Import Num NumFacts Vec Helix SpecHelix HelixFacts.
Open Scope R_scope.

Lemma dphi_of_spec phi phi0 :
  (exists k : Z, dphi_of phi phi0 = phi - phi0 + 2 * IZR k * PI)
  /\ (Rabs phi0 <= 2 * PI -> - PI < phi <= PI -> - PI <= dphi_of phi phi0 <= PI)
  /\ (4 * PI <= Rabs phi0 -> - PI < phi <= PI -> PI <= Rabs (dphi_of phi phi0)).
Proof.
  generalize PI_pos; intros HP. unfold dphi_of.
  destruct (Rlt_dec (phi - phi0) (- PI)) as [A|A];
  [|destruct (Rlt_dec PI (phi - phi0)) as [B|B]].
  - split; [exists 1%Z; simpl; ring|]. split.
    + intros H H1. apply Rabs_le_between in H. lra.
    + intros H H1. unfold Rabs in *.
      destruct (Rcase_abs phi0); destruct (Rcase_abs (phi - phi0 + 2 * PI)); lra.
  - split; [exists (-1)%Z; simpl; ring|]. split.
    + intros H H1. apply Rabs_le_between in H. lra.
    + intros H H1. unfold Rabs in *.
      destruct (Rcase_abs phi0); destruct (Rcase_abs (phi - phi0 - 2 * PI)); lra.
  - split; [exists 0%Z; simpl; ring|]. split.
    + lra.
    + intros H H1. unfold Rabs in H.
      destruct (Rcase_abs phi0); lra.
Qed.

Lemma sin_zero_small x : - PI < x < PI -> sin x = 0 -> x = 0.
Proof.
  intros H E. destruct (total_order_T x 0) as [[L|L]|L]; auto.
  - assert (0 < sin (- x)) by (apply sin_gt_0; lra). rewrite sin_neg in H0. lra.
  - assert (0 < sin x) by (apply sin_gt_0; lra). lra.
Qed.

Lemma sin_nonzero x k : - PI < x < PI -> x <> 0 -> sin (x + 2 * IZR k * PI) <> 0.
Proof. intros H Hx. rewrite sin_2kpi. intros E. apply Hx, sin_zero_small; auto. Qed.

(** exact value of the function on points of the curve *)
Lemma SfromXY_hcurve hp rp s : hp OMEGA <> 0 ->
  exists k : Z,
    (let dphi := - (s * hp OMEGA) + 2 * IZR k * PI in
     calculateSfromXY (vx (hcurve hp rp s)) (vy (hcurve hp rp s)) hp rp
     = (if Req_EM_T dphi 0 then Ok 0
        else rdiv (sin (s * hp OMEGA) / hp OMEGA * dphi) (sin dphi)))
    /\ (Rabs (hp PHI0) <= 2 * PI -> - PI <= - (s * hp OMEGA) + 2 * IZR k * PI <= PI)
    /\ (4 * PI <= Rabs (hp PHI0) -> - PI < s * hp OMEGA < PI ->
        k <> 0%Z).
Proof.
  intros H. set (om := hp OMEGA). set (p := hp PHI0).
  set (th := p - s * om).
  assert (Eph : exists m : Z, atan2 (sin th) (cos th) = th + 2 * IZR m * PI).
  { destruct (atan2_mod 1 th Rlt_0_1) as [m Hm]. exists m.
    rewrite !Rmult_1_l in Hm. exact Hm. }
  destruct Eph as [m Hm].
  destruct (dphi_of_spec (atan2 (sin th) (cos th)) p) as ((k & Hk) & R1 & R2).
  exists (k + m)%Z.
  assert (Ed : dphi_of (atan2 (sin th) (cos th)) p = - (s * om) + 2 * IZR (k + m) * PI).
  { rewrite Hk, Hm, plus_IZR. unfold th. ring. }
  split; [|split].
  - cbv zeta. rewrite <- Ed.
    unfold calculateSfromXY, calculatePhi0, calculateD0, calculateCurvature.
    fold om p.
    assert (E1 : sin p - om * (vx (hcurve hp rp s) - (vx rp - sin p * hp D0)) = sin th).
    { unfold hcurve; simpl. fold om p th. field. exact H. }
    assert (E2 : cos p + om * (vy (hcurve hp rp s) - (vy rp + cos p * hp D0)) = cos th).
    { unfold hcurve; simpl. fold om p th. field. exact H. }
    assert (E3 : (vx (hcurve hp rp s) - (vx rp - sin p * hp D0)) * cos p
                 + (vy (hcurve hp rp s) - (vy rp + cos p * hp D0)) * sin p
                 = sin (s * om) / om).
    { unfold hcurve; simpl. fold om p th. unfold th. rewrite sin_minus, cos_minus.
      generalize (sc1 p); intros Hp.
      transitivity (1 / om * sin (s * om) * (sin p * sin p + cos p * cos p)); [ring|].
      rewrite Hp. field. exact H. }
    rewrite E1, E2, E3. reflexivity.
  - intros Hp. rewrite <- Ed. apply R1; auto. apply atan2_range.
  - intros Hp Hs.
    intros Ek. rewrite Ek in Ed.
    specialize (R2 Hp (atan2_range _ _)). rewrite Ed in R2.
    replace (- (s * om) + 2 * 0 * PI) with (- (s * om)) in R2 by ring.
    rewrite Rabs_Ropp in R2.
    assert (Rabs (s * om) < PI) by (apply Rabs_def1; lra). lra.
Qed.

Lemma wrap_zero_k t k : - PI < t < PI -> - PI <= - t + 2 * IZR k * PI <= PI -> k = 0%Z.
Proof.
  intros Ht Hk. generalize PI_pos; intros HP.
  assert (HK : IZR (-1) < IZR k < IZR 1).
  { split.
    - apply Rmult_lt_reg_l with (2 * PI); [lra|]. simpl. nra.
    - apply Rmult_lt_reg_l with (2 * PI); [lra|]. simpl. nra. }
  apply IZR_between in HK. lia.
Qed.

Lemma rdiv_S om s d : om <> 0 -> sin d = - sin (s * om) -> sin d <> 0 ->
  rdiv (sin (s * om) / om * d) (sin d) = Ok (- d / om).
Proof.
  intros H E N. rewrite rdiv_ok by auto. f_equal.
  replace (sin (s * om)) with (- sin d) by lra. field. auto.
Qed.

(** Within half a turn. *)
Lemma SfromXY_inverse hp rp s :
  hp OMEGA <> 0 -> Rabs (hp PHI0) <= 2 * PI -> Rabs (hp OMEGA * s) < PI ->
  calculateSfromXY (vx (hcurve hp rp s)) (vy (hcurve hp rp s)) hp rp = Ok s.
Proof.
  intros H Hp Hs. apply Rabs_def2 in Hs.
  destruct (SfromXY_hcurve hp rp s H) as (k & E & R1 & _).
  specialize (R1 Hp).
  assert (k = 0%Z) by (apply (wrap_zero_k (s * hp OMEGA)); lra). subst k.
  rewrite E. clear E. cbv zeta.
  replace (- (s * hp OMEGA) + 2 * 0 * PI) with (- (s * hp OMEGA)) by ring.
  destruct (Req_EM_T (- (s * hp OMEGA)) 0) as [Z|Z].
  - f_equal. assert (Z' : s * hp OMEGA = 0) by lra.
    apply Rmult_integral in Z'. destruct Z' as [->|Z']; [reflexivity|contradiction].
  - rewrite rdiv_S; auto.
    + f_equal. field. auto.
    + apply sin_neg.
    + rewrite sin_neg. intros S. apply Z.
      assert (S' : sin (s * hp OMEGA) = 0) by lra.
      apply sin_zero_small in S'; lra.
Qed.

Lemma SfromXY_half_turn hp rp s :
  hp OMEGA <> 0 -> Rabs (hp PHI0) <= 2 * PI -> Rabs (hp OMEGA * s) = PI ->
  calculateSfromXY (vx (hcurve hp rp s)) (vy (hcurve hp rp s)) hp rp = NonFin.
Proof.
  intros H Hp Hs. generalize PI_pos; intros HP.
  destruct (SfromXY_hcurve hp rp s H) as (k & E & R1 & _).
  specialize (R1 Hp). rewrite E. clear E. cbv zeta.
  assert (Hv : s * hp OMEGA = PI \/ s * hp OMEGA = - PI).
  { replace (s * hp OMEGA) with (hp OMEGA * s) by ring.
    unfold Rabs in Hs. destruct (Rcase_abs (hp OMEGA * s)); lra. }
  assert (S0 : sin (- (s * hp OMEGA) + 2 * IZR k * PI) = 0).
  { rewrite sin_2kpi, sin_neg. destruct Hv as [->| ->]; rewrite ?sin_neg, sin_PI; ring. }
  destruct (Req_EM_T (- (s * hp OMEGA) + 2 * IZR k * PI) 0) as [Z|Z].
  - exfalso.
    assert (2 * PI * (2 * IZR k) = 2 * PI \/ 2 * PI * (2 * IZR k) = - (2 * PI)).
    { destruct Hv as [Hv|Hv]; rewrite Hv in Z; [left|right]; lra. }
    assert (2 * IZR k = 1 \/ 2 * IZR k = -1).
    { destruct H0; [left|right]; apply Rmult_eq_reg_l with (2 * PI); lra. }
    destruct H1 as [H1|H1].
    + assert (IZR (2 * k) = IZR 1) by (rewrite mult_IZR; simpl; lra).
      apply eq_IZR in H2. lia.
    + assert (IZR (2 * k) = IZR (-1)) by (rewrite mult_IZR; simpl; lra).
      apply eq_IZR in H2. lia.
  - rewrite S0. apply rdiv_zero.
Qed.

Lemma SfromXY_far_phi0 hp rp s :
  hp OMEGA <> 0 -> 4 * PI <= Rabs (hp PHI0) -> 0 < Rabs (hp OMEGA * s) < PI ->
  exists k : Z, k <> 0%Z /\
  calculateSfromXY (vx (hcurve hp rp s)) (vy (hcurve hp rp s)) hp rp
  = Ok (s - 2 * IZR k * PI / hp OMEGA).
Proof.
  intros H Hp [Hs0 Hs]. apply Rabs_def2 in Hs.
  destruct (SfromXY_hcurve hp rp s H) as (k & E & _ & R2).
  exists k. split.
  - apply R2; auto. lra.
  - rewrite E. clear E. cbv zeta.
    assert (Hz : s * hp OMEGA <> 0).
    { intros Z. replace (hp OMEGA * s) with (s * hp OMEGA) in Hs0 by ring.
      rewrite Z, Rabs_R0 in Hs0. lra. }
    assert (S0 : sin (- (s * hp OMEGA) + 2 * IZR k * PI) <> 0) by (apply sin_nonzero; lra).
    destruct (Req_EM_T (- (s * hp OMEGA) + 2 * IZR k * PI) 0) as [Z|Z].
    { rewrite Z, sin_0 in S0. contradiction. }
    rewrite rdiv_S; auto.
    + f_equal. field. auto.
    + rewrite sin_2kpi, sin_neg. reflexivity.
Qed.

Lemma SfromXY_line hp rp x y :
  hp OMEGA = 0 -> Rabs (hp PHI0) <= 2 * PI -> calculateSfromXY x y hp rp = Ok 0.
Proof.
  intros H Hp. generalize PI_pos; intros HP.
  unfold calculateSfromXY, calculatePhi0, calculateD0, calculateCurvature.
  rewrite H, !Rmult_0_l, Rminus_0_r, Rplus_0_r.
  set (p := hp PHI0) in *.
  destruct (dphi_of_spec (atan2 (sin p) (cos p)) p) as ((k & Hk) & R1 & _).
  specialize (R1 Hp (atan2_range _ _)).
  assert (Em : exists m : Z, atan2 (sin p) (cos p) = p + 2 * IZR m * PI).
  { destruct (atan2_mod 1 p Rlt_0_1) as [m Hm]. exists m. rewrite !Rmult_1_l in Hm. exact Hm. }
  destruct Em as [m Hm].
  assert (Ed : dphi_of (atan2 (sin p) (cos p)) p = 2 * IZR (k + m) * PI).
  { rewrite Hk, Hm, plus_IZR. ring. }
  assert (K : (k + m)%Z = 0%Z) by (apply (wrap_zero_k 0); lra).
  rewrite Ed, K. destruct (Req_EM_T (2 * 0 * PI) 0) as [Z|Z]; [reflexivity|].
  exfalso. apply Z. ring.
Qed.

(** The single correction by a full turn suffices exactly for directions above -3pi
    and up to 3pi. *)
Lemma dphi_exact p t : - PI < t < PI ->
  exists k : Z, dphi_of (atan2 (sin (p - t)) (cos (p - t))) p = - t + 2 * IZR k * PI
    /\ (k = 0%Z <-> - (3 * PI) < p - t <= 3 * PI).
Proof.
  intros Ht. generalize PI_pos; intros HP.
  destruct (atan2_mod 1 (p - t) Rlt_0_1) as [m Hm]. rewrite !Rmult_1_l in Hm.
  assert (Rg := atan2_range (sin (p - t)) (cos (p - t))). rewrite Hm in *. unfold dphi_of.
  assert (M0 : (m <= -2)%Z \/ (m = -1)%Z \/ (m = 0)%Z \/ (m = 1)%Z \/ (2 <= m)%Z) by lia.
  assert (B1 : forall n : Z, (m <= n)%Z -> IZR m * PI <= IZR n * PI).
  { intros n L. apply Rmult_le_compat_r; [lra|]. apply IZR_le. auto. }
  assert (B2 : forall n : Z, (n <= m)%Z -> IZR n * PI <= IZR m * PI).
  { intros n L. apply Rmult_le_compat_r; [lra|]. apply IZR_le. auto. }
  destruct M0 as [L|[->|[->|[->|L]]]].
  - specialize (B1 _ L). cbv zeta. destruct (Rlt_dec _ (- PI)) as [A|A]; [|exfalso; lra].
    exists (m + 1)%Z. rewrite plus_IZR. split; [lra|]. split; [lia|]. intros W. exfalso. lra.
  - cbv zeta. destruct (Rlt_dec _ (- PI)) as [A|A]; [|exfalso; lra].
    exists 0%Z. split; [lra|]. split; [intros _; lra|auto].
  - cbv zeta. destruct (Rlt_dec _ (- PI)) as [A|A]; [exfalso; lra|].
    destruct (Rlt_dec PI _) as [A'|A']; [exfalso; lra|].
    exists 0%Z. split; [lra|]. split; [intros _; lra|auto].
  - cbv zeta. destruct (Rlt_dec _ (- PI)) as [A|A]; [exfalso; lra|].
    destruct (Rlt_dec PI _) as [A'|A']; [|exfalso; lra].
    exists 0%Z. split; [lra|]. split; [intros _; lra|auto].
  - specialize (B2 _ L). cbv zeta. destruct (Rlt_dec _ (- PI)) as [A|A]; [exfalso; lra|].
    destruct (Rlt_dec PI _) as [A'|A']; [|exfalso; lra].
    exists (m - 1)%Z. rewrite minus_IZR. split; [lra|]. split; [lia|]. intros W. exfalso. lra.
Qed.

Lemma SfromXY_value hp rp s : hp OMEGA <> 0 ->
  let dphi := dphi_of (atan2 (sin (hp PHI0 - s * hp OMEGA)) (cos (hp PHI0 - s * hp OMEGA))) (hp PHI0) in
  calculateSfromXY (vx (hcurve hp rp s)) (vy (hcurve hp rp s)) hp rp
  = (if Req_EM_T dphi 0 then Ok 0 else rdiv (sin (s * hp OMEGA) / hp OMEGA * dphi) (sin dphi)).
Proof.
  intros H. set (om := hp OMEGA) in *. set (p := hp PHI0). set (th := p - s * om). cbv zeta.
  unfold calculateSfromXY, calculatePhi0, calculateD0, calculateCurvature. fold om p.
  assert (E1 : sin p - om * (vx (hcurve hp rp s) - (vx rp - sin p * hp D0)) = sin th).
  { unfold hcurve; simpl. fold om p th. field. exact H. }
  assert (E2 : cos p + om * (vy (hcurve hp rp s) - (vy rp + cos p * hp D0)) = cos th).
  { unfold hcurve; simpl. fold om p th. field. exact H. }
  assert (E3 : (vx (hcurve hp rp s) - (vx rp - sin p * hp D0)) * cos p
               + (vy (hcurve hp rp s) - (vy rp + cos p * hp D0)) * sin p
               = sin (s * om) / om).
  { unfold hcurve; simpl. fold om p th. unfold th. rewrite sin_minus, cos_minus.
    generalize (sc1 p); intros Hp.
    transitivity (1 / om * sin (s * om) * (sin p * sin p + cos p * cos p)); [ring|].
    rewrite Hp. field. exact H. }
  rewrite E1, E2, E3. reflexivity.
Qed.

(** within half a turn, for all azimuths *)
Lemma SfromXY_exact hp rp s : hp OMEGA <> 0 -> Rabs (hp OMEGA * s) < PI ->
  let S := calculateSfromXY (vx (hcurve hp rp s)) (vy (hcurve hp rp s)) hp rp in
  let th := hp PHI0 - hp OMEGA * s in
  (- (3 * PI) < th <= 3 * PI -> S = Ok s)
  /\ (~ (- (3 * PI) < th <= 3 * PI) ->
        (s = 0 -> S = NonFin)
        /\ (s <> 0 -> exists k : Z, k <> 0%Z /\ S = Ok (s - 2 * IZR k * PI / hp OMEGA))).
Proof.
  intros H Hs. generalize PI_pos; intros HP. cbv zeta. apply Rabs_def2 in Hs.
  rewrite (SfromXY_value hp rp s H). cbv zeta. replace (hp OMEGA * s) with (s * hp OMEGA) in * by ring.
  destruct (dphi_exact (hp PHI0) (s * hp OMEGA)) as (k & -> & K); [lra|].
  assert (Sn : sin (- (s * hp OMEGA) + 2 * IZR k * PI) = - sin (s * hp OMEGA)) by (rewrite sin_2kpi, sin_neg; auto).
  split.
  - intros L. apply K in L. subst k. replace (- (s * hp OMEGA) + 2 * 0 * PI) with (- (s * hp OMEGA)) in * by ring.
    destruct (Req_EM_T (- (s * hp OMEGA)) 0) as [Z|Z].
    + f_equal. assert (Z' : s * hp OMEGA = 0) by lra.
      apply Rmult_integral in Z'. destruct Z' as [->|Z']; [reflexivity|contradiction].
    + rewrite rdiv_S; auto.
      * f_equal. field. auto.
      * rewrite Sn. intros S. apply Z. assert (S' : sin (s * hp OMEGA) = 0) by lra.
        apply sin_zero_small in S'; lra.
  - intros L. assert (Nk : k <> 0%Z) by (intros ->; apply L, K; auto).
    assert (Nd : - (s * hp OMEGA) + 2 * IZR k * PI <> 0).
    { intros Z. assert (1 <= k \/ k <= -1)%Z as [Q|Q] by lia; apply IZR_le in Q; nra. }
    destruct (Req_EM_T _ 0) as [Z|_]; [contradiction|]. split.
    + intros ->. rewrite Sn, Rmult_0_l, sin_0, Ropp_0. apply rdiv_zero.
    + intros Ns. exists k. split; auto. rewrite rdiv_S; auto.
      * f_equal. field. auto.
      * rewrite Sn. intros S. assert (S' : sin (s * hp OMEGA) = 0) by lra.
        apply sin_zero_small in S'; [|lra]. apply Rmult_integral in S'. destruct S'; contradiction.
Qed.

Lemma SfromXY_half_turn_any hp rp s : hp OMEGA <> 0 -> Rabs (hp OMEGA * s) = PI ->
  calculateSfromXY (vx (hcurve hp rp s)) (vy (hcurve hp rp s)) hp rp = NonFin.
Proof.
  intros H Hs. generalize PI_pos; intros HP.
  destruct (SfromXY_hcurve hp rp s H) as (k & E & _). rewrite E. clear E. cbv zeta.
  assert (Hv : s * hp OMEGA = PI \/ s * hp OMEGA = - PI).
  { replace (s * hp OMEGA) with (hp OMEGA * s) by ring.
    unfold Rabs in Hs. destruct (Rcase_abs (hp OMEGA * s)); lra. }
  assert (S0 : sin (- (s * hp OMEGA) + 2 * IZR k * PI) = 0).
  { rewrite sin_2kpi, sin_neg. destruct Hv as [->| ->]; rewrite ?sin_neg, sin_PI; ring. }
  destruct (Req_EM_T (- (s * hp OMEGA) + 2 * IZR k * PI) 0) as [Z|Z]; [exfalso|rewrite S0; apply rdiv_zero].
  assert (K : (1 <= k \/ k <= 0)%Z) by lia. destruct Hv as [Hv|Hv]; rewrite Hv in Z.
  - destruct K as [K|K]; apply IZR_le in K; nra.
  - assert (K' : (0 <= k \/ k <= -1)%Z) by lia. destruct K' as [K'|K']; apply IZR_le in K'; nra.
Qed.

Lemma SfromXY_line_any hp rp x y : hp OMEGA = 0 ->
  (- (3 * PI) < hp PHI0 <= 3 * PI -> calculateSfromXY x y hp rp = Ok 0)
  /\ (~ (- (3 * PI) < hp PHI0 <= 3 * PI) -> calculateSfromXY x y hp rp = NonFin).
Proof.
  intros H. generalize PI_pos; intros HP.
  unfold calculateSfromXY, calculatePhi0, calculateD0, calculateCurvature. cbv zeta.
  rewrite H, !Rmult_0_l, Rminus_0_r, Rplus_0_r.
  destruct (dphi_exact (hp PHI0) 0) as (k & Q & K); [lra|]. rewrite Rminus_0_r in *. rewrite Q. split; intros L.
  - apply K in L. subst k. destruct (Req_EM_T _ 0) as [Z|Z]; auto. exfalso. apply Z. ring.
  - assert (Nk : k <> 0%Z) by (intros ->; apply L, K; auto).
    destruct (Req_EM_T _ 0) as [Z|Z].
    + exfalso. assert (1 <= k \/ k <= -1)%Z as [Y|Y] by lia; apply IZR_le in Y; nra.
    + rewrite sin_2kpi, sin_neg, sin_0, Ropp_0. apply rdiv_zero.
Qed.
