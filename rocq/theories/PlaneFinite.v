(** Path lengths and crossings with planes are finite. *)
From Coq Require Import Reals ZArith Lra Lia Psatz List Bool.
From Flocq Require Import Core.
From Verif Require Import Num Vec FloatWrap PointFloat SpecRound SpecPath RoundFacts PointFloatFacts PathTrig PathFloatFacts MoveFloatFacts NearFacts
  SpecHelix HelixFacts Isect SpecIsect SurfFacts NumFacts PathFloat PropPath PropRound CylFloatFacts PlaneFloat SpecPlaneFloat PlaneFloatFacts.
Import ListNotations.
Open Scope R_scope.

Lemma rd_fin_ok x k : mag x k -> (k <= 1000)%Z -> rd x = Ok (rnd x).
Proof. intros H K. exact (mag_rd x k K H). Qed.

Section Path.
Variables (L : libm) (at2 : R -> R -> R).
Hypothesis HS : sound_library L at2.

Lemma lib_mag a : is_double a -> mag (m_sin L a) 1 /\ mag (m_cos L a) 1.
Proof.
  intros D. destruct (n_lib L at2 (sl_good _ _ HS) a D) as [A B].
  split; apply mag_1; eapply Rle_trans; try (apply (n_size _ _ _ _ A); lra); try (apply (n_size _ _ _ _ B); lra); lra.
Qed.
Lemma at2_size y x : is_double y -> is_double x -> Rabs (at2 y x) <= 7 / 2.
Proof.
  intros Dy Dx. destruct (Req_dec x 0) as [X|X]; [destruct (Req_dec y 0) as [Y|Y]|].
  - subst. apply (sl_origin _ _ HS).
  - destruct (gl_atan2 _ _ (sl_good _ _ HS) y x Dy Dx (or_intror Y)) as (_ & a & [A _] & E). assert (P := PI_num). assert (U := u_small). destruct least_u as [_ LU].
    assert (AA : Rabs a <= 315 / 100) by (apply Rabs_le; lra). assert (W := near_size _ _ _ E).
    assert (uround * Rabs a <= / 1000000 * (315 / 100)) by (apply Rmult_le_compat; auto using Rabs_pos; lra). lra.
  - destruct (gl_atan2 _ _ (sl_good _ _ HS) y x Dy Dx (or_introl X)) as (_ & a & [A _] & E). assert (P := PI_num). assert (U := u_small). destruct least_u as [_ LU].
    assert (AA : Rabs a <= 315 / 100) by (apply Rabs_le; lra). assert (W := near_size _ _ _ E).
    assert (uround * Rabs a <= / 1000000 * (315 / 100)) by (apply Rmult_le_compat; auto using Rabs_pos; lra). lra.
Qed.
Lemma rnd_small x B : Rabs x <= B -> B <= 100 -> Rabs (rnd x - x) <= / 1000.
Proof.
  intros H K. assert (E := rnd_err x). assert (U := u_small). destruct least_u as [_ LU].
  assert (uround * Rabs x <= / 1000000 * 100) by (apply Rmult_le_compat; auto using Rabs_pos; lra). lra.
Qed.
Lemma turning_fin a ph : Rabs a <= 7 / 2 -> Rabs ph <= 2 * PI -> exists d, turning_d a ph = Ok d /\ is_double d /\ Rabs d <= 4.
Proof.
  intros A B. assert (P := PI_num). destruct dPi_num as (P1 & P2 & P3 & P4 & _). assert (U := u_small).
  apply Rabs_le_inv in A. apply Rabs_le_inv in B. unfold turning_d.
  assert (SZ : Rabs (a - ph) <= 10) by (apply Rabs_le; lra).
  assert (ok : forall x, Rabs x <= 16 -> rd x = Ok (rnd x)) by (intros x H; apply (rd_fin_ok x 4); [exact H|lia]).
  rewrite ok by lra. cbn [bind]. assert (E := rnd_small _ 10 SZ ltac:(lra)). set (d := rnd (a - ph)) in *. assert (DD : is_double d) by apply rnd_double. apply Rabs_le_inv in E. clearbody d.
  destruct Rlt_dec as [H|H]; [|destruct Rlt_dec as [H2|H2]].
  - assert (S : Rabs (d + dTwoPi) <= 39 / 10) by (rewrite P4; apply Rabs_le; lra). rewrite ok by lra. eexists. split; [reflexivity|]. split; [apply rnd_double|].
    assert (W := rnd_small _ _ S ltac:(lra)). assert (V := near_size _ _ _ W). lra.
  - assert (S : Rabs (d - dTwoPi) <= 39 / 10) by (rewrite P4; apply Rabs_le; lra). rewrite ok by lra. eexists. split; [reflexivity|]. split; [apply rnd_double|].
    assert (W := rnd_small _ _ S ltac:(lra)). assert (V := near_size _ _ _ W). lra.
  - eexists. split; [reflexivity|]. split; [exact DD|]. apply Rabs_le. lra.
Qed.

Lemma path_fin x y hp rp : ordinary_track hp rp -> ordinary x -> ordinary y ->
  exists s, calculateSfromXY_d L at2 x y hp rp = Ok s /\ mag s 180.
Proof.
  intros HT [_ MX] [_ MY]. destruct (lib_mag _ (ot_ph _ _ HT)) as [Ms Mc].
  assert (M0 : mag (hp D0) 100) by apply (ot_d0 _ _ HT). assert (MO : mag (hp OMEGA) 100) by apply (ot_om _ _ HT).
  assert (M1 : mag (vx rp) 100) by apply (ot_x _ _ HT). assert (M2 : mag (vy rp) 100) by apply (ot_y _ _ HT).
  change (mag x 100) in MX. change (mag y 100) in MY. unfold calculateSfromXY_d. cbv zeta.
  set (sn := m_sin L (hp PHI0)) in *. set (cs := m_cos L (hp PHI0)) in *. fin 10.
  match goal with |- context [turning_d (at2 ?p ?q) ?r] => destruct (turning_fin (at2 p q) r) as (d & ED & DD & SD) end.
  { apply at2_size; apply rnd_double. } { apply (ot_turn _ _ HT). }
  rewrite ED. cbn [bind]. destruct Req_EM_T as [Z|NZ]; [exists 0; split; [reflexivity|unfold mag; rewrite Rabs_R0; apply bpow_ge_0]|].
  assert (MD : mag d 2) by exact SD.
  set (dx := rnd (x - _)). set (dy := rnd (y - _)). assert (MDX : mag dx 103) by (unfold dx; mg). assert (MDY : mag dy 103) by (unfold dy; mg). clearbody dx dy. fin 3.
  set (m := rnd (rnd (dx * cs) + rnd (dy * sn))). assert (MM : mag m 106) by (unfold m; mg). clearbody m. fin 1.
  assert (SI := sl_sin _ _ HS d DD SD). assert (D0 : 0 < Rabs d) by (apply Rabs_pos_lt, NZ). assert (B60 := bpow_gt_0 radix2 (-60)).
  assert (SP : 0 < Rabs (m_sin L d)) by (eapply Rlt_le_trans; [|exact SI]; apply Rmult_lt_0_compat; lra).
  unfold rd_div. destruct Req_EM_T as [Z|_]; [rewrite Z, Rabs_R0 in SP; lra|].
  assert (LD : least <= Rabs d).
  { unfold is_double, FloatWrap.is_double in DD. unfold least.
    generalize (generic_format_ge_bpow radix2 (FLT_exp (-1074) 53) (-1074) ltac:(intros e; unfold FLT_exp; lia) (Rabs d) D0). intros G. apply G.
    apply generic_format_abs. exact DD. }
  assert (QM : mag (rnd (m * d) / m_sin L d) 178).
  { unfold mag, Rdiv. rewrite Rabs_mult, Rabs_inv. apply Rmult_le_reg_r with (Rabs (m_sin L d)); [exact SP|]. rewrite Rmult_assoc, Rinv_l, Rmult_1_r by lra.
    assert (E := rnd_err (m * d)). assert (W := near_size _ _ _ E). rewrite Rabs_mult in W. assert (U := u_small).
    assert (MB : Rabs m * Rabs d <= bpow radix2 106 * Rabs d) by (apply Rmult_le_compat_r; [lra|exact MM]).
    assert (UU : uround * (Rabs m * Rabs d) <= 1 * (Rabs m * Rabs d)) by (apply Rmult_le_compat_r; [apply Rmult_le_pos; apply Rabs_pos|lra]).
    rewrite Rabs_mult in E. assert (K1 : 1 <= bpow radix2 106) by (apply (bpow_le radix2 0); lia).
    assert (H3 : Rabs (rnd (m * d)) <= 3 * (bpow radix2 106 * Rabs d)).
    { assert (1 * Rabs d <= bpow radix2 106 * Rabs d) by (apply Rmult_le_compat_r; lra). lra. }
    eapply Rle_trans; [exact H3|]. apply Rle_trans with (bpow radix2 178 * (bpow radix2 (-60) * Rabs d)); [|apply Rmult_le_compat_l; [apply bpow_ge_0|exact SI]].
    rewrite <- !Rmult_assoc. apply Rmult_le_compat_r; [lra|]. rewrite <- bpow_plus. change (178 + -60)%Z with (12 + 106)%Z. rewrite bpow_plus.
    apply Rmult_le_compat_r; [apply bpow_ge_0|]. change (bpow radix2 12) with 4096. lra. }
  rewrite (rd_fin_ok _ _ QM) by lia. eexists. split; [reflexivity|]. eapply mag_le; [apply mag_rnd'; [exact QM|lia]|lia].
Qed.
End Path.

Lemma normal_ok o n : ordinary_plane o n -> andb (if Rlt_dec (Rabs (vx n)) (rnd (/ 1000000000000)) then true else false) (if Rlt_dec (Rabs (vy n)) (rnd (/ 1000000000000)) then true else false) = false.
Proof.
  intros HN. assert (R1 : rnd (/ 1000000000000) <= / 1000). { assert (W := rnd_small (/ 1000000000000) 1). rewrite Rabs_pos_eq in W by lra. specialize (W ltac:(lra) ltac:(lra)). apply Rabs_le_inv in W.
      assert (E := rnd_err (/ 1000000000000)). rewrite (Rabs_pos_eq (/ 1000000000000)) in E by lra. apply Rabs_le_inv in E. assert (U := u_small). destruct least_u as [_ LU]. lra. }
    assert (U := op_unit _ _ HN). destruct Rlt_dec as [H1|H1]; [|reflexivity]. destruct Rlt_dec as [H2|H2]; [|reflexivity]. exfalso.
    assert (forall a, Rabs a < / 1000 -> a * a <= / 1000000).
    { intros a Ha. rewrite <- (Rabs_pos_eq (a * a)) by apply Rle_0_sqr. rewrite Rabs_mult. assert (Rabs a * Rabs a <= / 1000 * / 1000) by (apply Rmult_le_compat; auto using Rabs_pos; lra). lra. }
    assert (A1 := H (vx n) ltac:(lra)). assert (A2 := H (vy n) ltac:(lra)). lra.
Qed.

Section Plane.
Variables (L : libm) (at2 : R -> R -> R) (hp : vec5) (rp o n : vec3).
Hypothesis HS : sound_library L at2.
Hypothesis HT : ordinary_track hp rp.
Hypothesis HO : hp OMEGA <> 0.
Hypothesis HN : ordinary_plane o n.
Hypothesis HB : spread o hp rp <= bpow radix2 98.
Hypothesis HZ : ordinary (hp Z0) /\ ordinary (hp TANL) /\ ordinary (vz rp).

Lemma point_fin x y : ordinary x -> ordinary y -> exists v, track_point L at2 x y hp rp = Ok v.
Proof.
  intros X Y. destruct HZ as ([_ Z1] & [_ Z2] & [_ Z3]). change (mag (hp Z0) 100) in Z1. change (mag (hp TANL) 100) in Z2. change (mag (vz rp) 100) in Z3.
  destruct (path_fin L at2 HS x y hp rp HT X Y) as (s & E & M). unfold track_point. rewrite E. cbn [bind]. unfold calculateZfromS_d. fin 2.
  erewrite rd_fin1; [|mag_up|vm_compute; discriminate]. cbn [bind]. eauto.
Qed.
Lemma sizes : mag (/ hp OMEGA) 98 /\ mag (vx o) 98 /\ mag (vy o) 98 /\ mag (vx rp) 98 /\ mag (vy rp) 98 /\ mag (hp D0) 98 /\ mag (vx n) 1 /\ mag (vy n) 1.
Proof.
  unfold mag. destruct (n_sizes o n HN) as (N1 & N2 & _ & _). change (bpow radix2 1) with 2. rewrite Rabs_inv. unfold spread in HB.
  assert (0 < / Rabs (hp OMEGA)) by (apply Rinv_0_lt_compat, Rabs_pos_lt, HO).
  generalize (Rabs_pos (vx o)) (Rabs_pos (vy o)) (Rabs_pos (vx rp)) (Rabs_pos (vy rp)) (Rabs_pos (hp D0)). intros. repeat split; lra.
Qed.
Lemma mag_abs x k : mag x k -> mag (Rabs x) k.
Proof. unfold mag. rewrite Rabs_Rabsolu. auto. Qed.
Lemma div_fin {A} x y k (K : R -> res A) : y <> 0 -> mag (x / y) k -> (k <= 1000)%Z -> bind (rd_div x y) K = K (rnd (x / y)).
Proof. intros Y M H. unfold rd_div. destruct Req_EM_T; [contradiction|]. apply (rd_fin _ k); auto. Qed.

Lemma plane_fin surf mode cb out f : is_helix hp rp f -> vx (sf_origin surf) = vx o -> vy (sf_origin surf) = vy o -> sf_normal surf v3zero = n ->
  (exists b out', intersectWithZPlane_d L at2 surf hp rp out mode cb = Ok (b, out'))
  \/ (intersectWithZPlane_d L at2 surf hp rp out mode cb = NonFin /\ mode = 0%Z /\ cb = true /\ one_side f o n (225 * haze o hp rp)
      /\ comes_close f o n (/ 900000000 * Rabs (hp OMEGA) + 230 * haze o hp rp)).
Proof.
  intros Hf EX EY EN. destruct sizes as (S1 & S2 & S3 & S4 & S5 & S6 & S7 & S8). destruct (lib_mag L at2 HS _ (ot_ph _ _ HT)) as [Ms Mc].
  assert (NI := n_inv o n HN). assert (NC := no_crossing L at2 hp rp o n (sl_good _ _ HS) HT HO HN f Hf). assert (GR := grazing L at2 hp rp o n (sl_good _ _ HS) HT HO HN f Hf). assert (LI := line_inv L at2 hp rp o n (sl_good _ _ HS) HT HO HN).
  unfold intersectWithZPlane_d. rewrite EN. cbv zeta.
  assert (MV : vdot_d (sf_origin surf) n = Ok (rnd (rnd (vx o * vx n) + rnd (vy o * vy n)))).
  { unfold vdot_d. rewrite EX, EY, (op_nz _ _ HN), Rmult_0_r. fin 3. assert (Z0 : mag 0 1) by (unfold mag; rewrite Rabs_R0; apply bpow_ge_0). fin 1. erewrite rd_fin1; [|mag_up|vm_compute; discriminate].
    rewrite rnd_0, Rplus_0_r, (rnd_id (rnd _)) by apply rnd_double. reflexivity. }
  rewrite MV. cbn [bind]. clear MV.
  rewrite (normal_ok o n HN).
  assert (M1 : mag (1 / hp OMEGA) 98) by (unfold Rdiv; rewrite Rmult_1_l; exact S1).
  assert (ER : calculateRadius_d hp = Ok (Rabs (rnd (1 / hp OMEGA)))).
  { unfold calculateRadius_d. destruct Req_EM_T; [contradiction|]. rewrite (div_fin _ _ 98); auto; lia. }
  assert (EXC : calculateXCenter_d L hp rp = Ok (rnd (vx rp + rnd (rnd (rnd (1 / hp OMEGA) - hp D0) * m_sin L (hp PHI0))))).
  { unfold calculateXCenter_d. destruct Req_EM_T; [contradiction|]. rewrite (div_fin _ _ 98); auto; [|lia]. fin 2. eapply rd_fin1; [mag_up|vm_compute; discriminate]. }
  assert (EYC : calculateYCenter_d L hp rp = Ok (rnd (vy rp - rnd (rnd (rnd (1 / hp OMEGA) - hp D0) * m_cos L (hp PHI0))))).
  { unfold calculateYCenter_d. destruct Req_EM_T; [contradiction|]. rewrite (div_fin _ _ 98); auto; [|lia]. fin 2. eapply rd_fin1; [mag_up|vm_compute; discriminate]. }
  rewrite ER, EXC, EYC. cbn [bind].
  set (xc := rnd (vx rp + _)) in *. set (yc := rnd (vy rp - _)) in *. set (rr := Rabs (rnd (1 / hp OMEGA))) in *. set (ds := Rabs (rnd (rnd (vx o * vx n) + rnd (vy o * vy n)))) in *.
  assert (MX : mag xc 104) by (unfold xc; mg). assert (MY : mag yc 104) by (unfold yc; mg). assert (MR : mag rr 98) by (unfold rr; apply mag_abs; mg). assert (MDs : mag ds 104) by (unfold ds; apply mag_abs; mg).
  assert (EL : exists l, intersectCircleStraightLine_d xc yc rr (vx n) (vy n) ds = Ok l).
  { unfold intersectCircleStraightLine_d. destruct NI as [N1 N2]. assert (SI := n_size _ _ _ _ N1 ltac:(lra)). clearbody xc yc rr ds. fin 11. destruct Rlt_dec; [eauto|].
    set (nn := rnd (rnd (vx n * vx n) + rnd (vy n * vy n))) in *.
    assert (MI : mag (1 / nn) 1).
    { unfold mag, Rdiv. rewrite Rmult_1_l, Rabs_inv, Rabs_pos_eq by lra. change (bpow radix2 1) with 2. apply Rle_trans with (/ (98 / 100)); [apply Rinv_le_contravar; lra|lra]. }
    rewrite (div_fin _ _ 1); [|lra|exact MI|lia]. destruct Rlt_dec; [eauto|]. cbv zeta.
    assert (MN : mag nn 4) by (unfold nn; mg). clearbody nn. set (q := rnd (1 / nn)). assert (MQ : mag q 1) by (unfold q; mg). clearbody q.
    fin 10. destruct Rle_dec; [eauto|]. fin 6. eauto. }
  destruct EL as (l & EL). rewrite EL. cbn [bind]. apply LI in EL.
  assert (FO : forall e x y, found L hp rp o n e x y -> ordinary x /\ ordinary y).
  { intros e x y F. destruct (found_ordinary L hp rp o n HO HB e x y F) as (A & B & _). auto. }
  destruct EL as [[-> N]|[(-> & N & NG)|[(x & y & -> & F & N1 & N2)|(x1 & y1 & x2 & y2 & -> & F1 & F2 & N)]]].
  - left. eauto.
  - destruct (Z.eqb_spec mode 0); [destruct cb|]; eauto 10.
  - left. destruct (FO _ _ _ F) as [A B]. destruct (point_fin _ _ A B) as (v & ->). cbn [bind]. eauto.
  - left. destruct (FO _ _ _ F1) as [A B]. destruct (point_fin _ _ A B) as (v & ->). cbn [bind].
    destruct (FO _ _ _ F2) as [A' B']. destruct (point_fin _ _ A' B') as (w & ->). cbn [bind]. destruct select as [[s x]|]; eauto.
Qed.
End Plane.
