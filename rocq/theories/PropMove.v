(** Properties C07-C11. *)
From Coq Require Import Reals Lra ZArith List.
From Coquelicot Require Import Coquelicot.
From Verif Require Import Num NumFacts Vec Helix SpecHelix SpecMat HelixFacts PathFacts MoveFacts
  MoveCovFacts FloatWrap FloatWrapFacts.
Open Scope R_scope.

(** C07.  The moved parameters describe the same curve, re-parametrised; the
    curves are those of [is_helix], not the formulas of the code. *)
Theorem C07_move_keeps_the_curve : forall tp v,
  (tp_par tp OMEGA <> 0 ->
   exists p' fid, moveHelixTo tp v false = Ok (TP (tp_cov tp) p' v, fid)
     /\ p' OMEGA = tp_par tp OMEGA /\ p' TANL = tp_par tp TANL
     /\ Rabs fid <= PI /\ - PI <= p' PHI0 <= PI
     /\ (exists k : Z, p' PHI0 = tp_par tp PHI0 + fid + 2 * IZR k * PI)
     /\ (forall f g, is_helix (tp_par tp) (tp_ref tp) f -> is_helix p' v g ->
           forall s, g s = f (s - fid / tp_par tp OMEGA)))
  /\ (tp_par tp OMEGA = 0 -> forall cm, moveHelixTo tp v cm = NonFin).
Proof.
  intros tp v. split.
  - intros H. destruct (move_ok tp v H) as (p' & fid & E & M & _).
    exists p', fid. split; [exact E|].
    split; [apply (ms_om _ _ _ _ M)|]. split; [apply (ms_tl _ _ _ _ M)|].
    split; [generalize (ms_fid_range _ _ _ _ M); intros; apply Rabs_le; lra|].
    split; [apply (ms_phi_range _ _ _ _ M)|]. split; [apply (ms_fid _ _ _ _ M)|].
    intros f g Hf Hg s.
    assert (H' : p' OMEGA <> 0) by (rewrite (ms_om _ _ _ _ M); auto).
    rewrite (helix_is_hcurve _ _ _ H' Hg), (helix_is_hcurve _ _ _ H Hf).
    apply moved_curve; auto.
  - intros H cm. apply move_diverges_or_nonfin; auto.
Qed.
Print Assumptions C07_move_keeps_the_curve.

(** the circle of a curved track is the only one *)
Lemma circle_unique hp rp f c r : hp OMEGA <> 0 -> is_helix hp rp f -> circles f c r ->
  vx c = calculateXCenter hp rp /\ vy c = calculateYCenter hp rp /\ r = calculateRadius hp.
Proof.
  intros H Hf K. destruct (center_eq hp rp H) as [-> ->]. rewrite radius_eq by exact H.
  set (C := centre hp rp). set (rho := 1 / hp OMEGA).
  assert (RN : rho <> 0) by (unfold rho; apply Rmult_integral_contrapositive_currified; [lra|apply Rinv_neq_0_compat; exact H]).
  assert (P : forall a, (vx C - rho * sin a - vx c) * (vx C - rho * sin a - vx c) + (vy C + rho * cos a - vy c) * (vy C + rho * cos a - vy c) = r * r).
  { intros a. generalize (K ((hp PHI0 - a) / hp OMEGA)). rewrite (helix_is_hcurve _ _ _ H Hf). unfold dist_xy.
    destruct (hcurve_centre hp rp ((hp PHI0 - a) / hp OMEGA) H) as [X Y].
    replace (hp PHI0 - (hp PHI0 - a) / hp OMEGA * hp OMEGA) with a in X, Y by (field; exact H). fold C rho in X, Y.
    intros E. rewrite <- E, sqrt_sqrt by apply ss_nonneg.
    replace (vx (hcurve hp rp ((hp PHI0 - a) / hp OMEGA))) with (vx C - rho * sin a) by lra.
    replace (vy (hcurve hp rp ((hp PHI0 - a) / hp OMEGA))) with (vy C + rho * cos a) by lra. ring. }
  generalize (P 0) (P PI) (P (PI / 2)) (P (- (PI / 2))). rewrite sin_0, cos_0, sin_PI, cos_PI, sin_neg, cos_neg, sin_PI2, cos_PI2.
  intros P1 P2 P3 P4.
  assert (Ex : rho * (vx C - vx c) = 0) by lra. assert (Ey : rho * (vy C - vy c) = 0) by lra.
  apply Rmult_integral in Ex. apply Rmult_integral in Ey.
  assert (X : vx c = vx C) by (destruct Ex; [contradiction|lra]). assert (Y : vy c = vy C) by (destruct Ey; [contradiction|lra]).
  split; [exact X|]. split; [exact Y|]. rewrite X, Y in P1.
  assert (R0 : 0 <= r) by (rewrite <- (K 0); unfold dist_xy; apply sqrt_pos).
  rewrite <- (Rabs_pos_eq r R0) at 1. apply Rsqr_eq_abs_0. unfold Rsqr. lra.
Qed.

(** C08 *)
Theorem C08_moved_d0_is_closest_distance : forall tp v tp' fid f,
  tp_par tp OMEGA <> 0 -> is_helix (tp_par tp) (tp_ref tp) f ->
  moveHelixTo tp v false = Ok (tp', fid) ->
  (forall s, Rabs (tp_par tp' D0) <= dist_xy (f s) v)
  /\ (exists s, dist_xy (f s) v = Rabs (tp_par tp' D0)
                /\ vz (f s) = vz v + tp_par tp' Z0)
  /\ (forall c r, circles f c r -> Rabs (tp_par tp' D0) = Rabs (dist_xy c v - r))
  /\ (forall s, v = f s -> tp_par tp' D0 = 0
        /\ (Rabs (tp_par tp OMEGA * s) < PI -> tp_par tp' Z0 = 0)).
Proof.
  intros tp v tp' fid f H Hf E.
  destruct (move_ok tp v H) as (p' & fi & E' & M & _).
  rewrite E' in E. injection E as <- <-. simpl.
  assert (H' : p' OMEGA <> 0) by (rewrite (ms_om _ _ _ _ M); auto).
  assert (Hg := hcurve_helix p' v H').
  destruct (moved_d0_le tp v p' fi H M) as [D1 D2].
  destruct (pca_closest_iff p' v _ H' Hg) as (_ & (_ & _ & A3) & A4).
  assert (K : forall s, hcurve p' v s = f (s - fi / tp_par tp OMEGA)).
  { intros s. rewrite (helix_is_hcurve _ _ _ H Hf). apply moved_curve; auto. }
  split; [|split; [|split]].
  - intros s. rewrite <- A3. replace s with ((s + fi / tp_par tp OMEGA) - fi / tp_par tp OMEGA) by ring.
    rewrite <- K. apply A4. exact D1.
  - exists (0 - fi / tp_par tp OMEGA). rewrite <- K. split; [exact A3|].
    unfold hcurve; simpl. ring.
  - intros c r K2. destruct (circle_unique _ _ _ _ _ H Hf K2) as (X & Y & ->). unfold dist_xy at 1. rewrite X, Y, D2. f_equal. f_equal. unfold crho, dist_xy.
    destruct (center_eq (tp_par tp) (tp_ref tp) H) as [-> ->]. reflexivity.
  - intros s Ev. rewrite (helix_is_hcurve _ _ _ H Hf) in Ev. rewrite Ev in M.
    destruct (moved_on_track tp s p' fi H M) as (B1 & _ & B2).
    split; [exact B1|]. intros Hs. apply B2. exact Hs.
Qed.
Print Assumptions C08_moved_d0_is_closest_distance.

(** C09 *)
Theorem C09_round_trip : forall tp v,
  tp_par tp OMEGA <> 0 -> tp_par tp OMEGA * tp_par tp D0 < 1 ->
  exists tp1 fid1 tp2 fid2,
    moveHelixTo tp v false = Ok (tp1, fid1)
    /\ moveHelixTo tp1 (tp_ref tp) false = Ok (tp2, fid2)
    /\ tp_ref tp2 = tp_ref tp /\ tp_cov tp2 = tp_cov tp
    /\ tp_par tp2 OMEGA = tp_par tp OMEGA
    /\ tp_par tp2 TANL = tp_par tp TANL
    /\ tp_par tp2 D0 = tp_par tp D0
    /\ cos (tp_par tp2 PHI0) = cos (tp_par tp PHI0)
    /\ sin (tp_par tp2 PHI0) = sin (tp_par tp PHI0)
    /\ (tp_par tp2 Z0 = tp_par tp Z0 <-> (fid1 < PI \/ tp_par tp TANL = 0)).
Proof. exact move_round_trip. Qed.
Print Assumptions C09_round_trip.

(** [moves tp l]: moveHelixTo applied for each reference point of [l] in turn *)
Theorem C09_many_steps : forall tp (l : list vec3) v, tp_par tp OMEGA <> 0 ->
  exists tp1 tp2 fid, moves tp (l ++ v :: nil) = Ok tp1 /\ moveHelixTo tp v false = Ok (tp2, fid)
    /\ tp_ref tp1 = v /\ tp_ref tp2 = v
    /\ tp_par tp1 OMEGA = tp_par tp2 OMEGA
    /\ tp_par tp1 TANL = tp_par tp2 TANL
    /\ tp_par tp1 PHI0 = tp_par tp2 PHI0
    /\ tp_par tp1 D0 = tp_par tp2 D0
    /\ exists k : Z, tp_par tp1 Z0
                     = tp_par tp2 Z0 + IZR k * (2 * PI * tp_par tp TANL / tp_par tp OMEGA).
Proof. exact moves_path_independent. Qed.
Print Assumptions C09_many_steps.

(** C10.  The matrix F used for the covariance, and the true partial
    derivatives of the moved parameters: they differ by the sign of every entry
    that links d0 to another parameter. *)
Theorem C10_covariance_transport : forall hp rp v f c r, hp OMEGA <> 0 -> is_helix hp rp f -> circles f c r ->
  (vx v <> vx c \/ vy v <> vy c) ->
  exists F p' fid,
    (forall C, moveHelixTo (TP C hp rp) v true
               = Ok (TP (m5mul (m5mul F C) (m5transpose F)) p' v, fid)
            /\ moveHelixTo (TP C hp rp) v false = Ok (TP C p' v, fid)
            /\ (msym C -> msym (m5mul (m5mul F C) (m5transpose F)))
            /\ (mpsd C -> mpsd (m5mul (m5mul F C) (m5transpose F))))
    /\ (forall C w i, (i = PHI0 -> Rabs (p' PHI0) < PI) -> (i = Z0 -> fid < PI) ->
         is_derive (fun t => match moveHelixTo (TP C (displaced hp w t) rp) v false with
                             | Ok (tp', _) => tp_par tp' i | _ => 0 end) 0
           (sum5 (fun j => (if idx_eq_dec i D0 then -1 else 1) * (if idx_eq_dec j D0 then -1 else 1)
                           * F i j * w j))).
Proof.
  intros hp rp v f c r H Hf K N. destruct (circle_unique _ _ _ _ _ H Hf K) as (X & Y & _). rewrite X, Y in N.
  destruct (move_jacobian hp rp v H N) as (F & p' & fid & A & B).
  exists F, p', fid. split.
  - intros C. destruct (A C) as [A1 A2]. split; [exact A1|]. split; [exact A2|].
    split; [apply congr_sym | apply congr_psd].
  - intros C w i H1 H2. generalize (B C w i H1 H2). destruct i; exact (fun x => x).
Qed.
Print Assumptions C10_covariance_transport.

(** at the circle centre the update is not finite *)
Theorem C10_covariance_at_centre : forall C hp rp v f r, hp OMEGA <> 0 -> is_helix hp rp f -> circles f v r ->
  moveHelixTo (TP C hp rp) v true = NonFin.
Proof.
  intros C hp rp v f r H Hf K. destruct (circle_unique _ _ _ _ _ H Hf K) as (X & Y & _). apply move_cov_centre; auto.
Qed.
Print Assumptions C10_covariance_at_centre.

(** C08, with or without covariance: the sign of the distance.  It is that of the
    curvature exactly if the reference point lies inside the circle. *)
Theorem C08_sign : forall tp v cm tp' fid f c r, tp_par tp OMEGA <> 0 -> is_helix (tp_par tp) (tp_ref tp) f -> circles f c r ->
  moveHelixTo tp v cm = Ok (tp', fid) ->
  tp_par tp OMEGA * tp_par tp' D0 = 1 - Rabs (tp_par tp OMEGA) * dist_xy c v
  /\ (0 < tp_par tp OMEGA * tp_par tp' D0 <-> dist_xy c v < r).
Proof.
  intros tp v cm tp' fid f c r H Hf K E. destruct (circle_unique _ _ _ _ _ H Hf K) as (X0 & Y0 & ->).
  set (dist := dist_xy c v).
  destruct (move_ok tp v H) as (p' & fi & E' & M & _).
  assert (P : tp_par tp' D0 = p' D0).
  { destruct cm; [|rewrite E' in E; injection E as <- _; reflexivity].
    destruct tp as [C hp rp]. cbn [tp_par tp_ref] in *.
    destruct (Req_dec (vx v) (calculateXCenter hp rp)) as [X|X].
    - destruct (Req_dec (vy v) (calculateYCenter hp rp)) as [Y|Y].
      + rewrite (move_cov_centre C hp rp v H X Y) in E. discriminate.
      + destruct (move_jacobian hp rp v H (or_intror Y)) as (F & q & f1 & Q & _).
        destruct (Q C) as (Q1 & Q2). rewrite Q1 in E. rewrite Q2 in E'. injection E as <- _. injection E' as <- _. reflexivity.
    - destruct (move_jacobian hp rp v H (or_introl X)) as (F & q & f1 & Q & _).
      destruct (Q C) as (Q1 & Q2). rewrite Q1 in E. rewrite Q2 in E'. injection E as <- _. injection E' as <- _. reflexivity. }
  rewrite P. assert (D : dist = crho (tp_par tp) (tp_ref tp) v).
  { unfold dist, crho, dist_xy. rewrite X0, Y0. destruct (center_eq (tp_par tp) (tp_ref tp) H) as [-> ->]. reflexivity. }
  rewrite D. rewrite (ms_d0 _ _ _ _ M). rewrite radius_eq by exact H.
  set (om := tp_par tp OMEGA) in *. set (rho := crho (tp_par tp) (tp_ref tp) v) in *.
  generalize (sg_abs om H) (sg_sq om); intros S1 S2.
  assert (V : om * (1 / om - sg om * rho) = 1 - Rabs om * rho).
  { transitivity (1 - sg om * (sg om * Rabs om) * rho).
    - rewrite S1. field. auto.
    - transitivity (1 - sg om * sg om * Rabs om * rho); [ring|]. rewrite S2. ring. }
  split; [exact V|]. rewrite V. assert (A : 0 < Rabs om) by (apply Rabs_pos_lt; auto).
  assert (Ra : Rabs (1 / om) = / Rabs om) by (unfold Rdiv; rewrite Rmult_1_l; apply Rabs_inv).
  rewrite Ra. split; intros L.
  - apply Rmult_lt_reg_l with (Rabs om); auto. rewrite Rinv_r by lra. lra.
  - apply Rmult_lt_compat_l with (r := Rabs om) in L; auto. rewrite Rinv_r in L by lra. lra.
Qed.
Print Assumptions C08_sign.

(** "The transported covariance is J C J^T for the true Jacobian J" is false. *)
Theorem C10_covariance_sign_refuted :
  exists hp rp v C tp' fid J,
    hp OMEGA <> 0
    /\ moveHelixTo (TP C hp rp) v true = Ok (tp', fid)
    /\ (forall w i,
         is_derive (fun t => match moveHelixTo (TP C (displaced hp w t) rp) v false with
                             | Ok (tp', _) => tp_par tp' i | _ => 0 end) 0
                      (sum5 (fun j => J i j * w j)))
    /\ msym C /\ mpsd C
    /\ tp_cov tp' D0 PHI0 = -1
    /\ m5mul (m5mul J C) (m5transpose J) D0 PHI0 = 1.
Proof. exact move_cov_sign_refuted. Qed.
Print Assumptions C10_covariance_sign_refuted.

(** C11.  On the reals no call of moveHelixTo runs out of fuel, and each pair
    of loops returns the equivalent angle in its interval. *)
Theorem C11_real_loops_terminate :
  (forall tp v cm, moveHelixTo tp v cm <> Diverge)
  /\ forall lo x, exists y z (k : Z),
       while_less lo x = Ok y /\ while_greater (lo + 2 * PI) y = Ok z
       /\ z = x + 2 * IZR k * PI /\ lo <= z <= lo + 2 * PI
       /\ (lo <= x <= lo + 2 * PI -> z = x).
Proof.
  split; [|exact wrap_spec].
  intros tp v cm. destruct (Req_dec (tp_par tp OMEGA) 0) as [H|H].
  - rewrite move_diverges_or_nonfin by auto. discriminate.
  - destruct (moveHelixTo_closed tp v cm H) as (p' & fid & a & b & _ & _ & _ & _ & _ & ->).
    destruct cm; [|discriminate].
    unfold rdiv. destruct (Req_EM_T _ 0); discriminate.
Qed.
Print Assumptions C11_real_loops_terminate.

(** In double precision the first two loops end exactly when |phi0| <= 2^56. *)
Theorem C11_double_loops_hang : forall phi0, is_double phi0 ->
  ((exists n z, wrap_fi0_d n phi0 = Ok z) <-> Rabs phi0 <= 2 ^ 56)
  /\ (2 ^ 56 < Rabs phi0 -> forall n, wrap_fi0_d n phi0 = Diverge).
Proof. exact wrap_double_iff. Qed.
Print Assumptions C11_double_loops_hang.

(** ** Instances *)
Example C08_instance :
  let tp := TP m5zero (mk5 (/ 100) 1 (PI / 4) 2 3) (V3 1 2 3) in
  tp_par tp OMEGA <> 0 /\ tp_par tp OMEGA * tp_par tp D0 < 1.
Proof. simpl. lra. Qed.

Example C10_instance :
  let hp := mk5 1 0 0 0 0 in
  hp OMEGA <> 0 /\ exists f c, is_helix hp v3zero f /\ circles f c 1
    /\ (vx (V3 1 (-1) 0) <> vx c \/ vy (V3 1 (-1) 0) <> vy c).
Proof.
  split; [exact w_nz|]. exists (hcurve (mk5 1 0 0 0 0) v3zero), (V3 0 (-1) 0). split; [apply hcurve_helix; exact w_nz|].
  split; [|cbn [vx]; lra]. intros s. unfold dist_xy, hcurve. cbn. rewrite sin_0, cos_0.
  match goal with |- sqrt ?e = 1 => replace e with 1; [apply sqrt_1|] end.
  generalize (sin2_cos2 (0 - s * 1)). unfold Rsqr. lra.
Qed.

Example C11_instance : is_double (2 ^ 57) /\ 2 ^ 56 < Rabs (2 ^ 57).
Proof. exact double_example. Qed.
