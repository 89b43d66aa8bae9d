(** C94: the search for the crossing with a general surface in double precision. *)
From Coq Require Import Reals ZArith List Bool Lra Lia Psatz.
From Coquelicot Require Import Coquelicot.
From Flocq Require Import Core.
From Verif Require Import SpecConst Num Vec Isect SpecIsect SurfFacts SurfFacts2 FloatWrap PointFloat PlaneFloat CylFloat NewtonFloat
  SpecRound SpecNewton SpecNewtonFloat RoundFacts PointFloatFacts SpecHelix Helix HelixFacts PropRound PropSurf NewtonFacts PropNewton NewtonFloatFacts NewtonFloatConv.
From Verif Require FloatWrapFacts.
Import ListNotations.
Open Scope R_scope.

(** Every answer, with the list of the path lengths tried without success. *)
Theorem C94_result : forall L S surf hp rp s0 mode cb b s o,
  intersectWithSurfaceNewton_d L S surf hp rp s0 mode cb = (b, (s, o)) ->
  exists l, (forall t, In t l -> misses L S hp rp t)
  /\ (((length l <= 100)%nat /\ journey L S hp rp s0 (l ++ [Some s])
       /\ exists x d, o = Some x /\ measured L S hp rp s x d /\ Rabs d < tol_d
          /\ (b = true <-> sign_ok mode s /\ (cb = true -> sf_insideBounds surf x = true)))
      \/ (length l = 101%nat /\ journey L S hp rp s0 l /\ b = false
          /\ o = finite (pointAt_d L s hp rp) /\ exists d, is_best L S hp rp s0 l s d)).
Proof.
  intros L S surf hp rp s0 mode cb b s o H. unfold intersectWithSurfaceNewton_d in H.
  assert (I := loop_inv L S hp rp s0 101 [] _ eq_refl (start_inv L S hp rp s0)). change newton_budget with 101%nat in H.
  destruct (newton_loop_d _ _ _ _ _ _) as [[s1 x]|[s1 o1]].
  - destruct I as (l & N & M & J & d & D1 & D2). injection H as <- <- <-. exists l. split; [exact M|]. left.
    split; [exact N|]. split; [exact J|]. exists x, d. split; [reflexivity|]. split; [exact D1|]. split; [exact D2|]. apply mode_bounds.
  - destruct I as (l & t & d & N & M & J & E & B). injection H as <- <- <-. exists l. split; [exact M|]. right.
    split; [exact N|]. split; [apply (journey_init L S hp rp s0 l t); [destruct l; discriminate|exact J]|]. split; [reflexivity|].
    split; [exact E|]. exists d. exact B.
Qed.
Print Assumptions C94_result.

(** the tolerance is 10^-4 cm, up to rounding *)
Theorem C94_tolerance : Rabs (tol_d - newton_tol) <= 5 * uround * newton_tol.
Proof.
  unfold tol_d, newton_tol. assert (U := u_small). replace (1 / 10) with (/ 10) by lra.
  assert (LE : forall x, / 100000 <= x -> Rabs (rnd x - x) <= (1001 / 1000) * uround * x).
  { intros x Hx. assert (E := rnd_err x). rewrite (Rabs_pos_eq x) in E by lra.
    assert (least <= uround * (/ 100000000)).
    { apply least_u400. apply Rle_trans with (bpow radix2 (-30)); [apply bpow_le; lia|]. change (bpow radix2 (-30)) with (/ 1073741824). lra. }
    nra. }
  assert (E1 := LE (/ 1000) ltac:(lra)). assert (E2 := LE (/ 10) ltac:(lra)).
  assert (P : Rabs (rnd (/ 1000) * rnd (/ 10) - / 1000 * / 10) <= 1001 / 1000 * uround * / 1000 * (1001 / 10000) + / 1000 * (1001 / 1000 * uround * / 10)).
  { apply mul_err; auto; [rewrite Rabs_pos_eq; lra|]. apply near_size in E2. rewrite (Rabs_pos_eq (/ 10)) in E2 by lra. lra. }
  set (y := rnd (/ 1000) * rnd (/ 10)) in *. apply Rabs_le_inv in P. assert (Y : / 100000 <= y) by lra. assert (E3 := LE y Y).
  assert (y <= / 9000) by lra. apply Rabs_le_inv in E3. apply Rabs_le. nra.
Qed.
Print Assumptions C94_tolerance.

(** Starting close to the surface: the answer is the start. *)
Theorem C94_start : forall L S surf hp rp s x d mode cb, measured L S hp rp s x d -> Rabs d < tol_d ->
  exists b, intersectWithSurfaceNewton_d L S surf hp rp s mode cb = (b, (s, Some x))
  /\ (b = true <-> sign_ok mode s /\ (cb = true -> sf_insideBounds surf x = true)).
Proof.
  intros L S surf hp rp s x d mode cb [P D] H. exists (mode_ok mode s && bounds surf cb x). split; [|apply mode_bounds].
  unfold intersectWithSurfaceNewton_d. rewrite P. cbn [finite]. change newton_budget with (Datatypes.S 100). cbn [newton_loop_d].
  unfold newton_step_d at 1. cbn [d_s d_xx]. rewrite D. destruct (Rlt_dec (Rabs d) newton_eps_d) as [Q|Q]; [reflexivity|].
  change newton_eps_d with tol_d in Q. lra.
Qed.
Print Assumptions C94_start.

(** a search that has lost its way stays where it is *)
Lemma lost_loop L S hp rp n : forall st, d_s st = None \/ d_xx st = None ->
  (forall alpha, newton_next_d L S hp (d_prevS st) (d_prevXX st) (d_prevDist st) alpha = None) ->
  newton_loop_d L S hp rp n st = inr (d_prevS st, d_prevXX st).
Proof.
  induction n as [|n IH]; intros st E N; [reflexivity|]. cbn [newton_loop_d].
  assert (Q : newton_step_d L S hp rp st
     = inr (DS None None (d_prevXX st) (d_prevS st) (d_prevDist st) (rnd (d_alpha st * alphaIncr_d)))).
  { unfold newton_step_d. rewrite N. destruct E as [-> | ->]; [reflexivity|]. destruct (d_s st); reflexivity. }
  rewrite Q. rewrite IH; cbn [d_s d_xx d_prevS d_prevXX d_prevDist]; auto.
Qed.

Lemma next_level L S hp s x n T dist alpha : sd_normal S x = Some n -> calculateTangent_d L s hp = Ok T -> vdot_d n T = Ok 0 ->
  newton_next_d L S hp s (Some x) dist alpha = None.
Proof.
  intros N ET EG. unfold newton_next_d. rewrite N, ET. cbn [bind]. rewrite EG. cbn [bind].
  destruct (rd (1 + alpha)); try reflexivity. cbn [bind]. rewrite Rmult_0_r.
  assert (Q : rd 0 = Ok 0).
  { unfold rd. rewrite rnd_0, Rabs_R0. destruct (Rlt_dec 0 (bpow radix2 1024)) as [C|C]; [reflexivity|]. elim C. apply bpow_gt_0. }
  rewrite Q. cbn [bind]. unfold rd_div. destruct (Req_EM_T 0 0); [reflexivity|]. congruence.
Qed.

(** Where the track runs parallel to the surface, as computed, the division by zero
    does not stop the program: it answers no after 101 passes, with the start. *)
Theorem C94_level : forall L S surf hp rp s x d n T mode cb, measured L S hp rp s x d -> tol_d <= Rabs d < 10000000000 ->
  sd_normal S x = Some n -> calculateTangent_d L s hp = Ok T -> vdot_d n T = Ok 0 ->
  intersectWithSurfaceNewton_d L S surf hp rp s mode cb = (false, (s, Some x)).
Proof.
  intros L S surf hp rp s x d n T mode cb [P D] H N ET EG.
  unfold intersectWithSurfaceNewton_d. rewrite P. cbn [finite]. change newton_budget with (Datatypes.S 100).
  set (k := 100%nat). cbn [newton_loop_d].
  unfold newton_step_d at 1. cbn [d_s d_xx d_prevDist]. rewrite D. change newton_eps_d with tol_d.
  destruct (Rlt_dec (Rabs d) tol_d) as [Q|Q]; [lra|]. rewrite (Rabs_pos_eq 10000000000) by lra.
  destruct (Rlt_dec (Rabs d) 10000000000) as [Q2|Q2]; [|lra].
  rewrite (next_level L S hp s x n T _ _ N ET EG). cbn [point_o]. rewrite lost_loop; cbn [d_s d_xx d_prevS d_prevXX d_prevDist]; auto.
  intros alpha. apply (next_level L S hp s x n T _ _ N ET EG).
Qed.
Print Assumptions C94_level.

(** A track without curvature is never found: its points are not finite. *)
Theorem C94_straight : forall L S surf hp rp s mode cb, hp OMEGA = 0 ->
  intersectWithSurfaceNewton_d L S surf hp rp s mode cb = (false, (s, None)).
Proof.
  intros L S surf hp rp s mode cb H.
  assert (P : pointAt_d L s hp rp = NonFin).
  { unfold pointAt_d, rd_div. rewrite H. destruct (Req_EM_T 0 0); [reflexivity|congruence]. }
  unfold intersectWithSurfaceNewton_d. rewrite P. cbn [finite]. rewrite lost_loop; cbn [d_s d_xx d_prevS d_prevXX d_prevDist]; auto.
Qed.
Print Assumptions C94_straight.

(** If the answer is yes, the point is close to the track, and the track is close to
    the surface: within the tolerance, the error [e] of the surface's distance and the
    error of the point. *)
Theorem C94_close : forall L S surf hp rp f s0 mode cb s o, accurate L -> is_helix hp rp f ->
  intersectWithSurfaceNewton_d L S surf hp rp s0 mode cb = (true, (s, o)) -> fit_for_double s hp rp ->
  exists x, o = Some x
  /\ Rabs (vx x - vx (f s)) <= wide s hp (vx rp) /\ Rabs (vy x - vy (f s)) <= wide s hp (vy rp) /\ Rabs (vz x - vz (f s)) <= tall s hp (vz rp)
  /\ sign_ok mode s /\ (cb = true -> sf_insideBounds surf x = true)
  /\ forall D e, (forall p q, Rabs (D p - D q) <= Rabs (vx p - vx q) + Rabs (vy p - vy q) + Rabs (vz p - vz q)) ->
     (forall d, sd_distance S x = Some d -> Rabs (d - D x) <= e) ->
     Rabs (D (f s)) < tol_d + e + wide s hp (vx rp) + wide s hp (vy rp) + tall s hp (vz rp).
Proof.
  intros L S surf hp rp f s0 mode cb s o HL Hf H HF.
  destruct (C94_result _ _ _ _ _ _ _ _ _ _ _ H) as (l & _ & [(_ & _ & x & d & -> & [P Q] & LT & B)|(_ & _ & B & _)]); [|discriminate].
  destruct (C78_pointAt L s hp rp f HL HF Hf) as (v & Rv & Ex & Ey & Ez). rewrite P in Rv. injection Rv as <-.
  exists x. split; [reflexivity|]. split; [exact Ex|]. split; [exact Ey|]. split; [exact Ez|].
  destruct (proj1 B eq_refl) as [B1 B2]. split; [exact B1|]. split; [exact B2|].
  intros D e HD He. specialize (He d Q). specialize (HD x (f s)). fold (wide s hp (vx rp)) in Ex. fold (wide s hp (vy rp)) in Ey. fold (tall s hp (vz rp)) in Ez.
  replace (D (f s)) with ((D (f s) - D x) + ((D x - d) + d)) by ring.
  eapply Rle_lt_trans; [apply Rabs_triang|]. rewrite (Rabs_minus_sym (D (f s))).
  assert (Rabs (D x - d + d) <= Rabs (D x - d) + Rabs d) by apply Rabs_triang. rewrite (Rabs_minus_sym (D x)) in H0. lra.
Qed.
Print Assumptions C94_close.

(** A cone: no, if the track misses the cylinder in its middle; otherwise the search from
    the crossing with the cylinder. *)
Theorem C94_cone : forall L at2 as_ S surf hp rp mode cb b o,
  intersectWithZCone_d L at2 as_ S surf hp rp mode cb = Ok (b, o) ->
  exists b1 o1, intersectWithZCylinder_d L at2 as_ surf hp rp mode false = Ok (b1, o1)
  /\ ((b1 = false /\ b = false /\ o = option_map (fun p => (fst p, Some (snd p))) o1)
      \/ (b1 = true /\ exists s x s' x', o1 = Some (s, x) /\ o = Some (s', x')
          /\ intersectWithSurfaceNewton_d L S surf hp rp s mode cb = (b, (s', x')))).
Proof.
  intros L at2 as_ S surf hp rp mode cb b o H. unfold intersectWithZCone_d in H.
  destruct (intersectWithZCylinder_d L at2 as_ surf hp rp mode false) as [[b1 o1]| | | |] eqn:E; try discriminate. cbn [bind] in H.
  exists b1, o1. split; [reflexivity|]. destruct b1.
  - right. split; [reflexivity|].
    destruct o1 as [[s x]|].
    + injection H as <- <-. destruct (intersectWithSurfaceNewton_d L S surf hp rp s mode cb) as [b2 [s' x']] eqn:E2.
      exists s, x, s', x'. auto.
    + exfalso. unfold intersectWithZCylinder_d in E.
      destruct (st_parallelToZ (sf_type surf)); [|discriminate]. destruct (sf_cyl surf) as [[rho c]|]; [|discriminate].
      repeat match type of E with
      | bind ?a _ = _ => destruct a; try discriminate E; cbn [bind] in E
      | (if ?c then _ else _) = _ => destruct c; try discriminate E
      | context [select_d ?m ?a ?b ?c ?d] => destruct (select_d m a b c d) as [[? ?]|]; try discriminate E
      end.
  - left. split; [reflexivity|]. destruct o1 as [[s x]|]; injection H as <- <-; auto.
Qed.
Print Assumptions C94_cone.

(** ** A search that does not move *)
(** the plane x = 512, as a surface computes it *)
Definition wall : surface_d := SurfD (fun x => Some (rnd (vx x - 512))) (fun _ => Some (V3 1 0 0)).

Lemma flat_far f : is_helix flat_hp v3zero f -> 512 < vx (f 1024).
Proof.
  intros Hf.
  assert (B70 : bpow radix2 (-70) * 1024 = bpow radix2 (-60)).
  { change 1024 with (bpow radix2 10). rewrite <- bpow_plus. reflexivity. }
  assert (B60 : 0 < bpow radix2 (-60) <= / 2).
  { split; [apply bpow_gt_0|]. apply (bpow_le radix2 (-60) (-1)). lia. }
  destruct (MVT_gen (fun t => vx (f t)) 0 1024 (fun t => cos (flat_hp PHI0 - flat_hp OMEGA * t))) as (c & Hc & Q).
    + intros a _. apply (helix_dx _ _ _ Hf).
    + intros a _. apply continuity_pt_filterlim. apply (ex_derive_continuous (fun t => vx (f t))). eexists. apply (helix_dx _ _ _ Hf).
    + rewrite Rmin_left, Rmax_right in Hc by lra. rewrite (helix_start _ _ _ Hf) in Q. cbn [vx] in Q.
      change (flat_hp PHI0) with 1 in Q. change (flat_hp OMEGA) with (bpow radix2 (-70)) in Q. change (flat_hp D0) with 0 in Q. change (vx v3zero) with 0 in Q.
      assert (C : 1 / 2 < cos (1 - bpow radix2 (-70) * c)).
      { rewrite <- cos_PI3. generalize PI2_3_2, PI_4. intros P1 P2.
        assert (0 <= bpow radix2 (-70) * c). { apply Rmult_le_pos; [apply bpow_ge_0|lra]. }
        assert (bpow radix2 (-70) * c <= bpow radix2 (-70) * 1024) by (apply Rmult_le_compat_l; [apply bpow_ge_0|lra]).
        apply cos_decreasing_1; lra. }
      lra.
Qed.

Lemma rnd_mono a b : a <= b -> rnd a <= rnd b.
Proof. intros H. apply round_le; auto with typeclass_instances. Qed.

Lemma flat_at L s v : Rabs s <= 4096 -> pointAt_d L s flat_hp v3zero = Ok v -> vx v = 0.
Proof.
  intros H P. destruct (stuck_point L s flat_hp v3zero v (proj1 moderate_1)) as [A _]; [|exact P|].
  - change (flat_hp PHI0) with 1. change (flat_hp OMEGA) with (bpow radix2 (-70)). rewrite Rabs_R1, Rmult_1_r, Rabs_mult.
    rewrite (Rabs_pos_eq (bpow radix2 (-70))) by apply bpow_ge_0.
    apply Rle_trans with (4096 * bpow radix2 (-70)); [apply Rmult_le_compat_r; [apply bpow_ge_0|exact H]|].
    change 4096 with (bpow radix2 12). rewrite <- bpow_plus. apply bpow_le. lia.
  - rewrite A. change (flat_hp D0) with 0. change (vx v3zero) with 0. rewrite Rmult_0_l, rnd_0, Rminus_0_r, !rnd_0. reflexivity.
Qed.

Lemma rd_is x y : rd x = Ok y -> y = rnd x.
Proof. unfold rd. destruct (Rlt_dec _ _); [|discriminate]. intros E. injection E; auto. Qed.

Lemma d_pow e : (-1074 <= e)%Z -> rnd (bpow radix2 e) = bpow radix2 e.
Proof. intros H. apply rnd_id. apply double_bpow. exact H. Qed.

Lemma flat_tangent L s T : accurate L -> Rabs s <= 4096 -> calculateTangent_d L s flat_hp = Ok T -> / 4 <= vx T.
Proof.
  intros (_ & HC & HA) Hs H. assert (U := u_small). assert (LU : least <= / 1000000).
  { unfold least. apply Rle_trans with (bpow radix2 (-20)); [apply bpow_le; lia|]. change (bpow radix2 (-20)) with (/ 1048576). lra. }
  unfold calculateTangent_d in H. change (flat_hp TANL) with 0 in H. change (flat_hp PHI0) with 1 in H. change (flat_hp OMEGA) with (bpow radix2 (-70)) in H.
  destruct (rd (bpow radix2 (-70) * s)) as [c| | | |] eqn:Ec; try discriminate. cbn [bind] in H.
  destruct (rd (1 - c)) as [th| | | |] eqn:Et; try discriminate. cbn [bind] in H.
  destruct (rd (m_cos L th * m_cos L (m_atan L 0))) as [t0| | | |] eqn:E0; try discriminate. cbn [bind] in H.
  destruct (rd (m_sin L th * m_cos L (m_atan L 0))) as [t1| | | |] eqn:E1; try discriminate. cbn [bind] in H. injection H as <-. cbn [vx].
  apply rd_is in Ec. apply rd_is in Et. apply rd_is in E0.
  assert (C : Rabs c <= / 1000).
  { rewrite Ec. assert (E := rnd_err (bpow radix2 (-70) * s)). apply near_size in E. rewrite Rabs_mult, (Rabs_pos_eq (bpow radix2 (-70))) in E by apply bpow_ge_0.
    assert (bpow radix2 (-70) <= / 1000000000) by (apply Rle_trans with (bpow radix2 (-30)); [apply bpow_le; lia|change (bpow radix2 (-30)) with (/ 1073741824); lra]).
    assert (bpow radix2 (-70) * Rabs s <= / 1000000000 * 4096) by (apply Rmult_le_compat; try apply bpow_ge_0; try apply Rabs_pos; lra).
    assert (0 <= bpow radix2 (-70) * Rabs s) by (apply Rmult_le_pos; [apply bpow_ge_0|apply Rabs_pos]).
    assert (uround * (bpow radix2 (-70) * Rabs s) <= / 1000000 * (/ 1000000000 * 4096)) by (apply Rmult_le_compat; lra). lra. }
  assert (T1 : Rabs (th - 1) <= / 500).
  { rewrite Et. assert (E := rnd_err (1 - c)). assert (S1 : Rabs (1 - c) <= 2) by (apply Rabs_le_inv in C; apply Rabs_le; lra).
    replace (rnd (1 - c) - 1) with ((rnd (1 - c) - (1 - c)) + (- c)) by ring. eapply Rle_trans; [apply Rabs_triang|]. rewrite Rabs_Ropp.
    assert (uround * Rabs (1 - c) <= uround * 2) by (apply Rmult_le_compat_l; lra). lra. }
  apply Rabs_le_inv in T1.
  assert (CT : 49 / 100 < cos th).
  { destruct (pre_cos_bound th 0) as [W _]; try lra. unfold cos_approx, cos_term in W. cbn [sum_f_R0 Nat.mul Nat.add pow fact INR] in W. nra. }
  destruct (HC th) as [_ E2]; [rewrite Et; apply rnd_double|].
  destruct (HA 0 double_0) as [DA EA]. rewrite atan_0, Rabs_R0, Rminus_0_r in EA.
  destruct (HC (m_atan L 0) DA) as [_ E3].
  assert (CA : 9 / 10 <= cos (m_atan L 0)).
  { set (z := m_atan L 0) in *. assert (Hz : Rabs z <= / 1000000) by lra. apply Rabs_le_inv in Hz.
    destruct (pre_cos_bound z 0) as [W _]; try lra. unfold cos_approx, cos_term in W. cbn [sum_f_R0 Nat.mul Nat.add pow fact INR] in W. nra. }
  assert (B1 := COS_bound th). assert (B2 := COS_bound (m_atan L 0)).
  assert (A1 : Rabs (cos th) <= 1) by (apply Rabs_le; lra). assert (A2 : Rabs (cos (m_atan L 0)) <= 1) by (apply Rabs_le; lra).
  assert (M1 : 48 / 100 <= m_cos L th). { apply Rabs_le_inv in E2. nra. }
  assert (M2 : 8 / 10 <= m_cos L (m_atan L 0)). { apply Rabs_le_inv in E3. nra. }
  rewrite E0. change (/ 4) with (bpow radix2 (-2)). rewrite <- (d_pow (-2)) by lia. apply rnd_mono.
  change (bpow radix2 (-2)) with (/ 4). nra.
Qed.

Lemma flat_next L x alpha s' : accurate L -> 0 <= alpha -> newton_next_d L wall flat_hp 0 (Some x) (-512) alpha = Some s' -> Rabs s' <= 4096.
Proof.
  intros HL Ha H. unfold newton_next_d in H. cbn [sd_normal wall] in H.
  destruct (calculateTangent_d L 0 flat_hp) as [T| | | |] eqn:ET; try discriminate. cbn [bind] in H.
  assert (HT := flat_tangent L 0 T HL ltac:(rewrite Rabs_R0; lra) ET).
  destruct (vdot_d (V3 1 0 0) T) as [g| | | |] eqn:EG; try discriminate. cbn [bind] in H.
  destruct (rd (1 + alpha)) as [a| | | |] eqn:EA; try discriminate. cbn [bind] in H.
  destruct (rd (a * g)) as [den| | | |] eqn:ED; try discriminate. cbn [bind] in H.
  destruct (rd_div (-512) den) as [q| | | |] eqn:EQ; try discriminate. cbn [bind] in H.
  destruct (rd (0 - q)) as [s1| | | |] eqn:ES; try discriminate. cbn in H. injection H as <-.
  assert (G : / 4 <= g).
  { unfold vdot_d in EG. cbn [vx vy vz] in EG.
    destruct (rd (1 * vx T)) as [p| | | |] eqn:G1; try discriminate. cbn [bind] in EG.
    destruct (rd (0 * vy T)) as [r| | | |] eqn:G2; try discriminate. cbn [bind] in EG.
    destruct (rd (p + r)) as [w| | | |] eqn:G3; try discriminate. cbn [bind] in EG.
    destruct (rd (0 * vz T)) as [t| | | |] eqn:G4; try discriminate. cbn [bind] in EG.
    apply rd_is in G1, G2, G3, G4, EG. rewrite Rmult_0_l, rnd_0 in G2, G4. subst r t. rewrite Rmult_1_l in G1.
    rewrite Rplus_0_r in G3, EG. change (/ 4) with (bpow radix2 (-2)). change (/ 4) with (bpow radix2 (-2)) in HT.
    rewrite EG, <- (d_pow (-2)) by lia. apply rnd_mono. rewrite G3, <- (d_pow (-2)) by lia. apply rnd_mono. rewrite G1, <- (d_pow (-2)) by lia. apply rnd_mono. exact HT. }
  apply rd_is in EA, ED, ES.
  assert (A1 : 1 <= a). { rewrite EA. change 1 with (bpow radix2 0) at 1. rewrite <- (d_pow 0) by lia. apply rnd_mono. change (bpow radix2 0) with 1. lra. }
  assert (D1 : / 4 <= den). { rewrite ED. change (/ 4) with (bpow radix2 (-2)). rewrite <- (d_pow (-2)) by lia. apply rnd_mono. change (bpow radix2 (-2)) with (/ 4). nra. }
  unfold rd_div in EQ. destruct (Req_EM_T den 0); [discriminate|]. apply rd_is in EQ.
  assert (I : 0 < / den <= 4). { split; [apply Rinv_0_lt_compat; lra|]. replace 4 with (/ / 4) by (apply Rinv_inv). apply Rinv_le_contravar; lra. }
  assert (Q1 : Rabs q <= bpow radix2 11).
  { rewrite EQ. rewrite <- (d_pow 11) by lia. apply Rabs_le. rewrite <- FloatWrapFacts.rnd_opp.
    split; apply rnd_mono; change (bpow radix2 11) with 2048; unfold Rdiv; nra. }
  rewrite ES. change 4096 with (bpow radix2 12). rewrite <- (d_pow 12) by lia. apply Rabs_le_inv in Q1. change (bpow radix2 11) with 2048 in Q1.
  apply Rabs_le. rewrite <- FloatWrapFacts.rnd_opp.
  split; apply rnd_mono; change (bpow radix2 12) with 4096; lra.
Qed.

Lemma rnd_neg512 : rnd (0 - 512) = -512.
Proof. replace (0 - 512) with (- bpow radix2 9) by (change (bpow radix2 9) with 512; lra). rewrite FloatWrapFacts.rnd_opp, (d_pow 9) by lia. change (bpow radix2 9) with 512. lra. Qed.

Lemma tol_range : / 100000 < tol_d < 1.
Proof. assert (E := C94_tolerance). unfold newton_tol in E. apply Rabs_le_inv in E. assert (U := u_small). lra. Qed.

Lemma flat_loop L x n : accurate L -> forall st, d_prevS st = 0 -> d_prevXX st = Some x -> d_prevDist st = -512 -> 0 <= d_alpha st ->
  (forall s, d_s st = Some s -> Rabs s <= 4096) -> d_xx st = point_o L (d_s st) flat_hp v3zero ->
  newton_loop_d L wall flat_hp v3zero n st = inr (0, Some x).
Proof.
  intros HL. assert (TR := tol_range). induction n as [|n IH]; intros st E1 E2 E3 E4 E5 E6; [cbn; rewrite E1, E2; reflexivity|].
  cbn [newton_loop_d].
  assert (A : 0 <= rnd (d_alpha st * alphaIncr_d)). { rewrite <- rnd_0. apply rnd_mono. unfold alphaIncr_d. lra. }
  assert (Q : exists s, newton_step_d L wall flat_hp v3zero st
     = inr (DS s (point_o L s flat_hp v3zero) (Some x) 0 (-512) (rnd (d_alpha st * alphaIncr_d)))
     /\ forall s', s = Some s' -> Rabs s' <= 4096).
  { exists (newton_next_d L wall flat_hp 0 (Some x) (-512) (rnd (d_alpha st * alphaIncr_d))). split.
    - unfold newton_step_d. rewrite E1, E2, E3. destruct (d_s st) as [s|] eqn:Es; [|reflexivity]. rewrite E6. cbn [point_o].
      destruct (pointAt_d L s flat_hp v3zero) as [v| | | |] eqn:P; cbn [finite]; try reflexivity.
      cbn [sd_distance wall]. rewrite (flat_at L s v (E5 s eq_refl) P), rnd_neg512. change newton_eps_d with tol_d.
      replace (Rabs (-512)) with 512 by (rewrite Rabs_left; lra).
      destruct (Rlt_dec 512 tol_d); [lra|]. destruct (Rlt_dec 512 512); [lra|]. reflexivity.
    - intros s' Hs'. apply (flat_next L x _ s' HL A Hs'). }
  destruct Q as (s & -> & Hs). apply IH; auto.
Qed.

(** A track of radius 2^70 crosses the plane x = 512 at an angle of about 60 degrees, and
    the search starts 512 away from it; it answers no, wherever it is asked to look. *)
Theorem C94_flat_refuted : exists hp rp f, (forall s, Rabs s <= 1024 -> is_double s -> fit_for_double s hp rp) /\ is_helix hp rp f
  /\ vx (f 0) = 0 /\ 512 < vx (f 1024) /\ forall L surf mode cb, accurate L ->
  exists x, intersectWithSurfaceNewton_d L wall surf hp rp 0 mode cb = (false, (0, Some x)) /\ vx x = 0.
Proof.
  destruct C78_pointAt_refuted as (s & hp & rp & f0 & _).
  destruct (helix_exists flat_hp v3zero) as (f & Hf). exists flat_hp, v3zero, f.
  split.
  { intros s1 H1 D1. destruct flat_fit as [_ F2 F3 F4 F5 F6]. constructor; auto. split; [exact D1|].
    eapply Rle_trans; [exact H1|]. change 1024 with (bpow radix2 10). apply bpow_le. lia. }
  split; [exact Hf|].
  assert (X0 : vx (f 0) = 0).
  { rewrite (helix_start _ _ _ Hf). cbn [vx]. change (flat_hp PHI0) with 1. change (flat_hp D0) with 0. change (vx v3zero) with 0. ring. }
  split; [exact X0|]. split; [apply flat_far; exact Hf|]. intros L surf mode cb HL.
  assert (F0 : fit_for_double 0 flat_hp v3zero) by (destruct flat_fit as [_ F2 F3 F4 F5 F6]; constructor; auto; apply moderate_0).
  destruct (C78_pointAt L 0 flat_hp v3zero f HL F0 Hf) as (x & P & _). exists x.
  assert (X : vx x = 0) by (apply (flat_at L 0 x); [rewrite Rabs_R0; lra|exact P]). split; [|exact X].
  unfold intersectWithSurfaceNewton_d. rewrite P. cbn [finite]. change newton_budget with (Datatypes.S 100). set (k := 100%nat). cbn [newton_loop_d].
  unfold newton_step_d at 1. cbn [d_s d_xx d_prevDist sd_distance wall]. rewrite X, rnd_neg512. change newton_eps_d with tol_d. assert (TR := tol_range).
  replace (Rabs (-512)) with 512 by (rewrite Rabs_left; lra). rewrite (Rabs_pos_eq 10000000000) by lra.
  destruct (Rlt_dec 512 tol_d); [lra|]. destruct (Rlt_dec 512 10000000000); [|lra].
  assert (A : 0 <= rnd (rnd (/ 10000000000) * alphaDecr_d)).
  { rewrite <- rnd_0 at 1. apply rnd_mono. assert (0 <= rnd (/ 10000000000)) by (rewrite <- rnd_0 at 1; apply rnd_mono; lra).
    assert (DE := decr_err). apply Rabs_le_inv in DE. assert (U := u_small). apply Rmult_le_pos; lra. }
  rewrite (flat_loop L x k HL); cbn [d_alpha d_s d_xx d_prevS d_prevXX d_prevDist]; auto.
  intros s' Hs'. apply (flat_next L x _ s' HL A Hs').
Qed.
Print Assumptions C94_flat_refuted.

(** ** When it gets there *)
(** The search arrives within 100 steps if the surface computes well and the steps
    overshoot by less than one, rounding included (as C68 for exact numbers).  The track
    then passes the surface within the tolerance and the error of the distance, and any
    crossing nearby is close to the path length found. *)
Theorem C94_converges : forall L S surf hp rp f I B e h d0 g M k s0 x0 dd mode cb,
  tame surf hp f I d0 g M -> faithful L S surf hp rp f I B e h g ->
  0 <= h <= / 100 -> bpow radix2 (-100) * stretch hp <= g -> d0 <= 10000000000 ->
  0 <= B -> 2 * uround * B <= / 100000000 -> 0 <= e <= / 1000000 ->
  stretch hp - 1 + bend hp d0 g M + stretch hp * (2 * h + / 100000000) + (2 * e + 2 * stretch hp * uround * B) / tol_d <= k -> k < 1 ->
  is_double s0 -> I s0 -> measured L S hp rp s0 x0 dd -> 2 * Rabs dd <= d0 -> Rabs dd * k ^ 100 < tol_d ->
  exists b s x d, intersectWithSurfaceNewton_d L S surf hp rp s0 mode cb = (b, (s, Some x))
  /\ (b = true <-> sign_ok mode s /\ (cb = true -> sf_insideBounds surf x = true))
  /\ I s /\ measured L S hp rp s x d /\ Rabs d < tol_d /\ Rabs (sf_distance surf (f s)) < tol_d + e
  /\ forall s', I s' -> sf_distance surf (f s') = 0 -> 2 * M * Rabs (s' - s) <= g -> Rabs (s' - s) < 2 * (tol_d + e) / g.
Proof.
  intros L S surf hp rp f I B e h d0 g M k s0 x0 dd mode cb T F Hh Hg Hd0 HB HB2 He Hk K1 Ds Is Mx H2 HE.
  assert (TR : / 11000 <= tol_d). { assert (E := C94_tolerance). unfold newton_tol in E. apply Rabs_le_inv in E. assert (U := u_small). lra. }
  destruct (converges L S surf hp rp f I B e h d0 g M k T F Hh Hg Hd0 (conj HB HB2) He Hk K1 TR s0 x0 dd mode cb Ds Is Mx H2 HE)
    as (s & x & d & E & _ & Is' & M' & D' & P & C).
  exists (mode_ok mode s && bounds surf cb x), s, x, d. split; [exact E|]. split; [apply mode_bounds|]. auto.
Qed.
Print Assumptions C94_converges.

(** *** A track of radius 1024 and slope one, and the plane x = 5 *)
Definition gate : surface := ex_surface disk_type None (V3 5 0 0) (V3 1 0 0) (fun x => vx x - 5).
Definition gate_d : surface_d := SurfD (fun x => Some (rnd (vx x - 5))) (fun _ => Some (V3 1 0 0)).
Definition near100 (s : R) : Prop := Rabs s <= 100.

Lemma curved_fit s : is_double s -> near100 s -> fit_for_double s curved_hp (V3 1 1 1).
Proof.
  intros D H. destruct (proj2 curved_instance) as [_ F2 F3 F4 F5 F6]. constructor; auto. split; [exact D|]. unfold near100 in H.
  eapply Rle_trans; [exact H|]. apply Rle_trans with (bpow radix2 10); [change (bpow radix2 10) with 1024; lra|apply bpow_le; lia].
Qed.

Lemma gate_angle s : near100 s -> 9 / 10 <= 1 - / 1024 * s <= 11 / 10.
Proof. intros H. apply Rabs_le_inv in H. lra. Qed.

Lemma gate_rate f s : rate gate curved_hp f s = cos (1 - / 1024 * s).
Proof. unfold rate, vdot, velocity. change (sf_normal gate (f s)) with (V3 1 0 0). cbn [vx vy vz]. change (curved_hp PHI0) with 1. change (curved_hp OMEGA) with (/ 1024). ring. Qed.

Lemma gate_rate_low s : near100 s -> 3 / 8 <= cos (1 - / 1024 * s).
Proof.
  intros H. assert (A := gate_angle s H). set (t := 1 - / 1024 * s) in *.
  destruct (pre_cos_bound t 0) as [W _]; try lra. unfold cos_approx, cos_term in W. cbn [sum_f_R0 Nat.mul Nat.add pow fact INR] in W. nra.
Qed.

Lemma gate_stretch : 1414 / 1000 <= stretch curved_hp <= 1415 / 1000.
Proof.
  unfold stretch. change (curved_hp TANL) with 1. replace (1 + 1 * 1) with 2 by ring. assert (Q := sqrt_sqrt 2 ltac:(lra)). assert (P := sqrt_pos 2). nra.
Qed.

Lemma gate_mvt f s s' : is_helix curved_hp (V3 1 1 1) f -> near100 s -> near100 s' ->
  exists c, near100 c /\ vx (f s') - vx (f s) = cos (1 - / 1024 * c) * (s' - s) /\ Rabs (c - s) <= Rabs (s' - s).
Proof.
  intros Hf H H'. destruct (MVT_gen (fun t => vx (f t)) s s' (fun t => cos (curved_hp PHI0 - curved_hp OMEGA * t))) as (c & Hc & Q).
  - intros a _. apply (helix_dx _ _ _ Hf).
  - intros a _. apply continuity_pt_filterlim. apply (ex_derive_continuous (fun t => vx (f t))). eexists. apply (helix_dx _ _ _ Hf).
  - exists c. change (curved_hp PHI0) with 1 in Q. change (curved_hp OMEGA) with (/ 1024) in Q. apply Rabs_le_inv in H, H'.
    unfold Rmin, Rmax in Hc. destruct (Rle_dec s s') as [N|N].
    + split; [apply Rabs_le; lra|]. split; [exact Q|]. rewrite !Rabs_pos_eq by lra. lra.
    + split; [apply Rabs_le; lra|]. split; [exact Q|]. rewrite !Rabs_left1 by lra. lra.
Qed.

Lemma gate_start f : is_helix curved_hp (V3 1 1 1) f -> 0 <= vx (f 0) <= 1.
Proof.
  intros Hf. rewrite (helix_start _ _ _ Hf). cbn [vx]. change (curved_hp PHI0) with 1. change (curved_hp D0) with 1.
  assert (A := SIN_bound 1). assert (0 <= sin 1) by (apply sin_ge_0; generalize PI2_3_2; lra). lra.
Qed.

Lemma gate_tame f : is_helix curved_hp (V3 1 1 1) f -> tame gate curved_hp f near100 12 (3 / 8) (/ 1024).
Proof.
  intros Hf. assert (W := gate_stretch). constructor; try lra.
  - intros s s' Is D St. change (sf_distance gate (f s)) with (vx (f s) - 5) in D.
    destruct (gate_mvt f 0 s Hf) as (c & Hc & Q & _); [unfold near100; rewrite Rabs_R0; lra|exact Is|].
    assert (C := gate_rate_low c Hc). assert (X0 := gate_start f Hf). rewrite Rminus_0_r in Q.
    assert (St2 : stretch curved_hp * 12 / (3 / 8) <= 46) by lra.
    assert (A : Rabs (cos (1 - / 1024 * c) * s) <= 17). { rewrite <- Q. apply Rabs_le_inv in D. apply Rabs_le. lra. }
    rewrite Rabs_mult, (Rabs_pos_eq (cos (1 - / 1024 * c))) in A by lra.
    assert (S0 := Rabs_pos s). assert (3 / 8 * Rabs s <= cos (1 - / 1024 * c) * Rabs s) by (apply Rmult_le_compat_r; lra).
    unfold near100. replace s' with ((s' - s) + s) by ring. eapply Rle_trans; [apply Rabs_triang|]. lra.
  - intros s Is. rewrite gate_rate. assert (C := gate_rate_low s Is). rewrite Rabs_pos_eq; lra.
  - intros s s' Is Is'. rewrite gate_rate. change (sf_distance gate (f s')) with (vx (f s') - 5). change (sf_distance gate (f s)) with (vx (f s) - 5).
    destruct (gate_mvt f s s' Hf Is Is') as (c & Hc & Q & D).
    replace (vx (f s') - 5 - (vx (f s) - 5) - cos (1 - / 1024 * s) * (s' - s)) with ((cos (1 - / 1024 * c) - cos (1 - / 1024 * s)) * (s' - s)) by lra.
    rewrite Rabs_mult. replace ((s' - s) * (s' - s)) with (Rabs (s' - s) * Rabs (s' - s)) by (rewrite <- Rabs_mult; apply Rabs_pos_eq, Rle_0_sqr).
    rewrite <- Rmult_assoc. apply Rmult_le_compat_r; [apply Rabs_pos|].
    eapply Rle_trans; [apply cos_lip|]. replace (1 - / 1024 * c - (1 - / 1024 * s)) with (- (/ 1024 * (c - s))) by ring.
    rewrite Rabs_Ropp, Rabs_mult, (Rabs_pos_eq (/ 1024)) by lra. apply Rmult_le_compat_l; lra.
Qed.

Lemma rd_small x : Rabs x <= 1000 -> rd x = Ok (rnd x).
Proof.
  intros H. apply rd_ok. eapply Rle_trans; [exact H|]. apply Rle_trans with (bpow radix2 10); [change (bpow radix2 10) with 1024; lra|apply bpow_le; lia].
Qed.

Lemma dot_x T : is_double (vx T) -> Rabs (vx T) <= 2 -> vdot_d (V3 1 0 0) T = Ok (vx T).
Proof.
  intros D H. unfold vdot_d. cbn [vx vy vz]. rewrite Rmult_1_l, !Rmult_0_l.
  rewrite (rd_small (vx T)), (rd_small 0) by (rewrite ?Rabs_R0; lra). cbn [bind]. rewrite rnd_0, (rnd_id _ D), Rplus_0_r.
  rewrite (rd_small (vx T)) by lra. cbn [bind]. rewrite (rnd_id _ D), Rplus_0_r. rewrite (rd_small (vx T)) by lra. rewrite (rnd_id _ D). reflexivity.
Qed.

Lemma gate_faithful L f : accurate L -> is_helix curved_hp (V3 1 1 1) f ->
  faithful L gate_d gate curved_hp (V3 1 1 1) f near100 100 (/ 1000000000) (/ 1000000000) (3 / 8).
Proof.
  intros HL Hf. assert (W := gate_stretch). assert (U : uround <= / 1000000000000000) by (unfold uround; lra). assert (U0 := u_small). constructor.
  - intros s H. exact H.
  - intros s H. rewrite gate_rate. assert (B := COS_bound (1 - / 1024 * s)). apply Rabs_le. lra.
  - intros s D H. assert (FD := curved_fit s D H).
    destruct (C78_pointAt L s curved_hp (V3 1 1 1) f HL FD Hf) as (x & P & Ex & _).
    destruct (tangent_err L s curved_hp HL (fd_s _ _ _ FD) (fd_hp _ _ _ FD)) as (T & ET & Tx & _).
    change (curved_hp PHI0) with 1 in *. change (curved_hp OMEGA) with (/ 1024) in *. change (curved_hp D0) with 1 in *. cbn [vx] in Ex.
    assert (SO : Rabs (/ 1024 * s) <= / 10). { rewrite Rabs_mult, (Rabs_pos_eq (/ 1024)) by lra. unfold near100 in H. lra. }
    rewrite Rabs_R1 in *. rewrite (Rabs_pos_eq (/ 1024)) in Ex by lra.
    replace ((1 + 1 + Rabs (/ 1024 * s)) / / 1024) with (1024 * (2 + Rabs (/ 1024 * s))) in Ex by (field).
    assert (TI : tiny <= / 1000000000000).
    { unfold tiny. apply Rle_trans with (bpow radix2 (-50)); [apply bpow_le; lia|]. change (bpow radix2 (-50)) with (/ 1125899906842624). lra. }
    assert (S0 := Rabs_pos (/ 1024 * s)).
    assert (EX : Rabs (vx x - vx (f s)) <= / 10000000000).
    { eapply Rle_trans; [exact Ex|]. assert (uround * (1 + 1 + 1024 * (2 + Rabs (/ 1024 * s))) <= / 1000000000000000 * 2200) by (apply Rmult_le_compat; lra). lra. }
    assert (VT : vx (calculateTangent s curved_hp) = cos (1 - / 1024 * s) / stretch curved_hp).
    { unfold calculateTangent, calculateCurvature, calculatePhi0, calculateLambda, calculateTanLambda, stretch. cbn [vx].
      change (curved_hp PHI0) with 1. change (curved_hp OMEGA) with (/ 1024). change (curved_hp TANL) with 1. rewrite cos_atan. unfold Rsqr, Rdiv. f_equal. field. apply Rgt_not_eq, sqrt_lt_R0. lra. }
    assert (TX : Rabs (vx T - cos (1 - / 1024 * s) / stretch curved_hp) <= / 10000000000000).
    { rewrite <- VT. eapply Rle_trans; [exact Tx|]. assert (uround * (1 + 1 + Rabs (/ 1024 * s)) <= / 1000000000000000 * 3) by (apply Rmult_le_compat; lra). lra. }
    assert (CB : Rabs (cos (1 - / 1024 * s) / stretch curved_hp) <= 1).
    { assert (B := COS_bound (1 - / 1024 * s)). unfold Rdiv. rewrite Rabs_mult. assert (0 < / stretch curved_hp <= 1).
      { split; [apply Rinv_0_lt_compat; lra|]. rewrite <- Rinv_1. apply Rinv_le_contravar; lra. }
      rewrite (Rabs_pos_eq (/ stretch curved_hp)) by lra. assert (Rabs (cos (1 - / 1024 * s)) <= 1) by (apply Rabs_le; lra).
      assert (Rabs (cos (1 - / 1024 * s)) * / stretch curved_hp <= 1 * 1) by (apply Rmult_le_compat; try apply Rabs_pos; lra). lra. }
    assert (DT : is_double (vx T)).
    { unfold calculateTangent_d in ET. repeat match type of ET with bind (rd ?a) _ = _ => let E := fresh in destruct (rd a) eqn:E; try discriminate ET; cbn [bind] in ET; apply rd_spec in E end.
      injection ET as <-. cbn [vx]. subst. apply rnd_double. }
    exists x, (rnd (vx x - 5)), (V3 1 0 0), T, (vx T). split; [split; [exact P|reflexivity]|].
    split; [|split; [reflexivity|split; [exact ET|split; [apply dot_x; [exact DT|apply near_size in TX; lra]|]]]].
    + change (sf_distance gate (f s)) with (vx (f s) - 5).
      destruct (gate_mvt f 0 s Hf) as (c & Hc & Q & _); [unfold near100; rewrite Rabs_R0; lra|exact H|]. assert (X0 := gate_start f Hf). rewrite Rminus_0_r in Q.
      assert (VX : Rabs (vx (f s) - 5) <= 200).
      { replace (vx (f s) - 5) with ((vx (f 0) - 5) + cos (1 - / 1024 * c) * s) by lra. eapply Rle_trans; [apply Rabs_triang|]. rewrite Rabs_mult.
        assert (Rabs (cos (1 - / 1024 * c)) <= 1) by (assert (B := COS_bound (1 - / 1024 * c)); apply Rabs_le; lra).
        assert (Rabs (vx (f 0) - 5) <= 5) by (apply Rabs_le; lra). unfold near100 in H.
        assert (Rabs (cos (1 - / 1024 * c)) * Rabs s <= 1 * 100) by (apply Rmult_le_compat; try apply Rabs_pos; lra). lra. }
      assert (E1 : Rabs (vx x - 5 - (vx (f s) - 5)) <= / 10000000000) by (replace (vx x - 5 - (vx (f s) - 5)) with (vx x - vx (f s)) by ring; exact EX).
      assert (E2 := rnd_step _ _ _ E1). eapply Rle_trans; [exact E2|].
      assert (uround * Rabs (vx (f s) - 5) <= / 1000000000000000 * 200) by (apply Rmult_le_compat; try apply Rabs_pos; lra).
      assert (least <= / 1000000000000).
      { unfold least. apply Rle_trans with (bpow radix2 (-50)); [apply bpow_le; lia|]. change (bpow radix2 (-50)) with (/ 1125899906842624). lra. }
      lra.
    + rewrite gate_rate. eapply Rle_trans; [exact TX|].
      assert (/ 2 <= / stretch curved_hp) by (apply Rinv_le_contravar; lra). unfold Rdiv. lra.
Qed.

(** It is found, and the track is within 1/9000 cm of the plane there. *)
Example C94_ex : exists f s x, is_helix curved_hp (V3 1 1 1) f
  /\ intersectWithSurfaceNewton_d best gate_d gate curved_hp (V3 1 1 1) 0 0 true = (true, (s, Some x))
  /\ Rabs s <= 100 /\ Rabs (vx (f s) - 5) < / 9000.
Proof.
  destruct (helix_exists curved_hp (V3 1 1 1)) as (f & Hf). assert (HL := best_accurate).
  assert (T := gate_tame f Hf). assert (F := gate_faithful best f HL Hf). assert (W := gate_stretch).
  assert (U : 0 < uround <= / 1000000000000000) by (unfold uround; lra).
  assert (TR : / 11000 <= tol_d <= / 9900). { assert (E := C94_tolerance). unfold newton_tol in E. apply Rabs_le_inv in E. lra. }
  assert (N0 : near100 0) by (unfold near100; rewrite Rabs_R0; lra).
  destruct (fa_here _ _ _ _ _ _ _ _ _ _ _ F 0 double_0 N0) as (x0 & dd & _ & _ & _ & Mx & Ed & _).
  assert (X0 := gate_start f Hf). change (sf_distance gate (f 0)) with (vx (f 0) - 5) in Ed.
  assert (DD : Rabs dd <= 51 / 10). { apply near_size in Ed. assert (Rabs (vx (f 0) - 5) <= 5) by (apply Rabs_le; lra). lra. }
  destruct (C94_converges best gate_d gate curved_hp (V3 1 1 1) f near100 100 (/ 1000000000) (/ 1000000000) 12 (3 / 8) (/ 1024) (7 / 10) 0 x0 dd 0 true)
    as (b & s & x & d & E & B & Is & _ & _ & P & _); auto; try lra.
  - apply Rle_trans with (bpow radix2 (-10) * stretch curved_hp); [apply Rmult_le_compat_r; [lra|apply bpow_le; lia]|]. change (bpow radix2 (-10)) with (/ 1024). lra.
  - assert (BE : bend curved_hp 12 (3 / 8) (/ 1024) <= 17 / 100).
    { unfold bend, stretch. change (curved_hp TANL) with 1. rewrite sqrt_sqrt by lra.
      replace (/ 1024 * 12 * (1 + 1 * 1) / (3 / 8 * (3 / 8))) with (1 / 6) by field. lra. }
    assert (NO : (2 * / 1000000000 + 2 * stretch curved_hp * uround * 100) / tol_d <= / 1000).
    { apply Rmult_le_reg_r with tol_d; [lra|]. unfold Rdiv. rewrite Rmult_assoc, Rinv_l, Rmult_1_r by lra.
      assert (stretch curved_hp * uround <= 2 * / 1000000000000000) by (apply Rmult_le_compat; lra). lra. }
    lra.
  - exact double_0.
  - exists f, s, x. split; [exact Hf|]. split; [|split; [exact Is|]].
    + rewrite E. rewrite (proj2 B); [reflexivity|]. split; [split; lia|reflexivity].
    + change (sf_distance gate (f s)) with (vx (f s) - 5) in P. lra.
Qed.
